(** Printed floats have as few digits as possible, and are as close as possible with these. *)
From Coq Require Import Ascii String ZArith QArith Qabs Qpower NArith Bool Lia Lqa.
From Coq Require Import Floats.SpecFloat.
From Coq Require Import List.
From Verif Require Import Res BMap Str Num NumParse Fmt FmtProofs SpecNear NearProofs SpecShow SpecParse ShowProofs
  NumParseProofs SpecShown FloatShowProofs.
Import ListNotations.
Local Open Scope Z_scope.

Definition gnum (p e : Z) : Z := if 0 <=? e then p else p * 10 ^ (- e).
Definition gden (q e : Z) : Z := if 0 <=? e then q * 10 ^ e else q.
Lemma grid_pos p q e : 0 < p -> 0 < q -> 0 < gnum p e /\ 0 < gden q e.
Proof.
  intros P Q. unfold gnum, gden. destruct (Z.leb_spec 0 e).
  - assert (0 < 10 ^ e) by (apply Z.pow_pos_nonneg; lia). nia.
  - assert (0 < 10 ^ (- e)) by (apply Z.pow_pos_nonneg; lia). nia.
Qed.

(** The search stops at the first grid on which a neighbour will do, and takes the nearer. *)
Lemma shortest_best (is_it : Z -> Z -> bool) p q k10 f : forall n j, 0 < p -> 0 < q -> (j < f)%nat ->
  (let e := k10 - (n + Z.of_nat j) + 1 in
   is_it (gnum p e / gden q e) e = true \/ is_it (gnum p e / gden q e + 1) e = true) ->
  let '(d, e) := shortest f p q k10 n is_it in
  exists N, n <= N /\ e = k10 - N + 1 /\ is_it d e = true /\
    (forall i, n <= i < N -> let e := k10 - i + 1 in
       is_it (gnum p e / gden q e) e = false /\ is_it (gnum p e / gden q e + 1) e = false) /\
    ((d = gnum p e / gden q e /\
        (is_it (d + 1) e = true -> 2 * (gnum p e mod gden q e) < gden q e)) \/
     (d = gnum p e / gden q e + 1 /\
        (is_it (d - 1) e = true -> gden q e <= 2 * (gnum p e mod gden q e)))).
Proof.
  induction f as [|f IH]; intros n j P Q J H; [lia|]. cbn [shortest].
  set (e := k10 - n + 1).
  assert (Sp : (if 0 <=? e then (p, q * 10 ^ e) else (p * 10 ^ (- e), q)) = (gnum p e, gden q e))
    by (unfold gnum, gden; destruct (0 <=? e); reflexivity).
  rewrite Sp. assert (A := grid_pos p q e P Q).
  assert (Dv : (gnum p e / gden q e, gnum p e mod gden q e) = Z.div_eucl (gnum p e) (gden q e))
    by (unfold Z.div, Z.modulo; destruct (Z.div_eucl (gnum p e) (gden q e)); reflexivity).
  rewrite <- Dv.
  set (lo := gnum p e / gden q e) in *. set (r := gnum p e mod gden q e) in *.
  destruct (is_it lo e) eqn:I1, (is_it (lo + 1) e) eqn:I2.
  - destruct (Z.ltb_spec (2 * r) (gden q e)); exists n; (split; [lia|]); (split; [reflexivity|]); (split; [assumption|]);
      (split; [intros; lia|]); [left|right]; split; auto.
  - exists n. split; [lia|]. split; [reflexivity|]. split; [exact I1|]. split; [intros; lia|]. left. split; auto. congruence.
  - exists n. split; [lia|]. split; [reflexivity|]. split; [exact I2|]. split; [intros; lia|]. right. split; auto.
    replace (lo + 1 - 1) with lo by lia. congruence.
  - destruct j as [|j].
    + exfalso. replace (k10 - (n + Z.of_nat 0) + 1) with e in H by (unfold e; lia). cbn zeta in H. fold lo in H.
      rewrite I1, I2 in H. destruct H; discriminate.
    + specialize (IH (n + 1) j P Q ltac:(lia)).
      replace (k10 - (n + 1 + Z.of_nat j) + 1) with (k10 - (n + Z.of_nat (S j)) + 1) in IH by lia. specialize (IH H).
      destruct (shortest f p q k10 (n + 1) is_it) as [d e']. destruct IH as (N & LN & E & I & B & C).
      exists N. split; [lia|]. split; [exact E|]. split; [exact I|]. split; [|exact C].
      intros i Hi. destruct (Z.eq_dec i n) as [->|Ni]; [cbn zeta; fold e; fold lo; auto|]. apply B. lia.
Qed.

(** ** What rounds to a number is an interval *)
Lemma between_rounds m e u t : canonical 53 1024 (S754_finite false m e) ->
  rounds_to 53 1024 false u (S754_finite false m e) ->
  let x := (inject_Z (Zpos m) * two_to e)%Q in
  ((u <= t /\ t <= x) \/ (x <= t /\ t <= u))%Q ->
  rounds_to 53 1024 false t (S754_finite false m e).
Proof.
  intros C R x B. cbn [rounds_to fvalue signed] in *. fold x in R |- *.
  destruct R as (_ & TL & M & E & F & NV). split; [reflexivity|].
  assert (P := pw_pos e). assert (M1 : 1 <= Zpos m) by lia. apply iZ_le in M1. change (inject_Z 1) with 1%Q in M1.
  assert (X0 : (0 < x)%Q) by (unfold x; nra).
  assert (U0 : (0 < u)%Q).
  { destruct (NV 0%Q) as [N _].
    - exists 0, e. split; [reflexivity|]. split; [exact E|]. ring.
    - destruct (Qlt_le_dec 0 u) as [L|L]; [exact L|]. exfalso. revert N.
      rewrite (Qabs_pos (x - u)) by lra. rewrite (Qabs_pos (0 - u)) by lra. lra. }
  split; [|split; [exact M|split; [exact E|split; [exact F|]]]].
  - unfold too_large in *. intros T. destruct B as [[B1 B2]|[B1 B2]].
    + (* t below x: x itself is no larger than the largest number *)
      assert (S := close_rounds m e x 0 C). 
      assert (Z : rounds_to 53 1024 false x (S754_finite false m e)).
      { apply S; [fold x; lra|]. fold x. setoid_replace (x - x)%Q with 0%Q by ring. change (Qabs 0) with 0%Q. lra. }
      cbn [rounds_to] in Z. destruct Z as (_ & Z & _). apply Z. unfold too_large.
      rewrite (Qabs_pos t) in T by lra. rewrite (Qabs_pos x) by lra. lra.
    + apply TL. rewrite (Qabs_pos t) in T by lra. rewrite (Qabs_pos u) by lra. lra.
  - intros w Rw. destruct (NV w Rw) as [N1 N2].
    destruct B as [[B1 B2]|[B1 B2]].
    + rewrite (Qabs_pos (x - u)) in N1, N2 by lra. rewrite (Qabs_pos (x - t)) by lra.
      destruct (Qabs_cases (w - u)) as [[A1 A2]|[A1 A2]]; rewrite A2 in N1, N2;
      destruct (Qabs_cases (w - t)) as [[A3 A4]|[A3 A4]]; rewrite A4; split; try lra; intros Nw Ew.
      all: first [exfalso; lra|exfalso; apply Nw; lra|apply N2; [exact Nw|lra]].
    + rewrite (Qabs_neg (x - u)) in N1, N2 by lra. rewrite (Qabs_neg (x - t)) by lra.
      destruct (Qabs_cases (w - u)) as [[A1 A2]|[A1 A2]]; rewrite A2 in N1, N2;
      destruct (Qabs_cases (w - t)) as [[A3 A4]|[A3 A4]]; rewrite A4; split; try lra; intros Nw Ew.
      all: first [exfalso; lra|exfalso; apply Nw; lra|apply N2; [exact Nw|lra]].
Qed.

(** ** The neighbours on a grid *)
Lemma grid_eq p q e (x : Q) : 0 < p -> 0 < q -> (inject_Z p == x * inject_Z q)%Q ->
  (inject_Z (gnum p e) * (10 # 1) ^ e == x * inject_Z (gden q e))%Q.
Proof.
  intros P Q X. unfold gnum, gden. destruct (Z.leb_spec 0 e) as [G|G].
  - rewrite inject_Z_mult, tens_Z, X by exact G. ring.
  - rewrite inject_Z_mult, <- X. assert (N := ten_neg (- e) ltac:(lia)). replace (- - e) with e in N by lia.
    rewrite <- Qmult_assoc, (Qmult_comm (inject_Z (10 ^ (- e)))), N. ring.
Qed.
Lemma neighbours (x : Q) a b (g : Q) : (0 < g)%Q -> 0 < b -> (inject_Z a * g == x * inject_Z b)%Q ->
  let lo := inject_Z (a / b) in
  (x == lo * g + inject_Z (a mod b) * g / inject_Z b)%Q /\ (lo * g <= x)%Q /\ (x < (lo + 1) * g)%Q.
Proof.
  intros G B AB lo. assert (Dm := Z.div_mod a b ltac:(lia)). assert (Md := Z.mod_pos_bound a b B).
  assert (b0 := iZ_lt _ _ B). change (inject_Z 0) with 0%Q in b0.
  rewrite Dm, inject_Z_plus, inject_Z_mult in AB. fold lo in AB.
  destruct Md as [M1 M2]. apply iZ_le in M1. apply iZ_lt in M2. change (inject_Z 0) with 0%Q in M1.
  set (v := inject_Z (a mod b)) in *. set (w := inject_Z b) in *. clearbody v w lo. clear - AB G b0 M1 M2.
  assert (Ex : (x == lo * g + v * g / w)%Q) by (apply (Qmult_inj_r _ _ w); [lra|]; rewrite <- AB; field; lra).
  assert (Y0 : (0 <= v * g / w)%Q) by (apply Qle_shift_div_l; [assumption|nra]).
  assert (Y1 : (v * g / w < g)%Q) by (apply Qlt_shift_div_r; [assumption|nra]).
  split; [exact Ex|]. split; lra.
Qed.
Lemma ten_le a b : a <= b -> ((10 # 1) ^ a <= (10 # 1) ^ b)%Q.
Proof.
  intros L. replace b with (a + (b - a)) by lia. rewrite ten_add. assert (A := ten_pos a).
  rewrite (tens_Z (b - a)) by lia. assert (P : 0 < 10 ^ (b - a)) by (apply Z.pow_pos_nonneg; lia).
  assert (P1 : 1 <= 10 ^ (b - a)) by lia. apply iZ_le in P1. change (inject_Z 1) with 1%Q in P1. nra.
Qed.
Lemma on_grid m e E : E <= e -> exists c, (inject_Z m * (10 # 1) ^ e == inject_Z c * (10 # 1) ^ E)%Q.
Proof.
  intros L. exists (m * 10 ^ (e - E)). rewrite inject_Z_mult, <- tens_Z by lia.
  rewrite <- Qmult_assoc, <- ten_add. replace (e - E + E) with e by lia. reflexivity.
Qed.
Lemma nearest_on_grid (x w lo : Q) c k n m e : ((10 # 1) ^ k <= x)%Q -> (0 < w)%Q ->
  lo = inject_Z c -> (lo * (10 # 1) ^ (k - n + 1) <= x)%Q -> (x < (lo + 1) * (10 # 1) ^ (k - n + 1))%Q ->
  Z.abs m < 10 ^ n -> (w == inject_Z m * (10 # 1) ^ e)%Q ->
  1 <= n /\ ((w <= x)%Q -> (w <= lo * (10 # 1) ^ (k - n + 1))%Q) /\
  ((x < w)%Q -> ((lo + 1) * (10 # 1) ^ (k - n + 1) <= w)%Q).
Proof.
  intros K W0 L L1 L2 M W. set (E := k - n + 1) in *. assert (g0 := ten_pos E).
  assert (M1 : 1 <= m).
  { destruct (Z_le_gt_dec m 0) as [Z|Z]; [|lia]. exfalso. apply iZ_le in Z. change (inject_Z 0) with 0%Q in Z.
    assert (P := ten_pos e). nra. }
  assert (N1 : 1 <= n).
  { destruct (Z_le_gt_dec n 0) as [Z|Z]; [|lia]. exfalso. destruct (Z.eq_dec n 0) as [->|NZ].
    - change (10 ^ 0) with 1 in M. lia.
    - rewrite Z.pow_neg_r in M by lia. lia. }
  split; [exact N1|].
  assert (Mult : forall z, (inject_Z z * (10 # 1) ^ E <= x)%Q -> (inject_Z z * (10 # 1) ^ E <= lo * (10 # 1) ^ E)%Q).
  { intros z Hz. assert (Lt : (inject_Z z < lo + 1)%Q) by nra. subst lo.
    change 1%Q with (inject_Z 1) in Lt. rewrite <- inject_Z_plus, <- Zlt_Qlt in Lt.
    assert (Le : z <= c) by lia. apply iZ_le in Le. nra. }
  destruct (Z_le_gt_dec E e) as [Ge|Lt].
  - destruct (on_grid m e E Ge) as [z Hz]. rewrite W, Hz. split; [apply Mult|].
    intros Gt. assert (Lt : (lo < inject_Z z)%Q) by nra. subst lo. rewrite <- Zlt_Qlt in Lt.
    assert (Le : c + 1 <= z) by lia. apply iZ_le in Le. rewrite inject_Z_plus in Le.
    change (inject_Z 1) with 1%Q in Le. nra.
  - assert (Small : (w < (10 # 1) ^ k)%Q).
    { rewrite W. apply (Qlt_le_trans _ (inject_Z (10 ^ n) * (10 # 1) ^ e)).
      - assert (P := ten_pos e). assert (Mn : m < 10 ^ n) by lia. apply iZ_lt in Mn. nra.
      - rewrite <- tens_Z by lia. rewrite <- ten_add. apply ten_le. unfold E in Lt. lia. }
    split; [|intros; exfalso; lra]. intros _.
    destruct (on_grid 1 k E ltac:(unfold E; lia)) as [z Hz]. change (inject_Z 1) with 1%Q in Hz.
    rewrite Qmult_1_l in Hz. assert (H := Mult z ltac:(rewrite <- Hz; exact K)). rewrite <- Hz in H. lra.
Qed.

(** ** The search finds the best decimal *)
Lemma search_best m e : canonical 53 1024 (S754_finite false m e) ->
  let x := (inject_Z (Zpos m) * two_to e)%Q in
  let '(p, q) := fraction m e in
  let '(d, k) := shortest 17 p q (pow10_floor p q) 1
    (fun d k => sf_same (decimal_to_float f64_prec f64_emax false d k) (S754_finite false m e)) in
  exists N, in_digits N (decimal_value false d k) /\
    forall n w, in_digits n w -> rounds_to 53 1024 false w (S754_finite false m e) ->
      N <= n /\ (n = N -> (Qabs (decimal_value false d k - x) <= Qabs (w - x))%Q).
Proof.
  intros C x. assert (F := fraction_spec m e). assert (Hit := search_hit m e C). assert (FL := floor_spec m e C).
  destruct (fraction m e) as [p q]. destruct F as (P & Q & R & _). cbn zeta in FL. fold x in R, FL. destruct FL as [FL1 FL2].
  set (k10 := pow10_floor p q) in *.
  set (is_it := fun d k => sf_same (decimal_to_float f64_prec f64_emax false d k) (S754_finite false m e)) in *.
  assert (H := shortest_best is_it p q k10 17 1 16 P Q ltac:(lia) Hit).
  destruct (shortest 17 p q k10 1 is_it) as [d k]. destruct H as (N & N1 & K & I & B & Ch).
  assert (X : (inject_Z p == x * inject_Z q)%Q).
  { rewrite <- R. unfold ratio. field. apply iZ_lt in Q. change (inject_Z 0) with 0%Q in Q. lra. }
  assert (Nb := fun i => neighbours x (gnum p i) (gden q i) ((10 # 1) ^ i) (ten_pos i)
    (proj2 (grid_pos p q i P Q)) (grid_eq p q i x P Q X)). cbn zeta in Nb.
  assert (X0 : (0 < x)%Q) by (assert (T := ten_pos k10); lra).
  assert (Yes : forall c E, 0 <= c -> rounds_to 53 1024 false (inject_Z c * (10 # 1) ^ E)%Q (S754_finite false m e) ->
    is_it c E = true).
  { intros c E C0 V. unfold is_it.
    assert (Eq : S754_finite false m e = decimal_to_float 53 1024 false c E)
      by (apply (decimal_converted 53 1024 false c E _ ok_double C0); exact V).
    change f64_prec with 53. change f64_emax with 1024. rewrite <- Eq. apply sf_same_refl. }
  assert (Lo0 : forall i, 0 <= gnum p i / gden q i).
  { intros i. destruct (grid_pos p q i P Q). apply Z.div_pos; lia. }
  exists N. unfold decimal_value. cbn [signed]. split.
  - (* the digits *)
    destruct (Nb k) as (_ & L1 & _). set (lo := gnum p k / gden q k) in *.
    assert (LoN : lo < 10 ^ N).
    { rewrite Zlt_Qlt, <- tens_Z by lia. assert (T := ten_pos k).
      replace (k10 + 1) with (N + k) in FL2 by lia. rewrite ten_add in FL2. nra. }
    assert (D : d = lo \/ d = lo + 1) by tauto. assert (L0 := Lo0 k). fold lo in L0.
    destruct (Z.eq_dec d (10 ^ N)) as [Full|Nf].
    + exists 1, (N + k). split; [|rewrite Full, (ten_add N k), (tens_Z N) by lia; change (inject_Z 1) with 1%Q; ring].
      change (Z.abs 1) with (10 ^ 0). apply Z.pow_lt_mono_r; lia.
    + exists d, k. split; [|reflexivity]. lia.
  - intros n w (m' & e' & M & W) Rw.
    assert (W0 : (0 < w)%Q).
    { cbn [rounds_to fvalue signed] in Rw. fold x in Rw. destruct Rw as (_ & _ & _ & E & _ & NV).
      destruct (NV 0%Q) as [N0 _].
      - exists 0, e. split; [reflexivity|]. split; [exact E|]. ring.
      - destruct (Qlt_le_dec 0 w) as [L|L]; [exact L|]. exfalso. revert N0.
        rewrite (Qabs_pos (x - w)) by lra. rewrite (Qabs_pos (0 - w)) by lra. lra. }
    set (E := k10 - n + 1). destruct (Nb E) as (Ex & L1 & L2).
    destruct (nearest_on_grid x w _ _ k10 n m' e' FL1 W0 eq_refl L1 L2 M W) as (n1 & Low & High). fold E in Low, High.
    set (lo := gnum p E / gden q E) in *. assert (L0 := Lo0 E). fold lo in L0.
    (* one of the neighbours will do, and is as near *)
    assert (Near : (is_it lo E = true /\ Qabs (inject_Z lo * (10 # 1) ^ E - x) <= Qabs (w - x))%Q \/
                   (is_it (lo + 1) E = true /\ (Qabs (inject_Z (lo + 1) * (10 # 1) ^ E - x) <= Qabs (w - x))%Q)).
    { destruct (Qlt_le_dec x w) as [Gt|Le].
      - right. specialize (High Gt).
        assert (I1 : (inject_Z (lo + 1) == inject_Z lo + 1)%Q) by (rewrite inject_Z_plus; reflexivity).
        split.
        + apply Yes; [lia|]. apply (between_rounds m e w); [exact C|exact Rw|]. fold x. right.
          rewrite I1. split; [lra|exact High].
        + rewrite I1, (Qabs_pos (w - x)) by lra. rewrite Qabs_pos by lra. lra.
      - left. specialize (Low Le). split.
        + apply Yes; [lia|]. apply (between_rounds m e w); [exact C|exact Rw|]. fold x. left. split; [exact Low|lra].
        + rewrite (Qabs_neg (w - x)) by lra. rewrite Qabs_neg by lra. lra. }
    split.
    + destruct (Z_le_gt_dec N n) as [|Gt]; [assumption|]. exfalso.
      destruct (B n ltac:(lia)) as [B1 B2]. fold E in B1, B2. fold lo in B1, B2.
      destruct Near as [[A _]|[A _]]; congruence.
    + intros ->. assert (Ek : E = k) by (rewrite K; reflexivity). subst lo. rewrite Ek in *. clear Ek E. set (lo := gnum p k / gden q k) in *.
      set (r := gnum p k mod gden q k) in *. set (b := gden q k) in *.
      destruct (grid_pos p q k P Q) as [_ Bp]. fold b in Bp. apply iZ_lt in Bp as b0. change (inject_Z 0) with 0%Q in b0.
      assert (g0 := ten_pos k). set (g := ((10 # 1) ^ k)%Q) in *.
      set (y := (inject_Z r * g / inject_Z b)%Q) in *.
      assert (D1 : (Qabs (inject_Z lo * g - x) == y)%Q).
      { rewrite Qabs_neg by lra. lra. }
      assert (D2 : (Qabs (inject_Z (lo + 1) * g - x) == g - y)%Q).
      { assert (I1 : (inject_Z (lo + 1) == inject_Z lo + 1)%Q) by (rewrite inject_Z_plus; reflexivity).
        rewrite I1, Qabs_pos by lra. lra. }
      destruct Ch as [[-> Ch]|[-> Ch]].
      * destruct Near as [[_ A]|[A A']]; [exact A|]. specialize (Ch A). apply iZ_lt in Ch. rewrite inject_Z_mult in Ch.
        change (inject_Z 2) with 2%Q in Ch.
        assert (Y : (y <= g * (1 # 2))%Q) by (unfold y; apply Qle_shift_div_r; [assumption|nra]). rewrite D1. rewrite D2 in A'. lra.
      * destruct Near as [[A A']|[_ A]]; [|exact A]. replace (lo + 1 - 1) with lo in Ch by lia. specialize (Ch A).
        apply iZ_le in Ch. rewrite inject_Z_mult in Ch. change (inject_Z 2) with 2%Q in Ch.
        assert (Y : (g * (1 # 2) <= y)%Q) by (unfold y; apply Qle_shift_div_l; [assumption|nra]). rewrite D2. rewrite D1 in A'. lra.
Qed.

Lemma opp_digits n v : in_digits n v -> in_digits n (- v)%Q.
Proof.
  intros (m & e & M & E). exists (- m), e. split; [rewrite Z.abs_opp; exact M|]. rewrite E, inject_Z_opp. ring.
Qed.
Lemma digits_wd n v w : (v == w)%Q -> in_digits n v -> in_digits n w.
Proof. intros E (m & e & M & H). exists m, e. split; [exact M|]. rewrite <- E. exact H. Qed.
Lemma signed_twice s v : (signed s (signed s v) == v)%Q.
Proof. destruct s; cbn [signed]; ring. Qed.
Lemma signed_rounds s w m e : rounds_to 53 1024 s w (S754_finite s m e) ->
  rounds_to 53 1024 false (signed s w) (S754_finite false m e).
Proof.
  cbn [rounds_to]. intros (_ & T & M & E & F & N). split; [reflexivity|].
  split; [rewrite too_large_signed; exact T|]. split; [exact M|]. split; [exact E|]. split; [exact F|].
  assert (H := nearest_signed _ _ s _ _ _ N). cbn [fvalue] in *. destruct s; cbn [signed] in *; [|exact H].
  intros v Rv. destruct (H v Rv) as [A B].
  assert (Z : (- - (inject_Z (Z.pos m) * two_to e) == inject_Z (Z.pos m) * two_to e)%Q) by ring.
  rewrite Z in A, B. auto.
Qed.

Theorem float_shortest x : valid_binary 53 1024 x = true ->
  match x with S754_finite _ _ _ | S754_zero _ => True | _ => False end ->
  exists neg m e n, decimal_text (fmt_f64 x) neg m e /\ rounds_to 53 1024 neg (decimal_value neg m e) x /\
    in_digits n (decimal_value neg m e) /\
    forall n' w, in_digits n' w -> rounds_to 53 1024 neg w x ->
      n <= n' /\ (n' = n -> (Qabs (decimal_value neg m e - fvalue x) <= Qabs (w - fvalue x))%Q).
Proof.
  intros V Fi. destruct x as [s|s| |s m e]; try contradiction.
  - exists s, 0, 0, 0. split; [|split; [|split]].
    + assert (M : mantissa_text (lit "0") 0 0) by (apply (mt_whole (lit "0")); [discriminate|repeat constructor; discriminate]).
      change (decimal_text ((if s then [ch "-"] else []) ++ lit "0" ++ []) s 0 (0 - 0)).
      apply (dt_intro _ s (lit "0") 0 0 [] 0); [destruct s; constructor|exact M|constructor].
    + apply (decimal_converted 53 1024 s 0 0 _ ok_double); [lia|reflexivity].
    + exists 0, 0. split; [reflexivity|]. destruct s; reflexivity.
    + intros n' w (m' & e' & M & _) _. split.
      * destruct (Z_le_gt_dec 0 n') as [|G]; [assumption|]. rewrite Z.pow_neg_r in M by lia. lia.
      * intros _. assert (Z : (decimal_value s 0 0 - fvalue (S754_zero s) == 0)%Q) by (destruct s; reflexivity).
        rewrite Z. apply Qabs_nonneg.
  - assert (C := valid_canonical 53 1024 s m e ok_double V).
    assert (C' : canonical 53 1024 (S754_finite false m e)) by exact C.
    assert (H := search_hits m e C'). assert (Best := search_best m e C'). unfold fmt_f64.
    change (if 0 <=? e then (Zpos m * 2 ^ e, 1) else (Zpos m, 2 ^ (- e))) with (fraction m e).
    destruct (fraction m e) as [p q]. cbv zeta in Best |- *.
    destruct (shortest 17 p q (pow10_floor p q) 1
      (fun d k => sf_same (decimal_to_float f64_prec f64_emax false d k) (S754_finite false m e))) as [d k].
    destruct H as [D R]. assert (S := strip_zeros_value 20 d k D). destruct (strip_zeros 20 d k) as [d' k'].
    destruct S as [D' S]. destruct (positional_text d' k' D') as (m1 & p1 & T & E1).
    assert (Q1 : (decimal_value s m1 (0 - p1) == signed s (decimal_value false d k))%Q).
    { unfold decimal_value. change (0 - p1) with (- p1). destruct s; cbn [signed]; rewrite E1, S; reflexivity. }
    destruct Best as (N & Dg & Best). exists s, m1, (0 - p1), N. split; [|split; [|split]].
    + rewrite <- (app_nil_r (fmt_positional d' k')). apply dt_intro; [destruct s; constructor|exact T|constructor].
    + apply (rounds_arg _ _ _ (signed s (decimal_value false d k))); [symmetry; exact Q1|].
      cbn [rounds_to] in *. destruct R as (_ & R1 & R2 & R3 & R4 & R5). split; [reflexivity|].
      split; [rewrite too_large_signed; exact R1|]. split; [exact R2|]. split; [exact R3|]. split; [exact R4|].
      exact (nearest_signed _ _ s _ _ _ R5).
    + apply (digits_wd _ _ _ (Qeq_sym _ _ Q1)). destruct s; cbn [signed]; [apply opp_digits|]; exact Dg.
    + intros n w Dw Rw. apply signed_rounds in Rw.
      assert (Dw' : in_digits n (signed s w)) by (destruct s; cbn [signed]; [apply opp_digits|]; exact Dw).
      destruct (Best n _ Dw' Rw) as [B1 B2]. split; [exact B1|]. intros Nn. specialize (B2 Nn).
      cbn [fvalue]. rewrite Q1. destruct s; cbn [signed] in *; [|exact B2].
      rewrite <- Qabs_opp, <- (Qabs_opp (w - _)).
      setoid_replace (- (- decimal_value false d k - - (inject_Z (Z.pos m) * two_to e)))%Q
        with (decimal_value false d k - inject_Z (Z.pos m) * two_to e)%Q by ring.
      setoid_replace (- (w - - (inject_Z (Z.pos m) * two_to e)))%Q with (- w - inject_Z (Z.pos m) * two_to e)%Q by ring.
      exact B2.
Qed.
