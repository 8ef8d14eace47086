(** Printed floats read back as the float printed. *)
From Coq Require Import Ascii String ZArith QArith Qabs Qpower NArith Bool Lia Lqa.
From Coq Require Import Floats.SpecFloat.
From Coq Require Import List.
From Verif Require Import Res BMap Str Num NumParse Fmt FmtProofs SpecNear NearProofs SpecShow SpecParse ShowProofs
  NumParseProofs.
Import ListNotations.
Local Open Scope Z_scope.

(** ** Powers of ten *)
Lemma ten_pos e : (0 < (10 # 1) ^ e)%Q.
Proof. apply Qpower_0_lt. reflexivity. Qed.
Lemma ten_add a b : ((10 # 1) ^ (a + b) == (10 # 1) ^ a * (10 # 1) ^ b)%Q.
Proof. apply Qpower_plus. discriminate. Qed.

(** ** A decimal close to a double rounds to it *)
Lemma close_rounds m e v g : canonical 53 1024 (S754_finite false m e) ->
  (inject_Z (10 ^ 16) * g <= inject_Z (Zpos m) * two_to e)%Q ->
  (2 * Qabs (v - inject_Z (Zpos m) * two_to e) <= g)%Q ->
  rounds_to 53 1024 false v (S754_finite false m e).
Proof.
  cbn [canonical]. intros (M & E & Full) G V. cbn [rounds_to fvalue signed].
  set (x := (inject_Z (Zpos m) * two_to e)%Q) in *.
  assert (P := pw_pos e). assert (M1 : 1 <= Zpos m) by lia.
  assert (M1' := iZ_le _ _ M1). change (inject_Z 1) with 1%Q in M1'.
  assert (X0 : (0 < x)%Q) by (unfold x; nra).
  assert (Vx : (v - x <= g * (1 # 2) /\ x - v <= g * (1 # 2))%Q).
  { destruct (Qabs_cases (v - x)) as [[A B]|[A B]]; rewrite B in V; split; lra. }
  destruct Vx as [V1 V2]. change (inject_Z (10 ^ 16)) with (10000000000000000 # 1)%Q in G.
  split; [reflexivity|]. split; [|split; [exact M|split; [exact E|split; [exact Full|]]]].
  - unfold too_large. assert (v0 : (0 <= v)%Q) by lra. rewrite (Qabs_pos v v0). intros T.
    assert (Xm : (x <= inject_Z (2 ^ 53 - 1) * two_to 971)%Q).
    { unfold x. assert (A : Zpos m <= 2 ^ 53 - 1) by lia. apply iZ_le in A.
      assert (B : (two_to e <= two_to 971)%Q) by (apply pw_le; unfold emin_of in E; lia).
      assert (P' := pw_pos 971). apply Qle_trans with (inject_Z (2 ^ 53 - 1) * two_to e)%Q.
      - apply Qmult_le_compat_r; [exact A|lra].
      - rewrite !(Qmult_comm (inject_Z (2 ^ 53 - 1))). apply Qmult_le_compat_r; [exact B|]. discriminate. }
    assert (D : (two_to 971 == 2 * two_to 970)%Q) by (change 971 with (970 + 1); apply pw_succ).
    rewrite D in Xm. change (1024 - 53 - 1) with 970 in T.
    change (inject_Z (2 ^ (53 + 1) - 1)) with (18014398509481983 # 1)%Q in T.
    change (inject_Z (2 ^ 53 - 1)) with (9007199254740991 # 1)%Q in Xm.
    assert (U := pw_pos 970). set (u := two_to 970) in *. clearbody u. clear - T Xm V1 G U. lra.
  - assert (Mx : (inject_Z (Zpos m) <= inject_Z (2 ^ 53))%Q) by (apply iZ_le; lia).
    change (inject_Z (2 ^ 53)) with (9007199254740992 # 1)%Q in Mx.
    assert (S1 : (g * (1 # 2) < (1 # 2) * two_to e)%Q).
    { assert (x <= (9007199254740992 # 1) * two_to e)%Q by (unfold x; apply Qmult_le_compat_r; lra). lra. }
    assert (Gap : forall w, representable 53 1024 w ->
      (w == x)%Q \/ (g < w - x)%Q \/ (g < x - w)%Q).
    { intros w R. destruct (Qlt_le_dec x w) as [L|L].
      - right. left. assert (N := next_up 53 1024 (Zpos m) e w ok_double (Zle_0_pos m) (proj1 E) Full R L).
        rewrite inject_Z_plus in N. change (inject_Z 1) with 1%Q in N.
        assert (x + two_to e <= w)%Q by (unfold x; lra). lra.
      - destruct (Qlt_le_dec w x) as [L'|L']; [|left; lra]. right. right.
        destruct (Z.eq_dec (Zpos m) (2 ^ 52)) as [Em|Em].
        + destruct (Z.eq_dec e (emin_of 53 1024)) as [Ee|Ee].
          * destruct (no_number_between 53 1024 (Zpos m - 1) e w ok_double) as [A|A]; try tauto; try lia.
            { replace (Zpos m) with (Zpos m - 1 + 1) in L' by lia.
              assert (inject_Z (Zpos m - 1) * two_to e == x - two_to e)%Q.
              { unfold x. unfold Z.sub. rewrite inject_Z_plus. change (inject_Z (-(1))) with (-(1))%Q. ring. }
              lra. }
            { exfalso. assert (((inject_Z (Zpos m - 1) + 1) * two_to e == x)%Q).
              { unfold x. unfold Z.sub. rewrite inject_Z_plus. change (inject_Z (-(1))) with (-(1))%Q. ring. }
              lra. }
          * destruct (no_number_between 53 1024 (2 ^ 53 - 1) (e - 1) w ok_double) as [A|A];
              [lia|lia|left; lia|exact R| |].
            -- assert (D : (two_to e == 2 * two_to (e - 1))%Q)
                 by (rewrite <- pw_succ; replace (e - 1 + 1) with e by lia; reflexivity).
               assert (Xe : (x == (9007199254740992 # 1) * two_to (e - 1))%Q).
               { unfold x. rewrite Em, D. change (inject_Z (2 ^ 52)) with (4503599627370496 # 1)%Q. ring. }
               change (inject_Z (2 ^ 53 - 1)) with (9007199254740991 # 1)%Q in A.
               assert (U := pw_pos (e - 1)). set (u := two_to (e - 1)) in *. clearbody u. clear - G A Xe U. lra.
            -- exfalso. assert (D : (two_to e == 2 * two_to (e - 1))%Q)
                 by (rewrite <- pw_succ; replace (e - 1 + 1) with e by lia; reflexivity).
               assert (Xe : (x == (9007199254740992 # 1) * two_to (e - 1))%Q).
               { unfold x. rewrite Em, D. change (inject_Z (2 ^ 52)) with (4503599627370496 # 1)%Q. ring. }
               change (inject_Z (2 ^ 53 - 1)) with (9007199254740991 # 1)%Q in A.
               assert (U := pw_pos (e - 1)). set (u := two_to (e - 1)) in *. clearbody u. clear - L' A Xe U. lra.
        + destruct (no_number_between 53 1024 (Zpos m - 1) e w ok_double) as [A|A];
            [tauto|lia|destruct Full as [F|F]; [left; change (53 - 1) with 52 in *; lia|right; exact F]|exact R| |].
          { assert (inject_Z (Zpos m - 1) * two_to e == x - two_to e)%Q.
            { unfold x. unfold Z.sub. rewrite inject_Z_plus. change (inject_Z (-(1))) with (-(1))%Q. ring. }
            lra. }
          { exfalso. assert (((inject_Z (Zpos m - 1) + 1) * two_to e == x)%Q).
            { unfold x. unfold Z.sub. rewrite inject_Z_plus. change (inject_Z (-(1))) with (-(1))%Q. ring. }
            lra. } }
    intros w R. destruct (Gap w R) as [Q|[Q|Q]].
    + split; [rewrite Q; apply Qle_refl|]. intros C. contradiction.
    + assert (Lt : (Qabs (x - v) < Qabs (w - v))%Q).
      { destruct (Qabs_cases (x - v)) as [[A B]|[A B]]; rewrite B;
          destruct (Qabs_cases (w - v)) as [[A' B']|[A' B']]; rewrite B'; lra. }
      split; [lra|]. intros _ C. exfalso. lra.
    + assert (Lt : (Qabs (x - v) < Qabs (w - v))%Q).
      { destruct (Qabs_cases (x - v)) as [[A B]|[A B]]; rewrite B;
          destruct (Qabs_cases (w - v)) as [[A' B']|[A' B']]; rewrite B'; lra. }
      split; [lra|]. intros _ C. exfalso. lra.
Qed.

(** ** The decimal exponent *)
(** [p/q] against powers of ten. *)
Definition ratio (p q : Z) : Q := (inject_Z p / inject_Z q)%Q.
Definition ten_le (p q k : Z) : bool :=
  if (0 <=? k) then (q * 10 ^ k <=? p) else (q <=? p * 10 ^ (- k)).

Lemma ten_neg k : 0 <= k -> ((10 # 1) ^ (- k) * inject_Z (10 ^ k) == 1)%Q.
Proof.
  intros K. rewrite <- tens_Z by exact K. rewrite <- ten_add. replace (- k + k) with 0 by lia. reflexivity.
Qed.
Lemma ten_le_spec p q k : 0 < p -> 0 < q -> ten_le p q k = true <-> ((10 # 1) ^ k <= ratio p q)%Q.
Proof.
  intros P Q. unfold ten_le, ratio.
  assert (Q' := iZ_lt _ _ Q). assert (P' := iZ_lt _ _ P). change (inject_Z 0) with 0%Q in *.
  assert (D : forall y, (y <= inject_Z p / inject_Z q)%Q <-> (y * inject_Z q <= inject_Z p)%Q).
  { intros y. split; intros H.
    - apply (Qmult_le_compat_r _ _ (inject_Z q)) in H; [|lra].
      assert (E : (inject_Z p / inject_Z q * inject_Z q == inject_Z p)%Q) by (field; lra). lra.
    - apply Qle_shift_div_l; assumption. }
  rewrite D. destruct (Z.leb_spec 0 k) as [K|K].
  - rewrite Z.leb_le, Zle_Qle, inject_Z_mult, tens_Z by exact K. rewrite Qmult_comm. reflexivity.
  - rewrite Z.leb_le, Zle_Qle, inject_Z_mult.
    assert (N := ten_neg (- k) ltac:(lia)). replace (- - k) with k in N by lia.
    assert (T := ten_pos k). assert (T' : (0 < inject_Z (10 ^ (- k)))%Q).
    { change 0%Q with (inject_Z 0). apply iZ_lt. apply Z.pow_pos_nonneg; lia. }
    set (t := ((10 # 1) ^ k)%Q) in *. set (t' := inject_Z (10 ^ (- k))) in *. clearbody t t'.
    set (a := inject_Z q) in *. set (b := inject_Z p) in *. clearbody a b.
    split; intros H.
    + assert (t * a <= t * (b * t'))%Q by (rewrite !(Qmult_comm t); apply Qmult_le_compat_r; lra).
      assert (E : (t * (b * t') == b)%Q) by (setoid_replace (t * (b * t'))%Q with (t * t' * b)%Q by ring; rewrite N; ring).
      lra.
    + assert (t * a * t' <= b * t')%Q by (apply Qmult_le_compat_r; lra).
      assert (E : (t * a * t' == a)%Q) by (setoid_replace (t * a * t')%Q with (t * t' * a)%Q by ring; rewrite N; ring).
      lra.
Qed.

Fixpoint climb (p q : Z) (n : nat) (k : Z) : Z :=
  match n with O => k | S n' => if ten_le p q (k + 1) then climb p q n' (k + 1) else k end.
Definition estimate (l : Z) : Z := l * 3 / 10 - 4.
Lemma pow10_floor_climb p q : pow10_floor p q = climb p q 9 (estimate (Z.log2 p - Z.log2 q)).
Proof. reflexivity. Qed.

Lemma climb_spec p q n : forall k, ten_le p q k = true -> ten_le p q (k + Z.of_nat n + 1) = false ->
  ten_le p q (climb p q n k) = true /\ ten_le p q (climb p q n k + 1) = false.
Proof.
  induction n as [|n IH]; intros k A B; cbn [climb].
  - rewrite Z.add_0_r in B. auto.
  - destruct (ten_le p q (k + 1)) eqn:E; [|auto]. apply IH; [exact E|].
    replace (k + 1 + Z.of_nat n + 1) with (k + Z.of_nat (S n) + 1) by lia. exact B.
Qed.

Lemma two_neg k : 0 <= k -> (two_to (- k) * inject_Z (2 ^ k) == 1)%Q.
Proof. intros K. rewrite <- pw_Z by exact K. rewrite <- pw_add. replace (- k + k) with 0 by lia. reflexivity. Qed.
Lemma iZ_pow_pos b n : 0 < b -> 0 <= n -> (0 < inject_Z (b ^ n))%Q.
Proof. intros B N. change 0%Q with (inject_Z 0). apply iZ_lt. apply Z.pow_pos_nonneg; assumption. Qed.

(** The estimate is good enough for the exponents of doubles: 1024 against 1000. *)
Lemma kilo n : 0 <= n <= 120 -> 1000 ^ n <= 1024 ^ n <= 100 * 1000 ^ n.
Proof.
  intros N. split; [apply Z.pow_le_mono_l; lia|].
  assert (C : 1024 ^ 120 <= 100 * 1000 ^ 120) by (vm_compute; discriminate).
  replace 120 with (n + (120 - n)) in C by lia. rewrite !Z.pow_add_r in C by lia.
  assert (D : 1000 ^ (120 - n) <= 1024 ^ (120 - n)) by (apply Z.pow_le_mono_l; lia).
  assert (0 < 1000 ^ (120 - n)) by (apply Z.pow_pos_nonneg; lia).
  assert (0 < 1000 ^ n) by (apply Z.pow_pos_nonneg; lia). assert (0 < 1024 ^ n) by (apply Z.pow_pos_nonneg; lia).
  set (x := 1024 ^ n) in *. set (y := 1000 ^ n) in *. set (u := 1024 ^ (120 - n)) in *. set (v := 1000 ^ (120 - n)) in *.
  clearbody x y u v. nia.
Qed.
Lemma kilo_q a : -120 <= a <= 120 ->
  ((10 # 1) ^ (3 * a) <= 100 * two_to (10 * a))%Q /\ (two_to (10 * a) <= 100 * (10 # 1) ^ (3 * a))%Q.
Proof.
  intros A.
  assert (P : forall n, 0 <= n <= 120 -> ((10 # 1) ^ (3 * n) <= two_to (10 * n))%Q /\ (two_to (10 * n) <= 100 * (10 # 1) ^ (3 * n))%Q).
  { intros n N. destruct (kilo n N) as [K1 K2]. rewrite pw_Z, tens_Z by lia. rewrite !Z.pow_mul_r by lia.
    change (10 ^ 3) with 1000. change (2 ^ 10) with 1024. change 100%Q with (inject_Z 100). rewrite <- inject_Z_mult.
    split; apply iZ_le; assumption. }
  destruct (Z.le_gt_cases 0 a) as [G|G].
  - destruct (P a ltac:(lia)) as [P1 P2]. assert (X := pw_pos (10 * a)). split; [lra|exact P2].
  - destruct (P (- a) ltac:(lia)) as [P1 P2].
    assert (N := ten_add (3 * a) (3 * - a)). replace (3 * a + 3 * - a) with 0 in N by lia. change ((10 # 1) ^ 0)%Q with 1%Q in N.
    assert (M := pw_add (10 * a) (10 * - a)). replace (10 * a + 10 * - a) with 0 in M by lia. change (two_to 0) with 1%Q in M.
    assert (X := pw_pos (10 * a)). assert (Y := ten_pos (3 * a)). assert (X' := pw_pos (10 * - a)). assert (Y' := ten_pos (3 * - a)).
    set (x := two_to (10 * a)) in *. set (y := ((10 # 1) ^ (3 * a))%Q) in *.
    set (x' := two_to (10 * - a)) in *. set (y' := ((10 # 1) ^ (3 * - a))%Q) in *. clearbody x y x' y'.
    clear - N M X Y X' Y' P1 P2. split.
    + (* y <= 100 x  since  x' <= 100 y' *) 
      assert (y * x' * x <= y * (100 * y') * x)%Q by (apply Qmult_le_compat_r; [rewrite !(Qmult_comm y); apply Qmult_le_compat_r; lra|lra]).
      assert (y * x' * x == y)%Q by (rewrite <- Qmult_assoc, (Qmult_comm x'), <- M; ring).
      assert (y * (100 * y') * x == 100 * x)%Q by (setoid_replace (y * (100 * y') * x)%Q with (100 * (y * y') * x)%Q by ring; rewrite <- N; ring).
      lra.
    + assert (x * y' * y <= x * x' * y)%Q by (apply Qmult_le_compat_r; [rewrite !(Qmult_comm x); apply Qmult_le_compat_r; lra|lra]).
      assert (x * y' * y == x)%Q by (rewrite <- Qmult_assoc, (Qmult_comm y'), <- N; ring).
      assert (x * x' * y == y)%Q by (rewrite <- M; ring).
      lra.
Qed.
Lemma estimate_good l : -1180 <= l < 1180 ->
  ((10 # 1) ^ estimate l <= two_to l)%Q /\ (two_to (l + 1) <= (10 # 1) ^ (estimate l + 10))%Q.
Proof.
  intros L. assert (D := Z.div_mod l 10 ltac:(lia)). assert (M := Z.mod_pos_bound l 10 ltac:(lia)).
  set (a := l / 10) in *. set (r := l mod 10) in *. assert (Ra : -120 <= a <= 120) by lia.
  destruct (kilo_q a Ra) as [K1 K2]. unfold estimate.
  replace (l * 3 / 10) with (3 * a + r * 3 / 10).
  2: { rewrite D. replace ((10 * a + r) * 3) with (r * 3 + 3 * a * 10) by ring. rewrite Z.div_add by lia. lia. }
  rewrite D. replace (3 * a + r * 3 / 10 - 4 + 10) with (3 * a + (r * 3 / 10 + 6)) by lia.
  replace (3 * a + r * 3 / 10 - 4) with (3 * a + (r * 3 / 10 - 4)) by lia.
  replace (10 * a + r + 1) with (10 * a + (r + 1)) by lia.
  rewrite (pw_add (10 * a) r), (pw_add (10 * a) (r + 1)), (ten_add (3 * a) (r * 3 / 10 - 4)), (ten_add (3 * a) (r * 3 / 10 + 6)).
  assert (X := pw_pos (10 * a)). assert (Y := ten_pos (3 * a)).
  set (x := two_to (10 * a)) in *. set (y := ((10 # 1) ^ (3 * a))%Q) in *. clearbody x y.
  assert (C : r = 0 \/ r = 1 \/ r = 2 \/ r = 3 \/ r = 4 \/ r = 5 \/ r = 6 \/ r = 7 \/ r = 8 \/ r = 9) by lia.
  assert (S : forall u v z w, ((10 # 1) ^ u == z)%Q -> (two_to v == w)%Q -> (100 * z <= w)%Q -> (y * (10 # 1) ^ u <= x * two_to v)%Q).
  { intros u v z w E F G. assert (0 < z)%Q by (rewrite <- E; apply ten_pos). rewrite E, F. nra. }
  assert (T : forall u v z w, ((10 # 1) ^ u == z)%Q -> (two_to v == w)%Q -> (100 * w <= z)%Q -> (x * two_to v <= y * (10 # 1) ^ u)%Q).
  { intros u v z w E F G. assert (0 < w)%Q by (rewrite <- F; apply pw_pos). rewrite E, F. nra. }
  clearbody r. clear D L a Ra. 
  decompose [or] C; subst r; (split; [eapply S; [reflexivity|reflexivity|vm_compute; discriminate]
                                     |eapply T; [reflexivity|reflexivity|vm_compute; discriminate]]).
Qed.

(** The fraction printed. *)
Definition fraction (m : positive) (e : Z) : Z * Z :=
  if 0 <=? e then (Zpos m * 2 ^ e, 1) else (Zpos m, 2 ^ (- e)).
Lemma fraction_spec m e : let '(p, q) := fraction m e in
  0 < p /\ 0 < q /\ (ratio p q == inject_Z (Zpos m) * two_to e)%Q /\ Z.log2 p - Z.log2 q = Z.log2 (Zpos m) + e.
Proof.
  unfold fraction, ratio. destruct (Z.leb_spec 0 e) as [H|H].
  - assert (0 < 2 ^ e) by (apply Z.pow_pos_nonneg; lia). split; [nia|]. split; [lia|]. split.
    + rewrite inject_Z_mult, <- pw_Z by exact H. change (inject_Z 1) with 1%Q. field.
    + rewrite Z.log2_mul_pow2 by lia. change (Z.log2 1) with 0. lia.
  - assert (0 < 2 ^ (- e)) by (apply Z.pow_pos_nonneg; lia). split; [lia|]. split; [lia|]. split.
    + assert (N := two_neg (- e) ltac:(lia)). replace (- - e) with e in N by lia.
      assert (X := iZ_pow_pos 2 (- e) ltac:(lia) ltac:(lia)).
      rewrite <- (Qmult_1_r (inject_Z (Zpos m))) at 1. rewrite <- N. field. lra.
    + rewrite Z.log2_pow2 by lia. lia.
Qed.

Lemma floor_spec m e : canonical 53 1024 (S754_finite false m e) ->
  let '(p, q) := fraction m e in let k := pow10_floor p q in
  ((10 # 1) ^ k <= inject_Z (Zpos m) * two_to e)%Q /\ (inject_Z (Zpos m) * two_to e < (10 # 1) ^ (k + 1))%Q.
Proof.
  cbn [canonical]. intros (M & E & _). assert (F := fraction_spec m e). destruct (fraction m e) as [p q].
  destruct F as (P & Q & R & L). cbn zeta. rewrite pow10_floor_climb, L. set (l := Z.log2 (Zpos m) + e) in *.
  assert (Lm : 0 <= Z.log2 (Zpos m) < 53).
  { split; [apply Z.log2_nonneg|]. apply Z.log2_lt_pow2; lia. }
  unfold emin_of in E. assert (G := estimate_good l ltac:(lia)). destruct G as [G1 G2].
  assert (LS := Z.log2_spec (Zpos m) eq_refl). destruct LS as [LS1 LS2].
  assert (T := pw_pos e). apply iZ_le in LS1. apply iZ_lt in LS2.
  rewrite <- pw_Z in LS1 by lia. rewrite <- pw_Z in LS2 by lia.
  assert (B1 : (two_to l <= ratio p q)%Q).
  { rewrite R. unfold l. rewrite pw_add. apply Qmult_le_compat_r; lra. }
  assert (B2 : (ratio p q < two_to (l + 1))%Q).
  { rewrite R. replace (l + 1) with (Z.succ (Z.log2 (Zpos m)) + e) by (unfold l; lia). rewrite pw_add.
    apply Qmult_lt_compat_r; lra. }
  destruct (climb_spec p q 9 (estimate l)) as [C1 C2].
  - apply ten_le_spec; [assumption..|]. lra.
  - apply not_true_iff_false. rewrite ten_le_spec by assumption. change (Z.of_nat 9) with 9.
    replace (estimate l + 9 + 1) with (estimate l + 10) by lia. lra.
  - apply ten_le_spec in C1; [|assumption..]. apply not_true_iff_false in C2. rewrite ten_le_spec in C2 by assumption.
    rewrite R in C1, C2. split; [exact C1|]. apply Qnot_le_lt. exact C2.
Qed.

(** ** The search *)
Lemma shortest_found (is_it : Z -> Z -> bool) p q k10 f : forall n j, 0 < p -> 0 < q -> (j < f)%nat ->
  (let e := k10 - (n + Z.of_nat j) + 1 in
   let a := if 0 <=? e then p else p * 10 ^ (- e) in let b := if 0 <=? e then q * 10 ^ e else q in
   is_it (a / b) e = true \/ is_it (a / b + 1) e = true) ->
  let '(d, e) := shortest f p q k10 n is_it in 0 <= d /\ is_it d e = true.
Proof.
  induction f as [|f IH]; intros n j P Q J H; [lia|]. cbn [shortest].
  set (e := k10 - n + 1). 
  assert (Sp : (if 0 <=? e then (p, q * 10 ^ e) else (p * 10 ^ (- e), q)) =
               (if 0 <=? e then p else p * 10 ^ (- e), if 0 <=? e then q * 10 ^ e else q)) by (destruct (0 <=? e); reflexivity).
  rewrite Sp. set (a := if 0 <=? e then p else p * 10 ^ (- e)). set (b := if 0 <=? e then q * 10 ^ e else q).
  assert (A : 0 < a /\ 0 < b).
  { unfold a, b. destruct (Z.leb_spec 0 e).
    - assert (0 < 10 ^ e) by (apply Z.pow_pos_nonneg; lia). nia.
    - assert (0 < 10 ^ (- e)) by (apply Z.pow_pos_nonneg; lia). nia. }
  assert (Dv : a / b = fst (Z.div_eucl a b)) by (unfold Z.div; destruct (Z.div_eucl a b); reflexivity).
  assert (D0 : 0 <= a / b) by (apply Z.div_pos; lia).
  destruct (Z.div_eucl a b) as [lo r]. cbn [fst] in Dv. subst lo.
  destruct (is_it (a / b) e) eqn:I1, (is_it (a / b + 1) e) eqn:I2.
  - destruct (2 * r <? b); split; auto; lia.
  - split; auto.
  - split; auto; lia.
  - destruct j as [|j].
    + exfalso. replace (k10 - (n + Z.of_nat 0) + 1) with e in H by (unfold e; lia). cbn zeta in H. fold a b in H.
      rewrite I1, I2 in H. destruct H; discriminate.
    + apply (IH (n + 1) j); auto; [lia|].
      replace (k10 - (n + 1 + Z.of_nat j) + 1) with (k10 - (n + Z.of_nat (S j)) + 1) by lia. exact H.
Qed.

Lemma sf_same_eq x m e : sf_same x (S754_finite false m e) = true -> x = S754_finite false m e.
Proof.
  unfold sf_same, SFeqb. destruct x as [s|s| |s m' e']; cbn [SFcompare]; try (destruct s; discriminate); try discriminate.
  destruct s; [discriminate|]. destruct (Z.compare_spec e' e); try discriminate. subst e'.
  change (Pos.compare_cont Eq m' m) with (Pos.compare m' m). destruct (Pos.compare_spec m' m); try discriminate.
  subst. reflexivity.
Qed.
Lemma sf_same_refl m e : sf_same (S754_finite false m e) (S754_finite false m e) = true.
Proof.
  unfold sf_same, SFeqb. cbn [SFcompare]. rewrite Z.compare_refl.
  change (Pos.compare_cont Eq m m) with (Pos.compare m m). rewrite Pos.compare_refl. reflexivity.
Qed.

(** With seventeen digits one of the neighbours will do. *)
Lemma search_hit m e : canonical 53 1024 (S754_finite false m e) ->
  let '(p, q) := fraction m e in
  let is_it := fun d k => sf_same (decimal_to_float f64_prec f64_emax false d k) (S754_finite false m e) in
  let e := pow10_floor p q - (1 + Z.of_nat 16) + 1 in
  let a := if 0 <=? e then p else p * 10 ^ (- e) in let b := if 0 <=? e then q * 10 ^ e else q in
  is_it (a / b) e = true \/ is_it (a / b + 1) e = true.
Proof.
  intros C. assert (F := fraction_spec m e). assert (FL := floor_spec m e C).
  destruct (fraction m e) as [p q]. destruct F as (P & Q & R & _). cbn zeta in FL. destruct FL as [FL1 FL2].
  set (k10 := pow10_floor p q) in *. set (x := (inject_Z (Zpos m) * two_to e)%Q) in *.
  set (is_it := fun d k => sf_same (decimal_to_float f64_prec f64_emax false d k) (S754_finite false m e)).
  cbn zeta. change (1 + Z.of_nat 16) with 17. set (E := k10 - 17 + 1).
  set (a := if 0 <=? E then p else p * 10 ^ (- E)). set (b := if 0 <=? E then q * 10 ^ E else q).
  assert (Ab : 0 < a /\ 0 < b /\ (inject_Z a * (10 # 1) ^ E == x * inject_Z b)%Q).
  { assert (X : (inject_Z p == x * inject_Z q)%Q).
    { rewrite <- R. unfold ratio. field. apply iZ_lt in Q. change (inject_Z 0) with 0%Q in Q. lra. }
    unfold a, b. destruct (Z.leb_spec 0 E) as [G|G].
    - assert (0 < 10 ^ E) by (apply Z.pow_pos_nonneg; lia). split; [nia|]. split; [nia|].
      rewrite inject_Z_mult, tens_Z, X by exact G. ring.
    - assert (0 < 10 ^ (- E)) by (apply Z.pow_pos_nonneg; lia). split; [nia|]. split; [nia|].
      rewrite inject_Z_mult, <- X. assert (N := ten_neg (- E) ltac:(lia)). replace (- - E) with E in N by lia.
      rewrite <- Qmult_assoc, (Qmult_comm (inject_Z (10 ^ (- E)))), N. ring. }
  destruct Ab as (A & B & AB). set (g := ((10 # 1) ^ E)%Q) in *. assert (g0 : (0 < g)%Q) by apply ten_pos.
  assert (Gx : (inject_Z (10 ^ 16) * g <= x)%Q).
  { replace k10 with (16 + E) in FL1 by (unfold E; lia). rewrite ten_add in FL1.
    change ((10 # 1) ^ 16)%Q with (inject_Z (10 ^ 16)) in FL1. exact FL1. }
  assert (Dm := Z.div_mod a b ltac:(lia)). assert (Md := Z.mod_pos_bound a b B).
  set (lo := a / b) in *. set (r := a mod b) in *.
  assert (lo0 : 0 <= lo) by (apply Z.div_pos; lia).
  assert (b0 := iZ_lt _ _ B). change (inject_Z 0) with 0%Q in b0.
  rewrite Dm, inject_Z_plus, inject_Z_mult in AB.
  assert (Try : forall c, 0 <= c -> (2 * Qabs (inject_Z c * g - x) <= g)%Q -> is_it c E = true).
  { intros c C0 V. unfold is_it. assert (W := close_rounds m e _ g C Gx V).
    assert (Eq : S754_finite false m e = decimal_to_float 53 1024 false c E).
    { apply (decimal_converted 53 1024 false c E _ ok_double C0). exact W. }
    change f64_prec with 53. change f64_emax with 1024. rewrite <- Eq. apply sf_same_refl. }
  destruct (Z.le_gt_cases (2 * r) b) as [Hr|Hr]; [left|right]; apply Try; try lia.
  + assert (Z1 := iZ_le _ _ (proj1 Md)). apply iZ_le in Hr. rewrite inject_Z_mult in Hr.
    change (inject_Z 2) with 2%Q in Hr. change (inject_Z 0) with 0%Q in Z1.
    set (u := inject_Z lo) in *. set (v := inject_Z r) in *. set (w := inject_Z b) in *. clearbody u v w g x.
    clear - AB Z1 Hr g0 b0.
    (* x = u g + v g / w *)
    assert (Ex : (x == u * g + v * g / w)%Q) by (apply (Qmult_inj_r _ _ w); [lra|]; rewrite <- AB; field; lra).
    assert (Y0 : (0 <= v * g / w)%Q) by (apply Qle_shift_div_l; [assumption|nra]).
    assert (Y1 : (v * g / w <= g * (1 # 2))%Q) by (apply Qle_shift_div_r; [assumption|nra]).
    destruct (Qabs_cases (u * g - x)) as [[S T]|[S T]]; rewrite T; lra.
  + assert (Z1 := iZ_lt _ _ (proj2 Md)). apply iZ_lt in Hr. rewrite inject_Z_mult in Hr.
    change (inject_Z 2) with 2%Q in Hr. rewrite inject_Z_plus. change (inject_Z 1) with 1%Q.
    set (u := inject_Z lo) in *. set (v := inject_Z r) in *. set (w := inject_Z b) in *. clearbody u v w g x.
    clear - AB Z1 Hr g0 b0.
    assert (Ex : (x == u * g + v * g / w)%Q) by (apply (Qmult_inj_r _ _ w); [lra|]; rewrite <- AB; field; lra).
    assert (Y0 : (v * g / w <= g)%Q) by (apply Qle_shift_div_r; [assumption|nra]).
    assert (Y1 : (g * (1 # 2) <= v * g / w)%Q) by (apply Qle_shift_div_l; [assumption|nra]).
    destruct (Qabs_cases ((u + 1) * g - x)) as [[S T]|[S T]]; rewrite T; lra.
Qed.
Lemma search_hits m e : canonical 53 1024 (S754_finite false m e) ->
  let '(p, q) := fraction m e in
  let '(d, k) := shortest 17 p q (pow10_floor p q) 1
    (fun d k => sf_same (decimal_to_float f64_prec f64_emax false d k) (S754_finite false m e)) in
  0 <= d /\ rounds_to 53 1024 false (decimal_value false d k) (S754_finite false m e).
Proof.
  intros C. assert (F := fraction_spec m e). assert (Hit := search_hit m e C).
  destruct (fraction m e) as [p q]. destruct F as (P & Q & _). set (k10 := pow10_floor p q) in *.
  set (is_it := fun d k => sf_same (decimal_to_float f64_prec f64_emax false d k) (S754_finite false m e)).
  assert (H := shortest_found is_it p q k10 17 1 16 P Q ltac:(lia)).
  destruct (shortest 17 p q k10 1 is_it) as [d k].
  destruct H as [D I].
  - exact Hit.
  - split; [exact D|]. apply sf_same_eq in I. change f64_prec with 53 in I. change f64_emax with 1024 in I.
    apply (decimal_converted 53 1024 false d k _ ok_double D). symmetry. exact I.
Qed.

(** ** Positional notation *)
Lemma strip_zeros_value f : forall m e, 0 <= m ->
  let '(m', e') := strip_zeros f m e in
  0 <= m' /\ (inject_Z m' * (10 # 1) ^ e' == inject_Z m * (10 # 1) ^ e)%Q.
Proof.
  induction f as [|f IH]; intros m e M; cbn [strip_zeros]; [split; [exact M|reflexivity]|].
  destruct (Z.eqb_spec (m mod 10) 0) as [Z|Z]; [|split; [exact M|reflexivity]].
  assert (M' : 0 <= m / 10) by (apply Z.div_pos; lia). specialize (IH (m / 10) (e + 1) M').
  destruct (strip_zeros f (m / 10) (e + 1)) as [m' e']. destruct IH as [A B]. split; [exact A|]. rewrite B.
  assert (D := Z.div_mod m 10 ltac:(lia)). rewrite Z, Z.add_0_r in D. rewrite D at 2.
  rewrite inject_Z_mult, ten_add. change ((10 # 1) ^ 1)%Q with (inject_Z 10). ring.
Qed.

Lemma zeros_digits n : Forall is_digit (repeat (ch "0") n).
Proof. induction n as [|n IH]; constructor; auto. split; discriminate. Qed.
Lemma fold_zeros n a : fold_left numeral_step (repeat (ch "0") n) a = a * 10 ^ Z.of_nat n.
Proof.
  revert a. induction n as [|n IH]; intros a; cbn [repeat fold_left]; [lia|]. rewrite IH.
  replace (numeral_step a (ch "0")) with (10 * a) by (unfold numeral_step; change (Z.of_N (ch "0")) with 48; lia).
  replace (Z.of_nat (S n)) with (Z.succ (Z.of_nat n)) by lia. rewrite Z.pow_succ_r by lia. ring.
Qed.

Lemma positional_text m e : 0 <= m -> exists m' p, mantissa_text (fmt_positional m e) m' p /\
  (inject_Z m' * (10 # 1) ^ (- p) == inject_Z m * (10 # 1) ^ e)%Q.
Proof.
  intros M. unfold fmt_positional. rewrite fmt_nat_decimal.
  assert (N := decimal_numeral (Z.to_N m)). rewrite Z2N.id in N by exact M. destruct N as (N0 & N1 & N2).
  set (ds := decimal (Z.to_N m)) in *.
  assert (FV : fold_left numeral_step ds 0 = m) by (symmetry; exact N2).
  destruct (Z.leb_spec 0 e) as [E|E].
  - eexists _, _. split.
    + apply mt_whole; [destruct ds; [contradiction|discriminate]|apply Forall_app; split; [exact N1|apply zeros_digits]].
    + rewrite numeral_value_app, FV, fold_zeros, Z2Nat.id by exact E.
      rewrite inject_Z_mult, <- tens_Z by exact E. change ((10 # 1) ^ (- 0))%Q with 1%Q. ring.
  - set (n := Z.of_nat (length ds)). destruct (Z.leb_spec n (- e)) as [L|L].
    + exists (numeral_value (lit "0" ++ (repeat (ch "0") (Z.to_nat (- e - n)) ++ ds))), (- e). split.
      * replace (- e) with (Z.of_nat (length (repeat (ch "0") (Z.to_nat (- e - n)) ++ ds))) at 3
          by (rewrite app_length, repeat_length; unfold n in *; lia).
        apply (mt_point (lit "0") (repeat (ch "0") (Z.to_nat (- e - n)) ++ ds)); [discriminate| |].
        -- repeat constructor; discriminate.
        -- apply Forall_app. split; [apply zeros_digits|exact N1].
      * rewrite numeral_value_app, fold_left_app. change (fold_left numeral_step (lit "0") 0) with 0.
        rewrite fold_zeros, Z.mul_0_l, FV. replace (- - e) with e by lia. reflexivity.
    + set (i := Z.to_nat (n + e)).
      exists (numeral_value (firstn i ds ++ skipn i ds)), (- e). split.
      * replace (- e) with (Z.of_nat (length (skipn i ds)))
          by (rewrite skipn_length; unfold i, n in *; lia).
        assert (X := N1). rewrite <- (firstn_skipn i ds) in X. apply Forall_app in X. destruct X as [X1 X2].
        apply mt_point; [rewrite firstn_skipn; exact N0|exact X1|exact X2].
      * rewrite firstn_skipn, <- N2. replace (- - e) with e by lia. reflexivity.
Qed.

Theorem float_shown x : valid_binary 53 1024 x = true ->
  match x with S754_finite _ _ _ | S754_zero _ => True | _ => False end ->
  exists neg m e, decimal_text (fmt_f64 x) neg m e /\ rounds_to 53 1024 neg (decimal_value neg m e) x.
Proof.
  intros V Fi. destruct x as [s|s| |s m e]; try contradiction.
  - exists s, 0, 0. split.
    + assert (M : mantissa_text (lit "0") 0 0) by (apply (mt_whole (lit "0")); [discriminate|repeat constructor; discriminate]).
      change (decimal_text ((if s then [ch "-"] else []) ++ lit "0" ++ []) s 0 (0 - 0)).
      apply (dt_intro _ s (lit "0") 0 0 [] 0); [destruct s; constructor|exact M|constructor].
    + apply (decimal_converted 53 1024 s 0 0 _ ok_double); [lia|reflexivity].
  - assert (C := valid_canonical 53 1024 s m e ok_double V).
    assert (C' : canonical 53 1024 (S754_finite false m e)) by exact C.
    assert (H := search_hits m e C'). unfold fmt_f64.
    change (if 0 <=? e then (Zpos m * 2 ^ e, 1) else (Zpos m, 2 ^ (- e))) with (fraction m e).
    destruct (fraction m e) as [p q]. cbv zeta.
    destruct (shortest 17 p q (pow10_floor p q) 1
      (fun d k => sf_same (decimal_to_float f64_prec f64_emax false d k) (S754_finite false m e))) as [d k].
    destruct H as [D R]. assert (S := strip_zeros_value 20 d k D). destruct (strip_zeros 20 d k) as [d' k'].
    destruct S as [D' S]. destruct (positional_text d' k' D') as (m1 & p1 & T & E1).
    assert (Q1 : (decimal_value s m1 (0 - p1) == signed s (decimal_value false d k))%Q).
    { unfold decimal_value. change (0 - p1) with (- p1). destruct s; cbn [signed]; rewrite E1, S; reflexivity. }
    exists s, m1, (0 - p1). split.
    + rewrite <- (app_nil_r (fmt_positional d' k')). apply dt_intro; [destruct s; constructor|exact T|constructor].
    + apply (rounds_arg _ _ _ (signed s (decimal_value false d k))); [symmetry; exact Q1|].
      cbn [rounds_to] in *. destruct R as (_ & R1 & R2 & R3 & R4 & R5). split; [reflexivity|].
      split; [rewrite too_large_signed; exact R1|]. split; [exact R2|]. split; [exact R3|]. split; [exact R4|].
      exact (nearest_signed _ _ s _ _ _ R5).
Qed.
