(** The float conversions of the model round to nearest. *)
From Coq Require Import ZArith QArith Qabs Qpower Bool Lia Lqa.
From Coq Require Import Floats.SpecFloat.
From Coq Require Import List.
From Verif Require Import Num NumParse SpecNear.
Local Open Scope Z_scope.

Definition ok_format (prec emax : Z) : Prop := 2 <= prec /\ prec < emax.

(** ** Powers of two *)
Lemma pw_pos e : (0 < two_to e)%Q.
Proof. unfold two_to. apply Qpower_0_lt. reflexivity. Qed.
Lemma pw_add a b : (two_to (a + b) == two_to a * two_to b)%Q.
Proof. unfold two_to. apply Qpower_plus. discriminate. Qed.
Lemma pw_succ e : (two_to (e + 1) == 2 * two_to e)%Q.
Proof. rewrite pw_add. change (two_to 1) with (2 # 1). lra. Qed.
Lemma pw_Z n : 0 <= n -> (two_to n == inject_Z (2 ^ n))%Q.
Proof.
  intros H. pattern n. apply natlike_ind; [reflexivity| |exact H].
  intros k Hk IH. rewrite Z.pow_succ_r by exact Hk. unfold Z.succ. rewrite pw_succ, IH, inject_Z_mult. reflexivity.
Qed.
Lemma pw_le a b : a <= b -> (two_to a <= two_to b)%Q.
Proof.
  intros H. replace b with (a + (b - a)) by lia. rewrite pw_add, (pw_Z (b - a)) by lia.
  assert (1 <= inject_Z (2 ^ (b - a)))%Q.
  { change 1%Q with (inject_Z 1). rewrite <- Zle_Qle. assert (0 < 2 ^ (b - a)) by (apply Z.pow_pos_nonneg; lia). lia. }
  assert (P := pw_pos a). nra.
Qed.
Lemma iZ_le a b : a <= b -> (inject_Z a <= inject_Z b)%Q.
Proof. rewrite <- Zle_Qle. auto. Qed.
Lemma iZ_lt a b : a < b -> (inject_Z a < inject_Z b)%Q.
Proof. rewrite <- Zlt_Qlt. auto. Qed.

(** [m * 2^e] as an integer multiple of a smaller unit. *)
Lemma pw_shift m e e' : e' <= e -> (inject_Z m * two_to e == inject_Z (m * 2 ^ (e - e')) * two_to e')%Q.
Proof.
  intros H. replace e with (e' + (e - e')) at 1 by lia. rewrite pw_add, (pw_Z (e - e')) by lia.
  rewrite inject_Z_mult. ring.
Qed.

(** ** Digits *)
Lemma digits_log2 p : Zpos (digits2_pos p) = Z.log2 (Zpos p) + 1.
Proof.
  induction p as [p IH|p IH|]; [| |reflexivity]; cbn [digits2_pos]; rewrite Pos2Z.inj_succ, IH.
  - rewrite Pos2Z.inj_xI. rewrite Z.log2_succ_double by lia. lia.
  - rewrite Pos2Z.inj_xO. rewrite Z.log2_double by lia. lia.
Qed.
Lemma digits_bounds m : 0 < m -> 2 ^ (Zdigits2 m - 1) <= m < 2 ^ Zdigits2 m /\ 1 <= Zdigits2 m.
Proof.
  intros H. destruct m as [|p|p]; try lia. cbn [Zdigits2]. rewrite digits_log2.
  destruct (Z.log2_spec (Zpos p) H) as [A B]. assert (C := Z.log2_nonneg (Zpos p)).
  replace (Z.log2 (Zpos p) + 1 - 1) with (Z.log2 (Zpos p)) by lia. split; [split|]; auto; lia.
Qed.
Lemma digits_unique m d : 1 <= d -> 2 ^ (d - 1) <= m < 2 ^ d -> Zdigits2 m = d.
Proof.
  intros Hd [A B]. assert (0 < m) by (assert (0 < 2 ^ (d - 1)) by (apply Z.pow_pos_nonneg; lia); lia).
  destruct m as [|p|p]; try lia. cbn [Zdigits2]. rewrite digits_log2.
  rewrite (Z.log2_unique (Zpos p) (d - 1)); [lia|lia|]. replace (Z.succ (d - 1)) with d by lia. lia.
Qed.
Lemma digits_le m d : 0 <= d -> 0 <= m < 2 ^ d -> Zdigits2 m <= d.
Proof.
  intros Hd [A B]. destruct m as [|p|p]; [exact Hd| |lia].
  destruct (digits_bounds (Zpos p)) as [[C D] E]; [lia|].
  destruct (Z.le_gt_cases (Zdigits2 (Zpos p)) d) as [|G]; [assumption|].
  assert (2 ^ d <= 2 ^ (Zdigits2 (Zpos p) - 1)) by (apply Z.pow_le_mono_r; lia). lia.
Qed.
Lemma digits_ge m d : 0 <= m -> 2 ^ (d - 1) <= m -> 0 < d -> d <= Zdigits2 m.
Proof.
  intros A B Hd. assert (0 < m) by (assert (0 < 2 ^ (d - 1)) by (apply Z.pow_pos_nonneg; lia); lia).
  destruct (digits_bounds m) as [[C D] E]; [assumption|].
  destruct (Z.le_gt_cases d (Zdigits2 m)) as [|G]; [assumption|].
  assert (2 ^ Zdigits2 m <= 2 ^ (d - 1)) by (apply Z.pow_le_mono_r; lia). lia.
Qed.

(** ** Locations *)

(** [q] lies where [m], [l] say, in units of [u]. *)
Definition located (q u : Q) (m : Z) (l : location) : Prop :=
  match l with
  | loc_Exact => (q == inject_Z m * u)%Q
  | loc_Inexact c =>
      (inject_Z m * u < q)%Q /\ (q < (inject_Z m + 1) * u)%Q /\
      match c with
      | Lt => (q < (inject_Z m + (1 # 2)) * u)%Q
      | Eq => (q == (inject_Z m + (1 # 2)) * u)%Q
      | Gt => ((inject_Z m + (1 # 2)) * u < q)%Q
      end
  end.

Lemma located_range q u m l : (0 < u)%Q -> located q u m l ->
  (inject_Z m * u <= q)%Q /\ (q < (inject_Z m + 1) * u)%Q.
Proof. destruct l as [|c]; cbn [located]; intros U H; [split; lra|destruct H as (A & B & _); split; lra]. Qed.

Lemma shr_1_located q u x : (0 < u)%Q -> 0 <= shr_m x ->
  located q u (shr_m x) (loc_of_shr_record x) ->
  located q (2 * u) (shr_m (shr_1 x)) (loc_of_shr_record (shr_1 x)) /\ shr_m (shr_1 x) = shr_m x / 2.
Proof.
  intros U M H. destruct x as [m r s]. cbn [shr_m] in *.
  assert (E : exists k b, m = 2 * k + (if b : bool then 1 else 0) /\ 0 <= k /\
    shr_1 {| shr_m := m; shr_r := r; shr_s := s |} = {| shr_m := k; shr_r := b; shr_s := r || s |}).
  { destruct m as [|[p|p|]|p]; [exists 0, false|exists (Zpos p), true|exists (Zpos p), false|exists 0, true|lia];
      (split; [lia|split; [lia|reflexivity]]). }
  destruct E as (k & b & E & K & ->). cbn [shr_m]. split.
  2:{ subst m. destruct b; [|rewrite Z.add_0_r, Z.mul_comm, Z.div_mul; lia].
      rewrite Z.mul_comm, Z.div_add_l by lia. change (1 / 2) with 0. lia. }
  assert (Q : (inject_Z m == 2 * inject_Z k + (if b then 1 else 0))%Q).
  { subst m. rewrite inject_Z_plus, inject_Z_mult. destruct b; reflexivity. }
  destruct b, r, s; cbn [loc_of_shr_record orb located] in *;
    rewrite Q in H; repeat match goal with H : _ /\ _ |- _ => destruct H end; repeat split; nra.
Qed.

Lemma located_unit q u u' m l : (u == u')%Q -> located q u m l -> located q u' m l.
Proof.
  intros E. destruct l as [|[]]; cbn [located]; rewrite E; auto.
Qed.

Lemma iter_nat_add {A} (f : A -> A) a b x : Nat.iter (a + b) f x = Nat.iter a f (Nat.iter b f x).
Proof. induction a as [|a IH]; [reflexivity|].
  change (f (Nat.iter (a + b) f x) = f (Nat.iter a f (Nat.iter b f x))). now rewrite IH. Qed.
Lemma iter_pos_nat {A} (f : A -> A) n : forall x, iter_pos f n x = Nat.iter (Pos.to_nat n) f x.
Proof.
  induction n as [n IH|n IH|]; intros x; cbn [iter_pos]; [| |reflexivity]; rewrite !IH.
  - rewrite Pos2Nat.inj_xI. replace (S (2 * Pos.to_nat n)) with (Pos.to_nat n + (Pos.to_nat n + 1))%nat by lia.
    rewrite !iter_nat_add. reflexivity.
  - rewrite Pos2Nat.inj_xO. replace (2 * Pos.to_nat n)%nat with (Pos.to_nat n + Pos.to_nat n)%nat by lia.
    now rewrite iter_nat_add.
Qed.

Lemma iter_located q n u x : (0 < u)%Q -> 0 <= shr_m x ->
  located q u (shr_m x) (loc_of_shr_record x) ->
  let y := Nat.iter n shr_1 x in
  located q (two_to (Z.of_nat n) * u) (shr_m y) (loc_of_shr_record y) /\ shr_m y = shr_m x / 2 ^ Z.of_nat n.
Proof.
  intros U M H. induction n as [|n [IH1 IH2]]; cbv zeta in *.
  - change (Nat.iter 0 shr_1 x) with x. change (2 ^ Z.of_nat 0) with 1. rewrite Z.div_1_r. split; [|reflexivity].
    eapply located_unit; [|exact H]. change (two_to (Z.of_nat 0)) with 1%Q. ring.
  - change (Nat.iter (S n) shr_1 x) with (shr_1 (Nat.iter n shr_1 x)).
    assert (P := pw_pos (Z.of_nat n)).
    destruct (shr_1_located q (two_to (Z.of_nat n) * u) (Nat.iter n shr_1 x)) as [A B]; auto.
    + nra.
    + rewrite IH2. apply Z.div_pos; [assumption|]. apply Z.pow_pos_nonneg; lia.
    + rewrite Nat2Z.inj_succ. unfold Z.succ. split.
      * eapply located_unit; [|exact A]. rewrite pw_succ. ring.
      * rewrite B, IH2, Z.pow_add_r by lia. change (2 ^ 1) with 2.
        apply Z.div_div; [apply Z.pow_nonzero; lia|lia].
Qed.

(** Shifting by [n >= 0]. *)
Lemma shr_located q m e l n : 0 <= m -> 0 <= n -> located q (two_to e) m l ->
  let '(x, e') := shr (shr_record_of_loc m l) e n in
  e' = e + n /\ shr_m x = m / 2 ^ n /\ located q (two_to e') (shr_m x) (loc_of_shr_record x).
Proof.
  intros M N H.
  assert (R : shr_m (shr_record_of_loc m l) = m /\ loc_of_shr_record (shr_record_of_loc m l) = l)
    by (destruct l as [|[]]; auto).
  destruct R as [R1 R2]. destruct n as [|n|n]; cbn [shr]; [| |lia].
  - rewrite R1, R2. change (2 ^ 0) with 1. rewrite Z.div_1_r, Z.add_0_r. auto.
  - rewrite iter_pos_nat. assert (P := pw_pos e).
    destruct (iter_located q (Pos.to_nat n) (two_to e) (shr_record_of_loc m l) P) as [A B].
    + rewrite R1. exact M.
    + rewrite R1, R2. exact H.
    + rewrite positive_nat_Z in A, B. rewrite R1 in B. split; [reflexivity|]. split; [exact B|].
      eapply located_unit; [|exact A]. rewrite Z.add_comm, pw_add. reflexivity.
Qed.

(** ** The first rounding step *)

(** The exponent is that of the result, the significand fits and is full unless the exponent is
    minimal. *)
Lemma shr_fexp_located prec emax q m e l : ok_format prec emax -> 0 <= m ->
  e <= fexp prec emax (Zdigits2 m + e) -> located q (two_to e) m l ->
  let '(x, e') := shr_fexp prec emax m e l in
  0 <= shr_m x < 2 ^ prec /\ emin_of prec emax <= e' /\
  (2 ^ (prec - 1) <= shr_m x \/ e' = emin_of prec emax) /\
  located q (two_to e') (shr_m x) (loc_of_shr_record x).
Proof.
  intros [F1 F2] M L H. unfold shr_fexp.
  assert (S := shr_located q m e l (fexp prec emax (Zdigits2 m + e) - e) M ltac:(lia) H).
  destruct (shr _ _ _) as [x e']. destruct S as (-> & X & Hl). rewrite X in *.
  replace (e + (fexp prec emax (Zdigits2 m + e) - e)) with (fexp prec emax (Zdigits2 m + e)) in * by lia.
  remember (fexp prec emax (Zdigits2 m + e)) as E eqn:HE. unfold fexp, emin in HE.
  assert (P : 0 < 2 ^ (E - e)) by (apply Z.pow_pos_nonneg; lia).
  unfold emin_of. split; [|split; [lia|split; [|exact Hl]]].
  - split; [apply Z.div_pos; lia|]. apply Z.div_lt_upper_bound; [exact P|].
    rewrite <- Z.pow_add_r by lia.
    destruct (Z.eq_dec m 0) as [->|N]; [apply Z.pow_pos_nonneg; lia|].
    destruct (digits_bounds m) as [[A B] C]; [lia|].
    apply (Z.lt_le_trans _ _ _ B). apply Z.pow_le_mono_r; lia.
  - destruct (Z.eq_dec m 0) as [->|N].
    + right. cbn [Zdigits2] in HE. lia.
    + destruct (digits_bounds m) as [[A B] C]; [lia|].
      destruct (Z.le_gt_cases (Zdigits2 m + e - prec) (3 - emax - prec)) as [G|G]; [right; lia|left].
      assert (HE' : E = Zdigits2 m + e - prec) by lia.
      apply Z.div_le_lower_bound; [exact P|]. rewrite <- Z.pow_add_r by lia.
      replace (E - e + (prec - 1)) with (Zdigits2 m - 1) by lia. exact A.
Qed.

(** ** The nearest number *)

(** Between two neighbours there is no other number. *)
Lemma no_number_between prec emax k E w : ok_format prec emax ->
  emin_of prec emax <= E -> 0 <= k -> (2 ^ (prec - 1) <= k \/ E = emin_of prec emax) ->
  representable prec emax w ->
  (w <= inject_Z k * two_to E)%Q \/ ((inject_Z k + 1) * two_to E <= w)%Q.
Proof.
  intros [F1 F2] HE K Full (m & e & Hm & He & ->).
  assert (PE := pw_pos E).
  destruct (Z.le_gt_cases E e) as [G|G].
  - rewrite (pw_shift m e E G). set (n := m * 2 ^ (e - E)).
    destruct (Z.le_gt_cases n k) as [L|L].
    + left. apply iZ_le in L. nra.
    + right. assert (L' : k + 1 <= n) by lia. apply iZ_le in L'. rewrite inject_Z_plus in L'. change (inject_Z 1) with 1%Q in L'. nra.
  - left. destruct Full as [Full|Full]; [|lia].
    assert (X : (inject_Z k * two_to E == inject_Z (k * 2 ^ (E - e)) * two_to e)%Q) by (apply pw_shift; lia).
    rewrite X. assert (Pe := pw_pos e).
    assert (L : m <= k * 2 ^ (E - e)).
    { assert (2 ^ prec <= k * 2 ^ (E - e)); [|lia].
      replace prec with ((prec - 1) + 1) by lia. rewrite Z.pow_add_r by lia.
      assert (2 ^ 1 <= 2 ^ (E - e)) by (apply Z.pow_le_mono_r; lia).
      assert (0 < 2 ^ (prec - 1)) by (apply Z.pow_pos_nonneg; lia). nia. }
    apply iZ_le in L. nra.
Qed.

Lemma Qabs_cases (x : Q) : (0 <= x /\ Qabs x == x)%Q \/ (x <= 0 /\ Qabs x == - x)%Q.
Proof.
  destruct (Qlt_le_dec x 0) as [H|H].
  - right. split; [lra|]. apply Qabs_neg. lra.
  - left. split; [lra|]. apply Qabs_pos. lra.
Qed.

(** What [round_nearest_even] picks is nearest. *)
Lemma rne_nearest prec emax q k E l : ok_format prec emax ->
  emin_of prec emax <= E -> 0 <= k -> (2 ^ (prec - 1) <= k \/ E = emin_of prec emax) ->
  located q (two_to E) k l ->
  let r := round_nearest_even k l in
  (r = k \/ r = k + 1) /\ 
  nearest_value prec emax q (inject_Z r * two_to E) (Z.Even r).
Proof.
  intros F HE K Full H r.
  assert (PE := pw_pos E).
  assert (R : r = k \/ r = k + 1).
  { unfold r. destruct l as [|[]]; cbn [round_nearest_even]; auto. destruct (Z.even k); auto. }
  split; [exact R|]. intros w Hw.
  assert (B := no_number_between prec emax k E w F HE K Full Hw).
  set (u := two_to E) in *. set (a := inject_Z k) in *.
  assert (HR : r = k -> (inject_Z r == a)%Q) by (intros ->; reflexivity).
  assert (HR' : r = k + 1 -> (inject_Z r == a + 1)%Q).
  { intros ->. rewrite inject_Z_plus. reflexivity. }
  assert (Ev : Z.Even r \/
     ((r = k -> (q < (a + (1#2)) * u)%Q) /\ (r = k + 1 -> ((a + (1#2)) * u < q)%Q))).
  { unfold r. destruct l as [|[]]; cbn [round_nearest_even located] in *; fold a in H.
    - right. split; [intros _; nra|lia].
    - left. destruct (Z.even k) eqn:E0; [apply Z.even_spec; exact E0|].
      rewrite <- Z.even_spec, Z.add_1_r, Z.even_succ, <- Z.negb_even, E0. reflexivity.
    - right. split; [intros _; tauto|lia].
    - right. split; [lia|intros _; tauto]. }
  assert (Rg : (a * u <= q)%Q /\ (q <= (a + 1) * u)%Q).
  { destruct (located_range q u k l PE H) as [X1 X2]. fold a in X1, X2. split; lra. }
  assert (Near : (r = k -> (q <= (a + (1#2)) * u)%Q) /\ (r = k + 1 -> ((a + (1#2)) * u <= q)%Q)).
  { unfold r. destruct l as [|[]]; cbn [round_nearest_even located] in *; fold a in H.
    - split; [intros _; nra|lia].
    - split; intros _; destruct H as (? & ? & ?); lra.
    - split; [intros _; destruct H as (? & ? & ?); lra|lia].
    - split; [lia|intros _; destruct H as (? & ? & ?); lra]. }
  destruct R as [R|R].
  - rewrite (HR R). destruct Near as [Near _]. specialize (Near R).
    destruct (Qabs_cases (a * u - q)) as [[A1 A2]|[A1 A2]], (Qabs_cases (w - q)) as [[B1 B2]|[B1 B2]];
      rewrite A2, B2; (split; [destruct B as [B|B]; nra|]); intros NE T;
      (destruct Ev as [Ev|[Ev _]]; [exact Ev|specialize (Ev R)]); exfalso; apply NE; destruct B as [B|B]; nra.
  - rewrite (HR' R). destruct Near as [_ Near]. specialize (Near R).
    destruct (Qabs_cases ((a + 1) * u - q)) as [[A1 A2]|[A1 A2]], (Qabs_cases (w - q)) as [[B1 B2]|[B1 B2]];
      rewrite A2, B2; (split; [destruct B as [B|B]; nra|]); intros NE T;
      (destruct Ev as [Ev|[_ Ev]]; [exact Ev|specialize (Ev R)]); exfalso; apply NE; destruct B as [B|B]; nra.
Qed.

(** ** Signs *)
Lemma Qabs_signed neg q : (Qabs (signed neg q) == Qabs q)%Q.
Proof. destruct neg; cbn [signed]; [apply Qabs_opp|reflexivity]. Qed.

Lemma representable_opp prec emax w : representable prec emax w -> representable prec emax (- w)%Q.
Proof.
  intros (m & e & Hm & He & Hw). exists (- m), e. rewrite Z.abs_opp. split; [exact Hm|]. split; [exact He|].
  rewrite Hw, inject_Z_opp. ring.
Qed.

Lemma nearest_eq prec emax q v v' (ev ev' : Prop) : (v == v')%Q -> (ev -> ev') ->
  nearest_value prec emax q v ev -> nearest_value prec emax q v' ev'.
Proof.
  intros E I H w Hw. destruct (H w Hw) as [A B]. rewrite <- E. split; [exact A|]. intros C D. apply I, B; assumption.
Qed.
Lemma nearest_arg prec emax q q' v ev : (q == q')%Q ->
  nearest_value prec emax q v ev -> nearest_value prec emax q' v ev.
Proof. intros E H w Hw. destruct (H w Hw) as [A B]. rewrite <- E. split; [exact A|exact B]. Qed.

Lemma nearest_signed prec emax neg q v ev : nearest_value prec emax q v ev ->
  nearest_value prec emax (signed neg q) (signed neg v) ev.
Proof.
  intros H. destruct neg; [|exact H]. intros w Hw. destruct (H _ (representable_opp _ _ _ Hw)) as [A B].
  cbn [signed].
  assert (E1 : (Qabs (- v - - q) == Qabs (v - q))%Q).
  { rewrite <- Qabs_opp. apply Qabs_wd. ring. }
  assert (E2 : (Qabs (w - - q) == Qabs (- w - q))%Q).
  { rewrite <- Qabs_opp. apply Qabs_wd. ring. }
  rewrite E1, E2. split; [exact A|]. intros C D. apply B; [|exact D].
  intros X. apply C. rewrite <- X. ring.
Qed.

Lemma too_large_signed prec emax neg q : too_large prec emax (signed neg q) <-> too_large prec emax q.
Proof. unfold too_large. rewrite Qabs_signed. reflexivity. Qed.

(** ** Rounding *)
Lemma round_aux_nearest prec emax neg q m e l : ok_format prec emax -> 0 <= m ->
  e <= fexp prec emax (Zdigits2 m + e) -> located q (two_to e) m l ->
  rounds_to prec emax neg (signed neg q) (binary_round_aux prec emax neg m e l).
Proof.
  intros F M L H. unfold binary_round_aux.
  assert (S := shr_fexp_located prec emax q m e l F M L H).
  destruct (shr_fexp prec emax m e l) as [x E]. destruct S as ([K1 K2] & HE & Full & Hl).
  set (k := shr_m x) in *. set (lx := loc_of_shr_record x) in *.
  destruct (rne_nearest prec emax q k E lx F HE K1 Full Hl) as [R N].
  assert (Hq : (0 <= q)%Q).
  { destruct (located_range q (two_to E) k lx (pw_pos E) Hl) as [X1 X2].
    apply iZ_le in K1. change (inject_Z 0) with 0%Q in K1. assert (P := pw_pos E). nra. }
  assert (Range := located_range q (two_to E) k lx (pw_pos E) Hl).
  (* rounding up from an odd number happens from the middle on *)
  assert (Up : round_nearest_even k lx = k + 1 -> ((inject_Z k + (1#2)) * two_to E <= q)%Q).
  { destruct lx as [|[]]; cbn [round_nearest_even located] in *; intros Z; try lia; destruct Hl as (? & ? & ?); lra. }
  assert (Down : round_nearest_even k lx = k -> Z.even k = false -> (q < (inject_Z k + (1#2)) * two_to E)%Q).
  { assert (P := pw_pos E).
    destruct lx as [|[]]; cbn [round_nearest_even located] in *; intros Z O; try lia.
    - nra.
    - rewrite O in Z. lia.
    - destruct Hl as (? & ? & ?). assumption. }
  set (r := round_nearest_even k lx) in *. clearbody r. clear Hl.
  destruct F as [F1 F2].
  assert (P2 : 2 ^ prec = 2 * 2 ^ (prec - 1)).
  { replace prec with (1 + (prec - 1)) at 1 by lia. rewrite Z.pow_add_r by lia. reflexivity. }
  assert (P3 : 2 ^ (prec + 1) = 2 * 2 ^ prec) by (rewrite Z.pow_add_r by lia; lia).
  assert (P4 : 0 < 2 ^ (prec - 1)) by (apply Z.pow_pos_nonneg; lia).
  assert (P5 : exists h, 2 ^ (prec - 1) = 2 * h).
  { exists (2 ^ (prec - 2)). replace (prec - 1) with (1 + (prec - 2)) by lia. rewrite Z.pow_add_r by lia. reflexivity. }
  assert (R' : 0 <= r <= 2 ^ prec) by lia.
  (* beyond the largest number *)
  assert (Large : (emax - prec < E \/ (E = emax - prec /\ r = 2 ^ prec)) -> too_large prec emax q).
  { unfold too_large. rewrite Qabs_pos by exact Hq. intros [G|[G1 G2]].
    - assert (A : E <> emin_of prec emax) by (unfold emin_of; lia).
      destruct Full as [Full|]; [|contradiction].
      assert (B : (two_to (emax - prec + 1) <= two_to E)%Q) by (apply pw_le; lia).
      replace (emax - prec + 1) with (emax - prec - 1 + 1 + 1) in B by lia. rewrite !pw_succ in B.
      set (t := two_to (emax - prec - 1)) in *. assert (PT := pw_pos (emax - prec - 1)). fold t in PT.
      apply iZ_le in Full. assert (C : (inject_Z (2 ^ (prec + 1) - 1) <= inject_Z (4 * 2 ^ (prec - 1)))%Q) by (apply iZ_le; lia).
      rewrite inject_Z_mult in C. change (inject_Z 4) with 4%Q in C. apply iZ_lt in P4. change (inject_Z 0) with 0%Q in P4.
      nra.
    - assert (k = 2 ^ prec - 1) by lia. specialize (Up ltac:(lia)).
      rewrite G1 in Up. replace (emax - prec) with (emax - prec - 1 + 1) in Up by lia. rewrite pw_succ in Up.
      set (t := two_to (emax - prec - 1)) in *. assert (PT := pw_pos (emax - prec - 1)). fold t in PT.
      assert (X : (inject_Z (2 ^ (prec + 1) - 1) == 2 * inject_Z k + 1)%Q).
      { subst k. rewrite H0. replace (2 ^ (prec + 1) - 1) with (2 * (2 ^ prec - 1) + 1) by lia.
        rewrite inject_Z_plus, inject_Z_mult. reflexivity. }
      rewrite X. nra. }
  assert (Small : E < emax - prec \/ (E = emax - prec /\ r < 2 ^ prec) -> ~ too_large prec emax q).
  { unfold too_large. rewrite Qabs_pos by exact Hq. intros G T.
    set (t := two_to (emax - prec - 1)) in *. assert (PT := pw_pos (emax - prec - 1)). fold t in PT.
    destruct G as [G|[G1 G2]].
    - assert (B : (two_to E <= t)%Q) by (apply pw_le; lia).
      assert (C : (inject_Z k + 1 <= inject_Z (2 ^ prec))%Q).
      { change 1%Q with (inject_Z 1). rewrite <- inject_Z_plus. apply iZ_le. lia. }
      assert (D : (inject_Z (2 ^ prec) <= inject_Z (2 ^ (prec + 1) - 1))%Q) by (apply iZ_le; lia).
      apply iZ_le in K1. change (inject_Z 0) with 0%Q in K1. nra.
    - assert (B : (two_to E == 2 * t)%Q).
      { rewrite G1. replace (emax - prec) with (emax - prec - 1 + 1) by lia. apply pw_succ. }
      destruct (Z.eq_dec k (2 ^ prec - 1)) as [Hk|Hk].
      + assert (O : Z.even k = false).
        { rewrite Hk, P2. rewrite Z.even_sub, Z.even_mul. reflexivity. }
        specialize (Down ltac:(lia) O).
        assert (X : (inject_Z (2 ^ (prec + 1) - 1) == 2 * inject_Z k + 1)%Q).
        { rewrite Hk. replace (2 ^ (prec + 1) - 1) with (2 * (2 ^ prec - 1) + 1) by lia.
          rewrite inject_Z_plus, inject_Z_mult. reflexivity. }
        rewrite X in T. rewrite B in Down. nra.
      + assert (C : (2 * inject_Z k + 2 <= inject_Z (2 ^ (prec + 1) - 1))%Q).
        { change 2%Q with (inject_Z 2). rewrite <- inject_Z_mult, <- inject_Z_plus. apply iZ_le. lia. }
        destruct Range as [_ Range]. rewrite B in Range. nra. }
  (* the second step *)
  assert (Z2 : (r = 2 ^ prec /\ shr_fexp prec emax r E loc_Exact =
                  ({| shr_m := 2 ^ (prec - 1); shr_r := false; shr_s := false |}, E + 1)) \/
               (r < 2 ^ prec /\ shr_fexp prec emax r E loc_Exact =
                  ({| shr_m := r; shr_r := false; shr_s := false |}, E))).
  { unfold shr_fexp, fexp, emin. unfold emin_of in HE. destruct (Z.eq_dec r (2 ^ prec)) as [E0|E0]; [left|right].
    - split; [exact E0|]. rewrite E0. rewrite (digits_unique (2 ^ prec) (prec + 1)).
      2: lia. 2:{ replace (prec + 1 - 1) with prec by lia. lia. }
      replace (Z.max (prec + 1 + E - prec) (3 - emax - prec) - E) with 1 by lia.
      cbn [shr shr_record_of_loc iter_pos]. f_equal. rewrite P2.
      destruct (2 ^ (prec - 1)) as [|p|p]; [lia|reflexivity|lia].
    - split; [lia|]. assert (D : Zdigits2 r <= prec) by (apply digits_le; lia).
      assert (X : Z.max (Zdigits2 r + E - prec) (3 - emax - prec) - E <= 0) by lia.
      destruct (Z.max (Zdigits2 r + E - prec) (3 - emax - prec) - E); [reflexivity|lia|reflexivity]. }
  destruct Z2 as [[Hr ->]|[Hr ->]]; cbn [shr_m].
  - destruct (2 ^ (prec - 1)) as [|p|p] eqn:Ep; [lia| |lia].
    destruct (Zle_bool (E + 1) (emax - prec)) eqn:C.
    + apply Zle_bool_imp_le in C. cbn [rounds_to]. rewrite Ep, too_large_signed. unfold emin_of in *.
      split; [reflexivity|]. split; [apply Small; lia|]. split; [lia|]. split; [lia|]. split; [lia|].
      cbn [fvalue]. apply nearest_signed. eapply nearest_eq; [| |exact N].
      * rewrite pw_succ, Hr, P2, inject_Z_mult. change (inject_Z 2) with 2%Q. ring.
      * intros _. destruct P5 as [h P5]. exists h. exact P5.
    + split; [reflexivity|]. apply too_large_signed. apply Large.
      rewrite <- Z.leb_antisym in C || idtac. apply Z.leb_gt in C. lia.
  - destruct r as [|p|p]; [| |lia].
    + split; [reflexivity|]. split.
      * rewrite too_large_signed. apply Small.
        assert (E = emin_of prec emax) by (destruct Full; [lia|assumption]). unfold emin_of in *. lia.
      * eapply nearest_eq; [| |exact (nearest_signed prec emax neg q _ _ N)]; [|trivial].
        destruct neg; cbn [signed]; change (inject_Z 0) with 0%Q; ring.
    + destruct (Zle_bool E (emax - prec)) eqn:C.
      * apply Zle_bool_imp_le in C. cbn [rounds_to]. rewrite too_large_signed.
        split; [reflexivity|]. split; [apply Small; lia|]. split; [lia|]. split; [lia|]. split; [lia|].
        cbn [fvalue]. apply nearest_signed. exact N.
      * split; [reflexivity|]. apply too_large_signed. apply Large. apply Z.leb_gt in C. lia.
Qed.

Lemma rounds_arg prec emax neg q q' x : (q == q')%Q -> rounds_to prec emax neg q x -> rounds_to prec emax neg q' x.
Proof.
  intros E. assert (T : too_large prec emax q <-> too_large prec emax q') by (unfold too_large; rewrite E; reflexivity).
  assert (N : forall v ev, nearest_value prec emax q v ev -> nearest_value prec emax q' v ev)
    by (intros v ev; apply nearest_arg; exact E).
  destruct x; cbn [rounds_to].
  - rewrite T. intros (A & B & C). auto.
  - rewrite T. tauto.
  - tauto.
  - rewrite T. intros (A & B & C & D & G & H). auto 10.
Qed.

Lemma shift_pos_mul d p : Zpos (shift_pos d p) = Zpos p * 2 ^ Zpos d.
Proof. rewrite shift_pos_correct, Z.mul_comm. reflexivity. Qed.

Lemma round_nearest prec emax neg p e : ok_format prec emax ->
  rounds_to prec emax neg (signed neg (inject_Z (Zpos p) * two_to e)) (binary_round prec emax neg p e).
Proof.
  intros F. unfold binary_round, shl_align.
  set (E := fexp prec emax (Zpos (digits2_pos p) + e)).
  destruct (E - e) as [|n|n] eqn:D.
  - apply round_aux_nearest; auto; [lia|cbn [Zdigits2]; fold E; lia|reflexivity].
  - apply round_aux_nearest; auto; [lia|cbn [Zdigits2]; fold E; lia|reflexivity].
  - assert (X : Zpos (shift_pos n p) = Zpos p * 2 ^ (e - E)) by (rewrite shift_pos_mul; f_equal; f_equal; lia).
    apply round_aux_nearest; auto; [lia| |].
    + replace (Zdigits2 (Zpos (shift_pos n p)) + E) with (Zpos (digits2_pos p) + e); [fold E; lia|].
      rewrite X. destruct (digits_bounds (Zpos p)) as [[A B] C]; [lia|]. cbn [Zdigits2] in A, B, C.
      rewrite (digits_unique _ (Zpos (digits2_pos p) + (e - E))); [lia|lia|].
      replace (Zpos (digits2_pos p) + (e - E) - 1) with ((Zpos (digits2_pos p) - 1) + (e - E)) by lia.
      rewrite !Z.pow_add_r by lia. assert (0 < 2 ^ (e - E)) by (apply Z.pow_pos_nonneg; lia). nia.
    + cbn [located]. rewrite X. apply pw_shift. lia.
Qed.

Lemma normalize_nearest prec emax z e szero : ok_format prec emax -> z <> 0 ->
  rounds_to prec emax (z <? 0) (inject_Z z * two_to e) (binary_normalize prec emax z e szero).
Proof.
  intros F N. destruct z as [|p|p]; [contradiction| |]; cbn [binary_normalize].
  - exact (round_nearest prec emax false p e F).
  - eapply rounds_arg; [|exact (round_nearest prec emax true p e F)]. cbn [signed].
    change (Zneg p) with (- Zpos p). rewrite inject_Z_opp. ring.
Qed.

(** Zero. *)
Lemma zero_nearest prec emax neg q : ok_format prec emax -> (q == 0)%Q ->
  rounds_to prec emax neg q (S754_zero neg).
Proof.
  intros [F1 F2] E. apply (rounds_arg _ _ _ 0%Q); [symmetry; exact E|]. split; [reflexivity|]. split.
  - unfold too_large. change (Qabs 0) with 0%Q. intros H. assert (P := pw_pos (emax - prec - 1)).
    assert (X : 0 < 2 ^ (prec + 1) - 1).
    { assert (2 ^ 1 <= 2 ^ (prec + 1)) by (apply Z.pow_le_mono_r; lia). lia. }
    apply iZ_lt in X. change (inject_Z 0) with 0%Q in X. nra.
  - intros w Hw. split; [|auto]. change (Qabs (0 - 0)) with 0%Q. apply Qabs_nonneg.
Qed.

(** ** Integers *)
Lemma int_nearest prec emax z : ok_format prec emax ->
  rounds_to prec emax (z <? 0) (inject_Z z) (int_to_float prec emax z).
Proof.
  intros F. unfold int_to_float. destruct (Z.eq_dec z 0) as [->|N].
  - apply zero_nearest; [exact F|reflexivity].
  - eapply rounds_arg; [|apply normalize_nearest; assumption]. change (two_to 0) with 1%Q. ring.
Qed.

(** ** Between the formats *)
Lemma convert_nearest prec emax s m e : ok_format prec emax ->
  rounds_to prec emax s (fvalue (S754_finite s m e))
    (binary_normalize prec emax (cond_Zopp s (Zpos m)) e s).
Proof.
  intros F. assert (X := normalize_nearest prec emax (cond_Zopp s (Zpos m)) e s F).
  destruct s; cbn [cond_Zopp fvalue signed] in *.
  - eapply rounds_arg; [|apply X; discriminate]. change (- Zpos m) with (Zneg m).
    change (Zneg m) with (- Zpos m). rewrite inject_Z_opp. ring.
  - apply X. discriminate.
Qed.

(** ** Decimals *)
Lemma div_location q r d : 0 < d -> 0 <= r < d -> forall x u, (0 < u)%Q ->
  (x * inject_Z d == inject_Z (d * q + r) * u)%Q -> located x u q (new_location d r).
Proof.
  intros D R x u U H. rewrite inject_Z_plus, inject_Z_mult in H.
  assert (D' := iZ_lt _ _ D). change (inject_Z 0) with 0%Q in D'.
  set (a := inject_Z q) in *. set (b := inject_Z d) in *. set (c := inject_Z r) in *.
  (* compare through multiplication by [d] *)
  assert (LT : forall y z : Q, (y * b < z * b)%Q -> (y < z)%Q) by (intros y z; apply Qmult_lt_r; exact D').
  assert (EQ : forall y z : Q, (y * b == z * b)%Q -> (y == z)%Q).
  { intros y z E. apply (Qmult_inj_r y z b); [lra|exact E]. }
  assert (Rd : (c < b)%Q) by (apply iZ_lt; lia).
  assert (G : r <> 0 -> (a * u < x)%Q /\ (x < (a + 1) * u)%Q).
  { intros N. assert (C : (0 < c)%Q) by (apply (iZ_lt 0 r); lia).
    assert (CU : (0 < c * u)%Q) by nra. assert (BU : (c * u < b * u)%Q) by nra.
    split; apply LT; lra. }
  unfold new_location, new_location_even, new_location_odd.
  destruct (Z.even d) eqn:Ev.
  - destruct (Zeq_bool r 0) eqn:Z0.
    + apply Zeq_bool_eq in Z0. cbn [located]. apply EQ. rewrite H. unfold c. rewrite Z0. change (inject_Z 0) with 0%Q. fold a. ring.
    + apply Zeq_bool_neq in Z0. destruct (G Z0) as [G1 G2]. cbn [located]. fold a. split; [exact G1|]. split; [exact G2|].
      destruct (Z.compare_spec (2 * r) d) as [C|C|C].
      * apply EQ. rewrite H. assert (X : (b == 2 * c)%Q) by (unfold b; rewrite <- C, inject_Z_mult; reflexivity). rewrite X. ring.
      * apply LT. rewrite H. apply iZ_lt in C. rewrite inject_Z_mult in C. change (inject_Z 2) with 2%Q in C. fold b c in C. nra.
      * apply LT. rewrite H. apply iZ_lt in C. rewrite inject_Z_mult in C. change (inject_Z 2) with 2%Q in C. fold b c in C. nra.
  - destruct (Zeq_bool r 0) eqn:Z0.
    + apply Zeq_bool_eq in Z0. cbn [located]. apply EQ. rewrite H. unfold c. rewrite Z0. change (inject_Z 0) with 0%Q. fold a. ring.
    + apply Zeq_bool_neq in Z0. destruct (G Z0) as [G1 G2]. cbn [located]. fold a. split; [exact G1|]. split; [exact G2|].
      assert (O : exists h, d = 2 * h + 1).
      { destruct (Z.Even_or_Odd d) as [X|[h X]]; [apply Z.even_spec in X; congruence|exists h; exact X]. }
      destruct O as [h O].
      destruct (Z.compare_spec (2 * r + 1) d) as [C|C|C].
      * apply LT. rewrite H. assert (Y : 2 * r < d) by lia. apply iZ_lt in Y. rewrite inject_Z_mult in Y.
        change (inject_Z 2) with 2%Q in Y. fold b c in Y. nra.
      * apply LT. rewrite H. assert (Y : 2 * r < d) by lia. apply iZ_lt in Y. rewrite inject_Z_mult in Y.
        change (inject_Z 2) with 2%Q in Y. fold b c in Y. nra.
      * apply LT. rewrite H. assert (Y : d < 2 * r) by lia. apply iZ_lt in Y. rewrite inject_Z_mult in Y.
        change (inject_Z 2) with 2%Q in Y. fold b c in Y. nra.
Qed.

Lemma quotient_nearest prec emax neg p d x : ok_format prec emax ->
  (x * inject_Z (Zpos d) == inject_Z (Zpos p))%Q ->
  rounds_to prec emax neg (signed neg x)
    (let '(mz, ez, lz) := SFdiv_core_binary prec emax (Zpos p) 0 (Zpos d) 0 in
     binary_round_aux prec emax neg mz ez lz).
Proof.
  intros F H. unfold SFdiv_core_binary.
  set (e := Z.min (fexp prec emax (Zdigits2 (Zpos p) + 0 - (Zdigits2 (Zpos d) + 0))) (0 - 0)).
  set (m := match 0 - 0 - e with Zpos _ => Z.shiftl (Zpos p) (0 - 0 - e) | 0 => Zpos p | Zneg _ => 0 end).
  assert (He : e <= 0) by lia.
  assert (Hm : m = Zpos p * 2 ^ (- e)).
  { unfold m. replace (0 - 0 - e) with (- e) by lia. destruct (- e) as [|n|n] eqn:En; [|apply Z.shiftl_mul_pow2; lia|lia].
    rewrite Z.pow_0_r. lia. }
  destruct (Z.div_eucl m (Zpos d)) as [q r] eqn:DE.
  assert (DM := Z_div_mod m (Zpos d) ltac:(lia)). rewrite DE in DM. destruct DM as [DM R].
  assert (P : 0 < 2 ^ (- e)) by (apply Z.pow_pos_nonneg; lia).
  assert (Hq : 0 <= q) by nia.
  apply round_aux_nearest; auto.
  - destruct (digits_bounds (Zpos p)) as [[A1 B1] C1]; [lia|].
    destruct (digits_bounds (Zpos d)) as [[A2 B2] C2]; [lia|].
    set (dp := Zdigits2 (Zpos p)) in *. set (dd := Zdigits2 (Zpos d)) in *.
    assert (G : dp - dd <= Zdigits2 q + e).
    { destruct (Z.le_gt_cases (dp - dd - e) 0) as [L|L].
      - assert (0 <= Zdigits2 q) by (destruct q; cbn [Zdigits2]; lia). lia.
      - enough (dp - dd - e <= Zdigits2 q) by lia. apply digits_ge; [exact Hq| |exact L].
        assert (B : 2 ^ (dp - 1) * 2 ^ (- e) <= m) by (rewrite Hm; nia).
        rewrite <- Z.pow_add_r in B by lia.
        destruct (Z.le_gt_cases (2 ^ (dp - dd - e - 1)) q) as [|N]; [assumption|exfalso].
        assert (B3 : m < Zpos d * 2 ^ (dp - dd - e - 1)) by nia.
        assert (B4 : Zpos d * 2 ^ (dp - dd - e - 1) < 2 ^ dd * 2 ^ (dp - dd - e - 1)).
        { assert (0 < 2 ^ (dp - dd - e - 1)) by (apply Z.pow_pos_nonneg; lia). nia. }
        rewrite <- Z.pow_add_r in B4 by lia.
        replace (dd + (dp - dd - e - 1)) with (dp - 1 + - e) in B4 by lia. lia. }
    unfold fexp in *. lia.
  - apply div_location; [lia|exact R|apply pw_pos|]. rewrite <- DM, Hm, H.
    assert (X := pw_shift (Zpos p) 0 e He). replace (0 - e) with (- e) in X by lia.
    change (two_to 0) with 1%Q in X. rewrite <- X. ring.
Qed.

Lemma tens_Z n : 0 <= n -> ((10 # 1) ^ n == inject_Z (10 ^ n))%Q.
Proof.
  intros H. pattern n. apply natlike_ind; [reflexivity| |exact H].
  intros k Hk IH. rewrite Z.pow_succ_r by exact Hk. unfold Z.succ.
  rewrite Qpower_plus by discriminate. rewrite IH, inject_Z_mult. change ((10 # 1) ^ 1)%Q with (inject_Z 10). ring.
Qed.

Lemma decimal_nearest prec emax neg m e : ok_format prec emax -> 0 <= m ->
  rounds_to prec emax neg (decimal_value neg m e) (decimal_to_float prec emax neg m e).
Proof.
  intros F M. unfold decimal_to_float, decimal_value. destruct m as [|p|p]; [| |lia].
  - apply zero_nearest; [exact F|]. change (inject_Z 0) with 0%Q. destruct neg; cbn [signed]; ring.
  - destruct (0 <=? e) eqn:E.
    + apply Z.leb_le in E. assert (P : 0 < 10 ^ e) by (apply Z.pow_pos_nonneg; lia).
      assert (X := normalize_nearest prec emax (cond_Zopp neg (Zpos p * 10 ^ e)) 0 neg F).
      destruct neg; cbn [cond_Zopp signed] in *.
      * specialize (X ltac:(lia)). replace (- (Zpos p * 10 ^ e) <? 0) with true in X by (symmetry; apply Z.ltb_lt; lia).
        eapply rounds_arg; [|exact X]. rewrite inject_Z_opp, inject_Z_mult, (tens_Z e E).
        change (two_to 0) with 1%Q. ring.
      * specialize (X ltac:(lia)). replace (Zpos p * 10 ^ e <? 0) with false in X by (symmetry; apply Z.ltb_ge; lia).
        eapply rounds_arg; [|exact X]. rewrite inject_Z_mult, (tens_Z e E).
        change (two_to 0) with 1%Q. ring.
    + apply Z.leb_gt in E. assert (P : 0 < 10 ^ (- e)) by (apply Z.pow_pos_nonneg; lia).
      destruct (10 ^ (- e)) as [|d|d] eqn:Ed; try lia.
      apply quotient_nearest; [exact F|].
      assert (X : ((10 # 1) ^ e * inject_Z (Zpos d) == 1)%Q).
      { rewrite <- Ed, <- tens_Z by lia. rewrite <- Qpower_plus by discriminate.
        replace (e + - e) with 0 by lia. reflexivity. }
      rewrite <- Qmult_assoc, X. ring.
Qed.

(** ** There is only one answer *)
Lemma even_odd m : Z.Even m -> Z.Even (m + 1) -> False.
Proof. intros [a A] [b B]. lia. Qed.

(** Two numbers of full length, or at the least exponent, with the same value are the same. *)
Lemma canonical_unique prec emax m e m' e' : ok_format prec emax ->
  0 < m < 2 ^ prec -> 0 < m' < 2 ^ prec -> emin_of prec emax <= e -> emin_of prec emax <= e' ->
  (2 ^ (prec - 1) <= m \/ e = emin_of prec emax) -> (2 ^ (prec - 1) <= m' \/ e' = emin_of prec emax) ->
  (inject_Z m * two_to e == inject_Z m' * two_to e')%Q -> m = m' /\ e = e'.
Proof.
  intros [F1 F2].
  assert (W : forall m e m' e', 0 < m < 2 ^ prec -> 0 < m' < 2 ^ prec ->
    emin_of prec emax <= e -> (2 ^ (prec - 1) <= m' \/ e' = emin_of prec emax) -> e <= e' ->
    (inject_Z m * two_to e == inject_Z m' * two_to e')%Q -> m = m' /\ e = e').
  { clear m e m' e'. intros m e m' e' M M' He Full L H.
    rewrite (pw_shift m' e' e L) in H. assert (P := pw_pos e).
    assert (E : m = m' * 2 ^ (e' - e)).
    { apply inject_Z_injective. apply (Qmult_inj_r _ _ (two_to e)); [lra|exact H]. }
    destruct (Z.eq_dec e e') as [->|N]; [rewrite Z.sub_diag in E; split; lia|exfalso].
    destruct Full as [Full|Full]; [|lia].
    assert (2 ^ 1 <= 2 ^ (e' - e)) by (apply Z.pow_le_mono_r; lia).
    assert (2 ^ prec = 2 * 2 ^ (prec - 1)).
    { replace prec with (1 + (prec - 1)) at 1 by lia. rewrite Z.pow_add_r by lia. reflexivity. }
    nia. }
  intros M M' He He' Full Full' H. destruct (Z.le_gt_cases e e') as [L|L].
  - apply W; assumption.
  - destruct (W m' e' m e) as [-> ->]; auto; [lia|]. symmetry. exact H.
Qed.

(** The least number above [m * 2^e]. *)
Lemma next_up prec emax m e w : ok_format prec emax -> 0 <= m ->
  emin_of prec emax <= e -> (2 ^ (prec - 1) <= m \/ e = emin_of prec emax) ->
  representable prec emax w -> (inject_Z m * two_to e < w)%Q -> (inject_Z (m + 1) * two_to e <= w)%Q.
Proof.
  intros F M He Full R L. rewrite inject_Z_plus. change (inject_Z 1) with 1%Q.
  destruct (no_number_between prec emax m e w F He M Full R) as [A|A]; [lra|exact A].
Qed.

Definition even_float (x : spec_float) : Prop :=
  match x with S754_finite _ m _ => Z.Even (Zpos m) | _ => True end.
Definition canonical (prec emax : Z) (x : spec_float) : Prop :=
  match x with
  | S754_finite _ m e => Zpos m < 2 ^ prec /\ emin_of prec emax <= e <= emax - prec /\
                         (2 ^ (prec - 1) <= Zpos m \/ e = emin_of prec emax)
  | S754_zero _ => True
  | _ => False
  end.

Lemma canonical_representable prec emax x : ok_format prec emax -> canonical prec emax x ->
  representable prec emax (fvalue x).
Proof.
  intros [F1 F2]. destruct x as [s| | |s m e]; cbn [canonical]; try contradiction.
  - intros _. exists 0, (emin_of prec emax). split; [cbn; apply Z.pow_pos_nonneg; lia|].
    split; [unfold emin_of; lia|]. cbn [fvalue]. change (inject_Z 0) with 0%Q. ring.
  - intros (A & B & C). cbn [fvalue].
    assert (R : representable prec emax (inject_Z (Zpos m) * two_to e)) by (exists (Zpos m), e; split; [lia|split; [lia|reflexivity]]).
    destruct s; cbn [signed]; [apply representable_opp|]; exact R.
Qed.

(** Two neighbouring numbers are not both even: between two different even numbers of the same
    sign there is a third. *)
Lemma between prec emax x y : ok_format prec emax -> canonical prec emax x -> canonical prec emax y ->
  float_sign x = false -> float_sign y = false -> even_float x -> even_float y ->
  (fvalue x < fvalue y)%Q ->
  exists w, representable prec emax w /\ (fvalue x < w)%Q /\ (w < fvalue y)%Q.
Proof.
  intros F Cx Cy Sx Sy Ex Ey L. destruct F as [F1 F2]. assert (F : ok_format prec emax) by (split; assumption).
  assert (Ry := canonical_representable _ _ _ F Cy).
  (* [x] as [m * 2^e] with [m] possibly zero *)
  assert (X : exists m e, 0 <= m < 2 ^ prec /\ emin_of prec emax <= e <= emax - prec /\
     (2 ^ (prec - 1) <= m \/ e = emin_of prec emax) /\ Z.Even m /\ (fvalue x == inject_Z m * two_to e)%Q).
  { destruct x as [s| | |s m e]; cbn [canonical float_sign even_float] in *; try contradiction.
    - exists 0, (emin_of prec emax). split; [split; [lia|apply Z.pow_pos_nonneg; lia]|].
      split; [unfold emin_of; lia|]. split; [auto|]. split; [exists 0; reflexivity|].
      cbn [fvalue]. change (inject_Z 0) with 0%Q. ring.
    - subst s. exists (Zpos m), e. cbn [fvalue signed]. repeat split; try tauto; lia || reflexivity. }
  destruct X as (m & e & M & He & Full & Ev & V).
  assert (P := pw_pos e).
  assert (Pe : exists h, 2 ^ prec = 2 * h).
  { exists (2 ^ (prec - 1)). replace prec with (1 + (prec - 1)) at 1 by lia. rewrite Z.pow_add_r by lia. reflexivity. }
  assert (M1 : m + 1 < 2 ^ prec).
  { destruct Ev as [a ->]. destruct Pe as [h Pe]. lia. }
  exists (inject_Z (m + 1) * two_to e)%Q. split; [|split].
  - exists (m + 1), e. split; [lia|]. split; [exact He|reflexivity].
  - rewrite V, inject_Z_plus. change (inject_Z 1) with 1%Q. nra.
  - assert (N : (inject_Z (m + 1) * two_to e <= fvalue y)%Q).
    { apply (next_up prec emax m e); auto; try lia. rewrite <- V. exact L. }
    destruct (Qlt_le_dec (inject_Z (m + 1) * two_to e) (fvalue y)) as [|G]; [assumption|exfalso].
    assert (E : (inject_Z (m + 1) * two_to e == fvalue y)%Q) by lra.
    destruct y as [s| | |s m' e']; cbn [canonical float_sign even_float] in *; try contradiction.
    + cbn [fvalue] in E. assert (0 < inject_Z (m + 1))%Q by (apply (iZ_lt 0); lia). nra.
    + subst s. cbn [fvalue signed] in E. destruct Cy as (A & B & C).
      destruct (canonical_unique prec emax (m + 1) e (Zpos m') e' F) as [E1 E2]; auto; try lia.
      rewrite <- E1 in Ey. exact (even_odd _ Ev Ey).
Qed.

Lemma rounds_inv prec emax neg q x : rounds_to prec emax neg q x -> ~ too_large prec emax q ->
  canonical prec emax x /\ float_sign x = neg /\ nearest_value prec emax q (fvalue x) (even_float x).
Proof.
  destruct x as [s|s| |s m e]; cbn [rounds_to canonical float_sign even_float]; intros H N; try tauto.
Qed.

Lemma SFopp_facts prec emax x : canonical prec emax x ->
  canonical prec emax (SFopp x) /\ (fvalue (SFopp x) == - fvalue x)%Q /\
  (even_float x -> even_float (SFopp x)) /\ float_sign (SFopp x) = negb (float_sign x).
Proof.
  destruct x as [s|s| |s m e]; cbn [canonical SFopp fvalue even_float float_sign]; try contradiction; intros H.
  - repeat split. 
  - repeat split; try tauto. destruct s; cbn [signed negb]; ring.
Qed.

Lemma value_unique prec emax x y : ok_format prec emax -> canonical prec emax x -> canonical prec emax y ->
  float_sign x = float_sign y -> (fvalue x == fvalue y)%Q -> x = y.
Proof.
  intros F Cx Cy S E.
  assert (Pos : forall m e, (0 < inject_Z (Zpos m) * two_to e)%Q).
  { intros m e. assert (P := pw_pos e). assert (0 < inject_Z (Zpos m))%Q by (apply (iZ_lt 0); lia). nra. }
  destruct x as [s|s| |s m e], y as [s'|s'| |s' m' e']; cbn [canonical float_sign fvalue] in *; try contradiction; subst s'.
  - reflexivity.
  - specialize (Pos m' e'). destruct s; cbn [signed] in E; lra.
  - specialize (Pos m e). destruct s; cbn [signed] in E; lra.
  - destruct Cx as (A & B & C), Cy as (A' & B' & C').
    destruct (canonical_unique prec emax (Zpos m) e (Zpos m') e' F) as [E1 E2]; auto; try lia.
    + destruct s; cbn [signed] in E; lra.
    + injection E1 as <-. subst e'. reflexivity.
Qed.

Lemma near_pos_unique prec emax q x y : ok_format prec emax -> canonical prec emax x -> canonical prec emax y ->
  float_sign x = false -> float_sign y = false ->
  nearest_value prec emax q (fvalue x) (even_float x) -> nearest_value prec emax q (fvalue y) (even_float y) ->
  (fvalue x == fvalue y)%Q.
Proof.
  intros F Cx Cy Sx Sy Nx Ny.
  assert (Rx := canonical_representable _ _ _ F Cx). assert (Ry := canonical_representable _ _ _ F Cy).
  destruct (Nx _ Ry) as [X1 X2]. destruct (Ny _ Rx) as [Y1 Y2].
  assert (D : (Qabs (fvalue x - q) == Qabs (fvalue y - q))%Q) by lra.
  destruct (Qeq_dec (fvalue x) (fvalue y)) as [E|E]; [exact E|exfalso].
  assert (Ex : even_float x) by (apply X2; [intros Z; apply E; symmetry; exact Z|exact D]).
  assert (Ey : even_float y) by (apply Y2; [exact E|symmetry; exact D]).
  assert (G : exists w, representable prec emax w /\ (Qabs (w - q) < Qabs (fvalue x - q))%Q).
  { destruct (Qlt_le_dec (fvalue x) (fvalue y)) as [L|L].
    - destruct (between prec emax x y F Cx Cy Sx Sy Ex Ey L) as (w & Rw & W1 & W2). exists w. split; [exact Rw|].
      destruct (Qabs_cases (fvalue x - q)) as [[A1 A2]|[A1 A2]], (Qabs_cases (fvalue y - q)) as [[B1 B2]|[B1 B2]],
        (Qabs_cases (w - q)) as [[C1 C2]|[C1 C2]]; rewrite A2, B2 in D; rewrite A2, C2; lra.
    - assert (L' : (fvalue y < fvalue x)%Q) by lra.
      destruct (between prec emax y x F Cy Cx Sy Sx Ey Ex L') as (w & Rw & W1 & W2). exists w. split; [exact Rw|].
      destruct (Qabs_cases (fvalue x - q)) as [[A1 A2]|[A1 A2]], (Qabs_cases (fvalue y - q)) as [[B1 B2]|[B1 B2]],
        (Qabs_cases (w - q)) as [[C1 C2]|[C1 C2]]; rewrite A2, B2 in D; rewrite A2, C2; lra. }
  destruct G as (w & Rw & G). destruct (Nx w Rw) as [H _]. lra.
Qed.

Theorem rounds_unique prec emax neg q x y : ok_format prec emax ->
  rounds_to prec emax neg q x -> rounds_to prec emax neg q y -> x = y.
Proof.
  intros F Hx Hy.
  assert (T : too_large prec emax q -> forall z, rounds_to prec emax neg q z -> z = S754_infinity neg).
  { intros T z Hz. destruct z as [s|s| |s m e]; cbn [rounds_to] in Hz; try tauto. destruct Hz as [-> _]. reflexivity. }
  assert (Dec : too_large prec emax q \/ ~ too_large prec emax q).
  { unfold too_large. destruct (Qlt_le_dec (Qabs q) (inject_Z (2 ^ (prec + 1) - 1) * two_to (emax - prec - 1))%Q);
      [right; lra|left; assumption]. }
  destruct Dec as [D|D]; [rewrite (T D x Hx), (T D y Hy); reflexivity|].
  destruct (rounds_inv _ _ _ _ _ Hx D) as (Cx & Sx & Nx). destruct (rounds_inv _ _ _ _ _ Hy D) as (Cy & Sy & Ny).
  apply (value_unique prec emax); auto; [congruence|].
  destruct neg.
  - destruct (SFopp_facts prec emax x Cx) as (Cx' & Vx & Ex & Sx'). destruct (SFopp_facts prec emax y Cy) as (Cy' & Vy & Ey & Sy').
    enough (fvalue (SFopp x) == fvalue (SFopp y))%Q by (rewrite Vx, Vy in *; lra).
    apply (near_pos_unique prec emax (- q)%Q); auto.
    + rewrite Sx', Sx. reflexivity.
    + rewrite Sy', Sy. reflexivity.
    + eapply nearest_eq; [symmetry; exact Vx|exact Ex|]. exact (nearest_signed prec emax true q _ _ Nx).
    + eapply nearest_eq; [symmetry; exact Vy|exact Ey|]. exact (nearest_signed prec emax true q _ _ Ny).
  - apply (near_pos_unique prec emax q); auto.
Qed.

(** ** Exact conversions *)
Lemma rounds_exact prec emax neg q x : ok_format prec emax -> rounds_to prec emax neg q x ->
  representable prec emax q -> (fvalue x == q)%Q /\ canonical prec emax x.
Proof.
  intros [F1 F2] H R.
  assert (N : ~ too_large prec emax q).
  { destruct R as (m & e & Hm & He & E). unfold too_large. rewrite E, Qabs_Qmult.
    rewrite (Qabs_pos (two_to e)) by (assert (P := pw_pos e); lra).
    intros T. assert (L : (two_to e <= two_to (emax - prec - 1 + 1))%Q) by (apply pw_le; lia).
    rewrite pw_succ in L. set (t := two_to (emax - prec - 1)) in *. assert (PT := pw_pos (emax - prec - 1)). fold t in PT.
    change (Qabs (inject_Z m)) with (inject_Z (Z.abs m)) in T.
    assert (P3 : 2 ^ (prec + 1) = 2 * 2 ^ prec) by (rewrite Z.pow_add_r by lia; lia).
    assert (A : (2 * inject_Z (Z.abs m) < inject_Z (2 ^ (prec + 1) - 1))%Q).
    { change 2%Q with (inject_Z 2). rewrite <- inject_Z_mult. apply iZ_lt. lia. }
    assert (B : (0 <= inject_Z (Z.abs m))%Q) by (apply (iZ_le 0); lia). assert (Pe := pw_pos e). nra. }
  destruct (rounds_inv _ _ _ _ _ H N) as (C & _ & X). split; [|exact C].
  destruct (X q R) as [Y _]. assert (Z : (Qabs (q - q) == 0)%Q) by (setoid_replace (q - q)%Q with 0%Q by ring; reflexivity).
  rewrite Z in Y. destruct (Qabs_cases (fvalue x - q)) as [[A1 A2]|[A1 A2]]; rewrite A2 in Y; lra.
Qed.

(** ** The model's conversions, exactly *)
Lemma ok_single : ok_format 24 128. Proof. split; reflexivity || discriminate. Qed.
Lemma ok_double : ok_format 53 1024. Proof. split; reflexivity || discriminate. Qed.

Lemma int_converted prec emax z x : ok_format prec emax ->
  from_int prec emax z x <-> x = int_to_float prec emax z.
Proof.
  intros F. split; [intros H|intros ->; apply int_nearest; exact F].
  exact (rounds_unique _ _ _ _ _ _ F H (int_nearest prec emax z F)).
Qed.
Lemma decimal_converted prec emax neg m e x : ok_format prec emax -> 0 <= m ->
  rounds_to prec emax neg (decimal_value neg m e) x <-> x = decimal_to_float prec emax neg m e.
Proof.
  intros F M. split; [intros H|intros ->; apply decimal_nearest; assumption].
  exact (rounds_unique _ _ _ _ _ _ F H (decimal_nearest prec emax neg m e F M)).
Qed.
Lemma widen_converted x y : converted 53 1024 x y <-> y = f32_to_f64 x.
Proof.
  destruct x as [s|s| |s m e]; try reflexivity. cbn [converted f32_to_f64].
  assert (H := convert_nearest 53 1024 s m e ok_double). split; [|intros ->; exact H].
  intros H'. exact (rounds_unique _ _ _ _ _ _ ok_double H' H).
Qed.
Lemma narrow_converted x y : converted 24 128 x y <-> y = f64_to_f32 x.
Proof.
  destruct x as [s|s| |s m e]; try reflexivity. cbn [converted f64_to_f32].
  assert (H := convert_nearest 24 128 s m e ok_single). split; [|intros ->; exact H].
  intros H'. exact (rounds_unique _ _ _ _ _ _ ok_single H' H).
Qed.

(** Every rational number rounds to exactly one float. *)
Lemma rounds_total prec emax neg q : ok_format prec emax -> (0 <= q)%Q ->
  exists x, rounds_to prec emax neg (signed neg q) x.
Proof.
  intros F H. destruct q as [n d]. unfold Qle in H. cbn in H. rewrite Z.mul_1_r in H.
  destruct n as [|p|p]; [| |lia].
  - exists (S754_zero neg). apply zero_nearest; [exact F|]. destruct neg; reflexivity.
  - eexists. apply (quotient_nearest prec emax neg p d); [exact F|].
    unfold Qeq. cbn. lia.
Qed.

Lemma single_widens x y : canonical 24 128 x -> converted 53 1024 x y ->
  (fvalue y == fvalue x)%Q /\ float_sign y = float_sign x.
Proof.
  intros C H. destruct x as [s|s| |s m e]; cbn [canonical converted] in *; try contradiction.
  - subst y. split; reflexivity.
  - assert (R : representable 53 1024 (fvalue (S754_finite s m e))).
    { destruct (canonical_representable 24 128 (S754_finite s m e) ok_single C) as (k & j & K & J & E).
      exists k, j. split; [|split; [unfold emin_of in *; lia|exact E]].
      assert (2 ^ 24 <= 2 ^ 53) by (apply Z.pow_le_mono_r; lia). lia. }
    destruct (rounds_exact _ _ _ _ _ ok_double H R) as [V Cy]. split; [exact V|].
    destruct y as [s'|s'| |s' m' e']; cbn [canonical rounds_to] in *; try contradiction; destruct H as [-> _]; reflexivity.
Qed.

(** The library's notion of a proper float. *)
Lemma valid_canonical prec emax s m e : ok_format prec emax ->
  valid_binary prec emax (S754_finite s m e) = true -> canonical prec emax (S754_finite s m e).
Proof.
  intros [F1 F2] H. cbn [valid_binary] in H. unfold bounded, canonical_mantissa in H.
  apply andb_true_iff in H. destruct H as [A B]. apply Zeq_bool_eq in A. apply Zle_bool_imp_le in B.
  unfold fexp, emin in A. rewrite digits_log2 in A. cbn [canonical]. unfold emin_of.
  assert (L := Z.log2_spec (Zpos m) eq_refl). assert (N := Z.log2_nonneg (Zpos m)).
  assert (U : Zpos m < 2 ^ prec).
  { assert (2 ^ Z.succ (Z.log2 (Zpos m)) <= 2 ^ prec) by (apply Z.pow_le_mono_r; lia). lia. }
  split; [exact U|]. split; [lia|].
  destruct (Z.eq_dec e (3 - emax - prec)) as [E|E]; [right; exact E|left].
  replace (Z.log2 (Zpos m)) with (prec - 1) in L by lia. lia.
Qed.
