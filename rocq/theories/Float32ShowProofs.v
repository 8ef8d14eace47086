(** Printed single-precision floats read back as the float printed: FloatShowProofs.v and
    ShortestProofs.v with the numbers of the other format. *)
From Coq Require Import Ascii String ZArith QArith Qabs Qpower NArith Bool Lia Lqa.
From Coq Require Import Floats.SpecFloat.
From Coq Require Import List.
From Verif Require Import Res BMap Str Num NumParse Fmt FmtProofs SpecNear NearProofs SpecShow SpecParse ShowProofs
  NumParseProofs SpecShown FloatShowProofs ShortestProofs.
Import ListNotations.
Local Open Scope Z_scope.

Lemma close_rounds32 m e v g : canonical 24 128 (S754_finite false m e) ->
  (inject_Z (10 ^ 16) * g <= inject_Z (Zpos m) * two_to e)%Q ->
  (2 * Qabs (v - inject_Z (Zpos m) * two_to e) <= g)%Q ->
  rounds_to 24 128 false v (S754_finite false m e).
Proof.
  cbn [canonical]. intros (M & E & Full) G V. cbn [rounds_to fvalue signed].
  set (x := (inject_Z (Zpos m) * two_to e)%Q) in *.
  assert (P := pw_pos e). assert (M1 : 1 <= Zpos m) by lia.
  assert (M1' := iZ_le _ _ M1). change (inject_Z 1) with 1%Q in M1'.
  assert (X0 : (0 < x)%Q) by (unfold x; nra).
  assert (Vx : (v - x <= g * (1 # 2) /\ x - v <= g * (1 # 2))%Q).
  { destruct (Qabs_cases (v - x)) as [[A B]|[A B]]; rewrite B in V; split; lra. }
  destruct Vx as [V1 V2]. change (inject_Z (10 ^ 16)) with (10000000000000000 # 1)%Q in G.
  split; [reflexivity|]. split; [|split; [exact M|split; [exact E|split; [exact Full|]]]].
  - unfold too_large. assert (v0 : (0 <= v)%Q) by lra. rewrite (Qabs_pos v v0). intros T.
    assert (Xm : (x <= inject_Z (2 ^ 24 - 1) * two_to 104)%Q).
    { unfold x. assert (A : Zpos m <= 2 ^ 24 - 1) by lia. apply iZ_le in A.
      assert (B : (two_to e <= two_to 104)%Q) by (apply pw_le; unfold emin_of in E; lia).
      assert (P' := pw_pos 104). apply Qle_trans with (inject_Z (2 ^ 24 - 1) * two_to e)%Q.
      - apply Qmult_le_compat_r; [exact A|lra].
      - rewrite !(Qmult_comm (inject_Z (2 ^ 24 - 1))). apply Qmult_le_compat_r; [exact B|]. discriminate. }
    assert (D : (two_to 104 == 2 * two_to 103)%Q) by (change 104 with (103 + 1); apply pw_succ).
    rewrite D in Xm. change (128 - 24 - 1) with 103 in T.
    change (inject_Z (2 ^ (24 + 1) - 1)) with (33554431 # 1)%Q in T.
    change (inject_Z (2 ^ 24 - 1)) with (16777215 # 1)%Q in Xm.
    assert (U := pw_pos 103). set (u := two_to 103) in *. clearbody u. clear - T Xm V1 G U. lra.
  - assert (Mx : (inject_Z (Zpos m) <= inject_Z (2 ^ 24))%Q) by (apply iZ_le; lia).
    change (inject_Z (2 ^ 24)) with (16777216 # 1)%Q in Mx.
    assert (S1 : (g * (1 # 2) < (1 # 2) * two_to e)%Q).
    { assert (x <= (16777216 # 1) * two_to e)%Q by (unfold x; apply Qmult_le_compat_r; lra). lra. }
    assert (Gap : forall w, representable 24 128 w ->
      (w == x)%Q \/ (g < w - x)%Q \/ (g < x - w)%Q).
    { intros w R. destruct (Qlt_le_dec x w) as [L|L].
      - right. left. assert (N := next_up 24 128 (Zpos m) e w ok_single (Zle_0_pos m) (proj1 E) Full R L).
        rewrite inject_Z_plus in N. change (inject_Z 1) with 1%Q in N.
        assert (x + two_to e <= w)%Q by (unfold x; lra). lra.
      - destruct (Qlt_le_dec w x) as [L'|L']; [|left; lra]. right. right.
        destruct (Z.eq_dec (Zpos m) (2 ^ 23)) as [Em|Em].
        + destruct (Z.eq_dec e (emin_of 24 128)) as [Ee|Ee].
          * destruct (no_number_between 24 128 (Zpos m - 1) e w ok_single) as [A|A]; try tauto; try lia.
            { replace (Zpos m) with (Zpos m - 1 + 1) in L' by lia.
              assert (inject_Z (Zpos m - 1) * two_to e == x - two_to e)%Q.
              { unfold x. unfold Z.sub. rewrite inject_Z_plus. change (inject_Z (-(1))) with (-(1))%Q. ring. }
              lra. }
            { exfalso. assert (((inject_Z (Zpos m - 1) + 1) * two_to e == x)%Q).
              { unfold x. unfold Z.sub. rewrite inject_Z_plus. change (inject_Z (-(1))) with (-(1))%Q. ring. }
              lra. }
          * destruct (no_number_between 24 128 (2 ^ 24 - 1) (e - 1) w ok_single) as [A|A];
              [lia|lia|left; lia|exact R| |].
            -- assert (D : (two_to e == 2 * two_to (e - 1))%Q)
                 by (rewrite <- pw_succ; replace (e - 1 + 1) with e by lia; reflexivity).
               assert (Xe : (x == (16777216 # 1) * two_to (e - 1))%Q).
               { unfold x. rewrite Em, D. change (inject_Z (2 ^ 23)) with (8388608 # 1)%Q. ring. }
               change (inject_Z (2 ^ 24 - 1)) with (16777215 # 1)%Q in A.
               assert (U := pw_pos (e - 1)). set (u := two_to (e - 1)) in *. clearbody u. clear - G A Xe U. lra.
            -- exfalso. assert (D : (two_to e == 2 * two_to (e - 1))%Q)
                 by (rewrite <- pw_succ; replace (e - 1 + 1) with e by lia; reflexivity).
               assert (Xe : (x == (16777216 # 1) * two_to (e - 1))%Q).
               { unfold x. rewrite Em, D. change (inject_Z (2 ^ 23)) with (8388608 # 1)%Q. ring. }
               change (inject_Z (2 ^ 24 - 1)) with (16777215 # 1)%Q in A.
               assert (U := pw_pos (e - 1)). set (u := two_to (e - 1)) in *. clearbody u. clear - L' A Xe U. lra.
        + destruct (no_number_between 24 128 (Zpos m - 1) e w ok_single) as [A|A];
            [tauto|lia|destruct Full as [F|F]; [left; change (24 - 1) with 23 in *; lia|right; exact F]|exact R| |].
          { assert (inject_Z (Zpos m - 1) * two_to e == x - two_to e)%Q.
            { unfold x. unfold Z.sub. rewrite inject_Z_plus. change (inject_Z (-(1))) with (-(1))%Q. ring. }
            lra. }
          { exfalso. assert (((inject_Z (Zpos m - 1) + 1) * two_to e == x)%Q).
            { unfold x. unfold Z.sub. rewrite inject_Z_plus. change (inject_Z (-(1))) with (-(1))%Q. ring. }
            lra. } }
    intros w R. destruct (Gap w R) as [Q|[Q|Q]].
    + split; [rewrite Q; apply Qle_refl|]. intros C. contradiction.
    + assert (Lt : (Qabs (x - v) < Qabs (w - v))%Q).
      { destruct (Qabs_cases (x - v)) as [[A B]|[A B]]; rewrite B;
          destruct (Qabs_cases (w - v)) as [[A' B']|[A' B']]; rewrite B'; lra. }
      split; [lra|]. intros _ C. exfalso. lra.
    + assert (Lt : (Qabs (x - v) < Qabs (w - v))%Q).
      { destruct (Qabs_cases (x - v)) as [[A B]|[A B]]; rewrite B;
          destruct (Qabs_cases (w - v)) as [[A' B']|[A' B']]; rewrite B'; lra. }
      split; [lra|]. intros _ C. exfalso. lra.
Qed.

Lemma floor_spec32 m e : canonical 24 128 (S754_finite false m e) ->
  let '(p, q) := fraction m e in let k := pow10_floor p q in
  ((10 # 1) ^ k <= inject_Z (Zpos m) * two_to e)%Q /\ (inject_Z (Zpos m) * two_to e < (10 # 1) ^ (k + 1))%Q.
Proof.
  cbn [canonical]. intros (M & E & _). assert (F := fraction_spec m e). destruct (fraction m e) as [p q].
  destruct F as (P & Q & R & L). cbn zeta. rewrite pow10_floor_climb, L. set (l := Z.log2 (Zpos m) + e) in *.
  assert (Lm : 0 <= Z.log2 (Zpos m) < 24).
  { split; [apply Z.log2_nonneg|]. apply Z.log2_lt_pow2; lia. }
  unfold emin_of in E. assert (G := estimate_good l ltac:(lia)). destruct G as [G1 G2].
  assert (LS := Z.log2_spec (Zpos m) eq_refl). destruct LS as [LS1 LS2].
  assert (T := pw_pos e). apply iZ_le in LS1. apply iZ_lt in LS2.
  rewrite <- pw_Z in LS1 by lia. rewrite <- pw_Z in LS2 by lia.
  assert (B1 : (two_to l <= ratio p q)%Q).
  { rewrite R. unfold l. rewrite pw_add. apply Qmult_le_compat_r; lra. }
  assert (B2 : (ratio p q < two_to (l + 1))%Q).
  { rewrite R. replace (l + 1) with (Z.succ (Z.log2 (Zpos m)) + e) by (unfold l; lia). rewrite pw_add.
    apply Qmult_lt_compat_r; lra. }
  destruct (climb_spec p q 9 (estimate l)) as [C1 C2].
  - apply ten_le_spec; [assumption..|]. lra.
  - apply not_true_iff_false. rewrite ten_le_spec by assumption. change (Z.of_nat 9) with 9.
    replace (estimate l + 9 + 1) with (estimate l + 10) by lia. lra.
  - apply ten_le_spec in C1; [|assumption..]. apply not_true_iff_false in C2. rewrite ten_le_spec in C2 by assumption.
    rewrite R in C1, C2. split; [exact C1|]. apply Qnot_le_lt. exact C2.
Qed.

Lemma search_hit32 m e : canonical 24 128 (S754_finite false m e) ->
  let '(p, q) := fraction m e in
  let is_it := fun d k => sf_same (decimal_to_float f32_prec f32_emax false d k) (S754_finite false m e) in
  let e := pow10_floor p q - (1 + Z.of_nat 16) + 1 in
  let a := if 0 <=? e then p else p * 10 ^ (- e) in let b := if 0 <=? e then q * 10 ^ e else q in
  is_it (a / b) e = true \/ is_it (a / b + 1) e = true.
Proof.
  intros C. assert (F := fraction_spec m e). assert (FL := floor_spec32 m e C).
  destruct (fraction m e) as [p q]. destruct F as (P & Q & R & _). cbn zeta in FL. destruct FL as [FL1 FL2].
  set (k10 := pow10_floor p q) in *. set (x := (inject_Z (Zpos m) * two_to e)%Q) in *.
  set (is_it := fun d k => sf_same (decimal_to_float f32_prec f32_emax false d k) (S754_finite false m e)).
  cbn zeta. change (1 + Z.of_nat 16) with 17. set (E := k10 - 17 + 1).
  set (a := if 0 <=? E then p else p * 10 ^ (- E)). set (b := if 0 <=? E then q * 10 ^ E else q).
  assert (Ab : 0 < a /\ 0 < b /\ (inject_Z a * (10 # 1) ^ E == x * inject_Z b)%Q).
  { assert (X : (inject_Z p == x * inject_Z q)%Q).
    { rewrite <- R. unfold ratio. field. apply iZ_lt in Q. change (inject_Z 0) with 0%Q in Q. lra. }
    unfold a, b. destruct (Z.leb_spec 0 E) as [G|G].
    - assert (0 < 10 ^ E) by (apply Z.pow_pos_nonneg; lia). split; [nia|]. split; [nia|].
      rewrite inject_Z_mult, tens_Z, X by exact G. ring.
    - assert (0 < 10 ^ (- E)) by (apply Z.pow_pos_nonneg; lia). split; [nia|]. split; [nia|].
      rewrite inject_Z_mult, <- X. assert (N := ten_neg (- E) ltac:(lia)). replace (- - E) with E in N by lia.
      rewrite <- Qmult_assoc, (Qmult_comm (inject_Z (10 ^ (- E)))), N. ring. }
  destruct Ab as (A & B & AB). set (g := ((10 # 1) ^ E)%Q) in *. assert (g0 : (0 < g)%Q) by apply ten_pos.
  assert (Gx : (inject_Z (10 ^ 16) * g <= x)%Q).
  { replace k10 with (16 + E) in FL1 by (unfold E; lia). rewrite ten_add in FL1.
    change ((10 # 1) ^ 16)%Q with (inject_Z (10 ^ 16)) in FL1. exact FL1. }
  assert (Dm := Z.div_mod a b ltac:(lia)). assert (Md := Z.mod_pos_bound a b B).
  set (lo := a / b) in *. set (r := a mod b) in *.
  assert (lo0 : 0 <= lo) by (apply Z.div_pos; lia).
  assert (b0 := iZ_lt _ _ B). change (inject_Z 0) with 0%Q in b0.
  rewrite Dm, inject_Z_plus, inject_Z_mult in AB.
  assert (Try : forall c, 0 <= c -> (2 * Qabs (inject_Z c * g - x) <= g)%Q -> is_it c E = true).
  { intros c C0 V. unfold is_it. assert (W := close_rounds32 m e _ g C Gx V).
    assert (Eq : S754_finite false m e = decimal_to_float 24 128 false c E).
    { apply (decimal_converted 24 128 false c E _ ok_single C0). exact W. }
    change f32_prec with 24. change f32_emax with 128. rewrite <- Eq. apply sf_same_refl. }
  destruct (Z.le_gt_cases (2 * r) b) as [Hr|Hr]; [left|right]; apply Try; try lia.
  + assert (Z1 := iZ_le _ _ (proj1 Md)). apply iZ_le in Hr. rewrite inject_Z_mult in Hr.
    change (inject_Z 2) with 2%Q in Hr. change (inject_Z 0) with 0%Q in Z1.
    set (u := inject_Z lo) in *. set (v := inject_Z r) in *. set (w := inject_Z b) in *. clearbody u v w g x.
    clear - AB Z1 Hr g0 b0.
    (* x = u g + v g / w *)
    assert (Ex : (x == u * g + v * g / w)%Q) by (apply (Qmult_inj_r _ _ w); [lra|]; rewrite <- AB; field; lra).
    assert (Y0 : (0 <= v * g / w)%Q) by (apply Qle_shift_div_l; [assumption|nra]).
    assert (Y1 : (v * g / w <= g * (1 # 2))%Q) by (apply Qle_shift_div_r; [assumption|nra]).
    destruct (Qabs_cases (u * g - x)) as [[S T]|[S T]]; rewrite T; lra.
  + assert (Z1 := iZ_lt _ _ (proj2 Md)). apply iZ_lt in Hr. rewrite inject_Z_mult in Hr.
    change (inject_Z 2) with 2%Q in Hr. rewrite inject_Z_plus. change (inject_Z 1) with 1%Q.
    set (u := inject_Z lo) in *. set (v := inject_Z r) in *. set (w := inject_Z b) in *. clearbody u v w g x.
    clear - AB Z1 Hr g0 b0.
    assert (Ex : (x == u * g + v * g / w)%Q) by (apply (Qmult_inj_r _ _ w); [lra|]; rewrite <- AB; field; lra).
    assert (Y0 : (v * g / w <= g)%Q) by (apply Qle_shift_div_r; [assumption|nra]).
    assert (Y1 : (g * (1 # 2) <= v * g / w)%Q) by (apply Qle_shift_div_l; [assumption|nra]).
    destruct (Qabs_cases ((u + 1) * g - x)) as [[S T]|[S T]]; rewrite T; lra.
Qed.

Lemma search_hits32 m e : canonical 24 128 (S754_finite false m e) ->
  let '(p, q) := fraction m e in
  let '(d, k) := shortest 17 p q (pow10_floor p q) 1
    (fun d k => sf_same (decimal_to_float f32_prec f32_emax false d k) (S754_finite false m e)) in
  0 <= d /\ rounds_to 24 128 false (decimal_value false d k) (S754_finite false m e).
Proof.
  intros C. assert (F := fraction_spec m e). assert (Hit := search_hit32 m e C).
  destruct (fraction m e) as [p q]. destruct F as (P & Q & _). set (k10 := pow10_floor p q) in *.
  set (is_it := fun d k => sf_same (decimal_to_float f32_prec f32_emax false d k) (S754_finite false m e)).
  assert (H := shortest_found is_it p q k10 17 1 16 P Q ltac:(lia)).
  destruct (shortest 17 p q k10 1 is_it) as [d k].
  destruct H as [D I].
  - exact Hit.
  - split; [exact D|]. apply sf_same_eq in I. change f32_prec with 24 in I. change f32_emax with 128 in I.
    apply (decimal_converted 24 128 false d k _ ok_single D). symmetry. exact I.
Qed.

Lemma between_rounds32 m e u t : canonical 24 128 (S754_finite false m e) ->
  rounds_to 24 128 false u (S754_finite false m e) ->
  let x := (inject_Z (Zpos m) * two_to e)%Q in
  ((u <= t /\ t <= x) \/ (x <= t /\ t <= u))%Q ->
  rounds_to 24 128 false t (S754_finite false m e).
Proof.
  intros C R x B. cbn [rounds_to fvalue signed] in *. fold x in R |- *.
  destruct R as (_ & TL & M & E & F & NV). split; [reflexivity|].
  assert (P := pw_pos e). assert (M1 : 1 <= Zpos m) by lia. apply iZ_le in M1. change (inject_Z 1) with 1%Q in M1.
  assert (X0 : (0 < x)%Q) by (unfold x; nra).
  assert (U0 : (0 < u)%Q).
  { destruct (NV 0%Q) as [N _].
    - exists 0, e. split; [reflexivity|]. split; [exact E|]. ring.
    - destruct (Qlt_le_dec 0 u) as [L|L]; [exact L|]. exfalso. revert N.
      rewrite (Qabs_pos (x - u)) by lra. rewrite (Qabs_pos (0 - u)) by lra. lra. }
  split; [|split; [exact M|split; [exact E|split; [exact F|]]]].
  - unfold too_large in *. intros T. destruct B as [[B1 B2]|[B1 B2]].
    + (* t below x: x itself is no larger than the largest number *)
      assert (S := close_rounds32 m e x 0 C). 
      assert (Z : rounds_to 24 128 false x (S754_finite false m e)).
      { apply S; [fold x; lra|]. fold x. setoid_replace (x - x)%Q with 0%Q by ring. change (Qabs 0) with 0%Q. lra. }
      cbn [rounds_to] in Z. destruct Z as (_ & Z & _). apply Z. unfold too_large.
      rewrite (Qabs_pos t) in T by lra. rewrite (Qabs_pos x) by lra. lra.
    + apply TL. rewrite (Qabs_pos t) in T by lra. rewrite (Qabs_pos u) by lra. lra.
  - intros w Rw. destruct (NV w Rw) as [N1 N2].
    destruct B as [[B1 B2]|[B1 B2]].
    + rewrite (Qabs_pos (x - u)) in N1, N2 by lra. rewrite (Qabs_pos (x - t)) by lra.
      destruct (Qabs_cases (w - u)) as [[A1 A2]|[A1 A2]]; rewrite A2 in N1, N2;
      destruct (Qabs_cases (w - t)) as [[A3 A4]|[A3 A4]]; rewrite A4; split; try lra; intros Nw Ew.
      all: first [exfalso; lra|exfalso; apply Nw; lra|apply N2; [exact Nw|lra]].
    + rewrite (Qabs_neg (x - u)) in N1, N2 by lra. rewrite (Qabs_neg (x - t)) by lra.
      destruct (Qabs_cases (w - u)) as [[A1 A2]|[A1 A2]]; rewrite A2 in N1, N2;
      destruct (Qabs_cases (w - t)) as [[A3 A4]|[A3 A4]]; rewrite A4; split; try lra; intros Nw Ew.
      all: first [exfalso; lra|exfalso; apply Nw; lra|apply N2; [exact Nw|lra]].
Qed.

Lemma search_best32 m e : canonical 24 128 (S754_finite false m e) ->
  let x := (inject_Z (Zpos m) * two_to e)%Q in
  let '(p, q) := fraction m e in
  let '(d, k) := shortest 17 p q (pow10_floor p q) 1
    (fun d k => sf_same (decimal_to_float f32_prec f32_emax false d k) (S754_finite false m e)) in
  exists N, in_digits N (decimal_value false d k) /\
    forall n w, in_digits n w -> rounds_to 24 128 false w (S754_finite false m e) ->
      N <= n /\ (n = N -> (Qabs (decimal_value false d k - x) <= Qabs (w - x))%Q).
Proof.
  intros C x. assert (F := fraction_spec m e). assert (Hit := search_hit32 m e C). assert (FL := floor_spec32 m e C).
  destruct (fraction m e) as [p q]. destruct F as (P & Q & R & _). cbn zeta in FL. fold x in R, FL. destruct FL as [FL1 FL2].
  set (k10 := pow10_floor p q) in *.
  set (is_it := fun d k => sf_same (decimal_to_float f32_prec f32_emax false d k) (S754_finite false m e)) in *.
  assert (H := shortest_best is_it p q k10 17 1 16 P Q ltac:(lia) Hit).
  destruct (shortest 17 p q k10 1 is_it) as [d k]. destruct H as (N & N1 & K & I & B & Ch).
  assert (X : (inject_Z p == x * inject_Z q)%Q).
  { rewrite <- R. unfold ratio. field. apply iZ_lt in Q. change (inject_Z 0) with 0%Q in Q. lra. }
  assert (Nb := fun i => neighbours x (gnum p i) (gden q i) ((10 # 1) ^ i) (ten_pos i)
    (proj2 (grid_pos p q i P Q)) (grid_eq p q i x P Q X)). cbn zeta in Nb.
  assert (X0 : (0 < x)%Q) by (assert (T := ten_pos k10); lra).
  assert (Yes : forall c E, 0 <= c -> rounds_to 24 128 false (inject_Z c * (10 # 1) ^ E)%Q (S754_finite false m e) ->
    is_it c E = true).
  { intros c E C0 V. unfold is_it.
    assert (Eq : S754_finite false m e = decimal_to_float 24 128 false c E)
      by (apply (decimal_converted 24 128 false c E _ ok_single C0); exact V).
    change f32_prec with 24. change f32_emax with 128. rewrite <- Eq. apply sf_same_refl. }
  assert (Lo0 : forall i, 0 <= gnum p i / gden q i).
  { intros i. destruct (grid_pos p q i P Q). apply Z.div_pos; lia. }
  exists N. unfold decimal_value. cbn [signed]. split.
  - (* the digits *)
    destruct (Nb k) as (_ & L1 & _). set (lo := gnum p k / gden q k) in *.
    assert (LoN : lo < 10 ^ N).
    { rewrite Zlt_Qlt, <- tens_Z by lia. assert (T := ten_pos k).
      replace (k10 + 1) with (N + k) in FL2 by lia. rewrite ten_add in FL2. nra. }
    assert (D : d = lo \/ d = lo + 1) by tauto. assert (L0 := Lo0 k). fold lo in L0.
    destruct (Z.eq_dec d (10 ^ N)) as [Full|Nf].
    + exists 1, (N + k). split; [|rewrite Full, (ten_add N k), (tens_Z N) by lia; change (inject_Z 1) with 1%Q; ring].
      change (Z.abs 1) with (10 ^ 0). apply Z.pow_lt_mono_r; lia.
    + exists d, k. split; [|reflexivity]. lia.
  - intros n w (m' & e' & M & W) Rw.
    assert (W0 : (0 < w)%Q).
    { cbn [rounds_to fvalue signed] in Rw. fold x in Rw. destruct Rw as (_ & _ & _ & E & _ & NV).
      destruct (NV 0%Q) as [N0 _].
      - exists 0, e. split; [reflexivity|]. split; [exact E|]. ring.
      - destruct (Qlt_le_dec 0 w) as [L|L]; [exact L|]. exfalso. revert N0.
        rewrite (Qabs_pos (x - w)) by lra. rewrite (Qabs_pos (0 - w)) by lra. lra. }
    set (E := k10 - n + 1). destruct (Nb E) as (Ex & L1 & L2).
    destruct (nearest_on_grid x w _ _ k10 n m' e' FL1 W0 eq_refl L1 L2 M W) as (n1 & Low & High). fold E in Low, High.
    set (lo := gnum p E / gden q E) in *. assert (L0 := Lo0 E). fold lo in L0.
    (* one of the neighbours will do, and is as near *)
    assert (Near : (is_it lo E = true /\ Qabs (inject_Z lo * (10 # 1) ^ E - x) <= Qabs (w - x))%Q \/
                   (is_it (lo + 1) E = true /\ (Qabs (inject_Z (lo + 1) * (10 # 1) ^ E - x) <= Qabs (w - x))%Q)).
    { destruct (Qlt_le_dec x w) as [Gt|Le].
      - right. specialize (High Gt).
        assert (I1 : (inject_Z (lo + 1) == inject_Z lo + 1)%Q) by (rewrite inject_Z_plus; reflexivity).
        split.
        + apply Yes; [lia|]. apply (between_rounds32 m e w); [exact C|exact Rw|]. fold x. right.
          rewrite I1. split; [lra|exact High].
        + rewrite I1, (Qabs_pos (w - x)) by lra. rewrite Qabs_pos by lra. lra.
      - left. specialize (Low Le). split.
        + apply Yes; [lia|]. apply (between_rounds32 m e w); [exact C|exact Rw|]. fold x. left. split; [exact Low|lra].
        + rewrite (Qabs_neg (w - x)) by lra. rewrite Qabs_neg by lra. lra. }
    split.
    + destruct (Z_le_gt_dec N n) as [|Gt]; [assumption|]. exfalso.
      destruct (B n ltac:(lia)) as [B1 B2]. fold E in B1, B2. fold lo in B1, B2.
      destruct Near as [[A _]|[A _]]; congruence.
    + intros ->. assert (Ek : E = k) by (rewrite K; reflexivity). subst lo. rewrite Ek in *. clear Ek E. set (lo := gnum p k / gden q k) in *.
      set (r := gnum p k mod gden q k) in *. set (b := gden q k) in *.
      destruct (grid_pos p q k P Q) as [_ Bp]. fold b in Bp. apply iZ_lt in Bp as b0. change (inject_Z 0) with 0%Q in b0.
      assert (g0 := ten_pos k). set (g := ((10 # 1) ^ k)%Q) in *.
      set (y := (inject_Z r * g / inject_Z b)%Q) in *.
      assert (D1 : (Qabs (inject_Z lo * g - x) == y)%Q).
      { rewrite Qabs_neg by lra. lra. }
      assert (D2 : (Qabs (inject_Z (lo + 1) * g - x) == g - y)%Q).
      { assert (I1 : (inject_Z (lo + 1) == inject_Z lo + 1)%Q) by (rewrite inject_Z_plus; reflexivity).
        rewrite I1, Qabs_pos by lra. lra. }
      destruct Ch as [[-> Ch]|[-> Ch]].
      * destruct Near as [[_ A]|[A A']]; [exact A|]. specialize (Ch A). apply iZ_lt in Ch. rewrite inject_Z_mult in Ch.
        change (inject_Z 2) with 2%Q in Ch.
        assert (Y : (y <= g * (1 # 2))%Q) by (unfold y; apply Qle_shift_div_r; [assumption|nra]). rewrite D1. rewrite D2 in A'. lra.
      * destruct Near as [[A A']|[_ A]]; [|exact A]. replace (lo + 1 - 1) with lo in Ch by lia. specialize (Ch A).
        apply iZ_le in Ch. rewrite inject_Z_mult in Ch. change (inject_Z 2) with 2%Q in Ch.
        assert (Y : (g * (1 # 2) <= y)%Q) by (unfold y; apply Qle_shift_div_l; [assumption|nra]). rewrite D2. rewrite D1 in A'. lra.
Qed.
