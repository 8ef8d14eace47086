(** Profiles and tags: order laws, bit-level facts. *)
From Coq Require Import NArith Bool List Lia.
From Verif Require Import Res BMap BMapProofs Str StrProofs Profile Tag.
Import ListNotations.
Local Open Scope N_scope.

#[export] Instance CmpLaws_profile : CmpLaws profile.
Proof.
  constructor; unfold cmp, Cmp_profile, uncased_cmp; intros.
  - apply (cmp_refl (K := ustr)).
  - apply (cmp_sym (K := ustr)).
  - eapply (cmp_lt_trans (K := ustr)); eassumption.
  - now apply (cmp_eq_l (K := ustr)).
Qed.

Lemma cmp_profile_eq p q : cmp p q = Eq <-> lower (pname p) = lower (pname q).
Proof. unfold cmp, Cmp_profile, uncased_cmp. apply ucmp_eq. Qed.

Lemma profile_eqb_eq p q : profile_eqb p q = true <-> lower (pname p) = lower (pname q).
Proof. apply uncased_eqb_eq. Qed.

Lemma profile_eqb_cmp p q : profile_eqb p q = match cmp p q with Eq => true | _ => false end.
Proof.
  destruct (profile_eqb p q) eqn:E.
  - apply profile_eqb_eq, cmp_profile_eq in E. now rewrite E.
  - destruct (cmp p q) eqn:E2; auto. apply cmp_profile_eq, profile_eqb_eq in E2. congruence.
Qed.

#[export] Instance CmpLaws_tag : CmpLaws tag.
Proof.
  constructor; unfold cmp, Cmp_tag; intros.
  - apply N.compare_refl.
  - apply N.compare_antisym.
  - apply N.compare_lt_iff in H, H0. apply N.compare_lt_iff. eapply N.lt_trans; eassumption.
  - apply N.compare_eq_iff in H. now rewrite H.
Qed.

Lemma cmp_tag_eq (a b : tag) : cmp a b = Eq <-> metadata_id a = metadata_id b.
Proof. unfold cmp, Cmp_tag. apply N.compare_eq_iff. Qed.

(** ** Bits *)
Lemma metadata_id_mask_ones : metadata_id_mask = N.ones 62.
Proof. reflexivity. Qed.

Lemma metadata_id_mod t : metadata_id t = tag_raw t mod 2 ^ 62.
Proof.
  unfold metadata_id, metadata_id_shift. rewrite N.shiftr_0_r, metadata_id_mask_ones.
  apply N.land_ones.
Qed.

Lemma metadata_id_bound t : metadata_id t < 2 ^ 62.
Proof. rewrite metadata_id_mod. apply N.mod_lt. discriminate. Qed.

Lemma profile_bits_land b : b < 4 ->
  N.land (N.shiftl b 62) profile_tag_mask = N.shiftl b 62.
Proof.
  intros H. unfold profile_tag_mask, profile_tag_shift.
  rewrite <- N.shiftl_land. f_equal. change 3 with (N.ones 2). rewrite N.land_ones.
  apply N.mod_small. exact H.
Qed.

Lemma land_low_high a b : N.land (N.land a (N.ones 62)) (N.shiftl b 62) = 0.
Proof.
  apply N.bits_inj. intros i. rewrite !N.land_spec, N.bits_0.
  destruct (N.ltb_spec i 62).
  - rewrite N.shiftl_spec_low by lia. apply andb_false_r.
  - rewrite N.ones_spec_high by lia. rewrite andb_false_r. reflexivity.
Qed.

Lemma tag_new_raw id pt :
  tag_raw (tag_new id pt) = id mod 2 ^ 62 + profile_tag_bits pt * 2 ^ 62.
Proof.
  assert (Hb : profile_tag_bits pt < 4) by (destruct pt; reflexivity).
  unfold tag_new, tag_raw, metadata_id_shift, profile_tag_shift.
  rewrite N.shiftl_0_r, profile_bits_land, metadata_id_mask_ones by auto.
  rewrite <- N.land_ones, <- N.shiftl_mul_pow2.
  rewrite <- N.lxor_lor by apply land_low_high.
  symmetry. apply N.add_nocarry_lxor. apply land_low_high.
Qed.

Lemma metadata_id_new id pt : metadata_id (tag_new id pt) = id mod 2 ^ 62.
Proof.
  rewrite metadata_id_mod, tag_new_raw, N.mod_add by discriminate.
  apply N.mod_mod. discriminate.
Qed.

Lemma profile_tag_raw t : tag_raw t < 2 ^ 64 ->
  tag_profile_tag t = profile_tag_of_bits (tag_raw t / 2 ^ 62).
Proof.
  intros H. unfold tag_profile_tag, profile_tag_mask, profile_tag_shift. f_equal.
  rewrite N.shiftr_land, N.shiftr_shiftl_l by lia.
  rewrite N.sub_diag, N.shiftl_0_r. change 3 with (N.ones 2). rewrite N.land_ones.
  rewrite N.shiftr_div_pow2. apply N.mod_small.
  apply N.div_lt_upper_bound; [discriminate|]. exact H.
Qed.

Lemma tag_new_bound id pt : tag_raw (tag_new id pt) < 2 ^ 64.
Proof.
  rewrite tag_new_raw. assert (id mod 2 ^ 62 < 2 ^ 62) by (apply N.mod_lt; discriminate).
  change (2 ^ 64) with (2 ^ 62 * 4). change (2^62) with 4611686018427387904 in *.
  destruct pt; cbn [profile_tag_bits]; lia.
Qed.

Lemma profile_tag_new id pt : tag_profile_tag (tag_new id pt) = pt.
Proof.
  rewrite profile_tag_raw by apply tag_new_bound. rewrite tag_new_raw.
  rewrite N.add_comm, N.div_add_l by discriminate.
  rewrite (N.div_small (id mod 2 ^ 62)) by (apply N.mod_lt; discriminate).
  rewrite N.add_0_r. now destruct pt.
Qed.

Lemma metadata_id_for_profile t p : metadata_id (for_profile t p) = metadata_id t.
Proof.
  unfold for_profile. rewrite metadata_id_new. apply N.mod_small, metadata_id_bound.
Qed.

Lemma tag_eqb_eq a b : tag_eqb a b = true <-> metadata_id a = metadata_id b.
Proof. apply N.eqb_eq. Qed.

Lemma tag_eqb_default t : tag_eqb t tag_default = true <-> metadata_id t = 0.
Proof. rewrite tag_eqb_eq. reflexivity. Qed.

Lemma is_default_spec t : is_default t = true <-> t = tag_default.
Proof.
  unfold is_default. rewrite N.eqb_eq. destruct t; unfold tag_default; simpl; split; congruence.
Qed.

(** ** The counter *)
Lemma tag_next_ret c t c' : tag_next c = (Ret t, c') ->
  c < 2 ^ 62 /\ metadata_id t = c /\ c' = c + 1.
Proof.
  unfold tag_next. destruct (metadata_id_mask <? c) eqn:E; intros H; [discriminate|].
  apply N.ltb_ge in E. change metadata_id_mask with (2 ^ 62 - 1) in E.
  assert (Hc : c < 2 ^ 62) by (change (2 ^ 62) with 4611686018427387904 in *; lia).
  inversion H; subst. split; [auto|split].
  - rewrite metadata_id_new. now apply N.mod_small.
  - apply N.mod_small. change (2 ^ 62) with 4611686018427387904 in *. lia.
Qed.

Lemma tag_next_small c : c < 2 ^ 62 ->
  tag_next c = (Ret (tag_new c PTDefault), c + 1).
Proof.
  intros H. unfold tag_next. change metadata_id_mask with (2 ^ 62 - 1).
  change (2 ^ 62) with 4611686018427387904 in *.
  destruct (N.ltb_spec (4611686018427387904 - 1) c); [lia|].
  rewrite N.mod_small by lia. reflexivity.
Qed.
