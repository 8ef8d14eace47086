(** Lossy conversions. *)
From Coq Require Import Ascii String ZArith NArith Bool Lia.
From Coq Require Import List.
From Verif Require Import SpecNear NearProofs.
From Verif Require Import Res BMap Str StrProofs Profile Tag Num Value NumParse Parse SpecParse
  SpecLossy TrimProofs NumParseProofs ParseProofs.
Import ListNotations.

Lemma words_spec ws s : existsb (fun w => uncased_eqb w s) ws = true <->
  exists w, In w ws /\ same_letters s w.
Proof.
  rewrite existsb_exists. split; intros [w [I H]]; exists w; split; auto.
  - apply uncased_eqb_eq in H. now symmetry.
  - apply uncased_eqb_eq. now symmetry.
Qed.

Lemma words_disjoint s a b : In a yes_words -> In b no_words ->
  same_letters s a -> same_letters s b -> False.
Proof.
  unfold same_letters. intros Ia Ib Ha Hb. rewrite Ha in Hb.
  repeat (destruct Ia as [<-|Ia]; [repeat (destruct Ib as [<-|Ib]; [discriminate|]); destruct Ib|]).
  destruct Ia.
Qed.

Lemma to_bool_lossy_spec v b : to_bool_lossy v = Some b <-> boolish v b.
Proof.
  split.
  - destruct v as [t s|t c|t x|t n|t e|t d|t l]; cbn [to_bool_lossy]; try discriminate.
    + destruct (existsb (fun w => uncased_eqb w s) bool_true_words) eqn:Y.
      * intros H; inversion H; subst. apply words_spec in Y. destruct Y as [w [I E]].
        exact (bl_yes t s w I E).
      * destruct (existsb (fun w => uncased_eqb w s) bool_false_words) eqn:N0; [|discriminate].
        intros H; inversion H; subst. apply words_spec in N0. destruct N0 as [w [I E]].
        exact (bl_no t s w I E).
    + intros H; inversion H. constructor.
    + destruct (num_to_u128_lossy n) as [z|] eqn:E; [|discriminate].
      assert (X : exists k, n = NInt k z).
      { destruct n as [k y| |]; try discriminate. exists k.
        destruct k; cbn [num_to_u128_lossy] in E; try (now inversion E);
          destruct (0 <=? y)%Z; now inversion E. }
      destruct X as [k ->].
      destruct (Z.eqb_spec z 0) as [->|N0]; [intros H; inversion H; constructor|].
      destruct (Z.eqb_spec z 1) as [->|N1]; [intros H; inversion H; constructor|discriminate].
  - intros H. destruct H as [t b|t k|t k|t s w I E|t s w I E]; try reflexivity.
    + destruct k; reflexivity.
    + destruct k; reflexivity.
    + cbn [to_bool_lossy].
      assert (Y : existsb (fun w => uncased_eqb w s) bool_true_words = true)
        by (apply words_spec; eauto).
      now rewrite Y.
    + cbn [to_bool_lossy].
      assert (Y : existsb (fun w => uncased_eqb w s) bool_true_words = false).
      { apply not_true_iff_false. intros Y. apply words_spec in Y. destruct Y as [w' [I' E']].
        exact (words_disjoint s w' w I' I E' E). }
      assert (N0 : existsb (fun w => uncased_eqb w s) bool_false_words = true)
        by (apply words_spec; eauto).
      now rewrite Y, N0.
Qed.

Lemma in_range_holds k z : in_range k z = true <-> holds k z.
Proof.
  rewrite in_range_spec.
  destruct k; cbn [holds];
    match goal with |- (?a <= _ <= ?b)%Z <-> (?c <= _ < ?d)%Z =>
      change a with c; let d' := eval vm_compute in d in
      change b with (d - 1)%Z end; lia.
Qed.

Lemma in_range_not_holds k z : in_range k z = false <-> ~ holds k z.
Proof. rewrite <- in_range_holds. now rewrite not_true_iff_false. Qed.

Lemma try_convert_first z ks last k :
  first_holding (ks ++ [last]) z k -> try_convert z ks last = NInt k z.
Proof.
  induction ks as [|k0 ks IH]; intros [a [b [E [H F]]]]; cbn [app try_convert] in *.
  - destruct a as [|a0 a]; inversion E; subst; auto. destruct a; discriminate.
  - destruct a as [|a0 a]; inversion E; subst.
    + apply in_range_holds in H. now rewrite H.
    + inversion F as [|? ? H0 F']; subst. apply in_range_not_holds in H0. rewrite H0.
      apply IH. exists a, b. auto.
Qed.

Lemma try_convert_holding z ks last : holds last z ->
  exists k, first_holding (ks ++ [last]) z k /\ try_convert z ks last = NInt k z.
Proof.
  intros H. apply in_range_holds in H. destruct (try_convert_spec z ks last H) as [k [a [b [E [T [R F]]]]]].
  exists k. split; auto. exists a, b. split; auto. split; [now apply in_range_holds|].
  eapply Forall_impl; [|exact F]. intros k'. apply in_range_not_holds.
Qed.

Lemma first_holding_last ks z k : first_holding ks z k -> exists k', In k' ks /\ holds k' z.
Proof. intros [a [b [-> [H _]]]]. exists k. split; auto. apply in_elt. Qed.

Lemma holds_u128 z k : first_holding [U8; U16; U32; U64; U128] z k -> holds U128 z.
Proof.
  intros H. apply first_holding_last in H. destruct H as [k' [I H]].
  cbn [In] in I. destruct I as [<-|[<-|[<-|[<-|[<-|[]]]]]]; cbn [holds] in *; lia.
Qed.
Lemma holds_i128 z k : first_holding [I8; I16; I32; I64; I128] z k -> holds I128 z.
Proof.
  intros H. apply first_holding_last in H. destruct H as [k' [I H]].
  cbn [In] in I. destruct I as [<-|[<-|[<-|[<-|[<-|[]]]]]]; cbn [holds] in *; lia.
Qed.

Lemma num_from_str_spec s n : num_from_str s = Some n <-> lossy_num (trim s) n.
Proof.
  unfold num_from_str. cbv zeta. generalize (trim s). clear s. intros s. split.
  - destruct (contains_c dot s) eqn:C.
    + apply contains_dot_In in C. change (6 + 1)%N with 7%N.
      destruct (N.leb_spec (byte_len s) 7) as [L|L].
      * destruct (parse_f32 s) as [f|] eqn:P; [|discriminate]. intros H; inversion H; subst.
        apply (parse_float_near _ _ _ _ ok_single) in P. destruct P as [neg [m [e [D R]]]]. now apply (ln_short s neg m e).
      * destruct (parse_f64 s) as [f|] eqn:P; [|discriminate]. intros H; inversion H; subst.
        apply (parse_float_near _ _ _ _ ok_double) in P. destruct P as [neg [m [e [D R]]]]. now apply (ln_long s neg m e).
    + destruct s as [|c r]; [discriminate|]. destruct (N.eqb_spec c (ch "-")) as [->|Nm].
      * destruct (parse_int I128 (ch "-" :: r)) as [z|] eqn:P; [|discriminate].
        intros H. apply parse_int_spec in P. destruct P as [R T].
        apply in_range_holds in R.
        destruct (try_convert_holding z [I8; I16; I32; I64] I128 R) as [k [F Ek]].
        assert (En : n = NInt k z) by congruence. subst n. clear H Ek.
        destruct T as [T|[[ds [E _]]|[_ [ds [y [E [T ->]]]]]]].
        -- exfalso. apply numeral_head_digit in T. now apply digit_not_minus in T.
        -- discriminate.
        -- inversion E; subst. now apply ln_minus.
      * destruct (parse_int U128 (c :: r)) as [z|] eqn:P; [|discriminate].
        intros H. apply parse_int_spec in P. destruct P as [R T].
        apply in_range_holds in R.
        destruct (try_convert_holding z [U8; U16; U32; U64] U128 R) as [k [F Ek]].
        assert (En : n = NInt k z) by congruence. subst n. clear H Ek.
        destruct T as [T|[[ds [E T]]|[E _]]].
        -- now apply ln_nat.
        -- rewrite E. now apply ln_plus.
        -- discriminate.
  - intros H. destruct H as [ds z k N0 F|ds z k N0 F|ds z k N0 F|s neg m e x I L D R|s neg m e x I L D R].
    + assert (T : int_text U128 ds z) by (now left). rewrite (int_text_no_dot _ _ _ T).
      destruct ds as [|c r]; [destruct N0 as [N0 _]; now elim N0|].
      assert (Hc := numeral_head_digit _ _ _ N0). apply digit_not_minus, N.eqb_neq in Hc. rewrite Hc.
      assert (P : parse_int U128 (c :: r) = Some z).
      { apply parse_int_spec. split; auto. apply in_range_holds. now apply holds_u128 in F. }
      rewrite P. f_equal. now apply try_convert_first.
    + assert (T : int_text U128 (ch "+" :: ds) z) by (right; left; eauto).
      rewrite (int_text_no_dot _ _ _ T). change (ch "+" =? ch "-")%N with false.
      assert (P : parse_int U128 (ch "+" :: ds) = Some z).
      { apply parse_int_spec. split; auto. apply in_range_holds. now apply holds_u128 in F. }
      rewrite P. f_equal. now apply try_convert_first.
    + assert (T : int_text I128 (ch "-" :: ds) (- z)) by (right; right; split; auto; eauto).
      rewrite (int_text_no_dot _ _ _ T). rewrite N.eqb_refl.
      assert (P : parse_int I128 (ch "-" :: ds) = Some (- z)%Z).
      { apply parse_int_spec. split; auto. apply in_range_holds. now apply holds_i128 in F. }
      rewrite P. f_equal. now apply try_convert_first.
    + apply contains_dot_In in I. rewrite I. apply N.leb_le in L.
      change (6 + 1)%N with 7%N. rewrite L.
      assert (E : parse_f32 s = Some x)
        by (apply (parse_float_near _ _ _ _ ok_single); eauto).
      now rewrite E.
    + apply contains_dot_In in I. rewrite I. apply N.leb_gt in L.
      change (6 + 1)%N with 7%N. rewrite L.
      assert (E : parse_f64 s = Some x)
        by (apply (parse_float_near _ _ _ _ ok_double); eauto).
      now rewrite E.
Qed.
