(** Lemmas about strings. *)
From Coq Require Import Bool NArith Lia List.
From Verif Require Import BMap BMapProofs Str.
Import ListNotations.
Local Open Scope N_scope.

Lemma ueqb_refl s : ueqb s s = true.
Proof. induction s as [|c r IH]; simpl; auto. now rewrite N.eqb_refl. Qed.

Lemma ueqb_eq a b : ueqb a b = true <-> a = b.
Proof.
  split; [|intros ->; apply ueqb_refl].
  revert b; induction a as [|x a IH]; intros [|y b]; simpl; try discriminate; auto.
  intros H. apply andb_true_iff in H. destruct H as [H1 H2].
  apply N.eqb_eq in H1. f_equal; auto.
Qed.

Lemma ueqb_neq a b : ueqb a b = false <-> a <> b.
Proof. rewrite <- ueqb_eq. destruct (ueqb a b); split; congruence. Qed.

Lemma ueqb_sym a b : ueqb a b = ueqb b a.
Proof.
  destruct (ueqb a b) eqn:E; symmetry.
  - apply ueqb_eq in E. subst. apply ueqb_refl.
  - apply ueqb_neq in E. apply ueqb_neq. congruence.
Qed.

Lemma ucmp_refl s : ucmp s s = Eq.
Proof. induction s as [|c r IH]; simpl; auto. now rewrite N.compare_refl. Qed.

Lemma ucmp_eq a b : ucmp a b = Eq <-> a = b.
Proof.
  split; [|intros ->; apply ucmp_refl].
  revert b; induction a as [|x a IH]; intros [|y b]; simpl; try discriminate; auto.
  destruct (N.compare_spec x y) as [E|E|E]; try discriminate.
  intros H; f_equal; auto.
Qed.

Lemma ucmp_sym a b : ucmp b a = CompOpp (ucmp a b).
Proof.
  revert b; induction a as [|x a IH]; intros [|y b]; simpl; auto.
  rewrite (N.compare_antisym x y). destruct (x ?= y); simpl; auto.
Qed.

Lemma ucmp_lt_trans a b c : ucmp a b = Lt -> ucmp b c = Lt -> ucmp a c = Lt.
Proof.
  revert b c; induction a as [|x a IH]; intros [|y b] [|z c]; simpl; try discriminate; auto.
  destruct (N.compare_spec x y) as [E1|E1|E1], (N.compare_spec y z) as [E2|E2|E2];
    intros H1 H2; try discriminate;
    destruct (N.compare_spec x z) as [E3|E3|E3]; subst; auto; try lia.
  eapply IH; eauto.
Qed.

#[export] Instance CmpLaws_ustr : CmpLaws ustr.
Proof.
  constructor; unfold cmp, Cmp_ustr.
  - apply ucmp_refl.
  - apply ucmp_sym.
  - apply ucmp_lt_trans.
  - intros x y z H. apply ucmp_eq in H. now subst.
Qed.

#[export] Instance CmpLeibniz_ustr : CmpLeibniz ustr.
Proof. intros x y H. now apply ucmp_eq. Qed.

Lemma cmp_ustr_eq (a b : ustr) : cmp a b = Eq <-> a = b.
Proof. apply ucmp_eq. Qed.

Lemma cmp_ustr_ne (a b : ustr) : a <> b -> cmp a b <> Eq.
Proof. intros H E; apply H; now apply ucmp_eq. Qed.

Lemma ueqb_cmp a b : ueqb a b = match cmp a b with Eq => true | _ => false end.
Proof.
  unfold cmp, Cmp_ustr. destruct (ueqb a b) eqn:E.
  - apply ueqb_eq in E; subst. now rewrite ucmp_refl.
  - apply ueqb_neq in E. destruct (ucmp a b) eqn:E'; auto. apply ucmp_eq in E'. congruence.
Qed.

(** Case folding. *)
Lemma lower_c_idem c : lower_c (lower_c c) = lower_c c.
Proof.
  unfold lower_c. destruct ((65 <=? c) && (c <=? 90)) eqn:E; [|now rewrite E].
  apply andb_true_iff in E. destruct E as [E1 E2].
  apply N.leb_le in E1, E2.
  replace ((65 <=? c + 32) && (c + 32 <=? 90)) with false; auto.
  symmetry. apply andb_false_iff. right. apply N.leb_gt. lia.
Qed.

Lemma lower_idem s : lower (lower s) = lower s.
Proof. unfold lower. rewrite map_map. apply map_ext. apply lower_c_idem. Qed.

Lemma lower_app a b : lower (a ++ b) = lower a ++ lower b.
Proof. apply map_app. Qed.

Lemma lower_length s : length (lower s) = length s.
Proof. apply map_length. Qed.

Lemma utf8_len_lower c : utf8_len (lower_c c) = utf8_len c.
Proof.
  unfold lower_c. destruct ((65 <=? c) && (c <=? 90)) eqn:E; auto.
  apply andb_true_iff in E. destruct E as [E1 E2].
  apply N.leb_le in E1, E2. unfold utf8_len.
  destruct (N.ltb_spec (c + 32) 128); destruct (N.ltb_spec c 128); auto; lia.
Qed.

Lemma byte_len_lower s : byte_len (lower s) = byte_len s.
Proof. induction s as [|c r IH]; simpl; auto. now rewrite utf8_len_lower, IH. Qed.

Lemma uncased_eqb_refl a : uncased_eqb a a = true.
Proof. apply ueqb_refl. Qed.

Lemma uncased_eqb_eq a b : uncased_eqb a b = true <-> lower a = lower b.
Proof. apply ueqb_eq. Qed.

Lemma uncased_eqb_sym a b : uncased_eqb a b = uncased_eqb b a.
Proof. apply ueqb_sym. Qed.

(** Bytes. *)
Lemma utf8_len_pos c : 1 <= utf8_len c.
Proof. unfold utf8_len. repeat destruct (_ <? _); lia. Qed.

Lemma byte_len_app a b : byte_len (a ++ b) = byte_len a + byte_len b.
Proof. induction a as [|c r IH]; simpl; auto. rewrite IH. lia. Qed.

Lemma split_at_byte_app a b : split_at_byte (a ++ b) (byte_len a) = Some (a, b).
Proof.
  induction a as [|c r IH]; cbn [app byte_len].
  - destruct b; reflexivity.
  - cbn [split_at_byte]. pose proof (utf8_len_pos c).
    destruct (N.eqb_spec (utf8_len c + byte_len r) 0); [lia|].
    destruct (N.ltb_spec (utf8_len c + byte_len r) (utf8_len c)); [lia|].
    replace (utf8_len c + byte_len r - utf8_len c) with (byte_len r) by lia.
    now rewrite IH.
Qed.

Lemma split_at_byte_spec s i a b :
  split_at_byte s i = Some (a, b) <-> s = a ++ b /\ byte_len a = i.
Proof.
  split.
  - revert i a b; induction s as [|c r IH]; intros i a b; cbn [split_at_byte].
    + destruct (N.eqb_spec i 0); [|discriminate].
      intros H; inversion H; subst; auto.
    + destruct (N.eqb_spec i 0).
      * intros H; inversion H; subst; auto.
      * destruct (N.ltb_spec i (utf8_len c)); [discriminate|].
        destruct (split_at_byte r (i - utf8_len c)) as [[a' b']|] eqn:E; [|discriminate].
        intros H'; inversion H'; subst. destruct (IH _ _ _ E) as [H1 H2].
        subst r. split; auto. cbn [byte_len]. lia.
  - intros [-> <-]. apply split_at_byte_app.
Qed.

(** Splitting. *)
Lemma split_on_nonnil d s : split_on d s <> [].
Proof.
  destruct s as [|c r]; simpl; [discriminate|].
  destruct (c =? d); [discriminate|]. destruct (split_on d r); discriminate.
Qed.

Lemma split_on_app d a b : contains_c d a = false ->
  split_on d (a ++ d :: b) = a :: split_on d b.
Proof.
  induction a as [|c r IH]; simpl; intros H.
  - now rewrite N.eqb_refl.
  - apply orb_false_iff in H. destruct H as [H1 H2].
    rewrite N.eqb_sym, H1. now rewrite IH.
Qed.

Lemma split_on_none d a : contains_c d a = false -> split_on d a = [a].
Proof.
  induction a as [|c r IH]; simpl; intros H; auto.
  apply orb_false_iff in H. destruct H as [H1 H2].
  rewrite N.eqb_sym, H1. now rewrite IH.
Qed.

Lemma split_on_pieces d s : Forall (fun p => contains_c d p = false) (split_on d s).
Proof.
  induction s as [|c r IH]; simpl; [repeat constructor|].
  destruct (c =? d) eqn:E.
  - constructor; auto.
  - destruct (split_on d r) as [|p ps].
    + constructor; auto. simpl. now rewrite N.eqb_sym, E.
    + inversion IH; subst. constructor; auto. simpl. now rewrite N.eqb_sym, E.
Qed.

Lemma join_split d s : join [d] (split_on d s) = s.
Proof.
  induction s as [|c r IH]; simpl; auto.
  destruct (c =? d) eqn:E.
  - apply N.eqb_eq in E; subst c. destruct (split_on d r) as [|p ps] eqn:Es.
    + now apply split_on_nonnil in Es.
    + simpl in *. now rewrite IH.
  - destruct (split_on d r) as [|p ps] eqn:Es.
    + now apply split_on_nonnil in Es.
    + destruct ps; simpl in *; now rewrite IH.
Qed.

Lemma split_join d l : l <> [] -> Forall (fun p => contains_c d p = false) l ->
  split_on d (join [d] l) = l.
Proof.
  induction l as [|x r IH]; intros Hn H; [congruence|].
  inversion H; subst. destruct r as [|y r].
  - now apply split_on_none.
  - change (join [d] (x :: y :: r)) with (x ++ d :: join [d] (y :: r)).
    rewrite (split_on_app d x) by auto. f_equal. apply IH; auto. discriminate.
Qed.

Lemma contains_c_app c a b : contains_c c (a ++ b) = contains_c c a || contains_c c b.
Proof. apply existsb_app. Qed.

(** Trimming. *)
Lemma trim_start_spec s : exists w, s = w ++ trim_start s /\ forallb is_ws w = true /\
  (trim_start s = [] \/ exists c r, trim_start s = c :: r /\ is_ws c = false).
Proof.
  induction s as [|c r IH]; simpl.
  - exists []; auto.
  - destruct (is_ws c) eqn:E.
    + destruct IH as [w [H1 [H2 H3]]]. exists (c :: w). simpl. rewrite E, H2.
      split; [f_equal; auto|auto].
    + exists []. split; auto. split; auto. right. exists c, r; auto.
Qed.

Lemma trim_start_id c r : is_ws c = false -> trim_start (c :: r) = c :: r.
Proof. simpl; now intros ->. Qed.

Lemma trim_start_ws w s : forallb is_ws w = true -> trim_start (w ++ s) = trim_start s.
Proof.
  induction w as [|c r IH]; simpl; auto. intros H. apply andb_true_iff in H.
  destruct H as [-> H2]. auto.
Qed.

Lemma trim_start_idem s : trim_start (trim_start s) = trim_start s.
Proof.
  induction s as [|c r IH]; simpl; auto. destruct (is_ws c) eqn:E; auto. simpl. now rewrite E.
Qed.

Lemma trim_start_length s : (length (trim_start s) <= length s)%nat.
Proof. induction s as [|c r IH]; simpl; auto. destruct (is_ws c); simpl; lia. Qed.

Lemma trim_end_app_nws a c w : is_ws c = false -> forallb is_ws w = true ->
  trim_end (a ++ c :: w) = a ++ [c].
Proof.
  intros Hc Hw. unfold trim_end. rewrite rev_app_distr. simpl rev at 1.
  rewrite <- app_assoc. rewrite trim_start_ws.
  - simpl. rewrite Hc. simpl. now rewrite rev_involutive.
  - rewrite forallb_forall in *. intros x Hx. apply Hw. now apply in_rev.
Qed.

Lemma trim_end_id s : s = [] \/ (exists a c, s = a ++ [c] /\ is_ws c = false) -> trim_end s = s.
Proof.
  intros [->|[a [c [-> H]]]]; auto. now rewrite trim_end_app_nws.
Qed.

(** Prefix removal by bytes is prefix removal by characters. *)
Lemma uncased_starts_with_spec s p :
  uncased_starts_with s p = true <-> exists a b, s = a ++ b /\ lower a = lower p.
Proof.
  unfold uncased_starts_with. split.
  - destruct (split_at_byte s (byte_len p)) as [[a b]|] eqn:E; [|discriminate].
    intros H. apply split_at_byte_spec in E. destruct E as [-> E].
    exists a, b. split; auto. now apply uncased_eqb_eq.
  - intros [a [b [-> H]]].
    assert (E : byte_len p = byte_len a).
    { rewrite <- (byte_len_lower p), <- (byte_len_lower a). now rewrite H. }
    rewrite E, split_at_byte_app. now apply uncased_eqb_eq.
Qed.

Lemma strip_prefix_spec p s r : strip_prefix p s = Some r <-> s = p ++ r.
Proof.
  revert s; induction p as [|x p IH]; intros [|y s]; simpl.
  - split; congruence.
  - split; congruence.
  - split; discriminate.
  - destruct (N.eqb_spec x y).
    + rewrite IH. subst. split; [intros ->; auto | intros H; inversion H; auto].
    + split; [discriminate | intros H; inversion H; congruence].
Qed.
