(** Facts about [str::trim]. *)
From Coq Require Import Ascii String NArith Bool Lia List.
From Verif Require Import Res Str StrProofs SpecParse.
Import ListNotations.

Lemma blank_forallb w : blank w <-> forallb is_ws w = true.
Proof. unfold blank. rewrite forallb_forall, Forall_forall. reflexivity. Qed.

Lemma blank_nil : blank []. Proof. constructor. Qed.
Lemma blank_app a b : blank (a ++ b) <-> blank a /\ blank b.
Proof. apply Forall_app. Qed.
Lemma blank_rev a : blank a -> blank (rev a).
Proof. apply Forall_rev. Qed.

Lemma trim_start_blank w s : blank w -> trim_start (w ++ s) = trim_start s.
Proof. intros H. apply trim_start_ws. now apply blank_forallb. Qed.

Lemma trim_start_all_blank w : blank w -> trim_start w = [].
Proof. intros H. rewrite <- (app_nil_r w), trim_start_blank; auto. Qed.

Lemma trim_start_decomp s : exists w, blank w /\ s = w ++ trim_start s.
Proof.
  destruct (trim_start_spec s) as [w [E [B _]]]. exists w. split; auto. now apply blank_forallb.
Qed.

(** A string is left alone exactly when it does not start with white space. *)
Lemma trim_start_fix s : trim_start s = s <-> s = [] \/ exists c r, s = c :: r /\ is_ws c = false.
Proof.
  split.
  - destruct s as [|c r]; auto. intros H. right. exists c, r. split; auto.
    destruct (is_ws c) eqn:E; auto. exfalso.
    assert (L := trim_start_length r). simpl in H. rewrite E in H.
    rewrite H in L. simpl in L. lia.
  - intros [->|[c [r [-> E]]]]; auto. now apply trim_start_id.
Qed.

Lemma trim_start_cases s : trim_start s = [] \/ exists c r, trim_start s = c :: r /\ is_ws c = false.
Proof. apply trim_start_fix, trim_start_idem. Qed.

Lemma trim_start_nil_blank s : trim_start s = [] -> blank s.
Proof.
  intros H. destruct (trim_start_decomp s) as [w [B E]]. rewrite H, app_nil_r in E. now subst.
Qed.

Lemma trim_end_blank s w : blank w -> trim_end (s ++ w) = trim_end s.
Proof.
  intros H. unfold trim_end. rewrite rev_app_distr, trim_start_blank; auto. now apply blank_rev.
Qed.

Lemma trim_end_decomp s : exists w, blank w /\ s = trim_end s ++ w.
Proof.
  unfold trim_end. destruct (trim_start_decomp (rev s)) as [w [B E]].
  exists (rev w). split; [now apply blank_rev|].
  rewrite <- rev_app_distr, <- E. now rewrite rev_involutive.
Qed.

Lemma trim_end_idem s : trim_end (trim_end s) = trim_end s.
Proof. unfold trim_end. now rewrite rev_involutive, trim_start_idem. Qed.

Lemma trim_start_trim_end s : trim_start s = s -> trim_start (trim_end s) = trim_end s.
Proof.
  intros H. destruct (trim_end_decomp s) as [w [B E]].
  apply trim_start_fix in H. apply trim_start_fix. destruct H as [->|[c [r [-> Hc]]]]; [now left|].
  destruct (trim_end (c :: r)) as [|c' r']; [now left|].
  right. exists c', r'. split; auto. inversion E. now subst.
Qed.

Lemma trim_idem s : trim (trim s) = trim s.
Proof.
  unfold trim. rewrite trim_start_trim_end by apply trim_start_idem. apply trim_end_idem.
Qed.

Lemma trim_fix_start s : trim s = s -> trim_start s = s.
Proof.
  intros H. rewrite <- H. unfold trim. apply trim_start_trim_end, trim_start_idem.
Qed.

Lemma trim_fix_end s : trim s = s -> trim_end s = s.
Proof. intros H. rewrite <- H. unfold trim. apply trim_end_idem. Qed.

Lemma trim_decomp s : exists w1 w2, blank w1 /\ blank w2 /\ s = w1 ++ trim s ++ w2.
Proof.
  destruct (trim_start_decomp s) as [w1 [B1 E1]].
  destruct (trim_end_decomp (trim_start s)) as [w2 [B2 E2]].
  exists w1, w2. repeat split; auto. unfold trim. now rewrite <- E2.
Qed.

Lemma trim_unique w1 m w2 : blank w1 -> blank w2 -> trim m = m -> trim (w1 ++ m ++ w2) = m.
Proof.
  intros B1 B2 H. unfold trim. rewrite trim_start_blank; auto.
  destruct m as [|c r].
  - simpl. now rewrite trim_start_all_blank.
  - assert (Hs := trim_fix_start _ H). apply trim_start_fix in Hs.
    destruct Hs as [Hs|[c' [r' [Hs Hc]]]]; [discriminate|].
    inversion Hs; subst c' r'. cbn [app]. rewrite trim_start_id; auto.
    change (c :: r ++ w2) with ((c :: r) ++ w2). rewrite trim_end_blank; auto.
    now apply trim_fix_end.
Qed.

Lemma trim_start_app_nonblank s r : ~ blank s -> trim_start (s ++ r) = trim_start s ++ r.
Proof.
  intros H. destruct (trim_start_decomp s) as [w [B E]].
  destruct (trim_start_cases s) as [Z|[c [t [Z Hc]]]].
  - exfalso. apply H. now apply trim_start_nil_blank.
  - rewrite Z in *. rewrite E at 1. rewrite <- app_assoc, trim_start_blank; auto.
    cbn [app]. now rewrite trim_start_id.
Qed.

Lemma trim_length s : (length (trim s) <= length s)%nat.
Proof.
  destruct (trim_decomp s) as [w1 [w2 [_ [_ E]]]]. rewrite E at 2. rewrite !app_length. lia.
Qed.

Lemma trim_nil_blank s : trim s = [] <-> blank s.
Proof.
  split; intros H.
  - destruct (trim_decomp s) as [w1 [w2 [B1 [B2 E]]]]. rewrite H in E. simpl in E.
    rewrite E. now apply blank_app.
  - rewrite <- (app_nil_r s). apply (trim_unique s [] []); auto using blank_nil.
Qed.
