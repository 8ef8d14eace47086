(** Properties C11, C12: tags. *)
From Coq Require Import Ascii String ZArith NArith Bool List Lia.
From Verif Require Import Res BMap Str Profile ProfileProofs Tag SpecFigment SpecTag TagProofs.
Import ListNotations.
Local Open Scope N_scope.

Lemma schedule_of_length (n : N) : exists sched : list N, N.of_nat (length sched) = n.
Proof. exists (repeat 0 (N.to_nat n)). now rewrite repeat_length, N2Nat.id. Qed.

(** ** C11: for every schedule of fewer than 2^64 provide operations, by whatever threads, all
    tags handed out are pairwise different (as tags are compared) and none is the default. *)
Theorem C11_unique : forall sched, N.of_nat (length sched) < 2 ^ 64 ->
  NoDup (map metadata_id (obtained (draws sched counter_init))) /\
  Forall (fun t => tag_eqb t tag_default = false) (obtained (draws sched counter_init)).
Proof.
  intros sched H. destruct (draws_ids sched counter_init) as [H1 H2].
  - reflexivity.
  - unfold counter_init. lia.
  - split; auto. revert H2. apply Forall_impl. intros t Ht.
    destruct (tag_eqb t tag_default) eqn:E; auto. apply tag_eqb_default in E.
    unfold counter_init in Ht. lia.
Qed.
Print Assumptions C11_unique.

(** Once the 2^62 - 1 identifiers are used up, the next operation panics. *)
Theorem C11_exhaustion_panics : forall sched thread,
  2 ^ 62 - 1 <= N.of_nat (length sched) -> N.of_nat (length sched) < 2 ^ 64 - 1 ->
  draws (sched ++ [thread]) counter_init =
  draws sched counter_init ++ [(thread, Panic)].
Proof.
  intros sched th H1 H2. rewrite draws_app. f_equal.
  rewrite counter_after by reflexivity. unfold counter_init.
  rewrite N.mod_small by lia. cbn [draws].
  rewrite tag_next_panic by lia. reflexivity.
Qed.
Print Assumptions C11_exhaustion_panics.

Example C11_ex :
  map metadata_id (obtained (draws [7; 8; 7; 9] counter_init)) = [1; 2; 3; 4] /\
  N.of_nat (length [7; 8; 7; 9]) < 2 ^ 64.
Proof. split; reflexivity. Qed.

Example C11_exhaustion_ex : exists sched : list N,
  2 ^ 62 - 1 <= N.of_nat (length sched) /\ N.of_nat (length sched) < 2 ^ 64 - 1.
Proof.
  destruct (schedule_of_length (2 ^ 62)) as [sched E]. exists sched. rewrite E.
  split; vm_compute; congruence.
Qed.

(** The unconditional claim is false: after 2^64 - 1 operations (most of which panicked) the
    counter has wrapped around and the default tag is handed out. *)
Theorem C11_unbounded_refuted : exists sched thread,
  draws (sched ++ [thread]) counter_init =
  draws sched counter_init ++ [(thread, Ret tag_default)].
Proof.
  destruct (schedule_of_length (2 ^ 64 - 1)) as [sched E]. exists sched, 0.
  rewrite draws_app. f_equal. rewrite counter_after by reflexivity. rewrite E. reflexivity.
Qed.
Print Assumptions C11_unbounded_refuted.

(** ** C12 *)
Theorem C12_for_profile : forall t p,
  metadata_id (for_profile t p) = metadata_id t /\
  tag_profile_tag (for_profile t p) = tag_of_profile p.
Proof.
  intros t p. split; [apply metadata_id_for_profile|]. unfold for_profile. apply profile_tag_new.
Qed.
Print Assumptions C12_for_profile.

(** Reading the profile back: default and global exactly (up to letter case), nothing for a
    custom one. *)
Theorem C12_profile : forall t p,
  (same_profile p p_default -> tag_profile (for_profile t p) = Some p_default) /\
  (same_profile p p_global -> tag_profile (for_profile t p) = Some p_global) /\
  (is_custom p = true -> tag_profile (for_profile t p) = None).
Proof.
  intros t p. unfold tag_profile.
  rewrite (proj2 (C12_for_profile t p)). unfold tag_of_profile, is_custom. repeat split.
  - intros H. apply profile_eqb_eq in H. now rewrite H.
  - intros H. assert (H2 := H). apply profile_eqb_eq in H. rewrite H.
    destruct (profile_eqb p p_default) eqn:E; auto. apply profile_eqb_eq in E.
    unfold same_profile in H2. rewrite E in H2. discriminate.
  - rewrite andb_true_iff, !negb_true_iff. intros [H1 H2]. now rewrite H1, H2.
Qed.
Print Assumptions C12_profile.

(** Equality and order look at the identifier only, so re-tagging is invisible to them. *)
Theorem C12_invisible : forall t u p,
  tag_eqb (for_profile t p) u = tag_eqb t u /\ cmp (for_profile t p) u = cmp t u /\
  (tag_eqb t u = true <-> metadata_id t = metadata_id u) /\ (cmp t u = Eq <-> tag_eqb t u = true).
Proof.
  intros t u p. unfold tag_eqb at 1 2, cmp at 1 2, Cmp_tag.
  rewrite metadata_id_for_profile. repeat split.
  - apply tag_eqb_eq.
  - apply tag_eqb_eq.
  - intros H. apply cmp_tag_eq in H. now apply tag_eqb_eq.
  - intros H. apply cmp_tag_eq. now apply tag_eqb_eq.
Qed.
Print Assumptions C12_invisible.

Example C12_ex : let t := tag_new 12345 PTDefault in
  metadata_id (for_profile t p_global) = 12345 /\
  tag_profile (for_profile t (mkProfile (lit "GLOBAL"))) = Some p_global /\
  tag_profile (for_profile t (mkProfile (lit "debug"))) = None /\
  tag_raw (for_profile t p_global) <> tag_raw t.
Proof. repeat split. vm_compute. discriminate. Qed.
