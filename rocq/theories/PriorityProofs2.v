(** The winner of a priority history: data, tags and metadata. *)
From Coq Require Import NArith Bool List Lia.
From Verif Require Import Res BMap BMapProofs Str StrProofs Profile ProfileProofs Tag Num Value
  Metadata Err Coalesce Figment SpecValue SpecFigment SpecPriority SpecLookup ValueProofs
  CoalesceProofs FigmentProofs ProvProofs FigmentProofs2 PriorityProofs LookupProofs.
Import ListNotations.
Local Open Scope N_scope.

Definition good_for (l : list op) (x : value) : bool :=
  negb (is_dict x) && negb (uses_concatenation l && is_array x).

Lemma decided_good l x : decided l x <-> good_for l x = true.
Proof.
  unfold decided, good_for. rewrite andb_true_iff, !negb_true_iff, andb_false_iff.
  split; intros [H1 H2]; split; auto.
  - destruct (uses_concatenation l); auto.
  - intros H. destruct H2; congruence.
Qed.

Lemma uses_concat_In l loc o p : In (OpProvide loc o p) l -> concatenates o = true ->
  uses_concatenation l = true.
Proof. intros H1 H2. apply existsb_exists. exists (OpProvide loc o p). auto. Qed.

Lemma good_order_ok l loc o p : In (OpProvide loc o p) l -> order_ok (good_for l) o.
Proof.
  intros Hi x y Hg Hc. unfold combinable in Hc. apply orb_true_iff in Hc.
  assert (K : forall z, good_for l z = true -> is_dict z = false /\
                (concatenates o = true -> is_array z = false)).
  { intros z Hz. apply decided_good in Hz. destruct Hz as [H1 H2]. split; auto.
    intros Ho. apply H2. eapply uses_concat_In; eauto. }
  destruct Hc as [Hc|Hc].
  - apply andb_true_iff in Hc. destruct Hc as [H1 H2].
    destruct Hg as [Hg|Hg]; apply K in Hg; destruct Hg; congruence.
  - apply andb_true_iff in Hc. destruct Hc as [H1 H2]. apply andb_true_iff in H1.
    destruct H1 as [H1 H3]. destruct Hg as [Hg|Hg]; apply K in Hg; destruct Hg as [_ Hg];
      specialize (Hg H1); congruence.
Qed.

Lemma merge_order_ok l : order_ok (good_for l) Merge.
Proof.
  intros x y Hg Hc. unfold combinable in Hc. simpl in Hc. rewrite orb_false_r in Hc.
  apply andb_true_iff in Hc. destruct Hc as [H1 H2].
  destruct Hg as [Hg|Hg]; apply decided_good in Hg; destruct Hg; congruence.
Qed.

(** The winner of candidates is the first of the stacked dictionaries. *)
Definition retag_for (q : profile) (e : entry) : value -> value :=
  map_tag (fun _ => for_profile (tag_new (en_id e) PTDefault) q).

Lemma winner_app path a b : winner path (a ++ b) =
  match winner path a with Some w => Some w | None => winner path b end.
Proof.
  induction a as [|[q e] r IH]; simpl; auto. destruct (supplies q path (en_provider e)); auto.
Qed.

Lemma winner_stack path q E : path <> [] ->
  first_at path (stack q E) =
  option_map (fun w => retag_for (fst (fst w)) (snd (fst w)) (snd w)) (winner path (map (pair q) E)).
Proof.
  intros Hp. induction E as [|e r IH]; [reflexivity|]. cbn [stack map winner]. unfold supplies.
  destruct (pv_data (en_provider e)) as [m|]; auto.
  destruct (get q m) as [d|]; auto. cbn [first_at]. rewrite at_path_tagged by auto.
  unfold root. destruct (at_path path (VDict tag_default d)); cbn [option_map fst snd]; auto.
Qed.

Definition selected_stack (f : figment) (E : list entry) : list dict :=
  if is_custom (f_profile f) then stack (f_profile f) E else [].

Lemma winner_candidates path f E : path <> [] ->
  first_at path (stack p_global E ++ selected_stack f E ++ stack p_default E) =
  option_map (fun w => retag_for (fst (fst w)) (snd (fst w)) (snd w))
             (winner path (candidates (f_profile f) E)).
Proof.
  intros Hp. unfold candidates, selected_stack. rewrite !first_at_app, !winner_app.
  rewrite !winner_stack by auto.
  destruct (winner path (map (pair p_global) E)); cbn [option_map]; auto.
  destruct (is_custom (f_profile f)).
  - rewrite winner_stack by auto. destruct (winner path (map (pair (f_profile f)) E)); cbn [option_map]; auto.
  - reflexivity.
Qed.

Lemma winner_In path l q e y : winner path l = Some (q, e, y) ->
  In (q, e) l /\ supplies q path (en_provider e) = Some y.
Proof.
  induction l as [|[q2 e2] r IH]; simpl; [discriminate|].
  destruct (supplies q2 path (en_provider e2)) eqn:E.
  - intros H; inversion H; subst. auto.
  - intros H. destruct (IH H). auto.
Qed.

Lemma candidates_In q e prof E : In (q, e) (candidates prof E) -> In e E.
Proof.
  unfold candidates. rewrite !in_app_iff.
  assert (K : forall q' : profile, In (q, e) (map (pair q') E) -> In e E).
  { intros q' H. apply in_map_iff in H. destruct H as [x [H1 H2]]. now inversion H1; subst. }
  destruct (is_custom prof); intros [H|[H|H]]; eauto. contradiction.
Qed.

(** Entries: identifiers and registered metadata. *)
Definition entry_ok (f : figment) (c : N) (e : entry) : Prop :=
  en_id e < c /\ en_id e < 2 ^ 62 /\ plain (en_provider e) /\
  forall t, metadata_id t = en_id e ->
    get t (f_metadata f) = Some (md_with_location (pv_metadata (en_provider e)) (en_loc e)).

Lemma run_entries l : forall f c E f' c',
  run l f c = (Ret f', c') -> plain_ops l -> Forall (entry_ok f c) E ->
  Forall (entry_ok f' c') (priority l c E).
Proof.
  induction l as [|x r IH]; intros f c E f' c' Hrun Hp HE; cbn [run priority] in *.
  - now inversion Hrun; subst.
  - inversion Hp as [|? ? Hpx Hpr]; subst. destruct x as [loc o p|p]; cbn [run_op] in *.
    + destruct (provide loc f p o c) as [[f1| |] c1] eqn:E1; try discriminate.
      apply provide_ret in E1. destruct E1 as (Hc & -> & Hf1).
      rewrite (proj1 Hpx) in Hf1.
      assert (Hold : Forall (entry_ok f1 (c + 1)) E).
      { revert HE. apply Forall_impl. intros e (H1 & H2 & H3 & H4).
        split; [lia|]. split; auto. split; auto. intros t Ht. subst f1. cbn [f_metadata].
        rewrite get_insert_ne; [now apply H4|]. rewrite cmp_tag_eq, Ht.
        rewrite metadata_id_new_small by auto. lia. }
      assert (Hnew : entry_ok f1 (c + 1) (mkEntry c loc p)).
      { split; [simpl; lia|]. split; auto. split; auto. intros t Ht. subst f1. cbn [f_metadata en_provider en_loc].
        apply get_insert_eq. rewrite cmp_tag_eq, metadata_id_new_small by auto. exact Ht. }
      eapply IH; eauto. destruct (keeps_existing o); [apply Forall_app; auto|auto].
    + eapply IH; eauto.
Qed.

(** Retagging plain data. *)
Lemma strip_map_tag f v : strip (map_tag f v) = strip v.
Proof.
  induction v as [t s|t c|t b0|t n|t e|t d IH|t l IH] using value_ind'; try reflexivity.
  - simpl. f_equal. rewrite map_map. apply map_ext_in. intros [k x] Hx. simpl.
    rewrite Forall_forall in IH. f_equal. exact (IH _ Hx).
  - simpl. f_equal. rewrite map_map. apply map_ext_in. intros x Hx.
    rewrite Forall_forall in IH. auto.
Qed.

Lemma supplied_by_retag q e y : en_id e < 2 ^ 62 ->
  all_tags (fun t => metadata_id t = 0) y -> supplied_by q e y (retag_for q e y).
Proof.
  intros He Hy. split; [apply strip_map_tag|].
  intros p x Hx. apply reach_map_tag in Hx. destruct Hx as [z [Hz ->]].
  assert (H0 := Hy _ _ Hz). rewrite vtag_map_tag.
  assert (Ht : tag_eqb (vtag z) tag_default = true) by now apply tag_eqb_default.
  rewrite Ht. split.
  - rewrite metadata_id_for_profile. now apply metadata_id_new_small.
  - unfold for_profile. apply profile_tag_new.
Qed.

Lemma at_path_reach p : forall v x, at_path p v = Some x -> reach (map SKey p) v x.
Proof.
  induction p as [|k r IH]; intros v x H; simpl in *.
  - inversion H; subst. constructor.
  - destruct v; try discriminate. destruct (get k d) eqn:E; [|discriminate].
    econstructor; eauto.
Qed.

Lemma all_tags_at P p v x : all_tags P v -> at_path p v = Some x -> all_tags P x.
Proof.
  intros H Hx. apply at_path_reach in Hx. intros q y Hy. apply (H (map SKey p ++ q)).
  clear H. revert Hx. generalize (map SKey p) as s. clear p. intros s.
  induction 1; simpl; eauto using reach.
Qed.

Lemma supplies_plain q path p y : plain p -> supplies q path p = Some y ->
  all_tags (fun t => metadata_id t = 0) y.
Proof.
  intros [_ Hp] Hs. unfold supplies in Hs. destruct (pv_data p) as [m|]; [|discriminate].
  destruct (get q m) as [d|] eqn:E; [|discriminate]. apply get_In in E.
  destruct E as [q' [_ E]]. destruct Hp as [_ Hp]. eapply all_tags_at; eauto.
Qed.

Theorem priority_wins l c f c' :
  run l fig_new c = (Ret f, c') -> failures l = [] -> plain_ops l -> shape_compatible l ->
  exists v, merged f = Ok v /\
    forall path, path <> [] ->
    match winner path (candidates (f_profile f) (priority l c [])) with
    | None => at_path path v = None
    | Some (q, e, y) =>
        exists x, at_path path v = Some x /\ is_dict x = is_dict y /\
          (decided l y -> supplied_by q e y x /\
             get_metadata f (vtag x) =
               Some (md_with_location (pv_metadata (en_provider e)) (en_loc e)))
    end.
Proof.
  intros Hrun Hfail Hplain Hshape.
  destruct (run_stacks (good_for l) (provided_in l) Hshape l fig_new c [] f c' []
              Hrun Hfail Hplain) as (m & Hm & Hw & HU & Hs).
  { intros loc o p Hi. split; [eapply good_order_ok; eauto|]. unfold provided_in. eauto. }
  { reflexivity. }
  { split; [exact I|constructor]. }
  { constructor. }
  { intros q. apply stack_empty. }
  set (E := priority l c []) in *.
  assert (HE : Forall (entry_ok f c') E).
  { eapply run_entries; eauto. }
  rewrite (merged_ok3 f m Hm Hw). eexists. split; [reflexivity|].
  intros path Hp.
  assert (Hsel : stack_ok (good_for l) (selected_of f m) (selected_stack f E)).
  { unfold selected_of, selected_stack. destruct (is_custom _); [apply Hs|apply stack_empty]. }
  assert (C : forall q1 q2, compat_all (stack q1 E) (stack q2 E)).
  { intros q1 q2. eapply stacks_compat; eauto. }
  assert (C2 : compat_all (stack p_default E) (selected_stack f E)).
  { unfold selected_stack. destruct (is_custom _); auto. intros a b _ []. }
  assert (C3 : compat_all (selected_stack f E ++ stack p_default E) (stack p_global E)).
  { intros a b Ha Hb. apply in_app_iff in Ha. destruct Ha as [Ha|Ha].
    - unfold selected_stack in Ha. destruct (is_custom _); [|contradiction].
      eapply C; eauto.
    - eapply C; eauto. }
  assert (S1 := stack_merge _ Merge _ _ _ _ eq_refl (merge_order_ok l) (Hs p_default) Hsel C2).
  assert (S2 := stack_merge _ Merge _ _ _ _ eq_refl (merge_order_ok l) S1 (Hs p_global) C3).
  destruct S2 as [_ S2]. specialize (S2 path Hp).
  rewrite winner_candidates in S2 by auto.
  change (VDict tag_default (dmerge (dmerge (data_of m p_default) (selected_of f m)) (data_of m p_global)))
    with (root (dcoalesce Merge (dcoalesce Merge (data_of m p_default) (selected_of f m)) (data_of m p_global))).
  destruct (winner path (candidates (f_profile f) E)) as [[[q e] y]|] eqn:Ew; cbn [option_map fst snd] in S2.
  - apply winner_In in Ew. destruct Ew as [Hin Hsup]. apply candidates_In in Hin.
    rewrite Forall_forall in HE. destruct (HE _ Hin) as (_ & Hid & Hpl & Hmd).
    destruct (at_path path _) as [x|] eqn:Ex; [|contradiction].
    destruct S2 as [[K1 K2] K3]. exists x. split; auto.
    unfold retag_for in K1. rewrite is_dict_map_tag in K1. split; auto.
    intros Hd.
    assert (Hg : good_for l (retag_for q e y) = true).
    { apply decided_good. destruct Hd as [H1 H2]. split; unfold retag_for;
        rewrite ?is_dict_map_tag, ?is_array_map_tag; auto. }
    specialize (K3 Hg). subst x.
    assert (Hsb := supplied_by_retag q e y Hid (supplies_plain _ _ _ _ Hpl Hsup)).
    split; auto. unfold get_metadata. apply Hmd.
    destruct Hsb as [_ Hsb]. apply (Hsb []). constructor.
  - destruct (at_path path _) as [x|] eqn:Ex; [contradiction|reflexivity].
Qed.
