(** Properties C05-C10, C13-C16: profiles, errors, provenance. *)
From Coq Require Import Ascii String ZArith NArith Bool List Lia.
From Verif Require Import Res BMap BMapProofs Str StrProofs Profile ProfileProofs Tag Num Value
  Metadata Err Coalesce Figment SpecValue SpecFigment SpecPriority SpecLookup ValueProofs
  CoalesceProofs FigmentProofs ProvProofs FigmentProofs2 PriorityProofs PriorityProofs2 LookupProofs
  PropsCoalesce.
Import ListNotations.
Local Open Scope N_scope.

(** ** C05 *)

(** The configuration is default, overridden by selected (if custom), overridden by global. *)
Theorem C05_precedence : forall f m, f_value f = Ok m -> wf_profiles m ->
  exists ds d, dict_combined Merge (default_layer m) (selected_layer (f_profile f) m) ds /\
               dict_combined Merge ds (global_layer m) d /\
               merged f = Ok (VDict tag_default d).
Proof.
  intros f m Hv Hw. rewrite (merged_ok3 f m Hv Hw). do 2 eexists.
  assert (W1 := data_of_wf m p_default Hw). assert (W2 := data_of_wf m p_global Hw).
  assert (W3 := selected_wf f m Hw).
  split; [|split; [|reflexivity]].
  - apply C01_dict_lemma; [exact W1|exact W3|reflexivity].
  - apply C01_dict_lemma; [now apply wf_dmerge|exact W2|reflexivity].
Qed.
Print Assumptions C05_precedence.

(** The same, leaf by leaf. *)
Theorem C05_leaves : forall f m path x, f_value f = Ok m -> wf_profiles m ->
  let g := VDict tag_default (global_layer m) in
  let s := VDict tag_default (selected_layer (f_profile f) m) in
  let d := VDict tag_default (default_layer m) in
  exists v, merged f = Ok v /\
    (leaf_at path v x <->
     leaf_at path g x \/
     (open_at path g /\ (leaf_at path s x \/ (open_at path s /\ leaf_at path d x)))).
Proof.
  intros f m path x Hv Hw g s d. rewrite (merged_ok3 f m Hv Hw).
  eexists; split; [reflexivity|].
  assert (W1 := data_of_wf m p_default Hw). assert (W2 := data_of_wf m p_global Hw).
  assert (W3 := selected_wf f m Hw).
  rewrite leaf_dmerge by auto using wf_dmerge. rewrite leaf_dmerge by auto.
  unfold g, s, d, global_layer, default_layer, selected_layer, selected_of in *. tauto.
Qed.
Print Assumptions C05_leaves.

(** No other profile has any influence. *)
Theorem C05_others_irrelevant : forall f f' m m',
  f_value f = Ok m -> f_value f' = Ok m' -> wf_profiles m -> wf_profiles m' ->
  f_profile f' = f_profile f ->
  (forall q, in_play f q -> get q m = get q m') ->
  merged f = merged f'.
Proof.
  intros f f' m m' Hv Hv' Hw Hw' Hp Hq.
  rewrite (merged_ok3 f m Hv Hw), (merged_ok3 f' m' Hv' Hw'). unfold selected_of, data_of.
  rewrite Hp.
  rewrite (Hq p_default) by (left; reflexivity).
  rewrite (Hq p_global) by (right; left; reflexivity).
  rewrite (Hq (f_profile f)) by (right; right; reflexivity). reflexivity.
Qed.
Print Assumptions C05_others_irrelevant.

Definition p_debug : profile := mkProfile (lit "debug").
Definition p_release : profile := mkProfile (lit "release").
Definition ex_map : bmap profile dict :=
  [(p_debug, [(lit "a", i 2); (lit "b", i 2)]);
   (p_default, [(lit "a", i 1); (lit "b", i 1); (lit "c", i 1)]);
   (p_global, [(lit "a", i 3)]);
   (p_release, [(lit "a", i 4); (lit "z", i 4)])].
Definition ex_fig : figment := mkFigment p_debug [] (Ok ex_map).
Example C05_ex : wf_profiles ex_map /\
  merged ex_fig = Ok (VDict tag_default [(lit "a", i 3); (lit "b", i 2); (lit "c", i 1)]).
Proof. split; [|reflexivity]. vm_compute. repeat constructor; auto. Qed.

(** ** C06 *)
Theorem C06_case_insensitive : forall p q, same_profile p q ->
  (forall (m : bmap profile dict), get p m = get q m) /\
  (forall d (m : bmap profile dict), get q (insert p d m) = Some d) /\
  is_custom p = is_custom q /\ tag_of_profile p = tag_of_profile q /\
  (forall r, profile_eqb p r = profile_eqb q r) /\
  (forall f path, find_value (fig_select f p) path = find_value (fig_select f q) path \/
                  exists e, f_value f = Err e) /\
  (forall f path, fig_contains (fig_select f p) path = fig_contains (fig_select f q) path).
Proof.
  intros p q H.
  assert (M : forall f m, f_value f = Ok m -> merged (fig_select f p) = merged (fig_select f q))
    by (intros; eapply merged_select_same; eauto).
  repeat split.
  - intros m. now apply same_profile_get.
  - intros d m. apply get_insert_eq. apply same_profile_cmp. symmetry. exact H.
  - now apply same_profile_custom.
  - now apply same_profile_tag.
  - intros r. now apply same_profile_eqb.
  - intros f path. destruct (f_value f) as [m|e] eqn:E; eauto.
    left. unfold find_value. now rewrite (M f m E).
  - intros f path. unfold fig_contains. destruct (f_value f) as [m|e] eqn:E.
    + now rewrite (M f m E).
    + unfold merged. cbn [fig_select f_value]. now rewrite E.
Qed.
Print Assumptions C06_case_insensitive.
Example C06_ex : same_profile (mkProfile (lit "DeBuG")) p_debug /\
  mkProfile (lit "DeBuG") <> p_debug /\
  merged (fig_select ex_fig (mkProfile (lit "DeBuG"))) = merged ex_fig.
Proof. repeat split. vm_compute. discriminate. Qed.

(** ** C07: the profile is that of the last operation that sets one. *)
Theorem C07_profile : forall l f c f' c', run l f c = (Ret f', c') ->
  f_profile f' = last (flat_map sets_profile l) (f_profile f).
Proof. exact run_profile. Qed.
Print Assumptions C07_profile.

Definition ex_prof_provider (q : profile) : provider :=
  mkProvider (md_named (lit "P")) (Ok []) (Some q) None.
Example C07_ex :
  let l := [OpProvide ex_loc Merge (ex_prof_provider p_debug);
            OpProvide ex_loc Join (ex_prof_provider p_release);
            OpProvide ex_loc Adjoin (ex_prof_provider p_global)] in
  exists f c, run l fig_new counter_init = (Ret f, c) /\ f_profile f = p_debug.
Proof. cbv zeta. do 2 eexists. split; reflexivity. Qed.

(** ** C08 *)
Theorem C08_sticky : forall l f c f' c' m, run l f c = (Ret f', c') -> f_value f = Ok m ->
  (failures l <> [] ->
     (exists e, merged f' = Err e) /\
     forall path, (exists e, find_value f' path = Err e) /\ fig_contains f' path = false) /\
  (failures l = [] ->
     exists v, merged f' = Ok v /\
       forall path, find_value f' path = match vfind path v with
                                         | Some x => Ok x
                                         | None => Err (err_of_kind (KMissingField path)) end).
Proof.
  intros l f c f' c' m Hr Hm. assert (K := run_fails_iff _ _ _ _ _ _ Hr Hm). split.
  - intros H. apply K in H. destruct H as [e He]. assert (M := merged_err _ _ He).
    split; [eauto|]. intros path. unfold find_value, fig_contains. rewrite M. eauto.
  - intros H. destruct (f_value f') as [m'|e] eqn:E.
    + destruct (proj2 (merged_total f')) as [v Hv]; [eauto|].
      exists v. split; auto. intros path. unfold find_value. now rewrite Hv.
    + exfalso. apply (proj1 K); eauto.
Qed.
Print Assumptions C08_sticky.

(** A later success does not hide an earlier failure, whatever comes before or after. *)
Theorem C08_never_recovers : forall l1 l2 loc o p e0 f c f' c' m,
  f_value f = Ok m -> pv_data p = Err e0 ->
  run (l1 ++ OpProvide loc o p :: l2) f c = (Ret f', c') ->
  exists e, merged f' = Err e.
Proof.
  intros l1 l2 loc o p e0 f c f' c' m Hm Hp Hr.
  refine (proj1 (proj1 (C08_sticky _ _ _ _ _ _ Hr Hm) _)).
  clear Hr. induction l1 as [|x r IH]; cbn [failures app].
  - rewrite Hp. discriminate.
  - destruct x as [loc1 o1 p1|q1]; auto. destruct (pv_data p1); auto. discriminate.
Qed.
Print Assumptions C08_never_recovers.

Definition ex_fail (name msg : ustr) : provider :=
  mkProvider (md_named name) (Err (err_msg msg)) None None.
Example C08_ex :
  let l := [OpProvide ex_loc Merge (ex_fail (lit "A") (lit "bad"));
            OpProvide ex_loc Merge (ex_provider (lit "B") ex_map)] in
  failures l <> [] /\ exists f c, run l fig_new counter_init = (Ret f, c).
Proof. cbv zeta. split; [discriminate|]. do 2 eexists. reflexivity. Qed.

(** ** C09 *)

(** What is reported, for any number of failures: the first and the last one. *)
Theorem C09_first_and_last_partial : forall l f c f' c' m,
  run l f c = (Ret f', c') -> f_value f = Ok m -> failures l <> [] -> plain_ops l ->
  exists e, merged f' = Err e /\ Forall2 same_report (errors_of e) (first_last (failures l)).
Proof. exact run_reports. Qed.
Print Assumptions C09_first_and_last_partial.

(** So everything is reported when at most two providers fail. *)
Theorem C09_at_most_two : forall l f c f' c' m,
  run l f c = (Ret f', c') -> f_value f = Ok m -> plain_ops l ->
  failures l <> [] -> (length (failures l) <= 2)%nat ->
  exists e, merged f' = Err e /\ Forall2 same_report (errors_of e) (failures l).
Proof.
  intros l f c f' c' m Hr Hm Hp Hf Hl.
  destruct (run_reports _ _ _ _ _ _ Hr Hm Hf Hp) as [e [H1 H2]]. exists e. split; auto.
  destruct (failures l) as [|a [|b [|x r]]]; cbn in *; auto. lia.
Qed.
Print Assumptions C09_at_most_two.

(** With three failing providers the middle one is lost. *)
Theorem C09_all_reported_refuted : exists l f c e,
  run l fig_new counter_init = (Ret f, c) /\ plain_ops l /\ merged f = Err e /\
  exists e0, In e0 (failures l) /\ ~ Exists (fun e' => same_report e' e0) (errors_of e).
Proof.
  exists [OpProvide ex_loc Merge (ex_fail (lit "A") (lit "bad a"));
          OpProvide ex_loc Merge (ex_fail (lit "B") (lit "bad b"));
          OpProvide ex_loc Merge (ex_fail (lit "C") (lit "bad c"))].
  do 3 eexists. split; [reflexivity|]. split; [|split; [reflexivity|]].
  - repeat constructor.
  - exists (err_msg (lit "bad b")). split; [right; left; reflexivity|].
    intros H. inversion H as [? ? [H1 _]|? ? H2]; subst; [vm_compute in H1; discriminate|].
    inversion H2 as [? ? [H1 _]|? ? H3]; subst; [vm_compute in H1; discriminate|].
    inversion H3.
Qed.
Print Assumptions C09_all_reported_refuted.

Example C09_ex :
  let l := [OpProvide ex_loc Merge (ex_fail (lit "A") (lit "bad a"));
            OpProvide ex_loc Join (ex_provider (lit "M") ex_map);
            OpProvide ex_loc Merge (ex_fail (lit "B") (lit "bad b"))] in
  length (failures l) = 2%nat /\ exists f c, run l fig_new counter_init = (Ret f, c).
Proof. cbv zeta. split; [reflexivity|]. do 2 eexists. reflexivity. Qed.

(** ** C10 *)

(** The first provider to fail is the one the returned error names. *)
Theorem C10_names_provider : forall H f m loc o p e0 f1 c1 l f2 c2,
  reachable H f -> f_value f = Ok m -> plain p -> pv_data p = Err e0 ->
  provide loc f p o (next_id H) = (Ret f1, c1) -> plain_ops l -> run l f1 c1 = (Ret f2, c2) ->
  exists e, merged f2 = Err e /\ same_report e e0 /\
            e_metadata e = Some (md_with_location (pv_metadata p) loc).
Proof. exact provider_error_named. Qed.
Print Assumptions C10_names_provider.

(** Every error in the returned chain carries the metadata of the provider that reported it,
    in every history, also with Figments composed of Figments. *)
Theorem C10_every_error : forall H f e e', reachable H f -> merged f = Err e ->
  In e' (errors_of e) ->
  exists n e0, nth_provision H (metadata_id (e_tag e')) = Some n /\
    plain (pn_provider n) /\ pv_data (pn_provider n) = Err e0 /\ same_report e' e0 /\
    e_metadata e' = Some (pn_metadata n).
Proof. exact merged_error_traced. Qed.
Print Assumptions C10_every_error.

Example C10_ex :
  let p := ex_fail (lit "A") (lit "bad a") in
  plain p /\ exists f1 c1 f2 c2 e,
    provide ex_loc fig_new p Merge (next_id []) = (Ret f1, c1) /\
    provide ex_loc f1 (ex_fail (lit "B") (lit "bad b")) Merge c1 = (Ret f2, c2) /\
    merged f2 = Err e /\ map (fun x => option_map md_name (e_metadata x)) (errors_of e) =
                         [Some (lit "A"); Some (lit "B")].
Proof.
  cbv zeta. split; [repeat constructor|].
  do 5 eexists. split; [reflexivity|]. split; [reflexivity|]. split; reflexivity.
Qed.

(** ** C13 *)
Theorem C13_traceable : forall H f v path x, reachable H f -> merged f = Ok v ->
  path <> [] -> reach path v x ->
  exists q, (q = p_default \/ q = p_global \/ (q = f_profile f /\ is_custom q = true)) /\
    traced H f q path x.
Proof. exact merged_traced. Qed.
Print Assumptions C13_traceable.

(** In particular nothing extracted is untagged. *)
Theorem C13_tagged : forall H f v path x, reachable H f -> merged f = Ok v ->
  path <> [] -> reach path v x -> metadata_id (vtag x) <> 0.
Proof.
  intros H f v path x Hr Hm Hp Hx.
  destruct (merged_traced _ _ _ _ _ Hr Hm Hp Hx) as [q [_ [n [m [d [y [Hn _]]]]]]].
  intros E. rewrite E in Hn. discriminate.
Qed.
Print Assumptions C13_tagged.

Definition ex_p1 := ex_provider (lit "A") [(p_default, as_d ex_a)].
Definition ex_p2 := ex_provider (lit "B") [(p_default, as_d ex_b); (p_global, [(lit "k", i 1)])].

(** Tags of a literal value, checked by computation. *)
Fixpoint tagless (v : value) : bool :=
  (metadata_id (vtag v) =? 0) &&
  match v with
  | VDict _ d => forallb (fun kv => tagless (snd kv)) d
  | VArray _ l => forallb tagless l
  | _ => true
  end.
Lemma tagless_ok v : tagless v = true -> all_tags (fun t => metadata_id t = 0) v.
Proof.
  intros H p x Hr. revert H. induction Hr as [v|k r t d x y Hg Hr IH|r t l x y Hin Hr IH]; intros H.
  - destruct v; cbn [tagless vtag] in *; apply andb_true_iff in H; now apply N.eqb_eq.
  - cbn [tagless] in H. apply andb_true_iff in H. destruct H as [_ H].
    rewrite forallb_forall in H. apply get_In in Hg. destruct Hg as [k' [_ Hg]].
    apply IH. exact (H _ Hg).
  - cbn [tagless] in H. apply andb_true_iff in H. destruct H as [_ H].
    rewrite forallb_forall in H. apply IH. auto.
Qed.
Lemma plain_ok name m : wf_profiles m ->
  forallb (fun qd => tagless (VDict tag_default (snd qd))) m = true -> plain (ex_provider name m).
Proof.
  intros H1 H2. split; [reflexivity|]. split; auto. intros q d Hin.
  apply tagless_ok. rewrite forallb_forall in H2. exact (H2 _ Hin).
Qed.
Lemma ex_p1_plain : plain ex_p1.
Proof. apply plain_ok; [|reflexivity]. vm_compute. repeat constructor; auto. Qed.
Lemma ex_p2_plain : plain ex_p2.
Proof. apply plain_ok; [|reflexivity]. vm_compute. repeat constructor; auto. Qed.

Definition given (f : figment) (p : provider) (o : order) (c : N) : figment :=
  match fst (provide ex_loc f p o c) with Ret f' => f' | _ => f end.
Definition ex_f1 : figment := given fig_new ex_p1 Merge 1.
Definition ex_f2 : figment := given ex_f1 ex_p2 Admerge 2.
Lemma ex_f1_reachable : reachable [mkProvision ex_loc ex_p1] ex_f1.
Proof.
  apply (RC_provide [] fig_new ex_loc Merge ex_p1 ex_f1 2);
    [apply RC_new|exact ex_p1_plain|reflexivity].
Qed.
Lemma ex_f2_reachable : reachable [mkProvision ex_loc ex_p1; mkProvision ex_loc ex_p2] ex_f2.
Proof.
  apply (RC_provide [mkProvision ex_loc ex_p1] ex_f1 ex_loc Admerge ex_p2 ex_f2 3);
    [apply ex_f1_reachable|exact ex_p2_plain|reflexivity].
Qed.

Example C13_ex : exists v x, merged ex_f2 = Ok v /\
  reach [SKey (lit "a"); SKey (lit "y"); SElem] v x /\ metadata_id (vtag x) = 2.
Proof.
  do 2 eexists. split; [reflexivity|]. split.
  - eapply R_key; [reflexivity|]. eapply R_key; [reflexivity|].
    eapply R_elem; [right; left; reflexivity|]. constructor.
  - reflexivity.
Qed.

(** ** C14 *)

(** The value at every path is that of the winner of the priority order, and so is its
    metadata; where there is no candidate there is nothing. *)
Theorem C14_winner : forall l c f c',
  run l fig_new c = (Ret f, c') -> failures l = [] -> plain_ops l -> shape_compatible l ->
  exists v, merged f = Ok v /\
    forall path, path <> [] ->
    match winner path (candidates (f_profile f) (priority l c [])) with
    | None => at_path path v = None
    | Some (q, e, y) =>
        exists x, at_path path v = Some x /\ is_dict x = is_dict y /\
          (decided l y -> supplied_by q e y x /\
             get_metadata f (vtag x) =
               Some (md_with_location (pv_metadata (en_provider e)) (en_loc e)))
    end.
Proof. exact priority_wins. Qed.
Print Assumptions C14_winner.

(** [find_value] and [find_metadata] on the dotted path. *)
Theorem C14_find_metadata : forall l c f c' ks q e y,
  run l fig_new c = (Ret f, c') -> failures l = [] -> plain_ops l -> shape_compatible l ->
  ks <> [] -> Forall plain_key ks ->
  winner ks (candidates (f_profile f) (priority l c [])) = Some (q, e, y) -> decided l y ->
  (exists x, find_value f (join [dot] ks) = Ok x /\ supplied_by q e y x) /\
  find_metadata f (join [dot] ks) =
    Some (md_with_location (pv_metadata (en_provider e)) (en_loc e)).
Proof.
  intros l c f c' ks q e y Hr Hf Hp Hs Hks Hk Hw Hd.
  destruct (priority_wins l c f c' Hr Hf Hp Hs) as [v [Hv Hall]].
  specialize (Hall ks Hks). rewrite Hw in Hall. destruct Hall as [x [H1 [_ H2]]].
  destruct (H2 Hd) as [H3 H4].
  assert (F : find_value f (join [dot] ks) = Ok x).
  { apply (find_value_spec f _ ks); [split; auto|]. eauto. }
  split; [eauto|]. unfold find_metadata. rewrite F. exact H4.
Qed.
Print Assumptions C14_find_metadata.

Definition ex_hist : list op :=
  [OpProvide ex_loc Merge (ex_provider (lit "A") [(p_default, [(lit "x", i 1); (lit "y", i 1); (lit "z", i 1)])]);
   OpProvide ex_loc Join (ex_provider (lit "B") [(p_default, [(lit "w", i 2); (lit "x", i 2)])]);
   OpProvide ex_loc Merge (ex_provider (lit "C") [(p_default, [(lit "y", i 3)]); (p_global, [(lit "z", i 3)])]);
   OpSelect p_debug].
Definition flat (l : list op) : bool :=
  forallb (fun x => match x with
    | OpProvide _ _ p => match pv_data p with
        | Ok m => forallb (fun qd => forallb (fun kv => negb (is_dict (snd kv))) (snd qd)) m
        | Err _ => true end
    | OpSelect _ => true end) l.
Lemma flat_compatible l : flat l = true -> shape_compatible l.
Proof.
  intros H p1 p2 m1 m2 q1 q2 d1 d2 [l1 [o1 I1]] [l2 [o2 I2]] D1 D2 G1 G2 path x y Hx Hy.
  unfold flat in H. rewrite forallb_forall in H.
  assert (F : forall loc o p m q d k z, In (OpProvide loc o p) l -> pv_data p = Ok m ->
            get q m = Some d -> get k d = Some z -> is_dict z = false).
  { intros loc o p m q d k z HI HD HG HK. specialize (H _ HI). cbn in H. rewrite HD in H.
    rewrite forallb_forall in H. apply get_In in HG. destruct HG as [q' [_ HG]].
    specialize (H _ HG). cbn in H. rewrite forallb_forall in H.
    apply get_In in HK. destruct HK as [k' [_ HK]]. specialize (H _ HK). cbn in H.
    now apply negb_true_iff in H. }
  destruct path as [|k r]; cbn [at_path] in *; [inversion Hx; inversion Hy; reflexivity|].
  destruct (get k d1) as [u|] eqn:E1; [|discriminate].
  destruct (get k d2) as [w|] eqn:E2; [|discriminate].
  assert (U1 := F _ _ _ _ _ _ _ _ I1 D1 G1 E1). assert (U2 := F _ _ _ _ _ _ _ _ I2 D2 G2 E2).
  destruct r as [|k2 r]; cbn [at_path] in *.
  - inversion Hx; inversion Hy; subst. congruence.
  - destruct u; discriminate.
Qed.
Example C14_ex : exists f c, run ex_hist fig_new counter_init = (Ret f, c) /\
  failures ex_hist = [] /\ plain_ops ex_hist /\ shape_compatible ex_hist /\
  map (fun k => option_map md_name (find_metadata f k)) [lit "x"; lit "y"; lit "z"; lit "w"; lit "v"]
  = [Some (lit "A"); Some (lit "C"); Some (lit "C"); Some (lit "B"); None].
Proof.
  do 2 eexists. split; [reflexivity|]. split; [reflexivity|]. split; [|split; [|reflexivity]].
  - unfold plain_ops, ex_hist. repeat (apply Forall_cons; [try exact I; apply plain_ok;
      [vm_compute; repeat constructor; auto|reflexivity]|]). repeat constructor.
  - apply flat_compatible. reflexivity.
Qed.

(** ** C15 *)
Theorem C15_composition : forall H f g loc o f' c',
  reachable H f -> reachable H g ->
  provide loc f (figment_provider g) o (next_id H) = (Ret f', c') ->
  (forall t m, get_metadata f t = Some m -> get_metadata f' t = Some m) /\
  (forall t m, get_metadata g t = Some m -> get_metadata f' t = Some m) /\
  (forall a b, f_value f = Ok a -> f_value g = Ok b ->
     exists c, f_value f' = Ok c /\ profiles_combined o a b c).
Proof. exact nested_figment. Qed.
Print Assumptions C15_composition.

Definition ex_g : figment := given fig_new ex_p2 Merge 2.
Example C15_ex :
  let H := [mkProvision ex_loc ex_p1; mkProvision ex_loc ex_p2] in
  reachable H ex_f1 /\ reachable H ex_g /\
  exists f' c', provide ex_loc ex_f1 (figment_provider ex_g) Merge (next_id H) = (Ret f', c') /\
    map md_name (fig_metadata f') = [lit "A"; lit "B"; lit "Default"].
Proof.
  cbv zeta. split; [|split].
  - apply (RC_other [mkProvision ex_loc ex_p1]). apply ex_f1_reachable.
  - apply (RC_provide [mkProvision ex_loc ex_p1] fig_new ex_loc Merge ex_p2 ex_g 3);
      [apply RC_new|exact ex_p2_plain|reflexivity].
  - do 2 eexists. split; reflexivity.
Qed.

(** ** C16 *)
Theorem C16_metadata : forall l c f c',
  Forall (fun x => match x with OpProvide _ _ p => pv_metadata_map p = None | OpSelect _ => True end) l ->
  run l fig_new c = (Ret f, c') ->
  fig_metadata f = provided_metadata l.
Proof. intros l c f c' Hp Hr. exact (run_metadata l fig_new c f c' Hp (fun _ _ H => match H with end) Hr). Qed.
Print Assumptions C16_metadata.

Example C16_ex : exists f c, run ex_hist fig_new counter_init = (Ret f, c) /\
  map md_name (fig_metadata f) = [lit "A"; lit "B"; lit "C"].
Proof. do 2 eexists. split; reflexivity. Qed.
