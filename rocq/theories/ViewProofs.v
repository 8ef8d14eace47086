(** Lemmas about what a Figment holds at every path. *)
From Coq Require Import NArith Bool Morphisms RelationClasses.
From Coq Require Import List.
From Verif Require Import Res BMap Str Profile Tag Num Value Metadata Err Coalesce Figment De.
From Verif Require Import SpecValue SpecFigment SpecRt SpecBlind SpecView.
From Verif Require Import BMapProofs StrProofs ProfileProofs ValueProofs CoalesceProofs FigmentProofs
  BlindProofs OrderProofs LayersProofs.
Import ListNotations.

(** ** Views *)
Definition same_view (A B : view) : Prop := forall p n, A p n <-> B p n.

Lemma sv_refl A : same_view A A. Proof. intros p n. reflexivity. Qed.
Lemma sv_sym A B : same_view A B -> same_view B A.
Proof. intros H p n. symmetry. apply H. Qed.
Lemma sv_trans A B C : same_view A B -> same_view B C -> same_view A C.
Proof. intros H K p n. now rewrite (H p n). Qed.

Lemma free_same A B p : same_view A B -> free A p <-> free B p.
Proof.
  intros H. unfold free. split; intros [F1 F2]; split.
  - intros n K. apply (F1 n). now apply H.
  - intros q n Q K. apply (F2 q n Q). now apply H.
  - intros n K. apply (F1 n). now apply H.
  - intros q n Q K. apply (F2 q n Q). now apply H.
Qed.

Lemma over_same A A' B B' : same_view A A' -> same_view B B' -> same_view (over A B) (over A' B').
Proof. intros HA HB p n. unfold over. now rewrite (HB p n), (free_same B B' p HB), (HA p n). Qed.

Lemma appended_same o A A' B B' p n : same_view A A' -> same_view B B' ->
  appended o A B p n <-> appended o A' B' p n.
Proof.
  intros HA HB. unfold appended. split; intros (C & ta & x & tb & y & K1 & K2 & E); split; auto;
    exists ta, x, tb, y; (split; [now apply HA|split; [now apply HB|exact E]]).
Qed.

Lemma brought_same o A A' B B' : same_view A A' -> same_view B B' ->
  same_view (brought o A B) (brought o A' B').
Proof.
  intros HA HB p n. unfold brought. rewrite (appended_same o A A' B B' p n HA HB).
  assert (E : (forall n', ~ appended o A B p n') <-> (forall n', ~ appended o A' B' p n')).
  { split; intros H n' K; apply (H n'); revert K; now apply appended_same; auto using sv_sym. }
  rewrite E. destruct (keeps_existing o).
  - now rewrite (over_same B B' A A' HB HA p n).
  - now rewrite (over_same A A' B B' HA HB p n).
Qed.

(** ** Values *)
Definition sub (v : value) (k : ustr) : option value :=
  match v with VDict _ d => get k d | _ => None end.

Lemma at_path_sub k p v : at_path (k :: p) v = match sub v k with Some x => at_path p x | None => None end.
Proof. destruct v; reflexivity. Qed.

Lemma view_nil v n : view_of v [] n <->
  match n with Table => is_dict v = true | Leaf x => x = v /\ is_dict v = false end.
Proof.
  destruct n as [|x]; cbn.
  - split; [intros (t & d & [= ->]); reflexivity|]. destruct v; try discriminate. eauto.
  - unfold leaf_at; cbn. split; [intros [[= ->] H]|intros [-> H]]; auto.
Qed.

Lemma view_cons v k p n : view_of v (k :: p) n <-> exists x, sub v k = Some x /\ view_of x p n.
Proof.
  destruct n as [|y]; cbn [view_of]; unfold leaf_at; rewrite at_path_sub; destruct (sub v k) as [x|].
  - split; [intros H; eauto|]. intros (x' & [= <-] & H). exact H.
  - split; [intros (t & d & H); discriminate|]. intros (x' & H & _). discriminate.
  - split; [intros H; eauto|]. intros (x' & [= <-] & H). exact H.
  - split; [intros [H _]; discriminate|]. intros (x' & H & _). discriminate.
Qed.

Lemma free_nil v : ~ free (view_of v) [].
Proof.
  intros [F _]. destruct (is_dict v) eqn:E.
  - apply (F Table). now apply view_nil.
  - apply (F (Leaf v)). now apply view_nil.
Qed.

Lemma free_cons v k p : free (view_of v) (k :: p) <->
  is_dict v = true /\ (forall x, sub v k = Some x -> free (view_of x) p).
Proof.
  split.
  - intros [F1 F2]. split.
    + destruct (is_dict v) eqn:E; [reflexivity|].
      discriminate (F2 [] (Leaf v)); [now exists (k :: p)|now apply view_nil].
    + intros x E. split.
      * intros n H. apply (F1 n). apply view_cons. eauto.
      * intros q n [r ->] H. apply (F2 (k :: q) n); [now exists r|]. apply view_cons. eauto.
  - intros [D F]. split.
    + intros n H. apply view_cons in H. destruct H as (x & E & H). destruct (F x E) as [F1 _]. now apply (F1 n).
    + intros q n [r Q] H. destruct q as [|k' q].
      * apply view_nil in H. destruct n as [|y]; [reflexivity|]. destruct H. congruence.
      * injection Q as <- ->. apply view_cons in H. destruct H as (x & E & H).
        destruct (F x E) as [_ F2]. apply (F2 q n); [now exists r|exact H].
Qed.

Lemma wf_sub v k x : wf v -> sub v k = Some x -> wf x.
Proof. destruct v; try discriminate. intros W. apply wf_get. now apply wf_VDict in W. Qed.

(** What is below a key after bringing [b] into [a]. *)
Lemma sub_vcoalesce o a b k : wf a -> wf b -> is_dict a = true -> is_dict b = true ->
  sub (vcoalesce o a b) k = opt_combine (vcoalesce o) (sub a k) (sub b k).
Proof.
  intros Wa Wb Da Db. destruct a as [| | | | |ta a|]; try discriminate. destruct b as [| | | | |tb b|]; try discriminate.
  rewrite vcoalesce_dict. cbn [sub]. apply wf_VDict in Wa, Wb. apply dcoalesce_get; [apply Wa|apply Wb].
Qed.

Lemma sub_other v k : is_dict v = false -> sub v k = None.
Proof. now destruct v. Qed.

Lemma none_view v k p n : sub v k = None -> ~ view_of v (k :: p) n.
Proof. intros E H. apply view_cons in H. destruct H as (x & E' & _). congruence. Qed.

Lemma view_vcoalesce o p : forall a b, wf a -> wf b -> forall n,
  view_of (vcoalesce o a b) p n <-> brought o (view_of a) (view_of b) p n.
Proof.
  induction p as [|k p IH]; intros a b Wa Wb n.
  - unfold brought, over.
    assert (NA := free_nil a). assert (NB := free_nil b).
    assert (AP : forall n', appended o (view_of a) (view_of b) [] n' <->
               concatenates o = true /\ exists ta x tb y, a = VArray ta x /\ b = VArray tb y /\ n' = Leaf (VArray ta (x ++ y))).
    { intros n'. unfold appended. split; intros (C & ta & x & tb & y & H1 & H2 & E); split; auto; exists ta, x, tb, y.
      - apply view_nil in H1, H2. destruct H1, H2. auto.
      - subst. split; [|split; auto]; apply view_nil; auto. }
    rewrite AP.
    assert (NP : (forall n', ~ appended o (view_of a) (view_of b) [] n') <->
                 (concatenates o && is_array a && is_array b) = false).
    { split.
      - intros H. destruct (concatenates o) eqn:C; [|reflexivity]. destruct a as [| | | | | |ta x]; try reflexivity.
        destruct b as [| | | | | |tb y]; try reflexivity. destruct (H (Leaf (VArray ta (x ++ y)))).
        apply AP. split; [reflexivity|]. repeat eexists.
      - intros H n' K. apply AP in K. destruct K as (C & ta & x & tb & y & -> & -> & _).
        rewrite C in H. discriminate. }
    rewrite NP.
    destruct (concatenates o && is_array a && is_array b) eqn:E.
    + apply andb_prop in E. destruct E as [E Eb]. apply andb_prop in E. destruct E as [C Ea].
      destruct a as [| | | | | |ta x]; try discriminate. destruct b as [| | | | | |tb y]; try discriminate.
      assert (EV : vcoalesce o (VArray ta x) (VArray tb y) = VArray ta (x ++ y)) by (destruct o; discriminate || reflexivity).
      rewrite EV, view_nil. split.
      * intros H. left. split; [exact C|]. exists ta, x, tb, y. split; [reflexivity|]. split; [reflexivity|].
        destruct n as [|z]; [discriminate|]. destruct H as [-> _]. reflexivity.
      * intros [(_ & ta' & x' & tb' & y' & [= <- <-] & [= <- <-] & ->)|[[=] _]]. auto.
    + assert (EV : view_of (vcoalesce o a b) [] n <-> view_of (if keeps_existing o then a else b) [] n).
      { rewrite !view_nil. destruct o, a, b; cbn in E |- *; try discriminate; destruct n; try tauto;
          split; intros [_ [=]]. }
      rewrite EV. split.
      * intros H. right. split; [reflexivity|]. destruct (keeps_existing o); now left.
      * intros [(C & ta & x & tb & y & -> & -> & _)|[_ H]]; [rewrite C in E; discriminate|].
        destruct (keeps_existing o); destruct H as [H|[H _]]; tauto.
  - destruct (is_dict a) eqn:Da; [destruct (is_dict b) eqn:Db|].
    + (* two dictionaries *)
      rewrite view_cons, (sub_vcoalesce o a b k Wa Wb Da Db).
      assert (AP : forall n', appended o (view_of a) (view_of b) (k :: p) n' <->
                 exists x y, sub a k = Some x /\ sub b k = Some y /\ appended o (view_of x) (view_of y) p n').
      { intros n'. split.
        - intros (C & ta & x & tb & y & H1 & H2 & E). apply view_cons in H1, H2.
          destruct H1 as (u & E1 & H1), H2 as (w & E2 & H2). exists u, w. split; [auto|]. split; [auto|].
          split; [exact C|]. now exists ta, x, tb, y.
        - intros (u & w & E1 & E2 & C & ta & x & tb & y & H1 & H2 & E). split; [exact C|].
          exists ta, x, tb, y. rewrite !view_cons. split; [now exists u|]. split; [now exists w|exact E]. }
      unfold brought. rewrite AP.
      destruct (sub a k) as [x|] eqn:Ea, (sub b k) as [y|] eqn:Eb; cbn [opt_combine].
      * assert (Wx := wf_sub a k x Wa Ea). assert (Wy := wf_sub b k y Wb Eb).
        transitivity (view_of (vcoalesce o x y) p n).
        { split; [intros (z & [= <-] & H); exact H|eauto]. }
        rewrite (IH x y Wx Wy n). unfold brought.
        assert (AQ : forall n', (exists x0 y0, Some x = Some x0 /\ Some y = Some y0 /\ appended o (view_of x0) (view_of y0) p n')
                     <-> appended o (view_of x) (view_of y) p n').
        { intros n'. split; [intros (? & ? & [= <-] & [= <-] & H); exact H|eauto]. }
        rewrite AQ.
        assert (NQ : (forall n', ~ appended o (view_of x) (view_of y) p n') <->
                     (forall n', ~ appended o (view_of a) (view_of b) (k :: p) n')).
        { split; intros H n' K; apply (H n'); [apply AP in K; now apply AQ|apply AP; now apply AQ]. }
        rewrite NQ. assert (FA : free (view_of a) (k :: p) <-> free (view_of x) p).
        { rewrite free_cons, Ea. split; [intros [_ F]; auto|]. intros F. split; [exact Da|]. now intros ? [= <-]. }
        assert (FB : free (view_of b) (k :: p) <-> free (view_of y) p).
        { rewrite free_cons, Eb. split; [intros [_ F]; auto|]. intros F. split; [exact Db|]. now intros ? [= <-]. }
        assert (VA : view_of a (k :: p) n <-> view_of x p n).
        { rewrite view_cons, Ea. split; [intros (? & [= <-] & H); exact H|eauto]. }
        assert (VB : view_of b (k :: p) n <-> view_of y p n).
        { rewrite view_cons, Eb. split; [intros (? & [= <-] & H); exact H|eauto]. }
        destruct (keeps_existing o); unfold over; now rewrite FA || rewrite FB; rewrite VA, VB.
      * assert (NP : forall n', ~ appended o (view_of a) (view_of b) (k :: p) n').
        { intros n' K. apply AP in K. destruct K as (? & ? & _ & [=] & _). }
        assert (FB : free (view_of b) (k :: p)) by (apply free_cons; split; [exact Db|]; intros ? E; congruence).
        assert (NB := none_view b k p n Eb).
        transitivity (view_of a (k :: p) n); [now rewrite view_cons, Ea|].
        destruct (keeps_existing o); unfold over; split.
        -- intros H. right. auto.
        -- intros [(? & ? & _ & [=] & _)|[_ [H|[_ H]]]]; tauto.
        -- intros H. right. auto.
        -- intros [(? & ? & _ & [=] & _)|[_ [H|[_ H]]]]; tauto.
      * assert (NP : forall n', ~ appended o (view_of a) (view_of b) (k :: p) n').
        { intros n' K. apply AP in K. destruct K as (? & ? & [=] & _). }
        assert (FA : free (view_of a) (k :: p)) by (apply free_cons; split; [exact Da|]; intros ? E; congruence).
        assert (NA := none_view a k p n Ea).
        transitivity (view_of b (k :: p) n); [now rewrite view_cons, Eb|].
        destruct (keeps_existing o); unfold over; split.
        -- intros H. right. auto.
        -- intros [(? & ? & [=] & _)|[_ [H|[_ H]]]]; tauto.
        -- intros H. right. auto.
        -- intros [(? & ? & [=] & _)|[_ [H|[_ H]]]]; tauto.
      * assert (NA := none_view a k p n Ea). assert (NB := none_view b k p n Eb). split.
        -- intros (? & [=] & _).
        -- intros [(? & ? & [=] & _)|[_ H]]. destruct (keeps_existing o), H as [H|[_ H]]; tauto.
    + (* a dictionary and something else *)
      assert (NP : forall n', ~ appended o (view_of a) (view_of b) (k :: p) n').
      { intros n' (_ & ta & x & tb & y & _ & H & _). revert H. apply none_view. now apply sub_other. }
      assert (NB := none_view b k p n (sub_other b k Db)).
      assert (FB : ~ free (view_of b) (k :: p)) by (rewrite free_cons; intros [H _]; congruence).
      assert (EV : vcoalesce o a b = if keeps_existing o then a else b)
        by (destruct o, a, b; cbn in Da, Db; try discriminate; reflexivity).
      rewrite EV. unfold brought, over. specialize (NP n) as NPn. destruct (keeps_existing o); tauto.
    + assert (NP : forall n', ~ appended o (view_of a) (view_of b) (k :: p) n').
      { intros n' (_ & ta & x & tb & y & H & _ & _). revert H. apply none_view. now apply sub_other. }
      assert (NA := none_view a k p n (sub_other a k Da)).
      assert (FA : ~ free (view_of a) (k :: p)) by (rewrite free_cons; intros [H _]; congruence).
      assert (EV : view_of (vcoalesce o a b) (k :: p) n <-> view_of (if keeps_existing o then a else b) (k :: p) n).
      { rewrite !view_cons. destruct o, a, b; cbn in Da; try discriminate; cbn [vcoalesce keeps_existing sub]; try tauto;
          split; intros (? & [=] & _). }
      rewrite EV. unfold brought, over. specialize (NP n) as NPn. destruct (keeps_existing o); tauto.
Qed.

(** ** Sources aside *)
Definition undict (d : dict) : dict := map (fun kv => (fst kv, untag (snd kv))) d.

Lemma get_undict k d : get k (undict d) = option_map untag (get k d).
Proof. unfold undict. exact (get_map_values (fun _ => untag) d k (fun _ _ _ _ => eq_refl)). Qed.

Lemma sorted_undict d : sorted d -> sorted (undict d).
Proof.
  assert (L : forall k (m : dict), lt_all k m -> lt_all k (undict m)).
  { intros k m. induction m as [|[k' x] m IH]; cbn; [auto|]. intros [H1 H2]. auto. }
  induction d as [|[k x] d IH]; cbn; [auto|]. intros [H1 H2]. split; [now apply L|auto].
Qed.

Lemma wf_untag v : wf v -> wf (untag v).
Proof.
  induction v as [t s|t s|t s|t s|t s|t d IH|t l IH] using value_ind'; intros W; try exact I; cbn [untag].
  - apply wf_VDict. apply wf_VDict in W. apply wf_dict_intro; [apply sorted_undict, W|].
    intros k x. rewrite get_undict. destruct (get k d) as [y|] eqn:E; [|discriminate]. intros [= <-].
    apply (Forall_get (fun x => wf x -> wf (untag x)) _ _ _ IH E). now apply (wf_get d k).
  - apply wf_VArray. apply wf_VArray in W. rewrite Forall_map. rewrite Forall_forall in *. auto.
Qed.

Lemma untag_vcoalesce o a : forall b, wf a -> wf b -> untag (vcoalesce o a b) = vcoalesce o (untag a) (untag b).
Proof.
  induction a as [t s|t s|t s|t s|t s|t d IH|t l IH] using value_ind'; intros b Wa Wb;
    try (destruct o, b; reflexivity).
  - destruct b as [| | | | |t' d'|]; try (destruct o; reflexivity).
    cbn [untag]. rewrite !vcoalesce_dict. cbn [untag].
    replace (if keeps_existing o then tag_default else tag_default) with tag_default by now destruct (keeps_existing o).
    f_equal. apply wf_VDict in Wa, Wb. fold (undict (dcoalesce o d d')). fold (undict d). fold (undict d').
    apply get_dict_eq; [apply sorted_undict, dcoalesce_sorted|apply dcoalesce_sorted|].
    intros k. rewrite get_undict, !dcoalesce_get, !get_undict; try apply sorted_undict; try apply Wa; try apply Wb.
    destruct (get k d) as [x|] eqn:E, (get k d') as [y|] eqn:E'; cbn; try reflexivity. f_equal.
    apply (Forall_get (fun x => forall b, wf x -> wf b -> untag (vcoalesce o x b) = vcoalesce o (untag x) (untag b)) _ _ _ IH E);
      eauto using wf_get.
  - destruct b as [| | | | | |t' l']; try (destruct o; reflexivity). destruct o; cbn; rewrite ?map_app; reflexivity.
Qed.

Definition seen_of (d : dict) : view := view_of (untag (VDict tag_default d)).

Lemma seen_dut d d' : dut d d' -> seen_of d = seen_of d'.
Proof. intros H. unfold seen_of. f_equal. apply (utc_ut (VDict tag_default d) (VDict tag_default d')). now constructor. Qed.

Lemma seen_dcoalesce o d e : wf_dict d -> wf_dict e ->
  same_view (seen_of (dcoalesce o d e)) (brought o (seen_of d) (seen_of e)).
Proof.
  intros Wd We p n. unfold seen_of.
  assert (E : untag (VDict tag_default (dcoalesce o d e)) =
              untag (vcoalesce o (VDict tag_default d) (VDict tag_default e))).
  { rewrite vcoalesce_dict. reflexivity. }
  rewrite E, untag_vcoalesce by now apply wf_VDict.
  apply view_vcoalesce; apply wf_untag; now apply wf_VDict.
Qed.

Lemma seen_nil : same_view (seen_of []) blank.
Proof.
  intros [|k p] n; unfold seen_of, blank.
  - rewrite view_nil. destruct n as [|x]; cbn; split; try tauto; [intros [_ [=]]|intros [_ [=]]].
  - rewrite view_cons. cbn. split; [intros (x & [=] & _)|intros [[=] _]].
Qed.

Lemma brought_merge A B : same_view (brought Merge A B) (over A B).
Proof.
  intros p n. unfold brought, appended. cbn. split.
  - intros [[[=] _]|[_ H]]; exact H.
  - intros H. right. split; [intros n' [[=] _]|exact H].
Qed.

(** ** Histories *)
Lemma layer_same q l : forall A B, same_view A B -> same_view (layer q l A) (layer q l B).
Proof.
  induction l as [|[loc o p|s] l IH]; intros A B H; cbn [layer]; auto.
  apply IH. apply brought_same; [exact H|apply sv_refl].
Qed.

Lemma layer_run l : forall f m c f' c', f_value f = Ok m -> wf_profiles m -> sound_ops l -> failures l = [] ->
  run l f c = (Ret f', c') ->
  exists m', f_value f' = Ok m' /\ wf_profiles m' /\
    forall q, same_view (seen_of (data_of m' q)) (layer q l (seen_of (data_of m q))).
Proof.
  induction l as [|[loc o p|s] l IH]; intros f m c f' c' Ef Wm HS HF HR; cbn [run run_op failures layer] in *.
  - injection HR as <- <-. exists m. split; [exact Ef|]. split; [exact Wm|]. intros q. apply sv_refl.
  - destruct (pv_data p) as [n|e] eqn:ED; [|discriminate].
    destruct (provide loc f p o c) as [[f1| |] c1] eqn:E; try discriminate.
    assert (Wn : wf_profiles n) by (eapply HS; [now left|exact ED]).
    destruct (data_provide loc f p o c f1 c1 m n Ef Wm ED Wn E) as (m1 & Ef1 & Wm1 & HU).
    destruct (IH f1 m1 c1 f' c' Ef1 Wm1) as (m' & Ef' & Wm' & HV); try assumption.
    { intros loc' o' p' m2 HI. apply (HS loc' o' p' m2). now right. }
    exists m'. split; [exact Ef'|]. split; [exact Wm'|]. intros q. eapply sv_trans; [apply HV|].
    apply layer_same. rewrite (seen_dut _ _ (HU q)). unfold said. rewrite ED.
    apply seen_dcoalesce; apply data_of_wf; assumption.
  - apply (IH (fig_select f s) m c f' c' Ef Wm); try assumption.
    intros loc' o' p' m2 HI. apply (HS loc' o' p' m2). now right.
Qed.

Lemma held_merged l c f c' : run l fig_new c = (Ret f, c') -> sound_ops l -> failures l = [] ->
  exists v, merged f = Ok v /\ wf v /\ same_view (view_of (untag v)) (held (f_profile f) l).
Proof.
  intros HR HS HF.
  destruct (layer_run l fig_new [] c f c' eq_refl) as (m & Ef & Wm & HV); try assumption.
  { split; constructor. }
  rewrite (merged_ok3 f m Ef Wm). eexists. split; [reflexivity|].
  assert (Wd := data_of_wf m p_default Wm). assert (Wg := data_of_wf m p_global Wm).
  assert (Ws := selected_wf f m Wm).
  split; [apply wf_VDict; unfold dmerge; repeat apply wf_dcoalesce; assumption|].
  assert (HB : forall q, same_view (seen_of (data_of m q)) (layer q l blank)).
  { intros q. eapply sv_trans; [apply HV|]. apply layer_same. exact seen_nil. }
  unfold held, dmerge.
  eapply sv_trans; [apply (seen_dcoalesce Merge); [now apply wf_dcoalesce|exact Wg]|].
  eapply sv_trans; [apply brought_merge|]. apply over_same; [|apply HB].
  unfold selected_of. destruct (is_custom (f_profile f)).
  - eapply sv_trans; [apply (seen_dcoalesce Merge); [exact Wd|now apply data_of_wf]|].
    eapply sv_trans; [apply brought_merge|]. apply over_same; apply HB.
  - rewrite dcoalesce_nil_r by apply Wd. apply HB.
Qed.

(** ** Views determine values *)
Lemma undict_self d : forall k x, undict d = d -> get k d = Some x -> untag x = x.
Proof. intros k x E G. assert (H := get_undict k d). rewrite E, G in H. cbn in H. congruence. Qed.

Lemma view_sub v w k x y : same_view (view_of v) (view_of w) -> sub v k = Some x -> sub w k = Some y ->
  same_view (view_of x) (view_of y).
Proof.
  intros H Ex Ey p n. assert (K := H (k :: p) n). rewrite !view_cons, Ex, Ey in K. split; intros J.
  - destruct (proj1 K (ex_intro _ x (conj eq_refl J))) as (z & [= <-] & Z). exact Z.
  - destruct (proj2 K (ex_intro _ y (conj eq_refl J))) as (z & [= <-] & Z). exact Z.
Qed.

Lemma view_some v : exists n, view_of v [] n.
Proof.
  destruct (is_dict v) eqn:E; [exists Table|exists (Leaf v)]; apply view_nil; auto.
Qed.

Lemma view_sub_some v w k x : same_view (view_of v) (view_of w) -> sub v k = Some x -> exists y, sub w k = Some y.
Proof.
  intros H E. destruct (view_some x) as [n N]. assert (K : view_of v [k] n) by (apply view_cons; eauto).
  apply H in K. apply view_cons in K. destruct K as (y & E' & _). eauto.
Qed.

Lemma view_eq a : forall b, wf a -> wf b -> untag a = a -> untag b = b -> same_view (view_of a) (view_of b) -> a = b.
Proof.
  induction a as [t s|t s|t s|t s|t s|t d IH|t l IH] using value_ind'; intros b Wa Wb Ua Ub H.
  1-5,7: match goal with |- ?a = _ => assert (K : view_of a [] (Leaf a)) by now apply view_nil end;
         apply H in K; apply view_nil in K; apply K.
  assert (K : view_of (VDict t d) [] Table) by now apply view_nil.
  apply H in K. apply view_nil in K. destruct b as [| | | | |t' d'|]; try discriminate.
  cbn [untag] in Ua, Ub. injection Ua as Et Ed. injection Ub as Et' Ed'. fold (undict d) in Ed. fold (undict d') in Ed'.
  rewrite <- Et, <- Et'. f_equal. apply wf_VDict in Wa, Wb.
  apply get_dict_eq; [apply Wa|apply Wb|]. intros k.
  destruct (get k d) as [x|] eqn:Ex.
  - destruct (view_sub_some _ _ k x H Ex) as [y Ey]. cbn in Ey. rewrite Ey. f_equal.
    apply (Forall_get (fun x => forall b, wf x -> wf b -> untag x = x -> untag b = b ->
             same_view (view_of x) (view_of b) -> x = b) _ _ _ IH Ex); eauto using wf_get, undict_self.
    exact (view_sub _ _ k x y H Ex Ey).
  - destruct (get k d') as [y|] eqn:Ey; [|reflexivity].
    destruct (view_sub_some _ _ k y (sv_sym _ _ H) Ey) as [x E']. cbn in E'. congruence.
Qed.

(** ** Merges only *)
Lemma layer_app q l : forall l' A, layer q (l ++ l') A = layer q l' (layer q l A).
Proof. induction l as [|[loc o p|s] l IH]; intros l' A; cbn [app layer]; auto. Qed.

Definition mute (q : profile) (p : list ustr) (x : op) : Prop :=
  match x with OpProvide _ _ pr => free (said q pr) p | OpSelect _ => True end.

Lemma last_said q l : merge_only l -> forall p x, layer q l blank p (Leaf x) <->
  exists before loc pr after, l = before ++ OpProvide loc Merge pr :: after /\
    said q pr p (Leaf x) /\ forall loc' o' pr', In (OpProvide loc' o' pr') after -> free (said q pr') p.
Proof.
  induction l as [|e l IH] using rev_ind; intros HM p x.
  - cbn. split; [intros [_ [=]]|]. intros ([|? ?] & loc & pr & after & [=] & _).
  - assert (HM' : merge_only l) by (intros loc o pr HI; apply (HM loc o pr); apply in_or_app; now left).
    rewrite layer_app. destruct e as [loc o pr|s]; cbn [layer].
    + assert (o = Merge) as -> by (apply (HM loc o pr); apply in_or_app; right; now left).
      rewrite (brought_merge _ _ p (Leaf x)). unfold over. rewrite (IH HM' p x). split.
      * intros [H|[F (b & loc' & pr' & a & -> & H & HA)]].
        -- exists l, loc, pr, []. split; [reflexivity|]. split; [exact H|]. intros ? ? ? [].
        -- exists b, loc', pr', (a ++ [OpProvide loc Merge pr]). split; [now rewrite <- app_assoc|].
           split; [exact H|]. intros loc2 o2 pr2 HI. apply in_app_or in HI. destruct HI as [HI|[[= <- <- <-]|[]]]; [|exact F].
           eapply HA; exact HI.
      * intros (b & loc' & pr' & a & E & H & HA). destruct a as [|y a] using rev_ind.
        -- apply app_inj_tail in E. destruct E as [_ [= <- <-]]. now left.
        -- right. clear IHa. rewrite app_comm_cons, app_assoc in E. apply app_inj_tail in E. destruct E as [-> <-].
           split; [eapply HA; apply in_or_app; right; now left|].
           exists b, loc', pr', a. split; [reflexivity|]. split; [exact H|].
           intros loc2 o2 pr2 HI. eapply HA. apply in_or_app. left. exact HI.
    + rewrite (IH HM' p x). split.
      * intros (b & loc' & pr' & a & -> & H & HA). exists b, loc', pr', (a ++ [OpSelect s]).
        split; [now rewrite <- app_assoc|]. split; [exact H|]. intros loc2 o2 pr2 HI.
        apply in_app_or in HI. destruct HI as [HI|[[=]|[]]]. eapply HA; exact HI.
      * intros (b & loc' & pr' & a & E & H & HA). destruct a as [|y a] using rev_ind.
        -- apply app_inj_tail in E. destruct E as [_ [=]].
        -- clear IHa. rewrite app_comm_cons, app_assoc in E. apply app_inj_tail in E. destruct E as [-> <-].
           exists b, loc', pr', a. split; [reflexivity|]. split; [exact H|].
           intros loc2 o2 pr2 HI. eapply HA. apply in_or_app. left. exact HI.
Qed.
