(** C67: what a type does not look at does not matter.  C68: data that does not overlap can be
    provided in any order. *)
From Coq Require Import Ascii String ZArith NArith Bool Permutation.
From Coq Require Import List.
From Verif Require Import Res BMap Str Profile Tag Num Value Metadata Err Coalesce Figment De.
From Verif Require Import BMapProofs StrProofs ValueProofs CoalesceProofs FigmentProofs FigmentProofs2 ProvProofs PriorityProofs.
From Verif Require Import SpecValue SpecFigment SpecRt SpecBlind BlindProofs SpecFrame FrameProofs OrderProofs.
Import ListNotations.

(** ** C67 *)

(** Values that differ only where the type does not look give the same result, or the same error
    with the same blame: in a Figment, strictly or leniently, and on their own. *)
Theorem C67_value : forall t v w, alike t v w ->
  value_deserialize t v = value_deserialize t w /\
  forall i f, deserialize t (DConf i f v) = deserialize t (DConf i f w).
Proof.
  intros t v w H. split; [exact (deserialize_alike t v w H MPlain)|].
  intros i f. exact (deserialize_alike t v w H (MConf i f)).
Qed.
Print Assumptions C67_value.

(** Figments whose merged data differs only there, and in sources, give the same. *)
Theorem C67_extract : forall i f g t v w, merged f = Ok v -> merged g = Ok w ->
  alike t (untag v) (untag w) -> unreserved t ->
  seen forget (extract i f t) = seen forget (extract i g t).
Proof.
  intros i f g t v w Hf Hg HA U. apply agree_seen. unfold extract. rewrite Hf, Hg. cbn [res_bind].
  apply agree_seen. transitivity (seen forget (deserialize t (DConf i f (untag v)))).
  - apply agree_seen. apply deserialize_blind; [exact U|]. constructor. unfold ut. now rewrite untag_idem.
  - rewrite (proj2 (C67_value _ _ _ HA) i f). apply agree_seen. apply deserialize_blind; [exact U|].
    constructor. unfold ut. now rewrite untag_idem.
Qed.
Print Assumptions C67_extract.

(** A provider that says nothing about the fields of a struct changes nothing for it, however it is
    combined, unless the struct refuses unknown fields. *)
Theorem C67_unrelated : forall H f loc p o c f' c' i n id fs, reachable H f ->
  silent_on (map fst fs) p -> provide loc f p o c = (Ret f', c') ->
  ~ In n [value_name; rel_name; tagged_name] -> unreserved (TStruct n id false fs) ->
  seen forget (extract i f (TStruct n id false fs)) = seen forget (extract i f' (TStruct n id false fs)).
Proof.
  intros H f loc p o c f' c' i n id fs HR (HQ & nm & HD & Wn & HS) HP HName U.
  apply provide_ret in HP. destruct HP as (_ & _ & E).
  destruct (f_value f) as [m|e] eqn:Ev.
  - destruct (reachable_data_tagged _ _ _ HR Ev) as [Wm _].
    rewrite HD, HQ in E.
    assert (Wr := wf_retag_data (tag_new c PTDefault) nm Wn).
    assert (Wp := wf_pcoalesce o m _ Wm Wr).
    assert (Ev' : f_value f' = Ok (pcoalesce o m (retag_data (tag_new c PTDefault) nm))) by now subst f'.
    assert (Ef' : f_profile f' = f_profile f) by now subst f'.
    assert (HN : forall q k, In k (map fst fs) -> get k (data_of (retag_data (tag_new c PTDefault) nm) q) = None).
    { intros q k Hk. unfold data_of. rewrite retag_data_get. destruct (get q nm) as [d|] eqn:Ed; cbn; [|reflexivity].
      unfold retag_dict.
      rewrite (get_map_values (fun _ x => map_tag (fun _ => for_profile (tag_new c PTDefault) q) x)) by reflexivity.
      destruct (get_In _ _ _ Ed) as (q' & _ & Hin). now rewrite (HS _ _ _ Hin Hk). }
    assert (HK : forall q k, In k (map fst fs) ->
      get k (data_of (pcoalesce o m (retag_data (tag_new c PTDefault) nm)) q) = get k (data_of m q)).
    { intros q k Hk. rewrite data_of_pcoalesce by assumption.
      rewrite dcoalesce_get by (apply data_of_wf; assumption). rewrite (HN q k Hk). unfold opt_combine.
      now destruct (get k (data_of m q)). }
    assert (Wd := fun q => data_of_wf _ q Wm). assert (Wd' := fun q => data_of_wf _ q Wp).
    assert (Ws := selected_wf f _ Wm). assert (Ws' := selected_wf f' _ Wp).
    unfold extract. rewrite (merged_ok3 f m Ev Wm), (merged_ok3 f' _ Ev' Wp). cbn [res_bind].
    match goal with |- seen _ (deserialize ?t (DConf _ _ ?v)) = seen _ (deserialize _ (DConf _ _ ?w)) =>
      transitivity (seen forget (deserialize t (DConf i f w)));
        [|apply agree_seen; apply (deserialize_blind _ U); constructor; apply ut_refl];
      f_equal; apply (deserialize_alike t v w) with (m := MConf i f) end.
    apply al_struct.
    + exact HName.
    + unfold dmerge. apply dcoalesce_sorted.
    + unfold dmerge. apply dcoalesce_sorted.
    + intros k t Hk. apply (in_map fst) in Hk. cbn [fst] in Hk. unfold dmerge.
      rewrite !dcoalesce_get by (try apply dcoalesce_sorted; apply Wd || apply Wd' || apply Ws || apply Ws').
      rewrite !HK by exact Hk.
      assert (HSel : get k (selected_of f' (pcoalesce o m (retag_data (tag_new c PTDefault) nm))) = get k (selected_of f m)).
      { unfold selected_of. rewrite Ef'. destruct (is_custom (f_profile f)); [now apply HK|reflexivity]. }
      rewrite HSel.
      match goal with |- both _ ?a ?b => destruct b; constructor; apply al_same end.
    + discriminate.
  - rewrite HD, HQ in E. unfold extract. rewrite (merged_err f e Ev), (merged_err f' e) by now subst f'.
    cbn. now rewrite !report_resolved.
Qed.
Print Assumptions C67_unrelated.

(** *** Cases *)
Definition fr_v (s : string) : value := VString tag_default (lit s).
Definition fr_n (z : Z) : value := VNum tag_default (NInt U16 z).
Definition fr_server : ty := TStruct (lit "Server") (lit "Server") false [(lit "host", TString); (lit "port", TInt U16)].
Definition fr_color : ty := TEnum (lit "Color") [(lit "rgb", ShNew (TTuple [TInt U16; TInt U16])); (lit "none", ShUnit)].
Definition fr_ty : ty := TStruct (lit "Config") (lit "Config") false
  [(lit "color", fr_color); (lit "servers", TSeq fr_server)].

(** Values that differ in four places the type does not look at. *)
Definition fr_one : value := VDict tag_default
  [(lit "color", VDict tag_default [(lit "rgb", VArray tag_default [fr_n 1; fr_n 2])]);
   (lit "servers", VArray tag_default [VDict tag_default [(lit "host", fr_v "a"); (lit "port", fr_n 80)]])].
Definition fr_two : value := VDict tag_default
  [(lit "color", VDict tag_default [(lit "rgb", VArray tag_default [fr_n 1; fr_n 2; fr_n 3]); (lit "x", fr_n 1)]);
   (lit "comment", fr_v "made by hand");
   (lit "servers", VArray tag_default [VDict tag_default [(lit "host", fr_v "a"); (lit "owner", fr_v "me"); (lit "port", fr_n 80)]])].

Ltac fr_keys := let E := fresh in repeat match goal with
  | H : _ \/ _ |- _ => destruct H as [H|H]
  | H : False |- _ => destruct H
  | H : (_, _) = (_, _) |- _ => injection H; clear H; intros; subst
  end.

Lemma fr_alike : alike fr_ty fr_one fr_two.
Proof.
  apply al_struct; [intros [E|[E|[E|[]]]]; discriminate E|vm_compute; tauto|vm_compute; tauto| |discriminate].
  intros k t HI. cbn in HI. fr_keys.
  - apply bo_some. apply al_enum_new; [|intros s HI; cbn in HI; fr_keys; [eauto|discriminate]|reflexivity].
    intros t HI. cbn in HI. fr_keys; [|discriminate]. 
    apply al_tuple. intros [|[|[|n]]] t HT; cbn in HT; try discriminate HT; injection HT as <-;
      cbn; apply bo_some; apply al_same.
  - apply bo_some. apply al_seq. constructor; [|constructor].
    apply al_struct; [intros [E|[E|[E|[]]]]; discriminate E|vm_compute; tauto|vm_compute; tauto| |discriminate].
    intros k t HI. cbn in HI. fr_keys; cbn; apply bo_some; apply al_same.
Qed.

Example C67_ex : alike fr_ty fr_one fr_two /\ untag fr_one <> untag fr_two /\
  value_deserialize fr_ty fr_one =
    Ok (EVStruct [(lit "color", EVVariant (lit "rgb") (ShNew (EVTuple [EVInt U16 1; EVInt U16 2])));
                  (lit "servers", EVSeq [EVStruct [(lit "host", EVStr (lit "a")); (lit "port", EVInt U16 80)]])]) /\
  value_deserialize fr_ty fr_two = value_deserialize fr_ty fr_one.
Proof.
  split; [exact fr_alike|]. split; [discriminate|]. split; vm_compute; reflexivity.
Qed.

(** With [deny_unknown_fields] the extra key matters. *)
Theorem C67_deny_refuted : exists n i fs v w,
  (forall k t, In (k, t) fs -> get k v = get k w) /\
  value_deserialize (TStruct n i true fs) (VDict tag_default v) <>
  value_deserialize (TStruct n i true fs) (VDict tag_default w).
Proof.
  exists (lit "S"), (lit "S"), [(lit "a", TInt U16)], [(lit "a", fr_n 1)], [(lit "a", fr_n 1); (lit "b", fr_n 2)].
  split; [|vm_compute; discriminate]. intros k t HI. cbn in HI. fr_keys. reflexivity.
Qed.
Print Assumptions C67_deny_refuted.

Definition fr_provider (s : string) (d : dict) : provider :=
  mkProvider (md_named (lit s)) (Ok [(p_default, d)]) None None.
Definition fr_loc : location := mkLoc (lit "main.rs") 1 1.
Definition fr_run (l : list op) : figment := match run l fig_new 1 with (Ret f, _) => f | _ => fig_new end.
Definition fr_base : list op := [OpProvide fr_loc Merge (fr_provider "base" [(lit "host", fr_v "a"); (lit "port", fr_n 80)])].
Definition fr_more : provider := fr_provider "more" [(lit "colour", fr_v "red"); (lit "zoom", fr_n 3)].

Lemma fr_wf d : sorted d -> Forall (fun kv => wf (snd kv)) d -> wf_profiles [(p_default, d)].
Proof. intros H1 H2. repeat split; auto. constructor; [split; assumption|constructor]. Qed.

Example C67_ex_unrelated : silent_on [lit "host"; lit "port"] fr_more /\ unreserved fr_server /\
  seen forget (extract Exact (fr_run fr_base) fr_server) =
    seen forget (extract Exact (fr_run (fr_base ++ [OpProvide fr_loc Merge fr_more])) fr_server) /\
  seen forget (extract Exact (fr_run fr_base) fr_server) =
    Ok (EVStruct [(lit "host", EVStr (lit "a")); (lit "port", EVInt U16 80)]).
Proof.
  split; [|split; [|split; vm_compute; reflexivity]].
  - split; [reflexivity|]. eexists. split; [reflexivity|]. split.
    + apply fr_wf; [vm_compute; tauto|repeat constructor].
    + intros q d k HI HK. cbn in HI, HK. fr_keys; subst; reflexivity.
  - apply ur_struct; [intros [E|[E|[E|[]]]]; discriminate E|]. intros k t HI. cbn in HI. fr_keys.
    + apply ur_basic. cbn. tauto.
    + apply ur_int.
Qed.

(** ** C68 *)

(** Providers that do not overlap can be provided in any order, over whatever is already there, as
    long as all give way to it or all override it. *)
Theorem C68_any_order : forall H f o l l' c c' f' g' n n', reachable H f -> Permutation l l' ->
  Forall (fun x => quiet (call_with x) /\ keeps_existing (call_order x) = keeps_existing o) l ->
  ForallOrdPairs (fun x y => apart_providers (call_with x) (call_with y)) l ->
  run (calls l) f c = (Ret f', n) -> run (calls l') f c' = (Ret g', n') ->
  indistinguishable f' g' /\ f_profile f' = f_profile f /\ f_profile g' = f_profile f.
Proof.
  intros H f o l l' c c' f' g' n n' HR HP HS HA E1 E2.
  assert (Sf : sound f).
  { unfold sound. destruct (f_value f) as [m|] eqn:Ev; [|exact I]. eapply reachable_data_tagged; eassumption. }
  assert (HQ : Forall (fun x => quiet (call_with x)) l) by (eapply Forall_impl; [|exact HS]; intros x Hx; apply Hx).
  split.
  - apply level_indistinguishable. eapply run_permutation; try eassumption. now apply level_refl.
  - split; [eapply (run_quiet_sound l); eassumption|].
    eapply (run_quiet_sound l'); [|exact Sf|exact E2]. eapply Permutation_Forall; eassumption.
Qed.
Print Assumptions C68_any_order.

(** *** Cases *)
Definition fr_call (o : order) (s : string) (d : dict) : call := mkCall fr_loc o (fr_provider s d).
Definition fr_db (d : dict) : dict := [(lit "db", VDict tag_default d)].
Definition fr_calls : list call :=
  [fr_call Merge "a" (fr_db [(lit "url", fr_v "x")]);
   fr_call Admerge "b" (fr_db [(lit "pool", fr_n 4)] ++ [(lit "tags", VArray tag_default [fr_v "t"])]);
   fr_call Merge "c" [(lit "name", fr_v "n")]].
Definition fr_start : list op :=
  [OpProvide fr_loc Merge (fr_provider "base" (fr_db [(lit "url", fr_v "old"); (lit "user", fr_v "u")]
     ++ [(lit "tags", VArray tag_default [fr_v "s"])]))].

(** Deciding that two dictionaries are apart. *)
Fixpoint apartb (fuel : nat) (a b : dict) : bool :=
  match fuel with
  | O => false
  | S fuel => forallb (fun kx => match get (fst kx) b with
                                | None => true
                                | Some y => match snd kx, y with
                                            | VDict _ d, VDict _ e => apartb fuel d e
                                            | _, _ => false
                                            end
                                end) a
  end.
Lemma apartb_sound fuel : forall a b, apartb fuel a b = true -> apart a b.
Proof.
  induction fuel as [|fuel IH]; intros a b H; [discriminate|]. cbn [apartb] in H.
  intros [|k p] x y Hx Hy; [cbn in Hx, Hy; injection Hx as <-; injection Hy as <-; now split|].
  cbn [at_path] in Hx, Hy. destruct (get k a) as [u|] eqn:Ea; [|discriminate].
  destruct (get k b) as [v|] eqn:Eb; [|discriminate].
  destruct (get_In _ _ _ Ea) as (k' & HC & Hin). rewrite forallb_forall in H. specialize (H _ Hin). cbn [fst snd] in H.
  rewrite <- (get_eq k k' b HC), Eb in H. destruct u as [| | | | |t d|]; try discriminate H.
  destruct v as [| | | | |t' e|]; try discriminate H. destruct p as [|k2 p].
  - cbn in Hx, Hy. injection Hx as <-. injection Hy as <-. now split.
  - apply (IH _ _ H (k2 :: p) x y); assumption.
Qed.

Definition fr_apart (x y : call) : Prop := apart_providers (call_with x) (call_with y).
Lemma fr_apart_intro o o' s s' d d' : apartb 9 d d' = true -> fr_apart (fr_call o s d) (fr_call o' s' d').
Proof.
  intros H m n r e e' Hm Hn He He'. cbn in Hm, Hn. injection Hm as <-. injection Hn as <-.
  cbn in He, He'. destruct (cmp r p_default); try discriminate. injection He as <-. injection He' as <-.
  exact (apartb_sound 9 _ _ H).
Qed.

Example C68_ex : let k := lit "db" in
  Forall (fun x => quiet (call_with x) /\ keeps_existing (call_order x) = keeps_existing Merge) fr_calls /\
  ForallOrdPairs fr_apart fr_calls /\
  let f := fr_run (fr_start ++ calls fr_calls) in
  let g := fr_run (fr_start ++ calls (rev fr_calls)) in
  seen untag (merged f) = seen untag (merged g) /\
  seen untag (merged f) = Ok (VDict tag_default
    [(lit "db", VDict tag_default [(lit "pool", fr_n 4); (lit "url", fr_v "x"); (lit "user", fr_v "u")]);
     (lit "name", fr_v "n"); (lit "tags", VArray tag_default [fr_v "s"; fr_v "t"])]).
Proof.
  split; [|split; [|split; vm_compute; reflexivity]].
  - repeat constructor; eexists; (split; [reflexivity|]);
      (apply fr_wf; [vm_compute; tauto|repeat (constructor; cbn; try tauto)]).
  - constructor; [|constructor; [|constructor; [|constructor]]]; repeat (apply Forall_cons || apply Forall_nil);
      apply fr_apart_intro; vm_compute; reflexivity.
Qed.

(** Mixing [join] with [merge] does not commute: over a value that is no dictionary, the first of two
    dictionaries decides whether the second has anything to be added to. *)
Theorem C68_mixed_refuted : exists base x y, fr_apart x y /\
  quiet (call_with x) /\ quiet (call_with y) /\
  seen untag (merged (fr_run (base ++ calls [x; y]))) <> seen untag (merged (fr_run (base ++ calls [y; x]))).
Proof.
  exists [OpProvide fr_loc Merge (fr_provider "base" [(lit "db", fr_n 1)])],
    (fr_call Join "a" (fr_db [(lit "url", fr_v "x")])), (fr_call Merge "b" (fr_db [(lit "pool", fr_n 4)])).
  split; [apply fr_apart_intro; vm_compute; reflexivity|].
  split; [|split; [|vm_compute; discriminate]].
  - split; [reflexivity|]. eexists. split; [reflexivity|].
    apply fr_wf; [vm_compute; tauto|repeat (constructor; cbn; try tauto)].
  - split; [reflexivity|]. eexists. split; [reflexivity|].
    apply fr_wf; [vm_compute; tauto|repeat (constructor; cbn; try tauto)].
Qed.
Print Assumptions C68_mixed_refuted.

(** Nor do arrays for one key: [adjoin] appends in the order of the calls. *)
Theorem C68_overlap_refuted : exists x y, quiet (call_with x) /\ quiet (call_with y) /\
  call_order x = call_order y /\
  seen untag (merged (fr_run (calls [x; y]))) <> seen untag (merged (fr_run (calls [y; x]))).
Proof.
  exists (fr_call Adjoin "a" [(lit "tags", VArray tag_default [fr_v "s"])]),
    (fr_call Adjoin "b" [(lit "tags", VArray tag_default [fr_v "t"])]).
  split; [|split; [|split; [reflexivity|vm_compute; discriminate]]].
  - split; [reflexivity|]. eexists. split; [reflexivity|].
    apply fr_wf; [vm_compute; tauto|repeat (constructor; cbn; try tauto)].
  - split; [reflexivity|]. eexists. split; [reflexivity|].
    apply fr_wf; [vm_compute; tauto|repeat (constructor; cbn; try tauto)].
Qed.
Print Assumptions C68_overlap_refuted.
