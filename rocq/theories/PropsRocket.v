(** C94: defaults, files divided into profiles, the environment with keys it may not set, and a
    profile chosen by a variable. *)
From Coq Require Import Ascii String ZArith NArith Bool Lia.
From Coq Require Import List.
From Verif Require Import Res BMap BMapProofs Str StrProofs Profile Tag Num Value Metadata Err Coalesce Figment De Ser Parse Path Data Doc Env Fmt Display.
From Verif Require Import SpecLookup SpecFigment SpecDe SpecExtract SpecValue SpecRt SpecInto SpecData SpecDoc SpecEnv SpecText SpecGives SpecRefuse SpecStack SpecStages SpecDisplay SpecStageFault SpecRocket.
From Verif Require TextProofs.
From Verif Require Import StackProofs RocketProofs PropsFile PropsStack PropsStages PropsStageFault.
Import ListNotations.

(** [Env::prefixed(pre).ignore(ks).global()] is [Env::prefixed(pre).global()] in an environment
    without the variables passed over; there is exactly one such environment.  For a key that is
    not among [ks] nothing is passed over; one that is, is not set by any variable without white
    space in its name. *)
Theorem C94_ignored : forall pre ks vars,
  no_white pre -> Forall no_white ks ->
  (exists vars', heeded pre ks vars vars' /\ forall l, heeded pre ks vars l -> l = vars') /\
  forall vars', heeded pre ks vars vars' ->
    env_provider (env_global (env_ignore (env_prefixed pre) ks)) vars = env_provider (env_global (env_prefixed pre)) vars' /\
    ((forall name s, In (name, s) vars -> ~ In dot name) -> forall n,
       ((forall k, In k ks -> ~ alike n k) ->
        (unset pre vars' n <-> unset pre vars n) /\ forall s, set_to pre vars' n s <-> set_to pre vars n s) /\
       ((exists k, In k ks /\ alike n k) -> (forall name s, In (name, s) vars -> no_white name) -> unset pre vars' n)).
Proof.
  intros pre ks vars NP NK. split.
  { destruct (heeded_ex pre ks NP NK vars) as (v & H). exists v. split; [exact H|]. intros l L. exact (heeded_fun pre ks vars l v L H). }
  intros vars' H. split; [now apply over_provider|]. intros ND n. split.
  - intros NI. exact (heeded_field pre ks vars vars' n NP NK ND NI H).
  - intros (k & I & A) W. clear ND. induction H as [|name s l l' P H IH|name s l l' P H IH].
    + intros ? ? [].
    + apply IH. intros; eapply W; right; eauto.
    + apply unset_cons. split; [|apply IH; intros; eapply W; right; eauto].
      assert (WN := W name s (or_introl eq_refl)). intros (w1 & p & w2 & k0 & w3 & E & W1 & W2 & W3 & AP & _ & _ & L). apply P.
      assert (w2 = []) as ->.
      { destruct w2 as [|c w2]; [reflexivity|]. exfalso. unfold no_white in WN. rewrite E in WN. rewrite !Forall_app in WN. destruct WN as (_ & _ & WN & _).
        inversion W2; inversion WN; subst. contradiction. }
      exists w1, p, k0, w3. split; [exact E|]. do 3 (split; [assumption|]). exists k. split; [exact I|].
      apply lower_alike. apply TextProofs.lowered_lower in L. subst n. rewrite <- (TextProofs.alike_lower _ _ A). symmetry. apply lower_idem.
Qed.
Print Assumptions C94_ignored.

Lemma staged_heeded i pre vars vars' files p n t x y :
  (unset pre vars' n <-> unset pre vars n) -> (forall s, set_to pre vars' n s <-> set_to pre vars n s) ->
  staged i pre vars' files p n t x y <-> staged i pre vars files p n t x y.
Proof.
  intros U S. split; intros H; inversion H;
    [eapply sg_variable; [eapply S|..]|eapply sg_global; [apply U|..]|eapply sg_profile; [apply U|..]|eapply sg_default; [apply U|..]|eapply sg_unsaid; [apply U|..]|
     eapply sg_variable; [eapply S|..]|eapply sg_global; [apply U|..]|eapply sg_profile; [apply U|..]|eapply sg_default; [apply U|..]|eapply sg_unsaid; [apply U|..]]; eassumption.
Qed.

Lemma staged_all_heeded i pre ks vars vars' files p : no_white pre -> Forall no_white ks ->
  (forall name s, In (name, s) vars -> ~ In dot name) -> heeded pre ks vars vars' ->
  forall fields, Forall (fun nt : ustr * ty => forall k, In k ks -> ~ alike (fst nt) k) fields -> forall xs ys,
  staged_all i pre vars' files p fields xs ys <-> staged_all i pre vars files p fields xs ys.
Proof.
  intros NP NK ND H. induction 1 as [|[n t] fields NI _ IH]; intros xs ys; [destruct xs, ys; cbn; tauto|].
  destruct xs as [|[n1 x] xs], ys as [|[n2 y] ys]; cbn [staged_all]; try tauto.
  rewrite (IH xs ys). destruct (heeded_field pre ks vars vars' n NP NK ND NI H) as [A B].
  rewrite (staged_heeded i pre vars vars' files p n t x y A B). tauto.
Qed.

Lemma spoken_heeded pre vars vars' files p n who v :
  (unset pre vars' n <-> unset pre vars n) -> (forall s, set_to pre vars' n s <-> set_to pre vars n s) ->
  spoken pre vars' files p n who v <-> spoken pre vars files p n who v.
Proof.
  intros U S. split; intros H; inversion H;
    [eapply sp_variable; [eapply S|..]|eapply sp_global; [apply U|..]|eapply sp_selected; [apply U|..]|eapply sp_default; [apply U|..]|
     eapply sp_variable; [eapply S|..]|eapply sp_global; [apply U|..]|eapply sp_selected; [apply U|..]|eapply sp_default; [apply U|..]]; eassumption.
Qed.

(** [Figment::from(Serialized::defaults(x)).merge(Toml::file(path1).nested())…
    .merge(Env::prefixed(pre).ignore(ks).global()).select(Profile::from_env_or(key, d))], for a
    struct without a field among [ks]: what C87 says, for the profile the first variable called
    [key] names, or [d]. *)
Theorem C94_config : forall i nm id fields xs sname l0 l1 l3 fs prs files pre ks vars pr2 key d p c f c' z,
  let t := TStruct nm id false fields in
  restorable t -> inhabits t (EVStruct xs) -> Forall (fun nt => undivided (snd nt)) fields ->
  Forall2 (fun lp l => nested_file fs (snd lp) l) prs files ->
  no_white pre -> Forall no_white ks -> no_white key -> (forall name s, In (name, s) vars -> ~ In dot name) ->
  Forall (fun nt => forall k, In k ks -> ~ alike (fst nt) k) fields ->
  env_provider (env_global (env_ignore (env_prefixed pre) ks)) vars = Ret pr2 ->
  run (OpProvide l0 Merge (serialized_provider sname (sz_defaults (EVStruct xs) l1)) ::
       map (fun lp => OpProvide (fst lp) Merge (snd lp)) prs ++
       [OpProvide l3 Merge pr2; OpSelect (profile_from_env_or vars key d)]) fig_new c = (Ret f, c') ->
  chosen vars key d p ->
  (extract i f t = Ok z <-> exists ys, z = EVStruct ys /\ staged_all i pre vars files p fields xs ys).
Proof.
  intros i nm id fields xs sname l0 l1 l3 fs prs files pre ks vars pr2 key d p c f c' z t R HX U NF NP NK NKey ND NI EP HR CH.
  apply (chosen_spec vars key d p NKey) in CH. rewrite CH in HR.
  destruct (heeded_ex pre ks NP NK vars) as (vars' & H). rewrite (over_provider pre ks NP NK vars vars' H) in EP.
  assert (ND' : forall name s, In (name, s) vars' -> ~ In dot name) by (intros name s J; exact (ND name s (heeded_in _ _ _ _ H _ J))).
  unfold t; rewrite (C87_config i nm id fields xs sname l0 l1 l3 fs prs files pre vars' pr2 p c f c' z R HX U NF NP ND' EP HR).
  assert (G := staged_all_heeded i pre ks vars vars' files p NP NK ND H).
  split; intros (ys & E & S); exists ys; (split; [exact E|]); now apply (G fields NI xs ys).
Qed.
Print Assumptions C94_config.

(** And what C91 says of errors. *)
Theorem C94_fault : forall i nm id fields xs sname l0 l1 l3 fs prs files pre ks vars pr2 key d p c f c' q kd,
  let t := TStruct nm id false fields in
  restorable t -> inhabits t (EVStruct xs) -> Forall (fun nt => undivided (snd nt)) fields ->
  Forall2 (fun lp l => nested_file fs (snd lp) l) prs files ->
  no_white pre -> Forall no_white ks -> no_white key -> (forall name s, In (name, s) vars -> ~ In dot name) ->
  Forall (fun nt => forall k, In k ks -> ~ alike (fst nt) k) fields ->
  env_provider (env_global (env_ignore (env_prefixed pre) ks)) vars = Ret pr2 ->
  run (OpProvide l0 Merge (serialized_provider sname (sz_defaults (EVStruct xs) l1)) ::
       map (fun lp => OpProvide (fst lp) Merge (snd lp)) prs ++
       [OpProvide l3 Merge pr2; OpSelect (profile_from_env_or vars key d)]) fig_new c = (Ret f, c') ->
  chosen vars key d p ->
  (exists e, extract i f t = Err e /\ e_path e = q /\ e_kind e = kd) <->
  (exists n who r, q = n :: r /\ first_misspoken (MConf i f) pre vars files p fields n who r kd).
Proof.
  intros i nm id fields xs sname l0 l1 l3 fs prs files pre ks vars pr2 key d p c f c' q kd t R HX U NF NP NK NKey ND NI EP HR CH.
  apply (chosen_spec vars key d p NKey) in CH. rewrite CH in HR.
  destruct (heeded_ex pre ks NP NK vars) as (vars' & H). rewrite (over_provider pre ks NP NK vars vars' H) in EP.
  assert (ND' : forall name s, In (name, s) vars' -> ~ In dot name) by (intros name s J; exact (ND name s (heeded_in _ _ _ _ H _ J))).
  unfold t; rewrite (C91_fault i nm id fields xs sname l0 l1 l3 fs prs files pre vars' pr2 p c f c' q kd R HX U NF NP ND' EP HR).
  assert (G : forall n t who r k, In (n, t) fields ->
    (misspoken (MConf i f) pre vars' files p n t who r k <-> misspoken (MConf i f) pre vars files p n t who r k)).
  { intros n t0 who r k I. rewrite Forall_forall in NI. assert (X := NI (n, t0) I). cbn [fst] in X.
    destruct (heeded_field pre ks vars vars' n NP NK ND X H) as [A B]. unfold misspoken.
    split; intros (v & S & RF); exists v; (split; [|exact RF]); now apply (spoken_heeded pre vars vars' files p n who v A B). }
  unfold first_misspoken. split; intros (n & who & r & E & (t0 & I & M) & F); exists n, who, r; (split; [exact E|]);
    (split; [exists t0; split; [exact I|now apply (G n t0 who r kd I)]|]);
    intros n' t' who' q' k' I' C' M'; apply (F n' t' who' q' k' I' C'); now apply (G n' t' who' q' k' I').
Qed.
Print Assumptions C94_fault.

(** [APP_PROFILE] chooses the profile and is no setting. *)
Example C94_ex :
  let vars := [(lit "app_port", lit "7"); (lit "App_Profile", lit "Debug"); (lit "APP_PROFILE", lit "other")] in
  chosen vars (lit "APP_PROFILE") p_default (mkProfile (lit "Debug")) /\
  passed_over (lit "APP_") [lit "profile"] (lit "App_Profile") /\
  Forall (fun nt => forall k, In k [lit "profile"] -> ~ alike (fst nt) k) [(lit "host", TString); (lit "port", TInt U16)] /\
  sg_read (sg_run (env_global (env_ignore (env_prefixed (lit "APP_")) [lit "profile"])) vars
             (profile_from_env_or vars (lit "APP_PROFILE") p_default)) =
    Ok (EVStruct [(lit "host", EVStr (lit "base")); (lit "port", EVInt U16 7); (lit "log", EVSome (EVStr (lit "all")));
                  (lit "tags", EVSeq [EVStr (lit "g")])]).
Proof.
  split; [apply chosen_spec; [|reflexivity]|split; [|split; [|vm_compute; reflexivity]]].
  - repeat (constructor; [cbn; intuition discriminate|]). constructor.
  - exists [], (lit "App_"), (lit "Profile"), []. split; [reflexivity|]. do 2 (split; [constructor|]).
    split; [apply lower_alike; reflexivity|]. exists (lit "profile"). split; [now left|apply lower_alike; reflexivity].
  - repeat (constructor; [intros k [<-|[]] A; apply TextProofs.alike_lower in A; discriminate|]). constructor.
Qed.

(** Not every variable for a key is passed over: with white space after the prefix it is not, though
    it is a variable for that key. *)
Theorem C94_blank_refuted : exists pre ks vars n s,
  In n ks /\ set_to pre vars n s /\
  env_data (env_global (env_ignore (env_prefixed pre) ks)) vars = Ret [(p_global, [(n, VNum tag_default (NInt USize 1))])] /\ s = lit "1".
Proof.
  exists (lit "APP_"), [lit "key"], [(lit "APP_ KEY", lit "1")], (lit "key"), (lit "1").
  split; [now left|]. split; [|split; vm_compute; reflexivity].
  exists [], (lit "APP_ KEY"), []. split; [reflexivity|]. split; [|intros ? ? []].
  exists [], (lit "APP_"), (lit " "), (lit "KEY"), []. split; [reflexivity|]. split; [constructor|].
  split; [repeat constructor; cbn; tauto|]. split; [constructor|]. split; [apply lower_alike; reflexivity|].
  split; [discriminate|]. split.
  - split; intros c r E.
    + cbn in E. injection E as <- _. cbn. intuition discriminate.
    + assert (X : rev (lit "KEY") = c :: rev r) by (rewrite E, rev_app_distr; reflexivity). cbn in X. injection X as <- _. cbn. intuition discriminate.
  - apply TextProofs.lowered_lower. reflexivity.
Qed.
Print Assumptions C94_blank_refuted.
