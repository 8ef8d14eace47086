(** C87: defaults, files divided into profiles, environment, and a selected profile. *)
From Coq Require Import Ascii String ZArith NArith Bool Lia.
From Coq Require Import List.
From Verif Require Import Res BMap BMapProofs Str Profile Tag Num Value Metadata Err Coalesce Figment De Ser Parse Path Data Doc Env.
From Verif Require TextProofs.
From Verif Require Import SpecLookup SpecFigment SpecDe SpecExtract SpecValue SpecRt SpecInto SpecData SpecDoc SpecEnv SpecText SpecStack SpecStages.
From Verif Require Import ValueProofs CoalesceProofs FigmentProofs DeProofs SerProofs MeaningProofs ExtractProofs
  EnvProofs EnvDataProofs DataProofs DocProofs BlindProofs OrderProofs LayersProofs StackProofs PropsFile PropsStack StagesProofs.
Import ListNotations.

(** [Figment::new().merge(Serialized::defaults(x)).merge(Toml::file(path1).nested())…
    .merge(Env::prefixed(pre).global()).select(p)]: each field is what the last variable for it
    says, else what the last file says of it in its section [global], else in its section [p],
    else in its section [default], else its default; and extraction fails exactly when one of
    these cannot be read at the field's type. *)
Theorem C87_config : forall i nm id fields xs sname l0 l1 l3 fs prs files pre vars pr2 p c f c' z,
  let t := TStruct nm id false fields in
  restorable t -> inhabits t (EVStruct xs) -> Forall (fun nt => undivided (snd nt)) fields ->
  Forall2 (fun lp l => nested_file fs (snd lp) l) prs files ->
  no_white pre -> (forall name s, In (name, s) vars -> ~ In dot name) ->
  env_provider (env_global (env_prefixed pre)) vars = Ret pr2 ->
  run (OpProvide l0 Merge (serialized_provider sname (sz_defaults (EVStruct xs) l1)) ::
       map (fun lp => OpProvide (fst lp) Merge (snd lp)) prs ++
       [OpProvide l3 Merge pr2; OpSelect p]) fig_new c = (Ret f, c') ->
  (extract i f t = Ok z <-> exists ys, z = EVStruct ys /\ staged_all i pre vars files p fields xs ys).
Proof.
  intros i nm id fields xs sname l0 l1 l3 fs prs files pre vars pr2 p c f c' z t R HX U NF NW ND EP HR.
  assert (NF' : exists ms, Forall2 (fun (lp : location * provider) m => pv_profile (snd lp) = None /\ pv_data (snd lp) = Ok m /\ wf_profiles m) prs ms /\
                  Forall2 says_profiles files ms /\ Forall wf_profiles ms).
  { clear - NF. induction NF as [|lp l prs files H NF (ms & A & B & C)]; [exists []; auto|].
    destruct (nested_brings fs (snd lp) l H) as (P & m & D & W & S). exists (m :: ms). auto. }
  destruct NF' as (ms & PM & SP & WP).
  change (env_global (env_prefixed pre)) with (build_env (FromPrefix pre) [OpGlobal]) in EP. unfold env_provider in EP.
  destruct (env_data (build_env (FromPrefix pre) [OpGlobal]) vars) as [n2| |] eqn:ED; try discriminate. cbn in EP. injection EP as <-.
  apply env_data_ret in ED. destruct ED as (kept & d2 & EI & KS & DK & EF & En2).
  change (ev_profile (build_env (FromPrefix pre) [OpGlobal])) with p_global in En2. subst n2.
  apply selects_global in KS.
  cbn [run run_op] in HR.
  destruct (provide l0 fig_new (serialized_provider sname (sz_defaults (EVStruct xs) l1)) Merge c) as [[f1| |] c1] eqn:E1; try discriminate.
  destruct (serialized_extracts i t (EVStruct xs) R HX) as (v & Hs & _).
  assert (W00 : wf_profiles []) by (split; [exact I|constructor]).
  assert (Hs' := Hs). cbn [serialize] in Hs'. apply res_map_ok in Hs'. destruct Hs' as (vs & EV & Ev). unfold map_end in Ev.
  destruct (serialized_provide _ _ _ _ _ fig_new [] _ _ _ v Hs eq_refl W00 E1) as [(t0 & d0 & m1 & Evd & Wd & Hf1 & Wm1 & HU1)|[H _]];
    [|exfalso; now apply (H tag_default (collect vs))].
  assert (d0 = collect vs) by congruence. subst d0.
  destruct (piled_run prs ms PM _ f1 m1 c1 f c' Hf1 Wm1 HR) as (f2 & m2 & c2 & Hf2 & Wm2 & _ & HU2 & HR2). clear HR.
  cbn [run run_op] in HR2.
  match type of HR2 with context [provide l3 f2 ?q Merge c2] => destruct (provide l3 f2 q Merge c2) as [[f3| |] c3] eqn:E3; try discriminate end.
  injection HR2 as <- <-.
  destruct (env_fold_leaves kept DK [] d2 EF wf_dict_nil) as [Wd2 _].
  assert (Wn2 : wf_profiles [(p_global, d2)]) by (split; [cbn; auto|constructor; [exact Wd2|constructor]]).
  assert (X := fun P => data_provide _ _ _ _ _ _ _ m2 [(p_global, d2)] Hf2 Wm2 P Wn2 E3).
  destruct (X eq_refl) as (m3 & Hf3 & Wm3 & HU3). clear X.
  assert (B1 : forall r, dut (data_of m1 r) (if profile_eqb r p_default then collect vs else [])).
  { intros r. eapply dut_trans; [apply HU1|]. destruct (LayersProofs.data_single p_default (collect vs) r) as [A B].
    destruct (profile_eqb r p_default) eqn:Q.
    - apply profile_eqb_same in Q. rewrite A by exact Q. cbn [data_of get]. rewrite dcoalesce_nil_l by apply Wd. apply dut_refl.
    - rewrite B; [apply dut_refl|]. intros C. apply profile_eqb_same in C. congruence. }
  assert (B2 : forall r, dut (data_of m2 r) (piled ms r (if profile_eqb r p_default then collect vs else []))).
  { intros r. eapply dut_trans; [apply HU2|]. apply piled_dut, B1. }
  assert (WB : forall r, wf_dict (piled ms r (if profile_eqb r p_default then collect vs else []))).
  { intros r. apply piled_wf; [exact WP|]. destruct (profile_eqb r p_default); [exact Wd|apply wf_dict_nil]. }
  assert (B3 : forall r, profile_eqb r p_global = false -> dut (data_of m3 r) (piled ms r (if profile_eqb r p_default then collect vs else []))).
  { intros r Q. eapply dut_trans; [apply HU3|]. destruct (LayersProofs.data_single p_global d2 r) as [_ B].
    rewrite B by (intros C; apply profile_eqb_same in C; congruence).
    rewrite dcoalesce_nil_r by apply (data_of_wf m2 r Wm2). apply B2. }
  assert (BG : dut (data_of m3 p_global) (dcoalesce Merge (piled ms p_global []) d2)).
  { eapply dut_trans; [apply HU3|]. apply dcoalesce_rel; [|apply dut_refl]. apply (B2 p_global). }
  set (F := fig_select f3 p) in *.
  assert (HF : f_value F = Ok m3) by exact Hf3.
  set (D := dmerge (dmerge (data_of m3 p_default) (selected_of F m3)) (data_of m3 p_global)).
  assert (HD : dut D (dcoalesce Merge
      (dcoalesce Merge (piled ms p_default (collect vs)) (if is_custom p then piled ms p [] else []))
      (dcoalesce Merge (piled ms p_global []) d2))).
  { unfold D, dmerge. apply dcoalesce_rel; [|exact BG]. apply dcoalesce_rel; [exact (B3 p_default eq_refl)|].
    unfold selected_of. change (f_profile F) with p. destruct (is_custom p) eqn:CU; [|apply dut_refl].
    unfold is_custom in CU. apply andb_true_iff in CU. rewrite !negb_true_iff in CU. destruct CU as [C1 C2].
    assert (X := B3 p C2). rewrite C1 in X. exact X. }
  destruct (restorable_ordinary t R) as [O N]. unfold extract. rewrite (merged_ok3 F m3 HF Wm3). fold D. cbn [res_bind].
  assert (WD : wf (VDict tag_default D)).
  { apply wf_VDict. unfold D, dmerge. auto using wf_dcoalesce, data_of_wf, selected_wf. }
  assert (MV := mn_value _ _ _ _ (extraction_meant t O N (MConf i F)) (VDict tag_default D) z WD). cbn [mk_de] in MV. rewrite MV.
  cbn [t restorable] in R. destruct R as (R1 & R2 & R3).
  inversion HX as [| | | | | | | | | | | | |? ? ? ? l' Hl| | | | | | | | | | | | | | |]; subst.
  assert (DA := defaults_at fields R2 xs vs Hl EV).
  assert (FS := fields_staged i pre vars kept files ms p (collect vs) d2 D NW ND KS Wd SP WP EF HD fields xs R3 U DA).
  cbn [t extracts]. split.
  - intros [(g & d & ys & E & _ & B & ->)|(g & a & ys & E & _)]; [|discriminate]. injection E as <- <-.
    exists ys. split; [reflexivity|]. now apply FS.
  - intros (ys & -> & B). left. exists tag_default, D, ys. split; [reflexivity|].
    split; [discriminate|]. split; [now apply FS|reflexivity].
Qed.
Print Assumptions C87_config.

(** ** An example *)
Definition sg_base : list (ustr * doc) :=
  [(lit "default", DocMap [(lit "port", DocInt I64 80); (lit "host", DocStr (lit "base"))]);
   (lit "Debug", DocMap [(lit "port", DocInt I64 81); (lit "log", DocStr (lit "all"))])].
Definition sg_app : list (ustr * doc) :=
  [(lit "default", DocMap [(lit "port", DocInt I64 90)]);
   (lit "global", DocMap [(lit "tags", DocSeq [DocStr (lit "g")])])].
Definition sg_format (l : list (ustr * doc)) : format :=
  doc_format (lit "TOML") (fun _ => Ok (DocMap l)) (fun _ _ => lit "mistake") (fun s => s).
Definition sg_pr (l : list (ustr * doc)) : provider :=
  match data_provider (sg_format l) ex_fs (data_nested (data_file (lit "conf.toml"))) with
  | Ret p => p | _ => mkProvider (md_named []) (Ok []) None None end.
Definition sg_vars : list (ustr * ustr) := [(lit "APP_host", lit "here"); (lit "OTHER_PORT", lit "1")].
Definition sg_run (e : env) (vars : list (ustr * ustr)) (p : profile) : out figment :=
  match env_provider e vars with
  | Ret pr =>
      fst (run (OpProvide st_loc Merge (serialized_provider (lit "Config") (sz_defaults (EVStruct st_defaults) st_loc)) ::
             map (fun lp => OpProvide (fst lp) Merge (snd lp)) [(st_loc, sg_pr sg_base); (st_loc, sg_pr sg_app)] ++
             [OpProvide st_loc Merge pr; OpSelect p]) fig_new 1)
  | _ => Panic
  end.
Definition sg_read (o : out figment) : res error dval :=
  match o with Ret f => extract Exact f st_type | _ => Err (err_msg []) end.

Lemma sg_nested l : l = sg_base \/ l = sg_app -> nested_file ex_fs (sg_pr l) l.
Proof.
  intros L. exists (lit "TOML"), (fun _ => Ok (DocMap l)), (fun _ _ => lit "mistake"), (fun s => s), (lit "conf.toml").
  split; [|split].
  - destruct L as [-> | ->]; vm_compute; reflexivity.
  - right. exists (lit "/etc/app/conf.toml"), (lit "a"). split; [|split; reflexivity].
    destruct (C37_resolve ex_fs (lit "conf.toml") true) as (r & F & E).
    + exact (proj1 C37_ex_cwd).
    + replace (Some (lit "/etc/app/conf.toml")) with r; [exact F|]. rewrite (proj1 C37_ex) in E. congruence.
  - destruct L as [-> | ->]; intros k x J; cbn in J; repeat (destruct J as [J|J]; [injection J as <- <-|]); try destruct J;
      eexists; (split; [reflexivity|]); intros k' y J'; cbn in J'; repeat (destruct J' as [J'|J']; [injection J' as <- <-|]);
      try destruct J'; try (constructor; discriminate).
    apply pd_seq. constructor; [|constructor]. constructor; discriminate.
Qed.

(** The profile's section goes before the default one though the latter is in the later file;
    the section for all profiles and the variable go before both. *)
Example C87_ex :
  Forall2 (fun lp l => nested_file ex_fs (snd lp) l) [(st_loc, sg_pr sg_base); (st_loc, sg_pr sg_app)] [sg_base; sg_app] /\
  sg_read (sg_run (env_global (env_prefixed (lit "app_"))) sg_vars (mkProfile (lit "DEBUG"))) =
    Ok (EVStruct [(lit "host", EVStr (lit "here")); (lit "port", EVInt U16 81); (lit "log", EVSome (EVStr (lit "all")));
                  (lit "tags", EVSeq [EVStr (lit "g")])]) /\
  sg_read (sg_run (env_global (env_prefixed (lit "app_"))) [] (mkProfile (lit "nowhere"))) =
    Ok (EVStruct [(lit "host", EVStr (lit "base")); (lit "port", EVInt U16 90); (lit "log", EVNone);
                  (lit "tags", EVSeq [EVStr (lit "g")])]).
Proof.
  split; [|split; vm_compute; reflexivity].
  constructor; [apply sg_nested; now left|]. constructor; [apply sg_nested; now right|constructor].
Qed.

(** Without [global()], the variable is for the default profile only: the file's section for the
    selected profile goes before it. *)
Theorem C87_env_refuted : exists vars s p f fields y,
  set_to (lit "APP_") vars (lit "port") s /\ s = lit "9000" /\
  sg_run (env_prefixed (lit "APP_")) vars p = Ret f /\
  extract Exact f st_type = Ok (EVStruct fields) /\ In (lit "port", y) fields /\ y = EVInt U16 81 /\
  forall f', sg_run (env_global (env_prefixed (lit "APP_"))) vars p = Ret f' ->
    exists fields', extract Exact f' st_type = Ok (EVStruct fields') /\ In (lit "port", EVInt U16 9000) fields'.
Proof.
  exists [(lit "APP_PORT", lit "9000")], (lit "9000"), (mkProfile (lit "debug")). do 3 eexists.
  split.
  { exists [], (lit "APP_PORT"), []. split; [reflexivity|]. split; [|intros ? ? []].
    exists [], (lit "APP_"), [], (lit "PORT"), []. split; [reflexivity|]. do 3 (split; [constructor|]). split; [apply lower_alike; reflexivity|].
    split; [discriminate|]. split.
    - split; intros c r E.
      + cbn in E. injection E as <- _. cbn. intuition discriminate.
      + assert (X : rev (lit "PORT") = c :: rev r) by (rewrite E, rev_app_distr; reflexivity). cbn in X. injection X as <- _. cbn. intuition discriminate.
    - apply TextProofs.lowered_lower. reflexivity. }
  split; [reflexivity|]. split; [vm_compute; reflexivity|]. split; [vm_compute; reflexivity|].
  split; [right; left; reflexivity|]. split; [reflexivity|].
  intros f' E. vm_compute in E. injection E as <-. eexists. split; [vm_compute; reflexivity|]. right; left; reflexivity.
Qed.
Print Assumptions C87_env_refuted.
