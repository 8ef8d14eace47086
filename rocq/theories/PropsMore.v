(** Properties C51-C54 and more on C07: typed extraction as a whole, listing profiles, single
    variables, error messages. *)
From Coq Require Import Ascii String ZArith NArith Bool Lia.
From Coq Require Import Floats.SpecFloat.
From Coq Require Import List.
From Verif Require Import Res BMap BMapProofs Str StrProofs Profile ProfileProofs Tag Num Value
  Metadata Err Coalesce Figment Env NumParse Fmt De Path Display.
From Verif Require Import SpecValue SpecFigment SpecEnv SpecDe SpecMagic SpecExtract SpecMore SpecDisplay
  ValueProofs FigmentProofs FigmentProofs2 LookupProofs DeProofs ExtractProofs MeaningProofs MoreProofs
  PropsCoalesce PropsFigment PropsDe.
Import ListNotations.

(** ** C51 *)

(** From a value one gets exactly what the data model says, at every type and in both modes. *)
Theorem C51_value : forall i f t v d, ordinary t -> named_apart t -> wf v ->
  (deserialize t (DConf i f v) = Ok d <-> extracts i t v d) /\
  (value_deserialize t v = Ok d <-> extracts Exact t v d).
Proof.
  intros i f t v d O N W. split.
  - exact (mn_value _ _ _ _ (extraction_meant t O N (MConf i f)) v d W).
  - exact (mn_value _ _ _ _ (extraction_meant t O N MPlain) v d W).
Qed.
Print Assumptions C51_value.

(** So with a whole Figment, and with a part of it. *)
Theorem C51_extract : forall H i f t d, reachable H f -> ordinary t -> named_apart t ->
  (extract i f t = Ok d <-> exists v, merged f = Ok v /\ extracts i t v d).
Proof.
  intros H i f t d R O N. unfold extract. rewrite res_bind_ok. split.
  - intros (v & M & E). exists v. split; [exact M|].
    apply (C51_value i f) in E; auto. eapply reachable_merged_wf; eauto.
  - intros (v & M & E). exists v. split; [exact M|].
    apply (C51_value i f); auto. eapply reachable_merged_wf; eauto.
Qed.
Print Assumptions C51_extract.

Theorem C51_inner : forall H i f t key d, reachable H f -> ordinary t -> named_apart t ->
  (extract_inner i f t key = Ok d <-> exists x, find_value f key = Ok x /\ extracts i t x d).
Proof.
  intros H i f t key d R O N. unfold extract_inner. rewrite res_bind_ok.
  assert (X : forall x, find_value f key = Ok x -> wf x).
  { intros x E. unfold find_value in E. destruct (merged f) as [v|] eqn:M; [|discriminate].
    destruct (vfind key v) as [y|] eqn:F; [|discriminate]. injection E as ->.
    destruct (spells_total key) as [ks Hk]. rewrite (vfind_spec _ _ _ Hk) in F.
    eapply ExtractProofs.at_path_wf; [eapply reachable_merged_wf; eauto|exact F]. }
  split.
  - intros (x & M & E). exists x. split; [exact M|]. apply map_err_ok in E. apply (C51_value i f) in E; auto.
  - intros (x & M & E). exists x. split; [exact M|]. apply map_err_ok. apply (C51_value i f); auto.
Qed.
Print Assumptions C51_inner.

Definition ex_log : ty :=
  TEnum (lit "Log") [(lit "Off", ShUnit); (lit "File", ShNew TPath);
                     (lit "Net", ShStruct [(lit "host", TString); (lit "port", TOption (TInt U16))])].
Definition ex_config : ty :=
  st (lit "Config") [(lit "on", TBool); (lit "rate", TF64); (lit "logs", TSeq ex_log); (lit "extra", TOption TChar)].
Definition ex_conf : value :=
  dct [(lit "logs", arr [VString tag_default (lit "Off"); dct [(lit "File", VString tag_default (lit "/l"))];
                         dct [(lit "Net", dct [(lit "host", VString tag_default (lit "h"))])];
                         VNum tag_default (NInt U8 0)]);
       (lit "on", VString tag_default (lit "yes")); (lit "rate", i 2)].
Example C51_ex : ordinary ex_config /\ named_apart ex_config /\ wf ex_conf /\
  deserialize ex_config (DConf Lossy fig_new ex_conf) =
    Ok (EVStruct [(lit "on", EVBool true); (lit "rate", EVF64 (S754_finite false 4503599627370496 (-51)));
                  (lit "logs", EVSeq [EVVariant (lit "Off") ShUnit; EVVariant (lit "File") (ShNew (EVPath (lit "/l")));
                                      EVVariant (lit "Net") (ShStruct [(lit "host", EVStr (lit "h")); (lit "port", EVNone)]);
                                      EVVariant (lit "Off") ShUnit]);
                  (lit "extra", EVNone)]) /\
  is_ok (deserialize ex_config (DConf Exact fig_new ex_conf)) = false.
Proof.
  split; [|split; [|split; [|split; vm_compute; reflexivity]]].
  - cbn. repeat split; try discriminate; intros H; decompose [or] H; discriminate || contradiction.
  - cbn. repeat split; repeat constructor; cbn; intros H; decompose [or] H; discriminate || contradiction.
  - vm_compute. repeat constructor; auto.
Qed.

(** ** C52 *)

(** The profiles listed are those some provider has data for: in order, each once, however it
    is spelled, whatever profile is selected. *)
Theorem C52_profiles : forall l f c c', run l fig_new c = (Ret f, c') -> wf_ops l -> failures l = [] ->
  (forall q, (exists p, In p (fig_profiles f) /\ same_profile p q) <->
             (exists p, supplied l p /\ same_profile p q)) /\
  (forall p, In p (fig_profiles f) -> supplied l p) /\
  NoDup (map (fun p => lower (pname p)) (fig_profiles f)).
Proof.
  intros l f c c' E W F.
  destruct (run_profiles l _ _ _ _ [] E eq_refl I W F) as (m & Em & S & K & G).
  unfold fig_profiles. rewrite Em.
  assert (A : forall p, In p (keys m) -> supplied l p) by (intros p Hp; destruct (K p Hp) as [[]|Hs]; exact Hs).
  split; [|split; [exact A|apply sorted_distinct; exact S]].
  intros q. split.
  - intros (p & Hp & Hs). exists p. auto.
  - intros (p & (loc & o & pv & n & d & H1 & H2 & H3) & Hs). apply get_same. intros N. apply G in N.
    destruct N as [_ N]. specialize (N _ _ _ _ H1 H2).
    assert (X : get q n <> None); [|congruence]. apply get_same. exists p. split; [|exact Hs].
    apply in_map_iff. exists (p, d). auto.
Qed.
Print Assumptions C52_profiles.

(** In the order of their lower-case names. *)
Theorem C52_order : forall l f c c', run l fig_new c = (Ret f, c') -> wf_ops l -> failures l = [] ->
  forall a p b q r, fig_profiles f = a ++ p :: b ++ q :: r -> cmp p q = Lt.
Proof.
  intros l f c c' E W F a p b q r H.
  destruct (run_profiles l _ _ _ _ [] E eq_refl I W F) as (m & Em & S & _).
  unfold fig_profiles in H. rewrite Em in H. clear - S H. revert a H.
  induction m as [|[k d] m IH]; intros a H; [destruct a; discriminate H|].
  destruct S as [L S]. destruct a as [|x a]; cbn in H; injection H as H1 H2.
  - subst k. assert (Hq : In q (keys m)) by (unfold keys; rewrite H2; apply in_or_app; right; left; reflexivity).
    apply in_map_iff in Hq. destruct Hq as ([q' d'] & <- & Hq). exact (proj1 (lt_all_In _ _) L _ _ Hq).
  - eapply IH; eauto.
Qed.
Print Assumptions C52_order.

(** Selecting a profile changes nothing, and a failed Figment lists none. *)
Theorem C52_select : forall f q, fig_profiles (fig_select f q) = fig_profiles f.
Proof. reflexivity. Qed.
Print Assumptions C52_select.
Theorem C52_failed : forall l f c c', run l fig_new c = (Ret f, c') -> failures l <> [] -> fig_profiles f = [].
Proof.
  intros l f c c' E F. apply (run_fails_iff l _ _ _ _ [] E eq_refl) in F. destruct F as [e F].
  unfold fig_profiles. rewrite F. reflexivity.
Qed.
Print Assumptions C52_failed.

Example C52_ex :
  let l := [OpProvide ex_loc Join (ex_provider (lit "A") [(mkProfile (lit "Release"), [(lit "k", i 1)])]);
            OpProvide ex_loc Merge (ex_provider (lit "B") [(mkProfile (lit "debug"), []); (mkProfile (lit "RELEASE"), [])]);
            OpSelect (mkProfile (lit "staging"))] in
  wf_ops l /\ failures l = [] /\
  exists f c, run l fig_new counter_init = (Ret f, c) /\
              fig_profiles f = [mkProfile (lit "debug"); mkProfile (lit "Release")].
Proof.
  cbv zeta. split; [|split; [reflexivity|]].
  - intros loc o p m [H|[H|[H|[]]]]; try discriminate; injection H as <- <- <-; cbn; intros E; injection E as <-;
      repeat constructor.
  - do 2 eexists. split; reflexivity.
Qed.

(** ** C07: a Figment as a provider *)
Theorem C07_figment : forall loc f g o c f' c', provide loc f (figment_provider g) o c = (Ret f', c') ->
  f_profile f' = match o with Merge | Admerge => f_profile g | Join | Adjoin => f_profile f end.
Proof.
  intros loc f g o c f' c' E. apply provide_ret in E. destruct E as (_ & _ & ->). cbn. destruct o; reflexivity.
Qed.
Print Assumptions C07_figment.
Example C07_figment_ex :
  let g := fig_select fig_new p_release in
  exists f1 f2 c, provide ex_loc (fig_select fig_new p_debug) (figment_provider g) Merge 1 = (Ret f1, c) /\
    f_profile f1 = p_release /\
    provide ex_loc (fig_select fig_new p_debug) (figment_provider g) Join 1 = (Ret f2, c) /\ f_profile f2 = p_debug.
Proof. cbv zeta. do 3 eexists. split; [reflexivity|]. split; [reflexivity|]. split; reflexivity. Qed.

(** ** C53 *)

(** A single variable: the first one of that name, ignoring case and surrounding whitespace
    of names, with its value trimmed. *)
Theorem C53_var : forall name vars v,
  env_var name vars = Some v <-> exists x, first_named name vars x /\ v = trim x.
Proof.
  intros name vars v. assert (F := env_var_first name vars). destruct (env_var name vars) as [w|].
  - destruct F as (x & F & ->). split.
    + intros E. injection E as <-. eauto.
    + intros (y & G & ->). rewrite (first_named_fun _ _ _ _ F G). reflexivity.
  - split; [discriminate|]. intros (y & G & _). elim (first_named_set _ _ _ G F).
Qed.
Print Assumptions C53_var.
Theorem C53_var_none : forall name vars, env_var name vars = None <-> unset name vars.
Proof.
  intros name vars. assert (F := env_var_first name vars). destruct (env_var name vars) as [w|].
  - destruct F as (x & F & ->). split; [discriminate|]. intros U. elim (first_named_set _ _ _ F U).
  - tauto.
Qed.
Print Assumptions C53_var_none.
Theorem C53_var_or : forall name default vars,
  (forall x, first_named name vars x -> env_var_or name default vars = trim x) /\
  (unset name vars -> env_var_or name default vars = default).
Proof.
  intros name default vars. unfold env_var_or. split.
  - intros x F. rewrite (proj2 (C53_var name vars (trim x))); [reflexivity|eauto].
  - intros U. rewrite (proj2 (C53_var_none name vars) U). reflexivity.
Qed.
Print Assumptions C53_var_or.

(** A profile from a variable: the same search, but the value as it is. *)
Theorem C53_profile : forall key vars p,
  profile_from_env vars key = Some p <-> exists x, first_named key vars x /\ p = mkProfile x.
Proof.
  intros key vars p. assert (F := profile_from_env_first vars key). destruct (profile_from_env vars key) as [q|].
  - destruct F as (x & F & ->). split.
    + intros E. injection E as <-. eauto.
    + intros (y & G & ->). rewrite (first_named_fun _ _ _ _ F G). reflexivity.
  - split; [discriminate|]. intros (y & G & _). elim (first_named_set _ _ _ G F).
Qed.
Print Assumptions C53_profile.
Theorem C53_profile_or : forall key vars d,
  (forall x, first_named key vars x -> profile_from_env_or vars key d = mkProfile x) /\
  (unset key vars -> profile_from_env_or vars key d = d).
Proof.
  intros key vars d. unfold profile_from_env_or. split.
  - intros x F. rewrite (proj2 (C53_profile key vars (mkProfile x))); [reflexivity|eauto].
  - intros U. assert (F := profile_from_env_first vars key). destruct (profile_from_env vars key) as [q|]; [|reflexivity].
    destruct F as (x & F & _). elim (first_named_set _ _ _ F U).
Qed.
Print Assumptions C53_profile_or.

(** The two therefore disagree about a value with surrounding whitespace. *)
Theorem C53_profile_trimmed_refuted : exists vars key v p,
  env_var key vars = Some v /\ profile_from_env vars key = Some p /\ ~ same_profile p (mkProfile v).
Proof.
  exists [(lit "P", lit "debug ")], (lit "p"), (lit "debug"), (mkProfile (lit "debug ")).
  split; [reflexivity|]. split; [reflexivity|]. vm_compute. discriminate.
Qed.
Print Assumptions C53_profile_trimmed_refuted.

Example C53_ex :
  let vars := [(lit "X", lit "1"); (lit " app_Profile", lit " dev "); (lit "APP_PROFILE", lit "prod")] in
  first_named (lit "APP_profile") vars (lit " dev ") /\ unset (lit "Y") vars /\
  env_var (lit "APP_profile") vars = Some (lit "dev").
Proof.
  cbv zeta. split; [|split; [|reflexivity]].
  - exists [(lit "X", lit "1")], (lit " app_Profile"), [(lit "APP_PROFILE", lit "prod")].
    split; [reflexivity|]. split; [reflexivity|]. repeat constructor. discriminate.
  - repeat constructor; discriminate.
Qed.

(** ** C54 *)

(** A message has one report per error, on lines of their own, the error itself first. *)
Theorem C54_lines : forall cwd e, fmt_error cwd e = join [10%N] (map (fmt_error cwd) (errors_of e)).
Proof. exact fmt_error_lines. Qed.
Print Assumptions C54_lines.

(** A report: what is wrong, for which key, in which provider - as far as known. *)
Theorem C54_report : forall cwd e, e_prev e = None ->
  (e_metadata e = None -> fmt_error cwd e = fmt_kind (e_kind e)) /\
  (forall md, e_metadata e = Some md -> e_path e = [] \/ e_profile e = None ->
     fmt_error cwd e = fmt_kind (e_kind e) ++ lit " in " ++ origin cwd md) /\
  (forall md p, e_metadata e = Some md -> e_profile e = Some p -> e_path e <> [] ->
     fmt_error cwd e = fmt_kind (e_kind e) ++ lit " for key " ++
       fmt_debug_str (md_interpolater md p (e_path e)) ++ lit " in " ++ origin cwd md).
Proof. exact fmt_report. Qed.
Print Assumptions C54_report.

(** A failing extraction prints the provider that supplied the offending value, and the key
    as that provider writes it. *)
Theorem C54_extraction : forall cwd H i f v t e,
  reachable H f -> merged f = Ok v -> ordinary t -> extract i f t = Err e -> e_path e <> [] ->
  exists sp x q n,
    Forall2 step_of (e_path e) sp /\ reach sp v x /\ traced H f q sp x /\
    nth_provision H (metadata_id (vtag x)) = Some n /\
    let md := pv_metadata (pn_provider n) in
    fmt_error cwd e = fmt_kind (e_kind e) ++ lit " for key " ++
      fmt_debug_str (md_interpolater md q (e_path e)) ++ lit " in " ++ origin cwd md.
Proof.
  intros cwd H i f v t e R M O E P.
  destruct (C20_names_provider H i f v t e R M O E P) as (sp & x & q & H1 & H2 & _ & _ & T & Hm & Hp).
  assert (V : e_prev e = None).
  { eapply pp_prev. eapply C20_pinpoints; eauto. eapply reachable_merged_wf; eauto. }
  pose proof T as (n & m & d & y & Hn & _ & Hg & _). exists sp, x, q, n.
  split; [exact H1|]. split; [exact H2|]. split; [exact T|]. split; [exact Hn|]. cbv zeta.
  rewrite Hg in Hm. rewrite (proj2 (proj2 (fmt_report cwd e V)) _ _ Hm Hp P). reflexivity.
Qed.
Print Assumptions C54_extraction.

(** A failing provider is printed too: every line ends with the provider that reported it. *)
Theorem C54_providers : forall cwd H f e, reachable H f -> merged f = Err e ->
  exists lines, fmt_error cwd e = join [10%N] lines /\
    Forall2 (fun e' line => exists n e0 what,
      nth_provision H (metadata_id (e_tag e')) = Some n /\ pv_data (pn_provider n) = Err e0 /\
      line = fmt_kind (e_kind e0) ++ what ++ lit " in " ++ origin cwd (pv_metadata (pn_provider n)))
      (errors_of e) lines.
Proof.
  intros cwd H f e R M. exists (map (fmt_error cwd) (errors_of e)). split; [apply fmt_error_lines|].
  assert (X : Forall (fun e' => exists n e0 what,
      nth_provision H (metadata_id (e_tag e')) = Some n /\ pv_data (pn_provider n) = Err e0 /\
      fmt_error cwd e' = fmt_kind (e_kind e0) ++ what ++ lit " in " ++ origin cwd (pv_metadata (pn_provider n)))
      (errors_of e)).
  { apply Forall_forall. intros e' I'.
    destruct (C10_every_error H f e e' R M I') as (n & e0 & Hn & _ & Hd & [Hk _] & Hm).
    assert (V := LookupProofs.errors_of_plain _ _ I').
    destruct (fmt_report cwd e' V) as (_ & F2 & F3).
    destruct (e_path e') as [|k r] eqn:Ep.
    - exists n, e0, []. split; [exact Hn|]. split; [exact Hd|].
      rewrite (F2 _ Hm (or_introl eq_refl)), Hk. reflexivity.
    - destruct (e_profile e') as [q|] eqn:Eq.
      + exists n, e0, (lit " for key " ++ fmt_debug_str (md_interpolater (pn_metadata n) q (k :: r))).
        split; [exact Hn|]. split; [exact Hd|]. rewrite (F3 _ _ Hm eq_refl), Hk by discriminate.
        rewrite <- !app_assoc. reflexivity.
      + exists n, e0, []. split; [exact Hn|]. split; [exact Hd|].
        rewrite (F2 _ Hm (or_intror eq_refl)), Hk. reflexivity. }
  induction X; cbn [map]; constructor; auto.
Qed.
Print Assumptions C54_providers.

(** Keys without special characters are quoted as they are. *)
Theorem C54_quoted : forall s, Forall unescaped s -> fmt_debug_str s = lit """" ++ s ++ lit """".
Proof. exact fmt_plain_str. Qed.
Print Assumptions C54_quoted.

Example C54_ex : exists e,
  reachable [mkProvision ex_loc ex_p1; mkProvision ex_loc ex_p2] ex_f2 /\ ordinary ex_ty /\
  extract Exact ex_f2 ex_ty = Err e /\ e_path e <> [] /\
  fmt_error None e = lit "invalid type: found signed int `7`, expected a string for key ""default.a.x"" in B".
Proof.
  eexists. split; [exact ex_f2_reachable|]. split; [|split; [vm_compute; reflexivity|split; [discriminate|vm_compute; reflexivity]]].
  cbn. repeat split; try discriminate; intros H; decompose [or] H; discriminate || contradiction.
Qed.
Example C54_ex2 :
  let l := [OpProvide ex_loc Merge (ex_fail (lit "A") (lit "bad a"));
            OpProvide ex_loc Merge (ex_fail (lit "B") (lit "bad b"))] in
  exists f c e, run l fig_new counter_init = (Ret f, c) /\ merged f = Err e /\
    fmt_error None e = lit "bad a in A" ++ [10%N] ++ lit "bad b in B".
Proof. cbv zeta. do 3 eexists. split; [reflexivity|]. split; [reflexivity|]. vm_compute. reflexivity. Qed.
