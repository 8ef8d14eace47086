(** C76: the documented stack of sources, from the texts to the fields of the struct. *)
From Coq Require Import Ascii String ZArith NArith Bool Lia.
From Coq Require Import List.
From Verif Require Import Res BMap BMapProofs Str Profile Tag Num Value Metadata Err Coalesce Figment De Ser Parse Path Data Doc Env.
From Verif Require Import SpecLookup SpecFigment SpecDe SpecExtract SpecValue SpecRt SpecInto SpecData SpecDoc SpecEnv SpecText SpecStack.
From Verif Require Import ValueProofs CoalesceProofs FigmentProofs DeProofs SerProofs MeaningProofs ExtractProofs
  EnvProofs EnvDataProofs DataProofs DocProofs BlindProofs OrderProofs LayersProofs StackProofs PropsFile.
Import ListNotations.

(** What the file provider brings. *)
Lemma file_layer nm parse mistake custom fs path l pr :
  file_entries fs parse path l -> (forall k d, In (k, d) l -> plain_doc d) ->
  data_provider (doc_format nm parse mistake custom) fs (data_file path) = Ret pr ->
  pv_profile pr = None /\ exists n, pv_data pr = Ok n /\ wf_profiles n /\ says l (data_of n p_default) /\
    data_of n p_global = [].
Proof.
  intros [[F ->]|(q & text & F & RD & PA)] PL DP.
  - destruct (C36_missing (doc_format nm parse mistake custom) fs path true (Some p_default) F) as (p & E & Ed & _).
    unfold data_file in DP. rewrite E in DP. injection DP as <-. split.
    + unfold data_provider in E. apply finds_resolve in F. unfold data_metadata, data_data in E. cbn [da_source da_profile] in E.
      rewrite F in E. cbn in E. injection E as <-. reflexivity.
    + exists []. split; [exact Ed|]. split; [split; [exact I|constructor]|]. split; [|reflexivity].
      split; [intros ? ? []|]. split; [exact I|]. split; [|intros ? ? []].
      intros k x (l1 & l2 & E' & _). destruct l1; discriminate.
  - assert (R := finds_resolve _ _ _ _ F).
    destruct (C37_metadata (doc_format nm parse mistake custom) fs path false true (Some p_default) q R) as (p & E & _ & _ & M).
    assert (DP' := DP). unfold data_file in DP. rewrite E in DP. injection DP as <-. rewrite RD in M.
    destruct (plain_provider _ _ _ _ _ _ _ _ _ _ E M PA PL) as (_ & m & Hd & S). split.
    + unfold data_provider, data_metadata, data_data in E. cbn [da_source da_profile] in E.
      rewrite R in E. cbn in E. injection E as <-. reflexivity.
    + exists [(p_default, m)]. split; [exact Hd|]. split; [|split; [exact S|reflexivity]].
      split; [cbn; auto|]. constructor; [exact (says_wf _ _ S)|constructor].
Qed.

(** [Figment::new().merge(Serialized::defaults(x)).merge(Toml::file(path)).merge(Env::prefixed(pre))]
    with a struct of fields that are not read from dictionaries: extraction gives each field what
    the last variable for it says, else what the file says, else its default; and fails exactly
    when one of these cannot be read at the field's type. *)
Theorem C76_config : forall i nm id fields xs sname l0 l1 l2 l3 fnm parse mistake custom fs path l pr1 pre vars pr2 c f c' z,
  let t := TStruct nm id false fields in
  restorable t -> inhabits t (EVStruct xs) -> Forall (fun nt => undivided (snd nt)) fields ->
  file_entries fs parse path l -> (forall k d, In (k, d) l -> plain_doc d) ->
  data_provider (doc_format fnm parse mistake custom) fs (data_file path) = Ret pr1 ->
  no_white pre -> (forall name s, In (name, s) vars -> ~ In dot name) ->
  env_provider (env_prefixed pre) vars = Ret pr2 ->
  run [OpProvide l0 Merge (serialized_provider sname (sz_defaults (EVStruct xs) l1));
       OpProvide l2 Merge pr1; OpProvide l3 Merge pr2] fig_new c = (Ret f, c') ->
  (extract i f t = Ok z <-> exists ys, z = EVStruct ys /\ settled_all i pre vars l fields xs ys).
Proof.
  intros i nm id fields xs sname l0 l1 l2 l3 fnm parse mistake custom fs path l pr1 pre vars pr2 c f c' z t
    R HX U FE PL DP NW ND EP HR.
  destruct (file_layer _ _ _ _ _ _ _ _ FE PL DP) as (P1 & n1 & D1 & Wn1 & S1 & G1).
  change (env_prefixed pre) with (build_env (FromPrefix pre) []) in EP. unfold env_provider in EP.
  destruct (env_data (build_env (FromPrefix pre) []) vars) as [n2| |] eqn:ED; try discriminate. cbn in EP. injection EP as <-.
  apply env_data_ret in ED. destruct ED as (kept & d2 & EI & KS & DK & EF & En2).
  change (ev_profile (build_env (FromPrefix pre) [])) with p_default in En2. subst n2.
  cbn [run run_op] in HR.
  destruct (provide l0 fig_new (serialized_provider sname (sz_defaults (EVStruct xs) l1)) Merge c) as [[f1| |] c1] eqn:E1; try discriminate.
  destruct (provide l2 f1 pr1 Merge c1) as [[f2| |] c2] eqn:E2; try discriminate.
  match type of HR with context [provide l3 f2 ?p Merge c2] => destruct (provide l3 f2 p Merge c2) as [[f3| |] c3] eqn:E3; try discriminate end.
  injection HR as -> ->.
  destruct (serialized_extracts i t (EVStruct xs) R HX) as (v & Hs & _).
  assert (W00 : wf_profiles []) by (split; [exact I|constructor]).
  assert (PF : f_profile f = p_default).
  { apply provide_ret in E1, E2, E3. destruct E1 as (_ & _ & ->), E2 as (_ & _ & ->), E3 as (_ & _ & ->).
    cbn [f_profile pv_profile serialized_provider]. rewrite P1. reflexivity. }
  assert (Hs' := Hs). cbn [serialize] in Hs'. apply res_map_ok in Hs'. destruct Hs' as (vs & EV & Ev). unfold map_end in Ev.
  destruct (serialized_provide _ _ _ _ _ fig_new [] _ _ _ v Hs eq_refl W00 E1) as [(t0 & d0 & m1 & Evd & Wd & Hf1 & Wm1 & HU1)|[H _]];
    [|exfalso; now apply (H tag_default (collect vs))].
  assert (d0 = collect vs) by congruence. subst d0.
  destruct (data_provide _ _ _ _ _ _ _ m1 n1 Hf1 Wm1 D1 Wn1 E2) as (m2 & Hf2 & Wm2 & HU2).
  destruct (env_fold_leaves kept DK [] d2 EF wf_dict_nil) as [Wd2 _].
  assert (Wn2 : wf_profiles [(p_default, d2)]) by (split; [cbn; auto|constructor; [exact Wd2|constructor]]).
  assert (X := fun P => data_provide _ _ _ _ _ _ _ m2 [(p_default, d2)] Hf2 Wm2 P Wn2 E3).
  destruct (X eq_refl) as (m3 & Hf3 & Wm3 & HU3). clear X.
  assert (HD : dut (data_of m3 p_default) (dcoalesce Merge (dcoalesce Merge (collect vs) (data_of n1 p_default)) d2)).
  { eapply dut_trans; [apply HU3|]. apply dcoalesce_rel; [|apply dut_refl].
    eapply dut_trans; [apply HU2|]. apply dcoalesce_rel; [|apply dut_refl].
    eapply dut_trans; [apply HU1|]. cbn [data_of get]. rewrite dcoalesce_nil_l by apply Wd. apply dut_refl. }
  assert (HG : data_of m3 p_global = []).
  { assert (X := HU3 p_global). assert (Y := HU2 p_global). assert (Z := HU1 p_global).
    rewrite G1 in Y. change (data_of [(p_default, d2)] p_global) with ([] : dict) in X.
    change (data_of [(p_default, collect vs)] p_global) with ([] : dict) in Z. cbn in Z. inversion Z as [E0|]. rewrite <- E0 in Y.
    cbn in Y. inversion Y as [E4|]. rewrite <- E4 in X. cbn in X. inversion X. reflexivity. }
  assert (EM : merged f = Ok (VDict tag_default (data_of m3 p_default))).
  { rewrite (merged_ok3 f m3 Hf3 Wm3). do 2 f_equal. unfold selected_of. rewrite PF, HG.
    change (is_custom p_default) with false. cbv iota.
    assert (Wd3 := data_of_wf m3 p_default Wm3). unfold dmerge. rewrite (dcoalesce_nil_r _ (dcoalesce _ _ _)) by apply dcoalesce_sorted. now rewrite dcoalesce_nil_r by apply Wd3. }
  destruct (restorable_ordinary t R) as [O N]. unfold extract. rewrite EM. cbn [res_bind].
  assert (MV := mn_value _ _ _ _ (extraction_meant t O N (MConf i f)) (VDict tag_default (data_of m3 p_default)) z
            (proj2 (wf_VDict _ _) (data_of_wf m3 p_default Wm3))). cbn [mk_de] in MV. rewrite MV.
  cbn [t restorable] in R. destruct R as (R1 & R2 & R3).
  inversion HX as [| | | | | | | | | | | | |? ? ? ? l' Hl| | | | | | | | | | | | | | |]; subst.
  assert (DA := defaults_at fields R2 xs vs Hl EV).
  assert (FS := fields_settled i pre vars kept l (collect vs) (data_of n1 p_default) d2 (data_of m3 p_default)
     NW ND KS Wd S1 EF HD fields xs R3 U DA).
  cbn [t extracts]. split.
  - intros [(g & d & ys & E & _ & B & ->)|(g & a & ys & E & _)]; [|discriminate]. injection E as <- <-.
    exists ys. split; [reflexivity|]. now apply FS.
  - intros (ys & -> & B). left. exists tag_default, (data_of m3 p_default), ys. split; [reflexivity|].
    split; [discriminate|]. split; [now apply FS|reflexivity].
Qed.
Print Assumptions C76_config.

(** ** An example *)
(** The file sets [port] and [log]; the variables set [port] twice and something else. *)
Definition st_type : ty :=
  TStruct (lit "Config") (lit "Config") false
    [(lit "host", TString); (lit "port", TInt U16); (lit "log", TOption TString); (lit "tags", TSeq TString)].
Definition st_defaults : list (ustr * dval) :=
  [(lit "host", EVStr (lit "localhost")); (lit "port", EVInt U16 8000); (lit "log", EVNone); (lit "tags", EVSeq [])].
Definition st_fields : list (ustr * doc) :=
  [(lit "port", DocInt I64 8080); (lit "log", DocStr (lit "info"))].
Definition st_parse : ustr -> res ustr doc := fun _ => Ok (DocMap st_fields).
Definition st_format : format := doc_format (lit "TOML") st_parse (fun _ _ => lit "mistake") (fun s => s).
Definition st_vars : list (ustr * ustr) :=
  [(lit "HOME", lit "/root"); (lit "APP_PORT", lit "9000"); (lit " app_Port ", lit "9001");
   (lit "App_tags", lit "[a, b]")].
Definition st_loc : location := mkLoc (lit "main.rs") 1 1.
Definition st_result : list (ustr * dval) :=
  [(lit "host", EVStr (lit "localhost")); (lit "port", EVInt U16 9001); (lit "log", EVSome (EVStr (lit "info")));
   (lit "tags", EVSeq [EVStr (lit "a"); EVStr (lit "b")])].

Lemma st_meets : restorable st_type /\ inhabits st_type (EVStruct st_defaults) /\
  match st_type with TStruct _ _ _ fields => Forall (fun nt => undivided (snd nt)) fields | _ => False end /\
  file_entries ex_fs st_parse (lit "conf.toml") st_fields /\ (forall k d, In (k, d) st_fields -> plain_doc d) /\
  no_white (lit "APP_") /\ (forall name s, In (name, s) st_vars -> ~ In dot name).
Proof.
  split; [|split; [|split; [|split; [|split; [|split]]]]].
  - cbn. repeat match goal with |- _ /\ _ => split end; try tauto;
      try (intros [H|[H|[H|[]]]]; discriminate); repeat constructor; cbn; intuition discriminate.
  - repeat constructor; cbn; lia.
  - repeat constructor.
  - right. exists (lit "/etc/app/conf.toml"), (lit "a"). split; [|split; reflexivity].
    destruct (C37_resolve ex_fs (lit "conf.toml") true) as (r & F & E).
    + exact (proj1 C37_ex_cwd).
    + replace (Some (lit "/etc/app/conf.toml")) with r; [exact F|].
      rewrite (proj1 C37_ex) in E. congruence.
  - intros k d [H|[H|[]]]; injection H as <- <-; constructor; discriminate.
  - unfold no_white. cbn. repeat constructor; intuition discriminate.
  - intros name s I. cbn in I. repeat (destruct I as [I|I]; [injection I as <- <-; cbn; intuition discriminate|]). destruct I.
Qed.

Example C76_ex : exists pr1 pr2 f c',
  data_provider st_format ex_fs (data_file (lit "conf.toml")) = Ret pr1 /\
  env_provider (env_prefixed (lit "APP_")) st_vars = Ret pr2 /\
  run [OpProvide st_loc Merge (serialized_provider (lit "Config") (sz_defaults (EVStruct st_defaults) st_loc));
       OpProvide st_loc Merge pr1; OpProvide st_loc Merge pr2] fig_new 1 = (Ret f, c') /\
  extract Exact f st_type = Ok (EVStruct st_result) /\
  exists fields, st_type = TStruct (lit "Config") (lit "Config") false fields /\
    settled_all Exact (lit "APP_") st_vars st_fields fields st_defaults st_result.
Proof.
  destruct st_meets as (R & HX & U & FE & PL & NW & ND).
  assert (Z : exists pr1 pr2 f c',
    data_provider st_format ex_fs (data_file (lit "conf.toml")) = Ret pr1 /\
  env_provider (env_prefixed (lit "APP_")) st_vars = Ret pr2 /\
  run [OpProvide st_loc Merge (serialized_provider (lit "Config") (sz_defaults (EVStruct st_defaults) st_loc));
         OpProvide st_loc Merge pr1; OpProvide st_loc Merge pr2] fig_new 1 = (Ret f, c') /\
  extract Exact f st_type = Ok (EVStruct st_result)).
  { do 4 eexists. split; [reflexivity|]. split; [reflexivity|]. split; [reflexivity|]. reflexivity. }
  destruct Z as (pr1 & pr2 & f & c' & E1 & E2 & E3 & E4). exists pr1, pr2, f, c'. repeat (split; [assumption|]).
  eexists. split; [reflexivity|].
  eapply C76_config in E4; [|exact R|exact HX|exact U|exact FE|exact PL|exact E1|exact NW|exact ND|exact E2|exact E3].
  destruct E4 as (ys & E & H). injection E as <-. exact H.
Qed.
