(** C95: unknown fields denied in a stack of sources. *)
From Coq Require Import Ascii String ZArith NArith Bool Lia.
From Coq Require Import List.
From Verif Require Import Res BMap BMapProofs Str StrProofs Profile Tag Num Value Metadata Err Coalesce Figment De Ser Parse Path Data Doc Env.
From Verif Require TextProofs.
From Verif Require Import SpecLookup SpecFigment SpecDe SpecExtract SpecValue SpecRt SpecInto SpecData SpecDoc SpecEnv SpecText SpecLayers SpecStack SpecStages SpecDeny.
From Verif Require Import ValueProofs CoalesceProofs FigmentProofs DeProofs SerProofs IntoProofs MeaningProofs ExtractProofs
  EnvProofs EnvDataProofs DataProofs DocProofs BlindProofs OrderProofs LayersProofs StackProofs PropsFile PropsStack StagesProofs PropsStages.
From Verif Require Import SpecRocket RocketProofs PropsRocket.
Import ListNotations.

Section Keys.
  Variables (pre : ustr) (vars kept : list (ustr * ustr)) (files : list (list (ustr * doc)))
            (ms : list (bmap profile dict)) (p : profile) (d0 d2 D : dict).
  Hypothesis NW : no_white pre.
  Hypothesis ND : forall name s, In (name, s) vars -> ~ In dot name.
  Hypothesis KS : selects (survives true (mapped_key (FromPrefix pre) [])) vars kept.
  Hypothesis W0 : wf_dict d0.
  Hypothesis SP : Forall2 says_profiles files ms.
  Hypothesis WP : Forall wf_profiles ms.
  Hypothesis EF : env_fold kept [] = Ret d2.
  Hypothesis HD : dut D (dcoalesce Merge
    (dcoalesce Merge (piled ms p_default d0) (if is_custom p then piled ms p [] else []))
    (dcoalesce Merge (piled ms p_global []) d2)).

  Lemma key_in n : (exists v, get n D = Some v) <-> mentioned pre vars files p n \/ (exists v, get n d0 = Some v).
  Proof.
    destruct (env_top kept n (kept_single pre vars kept NW ND KS) [] d2 EF wf_dict_nil) as [W2 H2].
    assert (HK := kept_last pre n vars NW ND kept KS).
    set (S := if is_custom p then piled ms p [] else []) in *.
    assert (SS : sorted S) by (unfold S; destruct (is_custom p); [apply piled_sorted|]; exact I).
    assert (SG : sorted (piled ms p_global [])) by (apply piled_sorted; exact I).
    assert (S0 : sorted (piled ms p_default d0)) by (apply piled_sorted, W0).
    assert (G1 := get_merged (dcoalesce Merge (piled ms p_default d0) S) (dcoalesce Merge (piled ms p_global []) d2) n
                    (dcoalesce_sorted _ _ _) (dcoalesce_sorted _ _ _)).
    assert (G2 := get_merged (piled ms p_global []) d2 n SG (proj1 W2)).
    assert (G3 := get_merged (piled ms p_default d0) S n S0 SS).
    assert (HG := magic_get n _ _ HD). unfold oput in HG.
    assert (UT : forall w, get n (dcoalesce Merge (dcoalesce Merge (piled ms p_default d0) S) (dcoalesce Merge (piled ms p_global []) d2)) = Some w ->
              exists v, get n D = Some v).
    { intros w E. rewrite E in HG. destruct (get n D) as [v|]; [eauto|destruct HG]. }
    destruct (last_of n kept) as [s|] eqn:EL.
    { destruct H2 as (v & w & Ev & Gw & C). rewrite Gw in G2. destruct G2 as (w1 & Gw1 & C1).
      rewrite Gw1 in G1. destruct G1 as (w2 & Gw2 & C2). split; [intros _|intros _; exact (UT _ Gw2)].
      destruct HK as (b & name & a & E & N & _). left. eapply me_variable; [|exact N]. rewrite E. apply in_or_app. right. now left. }
    cbn [get] in H2. rewrite H2 in G2.
    assert (WI : forall r d, (r = p \/ r = p_global \/ r = p_default) -> last_word files r n d -> mentioned pre vars files p n).
    { intros r d Hr (b & l & a & E & T & _). eapply me_section; [|exact Hr|exact T]. rewrite E. apply in_or_app. right. now left. }
    destruct (piled_top files ms p_global n SP WP [] I) as [(w & v & dd & LW & Rd & Gw & C)|[SiG Gw]].
    { rewrite G2, Gw in G1. destruct G1 as (w2 & Gw2 & C2). split; [intros _; left; refine (WI _ _ _ LW); auto|intros _; exact (UT _ Gw2)]. }
    rewrite G2, Gw in G1. cbn [get] in G1.
    assert (PP : (exists w d, last_word files p n d /\ get n S = Some w) \/ (silent files p n /\ get n S = None) \/
                 (same_profile p p_default /\ get n S = None)).
    { unfold S. destruct (is_custom p) eqn:CU.
      - destruct (piled_top files ms p n SP WP [] I) as [(w & v & d & X & _ & Y & _)|[X Y]]; [left; eauto|right; left; split; [exact X|exact Y]].
      - right. unfold is_custom in CU. apply andb_false_iff in CU. rewrite !negb_false_iff in CU. cbn [get].
        destruct CU as [CU|CU]; [right|left]; (split; [|reflexivity]).
        + apply profile_eqb_same. exact CU.
        + apply (silent_same files p_global p n); [|exact SiG]. apply profile_eqb_same in CU. unfold same_profile in *. congruence. }
    destruct PP as [(w & d & LW & Gs)|PP].
    { rewrite Gs in G3. destruct G3 as (w3 & Gw3 & _). rewrite Gw3 in G1. split; [intros _; left; refine (WI _ _ _ LW); auto|intros _; exact (UT _ G1)]. }
    assert (Gs : get n S = None) by (destruct PP as [[_ X]|[_ X]]; exact X). rewrite Gs in G3.
    destruct (piled_top files ms p_default n SP WP d0 (proj1 W0)) as [(w & v & dd & LW & Rd & Gd & C)|[SiD Gd]].
    { rewrite Gd in G3. rewrite G3 in G1. split; [intros _; left; refine (WI _ _ _ LW); auto|intros _; exact (UT _ G1)]. }
    assert (SiP : silent files p n).
    { destruct PP as [[X _]|[X _]]; [exact X|]. apply (silent_same files p_default p n); [unfold same_profile in *; congruence|exact SiD]. }
    rewrite Gd in G3. rewrite G3 in G1. split.
    - intros (v & E). right. rewrite E, G1 in HG. destruct (get n d0); [eauto|destruct HG].
    - intros [M|(v & E)]; [|rewrite E in G1; exact (UT _ G1)]. exfalso. destruct M as [name s I0 N|l r d I0 [-> | [-> | ->] ] T].
      + exact (HK name s I0 N).
      + exact (SiP l d I0 T).
      + exact (SiG l d I0 T).
      + exact (SiD l d I0 T).
  Qed.
End Keys.

Lemma defaults_keys fs xs vs : Forall2 (fun (f : ustr * ty) (y : ustr * dval) => fst f = fst y /\ inhabits (snd f) (snd y)) fs xs ->
  all_ok (map (fun kv => named (fst kv, serialize (snd kv))) xs) = Ok vs -> map fst vs = map fst fs.
Proof.
  intros HL. revert vs. induction HL as [|[n t] [n' x] fs xs [E Hx] HL IH]; intros vs HS.
  - cbn in HS. injection HS as <-. auto.
  - cbn in E. subst n'. cbn [map all_ok] in HS. unfold named at 1 in HS. cbn [fst snd] in HS.
    destruct (serialize x) as [v|e] eqn:Es; [|discriminate]. cbn [res_map res_bind] in HS.
    destruct (all_ok (map (fun kv => named (fst kv, serialize (snd kv))) xs)) as [vs'|e] eqn:E'; [|discriminate].
    cbn in HS. injection HS as <-. cbn. f_equal. now apply IH.
Qed.

(** The stack of C87 for a struct with [deny_unknown_fields]: extraction succeeds exactly when C87
    says so and, besides, no variable with the prefix and no section that counts mentions anything
    that is not a field. *)
Theorem C95_deny : forall i nm id fields xs sname l0 l1 l3 fs prs files pre vars pr2 p c f c' z,
  let t := TStruct nm id true fields in
  restorable t -> inhabits t (EVStruct xs) -> Forall (fun nt => undivided (snd nt)) fields ->
  Forall2 (fun lp l => nested_file fs (snd lp) l) prs files ->
  no_white pre -> (forall name s, In (name, s) vars -> ~ In dot name) ->
  env_provider (env_global (env_prefixed pre)) vars = Ret pr2 ->
  run (OpProvide l0 Merge (serialized_provider sname (sz_defaults (EVStruct xs) l1)) ::
       map (fun lp => OpProvide (fst lp) Merge (snd lp)) prs ++
       [OpProvide l3 Merge pr2; OpSelect p]) fig_new c = (Ret f, c') ->
  (extract i f t = Ok z <->
   (exists ys, z = EVStruct ys /\ staged_all i pre vars files p fields xs ys) /\
   forall n, mentioned pre vars files p n -> In n (map fst fields)).
Proof.
  intros i nm id fields xs sname l0 l1 l3 fs prs files pre vars pr2 p c f c' z t R HX U NF NW ND EP HR.
  assert (NF' : exists ms, Forall2 (fun (lp : location * provider) m => pv_profile (snd lp) = None /\ pv_data (snd lp) = Ok m /\ wf_profiles m) prs ms /\
                  Forall2 says_profiles files ms /\ Forall wf_profiles ms).
  { clear - NF. induction NF as [|lp l prs files H NF (ms & A & B & C)]; [exists []; auto|].
    destruct (nested_brings fs (snd lp) l H) as (P & m & D & W & S). exists (m :: ms). auto. }
  destruct NF' as (ms & PM & SP & WP).
  change (env_global (env_prefixed pre)) with (build_env (FromPrefix pre) [OpGlobal]) in EP. unfold env_provider in EP.
  destruct (env_data (build_env (FromPrefix pre) [OpGlobal]) vars) as [n2| |] eqn:ED; try discriminate. cbn in EP. injection EP as <-.
  apply env_data_ret in ED. destruct ED as (kept & d2 & EI & KS & DK & EF & En2).
  change (ev_profile (build_env (FromPrefix pre) [OpGlobal])) with p_global in En2. subst n2.
  apply selects_global in KS.
  cbn [run run_op] in HR.
  destruct (provide l0 fig_new (serialized_provider sname (sz_defaults (EVStruct xs) l1)) Merge c) as [[f1| |] c1] eqn:E1; try discriminate.
  destruct (serialized_extracts i t (EVStruct xs) R HX) as (v & Hs & _).
  assert (W00 : wf_profiles []) by (split; [exact I|constructor]).
  assert (Hs' := Hs). cbn [serialize] in Hs'. apply res_map_ok in Hs'. destruct Hs' as (vs & EV & Ev). unfold map_end in Ev.
  destruct (serialized_provide _ _ _ _ _ fig_new [] _ _ _ v Hs eq_refl W00 E1) as [(t0 & d0 & m1 & Evd & Wd & Hf1 & Wm1 & HU1)|[H _]];
    [|exfalso; now apply (H tag_default (collect vs))].
  assert (d0 = collect vs) by congruence. subst d0.
  destruct (piled_run prs ms PM _ f1 m1 c1 f c' Hf1 Wm1 HR) as (f2 & m2 & c2 & Hf2 & Wm2 & _ & HU2 & HR2). clear HR.
  cbn [run run_op] in HR2.
  match type of HR2 with context [provide l3 f2 ?q Merge c2] => destruct (provide l3 f2 q Merge c2) as [[f3| |] c3] eqn:E3; try discriminate end.
  injection HR2 as <- <-.
  destruct (env_fold_leaves kept DK [] d2 EF wf_dict_nil) as [Wd2 _].
  assert (Wn2 : wf_profiles [(p_global, d2)]) by (split; [cbn; auto|constructor; [exact Wd2|constructor]]).
  assert (X := fun P => data_provide _ _ _ _ _ _ _ m2 [(p_global, d2)] Hf2 Wm2 P Wn2 E3).
  destruct (X eq_refl) as (m3 & Hf3 & Wm3 & HU3). clear X.
  assert (B1 : forall r, dut (data_of m1 r) (if profile_eqb r p_default then collect vs else [])).
  { intros r. eapply dut_trans; [apply HU1|]. destruct (LayersProofs.data_single p_default (collect vs) r) as [A B].
    destruct (profile_eqb r p_default) eqn:Q.
    - apply profile_eqb_same in Q. rewrite A by exact Q. cbn [data_of get]. rewrite dcoalesce_nil_l by apply Wd. apply dut_refl.
    - rewrite B; [apply dut_refl|]. intros C. apply profile_eqb_same in C. congruence. }
  assert (B2 : forall r, dut (data_of m2 r) (piled ms r (if profile_eqb r p_default then collect vs else []))).
  { intros r. eapply dut_trans; [apply HU2|]. apply piled_dut, B1. }
  assert (WB : forall r, wf_dict (piled ms r (if profile_eqb r p_default then collect vs else []))).
  { intros r. apply piled_wf; [exact WP|]. destruct (profile_eqb r p_default); [exact Wd|apply wf_dict_nil]. }
  assert (B3 : forall r, profile_eqb r p_global = false -> dut (data_of m3 r) (piled ms r (if profile_eqb r p_default then collect vs else []))).
  { intros r Q. eapply dut_trans; [apply HU3|]. destruct (LayersProofs.data_single p_global d2 r) as [_ B].
    rewrite B by (intros C; apply profile_eqb_same in C; congruence).
    rewrite dcoalesce_nil_r by apply (data_of_wf m2 r Wm2). apply B2. }
  assert (BG : dut (data_of m3 p_global) (dcoalesce Merge (piled ms p_global []) d2)).
  { eapply dut_trans; [apply HU3|]. apply dcoalesce_rel; [|apply dut_refl]. apply (B2 p_global). }
  set (F := fig_select f3 p) in *.
  assert (HF : f_value F = Ok m3) by exact Hf3.
  set (D := dmerge (dmerge (data_of m3 p_default) (selected_of F m3)) (data_of m3 p_global)).
  assert (HD : dut D (dcoalesce Merge
      (dcoalesce Merge (piled ms p_default (collect vs)) (if is_custom p then piled ms p [] else []))
      (dcoalesce Merge (piled ms p_global []) d2))).
  { unfold D, dmerge. apply dcoalesce_rel; [|exact BG]. apply dcoalesce_rel; [exact (B3 p_default eq_refl)|].
    unfold selected_of. change (f_profile F) with p. destruct (is_custom p) eqn:CU; [|apply dut_refl].
    unfold is_custom in CU. apply andb_true_iff in CU. rewrite !negb_true_iff in CU. destruct CU as [C1 C2].
    assert (X := B3 p C2). rewrite C1 in X. exact X. }
  destruct (restorable_ordinary t R) as [O N]. unfold extract. rewrite (merged_ok3 F m3 HF Wm3). fold D. cbn [res_bind].
  assert (WD : wf (VDict tag_default D)).
  { apply wf_VDict. unfold D, dmerge. auto using wf_dcoalesce, data_of_wf, selected_wf. }
  assert (MV := mn_value _ _ _ _ (extraction_meant t O N (MConf i F)) (VDict tag_default D) z WD). cbn [mk_de] in MV. rewrite MV.
  cbn [t restorable] in R. destruct R as (R1 & R2 & R3).
  inversion HX as [| | | | | | | | | | | | |? ? ? ? l' Hl| | | | | | | | | | | | | | |]; subst.
  assert (DA := defaults_at fields R2 xs vs Hl EV).
  assert (FS := fields_staged i pre vars kept files ms p (collect vs) d2 D NW ND KS Wd SP WP EF HD fields xs R3 U DA).
  assert (KI := key_in pre vars kept files ms p (collect vs) d2 D NW ND KS Wd SP WP EF HD).
  assert (SD : sorted D) by (apply wf_VDict in WD; apply WD).
  assert (CK : forall n v, get n (collect vs) = Some v -> In n (map fst fields)).
  { intros n v G. rewrite <- (defaults_keys fields xs vs Hl EV). apply get_In in G. destruct G as (k & Ck & J). apply cmp_leibniz in Ck. subst k.
    apply collect_In in J. apply (in_map fst) in J. exact J. }
  cbn [t extracts]. split.
  - intros [(g & d & ys & E & DN & B & ->)|(g & a & ys & E & _)]; [|discriminate]. injection E as <- <-.
    split; [exists ys; split; [reflexivity|]; now apply FS|].
    intros n M. destruct (proj2 (KI n) (or_introl M)) as (v & G). apply get_In in G. destruct G as (k & Ck & J). apply cmp_leibniz in Ck. subst k.
    exact (DN eq_refl _ _ J).
  - intros [(ys & -> & B) K]. left. exists tag_default, D, ys. split; [reflexivity|].
    split; [intros _ k x J|split; [now apply FS|reflexivity]].
    assert (G := In_get _ _ _ SD J). destruct (proj1 (KI k) (ex_intro _ x G)) as [M|(v & G0)]; [exact (K k M)|exact (CK k v G0)].
Qed.
Print Assumptions C95_deny.

(** With [Env::prefixed(pre).ignore(ks).global()] and [Profile::from_env_or(key, d)], as in C94: the
    variables passed over mention nothing. *)
Theorem C95_ignored : forall i nm id fields xs sname l0 l1 l3 fs prs files pre ks vars vars' pr2 key d p c f c' z,
  let t := TStruct nm id true fields in
  restorable t -> inhabits t (EVStruct xs) -> Forall (fun nt => undivided (snd nt)) fields ->
  Forall2 (fun lp l => nested_file fs (snd lp) l) prs files ->
  no_white pre -> Forall no_white ks -> no_white key -> (forall name s, In (name, s) vars -> ~ In dot name) ->
  Forall (fun nt => forall k, In k ks -> ~ alike (fst nt) k) fields ->
  env_provider (env_global (env_ignore (env_prefixed pre) ks)) vars = Ret pr2 ->
  run (OpProvide l0 Merge (serialized_provider sname (sz_defaults (EVStruct xs) l1)) ::
       map (fun lp => OpProvide (fst lp) Merge (snd lp)) prs ++
       [OpProvide l3 Merge pr2; OpSelect (profile_from_env_or vars key d)]) fig_new c = (Ret f, c') ->
  chosen vars key d p -> heeded pre ks vars vars' ->
  (extract i f t = Ok z <->
   (exists ys, z = EVStruct ys /\ staged_all i pre vars files p fields xs ys) /\
   forall n, mentioned pre vars' files p n -> In n (map fst fields)).
Proof.
  intros i nm id fields xs sname l0 l1 l3 fs prs files pre ks vars vars' pr2 key d p c f c' z t R HX U NF NP NK NKey ND NI EP HR CH H.
  apply (chosen_spec vars key d p NKey) in CH. rewrite CH in HR. rewrite (over_provider pre ks NP NK vars vars' H) in EP.
  assert (ND' : forall name s, In (name, s) vars' -> ~ In dot name) by (intros name s J; exact (ND name s (heeded_in _ _ _ _ H _ J))).
  unfold t; rewrite (C95_deny i nm id fields xs sname l0 l1 l3 fs prs files pre vars' pr2 p c f c' z R HX U NF NP ND' EP HR).
  assert (G : forall ys, staged_all i pre vars' files p fields xs ys <-> staged_all i pre vars files p fields xs ys).
  { intros ys. exact (staged_all_heeded i pre ks vars vars' files p NP NK ND H fields NI xs ys). }
  split; (intros [(ys & E & S) K]; split; [exists ys; split; [exact E|]; now apply G|exact K]).
Qed.
Print Assumptions C95_ignored.

(** ** An example *)
Definition dn_type : ty := TStruct (lit "Config") (lit "Config") true [(lit "host", TString); (lit "port", TInt U16); (lit "tags", TSeq TString)].
Definition dn_defaults : list (ustr * dval) := [(lit "host", EVStr (lit "h")); (lit "port", EVInt U16 1); (lit "tags", EVSeq [])].
Definition dn_read (e : env) (vars : list (ustr * ustr)) (p : profile) : res error dval :=
  match env_provider e vars with
  | Ret pr =>
      match fst (run (OpProvide st_loc Merge (serialized_provider (lit "Config") (sz_defaults (EVStruct dn_defaults) st_loc)) ::
             map (fun lp => OpProvide (fst lp) Merge (snd lp)) [(st_loc, sg_pr sg_base); (st_loc, sg_pr sg_app)] ++
             [OpProvide st_loc Merge pr; OpSelect p]) fig_new 1) with
      | Ret f => extract Exact f dn_type
      | _ => Err (err_msg [])
      end
  | _ => Err (err_msg [])
  end.

(** A file's section for [Debug] has a [log], which is no field: only if that profile is selected does
    it matter.  A variable [APP_PROFILE] is an unknown field unless it is ignored. *)
Example C95_ex :
  restorable dn_type /\ inhabits dn_type (EVStruct dn_defaults) /\
  mentioned (lit "APP_") [] [sg_base; sg_app] (mkProfile (lit "debug")) (lit "log") /\
  dn_read (env_global (env_prefixed (lit "APP_"))) [(lit "OTHER", lit "2")] (mkProfile (lit "nowhere")) =
    Ok (EVStruct [(lit "host", EVStr (lit "base")); (lit "port", EVInt U16 90); (lit "tags", EVSeq [EVStr (lit "g")])]) /\
  (exists e, dn_read (env_global (env_prefixed (lit "APP_"))) [] (mkProfile (lit "debug")) = Err e /\
     e_kind e = KUnknownField (lit "log") [lit "host"; lit "port"; lit "tags"]) /\
  (exists e, dn_read (env_global (env_prefixed (lit "APP_"))) [(lit "APP_PROFILE", lit "x")] (mkProfile (lit "nowhere")) = Err e /\
     e_kind e = KUnknownField (lit "profile") [lit "host"; lit "port"; lit "tags"]) /\
  dn_read (env_global (env_ignore (env_prefixed (lit "APP_")) [lit "profile"])) [(lit "APP_PROFILE", lit "x")] (mkProfile (lit "nowhere")) =
    Ok (EVStruct [(lit "host", EVStr (lit "base")); (lit "port", EVInt U16 90); (lit "tags", EVSeq [EVStr (lit "g")])]).
Proof.
  split; [|split; [|split; [|split; [|split; [|split]]]]].
  - cbn. repeat match goal with |- _ /\ _ => split end; try tauto;
      try (intros [H|[H|[H|[]]]]; discriminate); repeat constructor; cbn; intuition discriminate.
  - repeat constructor; cbn; lia.
  - eapply me_section with (l := sg_base) (r := mkProfile (lit "debug")) (d := DocStr (lit "all")); [now left|now left|].
    exists [(lit "port", DocInt I64 81); (lit "log", DocStr (lit "all"))]. split.
    + exists [(lit "default", DocMap [(lit "port", DocInt I64 80); (lit "host", DocStr (lit "base"))])], (lit "Debug"), [].
      split; [reflexivity|]. split; [reflexivity|]. intros ? ? [].
    + exists [(lit "port", DocInt I64 81)], []. split; [reflexivity|]. intros ? [].
  - vm_compute. reflexivity.
  - eexists. split; vm_compute; reflexivity.
  - eexists. split; vm_compute; reflexivity.
  - vm_compute. reflexivity.
Qed.
