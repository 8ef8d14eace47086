(** C91: defaults, files divided into profiles, environment and a selected profile, when something in
    it cannot be read: which field is complained about, why, and where it is from. *)
From Coq Require Import Ascii String ZArith NArith Bool Lia.
From Coq Require Import List.
From Verif Require Import Res BMap BMapProofs Str StrProofs Profile Tag Num Value Metadata Err Coalesce Figment De Ser Parse Path Data Doc Env Fmt Display.
From Verif Require Import SpecLookup SpecFigment SpecDe SpecExtract SpecValue SpecRt SpecInto SpecData SpecDoc SpecEnv SpecText SpecGives SpecRefuse SpecStack SpecStages SpecDisplay SpecStageFault.
From Verif Require ProvProofs BlameProofs.
From Verif Require Import ValueProofs CoalesceProofs PriorityProofs ProfileProofs FigmentProofs DeProofs SerProofs MeaningProofs ExtractProofs
  EnvProofs EnvDataProofs DataProofs DocProofs BlindProofs OrderProofs LayersProofs StackProofs GivesProofs RefusalProofs FaultProofs PropsFile PropsStack
  StagesProofs StageFaultProofs PropsFault PropsStages.
From Verif Require MoreProofs PropsShown SpecShown IntoProofs.
Import ListNotations.

Lemma nested_plain fs pr l : nested_file fs pr l -> plainly l /\ pv_metadata_map pr = None.
Proof.
  intros (nm & parse & mistake & custom & path & DP & _ & PL). split.
  - unfold plainly. intros r n d (lx & (a & k & b & E & _) & G). destruct (PL k (DocMap lx)) as (ly & E' & P); [rewrite E; apply in_elt|].
    injection E' as <-. apply IntoProofs.given_In in G. exact (P _ _ G).
  - destruct (data_provider_ok (doc_format nm parse mistake custom) fs (data_nested (data_file path))) as (pr' & D' & _ & _ & _ & M).
    rewrite DP in D'. injection D' as <-. exact M.
Qed.

Lemma dut_nil d : dut d [] -> d = [].
Proof. intros H. inversion H. reflexivity. Qed.

Lemma stages_bring fs (prs : list (location * provider)) files : Forall2 (fun lp l => nested_file fs (snd lp) l) prs files ->
  exists ms, Forall2 (fun (lp : location * provider) m => pv_profile (snd lp) = None /\ pv_metadata_map (snd lp) = None /\ pv_data (snd lp) = Ok m /\ wf_profiles m) prs ms /\
    Forall2 says_profiles files ms /\ Forall wf_profiles ms /\ Forall plainly files.
Proof.
  induction 1 as [|lp l prs files H NF (ms & A & B & C & E)]; [exists []; auto|].
  destruct (nested_brings fs (snd lp) l H) as (P & m & D & W & S). destruct (nested_plain fs (snd lp) l H) as [Q M].
  exists (m :: ms). auto 10.
Qed.

Lemma f2_length {A B} (P : A -> B -> Prop) l m : Forall2 P l m -> List.length l = List.length m.
Proof. induction 1; cbn; congruence. Qed.

Section Config.
  Variables (nm id : ustr) (fields : list (ustr * ty)) (xs : list (ustr * dval)) (sname : ustr) (l0 l1 l3 : location)
            (fs : fsys) (prs : list (location * provider)) (files : list (list (ustr * doc))) (pre : ustr)
            (vars : list (ustr * ustr)) (pr2 : provider) (p : profile) (c : N) (f : figment) (c' : N).
  Definition made : Prop :=
    run (OpProvide l0 Merge (serialized_provider sname (sz_defaults (EVStruct xs) l1)) ::
         map (fun lp => OpProvide (fst lp) Merge (snd lp)) prs ++
         [OpProvide l3 Merge pr2; OpSelect p]) fig_new c = (Ret f, c').
  Let t := TStruct nm id false fields.
  Hypothesis R : restorable t.
  Hypothesis HX : inhabits t (EVStruct xs).
  Hypothesis U : Forall (fun nt => undivided (snd nt)) fields.
  Hypothesis NF : Forall2 (fun lp l => nested_file fs (snd lp) l) prs files.
  Hypothesis NW : no_white pre.
  Hypothesis ND : forall name s, In (name, s) vars -> ~ In dot name.
  Hypothesis EP : env_provider (env_global (env_prefixed pre)) vars = Ret pr2.
  Hypothesis HR : made.

  (** The configuration with its tags. *)
  Lemma stages_made : let t2 := tag_new (c + 1 + N.of_nat (List.length prs)) PTDefault in
    exists D, wf_dict D /\ merged f = Ok (VDict tag_default D) /\ f_profile f = p /\
    (forall n t, In (n, t) fields -> restorable t /\ undivided t /\
       exists x v0 w, inhabits t x /\ serialize x = Ok v0 /\ get n D = Some w /\
         ((exists who v, spoken pre vars files p n who v /\ wf v /\ topped (place_mark (c + 1) t2 who) w v) \/
          ((forall who v, ~ spoken pre vars files p n who v) /\ ut w v0))) /\
    (c + 1 + N.of_nat (List.length prs) < 2 ^ 62)%N /\
    (forall g, metadata_id g = (c + 1 + N.of_nat (List.length prs))%N ->
       get g (f_metadata f) = Some (md_with_location (pv_metadata pr2) l3)) /\
    (forall k lp g, nth_error prs k = Some lp -> metadata_id g = (c + 1 + N.of_nat k)%N ->
       get g (f_metadata f) = Some (md_with_location (pv_metadata (snd lp)) (fst lp))).
  Proof.
    intros t2. unfold made in HR. assert (HR' := HR). clear HR.
    destruct (stages_bring fs prs files NF) as (ms & PM & SP & WP & PL).
    change (env_global (env_prefixed pre)) with (build_env (FromPrefix pre) [OpGlobal]) in EP.
    assert (M2 := proj1 (env_provider_plain _ _ _ _ EP)). unfold env_provider in EP. assert (EP' := EP). clear EP.
    destruct (env_data (build_env (FromPrefix pre) [OpGlobal]) vars) as [n2| |] eqn:ED; try discriminate. cbn in EP'.
    apply env_data_ret in ED. destruct ED as (kept & d2 & EI & KS & DK & EF & En2).
    change (ev_profile (build_env (FromPrefix pre) [OpGlobal])) with p_global in En2.
    assert (D2 : pv_data pr2 = Ok [(p_global, d2)]) by (injection EP' as <-; subst n2; reflexivity).
    apply selects_global in KS.
    cbn [run run_op] in HR'.
    destruct (provide l0 fig_new (serialized_provider sname (sz_defaults (EVStruct xs) l1)) Merge c) as [[f1| |] c1] eqn:E1; try discriminate.
    destruct (serialized_extracts Exact t (EVStruct xs) R HX) as (v & Hs & _).
    assert (W00 : wf_profiles []) by (split; [exact I|constructor]).
    assert (Hs' := Hs). cbn [serialize] in Hs'. apply res_map_ok in Hs'. destruct Hs' as (vs & EV & Ev). unfold map_end in Ev.
    destruct (serialized_provide _ _ _ _ _ fig_new [] _ _ _ v Hs eq_refl W00 E1) as [(t0 & d0 & m1 & Evd & Wd & Hf1 & Wm1 & HU1)|[H _]];
      [|exfalso; now apply (H tag_default (collect vs))].
    assert (d0 = collect vs) by congruence. subst d0.
    assert (c1 = (c + 1)%N) by (apply provide_ret in E1; tauto). subst c1.
    destruct (tpiled_run prs ms PM _ f1 m1 _ f c' Hf1 Wm1 HR') as (f2 & m2 & Hf2 & Wm2 & HU2 & _ & KM & NM & HR2). clear HR'.
    cbn [run run_op] in HR2.
    destruct (provide l3 f2 pr2 Merge (c + 1 + N.of_nat (List.length prs))) as [[f3| |] c3] eqn:E3; try discriminate.
    injection HR2 as HF _.
    destruct (env_fold_leaves kept DK [] d2 EF wf_dict_nil) as [Wd2 _].
    assert (Wn2 : wf_profiles [(p_global, d2)]) by (split; [cbn; auto|constructor; [exact Wd2|constructor]]).
    destruct (data_provided _ _ _ _ _ _ _ m2 [(p_global, d2)] Hf2 Wm2 D2 Wn2 E3) as (m3 & Hf3 & Wm3 & HU3). fold t2 in HU3.
    apply provide_ret in E3. destruct E3 as (L3 & _ & F3).
    assert (MF : f_metadata f3 = insert t2 (md_with_location (pv_metadata pr2) l3) (f_metadata f2)).
    { rewrite F3. cbn [f_metadata]. rewrite M2. reflexivity. }
    assert (ID2 : metadata_id t2 = (c + 1 + N.of_nat (List.length prs))%N) by (apply ProvProofs.metadata_id_new_small; exact L3).
    assert (B1 : dut (data_of m1 p_default) (collect vs)).
    { eapply dut_trans; [apply HU1|]. cbn [data_of get]. rewrite dcoalesce_nil_l by apply Wd. apply dut_refl. }
    assert (B1' : forall r, profile_eqb r p_default = false -> data_of m1 r = []).
    { intros r Q. apply dut_nil. eapply dut_trans; [apply HU1|]. destruct (LayersProofs.data_single p_default (collect vs) r) as [_ B].
      rewrite B; [apply dut_refl|]. intros C. apply profile_eqb_same in C. congruence. }
    assert (B3 : forall r, profile_eqb r p_global = false -> data_of m3 r = tpiled (c + 1) ms r (data_of m1 r)).
    { intros r Q. rewrite HU3, HU2. destruct (LayersProofs.data_single p_global d2 r) as [_ B].
      rewrite B by (intros C; apply profile_eqb_same in C; congruence). cbn [ProvProofs.retag_dict map].
      apply dcoalesce_nil_r. apply tpiled_sorted. apply (data_of_wf m1 r Wm1). }
    assert (BG : data_of m3 p_global = dcoalesce Merge (tpiled (c + 1) ms p_global []) (ProvProofs.retag_dict t2 p_global d2)).
    { rewrite HU3, HU2, (B1' p_global) by reflexivity. reflexivity. }
    assert (HV : f_value f = Ok m3) by (subst f; exact Hf3).
    assert (HP : f_profile f = p) by (subst f; reflexivity).
    assert (HM : f_metadata f = f_metadata f3) by (subst f; reflexivity).
    set (D := dmerge (dmerge (data_of m3 p_default) (selected_of f m3)) (data_of m3 p_global)).
    assert (HD : D = dcoalesce Merge
      (dcoalesce Merge (tpiled (c + 1) ms p_default (data_of m1 p_default)) (if is_custom p then tpiled (c + 1) ms p [] else []))
      (dcoalesce Merge (tpiled (c + 1) ms p_global []) (ProvProofs.retag_dict t2 p_global d2))).
    { unfold D, dmerge. rewrite BG. f_equal. rewrite (B3 p_default eq_refl). f_equal.
      unfold selected_of. rewrite HP. destruct (is_custom p) eqn:CU; [|reflexivity].
      unfold is_custom in CU. apply andb_true_iff in CU. rewrite !negb_true_iff in CU. destruct CU as [C1 C2].
      rewrite (B3 p C2), (B1' p C1). reflexivity. }
    exists D. split; [unfold D, dmerge; auto using wf_dcoalesce, data_of_wf, selected_wf|].
    split; [exact (merged_ok3 f m3 HV Wm3)|]. split; [exact HP|]. split; [|split; [exact L3|split]].
    - unfold t in R, HX. cbn [restorable] in R. destruct R as (R1 & R2 & R3).
      inversion HX as [| | | | | | | | | | | | |? ? ? ? l' Hl| | | | | | | | | | | | | | |]; subst l'.
      assert (DA := defaults_at fields R2 xs vs Hl EV).
      intros fn T IN. split; [exact (all_In _ _ _ R3 IN)|]. split; [rewrite Forall_forall in U; exact (U _ IN)|].
      assert (X : exists x v0, inhabits T x /\ serialize x = Ok v0 /\ get fn (collect vs) = Some v0).
      { clear - DA IN. induction DA as [|[a u] [b x] fs xs (E & HX & v & A & B) F IH]; [destruct IN|].
        destruct IN as [E'|IN]; [|auto]. injection E' as -> ->. cbn in *. eauto. }
      destruct X as (x & v0 & X1 & X2 & X3).
      destruct (staged_top pre vars kept files ms p (c + 1) t2 (collect vs) (data_of m1 p_default) d2 D NW ND KS
                  (data_of_wf m1 p_default Wm1) B1 SP WP PL EF HD fn v0 X3) as (w & G & C).
      exists x, v0, w. auto.
    - intros g Ig. rewrite HM, MF. apply get_insert_eq. rewrite cmp_tag_eq. congruence.
    - intros k lp g E Ig. rewrite HM, MF.
      assert (LK : (k < List.length prs)%nat) by (apply nth_error_Some; congruence).
      rewrite get_insert_ne; [exact (NM k lp g E Ig)|]. rewrite cmp_tag_eq, Ig, ID2. lia.
  Qed.

  (** Extraction fails exactly when the last word on some field cannot be read; it complains of the first
      such field in the order of the names, by a path that begins with its name. *)
  Lemma stage_fault i q k :
    (exists e, extract i f t = Err e /\ e_path e = q /\ e_kind e = k) <->
    (exists n who r, q = n :: r /\ first_misspoken (MConf i f) pre vars files p fields n who r k).
  Proof.
    destruct stages_made as (D & WD & EM & PF & TOP & L3 & _). unfold t in R. cbn [restorable] in R. destruct R as (R1 & R2 & R3).
    destruct (restorable_ordinary t R) as [_ N]. unfold extract. rewrite EM. cbn [res_bind].
    rewrite (refuses_told i f t _ q k (proj2 (wf_VDict _ _) WD) N).
    assert (AF := any_fields place (spoken pre vars files p) (place_mark (c + 1) (tag_new (c + 1 + N.of_nat (List.length prs)) PTDefault)) i f D fields
                    (fun n a v b w => spoken_fun pre vars files p n a v b w) WD TOP q k).
    unfold first_wrong, wrong in AF. unfold first_misspoken, misspoken. rewrite <- AF. clear AF.
    unfold t. cbn [refuses]. fold (fparts i f fields). split.
    - intros (w & PR & H). inversion PR; subst; try (exfalso; apply R1; cbn; tauto).
      destruct H as [(g & d & E & H)|[(g & a & E & _)|(NDi & _)]].
      + injection E as <- <-. exact H.
      + discriminate.
      + exfalso. apply NDi. do 2 eexists. reflexivity.
    - intros H. eexists. split; [apply pr_usual; exact R1|]. left. do 2 eexists. split; [reflexivity|exact H].
  Qed.

  Lemma stage_source i e : extract i f t = Err e ->
    exists n who q, e_path e = n :: q /\ first_misspoken (MConf i f) pre vars files p fields n who q (e_kind e) /\
      e_profile e = Some (profile_of who) /\ e_prev e = None /\
      match who with
      | AVariable => e_metadata e = Some (md_with_location (pv_metadata pr2) l3)
      | InSection k _ => exists lp, nth_error prs k = Some lp /\ e_metadata e = Some (md_with_location (pv_metadata (snd lp)) (fst lp))
      end.
  Proof.
    intros He. destruct (proj1 (stage_fault i (e_path e) (e_kind e))) as (n & who & q & EQ & FF); [exists e; auto|].
    exists n, who, q. split; [exact EQ|]. split; [exact FF|].
    destruct stages_made as (D & WD & EM & PF & TOP & L3 & MV & MS).
    destruct (restorable_ordinary t R) as [O _].
    assert (WV : wf (VDict tag_default D)) by now apply wf_VDict.
    destruct (extract_pinpoints i f _ t e EM WV O He) as [(vs & x & TR & LX & NE & _) PM PP PV].
    destruct FF as [(T & IN & FN) _]. destruct (TOP _ _ IN) as (RT & UT & _).
    set (t2 := tag_new (c + 1 + N.of_nat (List.length prs)) PTDefault) in *.
    destruct (any_field place (spoken pre vars files p) (place_mark (c + 1) t2) i f D fields
                (fun n a v b w => spoken_fun pre vars files p n a v b w) WD TOP n T IN) as (w & G & HF & HT).
    destruct (HT _ _ _ FN) as [v TV]. assert (RW := proj2 (HF _ _) (ex_intro _ who FN)).
    assert (W := get_wf _ _ _ WD G).
    set (g := place_mark (c + 1) t2 who) in *.
    assert (LK : match who with AVariable => True | InSection k r => (k < List.length prs)%nat /\ (r = p_global \/ r = p_default \/ (r = p /\ is_custom p = true)) end).
    { destruct FN as (v' & S & _). assert (LF : List.length prs = List.length files) by exact (f2_length _ _ _ NF).
      assert (NK : forall k r n d, last_at files k r n d -> (k < List.length prs)%nat).
      { intros k r n0 d (l & E & _). rewrite LF. apply nth_error_Some. congruence. }
      destruct S as [s v' S E|k d v' _ L _|k d v' _ Sg Nd L _|k d v' _ _ _ L _]; [exact I|split; [exact (NK _ _ _ _ L)|auto]..].
      right. right. split; [reflexivity|]. unfold is_custom. apply andb_true_iff. rewrite !negb_true_iff. split.
      - destruct (profile_eqb p p_default) eqn:Q; [|reflexivity]. apply profile_eqb_same in Q. destruct (Nd Q).
      - destruct (profile_eqb p p_global) eqn:Q; [|reflexivity]. exfalso. apply profile_eqb_same in Q.
        exact (last_at_silent _ _ _ _ _ (last_at_same _ _ _ _ _ _ Q L) Sg). }
    assert (IDG : metadata_id g = match who with AVariable => c + 1 + N.of_nat (List.length prs) | InSection k _ => c + 1 + N.of_nat k end%N).
    { unfold g, place_mark. destruct who as [|k r]; rewrite metadata_id_for_profile; apply ProvProofs.metadata_id_new_small; [exact L3|].
      destruct LK as [LK _]. lia. }
    assert (ND0 : g <> tag_default).
    { intros E. rewrite E in IDG. change (metadata_id tag_default) with 0%N in IDG. destruct who; lia. }
    assert (TG : e_tag e = g).
    { rewrite EQ in TR. inversion TR as [|k ks v' cc vs' CH TR']; subst.
      inversion CH as [? ? ? ? Iw|]; subst.
      assert (cc = w) by (assert (Z := In_get _ _ _ (proj1 WD) Iw); congruence). subst cc.
      destruct (BlameProofs.trail_head _ _ _ TR') as [r ->].
      eapply (nearest_last _ (VDict tag_default D)); [exact NE|reflexivity|discriminate| |exact ND0].
      cbn [last]. change (match r with [] => w | _ :: _ => last r (VDict tag_default D) end) with (last (w :: r) (VDict tag_default D)).
      destruct TV as [[_ A]|(t' & dd & dd' & -> & ->)].
      - rewrite <- (trail_tags _ _ _ _ TR' W A). f_equal. apply last_any. discriminate.
      - eapply (refuses_dict _ T g dd g dd) in RW; [|exact UT]. destruct RW as [-> _]. inversion TR'; subst. reflexivity. }
    split; [|split; [exact PV|]].
    - rewrite PP, TG. f_equal. unfold g, place_mark. destruct who as [|k r]; unfold tag_profile, for_profile; rewrite profile_tag_new; [reflexivity|].
      destruct LK as [_ [-> |[-> |[-> CU]]]]; [reflexivity..|]. unfold is_custom in CU. apply andb_true_iff in CU. rewrite !negb_true_iff in CU.
      destruct CU as [C1 C2]. unfold tag_of_profile. rewrite C1, C2. exact PF.
    - destruct who as [|k r].
      + rewrite PM, TG. apply MV. exact IDG.
      + destruct LK as [LK _]. destruct (nth_error prs k) as [lp|] eqn:E; [|apply nth_error_None in E; lia].
        exists lp. split; [reflexivity|]. rewrite PM, TG. exact (MS k lp g E IDG).
  Qed.
End Config.

(** Extraction fails exactly when the last word on some field cannot be read. It complains of the first
    such field in the order of the names, by a path that begins with its name. *)
Theorem C91_fault : forall i nm id fields xs sname l0 l1 l3 fs prs files pre vars pr2 p c f c' q k,
  let t := TStruct nm id false fields in
  restorable t -> inhabits t (EVStruct xs) -> Forall (fun nt => undivided (snd nt)) fields ->
  Forall2 (fun lp l => nested_file fs (snd lp) l) prs files ->
  no_white pre -> (forall name s, In (name, s) vars -> ~ In dot name) ->
  env_provider (env_global (env_prefixed pre)) vars = Ret pr2 ->
  run (OpProvide l0 Merge (serialized_provider sname (sz_defaults (EVStruct xs) l1)) ::
       map (fun lp => OpProvide (fst lp) Merge (snd lp)) prs ++
       [OpProvide l3 Merge pr2; OpSelect p]) fig_new c = (Ret f, c') ->
  (exists e, extract i f t = Err e /\ e_path e = q /\ e_kind e = k) <->
  (exists n who r, q = n :: r /\ first_misspoken (MConf i f) pre vars files p fields n who r k).
Proof.
  intros i nm id fields xs sname l0 l1 l3 fs prs files pre vars pr2 p c f c' q k t R HX U NF NW ND EP HR.
  eapply stage_fault; eassumption.
Qed.
Print Assumptions C91_fault.

(** The error has the metadata of the provider that had the last word: the environment's, or the
    file's in whose section the value stands. The profile of the error is that section's,
    [global] for the environment; for the selected profile as it was selected. *)
Theorem C91_source : forall i nm id fields xs sname l0 l1 l3 fs prs files pre vars pr2 p c f c' e,
  let t := TStruct nm id false fields in
  restorable t -> inhabits t (EVStruct xs) -> Forall (fun nt => undivided (snd nt)) fields ->
  Forall2 (fun lp l => nested_file fs (snd lp) l) prs files ->
  no_white pre -> (forall name s, In (name, s) vars -> ~ In dot name) ->
  env_provider (env_global (env_prefixed pre)) vars = Ret pr2 ->
  run (OpProvide l0 Merge (serialized_provider sname (sz_defaults (EVStruct xs) l1)) ::
       map (fun lp => OpProvide (fst lp) Merge (snd lp)) prs ++
       [OpProvide l3 Merge pr2; OpSelect p]) fig_new c = (Ret f, c') ->
  extract i f t = Err e ->
  exists n who q, e_path e = n :: q /\ first_misspoken (MConf i f) pre vars files p fields n who q (e_kind e) /\
    e_profile e = Some (profile_of who) /\ e_prev e = None /\
    match who with
    | AVariable => e_metadata e = Some (md_with_location (pv_metadata pr2) l3)
    | InSection k _ => exists lp, nth_error prs k = Some lp /\ e_metadata e = Some (md_with_location (pv_metadata (snd lp)) (fst lp))
    end.
Proof.
  intros i nm id fields xs sname l0 l1 l3 fs prs files pre vars pr2 p c f c' e t R HX U NF NW ND EP HR He.
  eapply stage_source; eassumption.
Qed.
Print Assumptions C91_source.

(** What the error says: the variable in capitals, or the section and the keys in it and the file as found. *)
Theorem C91_text : forall cwd i nm id fields xs sname l0 l1 l3 fs prs files pre vars pr2 p c f c' e,
  let t := TStruct nm id false fields in
  restorable t -> inhabits t (EVStruct xs) -> Forall (fun nt => undivided (snd nt)) fields ->
  Forall2 (fun lp l => nested_file fs (snd lp) l) prs files ->
  no_white pre -> (forall name s, In (name, s) vars -> ~ In dot name) ->
  env_provider (env_global (env_prefixed pre)) vars = Ret pr2 ->
  run (OpProvide l0 Merge (serialized_provider sname (sz_defaults (EVStruct xs) l1)) ::
       map (fun lp => OpProvide (fst lp) Merge (snd lp)) prs ++
       [OpProvide l3 Merge pr2; OpSelect p]) fig_new c = (Ret f, c') ->
  extract i f t = Err e ->
  exists n who q, e_path e = n :: q /\ first_misspoken (MConf i f) pre vars files p fields n who q (e_kind e) /\
    match who with
    | AVariable => exists ks pre', Forall2 (Forall2 SpecShown.capital) (n :: q) ks /\ Forall2 SpecShown.capital pre pre' /\
        fmt_error cwd e = fmt_kind (e_kind e) ++ lit " for key " ++ fmt_debug_str (join (lit ".") ks) ++
          lit " in `" ++ pre' ++ lit "` environment variable(s)"
    | InSection k r => exists lp fnm parse mistake custom path found, nth_error prs k = Some lp /\
        data_provider (doc_format fnm parse mistake custom) fs (data_nested (data_file path)) = Ret (snd lp) /\
        finds fs path true (Some found) /\
        fmt_error cwd e = fmt_kind (e_kind e) ++ lit " for key " ++ fmt_debug_str (pname r ++ lit "." ++ join (lit ".") (n :: q)) ++
          lit " in " ++ fmt_source cwd (SFile found) ++ lit " " ++ fnm ++ lit " file"
    end.
Proof.
  intros cwd i nm id fields xs sname l0 l1 l3 fs prs files pre vars pr2 p c f c' e t R HX U NF NW ND EP HR He.
  destruct (C91_source i nm id fields xs sname l0 l1 l3 fs prs files pre vars pr2 p c f c' e R HX U NF NW ND EP HR He)
    as (n & who & q & EQ & FF & PP & PV & PM).
  assert (NP : e_path e <> []) by (rewrite EQ; discriminate).
  exists n, who, q. split; [exact EQ|]. split; [exact FF|]. rewrite <- EQ. destruct who as [|k r].
  - assert (M2 : pv_metadata pr2 = env_metadata (env_global (env_prefixed pre))).
    { unfold env_provider in EP. destruct (env_data (env_global (env_prefixed pre)) vars); try discriminate. cbn in EP. injection EP as <-. reflexivity. }
    rewrite M2 in PM.
    destruct (PropsShown.C54_env cwd e (env_global (env_prefixed pre)) _ _ PV PM PP NP) as (ks & px & K & PX & F); [right; eauto|].
    change (ev_prefix (env_global (env_prefixed pre))) with (Some pre) in PX. destruct PX as (pre' & C & ->). exists ks, pre'.
    split; [exact K|]. split; [exact C|]. rewrite F. f_equal. f_equal. f_equal. cbn [app lit]. rewrite <- !app_assoc. reflexivity.
  - destruct PM as (lp & E & PM).
    assert (X : exists l, nth_error files k = Some l /\ nested_file fs (snd lp) l).
    { clear - NF E. revert k E. induction NF as [|a b prs files H NF IH]; intros [|k] E; try discriminate; cbn in *; [|eauto].
      injection E as ->. eauto. }
    destruct X as (l & EL & fnm & parse & mistake & custom & path & DP & FE & _).
    assert (FX : exists found, finds fs path true (Some found)).
    { destruct FE as [[_ ->]|(found & text & F & _)]; [|eauto]. exfalso. destruct FF as [(T & IN & v & S & _) _].
      assert (L : exists n d, last_at files k r n d) by (inversion S; subst; eauto).
      destruct L as (n' & d & l' & E' & (lx & (a & k' & b & EE & _) & _) & _). rewrite EL in E'. injection E' as <-. destruct a; discriminate. }
    destruct FX as [found FX]. exists lp, fnm, parse, mistake, custom, path, found. split; [exact E|]. split; [exact DP|]. split; [exact FX|].
    destruct (C37_metadata (doc_format fnm parse mistake custom) fs path false true None found (finds_resolve _ _ _ _ FX))
      as (pr' & DP' & MS & MN & _).
    assert (pr' = snd lp) by (change (data_nested (data_file path)) with (mkData (DFile path false true) None) in DP; congruence). subst pr'.
    assert (MI : md_interpolater (pv_metadata (snd lp)) = default_interpolater).
    { unfold data_provider, data_metadata in DP'. cbn [da_source] in DP'. rewrite (finds_resolve _ _ _ _ FX) in DP'. cbn [out_map out_bind] in DP'.
      match type of DP' with context [data_data ?a ?b ?x] => destruct (data_data a b x); try discriminate end.
      cbn in DP'. injection DP' as <-. reflexivity. }
    rewrite (proj2 (proj2 (MoreProofs.fmt_report cwd e PV)) _ _ PM PP NP). unfold origin, md_with_location. cbn [md_interpolater md_source md_name].
    rewrite MI, MS, MN. cbn [fm_name doc_format profile_of]. unfold default_interpolater. rewrite <- !app_assoc. reflexivity.
Qed.
Print Assumptions C91_text.

(** ** Examples *)
(** In the first file the section for debugging has a number for [log], which is text; in the second
    the default section has a port that is too large, spoken over by the first. *)
Definition sf_base : list (ustr * doc) :=
  [(lit "default", DocMap [(lit "port", DocInt I64 80)]);
   (lit "Debug", DocMap [(lit "port", DocInt I64 81); (lit "log", DocInt I64 7)])].
Definition sf_app : list (ustr * doc) := [(lit "default", DocMap [(lit "port", DocInt I64 70000)])].
Definition sf_run (vars : list (ustr * ustr)) (p : profile) : out figment :=
  match env_provider (env_global (env_prefixed (lit "app_"))) vars with
  | Ret pr =>
      fst (run (OpProvide st_loc Merge (serialized_provider (lit "Config") (sz_defaults (EVStruct st_defaults) st_loc)) ::
             map (fun lp => OpProvide (fst lp) Merge (snd lp)) [(st_loc, sg_pr sf_base); (st_loc, sg_pr sf_app)] ++
             [OpProvide st_loc Merge pr; OpSelect p]) fig_new 1)
  | _ => Panic
  end.
Definition sf_says (o : out figment) : option ustr :=
  match o with
  | Ret f => match extract Exact f st_type with Err e => Some (fmt_error (Some (lit "/etc/app/bin")) e) | Ok _ => None end
  | _ => None
  end.

Lemma sf_nested l : l = sf_base \/ l = sf_app -> nested_file ex_fs (sg_pr l) l.
Proof.
  intros L. exists (lit "TOML"), (fun _ => Ok (DocMap l)), (fun _ _ => lit "mistake"), (fun s => s), (lit "conf.toml").
  split; [|split].
  - destruct L as [-> | ->]; vm_compute; reflexivity.
  - right. exists (lit "/etc/app/conf.toml"), (lit "a"). split; [|split; reflexivity].
    destruct (C37_resolve ex_fs (lit "conf.toml") true) as (r & F & E).
    + exact (proj1 C37_ex_cwd).
    + replace (Some (lit "/etc/app/conf.toml")) with r; [exact F|]. rewrite (proj1 C37_ex) in E. congruence.
  - destruct L as [-> | ->]; intros k x J; cbn in J; repeat (destruct J as [J|J]; [injection J as <- <-|]); try destruct J;
      eexists; (split; [reflexivity|]); intros k' y J'; cbn in J'; repeat (destruct J' as [J'|J']; [injection J' as <- <-|]);
      try destruct J'; constructor; discriminate.
Qed.

(** All the hypotheses are met, and there is an error: the field [log]. *)
Example C91_ex : exists pr2 f c' e,
  Forall2 (fun lp l => nested_file ex_fs (snd lp) l) [(st_loc, sg_pr sf_base); (st_loc, sg_pr sf_app)] [sf_base; sf_app] /\
  env_provider (env_global (env_prefixed (lit "APP_"))) [] = Ret pr2 /\
  run (OpProvide st_loc Merge (serialized_provider (lit "Config") (sz_defaults (EVStruct st_defaults) st_loc)) ::
       map (fun lp => OpProvide (fst lp) Merge (snd lp)) [(st_loc, sg_pr sf_base); (st_loc, sg_pr sf_app)] ++
       [OpProvide st_loc Merge pr2; OpSelect (mkProfile (lit "DEBUG"))]) fig_new 1 = (Ret f, c') /\
  extract Exact f st_type = Err e /\ e_path e = [lit "log"] /\ e_kind e = KInvalidType (ASigned 7) (lit "a string") /\
  (exists fields, st_type = TStruct (lit "Config") (lit "Config") false fields /\
     exists who, first_misspoken (MConf Exact f) (lit "APP_") [] [sf_base; sf_app] (mkProfile (lit "DEBUG")) fields (lit "log") who [] (e_kind e)).
Proof.
  destruct st_meets as (R & HX & U & _ & _ & NW & _).
  assert (NF : Forall2 (fun lp l => nested_file ex_fs (snd lp) l) [(st_loc, sg_pr sf_base); (st_loc, sg_pr sf_app)] [sf_base; sf_app])
    by (constructor; [apply sf_nested; now left|]; constructor; [apply sf_nested; now right|constructor]).
  assert (ND : forall name s : ustr, In (name, s) [] -> ~ In dot name) by (intros ? ? []).
  assert (Z : exists pr2 f c' e,
    env_provider (env_global (env_prefixed (lit "APP_"))) [] = Ret pr2 /\
    run (OpProvide st_loc Merge (serialized_provider (lit "Config") (sz_defaults (EVStruct st_defaults) st_loc)) ::
         map (fun lp => OpProvide (fst lp) Merge (snd lp)) [(st_loc, sg_pr sf_base); (st_loc, sg_pr sf_app)] ++
         [OpProvide st_loc Merge pr2; OpSelect (mkProfile (lit "DEBUG"))]) fig_new 1 = (Ret f, c') /\
    extract Exact f st_type = Err e /\ e_path e = [lit "log"] /\ e_kind e = KInvalidType (ASigned 7) (lit "a string")).
  { do 4 eexists. split; [reflexivity|]. split; [reflexivity|]. split; [reflexivity|]. split; reflexivity. }
  destruct Z as (pr2 & f & c' & e & E2 & E3 & E4 & E5 & E6). exists pr2, f, c', e. repeat (split; [assumption|]).
  eexists. split; [reflexivity|].
  eapply (C91_source Exact _ _ _ st_defaults (lit "Config") st_loc st_loc st_loc ex_fs) in E4;
    [|exact R|exact HX|exact U|exact NF|exact NW|exact ND|exact E2|exact E3].
  destruct E4 as (n & who & q & EQ & FF & _). rewrite E5 in EQ. injection EQ as <- <-. eauto.
Qed.

(** What is said: with the profile as it was selected and not as the file has it; when the default profile
    is selected, the port that the section for debugging spoke over; a variable in place of that number. *)
Example C91_ex_text :
  sf_says (sf_run [] (mkProfile (lit "DEBUG"))) =
    Some (lit "invalid type: found signed int `7`, expected a string for key ""DEBUG.log"" in ../conf.toml TOML file") /\
  sf_says (sf_run [] p_default) =
    Some (lit "invalid value signed int `70000`, expected u16 for key ""default.port"" in ../conf.toml TOML file") /\
  sf_says (sf_run [(lit "App_Log", lit "[x]")] (mkProfile (lit "debug"))) =
    Some (lit "invalid type: found sequence, expected a string for key ""LOG"" in `APP_` environment variable(s)") /\
  sf_says (sf_run [(lit "App_Log", lit "x")] (mkProfile (lit "debug"))) = None.
Proof. repeat split; vm_compute; reflexivity. Qed.
