(** C85: the documented stack of sources, when something in it cannot be read: which field is
    complained about, why, and whose fault it is. *)
From Coq Require Import Ascii String ZArith NArith Bool Lia.
From Coq Require Import List.
From Verif Require Import Res BMap BMapProofs Str StrProofs Profile Tag Num Value Metadata Err Coalesce Figment De Ser Parse Path Data Doc Env Fmt Display.
From Verif Require Import SpecLookup SpecFigment SpecDe SpecExtract SpecValue SpecRt SpecInto SpecData SpecDoc SpecEnv SpecText SpecGives SpecRefuse SpecStack SpecDisplay SpecFault.
From Verif Require ProvProofs BlameProofs.
From Verif Require Import ValueProofs CoalesceProofs PriorityProofs ProfileProofs FigmentProofs DeProofs SerProofs MeaningProofs ExtractProofs
  EnvProofs EnvDataProofs DataProofs DocProofs BlindProofs OrderProofs LayersProofs StackProofs GivesProofs RefusalProofs FaultProofs PropsFile PropsStack.
From Verif Require MoreProofs PropsShown SpecShown IntoProofs.
Import ListNotations.

Lemma data_of_stamped t n q : data_of (retag_data t n) q = ProvProofs.retag_dict t q (data_of n q).
Proof. unfold data_of. rewrite ProvProofs.retag_data_get. destruct (get q n); reflexivity. Qed.

Lemma data_provided loc f p o c f' c' m n : f_value f = Ok m -> wf_profiles m -> pv_data p = Ok n -> wf_profiles n ->
  provide loc f p o c = (Ret f', c') ->
  exists m', f_value f' = Ok m' /\ wf_profiles m' /\
    forall q, data_of m' q = dcoalesce o (data_of m q) (ProvProofs.retag_dict (tag_new c PTDefault) q (data_of n q)).
Proof.
  intros Ef Wm HD Wn HP. apply provide_ret in HP. destruct HP as (_ & _ & ->).
  rewrite HD, Ef. cbn [f_value]. assert (Wr := ProvProofs.wf_retag_data (tag_new c PTDefault) n Wn).
  eexists. split; [reflexivity|]. split; [now apply ProvProofs.wf_pcoalesce|].
  intros q. rewrite data_of_pcoalesce by assumption. now rewrite data_of_stamped.
Qed.

(** The configuration the stack makes, with its tags. *)
Lemma stack_made nm id fields xs sname l0 l1 l2 l3 fnm parse mistake custom fs path l pr1 pre vars pr2 c f c' :
  let t := TStruct nm id false fields in
  restorable t -> inhabits t (EVStruct xs) -> Forall (fun nt => undivided (snd nt)) fields ->
  file_entries fs parse path l -> (forall k d, In (k, d) l -> plain_doc d) ->
  data_provider (doc_format fnm parse mistake custom) fs (data_file path) = Ret pr1 ->
  no_white pre -> (forall name s, In (name, s) vars -> ~ In dot name) ->
  env_provider (env_prefixed pre) vars = Ret pr2 ->
  run [OpProvide l0 Merge (serialized_provider sname (sz_defaults (EVStruct xs) l1));
       OpProvide l2 Merge pr1; OpProvide l3 Merge pr2] fig_new c = (Ret f, c') ->
  exists kept d0 d1 d2 E0 D,
    selects (survives true (mapped_key (FromPrefix pre) [])) vars kept /\ wf_dict E0 /\ dut E0 d0 /\ says l d1 /\
    env_fold kept [] = Ret d2 /\
    D = dcoalesce Merge (dcoalesce Merge E0 (ProvProofs.retag_dict (tag_new (c + 1) PTDefault) p_default d1))
          (ProvProofs.retag_dict (tag_new (c + 2) PTDefault) p_default d2) /\
    wf_dict D /\ merged f = Ok (VDict tag_default D) /\ f_profile f = p_default /\ (c + 2 < 2 ^ 62)%N /\
    (forall n t, In (n, t) fields -> restorable t /\ undivided t /\
       exists x v0, inhabits t x /\ serialize x = Ok v0 /\ get n d0 = Some v0) /\
    f_metadata f = insert (tag_new (c + 2) PTDefault) (md_with_location (pv_metadata pr2) l3)
                     (insert (tag_new (c + 1) PTDefault) (md_with_location (pv_metadata pr1) l2)
                       (insert (tag_new c PTDefault)
                          (md_with_location (pv_metadata (serialized_provider sname (sz_defaults (EVStruct xs) l1))) l0) [])).
Proof.
  intros t R HX U FE PL DP NW ND EP HR.
  destruct (file_layer _ _ _ _ _ _ _ _ FE PL DP) as (P1 & n1 & D1 & Wn1 & S1 & G1).
  assert (M1 : pv_metadata_map pr1 = None).
  { destruct (data_provider_ok (doc_format fnm parse mistake custom) fs (data_file path)) as (pr' & D' & _ & _ & _ & M).
    rewrite DP in D'. injection D' as <-. exact M. }
  change (env_prefixed pre) with (build_env (FromPrefix pre) []) in EP.
  assert (M2 := proj1 (env_provider_plain _ _ _ _ EP)). unfold env_provider in EP.
  destruct (env_data (build_env (FromPrefix pre) []) vars) as [n2| |] eqn:ED; try discriminate. cbn in EP.
  apply env_data_ret in ED. destruct ED as (kept & d2 & EI & KS & DK & EF & En2).
  change (ev_profile (build_env (FromPrefix pre) [])) with p_default in En2.
  assert (D2 : pv_data pr2 = Ok [(p_default, d2)]) by (injection EP as <-; subst n2; reflexivity).
  assert (P2 : pv_profile pr2 = None) by (injection EP as <-; reflexivity).
  cbn [run run_op] in HR.
  destruct (provide l0 fig_new (serialized_provider sname (sz_defaults (EVStruct xs) l1)) Merge c) as [[f1| |] c1] eqn:E1; try discriminate.
  destruct (provide l2 f1 pr1 Merge c1) as [[f2| |] c2] eqn:E2; try discriminate.
  destruct (provide l3 f2 pr2 Merge c2) as [[f3| |] c3] eqn:E3; try discriminate.
  injection HR as -> ->.
  destruct (serialized_extracts Exact t (EVStruct xs) R HX) as (v & Hs & _).
  assert (W00 : wf_profiles []) by (split; [exact I|constructor]).
  assert (Hs' := Hs). cbn [serialize] in Hs'. apply res_map_ok in Hs'. destruct Hs' as (vs & EV & Ev). unfold map_end in Ev.
  destruct (serialized_provide _ _ _ _ _ fig_new [] _ _ _ v Hs eq_refl W00 E1) as [(t0 & d0 & m1 & Evd & Wd & Hf1 & Wm1 & HU1)|[H _]];
    [|exfalso; now apply (H tag_default (collect vs))].
  assert (d0 = collect vs) by congruence. subst d0.
  destruct (data_provided _ _ _ _ _ _ _ m1 n1 Hf1 Wm1 D1 Wn1 E2) as (m2 & Hf2 & Wm2 & HU2).
  destruct (env_fold_leaves kept DK [] d2 EF wf_dict_nil) as [Wd2 _].
  assert (Wn2 : wf_profiles [(p_default, d2)]) by (split; [cbn; auto|constructor; [exact Wd2|constructor]]).
  destruct (data_provided _ _ _ _ _ _ _ m2 [(p_default, d2)] Hf2 Wm2 D2 Wn2 E3) as (m3 & Hf3 & Wm3 & HU3).
  assert (HE0 : dut (data_of m1 p_default) (collect vs)).
  { eapply OrderProofs.dut_trans; [apply HU1|]. cbn [data_of get]. rewrite dcoalesce_nil_l by apply Wd. apply dut_refl. }
  assert (HG : data_of m3 p_global = []).
  { assert (Z := HU1 p_global). change (data_of [(p_default, collect vs)] p_global) with ([] : dict) in Z. cbn in Z. inversion Z as [E0|].
    rewrite HU3, HU2, G1, <- E0. reflexivity. }
  assert (K : c1 = (c + 1)%N /\ c2 = (c + 2)%N /\ (c + 2 < 2 ^ 62)%N).
  { apply provide_ret in E1, E2, E3. destruct E1 as (_ & -> & _), E2 as (_ & -> & _), E3 as (L & _ & _).
    replace (c + 1 + 1)%N with (c + 2)%N in * by lia. auto. }
  destruct K as (-> & -> & L3).
  apply provide_ret in E1, E2, E3. destruct E1 as (_ & _ & F1), E2 as (_ & _ & F2), E3 as (_ & _ & F3).
  assert (PF : f_profile f = p_default).
  { rewrite F3. cbn [f_profile]. rewrite P2, F2. cbn [f_profile]. rewrite P1, F1. reflexivity. }
  assert (EM : merged f = Ok (VDict tag_default (data_of m3 p_default))).
  { rewrite (merged_ok3 f m3 Hf3 Wm3). do 2 f_equal. unfold selected_of. rewrite PF, HG.
    change (is_custom p_default) with false. cbv iota.
    assert (Wd3 := data_of_wf m3 p_default Wm3). unfold dmerge. rewrite (dcoalesce_nil_r _ (dcoalesce _ _ _)) by apply dcoalesce_sorted. now rewrite dcoalesce_nil_r by apply Wd3. }
  cbn [t restorable] in R. destruct R as (R1 & R2 & R3).
  inversion HX as [| | | | | | | | | | | | |? ? ? ? l' Hl| | | | | | | | | | | | | | |]; subst l' .
  assert (DA := defaults_at fields R2 xs vs Hl EV).
  exists kept, (collect vs), (data_of n1 p_default), d2, (data_of m1 p_default), (data_of m3 p_default).
  split; [exact KS|]. split; [exact (data_of_wf m1 p_default Wm1)|]. split; [exact HE0|]. split; [exact S1|]. split; [exact EF|].
  split; [rewrite HU3, HU2; reflexivity|]. split; [exact (data_of_wf m3 p_default Wm3)|]. split; [exact EM|].
  split; [exact PF|]. split; [exact L3|]. split.
  - intros fn T IN. split; [exact (all_In _ _ _ R3 IN)|]. split; [rewrite Forall_forall in U; exact (U _ IN)|].
    clear - DA IN. induction DA as [|[a u] [b x] fs xs (E & HX & v & A & B) F IH]; [destruct IN|].
    destruct IN as [E'|IN]; [|auto]. injection E' as -> ->. cbn in *. eauto.
  - rewrite F3. cbn [f_metadata]. rewrite M2, F2. cbn [f_metadata]. rewrite M1, F1. reflexivity.
Qed.

(** Extraction fails exactly when the last word on some field, be it a variable's or the file's,
    cannot be read; it complains of the first such field in the order of the names, by a path
    that begins with its name. *)
Theorem C85_fault : forall i nm id fields xs sname l0 l1 l2 l3 fnm parse mistake custom fs path l pr1 pre vars pr2 c f c' p k,
  let t := TStruct nm id false fields in
  restorable t -> inhabits t (EVStruct xs) -> Forall (fun nt => undivided (snd nt)) fields ->
  file_entries fs parse path l -> (forall k d, In (k, d) l -> plain_doc d) ->
  data_provider (doc_format fnm parse mistake custom) fs (data_file path) = Ret pr1 ->
  no_white pre -> (forall name s, In (name, s) vars -> ~ In dot name) ->
  env_provider (env_prefixed pre) vars = Ret pr2 ->
  run [OpProvide l0 Merge (serialized_provider sname (sz_defaults (EVStruct xs) l1));
       OpProvide l2 Merge pr1; OpProvide l3 Merge pr2] fig_new c = (Ret f, c') ->
  (exists e, extract i f t = Err e /\ e_path e = p /\ e_kind e = k) <->
  (exists n who q, p = n :: q /\ first_faulty (MConf i f) pre vars l fields n who q k).
Proof.
  intros i nm id fields xs sname l0 l1 l2 l3 fnm parse mistake custom fs path l pr1 pre vars pr2 c f c' p k t
    R HX U FE PL DP NW ND EP HR.
  destruct (stack_made _ _ _ _ _ _ _ _ _ _ _ _ _ _ _ _ _ _ _ _ _ _ _ R HX U FE PL DP NW ND EP HR)
    as (kept & d0 & d1 & d2 & E0 & D & KS & W0 & U0 & S1 & EF & HD & WD & EM & PF & L3 & RF & MD).
  destruct (restorable_ordinary t R) as [_ N]. unfold extract. rewrite EM. cbn [res_bind].
  rewrite (refuses_told i f t _ p k (proj2 (wf_VDict _ _) WD) N).
  rewrite <- (fields_faulty i f pre vars kept l d0 d1 d2 E0 D _ _ NW ND KS W0 U0 S1 PL EF HD WD fields RF).
  cbn [t refuses]. fold (fparts i f fields). destruct R as (R1 & R2 & R3). split.
  - intros (w & PR & H). inversion PR; subst; try (exfalso; apply R1; cbn; tauto).
    destruct H as [(g & d & E & H)|[(g & a & E & _)|(NDi & _)]].
    + injection E as <- <-. exact H.
    + discriminate.
    + exfalso. apply NDi. do 2 eexists. reflexivity.
  - intros H. eexists. split; [apply pr_usual; exact R1|]. left. do 2 eexists. split; [reflexivity|exact H].
Qed.
Print Assumptions C85_fault.

Lemma nearest_last vs (u v : value) g h : nearest vs g -> last vs u = v -> vs <> [] -> vtag v = h -> h <> tag_default -> g = h.
Proof.
  intros N L NE V HT. destruct (exists_last NE) as (r & x & ->). rewrite last_last in L. subst x.
  destruct N as [(a & x & b & E & T & _ & F)|(-> & F)].
  - destruct b as [|y b].
    + apply app_inj_tail in E. destruct E as [_ <-]. congruence.
    + destruct (exists_last (l := y :: b)) as (b' & z & Ez); [discriminate|]. rewrite Ez in E, F.
      change (a ++ x :: b' ++ [z]) with (a ++ (x :: b') ++ [z]) in E. rewrite app_assoc in E. apply app_inj_tail in E.
      destruct E as [_ <-]. apply Forall_app in F. destruct F as [_ F]. inversion F; subst. congruence.
  - apply Forall_app in F. destruct F as [_ F]. inversion F; subst. congruence.
Qed.

Lemma last_any {A} (l : list A) a b : l <> [] -> last l a = last l b.
Proof. induction l as [|x [|y r] IH]; [congruence|reflexivity|]. intros _. apply IH. discriminate. Qed.
Lemma trail_tags p v vs g : trail p v vs -> wf v -> all_tags (eq g) v -> vtag (last vs v) = g.
Proof. intros T W A. destruct (trail_reach _ _ _ T W) as (sp & _ & R). symmetry. exact (A _ _ R). Qed.

(** The error names the source of that last word: the environment when it is a variable's, the
    file when it is the file's; never the defaults. *)
Theorem C85_source : forall i nm id fields xs sname l0 l1 l2 l3 fnm parse mistake custom fs path l pr1 pre vars pr2 c f c' e,
  let t := TStruct nm id false fields in
  restorable t -> inhabits t (EVStruct xs) -> Forall (fun nt => undivided (snd nt)) fields ->
  file_entries fs parse path l -> (forall k d, In (k, d) l -> plain_doc d) ->
  data_provider (doc_format fnm parse mistake custom) fs (data_file path) = Ret pr1 ->
  no_white pre -> (forall name s, In (name, s) vars -> ~ In dot name) ->
  env_provider (env_prefixed pre) vars = Ret pr2 ->
  run [OpProvide l0 Merge (serialized_provider sname (sz_defaults (EVStruct xs) l1));
       OpProvide l2 Merge pr1; OpProvide l3 Merge pr2] fig_new c = (Ret f, c') ->
  extract i f t = Err e ->
  exists n who q, e_path e = n :: q /\ first_faulty (MConf i f) pre vars l fields n who q (e_kind e) /\
    e_profile e = Some p_default /\ e_prev e = None /\
    e_metadata e = Some (match who with
                         | ByVariable => md_with_location (pv_metadata pr2) l3
                         | ByFile => md_with_location (pv_metadata pr1) l2
                         end).
Proof.
  intros i nm id fields xs sname l0 l1 l2 l3 fnm parse mistake custom fs path l pr1 pre vars pr2 c f c' e t
    R HX U FE PL DP NW ND EP HR He.
  assert (X := proj1 (C85_fault i nm id fields xs sname l0 l1 l2 l3 fnm parse mistake custom fs path l pr1 pre vars pr2 c f c'
                        (e_path e) (e_kind e) R HX U FE PL DP NW ND EP HR)).
  destruct X as (n & who & q & EP' & FF); [exists e; auto|]. exists n, who, q. split; [exact EP'|]. split; [exact FF|].
  destruct (stack_made _ _ _ _ _ _ _ _ _ _ _ _ _ _ _ _ _ _ _ _ _ _ _ R HX U FE PL DP NW ND EP HR)
    as (kept & d0 & d1 & d2 & E0 & D & KS & W0 & U0 & S1 & EF & HD & WD & EM & PF & L3 & RF & MD).
  destruct (restorable_ordinary t R) as [O _].
  assert (WV : wf (VDict tag_default D)) by now apply wf_VDict.
  destruct (extract_pinpoints i f _ t e EM WV O He) as [(vs & x & TR & LX & NE & _) PM PP PV].
  destruct FF as [(T & IN & FN) _]. destruct (RF _ _ IN) as (RT & UT & x0 & v0 & HX0 & Hs0 & G0).
  destruct (field_faulty i f pre vars kept l d0 d1 d2 E0 D (tag_new (c + 1) PTDefault) (tag_new (c + 2) PTDefault)
              NW ND KS W0 U0 S1 PL EF HD WD n T x0 v0 RT UT HX0 Hs0 G0) as (w & G & HF & HT).
  destruct (HT _ _ _ FN) as [v TV]. assert (RW := proj2 (HF _ _) (ex_intro _ who FN)).
  assert (W := get_wf _ _ _ WD G). clear HD.
  set (g := mark (tag_new (c + 1) PTDefault) (tag_new (c + 2) PTDefault) who) in *.
  assert (IDG : metadata_id g = match who with ByVariable => c + 2 | ByFile => c + 1 end%N).
  { unfold g, mark. destruct who; rewrite metadata_id_for_profile; apply ProvProofs.metadata_id_new_small; lia. }
  assert (ND0 : g <> tag_default).
  { intros E. rewrite E in IDG. change (metadata_id tag_default) with 0%N in IDG. destruct who; lia. }
  assert (TG : e_tag e = g).
  { rewrite EP' in TR. inversion TR as [|k ks v' cc vs' CH TR']; subst.
    inversion CH as [? ? ? ? Iw|]; subst.
    assert (cc = w) by (assert (Z := In_get _ _ _ (proj1 WD) Iw); congruence). subst cc.
    destruct (BlameProofs.trail_head _ _ _ TR') as [r ->].
    eapply (nearest_last _ (VDict tag_default D)); [exact NE|reflexivity|discriminate| |exact ND0].
    cbn [last]. change (match r with [] => w | _ :: _ => last r (VDict tag_default D) end) with (last (w :: r) (VDict tag_default D)).
    destruct TV as [[_ A]|(t' & dd & dd' & -> & ->)].
    - rewrite <- (trail_tags _ _ _ _ TR' W A). f_equal. apply last_any. discriminate.
    - eapply (refuses_dict _ T g dd g dd) in RW; [|exact UT]. destruct RW as [-> _]. inversion TR'; subst. reflexivity. }
  split.
  { rewrite PP, TG. unfold g, mark. destruct who; unfold tag_profile, for_profile; rewrite profile_tag_new; reflexivity. }
  split; [exact PV|]. rewrite PM, TG, MD, !get_insert.
  assert (C2 : metadata_id (tag_new (c + 2) PTDefault) = (c + 2)%N) by (apply ProvProofs.metadata_id_new_small; lia).
  assert (C1 : metadata_id (tag_new (c + 1) PTDefault) = (c + 1)%N) by (apply ProvProofs.metadata_id_new_small; lia).
  destruct who.
  - rewrite (proj2 (cmp_tag_eq g (tag_new (c + 2) PTDefault))) by congruence. reflexivity.
  - destruct (cmp g (tag_new (c + 2) PTDefault)) eqn:E.
    + apply cmp_tag_eq in E. lia.
    + rewrite (proj2 (cmp_tag_eq g (tag_new (c + 1) PTDefault))) by congruence. reflexivity.
    + rewrite (proj2 (cmp_tag_eq g (tag_new (c + 1) PTDefault))) by congruence. reflexivity.
Qed.
Print Assumptions C85_source.

(** The text of the error: the complaint; the path, in capitals for a variable and under
    "default" for the file; and the prefix or the file. *)
Theorem C85_text : forall cwd i nm id fields xs sname l0 l1 l2 l3 fnm parse mistake custom fs path l pr1 pre vars pr2 c f c' e,
  let t := TStruct nm id false fields in
  restorable t -> inhabits t (EVStruct xs) -> Forall (fun nt => undivided (snd nt)) fields ->
  file_entries fs parse path l -> (forall k d, In (k, d) l -> plain_doc d) ->
  data_provider (doc_format fnm parse mistake custom) fs (data_file path) = Ret pr1 ->
  no_white pre -> (forall name s, In (name, s) vars -> ~ In dot name) ->
  env_provider (env_prefixed pre) vars = Ret pr2 ->
  run [OpProvide l0 Merge (serialized_provider sname (sz_defaults (EVStruct xs) l1));
       OpProvide l2 Merge pr1; OpProvide l3 Merge pr2] fig_new c = (Ret f, c') ->
  extract i f t = Err e ->
  exists n who q, e_path e = n :: q /\ first_faulty (MConf i f) pre vars l fields n who q (e_kind e) /\
    match who with
    | ByVariable => exists ks pre', Forall2 (Forall2 SpecShown.capital) (n :: q) ks /\ Forall2 SpecShown.capital pre pre' /\
        fmt_error cwd e = fmt_kind (e_kind e) ++ lit " for key " ++ fmt_debug_str (join (lit ".") ks) ++
          lit " in `" ++ pre' ++ lit "` environment variable(s)"
    | ByFile => exists found, finds fs path true (Some found) /\
        fmt_error cwd e = fmt_kind (e_kind e) ++ lit " for key " ++ fmt_debug_str (lit "default." ++ join (lit ".") (n :: q)) ++
          lit " in " ++ fmt_source cwd (SFile found) ++ lit " " ++ fnm ++ lit " file"
    end.
Proof.
  intros cwd i nm id fields xs sname l0 l1 l2 l3 fnm parse mistake custom fs path l pr1 pre vars pr2 c f c' e t
    R HX U FE PL DP NW ND EP HR He.
  destruct (C85_source i nm id fields xs sname l0 l1 l2 l3 fnm parse mistake custom fs path l pr1 pre vars pr2 c f c' e
              R HX U FE PL DP NW ND EP HR He) as (n & who & q & EQ & FF & PP & PV & PM).
  assert (NP : e_path e <> []) by (rewrite EQ; discriminate).
  exists n, who, q. split; [exact EQ|]. split; [exact FF|]. rewrite <- EQ. destruct who.
  - assert (M2 : pv_metadata pr2 = env_metadata (env_prefixed pre)).
    { unfold env_provider in EP. destruct (env_data (env_prefixed pre) vars); try discriminate. cbn in EP. injection EP as <-. reflexivity. }
    rewrite M2 in PM.
    destruct (PropsShown.C54_env cwd e (env_prefixed pre) _ p_default PV PM PP NP) as (ks & px & K & PX & F); [right; eauto|].
    change (ev_prefix (env_prefixed pre)) with (Some pre) in PX. destruct PX as (pre' & C & ->). exists ks, pre'.
    split; [exact K|]. split; [exact C|]. rewrite F. f_equal. f_equal. f_equal. cbn [app lit]. rewrite <- !app_assoc. reflexivity.
  - assert (FX : exists found, finds fs path true (Some found)).
    { destruct FE as [[_ ->]|(found & text & F & _)]; [|eauto]. exfalso. destruct FF as [(T & IN & v & S & _) _].
      inversion S as [|d ? ? G]; subst. apply IntoProofs.given_In in G. destruct G. }
    destruct FX as [found FX]. exists found. split; [exact FX|].
    destruct (C37_metadata (doc_format fnm parse mistake custom) fs path false true (Some p_default) found (finds_resolve _ _ _ _ FX))
      as (pr' & DP' & MS & MN & _).
    unfold data_file in DP. rewrite DP' in DP. injection DP as ->.
    assert (MI : md_interpolater (pv_metadata pr1) = default_interpolater).
    { unfold data_provider, data_metadata in DP'. cbn [da_source] in DP'. rewrite (finds_resolve _ _ _ _ FX) in DP'. cbn [out_map out_bind] in DP'.
      match type of DP' with context [data_data ?a ?b ?x] => destruct (data_data a b x); try discriminate end.
      cbn in DP'. injection DP' as <-. reflexivity. }
    rewrite (proj2 (proj2 (MoreProofs.fmt_report cwd e PV)) _ _ PM PP NP). unfold origin, md_with_location. cbn [md_interpolater md_source md_name].
    rewrite MI, MS, MN. cbn [fm_name doc_format]. rewrite <- !app_assoc. reflexivity.
Qed.
Print Assumptions C85_text.

(** ** Examples *)
(** The file has a number for [log]; the variables a word for [port] and a list with a number. *)
Definition fa_fields : list (ustr * doc) := [(lit "port", DocInt I64 8080); (lit "log", DocInt I64 7)].
Definition fa_parse : ustr -> res ustr doc := fun _ => Ok (DocMap fa_fields).
Definition fa_format : format := doc_format (lit "TOML") fa_parse (fun _ _ => lit "mistake") (fun s => s).
Definition fa_vars : list (ustr * ustr) :=
  [(lit "APP_PORT", lit "9000"); (lit "App_tags", lit "[a, 1]"); (lit "app_port", lit "word")].
(** With a variable for [log] as well, only the variables are at fault. *)
Definition fa_vars2 : list (ustr * ustr) := fa_vars ++ [(lit "APP_LOG", lit "debug")].
Definition fa_run (vars : list (ustr * ustr)) : out figment :=
  match data_provider fa_format ex_fs (data_file (lit "conf.toml")), env_provider (env_prefixed (lit "APP_")) vars with
  | Ret pr1, Ret pr2 =>
      fst (run [OpProvide st_loc Merge (serialized_provider (lit "Config") (sz_defaults (EVStruct st_defaults) st_loc));
                OpProvide st_loc Merge pr1; OpProvide st_loc Merge pr2] fig_new 1)
  | _, _ => Panic
  end.

Lemma fa_meets : file_entries ex_fs fa_parse (lit "conf.toml") fa_fields /\ (forall k d, In (k, d) fa_fields -> plain_doc d) /\
  (forall name s, In (name, s) fa_vars -> ~ In dot name) /\ (forall name s, In (name, s) fa_vars2 -> ~ In dot name).
Proof.
  split; [|split; [|split]].
  - right. exists (lit "/etc/app/conf.toml"), (lit "a"). split; [|split; reflexivity].
    destruct (C37_resolve ex_fs (lit "conf.toml") true (proj1 C37_ex_cwd)) as (r & F & E).
    replace (Some (lit "/etc/app/conf.toml")) with r; [exact F|]. rewrite (proj1 C37_ex) in E. congruence.
  - intros k d [H|[H|[]]]; injection H as <- <-; constructor; discriminate.
  - intros name s I. cbn in I. repeat (destruct I as [I|I]; [injection I as <- <-; cbn; intuition discriminate|]). destruct I.
  - intros name s I. cbn in I. repeat (destruct I as [I|I]; [injection I as <- <-; cbn; intuition discriminate|]). destruct I.
Qed.

Example C85_ex : exists pr1 pr2 f c' e,
  data_provider fa_format ex_fs (data_file (lit "conf.toml")) = Ret pr1 /\
  env_provider (env_prefixed (lit "APP_")) fa_vars = Ret pr2 /\
  run [OpProvide st_loc Merge (serialized_provider (lit "Config") (sz_defaults (EVStruct st_defaults) st_loc));
       OpProvide st_loc Merge pr1; OpProvide st_loc Merge pr2] fig_new 1 = (Ret f, c') /\
  extract Exact f st_type = Err e /\
  e_path e = [lit "log"] /\ e_kind e = KInvalidType (ASigned 7) (lit "a string") /\
  (exists fields, st_type = TStruct (lit "Config") (lit "Config") false fields /\
     exists who, first_faulty (MConf Exact f) (lit "APP_") fa_vars fa_fields fields (lit "log") who [] (e_kind e)).
Proof.
  destruct st_meets as (R & HX & U & _ & _ & NW & _). destruct fa_meets as (FE & PL & ND & _).
  assert (Z : exists pr1 pr2 f c' e,
    data_provider fa_format ex_fs (data_file (lit "conf.toml")) = Ret pr1 /\
    env_provider (env_prefixed (lit "APP_")) fa_vars = Ret pr2 /\
    run [OpProvide st_loc Merge (serialized_provider (lit "Config") (sz_defaults (EVStruct st_defaults) st_loc));
         OpProvide st_loc Merge pr1; OpProvide st_loc Merge pr2] fig_new 1 = (Ret f, c') /\
    extract Exact f st_type = Err e /\ e_path e = [lit "log"] /\ e_kind e = KInvalidType (ASigned 7) (lit "a string")).
  { do 5 eexists. split; [reflexivity|]. split; [reflexivity|]. split; [reflexivity|]. split; [reflexivity|]. split; reflexivity. }
  destruct Z as (pr1 & pr2 & f & c' & e & E1 & E2 & E3 & E4 & E5 & E6). exists pr1, pr2, f, c', e. repeat (split; [assumption|]).
  eexists. split; [reflexivity|].
  eapply (C85_source Exact _ _ _ st_defaults (lit "Config") st_loc st_loc st_loc st_loc (lit "TOML")) in E4;
    [|exact R|exact HX|exact U|exact FE|exact PL|exact E1|exact NW|exact ND|exact E2|exact E3].
  destruct E4 as (n & who & q & EQ & FF & _). rewrite E5 in EQ. injection EQ as <- <-. eauto.
Qed.

(** What the two errors say. *)
Definition fa_says (vars : list (ustr * ustr)) : option ustr :=
  match fa_run vars with
  | Ret f => match extract Exact f st_type with Err e => Some (fmt_error (Some (lit "/etc/app/bin")) e) | Ok _ => None end
  | _ => None
  end.
Example C85_ex_text :
  fa_says fa_vars = Some (lit "invalid type: found signed int `7`, expected a string for key ""default.log"" in ../conf.toml TOML file") /\
  fa_says fa_vars2 = Some (lit "invalid type: found string ""word"", expected u16 for key ""PORT"" in `APP_` environment variable(s)").
Proof. split; vm_compute; reflexivity. Qed.
