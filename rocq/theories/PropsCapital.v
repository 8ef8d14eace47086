(** C90: keys with capital letters are out of the environment's reach. *)
From Coq Require Import Ascii String ZArith NArith Bool Lia.
From Coq Require Import List.
From Verif Require Import Res BMap BMapProofs Str StrProofs Profile Tag Num Value Metadata Err Coalesce Parse Env Figment De.
From Verif Require Import SpecValue SpecFigment SpecPriority SpecLookup SpecParse SpecStuck SpecEnv SpecEnvData SpecRt SpecBlind SpecFrame SpecCapital.
From Verif Require Import ValueProofs CoalesceProofs FigmentProofs FigmentProofs2 LookupProofs ParseProofs3 StuckProofs EnvProofs EnvDataProofs
  ProvProofs PriorityProofs BlindProofs FrameProofs PropsEnv PropsEnvData PropsFrame.
Import ListNotations.

Lemma lower_no_capital k : lower k = k -> ~ has_capital k.
Proof.
  unfold lower. induction k as [|c k IH]; intros E (x & HI & HC); [destruct HI|].
  cbn in E. injection E as E1 E2. destruct HI as [->|HI]; [|apply IH; [exact E2|now exists x]].
  unfold lower_c, capital_letter in *. destruct ((65 <=? x)%N && (x <=? 90)%N) eqn:B; [lia|].
  apply andb_false_iff in B. destruct B as [B|B]; apply N.leb_gt in B; lia.
Qed.

Lemma capital_in_join ks k : In k ks -> has_capital k -> has_capital (join [dot] ks).
Proof.
  induction ks as [|a ks IH]; intros HI HC; [destruct HI|].
  assert (J : exists r, join [dot] (a :: ks) = a ++ r /\ (ks <> [] -> exists r', r = dot :: join [dot] ks /\ r' = r)).
  { destruct ks as [|b ks]; [exists []; split; [symmetry; apply app_nil_r|congruence]|]. eexists. split; [reflexivity|]. intros _. eexists. split; reflexivity. }
  destruct J as (r & -> & J). destruct HI as [->|HI].
  - destruct HC as (c & HI & HC). exists c. split; [|exact HC]. apply in_or_app. now left.
  - destruct (IH HI HC) as (c & HI' & HC'). exists c. split; [|exact HC']. apply in_or_app. right.
    destruct J as (_ & -> & _); [intros ->; destruct HI|]. now right.
Qed.

(** Of the keys a variable's name leads to, none has a capital letter; the keys in the dictionary
    that a variable's text is may have some. *)
Theorem C90_leaves : forall s ops vars m, ev_lowercase (build_env s ops) = true ->
  env_data (build_env s ops) vars = Ret m ->
  exists d, m = [(ev_profile (build_env s ops), d)] /\
    (forall k, In k (keys d) -> ~ has_capital k) /\
    (forall p x, leaf_at p (VDict tag_default d) x -> exists ks r text y,
       p = ks ++ r /\ ks <> [] /\ (forall k, In k ks -> ~ has_capital k) /\
       (exists name, In (name, text) vars) /\ value_from_str text = Ret y /\ leaf_at r y x).
Proof.
  intros s ops vars m HL HD. destruct (env_data_ret _ _ _ _ HD) as (kept & d & EI & HS & HF & EF & ->).
  exists d. split; [reflexivity|].
  assert (HK : forall k v, In (k, v) kept -> forall ks, k = join [dot] ks -> forall q, In q ks -> ~ has_capital q).
  { intros k v HI ks -> q Hq HC. destruct (C31_keys s ops vars kept _ v EI HI) as (_ & _ & L & _).
    apply (lower_no_capital _ (L HL)). eapply capital_in_join; eassumption. }
  split.
  - assert (G : forall items d0 d1, incl items kept -> env_fold items d0 = Ret d1 -> wf_dict d0 ->
      (forall k, In k (keys d0) -> ~ has_capital k) -> forall k, In k (keys d1) -> ~ has_capital k).
    { induction items as [|[k v] items IH]; intros d0 d1 HI E W H0; cbn [env_fold] in E; [now injection E as <-|].
      destruct (value_from_str v) as [y| |] eqn:Ev; try discriminate. cbn [out_bind] in E.
      destruct (as_dict (nest k y)) as [n|] eqn:En; [|discriminate].
      assert (HIk : In (k, v) kept) by (apply HI; now left).
      assert (Dk : dotted k) by (rewrite Forall_forall in HF; exact (HF _ HIk)).
      destruct (nested_dict k v y n Dk Ev En) as (ks & (N0 & P & K & _) & En'). cbn [fst] in K.
      assert (Wn : wf_dict n).
      { apply (wf_VDict tag_default). rewrite <- En'. apply wf_nest_keys. now apply (value_from_str_wf v). }
      assert (Kn : forall q, In q (keys n) -> In q ks).
      { destruct ks as [|q0 ks]; [congruence|]. cbn [nest_keys] in En'.
        destruct (is_nil q0) eqn:Z; [destruct q0; [|discriminate]; inversion P as [|? ? [P1 _] _]; congruence|].
        injection En' as <-. cbn. tauto. }
      apply (IH (dmerge d0 n) d1); [intros x Hx; apply HI; now right|exact E|now apply wf_dmerge|].
      intros q Hq. unfold dmerge in Hq. apply in_map_iff in Hq. destruct Hq as ([q' x] & Eq & Hq). cbn in Eq. subst q'.
      apply In_get in Hq; [|apply dcoalesce_sorted]. rewrite dcoalesce_get in Hq by (apply W || apply Wn).
      destruct (get q d0) as [z|] eqn:E0.
      - apply H0. destruct (get_In _ _ _ E0) as (q' & C & HIq). apply cmp_leibniz in C. subst q'. exact (in_map fst _ _ HIq).
      - destruct (get q n) as [z|] eqn:E1; [|discriminate Hq]. apply (HK k v HIk ks K). apply Kn.
        destruct (get_In _ _ _ E1) as (q' & C & HIq). apply cmp_leibniz in C. subst q'. exact (in_map fst _ _ HIq). }
    apply (G kept [] d); [apply incl_refl|exact EF|apply wf_dict_nil|intros k []].
  - intros p x HP. destruct (C63_leaves _ _ _ _ HD) as (kept' & d' & EI' & Ed & _ & HLf).
    rewrite EI in EI'. injection EI' as <-. injection Ed as <-. apply HLf in HP.
    destruct HP as (b & var & a & -> & (ks & y & r & (N0 & P & K & V) & -> & L) & _).
    destruct var as [k text]. cbn [fst snd] in *.
    assert (HI : In (k, text) (b ++ (k, text) :: a)) by (apply in_or_app; right; now left).
    exists ks, r, text, y. split; [reflexivity|]. split; [exact N0|]. split; [exact (HK k text HI ks K)|].
    split; [|split; [exact V|exact L]]. exact (proj2 (proj2 (proj2 (C31_keys s ops vars _ k text EI HI)))).
Qed.
Print Assumptions C90_leaves.

(** So whatever is under a key with a capital letter stays as it is, however the variables are
    combined with a Figment: what is found there, and what is extracted from there. *)
Theorem C90_untouched : forall H f v s ops vars pr loc o c f' c' n ks,
  reachable H f -> merged f = Ok v -> ev_lowercase (build_env s ops) = true ->
  env_provider (build_env s ops) vars = Ret pr -> provide loc f pr o c = (Ret f', c') ->
  Forall plain_key (n :: ks) -> has_capital n ->
  find_value f' (join [dot] (n :: ks)) = find_value f (join [dot] (n :: ks)) /\
  forall i t, unreserved t ->
    seen forget (extract_inner i f' t (join [dot] (n :: ks))) = seen forget (extract_inner i f t (join [dot] (n :: ks))).
Proof.
  intros H f v s ops vars pr loc o c f' c' n ks HR HM HL HE HP K HC.
  assert (EF : find_value f' (join [dot] (n :: ks)) = find_value f (join [dot] (n :: ks))).
  { destruct (C63_provider _ _ _ _ HE) as (Pl & HQ & _ & md & HD & HD').
    destruct (C90_leaves s ops vars md HL HD) as (d & -> & HK & _).
    destruct (C63_leaves _ _ _ _ HD) as (_ & d' & _ & Ed & Wd & _). injection Ed as <-.
    apply provide_ret in HP. destruct HP as (_ & _ & E). rewrite HQ, HD' in E.
    destruct (f_value f) as [m|e] eqn:Ev; [|rewrite (merged_err f e Ev) in HM; discriminate].
    destruct (reachable_data_tagged _ _ _ HR Ev) as [Wm _].
    set (nm := [(ev_profile (build_env s ops), d)]) in *.
    assert (Wn : wf_profiles nm).
    { repeat split; auto. constructor; [exact Wd|constructor]. }
    assert (Wr := wf_retag_data (tag_new c PTDefault) nm Wn).
    assert (Wp := wf_pcoalesce o m _ Wm Wr).
    assert (Ev' : f_value f' = Ok (pcoalesce o m (retag_data (tag_new c PTDefault) nm))) by now subst f'.
    assert (Ef' : f_profile f' = f_profile f) by now subst f'.
    assert (HN : forall q, get n (data_of (retag_data (tag_new c PTDefault) nm) q) = None).
    { intros q. unfold data_of. rewrite retag_data_get. destruct (get q nm) as [d0|] eqn:Ed; cbn; [|reflexivity].
      unfold retag_dict.
      rewrite (get_map_values (fun _ x => map_tag (fun _ => for_profile (tag_new c PTDefault) q) x)) by reflexivity.
      destruct (get_In _ _ _ Ed) as (q' & _ & Hin). destruct Hin as [Hin|[]]. injection Hin as _ <-.
      destruct (get n d) as [z|] eqn:Ez; [|reflexivity]. exfalso. apply (HK n); [|exact HC].
      destruct (get_In _ _ _ Ez) as (n' & C & HI). apply cmp_leibniz in C. subst n'. exact (in_map fst _ _ HI). }
    assert (HG : forall q, get n (data_of (pcoalesce o m (retag_data (tag_new c PTDefault) nm)) q) = get n (data_of m q)).
    { intros q. rewrite data_of_pcoalesce by assumption.
      rewrite dcoalesce_get by (apply data_of_wf; assumption). rewrite (HN q). unfold opt_combine.
      now destruct (get n (data_of m q)). }
    assert (Wdm := fun q => data_of_wf _ q Wm). assert (Wdp := fun q => data_of_wf _ q Wp).
    assert (Ws := selected_wf f _ Wm). assert (Ws' := selected_wf f' _ Wp).
    assert (S : spells (join [dot] (n :: ks)) (n :: ks)) by (split; auto).
    unfold find_value. rewrite (merged_ok3 f m Ev Wm), (merged_ok3 f' _ Ev' Wp).
    rewrite !(vfind_spec _ _ _ S). cbn [at_path].
    match goal with |- context [match get n ?a with _ => _ end] =>
      match goal with |- _ = match (match get n ?b with _ => _ end) with _ => _ end => assert (EG : get n a = get n b) end end.
    { unfold dmerge. rewrite !dcoalesce_get by (try apply dcoalesce_sorted; apply Wdm || apply Wdp || apply Ws || apply Ws').
      rewrite !HG.
      assert (HSel : get n (selected_of f' (pcoalesce o m (retag_data (tag_new c PTDefault) nm))) = get n (selected_of f m)).
      { unfold selected_of. rewrite Ef'. destruct (is_custom (f_profile f)); [now apply HG|reflexivity]. }
      now rewrite HSel. }
    now rewrite EG. }
  split; [exact EF|]. intros i t U. apply agree_seen. unfold extract_inner. rewrite EF.
  destruct (find_value f (join [dot] (n :: ks))) as [x|e]; cbn [res_bind]; [|now constructor].
  apply agree_map_err.
  - intros e e' E. now rewrite !report_with_path, E.
  - apply deserialize_blind; [exact U|]. constructor. apply ut_refl.
Qed.
Print Assumptions C90_untouched.

(** A struct whose field names all have a capital letter is extracted as if the variables were not there. *)
Theorem C90_struct : forall H f s ops vars pr loc o c f' c' i n id fs,
  reachable H f -> ev_lowercase (build_env s ops) = true ->
  env_provider (build_env s ops) vars = Ret pr -> provide loc f pr o c = (Ret f', c') ->
  (forall k, In k (map fst fs) -> has_capital k) ->
  ~ In n [value_name; rel_name; tagged_name] -> unreserved (TStruct n id false fs) ->
  seen forget (extract i f (TStruct n id false fs)) = seen forget (extract i f' (TStruct n id false fs)).
Proof.
  intros H f s ops vars pr loc o c f' c' i n id fs HR HL HE HP HC HN U.
  eapply C67_unrelated; eauto.
  destruct (C63_provider _ _ _ _ HE) as (_ & HQ & _ & md & HD & HD').
  destruct (C90_leaves s ops vars md HL HD) as (d & -> & HK & _).
  destruct (C63_leaves _ _ _ _ HD) as (_ & d' & _ & Ed & Wd & _). injection Ed as <-.
  split; [exact HQ|]. eexists. split; [exact HD'|]. split.
  - repeat split; auto.
  - intros q d0 k [HI|[]] Hk. injection HI as _ <-.
    destruct (get k d) as [z|] eqn:Ez; [|reflexivity]. exfalso. apply (HK k); [|now apply HC].
    destruct (get_In _ _ _ Ez) as (k' & C & HI'). apply cmp_leibniz in C. subst k'. exact (in_map fst _ _ HI').
Qed.
Print Assumptions C90_struct.

(** *** Cases *)
Definition cp_vars : environ :=
  [(lit "APP_maxSize", lit "9"); (lit "APP_DB", lit "{maxSize=3}"); (lit "APP_PORT", lit "80")].
Definition cp_env : env := build_env (FromPrefix (lit "APP_")) [].
Definition cp_num (z : Z) : value := VNum tag_default (NInt USize z).
Definition cp_base : list op := [OpProvide fr_loc Merge (fr_provider "base" [(lit "maxSize", cp_num 1)])].

(** [maxSize] is not set by [APP_maxSize], which sets [maxsize]; it is in the dictionary of [APP_DB]. *)
Example C90_ex : ev_lowercase cp_env = true /\ has_capital (lit "maxSize") /\
  env_data cp_env cp_vars = Ret [(p_default,
    [(lit "db", VDict tag_default [(lit "maxSize", cp_num 3)]);
     (lit "maxsize", cp_num 9); (lit "port", cp_num 80)])].
Proof.
  split; [reflexivity|]. split; [|vm_compute; reflexivity].
  exists 83%N. split; [vm_compute; tauto|]. split; discriminate.
Qed.

Example C90_ex_untouched : exists f c pr f' c', run cp_base fig_new 1%N = (Ret f, c) /\
  env_provider cp_env cp_vars = Ret pr /\ provide fr_loc f pr Merge c = (Ret f', c') /\
  (exists x, find_value f' (lit "maxSize") = Ok x /\ untag x = cp_num 1) /\
  (exists x, find_value f' (lit "maxsize") = Ok x /\ untag x = cp_num 9).
Proof.
  eexists. eexists. eexists. eexists. eexists. split; [vm_compute; reflexivity|]. split; [vm_compute; reflexivity|].
  split; [vm_compute; reflexivity|]. split; eexists; (split; vm_compute; reflexivity).
Qed.

(** With [lowercase(false)] given last, the capital letter is kept; any adapter after it undoes it. *)
Example C90_ex_kept :
  env_data (build_env (FromPrefix (lit "APP_")) [OpLowercase false]) [(lit "APP_maxSize", lit "9")] =
    Ret [(p_default, [(lit "maxSize", cp_num 9)])] /\
  env_data (build_env (FromPrefix (lit "APP_")) [OpLowercase false; OpIgnore []]) [(lit "APP_maxSize", lit "9")] =
    Ret [(p_default, [(lit "maxsize", cp_num 9)])].
Proof. split; vm_compute; reflexivity. Qed.
