(** Proofs about which source an error of the documented stack is about. *)
From Coq Require Import Ascii String ZArith NArith Bool Lia.
From Coq Require Import List.
From Verif Require Import Res BMap BMapProofs Str StrProofs Profile Tag Num Value Metadata Err Coalesce Figment De Ser Parse Path Data Doc Env.
From Verif Require Import SpecLookup SpecFigment SpecDe SpecExtract SpecValue SpecRt SpecInto SpecData SpecDoc SpecEnv SpecText SpecLayers SpecGives SpecRefuse SpecBlind SpecStack SpecFault.
From Verif Require BlameProofs ProvProofs.
From Verif Require Import ValueProofs CoalesceProofs FigmentProofs DeProofs SerProofs IntoProofs MeaningProofs ExtractProofs
  EnvProofs EnvDataProofs LookupProofs TextProofs DataProofs DocProofs BlindProofs LayersProofs StackProofs GivesProofs RefusalProofs ProfileProofs.
Import ListNotations.

Lemma all_In {A} (P : A -> Prop) l x : SpecDe.all (map P l) -> In x l -> P x.
Proof. rewrite BlameProofs.all_Forall, Forall_forall. auto. Qed.

Lemma restorable_unreserved t : restorable t -> unreserved t.
Proof.
  induction t as [|k| | | | | |t IH|t IH|ts IH|t IH|k t IHk IH|n id dn fs IH|id t IH|id ts IH|id|id vs IH| | | | | | |a b IHa IHb]
    using ty_ind'; intros R; try (apply ur_basic; cbn; tauto); try (destruct R; fail);
    first [apply ur_int | apply ur_unit_struct | apply ur_option | apply ur_seq | apply ur_map | apply ur_newtype
          | apply ur_tuple | apply ur_tuple_struct | apply ur_struct | apply ur_enum].
  all: try (apply IH, R; fail).
  all: try (rewrite Forall_forall in *; cbn [restorable] in R; intros x I; apply (IH x I), (all_In _ _ _ R I); fail).
  - apply R.
  - intros k t I. destruct R as (_ & _ & R). rewrite Forall_forall in IH. apply (IH (k, t) I), (all_In _ _ _ R I).
  - intros n t I. destruct R as (_ & R). rewrite Forall_forall in IH. apply (IH (n, ShNew t) I), (all_In _ _ _ R I).
  - intros n ts t I J. destruct R as (_ & R). rewrite Forall_forall in IH. assert (X := IH _ I). assert (Y := all_In _ _ _ R I). cbn in X, Y.
    rewrite Forall_forall in X. apply (X t J), (all_In _ _ _ Y J).
  - intros n fs k t I J. destruct R as (_ & R). rewrite Forall_forall in IH. assert (X := IH _ I). assert (Y := all_In _ _ _ R I). cbn in X, Y.
    rewrite Forall_forall in X. destruct Y as [_ Y]. apply (X (k, t) J), (all_In _ _ _ Y J).
Qed.

(** ** The same fault in values that differ by their tags, or in two dictionaries *)
Lemma refuses_told i f t v p k : wf v -> named_apart t ->
  (exists e, deserialize t (DConf i f v) = Err e /\ e_path e = p /\ e_kind e = k) <-> refuses (MConf i f) t v p k.
Proof. intros W N. exact (proj1 (extraction_told t N) (MConf i f) v p k W). Qed.

Lemma report_top e : exists r, report e = (e_path e, e_kind e) :: r.
Proof. destruct e as [tg pr md pa kd [pv|]]; cbn; eauto. Qed.

Lemma refuses_ut i f t v v' p k : restorable t -> wf v -> wf v' -> ut v v' ->
  refuses (MConf i f) t v p k <-> refuses (MConf i f) t v' p k.
Proof.
  intros R W W' U. destruct (restorable_ordinary t R) as [_ N].
  rewrite <- (refuses_told i f t v p k W N), <- (refuses_told i f t v' p k W' N).
  assert (B := deserialize_blind t (restorable_unreserved t R) (DConf i f v) (DConf i f v') (mkrel_conf i f f _ _ U)).
  inversion B as [x y Q E1 E2|e e' Q E1 E2].
  - split; intros (e & E & _); discriminate.
  - destruct (report_top e) as [r Hr], (report_top e') as [r' Hr'].
    assert (Q' : e_path e = e_path e' /\ e_kind e = e_kind e') by (split; congruence).
    destruct Q' as [Q1 Q2]. split; intros (x & E & <- & <-); injection E as <-; eauto.
Qed.

Lemma unwanted_dict exp g d p k g' d' : unwanted exp (VDict g d) p k -> p = [] /\ unwanted exp (VDict g' d') p k.
Proof.
  intros [-> (a & D & ->)]. split; [reflexivity|]. split; [reflexivity|]. inversion D; subst. exists AMap. split; [constructor|reflexivity].
Qed.
Lemma no_num_dict i g d n : ~ stands_for_num i (VDict g d) n.
Proof. intros H. inversion H. Qed.
Lemma refuses_dict m t g d g' d' : undivided t -> forall p k,
  refuses m t (VDict g d) p k -> p = [] /\ refuses m t (VDict g' d') p k.
Proof.
  intros U p k.
  assert (X : forall exp, unwanted exp (VDict g d) p k -> p = [] /\ unwanted exp (VDict g' d') p k)
    by (intros exp; apply unwanted_dict).
  assert (Y : forall rs exp short, tuple_refused rs exp short (VDict g d) p k -> p = [] /\ tuple_refused rs exp short (VDict g' d') p k).
  { intros rs exp short [(h & l & E & _)|[_ H]]; [discriminate|]. destruct (X _ H) as [-> H']. split; [reflexivity|].
    right. split; [|exact H']. intros (h & l & E). discriminate. }
  assert (TX : forall s, ~ text (VDict g' d') s) by (intros s H; inversion H).
  revert U. induction t as [|j| | | | | |t IH|t IH|ts IH|t IH|j t IHk IH|n id dn fs IH|id t IH|id ts IH|id|id vs IH| | | | | | |a b IHa IHb]
    using ty_ind'; intros U; try (destruct U; fail); cbn [refuses].
  - intros [_ H]. destruct (X _ H) as [-> H']. split; [reflexivity|]. split; [|exact H'].
    intros b S. inversion S as [|? ? B]; subst. inversion B.
  - assert (Z : int_refused (reading m) j (VDict g d) p k -> p = [] /\ int_refused (reading m) j (VDict g' d') p k).
    { intros [(j' & z & S & _)|[(n & S & _)|[_ H]]]; try (exfalso; revert S; apply no_num_dict).
      destruct (X _ H) as [-> H']. split; [reflexivity|]. right. right. split; [intros n; apply no_num_dict|exact H']. }
    destruct j; try exact Z; intros [-> ->]; auto.
  - intros [(j' & z & S & _)|[_ H]]; [exfalso; revert S; apply no_num_dict|].
    destruct (X _ H) as [-> H']. split; [reflexivity|]. right. split; [intros n; apply no_num_dict|exact H'].
  - intros [(j' & z & S & _)|[_ H]]; [exfalso; revert S; apply no_num_dict|].
    destruct (X _ H) as [-> H']. split; [reflexivity|]. right. split; [intros n; apply no_num_dict|exact H'].
  - intros [(s & S & _)|[_ H]]; [inversion S|]. destruct (X _ H) as [-> H']. split; [reflexivity|]. right. auto.
  - intros [_ H]. destruct (X _ H) as [-> H']. auto.
  - intros [_ H]. destruct (X _ H) as [-> H']. split; [reflexivity|]. split; [discriminate|exact H'].
  - intros [_ H]. destruct (IH U H) as [-> H']. split; [reflexivity|]. split; [discriminate|exact H'].
  - intros [(h & l & E & _)|[_ H]]; [discriminate|]. destruct (X _ H) as [-> H']. split; [reflexivity|].
    right. split; [|exact H']. intros (h & l & E). discriminate.
  - apply Y.
  - apply IH, U.
  - apply Y.
  - intros [_ H]. destruct (X _ H) as [-> H']. split; [reflexivity|]. split; [discriminate|exact H'].
  - intros [_ H]. destruct (X _ H) as [-> H']. auto.
  - intros [_ H]. destruct (X _ H) as [-> H']. auto.
  - intros [_ [(h & j & z & E & _)|[(s & S & _)|(_ & _ & H)]]]; [discriminate|inversion S|].
    destruct (X _ H) as [-> H']. split; [reflexivity|]. split; [intros b S; inversion S|].
    right. right. split; [discriminate|]. auto.
Qed.

(** ** The value on top and its tags *)
Lemma sorted_app_r (a b : dict) : sorted (a ++ b) -> sorted b.
Proof. induction a as [|[k v] r IH]; [auto|]. intros [_ H]. auto. Qed.
Lemma sorted_app_lt (a b : dict) : sorted (a ++ b) -> forall n v n' v', In (n, v) a -> In (n', v') b -> cmp n n' = Lt.
Proof.
  induction a as [|[k u] r IH]; [intros _ ? ? ? ? []|]. intros [L S] n v n' v' [E|I] J; [|eauto].
  injection E as -> ->. rewrite lt_all_In in L. apply (L n' v'). apply in_or_app. now right.
Qed.

Definition topped (g : tag) (w v : value) : Prop :=
  (ut w v /\ all_tags (eq g) w) \/ (exists t d d', w = VDict g d /\ v = VDict t d').

Lemma topped_merge g u w v : topped g w v -> topped g (vcoalesce Merge u w) v.
Proof.
  intros T. assert (DX : (exists t d, w = VDict t d) \/ (forall t d, w <> VDict t d)) by (destruct w; eauto; right; discriminate).
  destruct DX as [(t & d & ->)|N]; [|now rewrite merge_replaces by exact N].
  assert (V : g = t /\ exists t' d', v = VDict t' d').
  { destruct T as [[U A]|(t' & d1 & d' & E & ->)].
    - split; [exact (A [] _ (R_here _))|]. apply ut_cases in U. inversion U; eauto.
    - injection E as -> ->. eauto. }
  destruct V as (<- & t' & d' & ->). right. destruct u; cbn; eauto 6.
Qed.

Lemma topped_stamp g w v : all_tags (eq tag_default) w -> close w v -> topped g (map_tag (fun _ => g) w) v.
Proof.
  intros A [->|[D1 D2]].
  - left. split; [unfold ut; apply untag_map_tag|]. intros p x R. destruct (ProvProofs.reach_map_tag _ _ _ _ R) as (y & Y & ->).
    rewrite ProvProofs.vtag_map_tag, <- (A _ _ Y). reflexivity.
  - right. destruct w as [| | | | |t d|], v as [| | | | |t' d'|]; try discriminate. assert (E := A [] _ (R_here _)). cbn in E. subst t. cbn. eauto.
Qed.

Lemma topped_refuses i f t g w v p k : restorable t -> undivided t -> wf w -> wf v -> topped g w v ->
  refuses (MConf i f) t w p k <-> refuses (MConf i f) t v p k.
Proof.
  intros R U W V [[X _]|(t' & d & d' & -> & ->)]; [now apply refuses_ut|].
  split; intros H; eapply refuses_dict in H; try exact U; apply H.
Qed.

Lemma get_retag t q d n : get n (ProvProofs.retag_dict t q d) = option_map (map_tag (fun _ => for_profile t q)) (get n d).
Proof.
  unfold ProvProofs.retag_dict. induction d as [|[k v] r IH]; cbn; [reflexivity|]. destruct (cmp n k); cbn; auto.
Qed.

Lemma said_fun pre vars l n a v b w : said pre vars l n a v -> said pre vars l n b w -> a = b /\ v = w.
Proof.
  intros [s x S E|d x S G E] [s' x' S' E'|d' x' S' G' E'].
  - rewrite (set_to_fun _ _ _ _ _ S' S) in E'. split; congruence.
  - destruct (set_not_unset _ _ _ _ S S').
  - destruct (set_not_unset _ _ _ _ S' S).
  - split; [reflexivity|]. apply (proj2 (last_of_some n l _)) in G, G'. rewrite G in G'. injection G' as <-.
    apply doc_value_reads in E, E'. congruence.
Qed.

Section Fault.
  Variables (i : interp) (f : figment) (pre : ustr) (vars kept : list (ustr * ustr)) (l : list (ustr * doc))
            (d0 d1 d2 E0 D : dict) (t1 t2 : tag).
  Hypothesis NW : no_white pre.
  Hypothesis ND : forall name s, In (name, s) vars -> ~ In dot name.
  Hypothesis KS : selects (survives true (mapped_key (FromPrefix pre) [])) vars kept.
  Hypothesis W0 : wf_dict E0.
  Hypothesis U0 : dut E0 d0.
  Hypothesis S1 : says l d1.
  Hypothesis PL : forall k d, In (k, d) l -> plain_doc d.
  Hypothesis EF : env_fold kept [] = Ret d2.
  Hypothesis HD : D = dcoalesce Merge (dcoalesce Merge E0 (ProvProofs.retag_dict t1 p_default d1)) (ProvProofs.retag_dict t2 p_default d2).
  Hypothesis WD : wf_dict D.

  Definition mark (who : layer) : tag :=
    match who with ByVariable => for_profile t2 p_default | ByFile => for_profile t1 p_default end.

  Lemma sorted_retag t q d : sorted d -> sorted (ProvProofs.retag_dict t q d).
  Proof. intros S. unfold ProvProofs.retag_dict. eapply sorted_keys; [|exact S]. unfold keys. rewrite map_map. reflexivity. Qed.

  Lemma field_top n v0 : get n d0 = Some v0 ->
    exists w, get n D = Some w /\
      ((exists who v, said pre vars l n who v /\ wf v /\ topped (mark who) w v) \/
       ((forall who v, ~ said pre vars l n who v) /\ ut w v0)).
  Proof.
    intros G0.
    assert (KSi := kept_single pre vars kept NW ND KS).
    destruct (env_top kept n KSi [] d2 EF wf_dict_nil) as [W2 H2].
    destruct (env_fold_default kept) with (d := @nil (ustr * value)) (d' := d2) as [_ A2]; auto using wf_dict_nil.
    { eapply Forall_impl; [|exact KSi]. intros a [Q _]. exact Q. }
    { apply all_default_dict. intros ? ? []. }
    assert (HK := kept_last pre n vars NW ND kept KS).
    assert (G : get n D = opt_combine (vcoalesce Merge)
                  (opt_combine (vcoalesce Merge) (get n E0) (option_map (map_tag (fun _ => for_profile t1 p_default)) (get n d1)))
                  (option_map (map_tag (fun _ => for_profile t2 p_default)) (get n d2))).
    { rewrite HD, dcoalesce_get, dcoalesce_get, !get_retag; auto using dcoalesce_sorted.
      - apply W0.
      - apply sorted_retag, S1.
      - apply sorted_retag, W2. }
    assert (M0 := magic_get n _ _ U0). unfold oput in M0. rewrite G0 in M0.
    destruct (get n E0) as [e0|] eqn:GE; [|destruct M0].
    destruct (last_of n kept) as [s|] eqn:EL.
    - destruct H2 as (v & w & Ev & Gw & C). rewrite Gw in G. cbn [option_map] in G.
      assert (T : topped (mark ByVariable) (map_tag (fun _ => for_profile t2 p_default) w) v).
      { apply topped_stamp; [|exact C]. intros p x R. apply (A2 (SKey n :: p) x). econstructor; eassumption. }
      assert (X : exists u, get n D = Some (vcoalesce Merge u (map_tag (fun _ => for_profile t2 p_default) w)))
        by (destruct (get n d1); cbn [option_map opt_combine] in G; eauto).
      destruct X as [u GX]. eexists. split; [exact GX|]. left. exists ByVariable, v. split; [econstructor; eassumption|].
      split; [exact (value_from_str_wf _ _ Ev)|]. now apply topped_merge.
    - cbn [get] in H2. rewrite H2 in G. cbn [option_map] in G. assert (S1' := S1). destruct S1' as (_ & SD & SG & SI).
      destruct (last_of n l) as [d|] eqn:ED.
      + assert (HGv := proj1 (last_of_some n l d) ED). destruct (SG n d HGv) as (v & Iv & Rv).
        assert (G1 := In_get _ _ _ SD Iv). rewrite G1 in G. cbn [option_map opt_combine] in G.
        assert (A1 := plain_tags _ _ (PL _ _ (given_In _ _ _ HGv)) Rv).
        eexists. split; [exact G|]. left. exists ByFile, v. split; [econstructor; eassumption|].
        split; [exact (get_wf _ _ _ (says_wf _ _ S1) G1)|]. apply topped_merge. apply topped_stamp; [exact A1|now left].
      + assert (NI := proj1 (last_of_none n l) ED).
        assert (G1 : get n d1 = None).
        { destruct (get n d1) as [v|] eqn:E; [|reflexivity]. exfalso. destruct (get_In _ _ _ E) as (k & Ek & I).
          apply cmp_leibniz in Ek. subst k. destruct (SI _ _ I) as [d Hd]. apply (NI d). now apply given_In. }
        rewrite G1 in G. cbn [option_map opt_combine] in G. eexists. split; [exact G|]. right. split; [|exact M0].
        intros who v [s v' Hs _|d v' _ Hd _]; [destruct (set_not_unset _ _ _ _ Hs HK)|]. apply (NI d). now apply given_In.
  Qed.

  Lemma field_faulty n t x v0 : restorable t -> undivided t -> inhabits t x -> serialize x = Ok v0 -> get n d0 = Some v0 ->
    exists w, get n D = Some w /\
      (forall q k, refuses (MConf i f) t w q k <-> exists who, faulty (MConf i f) pre vars l n t who q k) /\
      (forall who q k, faulty (MConf i f) pre vars l n t who q k -> exists v, topped (mark who) w v).
  Proof.
    intros R U HX Hs G0. destruct (field_top n v0 G0) as (w & G & [(who & v & S & V & T)|[S M]]); exists w; (split; [exact G|]).
    - assert (W := get_wf _ _ _ WD G). split.
      + intros q k. rewrite (topped_refuses i f t _ w v q k R U W V T). split.
        * intros H. exists who, v. auto.
        * intros (who' & v' & S' & H). destruct (said_fun _ _ _ _ _ _ _ _ S S') as [_ <-]. exact H.
      + intros who' q k (v' & S' & H). destruct (said_fun _ _ _ _ _ _ _ _ S S') as [<- <-]. eauto.
    - assert (W := get_wf _ _ _ WD G). split.
      + intros q k. split; [|intros (who & v & S' & _); now apply S in S'].
        intros H. exfalso. apply (refuses_ut i f t w v0 q k R W (serialize_wf _ _ Hs) M) in H.
        destruct (restorable_ordinary t R) as [O N]. apply refuses_told in H; [|exact (serialize_wf _ _ Hs)|exact N].
        destruct H as (e & H & _). destruct (serialized_extracts i t x R HX) as (v' & E' & HV). rewrite Hs in E'. injection E' as <-.
        apply (mn_value _ _ _ _ (extraction_meant t O N (MConf i f)) v0 x (serialize_wf _ _ Hs)) in HV. cbn [mk_de] in HV. congruence.
      + intros who q k (v' & S' & _). now apply S in S'.
  Qed.

  Variables (fields : list (ustr * ty)).
  Hypothesis RF : forall n t, In (n, t) fields -> restorable t /\ undivided t /\
    exists x v0, inhabits t x /\ serialize x = Ok v0 /\ get n d0 = Some v0.
  Hypothesis NF : NoDup (map fst fields).

  Definition fparts := map (fun f0 : ustr * ty => (fst f0, (optional (snd f0), fun v => exists y, gives (MConf i f) (snd f0) v y, refuses (MConf i f) (snd f0)))) fields.

  Lemma fparts_In n r : In (n, r) fparts <-> exists t, In (n, t) fields /\
    r = (optional t, fun v => exists y, gives (MConf i f) t v y, refuses (MConf i f) t).
  Proof.
    unfold fparts. rewrite in_map_iff. split.
    - intros ([n' t] & E & I). injection E as -> <-. eauto.
    - intros (t & I & ->). exists (n, t). auto.
  Qed.
  Lemma field_type n t t' : In (n, t) fields -> In (n, t') fields -> t = t'.
  Proof.
    clear RF. induction fields as [|[a u] r IH]; [intros []|]. cbn in NF. inversion NF as [|? ? NI NR]; subst.
    intros [E|I] [E'|I'].
    - congruence.
    - injection E as -> ->. destruct NI. exact (in_map fst _ _ I').
    - injection E' as -> ->. destruct NI. exact (in_map fst _ _ I).
    - apply IH; auto.
  Qed.

  Lemma fields_faulty p k : fields_refused false fparts D p k <->
    exists n who q, p = n :: q /\ first_faulty (MConf i f) pre vars l fields n who q k.
  Proof.
    assert (SD := proj1 WD). split.
    - intros [(a & key & x & b & q & ED & FA & [(X & _)|(r & I & H)] & ->)|(_ & a & n & r & b & Ef & _ & NI & _)]; [discriminate| |].
      + apply fparts_In in I. destruct I as (t & I & ->). cbn in H.
        destruct (RF _ _ I) as (R & U & x0 & v0 & HX & Hs & G0).
        destruct (field_faulty key t x0 v0 R U HX Hs G0) as (w & G & HF & _).
        assert (GX : get key D = Some x) by (apply In_get; [exact SD|]; rewrite ED; apply in_or_app; right; now left).
        assert (w = x) by congruence. subst w. apply HF in H. destruct H as (who & H).
        exists key, who, q. split; [reflexivity|]. split; [eauto|].
        intros n' t' who' p' k' I' L FN. destruct (RF _ _ I') as (R' & U' & x1 & v1 & HX' & Hs' & G0').
        destruct (field_faulty n' t' x1 v1 R' U' HX' Hs' G0') as (w' & G' & HF' & _).
        assert (RW : refuses (MConf i f) t' w' p' k') by (apply HF'; exists who'; exact FN).
        destruct (get_In _ _ _ G') as (k2 & E2 & I2). apply cmp_leibniz in E2. subst k2.
        assert (IA : In (n', w') a).
        { rewrite ED in I2. apply in_app_or in I2. destruct I2 as [I2|[E2|I2]]; [exact I2|exfalso..].
          - injection E2 as -> _. rewrite cmp_refl in L. discriminate.
          - rewrite ED in SD. apply sorted_app_r in SD. destruct SD as [SL _]. rewrite lt_all_In in SL.
            assert (Z := SL _ _ I2). assert (Q := cmp_lt_trans _ _ _ L Z). rewrite cmp_refl in Q. discriminate. }
        rewrite Forall_forall in FA. destruct (FA _ IA) as [_ FK].
        assert (FK' := FK _ (proj2 (fparts_In n' _) (ex_intro _ t' (conj I' eq_refl)))). unfold fine in FK'; cbn [fst snd] in FK'. destruct FK' as [y Y].
        destruct (restorable_ordinary t' R') as [_ N']. assert (W' := get_wf _ _ _ WD G').
        apply (granted_at t' (MConf i f) w' y W' N') in Y. apply refuses_told in RW; [|exact W'|exact N'].
        destruct RW as (e & RW & _). cbn [mk_de] in Y. congruence.
      + exfalso. assert (I : In (n, r) fparts) by (rewrite Ef; apply in_or_app; right; now left).
        apply fparts_In in I. destruct I as (t & I & _). destruct (RF _ _ I) as (R & U & x0 & v0 & HX & Hs & G0).
        destruct (field_faulty n t x0 v0 R U HX Hs G0) as (w & G & _). apply NI.
        destruct (get_In _ _ _ G) as (k2 & E2 & I2). apply cmp_leibniz in E2. subst k2. exact (in_map fst _ _ I2).
    - intros (n & who & q & -> & (t & I & FN) & FI). left.
      destruct (RF _ _ I) as (R & U & x0 & v0 & HX & Hs & G0).
      destruct (field_faulty n t x0 v0 R U HX Hs G0) as (w & G & HF & _).
      destruct (get_In _ _ _ G) as (k2 & E2 & I2). apply cmp_leibniz in E2. subst k2.
      destruct (in_split _ _ I2) as (a & b & ED). exists a, n, w, b, q. split; [exact ED|]. split; [|split; [|reflexivity]].
      + apply Forall_forall. intros [n' w'] IA. cbn [fst snd]. split; [discriminate|]. intros r Ir.
        apply fparts_In in Ir. destruct Ir as (t' & I' & ->). cbn.
        destruct (RF _ _ I') as (R' & U' & x1 & v1 & HX' & Hs' & G0').
        destruct (field_faulty n' t' x1 v1 R' U' HX' Hs' G0') as (w2 & G' & HF' & _).
        assert (GA : get n' D = Some w') by (apply In_get; [exact SD|]; rewrite ED; apply in_or_app; now left).
        assert (w2 = w') by congruence. subst w2.
        destruct (restorable_ordinary t' R') as [_ N']. assert (W' := get_wf _ _ _ WD G').
        destruct (deserialize t' (DConf i f w')) as [y|e] eqn:E.
        * exists y. apply (granted_at t' (MConf i f) w' y W' N'). exact E.
        * exfalso. assert (RW : refuses (MConf i f) t' w' (e_path e) (e_kind e)) by (apply refuses_told; eauto).
          apply HF' in RW. destruct RW as [who' RW]. apply (FI n' t' who' _ _ I') in RW; [exact RW|].
          rewrite ED in SD. apply (sorted_app_lt a _ SD n' w' n w); [exact IA|now left].
      + right. exists (optional t, fun v => exists y, gives (MConf i f) t v y, refuses (MConf i f) t).
        split; [apply fparts_In; eauto|]. cbn. apply HF. eauto.
  Qed.
End Fault.
