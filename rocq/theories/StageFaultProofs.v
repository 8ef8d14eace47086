(** Proofs about which source an error is about if files are divided into profiles. *)
From Coq Require Import Ascii String ZArith NArith Bool Lia.
From Coq Require Import List.
From Verif Require Import Res BMap BMapProofs Str StrProofs Profile Tag Num Value Metadata Err Coalesce Figment De Ser Parse Path Data Doc Env.
From Verif Require Import SpecLookup SpecFigment SpecDe SpecExtract SpecValue SpecRt SpecInto SpecData SpecDoc SpecEnv SpecText SpecLayers SpecGives SpecRefuse SpecBlind SpecStack SpecStages SpecStageFault.
From Verif Require BlameProofs ProvProofs.
From Verif Require Import ValueProofs CoalesceProofs FigmentProofs DeProofs SerProofs IntoProofs MeaningProofs ExtractProofs
  EnvProofs EnvDataProofs LookupProofs TextProofs DataProofs DocProofs BlindProofs LayersProofs StackProofs GivesProofs RefusalProofs ProfileProofs
  PriorityProofs FaultProofs StagesProofs.
Import ListNotations.

(** ** Any stack whose last words are known, with the tags they bear *)
Section Any.
  Variables (W : Type) (says : ustr -> W -> value -> Prop) (mark : W -> tag) (i : interp) (f : figment) (D : dict)
            (fields : list (ustr * ty)).
  Hypothesis SF : forall n a v b w, says n a v -> says n b w -> a = b /\ v = w.
  Hypothesis WD : wf_dict D.
  Hypothesis TOP : forall n t, In (n, t) fields -> restorable t /\ undivided t /\
    exists x v0 w, inhabits t x /\ serialize x = Ok v0 /\ get n D = Some w /\
      ((exists who v, says n who v /\ wf v /\ topped (mark who) w v) \/
       ((forall who v, ~ says n who v) /\ ut w v0)).
  Hypothesis NF : NoDup (map fst fields).

  Definition wrong n t who q k := exists v, says n who v /\ refuses (MConf i f) t v q k.
  Definition first_wrong n who q k :=
    (exists t, In (n, t) fields /\ wrong n t who q k) /\
    forall n' t' who' q' k', In (n', t') fields -> cmp n' n = Lt -> ~ wrong n' t' who' q' k'.

  Lemma any_field n t : In (n, t) fields ->
    exists w, get n D = Some w /\
      (forall q k, refuses (MConf i f) t w q k <-> exists who, wrong n t who q k) /\
      (forall who q k, wrong n t who q k -> exists v, topped (mark who) w v).
  Proof.
    intros IN. destruct (TOP _ _ IN) as (R & U & x & v0 & w & HX & Hs & G & C). exists w. split; [exact G|].
    assert (Ww := get_wf _ _ _ WD G). destruct C as [(who & v & S & V & T)|[S M]]; split.
    - intros q k. rewrite (topped_refuses i f t _ w v q k R U Ww V T). split.
      + intros H. exists who, v. auto.
      + intros (who' & v' & S' & H). destruct (SF _ _ _ _ _ S S') as [_ <-]. exact H.
    - intros who' q k (v' & S' & H). destruct (SF _ _ _ _ _ S S') as [<- <-]. eauto.
    - intros q k. split; [|intros (who & v & S' & _); now apply S in S'].
      intros H. exfalso. apply (refuses_ut i f t w v0 q k R Ww (serialize_wf _ _ Hs) M) in H.
      destruct (restorable_ordinary t R) as [O N]. apply refuses_told in H; [|exact (serialize_wf _ _ Hs)|exact N].
      destruct H as (e & H & _). destruct (serialized_extracts i t x R HX) as (v' & E' & HV). rewrite Hs in E'. injection E' as <-.
      apply (mn_value _ _ _ _ (extraction_meant t O N (MConf i f)) v0 x (serialize_wf _ _ Hs)) in HV. cbn [mk_de] in HV. congruence.
    - intros who q k (v' & S' & _). now apply S in S'.
  Qed.

  Lemma any_fields p k : fields_refused false (fparts i f fields) D p k <->
    exists n who q, p = n :: q /\ first_wrong n who q k.
  Proof.
    assert (SD := proj1 WD). split.
    - intros [(a & key & x & b & q & ED & FA & [(X & _)|(r & I & H)] & ->)|(_ & a & n & r & b & Ef & _ & NI & _)]; [discriminate| |].
      + apply fparts_In in I. destruct I as (t & I & ->). cbn in H.
        destruct (any_field key t I) as (w & G & HF & _).
        assert (GX : get key D = Some x) by (apply In_get; [exact SD|]; rewrite ED; apply in_or_app; right; now left).
        assert (w = x) by congruence. subst w. apply HF in H. destruct H as (who & H).
        exists key, who, q. split; [reflexivity|]. split; [eauto|].
        intros n' t' who' p' k' I' L FN. destruct (any_field n' t' I') as (w' & G' & HF' & _).
        assert (RW : refuses (MConf i f) t' w' p' k') by (apply HF'; exists who'; exact FN).
        destruct (get_In _ _ _ G') as (k2 & E2 & I2). apply cmp_leibniz in E2. subst k2.
        assert (IA : In (n', w') a).
        { rewrite ED in I2. apply in_app_or in I2. destruct I2 as [I2|[E2|I2]]; [exact I2|exfalso..].
          - injection E2 as -> _. rewrite cmp_refl in L. discriminate.
          - rewrite ED in SD. apply sorted_app_r in SD. destruct SD as [SL _]. rewrite lt_all_In in SL.
            assert (Z := SL _ _ I2). assert (Q := cmp_lt_trans _ _ _ L Z). rewrite cmp_refl in Q. discriminate. }
        rewrite Forall_forall in FA. destruct (FA _ IA) as [_ FK].
        assert (FK' := FK _ (proj2 (fparts_In i f fields n' _) (ex_intro _ t' (conj I' eq_refl)))). unfold fine in FK'; cbn [fst snd] in FK'. destruct FK' as [y Y].
        destruct (TOP _ _ I') as (R' & _). destruct (restorable_ordinary t' R') as [_ N']. assert (W' := get_wf _ _ _ WD G').
        apply (granted_at t' (MConf i f) w' y W' N') in Y. apply refuses_told in RW; [|exact W'|exact N'].
        destruct RW as (e & RW & _). cbn [mk_de] in Y. congruence.
      + exfalso. assert (I : In (n, r) (fparts i f fields)) by (rewrite Ef; apply in_or_app; right; now left).
        apply fparts_In in I. destruct I as (t & I & _).
        destruct (any_field n t I) as (w & G & _). apply NI.
        destruct (get_In _ _ _ G) as (k2 & E2 & I2). apply cmp_leibniz in E2. subst k2. exact (in_map fst _ _ I2).
    - intros (n & who & q & -> & (t & I & FN) & FI). left.
      destruct (any_field n t I) as (w & G & HF & _).
      destruct (get_In _ _ _ G) as (k2 & E2 & I2). apply cmp_leibniz in E2. subst k2.
      destruct (in_split _ _ I2) as (a & b & ED). exists a, n, w, b, q. split; [exact ED|]. split; [|split; [|reflexivity]].
      + apply Forall_forall. intros [n' w'] IA. cbn [fst snd]. split; [discriminate|]. intros r Ir.
        apply fparts_In in Ir. destruct Ir as (t' & I' & ->). cbn.
        destruct (any_field n' t' I') as (w2 & G' & HF' & _).
        assert (GA : get n' D = Some w') by (apply In_get; [exact SD|]; rewrite ED; apply in_or_app; now left).
        assert (w2 = w') by congruence. subst w2.
        destruct (TOP _ _ I') as (R' & _). destruct (restorable_ordinary t' R') as [_ N']. assert (W' := get_wf _ _ _ WD G').
        destruct (deserialize t' (DConf i f w')) as [y|e] eqn:E.
        * exists y. apply (granted_at t' (MConf i f) w' y W' N'). exact E.
        * exfalso. assert (RW : refuses (MConf i f) t' w' (e_path e) (e_kind e)) by (apply refuses_told; eauto).
          apply HF' in RW. destruct RW as [who' RW]. apply (FI n' t' who' _ _ I') in RW; [exact RW|].
          rewrite ED in SD. apply (sorted_app_lt a _ SD n' w' n w); [exact IA|now left].
      + right. exists (optional t, fun v => exists y, gives (MConf i f) t v y, refuses (MConf i f) t).
        split; [apply fparts_In; eauto|]. cbn. apply HF. eauto.
  Qed.
End Any.

(** ** Files in a pile, with their tags *)
Fixpoint tpiled (c : N) (ms : list (bmap profile dict)) (r : profile) (d : dict) : dict :=
  match ms with
  | [] => d
  | m :: ms => tpiled (c + 1) ms r (dcoalesce Merge d (ProvProofs.retag_dict (tag_new c PTDefault) r (data_of m r)))
  end.

Lemma tpiled_sorted ms r : forall c d, sorted d -> sorted (tpiled c ms r d).
Proof. induction ms as [|m ms IH]; intros c d S; [exact S|]. apply IH, dcoalesce_sorted. Qed.
Lemma tpiled_wf ms r : Forall wf_profiles ms -> forall c d, wf_dict d -> wf_dict (tpiled c ms r d).
Proof.
  induction 1 as [|m ms W F IH]; intros c d S; [exact S|]. apply IH. apply wf_dcoalesce; [exact S|].
  apply ProvProofs.wf_retag_dict. now apply data_of_wf.
Qed.

Definition plainly (l : list (ustr * doc)) : Prop := forall r n d, tells l r n d -> plain_doc d.

Lemma last_at_cons l files k r n d : last_at files k r n d -> last_at (l :: files) (S k) r n d.
Proof.
  intros (l' & E & T & A). exists l'. split; [exact E|]. split; [exact T|]. intros [|k'] l2 d' L E'; [lia|]. apply (A k' l2 d'); [lia|exact E'].
Qed.

Lemma tpiled_top files ms r n : Forall2 says_profiles files ms -> Forall wf_profiles ms -> Forall plainly files -> forall c d, sorted d ->
  (exists k w v x, last_at files k r n x /\ reads x v /\ wf v /\ get n (tpiled c ms r d) = Some w /\
     topped (for_profile (tag_new (c + N.of_nat k) PTDefault) r) w v) \/
  (silent files r n /\ get n (tpiled c ms r d) = get n d).
Proof.
  induction 1 as [|l m files ms Sm F IH]; intros W P c d S.
  - right. split; [intros l d' []|reflexivity].
  - inversion W as [|? ? Wm Wms]; subst. inversion P as [|? ? Pl Ps]; subst. cbn [tpiled].
    destruct (IH Wms Ps (c + 1)%N (dcoalesce Merge d (ProvProofs.retag_dict (tag_new c PTDefault) r (data_of m r))) (dcoalesce_sorted _ _ _))
      as [(k & w & v & x & LA & R & V & G & T)|[Si G]].
    + left. exists (Datatypes.S k), w, v, x. split; [now apply last_at_cons|]. split; [exact R|]. split; [exact V|]. split; [exact G|].
      replace (c + N.of_nat (Datatypes.S k))%N with (c + 1 + N.of_nat k)%N by lia. exact T.
    + assert (Wd := data_of_wf m r Wm). assert (Sd : sorted (data_of m r)) by apply Wd.
      rewrite dcoalesce_get, get_retag in G by (assumption || apply sorted_retag, Sd).
      assert (T := tells_get l m r n Sm). destruct (get n (data_of m r)) as [v|] eqn:Gv.
      * destruct T as (x & T & R). left. cbn [option_map] in G.
        assert (TS : topped (for_profile (tag_new c PTDefault) r) (map_tag (fun _ => for_profile (tag_new c PTDefault) r) v) v).
        { apply topped_stamp; [|now left]. exact (plain_tags _ _ (Pl _ _ _ T) R). }
        exists O, (match get n d with Some u => vcoalesce Merge u (map_tag (fun _ => for_profile (tag_new c PTDefault) r) v)
                   | None => map_tag (fun _ => for_profile (tag_new c PTDefault) r) v end), v, x.
        split; [|split; [exact R|split; [exact (get_wf _ _ _ Wd Gv)|split]]].
        -- exists l. split; [reflexivity|]. split; [exact T|]. intros [|k'] l' d' L E; [lia|]. cbn in E. apply nth_error_In in E. exact (Si l' d' E).
        -- rewrite G. destruct (get n d); reflexivity.
        -- replace (c + N.of_nat 0)%N with c by lia. destruct (get n d); [now apply topped_merge|exact TS].
      * right. split.
        -- intros l' d' [<-|I]; [apply T|now apply Si].
        -- rewrite G. cbn. destruct (get n d); reflexivity.
Qed.

Lemma tpiled_run prs : forall ms,
  Forall2 (fun lp m => pv_profile (snd lp) = None /\ pv_metadata_map (snd lp) = None /\ pv_data (snd lp) = Ok m /\ wf_profiles m) prs ms ->
  forall rest f m c f' c', f_value f = Ok m -> wf_profiles m ->
  run (map (fun lp : location * provider => OpProvide (fst lp) Merge (snd lp)) prs ++ rest) f c = (Ret f', c') ->
  exists f1 m1, f_value f1 = Ok m1 /\ wf_profiles m1 /\
    (forall r, data_of m1 r = tpiled c ms r (data_of m r)) /\
    (forall k lp, nth_error prs k = Some lp -> (c + N.of_nat k < 2 ^ 62)%N) /\
    (forall g, (metadata_id g < c)%N -> get g (f_metadata f1) = get g (f_metadata f)) /\
    (forall k lp g, nth_error prs k = Some lp -> metadata_id g = (c + N.of_nat k)%N ->
       get g (f_metadata f1) = Some (md_with_location (pv_metadata (snd lp)) (fst lp))) /\
    run rest f1 (c + N.of_nat (List.length prs))%N = (Ret f', c').
Proof.
  induction 1 as [|[l p] mm prs ms (P & M & D & W) F IH]; intros rest f m c f' c' Ef Wm HR.
  - exists f, m. split; [exact Ef|]. split; [exact Wm|]. split; [reflexivity|]. split; [intros [|k] lp E; discriminate|].
    split; [reflexivity|]. split; [intros [|k] lp g E; discriminate|]. cbn [List.length]. replace (c + N.of_nat 0)%N with c by lia. exact HR.
  - cbn [map app run run_op fst snd] in *. destruct (provide l f p Merge c) as [[f1| |] c1] eqn:E; try discriminate.
    apply provide_ret in E. destruct E as (L & -> & E). rewrite D, Ef, M in E.
    assert (Wr := ProvProofs.wf_retag_data (tag_new c PTDefault) mm W).
    set (m1 := pcoalesce Merge m (retag_data (tag_new c PTDefault) mm)) in *.
    assert (Ef1 : f_value f1 = Ok m1) by now subst f1.
    assert (Wm1 : wf_profiles m1) by now apply ProvProofs.wf_pcoalesce.
    destruct (IH rest f1 m1 (c + 1)%N f' c' Ef1 Wm1 HR) as (f2 & m2 & A & B & U2 & L2 & K2 & N2 & R).
    assert (MF : f_metadata f1 = insert (tag_new c PTDefault) (md_with_location (pv_metadata p) l) (f_metadata f)) by now subst f1.
    assert (IDC : metadata_id (tag_new c PTDefault) = c) by now apply ProvProofs.metadata_id_new_small.
    exists f2, m2. split; [exact A|]. split; [exact B|]. split; [|split; [|split; [|split]]].
    + intros r. rewrite U2. cbn [tpiled]. f_equal. unfold m1. rewrite data_of_pcoalesce by assumption. f_equal.
      unfold data_of. rewrite ProvProofs.retag_data_get. destruct (get r mm); reflexivity.
    + intros [|k] lp E'; [replace (c + N.of_nat 0)%N with c by lia; exact L|].
      assert (Z := L2 k lp E'). lia.
    + intros g Lg. rewrite K2 by lia. rewrite MF. apply get_insert_ne. rewrite cmp_tag_eq, IDC. lia.
    + intros [|k] lp g E' Ig.
      * cbn in E'. injection E' as <-. rewrite K2 by lia. rewrite MF. apply get_insert_eq. rewrite cmp_tag_eq, IDC. lia.
      * apply (N2 k lp g E'). lia.
    + replace (c + N.of_nat (List.length ((l, p) :: prs)))%N with (c + 1 + N.of_nat (List.length prs))%N by (cbn [List.length]; lia). exact R.
Qed.

(** ** Last words *)
Lemma last_at_fun files r n k d k' d' : last_at files k r n d -> last_at files k' r n d' -> k = k' /\ d = d'.
Proof.
  intros (l & E & T & A) (l' & E' & T' & A').
  assert (K : k = k').
  { destruct (PeanoNat.Nat.lt_trichotomy k k') as [L|[L|L]]; [|exact L|]; exfalso;
      [exact (A _ _ _ L E' T')|exact (A' _ _ _ L E T)]. }
  subst k'. split; [reflexivity|]. rewrite E in E'. injection E' as <-. eapply tells_fun; eassumption.
Qed.
Lemma last_at_silent files k r n d : last_at files k r n d -> silent files r n -> False.
Proof. intros (l & E & T & _) S. exact (S l d (nth_error_In _ _ E) T). Qed.
Lemma last_at_same files k p q n d : same_profile p q -> last_at files k p n d -> last_at files k q n d.
Proof.
  intros E (l & H & T & A). exists l. split; [exact H|]. split; [now apply (tells_same l p)|].
  intros k' l' d' L H' T'. apply (A k' l' d' L H'). apply (tells_same l' q); [unfold same_profile in *; congruence|exact T'].
Qed.

Lemma spoken_fun pre vars files p n a v b w : spoken pre vars files p n a v -> spoken pre vars files p n b w -> a = b /\ v = w.
Proof.
  intros [s x S E|k d x U L R|k d x U Sg Nd L R|k d x U Sg Sp L R] [s' x' S' E'|k' d' x' U' L' R'|k' d' x' U' Sg' Nd' L' R'|k' d' x' U' Sg' Sp' L' R'];
    try (exfalso; eapply set_not_unset; eassumption);
    try (exfalso; exact (last_at_silent _ _ _ _ _ L Sg')); try (exfalso; exact (last_at_silent _ _ _ _ _ L' Sg));
    try (destruct (last_at_fun _ _ _ _ _ _ _ L L') as [-> ->]; rewrite (reads_fun _ _ _ R R'); auto; fail).
  - rewrite (set_to_fun _ _ _ _ _ S' S) in E'. split; congruence.
  - destruct Sp' as [X|X]; [destruct (Nd X)|destruct (last_at_silent _ _ _ _ _ L X)].
  - destruct Sp as [X|X]; [destruct (Nd' X)|destruct (last_at_silent _ _ _ _ _ L' X)].
Qed.

(** ** The documented stack *)
Definition place_mark (c : N) (t2 : tag) (who : place) : tag :=
  match who with AVariable => for_profile t2 p_global | InSection k r => for_profile (tag_new (c + N.of_nat k) PTDefault) r end.

Section Staged.
  Variables (pre : ustr) (vars kept : list (ustr * ustr)) (files : list (list (ustr * doc)))
            (ms : list (bmap profile dict)) (p : profile) (c : N) (t2 : tag) (d0 E0 d2 D : dict).
  Hypothesis NW : no_white pre.
  Hypothesis ND : forall name s, In (name, s) vars -> ~ In dot name.
  Hypothesis KS : selects (survives true (mapped_key (FromPrefix pre) [])) vars kept.
  Hypothesis W0 : wf_dict E0.
  Hypothesis U0 : dut E0 d0.
  Hypothesis SP : Forall2 says_profiles files ms.
  Hypothesis WP : Forall wf_profiles ms.
  Hypothesis PL : Forall plainly files.
  Hypothesis EF : env_fold kept [] = Ret d2.
  Hypothesis HD : D = dcoalesce Merge
    (dcoalesce Merge (tpiled c ms p_default E0) (if is_custom p then tpiled c ms p [] else []))
    (dcoalesce Merge (tpiled c ms p_global []) (ProvProofs.retag_dict t2 p_global d2)).

  Lemma staged_top n v0 : get n d0 = Some v0 ->
    exists w, get n D = Some w /\
      ((exists who v, spoken pre vars files p n who v /\ wf v /\ topped (place_mark c t2 who) w v) \/
       ((forall who v, ~ spoken pre vars files p n who v) /\ ut w v0)).
  Proof.
    intros G0.
    assert (KSi := kept_single pre vars kept NW ND KS).
    destruct (env_top kept n KSi [] d2 EF wf_dict_nil) as [W2 H2].
    destruct (env_fold_default kept) with (d := @nil (ustr * value)) (d' := d2) as [_ A2]; auto using wf_dict_nil.
    { eapply Forall_impl; [|exact KSi]. intros a [Q _]. exact Q. }
    { apply all_default_dict. intros ? ? []. }
    assert (HK := kept_last pre n vars NW ND kept KS).
    set (S := if is_custom p then tpiled c ms p [] else []) in *.
    assert (SS : sorted S) by (unfold S; destruct (is_custom p); [apply tpiled_sorted|]; exact I).
    assert (SG : sorted (tpiled c ms p_global [])) by (apply tpiled_sorted; exact I).
    assert (S0 : sorted (tpiled c ms p_default E0)) by (apply tpiled_sorted, W0).
    assert (G : get n D = opt_combine (vcoalesce Merge)
                  (opt_combine (vcoalesce Merge) (get n (tpiled c ms p_default E0)) (get n S))
                  (opt_combine (vcoalesce Merge) (get n (tpiled c ms p_global []))
                     (option_map (map_tag (fun _ => for_profile t2 p_global)) (get n d2)))).
    { assert (SR := sorted_retag t2 p_global d2 (proj1 W2)).
      rewrite HD, !dcoalesce_get, get_retag; auto using dcoalesce_sorted. }
    assert (UP : forall x w v g, x = Some w -> topped g w v -> forall u, exists w', opt_combine (vcoalesce Merge) u x = Some w' /\ topped g w' v).
    { intros x w v g -> T [u|]; cbn; eauto using topped_merge. }
    assert (NO : forall u : option value, opt_combine (vcoalesce Merge) u None = u) by (intros [u|]; reflexivity).
    destruct (last_of n kept) as [s|] eqn:EL.
    { destruct H2 as (v & w & Ev & Gw & C). rewrite Gw in G. cbn [option_map] in G.
      assert (T : topped (for_profile t2 p_global) (map_tag (fun _ => for_profile t2 p_global) w) v).
      { apply topped_stamp; [|exact C]. intros q x R. apply (A2 (SKey n :: q) x). econstructor; eassumption. }
      destruct (UP _ _ _ _ eq_refl T (get n (tpiled c ms p_global []))) as (w1 & E1 & T1).
      destruct (UP _ _ _ _ E1 T1 (opt_combine (vcoalesce Merge) (get n (tpiled c ms p_default E0)) (get n S))) as (w2 & E2' & T2).
      exists w2. rewrite G. split; [exact E2'|]. left. exists AVariable, v. split; [econstructor; eassumption|].
      split; [exact (value_from_str_wf _ _ Ev)|exact T2]. }
    cbn [get] in H2. rewrite H2 in G. cbn [option_map] in G. rewrite NO in G.
    destruct (tpiled_top files ms p_global n SP WP PL c [] I) as [(k & w & v & x & LA & R & V & Gw & T)|[SiG Gw]].
    { destruct (UP _ _ _ _ Gw T (opt_combine (vcoalesce Merge) (get n (tpiled c ms p_default E0)) (get n S))) as (w2 & E2' & T2).
      exists w2. rewrite G. split; [exact E2'|]. left. exists (InSection k p_global), v. split; [eapply sp_global; eassumption|]. auto. }
    rewrite Gw in G. cbn [get] in G. rewrite NO in G.
    assert (PP : (~ same_profile p p_default /\ exists k w v x, last_at files k p n x /\ reads x v /\ wf v /\ get n S = Some w /\
                    topped (for_profile (tag_new (c + N.of_nat k) PTDefault) p) w v) \/
                 ((same_profile p p_default \/ silent files p n) /\ get n S = None)).
    { unfold S. destruct (is_custom p) eqn:CU; unfold is_custom in CU.
      - apply andb_true_iff in CU. rewrite !negb_true_iff in CU. destruct CU as [C1 C2].
        destruct (tpiled_top files ms p n SP WP PL c [] I) as [X|[X Y]]; [left|right; split; [now right|exact Y]].
        split; [|exact X]. intros Q. apply profile_eqb_same in Q. congruence.
      - right. split; [|reflexivity]. apply andb_false_iff in CU. rewrite !negb_false_iff in CU.
        destruct CU as [CU|CU]; [left; apply profile_eqb_same; exact CU|right].
        apply (silent_same files p_global p n); [|exact SiG]. apply profile_eqb_same in CU. unfold same_profile in *. congruence. }
    destruct PP as [(Nd & k & w & v & x & LA & R & V & Gs & T)|[SiP Gs]].
    { destruct (UP _ _ _ _ Gs T (get n (tpiled c ms p_default E0))) as (w2 & E2' & T2).
      exists w2. rewrite G. split; [exact E2'|]. left. exists (InSection k p), v. split; [eapply sp_selected; eassumption|]. auto. }
    rewrite Gs, NO in G.
    destruct (tpiled_top files ms p_default n SP WP PL c E0 (proj1 W0)) as [(k & w & v & x & LA & R & V & Gd & T)|[SiD Gd]].
    { exists w. rewrite G. split; [exact Gd|]. left. exists (InSection k p_default), v. split; [eapply sp_default; eassumption|]. auto. }
    assert (M0 := magic_get n _ _ U0). unfold oput in M0. rewrite G0 in M0.
    destruct (get n E0) as [e0|] eqn:GE; [|destruct M0].
    exists e0. rewrite G. split; [exact Gd|]. right. split; [|exact M0].
    intros who v [s x S' E|k d x U L R|k d x U Sg Nd L R|k d x U Sg Sp L R].
    - exact (set_not_unset _ _ _ _ S' HK).
    - exact (last_at_silent _ _ _ _ _ L SiG).
    - destruct SiP as [X|X]; [exact (Nd X)|exact (last_at_silent _ _ _ _ _ L X)].
    - exact (last_at_silent _ _ _ _ _ L SiD).
  Qed.
End Staged.
