(** Proofs about configuration files divided into profiles. *)
From Coq Require Import Ascii String ZArith NArith Bool Lia.
From Coq Require Import List.
From Verif Require Import Res BMap BMapProofs Str StrProofs Profile Tag Num Value Metadata Err Coalesce Figment De Ser Parse Path Data Doc Env.
From Verif Require Import SpecLookup SpecFigment SpecDe SpecExtract SpecValue SpecRt SpecInto SpecData SpecDoc SpecEnv SpecText SpecLayers SpecStack SpecStages.
From Verif Require BlameProofs.
From Verif Require Import ValueProofs CoalesceProofs FigmentProofs DeProofs SerProofs IntoProofs MeaningProofs ExtractProofs
  EnvProofs LookupProofs TextProofs DataProofs DocProofs BlindProofs OrderProofs LayersProofs StackProofs PropsFile.
Import ListNotations.

(** ** One file *)
Lemma nested_brings fs pr l : nested_file fs pr l ->
  pv_profile pr = None /\ exists m, pv_data pr = Ok m /\ wf_profiles m /\ says_profiles l m.
Proof.
  intros (nm & parse & mistake & custom & path & DP & [[F ->]|(q & text & F & RD & PA)] & PL);
    unfold data_nested, data_file in DP; cbn [da_source] in DP.
  - destruct (C36_missing (doc_format nm parse mistake custom) fs path true None F) as (p & E & Ed & _).
    rewrite E in DP. injection DP as <-. split.
    + unfold data_provider in E. apply finds_resolve in F. unfold data_metadata, data_data in E. cbn [da_source da_profile] in E.
      rewrite F in E. cbn in E. injection E as <-. reflexivity.
    + exists []. split; [exact Ed|]. split; [split; [exact I|constructor]|].
      split; [intros ? ? []|]. split; [exact I|]. split; [|split; [discriminate|intros ? ? []]].
      intros k x (l1 & k' & l2 & E' & _). destruct l1; discriminate.
  - assert (R := finds_resolve _ _ _ _ F).
    destruct (C37_metadata (doc_format nm parse mistake custom) fs path false true None q R) as (p & E & _ & _ & M).
    rewrite E in DP. injection DP as <-. rewrite RD in M.
    destruct (nested_provider _ _ _ _ _ _ _ _ _ E M PA PL) as (Pl & m & Hd & S). split.
    + unfold data_provider, data_metadata, data_data in E. cbn [da_source da_profile] in E.
      rewrite R in E. cbn in E. injection E as <-. reflexivity.
    + exists m. split; [exact Hd|]. split; [|exact S]. destruct Pl as (_ & Pl). rewrite Hd in Pl. apply Pl.
Qed.

Lemma tells_get l m r n : says_profiles l m ->
  match get n (data_of m r) with
  | Some v => exists d, tells l r n d /\ reads d v
  | None => forall d, ~ tells l r n d
  end.
Proof.
  intros (S1 & S2 & S3 & S4 & S5). unfold data_of. destruct (get r m) as [mx|] eqn:G.
  - destruct (S4 _ _ G) as [x X]. destruct (S3 _ _ X) as (lx & mx' & -> & G' & (A1 & A2 & A3 & A4)).
    assert (mx' = mx) by congruence. subst mx'.
    assert (FS : forall ly, section l r (DocMap ly) -> says ly mx).
    { intros ly Y. destruct (S3 _ _ Y) as (lz & mz & [= <-] & Gz & Sz). assert (mz = mx) by congruence. now subst. }
    destruct (get n mx) as [v|] eqn:Gv.
    + destruct (get_In _ _ _ Gv) as (k & Ek & I). apply cmp_leibniz in Ek. subst k.
      destruct (A4 _ _ I) as [d Hd]. destruct (A3 _ _ Hd) as (v' & I' & Rv). apply (In_get _ _ _ A2) in I'.
      assert (v' = v) by congruence. subst v'. exists d. split; [exists lx; auto|exact Rv].
    + intros d (ly & Y & Hd). destruct (FS ly Y) as (B1 & B2 & B3 & B4). destruct (B3 _ _ Hd) as (v' & I' & _).
      apply (In_get _ _ _ B2) in I'. congruence.
  - intros d (lx & X & _). destruct (S3 _ _ X) as (ly & mx & _ & G' & _). congruence.
Qed.

(** ** All of them *)
Definition piled (ms : list (bmap profile dict)) (r : profile) (d : dict) : dict :=
  fold_left (fun a m => dcoalesce Merge a (data_of m r)) ms d.
Lemma piled_sorted ms r : forall d, sorted d -> sorted (piled ms r d).
Proof. induction ms as [|m ms IH]; intros d S; [exact S|]. apply IH, dcoalesce_sorted. Qed.
Lemma piled_wf ms r : Forall wf_profiles ms -> forall d, wf_dict d -> wf_dict (piled ms r d).
Proof. induction 1 as [|m ms W F IH]; intros d S; [exact S|]. apply IH. apply wf_dcoalesce; [exact S|now apply data_of_wf]. Qed.
Lemma piled_dut ms r : forall d d', dut d d' -> dut (piled ms r d) (piled ms r d').
Proof. induction ms as [|m ms IH]; intros d d' U; [exact U|]. apply IH. apply dcoalesce_rel; [exact U|apply dut_refl]. Qed.

Lemma piled_top files ms r n : Forall2 says_profiles files ms -> Forall wf_profiles ms -> forall d, sorted d ->
  (exists w v x, last_word files r n x /\ reads x v /\ get n (piled ms r d) = Some w /\ close w v) \/
  (silent files r n /\ get n (piled ms r d) = get n d).
Proof.
  induction 1 as [|l m files ms Sm F IH]; intros W d S.
  - right. split; [intros l d' []|reflexivity].
  - inversion W as [|? ? Wm Wms]; subst. cbn [piled fold_left].
    destruct (IH Wms (dcoalesce Merge d (data_of m r)) (dcoalesce_sorted _ _ _)) as [(w & v & x & (b & l' & a & -> & T & A) & R & G & C)|[Si G]].
    + left. exists w, v, x. split; [|auto]. exists (l :: b), l', a. auto.
    + assert (Sd : sorted (data_of m r)) by apply (data_of_wf m r Wm).
      assert (GM := get_merged d (data_of m r) n S Sd). assert (T := tells_get l m r n Sm).
      destruct (get n (data_of m r)) as [v|].
      * destruct T as (x & T & R). destruct GM as (w & Gw & C). left. exists w, v, x. split; [|split; [exact R|split; [|exact C]]].
        -- exists [], l, files. split; [reflexivity|]. split; [exact T|]. intros l' d' I. apply (Si l' d' I).
        -- unfold piled in G. rewrite G. exact Gw.
      * right. split; [|unfold piled in G; rewrite G; exact GM]. intros l' d' [<-|I]; [apply T|now apply Si].
Qed.

Lemma piled_run prs : forall ms, Forall2 (fun lp m => pv_profile (snd lp) = None /\ pv_data (snd lp) = Ok m /\ wf_profiles m) prs ms ->
  forall rest f m c f' c', f_value f = Ok m -> wf_profiles m ->
  run (map (fun lp : location * provider => OpProvide (fst lp) Merge (snd lp)) prs ++ rest) f c = (Ret f', c') ->
  exists f1 m1 c1, f_value f1 = Ok m1 /\ wf_profiles m1 /\ f_profile f1 = f_profile f /\
    (forall r, dut (data_of m1 r) (piled ms r (data_of m r))) /\ run rest f1 c1 = (Ret f', c').
Proof.
  induction 1 as [|[l p] mm prs ms (P & D & W) F IH]; intros rest f m c f' c' Ef Wm HR.
  - exists f, m, c. repeat (split; [assumption || reflexivity|]). split; [intros r; apply dut_refl|exact HR].
  - cbn [map app run run_op fst snd] in *. destruct (provide l f p Merge c) as [[f1| |] c1] eqn:E; try discriminate.
    destruct (data_provide _ _ _ _ _ _ _ m mm Ef Wm D W E) as (m1 & Ef1 & Wm1 & U).
    destruct (IH rest f1 m1 c1 f' c' Ef1 Wm1 HR) as (f2 & m2 & c2 & A & B & PF & U2 & R).
    exists f2, m2, c2. split; [exact A|]. split; [exact B|]. split.
    + rewrite PF. apply provide_ret in E. destruct E as (_ & _ & ->). cbn. rewrite P. reflexivity.
    + split; [|exact R]. intros r. eapply dut_trans; [apply U2|]. cbn [piled fold_left]. apply piled_dut. apply U.
Qed.

(** ** Words *)
Lemma tells_fun l r n d d' : tells l r n d -> tells l r n d' -> d = d'.
Proof.
  intros (lx & (a & k & b & E & S & N) & G) (ly & (a' & k' & b' & E' & S' & N') & G').
  assert (X : DocMap lx = DocMap ly).
  { clear G G'. revert a' E'. subst l. induction a as [|h a IH]; intros a' E'.
    - destruct a' as [|h' a']; [cbn in E'; congruence|]. injection E' as _ E'. exfalso. apply (N k' (DocMap ly)); [rewrite E'; apply in_elt|exact S'].
    - destruct a' as [|h' a']; [|injection E' as _ E'; exact (IH a' E')]. injection E' as _ E'. exfalso.
      apply (N' k (DocMap lx)); [rewrite <- E'; apply in_elt|exact S]. }
  injection X as <-. apply last_of_some in G, G'. congruence.
Qed.
Lemma last_word_fun files r n d d' : last_word files r n d -> last_word files r n d' -> d = d'.
Proof.
  intros (a & l & b & E & T & N) (a' & l' & b' & E' & T' & N'). revert a' E'. subst files. induction a as [|h a IH]; intros a' E'.
  - destruct a' as [|h' a']; [injection E' as <- <-; eapply tells_fun; eauto|]. injection E' as _ E'. exfalso.
    apply (N l' d'); [rewrite E'; apply in_elt|exact T'].
  - destruct a' as [|h' a']; [|injection E' as _ E'; exact (IH a' E')]. injection E' as _ E'. exfalso.
    apply (N' l d); [rewrite <- E'; apply in_elt|exact T].
Qed.
Lemma word_not_silent files r n d : last_word files r n d -> silent files r n -> False.
Proof. intros (a & l & b & -> & T & _) S. apply (S l d); [apply in_elt|exact T]. Qed.
Lemma section_same {A} (l : list (ustr * A)) p q x : same_profile p q -> section l p x -> section l q x.
Proof.
  intros E (a & k & b & -> & S & N). exists a, k, b. split; [reflexivity|]. unfold same_profile in *. split; [congruence|].
  intros k' y I C. apply (N k' y I). congruence.
Qed.
Lemma tells_same l p q n d : same_profile p q -> tells l p n d -> tells l q n d.
Proof. intros E (lx & S & G). exists lx. split; [now apply (section_same l p)|exact G]. Qed.
Lemma word_same files p q n d : same_profile p q -> last_word files p n d -> last_word files q n d.
Proof.
  intros E (a & l & b & -> & T & N). exists a, l, b. split; [reflexivity|]. split; [now apply (tells_same l p)|].
  intros l' d' I T'. apply (N l' d' I). apply (tells_same l' q); [unfold same_profile in *; congruence|exact T'].
Qed.
Lemma silent_same files p q n : same_profile p q -> silent files p n -> silent files q n.
Proof. intros E S l d I T. apply (S l d I). apply (tells_same l q); [unfold same_profile in *; congruence|exact T]. Qed.
Lemma reads_fun d v v' : reads d v -> reads d v' -> v = v'.
Proof. intros A B. apply doc_value_reads in A, B. congruence. Qed.

Lemma profile_eqb_same p q : profile_eqb p q = true <-> same_profile p q.
Proof. unfold profile_eqb, uncased_eqb, same_profile. rewrite ueqb_eq. reflexivity. Qed.

Lemma selects_global pre vars kept : selects (survives true (mapped_key (FromPrefix pre) [OpGlobal])) vars kept ->
  selects (survives true (mapped_key (FromPrefix pre) [])) vars kept.
Proof.
  assert (E : forall s, mapped_key (FromPrefix pre) [OpGlobal] s = mapped_key (FromPrefix pre) [] s).
  { intros s. unfold mapped_key. cbn [fold_left]. destruct (start_key (FromPrefix pre) s); reflexivity. }
  induction 1 as [|a b l l' H S IH|a l l' H S IH]; [constructor| |].
  - apply sel_keep; [|exact IH]. destruct H as (A & B & m & C). rewrite E in C. red. eauto.
  - apply sel_drop; [|exact IH]. intros b (A & B & m & C). apply (H b). rewrite <- E in C. red. eauto.
Qed.

(** ** One field *)
Section Stages.
  Variables (i : interp) (pre : ustr) (vars kept : list (ustr * ustr)) (files : list (list (ustr * doc)))
            (ms : list (bmap profile dict)) (p : profile) (d0 d2 D : dict).
  Hypothesis NW : no_white pre.
  Hypothesis ND : forall name s, In (name, s) vars -> ~ In dot name.
  Hypothesis KS : selects (survives true (mapped_key (FromPrefix pre) [])) vars kept.
  Hypothesis W0 : wf_dict d0.
  Hypothesis SP : Forall2 says_profiles files ms.
  Hypothesis WP : Forall wf_profiles ms.
  Hypothesis EF : env_fold kept [] = Ret d2.
  Hypothesis HD : dut D (dcoalesce Merge
    (dcoalesce Merge (piled ms p_default d0) (if is_custom p then piled ms p [] else []))
    (dcoalesce Merge (piled ms p_global []) d2)).

  Lemma field_staged n t x v0 : restorable t -> undivided t -> inhabits t x -> serialize x = Ok v0 -> get n d0 = Some v0 ->
    forall y, match get n D with Some v => extracts i t v y | None => optional t /\ y = EVNone end <->
              staged i pre vars files p n t x y.
  Proof.
    intros R U HX Hs G0 y.
    destruct (env_top kept n (kept_single pre vars kept NW ND KS) [] d2 EF wf_dict_nil) as [W2 H2].
    assert (HK := kept_last pre n vars NW ND kept KS).
    set (S := if is_custom p then piled ms p [] else []) in *.
    assert (SS : sorted S) by (unfold S; destruct (is_custom p); [apply piled_sorted|]; exact I).
    assert (SG : sorted (piled ms p_global [])) by (apply piled_sorted; exact I).
    assert (S0 : sorted (piled ms p_default d0)) by (apply piled_sorted, W0).
    assert (G1 := get_merged (dcoalesce Merge (piled ms p_default d0) S) (dcoalesce Merge (piled ms p_global []) d2) n
                    (dcoalesce_sorted _ _ _) (dcoalesce_sorted _ _ _)).
    assert (G2 := get_merged (piled ms p_global []) d2 n SG (proj1 W2)).
    assert (G3 := get_merged (piled ms p_default d0) S n S0 SS).
    assert (HG := magic_get n _ _ HD). unfold oput in HG.
    assert (UT : forall w v, get n (dcoalesce Merge (dcoalesce Merge (piled ms p_default d0) S) (dcoalesce Merge (piled ms p_global []) d2)) = Some w ->
              close w v ->
              match get n D with Some v => extracts i t v y | None => optional t /\ y = EVNone end <-> extracts i t v y).
    { intros w v E C. rewrite E in HG. destruct (get n D) as [w'|]; [|destruct HG].
      rewrite <- (close_extracts i t w v y U C). split; apply extracts_ut; [exact HG|now symmetry]. }
    destruct (last_of n kept) as [s|] eqn:EL.
    { destruct H2 as (v & w & Ev & Gw & C). rewrite Gw in G2. destruct G2 as (w1 & Gw1 & C1).
      rewrite Gw1 in G1. destruct G1 as (w2 & Gw2 & C2).
      rewrite (UT w2 v Gw2 (close_trans _ _ _ C2 (close_trans _ _ _ C1 C))). split.
      + intros H. eapply sg_variable; eauto.
      + intros [s' v' Hs' Ev' H|d v' Hu _ _ _|d v' Hu _ _ _ _|d v' Hu _ _ _ _ _|Hu _ _ _ _];
          try (destruct (set_not_unset _ _ _ _ HK Hu); fail).
        rewrite (set_to_fun _ _ _ _ _ Hs' HK) in Ev'. congruence. }
    cbn [get] in H2. rewrite H2 in G2.
    destruct (piled_top files ms p_global n SP WP [] I) as [(w & v & dd & LW & Rd & Gw & C)|[SiG Gw]].
    { rewrite G2, Gw in G1. destruct G1 as (w2 & Gw2 & C2). rewrite (UT w2 v Gw2 (close_trans _ _ _ C2 C)). split.
      + intros H. eapply sg_global; eauto.
      + intros [s' v' Hs' _ _|d v' _ L' R' H|d v' _ Si _ _ _|d v' _ Si _ _ _ _|_ Si _ _ _];
          try (destruct (word_not_silent _ _ _ _ LW Si); fail); [destruct (set_not_unset _ _ _ _ Hs' HK)|].
        rewrite (last_word_fun _ _ _ _ _ L' LW) in R'. rewrite (reads_fun _ _ _ Rd R'). exact H. }
    rewrite G2, Gw in G1. cbn [get] in G1.
    assert (PP : (exists w v x, last_word files p n x /\ reads x v /\ get n S = Some w /\ close w v) \/
                 (silent files p n /\ get n S = None) \/
                 (same_profile p p_default /\ get n S = None)).
    { unfold S. destruct (is_custom p) eqn:CU.
      - destruct (piled_top files ms p n SP WP [] I) as [X|[X Y]]; [left; exact X|right; left; split; [exact X|exact Y]].
      - right. unfold is_custom in CU. apply andb_false_iff in CU. rewrite !negb_false_iff in CU. cbn [get].
        destruct CU as [CU|CU]; [right|left]; (split; [|reflexivity]).
        + apply profile_eqb_same. exact CU.
        + apply (silent_same files p_global p n); [|exact SiG]. apply profile_eqb_same in CU. unfold same_profile in *. congruence. }
    destruct (piled_top files ms p_default n SP WP d0 (proj1 W0)) as [(w & v & dd & LW & Rd & Gd & C)|[SiD Gd]].
    - destruct PP as [(w1 & v1 & d1 & LW1 & Rd1 & Gw1 & C1)|[[SiP Gs]|[SD Gs]]].
      + rewrite Gw1 in G3. destruct G3 as (w3 & Gw3 & C3). rewrite Gw3 in G1. rewrite (UT w3 v1 G1 (close_trans _ _ _ C3 C1)). split.
        * intros H. eapply sg_profile; eauto.
        * intros [s' v' Hs' _ _|d v' _ L' _ _|d v' _ _ L' R' H|d v' _ _ Si _ _ _|_ _ Si _ _];
            try (destruct (word_not_silent _ _ _ _ LW1 Si); fail);
            [destruct (set_not_unset _ _ _ _ Hs' HK)|destruct (word_not_silent _ _ _ _ L' SiG)|].
          rewrite (last_word_fun _ _ _ _ _ L' LW1) in R'. rewrite (reads_fun _ _ _ Rd1 R'). exact H.
      + rewrite Gs, Gd in G3. rewrite G3 in G1. rewrite (UT w v G1 C). split.
        * intros H. eapply sg_default; eauto.
        * intros [s' v' Hs' _ _|d v' _ L' _ _|d v' _ _ L' _ _|d v' _ _ _ L' R' H|_ _ _ Si _];
            [destruct (set_not_unset _ _ _ _ Hs' HK)|destruct (word_not_silent _ _ _ _ L' SiG)|destruct (word_not_silent _ _ _ _ L' SiP)| |destruct (word_not_silent _ _ _ _ LW Si)].
          rewrite (last_word_fun _ _ _ _ _ L' LW) in R'. rewrite (reads_fun _ _ _ Rd R'). exact H.
      + rewrite Gs, Gd in G3. rewrite G3 in G1. rewrite (UT w v G1 C).
        assert (LP : last_word files p n dd) by (apply (word_same files p_default p); [unfold same_profile in *; congruence|exact LW]). split.
        * intros H. eapply sg_profile; eauto.
        * intros [s' v' Hs' _ _|d v' _ L' _ _|d v' _ _ L' R' H|d v' _ _ Si _ _ _|_ _ Si _ _];
            try (destruct (word_not_silent _ _ _ _ LP Si); fail);
            [destruct (set_not_unset _ _ _ _ Hs' HK)|destruct (word_not_silent _ _ _ _ L' SiG)|].
          rewrite (last_word_fun _ _ _ _ _ L' LP) in R'. rewrite (reads_fun _ _ _ Rd R'). exact H.
    - assert (PP' : (exists w v x, last_word files p n x /\ reads x v /\ get n S = Some w /\ close w v) \/ (silent files p n /\ get n S = None)).
      { destruct PP as [X|[X|[X Y]]]; auto. right. split; [|exact Y]. apply (silent_same files p_default p); [unfold same_profile in *; congruence|exact SiD]. }
      clear PP. destruct PP' as [(w1 & v1 & d1 & LW1 & Rd1 & Gw1 & C1)|[SiP Gs]].
      + rewrite Gw1 in G3. destruct G3 as (w3 & Gw3 & C3). rewrite Gw3 in G1. rewrite (UT w3 v1 G1 (close_trans _ _ _ C3 C1)). split.
        * intros H. eapply sg_profile; eauto.
        * intros [s' v' Hs' _ _|d v' _ L' _ _|d v' _ _ L' R' H|d v' _ _ Si _ _ _|_ _ Si _ _];
            try (destruct (word_not_silent _ _ _ _ LW1 Si); fail);
            [destruct (set_not_unset _ _ _ _ Hs' HK)|destruct (word_not_silent _ _ _ _ L' SiG)|].
          rewrite (last_word_fun _ _ _ _ _ L' LW1) in R'. rewrite (reads_fun _ _ _ Rd1 R'). exact H.
      + rewrite Gs, Gd, G0 in G3. rewrite G3 in G1. rewrite (UT v0 v0); [|exact G1|now left].
        destruct (restorable_ordinary t R) as [O N].
        destruct (serialized_extracts i t x R HX) as (v' & E' & HV). rewrite Hs in E'. injection E' as <-.
        split.
        * intros H. apply sg_unsaid; auto. eapply extracts_fun; eauto using serialize_wf.
        * intros [s' v' Hs' _ _|d v' _ L' _ _|d v' _ _ L' _ _|d v' _ _ _ L' _ _|_ _ _ _ ->];
            [destruct (set_not_unset _ _ _ _ Hs' HK)|destruct (word_not_silent _ _ _ _ L' SiG)|destruct (word_not_silent _ _ _ _ L' SiP)|destruct (word_not_silent _ _ _ _ L' SiD)|exact HV].
  Qed.

  Lemma fields_staged fs xs : all (map (fun f => restorable (snd f)) fs) -> Forall (fun f => undivided (snd f)) fs ->
    Forall2 (fun (f : ustr * ty) (y : ustr * dval) => fst f = fst y /\ inhabits (snd f) (snd y) /\
             exists v, serialize (snd y) = Ok v /\ get (fst f) d0 = Some v) fs xs ->
    forall ys, by_name (map (fun f => (fst f, (optional (snd f), extracts i (snd f)))) fs) D ys <->
               staged_all i pre vars files p fs xs ys.
  Proof.
    intros R U HF. rewrite BlameProofs.all_Forall in R. induction HF as [|[n t] [n' x] fs xs (E & HX & v0 & Hs & G0) HF IH]; intros ys.
    - destruct ys; cbn; tauto.
    - inversion R; inversion U; subst. cbn [fst snd] in *. subst n'. destruct ys as [|[n2 y] ys]; [cbn; tauto|].
      cbn [map by_name staged_all fst snd].
      rewrite (field_staged n t x v0) by assumption. rewrite IH by assumption. tauto.
  Qed.
End Stages.
