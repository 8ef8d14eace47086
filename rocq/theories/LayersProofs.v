(** Proofs about overriding. *)
From Coq Require Import Ascii String ZArith NArith Bool Lia.
From Coq Require Import List.
From Verif Require Import Res BMap Str Profile Tag Num Value Metadata Err Coalesce Figment De Ser.
From Verif Require Import BMapProofs StrProofs ValueProofs CoalesceProofs FigmentProofs DeProofs BlameProofs MeaningProofs SerProofs RtProofs.
From Verif Require Import SpecLookup SpecValue SpecFigment SpecDe SpecExtract SpecRt SpecBlind SpecFrame SpecLayers.
From Verif Require Import BlindProofs ExtractProofs PriorityProofs ProvProofs OrderProofs.
Import ListNotations.

(** ** Tags do not matter *)
Lemma leading_ut (rs rs' : list (value -> dval -> Prop)) : Forall2 (fun r r' : value -> dval -> Prop => forall v v' y, ut v v' -> r v y -> r' v' y) rs rs' ->
  forall l l' ys, Forall2 ut l l' -> leading rs l ys -> leading rs' l' ys.
Proof.
  induction 1 as [|r r' rs rs' Hr HF IH]; intros l l' ys HL HY.
  - destruct ys; [exact I|]. destruct l; destruct HY.
  - destruct HL as [|v v' l l' U HL]; [destruct HY|]. destruct ys as [|y ys]; [destruct HY|].
    destruct HY as [H1 H2]. split; [eapply Hr; eauto|eapply IH; eauto].
Qed.

Lemma by_name_ut (ts : list (ustr * ty)) (R : ty -> value -> dval -> Prop) d d' :
  Forall (fun f => forall v v' y, ut v v' -> R (snd f) v y -> R (snd f) v' y) ts -> dut d d' ->
  forall ys, by_name (map (fun f => (fst f, (optional (snd f), R (snd f)))) ts) d ys ->
             by_name (map (fun f => (fst f, (optional (snd f), R (snd f)))) ts) d' ys.
Proof.
  intros HF HD. induction HF as [|[n t] ts Ht HF IH]; intros [|[n' y] ys]; cbn; auto.
  intros (E & H & HB). split; [exact E|]. split; [|auto].
  assert (X := keyed_get ut n d d' HD). destruct (get n d), (get n d'); try contradiction; eauto.
Qed.

Lemma dut_In d d' k v' : dut d d' -> In (k, v') d' -> exists v, In (k, v) d.
Proof.
  induction 1 as [|[a x] [b y] l l' [E _] HF IH]; [intros []|]. cbn in E. subst b. intros [H|H].
  - injection H as -> ->. exists x. now left.
  - destruct (IH H) as [v Hv]. exists v. now right.
Qed.

Lemma empty_ut v v' : ut v v' -> empty v -> empty v'.
Proof. intros U (g & e & ->). apply ut_cases in U. inversion U; subst. red. eauto. Qed.

Ltac utc U := apply ut_cases in U; inversion U; subst; clear U;
  try match goal with X : dut _ _ |- _ => rename X into HU end;
  try match goal with X : Forall2 ut _ _ |- _ => rename X into HU end.

Lemma extracts_ut i t : forall v v' y, ut v v' -> extracts i t v y -> extracts i t v' y.
Proof.
  induction t as [|k| | | | | |t IH|t IH|ts IH|t IH|k t IHk IH|n id dn fs IH|id t IH|id ts IH|id|id vs IH| | | | | | |a b IHa IHb]
    using ty_ind'; intros v v' y U; cbn [extracts]; try tauto.
  - intros (b & H & ->). exists b. split; [|reflexivity].
    inversion H as [|? ? HB]; subst; [utc U; constructor|].
    inversion HB; subst; utc U; constructor; econstructor; eauto.
  - intros (j & z & H & HR). exists j, z. split; [|exact HR]. inversion H; subst; utc U; constructor; assumption.
  - intros (j & z & H & HR). exists j, z. split; [|exact HR]. inversion H; subst; utc U; constructor; assumption.
  - intros (j & z & H & HR). exists j, z. split; [|exact HR]. inversion H; subst; utc U; constructor; assumption.
  - intros (c & H & HR). exists c. split; [|exact HR]. inversion H; subst; utc U; constructor; assumption.
  - intros (c & H & HR). exists c. split; [|exact HR]. inversion H; subst; utc U; constructor; assumption.
  - intros ((g & ->) & HR). split; [|exact HR]. utc U. eauto.
  - intros [[H1 H2]|[H1 (x & H2 & H3)]].
    + left. split; [|exact H2]. eapply empty_ut; eauto.
    + right. split; [|eauto]. intros HE. apply H1. apply ut_sym in U. eapply empty_ut in HE; eauto.
  - intros (g & l & ys & -> & HF & ->). utc U. do 3 eexists. split; [reflexivity|]. split; [|reflexivity].
    match goal with H : Forall2 ut _ _ |- _ => revert H end.
    clear -IH HF. revert l'. induction HF as [|v y l ys Hv HF IHF]; intros l' HL; inversion HL; subst; constructor; eauto.
  - intros (g & l & ys & -> & HF & ->). utc U. do 3 eexists. split; [reflexivity|]. split; [|reflexivity].
    eapply leading_ut; eauto. clear -IH. induction IH; constructor; auto.
  - intros (g & d & ys & -> & HF & ->). utc U. do 3 eexists. split; [reflexivity|]. split; [|reflexivity].
    match goal with H : dut _ _ |- _ => revert H end.
    clear -IH HF. revert d'. induction HF as [|[k1 v] [k2 y] l ys [E Hv] HF IHF]; intros l' HL;
      inversion HL as [|? [k3 v3] ? ? [E1 U1] HL2]; subst; constructor; auto.
    cbn in *. subst. split; eauto.
  - intros (g & d & ys & -> & HF & ->). utc U. do 3 eexists. split; [reflexivity|]. split; [|reflexivity].
    match goal with H : dut _ _ |- _ => revert H end.
    clear -IH HF. revert d'. induction HF as [|[k1 v] [k2 y] l ys [E Hv] HF IHF]; intros l' HL;
      inversion HL as [|? [k3 v3] ? ? [E1 U1] HL2]; subst; constructor; auto.
    cbn in *. subst. split; eauto.
  - intros [(g & d & ys & -> & HD & HB & ->)|(g & l & ys & -> & HL & ->)]; utc U.
    + left. do 3 eexists. split; [reflexivity|]. split; [|split; [|reflexivity]].
      * intros E k x HI. destruct (dut_In _ _ _ _ HU HI) as [x' HI']. eapply HD; eauto.
      * eapply by_name_ut; eauto.
    + right. do 3 eexists. split; [reflexivity|]. split; [|reflexivity].
      eapply leading_ut; [|eauto|eauto]. clear -IH. induction IH; cbn; constructor; auto.
  - intros (x & H & ->). eauto.
  - intros (g & l & ys & -> & HF & ->). utc U. do 3 eexists. split; [reflexivity|]. split; [|reflexivity].
    eapply leading_ut; eauto. clear -IH. induction IH; constructor; auto.
  - intros ((g & ->) & HR). split; [|exact HR]. utc U. eauto.
  - intros [(g & s & -> & HR)|[(g & n & z & s & -> & HR)|(g & k & x & r & s & p & -> & HV & HP & ->)]]; utc U.
    + left. eauto.
    + right. left. do 4 eexists. split; [reflexivity|exact HR].
    + right. right. inversion HU as [|? [k' x'] ? r' [E U] HR]; subst. cbn in E, U. subst k'.
      do 6 eexists. split; [reflexivity|]. split; [exact HV|]. split; [|reflexivity].
      apply in_map_iff in HV. destruct HV as ([k0 s0] & E0 & HI). cbn in E0. injection E0 as -> <-.
      rewrite Forall_forall in IH. specialize (IH _ HI). cbn in IH.
      destruct HP as [g' E ->|o rr y E HP|rs g' l ys E -> HL|fs g' d2 ys E -> HB|fs g' l ys E -> HL].
      * utc U. econstructor; eauto.
      * destruct s0 as [|t0|ts0|fs0]; try discriminate. injection E as <- <-. econstructor; [reflexivity|]. eauto.
      * destruct s0 as [|t0|ts0|fs0]; try discriminate. injection E as <-. utc U. eapply pl_tuple; [reflexivity|reflexivity|].
        eapply leading_ut; [|eauto|eauto]. clear -IH. induction IH; cbn; constructor; auto.
      * destruct s0 as [|t0|ts0|fs0]; try discriminate. injection E as <-. utc U. eapply pl_fields; [reflexivity|reflexivity|].
        eapply by_name_ut; eauto.
      * destruct s0 as [|t0|ts0|fs0]; try discriminate. injection E as <-. utc U. eapply pl_elems; [reflexivity|reflexivity|].
        eapply leading_ut; [|eauto|eauto]. clear -IH. induction IH; cbn; constructor; auto.
  - intros (g & n & z & -> & HR). utc U. do 3 eexists. split; [reflexivity|exact HR].
  - intros (c & H & HR). exists c. split; [|exact HR]. inversion H; subst; utc U; constructor; assumption.
  - intros (c & H & HR). exists c. split; [|exact HR]. inversion H; subst; utc U; constructor; assumption.
  - intros (c & H & HR). exists c. split; [|exact HR]. inversion H; subst; utc U; constructor; assumption.
Qed.

Lemma shaped_ut i t : forall v v' y, ut v v' -> shaped i t v y -> shaped i t v' y.
Proof.
  induction t as [|k| | | | | |t IH|t IH|ts IH|t IH|k t IHk IH|n id dn fs IH|id t IH|id ts IH|id|id vs IH| | | | | | |a b IHa IHb]
    using ty_ind'; intros v v' y U; try (apply extracts_ut; exact U); cbn [shaped].
  - intros [[H1 H2]|[H1 (x & H2 & H3)]].
    + left. split; [|exact H2]. eapply empty_ut; eauto.
    + right. split; [|eauto]. intros HE. apply H1. apply ut_sym in U. eapply empty_ut in HE; eauto.
  - intros (g & d & ys & -> & HF & ->). utc U. do 3 eexists. split; [reflexivity|]. split; [|reflexivity].
    match goal with H : dut _ _ |- _ => revert H end.
    clear -IH HF. revert d'. induction HF as [|[k1 v] [k2 y] l ys [E Hv] HF IHF]; intros l' HL;
      inversion HL as [|? [k3 v3] ? ? [E1 U1] HL2]; subst; constructor; auto.
    cbn in *. subst. split; eauto.
  - intros (g & d & ys & -> & HD & HB & ->); utc U.
    do 3 eexists. split; [reflexivity|]. split; [|split; [|reflexivity]].
    + intros E k x HI. destruct (dut_In _ _ _ _ HU HI) as [x' HI']. eapply HD; eauto.
    + eapply by_name_ut; eauto.
  - intros (x & H & ->). eauto.
Qed.

(** What is shaped is read back. *)
Lemma by_name_mono (ts : list (ustr * ty)) (R S : ty -> value -> dval -> Prop) d :
  Forall (fun f => forall v y, R (snd f) v y -> S (snd f) v y) ts ->
  forall ys, by_name (map (fun f => (fst f, (optional (snd f), R (snd f)))) ts) d ys ->
             by_name (map (fun f => (fst f, (optional (snd f), S (snd f)))) ts) d ys.
Proof.
  intros HF. induction HF as [|[n t] ts Ht HF IH]; intros [|[n' y] ys]; cbn; auto.
  intros (E & H & HB). split; [exact E|]. split; [|auto].
  destruct (get n d); auto.
Qed.

Lemma shaped_extracts i t : forall v y, shaped i t v y -> extracts i t v y.
Proof.
  induction t as [|k| | | | | |t IH|t IH|ts IH|t IH|k t IHk IH|n id dn fs IH|id t IH|id ts IH|id|id vs IH| | | | | | |a b IHa IHb]
    using ty_ind'; intros v y; try (intros H; exact H); cbn [shaped extracts].
  - intros [[H1 H2]|[H1 (x & H2 & H3)]]; [left|right]; split; eauto.
  - intros (g & d & ys & -> & HF & ->). do 3 eexists. split; [reflexivity|]. split; [|reflexivity].
    eapply F2_imp; [|exact HF]. cbn. intros kv ky [E H]. auto.
  - intros (g & d & ys & -> & HD & HB & ->). left. do 3 eexists. split; [reflexivity|]. split; [exact HD|].
    split; [|reflexivity]. eapply by_name_mono; eauto.
  - intros (x & H & ->). eauto.
Qed.

(** ** Overriding *)
Lemma merge_replaces u v : (forall g d, v <> VDict g d) -> vcoalesce Merge u v = v.
Proof.
  intros H. destruct u, v; try reflexivity. exfalso. eapply H. reflexivity.
Qed.

Lemma merge_empty u v : empty (vcoalesce Merge u v) -> empty v.
Proof. intros (g & e & H). destruct u, v; cbn in H; try discriminate; red; eauto. Qed.

Lemma merge_over_empty u v : empty u -> vcoalesce Merge u v = v.
Proof. intros (g & e & ->). destruct v; reflexivity. Qed.

Lemma get_wf (d : dict) k v : wf_dict d -> get k d = Some v -> wf v.
Proof. intros [_ H] G. destruct (get_In _ _ _ G) as (k' & _ & HI). rewrite Forall_forall in H. exact (H _ HI). Qed.

Lemma merged_keys (a b : dict) k v : sorted a -> sorted b -> In (k, v) (dcoalesce Merge a b) ->
  (exists x, In (k, x) a) \/ (exists x, In (k, x) b).
Proof.
  intros Sa Sb HI. assert (G := In_get _ _ _ (dcoalesce_sorted Merge a b) HI).
  rewrite dcoalesce_get in G by assumption.
  destruct (get k a) as [x|] eqn:Ea.
  - left. destruct (get_In _ _ _ Ea) as (k' & E & H). apply cmp_leibniz in E. subst. eauto.
  - right. cbn in G. destruct (get_In _ _ _ G) as (k' & E & H). apply cmp_leibniz in E. subst. eauto.
Qed.

Lemma amended_shaped i fs u v :
  Forall (fun f => forall u x v y, shaped i (snd f) u x -> patched i (snd f) x v y -> wf u -> wf v ->
                   shaped i (snd f) (vcoalesce Merge u v) y) fs ->
  wf_dict u -> wf_dict v ->
  forall xs ys,
  by_name (map (fun f => (fst f, (optional (snd f), shaped i (snd f)))) fs) u xs ->
  amended (map (fun f => (fst f, patched i (snd f))) fs) xs v ys ->
  by_name (map (fun f => (fst f, (optional (snd f), shaped i (snd f)))) fs) (dcoalesce Merge u v) ys.
Proof.
  intros HF Wu Wv. induction HF as [|[n t] fs Ht HF IH]; intros [|[n1 x] xs] [|[n2 y] ys]; cbn; auto; try tauto.
  intros (-> & HX & HB) (_ & -> & HP & HA). split; [reflexivity|]. split; [|eapply IH; eauto].
  rewrite dcoalesce_get by (apply Wu || apply Wv). cbn in Ht.
  destruct (get n u) as [a|] eqn:Ea, (get n v) as [w|] eqn:Ew; cbn [opt_combine].
  - eapply Ht; eauto using get_wf.
  - subst y. exact HX.
  - destruct HX as [[t' ->] ->]. cbn [patched] in HP. cbn [shaped].
    destruct HP as [[H1 ->]|[(H1 & _ & b & H2 & ->)|(H1 & a' & b & H2 & _)]].
    + left. auto.
    + right. eauto.
    + discriminate.
  - subst y. exact HX.
Qed.

(** Sorted maps related key by key are related entry by entry. *)
Lemma keyed_intro {A B} (R : A -> B -> Prop) : forall (m : bmap ustr A) (m' : bmap ustr B), sorted m -> sorted m' ->
  (forall k, match get k m, get k m' with Some x, Some y => R x y | None, None => True | _, _ => False end) ->
  Forall2 (fun a b => fst b = fst a /\ R (snd a) (snd b)) m m'.
Proof.
  induction m as [|[k x] m IH]; intros [|[k' y] m'] S S' H.
  - constructor.
  - specialize (H k'). cbn in H. rewrite cmp_refl in H. destruct H.
  - specialize (H k). cbn in H. rewrite cmp_refl in H. destruct H.
  - destruct S as [S1 S2], S' as [S1' S2'].
    assert (E : k' = k).
    { assert (H1 := H k). assert (H2 := H k'). cbn in H1, H2. rewrite cmp_refl in H1, H2.
      destruct (cmp k k') eqn:E.
      - symmetry. now apply cmp_leibniz.
      - rewrite (lt_all_get k k' m') in H1; [destruct H1|exact S1'|congruence].
      - assert (E2 : cmp k' k = Lt) by (rewrite (cmp_sym k k'), E; reflexivity). rewrite E2 in H2.
        rewrite (lt_all_get k' k m) in H2; [destruct H2|exact S1|congruence]. }
    subst k'. constructor.
    + cbn. split; [reflexivity|]. specialize (H k). cbn in H. now rewrite cmp_refl in H.
    + apply IH; auto. intros k1. specialize (H k1). cbn in H. destruct (cmp k1 k) eqn:E; auto;
        rewrite (lt_all_get k1 k m), (lt_all_get k1 k m'); auto; congruence.
Qed.

Lemma keyed_entries {A B} (R : A -> B -> Prop) (m : bmap ustr A) (m' : bmap ustr B) k :
  Forall2 (fun a b => fst b = fst a /\ R (snd a) (snd b)) m m' ->
  match get k m, get k m' with Some x, Some y => R x y | None, None => True | _, _ => False end.
Proof.
  induction 1 as [|[k1 x1] [k2 x2] r r' [E1 E2] HF IH]; cbn; [exact I|]. cbn in E1, E2. subst k2.
  destruct (cmp k k1); auto.
Qed.

Lemma patched_shaped i t : forall u x v y, shaped i t u x -> patched i t x v y -> wf u -> wf v ->
  shaped i t (vcoalesce Merge u v) y.
Proof.
  induction t as [|k| | | | | |t IH|t IH|ts IH|t IH|k t IHk IH|n id dn fs IH|id t IH|id ts IH|id|id vs IH| | | | | | |a b IHa IHb]
    using ty_ind'; intros u x v y HS HP Wu Wv;
    try (destruct HP as [H1 H2]; rewrite merge_replaces by exact H1; exact H2); cbn [shaped patched] in *.
  - destruct HP as [[H1 ->]|[(H1 & -> & b & H2 & ->)|(H1 & a & b & -> & H2 & ->)]].
    + left. split; [|reflexivity]. rewrite merge_replaces; [exact H1|].
      destruct H1 as (g & e & ->). discriminate.
    + destruct HS as [[HE _]|(_ & z & _ & E)]; [|discriminate].
      rewrite merge_over_empty by exact HE. right. eauto.
    + destruct HS as [[_ E]|(HE & z & HS & E)]; [discriminate|]. injection E as <-.
      right. split; [|eauto]. intros H. apply merge_empty in H. auto.
  - destruct HS as (g & d & xs & -> & HF & ->). destruct HP as (g' & d' & xs' & ys & -> & E & -> & Sy & HP).
    injection E as <-. apply wf_VDict in Wu. apply wf_VDict in Wv.
    rewrite vcoalesce_dict. do 3 eexists. split; [reflexivity|]. split; [|reflexivity].
    apply keyed_intro; [apply dcoalesce_sorted|exact Sy|].
    intros k. specialize (HP k). assert (HK := keyed_entries _ _ _ k HF).
    rewrite dcoalesce_get by (apply Wu || apply Wv).
    destruct (get k d) as [a|] eqn:Ea, (get k d') as [w|] eqn:Ew, (get k xs) as [b|], (get k ys) as [c|];
      cbn [opt_combine]; try contradiction; auto.
    + eapply IH; eauto using get_wf.
    + subst c. exact HK.
  - destruct HS as (g & d & xs & -> & HD & HB & ->). destruct HP as (g' & d' & xs' & ys & -> & HD' & HA & E & ->).
    injection E as <-. apply wf_VDict in Wu. apply wf_VDict in Wv.
    rewrite vcoalesce_dict. do 3 eexists. split; [reflexivity|]. split; [|split; [|reflexivity]].
    + intros E k w HI. apply merged_keys in HI; [|apply Wu|apply Wv].
      destruct HI as [[w' HI]|[w' HI]]; [eapply HD; eauto|eapply HD'; eauto].
    + eapply amended_shaped; eauto.
  - destruct HS as (x0 & HS & ->). destruct HP as (a & b & E & HP & ->). injection E as <-. eauto.
Qed.

(** ** Serialized values are shaped *)
Section DvalInd.
  Variable P : dval -> Prop.
  Definition shape_all (s : shape dval) : Prop :=
    match s with
    | ShUnit => True
    | ShNew d => P d
    | ShTuple l => Forall P l
    | ShStruct l => Forall (fun kv => P (snd kv)) l
    end.
  Definition small (d : dval) : Prop :=
    match d with
    | EVSome _ | EVSeq _ | EVTuple _ | EVMap _ | EVPairs _ | EVStruct _ | EVNewtype _ | EVVariant _ _
    | EVLeft _ | EVRight _ => False
    | _ => True
    end.
  Hypothesis H0 : forall d, small d -> P d.
  Hypothesis H1 : forall d, P d -> P (EVSome d) /\ P (EVNewtype d) /\ P (EVLeft d) /\ P (EVRight d).
  Hypothesis H2 : forall l, Forall P l -> P (EVSeq l) /\ P (EVTuple l).
  Hypothesis H3 : forall l, Forall (fun kv => P (snd kv)) l -> P (EVMap l) /\ P (EVStruct l).
  Hypothesis H4 : forall l, Forall (fun kv => P (fst kv) /\ P (snd kv)) l -> P (EVPairs l).
  Hypothesis H5 : forall name s, shape_all s -> P (EVVariant name s).
  Fixpoint dval_ind' (d : dval) : P d :=
    let list_of := fix go (l : list dval) : Forall P l :=
      match l with [] => Forall_nil _ | x :: r => Forall_cons x (dval_ind' x) (go r) end in
    let fields_of := fix go (l : list (ustr * dval)) : Forall (fun kv => P (snd kv)) l :=
      match l with [] => Forall_nil _ | x :: r => Forall_cons x (dval_ind' (snd x)) (go r) end in
    let pairs_of := fix go (l : list (dval * dval)) : Forall (fun kv => P (fst kv) /\ P (snd kv)) l :=
      match l with
      | [] => Forall_nil _
      | x :: r => Forall_cons x (conj (dval_ind' (fst x)) (dval_ind' (snd x))) (go r)
      end in
    match d as d return P d with
    | EVSome d => proj1 (H1 d (dval_ind' d))
    | EVNewtype d => proj1 (proj2 (H1 d (dval_ind' d)))
    | EVLeft d => proj1 (proj2 (proj2 (H1 d (dval_ind' d))))
    | EVRight d => proj2 (proj2 (proj2 (H1 d (dval_ind' d))))
    | EVSeq l => proj1 (H2 l (list_of l))
    | EVTuple l => proj2 (H2 l (list_of l))
    | EVMap l => proj1 (H3 l (fields_of l))
    | EVStruct l => proj2 (H3 l (fields_of l))
    | EVPairs l => H4 l (pairs_of l)
    | EVVariant name s =>
        H5 name s (match s as s return shape_all s with
                   | ShUnit => I
                   | ShNew d => dval_ind' d
                   | ShTuple l => list_of l
                   | ShStruct l => fields_of l
                   end)
    | d => H0 d I
    end.
End DvalInd.

Lemma wf_collect (l : list (ustr * value)) : Forall (fun kv => wf (snd kv)) l -> wf (map_end l).
Proof.
  intros H. unfold map_end. apply wf_VDict. split; [apply sorted_collect|].
  apply Forall_forall. intros [k v] HI. apply get_collect_nodup in HI.
  rewrite Forall_forall in H. exact (H _ HI).
Qed.

Lemma serialize_value_wf v : wf (serialize_value v).
Proof.
  induction v using value_ind'; try exact I; cbn [serialize_value].
  - apply wf_collect. apply Forall_forall. intros kv HI. apply in_map_iff in HI.
    destruct HI as (kv' & <- & HI). rewrite Forall_forall in H. exact (H _ HI).
  - apply wf_VArray. apply Forall_forall. intros kv HI. apply in_map_iff in HI.
    destruct HI as (kv' & <- & HI). rewrite Forall_forall in H. exact (H _ HI).
Qed.

Lemma all_ok_wf (l : list dval) vs : Forall (fun d => forall v, serialize d = Ok v -> wf v) l ->
  all_ok (map serialize l) = Ok vs -> Forall wf vs.
Proof.
  intros H. rewrite all_ok_spec. revert vs. induction H as [|d l Hd HF IH]; intros vs HV; inversion HV; subst; auto.
Qed.
Lemma all_ok_fields_wf (l : list (ustr * dval)) vs : Forall (fun kv => forall v, serialize (snd kv) = Ok v -> wf v) l ->
  all_ok (map (fun kv => named (fst kv, serialize (snd kv))) l) = Ok vs -> Forall (fun kv => wf (snd kv)) vs.
Proof.
  intros H. rewrite all_ok_spec. revert vs.
  induction H as [|[k d] l Hd HF IH]; intros vs HV; inversion HV as [|? y ? ? E]; subst; constructor; auto.
  unfold named in E. cbn in E. apply res_map_ok in E. destruct E as (v & E & ->). cbn. auto.
Qed.
Lemma all_ok_pairs_wf (l : list (dval * dval)) vs :
  Forall (fun kv => (forall v, serialize (fst kv) = Ok v -> wf v) /\ (forall v, serialize (snd kv) = Ok v -> wf v)) l ->
  all_ok (map (fun kv => res_bind (res_bind (serialize (fst kv)) serialized_key)
                                  (fun k => named (k, serialize (snd kv)))) l) = Ok vs -> Forall (fun kv => wf (snd kv)) vs.
Proof.
  intros H. rewrite all_ok_spec. revert vs.
  induction H as [|[k d] l [_ Hd] HF IH]; intros vs HV; inversion HV as [|? y ? ? E]; subst; constructor; auto.
  cbn [fst snd] in *. apply res_bind_ok in E. destruct E as (k' & _ & E).
  unfold named in E. cbn in E. apply res_map_ok in E. destruct E as (v & E & ->). cbn. auto.
Qed.

Lemma wf_wrap name v : wf v -> wf (wrap_variant name v).
Proof. intros W. apply wf_VDict. apply wf_dict_insert; [apply wf_dict_nil|exact W]. Qed.

Lemma serialize_wf d : forall v, serialize d = Ok v -> wf v.
Proof.
  revert d. apply (dval_ind' (fun d => forall v, serialize d = Ok v -> wf v));
    [intros d S|intros d H|intros l H|intros l H|intros l H|intros name s H].
  - destruct d; try (destruct S; fail); cbn [serialize]; intros u E; injection E as <-; try exact I.
    apply serialize_value_wf.
  - repeat split; exact H.
  - split; cbn [serialize]; intros v E; apply res_map_ok in E; destruct E as (vs & E & ->);
      apply wf_VArray; eapply all_ok_wf; eauto.
  - split; cbn [serialize]; intros v E; apply res_map_ok in E; destruct E as (vs & E & ->);
      apply wf_collect; eapply all_ok_fields_wf; eauto.
  - cbn [serialize]; intros v E; apply res_map_ok in E; destruct E as (vs & E & ->);
      apply wf_collect; eapply all_ok_pairs_wf; eauto.
  - destruct s as [|d|l|l]; cbn [serialize shape_all] in *; intros v E.
    + injection E as <-. exact I.
    + apply res_map_ok in E. destruct E as (w & E & ->). apply wf_wrap. auto.
    + apply res_map_ok in E. destruct E as (w & E & ->). apply wf_wrap. apply wf_VArray. eapply all_ok_wf; eauto.
    + apply res_map_ok in E. destruct E as (w & E & ->). apply wf_wrap. apply wf_collect. eapply all_ok_fields_wf; eauto.
Qed.

Lemma all_both {A} (P Q R : A -> Prop) l : Forall (fun x => P x -> Q x /\ R x) l -> all (map P l) ->
  all (map Q l) /\ all (map R l).
Proof.
  rewrite !all_Forall. induction 1 as [|x l Hx HF IH]; intros H; inversion H; subst; [split; constructor|].
  destruct (Hx H2), (IH H3). split; constructor; auto.
Qed.

Lemma restorable_ordinary t : restorable t -> ordinary t /\ named_apart t.
Proof.
  induction t as [|k| | | | | |t IH|t IH|ts IH|t IH|k t IHk IH|n id dn fs IH|id t IH|id ts IH|id|id vs IH| | | | | | |a b IHa IHb]
    using ty_ind'; cbn [restorable ordinary named_apart]; try tauto.
  - destruct k; cbn; intros H; try tauto; split; auto; split; discriminate.
  - now apply all_both.
  - intros (H1 & H2 & H). destruct (all_both _ (fun f => ordinary (snd f)) (fun f => named_apart (snd f)) fs IH H). auto.
  - now apply all_both.
  - intros (H1 & H). 
    match goal with |- all (map ?Q _) /\ _ /\ all (map ?R _) =>
      assert (X : all (map Q vs) /\ all (map R vs)) end.
    { eapply all_both; [|exact H]. eapply Forall_impl; [|exact IH]. intros [nm [|t|ts|fs]]; cbn; auto.
      - apply all_both.
      - intros HF [N HR]. destruct (all_both _ (fun f => ordinary (snd f)) (fun f => named_apart (snd f)) fs HF HR). auto. }
    tauto.
Qed.

Lemma serialized_extracts i t x : restorable t -> inhabits t x ->
  exists v, serialize x = Ok v /\ extracts i t v x.
Proof.
  intros R H. destruct (roundtrip t R x H) as (v & [Hs Hr] & _). exists v. split; [exact Hs|].
  destruct (restorable_ordinary t R) as [O N].
  apply (mn_value _ _ _ _ (extraction_meant t O N (MConf i fig_new)) v x (serialize_wf _ _ Hs)).
  apply Hr. apply upto_refl.
Qed.

Lemma fields_shaped i fs : Forall (fun f => restorable (snd f) -> forall x, inhabits (snd f) x ->
    exists v, serialize x = Ok v /\ shaped i (snd f) v x) fs ->
  all (map (fun f => restorable (snd f)) fs) ->
  forall l, Forall2 (fun f y => fst f = fst y /\ inhabits (snd f) (snd y)) fs l ->
  exists vs, all_ok (map (fun kv => named (fst kv, serialize (snd kv))) l) = Ok vs /\
    map fst vs = map fst fs /\
    forall d, (forall k v, In (k, v) vs -> get k d = Some v) ->
    by_name (map (fun f => (fst f, (optional (snd f), shaped i (snd f)))) fs) d l.
Proof.
  intros HF O. rewrite all_Forall in O. induction HF as [|[n t] fs Ht HF IH]; intros l HL;
    inversion HL as [|? [n' y] ? l' [E Hy] HL']; subst.
  - exists []. cbn. auto.
  - inversion O; subst. cbn in *. subst n'. destruct (Ht H1 y Hy) as (v & Hs & Hv).
    destruct (IH H2 l' HL') as (vs & E & Ek & Hb). exists ((n, v) :: vs). split; [|split].
    + unfold named at 1. cbn. rewrite Hs. cbn. rewrite E. reflexivity.
    + cbn. congruence.
    + intros d Hd. split; [reflexivity|]. split.
      * rewrite (Hd n v) by now left. exact Hv.
      * apply Hb. intros k w HI. apply Hd. now right.
Qed.

Lemma get_collected (vs : list (ustr * value)) : NoDup (map fst vs) -> forall k v, In (k, v) vs -> get k (collect vs) = Some v.
Proof.
  intros N k v HI. assert (HK := collect_key vs k (in_map fst _ _ HI)).
  apply in_map_iff in HK. destruct HK as ([k' w] & E & HW). cbn in E. subst k'.
  rewrite (In_get _ _ _ (sorted_collect vs) HW). f_equal.
  apply get_collect_nodup in HW. revert N HI HW. clear. induction vs as [|[a b] vs IH]; cbn; [tauto|].
  intros N. inversion N; subst. intros [E|H1'] [E'|H2']; try congruence.
  - injection E as -> ->. exfalso. apply H1. apply (in_map fst) in H2'. exact H2'.
  - injection E' as -> ->. exfalso. apply H1. apply (in_map fst) in H1'. exact H1'.
  - auto.
Qed.

Lemma serialized_shaped i t : restorable t -> forall x, inhabits t x ->
  exists v, serialize x = Ok v /\ shaped i t v x.
Proof.
  induction t as [|k| | | | | |t IH|t IH|ts IH|t IH|k t IHk IH|n id dn fs IH|id t IH|id ts IH|id|id vs IH| | | | | | |a b IHa IHb]
    using ty_ind'; intros R x H; try (apply (serialized_extracts i _ x R H)).
  -
    inversion H; subst; cbn [shaped serialize].
    + eexists. split; [reflexivity|]. left. split; [red; eauto|reflexivity].
    + destruct R as [R NV]. destruct (IH R d H1) as (v & Hs & Hv). exists v. split; [exact Hs|].
      right. split; [|eauto]. intros (g & e & ->).
      destruct (roundtrip t R d H1) as (v' & [Hs' _] & HV). rewrite Hs in Hs'. injection Hs' as <-.
      eapply HV; eauto.
  - cbn [restorable] in R. inversion H as [| | | | | | | | | | |? l Hs Hl| | | | | | | | | | | | | | | | |]; subst.
    assert (X : exists vs, all_ok (map (fun kv => named (fst kv, serialize (snd kv))) l) = Ok vs /\
                  Forall2 (fun kv ky => fst ky = fst kv /\ shaped i t (snd kv) (snd ky)) vs l).
    { clear H Hs. induction Hl as [|[k d] l Hd Hl [vs [E F]]]; [exists []; split; constructor|].
      destruct (IH R d Hd) as (v & Rs & HV). exists ((k, v) :: vs). split; [|constructor; auto].
      cbn in *. unfold named at 1. cbn. rewrite Rs. cbn. rewrite E. reflexivity. }
    destruct X as (vs & E & F).
    assert (Sv : sorted vs).
    { apply (sorted_keys (K := ustr) l vs); [|exact Hs]. unfold keys.
      clear -F. induction F as [|a b l l' [E _] F IH]; cbn; congruence. }
    exists (map_end vs). cbn [serialize]. rewrite E. split; [reflexivity|].
    cbn [shaped]. unfold map_end. rewrite collect_sorted by assumption. eauto 6.
  - destruct R as (R1 & R2 & R3).
    inversion H as [| | | | | | | | | | | | |? ? ? ? l Hl| | | | | | | | | | | | | | |]; subst.
    destruct (fields_shaped i fs IH R3 l Hl) as (vs & E & Ek & Hb).
    exists (map_end vs). cbn [serialize]. rewrite E. split; [reflexivity|].
    cbn [shaped]. unfold map_end. do 3 eexists. split; [reflexivity|]. split; [|split; [|reflexivity]].
    + intros _ k v HI. apply get_collect_nodup in HI. apply (in_map fst) in HI. cbn in HI. now rewrite <- Ek.
    + apply Hb. apply get_collected. now rewrite Ek.
  - inversion H; subst. cbn [restorable] in R. destruct (IH R d H3) as (v & Hs & Hv). exists v. split; [exact Hs|].
    cbn [shaped]. eauto.
Qed.

(** ** Replacing a whole value *)
Definition flat (t : ty) : Prop :=
  match t with TStruct _ _ _ _ | TMap _ | TPairs _ _ | TOption _ | TNewtype _ _ | TValue | TEither _ _ => False | _ => True end.

Lemma flat_serialized t x v : flat t -> replaceable t -> inhabits t x -> serialize x = Ok v -> forall g d, v <> VDict g d.
Proof.
  intros F R H E g d ->. destruct H; try (destruct F; fail); cbn [serialize] in E; try discriminate;
    try (apply res_map_ok in E; destruct E as (? & _ & E); discriminate).
  all: cbn in R; rewrite Forall_forall in R; specialize (R _ H); discriminate.
Qed.

Lemma fields_replaced i fs : Forall (fun f => replaceable (snd f) -> restorable (snd f) -> forall x y v,
    inhabits (snd f) x -> inhabits (snd f) y -> serialize y = Ok v -> patched i (snd f) x v y) fs ->
  all (map (fun f => replaceable (snd f)) fs) -> all (map (fun f => restorable (snd f)) fs) ->
  forall d xs ys, Forall2 (fun f y => fst f = fst y /\ inhabits (snd f) (snd y)) fs xs ->
  Forall2 (fun f y => fst f = fst y /\ inhabits (snd f) (snd y)) fs ys ->
  (forall k y, In (k, y) ys -> exists v, serialize y = Ok v /\ get k d = Some v) ->
  amended (map (fun f => (fst f, patched i (snd f))) fs) xs d ys.
Proof.
  intros HF P O d. rewrite all_Forall in P, O. induction HF as [|[n t] fs Ht HF IH]; intros xs ys HX HY HD;
    inversion HX as [|? [n1 x] ? xs' [E1 A1] B1]; subst; inversion HY as [|? [n2 y] ? ys' [E2 A2] B2]; subst; cbn; auto.
  inversion P; inversion O; subst. cbn in *. subst. repeat split.
  - destruct (HD n2 y) as (v & E & ->); [now left|]. eapply Ht; eauto.
  - eapply IH; eauto.
Qed.

Lemma replaced i t : replaceable t -> restorable t -> forall x y v,
  inhabits t x -> inhabits t y -> serialize y = Ok v -> patched i t x v y.
Proof.
  induction t as [|k| | | | | |t IH|t IH|ts IH|t IH|k t IHk IH|n id dn fs IH|id t IH|id ts IH|id|id vs IH| | | | | | |a b IHa IHb]
    using ty_ind'; intros P R x y v HX HY E;
    try (destruct P; fail); try (destruct R; fail);
    try (split; [eapply flat_serialized; [|exact P|exact HY|exact E]; exact I|];
         destruct (serialized_extracts i _ y R HY) as (v' & E' & HV); rewrite E in E'; injection E' as <-; exact HV).
  - cbn [patched]. destruct R as [R NV]. cbn [replaceable] in P. inversion HY as [| | | | | | |? |? y' Hy| | | | | | | | | | | | | | | | | | | |]; subst.
    + cbn in E. injection E as <-. left. split; [red; eauto|reflexivity].
    + cbn in E. right. destruct (serialized_shaped i t R y' Hy) as (v' & E' & HV). rewrite E in E'. injection E' as <-.
      assert (NE : ~ empty v).
      { intros (g & e & ->). destruct (roundtrip t R y' Hy) as (v' & [Hs' _] & HE). rewrite E in Hs'. injection Hs' as <-.
        eapply HE; eauto. }
      inversion HX as [| | | | | | |? |? x' Hx| | | | | | | | | | | | | | | | | | | |]; subst; [left|right]; split; eauto.
      exists x', y'. split; [reflexivity|]. split; [|reflexivity]. eapply IH; eauto.
  - cbn [patched]. destruct R as (R1 & R2 & R3).
    inversion HX as [| | | | | | | | | | | | |? ? ? ? xs Hxs| | | | | | | | | | | | | | |]; subst.
    inversion HY as [| | | | | | | | | | | | |? ? ? ? ys Hys| | | | | | | | | | | | | | |]; subst.
    cbn [serialize] in E. apply res_map_ok in E. destruct E as (vs & E & ->). unfold map_end.
    assert (Ek : map fst vs = map fst fs).
    { apply all_ok_spec in E. clear -E Hys. revert vs E. induction Hys as [|[n t] [n' y] fs ys [Ef _] HF IH]; cbn; intros vs E;
        inversion E as [|? w ? ? Ew E']; subst; [reflexivity|]. cbn in *. subst n'.
      unfold named in Ew. apply res_map_ok in Ew. destruct Ew as (w' & _ & ->). cbn. f_equal. auto. }
    exists tag_default, (collect vs), xs, ys. split; [reflexivity|]. split; [|split; [|split; reflexivity]].
    + intros _ k w HI. apply get_collect_nodup in HI. apply (in_map fst) in HI. cbn in HI. now rewrite <- Ek.
    + eapply fields_replaced; eauto. intros k y HI.
      assert (X : exists w, In (k, w) vs /\ serialize y = Ok w).
      { apply all_ok_spec in E. clear -E HI. revert vs E. induction ys as [|[k' y'] ys IH]; intros vs E; [destruct HI|].
        inversion E as [|? w ? ? Ew E']; subst. unfold named in Ew. cbn in Ew. apply res_map_ok in Ew. destruct Ew as (w' & Ew & ->).
        destruct HI as [HI|HI].
        - injection HI as -> ->. exists w'. split; [now left|exact Ew].
        - destruct (IH HI _ E') as (w & HW & Es). exists w. split; [now right|exact Es]. }
      destruct X as (w & HW & Es). exists w. split; [exact Es|]. apply get_collected; [now rewrite Ek|exact HW].
  - cbn [patched restorable replaceable] in *. inversion HX; inversion HY; subst. do 2 eexists. split; [reflexivity|]. split; [|reflexivity].
    eapply IH; eauto.
Qed.

(** ** Figments *)
Lemma data_provide loc f p o c f' c' m n : f_value f = Ok m -> wf_profiles m -> pv_data p = Ok n -> wf_profiles n ->
  provide loc f p o c = (Ret f', c') ->
  exists m', f_value f' = Ok m' /\ wf_profiles m' /\
    forall q, dut (data_of m' q) (dcoalesce o (data_of m q) (data_of n q)).
Proof.
  intros Ef Wm HD Wn HP. apply provide_ret in HP. destruct HP as (_ & _ & ->).
  rewrite HD, Ef. cbn [f_value]. assert (Wr := wf_retag_data (tag_new c PTDefault) n Wn).
  eexists. split; [reflexivity|]. split; [now apply wf_pcoalesce|].
  intros q. rewrite data_of_pcoalesce by assumption. apply dcoalesce_rel; [apply dut_refl|apply data_of_retag].
Qed.

Lemma overrides_shaped i t l ds : overrides l ds -> forall f m c f' c' x y, f_value f = Ok m -> wf_profiles m ->
  shaped i t (VDict tag_default (default_layer m)) x -> patched_by i t x ds y -> run l f c = (Ret f', c') ->
  exists m', f_value f' = Ok m' /\ wf_profiles m' /\ shaped i t (VDict tag_default (default_layer m')) y.
Proof.
  induction 1 as [|loc p n l ds HD Wn HO IH|q l ds HO IH]; intros f m c f' c' x y Ef Wm HS HP HR.
  - inversion HP; subst. injection HR as <- <-. eauto.
  - inversion HP as [|? ? x' ? ? HP1 HP2]; subst. cbn [run run_op] in HR.
    destruct (provide loc f p Merge c) as [[f1| |] c1] eqn:E; try discriminate.
    destruct (data_provide loc f p Merge c f1 c1 m n Ef Wm HD Wn E) as (m1 & Ef1 & Wm1 & HU).
    eapply IH; [exact Ef1|exact Wm1| |exact HP2|exact HR].
    assert (HS2 := patched_shaped i t _ _ _ _ HS HP1 (proj2 (wf_VDict _ _) (data_of_wf m p_default Wm))
                     (proj2 (wf_VDict _ _) (data_of_wf n p_default Wn))).
    eapply shaped_ut; [|exact HS2]. apply ut_sym, utc_ut. constructor. apply HU.
  - cbn [run run_op] in HR. eapply IH; [| |exact HS|exact HP|exact HR]; auto.
Qed.

Lemma patched_extract i t f m x y z : f_value f = Ok m -> wf_profiles m -> ordinary t -> named_apart t ->
  shaped i t (VDict tag_default (default_layer m)) x ->
  patched i t x (VDict tag_default (selected_layer (f_profile f) m)) y ->
  patched i t y (VDict tag_default (global_layer m)) z ->
  extract i f t = Ok z.
Proof.
  intros Ef Wm O N HS H1 H2. assert (W1 := data_of_wf m p_default Wm). assert (W2 := data_of_wf m p_global Wm).
  assert (W3 := selected_wf f m Wm).
  assert (S1 := patched_shaped i t _ _ _ _ HS H1 (proj2 (wf_VDict _ _) W1) (proj2 (wf_VDict _ _) W3)).
  assert (S2 := patched_shaped i t _ _ _ _ S1 H2 (wf_vcoalesce _ _ _ (proj2 (wf_VDict _ _) W1) (proj2 (wf_VDict _ _) W3))
                  (proj2 (wf_VDict _ _) W2)).
  unfold extract. rewrite (merged_ok3 f m Ef Wm). cbn [res_bind].
  apply (mn_value _ _ _ _ (extraction_meant t O N (MConf i f))).
  - apply wf_VDict. unfold dmerge. auto using wf_dcoalesce.
  - apply shaped_extracts in S2. exact S2.
Qed.

Lemma kept_by_nothing i t g u x : shaped i t u x -> (exists n id dn fs, t = TStruct n id dn fs) ->
  patched i t x (VDict g []) x.
Proof.
  intros HS (n & id & dn & fs & ->). destruct HS as (g' & d & ys & -> & _ & HB & ->). cbn [patched].
  exists g, [], ys, ys. split; [reflexivity|]. split; [intros _ k w []|]. split; [|auto].
  revert HB. generalize ys. clear. induction fs as [|[n t] fs IH]; intros [|[n' y] ys]; cbn; auto.
  intros (-> & _ & HB). auto.
Qed.

Lemma patched_ut i t : forall x v v' y, ut v v' -> patched i t x v y -> patched i t x v' y.
Proof.
  assert (ND : forall v v', ut v v' -> (forall g d, v <> VDict g d) -> forall g d, v' <> VDict g d).
  { intros v v' U H g d ->. apply ut_sym in U. utc U. eapply H. reflexivity. }
  induction t as [|k| | | | | |t IH|t IH|ts IH|t IH|k t IHk IH|n id dn fs IH|id t IH|id ts IH|id|id vs IH| | | | | | |a b IHa IHb]
    using ty_ind'; intros x v v' y U;
    try (intros [H1 H2]; split; [eapply ND; eauto|eapply extracts_ut; eauto]); cbn [patched].
  - assert (E : empty v' -> empty v) by (apply empty_ut; now apply ut_sym).
    intros [[H1 H2]|[(H1 & H2 & b & H3 & H4)|(H1 & a & b & H2 & H3 & H4)]].
    + left. split; [eapply empty_ut; eauto|exact H2].
    + right. left. split; [tauto|]. split; [exact H2|]. exists b. split; [eapply shaped_ut; eauto|exact H4].
    + right. right. split; [tauto|]. exists a, b. eauto.
  - intros (g & d & xs & ys & -> & -> & -> & HS & HK). utc U.
    do 4 eexists. split; [reflexivity|]. split; [reflexivity|]. split; [reflexivity|]. split; [exact HS|].
    intros k. specialize (HK k). assert (X := keyed_get ut k d d' HU).
    destruct (get k xs), (get k d), (get k d'), (get k ys); try contradiction; auto; [eapply IH|eapply shaped_ut]; eauto.
  - intros (g & d & xs & ys & -> & HD & HA & -> & ->). utc U.
    do 4 eexists. split; [reflexivity|]. split; [|split; [|split; reflexivity]].
    + intros E k w HI. destruct (dut_In _ _ _ _ HU HI) as [w' HI']. eapply HD; eauto.
    + clear HD. revert xs ys HA. induction IH as [|[n0 t0] fs H0 HF IHF]; intros [|[n1 x] xs] [|[n2 y] ys]; cbn; auto.
      intros (E1 & E2 & HM & HA). split; [exact E1|]. split; [exact E2|]. split; [|apply IHF; auto].
      assert (X := keyed_get ut n0 d d' HU). destruct (get n0 d), (get n0 d'); try contradiction; auto. eapply H0; eauto.
  - intros (a & b & -> & H & ->). eauto 6.
Qed.

Lemma data_single q d r : (same_profile r q -> data_of [(q, d)] r = d) /\ (~ same_profile r q -> data_of [(q, d)] r = []).
Proof.
  unfold data_of. cbn [get]. rewrite same_profile_cmp. destruct (cmp r q); split; intros H; try reflexivity; try discriminate.
  now destruct H.
Qed.

Lemma serialized_provide loc name y q l f m c f' c' v : serialize y = Ok v -> f_value f = Ok m -> wf_profiles m ->
  provide loc f (serialized_provider name (sz_from y q l)) Merge c = (Ret f', c') ->
  (exists t (d : dict) m', v = VDict t d /\ wf_dict d /\ f_value f' = Ok m' /\ wf_profiles m' /\
     forall r, dut (data_of m' r) (dcoalesce Merge (data_of m r) (data_of [(q, d)] r))) \/
  ((forall t d, v <> VDict t d) /\ exists e, f_value f' = Err e).
Proof.
  intros Hs Hf Wm HP. destruct (sz_data (sz_from y q l)) as [n|e] eqn:ED.
  - left. assert (X := proj1 (sz_data_spec (sz_from y q l) v [] n Hs eq_refl) ED).
    destruct X as (t0 & d & HN & ->). inversion HN; subst. cbn [sz_profile sz_from] in *.
    assert (Wd : wf_dict d) by (apply (wf_VDict t0); eapply serialize_wf; eauto).
    assert (Wn : wf_profiles [(q, d)]).
    { apply wf_profiles_intro; [cbn; auto|]. intros p0 d0. cbn. destruct (cmp p0 q); intros E; inversion E; subst. exact Wd. }
    destruct (data_provide loc f (serialized_provider name (sz_from y q l)) Merge c f' c' m [(q, d)] Hf Wm ED Wn HP)
      as (m' & Hf' & Wm' & HU).
    exists t0, d, m'. auto 6.
  - right. split.
    { intros t0 d ->. assert (X := proj2 (sz_data_spec (sz_from y q l) (VDict t0 d) [] [(q, d)] Hs eq_refl)).
      rewrite X in ED; [discriminate|]. exists t0, d. split; [constructor|reflexivity]. }
    apply provide_ret in HP. destruct HP as (_ & _ & ->). cbn [pv_data serialized_provider]. rewrite ED, Hf.
    cbn. eauto.
Qed.
