(** What a type does not look at does not matter. *)
From Coq Require Import Ascii String ZArith NArith Bool Lia.
From Coq Require Import List.
From Verif Require Import Res BMap Str Profile Tag Num Value Metadata Err Coalesce Figment Fmt De.
From Verif Require Import BMapProofs StrProofs ValueProofs CoalesceProofs FigmentProofs DeProofs.
From Verif Require Import SpecValue SpecFigment SpecRt SpecBlind BlindProofs SpecFrame.
Import ListNotations.

(** ** Maps *)
Lemma sorted_both (R : ustr -> value -> value -> Prop) (m1 : dict) : forall m2, sorted m1 -> sorted m2 ->
  (forall k, both (R k) (get k m1) (get k m2)) ->
  Forall2 (fun x y => fst x = fst y /\ R (fst x) (snd x) (snd y)) m1 m2.
Proof.
  induction m1 as [|[k1 v1] r1 IH]; intros [|[k2 v2] r2] H1 H2 H; [constructor| | |].
  - specialize (H k2). simpl in H. rewrite cmp_refl in H. inversion H.
  - specialize (H k1). simpl in H. rewrite cmp_refl in H. inversion H.
  - simpl in H1, H2. destruct H1 as [H1a H1b], H2 as [H2a H2b].
    assert (E : cmp k1 k2 = Eq).
    { destruct (cmp k1 k2) eqn:E; auto; exfalso.
      - pose proof (H k1) as Hk. simpl in Hk. rewrite cmp_refl, E in Hk.
        rewrite (lt_all_get k1 k2) in Hk; auto; [inversion Hk|congruence].
      - pose proof (H k2) as Hk. simpl in Hk. rewrite cmp_refl in Hk.
        rewrite (cmp_sym k1 k2), E in Hk. simpl in Hk.
        rewrite (lt_all_get k2 k1) in Hk; auto; [inversion Hk|].
        rewrite (cmp_sym k1 k2), E. simpl. congruence. }
    apply cmp_leibniz in E. subst k2.
    pose proof (H k1) as Hk. simpl in Hk. rewrite cmp_refl in Hk. inversion Hk as [|? ? HR]; subst.
    constructor; [auto|]. apply IH; auto. intros k. specialize (H k). simpl in H.
    destruct (cmp k k1) eqn:E.
    + rewrite !(lt_all_get k k1); auto; try congruence. constructor.
    + auto.
    + auto.
Qed.

Definition known (fs : list ustr) (kx : ustr * value) : bool := existsb (ueqb (fst kx)) fs.
Lemma lt_all_filter k (p : ustr * value -> bool) m : lt_all k m -> lt_all k (filter p m).
Proof. induction m as [|[k' x] r IH]; cbn; [auto|]. intros [H1 H2]. destruct (p (k', x)); cbn; auto. Qed.
Lemma sorted_filter (p : ustr * value -> bool) m : sorted m -> sorted (filter p m).
Proof.
  induction m as [|[k x] r IH]; cbn; [auto|]. intros [H1 H2]. destruct (p (k, x)); cbn; auto using lt_all_filter.
Qed.
Lemma get_known fs k m : sorted m ->
  get k (filter (known fs) m) = if existsb (ueqb k) fs then get k m else None.
Proof.
  induction m as [|[k' x] r IH]; cbn [filter get sorted]; [now destruct (existsb (ueqb k) fs)|].
  intros [H1 H2]. specialize (IH H2). unfold known at 1. cbn [fst].
  destruct (cmp k k') eqn:E.
  - pose proof (cmp_leibniz _ _ E) as <-. destruct (existsb (ueqb k) fs) eqn:EX; cbn [get].
    + now rewrite E.
    + exact IH.
  - destruct (existsb (ueqb k') fs); cbn [get]; rewrite ?E; exact IH.
  - destruct (existsb (ueqb k') fs); cbn [get]; rewrite ?E; exact IH.
Qed.

(** ** The lists the visitors go through *)
Definition same_at (rec : deser -> res error dval) (mk : value -> deser) (x y : value) : Prop :=
  rec (mk x) = rec (mk y).

Lemma all_elements_same rec mk l l' : Forall2 (same_at rec mk) l l' -> forall n,
  all_elements rec (map mk l) n = all_elements rec (map mk l') n.
Proof.
  induction 1 as [|x y r r' H HF IH]; intros n; cbn; [reflexivity|]. unfold next_element. rewrite H.
  now rewrite IH.
Qed.
Lemma map_entries_same rec mk d d' :
  Forall2 (fun x y => fst x = fst y /\ same_at rec mk (snd x) (snd y) /\ vtag (snd x) = vtag (snd y)) d d' ->
  forall acc, map_entries rec (map_access mk d) acc = map_entries rec (map_access mk d') acc.
Proof.
  induction 1 as [|[k x] [k' y] r r' (E & H & T) HF IH]; intros acc; cbn in *; [reflexivity|]. subst k'.
  rewrite T, H. destruct (res_map_err _ (rec (mk y))) as [z|e]; cbn; auto.
Qed.
Lemma pair_entries_same reck rec mk d d' :
  Forall2 (fun x y => fst x = fst y /\ same_at rec mk (snd x) (snd y) /\ vtag (snd x) = vtag (snd y)) d d' ->
  pair_entries reck rec (map_access mk d) = pair_entries reck rec (map_access mk d').
Proof.
  induction 1 as [|[k x] [k' y] r r' (E & H & T) HF IH]; cbn in *; [reflexivity|]. subst k'.
  unfold map_access in IH. unfold same_at in H. now rewrite T, H, IH.
Qed.
Lemma tuple_elements_same mk short recs : forall l l',
  (forall n rec, nth_error recs n = Some rec -> both (same_at rec mk) (nth_error l n) (nth_error l' n)) ->
  forall n, tuple_elements recs short (map mk l) n = tuple_elements recs short (map mk l') n.
Proof.
  induction recs as [|rec rs IH]; intros l l' H n; cbn; [reflexivity|].
  pose proof (H 0%nat rec eq_refl) as H0. cbn in H0.
  destruct l as [|x r], l' as [|y r']; try (inversion H0; fail); [reflexivity|].
  inversion H0 as [|? ? HR]; subst. cbn. unfold next_element. rewrite HR.
  rewrite (IH r r'); [reflexivity|]. intros m rc Hm. exact (H (S m) rc Hm).
Qed.

Lemma existsb_assoc {A} k (fs : list (ustr * A)) :
  existsb (ueqb k) (map fst fs) = match assoc k fs with Some _ => true | None => false end.
Proof.
  induction fs as [|[k' a] r IH]; cbn; [reflexivity|]. destruct (ueqb k k'); [reflexivity|exact IH].
Qed.
Lemma field_entries_skip fs mk : forall d slots,
  field_entries false fs (map_access mk d) slots =
  field_entries false fs (map_access mk (filter (known (map fst fs)) d)) slots.
Proof.
  induction d as [|[k x] r IH]; intros slots; cbn [filter map_access map]; [reflexivity|].
  unfold known at 1. cbn [fst snd]. destruct (existsb (ueqb k) (map fst fs)) eqn:E; cbn [field_entries].
  - unfold next_key, field_key, de_any, visit_str. cbn [v_str]. cbn [map fst snd].
    cbn [field_entries]. unfold next_key, field_key, de_any, visit_str. cbn [v_str]. rewrite E. cbn.
    destruct (assoc k fs) as [rec|]; [|apply IH]. destruct (assoc k slots); [reflexivity|].
    destruct (res_map_err _ (rec (mk x))); cbn; [apply IH|reflexivity].
  - unfold next_key, field_key, de_any, visit_str. cbn [v_str]. rewrite E. cbn. apply IH.
Qed.
Lemma field_entries_same deny fs mk d d' :
  Forall2 (fun x y => fst x = fst y /\
     match assoc (fst x) fs with
     | Some rec => same_at rec mk (snd x) (snd y) /\ vtag (snd x) = vtag (snd y)
     | None => snd x = snd y
     end) d d' ->
  forall slots, field_entries deny fs (map_access mk d) slots = field_entries deny fs (map_access mk d') slots.
Proof.
  induction 1 as [|[k x] [k' y] r r' [E H] HF IH]; intros slots; [reflexivity|]. cbn in E, H. subst k'.
  cbn [map_access map fst snd field_entries]. unfold next_key, field_key, de_any, visit_str. cbn [v_str].
  rewrite existsb_assoc. destruct (assoc k fs) as [rec|] eqn:EA.
  - destruct H as [H1 H2]. cbn. rewrite EA. destruct (assoc k slots); [reflexivity|].
    rewrite H2, H1. destruct (res_map_err _ (rec (mk y))); cbn; [apply IH|reflexivity].
  - subst y. destruct deny; cbn; [reflexivity|]. apply IH.
Qed.

(** ** Types *)
Lemma alike_tag t v w : alike t v w -> vtag v = vtag w.
Proof. induction 1; auto. Qed.
Lemma alike_shape t v w : alike t v w -> v = w \/
  (exists g d d', v = VDict g d /\ w = VDict g d') \/ (exists g l l', v = VArray g l /\ w = VArray g l').
Proof. induction 1; eauto 8. Qed.

Lemma de_any_dict m g d d' (vis : visitor dval) :
  visit_map vis (map_access (mk_de m) d) = visit_map vis (map_access (mk_de m) d') ->
  de_any (mk_de m (VDict g d)) vis = de_any (mk_de m (VDict g d')) vis.
Proof. intros H. destruct m; cbn in *; now rewrite H. Qed.
Lemma de_any_array m g l l' (vis : visitor dval) :
  visit_seq vis (map (mk_de m) l) = visit_seq vis (map (mk_de m) l') ->
  de_any (mk_de m (VArray g l)) vis = de_any (mk_de m (VArray g l')) vis.
Proof. intros H. destruct m; cbn in *; now rewrite H. Qed.
Lemma de_struct_any n m v (vis : visitor dval) : ~ In n [value_name; rel_name; tagged_name] ->
  de_struct n (mk_de m v) vis = match m with
                                | MConf i f => settle f (vtag v) (de_any (mk_de m v) vis)
                                | MPlain => de_any (mk_de m v) vis
                                end.
Proof.
  intros H. destruct m; [|reflexivity]. cbn. unfold magic_map.
  destruct (ueqb n value_name) eqn:E1; [apply ueqb_eq in E1; subst; exfalso; apply H; cbn; auto|].
  destruct (ueqb n rel_name) eqn:E2; [apply ueqb_eq in E2; subst; exfalso; apply H; cbn; auto|].
  destruct (ueqb n tagged_name) eqn:E3; [apply ueqb_eq in E3; subst; exfalso; apply H; cbn; auto|].
  reflexivity.
Qed.

Lemma both_map {A B} (R : A -> A -> Prop) (Q : B -> B -> Prop) (f : A -> B) a b :
  (forall x y, R x y -> Q (f x) (f y)) -> both R a b -> both Q (option_map f a) (option_map f b).
Proof. intros H. destruct 1; cbn; constructor; auto. Qed.
Lemma both_imp {A} (R Q : A -> A -> Prop) a b : (forall x y, R x y -> Q x y) -> both R a b -> both Q a b.
Proof. intros H. destruct 1; constructor; auto. Qed.

Definition payload (s : shape ty) : shape (deser -> res error dval) :=
  match s with
  | ShUnit => ShUnit
  | ShNew t => ShNew (deserialize t)
  | ShTuple ts => ShTuple (map deserialize ts)
  | ShStruct fs => ShStruct (map (fun f => (fst f, deserialize (snd f))) fs)
  end.

Theorem deserialize_alike : forall t v w, alike t v w ->
  forall m, deserialize t (mk_de m v) = deserialize t (mk_de m w).
Proof.
  induction t using ty_ind'; intros v w A m;
    try (inversion A; subst; reflexivity).
  - (* option *)
    inversion A as [| ? ? ? HA | | | | | | | | | |]; subst; [reflexivity|].
    destruct (alike_shape _ _ _ HA) as [->|[(g & d & d' & -> & ->)|(g & l & l' & -> & ->)]]; [reflexivity| |];
      specialize (IHt _ _ HA m); destruct m; cbn in *; now rewrite IHt.
  - (* seq *)
    inversion A as [| | | ? g l l' HF | | | | | | | |]; subst; [reflexivity|]. cbn [deserialize].
    apply de_any_array. cbn [visit_seq v_seq seq_visitor]. f_equal. apply all_elements_same.
    eapply F2_imp; [|exact HF]. intros x y HX. apply IHt. exact HX.
  - (* tuple *)
    inversion A as [| | | | | | ? g l l' HF | | | | |]; subst; [reflexivity|]. cbn [deserialize].
    apply de_any_array. unfold visit_seq, seq_visitor. cbn [v_seq]. f_equal. apply tuple_elements_same.
    intros n rec Hn. rewrite nth_error_map in Hn. destruct (nth_error ts n) as [t|] eqn:EN; [|discriminate].
    injection Hn as <-. specialize (HF n t EN). eapply both_imp; [|exact HF].
    intros x y HX. unfold same_at. rewrite Forall_forall in H. apply H; [eapply nth_error_In; eassumption|exact HX].
  - (* map *)
    inversion A as [| | | | ? g d d' HF | | | | | | |]; subst; [reflexivity|]. cbn [deserialize].
    apply de_any_dict. unfold visit_map, map_visitor. cbn [v_map]. f_equal. apply map_entries_same.
    eapply F2_imp; [|exact HF]. intros [k x] [k' y] [E HX]. cbn in *. split; [exact E|]. split; [|eapply alike_tag; eassumption].
    apply IHt. exact HX.
  - (* pairs *)
    inversion A as [| | | | | ? ? g d d' HF | | | | | |]; subst; [reflexivity|]. cbn [deserialize].
    apply de_any_dict. unfold visit_map, map_visitor. cbn [v_map]. f_equal. apply pair_entries_same.
    eapply F2_imp; [|exact HF]. intros [k x] [k' y] [E HX]. cbn in *. split; [exact E|]. split; [|eapply alike_tag; eassumption].
    apply IHt2. exact HX.
  - (* struct *)
    rewrite Forall_forall in H.
    inversion A as [| | | | | | | | ? ? ? ? g d' d'' HN S1 S2 HF HD | ? ? ? ? g l l' HN HF | |]; subst; [reflexivity| |].
    + cbn [deserialize]. rewrite !de_struct_any by assumption.
      set (fs' := map (fun f => (fst f, deserialize (snd f))) fs).
      assert (EK : map fst fs' = map fst fs) by (unfold fs'; rewrite map_map; reflexivity).
      assert (EA : forall k, assoc k fs' = option_map deserialize (assoc k fs)) by (intros k; apply assoc_map).
      assert (HV : de_any (mk_de m (VDict g d')) (struct_visitor (lit "struct " ++ i) d fs' EVStruct) =
                   de_any (mk_de m (VDict g d'')) (struct_visitor (lit "struct " ++ i) d fs' EVStruct)).
      { apply de_any_dict. unfold visit_map, struct_visitor. cbn [v_map]. f_equal. f_equal. destruct d.
        - apply field_entries_same.
          eapply F2_imp; [|apply (sorted_both (fun k x y => match assoc k fs' with
                                                  | Some rec => same_at rec (mk_de m) x y /\ vtag x = vtag y
                                                  | None => x = y end) d' d'' S1 S2)].
          + intros [k x] [k' y] [E HX]. auto.
          + intros k. rewrite EA. destruct (assoc k fs) as [t|] eqn:EK1; cbn [option_map].
            * pose proof (assoc_In _ _ _ EK1) as HI. eapply both_imp; [|exact (HF k t HI)].
              intros x y HX. split; [|eapply alike_tag; eassumption]. apply (H (k, t) HI). exact HX.
            * rewrite (HD eq_refl k).
              -- destruct (get k d''); constructor; reflexivity.
              -- intros HI. assert (HB : existsb (ueqb k) (map fst fs) = true)
                   by (apply existsb_exists; exists k; split; [exact HI|apply ueqb_eq; reflexivity]).
                 rewrite existsb_assoc, EK1 in HB. discriminate.
        - rewrite field_entries_skip, (field_entries_skip fs' (mk_de m) d''). apply field_entries_same.
          rewrite EK.
          eapply F2_imp; [|apply (sorted_both (fun k x y => match assoc k fs' with
                                                  | Some rec => same_at rec (mk_de m) x y /\ vtag x = vtag y
                                                  | None => x = y end) _ _
                                    (sorted_filter _ _ S1) (sorted_filter _ _ S2))].
          + intros [k x] [k' y] [E HX]. auto.
          + intros k. rewrite !get_known by assumption. rewrite EA, existsb_assoc.
            destruct (assoc k fs) as [t|] eqn:EK1; cbn [option_map]; [|constructor].
            pose proof (assoc_In _ _ _ EK1) as HI. eapply both_imp; [|exact (HF k t HI)].
            intros x y HX. split; [|eapply alike_tag; eassumption]. apply (H (k, t) HI). exact HX. }
      destruct m; [|exact HV]. now rewrite HV.
    + cbn [deserialize]. rewrite !de_struct_any by assumption.
      set (fs' := map (fun f => (fst f, deserialize (snd f))) fs).
      assert (HV : de_any (mk_de m (VArray g l)) (struct_visitor (lit "struct " ++ i) d fs' EVStruct) =
                   de_any (mk_de m (VArray g l')) (struct_visitor (lit "struct " ++ i) d fs' EVStruct)).
      { apply de_any_array. unfold visit_seq, struct_visitor. cbn [v_seq]. f_equal. apply tuple_elements_same.
        intros n' rec Hn. unfold fs' in Hn. rewrite map_map, nth_error_map in Hn.
        destruct (nth_error fs n') as [[k t]|] eqn:EN; [|discriminate].
        injection Hn as <-. specialize (HF n' k t EN). eapply both_imp; [|exact HF].
        intros x y HX. unfold same_at. cbn. apply (H (k, t)); [eapply nth_error_In; eassumption|exact HX]. }
      destruct m; [|exact HV]. now rewrite HV.
  - (* newtype *)
    inversion A as [| | ? ? ? ? HA | | | | | | | | |]; subst; [reflexivity|].
    specialize (IHt _ _ HA m). destruct m; cbn in *; now rewrite IHt.
  - (* tuple struct *)
    inversion A as [| | | | | | | ? ? g l l' HF | | | |]; subst; [reflexivity|]. cbn [deserialize].
    apply de_any_array. unfold visit_seq, tuple_visitor, seq_visitor. cbn [v_seq]. f_equal. apply tuple_elements_same.
    intros n rec Hn. rewrite nth_error_map in Hn. destruct (nth_error ts n) as [t|] eqn:EN; [|discriminate].
    injection Hn as <-. specialize (HF n t EN). eapply both_imp; [|exact HF].
    intros x y HX. unfold same_at. rewrite Forall_forall in H. apply H; [eapply nth_error_In; eassumption|exact HX].
  - (* enum *)
    rewrite Forall_forall in H. cbn [deserialize].
    set (vs' := map (fun nv => (fst nv, payload (snd nv))) vs).
    change (map _ vs) with vs'.
    assert (HE : forall g d d', visit_enum (enum_visitor i vs') (EMap (map_access (mk_de m) d)) =
                                visit_enum (enum_visitor i vs') (EMap (map_access (mk_de m) d')) ->
              de_enum (mk_de m (VDict g d)) (enum_visitor i vs') = de_enum (mk_de m (VDict g d')) (enum_visitor i vs')).
    { intros g d d' HX. destruct m; cbn in *; now rewrite HX. }
    inversion A as [| | | | | | | | | | ? ? g k x d d' | ? ? g k x y d d' HN HS HT]; subst; [reflexivity| |].
    + apply HE. reflexivity.
    + apply HE. unfold visit_enum, enum_visitor. cbn [v_enum map_access map fst snd enum_first].
      unfold next_key. rewrite HT.
      destruct (res_map_err _ (variant_key (map fst vs') (DStr k))) as [name|e] eqn:EV; cbn [res_bind]; [|reflexivity].
      destruct (assoc name vs') as [s|] eqn:EA; [|reflexivity]. f_equal.
      assert (name = k) as ->.
      { unfold variant_key, de_any, visit_str in EV. cbn [v_str] in EV.
        destruct (existsb (ueqb k) (map fst vs')); cbn in EV; congruence. }
      unfold vs' in EA. rewrite assoc_map in EA. destruct (assoc k vs) as [s0|] eqn:EB; [|discriminate].
      injection EA as <-. pose proof (assoc_In _ _ _ EB) as HI. destruct (HS s0 HI) as [t ->].
      specialize (H (k, ShNew t) HI). cbn in H. unfold variant_value, next_value.
      cbn [payload]. now rewrite (H x y (HN t HI) m).
Qed.
