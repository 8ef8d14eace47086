(** Lemmas about [BMap]. *)
From Coq Require Import List.
From Verif Require Import BMap.
Import ListNotations.

Section Laws.
  Context {K : Type} {C : Cmp K} {L : CmpLaws K}.

  Lemma cmp_gt_lt (x y : K) : cmp x y = Gt <-> cmp y x = Lt.
  Proof. rewrite (cmp_sym x y); destruct (cmp x y); simpl; split; congruence. Qed.

  Lemma cmp_eq_sym (x y : K) : cmp x y = Eq <-> cmp y x = Eq.
  Proof. rewrite (cmp_sym x y); destruct (cmp x y); simpl; split; congruence. Qed.

  Lemma cmp_eq_r (x y z : K) : cmp x y = Eq -> cmp z x = cmp z y.
  Proof.
    intros H. rewrite (cmp_sym x z), (cmp_sym y z).
    now rewrite (cmp_eq_l _ _ z H).
  Qed.

  Lemma cmp_eq_trans (x y z : K) : cmp x y = Eq -> cmp y z = Eq -> cmp x z = Eq.
  Proof. intros H H'. now rewrite (cmp_eq_l _ _ z H). Qed.

  Lemma cmp_lt_irrefl (x : K) : cmp x x <> Lt.
  Proof. rewrite cmp_refl; discriminate. Qed.
End Laws.

Section Maps.
  Context {K V : Type} {C : Cmp K} {L : CmpLaws K}.
  Implicit Types (k : K) (v : V) (m : bmap K V).

  Lemma lt_all_trans k k' m : cmp k k' = Lt -> lt_all k' m -> lt_all k m.
  Proof.
    induction m as [|[k2 v2] r IH]; simpl; [tauto|].
    intros H [H1 H2]. split; [eapply cmp_lt_trans; eauto | auto].
  Qed.

  Lemma lt_all_eq k k' m : cmp k k' = Eq -> lt_all k' m -> lt_all k m.
  Proof.
    induction m as [|[k2 v2] r IH]; simpl; [tauto|].
    intros H [H1 H2]. split; [now rewrite (cmp_eq_l _ _ k2 H) | auto].
  Qed.

  Lemma lt_all_get k k' m : lt_all k' m -> cmp k k' <> Gt -> get k m = None.
  Proof.
    induction m as [|[k2 v2] r IH]; simpl; [reflexivity|].
    intros [H1 H2] Hk.
    destruct (cmp k k2) eqn:E.
    - exfalso. destruct (cmp k k') eqn:E'.
      + rewrite (cmp_eq_l _ _ k2 E') in E. congruence.
      + pose proof (cmp_lt_trans _ _ _ E' H1) as H3. congruence.
      + congruence.
    - auto.
    - auto.
  Qed.

  Lemma lt_all_In k m : lt_all k m <-> (forall k' v', In (k', v') m -> cmp k k' = Lt).
  Proof.
    induction m as [|[k2 v2] r IH]; simpl.
    - split; [intros _ k' v' [] | tauto].
    - rewrite IH. split.
      + intros [H1 H2] k' v' [H|H]; [inversion H; subst; auto | eauto].
      + intros H. split; [eapply H; left; reflexivity | intros k' v' Hi; eapply H; right; eauto].
  Qed.

  Lemma lt_all_insert k k' v m : cmp k k' = Lt -> lt_all k m -> lt_all k (insert k' v m).
  Proof.
    induction m as [|[k2 v2] r IH]; simpl; intros H; [auto|].
    intros [H1 H2]. destruct (cmp k' k2); simpl; auto.
  Qed.

  Lemma sorted_insert k v m : sorted m -> sorted (insert k v m).
  Proof.
    induction m as [|[k2 v2] r IH]; simpl; [auto|].
    intros [H1 H2]. destruct (cmp k k2) eqn:E; simpl.
    - auto.
    - repeat split; auto. eapply lt_all_trans; eauto.
    - split; [apply lt_all_insert; auto; now apply cmp_gt_lt | auto].
  Qed.

  Lemma sorted_extend (l m : bmap K V) : sorted m -> sorted (extend m l).
  Proof.
    revert m; induction l as [|[k v] r IH]; simpl; auto using sorted_insert.
  Qed.

  Lemma sorted_collect l : sorted (collect (K:=K) (V:=V) l).
  Proof. apply sorted_extend; exact I. Qed.

  Lemma lt_all_remove k k' m : lt_all k m -> lt_all k (remove k' m).
  Proof.
    induction m as [|[k2 v2] r IH]; simpl; [auto|].
    intros [H1 H2]. destruct (cmp k' k2); simpl; auto.
  Qed.

  Lemma sorted_remove k m : sorted m -> sorted (remove k m).
  Proof.
    induction m as [|[k2 v2] r IH]; simpl; [auto|].
    intros [H1 H2]. destruct (cmp k k2); simpl; auto using lt_all_remove.
  Qed.

  Lemma get_eq k k' m : cmp k k' = Eq -> get k m = get k' m.
  Proof.
    intros H; induction m as [|[k2 v2] r IH]; simpl; [reflexivity|].
    rewrite (cmp_eq_l _ _ k2 H). now destruct (cmp k' k2).
  Qed.

  Lemma get_insert_eq k k' v m : cmp k k' = Eq -> get k (insert k' v m) = Some v.
  Proof.
    intros H; induction m as [|[k2 v2] r IH]; simpl.
    - now rewrite H.
    - destruct (cmp k' k2) eqn:E; simpl.
      + now rewrite (cmp_eq_l _ _ k2 H), E.
      + now rewrite H.
      + now rewrite (cmp_eq_l _ _ k2 H), E.
  Qed.

  Lemma get_insert_ne k k' v m : cmp k k' <> Eq -> get k (insert k' v m) = get k m.
  Proof.
    intros H; induction m as [|[k2 v2] r IH]; simpl.
    - destruct (cmp k k'); congruence.
    - destruct (cmp k' k2) eqn:E; simpl.
      + assert (E' : cmp k k2 <> Eq).
        { intros E2. apply H. eapply cmp_eq_trans; eauto. now apply cmp_eq_sym. }
        destruct (cmp k k2); congruence.
      + destruct (cmp k k'); congruence.
      + destruct (cmp k k2); congruence.
  Qed.

  Lemma get_insert k k' v m :
    get k (insert k' v m) = match cmp k k' with Eq => Some v | _ => get k m end.
  Proof.
    destruct (cmp k k') eqn:E.
    - now apply get_insert_eq.
    - apply get_insert_ne; congruence.
    - apply get_insert_ne; congruence.
  Qed.

  Lemma get_remove_eq k k' m : sorted m -> cmp k k' = Eq -> get k (remove k' m) = None.
  Proof.
    intros Hs H; induction m as [|[k2 v2] r IH]; simpl in *; [reflexivity|].
    destruct Hs as [H1 H2]. destruct (cmp k' k2) eqn:E; simpl.
    - apply (lt_all_get k k2); auto.
      rewrite (cmp_eq_l _ _ k2 H), E. discriminate.
    - rewrite (cmp_eq_l _ _ k2 H), E. auto.
    - rewrite (cmp_eq_l _ _ k2 H), E. auto.
  Qed.

  Lemma get_remove_ne k k' m : cmp k k' <> Eq -> get k (remove k' m) = get k m.
  Proof.
    intros H; induction m as [|[k2 v2] r IH]; simpl in *; [reflexivity|].
    destruct (cmp k' k2) eqn:E; simpl.
    - assert (E' : cmp k k2 <> Eq).
      { intros E2. apply H. eapply cmp_eq_trans; eauto. now apply cmp_eq_sym. }
      destruct (cmp k k2); congruence.
    - destruct (cmp k k2); congruence.
    - destruct (cmp k k2); congruence.
  Qed.

  Lemma get_remove k k' m : sorted m ->
    get k (remove k' m) = match cmp k k' with Eq => None | _ => get k m end.
  Proof.
    intros Hs. destruct (cmp k k') eqn:E.
    - now apply get_remove_eq.
    - apply get_remove_ne; congruence.
    - apply get_remove_ne; congruence.
  Qed.

  Lemma take_spec k m :
    take k m = match get k m with Some v => Some (v, remove k m) | None => None end.
  Proof.
    induction m as [|[k2 v2] r IH]; simpl; auto.
    destruct (cmp k k2); auto; rewrite IH; destruct (get k r); auto.
  Qed.

  (** The value a list of insertions gives to a key: the last matching entry. *)
  Lemma get_extend k l m : sorted l ->
    get k (extend m l) = match get k l with Some v => Some v | None => get k m end.
  Proof.
    revert m; induction l as [|[k2 v2] r IH]; simpl; intros m Hs; [reflexivity|].
    destruct Hs as [H1 H2]. rewrite IH by auto. rewrite get_insert.
    destruct (cmp k k2) eqn:E.
    - rewrite (lt_all_get k k2); auto. rewrite E; discriminate.
    - reflexivity.
    - reflexivity.
  Qed.

  (** [get] and membership. *)
  Lemma get_In k v m : get k m = Some v -> exists k', cmp k k' = Eq /\ In (k', v) m.
  Proof.
    induction m as [|[k2 v2] r IH]; simpl; [discriminate|].
    destruct (cmp k k2) eqn:E.
    - intros H; inversion H; subst. exists k2; auto.
    - intros H; destruct (IH H) as [k' [H1 H2]]; exists k'; auto.
    - intros H; destruct (IH H) as [k' [H1 H2]]; exists k'; auto.
  Qed.

  Lemma In_get k v m : sorted m -> In (k, v) m -> get k m = Some v.
  Proof.
    induction m as [|[k2 v2] r IH]; simpl; [tauto|].
    intros [H1 H2] [H|H].
    - inversion H; subst. now rewrite cmp_refl.
    - pose proof (proj1 (lt_all_In k2 r) H1 _ _ H) as H3.
      rewrite (cmp_sym k2 k), H3. simpl. auto.
  Qed.

  Lemma get_Some_key k m v : get k m = Some v -> exists k', In k' (keys m) /\ cmp k k' = Eq.
  Proof.
    intros H; destruct (get_In _ _ _ H) as [k' [H1 H2]].
    exists k'; split; auto. apply in_map_iff. now exists (k', v).
  Qed.

  Lemma In_insert k v m k' v' :
    In (k', v') (insert k v m) -> (v' = v /\ cmp k k' = Eq) \/ In (k', v') m.
  Proof.
    induction m as [|[k2 v2] r IH]; simpl.
    - intros [H|[]]. inversion H; subst. left; split; auto using cmp_refl.
    - destruct (cmp k k2) eqn:E; simpl.
      + intros [H|H]; [inversion H; subst; auto | auto].
      + intros [H|[H|H]]; auto. inversion H; subst. left; split; auto using cmp_refl.
      + intros [H|H]; auto. destruct (IH H); auto.
  Qed.

  Lemma In_remove k m x : In x (remove k m) -> In x m.
  Proof.
    induction m as [|[k2 v2] r IH]; simpl; auto.
    destruct (cmp k k2); simpl; intuition.
  Qed.

  Lemma In_extend l m k' v' :
    In (k', v') (extend m l) ->
    (exists k, In (k, v') l /\ cmp k k' = Eq) \/ In (k', v') m.
  Proof.
    revert m; induction l as [|[k v] r IH]; simpl; intros m H; auto.
    destruct (IH _ H) as [[k2 [H1 H2]]|H1].
    - left; exists k2; auto.
    - destruct (In_insert _ _ _ _ _ H1) as [[H2 H3]|H2]; auto.
      subst. left; exists k; auto.
  Qed.

  Lemma insert_last k v m :
    (forall k' v', In (k',v') m -> cmp k' k = Lt) ->
    insert k v m = m ++ [(k, v)].
  Proof.
     induction m as [|[k2 v2] q IH]; simpl; intros H; [reflexivity|].
    assert (E : cmp k2 k = Lt) by (eapply H; left; reflexivity).
    rewrite (cmp_sym k2 k), E. simpl. f_equal. apply IH. intros; eapply H; right; eauto.
  Qed.

  Lemma extend_app_sorted (l : bmap K V) : sorted l -> forall m,
    (forall k v k' v', In (k,v) m -> In (k', v') l -> cmp k k' = Lt) ->
    extend m l = m ++ l.
  Proof.
    induction l as [|[k v] r IH]; simpl; intros Hs m H; [now rewrite app_nil_r|].
    destruct Hs as [H1 H2].
    rewrite (insert_last k v m) by (intros k2 v2 Hi; eapply H; eauto).
    rewrite IH; auto.
    - now rewrite <- app_assoc.
    - intros ka va kb vb Ha Hb. apply in_app_or in Ha. destruct Ha as [Ha|[Ha|[]]].
      + eapply H; eauto.
      + inversion Ha; subst. eapply (proj1 (lt_all_In _ _) H1); eauto.
  Qed.

  (** Collecting a sorted list gives the list back. *)
  Lemma collect_sorted (l : bmap K V) : sorted l -> collect l = l.
  Proof. intros H. unfold collect. rewrite extend_app_sorted; auto. intros k v k' v' []. Qed.

  Lemma get_None_notin k m : (forall k' v, In (k', v) m -> cmp k k' <> Eq) -> get k m = None.
  Proof.
    induction m as [|[k2 v2] r IH]; simpl; intros H; [reflexivity|].
    assert (H1 : cmp k k2 <> Eq) by (eapply H; left; reflexivity).
    destruct (cmp k k2); [congruence| |]; apply IH; intros; eapply H; right; eauto.
  Qed.

  Lemma remove_notin k m : get k m = None -> remove k m = m.
  Proof.
    induction m as [|[k2 v2] r IH]; simpl; [reflexivity|].
    destruct (cmp k k2); [discriminate| |]; intros H; f_equal; auto.
  Qed.

  Lemma keys_insert_In k v m k' : In k' (keys (insert k v m)) -> k' = k \/ In k' (keys m).
  Proof.
    unfold keys. induction m as [|[k2 v2] r IH]; simpl.
    - intros [H|[]]; auto.
    - destruct (cmp k k2); simpl; intuition.
  Qed.

  (** The first key of a sorted map is determined by lookups; used for extensionality. *)
  Lemma sorted_ext (LB : CmpLeibniz K) m1 : forall m2, sorted m1 -> sorted m2 ->
    (forall k, get k m1 = get k m2) -> m1 = m2.
  Proof.
    induction m1 as [|[k1 v1] r1 IH]; intros [|[k2 v2] r2] H1 H2 H; auto.
    - specialize (H k2). simpl in H. rewrite cmp_refl in H. discriminate.
    - specialize (H k1). simpl in H. rewrite cmp_refl in H. discriminate.
    - simpl in H1, H2. destruct H1 as [H1a H1b], H2 as [H2a H2b].
      assert (E : cmp k1 k2 = Eq).
      { destruct (cmp k1 k2) eqn:E; auto; exfalso.
        - pose proof (H k1) as Hk. simpl in Hk. rewrite cmp_refl, E in Hk.
          rewrite (lt_all_get k1 k2) in Hk; auto; congruence.
        - pose proof (H k2) as Hk. simpl in Hk. rewrite cmp_refl in Hk.
          rewrite (cmp_sym k1 k2), E in Hk. simpl in Hk.
          rewrite (lt_all_get k2 k1) in Hk; auto; try congruence.
          rewrite (cmp_sym k1 k2), E. simpl. congruence. }
      apply cmp_leibniz in E. subst k2.
      pose proof (H k1) as Hk. simpl in Hk. rewrite cmp_refl in Hk. inversion Hk; subst v2.
      f_equal. apply IH; auto. intros k. specialize (H k). simpl in H.
      destruct (cmp k k1) eqn:E.
      + rewrite !(lt_all_get k k1); auto; congruence.
      + auto.
      + auto.
  Qed.

  (** Mapping over values (keys unchanged). *)
  Lemma lt_all_keys {W} (m : bmap K V) (m' : bmap K W) k :
    keys m = keys m' -> lt_all k m -> lt_all k m'.
  Proof.
    revert m'; induction m as [|[k1 v1] r IH]; intros [|[k2 v2] r']; simpl; try discriminate; auto.
    intros H [H1 H2]; inversion H; subst. split; auto.
  Qed.

  Lemma sorted_keys {W} (m : bmap K V) (m' : bmap K W) :
    keys m = keys m' -> sorted m -> sorted m'.
  Proof.
    revert m'; induction m as [|[k1 v1] r IH]; intros [|[k2 v2] r']; simpl; try discriminate; auto.
    intros H [H1 H2]; inversion H; subst. split; auto. eapply lt_all_keys; eauto.
  Qed.

  Lemma get_keys {W} (m : bmap K V) (m' : bmap K W) k :
    keys m = keys m' -> (get k m = None <-> get k m' = None).
  Proof.
    revert m'; induction m as [|[k1 v1] r IH]; intros [|[k2 v2] r']; simpl; try discriminate.
    - tauto.
    - intros H; inversion H; subst. destruct (cmp k k2); [split; discriminate| |]; auto.
  Qed.

  Lemma get_map_values {W} (f : K -> V -> W) (m : bmap K V) k :
    (forall k1 k2 v, cmp k1 k2 = Eq -> f k1 v = f k2 v) ->
    get k (map (fun kv => (fst kv, f (fst kv) (snd kv))) m) = option_map (f k) (get k m).
  Proof.
    intros Hf. induction m as [|[k1 v1] r IH]; simpl; auto.
    destruct (cmp k k1) eqn:E; simpl; auto. now rewrite (Hf k k1).
  Qed.
End Maps.
