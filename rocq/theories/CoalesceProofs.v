(** Proofs about conflict resolution. *)
From Coq Require Import NArith Bool List Lia.
From Verif Require Import Res BMap BMapProofs Str StrProofs Profile ProfileProofs Tag Num Value Coalesce
  SpecValue ValueProofs.
Import ListNotations.

(** ** The map instance *)
Section MapCoalesceProofs.
  Context {K V : Type} `{CmpLaws K} (f : V -> V -> V).
  Implicit Types m : bmap K V.

  Definition opt_combine (a b : option V) : option V :=
    match a, b with
    | Some x, Some y => Some (f x y)
    | Some x, None => Some x
    | None, b => b
    end.

  Lemma mc_loop_get (self : bmap K V) : forall joined other k,
    sorted self -> sorted joined -> sorted other ->
    get k (mc_loop f self joined other) =
    match opt_combine (get k self) (get k other) with
    | Some x => Some x
    | None => get k joined
    end.
  Proof.
    induction self as [|[ak av] r IH]; intros joined other k Hs Hj Ho; simpl.
    - rewrite get_extend by auto. now destruct (get k other).
    - destruct Hs as [Hlt Hs]. rewrite take_spec.
      destruct (get ak other) as [bv|] eqn:E; rewrite IH; auto using sorted_insert, sorted_remove.
      + rewrite get_insert, get_remove by auto.
        destruct (cmp k ak) eqn:Ek; auto.
        rewrite (lt_all_get k ak r Hlt) by congruence. simpl.
        rewrite (get_eq _ _ other Ek), E. reflexivity.
      + rewrite get_insert. destruct (cmp k ak) eqn:Ek; auto.
        rewrite (lt_all_get k ak r Hlt) by congruence.
        rewrite (get_eq _ _ other Ek), E. reflexivity.
  Qed.

  Lemma map_coalesce_get a b k : sorted a -> sorted b ->
    get k (map_coalesce f a b) = opt_combine (get k a) (get k b).
  Proof.
    intros Ha Hb. unfold map_coalesce. rewrite mc_loop_get by (auto; exact I).
    now destruct (opt_combine (get k a) (get k b)).
  Qed.

  Lemma mc_loop_sorted (self : bmap K V) : forall joined other,
    sorted joined -> sorted (mc_loop f self joined other).
  Proof.
    induction self as [|[ak av] r IH]; intros joined other Hj; simpl.
    - now apply sorted_extend.
    - destruct (take ak other) as [[bv o']|]; apply IH; now apply sorted_insert.
  Qed.

  Lemma map_coalesce_sorted a b : sorted (map_coalesce f a b).
  Proof. apply mc_loop_sorted. exact I. Qed.
End MapCoalesceProofs.

Lemma dcoalesce_get o a b k : sorted a -> sorted b ->
  get k (dcoalesce o a b) = opt_combine (vcoalesce o) (get k a) (get k b).
Proof. apply map_coalesce_get. Qed.

Lemma dcoalesce_sorted o a b : sorted (dcoalesce o a b).
Proof. apply map_coalesce_sorted. Qed.

(** Unfolding equations. *)
Lemma vcoalesce_dict o ta a tb b :
  vcoalesce o (VDict ta a) (VDict tb b) =
  VDict (if keeps_existing o then ta else tb) (dcoalesce o a b).
Proof. destruct o; reflexivity. Qed.

Lemma vcoalesce_array o ta a tb b : concatenates o = true ->
  vcoalesce o (VArray ta a) (VArray tb b) = VArray ta (a ++ b).
Proof. destruct o; simpl; try discriminate; reflexivity. Qed.

Lemma vcoalesce_other o a b : combinable o a b = false ->
  vcoalesce o a b = if keeps_existing o then a else b.
Proof. destruct o, a, b; simpl; try discriminate; reflexivity. Qed.

(** ** C01: the documented table *)
Lemma wf_dcoalesce_aux o (a b : dict) :
  Forall (fun kv => forall y, wf (snd kv) -> wf y -> wf (vcoalesce o (snd kv) y)) a ->
  wf_dict a -> wf_dict b -> wf_dict (dcoalesce o a b).
Proof.
  intros IH Ha Hb. apply wf_dict_intro; [apply dcoalesce_sorted|].
  intros k x. rewrite dcoalesce_get by (apply Ha || apply Hb).
  destruct (get k a) eqn:Ea, (get k b) eqn:Eb; simpl; intros E; inversion E; subst.
  - apply (Forall_get (fun x => forall y, wf x -> wf y -> wf (vcoalesce o x y)) _ _ _ IH Ea);
      eauto using wf_get.
  - eauto using wf_get.
  - eauto using wf_get.
Qed.

Lemma wf_vcoalesce o a : forall b, wf a -> wf b -> wf (vcoalesce o a b).
Proof.
  induction a using value_ind'; intros b' Ha Hb;
    try (rewrite vcoalesce_other by (destruct o, b'; reflexivity);
         destruct (keeps_existing o); assumption).
  - destruct b'; try (rewrite vcoalesce_other by (destruct o; reflexivity);
      destruct (keeps_existing o); assumption).
    rewrite vcoalesce_dict. apply wf_VDict. apply wf_VDict in Ha, Hb.
    now apply wf_dcoalesce_aux.
  - destruct b'; try (rewrite vcoalesce_other by (destruct o; reflexivity);
      destruct (keeps_existing o); assumption).
    destruct (concatenates o) eqn:E.
    + rewrite vcoalesce_array by auto. apply wf_VArray. apply wf_VArray in Ha, Hb.
      now apply Forall_app.
    + rewrite vcoalesce_other by (unfold combinable; rewrite E; reflexivity).
      destruct (keeps_existing o); assumption.
Qed.

Lemma wf_dcoalesce o a b : wf_dict a -> wf_dict b -> wf_dict (dcoalesce o a b).
Proof.
  intros Ha Hb. apply wf_dcoalesce_aux; auto.
  apply Forall_forall. intros [k x] _ y. apply wf_vcoalesce.
Qed.

Lemma combined_dict o ta a tb b t c :
  (forall k x y, get k a = Some x -> get k b = Some y -> combined o x y (vcoalesce o x y)) ->
  sorted a -> sorted b -> t = (if keeps_existing o then ta else tb) ->
  c = dcoalesce o a b ->
  combined o (VDict ta a) (VDict tb b) (VDict t c).
Proof.
  intros IH Ha Hb -> ->. constructor; [apply dcoalesce_sorted|..]; intros k; intros;
    rewrite dcoalesce_get by auto.
  - now rewrite H, H0.
  - now rewrite H, H0.
  - now rewrite H, H0.
  - rewrite H, H0. simpl. eauto.
Qed.

Lemma vcoalesce_combined o a : forall b, wf a -> wf b -> combined o a b (vcoalesce o a b).
Proof.
  assert (Hother : forall a b, combinable o a b = false -> combined o a b (vcoalesce o a b)).
  { intros x y H. rewrite vcoalesce_other by auto. destruct (keeps_existing o) eqn:E.
    - now apply CB_keep. - now apply CB_replace. }
  induction a using value_ind'; intros b' Ha Hb;
    try (apply Hother; destruct o, b'; reflexivity).
  - destruct b'; try (apply Hother; destruct o; reflexivity).
    rewrite vcoalesce_dict. apply wf_VDict in Ha, Hb.
    eapply combined_dict; eauto; try apply Ha; try apply Hb.
    intros k x y Hx Hy.
    apply (Forall_get (fun x => forall y, wf x -> wf y -> combined o x y (vcoalesce o x y))
             _ _ _ H Hx); eauto using wf_get.
  - destruct b'; try (apply Hother; destruct o; reflexivity).
    destruct (concatenates o) eqn:E.
    + rewrite vcoalesce_array by auto. now constructor.
    + apply Hother. unfold combinable. now rewrite E.
Qed.

Lemma combined_dict_inv o ta a tb b c : combined o (VDict ta a) (VDict tb b) c ->
  exists d, c = VDict (if keeps_existing o then ta else tb) d /\ sorted d /\
    (forall k, get k a = None -> get k b = None -> get k d = None) /\
    (forall k x, get k a = Some x -> get k b = None -> get k d = Some x) /\
    (forall k y, get k a = None -> get k b = Some y -> get k d = Some y) /\
    (forall k x y, get k a = Some x -> get k b = Some y ->
                   exists z, get k d = Some z /\ combined o x y z).
Proof. intros H; inversion H; subst; simpl in *; try discriminate. eauto 10. Qed.

Lemma combined_array_inv o ta a tb b c : combined o (VArray ta a) (VArray tb b) c ->
  c = if concatenates o then VArray ta (a ++ b)
      else if keeps_existing o then VArray ta a else VArray tb b.
Proof.
  intros H; inversion H; subst; unfold combinable in *; simpl in *; destruct o; simpl in *;
    try discriminate; reflexivity.
Qed.

Lemma combined_other_inv o a b c : combinable o a b = false -> combined o a b c ->
  c = if keeps_existing o then a else b.
Proof.
  intros Hc H; inversion H; subst; unfold combinable in *; simpl in *; destruct o; simpl in *;
    try discriminate; reflexivity.
Qed.

Lemma combined_det o a : forall b c c', wf a -> wf b ->
  combined o a b c -> combined o a b c' -> c = c'.
Proof.
  induction a using value_ind'; intros b' c1 c2 Ha Hb H1 H2;
    try (apply combined_other_inv in H1; [|destruct o, b'; reflexivity];
         apply combined_other_inv in H2; [|destruct o, b'; reflexivity]; congruence).
  - destruct b';
      try (apply combined_other_inv in H1; [|destruct o; reflexivity];
           apply combined_other_inv in H2; [|destruct o; reflexivity]; congruence).
    apply combined_dict_inv in H1. destruct H1 as [d1 [-> [S1 [A1 [B1 [C1 D1]]]]]].
    apply combined_dict_inv in H2. destruct H2 as [d2 [-> [S2 [A2 [B2 [C2 D2]]]]]].
    f_equal. apply wf_VDict in Ha, Hb. apply get_dict_eq; auto. intros k.
    destruct (get k d) eqn:E1, (get k d0) eqn:E2.
    + destruct (D1 _ _ _ E1 E2) as [z1 [Z1 K1]].
      destruct (D2 _ _ _ E1 E2) as [z2 [Z2 K2]].
      rewrite Z1, Z2. f_equal.
      apply (Forall_get (fun x => forall b c c', wf x -> wf b -> combined o x b c ->
               combined o x b c' -> c = c') _ _ _ H E1 v0 z1 z2); eauto using wf_get.
    + now rewrite (B1 _ _ E1 E2), (B2 _ _ E1 E2).
    + now rewrite (C1 _ _ E1 E2), (C2 _ _ E1 E2).
    + now rewrite (A1 _ E1 E2), (A2 _ E1 E2).
  - destruct b';
      try (apply combined_other_inv in H1; [|destruct o; reflexivity];
           apply combined_other_inv in H2; [|destruct o; reflexivity]; congruence).
    apply combined_array_inv in H1, H2. congruence.
Qed.

Lemma C01_value_lemma o a b c : wf a -> wf b ->
  (vcoalesce o a b = c <-> combined o a b c).
Proof.
  intros Ha Hb. split.
  - intros <-. now apply vcoalesce_combined.
  - intros H. apply (combined_det o a b); auto using vcoalesce_combined.
Qed.

Lemma C01_dict_lemma o a b c : wf_dict a -> wf_dict b ->
  (dcoalesce o a b = c <-> dict_combined o a b c).
Proof.
  intros Ha Hb. unfold dict_combined.
  rewrite <- C01_value_lemma by now apply wf_VDict.
  rewrite vcoalesce_dict. destruct (keeps_existing o); split; congruence.
Qed.

(** ** Maps of dictionaries per profile *)
Lemma pcoalesce_get o a b p : sorted a -> sorted b ->
  get p (pcoalesce o a b) = opt_combine (dcoalesce o) (get p a) (get p b).
Proof. apply map_coalesce_get. Qed.

(** ** C02: leaves *)
Lemma open_at_nil b : open_at [] b <-> False.
Proof. split; [intros [H _]; discriminate | tauto]. Qed.

Lemma open_at_cons_dict k p t d :
  open_at (k :: p) (VDict t d) <->
  match get k d with Some y => open_at p y | None => True end.
Proof.
  unfold open_at; simpl. destruct (get k d) as [y|] eqn:E; split.
  - intros [H1 H2]. split; auto. intros q z [r ->] Hq.
    apply (H2 (k :: q) z); [exists r; reflexivity|]. simpl. now rewrite E.
  - intros [H1 H2]. split; auto. intros [|k' q] z [r Hr] Hq; simpl in *.
    + now inversion Hq.
    + inversion Hr; subst. rewrite E in Hq. apply (H2 q z); auto. now exists r.
  - auto.
  - intros _. split; auto. intros [|k' q] z [r Hr] Hq; simpl in *.
    + now inversion Hq.
    + inversion Hr; subst. now rewrite E in Hq.
Qed.

Lemma open_at_cons_other k p b : is_dict b = false -> ~ open_at (k :: p) b.
Proof.
  intros H [_ H2]. rewrite (H2 [] b) in H; [discriminate| |reflexivity].
  now exists (k :: p).
Qed.

Lemma leaf_at_nil v x : leaf_at [] v x <-> v = x /\ is_dict x = false.
Proof. unfold leaf_at; simpl; split; intros [H1 H2]; split; congruence. Qed.

Lemma leaf_at_cons_dict k p t d x :
  leaf_at (k :: p) (VDict t d) x <-> exists y, get k d = Some y /\ leaf_at p y x.
Proof.
  unfold leaf_at; simpl. destruct (get k d) as [y|] eqn:E; split.
  - intros H; exists y; auto.
  - intros [y' [H1 H2]]. inversion H1; now subst.
  - intros [H _]; discriminate.
  - intros [y [H _]]; discriminate.
Qed.

Lemma leaf_at_cons_other k p v x : is_dict v = false -> ~ leaf_at (k :: p) v x.
Proof. destruct v; simpl; try discriminate; intros _ [H _]; discriminate. Qed.

Lemma is_dict_vcoalesce_merge a b : is_dict (vcoalesce Merge a b) = is_dict b.
Proof. destruct a, b; reflexivity. Qed.

Lemma C02_merge_lemma p : forall a b x, wf a -> wf b ->
  (leaf_at p (vcoalesce Merge a b) x <->
   leaf_at p b x \/ (leaf_at p a x /\ open_at p b)).
Proof.
  induction p as [|k p IH]; intros a b x Ha Hb.
  - rewrite !leaf_at_nil, open_at_nil. split.
    + intros [H1 H2]. left. split; auto. subst x. rewrite is_dict_vcoalesce_merge in H2.
      destruct a, b; simpl in *; congruence.
    + intros [[<- H2]|[_ []]]. split; auto. destruct a, b; simpl in *; congruence.
  - destruct (is_dict b) eqn:Eb.
    2:{ assert (Hm : vcoalesce Merge a b = b) by (destruct a, b; simpl in *; congruence).
        rewrite Hm. split; [auto|]. intros [H|[_ H]]; auto.
        exfalso. eapply open_at_cons_other; eauto. }
    destruct b as [| | | | |tb db|]; simpl in Eb; try discriminate.
    destruct (is_dict a) eqn:Ea.
    2:{ assert (Hm : vcoalesce Merge a (VDict tb db) = VDict tb db)
          by (destruct a; simpl in *; congruence).
        rewrite Hm. split; [auto|]. intros [H|[H _]]; auto.
        exfalso. eapply leaf_at_cons_other; eauto. }
    destruct a as [| | | | |ta da|]; simpl in Ea; try discriminate.
    rewrite vcoalesce_dict, !leaf_at_cons_dict, open_at_cons_dict.
    apply wf_VDict in Ha, Hb.
    rewrite dcoalesce_get by (apply Ha || apply Hb).
    destruct (get k da) as [xa|] eqn:Ka, (get k db) as [xb|] eqn:Kb; simpl.
    + assert (Hxa : wf xa) by eauto using wf_get. assert (Hxb : wf xb) by eauto using wf_get.
      split.
      * intros [y [H1 H2]]. inversion H1; subst y. apply IH in H2; auto.
        destruct H2 as [H2|[H2 H3]]; [left|right]; eauto.
      * intros [[y [H1 H2]]|[[y [H1 H2]] H3]]; inversion H1; subst y;
          eexists; (split; [reflexivity|]); apply IH; auto.
    + split.
      * intros [y [H1 H2]]. inversion H1; subst y. right. eauto.
      * intros [[y [H1 _]]|[[y [H1 H2]] _]]; [discriminate|eauto].
    + split; [eauto|]. intros [H|[[y [H1 _]] _]]; [auto|discriminate].
    + split; [eauto|]. intros [H|[H _]]; auto.
Qed.

(** ** C03: join and merge are mirror images *)
Lemma join_merge_swap a : forall b, wf a -> wf b -> vcoalesce Join a b = vcoalesce Merge b a.
Proof.
  induction a using value_ind'; intros b' Ha Hb; try (destruct b'; reflexivity).
  destruct b'; try reflexivity. rewrite !vcoalesce_dict. simpl keeps_existing. cbv iota.
  f_equal. apply wf_VDict in Ha, Hb.
  apply get_dict_eq; auto using dcoalesce_sorted. intros k.
  rewrite !dcoalesce_get by (apply Ha || apply Hb).
  destruct (get k d) eqn:E1, (get k d0) eqn:E2; simpl; auto. f_equal.
  apply (Forall_get (fun x => forall b, wf x -> wf b -> vcoalesce Join x b = vcoalesce Merge b x)
           _ _ _ H E1); eauto using wf_get.
Qed.

Lemma merge_idem a : wf a -> vcoalesce Merge a a = a.
Proof.
  induction a using value_ind'; intros Ha; try reflexivity.
  rewrite vcoalesce_dict. simpl. f_equal. apply wf_VDict in Ha.
  apply get_dict_eq; auto using dcoalesce_sorted; [apply Ha|]. intros k.
  rewrite !dcoalesce_get by apply Ha.
  destruct (get k d) eqn:E1; simpl; auto. f_equal.
  apply (Forall_get (fun x => wf x -> vcoalesce Merge x x = x) _ _ _ H E1); eauto using wf_get.
Qed.

Lemma join_idem a : wf a -> vcoalesce Join a a = a.
Proof. intros H. rewrite join_merge_swap by auto. now apply merge_idem. Qed.

Lemma dcoalesce_nil_r o a : sorted a -> dcoalesce o a [] = a.
Proof.
  intros H. apply get_dict_eq; auto using dcoalesce_sorted. intros k.
  rewrite dcoalesce_get by (auto; exact I). simpl. now destruct (get k a).
Qed.

Lemma dcoalesce_nil_l o a : sorted a -> dcoalesce o [] a = a.
Proof.
  intros H. apply get_dict_eq; auto using dcoalesce_sorted. intros k.
  rewrite dcoalesce_get by (auto; exact I). reflexivity.
Qed.

Lemma dict_join_merge_swap a b : wf_dict a -> wf_dict b -> dcoalesce Join a b = dcoalesce Merge b a.
Proof.
  intros Ha Hb.
  assert (E := join_merge_swap _ _ (proj2 (wf_VDict tag_default _) Ha)
    (proj2 (wf_VDict tag_default _) Hb)).
  rewrite !vcoalesce_dict in E. congruence.
Qed.

(** ** C04: grouping *)
Lemma vcoalesce_assoc o a : forall b c, wf a -> wf b -> wf c -> no_clash o a b c ->
  vcoalesce o (vcoalesce o a b) c = vcoalesce o a (vcoalesce o b c).
Proof.
  induction a using value_ind'; intros b' c' Ha Hb Hc Hn;
    assert (H0 := Hn [] _ _ _ eq_refl eq_refl eq_refl);
    try (destruct b', c', o; reflexivity).
  - destruct b' as [| | | | |tb db|]; destruct c' as [| | | | |tc dc|];
      try (destruct o; reflexivity);
      try (destruct o; specialize (H0 eq_refl); discriminate).
    rewrite !vcoalesce_dict. f_equal; [destruct (keeps_existing o); reflexivity|].
    apply wf_VDict in Ha, Hb, Hc. destruct Ha as [Sa Ha], Hb as [Sb Hb], Hc as [Sc Hc].
    apply get_dict_eq; auto using dcoalesce_sorted. intros k.
    rewrite !dcoalesce_get by auto using dcoalesce_sorted.
    destruct (get k d) as [x|] eqn:E1, (get k db) as [y|] eqn:E2, (get k dc) as [z|] eqn:E3;
      simpl; auto.
    f_equal.
    assert (wf x) by (apply (wf_get d k); [split|]; auto).
    assert (wf y) by (apply (wf_get db k); [split|]; auto).
    assert (wf z) by (apply (wf_get dc k); [split|]; auto).
    apply (Forall_get (fun x => forall b c, wf x -> wf b -> wf c -> no_clash o x b c ->
      vcoalesce o (vcoalesce o x b) c = vcoalesce o x (vcoalesce o b c)) _ _ _ H E1); auto.
    intros p x' y' z' Hx Hy Hz. apply (Hn (k :: p)); simpl.
    + now rewrite E1. + now rewrite E2. + now rewrite E3.
  - destruct b' as [| | | | | |tb lb]; destruct c' as [| | | | | |tc lc];
      destruct o; try reflexivity;
      try (specialize (H0 eq_refl); discriminate);
      simpl; now rewrite app_assoc.
Qed.

Lemma dcoalesce_assoc o a b c : wf_dict a -> wf_dict b -> wf_dict c ->
  no_clash o (VDict tag_default a) (VDict tag_default b) (VDict tag_default c) ->
  dcoalesce o (dcoalesce o a b) c = dcoalesce o a (dcoalesce o b c).
Proof.
  intros Ha Hb Hc Hn.
  assert (E := vcoalesce_assoc o _ _ _ (proj2 (wf_VDict tag_default _) Ha)
    (proj2 (wf_VDict tag_default _) Hb) (proj2 (wf_VDict tag_default _) Hc) Hn).
  rewrite !vcoalesce_dict in E. congruence.
Qed.
