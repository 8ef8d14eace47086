(** Which provider wins. *)
From Coq Require Import NArith Bool List Lia.
From Verif Require Import Res BMap BMapProofs Str StrProofs Profile ProfileProofs Tag Num Value
  Metadata Err Coalesce Figment SpecValue SpecFigment SpecPriority ValueProofs CoalesceProofs
  FigmentProofs ProvProofs FigmentProofs2.
Import ListNotations.
Local Open Scope N_scope.

(** Under compatible shapes, looking up a path commutes with combining. *)
Lemma at_path_vcoalesce o p : forall a b, wf a -> wf b -> compatible a b ->
  at_path p (vcoalesce o a b) = opt_combine (vcoalesce o) (at_path p a) (at_path p b).
Proof.
  induction p as [|k p IH]; intros a b Ha Hb Hc; [reflexivity|].
  assert (H0 := Hc [] a b eq_refl eq_refl).
  destruct (is_dict a) eqn:Ea.
  - destruct a as [| | | | |ta da|], b as [| | | | |tb db|]; simpl in Ea, H0; try discriminate.
    rewrite vcoalesce_dict. cbn [at_path]. apply wf_VDict in Ha, Hb.
    rewrite dcoalesce_get by (apply Ha || apply Hb).
    destruct (get k da) as [x|] eqn:Ex, (get k db) as [y|] eqn:Ey; simpl; auto.
    + apply IH; eauto using wf_get. intros q u v Hu Hv.
      apply (Hc (k :: q)); simpl; [now rewrite Ex|now rewrite Ey].
    + now destruct (at_path p x).
  - assert (Hab : at_path (k :: p) a = None) by (destruct a; simpl in Ea; try discriminate; auto).
    assert (Hbb : at_path (k :: p) b = None) by (destruct b; simpl in H0; try discriminate; auto).
    rewrite Hab, Hbb. simpl opt_combine.
    destruct a; simpl in Ea; try discriminate; destruct b; simpl in H0; try discriminate;
      destruct o; reflexivity.
Qed.

Lemma at_path_map_tag f p : forall v, at_path p (map_tag f v) = option_map (map_tag f) (at_path p v).
Proof.
  induction p as [|k p IH]; intros v; [reflexivity|].
  destruct v; try reflexivity. simpl. rewrite (get_map_snd (map_tag f)).
  destruct (get k d); simpl; auto.
Qed.

Lemma is_dict_map_tag f v : is_dict (map_tag f v) = is_dict v.
Proof. destruct v; reflexivity. Qed.

Lemma is_array_map_tag f v : is_array (map_tag f v) = is_array v.
Proof. destruct v; reflexivity. Qed.

(** ** Stacks of dictionaries *)
Definition root (d : dict) : value := VDict tag_default d.

Fixpoint first_at (p : list ustr) (L : list dict) : option value :=
  match L with
  | [] => None
  | d :: r => match at_path p (root d) with Some y => Some y | None => first_at p r end
  end.

Lemma first_at_app p a b : first_at p (a ++ b) =
  match first_at p a with Some y => Some y | None => first_at p b end.
Proof.
  induction a as [|d r IH]; simpl; auto. destruct (at_path p (root d)); auto.
Qed.

Lemma first_at_In p L y : first_at p L = Some y -> exists d, In d L /\ at_path p (root d) = Some y.
Proof.
  induction L as [|d r IH]; simpl; [discriminate|].
  destruct (at_path p (root d)) eqn:E.
  - intros X; inversion X; subst. eauto.
  - intros X. destruct (IH X) as [d' [H1 H2]]. eauto.
Qed.

Definition same_kind (x y : value) : Prop := is_dict x = is_dict y /\ is_array x = is_array y.

Definition compat_all (A B : list dict) : Prop :=
  forall a b, In a A -> In b B -> compatible (root a) (root b).

Section Stacks.
  Context (good : value -> bool).

  Definition order_ok (o : order) : Prop :=
    forall x y, good x = true \/ good y = true -> combinable o x y = true -> False.

  Definition stack_ok (d : dict) (L : list dict) : Prop :=
    wf_dict d /\
    forall p, p <> [] ->
      match first_at p L, at_path p (root d) with
      | None, None => True
      | Some y, Some x => same_kind x y /\ (good y = true -> x = y)
      | _, _ => False
      end.

  Lemma stack_single d : wf_dict d -> stack_ok d [d].
  Proof.
    intros Hw. split; auto. intros p _. simpl.
    destruct (at_path p (root d)); auto. repeat split; auto.
  Qed.

  Lemma stack_empty : stack_ok [] [].
  Proof. split; [apply wf_dict_nil|]. intros [|k p] Hp; [congruence|]. exact I. Qed.

  Lemma stack_compat d e L M : stack_ok d L -> stack_ok e M -> compat_all L M ->
    compatible (root d) (root e).
  Proof.
    intros [_ Hd] [_ He] Hc p x y Hx Hy. destruct p as [|k p].
    { simpl in Hx, Hy. inversion Hx; inversion Hy; reflexivity. }
    assert (Hp : k :: p <> []) by discriminate.
    specialize (Hd _ Hp). specialize (He _ Hp). rewrite Hx in Hd. rewrite Hy in He.
    destruct (first_at (k :: p) L) as [u|] eqn:Eu; [|contradiction].
    destruct (first_at (k :: p) M) as [v|] eqn:Ev; [|contradiction].
    apply first_at_In in Eu. destruct Eu as [du [Hu1 Hu2]].
    apply first_at_In in Ev. destruct Ev as [dv [Hv1 Hv2]].
    destruct Hd as [[Hd _] _], He as [[He _] _]. rewrite Hd, He. eapply Hc; eauto.
  Qed.

  Lemma same_kind_combine o x z : keeps_existing o = true \/ keeps_existing o = false ->
    is_dict x = is_dict z ->
    same_kind (vcoalesce o x z) (if keeps_existing o then x else z).
  Proof. intros _ H. destruct o, x, z; simpl in *; try discriminate; split; reflexivity. Qed.

  Lemma root_dcoalesce o d e : root (dcoalesce o d e) = vcoalesce o (root d) (root e).
  Proof. unfold root. rewrite vcoalesce_dict. now destruct (keeps_existing o). Qed.

  Lemma wf_root d : wf_dict d -> wf (root d).
  Proof. intros; now apply wf_VDict. Qed.

  Lemma stack_merge o d e L M : keeps_existing o = false -> order_ok o ->
    stack_ok d L -> stack_ok e M -> compat_all L M ->
    stack_ok (dcoalesce o d e) (M ++ L).
  Proof.
    intros Ho Hok Hd He Hc. assert (Hcomp := stack_compat _ _ _ _ Hd He Hc).
    destruct Hd as [Wd Hd], He as [We He]. split; [now apply wf_dcoalesce|].
    intros p Hp. specialize (Hd p Hp). specialize (He p Hp).
    rewrite first_at_app, root_dcoalesce, at_path_vcoalesce by auto using wf_root.
    specialize (Hcomp p).
    destruct (first_at p M) as [y|], (at_path p (root e)) as [z|]; try contradiction.
    - destruct (at_path p (root d)) as [x|]; simpl.
      + specialize (Hcomp x z eq_refl eq_refl).
        assert (K := same_kind_combine o x z (or_intror Ho) Hcomp). rewrite Ho in K.
        destruct He as [[K1 K2] He]. destruct K as [K3 K4]. split; [split; congruence|].
        intros Hg. specialize (He Hg). subst y.
        rewrite vcoalesce_other; [now rewrite Ho|].
        destruct (combinable o x z) eqn:E; auto. exfalso. now apply (Hok x z); auto.
      + exact He.
    - destruct (first_at p L) as [y|], (at_path p (root d)) as [x|]; try contradiction; auto.
  Qed.

  Lemma stack_join o d e L M : keeps_existing o = true -> order_ok o ->
    stack_ok d L -> stack_ok e M -> compat_all L M ->
    stack_ok (dcoalesce o d e) (L ++ M).
  Proof.
    intros Ho Hok Hd He Hc. assert (Hcomp := stack_compat _ _ _ _ Hd He Hc).
    destruct Hd as [Wd Hd], He as [We He]. split; [now apply wf_dcoalesce|].
    intros p Hp. specialize (Hd p Hp). specialize (He p Hp).
    rewrite first_at_app, root_dcoalesce, at_path_vcoalesce by auto using wf_root.
    specialize (Hcomp p).
    destruct (first_at p L) as [y|], (at_path p (root d)) as [x|]; try contradiction.
    - destruct (at_path p (root e)) as [z|]; simpl.
      + specialize (Hcomp x z eq_refl eq_refl).
        assert (K := same_kind_combine o x z (or_introl Ho) Hcomp). rewrite Ho in K.
        destruct Hd as [[K1 K2] Hd]. destruct K as [K3 K4]. split; [split; congruence|].
        intros Hg. specialize (Hd Hg). subst y.
        rewrite vcoalesce_other; [now rewrite Ho|].
        destruct (combinable o x z) eqn:E; auto. exfalso. now apply (Hok x z); auto.
      + exact Hd.
    - exact He.
  Qed.
End Stacks.

(** ** Histories *)
Definition tagged_dict (q : profile) (e : entry) (d : dict) : dict :=
  retag_dict (tag_new (en_id e) PTDefault) q d.

(** The (re-tagged) dictionaries the entries have for profile [q], in order. *)
Fixpoint stack (q : profile) (E : list entry) : list dict :=
  match E with
  | [] => []
  | e :: r => match pv_data (en_provider e) with
              | Ok m => match get q m with
                        | Some d => tagged_dict q e d :: stack q r
                        | None => stack q r
                        end
              | Err _ => stack q r
              end
  end.

Lemma stack_app q a b : stack q (a ++ b) = stack q a ++ stack q b.
Proof.
  induction a as [|e r IH]; simpl; auto. destruct (pv_data (en_provider e)) as [m|]; auto.
  destruct (get q m); simpl; now rewrite IH.
Qed.

Lemma stack_In q E d : In d (stack q E) ->
  exists e m d0, In e E /\ pv_data (en_provider e) = Ok m /\ get q m = Some d0 /\
                 d = tagged_dict q e d0.
Proof.
  induction E as [|e r IH]; simpl; [tauto|].
  destruct (pv_data (en_provider e)) as [m|] eqn:Em.
  - destruct (get q m) as [d0|] eqn:Eg; simpl.
    + intros [<-|H]; [exists e, m, d0; auto|].
      destruct (IH H) as [e' [m' [d' [H1 H2]]]]. exists e', m', d'. auto.
    + intros H. destruct (IH H) as [e' [m' [d' [H1 H2]]]]. exists e', m', d'. auto.
  - intros H. destruct (IH H) as [e' [m' [d' [H1 H2]]]]. exists e', m', d'. auto.
Qed.

Lemma at_path_tagged q e d p : p <> [] ->
  at_path p (root (tagged_dict q e d)) =
  option_map (map_tag (fun _ => for_profile (tag_new (en_id e) PTDefault) q)) (at_path p (root d)).
Proof.
  intros Hp. destruct p as [|k p]; [congruence|]. unfold root, tagged_dict, retag_dict.
  simpl. rewrite (get_map_snd (map_tag _)). destruct (get k d); simpl; auto.
  apply at_path_map_tag.
Qed.

Lemma compatible_tagged q1 e1 d1 q2 e2 d2 : compatible (root d1) (root d2) ->
  compatible (root (tagged_dict q1 e1 d1)) (root (tagged_dict q2 e2 d2)).
Proof.
  intros H p x y Hx Hy. destruct p as [|k p].
  { simpl in Hx, Hy. inversion Hx; inversion Hy; reflexivity. }
  rewrite at_path_tagged in Hx, Hy by discriminate.
  destruct (at_path (k :: p) (root d1)) as [x0|] eqn:E1; inversion Hx; subst.
  destruct (at_path (k :: p) (root d2)) as [y0|] eqn:E2; inversion Hy; subst.
  rewrite !is_dict_map_tag. eapply H; eauto.
Qed.

Lemma data_of_pcoalesce o a b q : wf_profiles a -> wf_profiles b ->
  data_of (pcoalesce o a b) q = dcoalesce o (data_of a q) (data_of b q).
Proof.
  intros Ha Hb. unfold data_of. rewrite pcoalesce_get by (apply Ha || apply Hb).
  destruct (get q a) as [x|] eqn:Ea, (get q b) as [y|] eqn:Eb; simpl; auto.
  - symmetry. apply dcoalesce_nil_r. apply (wf_profiles_get _ _ _ Ha Ea).
  - symmetry. apply dcoalesce_nil_l. apply (wf_profiles_get _ _ _ Hb Eb).
Qed.

Section History.
  Context (good : value -> bool) (U : provider -> Prop).
  Context (HU : forall p1 p2 m1 m2 q1 q2 d1 d2, U p1 -> U p2 ->
    pv_data p1 = Ok m1 -> pv_data p2 = Ok m2 ->
    get q1 m1 = Some d1 -> get q2 m2 = Some d2 -> compatible (root d1) (root d2)).

  Lemma stacks_compat q1 q2 E1 E2 : Forall (fun e => U (en_provider e)) E1 ->
    Forall (fun e => U (en_provider e)) E2 -> compat_all (stack q1 E1) (stack q2 E2).
  Proof.
    intros H1 H2 a b Ha Hb. rewrite Forall_forall in H1, H2.
    apply stack_In in Ha. apply stack_In in Hb.
    destruct Ha as [e1 [m1 [d1 [I1 [M1 [G1 ->]]]]]], Hb as [e2 [m2 [d2 [I2 [M2 [G2 ->]]]]]].
    apply compatible_tagged. eapply HU; [exact (H1 _ I1)|exact (H2 _ I2)|..]; eauto.
  Qed.

  Lemma run_stacks l : forall f c E f' c' m,
    run l f c = (Ret f', c') -> failures l = [] -> plain_ops l ->
    (forall loc o p, In (OpProvide loc o p) l -> order_ok good o /\ U p) ->
    f_value f = Ok m -> wf_profiles m -> Forall (fun e => U (en_provider e)) E ->
    (forall q, stack_ok good (data_of m q) (stack q E)) ->
    exists m', f_value f' = Ok m' /\ wf_profiles m' /\
      Forall (fun e => U (en_provider e)) (priority l c E) /\
      forall q, stack_ok good (data_of m' q) (stack q (priority l c E)).
  Proof.
    induction l as [|x r IH]; intros f c E f' c' m Hrun Hf Hp Ho Hv Hw HE Hs;
      cbn [run priority] in *.
    - inversion Hrun; subst. eauto 6.
    - inversion Hp as [|? ? Hpx Hpr]; subst.
      assert (Hor : forall loc o p, In (OpProvide loc o p) r -> order_ok good o /\ U p)
        by (intros; eapply Ho; right; eassumption).
      destruct x as [loc o p|p]; cbn [run_op failures] in *.
      + destruct (provide loc f p o c) as [[f1| |] c1] eqn:E1; try discriminate.
        assert (Hplain : plain p) by exact Hpx.
        destruct (Ho loc o p (or_introl eq_refl)) as [Hoo HUp].
        apply provide_ret in E1. destruct E1 as (_ & -> & Hf1).
        destruct (pv_data p) as [new|e0] eqn:Ed; [|discriminate].
        rewrite ?Ed, Hv in Hf1. assert (Wn : wf_profiles new) by (destruct Hplain as [_ X]; rewrite Ed in X; apply X).
        set (e := mkEntry c loc p) in *.
        assert (He : Forall (fun e => U (en_provider e)) [e]) by (constructor; auto).
        assert (Hse : forall q, stack_ok good (data_of (retag_data (tag_new c PTDefault) new) q)
                                          (stack q [e])).
        { intros q. cbn [stack en_provider e]. unfold data_of. rewrite Ed, retag_data_get.
          destruct (get q new) as [d|] eqn:Eg; simpl option_map; cbv iota.
          - apply stack_single. apply wf_retag_dict. eauto using wf_profiles_get.
          - apply stack_empty. }
        eapply IH with (m := pcoalesce o m (retag_data (tag_new c PTDefault) new)); eauto; [subst f1; reflexivity|..].
        * apply wf_pcoalesce; auto. now apply wf_retag_data.
        * destruct (keeps_existing o); [apply Forall_app; auto|constructor; auto].
        * intros q. rewrite data_of_pcoalesce by auto using wf_retag_data.
          destruct (keeps_existing o) eqn:Ek.
          -- rewrite stack_app. apply stack_join; auto using stacks_compat.
          -- change (e :: E) with ([e] ++ E). rewrite stack_app.
             apply stack_merge; auto using stacks_compat.
      + eapply IH; eauto.
  Qed.
End History.
