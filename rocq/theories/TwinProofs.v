(** Extraction does not depend on the numbers of tags. *)
From Coq Require Import Ascii String ZArith NArith Bool Lia.
From Coq Require Import Floats.SpecFloat.
From Coq Require Import List.
From Verif Require Import Res BMap Str Profile Tag Num Value NumParse Metadata Err Coalesce Figment Fmt De.
From Verif Require Import BMapProofs StrProofs ValueProofs ProfileProofs.
From Verif Require Import SpecFigment SpecDe SpecRt SpecTwin DeProofs.
Import ListNotations.
Local Open Scope N_scope.

(** ** Tags *)
Record good (T : tag -> tag -> Prop) : Prop := mkGood {
  gd_default : T tag_default tag_default;
  gd_is_default : forall t t', T t t' -> is_default t = is_default t';
  gd_profile : forall t t', T t t' -> tag_profile t = tag_profile t';
  gd_cmp : forall a a' b b', T a a' -> T b b' -> cmp a b = cmp a' b';
  gd_eqb : forall t t', T t t' -> tag_eqb t tag_default = tag_eqb t' tag_default
}.

Section kin.
Context (T : tag -> tag -> Prop) (HT : good T).
Local Notation vt := (value_twin T).
Local Notation et := (error_twin T).
Local Notation deq := (dval_twin T).
Local Notation dut := (dict_twin T).
Local Notation agree := (res_twin T).
Local Notation ft := (figment_twin T).
Let Tdef : T tag_default tag_default := gd_default T HT.
Local Hint Resolve Tdef : core.

(** ** Agreement *)
Lemma agree_impl {A} (Q R : A -> A -> Prop) r r' :
  (forall x y, Q x y -> R x y) -> agree Q r r' -> agree R r r'.
Proof. intros H. destruct 1; constructor; auto. Qed.

Lemma et_kind k : et (err_of_kind k) (err_of_kind k).
Proof. constructor. exact Tdef. Qed.
Local Hint Resolve et_kind : core.

Lemma et_retagged t t' e e' : T t t' -> et e e' -> et (retagged t e) (retagged t' e').
Proof.
  intros H. destruct 1 as [a a' p m path k HA|a a' p m path k e e' HA HE]; cbn [retagged];
    rewrite <- (gd_is_default T HT _ _ HA); constructor; auto; now destruct (is_default a).
Qed.
Lemma et_prefixed k e e' : et e e' -> et (prefixed k e) (prefixed k e').
Proof. destruct 1; constructor; auto. Qed.
Lemma et_with_path path e e' : et e e' -> et (with_path path e) (with_path path e').
Proof. destruct 1; constructor; auto. Qed.
Lemma et_chain a a' b b' : et a a' -> et b b' -> et (chain a b) (chain a' b').
Proof. intros H. destruct 1; constructor; auto. Qed.
Lemma et_kinds e e' : et e e' -> e_kind e = e_kind e'.
Proof. destruct 1; reflexivity. Qed.

(** Metadata by tag. *)
Definition mdt (m m' : bmap tag metadata) : Prop := Forall2 (fun x y => T (fst x) (fst y) /\ snd x = snd y) m m'.
Lemma mdt_get t t' m m' : T t t' -> mdt m m' -> get t m = get t' m'.
Proof.
  intros H. induction 1 as [|[k x] [k' x'] r r' [E1 E2] HF IH]; cbn [get]; [reflexivity|].
  cbn [fst snd] in E1, E2. rewrite (gd_cmp T HT _ _ _ _ H E1), E2, IH. reflexivity.
Qed.
Lemma mdt_insert t t' x m m' : T t t' -> mdt m m' -> mdt (insert t x m) (insert t' x m').
Proof.
  intros H. induction 1 as [|[k y] [k' y'] r r' [E1 E2] HF IH]; cbn [insert].
  - constructor; [split; auto|constructor].
  - cbn [fst snd] in E1, E2. subst y'. rewrite (gd_cmp T HT _ _ _ _ H E1).
    destruct (cmp t' k'); repeat (constructor; auto).
Qed.
Lemma mdt_extend l l' : mdt l l' -> forall m m', mdt m m' -> mdt (extend m l) (extend m' l').
Proof.
  induction 1 as [|[k y] [k' y'] r r' [E1 E2] HF IH]; cbn [extend]; intros m m' HM; [assumption|].
  cbn [fst snd] in E1, E2. subst y'. apply IH. now apply mdt_insert.
Qed.

Lemma et_resolved_with mds mds' p : mdt mds mds' -> forall e e', et e e' ->
  et (resolved_with mds p e) (resolved_with mds' p e').
Proof.
  intros HM. induction 1 as [a a' q m path k HA|a a' q m path k e e' HA HE IH]; cbn [resolved_with];
    rewrite (gd_profile T HT _ _ HA), (mdt_get _ _ _ _ HA HM); constructor; auto.
Qed.
(** What of a Figment matters to a deserializer. *)
Definition fk (f g : figment) : Prop := f_profile f = f_profile g /\ mdt (f_metadata f) (f_metadata g).
Lemma ft_fk f g : ft f g -> fk f g.
Proof. intros (H1 & H2 & _). split; assumption. Qed.
Lemma et_resolved f g e e' : fk f g -> et e e' -> et (resolved e f) (resolved e' g).
Proof. intros [H1 H2] HE. unfold resolved. rewrite H1. now apply et_resolved_with. Qed.
Lemma fk_get f g t t' : fk f g -> T t t' -> get_metadata f t = get_metadata g t'.
Proof. intros [H1 H2] H. now apply mdt_get. Qed.

Section agreement.
  Context {A : Type} (Q : A -> A -> Prop).
  Lemma agree_map_err g g' r r' :
    (forall e e', et e e' -> et (g e) (g' e')) ->
    agree Q r r' -> agree Q (res_map_err g r) (res_map_err g' r').
  Proof. intros H. destruct 1; cbn; constructor; auto. Qed.
  Lemma agree_settle f f' t t' r r' : fk f f' -> T t t' -> agree Q r r' -> agree Q (settle f t r) (settle f' t' r').
  Proof. intros HF H. apply agree_map_err. intros e e' HE. apply et_resolved; [assumption|now apply et_retagged]. Qed.
  Lemma agree_retagged t t' r r' : T t t' ->
    agree Q r r' -> agree Q (res_map_err (retagged t) r) (res_map_err (retagged t') r').
  Proof. intros H. apply agree_map_err. intros e e' HE. now apply et_retagged. Qed.
  Lemma agree_prefixed k r r' :
    agree Q r r' -> agree Q (res_map_err (prefixed k) r) (res_map_err (prefixed k) r').
  Proof. apply agree_map_err. intros e e' H. now apply et_prefixed. Qed.
  Lemma agree_at_key k t t' r r' : T t t' -> agree Q r r' -> agree Q (at_key k t r) (at_key k t' r').
  Proof.
    intros HH. apply agree_map_err. intros e e' H. now apply et_retagged, et_prefixed.
  Qed.
  Lemma agree_bind {C} (R : C -> C -> Prop) r r' (k : A -> res error C) (k' : A -> res error C) :
    agree Q r r' -> (forall x y, Q x y -> agree R (k x) (k' y)) -> agree R (res_bind r k) (res_bind r' k').
  Proof. intros H HK. destruct H; cbn; [auto|now constructor]. Qed.
  Lemma agree_map {C} (R : C -> C -> Prop) r r' (k k' : A -> C) :
    agree Q r r' -> (forall x y, Q x y -> R (k x) (k' y)) -> agree R (res_map k r) (res_map k' r').
  Proof. intros H HK. destruct H; cbn; constructor; auto. Qed.
End agreement.

(** ** Values *)
Definition ok (k : ustr) : Prop := ~ claims_tag k.
Definition kept {K A B} (P : K -> Prop) (R : A -> B -> Prop) (a : K * A) (b : K * B) : Prop :=
  fst a = fst b /\ P (fst a) /\ R (snd a) (snd b).
Definition keyed {K A B} (R : A -> B -> Prop) (a : K * A) (b : K * B) : Prop :=
  fst a = fst b /\ R (snd a) (snd b).
Lemma F2_imp {A B} (P Q : A -> B -> Prop) l l' :
  (forall x y, P x y -> Q x y) -> Forall2 P l l' -> Forall2 Q l l'.
Proof. intros H. induction 1; constructor; auto. Qed.
Lemma dut_kept d d' : dut d d' -> Forall2 (kept ok vt) d d'.
Proof. exact (fun H => H). Qed.
Lemma kept_dut d d' : Forall2 (kept ok vt) d d' -> dut d d'.
Proof. exact (fun H => H). Qed.
Lemma vt_tag v v' : vt v v' -> T (vtag v) (vtag v').
Proof. destruct 1; assumption. Qed.
Lemma vt_map_tag g h : (forall t t', T t t' -> T (g t) (h t')) -> forall v v', vt v v' -> vt (map_tag g v) (map_tag h v').
Proof.
  intros HG.
  assert (HR : forall t t', T t t' -> T (if tag_eqb t tag_default then g t else t) (if tag_eqb t' tag_default then h t' else t')).
  { intros t t' H. rewrite <- (gd_eqb T HT _ _ H). destruct (tag_eqb t tag_default); auto. }
  induction v as [t s|t c|t b|t n|t e|t d IH|t l IH] using value_ind'; intros v' U; inversion U; subst; cbn [map_tag];
    constructor; auto.
  - match goal with H : Forall2 _ d _ |- _ => revert IH; induction H as [|[k x] [k' x'] r r' (E1 & E2 & E3) HF IHF]; intros IH end;
      cbn [map]; constructor; inversion IH; subst.
    + cbn in *. repeat split; auto.
    + now apply IHF; [constructor|].
  - match goal with H : Forall2 _ l _ |- _ => revert IH; induction H as [|x x' r r' E HF IHF]; intros IH end;
      cbn [map]; constructor; inversion IH; subst; auto. now apply IHF; [constructor|].
Qed.

(** Maps entry by entry. *)
Section maps.
  Context {K A B : Type} `{Cmp K} (P : K -> Prop) (R : A -> B -> Prop).
  Lemma keyed_get k m m' : Forall2 (kept P R) m m' ->
    match get k m, get k m' with Some x, Some y => R x y | None, None => True | _, _ => False end.
  Proof.
    induction 1 as [|[k1 x1] [k2 x2] r r' (E1 & E0 & E2) HF IH]; cbn; [exact I|]. cbn in E1, E0, E2. subst k2.
    destruct (cmp k k1); auto.
  Qed.
  Lemma keyed_insert k x y m m' : P k -> R x y -> Forall2 (kept P R) m m' ->
    Forall2 (kept P R) (insert k x m) (insert k y m').
  Proof.
    intros HP HR. induction 1 as [|[k1 x1] [k2 x2] r r' (E1 & E0 & E2) HF IH]; cbn.
    - constructor; [repeat split; auto|constructor].
    - cbn in E1, E0, E2. subst k2. destruct (cmp k k1); constructor; auto; try (repeat split; auto; fail).
      constructor; auto. repeat split; auto.
  Qed.
  Lemma keyed_take k m m' : Forall2 (kept P R) m m' ->
    match take k m, take k m' with
    | Some (x, r), Some (y, r') => R x y /\ Forall2 (kept P R) r r'
    | None, None => True
    | _, _ => False
    end.
  Proof.
    induction 1 as [|[k1 x1] [k2 x2] r r' (E1 & E0 & E2) HF IH]; cbn; [exact I|]. cbn in E1, E0, E2. subst k2.
    destruct (cmp k k1); [split; assumption| |];
      destruct (take k r) as [[x w]|], (take k r') as [[x' w']|]; try contradiction; auto;
      destruct IH as [I1 I2]; split; auto; constructor; auto; repeat split; auto.
  Qed.
  Lemma keyed_extend l l' : Forall2 (kept P R) l l' -> forall m m', Forall2 (kept P R) m m' ->
    Forall2 (kept P R) (extend m l) (extend m' l').
  Proof.
    induction 1 as [|[k1 x1] [k2 x2] r r' (E1 & E0 & E2) HF IH]; cbn; intros m m' HM; [assumption|].
    cbn in E1, E0, E2. subst k2. apply IH. now apply keyed_insert.
  Qed.
End maps.
Lemma dut_insert k x y m m' : ok k -> vt x y -> dut m m' -> dut (insert k x m) (insert k y m').
Proof. apply (keyed_insert ok vt). Qed.
Lemma keyed_kept {K A B} (R : A -> B -> Prop) (l : list (K * A)) (l' : list (K * B)) :
  Forall2 (keyed R) l l' <-> Forall2 (kept (fun _ => True) R) l l'.
Proof. split; apply F2_imp; unfold keyed, kept; tauto. Qed.

(** ** Deserializers *)
(** [pl]: may values be read as such, without a Figment? *)
Inductive drel (pl : bool) : deser -> deser -> Prop :=
| dr_conf i f f' v v' : fk f f' -> vt v v' -> drel pl (DConf i f v) (DConf i f' v')
| dr_plain v v' : pl = true -> vt v v' -> drel pl (DPlain v) (DPlain v')
| dr_str s : drel pl (DStr s) (DStr s)
| dr_u32 z : drel pl (DU32 z) (DU32 z)
| dr_missing f : drel pl (DMissing f) (DMissing f).
Lemma drel_mono pl d d' : drel pl d d' -> drel true d d'.
Proof. destruct 1; constructor; auto. Qed.

Definition erel (pl : bool) (x y : entry) : Prop :=
  fst (fst x) = fst (fst y) /\ ok (fst (fst x)) /\ T (snd (fst x)) (snd (fst y)) /\ drel pl (snd x) (snd y).
Lemma erel_mono pl d d' : erel pl d d' -> erel true d d'.
Proof. intros (H1 & H2 & H3 & H4). repeat split; auto. now apply (drel_mono pl). Qed.

Inductive arel (pl : bool) : enum_access -> enum_access -> Prop :=
| ar_unit d d' : drel pl d d' -> arel pl (EUnitOnly d) (EUnitOnly d')
| ar_map l l' : Forall2 (erel pl) l l' -> arel pl (EMap l) (EMap l').

Definition kinf (pl : bool) {A} (Q : A -> A -> Prop) (rec : deser -> res error A) : Prop :=
  forall d d', drel pl d d' -> agree Q (rec d) (rec d').
Lemma kinf_mono pl {A} (Q : A -> A -> Prop) rec : kinf true Q rec -> kinf pl Q rec.
Proof. intros H d d' HD. apply H. now apply (drel_mono pl). Qed.

Record kinv (pl : bool) {A} (Q : A -> A -> Prop) (vis : visitor A) : Prop := mkKinv {
  bv_bool : forall b, agree Q (visit_bool vis b) (visit_bool vis b);
  bv_signed : forall k z, agree Q (visit_signed vis k z) (visit_signed vis k z);
  bv_unsigned : forall k z, agree Q (visit_unsigned vis k z) (visit_unsigned vis k z);
  bv_i128 : forall z, agree Q (visit_i128 vis z) (visit_i128 vis z);
  bv_u128 : forall z, agree Q (visit_u128 vis z) (visit_u128 vis z);
  bv_f32 : forall x, agree Q (visit_f32 vis x) (visit_f32 vis x);
  bv_f64 : forall x, agree Q (visit_f64 vis x) (visit_f64 vis x);
  bv_char : forall c, agree Q (visit_char vis c) (visit_char vis c);
  bv_str : forall s, agree Q (visit_str vis s) (visit_str vis s);
  bv_none : agree Q (visit_none vis) (visit_none vis);
  bv_unit : agree Q (visit_unit vis) (visit_unit vis);
  bv_some : forall d d', drel pl d d' -> agree Q (visit_some vis d) (visit_some vis d');
  bv_newtype : forall d d', drel pl d d' -> agree Q (visit_newtype vis d) (visit_newtype vis d');
  bv_seq : forall l l', Forall2 (drel pl) l l' -> agree Q (visit_seq vis l) (visit_seq vis l');
  bv_map : forall l l', Forall2 (erel pl) l l' -> agree Q (visit_map vis l) (visit_map vis l')
}.
Lemma kinv_mono pl {A} (Q : A -> A -> Prop) vis : kinv true Q vis -> kinv pl Q vis.
Proof.
  intros []. constructor; auto.
  - intros. apply bv_some0. now apply (drel_mono pl).
  - intros. apply bv_newtype0. now apply (drel_mono pl).
  - intros. apply bv_seq0. eapply F2_imp; [|eassumption]. apply drel_mono.
  - intros. apply bv_map0. eapply F2_imp; [|eassumption]. apply erel_mono.
Qed.
Definition kine (pl : bool) {A} (Q : A -> A -> Prop) (vis : visitor A) : Prop :=
  forall a a', arel pl a a' -> agree Q (visit_enum vis a) (visit_enum vis a').

(** Scalars: what they are read as has no tags. *)
Ltac calm := intros; repeat (match goal with
  | |- res_twin _ _ (Ok _) (Ok _) => apply rt_ok
  | |- res_twin _ _ (Err _) (Err _) => apply rt_err; first [apply et_kind|constructor; exact Tdef]
  | |- res_twin _ _ (invalid_type _ _) _ => apply rt_err; apply et_kind
  | |- res_twin _ _ (invalid_value _ _) _ => apply rt_err; apply et_kind
  | |- dval_twin _ _ _ => apply dt_plain; exact I
  | |- value_twin _ _ _ => constructor; exact Tdef
  | |- _ = _ => reflexivity
  | |- res_twin _ _ (if ?b then _ else _) _ => destruct b
  | |- res_twin _ _ (match ?b with _ => _ end) _ => destruct b
  end; cbn).

(** How children are read on the two sides. *)
Definition mkrel (pl : bool) (mk mk' : value -> deser) : Prop := forall v v', vt v v' -> drel pl (mk v) (mk' v').

Lemma map_access_rel pl mk mk' d d' : mkrel pl mk mk' -> dut d d' ->
  Forall2 (erel pl) (map_access mk d) (map_access mk' d').
Proof.
  intros HM. induction 1 as [|[k x] [k' x'] r r' (E1 & E0 & E2) HF IH]; cbn; constructor; auto.
  cbn in *. repeat split; cbn; auto. now apply vt_tag.
Qed.
Lemma seq_access_rel pl mk mk' l l' : mkrel pl mk mk' -> Forall2 vt l l' -> Forall2 (drel pl) (map mk l) (map mk' l').
Proof. intros HM. induction 1; cbn; constructor; auto. Qed.

Lemma mkrel_conf pl i f f' : fk f f' -> mkrel pl (DConf i f) (DConf i f').
Proof. intros HF v v' H. now constructor. Qed.
Lemma mkrel_plain : mkrel true DPlain DPlain.
Proof. intros v v' H. now constructor. Qed.

Section visiting.
  Context {A : Type} (pl : bool) (Q : A -> A -> Prop) (vis : visitor A) (HV : kinv pl Q vis).

  Lemma num_visit_rel n : agree Q (num_visit n vis) (num_visit n vis).
  Proof. destruct HV. destruct n as [[]| |]; cbn; auto. Qed.
  Lemma empty_visit_rel e : agree Q (empty_visit e vis) (empty_visit e vis).
  Proof. destruct HV. destruct e; cbn; auto. Qed.

  Lemma value_visit_rel mk mk' v v' : mkrel pl mk mk' -> vt v v' ->
    agree Q (value_visit mk v vis) (value_visit mk' v' vis).
  Proof.
    intros HM H. destruct H; cbn [value_visit].
    - apply (bv_str _ _ _ HV).
    - apply (bv_char _ _ _ HV).
    - apply (bv_bool _ _ _ HV).
    - apply num_visit_rel.
    - apply empty_visit_rel.
    - apply (bv_map _ _ _ HV). now apply map_access_rel.
    - apply (bv_seq _ _ _ HV). now apply seq_access_rel.
  Qed.

  Lemma de_any_rel d d' : drel pl d d' -> agree Q (de_any d vis) (de_any d' vis).
  Proof.
    destruct 1; cbn [de_any].
    - apply agree_settle; [assumption|now apply vt_tag|]. apply value_visit_rel; [now apply mkrel_conf|assumption].
    - apply agree_retagged; [now apply vt_tag|]. apply value_visit_rel; [|assumption].
      intros w w' HW. now constructor.
    - apply (bv_str _ _ _ HV).
    - apply (bv_unsigned _ _ _ HV).
    - apply rt_err. apply et_kind.
  Qed.

  Lemma de_option_rel d d' : drel pl d d' -> agree Q (de_option d vis) (de_option d' vis).
  Proof.
    intros H. destruct H as [i f f' v v' F U|v v' P U|s|z|f]; cbn [de_option].
    - apply agree_settle; [assumption|now apply vt_tag|]. pose proof U as U'.
      destruct U'; try (apply (bv_some _ _ _ HV); now constructor). apply empty_visit_rel.
    - pose proof U as U'.
      destruct U'; try (apply (bv_some _ _ _ HV); now constructor). apply agree_retagged; [assumption|]. apply empty_visit_rel.
    - apply de_any_rel. constructor.
    - apply de_any_rel. constructor.
    - apply (bv_none _ _ _ HV).
  Qed.

  Lemma enum_visit_rel mk mk' v v' : kine pl Q vis -> mkrel pl mk mk' -> vt v v' ->
    agree Q (enum_visit mk v vis) (enum_visit mk' v' vis).
  Proof.
    intros HE HM U. pose proof U as U'.
    destruct U' as [t t' s H|t t' s H|t t' s H|t t' n H|t t' s H|t t' d d' H D|t t' l l' H L]; cbn [enum_visit];
      try (apply de_any_rel; apply HM; exact U).
    - apply HE. repeat constructor.
    - destruct (num_to_u32 n) as [z|]; [apply HE; repeat constructor|].
      apply de_any_rel; apply HM; exact U.
    - apply HE. constructor. now apply map_access_rel.
  Qed.

  Lemma de_enum_rel d d' : kine pl Q vis -> drel pl d d' -> agree Q (de_enum d vis) (de_enum d' vis).
  Proof.
    intros HE H. destruct H as [i f f' v v' F U|v v' P U|s|z|f]; cbn [de_enum].
    - apply agree_settle; [assumption|now apply vt_tag|]. apply enum_visit_rel; [exact HE|now apply mkrel_conf|assumption].
    - apply agree_retagged; [now apply vt_tag|]. apply enum_visit_rel; [exact HE| |assumption].
      intros w w' HW. now constructor.
    - apply HE. repeat constructor.
    - apply HE. repeat constructor.
    - apply rt_err. apply et_kind.
  Qed.

  Lemma de_newtype_rel d d' : drel pl d d' -> agree Q (de_newtype d vis) (de_newtype d' vis).
  Proof.
    intros H. pose proof H as H'. destruct H' as [i f f' v v' F U|v v' P U|s|z|f]; cbn [de_newtype];
      try (apply (bv_newtype _ _ _ HV); exact H); apply (de_any_rel _ _ H).
  Qed.

  Lemma de_128_rel b d d' : drel pl d d' -> agree Q (de_128 b d vis) (de_128 b d' vis).
  Proof.
    intros H. pose proof H as H'. destruct H' as [i f f' v v' F U|v v' P U|s|z|f]; cbn [de_128];
      try (apply (de_any_rel _ _ H)); apply rt_err; apply et_kind.
  Qed.
  Lemma de_struct_plain_rel name d d' : ~ In name [value_name; rel_name; tagged_name] ->
    drel pl d d' -> agree Q (de_struct name d vis) (de_struct name d' vis).
  Proof.
    intros HN H. pose proof H as H'. destruct H' as [i f f' v v' F U|v v' P U|s|z|f]; cbn [de_struct];
      try (apply (de_any_rel _ _ H)).
    assert (E : forall f v, magic_map name f v = None).
    { intros f0 v0. unfold magic_map.
      destruct (ueqb name value_name) eqn:E1; [apply ueqb_eq in E1; destruct HN; cbn; auto|].
      destruct (ueqb name rel_name) eqn:E2; [apply ueqb_eq in E2; destruct HN; cbn; auto|].
      destruct (ueqb name tagged_name) eqn:E3; [apply ueqb_eq in E3; destruct HN; cbn; auto|].
      reflexivity. }
    rewrite !E. apply agree_settle; [assumption|now apply vt_tag|]. apply (de_any_rel _ _ H).
  Qed.
End visiting.

Lemma vt_bool i v v' : vt v v' -> vt (interpret_as_bool i v) (interpret_as_bool i v').
Proof.
  intros U. destruct i; cbn [interpret_as_bool]; [exact U|].
  assert (E : to_bool_lossy v = to_bool_lossy v') by (destruct U; reflexivity).
  rewrite E. destruct (to_bool_lossy v'); [constructor; now apply vt_tag|exact U].
Qed.
Lemma vt_num' i v v' : vt v v' -> vt (interpret_as_num i v) (interpret_as_num i v').
Proof.
  intros U. destruct i; cbn [interpret_as_num]; [exact U|].
  assert (E : to_num_lossy v = to_num_lossy v') by (destruct U; reflexivity).
  rewrite E. destruct (to_num_lossy v'); [constructor; now apply vt_tag|exact U].
Qed.
Section scalars.
  Context {A : Type} (pl : bool) (Q : A -> A -> Prop) (vis : visitor A) (HV : kinv true Q vis).
  Lemma de_bool_rel d d' : drel pl d d' -> agree Q (de_bool d vis) (de_bool d' vis).
  Proof.
    intros H. apply drel_mono in H. pose proof H as H'. destruct H' as [i f f' v v' F U|v v' P U|s|z|f]; cbn [de_bool];
      try (apply (de_any_rel true Q vis HV _ _ H)).
    apply agree_settle; [assumption|now apply vt_tag|]. apply (de_any_rel true Q vis HV). constructor; [reflexivity|]. now apply vt_bool.
  Qed.
  Lemma de_num_rel d d' : drel pl d d' -> agree Q (de_num d vis) (de_num d' vis).
  Proof.
    intros H. apply drel_mono in H. pose proof H as H'. destruct H' as [i f f' v v' F U|v v' P U|s|z|f]; cbn [de_num];
      try (apply (de_any_rel true Q vis HV _ _ H)).
    apply agree_settle; [assumption|now apply vt_tag|]. apply (de_any_rel true Q vis HV). constructor; [reflexivity|]. now apply vt_num'.
  Qed.
End scalars.

(** ** Entries and elements *)
Lemma next_key_rel pl {A} (Q : A -> A -> Prop) seed x y :
  kinf pl Q seed -> erel pl x y -> agree Q (next_key seed x) (next_key seed y).
Proof.
  intros HB (E1 & E0 & E2 & E3). destruct x as [[k t] d], y as [[k' t'] d']. cbn in *. subst k'.
  apply (agree_at_key Q k t t'); [assumption|]. apply HB. constructor.
Qed.
Lemma next_value_rel pl {A} (Q : A -> A -> Prop) seed x y :
  kinf pl Q seed -> erel pl x y -> agree Q (next_value seed x) (next_value seed y).
Proof.
  intros HB (E1 & E0 & E2 & E3). destruct x as [[k t] d], y as [[k' t'] d']. cbn in *. subst k'.
  apply (agree_at_key Q k t t'); [assumption|]. now apply HB.
Qed.
Lemma next_element_rel pl {A} (Q : A -> A -> Prop) seed n d d' :
  kinf pl Q seed -> drel pl d d' -> agree Q (next_element seed n d) (next_element seed n d').
Proof. intros HB H. apply agree_prefixed. now apply HB. Qed.

(** ** [Value] as a target *)
Definition mrel (m m' : mode) : Prop :=
  match m, m' with
  | MConf i f, MConf i' f' => i = i' /\ fk f f'
  | MPlain, MPlain => True
  | _, _ => False
  end.
Lemma mode_settle_rel {A} (Q : A -> A -> Prop) m m' t t' r r' :
  mrel m m' -> T t t' -> agree Q r r' -> agree Q (mode_settle m t r) (mode_settle m' t' r').
Proof.
  destruct m, m'; cbn; intros HM HH H; try contradiction; [apply agree_settle; tauto|now apply agree_retagged].
Qed.
Lemma value_of_raw_rel m m' t t' r r' :
  mrel m m' -> T t t' -> agree vt r r' -> agree vt (value_of_raw m t r) (value_of_raw m' t' r').
Proof.
  destruct m, m'; cbn; intros HM HH H; try contradiction; [|assumption].
  apply agree_settle; [tauto|assumption|]. eapply agree_map; [apply agree_at_key; [assumption|exact H]|].
  intros x y U. now apply vt_map_tag.
Qed.

Definition oput (a b : option value) : Prop :=
  match a, b with Some x, Some y => vt x y | None, None => True | _, _ => False end.
Lemma finish_map_rel acc acc' raw raw' :
  dut acc acc' -> oput raw raw' -> vt (finish_map acc None raw) (finish_map acc' None raw').
Proof.
  intros HA HR. destruct raw, raw'; cbn in HR; try contradiction; cbn; [assumption|]. now constructor.
Qed.
Lemma ok_id k : ok k -> ueqb k value_id = false.
Proof. intros H. destruct (ueqb k value_id) eqn:E; [|reflexivity]. apply ueqb_eq in E. destruct H. now left. Qed.

Lemma raw_value_rel m m' : mrel m m' -> forall v v', vt v v' -> agree vt (raw_value m v) (raw_value m' v').
Proof.
  intros HM. induction v as [t s|t c|t b|t n|t e|t d IH|t l IH] using value_ind'; intros v' U;
    inversion U as [| | | | |? t1 ? d' H1 HD|? t1 ? l' H1 HL]; subst; cbn [raw_value vtag];
    apply mode_settle_rel; auto; try (apply rt_ok; constructor; exact Tdef).
  - clear U.
    assert (G : forall d d', Forall (fun kv => forall v', vt (snd kv) v' -> agree vt (raw_value m (snd kv)) (raw_value m' v')) d ->
      dut d d' -> forall acc acc' raw raw', dut acc acc' -> oput raw raw' ->
      agree vt
        ((fix go (d : list (ustr * value)) (acc : dict) (id : option tag) (raw : option value)
           : res error value :=
           match d with
           | [] => Ok (finish_map acc id raw)
           | (k, x) :: r =>
               if ueqb k value_id
               then res_bind (at_key k (vtag x) (deserialize_tag (mk_de m x)))
                             (fun t => go r acc (Some t) raw)
               else if ueqb k value_value
               then res_bind (at_key k (vtag x) (raw_value m x)) (fun y => go r acc id (Some y))
               else res_bind (at_key k (vtag x) (value_of_raw m (vtag x) (raw_value m x)))
                             (fun y => go r (insert k y acc) id raw)
           end) d acc None raw)
        ((fix go (d : list (ustr * value)) (acc : dict) (id : option tag) (raw : option value)
           : res error value :=
           match d with
           | [] => Ok (finish_map acc id raw)
           | (k, x) :: r =>
               if ueqb k value_id
               then res_bind (at_key k (vtag x) (deserialize_tag (mk_de m' x)))
                             (fun t => go r acc (Some t) raw)
               else if ueqb k value_value
               then res_bind (at_key k (vtag x) (raw_value m' x)) (fun y => go r acc id (Some y))
               else res_bind (at_key k (vtag x) (value_of_raw m' (vtag x) (raw_value m' x)))
                             (fun y => go r (insert k y acc) id raw)
           end) d' acc' None raw')).
    { clear d IH d' HD. intros d d' IH HD.
      induction HD as [|[k x] [k' x'] r r' (E1 & E0 & E2) HF IHF]; intros acc acc' raw raw' HA HR.
      - apply rt_ok. now apply finish_map_rel.
      - cbn in E1, E0, E2. subst k'. apply Forall_cons_iff in IH. destruct IH as [IH1 IH2]. cbn in IH1.
        rewrite (ok_id k E0). pose proof (vt_tag _ _ E2) as HG.
        destruct (ueqb k value_value).
        + eapply agree_bind; [apply agree_at_key; [exact HG|]; apply IH1; assumption|].
          intros x0 y0 U0. apply IHF; auto.
        + eapply agree_bind; [apply agree_at_key; [exact HG|]; apply value_of_raw_rel; auto|].
          intros x0 y0 U0. apply IHF; auto. now apply dut_insert. }
    apply G; auto; try exact I. constructor.
  - clear U. eapply agree_map with (Q := Forall2 vt).
    + assert (G : forall l l' n, Forall (fun x => forall v', vt x v' -> agree vt (raw_value m x) (raw_value m' v')) l ->
        Forall2 vt l l' ->
        agree (Forall2 vt)
          ((fix go (l : list value) (n : N) : res error (list value) :=
             match l with
             | [] => Ok []
             | x :: r =>
                 res_bind (res_map_err (prefixed (fmt_nat n)) (value_of_raw m (vtag x) (raw_value m x)))
                          (fun y => res_map (cons y) (go r (n + 1)%N))
             end) l n)
          ((fix go (l : list value) (n : N) : res error (list value) :=
             match l with
             | [] => Ok []
             | x :: r =>
                 res_bind (res_map_err (prefixed (fmt_nat n)) (value_of_raw m' (vtag x) (raw_value m' x)))
                          (fun y => res_map (cons y) (go r (n + 1)%N))
             end) l' n)).
      { clear l IH l' HL. intros l l' n IH HL. revert n IH.
        induction HL as [|x x' r r' E HF IHF]; intros n IH; [constructor; constructor|].
        apply Forall_cons_iff in IH. destruct IH as [IH1 IH2].
        eapply agree_bind; [apply agree_prefixed; apply value_of_raw_rel; auto; now apply vt_tag|].
        intros x0 y0 U0. eapply agree_map; [apply IHF; assumption|]. intros; now constructor. }
      now apply G.
    + intros a b H. now constructor.
Qed.

Lemma value_kin pl : kinf pl vt deserialize_value.
Proof.
  apply kinf_mono.
  intros d d' H. destruct H as [i f f' v v' F U|v v' P U|s|z|f]; cbn [deserialize_value].
  - apply value_of_raw_rel; [split; [reflexivity|assumption]|now apply vt_tag|]. apply raw_value_rel; [split; [reflexivity|assumption]|assumption].
  - apply raw_value_rel; [exact I|assumption].
  - apply rt_ok. now constructor.
  - apply rt_ok. now constructor.
  - apply rt_err, et_kind.
Qed.
Lemma raw_kin pl : kinf pl vt deserialize_raw.
Proof.
  apply kinf_mono.
  intros d d' H. pose proof H as H'. destruct H' as [i f f' v v' F U|v v' P U|s|z|f]; cbn [deserialize_raw];
    try (apply (value_kin true _ _ H)).
  apply raw_value_rel; [split; [reflexivity|assumption]|assumption].
Qed.

Lemma value_entries_rel pl l l' : Forall2 (erel pl) l l' ->
  forall acc acc' raw raw', dut acc acc' -> oput raw raw' ->
  agree vt (value_entries l acc None raw) (value_entries l' acc' None raw').
Proof.
  induction 1 as [|x x' r r' E HF IH]; intros acc acc' raw raw' HA HR; cbn [value_entries].
  - apply rt_ok. now apply finish_map_rel.
  - pose proof E as (E1 & E0 & E2 & E3). rewrite <- E1. rewrite (ok_id _ E0).
    destruct (ueqb (fst (fst x)) value_value).
    + eapply agree_bind; [apply (next_value_rel pl); [apply raw_kin|exact E]|].
      intros a b U. apply IH; auto.
    + eapply agree_bind; [apply (next_value_rel pl); [apply value_kin|exact E]|].
      intros a b U. apply IH; auto. now apply dut_insert.
Qed.
Lemma value_elements_rel pl l l' : Forall2 (drel pl) l l' -> forall n,
  agree (Forall2 vt) (value_elements l n) (value_elements l' n).
Proof.
  induction 1 as [|x x' r r' E HF IH]; intros n; cbn [value_elements]; [constructor; constructor|].
  eapply agree_bind; [apply (next_element_rel pl); [apply value_kin|assumption]|].
  intros a b U. eapply agree_map; [apply IH|]. intros; now constructor.
Qed.
Lemma enum_first_rel pl {A} (Q : A -> A -> Prop) l l' h :
  Forall2 (erel pl) l l' -> (forall x y, erel pl x y -> agree Q (h x) (h y)) ->
  agree Q (enum_first l h) (enum_first l' h).
Proof. intros H HH. destruct H; cbn; [apply rt_err, et_kind|auto]. Qed.

Lemma value_visitor_kin pl : kinv pl vt value_visitor.
Proof.
  apply kinv_mono. constructor; try (cbn; calm; fail).
  - intros d d' H. cbn. now apply (raw_kin true).
  - intros l l' H. cbn. eapply agree_map; [apply (value_elements_rel true); exact H|].
    intros a b U. now constructor.
  - intros l l' H. cbn. apply (value_entries_rel true); auto; try exact I. constructor.
Qed.

(** ** Target types *)
Lemma all_elements_rel pl rec l l' : kinf pl deq rec -> Forall2 (drel pl) l l' -> forall n,
  agree (Forall2 deq) (all_elements rec l n) (all_elements rec l' n).
Proof.
  intros HB. induction 1 as [|x x' r r' E HF IH]; intros n; cbn [all_elements]; [constructor; constructor|].
  eapply agree_bind; [apply (next_element_rel pl); eassumption|].
  intros a b U. eapply agree_map; [apply IH|]. intros; now constructor.
Qed.

Lemma tuple_elements_rel pl recs short : Forall (kinf pl deq) recs -> forall l l', Forall2 (drel pl) l l' ->
  forall n, agree (Forall2 deq) (tuple_elements recs short l n) (tuple_elements recs short l' n).
Proof.
  induction 1 as [|rec rs HB HR IH]; intros l l' HL n; cbn [tuple_elements]; [constructor; constructor|].
  destruct HL as [|d d' r r' E HF]; [apply rt_err, et_kind|].
  eapply agree_bind; [apply (next_element_rel pl); eassumption|].
  intros a b U. eapply agree_map; [apply IH; assumption|]. intros; now constructor.
Qed.

Lemma string_key_kin pl : kinf pl eq string_key.
Proof.
  intros d d' H. apply (de_any_rel pl); [|exact H]. constructor; cbn; calm.
Qed.

Lemma deq_insert k x y (m m' : list (ustr * dval)) : deq x y -> Forall2 (keyed deq) m m' ->
  Forall2 (keyed deq) (insert k x m) (insert k y m').
Proof. intros H HM. apply keyed_kept. apply keyed_kept in HM. now apply (keyed_insert (fun _ => True) deq). Qed.

Lemma map_entries_rel pl rec l l' : kinf pl deq rec -> Forall2 (erel pl) l l' -> forall acc acc',
  Forall2 (keyed deq) acc acc' -> agree (Forall2 (keyed deq)) (map_entries rec l acc) (map_entries rec l' acc').
Proof.
  intros HB. induction 1 as [|x x' r r' E HF IH]; intros acc acc' HA; cbn [map_entries]; [now constructor|].
  eapply agree_bind; [apply (next_key_rel pl); [apply string_key_kin|exact E]|]. intros k k' ->.
  eapply agree_bind; [apply (next_value_rel pl); eassumption|]. intros a b U.
  apply IH. now apply deq_insert.
Qed.

Lemma pair_entries_rel pl reck rec l l' : kinf pl deq reck -> kinf pl deq rec -> Forall2 (erel pl) l l' ->
  agree (Forall2 (fun x y => deq (fst x) (fst y) /\ deq (snd x) (snd y)))
        (pair_entries reck rec l) (pair_entries reck rec l').
Proof.
  intros HK HB. induction 1 as [|x x' r r' E HF IH]; cbn [pair_entries]; [constructor; constructor|].
  eapply agree_bind; [apply (next_key_rel pl); eassumption|]. intros k k' EK.
  eapply agree_bind; [apply (next_value_rel pl); eassumption|]. intros a b U.
  eapply agree_map; [apply IH|]. intros. constructor; [split|]; assumption.
Qed.

Lemma field_key_kin pl deny fs : kinf pl eq (field_key deny fs).
Proof.
  intros d d' H. apply (de_any_rel pl); [|exact H]. constructor; cbn; calm.
Qed.
Lemma variant_key_kin pl vs : kinf pl eq (variant_key vs).
Proof.
  intros d d' H. apply (de_any_rel pl); [|exact H]. constructor; cbn; calm.
Qed.

Lemma keyed_assoc {A B} (R : A -> B -> Prop) k m m' : Forall2 (keyed R) m m' ->
  match assoc k m, assoc k m' with Some x, Some y => R x y | None, None => True | _, _ => False end.
Proof.
  induction 1 as [|[k1 x1] [k2 x2] r r' [E1 E2] HF IH]; cbn; [exact I|]. cbn in E1, E2. subst k2.
  destruct (ueqb k k1); auto.
Qed.
Lemma assoc_forall {A} (P : A -> Prop) k (m : list (ustr * A)) x :
  Forall (fun f => P (snd f)) m -> assoc k m = Some x -> P x.
Proof.
  induction 1 as [|[k1 x1] r HP HF IH]; cbn; [discriminate|].
  destruct (ueqb k k1); [intros E; injection E as <-; exact HP|exact IH].
Qed.

Lemma field_entries_rel pl deny fs l l' : Forall (fun f => kinf pl deq (snd f)) fs -> Forall2 (erel pl) l l' ->
  forall slots slots', Forall2 (keyed deq) slots slots' ->
  agree (Forall2 (keyed deq)) (field_entries deny fs l slots) (field_entries deny fs l' slots').
Proof.
  intros HB. induction 1 as [|x x' r r' E HF IH]; intros slots slots' HS; cbn [field_entries]; [now constructor|].
  eapply agree_bind; [apply (next_key_rel pl); [apply field_key_kin|exact E]|]. intros k k' <-.
  destruct k as [k|]; [|now apply IH].
  destruct (assoc k fs) as [rec|] eqn:EA; [|now apply IH].
  pose proof (assoc_forall _ _ _ _ HB EA) as HR.
  pose proof (keyed_assoc deq k _ _ HS) as HK.
  destruct (assoc k slots), (assoc k slots'); try contradiction; [apply rt_err, et_kind|].
  eapply agree_bind; [apply (next_value_rel pl); eassumption|]. intros a b U.
  apply IH. constructor; [split; [reflexivity|exact U]|exact HS].
Qed.

Lemma fill_fields_rel pl fs slots slots' : Forall (fun f => kinf pl deq (snd f)) fs ->
  Forall2 (keyed deq) slots slots' ->
  agree (Forall2 (keyed deq)) (fill_fields fs slots) (fill_fields fs slots').
Proof.
  intros HB HS. induction HB as [|[n rec] r HR HF IH]; cbn [fill_fields]; [constructor; constructor|].
  eapply agree_bind with (Q := deq).
  - pose proof (keyed_assoc deq n _ _ HS) as HK.
    destruct (assoc n slots), (assoc n slots'); try contradiction; [now constructor|].
    apply HR. constructor.
  - intros a b U. eapply agree_map; [apply IH|]. intros. constructor; [split; [reflexivity|exact U]|assumption].
Qed.

Lemma combine_rel {A} ks : forall (l l' : list A) (R : A -> A -> Prop),
  Forall2 R l l' -> Forall2 (@keyed ustr A A R) (combine ks l) (combine ks l').
Proof.
  induction ks as [|k ks IH]; intros l l' R H; cbn; [constructor|].
  destruct H; constructor; [split; [reflexivity|assumption]|now apply IH].
Qed.

Lemma struct_visitor_kin pl (Q : dval -> dval -> Prop) exp deny fs h :
  Forall (fun f => kinf pl deq (snd f)) fs ->
  (forall l l', Forall2 (keyed deq) l l' -> Q (h l) (h l')) ->
  kinv pl Q (struct_visitor exp deny fs h).
Proof.
  intros HB HH. constructor; try (cbn; calm; fail).
  - intros l l' HL. cbn. eapply agree_map; [apply (tuple_elements_rel pl); [|exact HL]|].
    + clear -HB. induction HB; cbn; constructor; auto.
    + intros a b U. apply HH. now apply combine_rel.
  - intros l l' HL. cbn. eapply agree_map; [|exact HH].
    eapply agree_bind; [apply (field_entries_rel pl); [exact HB|exact HL|constructor]|].
    intros a b U. now apply (fill_fields_rel pl).
Qed.

Lemma tuple_visitor_kin pl (Q : dval -> dval -> Prop) exp recs h :
  Forall (kinf pl deq) recs ->
  (forall l l', Forall2 deq l l' -> Q (h l) (h l')) ->
  kinv pl Q (tuple_visitor exp recs h).
Proof.
  intros HB HH. constructor; try (cbn; calm; fail).
  intros l l' HL. cbn. eapply agree_map; [apply (tuple_elements_rel pl); [exact HB|exact HL]|exact HH].
Qed.

Lemma unit_visitor_kin pl exp : kinv pl deq (unit_visitor exp).
Proof. constructor; cbn; calm. Qed.

(** Variant payloads. *)
Inductive srel : shape dval -> shape dval -> Prop :=
| sr_unit : srel ShUnit ShUnit
| sr_new x y : deq x y -> srel (ShNew x) (ShNew y)
| sr_tuple l l' : Forall2 deq l l' -> srel (ShTuple l) (ShTuple l')
| sr_struct l l' : Forall2 (keyed deq) l l' -> srel (ShStruct l) (ShStruct l').
Lemma deq_variant n s s' : srel s s' -> deq (EVVariant n s) (EVVariant n s').
Proof. intros H. destruct H; first [apply dt_unit_variant|constructor; assumption]. Qed.

Definition payload_kin pl (s : shape (deser -> res error dval)) : Prop :=
  match s with
  | ShUnit => True
  | ShNew rec => kinf pl deq rec
  | ShTuple recs => Forall (kinf pl deq) recs
  | ShStruct fs => Forall (fun f => kinf pl deq (snd f)) fs
  end.

Definition is_struct_pair (y y' : dval) : Prop :=
  exists l l', y = EVStruct l /\ y' = EVStruct l' /\ Forall2 (keyed deq) l l'.
Definition is_tuple_pair (y y' : dval) : Prop :=
  exists l l', y = EVTuple l /\ y' = EVTuple l' /\ Forall2 deq l l'.

Lemma variant_value_rel pl full s x y : payload_kin pl s -> erel pl x y ->
  agree srel (variant_value full s x) (variant_value full s y).
Proof.
  intros HS E. destruct s as [|rec|recs|fs]; cbn [variant_value]; cbn in HS.
  - eapply agree_map; [apply (next_value_rel pl deq)|]; [|exact E|constructor].
    intros d d' H. apply (de_any_rel pl); [apply unit_visitor_kin|exact H].
  - eapply agree_map; [apply (next_value_rel pl deq); [exact HS|exact E]|]. intros; now constructor.
  - eapply agree_map; [apply (next_value_rel pl is_tuple_pair)|]; [|exact E|].
    + intros d d' H. apply (de_any_rel pl); [|exact H]. apply tuple_visitor_kin; [exact HS|].
      intros l l' HL. exists l, l'. auto.
    + intros a b (l & l' & -> & -> & HL). now constructor.
  - eapply agree_map; [apply (next_value_rel pl is_struct_pair)|]; [|exact E|].
    + intros d d' H. apply (de_any_rel pl); [|exact H]. apply struct_visitor_kin; [exact HS|].
      intros l l' HL. exists l, l'. auto.
    + intros a b (l & l' & -> & -> & HL). now constructor.
Qed.

Lemma enum_visitor_kin pl ident vs : kinv pl deq (enum_visitor ident vs).
Proof. constructor; cbn; calm. Qed.
Lemma enum_visitor_kine pl ident vs : Forall (fun v => payload_kin pl (snd v)) vs ->
  kine pl deq (enum_visitor ident vs).
Proof.
  intros HB a a' HA. cbn. destruct HA as [d d' H|l l' H].
  - eapply agree_bind; [apply (variant_key_kin pl); exact H|]. intros n n' <-.
    destruct (assoc n vs) as [s|]; [|apply rt_err, et_kind].
    destruct s; cbn; try (apply rt_err, et_kind). apply rt_ok. apply dt_unit_variant.
  - apply (enum_first_rel pl); [exact H|]. intros x y E.
    eapply agree_bind; [apply (next_key_rel pl); [apply variant_key_kin|exact E]|]. intros n n' <-.
    destruct (assoc n vs) as [s|] eqn:EA; [|apply rt_err, et_kind].
    pose proof (assoc_forall _ _ _ _ HB EA) as HS.
    eapply agree_map; [apply (variant_value_rel pl); [exact HS|exact E]|].
    intros. now apply deq_variant.
Qed.

(** ** The special types *)
Lemma magic_get k d d' : dut d d' -> oput (get k d) (get k d').
Proof. intros H. apply (keyed_get ok vt k _ _ H). Qed.

Lemma find_keys_rel ks : forall v v', vt v v' -> oput (find_keys ks v) (find_keys ks v').
Proof.
  induction ks as [|k ks IH]; intros v v' U; cbn; [exact U|].
  destruct (is_nil k); [exact U|]. pose proof U as U'.
  destruct U' as [| | | | |t t' d d' HG HD|]; cbn; try exact I.
  pose proof (keyed_take ok vt k _ _ HD) as HK.
  destruct (take k d) as [[x r]|], (take k d') as [[x' r']|]; try contradiction; [|exact I].
  apply IH. apply HK.
Qed.

Lemma find_ref_keys_rel ks : forall v v', vt v v' -> oput (find_ref_keys ks v) (find_ref_keys ks v').
Proof.
  induction ks as [|k ks IH]; intros v v' U; cbn; [exact U|].
  destruct (is_nil k); [exact U|]. pose proof U as U'.
  destruct U' as [| | | | |t t' d d' HG HD|]; cbn; try exact I.
  pose proof (magic_get k _ _ HD) as HK.
  destruct (get k d) as [x|], (get k d') as [x'|]; cbn in HK; try contradiction; [|exact I].
  now apply IH.
Qed.

Definition own (k : ustr) (v : value) : value := match vfind_ref k v with Some x => x | None => v end.
Lemma own_rel k v v' : vt v v' -> vt (own k v) (own k v').
Proof.
  intros U. unfold own, vfind_ref. pose proof (find_ref_keys_rel (split_on dot k) _ _ U) as H.
  destruct (find_ref_keys (split_on dot k) v), (find_ref_keys (split_on dot k) v'); cbn in H; try contradiction;
    assumption.
Qed.

(** The map made for a [Tagged]; no dictionary here has a tag of its own making. *)
Definition tmd (t : tag) (x : value) : dict := [(tagged_tag, value_of_tag t); (tagged_value, x)].
Lemma tagged_magic_own v : (forall d, as_dict v = Some d -> get tagged_tag d = None) ->
  tagged_magic v = tmd (vtag v) (own tagged_value v).
Proof.
  intros H. unfold tagged_magic. fold (own tagged_value v).
  destruct (as_dict v) as [d|]; [rewrite (H d eq_refl)|]; reflexivity.
Qed.
Lemma get_claimed d d' : dut d d' -> get tagged_tag d = None /\ get tagged_tag d' = None.
Proof.
  induction 1 as [|[k x] [k' x'] r r' (E1 & E0 & E2) HF [IH1 IH2]]; cbn [get]; [auto|].
  cbn [fst snd] in *. subst k'. rewrite IH1, IH2.
  destruct (cmp tagged_tag k) eqn:E; auto. apply ucmp_eq in E. destruct E0. right. auto.
Qed.
Lemma tagged_magic_rel v v' : vt v v' ->
  tagged_magic v = tmd (vtag v) (own tagged_value v) /\ tagged_magic v' = tmd (vtag v') (own tagged_value v').
Proof.
  intros U. split; apply tagged_magic_own; intros d E; destruct U as [| | | | |t t' d1 d2 HG HD|]; try discriminate E;
    injection E as <-; apply (get_claimed _ _ HD).
Qed.

Definition rmd (o : option ustr) (x : value) : dict :=
  match o with
  | Some p => [(rel_metadata_path, VString tag_default p); (rel_path, x)]
  | None => [(rel_path, x)]
  end.
Lemma ok_rmp : ok rel_metadata_path. Proof. intros [E|E]; discriminate E. Qed.
Lemma ok_rp : ok rel_path. Proof. intros [E|E]; discriminate E. Qed.
Lemma rmd_rel o x x' : vt x x' -> dut (rmd o x) (rmd o x').
Proof.
  intros H. destruct o; repeat constructor; auto using ok_rmp, ok_rp.
Qed.
Lemma rel_magic_rel f f' v v' : fk f f' -> vt v v' -> dut (rel_magic f v) (rel_magic f' v').
Proof.
  intros HF U. unfold rel_magic. fold (own rel_path v). fold (own rel_path v').
  rewrite (fk_get f f' _ _ HF (vt_tag _ _ U)).
  set (o := option_bind (get_metadata f' (vtag v')) _).
  assert (HN : dut (insert rel_path (own rel_path v) match o with Some p => insert rel_metadata_path (VString tag_default p) [] | None => [] end)
                   (insert rel_path (own rel_path v') match o with Some p => insert rel_metadata_path (VString tag_default p) [] | None => [] end)).
  { apply dut_insert; [exact ok_rp|now apply own_rel|]. destruct o; repeat constructor; auto using ok_rmp. }
  destruct U as [| | | | |t t' d d' HG HD|]; cbn [as_dict]; try exact HN.
  pose proof (magic_get rel_metadata_path _ _ HD) as HK.
  destruct (get rel_metadata_path d) as [x|], (get rel_metadata_path d') as [x'|]; cbn in HK; try contradiction; [|exact HN].
  destruct HK; cbn [to_empty]; try exact HN; exact HD.
Qed.

(** A [Tagged] read from the map made for it. *)
Lemma tagged_visit exp t i f g x :
  visit_map (struct_visitor exp false [(tagged_tag, deserialize TTag); (tagged_value, t)] EVStruct)
    (map_access (DConf i f) (tmd g x))
  = res_map (fun y => EVStruct [(tagged_tag, EVTag g); (tagged_value, y)]) (at_key tagged_value (vtag x) (t (DConf i f x))).
Proof.
  unfold tmd. cbn [map_access map fst snd]. unfold visit_map, struct_visitor. cbn [v_map].
  set (n := value_of_tag g).
  assert (E : deserialize TTag (DConf i f n) = Ok (EVTag g)).
  { subst n. destruct g as [z]. cbn. now rewrite N2Z.id. }
  revert E. generalize (deserialize TTag). intros r E.
  cbn [field_entries].
  change (next_key (field_key false (map fst [(tagged_tag, r); (tagged_value, t)]))
            (tagged_tag, vtag n, DConf i f n)) with (@Ok error (option ustr) (Some tagged_tag)).
  change (next_key (field_key false (map fst [(tagged_tag, r); (tagged_value, t)]))
            (tagged_value, vtag x, DConf i f x)) with (@Ok error (option ustr) (Some tagged_value)).
  cbn [res_bind].
  change (assoc tagged_tag [(tagged_tag, r); (tagged_value, t)]) with (Some r).
  change (assoc tagged_value [(tagged_tag, r); (tagged_value, t)]) with (Some t).
  cbn [assoc next_value]. rewrite E. cbn [res_map_err res_bind].
  change (ueqb tagged_value tagged_tag) with false. cbn iota.
  unfold at_key. destruct (t (DConf i f x)); reflexivity.
Qed.

Lemma path_ty_kin pl : kinf pl deq (deserialize TPath).
Proof.
  intros d d' H. cbn [deserialize]. apply (de_any_rel pl); [|exact H]. constructor; cbn; calm.
Qed.
Lemma option_visitor_kin pl rec : kinf pl deq rec -> kinv pl deq (option_visitor rec).
Proof.
  intros HB. constructor; try (cbn; calm; fail).
  intros d d' H. cbn. eapply agree_map; [apply HB; exact H|]. intros x y E. now constructor.
Qed.
Lemma option_path_kin pl : kinf pl deq (deserialize (TOption TPath)).
Proof.
  intros d d' H. cbn [deserialize]. apply (de_option_rel pl); [|exact H]. apply option_visitor_kin, path_ty_kin.
Qed.
Lemma relative_fields_kin pl :
  Forall (fun f => kinf pl deq (snd f)) [(rel_metadata_path, deserialize (TOption TPath)); (rel_path, deserialize TPath)].
Proof. repeat constructor; [apply option_path_kin|apply path_ty_kin]. Qed.

Lemma magic_tagged f v : magic_map tagged_name f v = Some (tagged_magic v).
Proof. reflexivity. Qed.
Lemma magic_rel f v : magic_map rel_name f v = Some (rel_magic f v).
Proof. reflexivity. Qed.

Lemma tagged_kin t : kinf false deq (deserialize t) -> kinf false deq (deserialize (TTagged t)).
Proof.
  intros HB d d' H. unfold TTagged. cbn [deserialize map fst snd].
  destruct H as [i f f' v v' F U|v v' P U|s|z|f]; cbn [de_struct]; try discriminate P;
    try (apply rt_err, et_kind).
  rewrite !magic_tagged. destruct (tagged_magic_rel _ _ U) as [-> ->].
  apply agree_settle; [assumption|now apply vt_tag|].
  rewrite !(tagged_visit _ (deserialize t)).
  assert (UO : vt (own tagged_value v) (own tagged_value v')) by now apply own_rel.
  eapply agree_map; [apply agree_at_key; [now apply vt_tag|]; apply HB; now constructor|].
  intros x y E. constructor. repeat constructor; auto. now apply vt_tag.
Qed.
Lemma relative_kin pl : kinf pl deq (deserialize TRelative).
Proof.
  intros d d' H. unfold TRelative.
  assert (HK : kinv pl deq (struct_visitor (lit "struct " ++ lit "RelativePathBuf") false
     [(rel_metadata_path, deserialize (TOption TPath)); (rel_path, deserialize TPath)] EVStruct)).
  { apply struct_visitor_kin; [apply relative_fields_kin|]. intros. now constructor. }
  pose proof H as H'. destruct H' as [i f f' v v' F U|v v' P U|s|z|f];
    try (apply (de_any_rel pl _ _ HK _ _ H)).
  change (agree deq (settle f (vtag v) (visit_map (struct_visitor (lit "struct " ++ lit "RelativePathBuf") false
     [(rel_metadata_path, deserialize (TOption TPath)); (rel_path, deserialize TPath)] EVStruct) (map_access (DConf i f) (rel_magic f v))))
   (settle f' (vtag v') (visit_map (struct_visitor (lit "struct " ++ lit "RelativePathBuf") false
     [(rel_metadata_path, deserialize (TOption TPath)); (rel_path, deserialize TPath)] EVStruct) (map_access (DConf i f') (rel_magic f' v'))))).
  apply agree_settle; [assumption|now apply vt_tag|].
  apply (bv_map _ _ _ HK). apply map_access_rel; [now apply mkrel_conf|now apply rel_magic_rel].
Qed.

(** ** [Either]: the value is copied, then the copy is read *)
Definition entry_of (k : ustr) (v : value) : value :=
  match option_bind (as_dict v) (get k) with Some x => x | None => v end.
Lemma entry_of_rel k v v' : vt v v' -> vt (entry_of k v) (entry_of k v').
Proof.
  intros U. unfold entry_of. pose proof U as U'.
  destruct U' as [| | | | |t t' d d' HG HD|]; cbn [as_dict option_bind]; try exact U.
  pose proof (magic_get k _ _ HD) as HK.
  destruct (get k d), (get k d'); cbn in HK; try contradiction; assumption.
Qed.

Lemma numberless_name a : numberless false a ->
  ~ In (struct_name a) [value_name; rel_name; tagged_name] \/ a = TRelative.
Proof.
  intros H. remember false as b. destruct H; try discriminate Heqb;
    try (left; cbn [struct_name In]; intros [E|[E|[E|[]]]]; discriminate); auto.
  left. repeat (destruct H as [<-|H]; [cbn [struct_name In]; intros [E|[E|[E|[]]]]; discriminate|]). destruct H.
Qed.

Lemma either_kin pl a b : numberless false a ->
  kinf true deq (deserialize a) -> kinf true deq (deserialize b) -> kinf pl deq (deserialize (TEither a b)).
Proof.
  intros UA HA HB d d' H. cbn [deserialize].
  assert (HR : agree vt (de_struct (struct_name a) d value_visitor) (de_struct (struct_name a) d' value_visitor)).
  { destruct (numberless_name a UA) as [HN| ->].
    - apply (de_struct_plain_rel pl); [apply value_visitor_kin|exact HN|exact H].
    - pose proof H as H'. destruct H' as [i f f' v v' F U|v v' P U|s|z|f]; cbn [struct_name TRelative de_struct];
        try (apply (de_any_rel _ _ _ (value_visitor_kin pl) _ _ H)).
      rewrite !magic_rel. apply agree_settle; [assumption|now apply vt_tag|].
      apply (bv_map pl _ _ (value_visitor_kin pl)). apply map_access_rel; [now apply mkrel_conf|now apply rel_magic_rel]. }
  eapply agree_bind; [exact HR|]. intros v v' U.
  fold (entry_of (last_field a) v). fold (entry_of (last_field a) v').
  assert (RA : agree deq (deserialize a (DPlain v)) (deserialize a (DPlain v'))) by (apply HA; now constructor).
  assert (RB : agree deq (deserialize b (DPlain (entry_of (last_field a) v))) (deserialize b (DPlain (entry_of (last_field a) v')))).
  { apply HB. constructor; [reflexivity|]. now apply entry_of_rel. }
  destruct RA as [x y E|ea ea' E]; [apply rt_ok; now constructor|].
  destruct RB as [x y E2|eb eb' E2]; [apply rt_ok; now constructor|].
  rewrite (et_kinds _ _ E), (et_kinds _ _ E2). apply rt_err, et_kind.
Qed.

(** ** Every type *)
Lemma Forall_map_in {A B} (P : B -> Prop) (f : A -> B) l : (forall x, In x l -> P (f x)) -> Forall P (map f l).
Proof. induction l; cbn; intros H; constructor; auto. Qed.
Ltac no_basic := match goal with H : In _ [_; _; _; _; _; _; _; _; _; _; _] |- _ =>
  cbn in H; repeat destruct H as [H|H]; try discriminate H; contradiction end.

Theorem deserialize_kin : forall t b, numberless b t -> kinf (negb b) deq (deserialize t).
Proof.
  induction t as [|k| | | | | |t IH|t IH|ts IH|t IH|k t IHk IH|n i d fs IH|i t IH|i ts IH|i|i vs IH
                 | | | | | | |x y IHx IHy] using ty_ind'; intros b NL; cbn [deserialize].
  - intros d d' H. apply (de_bool_rel (negb b)); [|exact H]. constructor; cbn; calm.
  - intros d d' H. destruct k; try (apply (de_num_rel (negb b)); [|exact H]; constructor; cbn; calm);
      apply (de_128_rel (negb b)); try exact H; constructor; cbn; calm.
  - intros d d' H. apply (de_num_rel (negb b)); [|exact H]. constructor; cbn; calm.
  - intros d d' H. apply (de_num_rel (negb b)); [|exact H]. constructor; cbn; calm.
  - intros d d' H. apply (de_any_rel (negb b)); [|exact H]. constructor; cbn; calm.
  - intros d d' H. apply (de_any_rel (negb b)); [|exact H]. constructor; cbn; calm.
  - intros d d' H. apply (de_any_rel (negb b)); [|exact H]. constructor; cbn; calm.
  - inversion NL; subst; [no_basic|].
    intros d d' H. apply (de_option_rel (negb b)); [|exact H]. now apply option_visitor_kin, IH.
  - inversion NL; subst; [no_basic|].
    intros d d' H. apply (de_any_rel (negb b)); [|exact H].
    constructor; try (cbn; calm; fail).
    intros l l' HL. cbn. eapply agree_map; [apply (all_elements_rel (negb b)); [now apply IH|exact HL]|].
    intros u v E. now constructor.
  - inversion NL as [| | | | | | | |? ? U| | | | | |]; subst; [no_basic|].
    intros d d' H. apply (de_any_rel (negb b)); [|exact H].
    constructor; try (cbn; calm; fail).
    intros l l' HL. cbn. eapply agree_map; [apply (tuple_elements_rel (negb b)); [|exact HL]|].
    + apply Forall_map_in. intros u HX. rewrite Forall_forall in IH, U. apply IH; auto.
    + intros u v E. now constructor.
  - inversion NL; subst; [no_basic|].
    intros d d' H. apply (de_any_rel (negb b)); [|exact H].
    constructor; try (cbn; calm; fail).
    intros l l' HL. cbn. eapply agree_map; [apply (map_entries_rel (negb b)); [now apply IH|exact HL|constructor]|].
    intros u v E. now constructor.
  - inversion NL; subst; [no_basic|].
    intros d d' H. apply (de_any_rel (negb b)); [|exact H].
    constructor; try (cbn; calm; fail).
    intros l l' HL. cbn. eapply agree_map; [apply (pair_entries_rel (negb b)); [now apply IHk|now apply IH|exact HL]|].
    intros u v E. now constructor.
  - inversion NL as [| | | | | | | | | |? ? ? ? ? HN HU| | |u U|]; subst; [no_basic| | |].
    + intros x x' H. apply (de_struct_plain_rel (negb b)); [|exact HN|exact H].
      apply struct_visitor_kin; [|intros; now constructor].
      apply Forall_map_in. intros [k t] HX. cbn [snd fst]. rewrite Forall_forall in IH.
      apply (IH _ HX). cbn. now apply (HU k).
    + apply relative_kin.
    + apply tagged_kin. rewrite Forall_forall in IH.
      apply (IH (tagged_value, u) (or_intror (or_introl eq_refl)) true). exact U.
  - inversion NL; subst; [no_basic|].
    intros d d' H. apply (de_newtype_rel (negb b)); [|exact H].
    constructor; try (cbn; calm; fail).
    + intros u u' HX. cbn. eapply agree_map; [apply (IH b); [assumption|exact HX]|]. intros y y' E. now constructor.
    + intros l l' HL. unfold visit_seq, newtype_visitor. cbn [v_seq].
      eapply agree_map; [apply (tuple_elements_rel (negb b)); [|exact HL]|].
      * constructor; [now apply IH|constructor].
      * intros u v E. destruct E as [|x1 y1 r r' E1 E2]; [apply dt_plain; exact I|]. destruct E2; [|apply dt_plain; exact I].
        now constructor.
  - inversion NL as [| | | | | | | | |? ? ? U| | | | |]; subst; [no_basic|].
    intros d d' H. apply (de_any_rel (negb b)); [|exact H].
    apply tuple_visitor_kin; [|intros; now constructor].
    apply Forall_map_in. intros u HX. rewrite Forall_forall in IH, U. apply IH; auto.
  - intros d d' H. apply (de_any_rel (negb b)); [|exact H]. constructor; cbn; calm.
  - inversion NL as [| | | | | | | | | | |? ? ? H1 H2 H3| | |]; subst; [no_basic|].
    intros d d' H. apply (de_enum_rel (negb b)); [apply enum_visitor_kin| |exact H]. apply enum_visitor_kine.
    apply Forall_map_in. intros [n s] HX. cbn [snd fst]. rewrite Forall_forall in IH. specialize (IH _ HX).
    cbn in IH. destruct s as [|t|ts|fs]; cbn in *.
    + exact I.
    + apply IH. now apply (H1 n).
    + apply Forall_map_in. intros t HX'. rewrite Forall_forall in IH. apply (IH _ HX'). now apply (H2 n ts).
    + apply Forall_map_in. intros [k t] HX'. cbn [snd]. rewrite Forall_forall in IH. apply (IH _ HX'). now apply (H3 n fs k).
  - intros d d' H. eapply agree_map; [apply (value_kin (negb b)); exact H|]. intros u v U. now constructor.
  - inversion NL; subst. no_basic.
  - intros d d' H. apply (de_any_rel (negb b)); [|exact H]. constructor; cbn; calm.
  - apply path_ty_kin.
  - intros d d' H. destruct H; first [apply rt_ok; apply dt_plain; exact I|apply rt_err, et_kind].
  - intros d d' H. apply (de_any_rel (negb b)); [|exact H]. constructor; cbn; calm.
  - inversion NL; subst; [no_basic|].
    apply either_kin; [assumption|now apply (IHx false)|now apply (IHy false)].
Qed.

(** ** Figments *)
Lemma mc_loop_rel {K A} `{Cmp K} (P : K -> Prop) (R : A -> A -> Prop) (f : A -> A -> A) :
  forall self self', Forall2 (kept P R) self self' ->
  (forall x, In x self -> forall a' b b', R (snd x) a' -> R b b' -> R (f (snd x) b) (f a' b')) ->
  forall joined joined' other other', Forall2 (kept P R) joined joined' -> Forall2 (kept P R) other other' ->
  Forall2 (kept P R) (mc_loop f self joined other) (mc_loop f self' joined' other').
Proof.
  induction 1 as [|[k x] [k' x'] r r' (E1 & E0 & E2) HF IH]; intros HC joined joined' other other' HJ HO; cbn [mc_loop].
  - now apply keyed_extend.
  - cbn in E1, E0, E2. subst k'. pose proof (keyed_take P R k _ _ HO) as HK.
    assert (HC' : forall y, In y r -> forall a' b b', R (snd y) a' -> R b b' -> R (f (snd y) b) (f a' b')).
    { intros y HY. apply HC. now right. }
    destruct (take k other) as [[b o]|], (take k other') as [[b' o']|]; try contradiction.
    + destruct HK as [T1 T2]. apply IH; auto. apply keyed_insert; auto.
      apply (HC (k, x)); auto. now left.
    + apply IH; auto. now apply keyed_insert.
Qed.

Lemma vcoalesce_rel o : forall a a' b b', vt a a' -> vt b b' -> vt (vcoalesce o a b) (vcoalesce o a' b').
Proof.
  induction a as [t s|t c|t x|t n|t e|t d IH|t l IH] using value_ind'; intros a' b b' UA UB;
    pose proof UA as UA'; pose proof UB as UB'.
  1-5: inversion UA'; subst; destruct UB'; destruct o; cbn [vcoalesce]; assumption.
  - inversion UA' as [| | | | |? t2 ? d2 HG HD|]; subst.
    destruct UB' as [| | | | |t3 t4 d3 d4 HG2 HD2|]; destruct o; cbn [vcoalesce]; try assumption;
      (constructor; [assumption|]);
      apply (mc_loop_rel ok vt); try assumption; try constructor;
      intros x HX a1 b1 b2 U1 U2; rewrite Forall_forall in IH; now apply (IH _ HX).
  - inversion UA' as [| | | | | |? t2 ? l2 HG HL]; subst.
    destruct UB' as [| | | | | |t3 t4 l3 l4 HG2 HL2]; destruct o; cbn [vcoalesce]; try assumption;
      (constructor; [assumption|]); now apply Forall2_app.
Qed.

Lemma dcoalesce_rel o a a' b b' : dut a a' -> dut b b' -> dut (dcoalesce o a b) (dcoalesce o a' b').
Proof.
  intros HA HB. apply (mc_loop_rel ok vt); auto. intros. now apply vcoalesce_rel.
Qed.

Local Notation put := (data_twin T).
Lemma put_kept m m' : put m m' <-> Forall2 (kept (fun _ => True) dut) m m'.
Proof. split; apply F2_imp; unfold kept; tauto. Qed.
Lemma pcoalesce_rel o a a' b b' : put a a' -> put b b' -> put (pcoalesce o a b) (pcoalesce o a' b').
Proof.
  rewrite !put_kept. intros HA HB. apply (mc_loop_rel (fun _ => True) dut); auto.
  intros. now apply dcoalesce_rel.
Qed.

Lemma take_or_empty_rel q m m' : put m m' ->
  dut (fst (take_or_empty q m)) (fst (take_or_empty q m')) /\
  put (snd (take_or_empty q m)) (snd (take_or_empty q m')).
Proof.
  intros H. unfold take_or_empty. pose proof (keyed_take (fun _ => True) dut q _ _ (proj1 (put_kept _ _) H)) as HK.
  destruct (take q m) as [[x r]|], (take q m') as [[x' r']|]; try contradiction; cbn.
  - destruct HK as [H1 H2]. split; [exact H1|]. now apply put_kept.
  - split; [constructor|exact H].
Qed.

Lemma merged_twin f g : ft f g -> agree vt (merged f) (merged g).
Proof.
  intros HF. pose proof (ft_fk _ _ HF) as HK. destruct HF as (HP & HM & HV). unfold merged.
  destruct HV as [m m' HD|e e' HE].
  - pose proof (take_or_empty_rel p_default _ _ HD) as H1.
    destruct (take_or_empty p_default m) as [def m1], (take_or_empty p_default m') as [def' m1'].
    destruct H1 as [D1 M1]. cbn in D1, M1.
    pose proof (take_or_empty_rel p_global _ _ M1) as H2.
    destruct (take_or_empty p_global m1) as [glo m2], (take_or_empty p_global m1') as [glo' m2'].
    destruct H2 as [D2 M2]. cbn in D2, M2. rewrite HP.
    pose proof (keyed_take (fun _ => True) dut (f_profile g) _ _ (proj1 (put_kept _ _) M2)) as HKt.
    apply rt_ok. constructor; [exact Tdef|].
    destruct (take (f_profile g) m2) as [[x r]|], (take (f_profile g) m2') as [[x' r']|]; try contradiction.
    + destruct (is_custom (f_profile g)); repeat apply dcoalesce_rel; auto. apply HKt.
    + now apply dcoalesce_rel.
  - apply rt_err. now apply et_resolved.
Qed.

Lemma find_value_twin f g k : ft f g -> agree vt (find_value f k) (find_value g k).
Proof.
  intros H. unfold find_value. destruct (merged_twin f g H) as [v v' U|e e' E]; [|now apply rt_err].
  pose proof (find_keys_rel (split_on dot k) _ _ U) as HF. unfold vfind.
  destruct (find_keys (split_on dot k) v), (find_keys (split_on dot k) v'); cbn in HF; try contradiction;
    [now apply rt_ok|apply rt_err, et_kind].
Qed.
Lemma find_metadata_twin f g k : ft f g -> find_metadata f k = find_metadata g k.
Proof.
  intros H. unfold find_metadata. destruct (find_value_twin f g k H) as [v v' U|e e' E]; [|reflexivity].
  apply mdt_get; [now apply vt_tag|]. apply H.
Qed.
Lemma metadata_twin f g : ft f g -> fig_metadata f = fig_metadata g.
Proof.
  intros (_ & H & _). unfold fig_metadata, values. induction H as [|x y r r' [E1 E2] HF IH]; cbn; congruence.
Qed.

Lemma contains_twin f g k : ft f g -> fig_contains f k = fig_contains g k.
Proof.
  intros H. unfold fig_contains. destruct (merged_twin f g H) as [v v' U|e e' E]; [|reflexivity].
  pose proof (find_ref_keys_rel (split_on dot k) _ _ U) as HF. unfold vfind_ref.
  destruct (find_ref_keys (split_on dot k) v), (find_ref_keys (split_on dot k) v'); cbn in HF;
    try contradiction; reflexivity.
Qed.

Lemma focus_entries_rel k m m' : put m m' -> put (focus_entries k m) (focus_entries k m').
Proof.
  induction 1 as [|[q d] [q' d'] r r' [E1 E2] HF IH]; cbn [focus_entries]; [constructor|].
  cbn in E1, E2. subst q'.
  assert (U : vt (VDict tag_default d) (VDict tag_default d')) by (constructor; auto).
  pose proof (find_keys_rel (split_on dot k) _ _ U) as HX. unfold vfind.
  destruct (find_keys (split_on dot k) (VDict tag_default d)) as [x|],
           (find_keys (split_on dot k) (VDict tag_default d')) as [x'|]; cbn in HX; try contradiction; [|exact IH].
  cbn [option_bind]. destruct HX; cbn [as_dict]; try exact IH.
  constructor; [now split|exact IH].
Qed.

Lemma focus_twin f g k : ft f g -> ft (focus f k) (focus g k).
Proof.
  intros HF. pose proof (ft_fk _ _ HF) as HK. destruct HF as (HP & HM & HV).
  split; [exact HP|]. split; [exact HM|]. cbn [focus f_value].
  unfold try_focus. destruct HV as [m m' HD|e e' HE].
  - apply rt_ok. apply put_kept. apply (keyed_extend (fun _ => True) dut); [|constructor].
    apply put_kept. now apply focus_entries_rel.
  - apply rt_err. now apply et_resolved.
Qed.
Lemma select_twin f g p : ft f g -> ft (fig_select f p) (fig_select g p).
Proof. intros (H1 & H2 & H3). repeat split; assumption. Qed.
Lemma new_twin : ft fig_new fig_new.
Proof. repeat split; constructor. constructor. Qed.

Lemma profiles_twin f g : ft f g -> fig_profiles f = fig_profiles g.
Proof.
  intros (_ & _ & HV). unfold fig_profiles. destruct HV as [m m' HM|]; [|reflexivity].
  unfold keys. induction HM as [|x y r r' [E _] HF IH]; cbn; congruence.
Qed.

Lemma extract_twin i f g t : ft f g -> numberless true t -> agree deq (extract i f t) (extract i g t).
Proof.
  intros H U. unfold extract. eapply agree_bind; [now apply merged_twin|].
  intros v v' HU. apply (deserialize_kin t true U). constructor; [now apply ft_fk|exact HU].
Qed.
Lemma extract_inner_twin i f g t k : ft f g -> numberless true t ->
  agree deq (extract_inner i f t k) (extract_inner i g t k).
Proof.
  intros H U. unfold extract_inner. eapply agree_bind; [now apply find_value_twin|].
  intros v v' HU. apply agree_map_err.
  - intros e e' E. now apply et_with_path.
  - apply (deserialize_kin t true U). constructor; [now apply ft_fk|exact HU].
Qed.

Lemma retag_data_rel t t' m m' : (forall q : profile, T (for_profile t q) (for_profile t' q)) ->
  put m m' -> put (retag_data t m) (retag_data t' m').
Proof.
  intros HR. unfold retag_data. induction 1 as [|[k d] [k' d'] r r' [E1 E2] HF IH]; cbn [map]; constructor; auto.
  cbn in E1, E2. subst k'. split; [reflexivity|]. cbn [fst snd].
  induction E2 as [|[a v] [a' v'] q q' (F1 & F0 & F2) HG IHG]; cbn [map]; constructor; auto.
  cbn in *. repeat split; auto. now apply vt_map_tag.
Qed.

(** What [provide] does, given the tags it drew. *)
Definition given (loc : location) (self : figment) (p : provider) (o : order) (t : tag) : figment :=
  mkFigment
    (match pv_profile p with Some q => profile_coalesce (f_profile self) q o | None => f_profile self end)
    (insert t (md_with_location (pv_metadata p) loc)
       (match pv_metadata_map p with Some m => extend (f_metadata self) m | None => f_metadata self end))
    (match pv_data p, f_value self with
     | Ok _, Err e => Err e
     | Err e, Ok _ => Err (retagged t e)
     | Err e, Err prev => Err (chain (retagged t e) prev)
     | Ok new, Ok old => Ok (pcoalesce o old (retag_data t new))
     end).
Lemma provide_given loc self p o c : c < 2 ^ 62 ->
  provide loc self p o c = (Ret (given loc self p o (tag_new c PTDefault)), c + 1).
Proof. intros H. unfold provide. rewrite (tag_next_small c H). reflexivity. Qed.

Lemma given_twin loc f g p p' o t t' : ft f g ->
  pv_metadata p = pv_metadata p' -> pv_profile p = pv_profile p' ->
  match pv_metadata_map p, pv_metadata_map p' with Some m, Some m' => mdt m m' | None, None => True | _, _ => False end ->
  agree put (pv_data p) (pv_data p') ->
  T t t' -> (forall q : profile, T (for_profile t q) (for_profile t' q)) ->
  ft (given loc f p o t) (given loc g p' o t').
Proof.
  intros (HP & HM & HV) EM EP HMM HD HTt HR. unfold given. split; [|split]; cbn [f_profile f_metadata f_value].
  - rewrite HP, EP. reflexivity.
  - rewrite EM. apply mdt_insert; [exact HTt|].
    destruct (pv_metadata_map p), (pv_metadata_map p'); try contradiction; [|exact HM]. now apply mdt_extend.
  - destruct HD as [d d' HD|e e' HD]; destruct HV as [v v' HV|h h' HV].
    + apply rt_ok. apply pcoalesce_rel; [assumption|]. now apply retag_data_rel.
    + now apply rt_err.
    + apply rt_err. now apply et_retagged.
    + apply rt_err. apply et_chain; [now apply et_retagged|assumption].
Qed.
End kin.

(** ** The tags of corresponding numbers *)
Lemma order_zero R a b : order_keeping R -> R a b -> (a =? 0) = (b =? 0).
Proof.
  intros [H0 HO] H. specialize (HO _ _ _ _ H H0). rewrite !N.eqb_compare. now rewrite HO.
Qed.
Lemma is_default_new a p : a < 2 ^ 62 ->
  is_default (tag_new a p) = (a =? 0) && (profile_tag_bits p =? 0).
Proof.
  intros H. unfold is_default. rewrite tag_new_raw, N.mod_small by exact H. cbn [tag_default tag_raw].
  destruct (N.eqb_spec a 0) as [->|HA]; cbn [andb].
  - destruct p; reflexivity.
  - apply N.eqb_neq. change (2 ^ 62) with 4611686018427387904 in *. lia.
Qed.
Lemma tag_twin_good R : order_keeping R -> good (tag_twin R).
Proof.
  intros HR. pose proof HR as [H0 HO]. constructor.
  - exists 0, 0, PTDefault. repeat split; try assumption; reflexivity.
  - intros t t' (a & b & p & HAB & HA & HB & -> & ->). rewrite !is_default_new by assumption.
    now rewrite (order_zero R a b HR HAB).
  - intros t t' (a & b & p & HAB & HA & HB & -> & ->). unfold tag_profile. now rewrite !profile_tag_new.
  - intros t t' u u' (a & b & p & HAB & HA & HB & -> & ->) (a' & b' & p' & HAB' & HA' & HB' & -> & ->).
    unfold cmp, Cmp_tag. rewrite !metadata_id_new, !N.mod_small by assumption. now apply HO.
  - intros t t' (a & b & p & HAB & HA & HB & -> & ->). unfold tag_eqb.
    rewrite !metadata_id_new, !N.mod_small by assumption. now apply (order_zero R).
Qed.

Section mono.
  Context (T T' : tag -> tag -> Prop) (HI : forall t t', T t t' -> T' t t').
  Lemma value_twin_mono : forall v v', value_twin T v v' -> value_twin T' v v'.
  Proof.
    induction v as [t s|t c|t b|t n|t e|t d IH|t l IH] using value_ind'; intros v' U; inversion U; subst;
      constructor; auto.
    - match goal with H : Forall2 _ d _ |- _ => revert IH; induction H as [|[k x] [k' x'] r r' (E1 & E2 & E3) HF IHF]; intros IH end;
        constructor; inversion IH; subst.
      + cbn in *. repeat split; auto.
      + apply IHF; [now constructor|assumption].
    - match goal with H : Forall2 _ l _ |- _ => revert IH; induction H as [|x x' r r' E HF IHF]; intros IH end;
        constructor; inversion IH; subst; auto. apply IHF; [now constructor|assumption].
  Qed.
  Lemma dict_twin_mono d d' : dict_twin T d d' -> dict_twin T' d d'.
  Proof. apply F2_imp. intros x y (H1 & H2 & H3). repeat split; auto. now apply value_twin_mono. Qed.
  Lemma data_twin_mono d d' : data_twin T d d' -> data_twin T' d d'.
  Proof. apply F2_imp. intros x y (H1 & H2). split; auto. now apply dict_twin_mono. Qed.
  Lemma error_twin_mono e e' : error_twin T e e' -> error_twin T' e e'.
  Proof. induction 1; constructor; auto. Qed.
  Lemma res_twin_mono {A} (Q Q' : A -> A -> Prop) r r' : (forall x y, Q x y -> Q' x y) ->
    res_twin T Q r r' -> res_twin T' Q' r r'.
  Proof. intros H. destruct 1; constructor; auto. now apply error_twin_mono. Qed.
  Lemma figment_twin_mono f g : figment_twin T f g -> figment_twin T' f g.
  Proof.
    intros (H1 & H2 & H3). repeat split; [assumption| |].
    - eapply F2_imp; [|exact H2]. intros x y [E1 E2]. split; auto.
    - eapply res_twin_mono; [|exact H3]. apply data_twin_mono.
  Qed.
End mono.

(** ** Threads *)
Definition below (R : N -> N -> Prop) (c c' : N) : Prop := forall a b, R a b -> a < c /\ b < c'.
Definition also (R : N -> N -> Prop) (c c' a b : N) : Prop := R a b \/ (a = c /\ b = c').
Lemma also_order R c c' : order_keeping R -> below R c c' -> order_keeping (also R c c').
Proof.
  intros [H0 HO] HB. split; [now left|].
  intros a a' b b' [H1|[-> ->]] [H2|[-> ->]].
  - now apply HO.
  - destruct (HB _ _ H1) as [L1 L2]. apply N.compare_lt_iff in L1, L2. congruence.
  - destruct (HB _ _ H2) as [L1 L2]. apply N.compare_gt_iff in L1, L2. congruence.
  - now rewrite !N.compare_refl.
Qed.
Lemma also_below R c c' : below R c c' -> below (also R c c') (c + 1) (c' + 1).
Proof. intros HB a b [H|[-> ->]]; [destruct (HB _ _ H)|]; lia. Qed.
Lemma tag_twin_also R c c' t t' : tag_twin R t t' -> tag_twin (also R c c') t t'.
Proof.
  intros (a & b & p & HAB & HR). exists a, b, p. split; [now left|exact HR].
Qed.

Definition inv (R : N -> N -> Prop) (v : vars) (c : N) (w : vars) (c' : N) : Prop :=
  order_keeping R /\ below R c c' /\ c <= c' /\ forall r, figment_twin (tag_twin R) (v r) (w r).

Lemma inv_set R v c w c' r f g : inv R v c w c' -> figment_twin (tag_twin R) f g ->
  inv R (set_var r f v) c (set_var r g w) c'.
Proof.
  intros (H1 & H2 & H3 & H4) H. repeat (split; [assumption|]). intros k. unfold set_var.
  destruct (Nat.eqb k r); auto.
Qed.
Lemma inv_later R v c w c' d : inv R v c w c' -> c' <= d -> inv R v c w d.
Proof.
  intros (H1 & H2 & H3 & H4) H. split; [assumption|]. split; [|split; [lia|assumption]].
  intros a b HR. destruct (H2 _ _ HR). lia.
Qed.

Lemma provide_inv R v c w c' loc r o p p' g d :
  inv R v c w c' ->
  pv_metadata p = pv_metadata p' -> pv_profile p = pv_profile p' ->
  match pv_metadata_map p, pv_metadata_map p' with
  | Some m, Some m' => Forall2 (fun x y => tag_twin R (fst x) (fst y) /\ snd x = snd y) m m'
  | None, None => True | _, _ => False end ->
  res_twin (tag_twin R) (data_twin (tag_twin R)) (pv_data p) (pv_data p') ->
  provide loc (w r) p' o c' = (Ret g, d) ->
  exists f, provide loc (v r) p o c = (Ret f, c + 1) /\ d = c' + 1 /\
    inv (also R c c') (set_var r f v) (c + 1) (set_var r g w) (c' + 1).
Proof.
  intros (HO & HB & HC & HV) EM EP HMM HD E.
  assert (HC' : c' < 2 ^ 62).
  { unfold provide in E. destruct (tag_next c') as [[t| |] n] eqn:ET; cbn [out_map out_bind] in E; try discriminate E.
    now apply tag_next_ret in ET as [? _]. }
  assert (HC1 : c < 2 ^ 62) by (change (2 ^ 62) with 4611686018427387904 in *; lia).
  rewrite provide_given in E by exact HC'. injection E as <- <-.
  exists (given loc (v r) p o (tag_new c PTDefault)). split; [now apply provide_given|]. split; [reflexivity|].
  pose proof (also_order R c c' HO HB) as HO'.
  assert (HM : forall t t', tag_twin R t t' -> tag_twin (also R c c') t t') by (intros; now apply tag_twin_also).
  split; [assumption|]. split; [now apply also_below|]. split; [lia|].
  intros k. unfold set_var. destruct (Nat.eqb k r); [|apply (figment_twin_mono _ _ HM); apply HV].
  apply given_twin; auto.
  - now apply tag_twin_good.
  - apply (figment_twin_mono _ _ HM). apply HV.
  - destruct (pv_metadata_map p), (pv_metadata_map p'); try contradiction; auto.
    eapply F2_imp; [|exact HMM]. intros x y [E1 E2]. split; auto.
  - eapply (res_twin_mono _ _ HM); [|exact HD]. apply (data_twin_mono _ _ HM).
  - exists c, c', PTDefault. repeat split; auto. now right.
  - intros q. unfold for_profile. rewrite !metadata_id_new, !N.mod_small by assumption.
    exists c, c', (tag_of_profile q). repeat split; auto. now right.
Qed.

Lemma act_inv x R v c w c' w' d : ordinary_act x -> inv R v c w c' -> do_act x w c' = (Ret w', d) ->
  exists v' c2 R', do_act x v c = (Ret v', c2) /\ inv R' v' c2 w' d /\ c' <= d.
Proof.
  intros HA HI E. pose proof HI as (HO & HB & HC & HV). destruct x as [r|r s|r p|r s k|r loc o p|r loc o s]; cbn [do_act] in E |- *.
  - injection E as <- <-. do 3 eexists. split; [reflexivity|]. split; [|lia]. apply inv_set; [exact HI|]. apply new_twin.
  - injection E as <- <-. do 3 eexists. split; [reflexivity|]. split; [|lia]. apply inv_set; [exact HI|]. apply HV.
  - injection E as <- <-. do 3 eexists. split; [reflexivity|]. split; [|lia]. apply inv_set; [exact HI|]. apply select_twin, HV.
  - injection E as <- <-. do 3 eexists. split; [reflexivity|]. split; [|lia]. apply inv_set; [exact HI|].
    apply focus_twin; [now apply tag_twin_good|apply HV].
  - cbn [ordinary_act] in HA. destruct HA as [HA1 HA2].
    destruct (provide loc (w r) p o c') as [[g| |] d0] eqn:EP; cbn [out_map out_bind] in E; try discriminate E.
    injection E as <- <-.
    destruct (provide_inv R v c w c' loc r o p p g d0 HI eq_refl eq_refl) as (f & E1 & -> & H); [now rewrite HA1| |exact EP|].
    { assert (HM : forall t t', t = tag_default /\ t' = tag_default -> tag_twin R t t').
      { intros t t' [-> ->]. apply (gd_default _ (tag_twin_good R HO)). }
      eapply (res_twin_mono _ _ HM); [|exact HA2]. apply (data_twin_mono _ _ HM). }
    rewrite E1. cbn [out_map out_bind]. do 3 eexists. split; [reflexivity|]. split; [exact H|lia].
  - destruct (provide loc (w r) (figment_provider (w s)) o c') as [[g| |] d0] eqn:EP; cbn [out_map out_bind] in E; try discriminate E.
    injection E as <- <-.
    pose proof (HV s) as (S1 & S2 & S3).
    destruct (provide_inv R v c w c' loc r o (figment_provider (v s)) (figment_provider (w s)) g d0 HI) as (f & E1 & -> & H);
      cbn [figment_provider pv_metadata pv_profile pv_metadata_map pv_data]; auto.
    { now rewrite S1. }
    rewrite E1. cbn [out_map out_bind]. do 3 eexists. split; [reflexivity|]. split; [exact H|lia].
Qed.

Lemma act_counter x w c w' d : do_act x w c = (Ret w', d) -> c <= d.
Proof.
  intros E. destruct x as [r|r s|r p|r s k|r loc o p|r loc o s]; cbn [do_act] in E; try (injection E as <- <-; lia);
    unfold provide in E; destruct (tag_next c) as [[t| |] n] eqn:ET; cbn [out_map out_bind] in E; try discriminate E;
    injection E as <- <-; apply tag_next_ret in ET as (_ & _ & ->); lia.
Qed.

Lemma together_inv i : forall l s c' s' d, Forall (fun x => ordinary_act (snd x)) l ->
  together l s c' = (Ret s', d) -> forall R v c, inv R v c (s i) c' ->
  exists v' c2 R', alone (acts_of i l) v c = (Ret v', c2) /\ inv R' v' c2 (s' i) d.
Proof.
  induction l as [|[j x] r IH]; intros s c' s' d HL E R v c HI; cbn [together] in E.
  - injection E as <- <-. do 3 eexists. split; [reflexivity|exact HI].
  - apply Forall_cons_iff in HL as [HX HL]. cbn in HX.
    destruct (do_act x (s j) c') as [[w| |] d1] eqn:EA; try discriminate E.
    unfold acts_of. cbn [filter fst]. destruct (Nat.eqb_spec j i) as [->|NE].
    + destruct (act_inv x R v c (s i) c' w d1 HX HI EA) as (v1 & c1 & R1 & E1 & HI1 & _).
      cbn [map snd alone]. rewrite E1. eapply IH in E; [exact E|exact HL|].
      cbn beta. rewrite Nat.eqb_refl. exact HI1.
    + eapply IH in E; [exact E|exact HL|]. cbn beta.
      destruct (Nat.eqb_spec i j) as [->|_]; [destruct NE; reflexivity|].
      eapply inv_later; [exact HI|]. now apply (act_counter x (s j) c' w).
Qed.

Lemma inv_start : inv (fun a b => a = 0 /\ b = 0) no_figments counter_init no_figments counter_init.
Proof.
  split; [|split; [|split; [unfold counter_init; lia|]]].
  - split; [auto|]. intros a a' b b' [-> ->] [-> ->]. reflexivity.
  - intros a b [-> ->]. unfold counter_init. lia.
  - intros r. apply new_twin.
Qed.

(** ** Only tags differ *)
Lemma value_twin_eq : forall v v', value_twin eq v v' -> v = v'.
Proof.
  induction v as [t s|t c|t b|t n|t e|t d IH|t l IH] using value_ind'; intros v' U; inversion U; subst; auto; f_equal.
  - match goal with H : Forall2 _ d _ |- _ => clear U; revert IH; induction H as [|[k x] [k' x'] r r' (E1 & E2 & E3) HF IHF]; intros IH end;
      [reflexivity|]. inversion IH; subst. cbn in *. subst. f_equal; [f_equal; auto|auto].
  - match goal with H : Forall2 _ l _ |- _ => clear U; revert IH; induction H as [|x x' r r' E HF IHF]; intros IH end;
      [reflexivity|]. inversion IH; subst. f_equal; auto.
Qed.
Lemma error_twin_eq e e' : error_twin eq e e' -> e = e'.
Proof. induction 1; congruence. Qed.
