(** Extraction does not look at tags. *)
From Coq Require Import Ascii String ZArith NArith Bool Lia.
From Coq Require Import Floats.SpecFloat.
From Coq Require Import List.
From Verif Require Import Res BMap Str Profile Tag Num Value NumParse Metadata Err Coalesce Figment Fmt De.
From Verif Require Import BMapProofs StrProofs ValueProofs.
From Verif Require Import SpecFigment SpecDe SpecRt SpecBlind DeProofs SerProofs.
Import ListNotations.

(** ** Agreement *)
Inductive agree {A B} (Q : A -> B -> Prop) : res error A -> res error B -> Prop :=
| ag_ok x y : Q x y -> agree Q (Ok x) (Ok y)
| ag_err e e' : report e = report e' -> agree Q (Err e) (Err e').

Lemma agree_refl {A} (Q : A -> A -> Prop) r : (forall x, Q x x) -> agree Q r r.
Proof. intros H. destruct r; constructor; auto. Qed.

Lemma agree_impl {A B} (Q R : A -> B -> Prop) r r' :
  (forall x y, Q x y -> R x y) -> agree Q r r' -> agree R r r'.
Proof. intros H. destruct 1; constructor; auto. Qed.

Lemma agree_seen {A B} (h : A -> B) r r' :
  agree (fun x y => h x = h y) r r' <-> seen h r = seen h r'.
Proof.
  split.
  - destruct 1; cbn; congruence.
  - destruct r, r'; cbn; intros H; try discriminate; constructor; congruence.
Qed.

Lemma report_retagged t e : report (retagged t e) = report e.
Proof. destruct e; reflexivity. Qed.
Lemma report_head t p m k : report (MkError t p m [] k None) = [([], k)].
Proof. reflexivity. Qed.
Definition heads (key : ustr) (l : list (list ustr * kind)) :=
  match l with (p, k) :: r => (key :: p, k) :: r | [] => [] end.
Lemma report_prefixed k e : report (prefixed k e) = heads k (report e).
Proof. destruct e; reflexivity. Qed.
Lemma report_resolved_with mds p : forall e, report (resolved_with mds p e) = report e.
Proof.
  fix IH 1. intros [t q m pa k [v|]]; unfold report in *; cbn [resolved_with errors_of map e_path e_kind];
    [f_equal; apply IH|reflexivity].
Qed.
Lemma report_resolved f e : report (resolved e f) = report e.
Proof. apply report_resolved_with. Qed.
Definition tails (path : list ustr) (l : list (list ustr * kind)) :=
  match l with (p, k) :: r => (p ++ path, k) :: r | [] => [] end.
Lemma report_with_path path e :
  report (with_path path e) = tails (filter (fun s => negb (is_nil s)) (split_on dot path)) (report e).
Proof. destruct e; reflexivity. Qed.
Lemma report_chain a b :
  report (chain a b) = match report b with x :: _ => x :: report a | [] => [] end.
Proof. destruct b; reflexivity. Qed.
Lemma report_kind e e' : report e = report e' -> e_kind e = e_kind e'.
Proof. destruct e, e'; cbn. intros H. injection H as H1 H2 H3. assumption. Qed.

Section agreement.
  Context {A B : Type} (Q : A -> B -> Prop).
  Lemma agree_map_err g g' r r' :
    (forall e e', report e = report e' -> report (g e) = report (g' e')) ->
    agree Q r r' -> agree Q (res_map_err g r) (res_map_err g' r').
  Proof. intros H. destruct 1; cbn; constructor; auto. Qed.
  Lemma agree_settle f f' t t' r r' : agree Q r r' -> agree Q (settle f t r) (settle f' t' r').
  Proof. apply agree_map_err. intros e e' H. now rewrite !report_resolved, !report_retagged. Qed.
  Lemma agree_retagged t t' r r' :
    agree Q r r' -> agree Q (res_map_err (retagged t) r) (res_map_err (retagged t') r').
  Proof. apply agree_map_err. intros e e' H. now rewrite !report_retagged. Qed.
  Lemma agree_prefixed k r r' :
    agree Q r r' -> agree Q (res_map_err (prefixed k) r) (res_map_err (prefixed k) r').
  Proof. apply agree_map_err. intros e e' H. now rewrite !report_prefixed, H. Qed.
  Lemma agree_at_key k t t' r r' : agree Q r r' -> agree Q (at_key k t r) (at_key k t' r').
  Proof.
    apply agree_map_err. intros e e' H. now rewrite !report_retagged, !report_prefixed, H.
  Qed.
  Lemma agree_bind {C D} (R : C -> D -> Prop) r r' (k : A -> res error C) (k' : B -> res error D) :
    agree Q r r' -> (forall x y, Q x y -> agree R (k x) (k' y)) -> agree R (res_bind r k) (res_bind r' k').
  Proof. intros H HK. destruct H; cbn; [auto|now constructor]. Qed.
  Lemma agree_map {C D} (R : C -> D -> Prop) r r' (k : A -> C) (k' : B -> D) :
    agree Q r r' -> (forall x y, Q x y -> R (k x) (k' y)) -> agree R (res_map k r) (res_map k' r').
  Proof. intros H HK. destruct H; cbn; constructor; auto. Qed.
End agreement.

Lemma agree_eq_wrong {A B} (Q : A -> B -> Prop) e : agree Q (Err e) (Err e).
Proof. now constructor. Qed.

(** ** Values up to tags *)
Definition ut (v v' : value) : Prop := untag v = untag v'.
Definition keyed {K A B} (R : A -> B -> Prop) (a : K * A) (b : K * B) : Prop :=
  fst a = fst b /\ R (snd a) (snd b).
Definition dut : dict -> dict -> Prop := Forall2 (keyed ut).

Lemma map_eq_F2 {A B} (f : A -> B) l : forall l', map f l = map f l' -> Forall2 (fun x x' => f x = f x') l l'.
Proof.
  induction l as [|x r IH]; intros [|x' r']; cbn; try discriminate; [constructor|].
  intros H. injection H as H1 H2. constructor; auto.
Qed.
Lemma F2_map_eq {A B} (f : A -> B) l l' : Forall2 (fun x x' => f x = f x') l l' -> map f l = map f l'.
Proof. induction 1; cbn; congruence. Qed.
Lemma F2_imp {A B} (P Q : A -> B -> Prop) l l' :
  (forall x y, P x y -> Q x y) -> Forall2 P l l' -> Forall2 Q l l'.
Proof. intros H. induction 1; constructor; auto. Qed.

Lemma dut_data d d' : dut d d' <-> dict_data d = dict_data d'.
Proof.
  unfold dut, dict_data. split.
  - intros H. apply F2_map_eq. eapply F2_imp; [|exact H].
    intros [k v] [k' v'] [E1 E2]. cbn in *. unfold ut in E2. congruence.
  - intros H. apply map_eq_F2 in H. eapply F2_imp; [|exact H].
    intros [k v] [k' v'] E. injection E as E1 E2. split; assumption.
Qed.

(** The cases of [ut]. *)
Inductive utc : value -> value -> Prop :=
| utc_string t t' s : utc (VString t s) (VString t' s)
| utc_char t t' s : utc (VChar t s) (VChar t' s)
| utc_bool t t' s : utc (VBool t s) (VBool t' s)
| utc_num t t' s : utc (VNum t s) (VNum t' s)
| utc_empty t t' s : utc (VEmpty t s) (VEmpty t' s)
| utc_dict t t' d d' : dut d d' -> utc (VDict t d) (VDict t' d')
| utc_array t t' l l' : Forall2 ut l l' -> utc (VArray t l) (VArray t' l').

Lemma ut_cases v v' : ut v v' -> utc v v'.
Proof.
  unfold ut. destruct v as [t s|t s|t s|t s|t s|t d|t l], v' as [t' s'|t' s'|t' s'|t' s'|t' s'|t' d'|t' l'];
    cbn [untag]; intros H; try discriminate; injection H as H; try (rewrite H; constructor).
  - constructor. apply dut_data. exact H.
  - constructor. now apply map_eq_F2.
Qed.
Lemma utc_ut v v' : utc v v' -> ut v v'.
Proof.
  unfold ut. destruct 1; cbn [untag]; try reflexivity.
  - f_equal. now apply dut_data.
  - f_equal. now apply F2_map_eq.
Qed.
Lemma ut_refl v : ut v v. Proof. reflexivity. Qed.
Lemma ut_sym v w : ut v w -> ut w v. Proof. unfold ut. congruence. Qed.
Lemma ut_map_tag g h v v' : ut v v' -> ut (map_tag g v) (map_tag h v').
Proof. unfold ut. now rewrite !untag_map_tag. Qed.

(** Maps entry by entry. *)
Section maps.
  Context {K A B : Type} `{Cmp K} (R : A -> B -> Prop).
  Lemma keyed_get k m m' : Forall2 (keyed R) m m' ->
    match get k m, get k m' with Some x, Some y => R x y | None, None => True | _, _ => False end.
  Proof.
    induction 1 as [|[k1 x1] [k2 x2] r r' [E1 E2] HF IH]; cbn; [exact I|]. cbn in E1, E2. subst k2.
    destruct (cmp k k1); auto.
  Qed.
  Lemma keyed_insert k x y m m' : R x y -> Forall2 (keyed R) m m' ->
    Forall2 (keyed R) (insert k x m) (insert k y m').
  Proof.
    intros HR. induction 1 as [|[k1 x1] [k2 x2] r r' [E1 E2] HF IH]; cbn.
    - constructor; [split; auto|constructor].
    - cbn in E1, E2. subst k2. destruct (cmp k k1); repeat (constructor; auto).
  Qed.
  Lemma keyed_take k m m' : Forall2 (keyed R) m m' ->
    match take k m, take k m' with
    | Some (x, r), Some (y, r') => R x y /\ Forall2 (keyed R) r r'
    | None, None => True
    | _, _ => False
    end.
  Proof.
    induction 1 as [|[k1 x1] [k2 x2] r r' [E1 E2] HF IH]; cbn; [exact I|]. cbn in E1, E2. subst k2.
    destruct (cmp k k1); [split; assumption| |];
      destruct (take k r) as [[x w]|], (take k r') as [[x' w']|]; try contradiction; auto;
      destruct IH as [I1 I2]; split; auto; constructor; auto; now split.
  Qed.
  Lemma keyed_extend l l' : Forall2 (keyed R) l l' -> forall m m', Forall2 (keyed R) m m' ->
    Forall2 (keyed R) (extend m l) (extend m' l').
  Proof.
    induction 1 as [|[k1 x1] [k2 x2] r r' [E1 E2] HF IH]; cbn; intros m m' HM; [assumption|].
    cbn in E1, E2. subst k2. apply IH. now apply keyed_insert.
  Qed.
End maps.

(** ** Deserializers up to tags *)
Inductive drel : deser -> deser -> Prop :=
| dr_conf i f f' v v' : ut v v' -> drel (DConf i f v) (DConf i f' v')
| dr_plain v v' : ut v v' -> drel (DPlain v) (DPlain v')
| dr_str s : drel (DStr s) (DStr s)
| dr_u32 z : drel (DU32 z) (DU32 z)
| dr_missing f : drel (DMissing f) (DMissing f).

Definition erel (x y : entry) : Prop := fst (fst x) = fst (fst y) /\ drel (snd x) (snd y).

Inductive arel : enum_access -> enum_access -> Prop :=
| ar_unit d d' : drel d d' -> arel (EUnitOnly d) (EUnitOnly d')
| ar_map l l' : Forall2 erel l l' -> arel (EMap l) (EMap l').

Definition blindf {A} (Q : A -> A -> Prop) (rec : deser -> res error A) : Prop :=
  forall d d', drel d d' -> agree Q (rec d) (rec d').

Record blindv {A} (Q : A -> A -> Prop) (vis : visitor A) : Prop := mkBlindv {
  bv_bool : forall b, agree Q (visit_bool vis b) (visit_bool vis b);
  bv_signed : forall k z, agree Q (visit_signed vis k z) (visit_signed vis k z);
  bv_unsigned : forall k z, agree Q (visit_unsigned vis k z) (visit_unsigned vis k z);
  bv_i128 : forall z, agree Q (visit_i128 vis z) (visit_i128 vis z);
  bv_u128 : forall z, agree Q (visit_u128 vis z) (visit_u128 vis z);
  bv_f32 : forall x, agree Q (visit_f32 vis x) (visit_f32 vis x);
  bv_f64 : forall x, agree Q (visit_f64 vis x) (visit_f64 vis x);
  bv_char : forall c, agree Q (visit_char vis c) (visit_char vis c);
  bv_str : forall s, agree Q (visit_str vis s) (visit_str vis s);
  bv_none : agree Q (visit_none vis) (visit_none vis);
  bv_unit : agree Q (visit_unit vis) (visit_unit vis);
  bv_some : forall d d', drel d d' -> agree Q (visit_some vis d) (visit_some vis d');
  bv_newtype : forall d d', drel d d' -> agree Q (visit_newtype vis d) (visit_newtype vis d');
  bv_seq : forall l l', Forall2 drel l l' -> agree Q (visit_seq vis l) (visit_seq vis l');
  bv_map : forall l l', Forall2 erel l l' -> agree Q (visit_map vis l) (visit_map vis l');
  bv_enum : forall a a', arel a a' -> agree Q (visit_enum vis a) (visit_enum vis a')
}.

(** For reflexive [Q] only the last five matter. *)
Lemma blindv_intro {A} (Q : A -> A -> Prop) (vis : visitor A) :
  (forall x, Q x x) ->
  (forall d d', drel d d' -> agree Q (visit_some vis d) (visit_some vis d')) ->
  (forall d d', drel d d' -> agree Q (visit_newtype vis d) (visit_newtype vis d')) ->
  (forall l l', Forall2 drel l l' -> agree Q (visit_seq vis l) (visit_seq vis l')) ->
  (forall l l', Forall2 erel l l' -> agree Q (visit_map vis l) (visit_map vis l')) ->
  (forall a a', arel a a' -> agree Q (visit_enum vis a) (visit_enum vis a')) ->
  blindv Q vis.
Proof. intros HQ. intros. constructor; auto; intros; now apply agree_refl. Qed.

(** How children are read on the two sides. *)
Definition mkrel (mk mk' : value -> deser) : Prop := forall v v', ut v v' -> drel (mk v) (mk' v').

Lemma map_access_rel mk mk' d d' : mkrel mk mk' -> dut d d' ->
  Forall2 erel (map_access mk d) (map_access mk' d').
Proof.
  intros HM. induction 1 as [|[k x] [k' x'] r r' [E1 E2] HF IH]; cbn; constructor; auto.
  split; cbn; auto.
Qed.
Lemma seq_access_rel mk mk' l l' : mkrel mk mk' -> Forall2 ut l l' -> Forall2 drel (map mk l) (map mk' l').
Proof. intros HM. induction 1; cbn; constructor; auto. Qed.

Lemma mkrel_conf i f f' : mkrel (DConf i f) (DConf i f').
Proof. intros v v' H. now constructor. Qed.
Lemma mkrel_plain : mkrel DPlain DPlain.
Proof. intros v v' H. now constructor. Qed.

Section visiting.
  Context {A : Type} (Q : A -> A -> Prop) (vis : visitor A) (HV : blindv Q vis).

  Lemma num_visit_rel n : agree Q (num_visit n vis) (num_visit n vis).
  Proof. destruct HV. destruct n as [[]| |]; cbn; auto. Qed.
  Lemma empty_visit_rel e : agree Q (empty_visit e vis) (empty_visit e vis).
  Proof. destruct HV. destruct e; cbn; auto. Qed.

  Lemma value_visit_rel mk mk' v v' : mkrel mk mk' -> ut v v' ->
    agree Q (value_visit mk v vis) (value_visit mk' v' vis).
  Proof.
    intros HM H. apply ut_cases in H. destruct H; cbn [value_visit].
    - apply (bv_str _ _ HV).
    - apply (bv_char _ _ HV).
    - apply (bv_bool _ _ HV).
    - apply num_visit_rel.
    - apply empty_visit_rel.
    - apply (bv_map _ _ HV). now apply map_access_rel.
    - apply (bv_seq _ _ HV). now apply seq_access_rel.
  Qed.

  Lemma de_any_rel d d' : drel d d' -> agree Q (de_any d vis) (de_any d' vis).
  Proof.
    destruct 1; cbn [de_any].
    - apply agree_settle. apply value_visit_rel; [apply mkrel_conf|assumption].
    - apply agree_retagged. apply value_visit_rel; [apply mkrel_plain|assumption].
    - apply (bv_str _ _ HV).
    - apply (bv_unsigned _ _ HV).
    - now constructor.
  Qed.

  Lemma de_option_rel d d' : drel d d' -> agree Q (de_option d vis) (de_option d' vis).
  Proof.
    intros H. destruct H as [i f f' v v' U|v v' U|s|z|f]; cbn [de_option].
    - apply agree_settle. pose proof U as U'. apply ut_cases in U'.
      destruct U'; try (apply (bv_some _ _ HV); now constructor). apply empty_visit_rel.
    - pose proof U as U'. apply ut_cases in U'.
      destruct U'; try (apply (bv_some _ _ HV); now constructor). apply agree_retagged, empty_visit_rel.
    - apply de_any_rel. constructor.
    - apply de_any_rel. constructor.
    - apply (bv_none _ _ HV).
  Qed.

  Lemma enum_visit_rel mk mk' v v' : mkrel mk mk' -> ut v v' ->
    agree Q (enum_visit mk v vis) (enum_visit mk' v' vis).
  Proof.
    intros HM U. pose proof U as U'. apply ut_cases in U'.
    destruct U' as [t t' s|t t' s|t t' s|t t' n|t t' s|t t' d d' D|t t' l l' L]; cbn [enum_visit];
      try (apply de_any_rel; apply HM; exact U).
    - apply (bv_enum _ _ HV). repeat constructor.
    - destruct (num_to_u32 n) as [z|]; [apply (bv_enum _ _ HV); repeat constructor|].
      apply de_any_rel; apply HM; exact U.
    - apply (bv_enum _ _ HV). constructor. now apply map_access_rel.
  Qed.

  Lemma de_enum_rel d d' : drel d d' -> agree Q (de_enum d vis) (de_enum d' vis).
  Proof.
    intros H. destruct H as [i f f' v v' U|v v' U|s|z|f]; cbn [de_enum].
    - apply agree_settle, enum_visit_rel; [apply mkrel_conf|assumption].
    - apply agree_retagged, enum_visit_rel; [apply mkrel_plain|assumption].
    - apply (bv_enum _ _ HV). repeat constructor.
    - apply (bv_enum _ _ HV). repeat constructor.
    - now constructor.
  Qed.

  Lemma de_newtype_rel d d' : drel d d' -> agree Q (de_newtype d vis) (de_newtype d' vis).
  Proof.
    intros H. pose proof H as H'. destruct H' as [i f f' v v' U|v v' U|s|z|f]; cbn [de_newtype];
      try (apply (bv_newtype _ _ HV); exact H); apply (de_any_rel _ _ H).
  Qed.

  Lemma ut_vtag_bool i v v' : ut v v' -> ut (interpret_as_bool i v) (interpret_as_bool i v').
  Proof.
    intros U. destruct i; cbn [interpret_as_bool]; [exact U|].
    pose proof U as U'. apply ut_cases in U'.
    assert (E : to_bool_lossy v = to_bool_lossy v') by (destruct U'; reflexivity).
    rewrite E. destruct (to_bool_lossy v'); [reflexivity|exact U].
  Qed.
  Lemma ut_vtag_num i v v' : ut v v' -> ut (interpret_as_num i v) (interpret_as_num i v').
  Proof.
    intros U. destruct i; cbn [interpret_as_num]; [exact U|].
    pose proof U as U'. apply ut_cases in U'.
    assert (E : to_num_lossy v = to_num_lossy v') by (destruct U'; reflexivity).
    rewrite E. destruct (to_num_lossy v'); [reflexivity|exact U].
  Qed.

  Lemma de_bool_rel d d' : drel d d' -> agree Q (de_bool d vis) (de_bool d' vis).
  Proof.
    intros H. pose proof H as H'. destruct H' as [i f f' v v' U|v v' U|s|z|f]; cbn [de_bool];
      try (apply (de_any_rel _ _ H)).
    apply agree_settle, de_any_rel. constructor. now apply ut_vtag_bool.
  Qed.
  Lemma de_num_rel d d' : drel d d' -> agree Q (de_num d vis) (de_num d' vis).
  Proof.
    intros H. pose proof H as H'. destruct H' as [i f f' v v' U|v v' U|s|z|f]; cbn [de_num];
      try (apply (de_any_rel _ _ H)).
    apply agree_settle, de_any_rel. constructor. now apply ut_vtag_num.
  Qed.
  Lemma de_128_rel b d d' : drel d d' -> agree Q (de_128 b d vis) (de_128 b d' vis).
  Proof.
    intros H. pose proof H as H'. destruct H' as [i f f' v v' U|v v' U|s|z|f]; cbn [de_128];
      try (apply (de_any_rel _ _ H)); now constructor.
  Qed.
  Lemma de_struct_plain_rel name d d' : ~ In name [value_name; rel_name; tagged_name] ->
    drel d d' -> agree Q (de_struct name d vis) (de_struct name d' vis).
  Proof.
    intros HN H. pose proof H as H'. destruct H' as [i f f' v v' U|v v' U|s|z|f]; cbn [de_struct];
      try (apply (de_any_rel _ _ H)).
    assert (E : forall f v, magic_map name f v = None).
    { intros f0 v0. unfold magic_map.
      destruct (ueqb name value_name) eqn:E1; [apply ueqb_eq in E1; destruct HN; cbn; auto|].
      destruct (ueqb name rel_name) eqn:E2; [apply ueqb_eq in E2; destruct HN; cbn; auto|].
      destruct (ueqb name tagged_name) eqn:E3; [apply ueqb_eq in E3; destruct HN; cbn; auto|].
      reflexivity. }
    rewrite !E. apply agree_settle. apply (de_any_rel _ _ H).
  Qed.
End visiting.

(** ** Entries and elements *)
Lemma next_key_rel {A} (Q : A -> A -> Prop) seed x y :
  blindf Q seed -> erel x y -> agree Q (next_key seed x) (next_key seed y).
Proof.
  intros HB [E1 E2]. destruct x as [[k t] d], y as [[k' t'] d']. cbn in *. subst k'.
  apply (agree_at_key Q k t t'). apply HB. constructor.
Qed.
Lemma next_value_rel {A} (Q : A -> A -> Prop) seed x y :
  blindf Q seed -> erel x y -> agree Q (next_value seed x) (next_value seed y).
Proof.
  intros HB [E1 E2]. destruct x as [[k t] d], y as [[k' t'] d']. cbn in *. subst k'.
  apply (agree_at_key Q k t t'). now apply HB.
Qed.
Lemma next_element_rel {A} (Q : A -> A -> Prop) seed n d d' :
  blindf Q seed -> drel d d' -> agree Q (next_element seed n d) (next_element seed n d').
Proof. intros HB H. apply agree_prefixed. now apply HB. Qed.

Lemma tag_blind : blindf eq deserialize_tag.
Proof.
  intros d d' H. apply de_any_rel; [|exact H]. apply blindv_intro; try reflexivity; intros;
    now constructor.
Qed.

(** ** [Value] as a target *)
Definition mrel (m m' : mode) : Prop :=
  match m, m' with
  | MConf i _, MConf i' _ => i = i'
  | MPlain, MPlain => True
  | _, _ => False
  end.
Lemma mode_settle_rel {A B} (Q : A -> B -> Prop) m m' t t' r r' :
  mrel m m' -> agree Q r r' -> agree Q (mode_settle m t r) (mode_settle m' t' r').
Proof.
  destruct m, m'; cbn; intros HM H; try contradiction; [now apply agree_settle|now apply agree_retagged].
Qed.
Lemma value_of_raw_rel m m' t t' r r' :
  mrel m m' -> agree ut r r' -> agree ut (value_of_raw m t r) (value_of_raw m' t' r').
Proof.
  destruct m, m'; cbn; intros HM H; try contradiction; [|assumption].
  apply agree_settle. eapply agree_map; [apply agree_at_key; exact H|].
  intros x y U. now apply ut_map_tag.
Qed.
Lemma mk_de_rel m m' : mrel m m' -> mkrel (mk_de m) (mk_de m').
Proof.
  intros HM v v' H. destruct m, m'; cbn in HM; try contradiction; cbn; [subst i0|]; now constructor.
Qed.

Definition oput (a b : option value) : Prop :=
  match a, b with Some x, Some y => ut x y | None, None => True | _, _ => False end.
Definition otag (a b : option tag) : Prop :=
  match a, b with Some _, Some _ => True | None, None => True | _, _ => False end.
Lemma finish_map_rel acc acc' id id' raw raw' :
  dut acc acc' -> oput raw raw' -> otag id id' -> ut (finish_map acc id raw) (finish_map acc' id' raw').
Proof.
  intros HA HR HI. destruct raw, raw'; cbn in HR; try contradiction; cbn.
  - destruct id, id'; cbn in HI; try contradiction; [|assumption]. now apply ut_map_tag.
  - apply utc_ut. now constructor.
Qed.

Lemma raw_value_rel m m' : mrel m m' -> forall v v', ut v v' -> agree ut (raw_value m v) (raw_value m' v').
Proof.
  intros HM. induction v as [t s|t c|t b|t n|t e|t d IH|t l IH] using value_ind'; intros v' U;
    apply ut_cases in U; inversion U as [| | | | |? ? ? d' HD|? ? ? l' HL]; subst; cbn [raw_value vtag];
    apply mode_settle_rel; auto; try (constructor; reflexivity).
  - clear U.
    assert (G : forall d d', Forall (fun kv => forall v', ut (snd kv) v' -> agree ut (raw_value m (snd kv)) (raw_value m' v')) d ->
      dut d d' -> forall acc acc' id id' raw raw', dut acc acc' -> otag id id' -> oput raw raw' ->
      agree ut
        ((fix go (d : list (ustr * value)) (acc : dict) (id : option tag) (raw : option value)
           : res error value :=
           match d with
           | [] => Ok (finish_map acc id raw)
           | (k, x) :: r =>
               if ueqb k value_id
               then res_bind (at_key k (vtag x) (deserialize_tag (mk_de m x)))
                             (fun t => go r acc (Some t) raw)
               else if ueqb k value_value
               then res_bind (at_key k (vtag x) (raw_value m x)) (fun y => go r acc id (Some y))
               else res_bind (at_key k (vtag x) (value_of_raw m (vtag x) (raw_value m x)))
                             (fun y => go r (insert k y acc) id raw)
           end) d acc id raw)
        ((fix go (d : list (ustr * value)) (acc : dict) (id : option tag) (raw : option value)
           : res error value :=
           match d with
           | [] => Ok (finish_map acc id raw)
           | (k, x) :: r =>
               if ueqb k value_id
               then res_bind (at_key k (vtag x) (deserialize_tag (mk_de m' x)))
                             (fun t => go r acc (Some t) raw)
               else if ueqb k value_value
               then res_bind (at_key k (vtag x) (raw_value m' x)) (fun y => go r acc id (Some y))
               else res_bind (at_key k (vtag x) (value_of_raw m' (vtag x) (raw_value m' x)))
                             (fun y => go r (insert k y acc) id raw)
           end) d' acc' id' raw')).
    { clear d IH d' HD. intros d d' IH HD.
      induction HD as [|[k x] [k' x'] r r' [E1 E2] HF IHF]; intros acc acc' id id' raw raw' HA HI HR.
      - constructor. now apply finish_map_rel.
      - cbn in E1, E2. subst k'. apply Forall_cons_iff in IH. destruct IH as [IH1 IH2]. cbn in IH1.
        destruct (ueqb k value_id); [|destruct (ueqb k value_value)].
        + eapply agree_bind; [apply agree_at_key; apply tag_blind; apply mk_de_rel; eassumption|].
          intros x0 y0 _. apply IHF; auto. exact I.
        + eapply agree_bind; [apply agree_at_key; apply IH1; assumption|].
          intros x0 y0 U0. apply IHF; auto.
        + eapply agree_bind; [apply agree_at_key; apply value_of_raw_rel; auto|].
          intros x0 y0 U0. apply IHF; auto. now apply keyed_insert. }
    apply G; auto; try exact I. constructor.
  - clear U. eapply agree_map with (Q := Forall2 ut).
    + assert (G : forall l l' n, Forall (fun x => forall v', ut x v' -> agree ut (raw_value m x) (raw_value m' v')) l ->
        Forall2 ut l l' ->
        agree (Forall2 ut)
          ((fix go (l : list value) (n : N) : res error (list value) :=
             match l with
             | [] => Ok []
             | x :: r =>
                 res_bind (res_map_err (prefixed (fmt_nat n)) (value_of_raw m (vtag x) (raw_value m x)))
                          (fun y => res_map (cons y) (go r (n + 1)%N))
             end) l n)
          ((fix go (l : list value) (n : N) : res error (list value) :=
             match l with
             | [] => Ok []
             | x :: r =>
                 res_bind (res_map_err (prefixed (fmt_nat n)) (value_of_raw m' (vtag x) (raw_value m' x)))
                          (fun y => res_map (cons y) (go r (n + 1)%N))
             end) l' n)).
      { clear l IH l' HL. intros l l' n IH HL. revert n IH.
        induction HL as [|x x' r r' E HF IHF]; intros n IH; [constructor; constructor|].
        apply Forall_cons_iff in IH. destruct IH as [IH1 IH2].
        eapply agree_bind; [apply agree_prefixed; apply value_of_raw_rel; auto|].
        intros x0 y0 U0. eapply agree_map; [apply IHF; assumption|]. intros; now constructor. }
      now apply G.
    + intros a b H. apply utc_ut. now constructor.
Qed.

Lemma value_blind : blindf ut deserialize_value.
Proof.
  intros d d' H. destruct H as [i f f' v v' U|v v' U|s|z|f]; cbn [deserialize_value].
  - apply value_of_raw_rel; [reflexivity|]. apply raw_value_rel; [reflexivity|assumption].
  - apply raw_value_rel; [exact I|assumption].
  - constructor. reflexivity.
  - constructor. reflexivity.
  - now constructor.
Qed.
Lemma raw_blind : blindf ut deserialize_raw.
Proof.
  intros d d' H. pose proof H as H'. destruct H' as [i f f' v v' U|v v' U|s|z|f]; cbn [deserialize_raw];
    try (apply (value_blind _ _ H)).
  apply raw_value_rel; [reflexivity|assumption].
Qed.

Lemma value_entries_rel l l' : Forall2 erel l l' ->
  forall acc acc' id id' raw raw', dut acc acc' -> otag id id' -> oput raw raw' ->
  agree ut (value_entries l acc id raw) (value_entries l' acc' id' raw').
Proof.
  induction 1 as [|x x' r r' E HF IH]; intros acc acc' id id' raw raw' HA HI HR; cbn [value_entries].
  - constructor. now apply finish_map_rel.
  - destruct E as [E1 E2]. rewrite <- E1.
    destruct (ueqb (fst (fst x)) value_id); [|destruct (ueqb (fst (fst x)) value_value)].
    + eapply agree_bind; [apply next_value_rel; [apply tag_blind|split; assumption]|].
      intros a b _. apply IH; auto. exact I.
    + eapply agree_bind; [apply next_value_rel; [apply raw_blind|split; assumption]|].
      intros a b U. apply IH; auto.
    + eapply agree_bind; [apply next_value_rel; [apply value_blind|split; assumption]|].
      intros a b U. apply IH; auto. now apply keyed_insert.
Qed.
Lemma value_elements_rel l l' : Forall2 drel l l' -> forall n,
  agree (Forall2 ut) (value_elements l n) (value_elements l' n).
Proof.
  induction 1 as [|x x' r r' E HF IH]; intros n; cbn [value_elements]; [constructor; constructor|].
  eapply agree_bind; [apply next_element_rel; [apply value_blind|assumption]|].
  intros a b U. eapply agree_map; [apply IH|]. intros; now constructor.
Qed.
Lemma ut_nest k v v' : ut v v' -> ut (nest k v) (nest k v').
Proof.
  unfold nest. generalize (split_on dot k). intros ks. revert v v'.
  induction ks as [|x r IH]; intros v v' U; cbn; [exact U|].
  destruct (is_nil x); [exact U|].
  apply utc_ut. constructor. constructor; [split; [reflexivity|]|constructor]. cbn. now apply IH.
Qed.
Lemma enum_first_rel {A} (Q : A -> A -> Prop) l l' h :
  Forall2 erel l l' -> (forall x y, erel x y -> agree Q (h x) (h y)) ->
  agree Q (enum_first l h) (enum_first l' h).
Proof. intros H HH. destruct H; cbn; [now constructor|auto]. Qed.

Lemma value_visitor_blind : blindv ut value_visitor.
Proof.
  apply blindv_intro; [exact ut_refl|..].
  - intros d d' H. cbn. now apply raw_blind.
  - intros d d' H. now constructor.
  - intros l l' H. cbn. eapply agree_map; [apply value_elements_rel; exact H|].
    intros a b U. apply utc_ut. now constructor.
  - intros l l' H. cbn. apply value_entries_rel; auto; try exact I. constructor.
  - intros a a' H. cbn. destruct H as [d d' H|l l' H]; [now constructor|].
    apply enum_first_rel; [exact H|]. intros x y E. pose proof E as [E1 E2]. rewrite <- E1.
    eapply agree_map; [apply next_value_rel; [apply value_blind|exact E]|].
    intros v v' U. now apply ut_nest.
Qed.

(** ** Target types *)
Definition deq (y y' : dval) : Prop := forget y = forget y'.
Lemma deq_refl y : deq y y. Proof. reflexivity. Qed.

Lemma F2_refl {A} (Q : A -> A -> Prop) l : (forall x, Q x x) -> Forall2 Q l l.
Proof. intros H. induction l; constructor; auto. Qed.

Lemma all_elements_rel rec l l' : blindf deq rec -> Forall2 drel l l' -> forall n,
  agree (Forall2 deq) (all_elements rec l n) (all_elements rec l' n).
Proof.
  intros HB. induction 1 as [|x x' r r' E HF IH]; intros n; cbn [all_elements]; [constructor; constructor|].
  eapply agree_bind; [apply next_element_rel; eassumption|].
  intros a b U. eapply agree_map; [apply IH|]. intros; now constructor.
Qed.

Lemma tuple_elements_rel recs short : Forall (blindf deq) recs -> forall l l', Forall2 drel l l' ->
  forall n, agree (Forall2 deq) (tuple_elements recs short l n) (tuple_elements recs short l' n).
Proof.
  induction 1 as [|rec rs HB HR IH]; intros l l' HL n; cbn [tuple_elements]; [constructor; constructor|].
  destruct HL as [|d d' r r' E HF]; [now constructor|].
  eapply agree_bind; [apply next_element_rel; eassumption|].
  intros a b U. eapply agree_map; [apply IH; assumption|]. intros; now constructor.
Qed.

Lemma string_key_blind : blindf eq string_key.
Proof.
  intros d d' H. apply de_any_rel; [|exact H]. apply blindv_intro; try reflexivity; intros; now constructor.
Qed.

Lemma map_entries_rel rec l l' : blindf deq rec -> Forall2 erel l l' -> forall acc acc',
  Forall2 (keyed deq) acc acc' -> agree (Forall2 (keyed deq)) (map_entries rec l acc) (map_entries rec l' acc').
Proof.
  intros HB. induction 1 as [|x x' r r' E HF IH]; intros acc acc' HA; cbn [map_entries]; [now constructor|].
  eapply agree_bind; [apply next_key_rel; [apply string_key_blind|exact E]|]. intros k k' ->.
  eapply agree_bind; [apply next_value_rel; eassumption|]. intros a b U.
  apply IH. now apply keyed_insert.
Qed.

Lemma pair_entries_rel reck rec l l' : blindf deq reck -> blindf deq rec -> Forall2 erel l l' ->
  agree (Forall2 (fun x y => deq (fst x) (fst y) /\ deq (snd x) (snd y)))
        (pair_entries reck rec l) (pair_entries reck rec l').
Proof.
  intros HK HB. induction 1 as [|x x' r r' E HF IH]; cbn [pair_entries]; [constructor; constructor|].
  eapply agree_bind; [apply next_key_rel; eassumption|]. intros k k' EK.
  eapply agree_bind; [apply next_value_rel; eassumption|]. intros a b U.
  eapply agree_map; [apply IH|]. intros. constructor; [split|]; assumption.
Qed.

Lemma field_key_blind deny fs : blindf eq (field_key deny fs).
Proof.
  intros d d' H. apply de_any_rel; [|exact H]. apply blindv_intro; try reflexivity; intros; now constructor.
Qed.
Lemma variant_key_blind vs : blindf eq (variant_key vs).
Proof.
  intros d d' H. apply de_any_rel; [|exact H]. apply blindv_intro; try reflexivity; intros; now constructor.
Qed.

Lemma keyed_assoc {A B} (R : A -> B -> Prop) k m m' : Forall2 (keyed R) m m' ->
  match assoc k m, assoc k m' with Some x, Some y => R x y | None, None => True | _, _ => False end.
Proof.
  induction 1 as [|[k1 x1] [k2 x2] r r' [E1 E2] HF IH]; cbn; [exact I|]. cbn in E1, E2. subst k2.
  destruct (ueqb k k1); auto.
Qed.
Lemma assoc_forall {A} (P : A -> Prop) k (m : list (ustr * A)) x :
  Forall (fun f => P (snd f)) m -> assoc k m = Some x -> P x.
Proof.
  induction 1 as [|[k1 x1] r HP HF IH]; cbn; [discriminate|].
  destruct (ueqb k k1); [intros E; injection E as <-; exact HP|exact IH].
Qed.

Lemma field_entries_rel deny fs l l' : Forall (fun f => blindf deq (snd f)) fs -> Forall2 erel l l' ->
  forall slots slots', Forall2 (keyed deq) slots slots' ->
  agree (Forall2 (keyed deq)) (field_entries deny fs l slots) (field_entries deny fs l' slots').
Proof.
  intros HB. induction 1 as [|x x' r r' E HF IH]; intros slots slots' HS; cbn [field_entries]; [now constructor|].
  eapply agree_bind; [apply next_key_rel; [apply field_key_blind|exact E]|]. intros k k' <-.
  destruct k as [k|]; [|now apply IH].
  destruct (assoc k fs) as [rec|] eqn:EA; [|now apply IH].
  pose proof (assoc_forall _ _ _ _ HB EA) as HR.
  pose proof (keyed_assoc deq k _ _ HS) as HK.
  destruct (assoc k slots), (assoc k slots'); try contradiction; [now constructor|].
  eapply agree_bind; [apply next_value_rel; eassumption|]. intros a b U.
  apply IH. constructor; [split; [reflexivity|exact U]|exact HS].
Qed.

Lemma fill_fields_rel fs slots slots' : Forall (fun f => blindf deq (snd f)) fs ->
  Forall2 (keyed deq) slots slots' ->
  agree (Forall2 (keyed deq)) (fill_fields fs slots) (fill_fields fs slots').
Proof.
  intros HB HS. induction HB as [|[n rec] r HR HF IH]; cbn [fill_fields]; [constructor; constructor|].
  eapply agree_bind with (Q := deq).
  - pose proof (keyed_assoc deq n _ _ HS) as HK.
    destruct (assoc n slots), (assoc n slots'); try contradiction; [now constructor|].
    apply HR. constructor.
  - intros a b U. eapply agree_map; [apply IH|]. intros. constructor; [split; [reflexivity|exact U]|assumption].
Qed.

Lemma combine_rel {A} ks : forall (l l' : list A) (R : A -> A -> Prop),
  Forall2 R l l' -> Forall2 (@keyed ustr A A R) (combine ks l) (combine ks l').
Proof.
  induction ks as [|k ks IH]; intros l l' R H; cbn; [constructor|].
  destruct H; constructor; [split; [reflexivity|assumption]|now apply IH].
Qed.

Lemma struct_visitor_blind (Q : dval -> dval -> Prop) exp deny fs h :
  (forall y, Q y y) -> Forall (fun f => blindf deq (snd f)) fs ->
  (forall l l', Forall2 (keyed deq) l l' -> Q (h l) (h l')) ->
  blindv Q (struct_visitor exp deny fs h).
Proof.
  intros HQ HB HH. apply blindv_intro; auto; cbn; try (intros; now constructor).
  - intros l l' HL. eapply agree_map; [apply tuple_elements_rel; [|exact HL]|].
    + clear -HB. induction HB; cbn; constructor; auto.
    + intros a b U. apply HH. now apply combine_rel.
  - intros l l' HL. eapply agree_map; [|exact HH].
    eapply agree_bind; [apply field_entries_rel; [exact HB|exact HL|constructor]|].
    intros a b U. now apply fill_fields_rel.
Qed.

Lemma tuple_visitor_blind (Q : dval -> dval -> Prop) exp recs h :
  (forall y, Q y y) -> Forall (blindf deq) recs ->
  (forall l l', Forall2 deq l l' -> Q (h l) (h l')) ->
  blindv Q (tuple_visitor exp recs h).
Proof.
  intros HQ HB HH. apply blindv_intro; auto; cbn; try (intros; now constructor).
  intros l l' HL. eapply agree_map; [apply tuple_elements_rel; [exact HB|exact HL]|exact HH].
Qed.

Lemma unit_visitor_blind exp : blindv deq (unit_visitor exp).
Proof. apply blindv_intro; try reflexivity; intros; now constructor. Qed.

(** Congruence of [deq]. *)
Lemma F2_deq_map l l' : Forall2 deq l l' -> map forget l = map forget l'.
Proof. apply F2_map_eq. Qed.
Lemma deq_struct l l' : Forall2 (keyed deq) l l' -> deq (EVStruct l) (EVStruct l').
Proof.
  intros H. unfold deq. cbn [forget]. f_equal. induction H as [|[k x] [k' x'] r r' [E1 E2] HF IH]; [reflexivity|].
  cbn in *. subst k'. rewrite IH, E2. reflexivity.
Qed.

(** Variant payloads. *)
Inductive srel : shape dval -> shape dval -> Prop :=
| sr_unit : srel ShUnit ShUnit
| sr_new x y : deq x y -> srel (ShNew x) (ShNew y)
| sr_tuple l l' : Forall2 deq l l' -> srel (ShTuple l) (ShTuple l')
| sr_struct l l' : Forall2 (keyed deq) l l' -> srel (ShStruct l) (ShStruct l').
Lemma deq_variant n s s' : srel s s' -> deq (EVVariant n s) (EVVariant n s').
Proof.
  unfold deq. intros H. destruct H as [|x y E|l l' E|l l' E]; cbn [forget]; [reflexivity| | |].
  - now rewrite E.
  - now rewrite (F2_deq_map _ _ E).
  - do 2 f_equal. induction E as [|[k x] [k' x'] r r' [E1 E2] HF IH]; [reflexivity|].
    cbn in *. subst k'. rewrite IH, E2. reflexivity.
Qed.

Definition payload_blind (s : shape (deser -> res error dval)) : Prop :=
  match s with
  | ShUnit => True
  | ShNew rec => blindf deq rec
  | ShTuple recs => Forall (blindf deq) recs
  | ShStruct fs => Forall (fun f => blindf deq (snd f)) fs
  end.

Definition is_struct_pair (y y' : dval) : Prop :=
  y = y' \/ exists l l', y = EVStruct l /\ y' = EVStruct l' /\ Forall2 (keyed deq) l l'.
Definition is_tuple_pair (y y' : dval) : Prop :=
  y = y' \/ exists l l', y = EVTuple l /\ y' = EVTuple l' /\ Forall2 deq l l'.

Lemma variant_value_rel full s x y : payload_blind s -> erel x y ->
  agree srel (variant_value full s x) (variant_value full s y).
Proof.
  intros HS E. destruct s as [|rec|recs|fs]; cbn [variant_value]; cbn in HS.
  - eapply agree_map; [apply (next_value_rel deq)|]; [|exact E|constructor].
    intros d d' H. apply de_any_rel; [apply unit_visitor_blind|exact H].
  - eapply agree_map; [apply (next_value_rel deq); [exact HS|exact E]|]. intros; now constructor.
  - eapply agree_map; [apply (next_value_rel is_tuple_pair)|]; [|exact E|].
    + intros d d' H. apply de_any_rel; [|exact H]. apply tuple_visitor_blind; [now left|exact HS|].
      intros l l' HL. right. eauto.
    + intros a b [<-|(l & l' & -> & -> & HL)].
      * destruct a; constructor. apply F2_refl, deq_refl.
      * now constructor.
  - eapply agree_map; [apply (next_value_rel is_struct_pair)|]; [|exact E|].
    + intros d d' H. apply de_any_rel; [|exact H]. apply struct_visitor_blind; [now left|exact HS|].
      intros l l' HL. right. eauto.
    + intros a b [<-|(l & l' & -> & -> & HL)].
      * destruct a; constructor. apply F2_refl. intros; split; [reflexivity|apply deq_refl].
      * now constructor.
Qed.

Lemma enum_visitor_blind ident vs : Forall (fun v => payload_blind (snd v)) vs ->
  blindv deq (enum_visitor ident vs).
Proof.
  intros HB. apply blindv_intro; [exact deq_refl|intros; now constructor..|].
  intros a a' HA. cbn. destruct HA as [d d' H|l l' H].
  - eapply agree_bind; [apply variant_key_blind; exact H|]. intros n n' <-.
    apply agree_refl. exact deq_refl.
  - apply enum_first_rel; [exact H|]. intros x y E.
    eapply agree_bind; [apply next_key_rel; [apply variant_key_blind|exact E]|]. intros n n' <-.
    destruct (assoc n vs) as [s|] eqn:EA; [|now constructor].
    pose proof (assoc_forall _ _ _ _ HB EA) as HS.
    eapply agree_map; [apply variant_value_rel; [exact HS|exact E]|].
    intros. now apply deq_variant.
Qed.

(** ** The special types *)
Lemma magic_get k d d' : dut d d' -> oput (get k d) (get k d').
Proof. intros H. apply (keyed_get ut k _ _ H). Qed.

Lemma find_keys_rel ks : forall v v', ut v v' -> oput (find_keys ks v) (find_keys ks v').
Proof.
  induction ks as [|k ks IH]; intros v v' U; cbn; [exact U|].
  destruct (is_nil k); [exact U|]. pose proof U as U'. apply ut_cases in U'.
  destruct U' as [| | | | |t t' d d' HD|]; cbn; try exact I.
  pose proof (keyed_take ut k _ _ HD) as HT.
  destruct (take k d) as [[x r]|], (take k d') as [[x' r']|]; try contradiction; [|exact I].
  apply IH. apply HT.
Qed.

Lemma find_ref_keys_rel ks : forall v v', ut v v' -> oput (find_ref_keys ks v) (find_ref_keys ks v').
Proof.
  induction ks as [|k ks IH]; intros v v' U; cbn; [exact U|].
  destruct (is_nil k); [exact U|]. pose proof U as U'. apply ut_cases in U'.
  destruct U' as [| | | | |t t' d d' HD|]; cbn; try exact I.
  pose proof (magic_get k _ _ HD) as HT.
  destruct (get k d) as [x|], (get k d') as [x'|]; cbn in HT; try contradiction; [|exact I].
  now apply IH.
Qed.

Definition own (k : ustr) (v : value) : value := match vfind_ref k v with Some x => x | None => v end.
Lemma own_rel k v v' : ut v v' -> ut (own k v) (own k v').
Proof.
  intros U. unfold own, vfind_ref. pose proof (find_ref_keys_rel (split_on dot k) _ _ U) as H.
  destruct (find_ref_keys (split_on dot k) v), (find_ref_keys (split_on dot k) v'); cbn in H; try contradiction;
    assumption.
Qed.

(** The map made for a [Tagged]: the value's own entries, or its source and itself; likewise for
    a [RelativePathBuf]. *)
Inductive tmrel : dict -> dict -> Prop :=
| tm_own d d' : dut d d' -> tmrel d d'
| tm_new t z t' z' x x' : ut x x' ->
    tmrel [(tagged_tag, VNum t (NInt U64 z)); (tagged_value, x)] [(tagged_tag, VNum t' (NInt U64 z')); (tagged_value, x')].
Lemma tagged_magic_rel v v' : ut v v' -> tmrel (tagged_magic v) (tagged_magic v').
Proof.
  intros U. unfold tagged_magic. fold (own tagged_value v). fold (own tagged_value v').
  assert (HN : tmrel (insert tagged_value (own tagged_value v) (insert tagged_tag (value_of_tag (vtag v)) []))
                     (insert tagged_value (own tagged_value v') (insert tagged_tag (value_of_tag (vtag v')) []))).
  { apply tm_new. now apply own_rel. }
  pose proof U as U'. apply ut_cases in U'.
  destruct U' as [| | | | |t t' d d' HD|]; cbn [as_dict]; try exact HN.
  pose proof (magic_get tagged_tag _ _ HD) as HT.
  destruct (get tagged_tag d) as [x|], (get tagged_tag d') as [x'|]; cbn in HT; try contradiction; [|exact HN].
  pose proof (tag_blind _ _ (dr_plain _ _ HT)) as HA.
  destruct (deserialize_tag (DPlain x)) as [g|e], (deserialize_tag (DPlain x')) as [g'|e'];
    inversion HA as [? ? E|? ? E]; subst; [|exact HN].
  destruct (is_default g'); [exact HN|]. now apply tm_own.
Qed.

Definition rmd (o : option (tag * ustr)) (x : value) : dict :=
  match o with
  | Some (t, p) => [(rel_metadata_path, VString t p); (rel_path, x)]
  | None => [(rel_path, x)]
  end.
Inductive rmrel : dict -> dict -> Prop :=
| rm_own d d' : dut d d' -> rmrel d d'
| rm_new o o' x x' : ut x x' -> rmrel (rmd o x) (rmd o' x').
Lemma rel_magic_rel f f' v v' : ut v v' -> rmrel (rel_magic f v) (rel_magic f' v').
Proof.
  intros U. unfold rel_magic. fold (own rel_path v). fold (own rel_path v').
  set (o := option_bind (get_metadata f (vtag v)) _).
  set (o' := option_bind (get_metadata f' (vtag v')) _).
  match goal with |- context [insert rel_path (own rel_path v) ?m] => set (m0 := m) end.
  match goal with |- context [insert rel_path (own rel_path v') ?m] => set (m1 := m) end.
  assert (HN : rmrel (insert rel_path (own rel_path v) m0) (insert rel_path (own rel_path v') m1)).
  { replace (insert rel_path (own rel_path v) m0) with (rmd (option_map (fun p => (tag_default, p)) o) (own rel_path v)) by (subst m0; destruct o; reflexivity).
    replace (insert rel_path (own rel_path v') m1) with (rmd (option_map (fun p => (tag_default, p)) o') (own rel_path v')) by (subst m1; destruct o'; reflexivity).
    apply rm_new. now apply own_rel. }
  clearbody m0 m1. clear o o'. pose proof U as U'. apply ut_cases in U'.
  destruct U' as [| | | | |t t' d d' HD|]; cbn [as_dict]; try exact HN.
  pose proof (magic_get rel_metadata_path _ _ HD) as HT.
  destruct (get rel_metadata_path d) as [x|], (get rel_metadata_path d') as [x'|]; cbn in HT; try contradiction; [|exact HN].
  apply ut_cases in HT. destruct HT; cbn [to_empty]; try exact HN; now apply rm_own.
Qed.

(** Structs read from the map made for a [Tagged]. *)
Lemma tagged_visit exp t mk g z x :
  (forall v, mk v = DPlain v \/ exists i f, mk v = DConf i f v) ->
  exists g', visit_map (struct_visitor exp false [(tagged_tag, deserialize TTag); (tagged_value, t)] EVStruct)
    (map_access mk [(tagged_tag, VNum g (NInt U64 z)); (tagged_value, x)])
  = res_map (fun y => EVStruct [(tagged_tag, EVTag g'); (tagged_value, y)]) (at_key tagged_value (vtag x) (t (mk x))).
Proof.
  intros HM. exists (Tag (Z.to_N z)).
  cbn [map_access map fst snd]. unfold visit_map, struct_visitor. cbn [v_map].
  set (n := VNum g (NInt U64 z)).
  assert (E : deserialize TTag (mk n) = Ok (EVTag (Tag (Z.to_N z)))).
  { destruct (HM n) as [->|(i & f & ->)]; reflexivity. }
  revert E. generalize (deserialize TTag). intros r E.
  cbn [field_entries].
  change (next_key (field_key false (map fst [(tagged_tag, r); (tagged_value, t)]))
            (tagged_tag, vtag n, mk n)) with (@Ok error (option ustr) (Some tagged_tag)).
  change (next_key (field_key false (map fst [(tagged_tag, r); (tagged_value, t)]))
            (tagged_value, vtag x, mk x)) with (@Ok error (option ustr) (Some tagged_value)).
  cbn [res_bind].
  change (assoc tagged_tag [(tagged_tag, r); (tagged_value, t)]) with (Some r).
  change (assoc tagged_value [(tagged_tag, r); (tagged_value, t)]) with (Some t).
  cbn [assoc next_value]. rewrite E. cbn [res_map_err res_bind].
  change (ueqb tagged_value tagged_tag) with false. cbn iota.
  unfold at_key. destruct (t (mk x)); reflexivity.
Qed.

Lemma relative_visit exp mk o x :
  (forall v, mk v = DPlain v \/ exists i f, mk v = DConf i f v) ->
  exists w, (w = EVNone \/ exists p, w = EVSome (EVPath p)) /\
  visit_map (struct_visitor exp false [(rel_metadata_path, deserialize (TOption TPath)); (rel_path, deserialize TPath)] EVStruct)
    (map_access mk (rmd o x))
  = res_map (fun y => EVStruct [(rel_metadata_path, w); (rel_path, y)]) (at_key rel_path (vtag x) (deserialize TPath (mk x))).
Proof.
  intros HM. exists (match o with Some (_, p) => EVSome (EVPath p) | None => EVNone end).
  split; [destruct o as [[? ?]|]; eauto|].
  unfold visit_map, struct_visitor. cbn [v_map].
  assert (E : forall g p, deserialize (TOption TPath) (mk (VString g p)) = Ok (EVSome (EVPath p))).
  { intros g p. destruct (HM (VString g p)) as [->|(i & f & ->)]; reflexivity. }
  assert (E2 : deserialize (TOption TPath) (DMissing rel_metadata_path) = Ok EVNone) by reflexivity.
  revert E E2. generalize (deserialize (TOption TPath)) (deserialize TPath). intros r t E E2.
  destruct o as [[g p]|]; cbn [rmd map_access map fst snd field_entries].
  - change (next_key (field_key false [rel_metadata_path; rel_path])
            (rel_metadata_path, vtag (VString g p), mk (VString g p))) with (@Ok error (option ustr) (Some rel_metadata_path)).
    change (next_key (field_key false [rel_metadata_path; rel_path])
            (rel_path, vtag x, mk x)) with (@Ok error (option ustr) (Some rel_path)).
    cbn [res_bind].
    change (assoc rel_metadata_path [(rel_metadata_path, r); (rel_path, t)]) with (Some r).
    change (assoc rel_path [(rel_metadata_path, r); (rel_path, t)]) with (Some t).
    cbn [assoc next_value]. rewrite E. cbn [res_map_err res_bind].
    change (ueqb rel_path rel_metadata_path) with false. cbn iota.
    unfold at_key. destruct (t (mk x)); reflexivity.
  - change (next_key (field_key false [rel_metadata_path; rel_path])
            (rel_path, vtag x, mk x)) with (@Ok error (option ustr) (Some rel_path)).
    cbn [res_bind].
    change (assoc rel_path [(rel_metadata_path, r); (rel_path, t)]) with (Some t).
    cbn [assoc next_value]. unfold at_key. destruct (t (mk x)) as [y|]; cbn [res_map_err res_bind res_map]; [|reflexivity].
    cbn [fill_fields]. change (assoc rel_metadata_path [(rel_path, y)]) with (@None dval).
    rewrite E2. reflexivity.
Qed.

Lemma deq_tagged g g' y y' : deq y y' ->
  deq (EVStruct [(tagged_tag, EVTag g); (tagged_value, y)]) (EVStruct [(tagged_tag, EVTag g'); (tagged_value, y')]).
Proof. intros H. unfold deq. cbn [forget map fst snd]. now rewrite H. Qed.
Lemma deq_relative w w' y y' : (w = EVNone \/ exists p, w = EVSome (EVPath p)) ->
  (w' = EVNone \/ exists p, w' = EVSome (EVPath p)) -> deq y y' ->
  deq (EVStruct [(rel_metadata_path, w); (rel_path, y)]) (EVStruct [(rel_metadata_path, w'); (rel_path, y')]).
Proof.
  intros H1 H2 H. unfold deq. cbn [forget map fst snd]. rewrite H.
  destruct H1 as [->|[p ->]], H2 as [->|[p' ->]]; reflexivity.
Qed.

Lemma tag_ty_blind : blindf deq (deserialize TTag).
Proof.
  intros d d' H. cbn [deserialize]. eapply agree_map; [apply tag_blind; exact H|]. intros x y ->. reflexivity.
Qed.
Lemma path_ty_blind : blindf deq (deserialize TPath).
Proof.
  intros d d' H. cbn [deserialize]. apply de_any_rel; [|exact H].
  apply blindv_intro; [exact deq_refl|intros; now constructor..].
Qed.
Lemma option_visitor_blind rec : blindf deq rec -> blindv deq (option_visitor rec).
Proof.
  intros HB. apply blindv_intro; [exact deq_refl| |intros; now constructor..].
  intros d d' H. cbn. eapply agree_map; [apply HB; exact H|]. intros x y E. unfold deq. cbn. now rewrite E.
Qed.
Lemma option_path_blind : blindf deq (deserialize (TOption TPath)).
Proof.
  intros d d' H. cbn [deserialize]. apply de_option_rel; [|exact H]. apply option_visitor_blind, path_ty_blind.
Qed.

Lemma magic_tagged f v : magic_map tagged_name f v = Some (tagged_magic v).
Proof. reflexivity. Qed.
Lemma magic_rel f v : magic_map rel_name f v = Some (rel_magic f v).
Proof. reflexivity. Qed.

Lemma tagged_fields_blind t : blindf deq (deserialize t) ->
  Forall (fun f => blindf deq (snd f)) [(tagged_tag, deserialize TTag); (tagged_value, deserialize t)].
Proof. intros H. repeat constructor; [exact tag_ty_blind|exact H]. Qed.
Lemma relative_fields_blind :
  Forall (fun f => blindf deq (snd f)) [(rel_metadata_path, deserialize (TOption TPath)); (rel_path, deserialize TPath)].
Proof. repeat constructor; [exact option_path_blind|exact path_ty_blind]. Qed.

(** The maps, read as such a struct through [mk] and [mk']. *)
Lemma tagged_map_rel t mk mk' m m' exp : blindf deq (deserialize t) -> mkrel mk mk' ->
  (forall v, mk v = DPlain v \/ exists i f, mk v = DConf i f v) ->
  (forall v, mk' v = DPlain v \/ exists i f, mk' v = DConf i f v) -> tmrel m m' ->
  agree deq
    (visit_map (struct_visitor exp false [(tagged_tag, deserialize TTag); (tagged_value, deserialize t)] EVStruct) (map_access mk m))
    (visit_map (struct_visitor exp false [(tagged_tag, deserialize TTag); (tagged_value, deserialize t)] EVStruct) (map_access mk' m')).
Proof.
  intros HB HM M1 M2 HT. destruct HT as [d d' HD|g z g' z' x x' U].
  - apply bv_map; [|now apply map_access_rel].
    apply struct_visitor_blind; [exact deq_refl|now apply tagged_fields_blind|exact deq_struct].
  - destruct (tagged_visit exp (deserialize t) mk g z x M1) as [w ->].
    destruct (tagged_visit exp (deserialize t) mk' g' z' x' M2) as [w' ->].
    eapply agree_map; [apply agree_at_key; apply HB; now apply HM|]. intros. now apply deq_tagged.
Qed.
Lemma relative_map_rel mk mk' m m' exp : mkrel mk mk' ->
  (forall v, mk v = DPlain v \/ exists i f, mk v = DConf i f v) ->
  (forall v, mk' v = DPlain v \/ exists i f, mk' v = DConf i f v) -> rmrel m m' ->
  agree deq
    (visit_map (struct_visitor exp false [(rel_metadata_path, deserialize (TOption TPath)); (rel_path, deserialize TPath)] EVStruct) (map_access mk m))
    (visit_map (struct_visitor exp false [(rel_metadata_path, deserialize (TOption TPath)); (rel_path, deserialize TPath)] EVStruct) (map_access mk' m')).
Proof.
  intros HM M1 M2 HT. destruct HT as [d d' HD|o o' x x' U].
  - apply bv_map; [|now apply map_access_rel].
    apply struct_visitor_blind; [exact deq_refl|apply relative_fields_blind|exact deq_struct].
  - destruct (relative_visit exp mk o x M1) as (w & W & ->).
    destruct (relative_visit exp mk' o' x' M2) as (w' & W' & ->).
    eapply agree_map; [apply agree_at_key; apply path_ty_blind; now apply HM|]. intros. now apply deq_relative.
Qed.

Lemma tagged_blind t : blindf deq (deserialize t) -> blindf deq (deserialize (TTagged t)).
Proof.
  intros HB d d' H. unfold TTagged. cbn [deserialize map fst snd].
  pose proof H as H'. destruct H' as [i f f' v v' U|v v' U|s|z|f]; cbn [de_struct];
    try (apply de_any_rel; [|exact H];
         apply struct_visitor_blind; [exact deq_refl|now apply tagged_fields_blind|exact deq_struct]).
  rewrite !magic_tagged. apply agree_settle.
  apply tagged_map_rel; auto; [apply mkrel_conf|eauto..|now apply tagged_magic_rel].
Qed.
Lemma relative_blind : blindf deq (deserialize TRelative).
Proof.
  intros d d' H. unfold TRelative. 
  pose proof H as H'. destruct H' as [i f f' v v' U|v v' U|s|z|f];
    try (apply de_any_rel; [|exact H];
         apply struct_visitor_blind; [exact deq_refl|apply relative_fields_blind|exact deq_struct]).
  change (agree deq (settle f (vtag v) (visit_map (struct_visitor (lit "struct " ++ lit "RelativePathBuf") false
     [(rel_metadata_path, deserialize (TOption TPath)); (rel_path, deserialize TPath)] EVStruct) (map_access (DConf i f) (rel_magic f v))))
   (settle f' (vtag v') (visit_map (struct_visitor (lit "struct " ++ lit "RelativePathBuf") false
     [(rel_metadata_path, deserialize (TOption TPath)); (rel_path, deserialize TPath)] EVStruct) (map_access (DConf i f') (rel_magic f' v'))))).
  apply agree_settle.
  apply relative_map_rel; auto; [apply mkrel_conf|eauto..|now apply rel_magic_rel].
Qed.

(** ** [Either]: the value is copied, then the copy is read *)
Definition trel (P : dict -> dict -> Prop) (v v' : value) : Prop :=
  ut v v' \/ exists g g' m m', v = VDict g m /\ v' = VDict g' m' /\ P m m'.

Lemma tagged_copy i f f' m m' : tmrel m m' ->
  agree (trel tmrel) (visit_map value_visitor (map_access (DConf i f) m))
                     (visit_map value_visitor (map_access (DConf i f') m')).
Proof.
  intros HT. destruct HT as [d d' HD|g z g' z' x x' U].
  - eapply agree_impl; [|apply (bv_map _ _ value_visitor_blind); apply map_access_rel; [apply mkrel_conf|exact HD]].
    now left.
  - unfold visit_map, value_visitor. cbn [v_map map_access map fst snd value_entries].
    change (ueqb tagged_tag value_id) with false. change (ueqb tagged_tag value_value) with false.
    change (ueqb tagged_value value_id) with false. change (ueqb tagged_value value_value) with false.
    cbn iota.
    assert (E : forall f g z, exists g1, next_value deserialize_value (tagged_tag, vtag (VNum g (NInt U64 z)), DConf i f (VNum g (NInt U64 z)))
                  = Ok (VNum g1 (NInt U64 z))) by (intros; eexists; reflexivity).
    destruct (E f g z) as [g1 ->]. destruct (E f' g' z') as [g2 ->]. cbn [res_bind].
    eapply agree_bind; [apply next_value_rel; [apply value_blind|]|].
    { split; [reflexivity|]. cbn. constructor. exact U. }
    intros a b U'. constructor. right. cbn [finish_map].
    exists tag_default, tag_default. do 2 eexists. split; [reflexivity|]. split; [reflexivity|].
    apply (tm_new g1 z g2 z'). exact U'.
Qed.

Lemma relative_copy i f f' m m' : rmrel m m' ->
  agree (trel rmrel) (visit_map value_visitor (map_access (DConf i f) m))
                     (visit_map value_visitor (map_access (DConf i f') m')).
Proof.
  intros HT. destruct HT as [d d' HD|o o' x x' U].
  - eapply agree_impl; [|apply (bv_map _ _ value_visitor_blind); apply map_access_rel; [apply mkrel_conf|exact HD]].
    now left.
  - unfold visit_map, value_visitor. cbn [v_map].
    assert (E : forall f o x, exists o1, value_entries (map_access (DConf i f) (rmd o x)) [] None None =
      res_map (fun y => VDict tag_default (rmd o1 y)) (next_value deserialize_value (rel_path, vtag x, DConf i f x))).
    { intros h p y. destruct p as [[g p]|].
      - eexists (Some (_, p)). cbn [rmd map_access map fst snd value_entries].
        change (ueqb rel_metadata_path value_id) with false. change (ueqb rel_metadata_path value_value) with false.
        change (ueqb rel_path value_id) with false. change (ueqb rel_path value_value) with false. cbn iota.
        match goal with |- context [res_bind (next_value deserialize_value (rel_metadata_path, ?t, ?d)) _] =>
          change (next_value deserialize_value (rel_metadata_path, t, d)) with
            (@Ok error value (VString (if tag_eqb tag_default tag_default then g else tag_default) p)) end.
        cbn [res_bind]. destruct (next_value deserialize_value (rel_path, vtag y, DConf i h y)); reflexivity.
      - exists None. cbn [rmd map_access map fst snd value_entries].
        change (ueqb rel_path value_id) with false. change (ueqb rel_path value_value) with false. cbn iota.
        destruct (next_value deserialize_value (rel_path, vtag y, DConf i h y)); reflexivity. }
    destruct (E f o x) as [o1 ->]. destruct (E f' o' x') as [o2 ->].
    eapply agree_map; [apply next_value_rel; [apply value_blind|]|].
    { split; [reflexivity|]. cbn. constructor. exact U. }
    intros a b U'. right. do 4 eexists. split; [reflexivity|]. split; [reflexivity|]. now apply rm_new.
Qed.

Definition entry_of (k : ustr) (v : value) : value :=
  match option_bind (as_dict v) (get k) with Some x => x | None => v end.
Lemma entry_of_rel k v v' : ut v v' -> ut (entry_of k v) (entry_of k v').
Proof.
  intros U. unfold entry_of. pose proof U as U'. apply ut_cases in U'.
  destruct U' as [| | | | |t t' d d' HD|]; cbn [as_dict option_bind]; try exact U.
  pose proof (magic_get k _ _ HD) as HT.
  destruct (get k d), (get k d'); cbn in HT; try contradiction; assumption.
Qed.

Lemma either_rel a b (P : dict -> dict -> Prop) r r' :
  blindf deq (deserialize a) -> blindf deq (deserialize b) ->
  (forall g g' m m', P m m' -> agree deq (deserialize a (DPlain (VDict g m))) (deserialize a (DPlain (VDict g' m')))) ->
  (forall g g' m m', P m m' -> ut (entry_of (last_field a) (VDict g m)) (entry_of (last_field a) (VDict g' m')) \/ dut m m') ->
  agree (trel P) r r' ->
  agree deq
    (res_bind r (fun v =>
        match deserialize a (DPlain v) with
        | Ok x => Ok (EVLeft x)
        | Err ea =>
            match deserialize b (DPlain (entry_of (last_field a) v)) with
            | Ok x => Ok (EVRight x)
            | Err eb => Err (err_msg (fmt_kind (e_kind ea) ++ lit "; " ++ fmt_kind (e_kind eb)))
            end
        end))
    (res_bind r' (fun v =>
        match deserialize a (DPlain v) with
        | Ok x => Ok (EVLeft x)
        | Err ea =>
            match deserialize b (DPlain (entry_of (last_field a) v)) with
            | Ok x => Ok (EVRight x)
            | Err eb => Err (err_msg (fmt_kind (e_kind ea) ++ lit "; " ++ fmt_kind (e_kind eb)))
            end
        end)).
Proof.
  intros HA HB HP HE HR. eapply agree_bind; [exact HR|]. intros v v' HT.
  assert (RA : agree deq (deserialize a (DPlain v)) (deserialize a (DPlain v'))).
  { destruct HT as [U|(g & g' & m & m' & -> & -> & HM)]; [apply HA; now constructor|now apply HP]. }
  assert (RB : agree deq (deserialize b (DPlain (entry_of (last_field a) v))) (deserialize b (DPlain (entry_of (last_field a) v')))).
  { apply HB. constructor. destruct HT as [U|(g & g' & m & m' & -> & -> & HM)]; [now apply entry_of_rel|].
    destruct (HE g g' m m' HM) as [U|HD]; [exact U|]. apply entry_of_rel. apply utc_ut. now constructor. }
  destruct RA as [x y E|ea ea' E].
  - constructor. unfold deq. cbn. now rewrite E.
  - destruct RB as [x y E2|eb eb' E2].
    + constructor. unfold deq. cbn. now rewrite E2.
    + rewrite (report_kind _ _ E), (report_kind _ _ E2). now constructor.
Qed.

Lemma unreserved_name a : unreserved a ->
  ~ In (struct_name a) [value_name; rel_name; tagged_name] \/ a = TRelative \/
  exists t, a = TTagged t /\ unreserved t.
Proof.
  intros H. destruct H; try (left; cbn [struct_name In]; intros [E|[E|[E|[]]]]; discriminate); auto.
  - left. repeat (destruct H as [<-|H]; [cbn [struct_name In]; intros [E|[E|[E|[]]]]; discriminate|]). destruct H.
  - right. right. eauto.
Qed.

Lemma either_blind a b : unreserved a ->
  (forall t, a = TTagged t -> blindf deq (deserialize t)) ->
  blindf deq (deserialize a) -> blindf deq (deserialize b) -> blindf deq (deserialize (TEither a b)).
Proof.
  intros UA HI HA HB d d' H. cbn [deserialize].
  destruct (unreserved_name a UA) as [HN|[->|(t & -> & _)]].
  - apply either_rel with (P := fun _ _ => False); auto; try (intros; contradiction).
    eapply agree_impl; [|apply de_struct_plain_rel; [apply value_visitor_blind|exact HN|exact H]].
    now left.
  - apply either_rel with (P := rmrel); auto.
    + intros g g' m m' HM. apply (agree_retagged deq). apply relative_map_rel; auto using mkrel_plain.
    + intros g g' m m' [x x' D|o o' x x' U]; [now right|left].
      destruct o as [[? ?]|], o' as [[? ?]|]; exact U.
    + pose proof H as H'. destruct H' as [i f f' v v' U|v v' U|s|z|f]; cbn [struct_name TRelative de_struct];
      try (eapply agree_impl; [|apply (de_any_rel _ _ value_visitor_blind _ _ H)]; now left).
      rewrite !magic_rel. apply agree_settle. apply relative_copy. now apply rel_magic_rel.
  - apply either_rel with (P := tmrel); auto.
    + intros g g' m m' HM. apply (agree_retagged deq). apply tagged_map_rel; auto using mkrel_plain.
    + intros g g' m m' [x x' D|? ? ? ? x x' U]; [now right|left]. exact U.
    + pose proof H as H'. destruct H' as [i f f' v v' U|v v' U|s|z|f]; cbn [struct_name TTagged de_struct];
      try (eapply agree_impl; [|apply (de_any_rel _ _ value_visitor_blind _ _ H)]; now left).
      rewrite !magic_tagged. apply agree_settle. apply tagged_copy. now apply tagged_magic_rel.
Qed.

(** ** Every type *)
Lemma plain_blind vis : (forall (d d' : deser), visit_some vis d = visit_some vis d') ->
  (forall d d', visit_newtype vis d = visit_newtype vis d') ->
  (forall l l', visit_seq vis l = visit_seq vis l') -> (forall l l', visit_map vis l = visit_map vis l') ->
  (forall a a', visit_enum vis a = visit_enum vis a') -> blindv deq vis.
Proof.
  intros H1 H2 H3 H4 H5. apply blindv_intro; [exact deq_refl|..]; intros x x' _;
    [rewrite (H1 x x')|rewrite (H2 x x')|rewrite (H3 x x')|rewrite (H4 x x')|rewrite (H5 x x')];
    apply agree_refl, deq_refl.
Qed.

Lemma Forall_map_in {A B} (P : B -> Prop) (f : A -> B) l : (forall x, In x l -> P (f x)) -> Forall P (map f l).
Proof. induction l; cbn; intros H; constructor; auto. Qed.
Lemma Forall_both {A} (P Q : A -> Prop) l : Forall P l -> (forall x, P x -> Q x) -> Forall Q l.
Proof. induction 1; constructor; auto. Qed.

Theorem deserialize_blind : forall t, unreserved t -> blindf deq (deserialize t).
Proof.
  assert (G : forall t, (unreserved t -> blindf deq (deserialize t)) /\
                        (forall u, t = TTagged u -> unreserved u -> blindf deq (deserialize u))).
  { induction t as [|k| | | | | |t [IH _]|t [IH _]|ts IH|t [IH _]|k t [IHk _] [IH _]|n i d fs IH|i t [IH _]|i ts IH|i|i vs IH
                   | | | | | | |a b [IHa IHa'] [IHb _]] using ty_ind'; (split; [intros UR|try (intros u E; discriminate E)]);
      cbn [deserialize].
    - intros d d' H. apply de_bool_rel; [|exact H]. now apply plain_blind.
    - intros d d' H. destruct k; try (apply de_num_rel; [|exact H]; now apply plain_blind);
        apply de_128_rel; try exact H; now apply plain_blind.
    - intros d d' H. apply de_num_rel; [|exact H]. now apply plain_blind.
    - intros d d' H. apply de_num_rel; [|exact H]. now apply plain_blind.
    - intros d d' H. apply de_any_rel; [|exact H]. now apply plain_blind.
    - intros d d' H. apply de_any_rel; [|exact H]. now apply plain_blind.
    - intros d d' H. apply de_any_rel; [|exact H]. now apply plain_blind.
    - inversion UR as [? HI| | |? U| | | | | | | | | | |]; subst;
        [cbn in HI; repeat destruct HI as [HI|HI]; try discriminate; contradiction|].
      intros d d' H. apply de_option_rel; [|exact H]. now apply option_visitor_blind, IH.
    - inversion UR as [? HI| | | |? U| | | | | | | | | |]; subst;
        [cbn in HI; repeat destruct HI as [HI|HI]; try discriminate; contradiction|].
      intros d d' H. apply de_any_rel; [|exact H].
      apply blindv_intro; try exact deq_refl; try (intros; now constructor).
      intros l l' HL. cbn. eapply agree_map; [apply all_elements_rel; [now apply IH|exact HL]|].
      intros x y E. unfold deq. cbn [forget]. now rewrite (F2_deq_map _ _ E).
    - inversion UR as [? HI| | | | | | | |? U| | | | | |]; subst;
        [cbn in HI; repeat destruct HI as [HI|HI]; try discriminate; contradiction|].
      intros d d' H. apply de_any_rel; [|exact H].
      apply blindv_intro; try exact deq_refl; try (intros; now constructor).
      intros l l' HL. cbn. eapply agree_map; [apply tuple_elements_rel; [|exact HL]|].
      + apply Forall_map_in. intros x HX. rewrite Forall_forall in IH, U. apply IH; auto.
      + intros x y E. unfold deq. cbn [forget]. now rewrite (F2_deq_map _ _ E).
    - inversion UR as [? HI| | | | |? U| | | | | | | | |]; subst;
        [cbn in HI; repeat destruct HI as [HI|HI]; try discriminate; contradiction|].
      intros d d' H. apply de_any_rel; [|exact H].
      apply blindv_intro; try exact deq_refl; try (intros; now constructor).
      intros l l' HL. cbn. eapply agree_map; [apply map_entries_rel; [now apply IH|exact HL|constructor]|].
      intros x y E. unfold deq. cbn [forget]. f_equal.
      induction E as [|[k1 x1] [k2 x2] r r' [E1 E2] HF IHF]; [reflexivity|]. cbn in *. subst k2. now rewrite IHF, E2.
    - inversion UR as [? HI| | | | | |? ? Uk U| | | | | | | |]; subst;
        [cbn in HI; repeat destruct HI as [HI|HI]; try discriminate; contradiction|].
      intros d d' H. apply de_any_rel; [|exact H].
      apply blindv_intro; try exact deq_refl; try (intros; now constructor).
      intros l l' HL. cbn. eapply agree_map; [apply pair_entries_rel; [now apply IHk|now apply IH|exact HL]|].
      intros x y E. unfold deq. cbn [forget]. f_equal.
      induction E as [|[k1 x1] [k2 x2] r r' [E1 E2] HF IHF]; [reflexivity|]. cbn in *. now rewrite IHF, E1, E2.
    - inversion UR as [? HI| | | | | | | | | |? ? ? ? HN HU| | |? U|]; subst.
      + cbn in HI; repeat destruct HI as [HI|HI]; try discriminate; contradiction.
      + intros x x' H. apply de_struct_plain_rel; [|exact HN|exact H].
        apply struct_visitor_blind; [exact deq_refl| |exact deq_struct].
        apply Forall_map_in. intros [k t] HX. cbn [snd fst]. rewrite Forall_forall in IH.
        apply (proj1 (IH _ HX)). cbn. now apply (HU k).
      + apply relative_blind.
      + apply tagged_blind. rewrite Forall_forall in IH. apply (proj1 (IH (tagged_value, t) (or_intror (or_introl eq_refl)))). exact U.
    - intros u E U. unfold TTagged in E. injection E as -> -> -> ->.
      rewrite Forall_forall in IH. apply (proj1 (IH (tagged_value, u) (or_intror (or_introl eq_refl)))). exact U.
    - inversion UR as [? HI| | | | | | |? ? U| | | | | | |]; subst;
        [cbn in HI; repeat destruct HI as [HI|HI]; try discriminate; contradiction|].
      intros d d' H. apply de_newtype_rel; [|exact H].
      apply blindv_intro; try exact deq_refl; try (intros; now constructor).
      + intros x x' HX. cbn. eapply agree_map; [now apply IH|]. intros y y' E. unfold deq. cbn. now rewrite E.
      + intros l l' HL. unfold visit_seq, newtype_visitor. cbn [v_seq].
        eapply agree_map; [apply tuple_elements_rel; [|exact HL]|].
        * constructor; [now apply IH|constructor].
        * intros x y E. destruct E as [|x1 y1 r r' E1 E2]; [reflexivity|]. destruct E2; [|reflexivity].
          unfold deq. cbn. now rewrite E1.
    - inversion UR as [? HI| | | | | | | | |? ? U| | | | |]; subst;
        [cbn in HI; repeat destruct HI as [HI|HI]; try discriminate; contradiction|].
      intros d d' H. apply de_any_rel; [|exact H].
      apply tuple_visitor_blind; [exact deq_refl| |].
      + apply Forall_map_in. intros x HX. rewrite Forall_forall in IH, U. apply IH; auto.
      + intros x y E. unfold deq. cbn [forget]. now rewrite (F2_deq_map _ _ E).
    - intros d d' H. apply de_any_rel; [|exact H]. now apply plain_blind.
    - inversion UR as [? HI| | | | | | | | | | |? ? H1 H2 H3| | |]; subst;
        [cbn in HI; repeat destruct HI as [HI|HI]; try discriminate; contradiction|].
      intros d d' H. apply de_enum_rel; [|exact H]. apply enum_visitor_blind.
      apply Forall_map_in. intros [n s] HX. cbn [snd fst]. rewrite Forall_forall in IH. specialize (IH _ HX).
      cbn in IH. destruct s as [|t|ts|fs]; cbn in *.
      + exact I.
      + apply (proj1 IH). now apply (H1 n).
      + apply Forall_map_in. intros t HT. rewrite Forall_forall in IH. apply (proj1 (IH _ HT)). now apply (H2 n ts).
      + apply Forall_map_in. intros [k t] HT. cbn [snd]. rewrite Forall_forall in IH. apply (proj1 (IH _ HT)). now apply (H3 n fs k).
    - intros d d' H. eapply agree_map; [apply value_blind; exact H|]. intros x y U. unfold deq. cbn. now rewrite U.
    - exact tag_ty_blind.
    - intros d d' H. apply de_any_rel; [|exact H]. now apply plain_blind.
    - exact path_ty_blind.
    - intros d d' H. destruct H; constructor; reflexivity.
    - intros d d' H. apply de_any_rel; [|exact H]. now apply plain_blind.
    - inversion UR as [? HI| | | | | | | | | | | | | |? ? Ua Ub]; subst;
        [cbn in HI; repeat destruct HI as [HI|HI]; try discriminate; contradiction|].
      apply either_blind; auto. intros u ->. apply (IHa' u eq_refl).
      inversion Ua as [? HI| | | | | | | | | |? ? ? ? HN HU| | |? U|]; subst; [| |exact U].
      + cbn in HI; repeat destruct HI as [HI|HI]; try discriminate; contradiction.
      + destruct HN; cbn; auto. }
  intros t. apply G.
Qed.

(** ** Figments *)
Lemma mc_loop_rel {K A} `{Cmp K} (R : A -> A -> Prop) (f : A -> A -> A) :
  forall self self', Forall2 (keyed R) self self' ->
  (forall x, In x self -> forall a' b b', R (snd x) a' -> R b b' -> R (f (snd x) b) (f a' b')) ->
  forall joined joined' other other', Forall2 (keyed R) joined joined' -> Forall2 (keyed R) other other' ->
  Forall2 (keyed R) (mc_loop f self joined other) (mc_loop f self' joined' other').
Proof.
  induction 1 as [|[k x] [k' x'] r r' [E1 E2] HF IH]; intros HC joined joined' other other' HJ HO; cbn [mc_loop].
  - now apply keyed_extend.
  - cbn in E1, E2. subst k'. pose proof (keyed_take R k _ _ HO) as HT.
    assert (HC' : forall y, In y r -> forall a' b b', R (snd y) a' -> R b b' -> R (f (snd y) b) (f a' b')).
    { intros y HY. apply HC. now right. }
    destruct (take k other) as [[b o]|], (take k other') as [[b' o']|]; try contradiction.
    + destruct HT as [T1 T2]. apply IH; auto. apply keyed_insert; auto.
      apply (HC (k, x)); auto. now left.
    + apply IH; auto. now apply keyed_insert.
Qed.

Lemma vcoalesce_rel o : forall a a' b b', ut a a' -> ut b b' -> ut (vcoalesce o a b) (vcoalesce o a' b').
Proof.
  induction a as [t s|t c|t x|t n|t e|t d IH|t l IH] using value_ind'; intros a' b b' UA UB;
    pose proof UA as UA'; pose proof UB as UB'; apply ut_cases in UA'; apply ut_cases in UB'.
  1-5: inversion UA'; subst; destruct UB'; destruct o; cbn [vcoalesce]; assumption.
  - inversion UA' as [| | | | |? t2 ? d2 HD|]; subst.
    destruct UB' as [| | | | |t3 t4 d3 d4 HD2|]; destruct o; cbn [vcoalesce]; try assumption;
      apply utc_ut; constructor; apply mc_loop_rel; try assumption; try constructor;
      intros x HX a1 b1 b2 U1 U2; rewrite Forall_forall in IH; now apply (IH _ HX).
  - inversion UA' as [| | | | | |? t2 ? l2 HL]; subst.
    destruct UB' as [| | | | | |t3 t4 l3 l4 HL2]; destruct o; cbn [vcoalesce]; try assumption;
      apply utc_ut; constructor; now apply Forall2_app.
Qed.

Lemma dcoalesce_rel o a a' b b' : dut a a' -> dut b b' -> dut (dcoalesce o a b) (dcoalesce o a' b').
Proof.
  intros HA HB. apply mc_loop_rel; auto. intros. now apply vcoalesce_rel.
Qed.

Definition put : bmap profile dict -> bmap profile dict -> Prop := Forall2 (keyed dut).
Lemma pcoalesce_rel o a a' b b' : put a a' -> put b b' -> put (pcoalesce o a b) (pcoalesce o a' b').
Proof.
  intros HA HB. apply mc_loop_rel; auto. intros. now apply dcoalesce_rel.
Qed.

Lemma put_data m m' : put m m' <-> data_data m = data_data m'.
Proof.
  unfold put, data_data. split.
  - intros H. apply F2_map_eq. eapply F2_imp; [|exact H].
    intros [k v] [k' v'] [E1 E2]. cbn [fst snd] in *. apply dut_data in E2. now rewrite E1, E2.
  - intros H. apply map_eq_F2 in H. eapply F2_imp; [|exact H].
    intros [k v] [k' v'] E. injection E as E1 E2. split; [assumption|]. now apply dut_data.
Qed.
Lemma same_data_agree a b : same_data a b <-> agree put a b.
Proof.
  unfold same_data. rewrite <- agree_seen.
  split; apply agree_impl; intros; now apply put_data.
Qed.

Lemma retag_data_rel t t' m m' : put m m' -> put (retag_data t m) (retag_data t' m').
Proof.
  unfold retag_data. induction 1 as [|[k d] [k' d'] r r' [E1 E2] HF IH]; cbn [map]; constructor; auto.
  cbn in E1, E2. subst k'. split; [reflexivity|]. cbn [fst snd].
  induction E2 as [|[a v] [a' v'] q q' [F1 F2] HG IHG]; cbn [map]; constructor; auto.
  split; [exact F1|]. cbn. now apply ut_map_tag.
Qed.

Lemma provide_same loc loc' f g p p' o c c' f' g' n n' :
  same_config f g -> same_data (pv_data p) (pv_data p') -> pv_profile p = pv_profile p' ->
  provide loc f p o c = (Ret f', n) -> provide loc' g p' o c' = (Ret g', n') -> same_config f' g'.
Proof.
  intros [HP HV] HD HQ. unfold provide.
  destruct (tag_next c) as [[t| |] x], (tag_next c') as [[t'| |] x']; cbn [out_map out_bind]; try discriminate.
  intros E1 E2. injection E1 as <- <-. injection E2 as <- <-.
  split; cbn [f_profile f_value].
  - rewrite HP, HQ. reflexivity.
  - apply same_data_agree. apply same_data_agree in HV, HD.
    destruct HD as [d d' HD|e e' HD]; destruct HV as [v v' HV|h h' HV].
    + constructor. apply pcoalesce_rel; [assumption|]. now apply retag_data_rel.
    + now constructor.
    + constructor. now rewrite !report_retagged.
    + constructor. rewrite !report_chain, !report_retagged, HD, HV. reflexivity.
Qed.

Lemma run_same : forall l l', Forall2 same_op l l' -> forall f g c c' f' g' n n',
  same_config f g -> run l f c = (Ret f', n) -> run l' g c' = (Ret g', n') -> same_config f' g'.
Proof.
  induction 1 as [|x x' r r' E HF IH]; intros f g c c' f' g' n n' HC; cbn [run].
  - intros E1 E2. injection E1 as <- <-. injection E2 as <- <-. exact HC.
  - destruct E as [q|loc loc' o p p' HD HQ]; cbn [run_op].
    + apply IH. destruct HC as [H1 H2]. split; [reflexivity|exact H2].
    + destruct (provide loc f p o c) as [[f1| |] c1] eqn:E1; try discriminate.
      destruct (provide loc' g p' o c') as [[g1| |] c2] eqn:E2; try discriminate.
      apply IH. eapply provide_same; eassumption.
Qed.

Lemma take_or_empty_rel q m m' : put m m' ->
  dut (fst (take_or_empty q m)) (fst (take_or_empty q m')) /\
  put (snd (take_or_empty q m)) (snd (take_or_empty q m')).
Proof.
  intros H. unfold take_or_empty. pose proof (keyed_take dut q _ _ H) as HT.
  destruct (take q m) as [[x r]|], (take q m') as [[x' r']|]; try contradiction; cbn; [exact HT|].
  split; [constructor|exact H].
Qed.

Lemma merged_same f g : same_config f g -> agree ut (merged f) (merged g).
Proof.
  intros [HP HV]. apply same_data_agree in HV. unfold merged.
  destruct HV as [m m' HM|e e' HE].
  - pose proof (take_or_empty_rel p_default _ _ HM) as H1.
    destruct (take_or_empty p_default m) as [def m1], (take_or_empty p_default m') as [def' m1'].
    destruct H1 as [D1 M1]. cbn in D1, M1.
    pose proof (take_or_empty_rel p_global _ _ M1) as H2.
    destruct (take_or_empty p_global m1) as [glo m2], (take_or_empty p_global m1') as [glo' m2'].
    destruct H2 as [D2 M2]. cbn in D2, M2. rewrite HP.
    pose proof (keyed_take dut (f_profile g) _ _ M2) as HT.
    constructor. apply utc_ut. constructor.
    destruct (take (f_profile g) m2) as [[x r]|], (take (f_profile g) m2') as [[x' r']|]; try contradiction.
    + destruct (is_custom (f_profile g)); repeat apply dcoalesce_rel; auto. apply HT.
    + now apply dcoalesce_rel.
  - constructor. now rewrite !report_resolved.
Qed.

Lemma find_value_same f g k : same_config f g -> agree ut (find_value f k) (find_value g k).
Proof.
  intros H. unfold find_value. destruct (merged_same f g H) as [v v' U|e e' E]; [|now constructor].
  pose proof (find_keys_rel (split_on dot k) _ _ U) as HF. unfold vfind.
  destruct (find_keys (split_on dot k) v), (find_keys (split_on dot k) v'); cbn in HF; try contradiction;
    now constructor.
Qed.

Lemma contains_same f g k : same_config f g -> fig_contains f k = fig_contains g k.
Proof.
  intros H. unfold fig_contains. destruct (merged_same f g H) as [v v' U|e e' E]; [|reflexivity].
  pose proof (find_ref_keys_rel (split_on dot k) _ _ U) as HF. unfold vfind_ref.
  destruct (find_ref_keys (split_on dot k) v), (find_ref_keys (split_on dot k) v'); cbn in HF;
    try contradiction; reflexivity.
Qed.

Lemma focus_entries_rel k m m' : put m m' -> put (focus_entries k m) (focus_entries k m').
Proof.
  induction 1 as [|[q d] [q' d'] r r' [E1 E2] HF IH]; cbn [focus_entries]; [constructor|].
  cbn in E1, E2. subst q'.
  assert (U : ut (VDict tag_default d) (VDict tag_default d')) by (apply utc_ut; now constructor).
  pose proof (find_keys_rel (split_on dot k) _ _ U) as HX. unfold vfind.
  destruct (find_keys (split_on dot k) (VDict tag_default d)) as [x|],
           (find_keys (split_on dot k) (VDict tag_default d')) as [x'|]; cbn in HX; try contradiction; [|exact IH].
  cbn [option_bind]. apply ut_cases in HX. destruct HX; cbn [as_dict]; try exact IH.
  constructor; [now split|exact IH].
Qed.

Lemma focus_same f g k : same_config f g -> same_config (focus f k) (focus g k).
Proof.
  intros [HP HV]. split; [exact HP|]. cbn [focus f_value]. apply same_data_agree. apply same_data_agree in HV.
  unfold try_focus. destruct HV as [m m' HM|e e' HE].
  - constructor. apply keyed_extend; [now apply focus_entries_rel|constructor].
  - constructor. now rewrite !report_resolved.
Qed.

Lemma profiles_same f g : same_config f g -> fig_profiles f = fig_profiles g.
Proof.
  intros [HP HV]. apply same_data_agree in HV. unfold fig_profiles. destruct HV as [m m' HM|]; [|reflexivity].
  unfold keys. induction HM as [|x y r r' [E _] HF IH]; cbn; congruence.
Qed.

Lemma extract_same i f g t : same_config f g -> unreserved t -> agree deq (extract i f t) (extract i g t).
Proof.
  intros H U. unfold extract. eapply agree_bind; [now apply merged_same|].
  intros v v' HU. apply deserialize_blind; [exact U|]. now constructor.
Qed.
Lemma extract_inner_same i f g t k : same_config f g -> unreserved t ->
  agree deq (extract_inner i f t k) (extract_inner i g t k).
Proof.
  intros H U. unfold extract_inner. eapply agree_bind; [now apply find_value_same|].
  intros v v' HU. apply agree_map_err.
  - intros e e' E. now rewrite !report_with_path, E.
  - apply deserialize_blind; [exact U|]. now constructor.
Qed.
