(** Basic facts about the model of deserialization. *)
From Coq Require Import Ascii String ZArith NArith Bool Lia.
From Coq Require Import Floats.SpecFloat.
From Coq Require Import List.
From Verif Require Import Res BMap Str Profile Tag Num Value NumParse Metadata Err Coalesce Figment Fmt De.
From Verif Require Import BMapProofs StrProofs ValueProofs.
Import ListNotations.

(** ** Induction over target types *)
Definition shape_all (P : ty -> Prop) (s : shape ty) : Prop :=
  match s with
  | ShUnit => True
  | ShNew t => P t
  | ShTuple ts => Forall P ts
  | ShStruct fs => Forall (fun f => P (snd f)) fs
  end.

Section ty_ind.
  Variable P : ty -> Prop.
  Hypothesis HBool : P TBool.
  Hypothesis HInt : forall k, P (TInt k).
  Hypothesis HF32 : P TF32.
  Hypothesis HF64 : P TF64.
  Hypothesis HChar : P TChar.
  Hypothesis HString : P TString.
  Hypothesis HUnit : P TUnit.
  Hypothesis HOption : forall t, P t -> P (TOption t).
  Hypothesis HSeq : forall t, P t -> P (TSeq t).
  Hypothesis HTuple : forall ts, Forall P ts -> P (TTuple ts).
  Hypothesis HMap : forall t, P t -> P (TMap t).
  Hypothesis HPairs : forall k t, P k -> P t -> P (TPairs k t).
  Hypothesis HStruct : forall n i d fs, Forall (fun f => P (snd f)) fs -> P (TStruct n i d fs).
  Hypothesis HNewtype : forall i t, P t -> P (TNewtype i t).
  Hypothesis HTupleStruct : forall i ts, Forall P ts -> P (TTupleStruct i ts).
  Hypothesis HUnitStruct : forall i, P (TUnitStruct i).
  Hypothesis HEnum : forall i vs, Forall (fun v => shape_all P (snd v)) vs -> P (TEnum i vs).
  Hypothesis HValue : P TValue.
  Hypothesis HTag : P TTag.
  Hypothesis HProfile : P TProfile.
  Hypothesis HPath : P TPath.
  Hypothesis HIgnored : P TIgnored.
  Hypothesis HBoolish : P TBoolish.
  Hypothesis HEither : forall a b, P a -> P b -> P (TEither a b).

  Fixpoint ty_ind' (t : ty) : P t :=
    let all := fix all (l : list ty) : Forall P l :=
                 match l with [] => Forall_nil _ | x :: r => Forall_cons x (ty_ind' x) (all r) end in
    let allf := fix allf (l : list (ustr * ty)) : Forall (fun f => P (snd f)) l :=
                  match l with
                  | [] => Forall_nil _
                  | x :: r => Forall_cons x (ty_ind' (snd x)) (allf r)
                  end in
    match t with
    | TBool => HBool | TInt k => HInt k | TF32 => HF32 | TF64 => HF64 | TChar => HChar
    | TString => HString | TUnit => HUnit
    | TOption t => HOption t (ty_ind' t)
    | TSeq t => HSeq t (ty_ind' t)
    | TTuple ts => HTuple ts (all ts)
    | TMap t => HMap t (ty_ind' t)
    | TPairs k t => HPairs k t (ty_ind' k) (ty_ind' t)
    | TStruct n i d fs => HStruct n i d fs (allf fs)
    | TNewtype i t => HNewtype i t (ty_ind' t)
    | TTupleStruct i ts => HTupleStruct i ts (all ts)
    | TUnitStruct i => HUnitStruct i
    | TEnum i vs =>
        HEnum i vs ((fix allv (l : list (ustr * shape ty)) : Forall (fun v => shape_all P (snd v)) l :=
                       match l with
                       | [] => Forall_nil _
                       | x :: r =>
                           Forall_cons x
                             (match snd x as s return shape_all P s with
                              | ShUnit => I
                              | ShNew t => ty_ind' t
                              | ShTuple ts => all ts
                              | ShStruct fs => allf fs
                              end) (allv r)
                       end) vs)
    | TValue => HValue | TTag => HTag | TProfile => HProfile | TPath => HPath
    | TIgnored => HIgnored | TBoolish => HBoolish
    | TEither a b => HEither a b (ty_ind' a) (ty_ind' b)
    end.
End ty_ind.

(** ** Value as a target: the recursion is what the deserializers do with [ValueVisitor] *)
Lemma mk_de_mode m v A (vis : visitor A) :
  de_any (mk_de m v) vis = mode_settle m (vtag v) (value_visit (mk_de m) v vis).
Proof. destruct m; reflexivity. Qed.

Lemma deserialize_value_mk m v :
  deserialize_value (mk_de m v) = value_of_raw m (vtag v) (raw_value m v).
Proof. destruct m; reflexivity. Qed.

Lemma deserialize_raw_mk m v : deserialize_raw (mk_de m v) = raw_value m v.
Proof. destruct m; reflexivity. Qed.

Lemma raw_value_any m v : raw_value m v = de_any (mk_de m v) value_visitor.
Proof.
  rewrite mk_de_mode.
  destruct v as [t s|t c|t b|t n|t e|t d|t l]; try reflexivity.
  - destruct n as [k z|x|x]; try reflexivity. destruct k; reflexivity.
  - destruct e; reflexivity.
  - cbn [raw_value vtag value_visit]. unfold visit_map, value_visitor. cbn [v_map].
    f_equal.
    assert (G : forall d acc id raw,
      (fix go (d : list (ustr * value)) (acc : dict) (id : option tag) (raw : option value)
          : res error value :=
          match d with
          | [] => Ok (finish_map acc id raw)
          | (k, x) :: r =>
              if ueqb k value_id
              then res_bind (at_key k (vtag x) (deserialize_tag (mk_de m x)))
                            (fun t => go r acc (Some t) raw)
              else if ueqb k value_value
              then res_bind (at_key k (vtag x) (raw_value m x)) (fun y => go r acc id (Some y))
              else res_bind (at_key k (vtag x) (value_of_raw m (vtag x) (raw_value m x)))
                            (fun y => go r (insert k y acc) id raw)
          end) d acc id raw = value_entries (map_access (mk_de m) d) acc id raw).
    { clear d. induction d as [|[k x] r IH]; intros acc id raw; [reflexivity|].
      cbn [map_access map value_entries fst snd].
      unfold next_value, at_key. rewrite deserialize_raw_mk, deserialize_value_mk.
      destruct (ueqb k value_id); [destruct (deserialize_tag (mk_de m x)); [apply IH|reflexivity]|].
      destruct (ueqb k value_value); [destruct (raw_value m x); [apply IH|reflexivity]|].
      destruct (value_of_raw m (vtag x) (raw_value m x)); [apply IH|reflexivity]. }
    apply G.
  - cbn [raw_value vtag value_visit]. unfold visit_seq, value_visitor. cbn [v_seq].
    f_equal. f_equal. generalize 0%N.
    induction l as [|x r IH]; intros n; [reflexivity|].
    cbn [map value_elements]. unfold next_element.
    rewrite deserialize_value_mk. destruct (value_of_raw m (vtag x) (raw_value m x)); [|reflexivity].
    cbn [res_map_err res_bind]. rewrite IH. reflexivity.
Qed.

Lemma deserialize_tag_of_tag i f t : deserialize_tag (DConf i f (value_of_tag t)) = Ok t.
Proof.
  unfold deserialize_tag, value_of_tag, de_any, settle. cbn.
  rewrite Znat.N2Z.id. destruct t; reflexivity.
Qed.

(** What [Value::deserialize] does with [ConfiguredValueDe] is what [value_of_raw] says. *)
Lemma value_de_struct i f v :
  deserialize_value (DConf i f v) = de_struct value_name (DConf i f v) value_visitor.
Proof.
  unfold de_struct. change (magic_map value_name f v) with (Some (value_magic v)).
  cbn [deserialize_value value_of_raw]. f_equal.
  unfold visit_map, value_visitor. cbn [v_map]. unfold value_magic.
  change (insert value_value v (insert value_id (value_of_tag (vtag v)) []))
    with [(value_id, value_of_tag (vtag v)); (value_value, v)].
  cbn [map_access map fst snd value_entries next_value].
  change (ueqb value_id value_id) with true.
  change (ueqb value_value value_id) with false.
  change (ueqb value_value value_value) with true. cbn match.
  rewrite deserialize_tag_of_tag. cbn [res_map_err res_bind deserialize_raw].
  unfold at_key. destruct (raw_value (MConf i f) v); reflexivity.
Qed.

(** All other deserializers are read directly. *)
Lemma value_de_any d :
  (forall i f v, d <> DConf i f v) -> deserialize_value d = de_any d value_visitor.
Proof.
  intros H. destruct d as [i f v|v|s|z|n]; try reflexivity.
  - exfalso. eapply H. reflexivity.
  - cbn [deserialize_value]. apply (raw_value_any MPlain).
Qed.

(** ** Small facts *)
Lemma settle_ok {A} f t (r : res error A) x : settle f t r = Ok x <-> r = Ok x.
Proof. unfold settle. destruct r; cbn; split; congruence. Qed.

Lemma map_err_ok {E F A} (g : E -> F) (r : res E A) x : res_map_err g r = Ok x <-> r = Ok x.
Proof. destruct r; cbn; split; congruence. Qed.

Lemma res_map_ok {E A B} (g : A -> B) (r : res E A) y :
  res_map g r = Ok y <-> exists x, r = Ok x /\ y = g x.
Proof.
  destruct r; cbn; split; intros H; try congruence.
  - injection H as <-. eauto.
  - destruct H as (x & H & ->). congruence.
  - destruct H as (x & H & ->). congruence.
Qed.

Lemma res_bind_ok {E A B} (r : res E A) (g : A -> res E B) y :
  res_bind r g = Ok y <-> exists x, r = Ok x /\ g x = Ok y.
Proof.
  destruct r; cbn; split; intros H; try congruence; eauto.
  - destruct H as (x & H & H'). congruence.
  - destruct H as (x & H & H'). congruence.
Qed.

Lemma assoc_In {A} k (l : list (ustr * A)) a : assoc k l = Some a -> In (k, a) l.
Proof.
  induction l as [|[k' x] r IH]; cbn; [discriminate|].
  destruct (ueqb k k') eqn:E; [|auto].
  intros H. injection H as <-. left. apply ueqb_eq in E. congruence.
Qed.

Lemma assoc_none {A} k (l : list (ustr * A)) : assoc k l = None <-> ~ In k (map fst l).
Proof.
  induction l as [|[k' x] r IH]; cbn; [tauto|].
  destruct (ueqb k k') eqn:E.
  - apply ueqb_eq in E. split; [discriminate|]. intros H. elim H. auto.
  - rewrite IH. split; [|tauto]. intros H [->|H']; [|tauto].
    enough (ueqb k k = true) by congruence. apply ueqb_eq. reflexivity.
Qed.

Lemma assoc_nodup {A} k (l : list (ustr * A)) a :
  NoDup (map fst l) -> In (k, a) l -> assoc k l = Some a.
Proof.
  induction l as [|[k' x] r IH]; cbn; [tauto|].
  intros N [H|H].
  - injection H as -> ->. assert (E : ueqb k k = true) by (apply ueqb_eq; reflexivity).
    rewrite E. reflexivity.
  - inversion N as [|? ? N1 N2]; subst.
    destruct (ueqb k k') eqn:E; [|auto].
    apply ueqb_eq in E. subst. elim N1. change k' with (fst (k', a)). apply in_map. assumption.
Qed.

Lemma assoc_map {A B} k (g : A -> B) (l : list (ustr * A)) :
  assoc k (map (fun f => (fst f, g (snd f))) l) = option_map g (assoc k l).
Proof.
  induction l as [|[k' x] r IH]; cbn; [reflexivity|].
  destruct (ueqb k k'); [reflexivity|assumption].
Qed.
