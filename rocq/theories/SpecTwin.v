(** Figments that are the same but for the numbers of their tags, and threads that build Figments.

    Every provided provider gets a number from a counter that all threads of the process share
    (tag.rs:19-23, 46-53).  Which number it is depends on what the other threads do.  Here is what
    it means that nothing else does. *)
From Coq Require Import Ascii String ZArith NArith Bool.
From Coq Require Import List.
From Verif Require Import Res BMap Str Profile Tag Num Value Metadata Err Coalesce Figment De.
Import ListNotations.
Local Open Scope N_scope.

(** ** Twins *)

(** A correspondence of identifiers: each has at most one partner, the default identifier is its
    own, and the order is the same on both sides. *)
Definition order_keeping (R : N -> N -> Prop) : Prop :=
  R 0 0 /\ forall a a' b b', R a a' -> R b b' -> (a ?= b) = (a' ?= b').

(** Tags with corresponding identifiers and the same profile. *)
Definition tag_twin (R : N -> N -> Prop) (t t' : tag) : Prop :=
  exists a b p, R a b /\ a < 2 ^ 62 /\ b < 2 ^ 62 /\ t = tag_new a p /\ t' = tag_new b p.

(** The two keys with which a dictionary can claim a number to be its tag. *)
Definition claims_tag (k : ustr) : Prop := k = value_id \/ k = tagged_tag.

Section twins.
  Variable T : tag -> tag -> Prop.

  (** Values: the same but for their tags, and no dictionary claims a tag. *)
  Inductive value_twin : value -> value -> Prop :=
  | vt_string t t' s : T t t' -> value_twin (VString t s) (VString t' s)
  | vt_char t t' c : T t t' -> value_twin (VChar t c) (VChar t' c)
  | vt_bool t t' b : T t t' -> value_twin (VBool t b) (VBool t' b)
  | vt_num t t' n : T t t' -> value_twin (VNum t n) (VNum t' n)
  | vt_empty t t' e : T t t' -> value_twin (VEmpty t e) (VEmpty t' e)
  | vt_dict t t' d d' : T t t' ->
      Forall2 (fun x y => fst x = fst y /\ ~ claims_tag (fst x) /\ value_twin (snd x) (snd y)) d d' ->
      value_twin (VDict t d) (VDict t' d')
  | vt_array t t' l l' : T t t' -> Forall2 value_twin l l' -> value_twin (VArray t l) (VArray t' l').

  Definition dict_twin (d d' : dict) : Prop :=
    Forall2 (fun x y => fst x = fst y /\ ~ claims_tag (fst x) /\ value_twin (snd x) (snd y)) d d'.
  Definition data_twin (m m' : bmap profile dict) : Prop :=
    Forall2 (fun x y => fst x = fst y /\ dict_twin (snd x) (snd y)) m m'.

  (** Errors: the same kind, path, profile and metadata, all along the chain; only the tags may
      differ, and their numbers are not shown to anyone. *)
  Inductive error_twin : error -> error -> Prop :=
  | et_last t t' p m path k : T t t' -> error_twin (MkError t p m path k None) (MkError t' p m path k None)
  | et_more t t' p m path k e e' : T t t' -> error_twin e e' ->
      error_twin (MkError t p m path k (Some e)) (MkError t' p m path k (Some e')).

  (** Extracted values: the same but for the tags in a [Value] and the tag of a [Tagged]. *)
  Inductive dval_twin : dval -> dval -> Prop :=
  | dt_plain y :
      match y with
      | EVBool _ | EVInt _ _ | EVF32 _ | EVF64 _ | EVChar _ | EVStr _ | EVUnit | EVNone
      | EVProfile _ | EVPath _ | EVIgnored => True
      | _ => False
      end -> dval_twin y y
  | dt_some x y : dval_twin x y -> dval_twin (EVSome x) (EVSome y)
  | dt_seq l l' : Forall2 dval_twin l l' -> dval_twin (EVSeq l) (EVSeq l')
  | dt_tuple l l' : Forall2 dval_twin l l' -> dval_twin (EVTuple l) (EVTuple l')
  | dt_map l l' : Forall2 (fun x y => fst x = fst y /\ dval_twin (snd x) (snd y)) l l' ->
      dval_twin (EVMap l) (EVMap l')
  | dt_pairs l l' :
      Forall2 (fun x y => dval_twin (fst x) (fst y) /\ dval_twin (snd x) (snd y)) l l' ->
      dval_twin (EVPairs l) (EVPairs l')
  | dt_struct l l' : Forall2 (fun x y => fst x = fst y /\ dval_twin (snd x) (snd y)) l l' ->
      dval_twin (EVStruct l) (EVStruct l')
  | dt_newtype x y : dval_twin x y -> dval_twin (EVNewtype x) (EVNewtype y)
  | dt_unit_variant n : dval_twin (EVVariant n ShUnit) (EVVariant n ShUnit)
  | dt_new_variant n x y : dval_twin x y -> dval_twin (EVVariant n (ShNew x)) (EVVariant n (ShNew y))
  | dt_tuple_variant n l l' : Forall2 dval_twin l l' ->
      dval_twin (EVVariant n (ShTuple l)) (EVVariant n (ShTuple l'))
  | dt_struct_variant n l l' :
      Forall2 (fun x y => fst x = fst y /\ dval_twin (snd x) (snd y)) l l' ->
      dval_twin (EVVariant n (ShStruct l)) (EVVariant n (ShStruct l'))
  | dt_value v v' : value_twin v v' -> dval_twin (EVValue v) (EVValue v')
  | dt_tag t t' : T t t' -> dval_twin (EVTag t) (EVTag t')
  | dt_left x y : dval_twin x y -> dval_twin (EVLeft x) (EVLeft y)
  | dt_right x y : dval_twin x y -> dval_twin (EVRight x) (EVRight y).

  Inductive res_twin {A} (Q : A -> A -> Prop) : res error A -> res error A -> Prop :=
  | rt_ok x y : Q x y -> res_twin Q (Ok x) (Ok y)
  | rt_err e e' : error_twin e e' -> res_twin Q (Err e) (Err e').

  (** Figments: the same profile, the same metadata in the same order, twin data. *)
  Definition figment_twin (f g : figment) : Prop :=
    f_profile f = f_profile g /\
    Forall2 (fun x y => T (fst x) (fst y) /\ snd x = snd y) (f_metadata f) (f_metadata g) /\
    res_twin data_twin (f_value f) (f_value g).
End twins.

(** Types for which extraction can be expected not to depend on the numbers: no struct bears one of
    the names with which the crate marks [Value], [RelativePathBuf] and [Tagged], and no number of
    the configuration is read as a [Tag].  (An [Either] reads a copy of its value, in which a
    [Tagged] is a struct like others; so it may have none inside.) *)
Inductive numberless : bool -> ty -> Prop :=
| nl_basic b t :
    In t [TBool; TF32; TF64; TChar; TString; TUnit; TValue; TProfile; TPath; TIgnored; TBoolish] ->
    numberless b t
| nl_int b k : numberless b (TInt k)
| nl_unit_struct b i : numberless b (TUnitStruct i)
| nl_option b t : numberless b t -> numberless b (TOption t)
| nl_seq b t : numberless b t -> numberless b (TSeq t)
| nl_map b t : numberless b t -> numberless b (TMap t)
| nl_pairs b k t : numberless b k -> numberless b t -> numberless b (TPairs k t)
| nl_newtype b i t : numberless b t -> numberless b (TNewtype i t)
| nl_tuple b ts : Forall (numberless b) ts -> numberless b (TTuple ts)
| nl_tuple_struct b i ts : Forall (numberless b) ts -> numberless b (TTupleStruct i ts)
| nl_struct b n i d fs : ~ In n [value_name; rel_name; tagged_name] ->
    (forall k t, In (k, t) fs -> numberless b t) -> numberless b (TStruct n i d fs)
| nl_enum b i vs :
    (forall n t, In (n, ShNew t) vs -> numberless b t) ->
    (forall n ts t, In (n, ShTuple ts) vs -> In t ts -> numberless b t) ->
    (forall n fs k t, In (n, ShStruct fs) vs -> In (k, t) fs -> numberless b t) ->
    numberless b (TEnum i vs)
| nl_relative b : numberless b TRelative
| nl_tagged t : numberless true t -> numberless true (TTagged t)
| nl_either b x y : numberless false x -> numberless false y -> numberless b (TEither x y).

(** ** Threads *)

(** What a thread does with its Figments, which it keeps in numbered variables: make a new one,
    copy one, select a profile, focus, provide a provider, or provide another of its Figments. *)
Inductive act :=
| ANew (r : nat)
| ACopy (r s : nat)
| ASelect (r : nat) (p : profile)
| AFocus (r s : nat) (k : ustr)
| AProvide (r : nat) (loc : location) (o : order) (p : provider)
| ACompose (r : nat) (loc : location) (o : order) (s : nat).

Definition vars := nat -> figment.
Definition set_var (r : nat) (f : figment) (v : vars) : vars := fun k => if Nat.eqb k r then f else v k.

Definition do_act (x : act) (v : vars) (c : N) : out vars * N :=
  match x with
  | ANew r => (Ret (set_var r fig_new v), c)
  | ACopy r s => (Ret (set_var r (v s) v), c)
  | ASelect r p => (Ret (set_var r (fig_select (v r) p) v), c)
  | AFocus r s k => (Ret (set_var r (focus (v s) k) v), c)
  | AProvide r loc o p =>
      let '(f, c') := provide loc (v r) p o c in (out_map (fun f => set_var r f v) f, c')
  | ACompose r loc o s =>
      let '(f, c') := provide loc (v r) (figment_provider (v s)) o c in
      (out_map (fun f => set_var r f v) f, c')
  end.

(** One thread, undisturbed. *)
Fixpoint alone (l : list act) (v : vars) (c : N) : out vars * N :=
  match l with
  | [] => (Ret v, c)
  | x :: r => match do_act x v c with
              | (Ret v', c') => alone r v' c'
              | (Panic, c') => (Panic, c')
              | (NoFuel, c') => (NoFuel, c')
              end
  end.

(** Many threads, the acts of which happen in the order of the list; they share the counter and
    nothing else. *)
Fixpoint together (l : list (nat * act)) (s : nat -> vars) (c : N) : out (nat -> vars) * N :=
  match l with
  | [] => (Ret s, c)
  | (i, x) :: r => match do_act x (s i) c with
                   | (Ret v', c') => together r (fun k => if Nat.eqb k i then v' else s k) c'
                   | (Panic, c') => (Panic, c')
                   | (NoFuel, c') => (NoFuel, c')
                   end
  end.

(** The acts of thread [i], in order. *)
Definition acts_of (i : nat) (l : list (nat * act)) : list act :=
  map snd (filter (fun x => Nat.eqb (fst x) i) l).

(** Providers that are not Figments: they have no metadata map, their data has no tags yet and
    claims none, and an error of theirs has no tag yet. *)
Definition untagged (p : provider) : Prop :=
  pv_metadata_map p = None /\
  res_twin (fun t t' => t = tag_default /\ t' = tag_default)
    (data_twin (fun t t' => t = tag_default /\ t' = tag_default)) (pv_data p) (pv_data p).
Definition ordinary_act (x : act) : Prop := match x with AProvide _ _ _ p => untagged p | _ => True end.

(** Every variable starts as a new Figment. *)
Definition no_figments : vars := fun _ => fig_new.
