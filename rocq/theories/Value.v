(** Values: /repo/src/value/value.rs, with [nest] of /repo/src/util.rs. *)
From Coq Require Import Ascii String ZArith NArith Bool List.
From Coq Require Import Floats.SpecFloat.
From Verif Require Import Res BMap Str Profile Tag Num.
Import ListNotations.

(** [enum Empty], value.rs:757-763. *)
Inductive empty := ENone | EUnit.

(** [enum Value], value.rs:26-42; [Dict] is [Map<String, Value>], value.rs:11-14. *)
Inductive value :=
| VString (t : tag) (s : ustr)
| VChar (t : tag) (c : uchar)
| VBool (t : tag) (b : bool)
| VNum (t : tag) (n : num)
| VEmpty (t : tag) (e : empty)
| VDict (t : tag) (d : list (ustr * value))
| VArray (t : tag) (l : list value).

Definition dict := bmap ustr value.

(** [enum Actual], /repo/src/error.rs:300-321. *)
Inductive actual :=
| ABool (b : bool) | AUnsigned (z : Z) | ASigned (z : Z) | AFloat (f : spec_float)
| AChar (c : uchar) | AStr (s : ustr) | ABytes (l : list N) | AUnit | AOption
| ANewtypeStruct | ASeq | AMap | AEnum | AUnitVariant | ANewtypeVariant
| ATupleVariant | AStructVariant | AOther (s : ustr).

(** [Num::to_actual], value.rs:714-731. *)
Definition num_to_actual (n : num) : actual :=
  match n with
  | NInt U8 v => AUnsigned v
  | NInt U16 v => AUnsigned v
  | NInt U32 v => AUnsigned v
  | NInt U64 v => AUnsigned v
  | NInt U128 v => AUnsigned v
  | NInt USize v => AUnsigned v
  | NInt I8 v => ASigned v
  | NInt I16 v => ASigned v
  | NInt I32 v => ASigned v
  | NInt I64 v => ASigned v
  | NInt I128 v => ASigned v
  | NInt ISize v => ASigned v
  | NF32 f => AFloat (f32_to_f64 f)
  | NF64 f => AFloat f
  end.

(** [Empty::to_actual], value.rs:776-781. *)
Definition empty_to_actual (e : empty) : actual :=
  match e with ENone => AOption | EUnit => AUnit end.

(** [Value::to_actual], value.rs:385-395. *)
Definition to_actual (v : value) : actual :=
  match v with
  | VString _ s => AStr s
  | VChar _ c => AChar c
  | VBool _ b => ABool b
  | VNum _ n => num_to_actual n
  | VEmpty _ e => empty_to_actual e
  | VDict _ _ => AMap
  | VArray _ _ => ASeq
  end.

(** [PartialEq for Num], value.rs:734-738: the derived equality of [Actual]
    (error.rs:301) on the two [to_actual]s; floats compare as [f64]. *)
Definition num_eqb (a b : num) : bool :=
  match num_to_actual a, num_to_actual b with
  | AUnsigned x, AUnsigned y => Z.eqb x y
  | ASigned x, ASigned y => Z.eqb x y
  | AFloat x, AFloat y => SFeqb x y
  | _, _ => false
  end.

(** [Value::tag], value.rs:207-217. *)
Definition vtag (v : value) : tag :=
  match v with
  | VString t _ | VChar t _ | VBool t _ | VNum t _ | VEmpty t _ | VDict t _ | VArray t _ => t
  end.

(** Writing through [Value::tag_mut], value.rs:397-407. *)
Definition set_tag (t : tag) (v : value) : value :=
  match v with
  | VString _ x => VString t x
  | VChar _ x => VChar t x
  | VBool _ x => VBool t x
  | VNum _ x => VNum t x
  | VEmpty _ x => VEmpty t x
  | VDict _ x => VDict t x
  | VArray _ x => VArray t x
  end.

(** [Value::map_tag], value.rs:409-421: [f] is applied to tags that equal (by identifier)
    the default tag, at every level. *)
Fixpoint map_tag (f : tag -> tag) (v : value) : value :=
  let retag t := if tag_eqb t tag_default then f t else t in
  match v with
  | VString t x => VString (retag t) x
  | VChar t x => VChar (retag t) x
  | VBool t x => VBool (retag t) x
  | VNum t x => VNum (retag t) x
  | VEmpty t x => VEmpty (retag t) x
  | VDict t d => VDict (retag t) (map (fun kv => (fst kv, map_tag f (snd kv))) d)
  | VArray t l => VArray (retag t) (map (map_tag f) l)
  end.

(** [conversion_fn!], value.rs:219-228. *)
Definition as_str (v : value) : option ustr := match v with VString _ s => Some s | _ => None end.
Definition to_char (v : value) : option uchar := match v with VChar _ s => Some s | _ => None end.
Definition to_bool (v : value) : option bool := match v with VBool _ s => Some s | _ => None end.
Definition to_num (v : value) : option num := match v with VNum _ s => Some s | _ => None end.
Definition to_empty (v : value) : option empty := match v with VEmpty _ s => Some s | _ => None end.
Definition as_dict (v : value) : option dict := match v with VDict _ d => Some d | _ => None end.
Definition as_array (v : value) : option (list value) :=
  match v with VArray _ l => Some l | _ => None end.

(** [Value::find], value.rs:139-148: the inner function over the remaining keys; owned
    dictionaries, so the child is taken out with [remove]. *)
Fixpoint find_keys (keys : list ustr) (v : value) : option value :=
  match keys with
  | k :: ks =>
      if is_nil k then Some v
      else match as_dict v with
           | None => None
           | Some d => match take k d with
                       | None => None
                       | Some (v', _) => find_keys ks v'
                       end
           end
  | [] => Some v
  end.
Definition dot : uchar := ch ".".
Definition vfind (path : ustr) (v : value) : option value := find_keys (split_on dot path) v.

(** [Value::find_ref], value.rs:179-188: the same with [get]. *)
Fixpoint find_ref_keys (keys : list ustr) (v : value) : option value :=
  match keys with
  | k :: ks =>
      if is_nil k then Some v
      else match as_dict v with
           | None => None
           | Some d => match get k d with
                       | None => None
                       | Some v' => find_ref_keys ks v'
                       end
           end
  | [] => Some v
  end.
Definition vfind_ref (path : ustr) (v : value) : option value :=
  find_ref_keys (split_on dot path) v.

(** [util::nest], /repo/src/util.rs:271-284. *)
Fixpoint nest_keys (keys : list ustr) (v : value) : value :=
  match keys with
  | k :: ks => if is_nil k then v else VDict tag_default (insert k (nest_keys ks v) [])
  | [] => v
  end.
Definition nest (key : ustr) (v : value) : value := nest_keys (split_on dot key) v.

(** [PartialEq for Value], value.rs:438-451.  [BTreeMap] equality is element-wise equality of
    the sorted entries. *)
Fixpoint value_eqb (a b : value) : bool :=
  match a, b with
  | VString _ x, VString _ y => ueqb x y
  | VChar _ x, VChar _ y => N.eqb x y
  | VBool _ x, VBool _ y => Bool.eqb x y
  | VNum _ x, VNum _ y => num_eqb x y
  | VEmpty _ x, VEmpty _ y =>
      match x, y with ENone, ENone => true | EUnit, EUnit => true | _, _ => false end
  | VDict _ x, VDict _ y =>
      (fix go (x y : list (ustr * value)) : bool :=
         match x, y with
         | [], [] => true
         | (k1, v1) :: r1, (k2, v2) :: r2 => ueqb k1 k2 && value_eqb v1 v2 && go r1 r2
         | _, _ => false
         end) x y
  | VArray _ x, VArray _ y =>
      (fix go (x y : list value) : bool :=
         match x, y with
         | [], [] => true
         | v1 :: r1, v2 :: r2 => value_eqb v1 v2 && go r1 r2
         | _, _ => false
         end) x y
  | _, _ => false
  end.

(** [Value::to_bool_lossy], value.rs:319-341. *)
Definition bool_true_words : list ustr := [lit "true"; lit "yes"; lit "1"; lit "on"].
Definition bool_false_words : list ustr := [lit "false"; lit "no"; lit "0"; lit "off"].
Definition to_bool_lossy (v : value) : option bool :=
  match v with
  | VBool _ b => Some b
  | VNum _ n =>
      match num_to_u128_lossy n with
      | Some z => if Z.eqb z 0 then Some false else if Z.eqb z 1 then Some true else None
      | None => None
      end
  | VString _ s =>
      if existsb (fun w => uncased_eqb w s) bool_true_words then Some true
      else if existsb (fun w => uncased_eqb w s) bool_false_words then Some false
      else None
  | _ => None
  end.

(** [Value::to_u128], [to_i128], [to_f64], value.rs:242-282. *)
Definition to_u128 (v : value) : option Z := option_bind (to_num v) num_to_u128.
Definition to_i128 (v : value) : option Z := option_bind (to_num v) num_to_i128.
Definition to_f64 (v : value) : option spec_float := option_bind (to_num v) num_to_f64.

(** The [BTreeMap] invariant at every level. *)
Fixpoint wf (v : value) : Prop :=
  match v with
  | VDict _ d =>
      sorted d /\ (fix go (d : list (ustr * value)) : Prop :=
                     match d with [] => True | (_, x) :: r => wf x /\ go r end) d
  | VArray _ l =>
      (fix go (l : list value) : Prop :=
         match l with [] => True | x :: r => wf x /\ go r end) l
  | _ => True
  end.
Definition wf_dict (d : dict) : Prop := sorted d /\ Forall (fun kv => wf (snd kv)) d.
