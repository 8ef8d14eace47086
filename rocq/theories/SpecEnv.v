(** Specification of the environment provider. *)
From Coq Require Import Ascii String ZArith NArith Bool.
From Coq Require Import List.
From Verif Require Import Res BMap Str Profile Tag Num Value Env SpecLookup.
Import ListNotations.

(** The builder calls, as data.  User-supplied closures are arbitrary functions. *)
Inductive env_start := FromRaw | FromPrefix (p : ustr).
Inductive env_op :=
| OpFilter (f : ustr -> bool)
| OpMap (f : ustr -> ustr)
| OpFilterMap (f : ustr -> option ustr)
| OpSplit (pattern : ustr)
| OpIgnore (ks : list ustr)
| OpOnly (ks : list ustr)
| OpLowercase (b : bool)
| OpProfile (p : profile)
| OpGlobal.

Definition start_env (s : env_start) : env :=
  match s with FromRaw => env_raw | FromPrefix p => env_prefixed p end.
Definition apply_env_op (e : env) (o : env_op) : env :=
  match o with
  | OpFilter f => env_filter e f
  | OpMap f => env_map e f
  | OpFilterMap f => env_filter_map e f
  | OpSplit p => env_split e p
  | OpIgnore ks => env_ignore e ks
  | OpOnly ks => env_only e ks
  | OpLowercase b => env_lowercase e b
  | OpProfile p => env_profile e p
  | OpGlobal => env_global e
  end.
Definition build_env (s : env_start) (ops : list env_op) : env :=
  fold_left apply_env_op ops (start_env s).

(** What the builder calls should do to a variable's (trimmed) name. *)
Definition same_name (a b : ustr) : Prop := lower a = lower b.
Definition named_in (ks : list ustr) (k : ustr) : bool :=
  existsb (fun x => ueqb (lower x) (lower k)) ks.
Definition start_key (s : env_start) (name : ustr) : option ustr :=
  match s with
  | FromRaw => Some name
  | FromPrefix p =>
      if ueqb (lower (firstn (length p) name)) (lower p) then Some (skipn (length p) name) else None
  end.
Definition op_key (k : option ustr) (o : env_op) : option ustr :=
  match k with
  | None => None
  | Some k =>
      match o with
      | OpFilter f => if f k then Some k else None
      | OpMap f => Some (f k)
      | OpFilterMap f => f k
      | OpSplit p => Some (replace p [dot] k)
      | OpIgnore ks => if named_in ks k then None else Some k
      | OpOnly ks => if named_in ks k then Some k else None
      | OpLowercase _ | OpProfile _ | OpGlobal => Some k
      end
  end.
Definition mapped_key (s : env_start) (ops : list env_op) (name : ustr) : option ustr :=
  fold_left op_key ops (start_key s name).

(** A key is a dotted path of non-empty components. *)
Definition dotted (k : ustr) : Prop := exists ks, ks <> [] /\ Forall plain_key ks /\ k = join [dot] ks.

(** [survives lc key_of (name, v) (k, v')]: the variable is kept as [k] with value [v']. *)
Definition survives (lc : bool) (key_of : ustr -> option ustr) (var kept : ustr * ustr) : Prop :=
  fst var <> [] /\ snd kept = snd var /\
  exists m, key_of (trim (fst var)) = Some m /\ dotted (trim m) /\
            fst kept = if lc then lower (trim m) else trim m.

(** [selects R l l']: [l'] is the images under [R] of the elements of [l] that have one, in
    order. *)
Inductive selects {A B} (R : A -> B -> Prop) : list A -> list B -> Prop :=
| sel_nil : selects R [] []
| sel_keep a b l l' : R a b -> selects R l l' -> selects R (a :: l) (b :: l')
| sel_drop a l l' : (forall b, ~ R a b) -> selects R l l' -> selects R (a :: l) l'.

(** No key equals another or is the dotted beginning of another. *)
Definition unrelated (k1 k2 : ustr) : Prop :=
  k1 <> k2 /\ (forall r, k2 <> k1 ++ dot :: r) /\ (forall r, k1 <> k2 ++ dot :: r).
