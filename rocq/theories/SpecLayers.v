(** Specification vocabulary for configurations built by overriding: defaults of a type, changed
    field by field by what later layers say. *)
From Coq Require Import Ascii String ZArith NArith Bool.
From Coq Require Import List.
From Verif Require Import Res BMap Str Profile Tag Num Value Metadata Err Coalesce Figment De.
From Verif Require Import SpecLookup SpecFigment SpecDe SpecExtract SpecValue.
Import ListNotations.

Definition empty (v : value) : Prop := exists g e, v = VEmpty g e.

(** [shaped i t u x]: the value [u] holds the Rust value [x] of type [t], with every struct, map
    and nested struct or map written out as a dictionary. *)
Fixpoint shaped (i : interp) (t : ty) (u : value) (x : dval) {struct t} : Prop :=
  match t with
  | TStruct _ _ deny fs =>
      exists g d ys, u = VDict g d /\
        (deny = true -> forall k v, In (k, v) d -> In k (map fst fs)) /\
        by_name (map (fun f => (fst f, (optional (snd f), shaped i (snd f)))) fs) d ys /\
        x = EVStruct ys
  | TMap t =>
      exists g d ys, u = VDict g d /\
        Forall2 (fun kv ky => fst ky = fst kv /\ shaped i t (snd kv) (snd ky)) d ys /\ x = EVMap ys
  | TOption t =>
      (empty u /\ x = EVNone) \/ (~ empty u /\ exists y, shaped i t u y /\ x = EVSome y)
  | TNewtype _ t => exists y, shaped i t u y /\ x = EVNewtype y
  | _ => extracts i t u x
  end.

(** Field by field: what the dictionary does not mention stays. *)
Fixpoint amended (fs : list (ustr * (dval -> value -> dval -> Prop))) (xs : list (ustr * dval))
                 (d : dict) (ys : list (ustr * dval)) : Prop :=
  match fs, xs, ys with
  | [], [], [] => True
  | (n, r) :: fs, (n1, x) :: xs, (n2, y) :: ys =>
      n1 = n /\ n2 = n /\ match get n d with Some w => r x w y | None => y = x end /\ amended fs xs d ys
  | _, _, _ => False
  end.

(** [patched i t x v y]: [y] is the Rust value [x] of type [t], changed as the value [v] says. *)
Fixpoint patched (i : interp) (t : ty) (x : dval) (v : value) (y : dval) {struct t} : Prop :=
  match t with
  | TStruct _ _ deny fs =>
      exists g d xs ys, v = VDict g d /\
        (deny = true -> forall k w, In (k, w) d -> In k (map fst fs)) /\
        amended (map (fun f => (fst f, patched i (snd f))) fs) xs d ys /\
        x = EVStruct xs /\ y = EVStruct ys
  | TMap t =>
      exists g d xs ys, v = VDict g d /\ x = EVMap xs /\ y = EVMap ys /\ sorted ys /\
        forall k, match get k xs, get k d, get k ys with
                  | None, None, None => True
                  | Some a, None, Some b => b = a
                  | None, Some w, Some b => shaped i t w b
                  | Some a, Some w, Some b => patched i t a w b
                  | _, _, _ => False
                  end
  | TOption t =>
      (empty v /\ y = EVNone) \/
      (~ empty v /\ x = EVNone /\ exists b, shaped i t v b /\ y = EVSome b) \/
      (~ empty v /\ exists a b, x = EVSome a /\ patched i t a v b /\ y = EVSome b)
  | TNewtype _ t => exists a b, x = EVNewtype a /\ patched i t a v b /\ y = EVNewtype b
  | _ => (forall g d, v <> VDict g d) /\ extracts i t v y
  end.

(** One layer after the other. *)
Inductive patched_by (i : interp) (t : ty) : dval -> list dict -> dval -> Prop :=
| pb_none x : patched_by i t x [] x
| pb_one x d y ds z : patched i t x (VDict tag_default d) y -> patched_by i t y ds z ->
    patched_by i t x (d :: ds) z.

(** Types whose values are replaced as a whole by another value of the type: no maps and no
    enums with data, outside sequences and tuples. *)
Fixpoint replaceable (t : ty) : Prop :=
  match t with
  | TStruct _ _ _ fs => all (map (fun f => replaceable (snd f)) fs)
  | TOption t | TNewtype _ t => replaceable t
  | TMap _ | TPairs _ _ => False
  | TEnum _ vs => Forall (fun nv => snd nv = ShUnit) vs
  | _ => True
  end.

(** A history of merges and selections, and what each merge says for the default profile. *)
Inductive overrides : list op -> list dict -> Prop :=
| ov_none : overrides [] []
| ov_merge loc p n l ds : pv_data p = Ok n -> wf_profiles n -> overrides l ds ->
    overrides (OpProvide loc Merge p :: l) (data_of n p_default :: ds)
| ov_select q l ds : overrides l ds -> overrides (OpSelect q :: l) ds.
