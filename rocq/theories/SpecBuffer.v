(** What is read from serde's copies of configuration values. *)
From Coq Require Import Ascii String ZArith NArith Bool.
From Coq Require Import List.
From Verif Require Import Res BMap Str Profile Tag Num Value Err De.
From Verif Require Import SpecValue SpecLossy SpecDe SpecMagic SpecExtract SpecTaken SpecGives.
Import ListNotations.

(** There is no 128-bit integer in the value. *)
Fixpoint narrow_only (v : value) : Prop :=
  match v with
  | VNum _ (NInt k _) => narrow k
  | VDict _ d => all (map (fun kv => narrow_only (snd kv)) d)
  | VArray _ l => all (map narrow_only l)
  | _ => True
  end.

(** As many elements as asked for. *)
Fixpoint each (rs : list (value -> dval -> Prop)) (l : list value) (ys : list dval) : Prop :=
  match rs, l, ys with
  | [], [], [] => True
  | r :: rs, v :: l, y :: ys => r v y /\ each rs l ys
  | _, _, _ => False
  end.

Definition is_string (v : value) (s : ustr) : Prop := exists g, v = VString g s.

(** A struct by name or by position. *)
Definition strict_struct (deny : bool) (fs : list (ustr * (Prop * (value -> dval -> Prop)))) (v : value)
  (ys : list (ustr * dval)) : Prop :=
  (exists g d, v = VDict g d /\ (deny = true -> forall k x, In (k, x) d -> In k (map fst fs)) /\ by_name fs d ys) \/
  (exists g l xs, v = VArray g l /\ each (map (fun f => snd (snd f)) fs) l xs /\ ys = combine (map fst fs) xs).

Inductive strict_payload (s : shape (Prop * (value -> dval -> Prop))) (v : value) : shape dval -> Prop :=
| sp_unit t : s = ShUnit -> v = VEmpty t EUnit -> strict_payload s v ShUnit
| sp_new o r y : s = ShNew (o, r) -> r v y -> strict_payload s v (ShNew y)
| sp_tuple rs t l ys : s = ShTuple rs -> v = VArray t l -> each (map snd rs) l ys -> strict_payload s v (ShTuple ys)
| sp_struct fs ys : s = ShStruct fs -> strict_struct false fs v ys -> strict_payload s v (ShStruct ys).

(** [strictly owned t v y]: what a copy of [v] gives at type [t].  Compared with [extracts Exact]
    and [gives]: a character is not a string; arrays must have the very length; an enum
    is not read by number, and its map has one entry; no struct is special, nor is [Either] read
    from anything but dictionaries and arrays.  If [owned], a unit struct may be an empty array
    or dictionary. *)
Fixpoint strictly (owned : bool) (t : ty) (v : value) (y : dval) {struct t} : Prop :=
  match t with
  | TInt k => narrow k /\ extracts Exact t v y
  | TBool | TF32 | TF64 | TChar | TUnit | TTag | TIgnored | TBoolish => extracts Exact t v y
  | TString => exists s, is_string v s /\ y = EVStr s
  | TPath => exists s, is_string v s /\ y = EVPath s
  | TProfile => exists s, is_string v s /\ y = EVProfile (mkProfile s)
  | TUnitStruct _ =>
      y = EVUnit /\
      ((exists g, v = VEmpty g EUnit) \/ owned = true /\ exists g, v = VArray g [] \/ v = VDict g [])
  | TOption t =>
      ((exists g e, v = VEmpty g e) /\ y = EVNone) \/
      (~ (exists g e, v = VEmpty g e) /\ exists x, strictly owned t v x /\ y = EVSome x)
  | TNewtype _ t => exists x, strictly owned t v x /\ y = EVNewtype x
  | TSeq t => exists g l ys, v = VArray g l /\ Forall2 (strictly owned t) l ys /\ y = EVSeq ys
  | TTuple ts | TTupleStruct _ ts =>
      exists g l ys, v = VArray g l /\ each (map (strictly owned) ts) l ys /\ y = EVTuple ys
  | TMap t =>
      exists g d ys, v = VDict g d /\
        Forall2 (fun kv ky => fst ky = fst kv /\ strictly owned t (snd kv) (snd ky)) d ys /\ y = EVMap ys
  | TPairs k t =>
      exists g d ys, v = VDict g d /\
        Forall2 (fun kv ky => strictly owned k (VString tag_default (fst kv)) (fst ky) /\
                              strictly owned t (snd kv) (snd ky)) d ys /\
        y = EVPairs ys
  | TStruct _ _ deny fs =>
      exists ys, strict_struct deny (map (fun f => (fst f, (optional (snd f), strictly owned (snd f)))) fs) v ys /\
                 y = EVStruct ys
  | TEnum _ vs =>
      let shapes :=
        map (fun nv => (fst nv,
               match snd nv with
               | ShUnit => ShUnit
               | ShNew t => ShNew (optional t, strictly owned t)
               | ShTuple ts => ShTuple (map (fun t => (optional t, strictly owned t)) ts)
               | ShStruct fs => ShStruct (map (fun f => (fst f, (optional (snd f), strictly owned (snd f)))) fs)
               end)) vs in
      (exists g s, v = VString g s /\ variant shapes s ShUnit /\ y = EVVariant s ShUnit) \/
      (exists g k x s p, v = VDict g [(k, x)] /\ variant shapes k s /\ strict_payload s x p /\ y = EVVariant k p)
  | TValue => exists u, taken false v u /\ y = EVValue u
  | TEither a b =>
      ((exists g d, v = VDict g d) \/ (exists g l, v = VArray g l)) /\
      exists u f, taken false v u /\ last_of_fields a f /\ first_else f (gives MPlain a) (gives MPlain b) u y
  end.

(** Types at which a copy gives no more than what was copied: no unit structs, and no options or
    newtypes as keys of maps. *)
Fixpoint same_copied (t : ty) : Prop :=
  match t with
  | TUnitStruct _ => False
  | TOption t | TSeq t | TMap t | TNewtype _ t => same_copied t
  | TPairs k t => match k with TOption _ | TNewtype _ _ => False | _ => True end /\ same_copied k /\ same_copied t
  | TTuple ts | TTupleStruct _ ts => all (map same_copied ts)
  | TStruct _ _ _ fs => all (map (fun f => same_copied (snd f)) fs)
  | TEnum _ vs =>
      all (map (fun nv => match snd nv with
                          | ShUnit => True
                          | ShNew t => same_copied t
                          | ShTuple ts => all (map same_copied ts)
                          | ShStruct fs => all (map (fun f => same_copied (snd f)) fs)
                          end) vs)
  | _ => True
  end.
