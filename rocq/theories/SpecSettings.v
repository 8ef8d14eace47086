(** Specification of what is extracted, by what can be seen at each path: structs in structs, maps
    and options, to any depth. *)
From Coq Require Import Ascii String ZArith NArith Bool.
From Coq Require Import List.
From Verif Require Import Res BMap Str Profile Tag Num Value Metadata Err Coalesce Figment De.
From Verif Require Import SpecValue SpecFigment SpecRt SpecDe SpecExtract SpecInto SpecStack SpecView.
Import ListNotations.

(** Types that read tables as structs or as maps. *)
Fixpoint tabular (t : ty) : Prop :=
  match t with
  | TOption t | TNewtype _ t | TMap t => tabular t
  | TStruct _ _ _ fs => all (map (fun f => tabular (snd f)) fs)
  | t => undivided t
  end.

(** There is something at the path. *)
Definition present (V : view) (p : list ustr) : Prop := exists n, V p n.

(** The fields of a struct, from below [p]. *)
Fixpoint each_field (V : view) (p : list ustr) (fs : list (ustr * (Prop * (list ustr -> dval -> Prop))))
                    (ys : list (ustr * dval)) : Prop :=
  match fs, ys with
  | [], [] => True
  | (n, (opt, r)) :: fs, (n', y) :: ys =>
      n' = n /\
      ((present V (p ++ [n]) /\ r (p ++ [n]) y) \/ (~ present V (p ++ [n]) /\ opt /\ y = EVNone)) /\
      each_field V p fs ys
  | _, _ => False
  end.

(** [laid_out i V t p y]: at the type [t], what [V] shows at [p] and below makes [y]. *)
Fixpoint laid_out (i : interp) (V : view) (t : ty) (p : list ustr) (y : dval) {struct t} : Prop :=
  match t with
  | TOption t =>
      ((exists g e, V p (Leaf (VEmpty g e))) /\ y = EVNone) \/
      (~ (exists g e, V p (Leaf (VEmpty g e))) /\ exists x, laid_out i V t p x /\ y = EVSome x)
  | TNewtype _ t => exists x, laid_out i V t p x /\ y = EVNewtype x
  | TMap t =>
      V p Table /\ exists ys, y = EVMap ys /\ sorted ys /\
        (forall k, present V (p ++ [k]) <-> In k (map fst ys)) /\
        Forall (fun ky => laid_out i V t (p ++ [fst ky]) (snd ky)) ys
  | TStruct _ _ deny fs =>
      (V p Table /\ (deny = true -> forall k, present V (p ++ [k]) -> In k (map fst fs)) /\
       exists ys, y = EVStruct ys /\
         each_field V p (map (fun f => (fst f, (optional (snd f), laid_out i V (snd f)))) fs) ys) \/
      (exists x, V p (Leaf x) /\ extracts i t x y)   (* a sequence, field by field *)
  | _ => exists x, V p (Leaf x) /\ extracts i t x y
  end.
