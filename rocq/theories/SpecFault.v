(** Which source an error of the documented stack (defaults, file, environment) is about. *)
From Coq Require Import Ascii String ZArith NArith Bool.
From Coq Require Import List.
From Verif Require Import Res BMap Str Profile Tag Num Value Metadata Err Coalesce Figment De Parse Path Data Doc.
From Verif Require Import SpecLookup SpecFigment SpecDe SpecExtract SpecValue SpecInto SpecData SpecDoc SpecText SpecGives SpecRefuse SpecStack.
Import ListNotations.

Inductive layer := ByVariable | ByFile.

(** The last word on the field [n], if it is not its default: the last variable for it, else
    what the file says of it. *)
Inductive said (pre : ustr) (vars : list (ustr * ustr)) (l : list (ustr * doc)) (n : ustr) : layer -> value -> Prop :=
| sd_variable s v : set_to pre vars n s -> value_from_str s = Ret v -> said pre vars l n ByVariable v
| sd_file d v : unset pre vars n -> given l n d -> reads d v -> said pre vars l n ByFile v.

(** The last word on the field [n] of the type [t] cannot be read: at [p] in it, for the reason
    [k]. *)
Definition faulty (m : mode) (pre : ustr) (vars : list (ustr * ustr)) (l : list (ustr * doc))
                  (n : ustr) (t : ty) (who : layer) (p : list ustr) (k : kind) : Prop :=
  exists v, said pre vars l n who v /\ refuses m t v p k.

(** The first field, in the order of the names, with such a fault. *)
Definition first_faulty (m : mode) (pre : ustr) (vars : list (ustr * ustr)) (l : list (ustr * doc))
                        (fields : list (ustr * ty)) (n : ustr) (who : layer) (p : list ustr) (k : kind) : Prop :=
  (exists t, In (n, t) fields /\ faulty m pre vars l n t who p k) /\
  forall n' t' who' p' k', In (n', t') fields -> cmp n' n = Lt -> ~ faulty m pre vars l n' t' who' p' k'.
