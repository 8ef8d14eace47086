(** Specification vocabulary for the documented stack of sources: defaults, then a file, then
    the environment. *)
From Coq Require Import Ascii String ZArith NArith Bool.
From Coq Require Import List.
From Verif Require Import Res BMap Str Profile Tag Num Value Metadata Err Coalesce Figment De Parse Path Data Doc.
From Verif Require Import SpecLookup SpecFigment SpecDe SpecExtract SpecValue SpecInto SpecData SpecDoc SpecText.
Import ListNotations.

(** Types whose values are not read from dictionaries. *)
Fixpoint undivided (t : ty) : Prop :=
  match t with
  | TBool | TInt _ | TF64 | TF32 | TString | TPath | TProfile | TChar | TUnit | TUnitStruct _ | TBoolish
  | TSeq _ | TTuple _ | TTupleStruct _ _ => True
  | TOption t | TNewtype _ t => undivided t
  | _ => False
  end.

(** No white space in it; none at its ends. *)
Definition no_white (s : ustr) : Prop := Forall (fun c => ~ In c white_space) s.
Definition clean_ends (s : ustr) : Prop :=
  (forall c r, s = c :: r -> ~ In c white_space) /\ (forall c r, s = r ++ [c] -> ~ In c white_space).

(** The variable called [name] is for the field [n]: it is called like the prefix and then like
    the field, capitals or not, perhaps with white space around either. *)
Definition names (pre n name : ustr) : Prop :=
  exists w1 p w2 k w3, name = w1 ++ p ++ w2 ++ k ++ w3 /\
    all_white w1 /\ all_white w2 /\ all_white w3 /\
    alike p pre /\ k <> [] /\ clean_ends k /\ lowered k n.

(** The last variable for the field [n] has the text [s]; there is none. *)
Definition set_to (pre : ustr) (vars : list (ustr * ustr)) (n s : ustr) : Prop :=
  exists before name after, vars = before ++ (name, s) :: after /\ names pre n name /\
    forall name' s', In (name', s') after -> ~ names pre n name'.
Definition unset (pre : ustr) (vars : list (ustr * ustr)) (n : ustr) : Prop :=
  forall name s, In (name, s) vars -> ~ names pre n name.

(** What the configuration file with the entries [l] and the variables [vars] make of a field
    whose default is [x]. *)
Inductive settled (i : interp) (pre : ustr) (vars : list (ustr * ustr)) (l : list (ustr * doc))
                  (n : ustr) (t : ty) (x y : dval) : Prop :=
| st_variable s v : set_to pre vars n s -> value_from_str s = Ret v -> extracts i t v y ->
    settled i pre vars l n t x y
| st_file d v : unset pre vars n -> given l n d -> reads d v -> extracts i t v y ->
    settled i pre vars l n t x y
| st_default : unset pre vars n -> (forall d, ~ In (n, d) l) -> y = x ->
    settled i pre vars l n t x y.

(** The file at [path], looked for in the working directory and the ones above, has the entries
    [l]; a missing file has none. *)
Definition file_entries (fs : fsys) (parse : ustr -> res ustr doc) (path : ustr)
                        (l : list (ustr * doc)) : Prop :=
  (finds fs path true None /\ l = []) \/
  (exists q text, finds fs path true (Some q) /\ fs_read fs q = Ok text /\ parse text = Ok (DocMap l)).

Fixpoint settled_all (i : interp) (pre : ustr) (vars : list (ustr * ustr)) (l : list (ustr * doc))
                     (fs : list (ustr * ty)) (xs ys : list (ustr * dval)) : Prop :=
  match fs, xs, ys with
  | [], [], [] => True
  | (n, t) :: fs, (n1, x) :: xs, (n2, y) :: ys =>
      n1 = n /\ n2 = n /\ settled i pre vars l n t x y /\ settled_all i pre vars l fs xs ys
  | _, _, _ => False
  end.
