(** Specification vocabulary for configuration files divided into profiles: defaults, then any
    number of nested files, then the environment for all profiles, then a profile is selected. *)
From Coq Require Import List.
From Verif Require Import Res BMap Str Profile Tag Num Value Metadata Err Coalesce Figment De Parse Path Data Doc.
From Verif Require Import SpecLookup SpecFigment SpecDe SpecExtract SpecValue SpecInto SpecData SpecDoc SpecText SpecStack.
Import ListNotations.

(** A file with the sections [l] says [d] of [n] in its section for the profile [r]. *)
Definition tells (l : list (ustr * doc)) (r : profile) (n : ustr) (d : doc) : Prop :=
  exists lx, section l r (DocMap lx) /\ given lx n d.
(** The last of the files that says anything of [n] for [r] says [d]; none does. *)
Definition last_word (files : list (list (ustr * doc))) (r : profile) (n : ustr) (d : doc) : Prop :=
  exists before l after, files = before ++ l :: after /\ tells l r n d /\
    forall l' d', In l' after -> ~ tells l' r n d'.
Definition silent (files : list (list (ustr * doc))) (r : profile) (n : ustr) : Prop :=
  forall l d, In l files -> ~ tells l r n d.

(** What the variables and the files make of a field whose default is [x], if [p] is selected. *)
Inductive staged (i : interp) (pre : ustr) (vars : list (ustr * ustr)) (files : list (list (ustr * doc))) (p : profile)
                 (n : ustr) (t : ty) (x y : dval) : Prop :=
| sg_variable s v : set_to pre vars n s -> value_from_str s = Ret v -> extracts i t v y ->
    staged i pre vars files p n t x y
| sg_global d v : unset pre vars n -> last_word files p_global n d -> reads d v -> extracts i t v y ->
    staged i pre vars files p n t x y
| sg_profile d v : unset pre vars n -> silent files p_global n ->
    last_word files p n d -> reads d v -> extracts i t v y ->
    staged i pre vars files p n t x y
| sg_default d v : unset pre vars n -> silent files p_global n -> silent files p n ->
    last_word files p_default n d -> reads d v -> extracts i t v y ->
    staged i pre vars files p n t x y
| sg_unsaid : unset pre vars n -> silent files p_global n -> silent files p n -> silent files p_default n -> y = x ->
    staged i pre vars files p n t x y.

Fixpoint staged_all (i : interp) (pre : ustr) (vars : list (ustr * ustr)) (files : list (list (ustr * doc))) (p : profile)
                    (fs : list (ustr * ty)) (xs ys : list (ustr * dval)) : Prop :=
  match fs, xs, ys with
  | [], [], [] => True
  | (n, t) :: fs, (n1, x) :: xs, (n2, y) :: ys =>
      n1 = n /\ n2 = n /\ staged i pre vars files p n t x y /\ staged_all i pre vars files p fs xs ys
  | _, _, _ => False
  end.

(** The provider [pr] is a nested file, looked for as usual, with the sections [l]: each is a
    table, and none uses a reserved key.  A missing file has no sections. *)
Definition nested_file (fs : fsys) (pr : provider) (l : list (ustr * doc)) : Prop :=
  exists nm parse mistake custom path,
    data_provider (doc_format nm parse mistake custom) fs (data_nested (data_file path)) = Ret pr /\
    file_entries fs parse path l /\
    forall k x, In (k, x) l -> exists lx, x = DocMap lx /\ forall k' y, In (k', y) lx -> plain_doc y.
