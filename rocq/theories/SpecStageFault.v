(** Which source an error is about if files are divided into profiles. *)
From Coq Require Import List.
From Verif Require Import Res BMap Str Profile Tag Num Value Metadata Err Coalesce Figment De Parse Path Data Doc.
From Verif Require Import SpecLookup SpecFigment SpecDe SpecExtract SpecValue SpecInto SpecData SpecDoc SpecText SpecGives SpecRefuse SpecStack SpecStages.
Import ListNotations.

(** File number [k], from 0, is the last to say anything of [n] for the profile [r], and says [d]. *)
Definition last_at (files : list (list (ustr * doc))) (k : nat) (r : profile) (n : ustr) (d : doc) : Prop :=
  exists l, nth_error files k = Some l /\ tells l r n d /\
    forall k' l' d', (k < k')%nat -> nth_error files k' = Some l' -> ~ tells l' r n d'.

(** Where the last word on a field is: in a variable, or in a section of a file. *)
Inductive place := AVariable | InSection (file : nat) (r : profile).

Inductive spoken (pre : ustr) (vars : list (ustr * ustr)) (files : list (list (ustr * doc))) (p : profile) (n : ustr)
  : place -> value -> Prop :=
| sp_variable s v : set_to pre vars n s -> value_from_str s = Ret v -> spoken pre vars files p n AVariable v
| sp_global k d v : unset pre vars n -> last_at files k p_global n d -> reads d v ->
    spoken pre vars files p n (InSection k p_global) v
| sp_selected k d v : unset pre vars n -> silent files p_global n -> ~ same_profile p p_default ->
    last_at files k p n d -> reads d v -> spoken pre vars files p n (InSection k p) v
| sp_default k d v : unset pre vars n -> silent files p_global n -> same_profile p p_default \/ silent files p n ->
    last_at files k p_default n d -> reads d v -> spoken pre vars files p n (InSection k p_default) v.

(** The last word on the field [n] of the type [t] cannot be read: at [q] in it, for the reason [k]. *)
Definition misspoken (m : mode) (pre : ustr) (vars : list (ustr * ustr)) (files : list (list (ustr * doc))) (p : profile)
                     (n : ustr) (t : ty) (who : place) (q : list ustr) (k : kind) : Prop :=
  exists v, spoken pre vars files p n who v /\ refuses m t v q k.

(** The first field, in the order of the names, with such a fault. *)
Definition first_misspoken (m : mode) (pre : ustr) (vars : list (ustr * ustr)) (files : list (list (ustr * doc))) (p : profile)
                           (fields : list (ustr * ty)) (n : ustr) (who : place) (q : list ustr) (k : kind) : Prop :=
  (exists t, In (n, t) fields /\ misspoken m pre vars files p n t who q k) /\
  forall n' t' who' q' k', In (n', t') fields -> cmp n' n = Lt -> ~ misspoken m pre vars files p n' t' who' q' k'.

(** The profile a place belongs to; variables are for all of them here. *)
Definition profile_of (who : place) : profile := match who with AVariable => p_global | InSection _ r => r end.
