(** Specification vocabulary for unknown fields in a stack of sources: which keys are mentioned. *)
From Coq Require Import List.
From Verif Require Import Res BMap Str Profile Tag Num Value Metadata Err Coalesce Figment De Parse Path Data Doc.
From Verif Require Import SpecFigment SpecText SpecStack SpecStages.
Import ListNotations.

(** A variable is for [n], or a file says something of [n] in a section that counts if [p] is selected. *)
Inductive mentioned (pre : ustr) (vars : list (ustr * ustr)) (files : list (list (ustr * doc))) (p : profile) (n : ustr) : Prop :=
| me_variable name s : In (name, s) vars -> names pre n name -> mentioned pre vars files p n
| me_section l r d : In l files -> r = p \/ r = p_global \/ r = p_default -> tells l r n d -> mentioned pre vars files p n.
