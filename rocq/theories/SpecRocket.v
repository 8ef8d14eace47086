(** Specification vocabulary for a profile chosen by a variable, and keys the environment may not
    set: [Env::prefixed(pre).ignore(ks).global()] and [Profile::from_env_or(key, d)]. *)
From Coq Require Import List.
From Verif Require Import Res BMap Str Profile SpecText.
Import ListNotations.

(** The variable called [name] is passed over: it is called like the prefix and then, at once, like
    one of [ks], capitals or not, perhaps with white space around. *)
Definition passed_over (pre : ustr) (ks : list ustr) (name : ustr) : Prop :=
  exists w1 p k w2, name = w1 ++ p ++ k ++ w2 /\ all_white w1 /\ all_white w2 /\ alike p pre /\
    exists k', In k' ks /\ alike k k'.

(** The variables without those. *)
Inductive heeded (pre : ustr) (ks : list ustr) : list (ustr * ustr) -> list (ustr * ustr) -> Prop :=
| he_nil : heeded pre ks [] []
| he_over name s l l' : passed_over pre ks name -> heeded pre ks l l' -> heeded pre ks ((name, s) :: l) l'
| he_keep name s l l' : ~ passed_over pre ks name -> heeded pre ks l l' -> heeded pre ks ((name, s) :: l) ((name, s) :: l').

(** The variable called [name] is the one called [key]. *)
Definition called (key name : ustr) : Prop :=
  exists w1 k w2, name = w1 ++ k ++ w2 /\ all_white w1 /\ all_white w2 /\ alike k key.

(** The first variable called [key] has the name of the profile as its value; if there is none, the
    profile is [d]. *)
Inductive chosen (vars : list (ustr * ustr)) (key : ustr) (d : profile) : profile -> Prop :=
| ch_set before name s after : vars = before ++ (name, s) :: after -> called key name ->
    (forall name' s', In (name', s') before -> ~ called key name') -> chosen vars key d (mkProfile s)
| ch_default : (forall name s, In (name, s) vars -> ~ called key name) -> chosen vars key d d.
