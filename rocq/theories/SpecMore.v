(** Specification vocabulary for listing profiles and for reading single variables. *)
From Coq Require Import NArith Bool List.
From Verif Require Import Res BMap Str Profile Tag Num Value Metadata Err Coalesce Figment Env.
From Verif Require Import SpecValue SpecFigment SpecEnv.
Import ListNotations.

(** Some provider of the history has data for a profile spelled [q]. *)
Definition supplied (l : list op) (q : profile) : Prop :=
  exists loc o p m d, In (OpProvide loc o p) l /\ pv_data p = Ok m /\ In (q, d) m.

(** The providers of the history give well-formed data. *)
Definition wf_ops (l : list op) : Prop :=
  forall loc o p m, In (OpProvide loc o p) l -> pv_data p = Ok m -> wf_profiles m.

(** [x] is the value of the first variable whose name is [name], ignoring case and
    surrounding whitespace. *)
Definition first_named (name : ustr) (vars : environ) (x : ustr) : Prop :=
  exists before k after, vars = before ++ (k, x) :: after /\ same_name (trim k) name /\
    Forall (fun kv => ~ same_name (trim (fst kv)) name) before.
Definition unset (name : ustr) (vars : environ) : Prop :=
  Forall (fun kv => ~ same_name (trim (fst kv)) name) vars.
