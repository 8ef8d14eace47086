(** Vocabulary for the jail properties. *)
From Coq Require Import Ascii String NArith Bool Permutation.
From Coq Require Import List.
From Verif Require Import Res BMap Str Path Jail SpecPath.
Import ListNotations.

(** The name of an environment variable the system accepts. *)
Definition var_name (k : ustr) : Prop := k <> [] /\ ~ In (ch "=") k /\ ~ In 0%N k.

(** An environment as the system holds it: values have no NUL. *)
Definition var_values_ok (e : environment) : Prop := forall k v, get k e = Some v -> ~ In 0%N v.

(** Operations that name variables properly; [vars_os] lists all variables, in any order. *)
Definition proper (op : jail_op) : Prop :=
  match op with
  | OpSetEnv k _ => var_name k
  | OpClearEnv vars_os => forall e, Permutation (vars_os e) e
  | _ => True
  end.

(** The names of all variables are possible ones. *)
Definition var_names_ok (e : environment) : Prop := forall k v, get k e = Some v -> var_name k.
(** [vars_os] lists all variables, in any order. *)
Definition lists_all (op : jail_op) : Prop :=
  match op with OpClearEnv vars_os => forall e, Permutation (vars_os e) e | _ => True end.
(** An operation that does not panic. *)
Definition harmless (op : jail_op) : Prop :=
  match op with OpSetEnv k v => var_name k /\ ~ In 0%N v | _ => True end.
