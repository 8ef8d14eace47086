(** Vocabulary for the jail on a file system. *)
From Coq Require Import Ascii String NArith Bool Permutation.
From Coq Require Import List.
From Verif Require Import Res BMap Str Path Jail World SpecPath SpecJail.
Import ListNotations.

(** A name a directory entry can have. *)
Definition entry_name (s : ustr) : Prop := name_ok s /\ ~ In 0%N s.

(** A disk the operating system could have: what is there is in a directory. *)
Definition sound_disk (d : disk) : Prop :=
  d [] = Some NDir /\
  forall l x n, d (l ++ [x]) = Some n -> d l = Some NDir /\ entry_name x.

(** A directory that can be created: nothing is there, and what holds it is a directory. *)
Definition can_be_made (d : disk) (D : place) : Prop :=
  exists P x, D = P ++ [x] /\ entry_name x /\ d P = Some NDir /\ d D = None.

(** Where a path given to the jail leads: [..] never goes above the working directory, and an
    absolute path has to be in the jail. *)
Definition lands (D cwd : place) (p : ustr) (l : place) : Prop :=
  (relative_path p /\ l = cwd ++ locate [] p) \/
  (~ relative_path p /\ l = locate [] p /\ inside D l).

(** Operations that name variables properly; [vars_os] lists all variables, in any order. *)
Definition proper_op (op : world_op) : Prop :=
  match op with
  | WSetEnv k _ => var_name k
  | WClearEnv vars_os => forall e, Permutation (vars_os e) e
  | _ => True
  end.

(** A world in jail [D]. *)
Definition in_jail (D : place) (w : world) : Prop :=
  Forall name_ok D /\ sound_disk (w_disk w) /\ inside D (w_cwd w) /\
  w_disk w (w_cwd w) = Some NDir.

(** Two disks with the same contents, except perhaps at some places. *)
Definition same_outside (P : place -> Prop) (d d' : disk) : Prop := forall l, ~ P l -> d' l = d l.
