(** Vocabulary for jails in threads. *)
From Coq Require Import Ascii String NArith Bool Permutation.
From Coq Require Import List.
From Verif Require Import Res BMap Str Path Jail World Threads SpecPath SpecJail SpecWorld.
Import ListNotations.

(** The same files, variables and working directory. *)
Definition same_process (p q : process) : Prop :=
  (forall l, p_disk p l = p_disk q l) /\ p_env p = p_env q /\ p_cwd p = p_cwd q.

(** A process as the operating system could have it. *)
Definition sane_process (p : process) : Prop :=
  sound_disk (p_disk p) /\ p_disk p (p_cwd p) = Some NDir /\ sorted (p_env p) /\ var_values_ok (p_env p).

(** A job that gets a fresh directory and names variables properly. *)
Definition sane_job (p : process) (j : job) : Prop :=
  can_be_made (p_disk p) (jb_dir j) /\
  (forall past op, jb_body j past = Some (Act op) -> proper_op op) /\
  (forall m, Permutation (jb_order j m) m).

(** A thread between taking the lock and dropping it. *)
Definition busy (s : stage) : Prop :=
  match s with Waiting | Done _ => False | _ => True end.

(** What job [i] is told if there is no other thread. *)
Definition told_alone (jobs : nat -> job) (p : process) (i : nat) (past : list answer) : Prop :=
  exists n, mc_stage (thread_run jobs (repeat i n) (machine_start p)) i = Done past.

(** A thread has asked for a jail in its jail. *)
Definition nesting (jobs : nat -> job) (m : machine) (i : nat) : Prop :=
  exists saved home past, mc_stage m i = Inside saved home past /\ jb_body (jobs i) past = Some Nest.

(** The path names the place: as names below the working directory, or as an absolute path. *)
Definition names (cwd : place) (path : ustr) (l : place) : Prop :=
  exists ns, Forall entry_name ns /\
    ((ns <> [] /\ path = join [slash] ns /\ l = cwd ++ ns) \/ (path = dir_text ns /\ l = ns)).

(** The answer is true of the process. *)
Definition truthful (p : process) (q : question) (a : answer) : Prop :=
  match q with
  | QFile s => exists b, a = SaidBool b /\
      forall l, names (p_cwd p) s l -> (b = true <-> exists t, p_disk p l = Some (NFile t))
  | QDir s => exists b, a = SaidBool b /\
      forall l, names (p_cwd p) s l -> (b = true <-> p_disk p l = Some NDir)
  | QRead s => exists r, a = SaidText r /\
      forall l, names (p_cwd p) s l -> forall t, r = Ok t <-> p_disk p l = Some (NFile (Some t))
  | QCwd => a = SaidCwd (Some (dir_text (p_cwd p)))
  | QVar k => exists r, a = SaidVar r /\ forall v, var_name k -> (r = Some v <-> In (k, v) (p_env p))
  | QVars => exists l, a = SaidVars l /\ forall k v, In (k, v) l <-> In (k, v) (p_env p)
  end.
