(** Jails in several threads of one process: the lock of [Jail::try_with], /repo/src/jail.rs:88
    and 131-144.

    A closure given to [try_with] is what it does next given the answers it got so far: it
    works on its jail, asks about files, variables and the working directory, starts a jail of its
    own, or returns.  Threads take steps in any order; a thread that waits for the lock does not
    move.  Simplifications: nothing but jails touches the files, the variables and the working
    directory; [TempDir::new] succeeds and gives each job a directory of its own. *)
From Coq Require Import Ascii String NArith Bool.
From Coq Require Import List.
From Verif Require Import Res BMap Str Err Path Data Jail World.
Import ListNotations.

Inductive question := QFile (p : ustr) | QDir (p : ustr) | QRead (p : ustr) | QCwd | QVar (k : ustr) | QVars.
Inductive answer :=
| SaidPath (r : option ustr) | SaidBool (b : bool) | SaidText (r : res ustr ustr)
| SaidCwd (r : option ustr) | SaidVar (r : option ustr) | SaidVars (e : environment).
Inductive action := Act (op : world_op) | Ask (q : question) | Nest.
Definition closure := list answer -> option action.

(** A call of [try_with]: the directory it will get, the closure, and the order in which the hash
    map of saved variables will be read. *)
Record job := mkJob {
  jb_dir : place;
  jb_body : closure;
  jb_order : bmap ustr (option ustr) -> list (ustr * option ustr)
}.

(** Where a thread is: waiting for the lock; having it; in the closure, with the saved variables
    ([saved_env_vars]), the saved directory ([saved_cwd]) and the answers so far; about to drop the
    jail; about to drop the lock ([_lock] is declared first, so it is dropped last); done. *)
Inductive stage :=
| Waiting
| Locked
| Inside (saved : bmap ustr (option ustr)) (home : place) (past : list answer)
| Leaving (saved : bmap ustr (option ustr)) (home : place) (past : list answer)
| Left (past : list answer)
| Done (past : list answer).

Record machine := mkMachine { mc_process : process; mc_held : bool; mc_stage : nat -> stage }.

(** [Path::is_file], [Path::is_dir], [fs::read_to_string], [env::current_dir], [env::var_os],
    [env::vars_os]. *)
Definition look (p : process) (q : question) : answer :=
  let fs := fs_of (p_disk p) (p_cwd p) in
  match q with
  | QFile s => SaidBool (fs_is_file fs s)
  | QDir s => SaidBool (fs_is_dir fs s)
  | QRead s => SaidText (fs_read fs s)
  | QCwd => SaidCwd (fs_cwd fs)
  | QVar k => SaidVar (env_get k (p_env p))
  | QVars => SaidVars (p_env p)
  end.

(** What a thread that has the lock does next.  [None]: it cannot go on.  A closure that starts a
    jail asks for the lock its own thread has, and [parking_lot::Mutex] is not reentrant.  A closure
    that panics leaves the jail as one that returns does.  (A panic while dropping is left out; see
    C44 for when there is one.) *)
Definition go_on (j : job) (p : process) (s : stage) : option (process * stage) :=
  match s with
  | Locked =>
      match p_disk p (p_cwd p) with
      | Some NDir =>
          let j0 := jail_start (p_env p) (place_text (jb_dir j)) (p_cwd p) in
          Some (mkProcess (temp_dir (jb_dir j) (p_disk p)) (j_env j0) (j_cwd j0),
                Inside (j_saved j0) (p_cwd p) [])
      | _ => Some (p, Left [])
      end
  | Inside saved home past =>
      match jb_body j past with
      | Some (Act op) =>
          let '(w, r, ok) := world_step (place_text (jb_dir j)) op
                               (mkWorld (p_disk p) (mkJailed saved (p_env p) (p_cwd p))) in
          let saved' := j_saved (w_jail w) in
          Some (mkProcess (w_disk w) (j_env (w_jail w)) (w_cwd w),
                if ok then Inside saved' home (past ++ [SaidPath r]) else Leaving saved' home past)
      | Some (Ask q) => Some (p, Inside saved home (past ++ [look p q]))
      | Some Nest => None
      | None => Some (p, Leaving saved home past)
      end
  | Leaving saved home past =>
      let back := can_enter (p_disk p) (p_cwd p) (place_text home) in
      match drop_jail (jb_order j saved) home back (mkJailed saved (p_env p) (p_cwd p)) with
      | Ret (e, c) => Some (mkProcess (temp_dir_gone (jb_dir j) (p_disk p)) e c, Left past)
      | _ => None
      end
  | _ => None
  end.

Definition set_stage (i : nat) (s : stage) (f : nat -> stage) : nat -> stage :=
  fun k => if Nat.eqb k i then s else f k.

(** One step of thread [i]: taking the lock, dropping it, or something in between. *)
Definition thread_step (jobs : nat -> job) (i : nat) (m : machine) : option machine :=
  match mc_stage m i with
  | Waiting =>
      if mc_held m then None
      else Some (mkMachine (mc_process m) true (set_stage i Locked (mc_stage m)))
  | Left past => Some (mkMachine (mc_process m) false (set_stage i (Done past) (mc_stage m)))
  | s => match go_on (jobs i) (mc_process m) s with
         | Some (p, s') => Some (mkMachine p (mc_held m) (set_stage i s' (mc_stage m)))
         | None => None
         end
  end.

(** The scheduler names threads in any order; one that cannot move stays where it is. *)
Fixpoint thread_run (jobs : nat -> job) (schedule : list nat) (m : machine) : machine :=
  match schedule with
  | [] => m
  | i :: r => thread_run jobs r (match thread_step jobs i m with Some m' => m' | None => m end)
  end.

(** Every thread is about to call [try_with]. *)
Definition machine_start (p : process) : machine := mkMachine p false (fun _ => Waiting).
