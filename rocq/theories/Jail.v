(** The test jail: /repo/src/jail.rs.

    The process state is the environment and the working directory.  Files are not modelled:
    an operation on a file is the location it touches.  The working directory is the list of
    directory names from the root; [locate] (Path.v) says where a path leads.  Simplifications:
    no symbolic links; file operations succeed, or fail without changing the state. *)
From Coq Require Import Ascii String NArith Bool.
From Coq Require Import List.
From Verif Require Import Res BMap Str Err Path.
Import ListNotations.

(** The step of [dedot], jail.rs:73-81, without Windows prefixes. *)
Definition dedot_step (comps : list component) (c : component) : list component :=
  match c with
  | RootDir => [RootDir]
  | CurDir => comps
  | ParentDir =>
      if forallb (fun c => match c with RootDir => true | _ => false end) comps then comps
      else removelast comps
  | Normal _ => comps ++ [c]
  end.

(** [dedot], jail.rs:69-86. *)
Definition dedot (path : ustr) : ustr := path_collect (fold_left dedot_step (components path) []).

(** [Jail::safe_jailed_path], jail.rs:161-172; [dir] is [canonical_dir]. *)
Definition safe_jailed_path (dir path : ustr) : res error ustr :=
  let path := dedot path in
  if has_root path && path_starts_with path dir then Ok path
  else if has_root path then Err (err_msg (lit "Jail: input path is outside of jail directory"))
  else Ok path.

(** The environment of the process: at most one value per name.  [std::env::vars_os] lists
    the variables in an order of its own. *)
Definition environment := bmap ustr ustr.

(** [std::env::set_var] and [remove_var] panic on names that are empty or contain [=] or NUL,
    and [set_var] on values that contain NUL; [var_os] answers [None] for such names. *)
Definition env_name_ok (k : ustr) : bool :=
  negb (is_nil k) && negb (contains_c (ch "=") k) && negb (contains_c 0%N k).
Definition env_value_ok (v : ustr) : bool := negb (contains_c 0%N v).
Definition env_set (k v : ustr) (e : environment) : out environment :=
  if env_name_ok k && env_value_ok v then Ret (insert k v e) else Panic.
Definition env_remove (k : ustr) (e : environment) : out environment :=
  if env_name_ok k then Ret (remove k e) else Panic.
Definition env_get (k : ustr) (e : environment) : option ustr :=
  if env_name_ok k then get k e else None.

(** The state of a process with a jail: [saved_env_vars] (jail.rs:61; a hash map, so only the
    pairs matter), the environment and the working directory. *)
Record jailed := mkJailed {
  j_saved : bmap ustr (option ustr);
  j_env : environment;
  j_cwd : list ustr
}.

(** [Jail::set_env], jail.rs:345-352.  A panic leaves the state it was reached in, which is
    what [Drop] then sees. *)
Definition set_env (k v : ustr) (j : jailed) : jailed * bool :=
  let saved := match get k (j_saved j) with
               | Some _ => j_saved j
               | None => insert k (env_get k (j_env j)) (j_saved j)
               end in
  match env_set k v (j_env j) with
  | Ret e => (mkJailed saved e (j_cwd j), true)
  | _ => (mkJailed saved (j_env j) (j_cwd j), false)
  end.

(** [Jail::clear_env], jail.rs:320-325; [vars] is what [vars_os] yields. *)
Fixpoint clear_loop (vars : list (ustr * ustr)) (j : jailed) : jailed * bool :=
  match vars with
  | [] => (j, true)
  | (k, v) :: r =>
      match env_remove k (j_env j) with
      | Ret e =>
          let saved := match get k (j_saved j) with
                       | Some _ => j_saved j
                       | None => insert k (Some v) (j_saved j)
                       end in
          clear_loop r (mkJailed saved e (j_cwd j))
      | _ => (j, false)
      end
  end.

(** The operations on a jail.  [OpCreate] stands for [create_file] and [create_binary],
    jail.rs:190-216, [OpMkdir] for [create_dir], 246-250, [OpChdir] for [change_dir], 283-287.
    The flag says whether the system call succeeds; [vars_os] gives the variables in some order. *)
Inductive jail_op :=
| OpCreate (path : ustr) (ok : bool)
| OpMkdir (path : ustr) (ok : bool)
| OpChdir (path : ustr) (ok : bool)
| OpSetEnv (k v : ustr)
| OpClearEnv (vars_os : environment -> list (ustr * ustr)).

(** Running one: the state after, the location written to if any, and [false] on a panic. *)
Definition jail_step (dir : ustr) (op : jail_op) (j : jailed)
  : jailed * option (list ustr) * bool :=
  let at_ path := match safe_jailed_path dir path with
                  | Ok p => Some (locate (j_cwd j) p)
                  | Err _ => None
                  end in
  match op with
  | OpCreate path ok | OpMkdir path ok => (j, if ok then at_ path else None, true)
  | OpChdir path ok =>
      match at_ path, ok with
      | Some l, true => (mkJailed (j_saved j) (j_env j) l, None, true)
      | _, _ => (j, None, true)
      end
  | OpSetEnv k v => let (j', ok) := set_env k v j in (j', None, ok)
  | OpClearEnv vars_os => let (j', ok) := clear_loop (vars_os (j_env j)) j in (j', None, ok)
  end.

(** [Jail::try_with], jail.rs:131-144, up to running the closure. *)
Definition jail_start (e : environment) (dir : ustr) (cwd : list ustr) : jailed :=
  mkJailed [] e (locate cwd dir).

(** Running several, until one panics: the state after, and the locations written to. *)
Fixpoint jail_run (dir : ustr) (ops : list jail_op) (j : jailed) : jailed * list (list ustr) :=
  match ops with
  | [] => (j, [])
  | op :: r =>
      let '(j', touched, ok) := jail_step dir op j in
      let here := match touched with Some l => [l] | None => [] end in
      if ok then let (j'', rest) := jail_run dir r j' in (j'', here ++ rest) else (j', here)
  end.

(** [Drop for Jail], jail.rs:355-366, with the saved variables in the order [saved] the hash
    map yields them; [chdir_ok] says whether the final [set_current_dir] succeeds. *)
Fixpoint restore_env (saved : list (ustr * option ustr)) (e : environment) : out environment :=
  match saved with
  | [] => Ret e
  | (k, v) :: r =>
      out_bind (match v with Some val => env_set k val e | None => env_remove k e end)
               (restore_env r)
  end.
Definition drop_jail (saved : list (ustr * option ustr)) (saved_cwd : list ustr) (chdir_ok : bool)
  (j : jailed) : out (environment * list ustr) :=
  out_map (fun e => (e, if chdir_ok then saved_cwd else j_cwd j)) (restore_env saved (j_env j)).
