(** The jail on a file system: /repo/src/jail.rs again, this time with the files, and the file
    system the [Data] provider then sees.

    A disk says what is at each place, a place being the list of names from the root.
    Simplifications: no symbolic links, no permissions, no limits on names or sizes, and
    nothing but the jail touches the disk while it lives.  A file is text, or bytes that are
    not UTF-8. *)
From Coq Require Import Ascii String NArith Bool.
From Coq Require Import List.
From Verif Require Import Res BMap Str Err Path Data Jail.
Import ListNotations.

Inductive node := NFile (text : option ustr) | NDir.
Definition place := list ustr.
Definition disk := place -> option node.

Fixpoint same_place (a b : place) : bool :=
  match a, b with
  | [], [] => true
  | x :: a', y :: b' => ueqb x y && same_place a' b'
  | _, _ => false
  end.
Fixpoint within (dir l : place) : bool :=
  match dir, l with
  | [], _ => true
  | x :: a', y :: b' => ueqb x y && within a' b'
  | _, _ => false
  end.
(** The absolute path of a place. *)
Definition place_text (l : place) : ustr := slash :: join [slash] l.
Definition put (l : place) (n : node) (d : disk) : disk :=
  fun l' => if same_place l l' then Some n else d l'.

(** Path resolution by the operating system: every place passed through is a directory. *)
Fixpoint walk (d : disk) (at_ : place) (pieces : list ustr) : option place :=
  match pieces with
  | [] => Some at_
  | x :: r => match d at_ with
              | Some NDir => walk d (step_into at_ x) r
              | _ => None
              end
  end.
(** The empty path leads nowhere, and a path with a NUL is refused. *)
Definition path_to (d : disk) (cwd : place) (p : ustr) : option place :=
  if is_nil p || contains_c 0%N p then None
  else walk d (if has_root p then [] else cwd) (split_on slash p).
Definition node_at (d : disk) (cwd : place) (p : ustr) : option node :=
  option_bind (path_to d cwd p) d.

(** [Path::is_file], [Path::is_dir], [std::fs::read_to_string], [std::env::current_dir]. *)
Definition fs_of (d : disk) (cwd : place) : fsys :=
  mkFsys
    (fun p => match node_at d cwd p with Some (NFile _) => true | _ => false end)
    (fun p => match node_at d cwd p with Some NDir => true | _ => false end)
    (fun p => match node_at d cwd p with
              | Some (NFile (Some s)) => Ok s
              | Some (NFile None) => Err (lit "stream did not contain valid UTF-8")
              | Some NDir => Err (lit "Is a directory (os error 21)")
              | None => Err (lit "No such file or directory (os error 2)")
              end)
    (match d cwd with Some NDir => Some (place_text cwd) | _ => None end).

(** [File::create] and writing all of the contents: a file that is there is truncated. *)
Definition write_file (d : disk) (cwd : place) (p : ustr) (text : option ustr) : option disk :=
  match path_to d cwd p with
  | Some l => match d l with Some NDir => None | _ => Some (put l (NFile text) d) end
  | None => None
  end.

(** [std::fs::create_dir_all], for a path without [.] and [..].  Should it fail, nothing was
    created: only a file in the way makes it fail, and nothing is missing above a file. *)
Fixpoint mkdirs (d : disk) (at_ : place) (pieces : list ustr) : option disk :=
  match pieces with
  | [] => Some d
  | x :: r =>
      let l := step_into at_ x in
      match d l with
      | Some NDir => mkdirs d l r
      | Some (NFile _) => None
      | None => mkdirs (put l NDir d) l r
      end
  end.
Definition create_dir_all (d : disk) (cwd : place) (p : ustr) : option disk :=
  if contains_c 0%N p then None
  else mkdirs d (if has_root p then [] else cwd) (split_on slash p).

(** [std::env::set_current_dir]. *)
Definition can_enter (d : disk) (cwd : place) (p : ustr) : bool := fs_is_dir (fs_of d cwd) p.

(** A jail and the disk it works on. *)
Record world := mkWorld { w_disk : disk; w_jail : jailed }.
Definition w_cwd (w : world) : place := j_cwd (w_jail w).

Inductive world_op :=
| WCreate (path : ustr) (text : option ustr)
| WMkdir (path : ustr)
| WChdir (path : ustr)
| WSetEnv (k v : ustr)
| WClearEnv (vars_os : environment -> list (ustr * ustr)).

(** One operation: the world after; the path it acted on, if it returned [Ok]; [false] on a
    panic.  [create_binary], jail.rs:210-216, which [create_file], 190-192, calls;
    [create_dir], 246-250; [change_dir], 283-287; [clear_env], 320-325; [set_env], 345-352.
    What happens to the jail itself is [jail_step] (Jail.v). *)
Definition world_step (dir : ustr) (op : world_op) (w : world) : world * option ustr * bool :=
  let d := w_disk w in
  let cwd := w_cwd w in
  let path p := match safe_jailed_path dir p with Ok q => Some q | Err _ => None end in
  let go (op : jail_op) (d' : disk) (r : option ustr) :=
    let '(j, _, ok) := jail_step dir op (w_jail w) in (mkWorld d' j, r, ok) in
  match op with
  | WCreate p text =>
      match option_bind (path p) (fun q => write_file d cwd q text) with
      | Some d' => go (OpCreate p true) d' (path p)
      | None => go (OpCreate p false) d None
      end
  | WMkdir p =>
      match option_bind (path p) (create_dir_all d cwd) with
      | Some d' => go (OpMkdir p true) d' (path p)
      | None => go (OpMkdir p false) d None
      end
  | WChdir p =>
      match path p with
      | Some q => if can_enter d cwd q then go (OpChdir p true) d (Some q)
                  else go (OpChdir p false) d None
      | None => go (OpChdir p false) d None
      end
  | WSetEnv k v => go (OpSetEnv k v) d None
  | WClearEnv vars_os => go (OpClearEnv vars_os) d None
  end.

(** What the closure given to the jail does, until something panics. *)
Fixpoint world_run (dir : ustr) (ops : list world_op) (w : world) : world :=
  match ops with
  | [] => w
  | op :: r => let '(w', _, ok) := world_step dir op w in
               if ok then world_run dir r w' else w'
  end.

(** A process: the disk, its environment and its working directory. *)
Record process := mkProcess { p_disk : disk; p_env : environment; p_cwd : place }.

(** [TempDir::new] makes the fresh directory [D]; dropping it removes everything in it. *)
Definition temp_dir (D : place) (d : disk) : disk := put D NDir d.
Definition temp_dir_gone (D : place) (d : disk) : disk :=
  fun l => if within D l then None else d l.

(** [Jail::try_with], jail.rs:131-144, with the closure doing [ops], and the dropping of the
    jail, 355-366, whose [set_current_dir] is by the saved text; [order] is the order in which
    the hash map of saved variables is read.  The fields are dropped after that, so the
    directory goes last. *)
Definition jail_try (D : place) (ops : list world_op)
  (order : bmap ustr (option ustr) -> list (ustr * option ustr)) (p : process) : out process :=
  match p_disk p (p_cwd p) with
  | Some NDir =>
      let w := world_run (place_text D) ops
                 (mkWorld (temp_dir D (p_disk p)) (jail_start (p_env p) (place_text D) (p_cwd p))) in
      let back := can_enter (w_disk w) (w_cwd w) (place_text (p_cwd p)) in
      out_map (fun ec => mkProcess (temp_dir_gone D (w_disk w)) (fst ec) (snd ec))
              (drop_jail (order (j_saved (w_jail w))) (p_cwd p) back (w_jail w))
  | _ => Ret p
  end.
