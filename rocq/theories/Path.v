(** Paths: the parts of [std::path] the crate uses, [util::diff_paths] and the pure part of
    [Display for Source].

    A path is its text.  Unix only: the separator is [/], there are no prefixes, and a path
    is absolute exactly when it starts with [/].  Simplification: paths are Unicode text
    (Rust allows any bytes). *)
From Coq Require Import Ascii String NArith Bool.
From Coq Require Import List.
From Verif Require Import Res Str Metadata.
Import ListNotations.

Definition slash : uchar := ch "/".

(** [std::path::Component] without [Prefix], which only exists on Windows. *)
Inductive component := RootDir | CurDir | ParentDir | Normal (s : ustr).

Definition component_eqb (a b : component) : bool :=
  match a, b with
  | RootDir, RootDir | CurDir, CurDir | ParentDir, ParentDir => true
  | Normal s, Normal t => ueqb s t
  | _, _ => false
  end.

(** [Path::has_root], which on Unix is [Path::is_absolute]. *)
Definition has_root (p : ustr) : bool :=
  match p with c :: _ => N.eqb c slash | [] => false end.

(** [std]'s [Components::parse_single_component]: empty pieces and [.] are skipped. *)
Definition component_of (piece : ustr) : option component :=
  if is_nil piece then None
  else if ueqb piece (lit ".") then None
  else if ueqb piece (lit "..") then Some ParentDir
  else Some (Normal piece).

Fixpoint components_of (pieces : list ustr) : list component :=
  match pieces with
  | [] => []
  | x :: r => match component_of x with
              | Some c => c :: components_of r
              | None => components_of r
              end
  end.

(** [std]'s [Components::include_cur_dir]: the path is relative and its first piece is [.]. *)
Definition include_cur_dir (p : ustr) : bool :=
  match split_on slash p with x :: _ => ueqb x (lit ".") | [] => false end.

(** [Path::components]. *)
Definition components (p : ustr) : list component :=
  (if has_root p then [RootDir] else if include_cur_dir p then [CurDir] else [])
  ++ components_of (split_on slash p).

(** [Component::as_os_str]. *)
Definition component_str (c : component) : ustr :=
  match c with
  | RootDir => lit "/" | CurDir => lit "." | ParentDir => lit ".." | Normal s => s
  end.

(** [PathBuf::push], and [Path::join], which pushes onto a copy. *)
Definition path_push (p x : ustr) : ustr :=
  if has_root x then x
  else match rev p with
       | [] => x
       | c :: _ => if N.eqb c slash then p ++ x else p ++ slash :: x
       end.
Definition path_join (p x : ustr) : ustr := path_push p x.

(** [PathBuf: FromIterator<P: AsRef<Path>>] on [Component::as_os_str]s. *)
Definition path_collect (l : list component) : ustr :=
  fold_left (fun p c => path_push p (component_str c)) l [].

(** [std]'s [Components::len_before_body]: the root, or a leading [.]. *)
Definition path_head (p : ustr) : ustr * ustr :=
  match p with
  | c :: r => if has_root p || include_cur_dir p then ([c], r) else ([], p)
  | [] => ([], [])
  end.

(** [std]'s [Components::trim_right], on the pieces in reverse order. *)
Fixpoint drop_skipped (pieces : list ustr) : list ustr :=
  match pieces with
  | x :: r => match component_of x with None => drop_skipped r | Some _ => pieces end
  | [] => []
  end.

(** [Path::parent]: drop the last component; [None] for the root and the empty path. *)
Definition path_parent (p : ustr) : option ustr :=
  let (head, body) := path_head p in
  match drop_skipped (rev (split_on slash body)) with
  | _ :: r => Some (head ++ join [slash] (rev (drop_skipped r)))
  | [] => if include_cur_dir p then Some [] else None
  end.

(** [Path::starts_with]: by components. *)
Fixpoint components_prefix (a b : list component) : bool :=
  match a, b with
  | [], _ => true
  | x :: a', y :: b' => component_eqb x y && components_prefix a' b'
  | _ :: _, [] => false
  end.
Definition path_starts_with (p base : ustr) : bool :=
  components_prefix (components base) (components p).

(** What the operating system makes of a path: the directory names from the root that it leads
    to from the working directory [cwd].  Simplification: no symbolic links. *)
Definition step_into (at_ : list ustr) (piece : ustr) : list ustr :=
  if is_nil piece then at_
  else if ueqb piece (lit ".") then at_
  else if ueqb piece (lit "..") then removelast at_
  else at_ ++ [piece].
Definition locate (cwd : list ustr) (p : ustr) : list ustr :=
  fold_left step_into (split_on slash p) (if has_root p then [] else cwd).

(** The loop of [diff_paths], util.rs:75-99, on what is left of the two iterators; [acc] is
    [comps]. *)
Fixpoint diff_loop (ita itb acc : list component) : option (list component) :=
  match itb with
  | [] => Some (acc ++ ita)
  | b :: itb' =>
      match ita with
      | [] => diff_loop [] itb' (acc ++ [ParentDir])
      | a :: ita' =>
          if is_nil acc && component_eqb a b then diff_loop ita' itb' acc
          else match b with
               | CurDir => diff_loop ita' itb' (acc ++ [a])
               | ParentDir => None
               | _ => Some (acc ++ ParentDir :: map (fun _ => ParentDir) itb' ++ a :: ita')
               end
      end
  end.

(** [diff_paths], util.rs:66-102. *)
Definition diff_paths (path base : ustr) : option ustr :=
  if eqb (has_root path) (has_root base) then
    option_map path_collect (diff_loop (components path) (components base) [])
  else None.

(** [Display for Source], metadata.rs:289-304; [cwd] is [std::env::current_dir().ok()], and
    a code location is shown by the caller-supplied [show]. *)
Definition source_str (cwd : option ustr) (show : location -> ustr) (s : source) : ustr :=
  match s with
  | SFile p =>
      match option_bind cwd (fun c => diff_paths p c) with
      | Some r => if Nat.ltb (length (components r)) (length (components p)) then r else p
      | None => p
      end
  | SCode l => show l
  | SCustom s => s
  end.
