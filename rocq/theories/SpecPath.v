(** What the path, file and jail properties talk about, stated without the model's path
    functions. *)
From Coq Require Import Ascii String NArith Bool.
From Coq Require Import List.
From Verif Require Import Res BMap Str Path.
Import ListNotations.

(** The name of a directory entry. *)
Definition name_ok (s : ustr) : Prop :=
  s <> [] /\ s <> lit "." /\ s <> lit ".." /\ contains_c slash s = false.

(** The absolute path of a directory, and of something in it. *)
Definition dir_text (names : list ustr) : ustr := slash :: join [slash] names.
Definition in_dir (names : list ustr) (path : ustr) : ustr := dir_text (names ++ [path]).

Definition relative_path (p : ustr) : Prop := forall r, p <> slash :: r.

(** The first of the directories [names], its parent, ... up to the root that has [path] as a
    file. *)
Definition nearest (is_file : ustr -> bool) (names : list ustr) (path : ustr) (found : option ustr)
  : Prop :=
  match found with
  | Some q => exists k, k <= length names /\ q = in_dir (firstn k names) path /\
                is_file q = true /\
                forall k', k < k' <= length names -> is_file (in_dir (firstn k' names) path) = false
  | None => forall k, k <= length names -> is_file (in_dir (firstn k names) path) = false
  end.

(** A path without [.] or [..] pieces. *)
Definition plain_path (p : ustr) : Prop :=
  ~ In (lit ".") (split_on slash p) /\ ~ In (lit "..") (split_on slash p).

(** The path of something in a directory: its last piece is a name. *)
Definition ends_in_name (p : ustr) : Prop :=
  exists pre name, name_ok name /\ (p = name /\ pre = [] \/ p = pre ++ slash :: name).

(** Location [l] is directory [dir] or below it. *)
Definition inside (dir l : list ustr) : Prop := exists rest, l = dir ++ rest.

(** A relative path that never climbs above where it starts. *)
Fixpoint never_climbs (depth : nat) (pieces : list ustr) : Prop :=
  match pieces with
  | [] => True
  | x :: r =>
      if is_nil x || ueqb x (lit ".") then never_climbs depth r
      else if ueqb x (lit "..") then
        match depth with O => False | S d => never_climbs d r end
      else never_climbs (S depth) r
  end.

(** Two lists of components that do not start alike. *)
Definition parted (a b : list component) : Prop :=
  forall x y a' b', a = x :: a' -> b = y :: b' -> x <> y.

(** One step up for each component. *)
Definition ups (l : list component) : list component := map (fun _ => ParentDir) l.

(** What [diff_paths] answers once the common components are gone, [a] of the path and [b] of the
    base: up for each of [b], then [a]; nothing if [b] starts with [..].  A [.] at the head of the
    base uses up one component of the path first. *)
Definition way (a b : list component) : option (list component) :=
  match a, b with
  | _, [] => Some a
  | [], _ => Some (ups b)
  | _, ParentDir :: _ => None
  | x :: a', CurDir :: b' =>
      match a', b' with
      | _, [] => Some a
      | [], _ => Some (x :: ups b')
      | _, ParentDir :: _ => None
      | _, _ => Some (x :: ups b' ++ a')
      end
  | _, _ => Some (ups b ++ a)
  end.
