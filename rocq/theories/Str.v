(** Unicode strings, as used by Rust's [str]/[String].

    A string is the list of its Unicode code points.  Rust stores UTF-8 bytes;
    the byte length is kept through [utf8_len], and operations that index by byte
    ([&s[..i]], [s.split_at(i)]) go through [split_at_byte], which fails when the
    index is not a character boundary (Rust panics there).
    Simplification: validity of code points (no surrogates) is not enforced in the
    type; statements that need it say so with [scalar]. *)
From Coq Require Import Ascii String Bool NArith List.
From Verif Require Import BMap.
Import ListNotations.
Local Open Scope N_scope.

Definition uchar := N.
Definition ustr := list uchar.

(** Literals: ASCII text in the Coq sources. *)
Fixpoint lit (s : string) : ustr :=
  match s with
  | EmptyString => []
  | String a r => N_of_ascii a :: lit r
  end.

Definition ch (a : ascii) : uchar := N_of_ascii a.

(** A Unicode scalar value: Rust's [char]. *)
Definition scalar (c : uchar) : bool :=
  (c <? 0xD800) || ((0xDFFF <? c) && (c <? 0x110000)).

(** [char::len_utf8]. *)
Definition utf8_len (c : uchar) : N :=
  if c <? 0x80 then 1 else if c <? 0x800 then 2 else if c <? 0x10000 then 3 else 4.

(** [str::len]. *)
Fixpoint byte_len (s : ustr) : N :=
  match s with [] => 0 | c :: r => utf8_len c + byte_len r end.

(** [str::split_at] / [&s[..i]] / [&s[i..]]: [None] when [i] is not on a character
    boundary (or beyond the end), where Rust panics. *)
Fixpoint split_at_byte (s : ustr) (i : N) : option (ustr * ustr) :=
  if i =? 0 then Some ([], s) else
  match s with
  | [] => None
  | c :: r =>
      if i <? utf8_len c then None
      else match split_at_byte r (i - utf8_len c) with
           | Some (a, b) => Some (c :: a, b)
           | None => None
           end
  end.

Fixpoint ueqb (a b : ustr) : bool :=
  match a, b with
  | [], [] => true
  | x :: a', y :: b' => (x =? y) && ueqb a' b'
  | _, _ => false
  end.

(** [Ord for str]: bytewise on UTF-8, which is code-point lexicographic. *)
Fixpoint ucmp (a b : ustr) : comparison :=
  match a, b with
  | [], [] => Eq
  | [], _ :: _ => Lt
  | _ :: _, [] => Gt
  | x :: a', y :: b' => match x ?= y with Eq => ucmp a' b' | c => c end
  end.

(** String keys of maps are ordered by [Ord for String]. *)
#[export] Instance Cmp_ustr : Cmp ustr := ucmp.

(** [char::to_ascii_lowercase], [char::to_ascii_uppercase]. *)
Definition lower_c (c : uchar) : uchar :=
  if (65 <=? c) && (c <=? 90) then c + 32 else c.
Definition upper_c (c : uchar) : uchar :=
  if (97 <=? c) && (c <=? 122) then c - 32 else c.
Definition lower (s : ustr) : ustr := map lower_c s.
Definition upper (s : ustr) : ustr := map upper_c s.

(** [uncased::eq] and [Ord for UncasedStr]: compare with ASCII letters lower-cased. *)
Definition uncased_eqb (a b : ustr) : bool := ueqb (lower a) (lower b).
Definition uncased_cmp (a b : ustr) : comparison := ucmp (lower a) (lower b).

(** [char::is_whitespace]: the Unicode White_Space property. *)
Definition is_ws (c : uchar) : bool :=
  ((0x9 <=? c) && (c <=? 0xD)) || (c =? 0x20) || (c =? 0x85) || (c =? 0xA0)
  || (c =? 0x1680) || ((0x2000 <=? c) && (c <=? 0x200A))
  || (c =? 0x2028) || (c =? 0x2029) || (c =? 0x202F) || (c =? 0x205F) || (c =? 0x3000).

(** [str::trim_start], [str::trim_end], [str::trim]. *)
Fixpoint trim_start (s : ustr) : ustr :=
  match s with
  | [] => []
  | c :: r => if is_ws c then trim_start r else s
  end.
Definition trim_end (s : ustr) : ustr := rev (trim_start (rev s)).
Definition trim (s : ustr) : ustr := trim_end (trim_start s).

(** [str::split(char)]: always at least one piece. *)
Fixpoint split_on (d : uchar) (s : ustr) : list ustr :=
  match s with
  | [] => [[]]
  | c :: r =>
      if c =? d then [] :: split_on d r
      else match split_on d r with
           | [] => [[c]]
           | p :: ps => (c :: p) :: ps
           end
  end.

(** [[str]::join]. *)
Fixpoint join (sep : ustr) (l : list ustr) : ustr :=
  match l with
  | [] => []
  | [x] => x
  | x :: r => x ++ sep ++ join sep r
  end.

Definition is_nil {A} (l : list A) : bool := match l with [] => true | _ => false end.

(** [str::contains(char)]. *)
Definition contains_c (c : uchar) (s : ustr) : bool := existsb (N.eqb c) s.

(** Strip a literal prefix. *)
Fixpoint strip_prefix (p s : ustr) : option ustr :=
  match p, s with
  | [], _ => Some s
  | x :: p', y :: s' => if x =? y then strip_prefix p' s' else None
  | _ :: _, [] => None
  end.

(** [str::replace(pattern, to)]: non-overlapping matches from the left.  An empty
    pattern matches before every character and at the end. *)
Fixpoint replace_go (fuel : nat) (pat to s : ustr) : ustr :=
  match fuel with
  | O => s
  | S f =>
      match s with
      | [] => []
      | c :: r =>
          match strip_prefix pat s with
          | Some s' => to ++ replace_go f pat to s'
          | None => c :: replace_go f pat to r
          end
      end
  end.
Definition replace (pat to s : ustr) : ustr :=
  match pat with
  | [] => to ++ flat_map (fun c => c :: to) s
  | _ => replace_go (length s) pat to s
  end.

(** [UncasedStr::starts_with]: [self.get(..p.len())] (by bytes, [None] off a character
    boundary) compared without case. *)
Definition uncased_starts_with (s p : ustr) : bool :=
  match split_at_byte s (byte_len p) with
  | Some (a, _) => uncased_eqb a p
  | None => false
  end.
