(** Errors: /repo/src/error.rs. *)
From Coq Require Import Ascii String ZArith NArith Bool List.
From Verif Require Import Res BMap Str Profile Tag Num Value Metadata.
Import ListNotations.

(** [enum Kind], error.rs:103-141. *)
Inductive kind :=
| KMessage (s : ustr)
| KInvalidType (a : actual) (expected : ustr)
| KInvalidValue (a : actual) (expected : ustr)
| KInvalidLength (n : N) (expected : ustr)
| KUnknownVariant (v : ustr) (expected : list ustr)
| KUnknownField (v : ustr) (expected : list ustr)
| KMissingField (f : ustr)
| KDuplicateField (f : ustr)
| KISizeOutOfRange (z : Z)
| KUSizeOutOfRange (z : Z)
| KUnsupported (a : actual)
| KUnsupportedKey (a : actual) (expected : ustr).

(** [struct Error], error.rs:88-101. *)
Inductive error := MkError (t : tag) (p : option profile) (m : option metadata)
                           (path : list ustr) (k : kind) (prev : option error).
Definition e_tag (e : error) := let 'MkError t _ _ _ _ _ := e in t.
Definition e_profile (e : error) := let 'MkError _ p _ _ _ _ := e in p.
Definition e_metadata (e : error) := let 'MkError _ _ m _ _ _ := e in m.
Definition e_path (e : error) := let 'MkError _ _ _ p _ _ := e in p.
Definition e_kind (e : error) := let 'MkError _ _ _ _ k _ := e in k.
Definition e_prev (e : error) := let 'MkError _ _ _ _ _ v := e in v.

(** [From<Kind> for Error], error.rs:413-424. *)
Definition err_of_kind (k : kind) : error := MkError tag_default None None [] k None.

(** [de::Error::custom]/[ser::Error::custom] and [From<&str>], [From<String>],
    error.rs:374-376, 407-411, 426-436. *)
Definition err_msg (s : ustr) : error := err_of_kind (KMessage s).

(** [Error::prefixed], error.rs:144-147. *)
Definition prefixed (key : ustr) (e : error) : error :=
  let 'MkError t p m path k v := e in MkError t p m (key :: path) k v.

(** [Error::retagged], error.rs:149-155. *)
Definition retagged (new : tag) (e : error) : error :=
  let 'MkError t p m path k v := e in
  MkError (if is_default t then new else t) p m path k v.

(** [Error::resolved], error.rs:157-168.  The loop over the chain is the recursion; the
    Figment is represented by its metadata map and profile. *)
Fixpoint resolved_with (mds : bmap tag metadata) (prof : profile) (e : error) : error :=
  let 'MkError t _ _ path k v := e in
  MkError t
          (Some (match tag_profile t with Some p => p | None => prof end))
          (get t mds)
          path k
          (match v with Some e' => Some (resolved_with mds prof e') | None => None end).

(** [Error::missing], error.rs:182-184. *)
Definition e_missing (e : error) : bool :=
  match e_kind e with KMissingField _ => true | _ => false end.

(** [Error::with_path], error.rs:199-206. *)
Definition with_path (path : ustr) (e : error) : error :=
  let 'MkError t p m pa k v := e in
  MkError t p m (pa ++ filter (fun s => negb (is_nil s)) (split_on dot path)) k v.

(** [Error::chain], error.rs:236-239: the argument becomes the head and its previous
    error is overwritten by [self]. *)
Definition chain (self err : error) : error :=
  let 'MkError t p m pa k _ := err in MkError t p m pa k (Some self).

(** [Error::count], error.rs:268-270. *)
Fixpoint e_count (e : error) : nat :=
  let 'MkError _ _ _ _ _ v := e in
  1 + match v with Some e' => e_count e' | None => 0 end.

(** [IntoIter::next], error.rs:279-286, on the iterator state (the optional error). *)
Definition iter_next (st : option error) : option (error * option error) :=
  match st with
  | Some (MkError t p m pa k v) => Some (MkError t p m pa k None, v)
  | None => None
  end.
