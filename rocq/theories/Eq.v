(** Equality and hashing of what the crate hands out: /repo/src/error.rs, /repo/src/metadata.rs,
    /repo/src/value/tag.rs, /repo/src/value/magic.rs, and the conversions into these types.

    [Value]'s and [Num]'s equality is in Value.v, [Tag]'s and [Profile]'s in Tag.v and
    Profile.v. *)
From Coq Require Import Ascii String ZArith NArith Bool.
From Coq Require Import Floats.SpecFloat.
From Coq Require Import List.
From Verif Require Import Res BMap Str Profile Tag Num Value Metadata Path Err Coalesce Figment Fmt De Data.
Import ListNotations.

(** [Hash for Tag], tag.rs:123-127, and the derived [Hash for Profile], profile.rs:9, which is
    [Uncased]'s: what is fed to the hasher.  [Uncased] feeds the bytes lower-cased; text stands
    for its bytes. *)
Definition tag_hash (t : tag) : N := metadata_id t.
Definition profile_hash (p : profile) : ustr := lower (pname p).

Fixpoint list_eqb {A} (eqb : A -> A -> bool) (a b : list A) : bool :=
  match a, b with
  | [], [] => true
  | x :: r, y :: s => eqb x y && list_eqb eqb r s
  | _, _ => false
  end.
Definition option_eqb {A} (eqb : A -> A -> bool) (a b : option A) : bool :=
  match a, b with
  | None, None => true
  | Some x, Some y => eqb x y
  | _, _ => false
  end.

(** [std]'s [PartialEq for Path]: component by component. *)
Definition path_eqb (a b : ustr) : bool := list_eqb component_eqb (components a) (components b).

(** Derived [PartialEq for Source], metadata.rs:219-228; [PartialEq for Metadata],
    metadata.rs:191-195. *)
Definition source_eqb (a b : source) : bool :=
  match a, b with
  | SFile p, SFile q => path_eqb p q
  | SCode l, SCode m => location_eqb l m
  | SCustom s, SCustom t => ueqb s t
  | _, _ => false
  end.
Definition metadata_eqb (a b : metadata) : bool :=
  ueqb (md_name a) (md_name b) && option_eqb source_eqb (md_source a) (md_source b).

(** [From] for [Source], metadata.rs:306-328. *)
Definition source_of_path (p : ustr) : source := SFile p.
Definition source_of_location (l : location) : source := SCode l.
Definition source_of_text (s : ustr) : source := SCustom s.

(** Derived [PartialEq for Actual], error.rs:301. *)
Definition actual_eqb (a b : actual) : bool :=
  match a, b with
  | ABool x, ABool y => Bool.eqb x y
  | AUnsigned x, AUnsigned y => Z.eqb x y
  | ASigned x, ASigned y => Z.eqb x y
  | AFloat x, AFloat y => SFeqb x y
  | AChar x, AChar y => N.eqb x y
  | AStr x, AStr y => ueqb x y
  | ABytes x, ABytes y => list_eqb N.eqb x y
  | AUnit, AUnit | AOption, AOption | ANewtypeStruct, ANewtypeStruct | ASeq, ASeq | AMap, AMap
  | AEnum, AEnum | AUnitVariant, AUnitVariant | ANewtypeVariant, ANewtypeVariant
  | ATupleVariant, ATupleVariant | AStructVariant, AStructVariant => true
  | AOther x, AOther y => ueqb x y
  | _, _ => false
  end.

(** Derived [PartialEq for Kind], error.rs:104-142. *)
Definition kind_eqb (a b : kind) : bool :=
  match a, b with
  | KMessage x, KMessage y => ueqb x y
  | KInvalidType x s, KInvalidType y t => actual_eqb x y && ueqb s t
  | KInvalidValue x s, KInvalidValue y t => actual_eqb x y && ueqb s t
  | KInvalidLength x s, KInvalidLength y t => N.eqb x y && ueqb s t
  | KUnknownVariant x s, KUnknownVariant y t => ueqb x y && list_eqb ueqb s t
  | KUnknownField x s, KUnknownField y t => ueqb x y && list_eqb ueqb s t
  | KMissingField x, KMissingField y => ueqb x y
  | KDuplicateField x, KDuplicateField y => ueqb x y
  | KISizeOutOfRange x, KISizeOutOfRange y => Z.eqb x y
  | KUSizeOutOfRange x, KUSizeOutOfRange y => Z.eqb x y
  | KUnsupported x, KUnsupported y => actual_eqb x y
  | KUnsupportedKey x s, KUnsupportedKey y t => actual_eqb x y && ueqb s t
  | _, _ => false
  end.

(** Derived [PartialEq for Error], error.rs:88-101. *)
Fixpoint error_eqb (a b : error) : bool :=
  match a, b with
  | MkError t p m path k v, MkError t' p' m' path' k' v' =>
      tag_eqb t t' && option_eqb profile_eqb p p' && option_eqb metadata_eqb m m' &&
      list_eqb ueqb path path' && kind_eqb k k' &&
      match v, v' with
      | None, None => true
      | Some e, Some e' => error_eqb e e'
      | _, _ => false
      end
  end.

(** [struct RelativePathBuf], magic.rs:153-158; its [From], 166-170, and [PartialEq], 160-164. *)
Record rel_buf := mkRel { rb_metadata_path : option ustr; rb_path : ustr }.
Definition rel_of_path (p : ustr) : rel_buf := mkRel None p.
Definition rel_eqb (fs : fsys) (a b : rel_buf) : bool :=
  path_eqb (relative fs (rb_metadata_path a) (rb_path a)) (relative fs (rb_metadata_path b) (rb_path b)).

(** [struct Tagged], magic.rs:557-562; [PartialEq], 564-568; [tag] and [into_inner], 619-638;
    [Deref] and [From], 641-653. *)
Record tagged (A : Type) := mkTagged { tg_tag : tag; tg_value : A }.
Arguments mkTagged {A}. Arguments tg_tag {A}. Arguments tg_value {A}.
Definition tagged_eqb {A} (eqb : A -> A -> bool) (a b : tagged A) : bool := eqb (tg_value a) (tg_value b).
Definition tagged_of {A} (x : A) : tagged A := mkTagged tag_default x.
Definition into_inner {A} (t : tagged A) : A := tg_value t.
