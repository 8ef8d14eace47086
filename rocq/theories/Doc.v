(** Documents in a data format, as serde shows them to the crate, and what the crate makes of
    them: [Deserialize for Value], /repo/src/value/de.rs:430-537, through deserializers other
    than the crate's own, for the two types [Data] asks for (/repo/src/providers/data.rs:369-390).

    A [doc] is the sequence of [Visitor] calls a self-describing format makes for a parsed text:
    [DocNull] is [visit_unit], [DocNone] and [DocSome] the two option visits, [DocInt] one of the
    ten integer visits, [DocEnum] the visit of a tagged value (YAML's [!name]).  Simplifications:
    the parsers themselves (text to [doc]) are not modelled; keys are text; YAML shows an
    empty document or section as an empty map where a map is asked for, so such a document is
    [DocMap []] here; the format reports an
    error as a text made from the source text and the kind of mistake; such a format answers
    [is_human_readable] the same each time, so [Value::deserialize] is [deserialize_any]
    (de.rs:435-437). *)
From Coq Require Import Ascii String ZArith NArith Bool.
From Coq Require Import Floats.SpecFloat.
From Coq Require Import List.
From Verif Require Import Res BMap Str Profile Tag Num Value Metadata Err Figment Fmt De Path Data.
Import ListNotations.

Inductive doc :=
| DocNull | DocNone | DocSome (d : doc) | DocBool (b : bool) | DocInt (k : ikind) (z : Z)
| DocF32 (x : spec_float) | DocF64 (x : spec_float) | DocChar (c : uchar) | DocStr (s : ustr)
| DocSeq (l : list doc) | DocMap (l : list (ustr * doc)) | DocEnum (name : ustr) (d : doc).

(** What serde calls the visited thing in an error: the defaults of [Visitor]. *)
Definition doc_actual (d : doc) : actual :=
  match d with
  | DocNull => AUnit
  | DocNone => AOption
  | DocSome _ => AOption
  | DocBool b => ABool b
  | DocInt I128 z => AOther (lit "integer `" ++ fmt_int z ++ lit "` as i128")
  | DocInt U128 z => AOther (lit "integer `" ++ fmt_int z ++ lit "` as u128")
  | DocInt k z => if ikind_signed k then ASigned z else AUnsigned z
  | DocF32 x => AFloat (f32_to_f64 x)
  | DocF64 x => AFloat x
  | DocChar c => AStr [c]
  | DocStr s => AStr s
  | DocSeq _ => ASeq
  | DocMap _ => AMap
  | DocEnum _ _ => AEnum
  end.

(** [Deserialize for Tag], tag.rs:135-155: only [visit_u64], to which the narrower unsigned
    visits forward. *)
Definition doc_tag (d : doc) : res kind tag :=
  match d with
  | DocInt U8 z | DocInt U16 z | DocInt U32 z | DocInt U64 z => Ok (Tag (Z.to_N z))
  | _ => Err (KInvalidType (doc_actual d) (lit "a 64-bit metadata id integer"))
  end.

(** [ValueVisitor], de.rs:454-537: the scalar visits (463-485), [visit_seq] (487-495),
    [visit_map] (497-517), [visit_enum] (519-522), the option and unit visits (524-536).
    [RawValue] (de.rs:421-428) and [Value] read alike here. *)
Fixpoint doc_value (d : doc) : res kind value :=
  match d with
  | DocNull => Ok (VEmpty tag_default EUnit)
  | DocNone => Ok (VEmpty tag_default ENone)
  | DocSome d => doc_value d
  | DocBool b => Ok (VBool tag_default b)
  | DocInt k z => Ok (VNum tag_default (NInt k z))
  | DocF32 x => Ok (VNum tag_default (NF32 x))
  | DocF64 x => Ok (VNum tag_default (NF64 x))
  | DocChar c => Ok (VChar tag_default c)
  | DocStr s => Ok (VString tag_default s)
  | DocSeq l =>
      res_map (VArray tag_default)
        ((fix go (l : list doc) : res kind (list value) :=
            match l with
            | [] => Ok []
            | x :: r => res_bind (doc_value x) (fun y => res_map (cons y) (go r))
            end) l)
  | DocMap l =>
      (fix go (l : list (ustr * doc)) (acc : dict) (id : option tag) (raw : option value)
         : res kind value :=
         match l with
         | [] => Ok (finish_map acc id raw)
         | (k, x) :: r =>
             if ueqb k value_id then res_bind (doc_tag x) (fun t => go r acc (Some t) raw)
             else if ueqb k value_value then res_bind (doc_value x) (fun y => go r acc id (Some y))
             else res_bind (doc_value x) (fun y => go r (insert k y acc) id raw)
         end) l [] None None
  | DocEnum name d => res_map (nest name) (doc_value d)
  end.

(** serde's [Deserialize for BTreeMap]: entries are inserted in order. *)
Fixpoint doc_insert {K V} {C : Cmp K} (key : ustr -> K) (val : doc -> res kind V)
    (l : list (ustr * doc)) (acc : bmap K V) : res kind (bmap K V) :=
  match l with
  | [] => Ok acc
  | (k, x) :: r => res_bind (val x) (fun y => doc_insert key val r (insert (key k) y acc))
  end.
Definition doc_map {K V} {C : Cmp K} (key : ustr -> K) (val : doc -> res kind V) (d : doc)
  : res kind (bmap K V) :=
  match d with
  | DocMap l => doc_insert key val l []
  | _ => Err (KInvalidType (doc_actual d) (lit "a map"))
  end.

(** [Dict] is [Map<String, Value>], value.rs:15. *)
Definition doc_dict (d : doc) : res kind dict := doc_map (fun k => k) doc_value d.

(** [Map<Profile, Dict>], with [Deserialize for Profile], profile.rs:276-296. *)
Definition doc_profiles (d : doc) : res kind (bmap profile dict) :=
  doc_map profile_new doc_dict d.

(** [impl_format!], data.rs:487-504: a format given by its parser; [parse] gives the document or
    the parser's own error, [mistake] the format's text for an error of the crate's visitors. *)
Definition doc_format (name : ustr) (parse : ustr -> res ustr doc) (mistake : ustr -> kind -> ustr)
    (custom : ustr -> ustr) : format :=
  mkFormat name
    (fun text => res_bind (parse text) (fun d => res_map_err (mistake text) (doc_dict d)))
    (fun text => res_bind (parse text) (fun d => res_map_err (mistake text) (doc_profiles d)))
    custom.
