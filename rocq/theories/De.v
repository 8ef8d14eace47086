(** Typed extraction: /repo/src/value/de.rs, the [Magic] types of /repo/src/value/magic.rs,
    the helpers of /repo/src/util.rs and the [extract] family of /repo/src/figment.rs.

    Serde itself is not part of the repository; what its traits' default methods, its impls
    for standard types and its derive macro do is written down here and is part of the
    trusted base (sections "Visitors" and "Target types").  A target type is a term of [ty];
    its [Deserialize] impl is [deserialize].

    Simplifications: borrowed and owned strings are the same, [bytes] visits are left out
    (no deserializer here makes them), [IgnoredAny] does not traverse what it ignores (its
    impl never fails). *)
From Coq Require Import Ascii String ZArith NArith Bool.
From Coq Require Import Floats.SpecFloat.
From Coq Require Import List.
From Verif Require Import Res BMap Str Profile Tag Num Value NumParse Metadata Err Coalesce Figment Fmt.
Import ListNotations.

(** ** Deserializers *)

(** [Interpreter]s, de.rs:15-41. *)
Inductive interp := Exact | Lossy.

(** [interpret_as_bool], de.rs:16-18, 29-33. *)
Definition interpret_as_bool (i : interp) (v : value) : value :=
  match i with
  | Exact => v
  | Lossy => match to_bool_lossy v with Some b => VBool (vtag v) b | None => v end
  end.

(** [interpret_as_num], de.rs:20-22, 35-39. *)
Definition interpret_as_num (i : interp) (v : value) : value :=
  match i with
  | Exact => v
  | Lossy => match to_num_lossy v with Some n => VNum (vtag v) n | None => v end
  end.

(** The deserializers a [Deserialize] impl can meet: [ConfiguredValueDe] (de.rs:43-54),
    [&Value] (de.rs:263), serde's [StrDeserializer] (map keys) and [U32Deserializer]
    (variant indices), and the [MissingFieldDeserializer] of derived code (for [magic]
    expanded at magic.rs:667-703). *)
Inductive deser :=
| DConf (i : interp) (f : figment) (v : value)
| DPlain (v : value)
| DStr (s : ustr)
| DU32 (z : Z)
| DMissing (field : ustr).

(** One entry of a [MapDe], de.rs:187-191: the key, the tag of the value, the deserializer
    made for the value. *)
Definition entry := (ustr * tag * deser)%type.

(** [MapDe::next_key_seed] and [next_value_seed], de.rs:204-225, on an entry. *)
Definition next_key {A} (seed : deser -> res error A) (x : entry) : res error A :=
  let '(k, t, _) := x in res_map_err (fun e => retagged t (prefixed k e)) (seed (DStr k)).
Definition next_value {A} (seed : deser -> res error A) (x : entry) : res error A :=
  let '(k, t, d) := x in res_map_err (fun e => retagged t (prefixed k e)) (seed d).

(** [SeqDe::next_element_seed], de.rs:244-256, on the element with index [i]. *)
Definition next_element {A} (seed : deser -> res error A) (i : N) (d : deser) : res error A :=
  res_map_err (prefixed (fmt_nat i)) (seed d).

(** ** Visitors *)

(** What [visit_enum] receives: a unit-only access ([StrDeserializer] or [U32Deserializer]
    as [EnumAccess]) or serde's [MapAccessDeserializer] over a [MapDe]. *)
Inductive enum_access :=
| EUnitOnly (key : deser)
| EMap (l : list entry).

(** A visitor: the methods it overrides. *)
Record visitor (A : Type) := mkVisitor {
  v_expecting : ustr;
  v_bool : option (bool -> res error A);
  v_signed : option (ikind -> Z -> res error A);    (* visit_i8 ... visit_i64 *)
  v_unsigned : option (ikind -> Z -> res error A);  (* visit_u8 ... visit_u64 *)
  v_i128 : option (Z -> res error A);
  v_u128 : option (Z -> res error A);
  v_f32 : option (spec_float -> res error A);
  v_f64 : option (spec_float -> res error A);
  v_char : option (uchar -> res error A);
  v_str : option (ustr -> res error A);
  v_none : option (res error A);
  v_unit : option (res error A);
  v_some : option (deser -> res error A);
  v_newtype : option (deser -> res error A);
  v_seq : option (list deser -> res error A);
  v_map : option (list entry -> res error A);
  v_enum : option (enum_access -> res error A)
}.
Arguments mkVisitor {A}.
Arguments v_expecting {A}. Arguments v_bool {A}. Arguments v_signed {A}.
Arguments v_unsigned {A}. Arguments v_i128 {A}. Arguments v_u128 {A}. Arguments v_f32 {A}.
Arguments v_f64 {A}. Arguments v_char {A}. Arguments v_str {A}. Arguments v_none {A}.
Arguments v_unit {A}. Arguments v_some {A}. Arguments v_newtype {A}. Arguments v_seq {A}.
Arguments v_map {A}. Arguments v_enum {A}.

(** [de::Error::invalid_type] and [invalid_value], error.rs:378-384. *)
Definition invalid_type {A} (a : actual) (exp : ustr) : res error A :=
  Err (err_of_kind (KInvalidType a exp)).
Definition invalid_value {A} (a : actual) (exp : ustr) : res error A :=
  Err (err_of_kind (KInvalidValue a exp)).
Definition invalid_length {A} (n : N) (exp : ustr) : res error A :=
  Err (err_of_kind (KInvalidLength n exp)).

(** The provided methods of serde's [Visitor]. *)
Section visits.
  Context {A : Type} (vis : visitor A).
  Let wrong (a : actual) : res error A := invalid_type a (v_expecting vis).
  Definition visit_bool (b : bool) :=
    match v_bool vis with Some h => h b | None => wrong (ABool b) end.
  Definition visit_signed (k : ikind) (z : Z) :=
    match v_signed vis with Some h => h k z | None => wrong (ASigned z) end.
  Definition visit_unsigned (k : ikind) (z : Z) :=
    match v_unsigned vis with Some h => h k z | None => wrong (AUnsigned z) end.
  Definition visit_i128 (z : Z) :=
    match v_i128 vis with
    | Some h => h z
    | None => wrong (AOther (lit "integer `" ++ fmt_int z ++ lit "` as i128"))
    end.
  Definition visit_u128 (z : Z) :=
    match v_u128 vis with
    | Some h => h z
    | None => wrong (AOther (lit "integer `" ++ fmt_int z ++ lit "` as u128"))
    end.
  Definition visit_f64 (x : spec_float) :=
    match v_f64 vis with Some h => h x | None => wrong (AFloat x) end.
  Definition visit_f32 (x : spec_float) :=
    match v_f32 vis with Some h => h x | None => visit_f64 (f32_to_f64 x) end.
  Definition visit_str (s : ustr) :=
    match v_str vis with Some h => h s | None => wrong (AStr s) end.
  Definition visit_char (c : uchar) :=
    match v_char vis with Some h => h c | None => visit_str [c] end.
  Definition visit_none := match v_none vis with Some r => r | None => wrong AOption end.
  Definition visit_unit := match v_unit vis with Some r => r | None => wrong AUnit end.
  Definition visit_some (d : deser) :=
    match v_some vis with Some h => h d | None => wrong AOption end.
  Definition visit_newtype (d : deser) :=
    match v_newtype vis with Some h => h d | None => wrong ANewtypeStruct end.
  Definition visit_seq (l : list deser) :=
    match v_seq vis with Some h => h l | None => wrong ASeq end.
  Definition visit_map (l : list entry) :=
    match v_map vis with Some h => h l | None => wrong AMap end.
  Definition visit_enum (a : enum_access) :=
    match v_enum vis with Some h => h a | None => wrong AEnum end.
End visits.

(** A visitor that overrides nothing. *)
Definition no_visits {A} (exp : ustr) : visitor A :=
  mkVisitor exp None None None None None None None None None None None None None None None None.

(** ** The deserializers' methods *)

(** [int_try!], de.rs:332-336, tried for the widths in turn, de.rs:360-375.  The [128]-bit
    attempt and the out-of-range errors are never reached (64-bit [usize]/[isize]). *)
Definition fitting (signed : bool) (z : Z) : ikind :=
  if signed
  then if in_range I8 z then I8 else if in_range I16 z then I16
       else if in_range I32 z then I32 else I64
  else if in_range U8 z then U8 else if in_range U16 z then U16
       else if in_range U32 z then U32 else U64.

(** [Deserializer for Num], de.rs:338-376. *)
Definition num_visit {A} (n : num) (vis : visitor A) : res error A :=
  match n with
  | NInt U8 z => visit_unsigned vis U8 z
  | NInt U16 z => visit_unsigned vis U16 z
  | NInt U32 z => visit_unsigned vis U32 z
  | NInt U64 z => visit_unsigned vis U64 z
  | NInt U128 z => visit_u128 vis z
  | NInt I8 z => visit_signed vis I8 z
  | NInt I16 z => visit_signed vis I16 z
  | NInt I32 z => visit_signed vis I32 z
  | NInt I64 z => visit_signed vis I64 z
  | NInt I128 z => visit_i128 vis z
  | NF32 x => visit_f32 vis x
  | NF64 x => visit_f64 vis x
  | NInt ISize z => visit_signed vis (fitting true z) z
  | NInt USize z => visit_unsigned vis (fitting false z) z
  end.

(** [Deserializer for Empty], de.rs:383-393. *)
Definition empty_visit {A} (e : empty) (vis : visitor A) : res error A :=
  match e with EUnit => visit_unit vis | ENone => visit_none vis end.

(** [MapDe::new(map, maker)] and [SeqDe::new(seq, maker)]. *)
Definition map_access (mk : value -> deser) (d : dict) : list entry :=
  map (fun kv => (fst kv, vtag (snd kv), mk (snd kv))) d.

(** The common match of the two [deserialize_any]s, de.rs:80-88 and 270-278. *)
Definition value_visit {A} (mk : value -> deser) (v : value) (vis : visitor A) : res error A :=
  match v with
  | VString _ s => visit_str vis s
  | VChar _ c => visit_char vis c
  | VBool _ b => visit_bool vis b
  | VNum _ n => num_visit n vis
  | VEmpty _ e => empty_visit e vis
  | VDict _ d => visit_map vis (map_access mk d)
  | VArray _ l => visit_seq vis (map mk l)
  end.

(** [.map_err(|e| e.retagged(tag).resolved(config))]. *)
Definition settle {A} (f : figment) (t : tag) (r : res error A) : res error A :=
  res_map_err (fun e => resolved (retagged t e) f) r.

(** [deserialize_any]: de.rs:76-91, 266-281; serde's [StrDeserializer] and
    [U32Deserializer]; magic.rs:682-686. *)
Definition de_any {A} (d : deser) (vis : visitor A) : res error A :=
  match d with
  | DConf i f v => settle f (vtag v) (value_visit (DConf i f) v vis)
  | DPlain v => res_map_err (retagged (vtag v)) (value_visit DPlain v vis)
  | DStr s => visit_str vis s
  | DU32 z => visit_unsigned vis U32 z
  | DMissing field => Err (err_of_kind (KMissingField field))
  end.

(** [deserialize_option]: de.rs:93-103, 283-291; magic.rs:688-692. *)
Definition de_option {A} (d : deser) (vis : visitor A) : res error A :=
  match d with
  | DConf i f v =>
      settle f (vtag v) (match v with
                         | VEmpty _ e => empty_visit e vis
                         | _ => visit_some vis d
                         end)
  | DPlain (VEmpty t e) => res_map_err (retagged t) (empty_visit e vis)
  | DPlain _ => visit_some vis d
  | DMissing _ => visit_none vis
  | _ => de_any d vis
  end.

(** [deserialize_enum]: de.rs:125-149, 293-315.  serde's [StrDeserializer] calls
    [visit_enum] with itself, [U32Deserializer] too. *)
Definition enum_visit {A} (mk : value -> deser) (v : value) (vis : visitor A) : res error A :=
  match v with
  | VString _ s => visit_enum vis (EUnitOnly (DStr s))
  | VDict _ d => visit_enum vis (EMap (map_access mk d))
  | VNum _ n =>
      match num_to_u32 n with
      | Some z => visit_enum vis (EUnitOnly (DU32 z))
      | None => de_any (mk v) vis
      end
  | _ => de_any (mk v) vis
  end.

Definition de_enum {A} (d : deser) (vis : visitor A) : res error A :=
  match d with
  | DConf i f v => settle f (vtag v) (enum_visit (DConf i f) v vis)
  | DPlain v => res_map_err (retagged (vtag v)) (enum_visit DPlain v vis)
  | DStr s => visit_enum vis (EUnitOnly d)
  | DU32 z => visit_enum vis (EUnitOnly d)
  | DMissing _ => de_any d vis
  end.

(** [deserialize_newtype_struct]: de.rs:151-157, 317-323; the others forward to
    [deserialize_any]. *)
Definition de_newtype {A} (d : deser) (vis : visitor A) : res error A :=
  match d with
  | DConf _ _ _ | DPlain _ => visit_newtype vis d
  | _ => de_any d vis
  end.

(** [deserialize_bool] and the numeric methods up to 64 bits: de.rs:56-71, 165-174; all the
    others forward to [deserialize_any]. *)
Definition de_bool {A} (d : deser) (vis : visitor A) : res error A :=
  match d with
  | DConf i f v => settle f (vtag v) (de_any (DPlain (interpret_as_bool i v)) vis)
  | _ => de_any d vis
  end.
Definition de_num {A} (d : deser) (vis : visitor A) : res error A :=
  match d with
  | DConf i f v => settle f (vtag v) (de_any (DPlain (interpret_as_num i v)) vis)
  | _ => de_any d vis
  end.

(** [deserialize_u128] and [deserialize_i128] are not forwarded (de.rs:176-180, 325-329), so
    serde's provided methods apply: an error.  serde's own deserializers do forward them. *)
Definition de_128 {A} (signed : bool) (d : deser) (vis : visitor A) : res error A :=
  match d with
  | DConf _ _ _ | DPlain _ =>
      Err (err_msg (if signed then lit "i128 is not supported" else lit "u128 is not supported"))
  | _ => de_any d vis
  end.

(** [char], [str], [string], [seq], [map], [unit], [tuple], [unit_struct], [tuple_struct]
    and [identifier] all forward to [deserialize_any], de.rs:176-180, 325-329. *)

(** ** Magic *)

(** Names and fields: de.rs:404-408, magic.rs:173-178, 564-568. *)
Definition value_name : ustr := lit "___figment_value".
Definition value_id : ustr := lit "___figment_value_id".
Definition value_value : ustr := lit "___figment_value_value".
Definition rel_name : ustr := lit "___figment_relative_path_buf".
Definition rel_metadata_path : ustr := lit "___figment_relative_metadata_path".
Definition rel_path : ustr := lit "___figment_relative_path".
Definition tagged_name : ustr := lit "___figment_tagged_item".
Definition tagged_tag : ustr := lit "___figment_tagged_tag".
Definition tagged_value : ustr := lit "___figment_tagged_value".

(** [From<Tag> for Value], tag.rs:129-133. *)
Definition value_of_tag (t : tag) : value :=
  VNum tag_default (NInt U64 (Z.of_N (tag_raw t))).

(** [Deserialize for Tag], tag.rs:135-155: only [visit_u64], to which the narrower
    unsigned visits forward. *)
Definition tag_visitor : visitor tag :=
  mkVisitor (lit "a 64-bit metadata id integer") None None
    (Some (fun _ z => Ok (Tag (Z.to_N z))))
    None None None None None None None None None None None None None.
Definition deserialize_tag (d : deser) : res error tag := de_any d tag_visitor.

(** [Value::deserialize_from], de.rs:410-418: the map presented to the visitor. *)
Definition value_magic (v : value) : dict :=
  insert value_value v (insert value_id (value_of_tag (vtag v)) []).

(** [RelativePathBuf::deserialize_from], magic.rs:180-209. *)
Definition rel_magic (f : figment) (v : value) : dict :=
  let fresh :=
    let metadata_path :=
      option_bind (get_metadata f (vtag v))
                  (fun m => option_bind (md_source m) source_file_path) in
    let m := match metadata_path with
             | Some p => insert rel_metadata_path (VString tag_default p) []
             | None => []
             end in
    insert rel_path (match vfind_ref rel_path v with Some x => x | None => v end) m in
  match as_dict v with
  | Some d => match get rel_metadata_path d with
              | Some mpv => match to_empty mpv with None => d | Some _ => fresh end
              | None => fresh
              end
  | None => fresh
  end.

(** [Tagged::deserialize_from], magic.rs:570-600. *)
Definition tagged_magic (v : value) : dict :=
  let fresh :=
    insert tagged_value (match vfind_ref tagged_value v with Some x => x | None => v end)
      (insert tagged_tag (value_of_tag (vtag v)) []) in
  match as_dict v with
  | Some d => match get tagged_tag d with
              | Some tagv => match deserialize_tag (DPlain tagv) with
                             | Ok t => if is_default t then fresh else d
                             | Err _ => fresh
                             end
              | None => fresh
              end
  | None => fresh
  end.

(** The match on the struct's name, de.rs:114-120. *)
Definition magic_map (name : ustr) (f : figment) (v : value) : option dict :=
  if ueqb name value_name then Some (value_magic v)
  else if ueqb name rel_name then Some (rel_magic f v)
  else if ueqb name tagged_name then Some (tagged_magic v)
  else None.

(** [deserialize_struct]: de.rs:105-123; the others forward to [deserialize_any]. *)
Definition de_struct {A} (name : ustr) (d : deser) (vis : visitor A) : res error A :=
  match d with
  | DConf i f v =>
      settle f (vtag v) (match magic_map name f v with
                         | Some m => visit_map vis (map_access (DConf i f) m)
                         | None => de_any d vis
                         end)
  | _ => de_any d vis
  end.

(** ** [Value] as a target, de.rs:403-537 *)

(** The number [ValueVisitor] makes of a visited number, de.rs:469-482. *)
Definition visited_num (n : num) : num :=
  match n with
  | NInt ISize z => NInt (fitting true z) z
  | NInt USize z => NInt (fitting false z) z
  | _ => n
  end.

(** The end of [ValueVisitor::visit_map], de.rs:508-516. *)
Definition finish_map (acc : dict) (id : option tag) (raw : option value) : value :=
  match raw with
  | Some v => match id with Some t => map_tag (fun _ => t) v | None => v end
  | None => VDict tag_default acc
  end.

(** How children are deserialized: through [ConfiguredValueDe] or [&Value]. *)
Inductive mode := MConf (i : interp) (f : figment) | MPlain.
Definition mk_de (m : mode) : value -> deser :=
  match m with MConf i f => DConf i f | MPlain => DPlain end.
Definition at_key {A} (k : ustr) (t : tag) (r : res error A) : res error A :=
  res_map_err (fun e => retagged t (prefixed k e)) r.
Definition mode_settle {A} (m : mode) (t : tag) (r : res error A) : res error A :=
  match m with
  | MConf i f => settle f t r
  | MPlain => res_map_err (retagged t) r
  end.

(** [Value::deserialize], de.rs:430-441, in terms of the result [r] of
    [deserialize_any(ValueVisitor)] on the same value with tag [t].  [ConfiguredValueDe]
    alternates [is_human_readable] (de.rs:159-163), so its [deserialize_struct] is called
    with the map of [value_magic]: the tag is read back from its number, the value by
    [RawValue].  All other deserializers are read directly.
    [value_de_struct] in DeProofs.v shows that this is what [de_struct] computes. *)
Definition value_of_raw (m : mode) (t : tag) (r : res error value) : res error value :=
  match m with
  | MConf i f =>
      settle f t (res_map (fun x => map_tag (fun _ => t) x) (at_key value_value t r))
  | MPlain => r
  end.

(** [RawValue::deserialize], de.rs:421-428: [deserialize_any] with [ValueVisitor]
    (de.rs:454-537), as one recursion over the value. *)
Fixpoint raw_value (m : mode) (v : value) : res error value :=
  mode_settle m (vtag v)
  (match v with
   | VString _ s => Ok (VString tag_default s)
   | VChar _ c => Ok (VChar tag_default c)
   | VBool _ b => Ok (VBool tag_default b)
   | VNum _ n => Ok (VNum tag_default (visited_num n))
   | VEmpty _ e => Ok (VEmpty tag_default e)
   | VDict _ d =>
       (fix go (d : list (ustr * value)) (acc : dict) (id : option tag) (raw : option value)
          : res error value :=
          match d with
          | [] => Ok (finish_map acc id raw)
          | (k, x) :: r =>
              if ueqb k value_id
              then res_bind (at_key k (vtag x) (deserialize_tag (mk_de m x)))
                            (fun t => go r acc (Some t) raw)
              else if ueqb k value_value
              then res_bind (at_key k (vtag x) (raw_value m x)) (fun y => go r acc id (Some y))
              else res_bind (at_key k (vtag x) (value_of_raw m (vtag x) (raw_value m x)))
                            (fun y => go r (insert k y acc) id raw)
          end) d [] None None
   | VArray _ l =>
       res_map (VArray tag_default)
         ((fix go (l : list value) (n : N) : res error (list value) :=
             match l with
             | [] => Ok []
             | x :: r =>
                 res_bind (res_map_err (prefixed (fmt_nat n)) (value_of_raw m (vtag x) (raw_value m x)))
                          (fun y => res_map (cons y) (go r (n + 1)%N))
             end) l 0%N)
   end).

(** [Value::deserialize] and [RawValue::deserialize] on any deserializer. *)
Definition deserialize_value (d : deser) : res error value :=
  match d with
  | DConf i f v => value_of_raw (MConf i f) (vtag v) (raw_value (MConf i f) v)
  | DPlain v => raw_value MPlain v
  | DStr s => Ok (VString tag_default s)
  | DU32 z => Ok (VNum tag_default (NInt U32 z))
  | DMissing f => Err (err_of_kind (KMissingField f))
  end.
Definition deserialize_raw (d : deser) : res error value :=
  match d with
  | DConf i f v => raw_value (MConf i f) v
  | _ => deserialize_value d
  end.

(** [ValueVisitor] as a visitor, de.rs:454-537.  ([visit_newtype_struct] is serde's
    default.) *)
Fixpoint value_entries (l : list entry) (acc : dict) (id : option tag) (raw : option value)
  : res error value :=
  match l with
  | [] => Ok (finish_map acc id raw)
  | x :: r =>
      let k := fst (fst x) in
      if ueqb k value_id
      then res_bind (next_value deserialize_tag x) (fun t => value_entries r acc (Some t) raw)
      else if ueqb k value_value
      then res_bind (next_value deserialize_raw x) (fun y => value_entries r acc id (Some y))
      else res_bind (next_value deserialize_value x) (fun y => value_entries r (insert k y acc) id raw)
  end.
Fixpoint value_elements (l : list deser) (n : N) : res error (list value) :=
  match l with
  | [] => Ok []
  | d :: r => res_bind (next_element deserialize_value n d)
                       (fun y => res_map (cons y) (value_elements r (n + 1)%N))
  end.
(** serde's [MapAsEnum]/[UnitOnly] and [EnumAccess::variant] for a map: only the first entry
    counts. *)
Definition enum_first {A} (l : list entry) (h : entry -> res error A) : res error A :=
  match l with [] => invalid_type AMap (lit "enum") | x :: _ => h x end.
Definition value_visitor : visitor value :=
  mkVisitor (lit "any valid figment value")
    (Some (fun b => Ok (VBool tag_default b)))
    (Some (fun k z => Ok (VNum tag_default (NInt k z))))
    (Some (fun k z => Ok (VNum tag_default (NInt k z))))
    (Some (fun z => Ok (VNum tag_default (NInt I128 z))))
    (Some (fun z => Ok (VNum tag_default (NInt U128 z))))
    (Some (fun x => Ok (VNum tag_default (NF32 x))))
    (Some (fun x => Ok (VNum tag_default (NF64 x))))
    (Some (fun c => Ok (VChar tag_default c)))
    (Some (fun s => Ok (VString tag_default s)))
    (Some (Ok (VEmpty tag_default ENone)))
    (Some (Ok (VEmpty tag_default EUnit)))
    (Some deserialize_raw)
    None
    (Some (fun l => res_map (VArray tag_default) (value_elements l 0%N)))
    (Some (fun l => value_entries l [] None None))
    (Some (fun a => match a with
                    | EUnitOnly _ => invalid_type AUnitVariant (lit "newtype variant")
                    | EMap l => enum_first l (fun x =>
                        res_map (nest (fst (fst x))) (next_value deserialize_value x))
                    end)).

(** ** Target types *)

(** The payload of an enum variant. *)
Inductive shape (A : Type) :=
| ShUnit
| ShNew (a : A)
| ShTuple (l : list A)
| ShStruct (l : list (ustr * A)).
Arguments ShUnit {A}.
Arguments ShNew {A} a.
Arguments ShTuple {A} l.
Arguments ShStruct {A} l.

(** Target types.  In [TStruct name ident deny fs], [name] is the serde name, [ident] the
    Rust identifier, [deny] the attribute [deny_unknown_fields]. *)
Inductive ty :=
| TBool | TInt (k : ikind) | TF32 | TF64 | TChar | TString | TUnit
| TOption (t : ty)
| TSeq (t : ty)                                            (* Vec<T> *)
| TTuple (ts : list ty)
| TMap (t : ty)                                            (* BTreeMap<String, T> *)
| TPairs (k t : ty)                                        (* util::vec_tuple_map *)
| TStruct (name ident : ustr) (deny : bool) (fs : list (ustr * ty))
| TNewtype (ident : ustr) (t : ty)
| TTupleStruct (ident : ustr) (ts : list ty)
| TUnitStruct (ident : ustr)
| TEnum (ident : ustr) (vs : list (ustr * shape ty))
| TValue | TTag | TProfile | TPath | TIgnored
| TBoolish                                                 (* util::bool_from_str_or_int *)
| TEither (a b : ty).                                      (* magic::Either *)

(** Extracted values. *)
Inductive dval :=
| EVBool (b : bool) | EVInt (k : ikind) (z : Z) | EVF32 (x : spec_float) | EVF64 (x : spec_float)
| EVChar (c : uchar) | EVStr (s : ustr) | EVUnit
| EVNone | EVSome (d : dval)
| EVSeq (l : list dval)
| EVTuple (l : list dval)
| EVMap (l : list (ustr * dval))
| EVPairs (l : list (dval * dval))
| EVStruct (l : list (ustr * dval))
| EVNewtype (d : dval)
| EVVariant (name : ustr) (s : shape dval)
| EVValue (v : value) | EVTag (t : tag) | EVProfile (p : profile) | EVPath (s : ustr) | EVIgnored
| EVLeft (d : dval) | EVRight (d : dval).

(** [RelativePathBuf] and [Tagged<T>] are derived structs with serde names,
    magic.rs:150-158, 559-561, 712-972, 1060-1300. *)
Definition TRelative : ty :=
  TStruct rel_name (lit "RelativePathBuf") false
    [(rel_metadata_path, TOption TPath); (rel_path, TPath)].
Definition TTagged (t : ty) : ty :=
  TStruct tagged_name (lit "Tagged") false [(tagged_tag, TTag); (tagged_value, t)].

(** serde's impls for primitive types. *)
Definition int_name (k : ikind) : ustr :=
  match k with
  | U8 => lit "u8" | U16 => lit "u16" | U32 => lit "u32" | U64 => lit "u64"
  | U128 => lit "u128" | USize => lit "usize"
  | I8 => lit "i8" | I16 => lit "i16" | I32 => lit "i32" | I64 => lit "i64"
  | I128 => lit "i128" | ISize => lit "isize"
  end.
Definition bool_visitor : visitor dval :=
  mkVisitor (lit "a boolean") (Some (fun b => Ok (EVBool b)))
    None None None None None None None None None None None None None None None.
Definition int_visitor (k : ikind) : visitor dval :=
  mkVisitor (int_name k) None
    (Some (fun _ z => if in_range k z then Ok (EVInt k z) else invalid_value (ASigned z) (int_name k)))
    (Some (fun _ z => if in_range k z then Ok (EVInt k z) else invalid_value (AUnsigned z) (int_name k)))
    None None None None None None None None None None None None None.
Definition f32_visitor : visitor dval :=
  let of_int (_ : ikind) z := Ok (EVF32 (int_to_float f32_prec f32_emax z)) in
  mkVisitor (lit "f32") None (Some of_int) (Some of_int) None None
    (Some (fun x => Ok (EVF32 x))) (Some (fun x => Ok (EVF32 (f64_to_f32 x))))
    None None None None None None None None None.
Definition f64_visitor : visitor dval :=
  let of_int (_ : ikind) z := Ok (EVF64 (int_to_float f64_prec f64_emax z)) in
  mkVisitor (lit "f64") None (Some of_int) (Some of_int) None None
    (Some (fun x => Ok (EVF64 (f32_to_f64 x)))) (Some (fun x => Ok (EVF64 x)))
    None None None None None None None None None.
Definition char_visitor : visitor dval :=
  mkVisitor (lit "a character") None None None None None None None
    (Some (fun c => Ok (EVChar c)))
    (Some (fun s => match s with [c] => Ok (EVChar c) | _ => invalid_value (AStr s) (lit "a character") end))
    None None None None None None None.
Definition str_visitor (exp : ustr) (h : ustr -> res error dval) : visitor dval :=
  mkVisitor exp None None None None None None None None (Some h)
    None None None None None None None.
Definition unit_visitor (exp : ustr) : visitor dval :=
  mkVisitor exp None None None None None None None None None None (Some (Ok EVUnit))
    None None None None None.
Definition option_visitor (rec : deser -> res error dval) : visitor dval :=
  mkVisitor (lit "option") None None None None None None None None None
    (Some (Ok EVNone)) (Some (Ok EVNone)) (Some (fun d => res_map EVSome (rec d)))
    None None None None.

(** [Vec<T>]. *)
Fixpoint all_elements (rec : deser -> res error dval) (l : list deser) (n : N) : res error (list dval) :=
  match l with
  | [] => Ok []
  | d :: r => res_bind (next_element rec n d)
                       (fun y => res_map (cons y) (all_elements rec r (n + 1)%N))
  end.
Definition seq_visitor (exp : ustr) (h : list deser -> res error dval) : visitor dval :=
  mkVisitor exp None None None None None None None None None None None None None
    (Some h) None None.
Definition map_visitor (exp : ustr) (h : list entry -> res error dval) : visitor dval :=
  mkVisitor exp None None None None None None None None None None None None None
    None (Some h) None.

(** [BTreeMap<String, T>] and [vec_tuple_map::deserialize], util.rs:212-238. *)
Definition string_key (d : deser) : res error ustr :=
  de_any d (mkVisitor (lit "a string") None None None None None None None None (Some (fun s => Ok s))
              None None None None None None None).
Fixpoint map_entries (rec : deser -> res error dval) (l : list entry) (acc : bmap ustr dval)
  : res error (bmap ustr dval) :=
  match l with
  | [] => Ok acc
  | x :: r => res_bind (next_key string_key x)
                (fun k => res_bind (next_value rec x) (fun y => map_entries rec r (insert k y acc)))
  end.
Fixpoint pair_entries (reck rec : deser -> res error dval) (l : list entry)
  : res error (list (dval * dval)) :=
  match l with
  | [] => Ok []
  | x :: r => res_bind (next_key reck x)
                (fun k => res_bind (next_value rec x)
                            (fun y => res_map (cons (k, y)) (pair_entries reck rec r)))
  end.

(** Tuples and derived tuple structs: the elements in order; what follows is not looked
    at.  [short] is the expectation named when elements are missing. *)
Fixpoint tuple_elements (recs : list (deser -> res error dval)) (short : ustr) (l : list deser) (n : N)
  : res error (list dval) :=
  match recs with
  | [] => Ok []
  | rec :: rs =>
      match l with
      | [] => invalid_length n short
      | d :: r => res_bind (next_element rec n d)
                           (fun y => res_map (cons y) (tuple_elements rs short r (n + 1)%N))
      end
  end.

Definition elements_text (n : nat) : ustr :=
  lit " with " ++ fmt_nat (N.of_nat n) ++ (if Nat.eqb n 1 then lit " element" else lit " elements").

(** Derived structs.  [visit_map] fills a slot per field; unknown keys are ignored unless
    denied; absent fields are asked of the [MissingFieldDeserializer]. *)
Fixpoint assoc {A} (k : ustr) (l : list (ustr * A)) : option A :=
  match l with
  | [] => None
  | (k', a) :: r => if ueqb k k' then Some a else assoc k r
  end.
Definition field_key (deny : bool) (fs : list ustr) (d : deser) : res error (option ustr) :=
  de_any d (mkVisitor (lit "field identifier") None None None None None None None None
    (Some (fun s => if existsb (ueqb s) fs then Ok (Some s)
                    else if deny then Err (err_of_kind (KUnknownField s fs)) else Ok None))
    None None None None None None None).
Fixpoint field_entries (deny : bool) (fs : list (ustr * (deser -> res error dval)))
                       (l : list entry) (slots : list (ustr * dval)) : res error (list (ustr * dval)) :=
  match l with
  | [] => Ok slots
  | x :: r =>
      res_bind (next_key (field_key deny (map fst fs)) x) (fun key =>
        match key with
        | None => field_entries deny fs r slots
        | Some k =>
            match assoc k fs with
            | None => field_entries deny fs r slots
            | Some rec =>
                match assoc k slots with
                | Some _ => Err (err_of_kind (KDuplicateField k))
                | None => res_bind (next_value rec x)
                                   (fun y => field_entries deny fs r ((k, y) :: slots))
                end
            end
        end)
  end.
Fixpoint fill_fields (fs : list (ustr * (deser -> res error dval))) (slots : list (ustr * dval))
  : res error (list (ustr * dval)) :=
  match fs with
  | [] => Ok []
  | (n, rec) :: r =>
      res_bind (match assoc n slots with Some y => Ok y | None => rec (DMissing n) end)
               (fun y => res_map (cons (n, y)) (fill_fields r slots))
  end.
Definition struct_visitor (exp : ustr) (deny : bool) (fs : list (ustr * (deser -> res error dval)))
                          (h : list (ustr * dval) -> dval) : visitor dval :=
  mkVisitor exp None None None None None None None None None None None None None
    (Some (fun l => res_map (fun ys => h (combine (map fst fs) ys))
                      (tuple_elements (map snd fs) (exp ++ elements_text (length fs)) l 0%N)))
    (Some (fun l => res_map h (res_bind (field_entries deny fs l []) (fill_fields fs))))
    None.
Definition tuple_visitor (exp : ustr) (recs : list (deser -> res error dval))
                         (h : list dval -> dval) : visitor dval :=
  seq_visitor exp (fun l => res_map h
    (tuple_elements recs (exp ++ elements_text (length recs)) l 0%N)).
Definition newtype_visitor (exp : ustr) (rec : deser -> res error dval) : visitor dval :=
  mkVisitor exp None None None None None None None None None None None None
    (Some (fun d => res_map EVNewtype (rec d)))
    (Some (fun l => res_map (fun ys => match ys with [y] => EVNewtype y | _ => EVUnit end)
                      (tuple_elements [rec] (exp ++ elements_text 1) l 0%N)))
    None None.

(** Derived enums: the variant identifier, then the payload. *)
Definition variant_key (vs : list ustr) (d : deser) : res error ustr :=
  de_any d (mkVisitor (lit "variant identifier") None None
    (Some (fun _ z => match nth_error vs (Z.to_nat z) with
                      | Some v => Ok v
                      | None => invalid_value (AUnsigned z)
                                  (lit "variant index 0 <= i < " ++ fmt_nat (N.of_nat (length vs)))
                      end))
    None None None None None
    (Some (fun s => if existsb (ueqb s) vs then Ok s else Err (err_of_kind (KUnknownVariant s vs))))
    None None None None None None None).
Definition variant_unit_only (s : shape (deser -> res error dval)) : res error (shape dval) :=
  match s with
  | ShUnit => Ok ShUnit
  | ShNew _ => invalid_type AUnitVariant (lit "newtype variant")
  | ShTuple _ => invalid_type AUnitVariant (lit "tuple variant")
  | ShStruct _ => invalid_type AUnitVariant (lit "struct variant")
  end.
Definition variant_value (full : ustr) (s : shape (deser -> res error dval)) (x : entry)
  : res error (shape dval) :=
  match s with
  | ShUnit => res_map (fun _ => ShUnit) (next_value (fun d => de_any d (unit_visitor (lit "unit"))) x)
  | ShNew rec => res_map ShNew (next_value rec x)
  | ShTuple recs =>
      res_map (fun d => match d with EVTuple l => ShTuple l | _ => ShUnit end)
        (next_value (fun d => de_any d (tuple_visitor (lit "tuple variant " ++ full) recs EVTuple)) x)
  | ShStruct fs =>
      res_map (fun d => match d with EVStruct l => ShStruct l | _ => ShUnit end)
        (next_value (fun d => de_any d (struct_visitor (lit "struct variant " ++ full) false fs EVStruct)) x)
  end.
Definition enum_visitor (ident : ustr) (vs : list (ustr * shape (deser -> res error dval)))
  : visitor dval :=
  mkVisitor (lit "enum " ++ ident) None None None None None None None None None None None None None
    None None
    (Some (fun a =>
       match a with
       | EUnitOnly d =>
           res_bind (variant_key (map fst vs) d) (fun name =>
             match assoc name vs with
             | Some s => res_map (EVVariant name) (variant_unit_only s)
             | None => Err (err_of_kind (KUnknownVariant name (map fst vs)))
             end)
       | EMap l => enum_first l (fun x =>
           res_bind (next_key (variant_key (map fst vs)) x) (fun name =>
             match assoc name vs with
             | Some s => res_map (EVVariant name) (variant_value (ident ++ lit "::" ++ name) s x)
             | None => Err (err_of_kind (KUnknownVariant name (map fst vs)))
             end))
       end)).

(** [bool_from_str_or_int], util.rs:136-174. *)
Definition boolish_visitor : visitor dval :=
  mkVisitor (lit "a boolean") (Some (fun b => Ok (EVBool b)))
    (Some (fun _ z => if (z =? 0)%Z || (z =? 1)%Z then Ok (EVBool (negb (z =? 0)%Z))
                      else invalid_value (ASigned z) (lit "0 or 1")))
    (Some (fun _ z => if (z =? 0)%Z || (z =? 1)%Z then Ok (EVBool (negb (z =? 0)%Z))
                      else invalid_value (AUnsigned z) (lit "0 or 1")))
    None None None None None
    (Some (fun s => if uncased_eqb s (lit "true") then Ok (EVBool true)
                    else if uncased_eqb s (lit "false") then Ok (EVBool false)
                    else invalid_value (AStr s) (lit "true or false")))
    None None None None None None None.

(** [A::NAME] and the last of [A::FIELDS], for [Either<A, B>] (magic.rs:491-527). *)
Definition struct_name (t : ty) : ustr :=
  match t with TStruct name _ _ _ => name | _ => [] end.
Definition last_field (t : ty) : ustr :=
  match t with TStruct _ _ _ fs => last (map fst fs) [] | _ => [] end.

(** The [Deserialize] impls. *)
Fixpoint deserialize (t : ty) (d : deser) {struct t} : res error dval :=
  match t with
  | TBool => de_bool d bool_visitor
  | TInt U128 => de_128 false d (int_visitor U128)
  | TInt I128 => de_128 true d (int_visitor I128)
  | TInt k => de_num d (int_visitor k)
  | TF32 => de_num d f32_visitor
  | TF64 => de_num d f64_visitor
  | TChar => de_any d char_visitor
  | TString => de_any d (str_visitor (lit "a string") (fun s => Ok (EVStr s)))
  | TUnit => de_any d (unit_visitor (lit "unit"))
  | TOption t => de_option d (option_visitor (deserialize t))
  | TSeq t => de_any d (seq_visitor (lit "a sequence")
                          (fun l => res_map EVSeq (all_elements (deserialize t) l 0%N)))
  | TTuple ts =>
      let exp := lit "a tuple of size " ++ fmt_nat (N.of_nat (length ts)) in
      de_any d (seq_visitor exp
                  (fun l => res_map EVTuple (tuple_elements (map deserialize ts) exp l 0%N)))
  | TMap t => de_any d (map_visitor (lit "a map")
                          (fun l => res_map EVMap (map_entries (deserialize t) l [])))
  | TPairs k t => de_any d (map_visitor (lit "a map")
                     (fun l => res_map EVPairs (pair_entries (deserialize k) (deserialize t) l)))
  | TStruct name ident deny fs =>
      de_struct name d (struct_visitor (lit "struct " ++ ident) deny
                          (map (fun f => (fst f, deserialize (snd f))) fs) EVStruct)
  | TNewtype ident t => de_newtype d (newtype_visitor (lit "tuple struct " ++ ident) (deserialize t))
  | TTupleStruct ident ts =>
      de_any d (tuple_visitor (lit "tuple struct " ++ ident) (map deserialize ts) EVTuple)
  | TUnitStruct ident => de_any d (unit_visitor (lit "unit struct " ++ ident))
  | TEnum ident vs =>
      de_enum d (enum_visitor ident
        (map (fun nv => (fst nv, match snd nv with
                                 | ShUnit => ShUnit
                                 | ShNew t => ShNew (deserialize t)
                                 | ShTuple ts => ShTuple (map deserialize ts)
                                 | ShStruct fs => ShStruct (map (fun f => (fst f, deserialize (snd f))) fs)
                                 end)) vs))
  | TValue => res_map EVValue (deserialize_value d)
  | TTag => res_map EVTag (deserialize_tag d)
  | TProfile => de_any d (str_visitor (lit "a string") (fun s => Ok (EVProfile (mkProfile s))))
  | TPath => de_any d (str_visitor (lit "path string") (fun s => Ok (EVPath s)))
  | TIgnored => match d with DMissing f => Err (err_of_kind (KMissingField f)) | _ => Ok EVIgnored end
  | TBoolish => de_any d boolish_visitor
  | TEither a b =>
      res_bind (de_struct (struct_name a) d value_visitor) (fun v =>
        match deserialize a (DPlain v) with
        | Ok x => Ok (EVLeft x)
        | Err ea =>
            let v' := match option_bind (as_dict v) (get (last_field a)) with
                      | Some x => x
                      | None => v
                      end in
            match deserialize b (DPlain v') with
            | Ok x => Ok (EVRight x)
            | Err eb => Err (err_msg (fmt_kind (e_kind ea) ++ lit "; " ++ fmt_kind (e_kind eb)))
            end
        end)
  end.

(** ** Extraction *)

(** [Figment::extract] and [extract_lossy], figment.rs:483-486, 539-542. *)
Definition extract (i : interp) (f : figment) (t : ty) : res error dval :=
  res_bind (merged f) (fun v => deserialize t (DConf i f v)).

(** [Figment::extract_inner] and [extract_inner_lossy], figment.rs:569-573, 603-607. *)
Definition extract_inner (i : interp) (f : figment) (t : ty) (path : ustr) : res error dval :=
  res_bind (find_value f path)
           (fun v => res_map_err (with_path path) (deserialize t (DConf i f v))).

(** [Value::deserialize], value.rs:100-102. *)
Definition value_deserialize (t : ty) (v : value) : res error dval := deserialize t (DPlain v).

(** [RelativePathBuf::original] and [metadata_path], magic.rs:228, 337. *)
Definition rel_original (d : dval) : option ustr :=
  match d with
  | EVStruct [(_, _); (_, EVPath p)] => Some p
  | _ => None
  end.
Definition rel_source (d : dval) : option ustr :=
  match d with
  | EVStruct [(_, EVSome (EVPath p)); _] => Some p
  | _ => None
  end.
