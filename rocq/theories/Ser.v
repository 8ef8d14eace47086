(** Serialization into values: /repo/src/value/ser.rs, and the providers built on it:
    /repo/src/providers/serialized.rs and the tuple provider of /repo/src/provider.rs.

    What a Rust value's [Serialize] impl does (serde's impls for standard types and derived
    impls) is written down as a function on [dval]; it is part of the trusted base. *)
From Coq Require Import Ascii String ZArith NArith Bool.
From Coq Require Import List.
From Verif Require Import Res BMap Str Profile Tag Num Value NumParse Metadata Err Coalesce Figment Fmt De.
Import ListNotations.

(** [Serialize for Num], ser.rs:38-57, into [ValueSerializer]. *)
Definition serialized_num (n : num) : num :=
  match n with
  | NInt USize z => NInt U64 z
  | NInt ISize z => NInt I64 z
  | _ => n
  end.

(** [MapSerializer::end], ser.rs:336-343: [zip], [collect] into a [Dict]. *)
Definition map_end (l : list (ustr * value)) : value := VDict tag_default (collect l).

(** [util::map![variant => value].into()]. *)
Definition wrap_variant (variant : ustr) (v : value) : value :=
  VDict tag_default (insert variant v []).

(** [Serialize for Value], ser.rs:8-36, into [ValueSerializer]. *)
Fixpoint serialize_value (v : value) : value :=
  match v with
  | VString _ s => VString tag_default s
  | VChar _ c => VChar tag_default c
  | VBool _ b => VBool tag_default b
  | VNum _ n => VNum tag_default (serialized_num n)
  | VEmpty _ e => VEmpty tag_default e
  | VDict _ d => map_end (map (fun kv => (fst kv, serialize_value (snd kv))) d)
  | VArray _ l => VArray tag_default (map serialize_value l)
  end.

(** Collecting results, stopping at the first error ([?] in a loop). *)
Fixpoint all_ok {A} (l : list (res error A)) : res error (list A) :=
  match l with
  | [] => Ok []
  | r :: l' => res_bind r (fun a => res_map (cons a) (all_ok l'))
  end.

(** [MapSerializer::serialize_key], ser.rs:313-322. *)
Definition serialized_key (v : value) : res error ustr :=
  match v with
  | VString _ s => Ok s
  | _ => Err (err_of_kind (KUnsupportedKey (to_actual v) (lit "string")))
  end.

Definition named {A} (kv : ustr * res error A) : res error (ustr * A) :=
  res_map (fun v => (fst kv, v)) (snd kv).

(** [Value::serialize], value.rs:87-89, of a Rust value: [ValueSerializer], ser.rs:87-223,
    [SeqSerializer], ser.rs:225-298, [MapSerializer], ser.rs:300-372.
    [usize] and [isize] serialize as [u64] and [i64] (serde), [Tag] as [u64] (tag.rs:157-161),
    [Profile] and paths as strings; [RelativePathBuf] and [Tagged] as the structs they are
    (magic.rs:981-1021), [Either] as its content (magic.rs:1030-1051). *)
Fixpoint serialize (d : dval) : res error value :=
  match d with
  | EVBool b => Ok (VBool tag_default b)
  | EVInt k z => Ok (VNum tag_default (serialized_num (NInt k z)))
  | EVF32 x => Ok (VNum tag_default (NF32 x))
  | EVF64 x => Ok (VNum tag_default (NF64 x))
  | EVChar c => Ok (VChar tag_default c)
  | EVStr s => Ok (VString tag_default s)
  | EVUnit => Ok (VEmpty tag_default EUnit)
  | EVNone => Ok (VEmpty tag_default ENone)
  | EVSome d => serialize d
  | EVSeq l => res_map (VArray tag_default) (all_ok (map serialize l))
  | EVTuple l => res_map (VArray tag_default) (all_ok (map serialize l))
  | EVMap l => res_map map_end (all_ok (map (fun kv => named (fst kv, serialize (snd kv))) l))
  | EVPairs l =>
      res_map map_end
        (all_ok (map (fun kv => res_bind (res_bind (serialize (fst kv)) serialized_key)
                                  (fun k => named (k, serialize (snd kv)))) l))
  | EVStruct l => res_map map_end (all_ok (map (fun kv => named (fst kv, serialize (snd kv))) l))
  | EVNewtype d => serialize d
  | EVVariant name s =>
      match s with
      | ShUnit => Ok (VString tag_default name)
      | ShNew d => res_map (wrap_variant name) (serialize d)
      | ShTuple l =>
          res_map (fun x => wrap_variant name (VArray tag_default x)) (all_ok (map serialize l))
      | ShStruct l =>
          res_map (fun x => wrap_variant name (map_end x))
            (all_ok (map (fun kv => named (fst kv, serialize (snd kv))) l))
      end
  | EVValue v => Ok (serialize_value v)
  | EVTag t => Ok (VNum tag_default (NInt U64 (Z.of_N (tag_raw t))))
  | EVProfile p => Ok (VString tag_default (pname p))
  | EVPath s => Ok (VString tag_default s)
  | EVIgnored => Ok (VEmpty tag_default EUnit)
  | EVLeft d => serialize d
  | EVRight d => serialize d
  end.

(** [struct Serialized], serialized.rs:37-45. *)
Record serialized := mkSerialized {
  sz_value : dval; sz_key : option ustr; sz_profile : profile; sz_loc : location
}.

(** [Serialized::from], [profile], [key], serialized.rs:77-84, 154-157, 181-184. *)
Definition sz_from (v : dval) (p : profile) (loc : location) : serialized :=
  mkSerialized v None p loc.
Definition sz_with_profile (s : serialized) (p : profile) : serialized :=
  mkSerialized (sz_value s) (sz_key s) p (sz_loc s).
Definition sz_with_key (s : serialized) (key : ustr) : serialized :=
  mkSerialized (sz_value s) (Some key) (sz_profile s) (sz_loc s).
(** [defaults], [globals], [default], [global], serialized.rs:93-95, 104-106, 117-119,
    130-132. *)
Definition sz_defaults v loc := sz_from v p_default loc.
Definition sz_globals v loc := sz_from v p_global loc.
Definition sz_default key v loc := sz_with_key (sz_from v p_default loc) key.
Definition sz_global key v loc := sz_with_key (sz_from v p_global loc) key.

(** [Serialized::data], serialized.rs:192-201. *)
Definition sz_data (s : serialized) : res error (bmap profile dict) :=
  res_bind (serialize (sz_value s)) (fun value =>
    let error := err_of_kind (KInvalidType (to_actual value) (lit "map")) in
    let found := match sz_key s with
                 | Some key => as_dict (nest key value)
                 | None => as_dict value
                 end in
    match found with
    | Some d => Ok (profile_collect (sz_profile s) d)
    | None => Err error
    end).

(** [Provider for Serialized<T>], serialized.rs:187-202; [type_name] is
    [std::any::type_name::<T>()]. *)
Definition serialized_provider (type_name : ustr) (s : serialized) : provider :=
  mkProvider (md_from type_name (SCode (sz_loc s))) (sz_data s) None None.

(** [Provider for (K, V)], provider.rs:120-133. *)
Definition tuple_provider (k_name v_name : ustr) (key : ustr) (v : dval) (loc : location) : provider :=
  mkProvider (md_named (lit "(" ++ k_name ++ lit ", " ++ v_name ++ lit ")"))
             (sz_data (sz_global key v loc)) None None.
