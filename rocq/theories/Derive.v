(** [#[derive(Deserialize)]] with attributes, as used with Figment: [#[serde(default)]]
    (/repo/src/providers/data.rs:229-233), [#[serde(rename)]], [rename_all]
    (/repo/tests/camel-case.rs:6) and [alias] (/repo/src/value/magic.rs:1459),
    [#[serde(flatten)]] (/repo/src/lib.rs:577) and [#[serde(untagged)]] (/repo/tests/enum.rs:23-28).

    What the derived code does is serde-derive's (1.0) and part of the trusted base, like the
    visitors in De.v; it runs against figment's deserializers of De.v and the buffers of
    Content.v.  Simplifications: [flatten] is on structs without attributes of their own other
    than on their fields, on [Option]s of these, and on maps; the variants of untagged enums are
    newtype variants. *)
From Coq Require Import Ascii String ZArith NArith Bool.
From Coq Require Import List.
From Verif Require Import Res BMap Str Profile Tag Num Value Metadata Err Coalesce Figment Fmt De Content.
Import ListNotations.

(** What [flatten] can be on: a struct, an option of one, a map. *)
Inductive flat (X : Type) :=
| FlStruct (opt : bool) (fs : list (field X))
| FlMap (x : X).
Arguments FlStruct {X}. Arguments FlMap {X}.
Definition map_flat {X Y} (h : X -> Y) (f : flat X) : flat Y :=
  match f with FlStruct opt fs => FlStruct opt (map (map_field h) fs) | FlMap x => FlMap (h x) end.

(** Target types with attributes. *)
Inductive xty :=
| XTy (t : ty)
| XOption (x : xty)
| XSeq (x : xty)
| XMap (x : xty)
| XStruct (ident : ustr) (deny : bool) (fs : list (field xty)) (flats : list (ustr * flat xty))
| XUntagged (ident : ustr) (vs : list (ustr * xty)).

(** An absent field without a default: [serde::__private::de::missing_field]. *)
Definition absent_field (x : xty) (name : ustr) : res error dval :=
  match x with
  | XTy t => deserialize t (DMissing name)
  | XOption _ => Ok EVNone
  | _ => Err (err_of_kind (KMissingField name))
  end.

(** ** Flattened fields *)

(** serde's [FlatStructAccess]: takes the entries of the struct's fields out of what was copied,
    and stops where reading one fails. *)
Fixpoint take_fields (fs : list (field (content -> res error dval))) (l : list (ustr * content)) (slots : list (ustr * dval))
  : res error (list (ustr * dval)) * list (ustr * content) :=
  match l with
  | [] => (Ok slots, [])
  | (k, c) :: r =>
      match field_of fs k with
      | None => let (s, rest) := take_fields fs r slots in (s, (k, c) :: rest)
      | Some f =>
          match assoc (f_name f) slots with
          | Some _ => (Err (err_of_kind (KDuplicateField (f_name f))), r)
          | None => match f_type f c with
                    | Ok y => take_fields fs r ((f_name f, y) :: slots)
                    | Err e => (Err e, r)
                    end
          end
      end
  end.

(** The flattened fields in order of declaration: serde's [FlatMapDeserializer].  A map sees what
    no struct has taken before it, and leaves it there.  For an [Option], any error is [None]. *)
Definition reader := ((content -> res error dval) * (ustr -> res error dval))%type.
Fixpoint read_flats (fls : list (ustr * flat reader)) (l : list (ustr * content))
  : res error (list (ustr * dval) * list (ustr * content)) :=
  match fls with
  | [] => Ok ([], l)
  | (n, FlStruct opt fs) :: r =>
      let (s, rest) := take_fields (map (map_field fst) fs) l [] in
      let y := res_map EVStruct (res_bind s (complete (map (map_field snd) fs))) in
      res_bind (if opt then Ok (match y with Ok y => EVSome y | Err _ => EVNone end) else y)
        (fun y => res_map (fun yr => ((n, y) :: fst yr, snd yr)) (read_flats r rest))
  | (n, FlMap rd) :: r =>
      res_bind (res_map (fun l => EVMap (collect l))
                  (contents (fun e => res_map (pair (fst e)) (fst rd (snd e))) l))
        (fun y => res_map (fun yr => ((n, y) :: fst yr, snd yr)) (read_flats r l))
  end.

(** All of [visit_map] and what follows it. *)
Definition read_struct {A} (ann : A -> error -> error) (deny : bool) (copy : A -> res error content)
  (fs : list (field (A -> res error dval))) (absent : list (field (ustr -> res error dval)))
  (fls : list (ustr * flat reader)) (l : list (ustr * A)) : res error dval :=
  res_bind (read_fields ann deny (match fls with [] => None | _ => Some copy end) fs l []) (fun sc =>
  res_bind (complete absent (fst sc)) (fun own =>
  res_bind (read_flats fls (snd sc)) (fun yr =>
    match fls, deny, snd yr with
    | _ :: _, true, (k, _) :: _ => Err (err_msg (lit "unknown field `" ++ k ++ lit "`"))
    | _, _, _ => Ok (EVStruct (own ++ fst yr))
    end))).

(** ** Untagged enums: the first variant that fits *)
Fixpoint first_fitting (ident : ustr) (vs : list (ustr * (content -> res error dval))) (c : content) : res error dval :=
  match vs with
  | [] => Err (err_msg (lit "data did not match any variant of untagged enum " ++ ident))
  | (n, rec) :: r => match rec c with Ok y => Ok (EVVariant n (ShNew y)) | Err _ => first_fitting ident r c end
  end.

(** ** The [Deserialize] impls *)

(** From a copy; copying a copy gives it back. *)
Fixpoint xcontent (owned : bool) (x : xty) (c : content) {struct x} : res error dval :=
  match x with
  | XTy t => from_content owned t c
  | XOption x => match c with CNone | CUnit => Ok EVNone | _ => res_map EVSome (xcontent owned x c) end
  | XSeq x =>
      match c with
      | CSeq l => res_map EVSeq (contents (xcontent owned x) l)
      | _ => invalid_type (unexpected c) (lit "a sequence")
      end
  | XMap x =>
      match c with
      | CMap l => res_map (fun l => EVMap (collect l))
                    (contents (fun e => res_map (pair (fst e)) (xcontent owned x (snd e))) l)
      | _ => invalid_type (unexpected c) (lit "a map")
      end
  | XStruct ident deny fs fls =>
      let exp := lit "struct " ++ ident in
      let recs := map (map_field (xcontent owned)) fs in
      let absent := map (map_field absent_field) fs in
      let flats :=
        map (fun nf => (fst nf, match snd nf with
                                | FlStruct opt fs => FlStruct opt (map (map_field (fun x => (xcontent true x, absent_field x))) fs)
                                | FlMap x => FlMap (xcontent false x, absent_field x)
                                end)) fls in
      match c with
      | CMap l => read_struct (fun _ e => e) deny Ok recs absent flats l
      | CSeq l =>
          match flats with
          | [] => res_map EVStruct (whole_seq recs exp l)
          | _ => invalid_type ASeq exp
          end
      | _ => invalid_type (unexpected c) exp
      end
  | XUntagged ident vs => first_fitting ident (map (fun nv => (fst nv, xcontent false (snd nv))) vs) c
  end.

(** From any deserializer.  With flattened fields, derived code calls [deserialize_map] and has no
    [visit_seq]. *)
Fixpoint xdeserialize (x : xty) (d : deser) {struct x} : res error dval :=
  match x with
  | XTy t => deserialize t d
  | XOption x => de_option d (option_visitor (xdeserialize x))
  | XSeq x => de_any d (seq_visitor (lit "a sequence") (fun l => res_map EVSeq (all_elements (xdeserialize x) l 0%N)))
  | XMap x => de_any d (map_visitor (lit "a map") (fun l => res_map EVMap (map_entries (xdeserialize x) l [])))
  | XStruct ident deny fs fls =>
      let exp := lit "struct " ++ ident in
      let absent := map (map_field absent_field) fs in
      let flats :=
        map (fun nf => (fst nf, match snd nf with
                                | FlStruct opt fs => FlStruct opt (map (map_field (fun x => (xcontent true x, absent_field x))) fs)
                                | FlMap x => FlMap (xcontent false x, absent_field x)
                                end)) fls in
      let from_map l :=
        read_struct (fun (a : entry) e => let '(k, t, _) := a in retagged t (prefixed k e)) deny
          (next_value deserialize_content) (map (map_field (fun x => next_value (xdeserialize x))) fs) absent flats
          (map (fun a : entry => (fst (fst a), a)) l) in
      let from_seq l :=
        res_map (fun yr => EVStruct (fst yr))
          (read_elements (fun n rec d => next_element rec n d) (map (map_field xdeserialize) fs)
             (exp ++ elements_text (length fs)) l 0%N) in
      match fls with
      | [] => de_struct ident d
                (mkVisitor exp None None None None None None None None None None None None None
                   (Some from_seq) (Some from_map) None)
      | _ => de_any d (map_visitor exp from_map)
      end
  | XUntagged ident vs =>
      res_bind (deserialize_content d) (first_fitting ident (map (fun nv => (fst nv, xcontent false (snd nv))) vs))
  end.

(** [Figment::extract] and [extract_lossy] (figment.rs:483-486, 539-542) at such a type. *)
Definition xextract (i : interp) (f : figment) (x : xty) : res error dval :=
  res_bind (merged f) (fun v => xdeserialize x (DConf i f v)).
