(** serde's buffered values.

    Derived code for [#[serde(flatten)]] and [#[serde(untagged)]] does not read the deserializer
    directly: it first copies what it is given into serde's private [Content] and reads the
    copy.  Both attributes occur with Figment: /repo/src/lib.rs:577 (the tip on [flatten]) and
    /repo/tests/enum.rs:23-28 ([untagged]).  What Figment contributes is the visits made by
    [ConfiguredValueDe] and [&Value] (/repo/src/value/de.rs:76-91, 266-281); [Content] and its
    deserializers are serde's (serde 1.0, [serde::__private::de]) and part of the trusted base.

    Simplifications: byte strings, [Content::Some] and [Content::Newtype] are left out, and keys
    of maps are strings, because the visits of figment's deserializers make no others. *)
From Coq Require Import Ascii String ZArith NArith Bool.
From Coq Require Import Floats.SpecFloat.
From Coq Require Import List.
From Verif Require Import Res BMap Str Profile Tag Num Value NumParse Metadata Err Coalesce Figment Fmt De.
Import ListNotations.

(** serde's [Content]. *)
Inductive content :=
| CBool (b : bool) | CInt (k : ikind) (z : Z) | CF32 (x : spec_float) | CF64 (x : spec_float)
| CChar (c : uchar) | CStr (s : ustr) | CUnit | CNone
| CSeq (l : list content)
| CMap (l : list (ustr * content)).

(** ** Copying *)

(** serde's [ContentVisitor] on the number visits of de.rs:338-376: there is no room for
    128-bit integers. *)
Definition num_content (n : num) : res error content :=
  match n with
  | NInt U128 z => invalid_type (AOther (lit "integer `" ++ fmt_int z ++ lit "` as u128")) (lit "any value")
  | NInt I128 z => invalid_type (AOther (lit "integer `" ++ fmt_int z ++ lit "` as i128")) (lit "any value")
  | NInt USize z => Ok (CInt (fitting false z) z)
  | NInt ISize z => Ok (CInt (fitting true z) z)
  | NInt k z => Ok (CInt k z)
  | NF32 x => Ok (CF32 x)
  | NF64 x => Ok (CF64 x)
  end.

(** [Content::deserialize]: [deserialize_any] with [ContentVisitor], as one recursion over the
    value.  Errors pass through [MapDe::next_value_seed], [SeqDe::next_element_seed]
    (de.rs:204-256) and [deserialize_any] (de.rs:90, 280) as usual. *)
Fixpoint buffer (m : mode) (v : value) : res error content :=
  mode_settle m (vtag v)
  (match v with
   | VString _ s => Ok (CStr s)
   | VChar _ c => Ok (CChar c)
   | VBool _ b => Ok (CBool b)
   | VNum _ n => num_content n
   | VEmpty _ EUnit => Ok CUnit
   | VEmpty _ ENone => Ok CNone
   | VDict _ d =>
       res_map CMap
         ((fix go (d : list (ustr * value)) : res error (list (ustr * content)) :=
             match d with
             | [] => Ok []
             | (k, x) :: r =>
                 res_bind (at_key k (vtag x) (buffer m x)) (fun c => res_map (cons (k, c)) (go r))
             end) d)
   | VArray _ l =>
       res_map CSeq
         ((fix go (l : list value) (n : N) : res error (list content) :=
             match l with
             | [] => Ok []
             | x :: r =>
                 res_bind (res_map_err (prefixed (fmt_nat n)) (buffer m x)) (fun c => res_map (cons c) (go r (n + 1)%N))
             end) l 0%N)
   end).

(** [Content::deserialize] on any deserializer. *)
Definition deserialize_content (d : deser) : res error content :=
  match d with
  | DConf i f v => buffer (MConf i f) v
  | DPlain v => buffer MPlain v
  | DStr s => Ok (CStr s)
  | DU32 z => Ok (CInt U32 z)
  | DMissing f => Err (err_of_kind (KMissingField f))
  end.

(** ** Reading the copy *)

(** [Content::unexpected]. *)
Definition unexpected (c : content) : actual :=
  match c with
  | CBool b => ABool b
  | CInt (U8 | U16 | U32 | U64 | U128 | USize) z => AUnsigned z
  | CInt _ z => ASigned z
  | CF32 x => AFloat (f32_to_f64 x)
  | CF64 x => AFloat x
  | CChar c => AChar c
  | CStr s => AStr s
  | CUnit => AUnit
  | CNone => AOption
  | CSeq _ => ASeq
  | CMap _ => AMap
  end.
(** What a visitor without the method says of it: a character is visited as a string. *)
Definition unexpected_visit (c : content) : actual :=
  match c with CChar c => AStr [c] | _ => unexpected c end.

(** [Deserialize for Tag] (tag.rs:135-155): [deserialize_any], [visit_u64]. *)
Definition content_tag (c : content) : res error tag :=
  match c with
  | CInt (U8 | U16 | U32 | U64 | U128 | USize) z => Ok (Tag (Z.to_N z))
  | _ => invalid_type (unexpected_visit c) (lit "a 64-bit metadata id integer")
  end.

(** [Value::deserialize] (de.rs:430-441): a copy's [is_human_readable] does not alternate, so this
    is [deserialize_any] with [ValueVisitor] (de.rs:454-537). *)
Fixpoint content_value (c : content) : res error value :=
  match c with
  | CBool b => Ok (VBool tag_default b)
  | CInt k z => Ok (VNum tag_default (NInt k z))
  | CF32 x => Ok (VNum tag_default (NF32 x))
  | CF64 x => Ok (VNum tag_default (NF64 x))
  | CChar c => Ok (VChar tag_default c)
  | CStr s => Ok (VString tag_default s)
  | CUnit => Ok (VEmpty tag_default EUnit)
  | CNone => Ok (VEmpty tag_default ENone)
  | CSeq l =>
      res_map (VArray tag_default)
        ((fix go (l : list content) : res error (list value) :=
            match l with
            | [] => Ok []
            | x :: r => res_bind (content_value x) (fun y => res_map (cons y) (go r))
            end) l)
  | CMap l =>
      (fix go (l : list (ustr * content)) (acc : dict) (id : option tag) (raw : option value) : res error value :=
         match l with
         | [] => Ok (finish_map acc id raw)
         | (k, x) :: r =>
             if ueqb k value_id then res_bind (content_tag x) (fun t => go r acc (Some t) raw)
             else if ueqb k value_value then res_bind (content_value x) (fun y => go r acc id (Some y))
             else res_bind (content_value x) (fun y => go r (insert k y acc) id raw)
         end) l [] None None
  end.

(** [Vec<T>]. *)
Fixpoint contents {A B} (rec : A -> res error B) (l : list A) : res error (list B) :=
  match l with
  | [] => Ok []
  | c :: r => res_bind (rec c) (fun y => res_map (cons y) (contents rec r))
  end.

(** serde's [ExpectedInSeq]. *)
Definition in_sequence (n : nat) : ustr :=
  fmt_nat (N.of_nat n) ++ (if Nat.eqb n 1 then lit " element in sequence" else lit " elements in sequence").
(** Elements in order, with serde's [SeqDeserializer::end]: nothing may follow them. *)
Fixpoint exact_elements (recs : list (content -> res error dval)) (short : ustr) (l : list content) (n : N)
  : res error (list dval) :=
  match recs with
  | [] => match l with
          | [] => Ok []
          | _ => invalid_length (n + N.of_nat (length l)) (in_sequence (N.to_nat n))
          end
  | rec :: rs =>
      match l with
      | [] => invalid_length n short
      | c :: r => res_bind (rec c) (fun y => res_map (cons y) (exact_elements rs short r (n + 1)%N))
      end
  end.

(** *** Derived structs *)

(** A field: its serde name, other names for it, the value to take when it is absent. *)
Record field (X : Type) := mkField {
  f_name : ustr; f_aliases : list ustr; f_default : option dval; f_type : X
}.
Arguments mkField {X}. Arguments f_name {X}. Arguments f_aliases {X}. Arguments f_default {X}. Arguments f_type {X}.
Definition f_names {X} (f : field X) : list ustr := f_name f :: f_aliases f.
Definition map_field {X Y} (h : X -> Y) (f : field X) : field Y :=
  mkField (f_name f) (f_aliases f) (f_default f) (h (f_type f)).

Definition field_of {X} (fs : list (field X)) (k : ustr) : option (field X) :=
  find (fun f => existsb (ueqb k) (f_names f)) fs.
Definition all_names {X} (fs : list (field X)) : list ustr := flat_map f_names fs.

(** The loop of [visit_map].  [other] copies the entries no field has a name for, if there are
    flattened fields to look at them; otherwise they are ignored, or refused if [deny]. *)
Fixpoint read_fields {A} (ann : A -> error -> error) (deny : bool) (other : option (A -> res error content))
  (fs : list (field (A -> res error dval))) (l : list (ustr * A)) (slots : list (ustr * dval))
  : res error (list (ustr * dval) * list (ustr * content)) :=
  match l with
  | [] => Ok (slots, [])
  | (k, a) :: r =>
      match field_of fs k with
      | Some f =>
          match assoc (f_name f) slots with
          | Some _ => Err (err_of_kind (KDuplicateField (f_name f)))
          | None => res_bind (f_type f a) (fun y => read_fields ann deny other fs r ((f_name f, y) :: slots))
          end
      | None =>
          match other with
          | Some copy => res_bind (copy a) (fun c =>
              res_map (fun sc => (fst sc, (k, c) :: snd sc)) (read_fields ann deny other fs r slots))
          | None => if deny then Err (ann a (err_of_kind (KUnknownField k (all_names fs))))
                    else read_fields ann deny other fs r slots
          end
      end
  end.

(** The fields in order of declaration, with what stands for the absent ones. *)
Fixpoint complete (fs : list (field (ustr -> res error dval))) (slots : list (ustr * dval))
  : res error (list (ustr * dval)) :=
  match fs with
  | [] => Ok []
  | f :: r =>
      res_bind (match assoc (f_name f) slots with
                | Some y => Ok y
                | None => match f_default f with Some y => Ok y | None => f_type f (f_name f) end
                end)
               (fun y => res_map (cons (f_name f, y)) (complete r slots))
  end.

(** [visit_seq]: elements in order of declaration. *)
Fixpoint read_elements {A} (next : N -> (A -> res error dval) -> A -> res error dval)
  (fs : list (field (A -> res error dval))) (short : ustr) (l : list A) (n : N)
  : res error (list (ustr * dval) * list A) :=
  match fs with
  | [] => Ok ([], l)
  | f :: fs' =>
      match l with
      | [] => match f_default f with
              | Some y => res_map (fun yr => ((f_name f, y) :: fst yr, snd yr)) (read_elements next fs' short [] (n + 1)%N)
              | None => invalid_length n short
              end
      | a :: r => res_bind (next n (f_type f) a) (fun y =>
                    res_map (fun yr => ((f_name f, y) :: fst yr, snd yr)) (read_elements next fs' short r (n + 1)%N))
      end
  end.

(** The same with serde's [SeqDeserializer::end]: nothing may follow the elements. *)
Definition whole_seq (fs : list (field (content -> res error dval))) (exp : ustr) (l : list content)
  : res error (list (ustr * dval)) :=
  res_bind (read_elements (fun _ rec c => rec c) fs (exp ++ elements_text (length fs)) l 0%N) (fun yr =>
    match snd yr with
    | [] => Ok (fst yr)
    | _ => invalid_length (N.of_nat (length l)) (in_sequence (length fs))
    end).

(** A derived struct or struct variant, without attributes, from a map or a sequence.  Absent
    fields are asked of the [MissingFieldDeserializer]. *)
Definition content_struct (exp : ustr) (deny : bool) (recs : list (field (content -> res error dval)))
  (absent : list (field (ustr -> res error dval))) (wrong : res error (list (ustr * dval))) (c : content)
  : res error (list (ustr * dval)) :=
  match c with
  | CMap l => res_bind (read_fields (fun _ e => e) deny None recs l []) (fun sc => complete absent (fst sc))
  | CSeq l => whole_seq recs exp l
  | _ => wrong
  end.
Definition just {X} (n : ustr) (x : X) : field X := mkField n [] None x.
Definition absent_fields (fs : list (ustr * ty)) : list (field (ustr -> res error dval)) :=
  map (fun f => just (fst f) (fun n => deserialize (snd f) (DMissing n))) fs.

(** serde's [ContentDeserializer] ([owned]) and [ContentRefDeserializer] on the [Deserialize]
    impl of each type (compare [De.deserialize]).  The two differ for unit structs only. *)
Fixpoint from_content (owned : bool) (t : ty) (c : content) {struct t} : res error dval :=
  let wrong exp := invalid_type (unexpected c) exp in
  match t with
  | TBool => match c with CBool b => Ok (EVBool b) | _ => wrong (lit "a boolean") end
  | TInt U128 => Err (err_msg (lit "u128 is not supported"))
  | TInt I128 => Err (err_msg (lit "i128 is not supported"))
  | TInt k =>
      match c with
      | CInt _ z => if in_range k z then Ok (EVInt k z) else invalid_value (unexpected c) (int_name k)
      | _ => wrong (int_name k)
      end
  | TF32 =>
      match c with
      | CF32 x => Ok (EVF32 x)
      | CF64 x => Ok (EVF32 (f64_to_f32 x))
      | CInt _ z => Ok (EVF32 (int_to_float f32_prec f32_emax z))
      | _ => wrong (lit "f32")
      end
  | TF64 =>
      match c with
      | CF32 x => Ok (EVF64 (f32_to_f64 x))
      | CF64 x => Ok (EVF64 x)
      | CInt _ z => Ok (EVF64 (int_to_float f64_prec f64_emax z))
      | _ => wrong (lit "f64")
      end
  | TChar =>
      match c with
      | CChar x => Ok (EVChar x)
      | CStr [x] => Ok (EVChar x)
      | CStr s => invalid_value (AStr s) (lit "a character")
      | _ => wrong (lit "a character")
      end
  | TString => match c with CStr s => Ok (EVStr s) | _ => wrong (lit "a string") end
  | TPath => match c with CStr s => Ok (EVPath s) | _ => wrong (lit "path string") end
  | TProfile => match c with CStr s => Ok (EVProfile (mkProfile s)) | _ => wrong (lit "a string") end
  | TUnit => match c with CUnit => Ok EVUnit | _ => wrong (lit "unit") end
  | TUnitStruct ident =>
      if owned
      then match c with
           | CUnit | CSeq [] | CMap [] => Ok EVUnit
           | _ => invalid_type (unexpected_visit c) (lit "unit struct " ++ ident)
           end
      else match c with CUnit => Ok EVUnit | _ => wrong (lit "unit struct " ++ ident) end
  | TOption t =>
      match c with
      | CNone | CUnit => Ok EVNone
      | _ => res_map EVSome (from_content owned t c)
      end
  | TSeq t =>
      match c with
      | CSeq l => res_map EVSeq (contents (from_content owned t) l)
      | _ => wrong (lit "a sequence")
      end
  | TTuple ts =>
      let exp := lit "a tuple of size " ++ fmt_nat (N.of_nat (length ts)) in
      match c with
      | CSeq l => res_map EVTuple (exact_elements (map (from_content owned) ts) exp l 0%N)
      | _ => wrong exp
      end
  | TTupleStruct ident ts =>
      let exp := lit "tuple struct " ++ ident in
      match c with
      | CSeq l => res_map EVTuple
                    (exact_elements (map (from_content owned) ts) (exp ++ elements_text (length ts)) l 0%N)
      | _ => wrong exp
      end
  | TMap t =>
      match c with
      | CMap l => res_map (fun l => EVMap (collect l))
                    (contents (fun e => res_map (pair (fst e)) (from_content owned t (snd e))) l)
      | _ => wrong (lit "a map")
      end
  | TPairs k t =>
      match c with
      | CMap l => res_map EVPairs
                    (contents (fun e => res_bind (from_content owned k (CStr (fst e)))
                                          (fun x => res_map (pair x) (from_content owned t (snd e)))) l)
      | _ => wrong (lit "a map")
      end
  | TNewtype _ t => res_map EVNewtype (from_content owned t c)
  | TStruct _ ident deny fs =>
      (* no name is special here *)
      res_map EVStruct
        (content_struct (lit "struct " ++ ident) deny (map (fun f => just (fst f) (from_content owned (snd f))) fs)
           (absent_fields fs) (invalid_type (unexpected c) (lit "struct " ++ ident)) c)
  | TEnum ident vs =>
      let unknown name := Err (err_of_kind (KUnknownVariant name (map fst vs))) in
      let shapes :=
        map (fun nv => (fst nv,
          match snd nv with
          | ShUnit => fun x => match x with
                               | None | Some CUnit => Ok ShUnit
                               | Some c => invalid_type (unexpected c) (lit "unit")
                               end
          | ShNew t => fun x => match x with
                                | None => invalid_type AUnitVariant (lit "newtype variant")
                                | Some c => res_map ShNew (from_content owned t c)
                                end
          | ShTuple ts => fun x =>
              match x with
              | None => invalid_type AUnitVariant (lit "tuple variant")
              | Some (CSeq l) => res_map ShTuple
                  (exact_elements (map (from_content owned) ts)
                     (lit "tuple variant " ++ (ident ++ lit "::" ++ fst nv) ++ elements_text (length ts)) l 0%N)
              | Some c => invalid_type (unexpected c) (lit "tuple variant")
              end
          | ShStruct fs => fun x =>
              match x with
              | None => invalid_type AUnitVariant (lit "struct variant")
              | Some c => res_map ShStruct
                  (content_struct (lit "struct variant " ++ (ident ++ lit "::" ++ fst nv)) false
                     (map (fun f => just (fst f) (from_content owned (snd f))) fs)
                     (absent_fields fs) (invalid_type (unexpected c) (lit "struct variant")) c)
              end
          end)) vs in
      match c with
      | CStr s => match assoc s shapes with
                  | Some h => res_map (EVVariant s) (h None)
                  | None => unknown s
                  end
      | CMap [(s, x)] => match assoc s shapes with
                         | Some h => res_map (EVVariant s) (h (Some x))
                         | None => unknown s
                         end
      | CMap _ => invalid_value AMap (lit "map with a single key")
      | _ => wrong (lit "string or map")
      end
  | TValue => res_map EVValue (content_value c)
  | TTag => res_map EVTag (content_tag c)
  | TIgnored => Ok EVIgnored
  | TBoolish =>
      match c with
      | CBool b => Ok (EVBool b)
      | CInt _ z => if (z =? 0)%Z || (z =? 1)%Z then Ok (EVBool (negb (z =? 0)%Z))
                    else invalid_value (unexpected c) (lit "0 or 1")
      | CChar x => invalid_value (AStr [x]) (lit "true or false")
      | CStr s => if uncased_eqb s (lit "true") then Ok (EVBool true)
                  else if uncased_eqb s (lit "false") then Ok (EVBool false)
                  else invalid_value (AStr s) (lit "true or false")
      | _ => wrong (lit "a boolean")
      end
  | TEither a b =>
      (* [deserialize_struct] takes maps and sequences only *)
      match c with
      | CMap _ | CSeq _ =>
          res_bind (content_value c) (fun v =>
            match deserialize a (DPlain v) with
            | Ok x => Ok (EVLeft x)
            | Err ea =>
                let v' := match option_bind (as_dict v) (get (last_field a)) with Some x => x | None => v end in
                match deserialize b (DPlain v') with
                | Ok x => Ok (EVRight x)
                | Err eb => Err (err_msg (fmt_kind (e_kind ea) ++ lit "; " ++ fmt_kind (e_kind eb)))
                end
            end)
      | _ => wrong (lit "any valid figment value")
      end
  end.
