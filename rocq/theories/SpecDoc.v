(** What a document says. *)
From Coq Require Import Ascii String ZArith NArith Bool.
From Coq Require Import Floats.SpecFloat.
From Coq Require Import List.
From Verif Require Import Res BMap Str Profile Tag Num Value Metadata Err Figment De Path Data Doc
  SpecValue SpecFigment SpecPriority SpecLookup SpecRt SpecInto.
Import ListNotations.

(** A number the crate takes for a source's identity. *)
Inductive doc_id : doc -> tag -> Prop :=
| di_int k z : In k [U8; U16; U32; U64] -> doc_id (DocInt k z) (Tag (Z.to_N z)).

(** The same data, from the source [t] wherever no source is known yet (the identifier is 0). *)
Fixpoint sourced (t : tag) (v : value) : value :=
  let from u := if (metadata_id u =? 0)%N then t else u in
  match v with
  | VString u s => VString (from u) s
  | VChar u c => VChar (from u) c
  | VBool u b => VBool (from u) b
  | VNum u n => VNum (from u) n
  | VEmpty u e => VEmpty (from u) e
  | VDict u d => VDict (from u) (map (fun kv => (fst kv, sourced t (snd kv))) d)
  | VArray u l => VArray (from u) (map (sourced t) l)
  end.

(** [v] is what [d] says: the same text, the same number of the same type, the same elements in
    the same order, under every key what is last written for it; a tagged value is nested under
    its tag; no source is known.  The two keys the crate reserves are not part of the data: a map
    with [value_value] stands for what is under that key, coming from the source under [value_id]
    if there is one; a [value_id] alone is dropped. *)
Inductive reads : doc -> value -> Prop :=
| rd_null : reads DocNull (VEmpty tag_default EUnit)
| rd_none : reads DocNone (VEmpty tag_default ENone)
| rd_some d v : reads d v -> reads (DocSome d) v
| rd_bool b : reads (DocBool b) (VBool tag_default b)
| rd_int k z : reads (DocInt k z) (VNum tag_default (NInt k z))
| rd_f32 x : reads (DocF32 x) (VNum tag_default (NF32 x))
| rd_f64 x : reads (DocF64 x) (VNum tag_default (NF64 x))
| rd_char c : reads (DocChar c) (VChar tag_default c)
| rd_str s : reads (DocStr s) (VString tag_default s)
| rd_seq l vs : Forall2 reads l vs -> reads (DocSeq l) (VArray tag_default vs)
| rd_enum name ks d v w : spells name ks -> reads d v -> nested_under ks v w ->
    reads (DocEnum name d) w
| rd_map l m :
    (forall x, In (value_id, x) l -> exists t, doc_id x t) ->
    (forall x, ~ In (value_value, x) l) ->
    (forall k x, In (k, x) l -> k <> value_id -> exists v, reads x v) ->
    sorted m ->
    (forall k x, given l k x -> k <> value_id -> exists v, In (k, v) m /\ reads x v) ->
    (forall k v, In (k, v) m -> k <> value_id /\ exists x, given l k x) ->
    reads (DocMap l) (VDict tag_default m)
| rd_value l x v :
    (forall y, ~ In (value_id, y) l) ->
    (forall k y, In (k, y) l -> exists v, reads y v) ->
    given l value_value x -> reads x v -> reads (DocMap l) v
| rd_sourced l x v y t :
    (forall y, In (value_id, y) l -> exists t, doc_id y t) ->
    (forall k y, In (k, y) l -> k <> value_id -> exists v, reads y v) ->
    given l value_value x -> reads x v -> given l value_id y -> doc_id y t ->
    reads (DocMap l) (sourced t v).

(** A document in which no map uses a reserved key. *)
Inductive plain_doc : doc -> Prop :=
| pd_scalar d : (forall x, d <> DocSome x) -> (forall l, d <> DocSeq l) -> (forall l, d <> DocMap l) ->
    (forall n x, d <> DocEnum n x) -> plain_doc d
| pd_some d : plain_doc d -> plain_doc (DocSome d)
| pd_seq l : Forall plain_doc l -> plain_doc (DocSeq l)
| pd_map l : (forall k x, In (k, x) l -> k <> value_id /\ k <> value_value) ->
    Forall (fun kv => plain_doc (snd kv)) l -> plain_doc (DocMap l)
| pd_enum n d : plain_doc d -> plain_doc (DocEnum n d).

(** [y] is written at the keys [ks] of [d]: for a key written more than once, the last time. *)
Inductive doc_at : doc -> list ustr -> doc -> Prop :=
| da_here d : doc_at d [] d
| da_some d ks y : doc_at d ks y -> doc_at (DocSome d) ks y
| da_key l k x ks y : given l k x -> doc_at x ks y -> doc_at (DocMap l) (k :: ks) y
| da_enum n ks d r y : spells n ks -> doc_at d r y -> doc_at (DocEnum n d) (ks ++ r) y.

(** A document without tagged values. *)
Inductive untagged_doc : doc -> Prop :=
| ud_scalar d : (forall x, d <> DocSome x) -> (forall l, d <> DocSeq l) -> (forall l, d <> DocMap l) ->
    (forall n x, d <> DocEnum n x) -> untagged_doc d
| ud_some d : untagged_doc d -> untagged_doc (DocSome d)
| ud_seq l : Forall untagged_doc l -> untagged_doc (DocSeq l)
| ud_map l : Forall (fun kv => untagged_doc (snd kv)) l -> untagged_doc (DocMap l).

(** [m] is the dictionary a map with the entries [l] says. *)
Definition says (l : list (ustr * doc)) (m : dict) : Prop :=
  (forall k x, In (k, x) l -> exists v, reads x v) /\
  sorted m /\
  (forall k x, given l k x -> exists v, In (k, v) m /\ reads x v) /\
  (forall k v, In (k, v) m -> exists x, given l k x).

(** [x] is written somewhere in [d]. *)
Inductive inside : doc -> doc -> Prop :=
| ins_here d : inside d d
| ins_some d y : inside d y -> inside (DocSome d) y
| ins_seq l x y : In x l -> inside x y -> inside (DocSeq l) y
| ins_map l k x y : In (k, x) l -> inside x y -> inside (DocMap l) y
| ins_enum n d y : inside d y -> inside (DocEnum n d) y.

(** The last section of [l] for the profile [p], profiles compared without regard to case. *)
Definition section {A} (l : list (ustr * A)) (p : profile) (x : A) : Prop :=
  exists l1 k l2, l = l1 ++ (k, x) :: l2 /\ same_profile (mkProfile k) p /\
    forall k' y, In (k', y) l2 -> ~ same_profile (mkProfile k') p.

(** [m] is the map of profiles a nested document with the sections [l] says: every section is a
    map; of sections for the same profile the last counts, under the spelling of the first. *)
Definition says_profiles (l : list (ustr * doc)) (m : bmap profile dict) : Prop :=
  (forall k x, In (k, x) l -> exists lx mx, x = DocMap lx /\ says lx mx) /\
  sorted m /\
  (forall p x, section l p x -> exists lx mx, x = DocMap lx /\ get p m = Some mx /\ says lx mx) /\
  (forall p mx, get p m = Some mx -> exists x, section l p x) /\
  (forall p mx, In (p, mx) m -> exists l1 x l2, l = l1 ++ (pname p, x) :: l2 /\
     forall k y, In (k, y) l1 -> ~ same_profile (mkProfile k) p).
