(** What a YAML document with merge keys says. *)
From Coq Require Import Ascii String ZArith NArith Bool.
From Coq Require Import List.
From Verif Require Import Res BMap Str Num Value Doc Yaml SpecLookup SpecInto SpecDoc.
Import ListNotations.

(** No map names a key twice. *)
Definition once (d : doc) : Prop := forall l, inside d (DocMap l) -> NoDup (map fst l).

(** [x], written under the merge key, names the maps [ms]: one map, or a sequence of maps. *)
Inductive bases : doc -> list (list (ustr * doc)) -> Prop :=
| bs_one m : bases (DocMap m) [m]
| bs_many ms : bases (DocSeq (map DocMap ms)) ms.

(** [x] stands under [k] in the map [l] once its merge key is honoured: the map's own entries come
    first, then those of its bases, in their order. *)
Inductive written (l : list (ustr * doc)) (k : ustr) (x : doc) : Prop :=
| wr_own : k <> lit "<<" -> In (k, x) l -> written l k x
| wr_base b m1 m m2 : In (lit "<<", b) l -> bases b (m1 ++ m :: m2) -> In (k, x) m ->
    (k = lit "<<" \/ forall y, ~ In (k, y) l) -> (forall m' y, In m' m1 -> ~ In (k, y) m') ->
    written l k x.

(** [d'] is [d] with the merge key of every map honoured. *)
Inductive resolved : doc -> doc -> Prop :=
| rs_scalar d : (forall x, d <> DocSome x) -> (forall l, d <> DocSeq l) -> (forall l, d <> DocMap l) ->
    (forall n x, d <> DocEnum n x) -> resolved d d
| rs_some d d' : resolved d d' -> resolved (DocSome d) (DocSome d')
| rs_seq l l' : Forall2 resolved l l' -> resolved (DocSeq l) (DocSeq l')
| rs_enum n d d' : resolved d d' -> resolved (DocEnum n d) (DocEnum n d')
| rs_map l l' :
    NoDup (map fst l') ->
    (forall k x, written l k x -> exists x', In (k, x') l' /\ resolved x x') ->
    (forall k x', In (k, x') l' -> exists x, written l k x /\ resolved x x') ->
    resolved (DocMap l) (DocMap l').

(** Something other than maps stands under the merge key of some map. *)
Inductive unmergeable : doc -> Prop :=
| um_here l b : In (lit "<<", b) l -> (forall ms, ~ bases b ms) -> unmergeable (DocMap l)
| um_map l k x : written l k x -> unmergeable x -> unmergeable (DocMap l)
| um_seq l x : In x l -> unmergeable x -> unmergeable (DocSeq l)
| um_enum n x : unmergeable x -> unmergeable (DocEnum n x)
| um_some x : unmergeable x -> unmergeable (DocSome x).

(** A document without merge keys. *)
Definition mergeless (d : doc) : Prop := forall l x, inside d (DocMap l) -> ~ In (lit "<<", x) l.

(** [y] stands at the keys [ks] of [d] once the merge keys are honoured. *)
Inductive written_at : doc -> list ustr -> doc -> Prop :=
| wa_here d : written_at d [] d
| wa_some d ks y : written_at d ks y -> written_at (DocSome d) ks y
| wa_key l k x ks y : written l k x -> written_at x ks y -> written_at (DocMap l) (k :: ks) y
| wa_enum n ks d r y : spells n ks -> written_at d r y -> written_at (DocEnum n d) (ks ++ r) y.
