(** What extracting a value as [Value] gives, reserved keys included. *)
From Coq Require Import Ascii String ZArith NArith Bool.
From Coq Require Import List.
From Verif Require Import Res BMap Str Profile Tag Num Value Metadata Err Figment De
  SpecValue SpecLossy SpecMagic SpecDoc.
Import ListNotations.

(** A number taken for a source's identity: any unsigned one of at most 64 bits. *)
Inductive id_number : value -> tag -> Prop :=
| idn t k z : In k [U8; U16; U32; U64; USize] -> id_number (VNum t (NInt k z)) (Tag (Z.to_N z)).

(** An integer type of fixed width for [usize] and [isize] values: the narrowest that holds them,
    the 64-bit one failing all others. *)
Definition narrowest (ks : list ikind) (widest : ikind) (z : Z) (k : ikind) : Prop :=
  first_holding ks z k \/ (Forall (fun j => ~ holds j z) ks /\ k = widest).
Definition of_width (n n' : num) : Prop :=
  match n with
  | NInt USize z => exists k, narrowest [U8; U16; U32] U64 z k /\ n' = NInt k z
  | NInt ISize z => exists k, narrowest [I8; I16; I32] I64 z k /\ n' = NInt k z
  | _ => n' = n
  end.

(** [taken kept v w]: [w] is the data of [v], with the sources of the parts of [v] if [kept]
    holds, and without otherwise; [v]'s own source is not part of it.  A dictionary with the
    reserved key [value_value] stands for what is under that key, coming from the source under
    [value_id] if there is one; a [value_id] alone is dropped. *)
Inductive taken (kept : bool) : value -> value -> Prop :=
| tk_string t s : taken kept (VString t s) (VString tag_default s)
| tk_char t c : taken kept (VChar t c) (VChar tag_default c)
| tk_bool t b : taken kept (VBool t b) (VBool tag_default b)
| tk_num t n n' : of_width n n' -> taken kept (VNum t n) (VNum tag_default n')
| tk_empty t e : taken kept (VEmpty t e) (VEmpty tag_default e)
| tk_array t l ws :
    Forall2 (fun x w => exists u, taken kept x u /\ w = if kept then sourced (vtag x) u else u) l ws ->
    taken kept (VArray t l) (VArray tag_default ws)
| tk_dict t d m :
    (forall x, In (value_id, x) d -> exists t', id_number x t') ->
    (forall x, ~ In (value_value, x) d) ->
    sorted m ->
    (forall k x, In (k, x) d -> k <> value_id ->
       exists u, taken kept x u /\ In (k, if kept then sourced (vtag x) u else u) m) ->
    (forall k w, In (k, w) m -> k <> value_id /\ exists x, In (k, x) d) ->
    taken kept (VDict t d) (VDict tag_default m)
| tk_value t d x u :
    (forall y, ~ In (value_id, y) d) ->
    (forall k y, In (k, y) d -> exists u, taken kept y u) ->
    In (value_value, x) d -> taken kept x u ->
    taken kept (VDict t d) u
| tk_sourced t d x u y t' :
    In (value_id, y) d -> id_number y t' ->
    (forall k y, In (k, y) d -> k <> value_id -> exists u, taken kept y u) ->
    In (value_value, x) d -> taken kept x u ->
    taken kept (VDict t d) (sourced t' u).

(** [t] is the source of some part of [v], or a number under [value_id] in it. *)
Definition named_source (v : value) (t : tag) : Prop :=
  (exists p x, reach p v x /\ vtag x = t) \/
  (exists p t0 d y, reach p v (VDict t0 d) /\ In (value_id, y) d /\ id_number y t).
