(** [std::collections::BTreeMap] as an association list sorted by the key's [Ord].

    [get], [insert], [remove], [extend], iteration order and [FromIterator] follow the
    documented behaviour of [BTreeMap] (the crate's [Map], /repo/src/value/value.rs:11):
    keys strictly increasing; inserting under an equal key replaces the value and keeps
    the key already present. *)
From Coq Require Import List.
Import ListNotations.

Class Cmp (K : Type) := cmp : K -> K -> comparison.

(** The laws an [Ord] implementation must satisfy. *)
Class CmpLaws (K : Type) {C : Cmp K} : Prop := {
  cmp_refl : forall x : K, cmp x x = Eq;
  cmp_sym : forall x y : K, cmp y x = CompOpp (cmp x y);
  cmp_lt_trans : forall x y z : K, cmp x y = Lt -> cmp y z = Lt -> cmp x z = Lt;
  cmp_eq_l : forall x y z : K, cmp x y = Eq -> cmp x z = cmp y z
}.

(** Keys whose [Ord] agrees with equality. *)
Class CmpLeibniz (K : Type) {C : Cmp K} : Prop :=
  cmp_leibniz : forall x y : K, cmp x y = Eq -> x = y.

Definition bmap (K V : Type) := list (K * V).

Section BMap.
  Context {K V : Type} {C : Cmp K}.

  (** [BTreeMap::get]. *)
  Fixpoint get (k : K) (m : bmap K V) : option V :=
    match m with
    | [] => None
    | (k', v) :: r => match cmp k k' with Eq => Some v | _ => get k r end
    end.

  (** [BTreeMap::insert]. *)
  Fixpoint insert (k : K) (v : V) (m : bmap K V) : bmap K V :=
    match m with
    | [] => [(k, v)]
    | (k', v') :: r =>
        match cmp k k' with
        | Lt => (k, v) :: m
        | Eq => (k', v) :: r
        | Gt => (k', v') :: insert k v r
        end
    end.

  (** [BTreeMap::remove]: the removed value and what remains. *)
  Fixpoint take (k : K) (m : bmap K V) : option (V * bmap K V) :=
    match m with
    | [] => None
    | (k', v') :: r =>
        match cmp k k' with
        | Eq => Some (v', r)
        | _ => match take k r with
               | Some (v, r') => Some (v, (k', v') :: r')
               | None => None
               end
        end
    end.

  (** The map without key [k] (second half of [take]; used in specifications). *)
  Fixpoint remove (k : K) (m : bmap K V) : bmap K V :=
    match m with
    | [] => []
    | (k', v') :: r => match cmp k k' with Eq => r | _ => (k', v') :: remove k r end
    end.

  (** [Extend for BTreeMap]: insert one by one. *)
  Fixpoint extend (m l : bmap K V) : bmap K V :=
    match l with
    | [] => m
    | (k, v) :: r => extend (insert k v m) r
    end.

  (** [FromIterator for BTreeMap], for keys whose [Ord] agrees with equality: later
      entries win. *)
  Definition collect (l : list (K * V)) : bmap K V := extend [] l.

  (** [k] is below every key of [m]. *)
  Fixpoint lt_all (k : K) (m : bmap K V) : Prop :=
    match m with
    | [] => True
    | (k', _) :: r => cmp k k' = Lt /\ lt_all k r
    end.

  (** Strictly increasing keys: the representation invariant of [BTreeMap]. *)
  Fixpoint sorted (m : bmap K V) : Prop :=
    match m with
    | [] => True
    | (k, _) :: r => lt_all k r /\ sorted r
    end.

  Definition keys (m : bmap K V) : list K := map fst m.
  Definition values (m : bmap K V) : list V := map snd m.
End BMap.
