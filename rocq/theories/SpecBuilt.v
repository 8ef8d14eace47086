(** Which provide operations went into a Figment, those of the Figments provided to it included. *)
From Coq Require Import NArith List.
From Verif Require Import Res BMap Tag Metadata Err Coalesce Figment SpecValue SpecFigment.
Import ListNotations.

(** [built H f ids]: like [reachable H f], counting the operations [f] was made with by the
    identifiers they drew. *)
Inductive built : list provision -> figment -> list N -> Prop :=
| BU_new H : built H fig_new []
| BU_other H f n ids : built H f ids -> built (H ++ [n]) f ids
| BU_select H f p ids : built H f ids -> built H (fig_select f p) ids
| BU_provide H f loc o p f' c' ids :
    built H f ids -> plain p -> provide loc f p o (next_id H) = (Ret f', c') ->
    built (H ++ [mkProvision loc p]) f' (ids ++ [next_id H])
| BU_figment H f g loc o f' c' ids ids' :
    built H f ids -> built H g ids' ->
    provide loc f (figment_provider g) o (next_id H) = (Ret f', c') ->
    built (H ++ [mkProvision loc (figment_provider g)]) f' (ids ++ ids' ++ [next_id H]).

(** Each once and in the order in which they were drawn. *)
Fixpoint increasing (l : list N) : Prop :=
  match l with
  | [] => True
  | i :: r => (forall j, In j r -> (i < j)%N) /\ increasing r
  end.
