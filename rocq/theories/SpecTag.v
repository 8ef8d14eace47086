(** Specification of tag allocation by threads. *)
From Coq Require Import NArith List.
From Verif Require Import Res Profile Tag.
Import ListNotations.
Local Open Scope N_scope.

(** A schedule is the sequence of threads in the order in which their atomic increments take
    effect; [draws] lists what each of them gets. *)
Fixpoint draws (sched : list N) (c : N) : list (N * out tag) :=
  match sched with
  | [] => []
  | thread :: r => let '(t, c') := tag_next c in (thread, t) :: draws r c'
  end.

(** The tags that were obtained (operations that did not panic). *)
Fixpoint obtained (l : list (N * out tag)) : list tag :=
  match l with
  | [] => []
  | (_, Ret t) :: r => t :: obtained r
  | _ :: r => obtained r
  end.
