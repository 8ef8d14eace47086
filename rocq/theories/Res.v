(** Results and panics.

    [res E A] models Rust's [Result<A, E>]; [out A] models a computation that may
    panic ([Panic]) or, in fuelled models, run out of fuel ([NoFuel]).  [NoFuel] does
    not exist in the code: it is proved unreachable where it is used. *)

Inductive res (E A : Type) : Type :=
| Ok (a : A)
| Err (e : E).
Arguments Ok {E A} a.
Arguments Err {E A} e.

Definition res_map {E A B} (f : A -> B) (r : res E A) : res E B :=
  match r with Ok a => Ok (f a) | Err e => Err e end.

Definition res_map_err {E F A} (f : E -> F) (r : res E A) : res F A :=
  match r with Ok a => Ok a | Err e => Err (f e) end.

Definition res_bind {E A B} (r : res E A) (f : A -> res E B) : res E B :=
  match r with Ok a => f a | Err e => Err e end.

Definition res_ok {E A} (r : res E A) : option A :=
  match r with Ok a => Some a | Err _ => None end.

Definition is_ok {E A} (r : res E A) : bool :=
  match r with Ok _ => true | Err _ => false end.

Inductive out (A : Type) : Type :=
| Ret (a : A)
| Panic
| NoFuel.
Arguments Ret {A} a.
Arguments Panic {A}.
Arguments NoFuel {A}.

Definition out_bind {A B} (x : out A) (f : A -> out B) : out B :=
  match x with Ret a => f a | Panic => Panic | NoFuel => NoFuel end.

Definition out_map {A B} (f : A -> B) (x : out A) : out B :=
  match x with Ret a => Ret (f a) | Panic => Panic | NoFuel => NoFuel end.

Definition option_bind {A B} (x : option A) (f : A -> option B) : option B :=
  match x with Some a => f a | None => None end.
