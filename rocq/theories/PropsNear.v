(** Rounding (C26), what numbers give when asked for a type (C57), and conversions into values
    (C58). *)
From Coq Require Import Ascii String ZArith NArith Bool QArith Lia.
From Coq Require Import Floats.SpecFloat.
From Coq Require Import List.
From Verif Require Import Res BMap Str Tag Num Value NumParse Err De Ser Into SpecNear NearProofs SpecInto IntoProofs.
Import ListNotations.
Local Open Scope Z_scope.

(** ** C26: rounding is well-defined, and is what the parser and the casts do. *)
(** In single and in double precision, every number rounds to exactly one float. *)
Theorem C26_rounding : forall prec emax neg q,
  (prec, emax) = (24, 128) \/ (prec, emax) = (53, 1024) -> (0 <= q)%Q ->
  exists x, forall y, rounds_to prec emax neg (signed neg q) y <-> y = x.
Proof.
  intros prec emax neg q F Q.
  assert (O : ok_format prec emax) by (destruct F as [[= -> ->]|[= -> ->]]; [exact ok_single|exact ok_double]).
  destruct (rounds_total prec emax neg q O Q) as [x X]. exists x. intros y.
  split; [intros Y; exact (rounds_unique _ _ _ _ _ _ O Y X)|intros ->; exact X].
Qed.
Print Assumptions C26_rounding.

(** A number the format can hold is kept as it is. *)
Theorem C26_exact : forall prec emax neg q x,
  (prec, emax) = (24, 128) \/ (prec, emax) = (53, 1024) ->
  representable prec emax q -> rounds_to prec emax neg q x -> (fvalue x == q)%Q.
Proof.
  intros prec emax neg q x F R H.
  assert (O : ok_format prec emax) by (destruct F as [[= -> ->]|[= -> ->]]; [exact ok_single|exact ok_double]).
  exact (proj1 (rounds_exact _ _ _ _ _ O H R)).
Qed.
Print Assumptions C26_exact.

(** 0.1 is a tie-free rounding; 2^24 + 1 is a tie, resolved to even; 10^39 is too large for a
    single; 10^-46 rounds to zero. *)
Example C26_ex_rounding :
  rounds_to 53 1024 false (1 # 10) (S754_finite false 7205759403792794 (-56))
  /\ rounds_to 24 128 false (inject_Z 16777217) (S754_finite false 8388608 1)
  /\ rounds_to 24 128 true (inject_Z (- 10 ^ 39)) (S754_infinity true)
  /\ rounds_to 24 128 false (decimal_value false 1 (-46)) (S754_zero false).
Proof.
  split; [apply (decimal_nearest 53 1024 false 1 (-1)); [exact ok_double|discriminate]|].
  split; [exact (int_nearest 24 128 16777217 ok_single)|].
  split; [exact (int_nearest 24 128 (- 10 ^ 39) ok_single)|].
  apply (decimal_nearest 24 128 false 1 (-46)); [exact ok_single|discriminate].
Qed.

(** ** C57 *)
(** Asked for an integer type, a number answers with itself or not at all: unsigned variants
    answer [to_u128], signed ones [to_i128], the narrow unsigned ones [to_u32]; [to_u128_lossy]
    answers for every integer that is not negative; floats answer none of them. *)
Theorem C57_integers : forall n z,
  (num_to_u32 n = Some z <-> integer_of narrow n z) /\
  (num_to_u128 n = Some z <-> integer_of unsigned_types n z) /\
  (num_to_i128 n = Some z <-> integer_of signed_types n z) /\
  (num_ok n = true -> num_to_u128_lossy n = Some z <-> (exists k, n = NInt k z) /\ 0 <= z).
Proof.
  intros n z. split; [apply num_to_u32_spec|]. split; [apply num_to_u128_spec|].
  split; [apply num_to_i128_spec|apply num_to_u128_lossy_spec].
Qed.
Print Assumptions C57_integers.

(** The answer fits the type asked for, so no cast on the way there changes it. *)
Theorem C57_casts : forall n z, num_ok n = true ->
  (num_to_u32 n = Some z -> in_range U32 z = true /\ wrap U32 z = z) /\
  (num_to_u128 n = Some z -> in_range U128 z = true /\ wrap U128 z = z) /\
  (num_to_i128 n = Some z -> in_range I128 z = true /\ wrap I128 z = z) /\
  (num_to_u128_lossy n = Some z -> in_range U128 z = true /\ wrap U128 z = z).
Proof.
  intros n z O.
  assert (W : forall k, in_range k z = true -> in_range k z = true /\ wrap k z = z).
  { intros k H. split; [exact H|apply wrap_in_range, H]. }
  split; [|split; [|split]].
  - intros H. apply num_to_u32_spec in H. destruct H as [k [I ->]]. apply W.
    apply (wider_range k); [|exact O]. apply in_or_app. left. apply in_prod; [exact I|left; reflexivity].
  - intros H. apply num_to_u128_spec in H. destruct H as [k [I ->]]. apply W.
    apply (wider_range k); [|exact O]. apply in_or_app. right. apply in_or_app. left.
    apply in_prod; [exact I|left; reflexivity].
  - intros H. apply num_to_i128_spec in H. destruct H as [k [I ->]]. apply W.
    apply (wider_range k); [|exact O]. apply in_or_app. right. apply in_or_app. right.
    apply in_prod; [exact I|left; reflexivity].
  - intros H. apply num_to_u128_lossy_spec in H; [|exact O]. destruct H as [[k ->] P]. apply W.
    apply (cast_lossy k); [exact O|exact P].
Qed.
Print Assumptions C57_casts.

(** Asked for a double, floats answer and integers do not; a single answers with the double of
    the same value and sign. *)
Theorem C57_floats : forall n f, num_ok n = true ->
  (num_to_f64 n = Some f <-> double_of n f) /\
  (forall s m e, n = NF32 (S754_finite s m e) -> num_to_f64 n = Some f ->
     (fvalue f == fvalue (S754_finite s m e))%Q /\ float_sign f = s).
Proof.
  intros n f O. split; [apply num_to_f64_spec|]. intros s m e -> H.
  apply num_to_f64_spec in H. destruct H as [H|[x [[= <-] H]]]; [discriminate|].
  apply (single_widens (S754_finite s m e) f); [|exact H]. apply valid_canonical; [exact ok_single|exact O].
Qed.
Print Assumptions C57_floats.

(** The accessors of [Value] answer for the variant they are named after, whatever its tag. *)
Theorem C57_values : forall v,
  (forall s, as_str v = Some s <-> exists t, v = VString t s) /\
  (forall c, to_char v = Some c <-> exists t, v = VChar t c) /\
  (forall b, to_bool v = Some b <-> exists t, v = VBool t b) /\
  (forall n, to_num v = Some n <-> exists t, v = VNum t n) /\
  (forall e, to_empty v = Some e <-> exists t, v = VEmpty t e) /\
  (forall d, as_dict v = Some d <-> exists t, v = VDict t d) /\
  (forall l, as_array v = Some l <-> exists t, v = VArray t l) /\
  (forall z, to_u128 v = Some z <-> exists t n, v = VNum t n /\ integer_of unsigned_types n z) /\
  (forall z, to_i128 v = Some z <-> exists t n, v = VNum t n /\ integer_of signed_types n z) /\
  (forall f, to_f64 v = Some f <-> exists t n, v = VNum t n /\ double_of n f).
Proof.
  intros v.
  assert (B : forall A (g : num -> option A) (a : A),
            option_bind (to_num v) g = Some a <-> exists t n, v = VNum t n /\ g n = Some a).
  { intros A g a. destruct v; cbn; try (split; [discriminate|intros [t' [n' [X _]]]; discriminate]).
    split; [intros H; eauto|]. intros [t' [n' [[= <- <-] H]]]. exact H. }
  repeat match goal with |- _ /\ _ => split end;
    try (intros x; destruct v; cbn; (split; [intros [=]; subst; eauto|intros [t' [=]]; subst; reflexivity])).
  - intros z. unfold to_u128. rewrite B. split; intros [t [n [E H]]]; exists t, n; (split; [exact E|apply num_to_u128_spec, H]).
  - intros z. unfold to_i128. rewrite B. split; intros [t [n [E H]]]; exists t, n; (split; [exact E|apply num_to_i128_spec, H]).
  - intros f. unfold to_f64. rewrite B. split; intros [t [n [E H]]]; exists t, n; (split; [exact E|apply num_to_f64_spec, H]).
Qed.
Print Assumptions C57_values.

Example C57_ex :
  num_ok (NInt USize 18446744073709551615) = true
  /\ num_to_u128 (NInt USize 18446744073709551615) = Some 18446744073709551615
  /\ num_to_u32 (NInt U64 3) = None
  /\ num_to_i128 (NInt U8 3) = None
  /\ num_to_u128_lossy (NInt I64 3) = Some 3
  /\ num_to_u128_lossy (NInt I64 (-3)) = None
  /\ num_to_f64 (NInt I8 1) = None
  /\ num_to_f64 (NF32 (S754_finite false 12582912 (-23))) = Some (S754_finite false 6755399441055744 (-52)).
Proof. repeat split; reflexivity. Qed.

(** ** C58 *)
(** A conversion with [From] holds what was converted, and there is only one such value. *)
Theorem C58_holds : forall s v, into_value s = v <-> holds s v.
Proof. intros s v. split; [intros <-; apply into_holds|intros H; symmetry; apply holds_unique, H]. Qed.
Print Assumptions C58_holds.

(** Converting with [From] and serializing give the same: serializing the Rust value succeeds,
    and gives what serializing the converted value gives. *)
Theorem C58_serialize : forall s,
  serialize (serde_of s) = Ok (serialize_value (into_value s)).
Proof. exact into_serialize. Qed.
Print Assumptions C58_serialize.

Example C58_ex :
  let s := FMap [(lit "b", FList [FNum (NInt USize 1); FStr (lit "x")]); (lit "a", FBool true); (lit "b", FChar (ch "z"))] in
  into_value s = VDict tag_default [(lit "a", VBool tag_default true); (lit "b", VChar tag_default (ch "z"))]
  /\ serialize (serde_of s) = Ok (into_value s).
Proof. split; reflexivity. Qed.
(** The one difference: [usize] and [isize] serialize as 64-bit integers. *)
Example C58_ex_size :
  serialize (serde_of (FNum (NInt USize 1))) = Ok (VNum tag_default (NInt U64 1))
  /\ into_value (FNum (NInt USize 1)) = VNum tag_default (NInt USize 1).
Proof. split; reflexivity. Qed.
