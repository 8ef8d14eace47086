(** What a message shows of a value identifies the value. *)
From Coq Require Import Ascii String ZArith NArith Bool Lia.
From Coq Require Import Floats.SpecFloat.
From Coq Require Import List.
From Verif Require Import Res BMap Str Num Value NumParse Fmt FmtProofs SpecNear NearProofs SpecShow SpecParse ShowProofs
  NumParseProofs FloatShowProofs SpecShown.
Import ListNotations.
Local Open Scope N_scope.

(** ** Integers *)
Lemma fmt_nat_inj a b : fmt_nat a = fmt_nat b -> a = b.
Proof.
  rewrite !fmt_nat_decimal. intros E. assert (A := decimal_numeral a). assert (B := decimal_numeral b).
  rewrite E in A. assert (X := numeral_fun _ _ _ A B). lia.
Qed.
Lemma fmt_nat_digits n : Forall is_digit (fmt_nat n) /\ fmt_nat n <> [].
Proof. rewrite fmt_nat_decimal. destruct (decimal_numeral n) as (A & B & _). auto. Qed.
Lemma fmt_int_inj a b : fmt_int a = fmt_int b -> a = b.
Proof.
  assert (H : forall n p, ch "-" :: fmt_nat p = fmt_nat n -> False).
  { intros n p E. destruct (fmt_nat_digits n) as [A _]. rewrite <- E in A. inversion A as [|? ? D]. destruct D as [D _].
    apply D. reflexivity. }
  unfold fmt_int. intros E. destruct a as [|a|a], b as [|b|b]; try reflexivity;
    try (apply fmt_nat_inj in E; lia); try (exfalso; eapply H; eassumption);
    try (exfalso; eapply H; symmetry; eassumption).
  injection E as E. apply fmt_nat_inj in E. lia.
Qed.

(** ** Characters and strings *)
Fixpoint unhex (n : nat) (acc : N) (s : ustr) : option (N * ustr) :=
  match n, s with
  | S n', c :: r =>
      if c =? ch "}" then Some (acc, r)
      else unhex n' (16 * acc + (if c <? 58 then c - 48 else c - 87)) r
  | _, _ => None
  end.
Definition unescape (q : uchar) (s : ustr) : option (uchar * ustr) :=
  match s with
  | x :: r =>
      if x =? q then None
      else if x =? 92 then
        match r with
        | y :: r' => if y =? ch "0" then Some (0, r') else if y =? ch "t" then Some (9, r')
                     else if y =? ch "r" then Some (13, r') else if y =? ch "n" then Some (10, r')
                     else if y =? ch "u" then match r' with _ :: r'' => unhex 9 0 r'' | [] => None end
                     else Some (y, r')
        | [] => None
        end
      else Some (x, r)
  | [] => None
  end.

Lemma escape_large q c : q < 128 -> 174 <= c -> escape_debug q c = [c].
Proof.
  intros Q C. unfold escape_debug.
  repeat match goal with |- context [?a =? ?b] => destruct (N.eqb_spec a b) end;
    try (change (ch "\") with 92 in *; lia).
  repeat match goal with |- context [?a <? ?b] => destruct (N.ltb_spec a b) | |- context [?a <=? ?b] => destruct (N.leb_spec a b) end;
    try lia; reflexivity.
Qed.
Lemma unhex_app n : forall acc s c t r, unhex n acc s = Some (c, t) -> unhex n acc (s ++ r) = Some (c, t ++ r).
Proof.
  induction n as [|n IH]; intros acc [|x s] c t r E; cbn [unhex app] in *; try discriminate E.
  destruct (x =? ch "}"); [injection E as -> ->; reflexivity|]. apply IH. exact E.
Qed.
Lemma unescape_app q s c t r : unescape q s = Some (c, t) -> unescape q (s ++ r) = Some (c, t ++ r).
Proof.
  destruct s as [|x s]; cbn [unescape app]; [discriminate|]. destruct (x =? q); [discriminate|].
  destruct (x =? 92); [|intros [= <- <-]; reflexivity].
  destruct s as [|y s]; [discriminate|]. cbn [app].
  repeat (match goal with |- context [y =? ?k] => destruct (y =? k) end; try (intros [= <- <-]; reflexivity)).
  destruct s as [|z s]; [discriminate|]. cbn [app]. apply unhex_app.
Qed.
Definition decodes (q : uchar) (n : nat) : bool :=
  match unescape q (escape_debug q (N.of_nat n)) with Some (c, []) => c =? N.of_nat n | _ => false end.
Lemma escape_small q : q = ch """" \/ q = ch "'" -> forallb (decodes q) (seq 0 174) = true.
Proof. intros [-> | ->]; vm_compute; reflexivity. Qed.
Lemma escape_decodes q c r : q = ch """" \/ q = ch "'" -> unescape q (escape_debug q c ++ r) = Some (c, r).
Proof.
  intros Q. destruct (N.lt_ge_cases c 174) as [C|C].
  - assert (F := proj1 (forallb_forall _ _) (escape_small q Q) (N.to_nat c) ltac:(apply in_seq; lia)).
    unfold decodes in F. rewrite N2Nat.id in F.
    destruct (unescape q (escape_debug q c)) as [[d [|x t]]|] eqn:E; try discriminate F. apply N.eqb_eq in F. subst d.
    apply (unescape_app _ _ _ _ r E).
  - assert (L : q < 128) by (destruct Q as [-> | ->]; reflexivity). rewrite (escape_large q c L C). cbn [app unescape].
    destruct (N.eqb_spec c q) as [->|_]; [lia|]. destruct (N.eqb_spec c 92) as [->|_]; [lia|reflexivity].
Qed.

Section Quoted.
  Variable q : uchar.
  Hypothesis Q : q = ch """" \/ q = ch "'".
  Lemma escape_prefix c d r r' : escape_debug q c ++ r = escape_debug q d ++ r' -> c = d /\ r = r'.
  Proof.
    intros E. assert (A := escape_decodes q c r Q). rewrite E, (escape_decodes q d r' Q) in A. injection A as -> ->. auto.
  Qed.
  Lemma escape_quote c r r' : escape_debug q c ++ r <> q :: r'.
  Proof.
    intros E. assert (A := escape_decodes q c r Q). rewrite E in A. cbn [unescape] in A. rewrite N.eqb_refl in A. discriminate A.
  Qed.
  Lemma escaped_inj s : forall t r r',
    flat_map (escape_debug q) s ++ q :: r = flat_map (escape_debug q) t ++ q :: r' -> s = t /\ r = r'.
  Proof.
    induction s as [|c s IH]; intros [|d t] r r' E; cbn [flat_map app] in E.
    - injection E as E. auto.
    - exfalso. rewrite <- app_assoc in E. symmetry in E. exact (escape_quote _ _ _ E).
    - exfalso. rewrite <- app_assoc in E. exact (escape_quote _ _ _ E).
    - rewrite <- !app_assoc in E. apply escape_prefix in E. destruct E as [-> E]. apply IH in E. destruct E as [-> ->]. auto.
  Qed.
End Quoted.

Lemma fmt_debug_str_prefix s t r r' : fmt_debug_str s ++ r = fmt_debug_str t ++ r' -> s = t /\ r = r'.
Proof.
  unfold fmt_debug_str. cbn [app]. intros E. injection E as E. rewrite <- !app_assoc in E.
  exact (escaped_inj (ch """") (or_introl eq_refl) s t r r' E).
Qed.
Lemma fmt_debug_char_prefix c d r r' : fmt_debug_char c ++ r = fmt_debug_char d ++ r' -> c = d /\ r = r'.
Proof.
  unfold fmt_debug_char. cbn [app]. intros E. injection E as E. rewrite <- !app_assoc in E.
  apply (escape_prefix (ch "'") (or_intror eq_refl)) in E. destruct E as [-> E]. injection E as E. auto.
Qed.

(** ** Bytes *)
Lemma digits_end a b x y r r' : Forall is_digit a -> Forall is_digit b -> ~ is_digit x -> ~ is_digit y ->
  a ++ x :: r = b ++ y :: r' -> a = b /\ x :: r = y :: r'.
Proof.
  intros A. revert b. induction A as [|c a C A IH]; intros b B X Y E.
  - destruct b as [|d b]; [auto|]. exfalso. cbn [app] in E. injection E as E _. subst. inversion B. contradiction.
  - destruct b as [|d b].
    + exfalso. cbn [app] in E. injection E as E _. subst. contradiction.
    + cbn [app] in E. injection E as -> E. inversion B; subst. destruct (IH b) as [-> ->]; auto.
Qed.
Lemma not_comma : ~ is_digit (ch ","). Proof. intros [H _]. apply H. reflexivity. Qed.
Lemma not_bracket : ~ is_digit (ch "]"). Proof. intros [_ H]. apply H. reflexivity. Qed.
Lemma bytes_inj l : forall l' r r', join (lit ", ") (map fmt_nat l) ++ ch "]" :: r = join (lit ", ") (map fmt_nat l') ++ ch "]" :: r' ->
  l = l' /\ r = r'.
Proof.
  assert (J : forall n (l : list N) r, exists x r0, ~ is_digit x /\
    join (lit ", ") (map fmt_nat (n :: l)) ++ ch "]" :: r = fmt_nat n ++ x :: r0 /\
    ((l = [] /\ x = ch "]" /\ r0 = r) \/
     (l <> [] /\ x = ch "," /\ r0 = ch " " :: join (lit ", ") (map fmt_nat l) ++ ch "]" :: r))).
  { intros n [|m k] r.
    - exists (ch "]"), r. split; [exact not_bracket|]. split; [reflexivity|]. left. auto.
    - exists (ch ","), (ch " " :: join (lit ", ") (map fmt_nat (m :: k)) ++ ch "]" :: r). split; [exact not_comma|].
      split.
      + change (join (lit ", ") (map fmt_nat (n :: m :: k)))
          with (fmt_nat n ++ lit ", " ++ join (lit ", ") (map fmt_nat (m :: k))). rewrite <- !app_assoc. reflexivity.
      + right. split; [discriminate|]. auto. }
  assert (N : forall n r0 r, fmt_nat n ++ r0 <> ch "]" :: r).
  { intros n r0 r E. destruct (fmt_nat_digits n) as [D NE]. destruct (fmt_nat n) as [|c s]; [contradiction|].
    cbn [app] in E. injection E as E _. subst. inversion D; subst. exact (not_bracket ltac:(assumption)). }
  induction l as [|n l IH]; intros [|n' l'] r r' E.
  - cbn in E. injection E as E. auto.
  - exfalso. destruct (J n' l' r') as (x & r0 & _ & X & _). rewrite X in E. symmetry in E. exact (N _ _ _ E).
  - exfalso. destruct (J n l r) as (x & r0 & _ & X & _). rewrite X in E. exact (N _ _ _ E).
  - destruct (J n l r) as (x & r0 & Dx & X & Cx). destruct (J n' l' r') as (x' & r0' & Dx' & X' & Cx').
    rewrite X, X' in E. apply digits_end in E; auto; try apply fmt_nat_digits. destruct E as [En E].
    apply fmt_nat_inj in En. subst n'. injection E as E1 E2.
    destruct Cx as [(L & Ex & Er)|(L & Ex & Er)], Cx' as [(L' & Ex' & Er')|(L' & Ex' & Er')];
      rewrite Ex, Ex' in E1; rewrite Er, Er' in E2; try discriminate E1.
    + subst l l'. auto.
    + injection E2 as E2. apply IH in E2. destruct E2 as [-> ->]. auto.
Qed.

(** ** Floats *)
Lemma parse_shown x : valid_binary 53 1024 x = true ->
  parse_f64 (fmt_f64 x) = match x with S754_finite _ _ _ | S754_zero _ => Some x | _ => None end.
Proof.
  intros V. destruct x as [s|s| |s m e].
  - destruct s; reflexivity.
  - destruct s; reflexivity.
  - reflexivity.
  - apply (parse_float_near 53 1024 _ _ ok_double). exact (float_shown _ V I).
Qed.
Lemma fmt_f64_inj x y : valid_binary 53 1024 x = true -> valid_binary 53 1024 y = true ->
  fmt_f64 x = fmt_f64 y -> x = y.
Proof.
  intros V W E. assert (P := parse_shown x V). rewrite E, (parse_shown y W) in P.
  destruct x as [s|s| |s m e], y as [s'|s'| |s' m' e']; try discriminate P; try (injection P as P; congruence);
    try reflexivity; try (destruct s; discriminate E); try (destruct s'; discriminate E).
  destruct s, s'; try reflexivity; discriminate E.
Qed.

(** ** Values in messages *)
Theorem fmt_actual_inj a b : identified a -> identified b -> fmt_actual a = fmt_actual b -> a = b.
Proof.
  intros A B E.
  destruct a as [x|x|x|x|x|x|x| | | | | | | | | | |x], b as [y|y|y|y|y|y|y| | | | | | | | | | |y];
    cbn [identified] in *; try contradiction; try reflexivity; try (cbn in E; discriminate E);
    cbn [fmt_actual] in E; try (destruct x; discriminate E); try (destruct y; discriminate E); apply app_inv_head in E.
  - destruct x, y; (reflexivity || discriminate E).
  - apply app_inv_tail in E. apply fmt_int_inj in E. congruence.
  - apply app_inv_tail in E. apply fmt_int_inj in E. congruence.
  - apply app_inv_tail in E. apply fmt_f64_inj in E; [congruence|assumption..].
  - rewrite <- (app_nil_r (fmt_debug_char x)), <- (app_nil_r (fmt_debug_char y)) in E.
    apply fmt_debug_char_prefix in E. destruct E as [-> _]. reflexivity.
  - rewrite <- (app_nil_r (fmt_debug_str x)), <- (app_nil_r (fmt_debug_str y)) in E.
    apply fmt_debug_str_prefix in E. destruct E as [-> _]. reflexivity.
  - unfold fmt_debug_bytes in E. apply app_inv_head in E. apply bytes_inj in E. destruct E as [-> _]. reflexivity.
Qed.

(** ** Values *)
Lemma canonical_valid prec emax s m e : ok_format prec emax ->
  canonical prec emax (S754_finite s m e) -> valid_binary prec emax (S754_finite s m e) = true.
Proof.
  intros [F1 F2] (M & E & Full). cbn [valid_binary]. unfold bounded, canonical_mantissa.
  apply andb_true_iff. split; [|apply Zle_imp_le_bool; lia]. apply Zeq_is_eq_bool. symmetry.
  unfold fexp, emin. rewrite digits_log2. unfold emin_of in *.
  assert (L : (Z.log2 (Zpos m) < prec)%Z) by (apply Z.log2_lt_pow2; lia).
  destruct Full as [F|F]; [|lia].
  assert (P : (prec - 1 <= Z.log2 (Zpos m))%Z) by (apply Z.log2_le_pow2; lia). lia.
Qed.
Lemma rounds_valid prec emax neg q x : ok_format prec emax -> rounds_to prec emax neg q x ->
  valid_binary prec emax x = true.
Proof.
  intros F H. destruct x as [s|s| |s m e]; try reflexivity. apply canonical_valid; [exact F|].
  cbn [rounds_to canonical] in *. tauto.
Qed.
Lemma widened_valid f : valid_binary 24 128 f = true -> valid_binary 53 1024 (f32_to_f64 f) = true.
Proof.
  intros V. destruct f as [s|s| |s m e]; try reflexivity. 
  assert (H := proj2 (widen_converted (S754_finite s m e) _) eq_refl). cbn [converted] in H.
  eapply rounds_valid; [exact ok_double|exact H].
Qed.
Lemma identified_value v : proper v -> identified (to_actual v).
Proof.
  destruct v as [t s|t c|t b|t n|t e|t d|t l]; cbn [to_actual identified proper]; try (intros _; exact I).
  - destruct n as [k z|f|f]; cbn [num_ok num_to_actual]; intros H.
    + destruct k; exact I.
    + apply widened_valid. exact H.
    + exact H.
  - destruct e; intros _; exact I.
Qed.

Lemma alike_shown v w : to_actual v = to_actual w <-> alike v w.
Proof.
  assert (AD : forall n x, as_double n x <-> num_to_actual n = AFloat x).
  { intros n x. split.
    - intros [f y H|y]; cbn [num_to_actual]; [|reflexivity]. apply widen_converted in H. congruence.
    - destruct n as [k z|f|f]; cbn [num_to_actual].
      + destruct k; discriminate.
      + intros [= <-]. constructor. apply widen_converted. reflexivity.
      + intros [= <-]. constructor. }
  assert (AI : forall k z, num_to_actual (NInt k z) = if ikind_signed k then ASigned z else AUnsigned z)
    by (intros [] z; reflexivity).
  split.
  - destruct v as [t s|t c|t b|t n|t e|t d|t l], w as [t' s'|t' c'|t' b'|t' n'|t' e'|t' d'|t' l'];
      cbn [to_actual]; intros E; try discriminate E; try (injection E as ->; constructor); try constructor;
      try (destruct n as [[] z|f|f]; discriminate E); try (destruct n' as [[] z|f|f]; discriminate E);
      try (destruct e; discriminate E); try (destruct e'; discriminate E).
    + destruct n as [k z|f|f] eqn:En.
      * destruct n' as [k' z'|f'|f'].
        -- rewrite !AI in E. destruct (ikind_signed k) eqn:K, (ikind_signed k') eqn:K'; try discriminate E;
             injection E as ->; constructor; congruence.
        -- exfalso. rewrite AI in E. destruct (ikind_signed k); discriminate E.
        -- exfalso. rewrite AI in E. destruct (ikind_signed k); discriminate E.
      * apply al_float with (x := f32_to_f64 f); apply AD; [reflexivity|symmetry; exact E].
      * apply al_float with (x := f); apply AD; [reflexivity|symmetry; exact E].
    + exfalso. destruct n as [k z|f|f]; [rewrite AI in E; destruct (ikind_signed k)|..]; destruct e'; discriminate E.
    + exfalso. destruct n' as [k z|f|f]; [rewrite AI in E; destruct (ikind_signed k)|..]; destruct e; discriminate E.
    + destruct e, e'; try discriminate E; constructor.
  - intros [t u s|t u c|t u b|t u k l z H|t u m n x A B|t u e|t u d d'|t u l l']; cbn [to_actual]; try reflexivity.
    + rewrite !AI, H. reflexivity.
    + apply AD in A, B. congruence.
Qed.
