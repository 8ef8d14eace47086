(** [Debug] output tells values apart. *)
From Coq Require Import Ascii String ZArith QArith Qabs Qpower NArith Bool Lia Lqa.
From Coq Require Import Floats.SpecFloat.
From Coq Require Import List.
From Verif Require Import Res BMap Str Profile Tag Num Value NumParse Fmt FmtProofs SpecNear NearProofs SpecShow SpecParse
  ShowProofs NumParseProofs SpecShown FloatShowProofs ShortestProofs Float32ShowProofs ActualProofs ProfileProofs ValueProofs
  SpecRt Debug SpecDebug.
Import ListNotations.
Local Open Scope Z_scope.

(** ** Floats *)
Definition hits (prec emax : Z) : Prop := forall m e, canonical prec emax (S754_finite false m e) ->
  let '(d, k) := float_digits prec emax m e in
  0 <= d /\ rounds_to prec emax false (inject_Z d * (10 # 1) ^ k) (S754_finite false m e).
Lemma hits_of prec emax :
  (forall m e, canonical prec emax (S754_finite false m e) ->
   let '(p, q) := fraction m e in
   let '(d, k) := shortest 17 p q (pow10_floor p q) 1
     (fun d k => sf_same (decimal_to_float prec emax false d k) (S754_finite false m e)) in
   0 <= d /\ rounds_to prec emax false (decimal_value false d k) (S754_finite false m e)) ->
  hits prec emax.
Proof.
  intros H m e C. specialize (H m e C). unfold float_digits.
  change (if 0 <=? e then (Zpos m * 2 ^ e, 1) else (Zpos m, 2 ^ (- e))) with (fraction m e).
  destruct (fraction m e) as [p q].
  destruct (shortest 17 p q (pow10_floor p q) 1 _) as [d k]. destruct H as [D R].
  assert (S := strip_zeros_value 20 d k D). destruct (strip_zeros 20 d k) as [d' k']. destruct S as [D' S].
  split; [exact D'|]. apply (rounds_arg _ _ _ (decimal_value false d k)); [|exact R].
  unfold decimal_value. cbn [signed]. now rewrite S.
Qed.
Lemma hits_double : hits 53 1024. Proof. apply hits_of. exact search_hits. Qed.
Lemma hits_single : hits 24 128. Proof. apply hits_of. exact search_hits32. Qed.

Lemma pointed_text d k : 0 <= d -> exists m p, mantissa_text (fmt_pointed d k) m p /\
  (inject_Z m * (10 # 1) ^ (- p) == inject_Z d * (10 # 1) ^ k)%Q.
Proof.
  intros D. unfold fmt_pointed. destruct (Z.leb_spec 0 k) as [K|K]; [|now apply positional_text].
  rewrite fmt_nat_decimal. assert (N := decimal_numeral (Z.to_N d)). rewrite Z2N.id in N by exact D.
  destruct N as (N0 & N1 & N2). set (ds := decimal (Z.to_N d)) in *.
  eexists _, _. split.
  - rewrite app_assoc. change (lit ".0") with (ch "." :: lit "0"). apply mt_point.
    + destruct ds; [contradiction|discriminate].
    + apply Forall_app. split; [exact N1|apply zeros_digits].
    + repeat constructor; discriminate.
  - change (lit "0") with (repeat (ch "0") 1). rewrite numeral_value_app, fold_left_app.
    assert (FV : fold_left numeral_step ds 0 = d) by (symmetry; exact N2).
    rewrite FV, !fold_zeros, Z2Nat.id by exact K. rewrite !inject_Z_mult, <- tens_Z by exact K.
    change (- Z.of_nat (length (repeat (ch "0") 1))) with (- (1)). change ((10 # 1) ^ (-(1)))%Q with (1 # 10)%Q.
    change (inject_Z (10 ^ Z.of_nat 1)) with (10 # 1)%Q. field.
Qed.
Lemma int_exponent k : exponent_text (ch "e" :: fmt_int k) k.
Proof.
  rewrite fmt_int_show. unfold show_int. destruct (Z.ltb_spec k 0) as [L|L].
  - assert (E := ex_some (ch "e") [ch "-"] true (decimal (Z.to_N (- k))) (- k) (or_introl eq_refl) sg_minus).
    cbn [app] in E. replace (- - k) with k in E by lia. apply E.
    assert (N := decimal_numeral (Z.to_N (- k))). now rewrite Z2N.id in N by lia.
  - assert (E := ex_some (ch "e") [] false (decimal (Z.to_N k)) k (or_introl eq_refl) sg_none). apply E.
    assert (N := decimal_numeral (Z.to_N k)). now rewrite Z2N.id in N by lia.
Qed.
Lemma scientific_text d k : 0 <= d -> exists mt m p ex e, fmt_scientific d k = mt ++ ex /\
  mantissa_text mt m p /\ exponent_text ex e /\
  (inject_Z m * (10 # 1) ^ (e - p) == inject_Z d * (10 # 1) ^ k)%Q.
Proof.
  intros D. unfold fmt_scientific. rewrite fmt_nat_decimal. assert (N := decimal_numeral (Z.to_N d)).
  rewrite Z2N.id in N by exact D. destruct N as (N0 & N1 & N2).
  destruct (decimal (Z.to_N d)) as [|c r]; [contradiction|]. destruct r as [|c2 r].
  - exists [c], (numeral_value [c]), 0, (ch "e" :: fmt_int k), k. split; [reflexivity|]. split; [now apply mt_whole|].
    split; [apply int_exponent|]. rewrite <- N2. replace (k - 0) with k by lia. reflexivity.
  - set (ds := c2 :: r) in *.
    exists ([c] ++ ch "." :: ds), (numeral_value ([c] ++ ds)), (Z.of_nat (length ds)), (ch "e" :: fmt_int (k + Z.of_nat (length ds))),
      (k + Z.of_nat (length ds)).
    split; [cbn [app]; reflexivity|]. inversion N1; subst. split.
    + apply mt_point; [discriminate| |assumption]. now constructor.
    + split; [apply int_exponent|]. change ([c] ++ ds) with (c :: ds).
      replace (k + Z.of_nat (length ds) - Z.of_nat (length ds)) with k by lia. reflexivity.
Qed.

Lemma float_debugged prec emax x : ok_format prec emax -> hits prec emax -> valid_binary prec emax x = true ->
  match x with S754_finite _ _ _ | S754_zero _ => True | _ => False end ->
  exists neg m e, decimal_text (debug_float prec emax x) neg m e /\ rounds_to prec emax neg (decimal_value neg m e) x.
Proof.
  intros F H V Fi. destruct x as [s|s| |s m e]; try contradiction.
  - exists s, 0, (0 - 1). split.
    + assert (M : mantissa_text (lit "0.0") 0 1) by (apply (mt_point (lit "0") (lit "0")); [discriminate|repeat constructor; discriminate..]).
      change (decimal_text ((if s then [ch "-"] else []) ++ lit "0.0" ++ []) s 0 (0 - 1)).
      apply dt_intro; [destruct s; constructor|exact M|constructor].
    + apply (decimal_converted prec emax s 0 (0 - 1) _ F); [lia|reflexivity].
  - assert (C := valid_canonical prec emax s m e F V).
    assert (C' : canonical prec emax (S754_finite false m e)) by exact C.
    specialize (H m e C'). unfold debug_float. destruct (float_digits prec emax m e) as [d k]. destruct H as [D R].
    assert (Rs : forall q, (q == signed s (inject_Z d * (10 # 1) ^ k))%Q -> rounds_to prec emax s q (S754_finite s m e)).
    { intros q Q. apply (rounds_arg _ _ _ (signed s (inject_Z d * (10 # 1) ^ k))); [symmetry; exact Q|].
      cbn [rounds_to] in *. destruct R as (_ & R1 & R2 & R3 & R4 & R5). split; [reflexivity|].
      split; [rewrite too_large_signed; exact R1|]. split; [exact R2|]. split; [exact R3|]. split; [exact R4|].
      exact (nearest_signed _ _ s _ _ _ R5). }
    destruct (_ || _).
    + destruct (scientific_text d k D) as (mt & m1 & p & ex & e1 & -> & M & E & Q).
      exists s, m1, (e1 - p). split; [apply dt_intro; auto; destruct s; constructor|].
      apply Rs. unfold decimal_value. destruct s; cbn [signed]; now rewrite Q.
    + destruct (pointed_text d k D) as (m1 & p & M & Q).
      exists s, m1, (0 - p). split.
      * rewrite <- (app_nil_r (fmt_pointed d k)). apply dt_intro; [destruct s; constructor|exact M|constructor].
      * apply Rs. unfold decimal_value. change (0 - p) with (- p). destruct s; cbn [signed]; now rewrite Q.
Qed.
Lemma parse_debugged prec emax x : ok_format prec emax -> hits prec emax -> valid_binary prec emax x = true ->
  parse_float prec emax (debug_float prec emax x) =
  match x with S754_finite _ _ _ | S754_zero _ => Some x | _ => None end.
Proof.
  intros F H V. destruct x as [s|s| |s m e]; try (apply (parse_float_near prec emax _ _ F); now apply float_debugged).
  - destruct s; reflexivity.
  - reflexivity.
Qed.
Lemma debug_float_inj prec emax x y : ok_format prec emax -> hits prec emax ->
  valid_binary prec emax x = true -> valid_binary prec emax y = true ->
  debug_float prec emax x = debug_float prec emax y -> x = y.
Proof.
  intros F H V W E. assert (P := parse_debugged prec emax x F H V).
  rewrite E, (parse_debugged prec emax y F H W) in P.
  destruct x as [s|s| |s m e], y as [s'|s'| |s' m' e']; try discriminate P; try (injection P as P; congruence);
    try reflexivity; try (destruct s; discriminate E); try (destruct s'; discriminate E).
  destruct s, s'; try reflexivity; discriminate E.
Qed.

(** No parenthesis is part of a number. *)
Definition numerical (c : uchar) : Prop := is_digit c \/ In c (lit "+-.eE").
Lemma digit_numerical s : Forall is_digit s -> Forall numerical s.
Proof. apply Forall_impl. intros c H. now left. Qed.
Lemma sign_numerical s b : sign_text s b -> Forall numerical s.
Proof. destruct 1; repeat constructor; right; cbn; auto 10. Qed.
Lemma decimal_numerical s neg m e : decimal_text s neg m e -> Forall numerical s.
Proof.
  destruct 1 as [sgn neg mt m p ex e S M E]. repeat (apply Forall_app; split).
  - eapply sign_numerical, S.
  - destruct M as [ip N D|ip fp N D1 D2]; [now apply digit_numerical|]. apply Forall_app. split; [now apply digit_numerical|].
    constructor; [right; cbn; auto 10|now apply digit_numerical].
  - destruct E as [|c sgn' n ds z C S' (D0 & D1 & _)]; constructor.
    + destruct C as [-> | ->]; right; cbn; auto 10.
    + apply Forall_app. split; [eapply sign_numerical, S'|now apply digit_numerical].
Qed.
Lemma int_numerical z : Forall numerical (fmt_int z).
Proof.
  rewrite fmt_int_show. unfold show_int. destruct (z <? 0).
  - constructor; [right; cbn; auto 10|]. apply digit_numerical. apply (decimal_numeral (Z.to_N (- z))).
  - apply digit_numerical. apply (decimal_numeral (Z.to_N z)).
Qed.
Definition no_paren (c : uchar) : Prop := c <> ch ")".
Lemma numerical_paren s : Forall numerical s -> Forall no_paren s.
Proof.
  apply Forall_impl. intros c [[H1 H2]|H] ->.
  - apply H1. reflexivity.
  - cbn in H. repeat (destruct H as [H|H]; [discriminate H|]). exact H.
Qed.
Lemma float_paren prec emax x : ok_format prec emax -> hits prec emax -> valid_binary prec emax x = true ->
  Forall no_paren (debug_float prec emax x).
Proof.
  intros F H V. destruct x as [s|s| |s m e].
  2: destruct s; repeat constructor; discriminate.
  2: repeat constructor; discriminate.
  all: apply numerical_paren; edestruct (float_debugged prec emax) as (neg & m1 & e1 & D & _); [exact F|exact H|exact V|exact I|];
    eapply decimal_numerical, D.
Qed.
Lemma paren_end (a b r r' : ustr) : Forall no_paren a -> Forall no_paren b ->
  a ++ ch ")" :: r = b ++ ch ")" :: r' -> a = b /\ r = r'.
Proof.
  intros A. revert b. induction A as [|c a C A IH]; intros [|d b] B E; cbn [app] in E.
  - injection E as E. auto.
  - injection E as <- _. inversion B; subst. now destruct (H1 eq_refl).
  - injection E as -> _. now destruct (C eq_refl).
  - injection E as <- E. inversion B; subst. destruct (IH b) as [-> ->]; auto.
Qed.

Definition num_sound (n : num) : Prop := num_ok n = true \/ exists k z, n = NInt k z.
Lemma debug_num_prefix n n' r r' :
  match n with NInt _ _ => True | NF32 x => valid_binary 24 128 x = true | NF64 x => valid_binary 53 1024 x = true end ->
  match n' with NInt _ _ => True | NF32 x => valid_binary 24 128 x = true | NF64 x => valid_binary 53 1024 x = true end ->
  debug_num n ++ r = debug_num n' ++ r' -> n = n' /\ r = r'.
Proof.
  intros V W E. unfold debug_num, debug_tuple in E. change f32_prec with 24 in E. change f32_emax with 128 in E.
  change f64_prec with 53 in E. change f64_emax with 1024 in E.
  destruct n as [k z|x|x], n' as [k' z'|x'|x']; try (destruct k); try (destruct k'); try discriminate E;
    cbn [ikind_name lit app] in E; repeat rewrite <- app_assoc in E; cbn [app] in E;
    repeat (match type of E with ?a :: _ = ?b :: _ => first [constr_eq a b; apply (f_equal (@tl _)) in E; cbn [tl] in E | discriminate E] end);
    apply paren_end in E; try (apply numerical_paren, int_numerical);
    try (apply float_paren; [apply ok_single|apply hits_single|assumption]);
    try (apply float_paren; [apply ok_double|apply hits_double|assumption]);
    destruct E as [E ->]; split; try reflexivity.
  all: try (apply fmt_int_inj in E; now subst).
  - f_equal. exact (debug_float_inj 24 128 x x' ok_single hits_single V W E).
  - f_equal. exact (debug_float_inj 53 1024 x x' ok_double hits_double V W E).
Qed.

Local Open Scope N_scope.

(** ** Characters and strings, whatever is printable *)
Definition hex_step (a c : N) : N := 16 * a + (if c <? 58 then c - 48 else c - 87).
Lemma unhex_fold : forall ds n a r, Forall (fun c => c <> ch "}") ds -> (length ds < n)%nat ->
  unhex n a (ds ++ ch "}" :: r) = Some (fold_left hex_step ds a, r).
Proof.
  induction ds as [|c ds IH]; intros n a r F L; destruct n as [|n]; try (cbn in L; lia); cbn [app unhex fold_left].
  - reflexivity.
  - inversion F; subst. destruct (N.eqb_spec c (ch "}")); [contradiction|]. apply IH; [assumption|cbn in L; lia].
Qed.
Lemma hex_digit_ok d : d < 16 -> Fmt.hex_digit d <> ch "}" /\ forall a, hex_step a (Fmt.hex_digit d) = 16 * a + d.
Proof.
  intros H. unfold Fmt.hex_digit, hex_step. change (ch "}") with 125. destruct (N.ltb_spec d 10).
  - split; [lia|]. intros a. destruct (N.ltb_spec (48 + d) 58); lia.
  - split; [lia|]. intros a. destruct (N.ltb_spec (87 + d) 58); lia.
Qed.
Lemma fmt_hex_digits : forall f c s, c < 16 ^ N.of_nat f -> f <> 0%nat ->
  exists ds, fmt_hex f c s = ds ++ s /\ Forall (fun c => c <> ch "}") ds /\ (length ds <= f)%nat /\
    fold_left hex_step ds 0 = c.
Proof.
  induction f as [|f IH]; intros c s C NZ; [contradiction|]. cbn [fmt_hex].
  assert (D := N.div_mod c 16 ltac:(lia)). assert (M := N.mod_lt c 16 ltac:(lia)).
  destruct (hex_digit_ok (c mod 16) M) as [H1 H2].
  destruct (c / 16) as [|q] eqn:Q.
  - exists [Fmt.hex_digit (c mod 16)]. split; [reflexivity|]. split; [now constructor|]. split; [cbn; lia|].
    cbn [fold_left]. rewrite H2. lia.
  - destruct (IH (N.pos q) (Fmt.hex_digit (c mod 16) :: s)) as (ds & E & F & L & V).
    + rewrite Nat2N.inj_succ, N.pow_succ_r' in C. rewrite <- Q. apply N.div_lt_upper_bound; [lia|exact C].
    + intros ->. change (16 ^ N.of_nat 1) with 16 in C. rewrite N.div_small in Q by exact C. discriminate Q.
    + exists (ds ++ [Fmt.hex_digit (c mod 16)]). rewrite E, <- app_assoc. split; [reflexivity|].
      split; [apply Forall_app; split; [assumption|now constructor]|].
      split; [rewrite app_length; cbn; lia|]. rewrite fold_left_app. cbn [fold_left].
      change (hex_step (fold_left hex_step ds 0) (Fmt.hex_digit (c mod 16)) = c). rewrite V, H2. symmetry. exact D.
Qed.

Section escapes.
  Context (u : uchar -> bool) (q : uchar) (Q : q = ch """" \/ q = ch "'").
  Lemma escape_char_decodes c r : code_point c -> unescape q (escape_char u q c ++ r) = Some (c, r).
  Proof.
    intros C. unfold escape_char.
    assert (NQ : forall x, x <> ch """" -> x <> ch "'" -> (x =? q) = false).
    { intros x X1 X2. apply N.eqb_neq. destruct Q as [-> | ->]; assumption. }
    assert (B : forall t, unescape q (ch "\" :: t) = match t with
        | y :: r' => if y =? ch "0" then Some (0, r') else if y =? ch "t" then Some (9, r')
                     else if y =? ch "r" then Some (13, r') else if y =? ch "n" then Some (10, r')
                     else if y =? ch "u" then match r' with _ :: r'' => unhex 9 0 r'' | [] => None end
                     else Some (y, r')
        | [] => None
        end).
    { intros t. cbn [unescape]. rewrite NQ by discriminate. reflexivity. }
    destruct (N.eqb_spec c 0) as [->|]; [apply B|].
    destruct (N.eqb_spec c 9) as [->|]; [apply B|].
    destruct (N.eqb_spec c 13) as [->|]; [apply B|].
    destruct (N.eqb_spec c 10) as [->|]; [apply B|].
    destruct (N.eqb_spec c (ch "\")) as [->|]; [apply B|].
    destruct (N.eqb_spec c q) as [->|].
    { cbn [app]. rewrite B. destruct Q as [-> | ->]; reflexivity. }
    destruct (u c).
    - destruct (fmt_hex_digits 8 c []) as (ds & E & F & L & V); [unfold code_point in C; change (16 ^ N.of_nat 8) with 4294967296; lia|discriminate|].
      rewrite E, app_nil_r. change (lit "\u{") with (ch "\" :: lit "u{"). cbn [app]. rewrite B.
      rewrite <- !app_assoc. transitivity (unhex 9 0 (ds ++ ch "}" :: r)); [reflexivity|].
      rewrite unhex_fold by (assumption || lia). now rewrite V.
    - cbn [app unescape]. destruct (N.eqb_spec c q) as [|_]; [contradiction|].
      destruct (N.eqb_spec c 92) as [|_]; [contradiction|reflexivity].
  Qed.
  Lemma escape_char_prefix c d r r' : code_point c -> code_point d ->
    escape_char u q c ++ r = escape_char u q d ++ r' -> c = d /\ r = r'.
  Proof.
    intros C D E. assert (A := escape_char_decodes c r C). rewrite E, (escape_char_decodes d r' D) in A. injection A as -> ->. auto.
  Qed.
  Lemma escape_char_quote c r r' : code_point c -> escape_char u q c ++ r <> q :: r'.
  Proof.
    intros C E. assert (A := escape_char_decodes c r C). rewrite E in A. cbn [unescape] in A. rewrite N.eqb_refl in A. discriminate A.
  Qed.
  Lemma escape_text_prefix s : Forall code_point s -> forall t r r', Forall code_point t ->
    flat_map (escape_char u q) s ++ q :: r = flat_map (escape_char u q) t ++ q :: r' -> s = t /\ r = r'.
  Proof.
    induction 1 as [|c s C F IH]; intros [|d t] r r' G E; cbn [flat_map app] in E.
    - injection E as E. auto.
    - exfalso. inversion G; subst. rewrite <- app_assoc in E. symmetry in E. revert E. now apply escape_char_quote.
    - exfalso. rewrite <- app_assoc in E. revert E. now apply escape_char_quote.
    - inversion G; subst. rewrite <- !app_assoc in E. apply escape_char_prefix in E; [|assumption..]. destruct E as [-> E].
      apply IH in E; [|assumption]. destruct E as [-> ->]. auto.
  Qed.
End escapes.

Lemma debug_str_prefix u s t r r' : Forall code_point s -> Forall code_point t ->
  debug_str u s ++ r = debug_str u t ++ r' -> s = t /\ r = r'.
Proof.
  intros S T. unfold debug_str. cbn [app]. intros E. injection E as E. rewrite <- !app_assoc in E.
  exact (escape_text_prefix u (ch """") (or_introl eq_refl) s S t r r' T E).
Qed.
Lemma debug_char_prefix u c d r r' : code_point c -> code_point d ->
  debug_char u c ++ r = debug_char u d ++ r' -> c = d /\ r = r'.
Proof.
  intros C D. unfold debug_char. cbn [app]. intros E. injection E as E. rewrite <- !app_assoc in E.
  apply (escape_char_prefix u (ch "'") (or_intror eq_refl)) in E; [|assumption..]. destruct E as [-> E]. injection E as E. auto.
Qed.

(** ** Lists *)
Lemma join_cons (sep x : ustr) y l : join sep (x :: y :: l) = x ++ sep ++ join sep (y :: l).
Proof. reflexivity. Qed.
Lemma joined_prefix {A B} (f : A -> ustr) (same : A -> B) (ok : A -> Prop) (z : uchar) :
  z <> ch "," ->
  (forall x r, exists c t, f x ++ r = c :: t /\ c <> z) ->
  forall l, Forall (fun x => forall y r r', ok x -> ok y -> f x ++ r = f y ++ r' -> same x = same y /\ r = r') l ->
  forall l' r r', Forall ok l -> Forall ok l' ->
  join (lit ", ") (map f l) ++ z :: r = join (lit ", ") (map f l') ++ z :: r' ->
  map same l = map same l' /\ r = r'.
Proof.
  intros Z H1.
  assert (J : forall x l r, exists t, join (lit ", ") (map f (x :: l)) ++ z :: r = f x ++ t /\
     ((l = [] /\ t = z :: r) \/ (l <> [] /\ t = ch "," :: ch " " :: join (lit ", ") (map f l) ++ z :: r))).
  { intros x [|y l] r.
    - eexists. split; [reflexivity|]. auto.
    - cbn [map]. rewrite join_cons, <- !app_assoc. eexists. split; [reflexivity|]. right. split; [discriminate|reflexivity]. }
  induction 1 as [|x l HX HL IH]; intros [|x' l'] r r' O O' E.
  - cbn in E. injection E as E. auto.
  - exfalso. destruct (J x' l' r') as (t & X & _). rewrite X in E. destruct (H1 x' t) as (c & t' & X' & N). rewrite X' in E.
    cbn in E. injection E as E _. congruence.
  - exfalso. destruct (J x l r) as (t & X & _). rewrite X in E. destruct (H1 x t) as (c & t' & X' & N). rewrite X' in E.
    cbn in E. injection E as E _. congruence.
  - inversion O; subst. inversion O'; subst.
    destruct (J x l r) as (t & X & C). destruct (J x' l' r') as (t' & X' & C'). rewrite X, X' in E.
    apply HX in E; [|assumption..]. destruct E as [E1 E2].
    destruct C as [[-> ->]|[N ->]], C' as [[-> ->]|[N' ->]].
    + injection E2 as E2. cbn [map]. rewrite E1. auto.
    + injection E2 as E2 _. contradiction.
    + injection E2 as E2 _. now destruct Z.
    + injection E2 as E2. apply IH in E2; [|assumption..]. destruct E2 as [E2 ->]. cbn [map]. rewrite E1, E2. auto.
Qed.

(** ** Values *)
Lemma tuple_tail (name field r : ustr) : debug_tuple name field ++ r = name ++ ch "(" :: field ++ ch ")" :: r.
Proof. unfold debug_tuple. rewrite <- app_assoc. cbn [app]. now rewrite <- app_assoc. Qed.

Lemma debug_head u v r : exists c t, debug_value u v ++ r = c :: t /\ c <> ch "]".
Proof. destruct v; cbn; eexists _, _; (split; [reflexivity|discriminate]). Qed.

Section values.
  Context (u : uchar -> bool).
  Notation dbg := (debug_value u).
  Lemma debug_prefix : forall v w r r', sound v -> sound w -> dbg v ++ r = dbg w ++ r' -> untag v = untag w /\ r = r'.
  Proof.
    assert (STEP : forall name a b (r r' : ustr), debug_tuple name a ++ r = debug_tuple name b ++ r' ->
      a ++ ch ")" :: r = b ++ ch ")" :: r').
    { intros name a b r r' E. rewrite !tuple_tail in E. apply app_inv_head in E. now injection E as E. }
    assert (END : forall (a b : ustr), ch ")" :: a = ch ")" :: b -> a = b) by (intros a b E; now injection E as E).
    induction v as [t s|t c|t b|t n|t e|t d IH|t l IH] using value_ind'; intros w r r' V W E;
      destruct w as [t' s'|t' c'|t' b'|t' n'|t' e'|t' d'|t' l']; try (cbn in E; discriminate E);
      cbn [debug_value] in E; apply STEP in E; cbn [untag].
    - inversion V; subst. inversion W; subst. apply debug_str_prefix in E; [|assumption..]. destruct E as [-> E]. split; [reflexivity|now apply END].
    - inversion V; subst. inversion W; subst. apply debug_char_prefix in E; [|assumption..]. destruct E as [-> E]. split; [reflexivity|now apply END].
    - destruct b, b'; cbn in E; try discriminate E; injection E as E; auto.
    - apply debug_num_prefix in E; [|inversion V; subst; auto|inversion W; subst; auto]. destruct E as [-> E]. split; [reflexivity|now apply END].
    - destruct e, e'; cbn in E; try discriminate E; injection E as E; auto.
    - inversion V; subst. inversion W; subst. unfold debug_map in E. rewrite !map_map in E. cbn [app] in E. injection E as E.
      rewrite <- !app_assoc in E. cbn [app] in E.
      apply (joined_prefix (fun kv => debug_str u (fst kv) ++ lit ": " ++ dbg (snd kv)) (fun kv => (fst kv, untag (snd kv)))
        (fun kv => Forall code_point (fst kv) /\ sound (snd kv)) (ch "}")) in E; try assumption; [|discriminate| |].
      + destruct E as [E1 E2]. rewrite E1. split; [reflexivity|now apply END].
      + intros x r0. cbn. eexists _, _. split; [reflexivity|discriminate].
      + eapply Forall_impl; [|exact IH]. intros [k x] HX [k' x'] r0 r0' [O1 O2] [O1' O2'] EE. cbn [fst snd] in *.
        rewrite <- !app_assoc in EE. apply debug_str_prefix in EE; [|assumption..]. destruct EE as [-> EE].
        apply app_inv_head in EE. apply HX in EE; [|assumption..]. destruct EE as [-> ->]. auto.
    - inversion V; subst. inversion W; subst. unfold debug_list in E. cbn [app] in E. injection E as E.
      rewrite <- !app_assoc in E. cbn [app] in E.
      apply (joined_prefix dbg untag sound (ch "]")) in E; try assumption; [|discriminate|apply debug_head].
      destruct E as [-> E]. split; [reflexivity|now apply END].
  Qed.
  Lemma debug_untag : forall v, dbg (untag v) = dbg v.
  Proof.
    induction v as [t s|t c|t b|t n|t e|t d IH|t l IH] using value_ind'; cbn [untag debug_value]; try reflexivity; f_equal.
    - f_equal. rewrite map_map. apply map_ext_in. intros [k x] HI. cbn [fst snd]. f_equal.
      rewrite Forall_forall in IH. exact (IH _ HI).
    - f_equal. rewrite map_map. apply map_ext_in. intros x HI. rewrite Forall_forall in IH. exact (IH _ HI).
  Qed.
End values.

(** ** The digits of floats are the fewest and the nearest *)
Definition best (prec emax : Z) : Prop := forall m e, canonical prec emax (S754_finite false m e) ->
  let '(d, k) := float_digits prec emax m e in
  exists N, in_digits N (inject_Z d * (10 # 1) ^ k) /\
    forall n w, in_digits n w -> rounds_to prec emax false w (S754_finite false m e) ->
      (N <= n)%Z /\ (n = N -> (Qabs (inject_Z d * (10 # 1) ^ k - inject_Z (Zpos m) * two_to e) <= Qabs (w - inject_Z (Zpos m) * two_to e))%Q).
Lemma best_of prec emax :
  (forall m e, canonical prec emax (S754_finite false m e) ->
   let '(p, q) := fraction m e in
   let '(d, k) := shortest 17 p q (pow10_floor p q) 1
     (fun d k => sf_same (decimal_to_float prec emax false d k) (S754_finite false m e)) in
   0 <= d /\ rounds_to prec emax false (decimal_value false d k) (S754_finite false m e))%Z ->
  (forall m e, canonical prec emax (S754_finite false m e) ->
   let x := (inject_Z (Zpos m) * two_to e)%Q in
   let '(p, q) := fraction m e in
   let '(d, k) := shortest 17 p q (pow10_floor p q) 1
     (fun d k => sf_same (decimal_to_float prec emax false d k) (S754_finite false m e)) in
   exists N, in_digits N (decimal_value false d k) /\
     forall n w, in_digits n w -> rounds_to prec emax false w (S754_finite false m e) ->
       (N <= n)%Z /\ (n = N -> (Qabs (decimal_value false d k - x) <= Qabs (w - x))%Q)) ->
  best prec emax.
Proof.
  intros H0 H m e C. specialize (H0 m e C). specialize (H m e C). cbv zeta in H. unfold float_digits.
  change (if (0 <=? e)%Z then (Zpos m * 2 ^ e, 1)%Z else (Zpos m, 2 ^ (- e))%Z) with (fraction m e).
  destruct (fraction m e) as [p q].
  destruct (shortest 17 p q (pow10_floor p q) 1 _) as [d k]. destruct H0 as [D _]. destruct H as (N & A & B).
  assert (S := strip_zeros_value 20 d k D). destruct (strip_zeros 20 d k) as [d' k']. destruct S as [_ S].
  exists N. split; [|intros n w Dw Rw; destruct (B n w Dw Rw) as [B1 B2]; split; [exact B1|intros E; rewrite S; exact (B2 E)]].
  apply (digits_wd _ (decimal_value false d k)); [|exact A]. unfold decimal_value. cbn [signed]. now rewrite S.
Qed.
Lemma best_double : best 53 1024. Proof. apply best_of; [exact search_hits|exact search_best]. Qed.
Lemma best_single : best 24 128. Proof. apply best_of; [exact search_hits32|exact search_best32]. Qed.
Lemma signed_rounds_any prec emax s w m e : rounds_to prec emax s w (S754_finite s m e) ->
  rounds_to prec emax false (signed s w) (S754_finite false m e).
Proof.
  cbn [rounds_to]. intros (_ & T & M & E & F & N). split; [reflexivity|].
  split; [rewrite too_large_signed; exact T|]. split; [exact M|]. split; [exact E|]. split; [exact F|].
  assert (H := nearest_signed _ _ s _ _ _ N). cbn [fvalue] in *. destruct s; cbn [signed] in *; [|exact H].
  intros v Rv. destruct (H v Rv) as [A B].
  assert (Z : (- - (inject_Z (Z.pos m) * two_to e) == inject_Z (Z.pos m) * two_to e)%Q) by ring.
  rewrite Z in A, B. auto.
Qed.
Lemma float_debugged_best prec emax x : ok_format prec emax -> hits prec emax -> best prec emax ->
  valid_binary prec emax x = true ->
  match x with S754_finite _ _ _ | S754_zero _ => True | _ => False end ->
  exists neg m e n, decimal_text (debug_float prec emax x) neg m e /\ rounds_to prec emax neg (decimal_value neg m e) x /\
    in_digits n (decimal_value neg m e) /\
    forall n' w, in_digits n' w -> rounds_to prec emax neg w x ->
      (n <= n')%Z /\ (n' = n -> (Qabs (decimal_value neg m e - fvalue x) <= Qabs (w - fvalue x))%Q).
Proof.
  intros F H B V Fi. destruct x as [s|s| |s m e]; try contradiction.
  - exists s, 0%Z, (0 - 1)%Z, 0%Z. split; [|split; [|split]].
    + assert (M : mantissa_text (lit "0.0") 0 1) by (apply (mt_point (lit "0") (lit "0")); [discriminate|repeat constructor; discriminate..]).
      change (decimal_text ((if s then [ch "-"] else []) ++ lit "0.0" ++ []) s 0 (0 - 1)).
      apply dt_intro; [destruct s; constructor|exact M|constructor].
    + apply (decimal_converted prec emax s 0 (0 - 1) _ F); [lia|reflexivity].
    + exists 0%Z, 0%Z. split; [reflexivity|]. destruct s; reflexivity.
    + intros n' w (m' & e' & M & _) _. split.
      * destruct (Z_le_gt_dec 0 n') as [|G]; [assumption|]. rewrite Z.pow_neg_r in M by lia. lia.
      * intros _. assert (Z : (decimal_value s 0 (0 - 1) - fvalue (S754_zero s) == 0)%Q) by (destruct s; reflexivity).
        rewrite Z. apply Qabs_nonneg.
  - assert (C := valid_canonical prec emax s m e F V).
    assert (C' : canonical prec emax (S754_finite false m e)) by exact C.
    specialize (H m e C'). specialize (B m e C'). unfold debug_float.
    destruct (float_digits prec emax m e) as [d k]. destruct H as [D R]. destruct B as (N & Dg & Best).
    set (v := (inject_Z d * (10 # 1) ^ k)%Q) in *.
    assert (T : exists m1 e1,
      decimal_text ((if s then lit "-" else []) ++
        (if SFleb (decimal_to_float prec emax false 1 16) (S754_finite false m e) ||
            SFltb (S754_finite false m e) (decimal_to_float prec emax false 1 (-4))
         then fmt_scientific d k else fmt_pointed d k)) s m1 e1 /\
      (decimal_value s m1 e1 == signed s v)%Q).
    { destruct (_ || _).
      - destruct (scientific_text d k D) as (mt & m1 & p & ex & e1 & -> & M & E & Q).
        exists m1, (e1 - p)%Z. split; [apply dt_intro; auto; destruct s; constructor|].
        unfold decimal_value. destruct s; cbn [signed]; now rewrite Q.
      - destruct (pointed_text d k D) as (m1 & p & M & Q).
        exists m1, (0 - p)%Z. split.
        + rewrite <- (app_nil_r (fmt_pointed d k)). apply dt_intro; [destruct s; constructor|exact M|constructor].
        + unfold decimal_value. change (0 - p)%Z with (- p)%Z. destruct s; cbn [signed]; now rewrite Q. }
    destruct T as (m1 & e1 & T & Q1). exists s, m1, e1, N. split; [exact T|]. split; [|split].
    + apply (rounds_arg _ _ _ (signed s v)); [symmetry; exact Q1|].
      cbn [rounds_to] in *. destruct R as (_ & R1 & R2 & R3 & R4 & R5). split; [reflexivity|].
      split; [rewrite too_large_signed; exact R1|]. split; [exact R2|]. split; [exact R3|]. split; [exact R4|].
      exact (nearest_signed _ _ s _ _ _ R5).
    + apply (digits_wd _ _ _ (Qeq_sym _ _ Q1)). destruct s; cbn [signed]; [apply opp_digits|]; exact Dg.
    + intros n w Dw Rw. apply signed_rounds_any in Rw.
      assert (Dw' : in_digits n (signed s w)) by (destruct s; cbn [signed]; [apply opp_digits|]; exact Dw).
      destruct (Best n _ Dw' Rw) as [B1 B2]. split; [exact B1|]. intros Nn. specialize (B2 Nn).
      cbn [fvalue]. rewrite Q1. destruct s; cbn [signed] in *; [|exact B2].
      rewrite <- Qabs_opp, <- (Qabs_opp (w - _)).
      setoid_replace (- (- v - - (inject_Z (Z.pos m) * two_to e)))%Q
        with (v - inject_Z (Z.pos m) * two_to e)%Q by ring.
      setoid_replace (- (w - - (inject_Z (Z.pos m) * two_to e)))%Q with (- w - inject_Z (Z.pos m) * two_to e)%Q by ring.
      exact B2.
Qed.

(** ** No control characters *)
Definition visible (c : uchar) : Prop := 32 <= c /\ c <> 127.
Lemma visible_lit s : forallb (fun c => (32 <=? c) && negb (c =? 127)) s = true -> Forall visible s.
Proof.
  intros H. apply Forall_forall. intros c I. rewrite forallb_forall in H. specialize (H c I).
  apply andb_true_iff in H as [H1 H2]. apply N.leb_le in H1. apply negb_true_iff, N.eqb_neq in H2. now split.
Qed.
Lemma numerical_visible s : Forall numerical s -> Forall visible s.
Proof.
  apply Forall_impl. intros c [[H1 H2]|H].
  - split; [eapply N.le_trans; [|exact H1]; discriminate|]. intros ->. apply H2. reflexivity.
  - cbn in H. repeat (destruct H as [<-|H]; [split; discriminate|]). destruct H.
Qed.
Lemma float_visible prec emax x : ok_format prec emax -> hits prec emax -> valid_binary prec emax x = true ->
  Forall visible (debug_float prec emax x).
Proof.
  intros F H V. destruct x as [s|s| |s m e].
  2: destruct s; apply visible_lit; reflexivity.
  2: apply visible_lit; reflexivity.
  all: apply numerical_visible; edestruct (float_debugged prec emax) as (neg & m1 & e1 & D & _); [exact F|exact H|exact V|exact I|];
    eapply decimal_numerical, D.
Qed.
Lemma tuple_visible name field : Forall visible name -> Forall visible field -> Forall visible (debug_tuple name field).
Proof.
  intros A B. unfold debug_tuple. apply Forall_app. split; [exact A|]. constructor; [split; discriminate|].
  apply Forall_app. split; [exact B|]. constructor; [split; discriminate|constructor].
Qed.
Lemma join_visible l : Forall (Forall visible) l -> Forall visible (join (lit ", ") l).
Proof.
  induction 1 as [|x l X L IH]; [constructor|]. destruct l as [|y l]; [exact X|]. rewrite join_cons.
  repeat (apply Forall_app; split); [exact X|apply visible_lit; reflexivity|exact IH].
Qed.
Section visibles.
  Context (u : uchar -> bool) (U : forall c, c < 32 \/ c = 127 -> u c = true).
  Lemma hex_visible : forall f c s, Forall visible s -> Forall visible (fmt_hex f c s).
  Proof.
    induction f as [|f IH]; intros c s S; [exact S|]. cbn [fmt_hex].
    assert (V : Forall visible (Fmt.hex_digit (c mod 16) :: s)).
    { constructor; [|exact S]. unfold Fmt.hex_digit, visible. assert (M := N.mod_lt c 16 ltac:(discriminate)).
      unfold uchar in *. revert M. generalize (c mod 16). intros x M. destruct (N.ltb_spec x 10); lia. }
    destruct (c / 16); [exact V|apply IH, V].
  Qed.
  Lemma escape_visible q c : visible q -> Forall visible (escape_char u q c).
  Proof.
    intros Q. unfold escape_char.
    repeat (match goal with |- context [if (?a =? ?b)%N then _ else _] => destruct (N.eqb_spec a b) end; [try (apply visible_lit; reflexivity)|]).
    - constructor; [split; discriminate|]. constructor; [exact Q|constructor].
    - destruct (u c) eqn:E.
      + repeat (apply Forall_app; split); [apply visible_lit; reflexivity|apply hex_visible; constructor|apply visible_lit; reflexivity].
      + constructor; [|constructor]. unfold visible. split.
        * destruct (N.lt_ge_cases c 32) as [L|L]; [|exact L]. rewrite U in E by auto. discriminate E.
        * intros ->. rewrite U in E by auto. discriminate E.
  Qed.
  Lemma quoted_visible q s : visible q -> Forall visible (q :: flat_map (escape_char u q) s ++ [q]).
  Proof.
    intros Q. constructor; [exact Q|]. apply Forall_app. split; [|now constructor].
    induction s as [|c s IH]; [constructor|]. cbn [flat_map]. apply Forall_app. split; [now apply escape_visible|exact IH].
  Qed.
  Lemma debug_visible : forall v, sound v -> Forall visible (debug_value u v).
  Proof.
    induction v as [t s|t c|t b|t n|t e|t d IH|t l IH] using value_ind'; intros V; cbn [debug_value];
      (apply tuple_visible; [apply visible_lit; reflexivity|]).
    - apply quoted_visible. split; discriminate.
    - unfold debug_char. assert (H := quoted_visible (ch "'") [c] ltac:(split; discriminate)). cbn [flat_map] in H.
      now rewrite app_nil_r in H.
    - destruct b; apply visible_lit; reflexivity.
    - unfold debug_num. inversion V; subst; (apply tuple_visible; [try (destruct k); apply visible_lit; reflexivity|]).
      + apply numerical_visible, int_numerical.
      + apply float_visible; [exact ok_single|exact hits_single|assumption].
      + apply float_visible; [exact ok_double|exact hits_double|assumption].
    - destruct e; apply visible_lit; reflexivity.
    - inversion V; subst. unfold debug_map. constructor; [split; discriminate|]. apply Forall_app. split; [|apply visible_lit; reflexivity].
      apply join_visible. rewrite map_map. apply Forall_map. rewrite Forall_forall in *. intros [k x] I. specialize (H0 _ I) as [H1 H2].
      specialize (IH _ I). cbn [fst snd] in *. repeat (apply Forall_app; split).
      + apply quoted_visible. split; discriminate.
      + apply visible_lit; reflexivity.
      + now apply IH.
    - inversion V; subst. unfold debug_list. constructor; [split; discriminate|]. apply Forall_app. split; [|apply visible_lit; reflexivity].
      apply join_visible. apply Forall_map. rewrite Forall_forall in *. auto.
  Qed.
End visibles.

(** ** Tags *)
Lemma debug_tag_inj a b p q : a < 2 ^ 62 -> b < 2 ^ 62 ->
  debug_tag (tag_new a p) = debug_tag (tag_new b q) -> a = b /\ p = q.
Proof.
  intros A B. unfold debug_tag, is_default.
  assert (M : forall a p, a < 2 ^ 62 -> metadata_id (tag_new a p) = a) by (intros a' p' L; rewrite metadata_id_new; now apply N.mod_small).
  assert (P : forall a p, tag_profile_tag (tag_new a p) = p) by (intros; apply profile_tag_new).
  rewrite !M, !P by assumption.
  assert (Z : forall t, tag_raw t = tag_raw tag_default -> metadata_id t = 0 /\ tag_profile_tag t = PTDefault).
  { intros [r]. cbn [tag_raw tag_default]. intros ->. split; reflexivity. }
  destruct (N.eqb_spec (tag_raw (tag_new a p)) (tag_raw tag_default)) as [E|E];
  destruct (N.eqb_spec (tag_raw (tag_new b q)) (tag_raw tag_default)) as [E'|E'].
  - intros _. apply Z in E as [E1 E2]. apply Z in E' as [E3 E4]. rewrite M, P in * by assumption. now subst.
  - intros X. discriminate X.
  - intros X. discriminate X.
  - intros X. assert (S : forall a p b q, lit "Tag(" ++ debug_profile_tag p ++ lit ", " ++ fmt_nat a ++ lit ")" =
      lit "Tag(" ++ debug_profile_tag q ++ lit ", " ++ fmt_nat b ++ lit ")" -> a = b /\ p = q).
    { clear. intros a p b q X. apply app_inv_head in X. destruct p, q; try discriminate X;
        (do 2 apply app_inv_head in X; apply app_inv_tail in X; apply fmt_nat_inj in X; auto). }
    now apply S.
Qed.

(** ** The form of the output *)
Lemma hex_digit_means d : d < 16 -> SpecParse.hex_digit (Fmt.hex_digit d) d.
Proof.
  intros H. unfold Fmt.hex_digit. destruct (N.ltb_spec d 10) as [L|L]; [exact (hd_digit d L)|].
  assert (E := hd_lower (d - 10) ltac:(lia)). change (ch "a") with 97 in E.
  replace (87 + d) with (97 + (d - 10)) by lia. replace (10 + (d - 10)) with d in E by lia. exact E.
Qed.
Lemma fmt_hex_means : forall f c s, c < 16 ^ N.of_nat f -> f <> 0%nat ->
  exists ds, fmt_hex f c s = ds ++ s /\ hex_number ds c.
Proof.
  induction f as [|f IH]; intros c s C NZ; [contradiction|]. cbn [fmt_hex].
  assert (D := N.div_mod c 16 ltac:(lia)). assert (M := N.mod_lt c 16 ltac:(lia)).
  assert (H := hex_digit_means _ M).
  destruct (c / 16) as [|q] eqn:Q.
  - exists ([] ++ [Fmt.hex_digit (c mod 16)]). split; [reflexivity|]. rewrite D at 2. now apply hn_snoc; [constructor|].
  - destruct (IH (N.pos q) (Fmt.hex_digit (c mod 16) :: s)) as (ds & E & V).
    + rewrite Nat2N.inj_succ, N.pow_succ_r' in C. rewrite <- Q. apply N.div_lt_upper_bound; [lia|exact C].
    + intros ->. change (16 ^ N.of_nat 1) with 16 in C. rewrite N.div_small in Q by exact C. discriminate Q.
    + exists (ds ++ [Fmt.hex_digit (c mod 16)]). rewrite E, <- app_assoc. split; [reflexivity|].
      rewrite D at 2. now apply hn_snoc.
Qed.
Lemma escape_means u q c : code_point c -> escaped u q c (escape_char u q c).
Proof.
  intros C. unfold escape_char.
  destruct (N.eqb_spec c 0) as [->|N0]; [apply (es_letter u q 0 (ch "0")); cbn; auto 10|].
  destruct (N.eqb_spec c 9) as [->|N1]; [apply (es_letter u q 9 (ch "t")); cbn; auto 10|].
  destruct (N.eqb_spec c 13) as [->|N2]; [apply (es_letter u q 13 (ch "r")); cbn; auto 10|].
  destruct (N.eqb_spec c 10) as [->|N3]; [apply (es_letter u q 10 (ch "n")); cbn; auto 10|].
  destruct (N.eqb_spec c (ch "\")) as [->|N4]; [apply (es_letter u q (ch "\") (ch "\")); cbn; auto 10|].
  destruct (N.eqb_spec c q) as [->|N5]; [apply es_quote|].
  assert (NI : ~ In c (q :: map fst letters)) by (intros [I|[I|[I|[I|[I|[I|[]]]]]]]; cbn [fst] in I; now symmetry in I).
  destruct (u c) eqn:U; [|now apply es_plain].
  destruct (fmt_hex_means 8 c []) as (ds & E & V); [unfold code_point in C; change (16 ^ N.of_nat 8) with 4294967296; lia|discriminate|].
  rewrite E, app_nil_r. now apply es_hex.
Qed.
Lemma escape_all_means u q s : Forall code_point s -> escaped_all u q s (flat_map (escape_char u q) s).
Proof. induction 1; cbn [flat_map]; constructor; [now apply escape_means|assumption]. Qed.
Lemma join_separated l : separated l (join (lit ", ") l).
Proof.
  induction l as [|x l IH]; [constructor|]. destruct l as [|y l]; [constructor|]. rewrite join_cons. constructor; [discriminate|exact IH].
Qed.
Lemma pointed_has d k : In (ch ".") (fmt_pointed d k).
Proof.
  unfold fmt_pointed. destruct (Z.leb_spec 0 k) as [K|K].
  - apply in_or_app. right. apply in_or_app. right. left. reflexivity.
  - unfold fmt_positional. destruct (Z.leb_spec 0 k); [lia|].
    match goal with |- context [if ?b then _ else _] => destruct b end; [right; now left|].
    apply in_or_app. right. now left.
Qed.
Lemma scientific_has d k : In (ch "e") (fmt_scientific d k).
Proof.
  unfold fmt_scientific. rewrite fmt_nat_decimal. assert (N := decimal_numeral (Z.to_N d)). destruct N as (N0 & _).
  destruct (decimal (Z.to_N d)) as [|c [|c2 r]]; [contradiction|right; now left|].
  right. right. apply in_or_app. right. now left.
Qed.
Lemma float_means prec emax x : ok_format prec emax -> hits prec emax -> best prec emax ->
  valid_binary prec emax x = true -> float_printed prec emax x (debug_float prec emax x).
Proof.
  intros F H B V. destruct x as [s|s| |s m e].
  2: destruct s; constructor.
  2: constructor.
  1,2: match goal with |- float_printed _ _ ?x _ =>
      destruct (float_debugged_best prec emax x F H B V I) as (neg & m1 & e1 & n & D & R & Dg & Best) end.
  - apply (fp_number _ _ _ _ neg m1 e1 n); auto. left. destruct s; cbn; auto.
  - apply (fp_number _ _ _ _ neg m1 e1 n); auto. cbn [debug_float].
    destruct (float_digits prec emax m e) as [d k].
    destruct (_ || _); [right|left]; (apply in_or_app; right); [apply scientific_has|apply pointed_has].
Qed.
Lemma debug_means u : forall v, sound v -> printed u v (debug_value u v).
Proof.
  induction v as [t s|t c|t b|t n|t e|t d IH|t l IH] using value_ind'; intros V; inversion V; subst; cbn [debug_value].
  - assert (E := pr_string u t s _ (escape_all_means u (ch """") s ltac:(assumption))).
    unfold debug_tuple, debug_str. cbn [app]. rewrite <- app_assoc. exact E.
  - assert (E := pr_char u t c _ (escape_means u (ch "'") c ltac:(assumption))).
    unfold debug_tuple, debug_char. cbn [app]. rewrite <- app_assoc. exact E.
  - destruct b; constructor.
  - unfold debug_num, debug_tuple. rewrite fmt_int_show. unfold show_int.
    change (ikind_name k) with (width_name k). destruct (Z.ltb_spec z 0) as [L|L].
    + assert (N := decimal_numeral (Z.to_N (- z))). rewrite Z2N.id in N by lia.
      assert (E := pr_negative u t k z _ L N). repeat (progress (cbn [app] || rewrite <- ?app_assoc)). exact E.
    + assert (N := decimal_numeral (Z.to_N z)). rewrite Z2N.id in N by lia.
      assert (E := pr_unsigned u t k z _ L N). repeat (progress (cbn [app] || rewrite <- ?app_assoc)). exact E.
  - assert (E := pr_single u t x _ (float_means _ _ x ok_single hits_single best_single ltac:(assumption))).
    unfold debug_num, debug_tuple. repeat (progress (cbn [app] || rewrite <- ?app_assoc)). exact E.
  - assert (E := pr_double u t x _ (float_means _ _ x ok_double hits_double best_double ltac:(assumption))).
    unfold debug_num, debug_tuple. repeat (progress (cbn [app] || rewrite <- ?app_assoc)). exact E.
  - destruct e; constructor.
  - unfold debug_tuple, debug_map. rewrite map_map. cbn [app]. rewrite <- app_assoc.
    refine (pr_dict u t d _ _ _ (join_separated _)).
    clear V. induction d as [|[k x] d IHd]; [constructor|]. inversion IH; subst. inversion H0; subst. cbn [fst snd] in *.
    constructor; [|now apply IHd]. destruct H4 as [K X]. unfold debug_str. cbn [app]. rewrite <- app_assoc.
    exact (en_printed u k x _ _ (escape_all_means u (ch """") k K) (H2 X)).
  - unfold debug_tuple, debug_list. cbn [app]. rewrite <- app_assoc.
    refine (pr_array u t l _ _ _ (join_separated _)).
    clear V. induction l as [|x l IHl]; [constructor|]. inversion IH; subst. inversion H0; subst.
    constructor; [auto|now apply IHl].
Qed.

(** ** Equality *)
Lemma eqb_untag : forall v w, value_eqb (untag v) (untag w) = value_eqb v w.
Proof.
  induction v as [t s|t c|t b|t n|t e|t d IH|t l IH] using value_ind'; intros [t' s'|t' c'|t' b'|t' n'|t' e'|t' d'|t' l'];
    try reflexivity; cbn [untag value_eqb].
  - revert d'. induction IH as [|[k x] d X _ IHd]; intros [|[k' x'] d']; try reflexivity. cbn [map fst snd] in *. rewrite X. f_equal. apply IHd.
  - revert l'. induction IH as [|x l X _ IHl]; intros [|x' l']; try reflexivity. cbn [map]. rewrite X. f_equal. apply IHl.
Qed.
