(** Reading integers and decimal numbers. *)
From Coq Require Import Ascii String ZArith NArith Bool Lia.
From Coq Require Import List.
From Verif Require Import SpecNear NearProofs.
From Verif Require Import Res BMap Str StrProofs Profile Tag Num Value NumParse SpecParse.
Import ListNotations.

Lemma digit_value_spec c d : digit_value c = Some d <-> is_digit c /\ d = (Z.of_N c - 48)%Z.
Proof.
  unfold digit_value, is_digit. change (ch "0") with 48%N. change (ch "9") with 57%N.
  destruct (N.leb_spec 48 c); destruct (N.leb_spec c 57); cbn [andb]; split;
    try discriminate; try (intros [? ?]; lia).
  - intros E; inversion E. split; [lia|]. lia.
  - intros [_ ->]. f_equal. lia.
Qed.

Lemma digit_value_none c : digit_value c = None <-> ~ is_digit c.
Proof.
  destruct (digit_value c) as [d|] eqn:E.
  - apply digit_value_spec in E. destruct E. split; [discriminate|contradiction].
  - split; auto. intros _ H.
    assert (digit_value c = Some (Z.of_N c - 48)%Z) by (now apply digit_value_spec). congruence.
Qed.

Definition numeral_step (acc : Z) (c : uchar) : Z := (10 * acc + (Z.of_N c - 48))%Z.

Lemma digits_value_spec s : forall acc z,
  digits_value acc s = Some z <-> Forall is_digit s /\ z = fold_left numeral_step s acc.
Proof.
  induction s as [|c s IH]; intros acc z; cbn [digits_value fold_left].
  - split; [intros E; inversion E; auto | intros [_ ->]; auto].
  - destruct (digit_value c) as [d|] eqn:E.
    + apply digit_value_spec in E. destruct E as [Hc ->]. rewrite IH.
      split; intros [F ->]; (split; [|reflexivity]); [now constructor | now inversion F].
    + split; [discriminate|]. intros [F _]. inversion F; subst.
      apply digit_value_none in E. contradiction.
Qed.

Lemma numeral_spec ds z : numeral ds z <-> ds <> [] /\ digits_value 0 ds = Some z.
Proof. unfold numeral. rewrite digits_value_spec. reflexivity. Qed.

Lemma numeral_step_nonneg ds : forall acc, Forall is_digit ds -> (0 <= acc)%Z ->
  (0 <= fold_left numeral_step ds acc)%Z.
Proof.
  induction ds as [|c ds IH]; intros acc F H; auto. inversion F as [|? ? Hc F']; subst.
  cbn [fold_left]. apply IH; auto. unfold numeral_step, is_digit in *.
  change (ch "0") with 48%N in Hc. lia.
Qed.

Lemma numeral_nonneg ds z : numeral ds z -> (0 <= z)%Z.
Proof. intros [_ [F ->]]. apply numeral_step_nonneg; auto. lia. Qed.

Lemma numeral_head_digit c r z : numeral (c :: r) z -> is_digit c.
Proof. intros [_ [F _]]. now inversion F. Qed.

Lemma numeral_fun ds z z' : numeral ds z -> numeral ds z' -> z = z'.
Proof. intros [_ [_ ->]] [_ [_ ->]]. reflexivity. Qed.

Lemma digit_not_plus c : is_digit c -> c <> ch "+". 
Proof. unfold is_digit. intros H ->. vm_compute in H. destruct H as [H _]. now apply H. Qed.
Lemma digit_not_minus c : is_digit c -> c <> ch "-". 
Proof. unfold is_digit. intros H ->. vm_compute in H. destruct H as [H _]. now apply H. Qed.
Lemma digit_not_dot c : is_digit c -> c <> dot. 
Proof. unfold is_digit. intros H ->. vm_compute in H. destruct H as [H _]. now apply H. Qed.

(** The texts an integer type accepts. *)
Definition int_text (k : ikind) (s : ustr) (z : Z) : Prop :=
  numeral s z
  \/ (exists ds, s = ch "+" :: ds /\ numeral ds z)
  \/ (ikind_signed k = true /\ exists ds y, s = ch "-" :: ds /\ numeral ds y /\ z = (- y)%Z).

Lemma unsigned_spec d z :
  match d with [] => None | _ => digits_value 0 d end = Some z <-> numeral d z.
Proof.
  rewrite numeral_spec. destruct d; split; try discriminate; try tauto.
  intros H. split; [discriminate|auto].
Qed.

Lemma parse_int_spec k s z : parse_int k s = Some z <-> in_range k z = true /\ int_text k s z.
Proof.
  unfold parse_int, int_text. cbv zeta. split.
  - destruct s as [|c r]; [discriminate|].
    destruct (N.eqb_spec c (ch "+")) as [->|Np].
    + destruct (match r with [] => None | _ => digits_value 0 r end) eqn:E; [|discriminate].
      apply unsigned_spec in E. destruct (in_range k z0) eqn:R; [|discriminate].
      intros H; inversion H; subst. split; auto. right. left. eauto.
    + destruct (N.eqb_spec c (ch "-")) as [->|Nm].
      * destruct (ikind_signed k) eqn:Sg; [|discriminate].
        destruct (match r with [] => None | _ => digits_value 0 r end) eqn:E; [|discriminate].
        apply unsigned_spec in E. cbn [option_map].
        destruct (in_range k (- z0)) eqn:R; [|discriminate].
        intros H; inversion H; subst. split; auto. right. right. split; auto. exists r, z0. auto.
      * destruct (digits_value 0 (c :: r)) eqn:E; [|discriminate].
        destruct (in_range k z0) eqn:R; [|discriminate].
        intros H; inversion H; subst. split; auto. left. apply numeral_spec. split; [discriminate|auto].
  - intros [R [H|[[ds [-> H]]|[Sg [ds [y [-> [H ->]]]]]]]].
    + destruct s as [|c r]; [destruct H as [H _]; now elim H|].
      assert (Hc := numeral_head_digit _ _ _ H).
      apply digit_not_plus in Hc as Hp. apply digit_not_minus in Hc as Hm.
      apply N.eqb_neq in Hp. apply N.eqb_neq in Hm. rewrite Hp, Hm.
      apply numeral_spec in H. destruct H as [_ H]. now rewrite H, R.
    + rewrite N.eqb_refl. apply unsigned_spec in H. now rewrite H, R.
    + change (ch "-" =? ch "+")%N with false. rewrite N.eqb_refl, Sg.
      apply unsigned_spec in H. rewrite H. cbn [option_map]. now rewrite R.
Qed.

Lemma int_text_fun k s z z' : int_text k s z -> int_text k s z' -> z = z'.
Proof.
  assert (P : forall c ds x, c = ch "+" \/ c = ch "-" -> ~ numeral (c :: ds) x).
  { intros c ds x Hc H. apply numeral_head_digit in H. destruct Hc as [->| ->].
    - now apply digit_not_plus in H.
    - now apply digit_not_minus in H. }
  intros [A|[[ds [-> A]]|[_ [ds [y [-> [A ->]]]]]]] [B|[[ds' [E B]]|[_ [ds' [y' [E [B ->]]]]]]];
    subst; try (exfalso; eapply P; [|eassumption]; auto; fail).
  - now apply (numeral_fun s).
  - inversion E; subst. now apply (numeral_fun ds').
  - discriminate.
  - discriminate.
  - inversion E; subst. f_equal. now apply (numeral_fun ds').
Qed.

Lemma int_text_no_dot k s z : int_text k s z -> contains_c dot s = false.
Proof.
  assert (D : forall ds, Forall is_digit ds -> contains_c dot ds = false).
  { intros ds F. unfold contains_c. apply not_true_iff_false. rewrite existsb_exists.
    intros [c [I E]]. apply N.eqb_eq in E. subst c. rewrite Forall_forall in F.
    now apply F, digit_not_dot in I. }
  intros [[_ [F _]]|[[ds [-> [_ [F _]]]]|[_ [ds [y [-> [[_ [F _]] _]]]]]]].
  - auto.
  - cbn. now apply D.
  - cbn. now apply D.
Qed.

Lemma parse_int_none k s : parse_int k s = None ->
  forall z, int_text k s z -> in_range k z = false.
Proof.
  intros H z T. destruct (in_range k z) eqn:R; auto.
  assert (parse_int k s = Some z) by (now apply parse_int_spec). congruence.
Qed.

(** ** Ranges *)
Lemma in_range_spec k z : in_range k z = true <-> (ikind_min k <= z <= ikind_max k)%Z.
Proof. unfold in_range. rewrite andb_true_iff, !Z.leb_le. reflexivity. Qed.

Lemma in_range_usize z : (0 <= z)%Z -> (in_range USize z = true <-> (z < 2 ^ 64)%Z).
Proof. intros H. rewrite in_range_spec. change (ikind_min USize) with 0%Z.
  change (ikind_max USize) with (2 ^ 64 - 1)%Z. lia. Qed.

Lemma in_range_isize_neg z : (0 <= z)%Z -> (in_range ISize (- z) = true <-> (z <= 2 ^ 63)%Z).
Proof. intros H. rewrite in_range_spec. change (ikind_min ISize) with (- 2 ^ 63)%Z.
  change (ikind_max ISize) with (2 ^ 63 - 1)%Z. lia. Qed.

(** ** Decimal fractions *)
Lemma span_digits_spec s : forall a n, exists ds r,
  s = ds ++ r /\ Forall is_digit ds /\ (forall c r', r = c :: r' -> ~ is_digit c)
  /\ span_digits a n s = (fold_left numeral_step ds a, (n + Z.of_nat (length ds))%Z, r).
Proof.
  induction s as [|c s IH]; intros a n; cbn [span_digits].
  - exists [], []. repeat split; auto; [discriminate|]. cbn [fold_left length]. now rewrite Z.add_0_r.
  - destruct (digit_value c) as [d|] eqn:E.
    + apply digit_value_spec in E. destruct E as [Hc ->].
      destruct (IH (10 * a + (Z.of_N c - 48))%Z (n + 1)%Z) as [ds [r [-> [F [Hr Hs]]]]].
      exists (c :: ds), r. repeat split; auto. rewrite Hs. cbn [fold_left length].
      f_equal. f_equal. lia.
    + apply digit_value_none in E. exists [], (c :: s). repeat split; auto.
      * intros c' r' H. now inversion H; subst.
      * cbn [fold_left length]. now rewrite Z.add_0_r.
Qed.

Lemma span_digits_app ds r : forall a n, Forall is_digit ds ->
  (forall c r', r = c :: r' -> ~ is_digit c) ->
  span_digits a n (ds ++ r) = (fold_left numeral_step ds a, (n + Z.of_nat (length ds))%Z, r).
Proof.
  induction ds as [|c ds IH]; intros a n F H; cbn [app fold_left length].
  - rewrite Z.add_0_r. destruct r as [|c r]; auto. cbn [span_digits].
    assert (E : digit_value c = None) by (apply digit_value_none; eapply H; reflexivity).
    now rewrite E.
  - inversion F as [|? ? Hc F']; subst. cbn [span_digits].
    assert (E : digit_value c = Some (Z.of_N c - 48)%Z) by (now apply digit_value_spec).
    rewrite E, IH by auto. f_equal. f_equal. lia.
Qed.

Lemma numeral_value_app a b :
  numeral_value (a ++ b) = fold_left numeral_step b (fold_left numeral_step a 0%Z).
Proof. unfold numeral_value. now rewrite fold_left_app. Qed.

Lemma parse_exponent_spec s e : parse_exponent s = Some e <-> exponent_text s e.
Proof.
  split.
  - destruct s as [|c r]; cbn [parse_exponent].
    + intros H; inversion H. constructor.
    + destruct ((c =? ch "e") || (c =? ch "E"))%N eqn:Ec; [|discriminate].
      assert (Hc : c = ch "e" \/ c = ch "E").
      { apply orb_true_iff in Ec. rewrite !N.eqb_eq in Ec. exact Ec. }
      destruct r as [|d r']; [discriminate|].
      destruct (N.eqb_spec d (ch "+")) as [->|Np].
      * intros H. apply unsigned_spec in H.
        exact (ex_some c [ch "+"] false r' e Hc sg_plus H).
      * destruct (N.eqb_spec d (ch "-")) as [->|Nm].
        -- destruct r' as [|d' r']; [discriminate|].
           destruct (digits_value 0 (d' :: r')) as [z|] eqn:D; [|discriminate].
           intros H. inversion H; subst. 
           apply (ex_some c [ch "-"] true (d' :: r') z Hc sg_minus).
           apply numeral_spec. split; [discriminate|exact D].
        -- intros H. apply (ex_some c [] false (d :: r') e Hc sg_none).
           apply numeral_spec. split; [discriminate|exact H].
  - intros H. destruct H as [|c sgn neg ds z Hc Hs Hn]; [reflexivity|]. cbn [parse_exponent].
    assert (Ec : ((c =? ch "e") || (c =? ch "E"))%N = true).
    { apply orb_true_iff. rewrite !N.eqb_eq. exact Hc. }
    rewrite Ec. destruct Hs; cbn [app].
    + destruct ds as [|d ds]; [destruct Hn as [Hn _]; now elim Hn|].
      assert (Hd := numeral_head_digit _ _ _ Hn).
      apply digit_not_plus in Hd as Hp. apply digit_not_minus in Hd as Hm.
      apply N.eqb_neq in Hp. apply N.eqb_neq in Hm. rewrite Hp, Hm.
      apply numeral_spec in Hn. apply Hn.
    + rewrite N.eqb_refl. now apply unsigned_spec.
    + change (ch "-" =? ch "+")%N with false. rewrite N.eqb_refl. apply unsigned_spec in Hn.
      destruct ds; [discriminate|]. now rewrite Hn.
Qed.

Lemma exponent_head c r e : exponent_text (c :: r) e -> ~ is_digit c /\ c <> dot.
Proof.
  intros H. assert (Hc : c = ch "e" \/ c = ch "E") by (inversion H; auto).
  destruct Hc as [->| ->]; (split; [|discriminate]);
    unfold is_digit; intros [_ X]; vm_compute in X; now apply X.
Qed.

(** The part after the sign. *)
Definition unsigned_decimal (s1 : ustr) : option (Z * Z) :=
  let '(m1, n1, s2) := span_digits 0 0 s1 in
  let '(m2, n2, s3) := match s2 with
                       | c :: r => if (c =? dot)%N then
                                     let '(m, n, r') := span_digits m1 0 r in (m, n, r')
                                   else (m1, 0%Z, s2)
                       | [] => (m1, 0%Z, s2)
                       end in
  if (n1 + n2 =? 0)%Z then None
  else match parse_exponent s3 with
       | Some e => Some (m2, (e - n2)%Z)
       | None => None
       end.

Lemma unsigned_decimal_spec s m x : unsigned_decimal s = Some (m, x) <->
  exists mt ex p e, s = mt ++ ex /\ mantissa_text mt m p /\ exponent_text ex e /\ x = (e - p)%Z.
Proof.
  unfold unsigned_decimal. split.
  - destruct (span_digits_spec s 0 0) as [ip [r [-> [Fi [Hr ->]]]]].
    destruct r as [|c r].
    + destruct (Z.eqb_spec (0 + Z.of_nat (length ip) + 0) 0) as [Z0|Z0]; [discriminate|].
      cbn [parse_exponent]. intros H; inversion H; subst.
      exists ip, [], 0%Z, 0%Z. repeat split; auto; [|constructor].
      apply mt_whole; auto. intros ->. now apply Z0.
    + destruct (N.eqb_spec c dot) as [->|Nd].
      * destruct (span_digits_spec r (fold_left numeral_step ip 0%Z) 0)
          as [fp [r' [-> [Ff [Hr' ->]]]]].
        destruct (Z.eqb_spec (0 + Z.of_nat (length ip) + (0 + Z.of_nat (length fp))) 0) as [Z0|Z0];
          [discriminate|].
        destruct (parse_exponent r') as [e|] eqn:E; [|discriminate]. intros H; inversion H; subst.
        apply parse_exponent_spec in E.
        exists (ip ++ dot :: fp), r', (Z.of_nat (length fp)), e.
        split; [now rewrite <- app_assoc|]. split; [|split; auto].
        rewrite <- numeral_value_app. apply mt_point; auto.
        intros X. apply app_eq_nil in X. destruct X; subst. now apply Z0.
      * destruct (Z.eqb_spec (0 + Z.of_nat (length ip) + 0) 0) as [Z0|Z0]; [discriminate|].
        destruct (parse_exponent (c :: r)) as [e|] eqn:E; [|discriminate]. intros H; inversion H; subst.
        apply parse_exponent_spec in E. exists ip, (c :: r), 0%Z, e. repeat split; auto.
        apply mt_whole; auto. intros ->. now apply Z0.
  - intros [mt [ex [p [e [-> [M [E ->]]]]]]]. destruct M as [ip N0 Fi|ip fp N0 Fi Ff].
    + rewrite span_digits_app; auto.
      2:{ intros c r' ->. apply exponent_head in E. apply E. }
      destruct ex as [|c r].
      * inversion E; subst. cbn [parse_exponent].
        destruct (Z.eqb_spec (0 + Z.of_nat (length ip) + 0) 0) as [Z0|Z0].
        -- destruct ip; [congruence|]. cbn [length] in Z0. lia.
        -- reflexivity.
      * destruct (exponent_head _ _ _ E) as [_ Nd]. apply N.eqb_neq in Nd. rewrite Nd.
        destruct (Z.eqb_spec (0 + Z.of_nat (length ip) + 0) 0) as [Z0|Z0].
        -- destruct ip; [congruence|]. cbn [length] in Z0. lia.
        -- apply parse_exponent_spec in E. now rewrite E.
    + rewrite <- app_assoc. rewrite span_digits_app; auto.
      2:{ intros c r' H D. apply digit_not_dot in D. apply D. inversion H. reflexivity. }
      cbn [app]. change (ch ".") with dot. rewrite N.eqb_refl.
      rewrite span_digits_app; auto.
      2:{ intros c r' ->. apply exponent_head in E. apply E. }
      destruct (Z.eqb_spec (0 + Z.of_nat (length ip) + (0 + Z.of_nat (length fp))) 0) as [Z0|Z0].
      * destruct ip, fp; try (now elim N0); cbn [length] in Z0; lia.
      * apply parse_exponent_spec in E. rewrite E, numeral_value_app. reflexivity.
Qed.

Lemma mantissa_head c r m p : mantissa_text (c :: r) m p -> c <> ch "+" /\ c <> ch "-".
Proof.
  assert (D : forall c, is_digit c -> c <> ch "+" /\ c <> ch "-")
    by (intros; split; [now apply digit_not_plus|now apply digit_not_minus]).
  intros H. inversion H as [ip N0 F E1 E2 E3|ip fp N0 F1 F2 E1 E2 E3]; subst.
  - inversion F; auto.
  - destruct ip as [|d ip]; cbn [app] in E1; inversion E1; subst.
    + split; discriminate.
    + inversion F1; auto.
Qed.

Lemma mantissa_nonnil m p : ~ mantissa_text [] m p.
Proof.
  intros H. inversion H as [ip N0 F E1 E2 E3|ip fp N0 F1 F2 E1 E2 E3]; subst; [congruence|].
  destruct ip; discriminate.
Qed.

Lemma parse_decimal_spec s neg m e : parse_decimal s = Some (neg, m, e) <-> decimal_text s neg m e.
Proof.
  assert (U : parse_decimal s =
    let '(neg, s1) := match s with
                      | c :: r => if (c =? ch "-")%N then (true, r)
                                  else if (c =? ch "+")%N then (false, r) else (false, s)
                      | [] => (false, [])
                      end in
    match unsigned_decimal s1 with Some (m, e) => Some (neg, m, e) | None => None end).
  { unfold parse_decimal, unsigned_decimal.
    destruct (match s with
              | c :: r => if (c =? ch "-")%N then (true, r)
                          else if (c =? ch "+")%N then (false, r) else (false, s)
              | [] => (false, []) end) as [ng s1].
    destruct (span_digits 0 0 s1) as [[m1 n1] s2].
    destruct (match s2 with
              | c :: r => if (c =? dot)%N then
                            let '(m, n, r') := span_digits m1 0 r in (m, n, r')
                          else (m1, 0%Z, s2)
              | [] => (m1, 0%Z, s2) end) as [[m2 n2] s3].
    destruct (n1 + n2 =? 0)%Z; auto. destruct (parse_exponent s3); auto. }
  rewrite U. clear U. split.
  - assert (K : forall sgn ng s1, sign_text sgn ng -> s = sgn ++ s1 ->
      match unsigned_decimal s1 with Some (m, e) => Some (ng, m, e) | None => None end
      = Some (neg, m, e) -> decimal_text s neg m e).
    { intros sgn ng s1 Sg -> H. destruct (unsigned_decimal s1) as [[m' x]|] eqn:E; [|discriminate].
      inversion H; subst. apply unsigned_decimal_spec in E.
      destruct E as [mt [ex [p [e' [-> [M [X ->]]]]]]]. now constructor. }
    destruct s as [|c r].
    + apply (K [] false []); constructor.
    + destruct (N.eqb_spec c (ch "-")) as [->|Nm]; [apply (K [ch "-"] true r); constructor|].
      destruct (N.eqb_spec c (ch "+")) as [->|Np]; [apply (K [ch "+"] false r); constructor|].
      apply (K [] false (c :: r)); constructor.
  - intros H. destruct H as [sgn neg mt m p ex e Sg M X].
    assert (E : unsigned_decimal (mt ++ ex) = Some (m, (e - p)%Z)).
    { apply unsigned_decimal_spec. exists mt, ex, p, e. auto. }
    destruct Sg; cbn [app].
    + destruct mt as [|c r]; [now apply mantissa_nonnil in M|].
      destruct (mantissa_head _ _ _ _ M) as [Np Nm]. cbn [app] in *.
      apply N.eqb_neq in Np. apply N.eqb_neq in Nm. now rewrite Nm, Np, E.
    + change (ch "+" =? ch "-")%N with false. rewrite N.eqb_refl. now rewrite E.
    + rewrite N.eqb_refl. now rewrite E.
Qed.

Lemma parse_float_spec prec emax s f : parse_float prec emax s = Some f <->
  exists neg m e, decimal_text s neg m e /\ f = decimal_to_float prec emax neg m e.
Proof.
  unfold parse_float. split.
  - destruct (parse_decimal s) as [[[neg m] e]|] eqn:E; [|discriminate].
    intros H; inversion H; subst. apply parse_decimal_spec in E. eauto.
  - intros [neg [m [e [H ->]]]]. apply parse_decimal_spec in H. now rewrite H.
Qed.

Lemma decimal_text_nonneg s neg m e : decimal_text s neg m e -> (0 <= m)%Z.
Proof.
  intros [sgn neg' mt m' p ex e' _ M _].
  destruct M as [ip N D|ip fp N DI DF]; [apply (numeral_nonneg ip)|apply (numeral_nonneg (ip ++ fp))];
    (split; [assumption|split; [|reflexivity]]); [assumption|apply Forall_app; auto].
Qed.
Lemma parse_float_near prec emax s f : ok_format prec emax -> parse_float prec emax s = Some f <->
  exists neg m e, decimal_text s neg m e /\ rounds_to prec emax neg (decimal_value neg m e) f.
Proof.
  intros F. rewrite parse_float_spec. split; intros (neg & m & e & D & H); exists neg, m, e; (split; [exact D|]);
    apply decimal_text_nonneg in D; apply (decimal_converted _ _ _ _ _ _ F D); exact H.
Qed.

(** ** [Num::from_str] *)
Lemma try_convert_spec z ks last : in_range last z = true ->
  exists k a b, ks ++ [last] = a ++ k :: b /\ try_convert z ks last = NInt k z
    /\ in_range k z = true /\ Forall (fun k' => in_range k' z = false) a.
Proof.
  intros L. induction ks as [|k ks IH]; cbn [try_convert].
  - exists last, [], []. repeat split; auto.
  - destruct (in_range k z) eqn:E.
    + exists k, [], (ks ++ [last]). repeat split; auto.
    + destruct IH as [k' [a [b [H1 [H2 [H3 H4]]]]]]. exists k', (k :: a), b.
      repeat split; auto. cbn [app]. now rewrite H1.
Qed.
