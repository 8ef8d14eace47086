(** Values in textual form parse back. *)
From Coq Require Import Ascii String ZArith NArith Bool Lia.
From Coq Require Import List.
From Verif Require Import Res BMap BMapProofs Str StrProofs Profile Tag Num Value ValueProofs Escape
  NumParse Parse SpecParse SpecShow EscapeProofs TrimProofs NumParseProofs ParseProofs
  ParseProofs2 ParseProofs3.
Import ListNotations.

(** ** Digits *)
Lemma numeral_snoc ds c : Forall is_digit ds -> is_digit c ->
  numeral_value (ds ++ [c]) = (10 * numeral_value ds + (Z.of_N c - 48))%Z.
Proof. intros _ _. unfold numeral_value. now rewrite fold_left_app. Qed.

Lemma is_digit_of d : (d < 10)%N -> is_digit (48 + d)%N.
Proof. unfold is_digit. change (ch "0") with 48%N. change (ch "9") with 57%N. lia. Qed.

Lemma digits_fuel_ok fuel : forall n, (n < 10 * 2 ^ N.of_nat fuel)%N ->
  numeral (digits_fuel fuel n) (Z.of_N n).
Proof.
  assert (One : forall n, (n < 10)%N -> numeral [(48 + n)%N] (Z.of_N n)).
  { intros n H. split; [discriminate|]. split; [constructor; auto using is_digit_of|].
    unfold numeral_value. cbn [fold_left]. lia. }
  induction fuel as [|f IH]; intros n H; cbn [digits_fuel].
  - apply One. change (2 ^ N.of_nat 0)%N with 1%N in H. lia.
  - destruct (N.ltb_spec n 10); [now apply One|].
    assert (Hd : (n / 10 < 10 * 2 ^ N.of_nat f)%N).
    { apply N.div_lt_upper_bound; [lia|]. rewrite Nat2N.inj_succ, N.pow_succ_r' in H. lia. }
    destruct (IH _ Hd) as [_ [F V]].
    assert (M : (n mod 10 < 10)%N) by (apply N.mod_lt; lia).
    split; [|split].
    + destruct (digits_fuel f (n / 10)); discriminate.
    + apply Forall_app. split; auto. constructor; auto using is_digit_of.
    + rewrite numeral_snoc; auto using is_digit_of. rewrite <- V.
      rewrite (N.div_mod n 10) at 1 by lia. lia.
Qed.

Lemma size_nat_gt n : (n < 2 ^ N.of_nat (N.size_nat n))%N.
Proof.
  destruct n as [|p]; [reflexivity|]. cbn [N.size_nat].
  induction p as [p IH|p IH|]; cbn [Pos.size_nat]; rewrite ?Nat2N.inj_succ, ?N.pow_succ_r'; lia.
Qed.

Lemma decimal_numeral n : numeral (decimal n) (Z.of_N n).
Proof. apply digits_fuel_ok. assert (H := size_nat_gt n). lia. Qed.

(** ** Hexadecimal *)
Lemma nibble_ok n : (n < 16)%N -> hex_digit (nibble n) n.
Proof.
  intros H. unfold nibble. destruct (N.ltb_spec n 10).
  - now apply hd_digit.
  - replace n with (10 + (n - 10))%N at 2 by lia. apply hd_lower. lia.
Qed.

Lemma hex_fixed_ok w : forall n, (n < 16 ^ N.of_nat w)%N -> hex_number (hex_fixed w n) n.
Proof.
  induction w as [|w IH]; intros n H; cbn [hex_fixed].
  - change (16 ^ N.of_nat 0)%N with 1%N in H. replace n with 0%N by lia. constructor.
  - rewrite (N.div_mod n 16) at 3 by lia. constructor.
    + apply IH. apply N.div_lt_upper_bound; [lia|].
      now rewrite Nat2N.inj_succ, N.pow_succ_r' in H.
    + apply nibble_ok. apply N.mod_lt. lia.
Qed.

Lemma hex_fixed_length w n : length (hex_fixed w n) = w.
Proof. revert n; induction w as [|w IH]; intros n; cbn; auto. rewrite app_length, IH. cbn. lia. Qed.

Lemma nibble_range n : (n < 16)%N -> (48 <= nibble n <= 57 \/ 97 <= nibble n <= 102)%N.
Proof. intros H. unfold nibble. destruct (N.ltb_spec n 10); lia. Qed.

Lemma hex_fixed_chars w : forall n,
  Forall (fun c => 48 <= c <= 57 \/ 97 <= c <= 102)%N (hex_fixed w n).
Proof.
  induction w as [|w IH]; intros n; cbn; auto. apply Forall_app. split; auto.
  constructor; auto. apply nibble_range. apply N.mod_lt. lia.
Qed.

(** ** Strings *)
Lemma scalar_bound c : scalar c = true -> (c < 16 ^ N.of_nat 8)%N.
Proof.
  unfold scalar. rewrite orb_true_iff, andb_true_iff, !N.ltb_lt.
  change (16 ^ N.of_nat 8)%N with 4294967296%N. lia.
Qed.

Lemma plain_char_spec c : plain_char c = true ->
  (32 <= c < 127)%N /\ c <> ch """" /\ c <> ch "\".
Proof.
  unfold plain_char. rewrite !andb_true_iff, !negb_true_iff, !N.eqb_neq, N.leb_le, N.ltb_lt. tauto.
Qed.

Lemma show_char_ascii c : Forall ascii_char (show_char c).
Proof.
  unfold show_char. destruct (plain_char c) eqn:P.
  - apply plain_char_spec in P. constructor; auto. unfold ascii_char. lia.
  - constructor; [reflexivity|]. constructor; [reflexivity|].
    eapply Forall_impl; [|apply hex_fixed_chars]. unfold ascii_char. intros x H. cbn in H. lia.
Qed.

Lemma quotable_plain l q : Forall (fun c => 48 <= c <= 57 \/ 97 <= c <= 102)%N l -> quotable q ->
  quotable (l ++ q).
Proof.
  induction 1 as [|c l Hc Hl IH]; intros Q; cbn; auto. constructor; auto.
  - intros ->. change (ch "\") with 92%N in Hc. lia.
  - intros ->. change (ch """") with 34%N in Hc. lia.
Qed.

Lemma show_char_quotable c q : quotable q -> quotable (show_char c ++ q).
Proof.
  intros Q. unfold show_char. destruct (plain_char c) eqn:P.
  - apply plain_char_spec in P. destruct P as [_ [Nq Nb]]. now constructor.
  - cbn [app]. apply qb_pair. apply quotable_plain; auto. apply hex_fixed_chars.
Qed.

Lemma show_char_decodes c q t : scalar c = true -> decodes q t -> decodes (show_char c ++ q) (c :: t).
Proof.
  intros S D. unfold show_char. destruct (plain_char c) eqn:P.
  - apply plain_char_spec in P. destruct P as [R [_ Nb]]. constructor; auto. split; auto.
    right. lia.
  - cbn [app]. apply dec_u8; [apply hex_fixed_length| |exact S|exact D].
    + apply hex_fixed_ok. now apply scalar_bound.
Qed.

Lemma show_chars s : text s ->
  quotable (flat_map show_char s) /\ decodes (flat_map show_char s) s
  /\ Forall ascii_char (flat_map show_char s).
Proof.
  induction 1 as [|c s Hc Hs [IQ [ID IA]]]; cbn [flat_map].
  - repeat split; constructor.
  - split; [|split].
    + now apply show_char_quotable.
    + now apply show_char_decodes.
    + apply Forall_app. split; auto. apply show_char_ascii.
Qed.

(** ** Values, for any meaning of quoted text that is right for ASCII *)
Section Show.
  Variable Q : ustr -> ustr -> Prop.
  Hypothesis ascii_ok : forall q t, Forall ascii_char q -> decodes q t -> Q q t.

  Lemma show_str_key s : text s -> key_form Q (show_str s) s.
  Proof using ascii_ok.
    intros T. destruct (show_chars s T) as [H1 [H2 H3]]. unfold show_str. constructor; auto.
  Qed.

  Lemma show_str_form s : text s -> form Q (show_str s) (VString tag_default s).
  Proof using ascii_ok.
    intros T. destruct (show_chars s T) as [H1 [H2 H3]]. unfold show_str.
    assert (F := form_string Q [] [] (flat_map show_char s) s blank_nil blank_nil H1 (ascii_ok _ _ H3 H2)).
    rewrite app_nil_r in F. exact F.
  Qed.

  Definition solid (c : uchar) : Prop := is_ws c = false /\ ~ separator c /\ c <> ch """" /\ c <> ch "'".

  Lemma solid_trim s : Forall solid s -> trim s = s.
  Proof using.
    intros F. unfold trim.
    assert (S1 : forall x, Forall solid x -> trim_start x = x).
    { intros x Fx. apply trim_start_fix. destruct Fx as [|c r [W _] Fr]; eauto. }
    rewrite S1; auto. unfold trim_end. rewrite S1; [apply rev_involutive|]. now apply Forall_rev.
  Qed.

  Lemma solid_form s v : Forall solid s -> bare s v -> form Q s v.
  Proof using.
    intros F B. rewrite <- (app_nil_r s). apply (form_bare Q [] [] s v); auto using blank_nil.
    - eapply Forall_impl; [|exact F]. intros c [_ [H _]]. auto.
    - now apply solid_trim.
    - intros c r ->. inversion F as [|? ? [_ [_ H]] _]. auto.
  Qed.

  Lemma digit_solid c : is_digit c -> solid c.
  Proof using.
    intros H. unfold is_digit in H. change (ch "0") with 48%N in H. change (ch "9") with 57%N in H.
    split; [|split; [|split]].
    - apply not_true_iff_false. unfold is_ws.
      rewrite ?orb_true_iff, ?andb_true_iff, ?N.leb_le, ?N.eqb_eq. lia.
    - unfold separator. change (ch ",") with 44%N. change (ch "{") with 123%N.
      change (ch "}") with 125%N. change (ch "[") with 91%N. change (ch "]") with 93%N. lia.
    - intros ->. change (ch """") with 34%N in H. lia.
    - intros ->. change (ch "'") with 39%N in H. lia.
  Qed.

  Lemma minus_solid : solid (ch "-").
  Proof using.
    split; [reflexivity|]. split; [|split; discriminate].
    intros [H|[H|[H|[H|H]]]]; discriminate.
  Qed.

  Lemma Forall_lit_solid (s : ustr) : forallb (fun c => negb (is_ws c) && is_not_separator c
      && negb (c =? ch """")%N && negb (c =? ch "'")%N) s = true -> Forall solid s.
  Proof using.
    rewrite forallb_forall, Forall_forall. intros H c I. specialize (H c I).
    rewrite !andb_true_iff, !negb_true_iff, !N.eqb_neq, not_separator_spec in H.
    unfold solid. tauto.
  Qed.

  Lemma items_of l : Forall (fun v => form Q (show v) v /\ ~ blank (show v)) l ->
    items Q (comma_separated (map show l)) l.
  Proof using.
    induction 1 as [|v l [Hv Nv] Hl IH]; cbn [map comma_separated].
    - constructor. apply blank_nil.
    - destruct l as [|v' l']; cbn [map].
      + now constructor.
      + constructor; auto.
  Qed.

  Lemma entries_of d : Forall (fun kv => text (fst kv)) d ->
    Forall (fun kv => form Q (show (snd kv)) (snd kv)) d ->
    entries Q (comma_separated (map (fun kv => show_str (fst kv) ++ ch "=" :: show (snd kv)) d)) d.
  Proof using ascii_ok.
    intros T F. induction d as [|[k v] d IH]; cbn [map comma_separated].
    - constructor. apply blank_nil.
    - inversion T as [|? ? T1 T2]; subst. inversion F as [|? ? F1 F2]; subst. cbn [fst snd] in *.
      specialize (IH T2 F2). destruct d as [|kv' d']; cbn [map].
      + apply (entries_last Q [] [] (show_str k) k (show v) v); auto using blank_nil, show_str_key.
      + rewrite <- app_assoc. cbn [app].
        apply (entries_cons Q [] [] (show_str k) k (show v) v); auto using blank_nil, show_str_key.
  Qed.

  Lemma show_form v : showable v -> form Q (show v) v /\ ~ blank (show v) /\ trim (show v) = show v.
  Proof using ascii_ok.
    assert (Br : forall c m d, is_ws c = false -> is_ws d = false ->
                   ~ blank (c :: m ++ [d]) /\ trim (c :: m ++ [d]) = c :: m ++ [d]).
    { intros c m d Wc Wd. split; [intros B; inversion B; congruence|].
      unfold trim. rewrite trim_start_id; auto. apply trim_end_id. right.
      exists (c :: m), d. auto. }
    assert (So : forall s, s <> [] -> Forall solid s -> ~ blank s /\ trim s = s).
    { intros s Ns F. split; [|now apply solid_trim]. intros B.
      destruct F as [|c r [W _] Fr]; [congruence|]. inversion B; congruence. }
    induction v as [t s|t c|t b|t n|t e|t d IH|t l IH] using value_ind'; intros H; inversion H; subst.
    - split; [now apply show_str_form|]. now apply Br.
    - split; [|now apply (Br (ch "'") [c] (ch "'"))].
      assert (F := form_char Q [] [] c blank_nil blank_nil). exact F.
    - assert (F : Forall solid (show (VBool tag_default b))).
      { apply Forall_lit_solid. destruct b; reflexivity. }
      split; [|apply So; auto; destruct b; discriminate].
      apply solid_form; auto. destruct b; constructor.
    - assert (N0 := decimal_numeral (Z.to_N z)). rewrite Z2N.id in N0 by lia.
      cbn [show]. unfold show_int. replace (z <? 0)%Z with false by (symmetry; apply Z.ltb_ge; lia).
      assert (F : Forall solid (decimal (Z.to_N z))).
      { destruct N0 as [_ [F _]]. eapply Forall_impl; [|exact F]. apply digit_solid. }
      split; [|apply So; [exact (proj1 N0)|exact F]].
      apply solid_form; auto. constructor. constructor; auto. lia.
    - assert (N0 := decimal_numeral (Z.to_N (- z))). rewrite Z2N.id in N0 by lia.
      cbn [show]. unfold show_int. replace (z <? 0)%Z with true by (symmetry; apply Z.ltb_lt; lia).
      assert (F : Forall solid (ch "-" :: decimal (Z.to_N (- z)))).
      { constructor; [apply minus_solid|]. destruct N0 as [_ [F _]].
        eapply Forall_impl; [|exact F]. apply digit_solid. }
      split; [|apply So; [discriminate|exact F]].
      apply solid_form; auto. constructor. replace z with (- - z)%Z at 2 by lia. constructor; auto. lia.
    - cbn [show]. split; [|now apply Br].
      match goal with
      | |- form Q (_ :: ?b ++ _) _ =>
          assert (F := form_dict Q [] [] b d blank_nil blank_nil)
      end.
      rewrite collect_sorted in F by assumption. rewrite app_nil_r in F. apply F.
      apply entries_of; auto. rewrite Forall_forall in *. intros kv I. apply IH; auto.
    - cbn [show]. split; [|now apply Br].
      match goal with
      | |- form Q (_ :: ?b ++ _) _ =>
          assert (F := form_array Q [] [] b l blank_nil blank_nil)
      end.
      rewrite app_nil_r in F. apply F.
      apply items_of. rewrite Forall_forall in *. intros x I. destruct (IH x I) as [A [B _]]; auto.
  Qed.
End Show.

Lemma ascii_lead_of q : Forall ascii_char q -> ascii_lead q.
Proof. intros F p b -> _. apply Forall_app in F. tauto. Qed.

Lemma show_parses v : showable v -> value_from_str (show v) = Ret v.
Proof.
  intros H. destruct (show_form escapes) with (v := v) as [F [NB T]]; auto.
  - intros q t A D. apply escape_decodes; auto. now apply ascii_lead_of.
  - apply complete_escapes. rewrite T. unfold complete.
    destruct (show v) as [|c s] eqn:E; auto. exfalso. apply NB. constructor.
Qed.

Lemma show_denotes v : showable v -> denotes (show v) v.
Proof.
  intros H. destruct (show_form decodes) with (v := v) as [F [NB T]]; auto.
  unfold denotes, complete.
  destruct (show v) as [|c s] eqn:E; auto. exfalso. apply NB. constructor.
Qed.
