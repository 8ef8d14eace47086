(** The parser implements the grammar: completeness, termination, absence of panics. *)
From Coq Require Import Ascii String ZArith NArith Bool Lia.
From Coq Require Import List.
From Verif Require Import Res BMap Str StrProofs Profile Tag Num Value Escape NumParse Parse
  SpecParse EscapeProofs TrimProofs NumParseProofs ParseProofs ParseProofs2.
Import ListNotations.

(** ** First characters *)
Lemma app_cons_head (w : ustr) c r : blank w -> is_ws c = false -> trim_start (w ++ c :: r) = c :: r.
Proof. intros B W. rewrite trim_start_blank; auto. now apply trim_start_id. Qed.

Lemma bare_text_head (s : ustr) : trim s = s -> s = [] \/ exists c r, s = c :: r /\ is_ws c = false.
Proof. intros H. apply trim_start_fix. now apply trim_fix_start. Qed.

(** The first non-blank character of a value's text closes or separates nothing. *)
Lemma form_head Q t v c r : form Q t v -> trim_start t = c :: r ->
  c <> ch "]" /\ c <> ch "}" /\ c <> ch ",".
Proof.
  intros H E. destruct H as [w1 w2 q t B1 B2 Qb X|w1 w2 x B1 B2|w1 w2 b l B1 B2 I|w1 w2 b l B1 B2 I
                            |w1 w2 s v B1 B2 Sep T Hd B].
  - cbn [app] in E. rewrite app_cons_head in E; auto. inversion E. repeat split; discriminate.
  - cbn [app] in E. rewrite app_cons_head in E; auto. inversion E. repeat split; discriminate.
  - cbn [app] in E. rewrite app_cons_head in E; auto. inversion E. repeat split; discriminate.
  - cbn [app] in E. rewrite app_cons_head in E; auto. inversion E. repeat split; discriminate.
  - destruct (bare_text_head s T) as [->|[c0 [r0 [-> W]]]].
    + cbn [app] in E. rewrite trim_start_all_blank in E; [discriminate|]. now apply blank_app.
    + cbn [app] in E. rewrite app_cons_head in E; auto. inversion E; subst c0.
      inversion Sep as [|? ? S1 S2]; subst. unfold separator in S1. tauto.
Qed.

Lemma ident_char_not (c d : uchar) : ident_char c -> is_ident_char d = false -> c <> d.
Proof. intros H E ->. apply is_ident_char_spec in H. congruence. Qed.

Lemma ident_not_ws c : is_ident_char c = true -> is_ws c = false.
Proof.
  unfold is_ident_char, is_ws. rewrite !orb_true_iff, !andb_true_iff, !N.leb_le, !N.eqb_eq.
  change (ch "0") with 48%N. change (ch "9") with 57%N. change (ch "a") with 97%N.
  change (ch "z") with 122%N. change (ch "A") with 65%N. change (ch "Z") with 90%N.
  change (ch "_") with 95%N. change (ch "-") with 45%N.
  intros I. apply not_true_iff_false. rewrite ?orb_true_iff, ?andb_true_iff, ?N.leb_le, ?N.eqb_eq.
  lia.
Qed.

Lemma key_head Q c ks k : key_form Q (c :: ks) k -> is_ws c = false.
Proof.
  intros K. inversion K as [q k' Qb X|k' Fk]; subst; [reflexivity|].
  inversion Fk; subst. apply ident_not_ws. now apply is_ident_char_spec.
Qed.

Lemma entry_head Q t kv c r : entry_form Q t kv -> trim_start t = c :: r ->
  c <> ch "]" /\ c <> ch "}" /\ c <> ch ",".
Proof.
  intros [w1 [w2 [ks [f [-> [B1 [B2 [K F]]]]]]]] E.
  rewrite trim_start_blank in E; auto. destruct K as [q k Qb X|k Fk].
  - cbn [app] in E. rewrite trim_start_id in E by reflexivity. inversion E. repeat split; discriminate.
  - destruct k as [|c0 k].
    + cbn [app] in E. rewrite app_cons_head in E; auto. inversion E. repeat split; discriminate.
    + cbn [app] in E. inversion Fk as [|? ? I1 I2]; subst.
      rewrite trim_start_id in E.
      * inversion E; subst c0. repeat split; apply ident_char_not; auto.
      * apply ident_not_ws. now apply is_ident_char_spec.
Qed.

(** ** Completeness *)
(** What may follow a value: the end, or a character that separates or closes. *)
Definition ends (r : ustr) : Prop :=
  r = [] \/ exists c r', r = c :: r' /\ (c = ch "," \/ c = ch "]" \/ c = ch "}").

Lemma ends_trim r : ends r -> trim_start r = r.
Proof. intros [->|[c [r' [-> [->|[->| ->]]]]]]; auto. Qed.

Lemma pvalue_trim n s : pvalue n (trim_start s) = pvalue n s.
Proof. destruct n; auto. cbn [pvalue]. now rewrite trim_start_idem. Qed.

Lemma form_complete n : forall t v, form escapes t v -> (length t < n)%nat ->
  forall r, ends r -> (~ blank t \/ r <> []) -> pvalue n (t ++ r) = Ret (Some (v, r)).
Proof.
  induction n as [|n IH]; intros t v H L r En NB; [lia|].
  cbn [pvalue]. cbv zeta.
  destruct H as [w1 w2 q t B1 B2 Qb X|w1 w2 x B1 B2|w1 w2 b l B1 B2 I|w1 w2 b l B1 B2 I
                |w1 w2 s v B1 B2 Sep T Hd B].
  - replace ((w1 ++ (ch """" :: q ++ [ch """"]) ++ w2) ++ r)
      with (w1 ++ ch """" :: q ++ ch """" :: w2 ++ r)
      by (rewrite <- !app_assoc; cbn [app]; now rewrite <- !app_assoc).
    rewrite app_cons_head; auto. cbn [peek_next].
    change (ch """" =? dquote)%N with true. cbv iota.
    rewrite (quoted_str_complete q t); auto. cbn [pbind].
    rewrite trim_start_blank; auto. now rewrite ends_trim.
  - replace ((w1 ++ [ch "'"; x; ch "'"] ++ w2) ++ r) with (w1 ++ ch "'" :: x :: ch "'" :: w2 ++ r)
      by (rewrite <- !app_assoc; reflexivity).
    rewrite app_cons_head; auto. cbn [peek_next].
    change (ch "'" =? dquote)%N with false. change (ch "'" =? squote)%N with true. cbv iota.
    unfold quoted_char. change (ch "'") with squote. rewrite eat_cons. cbn [pbind].
    cbn [eat_any eat_if]. cbn [pbind]. rewrite eat_cons. cbn [pbind].
    rewrite trim_start_blank; auto. now rewrite ends_trim.
  - rewrite !app_length in L. cbn [length] in L. rewrite app_length in L. cbn [length] in L.
    replace ((w1 ++ (ch "[" :: b ++ [ch "]"]) ++ w2) ++ r) with (w1 ++ ch "[" :: b ++ ch "]" :: w2 ++ r)
      by (rewrite <- !app_assoc; cbn [app]; now rewrite <- !app_assoc).
    rewrite app_cons_head; auto. cbn [peek_next].
    change (ch "[" =? dquote)%N with false. change (ch "[" =? squote)%N with false.
    change (ch "[" =? ch "[")%N with true. cbv iota.
    unfold delimited. rewrite eat_cons. cbn [pbind].
    apply items_gbody in I.
    rewrite (dgo_complete (form escapes) (pvalue n) (ch "]")) with (K := n) (l := l).
    + cbn [pbind app]. rewrite trim_start_blank; auto. now rewrite ends_trim.
    + reflexivity.
    + discriminate.
    + intros t a c0 r0 Ft E. destruct (form_head _ _ _ _ _ Ft E) as [? _]. auto.
    + intros t a Ft Lt c0 r0 Hc. rewrite pvalue_trim. apply IH; auto.
      * right. exists c0, r0. tauto.
      * right. discriminate.
    + exact I.
    + lia.
    + cbn [length]. rewrite app_length. lia.
  - rewrite !app_length in L. cbn [length] in L. rewrite app_length in L. cbn [length] in L.
    replace ((w1 ++ (ch "{" :: b ++ [ch "}"]) ++ w2) ++ r) with (w1 ++ ch "{" :: b ++ ch "}" :: w2 ++ r)
      by (rewrite <- !app_assoc; cbn [app]; now rewrite <- !app_assoc).
    rewrite app_cons_head; auto. cbn [peek_next].
    change (ch "{" =? dquote)%N with false. change (ch "{" =? squote)%N with false.
    change (ch "{" =? ch "[")%N with false. change (ch "{" =? ch "{")%N with true. cbv iota.
    unfold delimited. rewrite eat_cons. cbn [pbind].
    apply entries_gbody in I.
    rewrite (dgo_complete (entry_form escapes) (dict_item (pvalue n)) (ch "}")) with (K := n) (l := l).
    + cbn [pbind app]. rewrite trim_start_blank; auto. now rewrite ends_trim.
    + reflexivity.
    + discriminate.
    + intros t a c0 r0 Ft E. destruct (entry_head _ _ _ _ _ Ft E) as [_ [? _]]. auto.
    + intros t [k v] [x1 [x2 [ks [f [-> [X1 [X2 [K F]]]]]]]] Lt c0 r0 Hc.
      rewrite !app_length in Lt. cbn [length] in Lt. cbn [fst snd] in K, F.
      replace ((x1 ++ ks ++ x2 ++ ch "=" :: f) ++ c0 :: r0)
        with (x1 ++ ks ++ x2 ++ ch "=" :: f ++ c0 :: r0)
        by (rewrite <- !app_assoc; cbn [app]; now rewrite <- ?app_assoc).
      assert (Tk : trim_start (x1 ++ ks ++ x2 ++ ch "=" :: f ++ c0 :: r0) =
                   match ks with
                   | [] => ch "=" :: f ++ c0 :: r0
                   | _ => ks ++ x2 ++ ch "=" :: f ++ c0 :: r0
                   end).
      { rewrite trim_start_blank; auto. destruct ks as [|k0 ks].
        - cbn [app]. now rewrite app_cons_head.
        - cbn [app]. apply trim_start_id.
          exact (key_head _ _ _ _ K). }
      rewrite Tk. clear Tk.
      assert (Val : pbind (pvalue n (trim_start (f ++ c0 :: r0))) (fun v0 s3 => Ret (Some ((k, v0), s3)))
                    = Ret (Some ((k, v), c0 :: r0))).
      { rewrite pvalue_trim. rewrite (IH f v); auto.
        - lia.
        - right. exists c0, r0. tauto.
        - right. discriminate. }
      unfold dict_item. destruct ks as [|k0 ks].
      * change (ch "=" :: f ++ c0 :: r0) with ([] ++ ch "=" :: f ++ c0 :: r0) at 1.
        rewrite (pkey_complete [] k (ch "=" :: f ++ c0 :: r0)); [|exact K|].
        -- cbn [pbind]. rewrite trim_start_id by reflexivity. rewrite eat_cons. exact Val.
        -- exists (ch "="), (f ++ c0 :: r0). repeat split; [|discriminate].
           intros Hi. apply is_ident_char_spec in Hi. discriminate Hi.
      * rewrite (pkey_complete (k0 :: ks) k); [|exact K|].
        -- cbn [pbind]. rewrite app_cons_head by auto. rewrite eat_cons. exact Val.
        -- destruct x2 as [|y x2].
           ++ exists (ch "="), (f ++ c0 :: r0). repeat split; [|discriminate].
              intros Hi. apply is_ident_char_spec in Hi. discriminate Hi.
           ++ exists y, (x2 ++ ch "=" :: f ++ c0 :: r0). inversion X2 as [|? ? Wy _]; subst.
              repeat split.
              ** intros Hi. apply is_ident_char_spec in Hi. apply ident_not_ws in Hi. congruence.
              ** intros ->. discriminate Wy.
    + exact I.
    + lia.
    + cbn [length]. rewrite app_length. lia.
  - (* unquoted *)
    assert (Er : ends r \/ r = []) by auto.
    assert (Stop : r = [] \/ exists c0 r0, r = c0 :: r0 /\ is_not_separator c0 = false).
    { destruct En as [->|[c0 [r0 [-> Hc]]]]; auto. right. exists c0, r0. split; auto.
      apply not_true_iff_false. rewrite not_separator_spec. unfold separator. tauto. }
    assert (Ws : forall w, blank w -> Forall (fun c => is_not_separator c = true) w).
    { intros w Bw. eapply Forall_impl; [|exact Bw]. intros c Wc. apply not_separator_spec.
      intros [->|[->|[->|[->| ->]]]]; discriminate Wc. }
    assert (Fs : Forall (fun c => is_not_separator c = true) s).
    { eapply Forall_impl; [|exact Sep]. intros c. apply not_separator_spec. }
    apply bare_value_bare in B. subst v.
    destruct (bare_text_head s T) as [->|[c0 [r0 [-> W]]]].
    + cbn [app] in *. rewrite <- app_assoc, trim_start_blank; auto. rewrite trim_start_blank; auto.
      rewrite ends_trim; auto.
      destruct En as [->|[c0 [r0 [-> Hc]]]].
      { exfalso. destruct NB as [NB|NB]; [|congruence]. apply NB. now apply blank_app. }
      cbn [peek_next].
      replace (c0 =? dquote)%N with false by (destruct Hc as [->|[->| ->]]; reflexivity).
      replace (c0 =? squote)%N with false by (destruct Hc as [->|[->| ->]]; reflexivity).
      replace (c0 =? ch "[")%N with false by (destruct Hc as [->|[->| ->]]; reflexivity).
      replace (c0 =? ch "{")%N with false by (destruct Hc as [->|[->| ->]]; reflexivity).
      rewrite substr_spec. cbn [pbind].
      destruct (stateless_app is_not_separator [] (c0 :: r0) tt) as [E1 E2]; auto.
      cbn [app] in E1, E2. rewrite E1, E2. rewrite ends_trim; auto.
      right. exists c0, r0. tauto.
    + replace ((w1 ++ (c0 :: r0) ++ w2) ++ r) with (w1 ++ c0 :: (r0 ++ w2) ++ r)
        by (rewrite <- !app_assoc; cbn [app]; now rewrite <- ?app_assoc).
      rewrite app_cons_head; auto. cbn [peek_next].
      destruct (Hd c0 r0 eq_refl) as [Hq Hs].
      inversion Sep as [|? ? S1 S2]; subst. unfold separator in S1.
      replace (c0 =? dquote)%N with false by (symmetry; now apply N.eqb_neq).
      replace (c0 =? squote)%N with false by (symmetry; now apply N.eqb_neq).
      replace (c0 =? ch "[")%N with false by (symmetry; apply N.eqb_neq; tauto).
      replace (c0 =? ch "{")%N with false by (symmetry; apply N.eqb_neq; tauto).
      rewrite substr_spec. cbn [pbind].
      assert (Fa : Forall (fun c => is_not_separator c = true) (c0 :: r0 ++ w2)).
      { apply (proj2 (Forall_app _ (c0 :: r0) w2)). split; auto. }
      destruct (stateless_app is_not_separator (c0 :: r0 ++ w2) r tt Fa Stop) as [E1 E2].
      cbn [app] in E1, E2. rewrite E1, E2. rewrite ends_trim; auto.
      assert (Tu := trim_unique [] (c0 :: r0) w2 blank_nil B2 T). cbn [app] in Tu. now rewrite Tu.
Qed.

(** ** Termination and panics *)
Lemma dict_item_consumes value s kv r
  (consumes : forall s v r, value s = Ret (Some (v, r)) -> exists t, s = t ++ r) :
  dict_item value s = Ret (Some (kv, r)) -> exists t, s = t ++ r.
Proof.
  unfold dict_item. intros H.
  apply pbind_some in H. destruct H as [k [s1 [E1 H]]]. apply pkey_sound in E1.
  destruct E1 as [ks [-> K]].
  apply pbind_some in H. destruct H as [c [s2 [E2 H]]]. apply eat_spec in E2. destruct E2 as [_ E2].
  apply pbind_some in H. destruct H as [v [s3 [E3 H]]]. inversion H; subst s3 kv. clear H.
  apply consumes in E3. destruct E3 as [t E3].
  destruct (trim_start_decomp s1) as [w1 [B1 D1]]. destruct (trim_start_decomp s2) as [w2 [B2 D2]].
  exists (ks ++ w1 ++ ch "=" :: w2 ++ t).
  rewrite D1, E2, D2, E3. rewrite <- !app_assoc. cbn [app]. now rewrite <- !app_assoc.
Qed.

Lemma quoted_char_ret s : exists o, quoted_char s = Ret o.
Proof.
  unfold quoted_char. destruct (eat_ret squote s) as [[[a s1]|] ->]; cbn [pbind]; eauto.
  unfold eat_any, eat_if. destruct s1 as [|c s2]; cbn [pbind]; eauto.
  destruct (eat_ret squote s2) as [[[a' s3]|] ->]; cbn [pbind]; eauto.
Qed.

Lemma pvalue_nofuel n : forall s, (length s < n)%nat -> pvalue n s <> NoFuel.
Proof.
  induction n as [|n IH]; intros s L H; [lia|].
  cbn [pvalue] in H. cbv zeta in H. apply pbind_nofuel in H.
  destruct H as [H|[v [r [_ H]]]]; [|discriminate].
  assert (L1 := trim_start_length s).
  destruct (trim_start s) as [|c s'] eqn:Z; [discriminate|]. cbn [peek_next] in H. cbn [length] in L1.
  destruct (c =? dquote)%N.
  { apply pbind_nofuel in H. destruct H as [H|[t [r [_ H]]]]; [|discriminate].
    now apply quoted_str_nofuel in H. }
  destruct (c =? squote)%N.
  { apply pbind_nofuel in H. destruct H as [H|[t [r [_ H]]]]; [|discriminate].
    destruct (quoted_char_ret (c :: s')) as [o E]. congruence. }
  destruct (c =? ch "[")%N.
  { apply pbind_nofuel in H. destruct H as [H|[t [r [_ H]]]]; [|discriminate].
    unfold delimited in H. apply pbind_nofuel in H. destruct H as [H|[a [s1 [E H]]]].
    { destruct (eat_ret (ch "[") (c :: s')); congruence. }
    apply eat_spec in E. destruct E as [_ E]. inversion E; subst s1.
    assert (L2 := trim_start_length s').
    apply dgo_nofuel in H; auto.
    - discriminate.
    - intros s0 a0 r0. apply pvalue_consumes.
    - cbn [length]. lia.
    - intros s0 L0. apply IH. lia. }
  destruct (c =? ch "{")%N.
  { apply pbind_nofuel in H. destruct H as [H|[t [r [_ H]]]]; [|discriminate].
    unfold delimited in H. apply pbind_nofuel in H. destruct H as [H|[a [s1 [E H]]]].
    { destruct (eat_ret (ch "{") (c :: s')); congruence. }
    apply eat_spec in E. destruct E as [_ E]. inversion E; subst s1.
    assert (L2 := trim_start_length s').
    apply dgo_nofuel in H; auto.
    - discriminate.
    - intros s0 a0 r0. apply dict_item_consumes. intros s1 v r1. apply pvalue_consumes.
    - cbn [length]. lia.
    - intros s0 L0 H0. unfold dict_item in H0.
      apply pbind_nofuel in H0. destruct H0 as [H0|[k [s1 [E1 H0]]]]; [now apply pkey_nofuel in H0|].
      apply pkey_sound in E1. destruct E1 as [ks [-> _]]. rewrite app_length in L0.
      apply pbind_nofuel in H0. destruct H0 as [H0|[c0 [s2 [E2 H0]]]].
      { destruct (eat_ret (ch "=") (trim_start s1)); congruence. }
      apply eat_spec in E2. destruct E2 as [_ E2].
      assert (L3 := trim_start_length s1). rewrite E2 in L3. cbn [length] in L3.
      assert (L4 := trim_start_length s2).
      apply pbind_nofuel in H0. destruct H0 as [H0|[v [s3 [_ H0]]]]; [|discriminate].
      apply IH in H0; auto. lia. }
  rewrite substr_spec in H. discriminate.
Qed.

Lemma pvalue_no_panic n : forall s, clean s -> pvalue n s <> Panic.
Proof.
  induction n as [|n IH]; intros s C H; [discriminate|].
  cbn [pvalue] in H. cbv zeta in H. apply pbind_panic in H.
  destruct H as [H|[v [r [_ H]]]]; [|discriminate].
  apply clean_trim_start in C.
  destruct (trim_start s) as [|c s'] eqn:Z; [discriminate|]. cbn [peek_next] in H.
  destruct (c =? dquote)%N.
  { apply pbind_panic in H. destruct H as [H|[t [r [_ H]]]]; [|discriminate].
    now apply clean_quoted_no_panic in H. }
  destruct (c =? squote)%N.
  { apply pbind_panic in H. destruct H as [H|[t [r [_ H]]]]; [|discriminate].
    destruct (quoted_char_ret (c :: s')) as [o E]. congruence. }
  assert (C' : clean (trim_start s')) by (apply clean_trim_start; now apply (clean_suffix [c])).
  destruct (c =? ch "[")%N.
  { apply pbind_panic in H. destruct H as [H|[t [r [_ H]]]]; [|discriminate].
    unfold delimited in H. apply pbind_panic in H. destruct H as [H|[a [s1 [E H]]]].
    { destruct (eat_ret (ch "[") (c :: s')); congruence. }
    apply eat_spec in E. destruct E as [_ E]. inversion E; subst s1.
    apply dgo_no_panic in H; auto.
    intros s0 a0 r0. apply pvalue_consumes. }
  destruct (c =? ch "{")%N.
  { apply pbind_panic in H. destruct H as [H|[t [r [_ H]]]]; [|discriminate].
    unfold delimited in H. apply pbind_panic in H. destruct H as [H|[a [s1 [E H]]]].
    { destruct (eat_ret (ch "{") (c :: s')); congruence. }
    apply eat_spec in E. destruct E as [_ E]. inversion E; subst s1.
    apply dgo_no_panic in H; auto.
    - intros s0 a0 r0. apply dict_item_consumes. intros s1 v r1. apply pvalue_consumes.
    - intros s0 C0 H0. unfold dict_item in H0.
      apply pbind_panic in H0. destruct H0 as [H0|[k [s1 [E1 H0]]]]; [now apply pkey_no_panic in H0|].
      apply pkey_sound in E1. destruct E1 as [ks [-> _]]. apply clean_suffix in C0.
      apply pbind_panic in H0. destruct H0 as [H0|[c0 [s2 [E2 H0]]]].
      { destruct (eat_ret (ch "=") (trim_start s1)); congruence. }
      apply eat_spec in E2. destruct E2 as [_ E2].
      apply clean_trim_start in C0. rewrite E2 in C0. apply (clean_suffix [_]) in C0.
      apply clean_trim_start in C0.
      apply pbind_panic in H0. destruct H0 as [H0|[v [s3 [_ H0]]]]; [|discriminate].
      now apply IH in H0. }
  rewrite substr_spec in H. discriminate.
Qed.

Lemma clean_trim s : clean s -> clean (trim s).
Proof.
  intros C a q b E Nq Nb. destruct (trim_decomp s) as [w1 [w2 [_ [_ D]]]].
  rewrite E in D. apply (C (w1 ++ a) q (b ++ w2)); auto.
  rewrite D. rewrite <- !app_assoc. cbn [app]. now rewrite <- !app_assoc.
Qed.

Lemma value_from_str_terminates s : value_from_str s <> NoFuel.
Proof.
  unfold value_from_str. cbv zeta. intros H.
  assert (N0 := pvalue_nofuel (S (length (trim s))) (trim s) (PeanoNat.Nat.lt_succ_diag_r _)).
  destruct (pvalue (S (length (trim s))) (trim s)) as [[[v [|c r]]|]| |]; congruence.
Qed.

Lemma value_from_str_no_panic s : clean s -> exists v, value_from_str s = Ret v.
Proof.
  intros C. assert (T := value_from_str_terminates s). apply clean_trim in C.
  unfold value_from_str in *. cbv zeta in *.
  assert (N0 := pvalue_no_panic (S (length (trim s))) (trim s) C).
  destruct (pvalue (S (length (trim s))) (trim s)) as [[[v [|c r]]|]| |]; try congruence; eauto.
Qed.

(** The result for input that the code's own grammar accepts, and for other input. *)
Lemma complete_escapes s v : complete escapes (trim s) v -> value_from_str s = Ret v.
Proof.
  intros H. unfold value_from_str. cbv zeta. unfold complete in H.
  destruct (trim s) as [|c t] eqn:E.
  - subst v. reflexivity.
  - assert (P : pvalue (S (length (c :: t))) (c :: t) = Ret (Some (v, []))).
    { rewrite <- (app_nil_r (c :: t)) at 2. apply form_complete; auto.
      - left. reflexivity.
      - left. intros B. assert (T := trim_idem s). rewrite E in T.
        apply trim_nil_blank in B. congruence. }
    now rewrite P.
Qed.

Lemma value_from_str_complete s v : value_from_str s = Ret v ->
  complete escapes (trim s) v \/ v = VString tag_default (trim s).
Proof.
  unfold value_from_str, complete. cbv zeta. intros H. destruct (trim s) as [|c t] eqn:E.
  - left. cbn in H. now inversion H.
  - destruct (pvalue (S (length (c :: t))) (c :: t)) as [[[v' [|c' r]]|]| |] eqn:P;
      inversion H; subst; auto.
    left. apply pvalue_sound in P. destruct P as [[B _]|[t' [E' F]]].
    + assert (T := trim_idem s). rewrite E in T. apply trim_nil_blank in B. congruence.
    + rewrite app_nil_r in E'. now rewrite E'.
Qed.

Lemma value_from_str_fallback s v : value_from_str s = Ret v ->
  (forall v', ~ complete escapes (trim s) v') -> v = VString tag_default (trim s).
Proof. intros H N0. apply value_from_str_complete in H. destruct H as [H|H]; auto. now apply N0 in H. Qed.

(** ** Changing the meaning of quoted text *)
Section Quoting.
  Variables (Q Q' : ustr -> ustr -> Prop).

  Lemma key_form_weaken ks k : key_form Q ks k ->
    (forall q t, quotable q -> Q q t -> exists t', Q' q t') -> exists k', key_form Q' ks k'.
  Proof.
    intros K H. destruct K as [q k Qb X|k F].
    - destruct (H q k Qb X) as [t' X']. exists t'. now constructor.
    - exists k. now constructor.
  Qed.

  Lemma form_weaken n : (forall q t, quotable q -> Q q t -> exists t', Q' q t') ->
    forall s v, (length s < n)%nat -> form Q s v -> exists v', form Q' s v'.
  Proof.
    intros H. induction n as [|n IH]; intros s v L F; [lia|].
    destruct F as [w1 w2 q t B1 B2 Qb X|w1 w2 x B1 B2|w1 w2 b l B1 B2 I|w1 w2 b l B1 B2 I
                |w1 w2 s v B1 B2 Sep T Hd B].
    - destruct (H q t Qb X) as [t' X']. eexists. now apply (form_string Q' w1 w2 q t').
    - eexists. now apply (form_char Q' w1 w2 x).
    - rewrite !app_length in L. cbn [length] in L. rewrite app_length in L. cbn [length] in L.
      assert (E : exists l', items Q' b l').
      { assert (Lb : (length b < n)%nat) by lia. clear - I IH Lb.
        induction I as [w Bw|s v F N0|s v b l F G IHG].
        - exists []. now constructor.
        - destruct (IH s v Lb F) as [v' F']. exists [v']. now constructor.
        - rewrite app_length in Lb. cbn [length] in Lb.
          destruct (IH s v) as [v' F']; [lia|auto|]. destruct IHG as [l' G']; [lia|].
          exists (v' :: l'). now constructor. }
      destruct E as [l' E]. eexists. now apply (form_array Q' w1 w2 b l').
    - rewrite !app_length in L. cbn [length] in L. rewrite app_length in L. cbn [length] in L.
      assert (E : exists l', entries Q' b l').
      { assert (Lb : (length b < n)%nat) by lia. clear - H I IH Lb.
        induction I as [w Bw|w1 w2 ks k s v B1 B2 K F|w1 w2 ks k s v b l B1 B2 K F G IHG].
        - exists []. now constructor.
        - rewrite !app_length in Lb. cbn [length] in Lb.
          destruct (IH s v) as [v' F']; [lia|auto|]. destruct (key_form_weaken _ _ K H) as [k' K'].
          exists [(k', v')]. now constructor.
        - rewrite !app_length in Lb. cbn [length] in Lb. rewrite app_length in Lb. cbn [length] in Lb.
          destruct (IH s v) as [v' F']; [lia|auto|]. destruct (key_form_weaken _ _ K H) as [k' K'].
          destruct IHG as [l' G']; [lia|]. exists ((k', v') :: l'). now constructor. }
      destruct E as [l' E]. eexists. now apply (form_dict Q' w1 w2 b l').
    - exists v. now constructor.
  Qed.

  (** Equal meanings for all the quoted text inside [s] give equal meanings to [s]. *)
  Definition agree_in (s : ustr) : Prop :=
    forall a q r, s = a ++ ch """" :: q ++ ch """" :: r -> quotable q ->
                  forall t, Q q t -> Q' q t.

  Lemma agree_sub a s b : agree_in (a ++ s ++ b) -> agree_in s.
  Proof.
    intros H x q r -> Qb t. apply (H (a ++ x) q (r ++ b)); auto.
    rewrite <- !app_assoc. cbn [app]. now rewrite <- !app_assoc.
  Qed.

  Lemma key_form_agree ks k : key_form Q ks k -> agree_in ks -> key_form Q' ks k.
  Proof.
    intros K H. destruct K as [q k Qb X|k F]; constructor; auto.
    apply (H [] q []); auto.
  Qed.

  Lemma form_agree n : forall s v, (length s < n)%nat -> form Q s v -> agree_in s -> form Q' s v.
  Proof.
    induction n as [|n IH]; intros s v L F H; [lia|].
    destruct F as [w1 w2 q t B1 B2 Qb X|w1 w2 x B1 B2|w1 w2 b l B1 B2 I|w1 w2 b l B1 B2 I
                |w1 w2 s v B1 B2 Sep T Hd B].
    - constructor; auto. apply (H w1 q w2); auto.
      cbn [app]. now rewrite <- app_assoc.
    - now constructor.
    - rewrite !app_length in L. cbn [length] in L. rewrite app_length in L. cbn [length] in L.
      constructor; auto.
      assert (Hb : agree_in b).
      { apply (agree_sub (w1 ++ [ch "["]) b ([ch "]"] ++ w2)). rewrite <- !app_assoc.
        cbn [app]. revert H. cbn [app]. now rewrite <- !app_assoc. }
      assert (Lb : (length b < n)%nat) by lia. clear - I IH Lb Hb.
      induction I as [w Bw|s v F N0|s v b l F G IHG].
      + now constructor.
      + constructor; auto.
      + rewrite app_length in Lb. cbn [length] in Lb. constructor.
        * apply IH; [lia|auto|]. exact (agree_sub [] s (ch "," :: b) Hb).
        * apply IHG; [|lia]. apply (agree_sub (s ++ [ch ","]) b []).
          rewrite <- app_assoc, app_nil_r. exact Hb.
    - rewrite !app_length in L. cbn [length] in L. rewrite app_length in L. cbn [length] in L.
      constructor; auto.
      assert (Hb : agree_in b).
      { apply (agree_sub (w1 ++ [ch "{"]) b ([ch "}"] ++ w2)). rewrite <- !app_assoc.
        cbn [app]. revert H. cbn [app]. now rewrite <- !app_assoc. }
      assert (Lb : (length b < n)%nat) by lia. clear - I IH Lb Hb.
      induction I as [w Bw|w1 w2 ks k s v B1 B2 K F|w1 w2 ks k s v b l B1 B2 K F G IHG].
      + now constructor.
      + rewrite !app_length in Lb. cbn [length] in Lb. constructor; auto.
        * apply key_form_agree; auto. exact (agree_sub w1 ks _ Hb).
        * apply IH; [lia|auto|]. apply (agree_sub (w1 ++ ks ++ w2 ++ [ch "="]) s []).
          rewrite app_nil_r. rewrite <- !app_assoc. exact Hb.
      + rewrite !app_length in Lb. cbn [length] in Lb. rewrite app_length in Lb. cbn [length] in Lb.
        constructor; auto.
        * apply key_form_agree; auto. exact (agree_sub w1 ks _ Hb).
        * apply IH; [lia|auto|]. apply (agree_sub (w1 ++ ks ++ w2 ++ [ch "="]) s (ch "," :: b)).
          rewrite <- !app_assoc. exact Hb.
        * apply IHG; [|lia]. apply (agree_sub (w1 ++ ks ++ w2 ++ ch "=" :: s ++ [ch ","]) b []).
          rewrite app_nil_r. rewrite <- !app_assoc. cbn [app]. rewrite <- !app_assoc. exact Hb.
    - now constructor.
  Qed.
End Quoting.

Lemma complete_weaken s v : complete escapes s v -> exists v', denotes s v'.
Proof.
  unfold denotes, complete. destruct s as [|c s]; eauto. intros H.
  apply (form_weaken escapes decodes (S (length (c :: s)))) with (v := v); auto.
  intros q t _ E. now apply escape_accepts in E.
Qed.

Lemma clean_complete s v : clean s -> (complete escapes s v <-> denotes s v).
Proof.
  intros C. unfold denotes, complete. destruct s as [|c s]; [reflexivity|].
  split; intros F; eapply (form_agree _ _ (S (length (c :: s)))); eauto;
    intros a q r E Qb t H; rewrite E in C; apply clean_lead in C; auto;
    now apply escape_decodes.
Qed.
