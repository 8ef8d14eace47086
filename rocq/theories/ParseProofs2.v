(** The parser implements the grammar: lists, dictionaries, values. *)
From Coq Require Import Ascii String ZArith NArith Bool Lia.
From Coq Require Import List.
From Verif Require Import Res BMap Str StrProofs Profile Tag Num Value Escape NumParse Parse
  SpecParse EscapeProofs TrimProofs NumParseProofs ParseProofs.
Import ListNotations.

(** ** Delimited sequences, for any kind of item *)
Inductive gbody {A} (form : ustr -> A -> Prop) : ustr -> list A -> Prop :=
| gb_nil w : blank w -> gbody form w []
| gb_last s a : form s a -> ~ blank s -> gbody form s [a]
| gb_cons s a b l : form s a -> gbody form b l -> gbody form (s ++ ch "," :: b) (a :: l).

Section Delimited.
  Context {A : Type} (form : ustr -> A -> Prop) (item : ustr -> pres A) (stop : uchar).
  Hypothesis lead : forall w t a, blank w -> form t a -> form (w ++ t) a.
  Hypothesis trail : forall w t a, blank w -> form t a -> form (t ++ w) a.
  Hypothesis stop_nws : is_ws stop = false.
  Hypothesis stop_comma : stop <> ch ",".

  Lemma gbody_lead w b l : blank w -> gbody form b l -> gbody form (w ++ b) l.
  Proof using lead.
    intros B H. destruct H as [w' B'|s a F N0|s a b l F G].
    - constructor. now apply blank_app.
    - constructor; auto. rewrite blank_app. intros [_ X]. exact (N0 X).
    - rewrite app_assoc. constructor; auto.
  Qed.

  Lemma peek_cons c s : peek c s = true <-> exists r, s = c :: r.
  Proof using.
    unfold peek, peek_next. destruct s as [|x s].
    - split; [discriminate|intros [r H]; discriminate].
    - rewrite N.eqb_eq. split; [intros ->; eauto|intros [r H]; now inversion H].
  Qed.

  Lemma dgo_sound
    (item_sound : forall s a r, item s = Ret (Some (a, r)) -> r = [] \/ exists t, s = t ++ r /\ form t a) :
    forall fuel acc s l r, trim_start s = s ->
    delimited_go fuel item stop acc s = Ret (Some (l, r)) ->
    exists l' b, l = acc ++ l' /\ s = b ++ stop :: r /\ gbody form b l'.
  Proof.
    induction fuel as [|fuel IH]; intros acc s l r T H; [discriminate|].
    cbn [delimited_go] in H. destruct (peek stop s) eqn:P.
    - apply pbind_some in H. destruct H as [c [s' [E H]]]. apply eat_spec in E.
      destruct E as [_ ->]. inversion H; subst. exists [], [].
      rewrite app_nil_r. repeat split. constructor. apply blank_nil.
    - apply pbind_some in H. destruct H as [a [s1 [E H]]]. cbv zeta in H.
      destruct (trim_start_decomp s1) as [w [Bw Ew]].
      assert (S1 : s1 <> []).
      { intros ->. cbn in H. discriminate. }
      apply item_sound in E. destruct E as [E|[t [-> Ft]]]; [contradiction|].
      destruct (eat_ret (ch ",") (trim_start s1)) as [[[x s3]|] Ec]; rewrite Ec in H.
      + apply eat_spec in Ec. destruct Ec as [_ Ec].
        apply IH in H; [|apply trim_start_idem]. destruct H as [l' [b [-> [E2 G]]]].
        destruct (trim_start_decomp s3) as [w3 [B3 E3]].
        exists (a :: l'), ((t ++ w) ++ ch "," :: (w3 ++ b)). split; [|split].
        * now rewrite <- app_assoc.
        * rewrite Ew, Ec, E3, E2. rewrite <- !app_assoc. cbn [app]. now rewrite <- !app_assoc.
        * constructor; auto. now apply gbody_lead.
      + apply pbind_some in H. destruct H as [c [s' [E H]]]. apply eat_spec in E.
        destruct E as [_ E]. inversion H; subst s' l. clear H.
        exists [a], (t ++ w). split; [reflexivity|]. split.
        * rewrite Ew, E. now rewrite <- app_assoc.
        * constructor; auto. intros Bt. rewrite Ew, E in T, P. rewrite app_assoc in T, P.
          apply trim_start_fix in T. destruct (t ++ w) as [|c0 tw].
          -- cbn [app] in P. assert (peek stop (stop :: r) = true) by (apply peek_cons; eauto).
             congruence.
          -- destruct T as [T|[c1 [r1 [T W]]]]; [discriminate|]. inversion T; subst.
             inversion Bt; subst. congruence.
  Qed.

  Lemma dgo_complete K
    (head : forall t a c r, form t a -> trim_start t = c :: r -> c <> stop)
    (item_complete : forall t a, form t a -> (length t < K)%nat ->
       forall c r, c = ch "," \/ c = stop -> item (trim_start (t ++ c :: r)) = Ret (Some (a, c :: r))) :
    forall b l, gbody form b l -> (length b < K)%nat ->
    forall fuel acc r, (length b < fuel)%nat ->
    delimited_go fuel item stop acc (trim_start (b ++ stop :: r)) = Ret (Some (acc ++ l, r)).
  Proof.
    induction 1 as [w Bw|s a F N0|s a b l F G IH]; intros LK fuel acc r LF;
      (destruct fuel as [|fuel]; [lia|]); cbn [delimited_go].
    - rewrite trim_start_blank, trim_start_id; auto.
      assert (P : peek stop (stop :: r) = true) by (apply peek_cons; eauto).
      rewrite P, eat_cons. cbn [pbind]. now rewrite app_nil_r.
    - assert (P : peek stop (trim_start (s ++ stop :: r)) = false).
      { rewrite trim_start_app_nonblank; auto. destruct (trim_start_cases s) as [Z|[c [s' [Z W]]]].
        - apply trim_start_nil_blank in Z. contradiction.
        - rewrite Z. apply not_true_iff_false. rewrite peek_cons. intros [r' E].
          inversion E; subst c. now apply (head s a stop s'). }
      rewrite P. rewrite (item_complete s a F LK stop r); auto. cbn [pbind].
      rewrite trim_start_id by exact stop_nws.
      rewrite (eat_none (ch ",") (stop :: r)).
      + rewrite eat_cons. reflexivity.
      + intros r' E. inversion E. now apply stop_comma.
    - rewrite app_length in LK, LF. cbn [length] in LK, LF.
      rewrite <- app_assoc. cbn [app].
      assert (P : peek stop (trim_start (s ++ ch "," :: b ++ stop :: r)) = false).
      { destruct (trim_start_cases s) as [Z|[c [s' [Z W]]]].
        - apply trim_start_nil_blank in Z. rewrite trim_start_blank; auto.
          rewrite trim_start_id by reflexivity.
          apply not_true_iff_false. rewrite peek_cons. intros [r' E]. inversion E.
          now apply stop_comma.
        - rewrite trim_start_app_nonblank.
          + rewrite Z. apply not_true_iff_false. rewrite peek_cons. intros [r' E].
            inversion E; subst c. now apply (head s a stop s').
          + intros B. apply trim_start_all_blank in B. congruence. }
      rewrite P. rewrite (item_complete s a F); auto; [|lia]. cbn [pbind].
      rewrite trim_start_id by reflexivity. rewrite eat_cons.
      rewrite IH; try lia. now rewrite <- app_assoc.
  Qed.

  Lemma dgo_nofuel
    (consumes : forall s a r, item s = Ret (Some (a, r)) -> exists t, s = t ++ r) :
    forall fuel acc s, (length s < fuel)%nat ->
    (forall s', (length s' <= length s)%nat -> item s' <> NoFuel) ->
    delimited_go fuel item stop acc s <> NoFuel.
  Proof.
    induction fuel as [|fuel IH]; intros acc s L I H; [lia|].
    cbn [delimited_go] in H. destruct (peek stop s).
    - apply pbind_nofuel in H. destruct H as [H|[c [s' [_ H]]]]; [|discriminate].
      destruct (eat_ret stop s); congruence.
    - apply pbind_nofuel in H. destruct H as [H|[a [s1 [E H]]]]; [now apply I in H|].
      apply consumes in E. destruct E as [t ->]. cbv zeta in H. rewrite app_length in L, I.
      assert (L1 := trim_start_length s1).
      destruct (eat_ret (ch ",") (trim_start s1)) as [[[x s3]|] Ec]; rewrite Ec in H.
      + apply eat_spec in Ec. destruct Ec as [_ Ec]. rewrite Ec in L1. cbn [length] in L1.
        assert (L3 := trim_start_length s3).
        apply IH in H; auto; [lia|]. intros s' L'. apply I. lia.
      + apply pbind_nofuel in H. destruct H as [H|[c [s' [_ H]]]]; [|discriminate].
        destruct (eat_ret stop (trim_start s1)); congruence.
  Qed.

  Lemma clean_trim_start s : clean s -> clean (trim_start s).
  Proof using.
    destruct (trim_start_decomp s) as [w [_ E]]. rewrite E at 1. apply clean_suffix.
  Qed.

  Lemma dgo_no_panic
    (consumes : forall s a r, item s = Ret (Some (a, r)) -> exists t, s = t ++ r)
    (safe : forall s, clean s -> item s <> Panic) :
    forall fuel acc s, clean s -> delimited_go fuel item stop acc s <> Panic.
  Proof.
    induction fuel as [|fuel IH]; intros acc s C H; [discriminate|].
    cbn [delimited_go] in H. destruct (peek stop s).
    - apply pbind_panic in H. destruct H as [H|[c [s' [_ H]]]]; [|discriminate].
      destruct (eat_ret stop s); congruence.
    - apply pbind_panic in H. destruct H as [H|[a [s1 [E H]]]]; [now apply safe in H|].
      apply consumes in E. destruct E as [t ->]. cbv zeta in H.
      apply clean_suffix in C. apply clean_trim_start in C.
      destruct (eat_ret (ch ",") (trim_start s1)) as [[[x s3]|] Ec]; rewrite Ec in H.
      + apply eat_spec in Ec. destruct Ec as [_ Ec]. rewrite Ec in C.
        apply (clean_suffix [_]) in C.
        apply IH in H; auto. now apply clean_trim_start.
      + apply pbind_panic in H. destruct H as [H|[c [s' [_ H]]]]; [|discriminate].
        destruct (eat_ret stop (trim_start s1)); congruence.
  Qed.
End Delimited.

(** ** White space around a value's text *)
Lemma form_lead Q w t v : blank w -> form Q t v -> form Q (w ++ t) v.
Proof.
  intros B H. inversion H; subst; rewrite app_assoc; constructor; auto; now apply blank_app.
Qed.
Lemma form_trail Q w t v : blank w -> form Q t v -> form Q (t ++ w) v.
Proof.
  intros B H. inversion H; subst; rewrite <- !app_assoc; constructor; auto; now apply blank_app.
Qed.

(** One entry of a dictionary. *)
Definition entry_form Q (s : ustr) (kv : ustr * value) : Prop :=
  exists w1 w2 ks f, s = w1 ++ ks ++ w2 ++ ch "=" :: f /\ blank w1 /\ blank w2
                     /\ key_form Q ks (fst kv) /\ form Q f (snd kv).

Lemma entry_lead Q w t kv : blank w -> entry_form Q t kv -> entry_form Q (w ++ t) kv.
Proof.
  intros B [w1 [w2 [ks [f [-> [B1 [B2 [K F]]]]]]]]. exists (w ++ w1), w2, ks, f.
  repeat split; auto. - now rewrite <- app_assoc. - now apply blank_app.
Qed.
Lemma entry_trail Q w t kv : blank w -> entry_form Q t kv -> entry_form Q (t ++ w) kv.
Proof.
  intros B [w1 [w2 [ks [f [-> [B1 [B2 [K F]]]]]]]]. exists w1, w2, ks, (f ++ w).
  repeat split; auto. - rewrite <- !app_assoc. cbn [app]. reflexivity. - now apply form_trail.
Qed.

Lemma items_gbody Q b l : items Q b l <-> gbody (form Q) b l.
Proof.
  split; [induction 1|induction 1]; try (constructor; auto; fail).
Qed.
Lemma entries_gbody Q b l : entries Q b l <-> gbody (entry_form Q) b l.
Proof.
  split.
  - induction 1 as [w B|w1 w2 ks k s v B1 B2 K F|w1 w2 ks k s v b l B1 B2 K F E IH].
    + now constructor.
    + constructor.
      * exists w1, w2, ks, s. auto.
      * rewrite !blank_app. intros [_ [_ [_ H]]]. inversion H as [|? ? X]; subst. discriminate X.
    + replace (w1 ++ ks ++ w2 ++ ch "=" :: s ++ ch "," :: b)
        with ((w1 ++ ks ++ w2 ++ ch "=" :: s) ++ ch "," :: b)
        by (rewrite <- !app_assoc; reflexivity).
      constructor; auto. exists w1, w2, ks, s. auto.
  - induction 1 as [w B|s [k v] [w1 [w2 [ks [f [-> [B1 [B2 [K F]]]]]]]] N0|s [k v] b l [w1 [w2 [ks [f [-> [B1 [B2 [K F]]]]]]]] G IH].
    + now constructor.
    + now constructor.
    + replace ((w1 ++ ks ++ w2 ++ ch "=" :: f) ++ ch "," :: b)
        with (w1 ++ ks ++ w2 ++ ch "=" :: f ++ ch "," :: b)
        by (rewrite <- !app_assoc; reflexivity).
      now constructor.
Qed.

(** ** Soundness *)
Lemma not_separator_spec c : is_not_separator c = true <-> ~ separator c.
Proof.
  unfold is_not_separator, separator. cbn [existsb].
  rewrite negb_true_iff, !orb_false_iff, !N.eqb_neq. tauto.
Qed.

Lemma delimited_some {V} fuel a z (item : ustr -> pres V) s l r :
  delimited fuel a z item s = Ret (Some (l, r)) ->
  exists s1, s = a :: s1 /\ delimited_go fuel item z [] (trim_start s1) = Ret (Some (l, r)).
Proof.
  unfold delimited. intros H. apply pbind_some in H. destruct H as [c [s1 [E H]]].
  apply eat_spec in E. destruct E as [_ ->]. eauto.
Qed.

Lemma dict_item_sound value s kv r
  (value_sound : forall s v r, value s = Ret (Some (v, r)) ->
     r = [] \/ exists t, s = t ++ r /\ form escapes t v) :
  dict_item value s = Ret (Some (kv, r)) -> r = [] \/ exists t, s = t ++ r /\ entry_form escapes t kv.
Proof.
  unfold dict_item. intros H.
  apply pbind_some in H. destruct H as [k [s1 [E1 H]]]. apply pkey_sound in E1.
  destruct E1 as [ks [-> K]].
  apply pbind_some in H. destruct H as [c [s2 [E2 H]]]. apply eat_spec in E2. destruct E2 as [_ E2].
  apply pbind_some in H. destruct H as [v [s3 [E3 H]]]. inversion H; subst s3 kv. clear H.
  apply value_sound in E3. destruct E3 as [E3|[t [E3 F]]]; [now left|]. right.
  destruct (trim_start_decomp s1) as [w1 [B1 D1]]. destruct (trim_start_decomp s2) as [w2 [B2 D2]].
  exists (ks ++ w1 ++ ch "=" :: w2 ++ t). split.
  - rewrite D1, E2, D2, E3. rewrite <- !app_assoc. cbn [app]. now rewrite <- !app_assoc.
  - exists [], w1, ks, (w2 ++ t). repeat split; auto using blank_nil. now apply form_lead.
Qed.

Lemma cons_app1 {A} (x : A) l : x :: l = [x] ++ l. Proof. reflexivity. Qed.

Lemma pvalue_sound n : forall s v r, pvalue n s = Ret (Some (v, r)) ->
  (blank s /\ v = VEmpty tag_default EUnit /\ r = [])
  \/ exists t, s = t ++ r /\ form escapes t v.
Proof.
  induction n as [|n IH]; intros s v r H; [discriminate|].
  assert (IH' : forall s v r, pvalue n s = Ret (Some (v, r)) ->
     r = [] \/ exists t, s = t ++ r /\ form escapes t v).
  { intros s0 v0 r0 H0. apply IH in H0. destruct H0 as [[_ [_ ->]]|H0]; auto. }
  cbn [pvalue] in H. cbv zeta in H. apply pbind_some in H. destruct H as [v' [r' [H E]]].
  inversion E; subst v' r. clear E.
  destruct (trim_start_decomp s) as [w1 [B1 D1]]. destruct (trim_start_decomp r') as [w2 [B2 D2]].
  remember (trim_start r') as rr eqn:Hrr. clear Hrr.
  destruct (trim_start_cases s) as [Z|[c [s' [Z W]]]].
  { left. rewrite Z in H. cbn in H. inversion H; subst v r'. split; [now apply trim_start_nil_blank|].
    split; auto. now destruct w2. }
  right. rewrite Z in *. cbn [peek_next] in H.
  destruct (N.eqb_spec c dquote) as [->|Nq].
  { apply pbind_some in H. destruct H as [t [r2 [H E]]]. inversion E; subst v r2. clear E.
    apply quoted_str_sound in H. destruct H as [q [E [Q X]]].
    exists (w1 ++ (ch """" :: q ++ [ch """"]) ++ w2). split; [|now constructor].
    rewrite D1, E, D2. rewrite <- !app_assoc. cbn [app]. now rewrite <- !app_assoc. }
  destruct (N.eqb_spec c squote) as [->|Ns].
  { apply pbind_some in H. destruct H as [x [r2 [H E]]]. inversion E; subst v r2. clear E.
    unfold quoted_char in H. apply pbind_some in H. destruct H as [a1 [s1 [E1 H]]].
    apply eat_spec in E1. destruct E1 as [_ E1]. inversion E1; subst s1.
    apply pbind_some in H. destruct H as [a2 [s2 [E2 H]]].
    unfold eat_any, eat_if in E2. destruct s' as [|c2 s'']; [discriminate|]. inversion E2; subst c2 s''. clear E2.
    apply pbind_some in H. destruct H as [a3 [s3 [E3 H]]]. apply eat_spec in E3. destruct E3 as [_ ->].
    inversion H; subst a2 s3.
    exists (w1 ++ [ch "'"; x; ch "'"] ++ w2). split; [|now constructor].
    rewrite D1, D2. rewrite <- !app_assoc. reflexivity. }
  destruct (N.eqb_spec c (ch "[")) as [->|Na].
  { apply pbind_some in H. destruct H as [l [r2 [H E]]]. inversion E; subst v r2. clear E.
    apply delimited_some in H. destruct H as [s1 [E H]]. inversion E; subst s1.
    apply (dgo_sound (form escapes)) in H; auto using trim_start_idem;
      try (now apply form_lead); try (now apply form_trail); try reflexivity; try discriminate.
    - destruct H as [l' [b [-> [E2 G]]]]. apply items_gbody in G.
      destruct (trim_start_decomp s') as [w3 [B3 D3]].
      exists (w1 ++ (ch "[" :: (w3 ++ b) ++ [ch "]"]) ++ w2). split.
      + rewrite D1, D3, E2, D2. rewrite <- !app_assoc. cbn [app]. now rewrite <- !app_assoc.
      + constructor; auto. apply items_gbody. apply gbody_lead; auto.
        * intros; now apply form_lead.
        * now apply items_gbody. }
  destruct (N.eqb_spec c (ch "{")) as [->|No].
  { apply pbind_some in H. destruct H as [l [r2 [H E]]]. inversion E; subst v r2. clear E.
    apply delimited_some in H. destruct H as [s1 [E H]]. inversion E; subst s1.
    apply (dgo_sound (entry_form escapes)) in H; auto using trim_start_idem.
    - destruct H as [l' [b [-> [E2 G]]]].
      destruct (trim_start_decomp s') as [w3 [B3 D3]].
      exists (w1 ++ (ch "{" :: (w3 ++ b) ++ [ch "}"]) ++ w2). split.
      + rewrite D1, D3, E2, D2. rewrite <- !app_assoc. cbn [app]. now rewrite <- !app_assoc.
      + constructor; auto. apply entries_gbody. apply gbody_lead; auto.
        intros; now apply entry_lead.
    - intros; now apply entry_lead.
    - intros; now apply entry_trail.
    - intros s0 kv r0 H0. exact (dict_item_sound (pvalue n) s0 kv r0 IH' H0). }
  rewrite substr_spec in H. cbn [pbind] in H.
  set (a := accepted (stateless is_not_separator) tt (c :: s')) in *.
  assert (Ev : v = bare_value (trim a)) by congruence.
  assert (Er : rejected (stateless is_not_separator) tt (c :: s') = r') by congruence. clear H.
  assert (Ha : a = [] \/ exists a', a = c :: a').
  { unfold a. cbn [accepted]. change (stateless is_not_separator tt c) with (is_not_separator c, tt).
    destruct (is_not_separator c); [right; eexists; reflexivity|left; reflexivity]. }
  destruct (trim_decomp a) as [x1 [x2 [X1 [X2 Ea]]]].
  exists ((w1 ++ x1) ++ trim a ++ (x2 ++ w2)). split.
  - rewrite D1 at 1. rewrite (accepted_rejected (stateless is_not_separator) (c :: s') tt) at 1.
    fold a. rewrite Er, Ea at 1. rewrite D2. now rewrite <- !app_assoc.
  - constructor.
    + now apply blank_app.
    + now apply blank_app.
    + assert (F := stateless_accepted is_not_separator (c :: s') tt). fold a in F.
      rewrite Ea in F. apply Forall_app in F. destruct F as [_ F].
      apply Forall_app in F. destruct F as [F _].
      eapply Forall_impl; [|exact F]. intros y. apply not_separator_spec.
    + apply trim_idem.
    + intros c0 r0 E0. destruct Ha as [Ha|[a' Ha]]; [rewrite Ha in E0; discriminate|].
      assert (x1 = []).
      { destruct x1 as [|y x1]; auto. rewrite Ea in Ha. inversion Ha; subst y.
        inversion X1; subst. congruence. }
      subst x1. rewrite Ea, E0 in Ha. inversion Ha; subst c0. auto.
    + subst v. now apply bare_value_bare.
Qed.

Lemma pvalue_consumes n s v r : pvalue n s = Ret (Some (v, r)) -> exists t, s = t ++ r.
Proof.
  intros H. apply pvalue_sound in H. destruct H as [[_ [_ ->]]|[t [-> _]]]; eauto.
  exists s. now rewrite app_nil_r.
Qed.
