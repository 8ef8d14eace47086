(** The code's reading of every text. *)
From Coq Require Import Ascii String ZArith NArith Bool Lia.
From Coq Require Import List.
From Verif Require Import Res BMap Str StrProofs Profile Tag Num Value Escape NumParse Parse
  SpecParse SpecStuck EscapeProofs TrimProofs NumParseProofs ParseProofs ParseProofs2 ParseProofs3.
Import ListNotations.

(** ** Escapes *)
Lemma literal_no_bs s : Forall literal s -> ~ In (ch "\") s.
Proof. intros F I. rewrite Forall_forall in F. now apply F in I as [N0 _]. Qed.

Lemma first_bs p b p' b' : ~ In (ch "\") p -> ~ In (ch "\") p' ->
  p ++ ch "\" :: b = p' ++ ch "\" :: b' -> p = p' /\ b = b'.
Proof.
  revert p'. induction p as [|c p IH]; intros [|c' p'] N1 N2 E; inversion E; subst; auto.
  - exfalso. apply N2. now left.
  - exfalso. apply N1. now left.
  - destruct (IH p') as [-> ->]; auto; intros I; [apply N1|apply N2]; now right.
Qed.

Lemma cut_fun p a a' : cut p a -> cut p a' -> a = a'.
Proof.
  intros [r [E1 L1]] [r' [E2 L2]].
  assert (S1 := proj2 (split_at_byte_spec p _ a r) (conj E1 L1)).
  assert (S2 := proj2 (split_at_byte_spec p _ a' r') (conj E2 L2)). congruence.
Qed.

Lemma utf8_len_pos' s : (N.of_nat (length s) <= byte_len s)%N.
Proof.
  induction s as [|c s IH]; [reflexivity|]. cbn [length byte_len]. pose proof (utf8_len_pos c). lia.
Qed.

Lemma byte_len_app' a b : byte_len (a ++ b) = (byte_len a + byte_len b)%N.
Proof. induction a as [|c a IH]; [reflexivity|]. cbn [app byte_len]. rewrite IH. lia. Qed.

(** A cut of the whole string at that place is within the lead. *)
Lemma split_cut pre c a b :
  split_at_byte (pre ++ c) (N.of_nat (length pre)) = Some (a, b) <->
  exists rest, pre = a ++ rest /\ b = rest ++ c /\ byte_len a = N.of_nat (length pre).
Proof.
  rewrite split_at_byte_spec. split.
  - intros [E L]. apply app_eq_app in E. destruct E as [l [[-> ->]|[-> ->]]].
    + exists l. auto.
    + exists []. rewrite byte_len_app' in L. pose proof (utf8_len_pos' pre).
      pose proof (utf8_len_pos' l).
      assert (l = []) by (destruct l; [auto|cbn [length] in *; lia]). subst l.
      rewrite !app_nil_r in *. cbn [byte_len app] in *. repeat split; auto. lia.
  - intros [rest [-> [-> L]]]. split; [now rewrite <- app_assoc|auto].
Qed.

Lemma escape_go_exact fuel : forall pre i chars,
  (length chars < fuel)%nat -> i = N.of_nat (length pre) -> Forall literal pre ->
  (exists t, escape_go fuel (pre ++ chars) i chars None = Ret (Ok t) /\ read_as (pre ++ chars) t)
  \/ (exists e, escape_go fuel (pre ++ chars) i chars None = Ret (Err e)
        /\ (forall t, ~ decodes (pre ++ chars) t) /\ ~ breaks (pre ++ chars))
  \/ (escape_go fuel (pre ++ chars) i chars None = Panic /\ breaks (pre ++ chars)).
Proof.
  induction fuel as [|fuel IH]; intros pre i chars L Hi Fp; [lia|].
  assert (Np := literal_no_bs _ Fp).
  destruct chars as [|c r].
  - left. exists (pre ++ []). split; [reflexivity|]. constructor. now rewrite app_nil_r.
  - destruct (N.eqb_spec c backslash) as [->|Nb].
    + assert (Br : breaks (pre ++ backslash :: r) <-> forall a, ~ cut pre a).
      { split.
        - intros [p [b [E [Fb N0]]]]. apply first_bs in E; auto using literal_no_bs.
          destruct E as [-> ->]. auto.
        - intros N0. exists pre, r. auto. }
      assert (Dl : forall t, decodes (pre ++ backslash :: r) t -> exists t', decodes (backslash :: r) t').
      { clear -Fp. induction Fp as [|x p Lx Fp IHp]; intros t D; [eauto|].
        cbn [app] in D. inversion D as [|? ? t0 Hl D'| | |]; subst; try (destruct Lx as [Lx _]; now destruct Lx).
        now apply IHp in D'. }
      destruct (split_at_byte (pre ++ backslash :: r) i) as [[a b]|] eqn:Es.
      * assert (Es' := Es). subst i. apply split_cut in Es'. destruct Es' as [rest [E1 [_ E2]]].
        assert (Ct : cut pre a) by (exists rest; auto).
        destruct (escape_go_some (S fuel) (pre ++ backslash :: r) (N.of_nat (length pre)) (backslash :: r) a)
          as [[t [E D]]|[x [E D]]]; [exact L| |].
        -- left. exists (a ++ t). split; [|now constructor].
           revert E. cbn [escape_go]. rewrite N.eqb_refl, Es. auto.
        -- right. left. exists x. split; [|split].
           ++ revert E. cbn [escape_go]. rewrite N.eqb_refl, Es. auto.
           ++ intros t Dt. apply Dl in Dt. destruct Dt as [t' Dt]. now apply D in Dt.
           ++ rewrite Br. intros N0. now apply (N0 a).
      * right. right. split.
        -- cbn [escape_go]. now rewrite N.eqb_refl, Es.
        -- apply Br. intros a [rest [E1 E2]]. subst i.
           assert (S := proj2 (split_cut pre (backslash :: r) a (rest ++ backslash :: r))
                         (ex_intro _ rest (conj E1 (conj eq_refl E2)))). congruence.
    + cbn [escape_go]. apply N.eqb_neq in Nb as Nb'. rewrite Nb'.
      destruct (permitted c) eqn:Hp.
      * apply permitted_literal in Hp; auto.
        specialize (IH (pre ++ [c]) (i + 1)%N r). rewrite <- app_assoc in IH. cbn [app] in IH.
        apply IH.
        -- cbn [length] in L. lia.
        -- rewrite app_length. cbn [length]. lia.
        -- apply Forall_app. auto.
      * right. left. eexists. split; [reflexivity|].
        assert (Nl : ~ literal c) by (intros H; apply permitted_literal in H; [congruence|auto]).
        split.
        -- clear -Fp Nl Nb. induction Fp as [|x p Lx Fp IHp]; intros t D; cbn [app] in D.
           ++ inversion D; subst; auto; now apply Nb.
           ++ inversion D as [|? ? t0 Hl D'| | |]; subst; try (destruct Lx as [Lx _]; now destruct Lx).
              now apply IHp in D'.
        -- intros [p [b [E [Fb _]]]]. apply app_eq_app in E. destruct E as [l [[E1 E2]|[E1 E2]]].
           ++ destruct l as [|y l]; cbn [app] in E2; inversion E2; subst; [now apply Nb|].
              apply Np. apply in_or_app. right. now left.
           ++ subst p. apply Forall_app in Fb. destruct Fb as [_ Fb].
              destruct l as [|y l]; inversion E2; subst; [now apply Nb|].
              inversion Fb; subst. auto.
Qed.

Lemma escape_exact q :
  (exists t, escape q = Ret (Ok t) /\ read_as q t)
  \/ (exists e, escape q = Ret (Err e) /\ (forall t, ~ decodes q t) /\ ~ breaks q)
  \/ (escape q = Panic /\ breaks q).
Proof. exact (escape_go_exact (S (length q)) [] 0 q (PeanoNat.Nat.lt_succ_diag_r _) eq_refl (Forall_nil _)). Qed.

Lemma decodes_literal s : Forall literal s -> forall q t, decodes q t -> decodes (s ++ q) (s ++ t).
Proof. induction 1; intros q t D; cbn [app]; auto. constructor; auto. Qed.

(** What is read decodes to something, and breaks nowhere. *)
Lemma read_as_decodes q t : read_as q t -> exists t', decodes q t'.
Proof.
  intros [q' F|pre b a t' F C D].
  - exists q'. rewrite <- (app_nil_r q') at 1 2. apply decodes_literal; auto. constructor.
  - exists (pre ++ t'). now apply decodes_literal.
Qed.

Lemma read_as_not_breaks q t : read_as q t -> ~ breaks q.
Proof.
  intros R [p [b0 [E [F0 N0]]]]. destruct R as [q F|pre b a t' F C D].
  - apply literal_no_bs in F. apply F. rewrite E. apply in_or_app. right. now left.
  - apply first_bs in E; auto using literal_no_bs. destruct E as [-> _]. now apply (N0 a).
Qed.

Lemma read_as_fun q t : read_as q t -> forall t', read_as q t' -> t = t'.
Proof.
  intros R t' R'. destruct R as [q F|pre b a t F C D].
  - inversion R' as [? _|pre b a t F' C D]; subst; auto.
    apply literal_no_bs in F. exfalso. apply F. apply in_or_app. right. now left.
  - inversion R' as [q F' E1 E2|pre' b' a' t2 F' C' D' E1 E2]; subst.
    + apply literal_no_bs in F'. exfalso. apply F'. apply in_or_app. right. now left.
    + apply first_bs in E1; auto using literal_no_bs. destruct E1 as [-> ->].
      f_equal; [now apply (cut_fun pre)|now apply (decodes_fun _ _ D)].
Qed.

Lemma escapes_read q t : escapes q t <-> read_as q t.
Proof.
  unfold escapes. destruct (escape_exact q) as [[u [E R]]|[[e [E [D B]]]|[E B]]]; rewrite E.
  - split.
    + intros H. now inversion H; subst.
    + intros R'. now rewrite (read_as_fun _ _ R _ R').
  - split; [discriminate|]. intros R. apply read_as_decodes in R. destruct R as [t' R]. now apply D in R.
  - split; [discriminate|]. intros R. now apply read_as_not_breaks in R.
Qed.

Lemma escape_breaks q : escape q = Panic <-> breaks q.
Proof.
  destruct (escape_exact q) as [[u [E R]]|[[e [E [D B]]]|[E B]]]; rewrite E.
  - split; [discriminate|]. intros B. now apply read_as_not_breaks in R.
  - split; [discriminate|]. contradiction.
  - tauto.
Qed.

(** ** The grammar does not change with an equivalent reading of quoted text *)
Scheme form_mut := Induction for form Sort Prop
  with items_mut := Induction for items Sort Prop
  with entries_mut := Induction for entries Sort Prop.
Combined Scheme form_items_entries_mut from form_mut, items_mut, entries_mut.

Lemma key_form_mono (Q R : ustr -> ustr -> Prop) : (forall q t, Q q t -> R q t) ->
  forall s k, key_form Q s k -> key_form R s k.
Proof. intros H s k [q k' Qb X|k' F]; constructor; auto. Qed.

Lemma form_mono (Q R : ustr -> ustr -> Prop) : (forall q t, Q q t -> R q t) ->
  forall s v, form Q s v -> form R s v.
Proof.
  intros QR.
  apply (form_mut Q (fun s v _ => form R s v) (fun b l _ => items R b l) (fun b l _ => entries R b l));
    intros; try (econstructor; eauto using key_form_mono; fail).
Qed.
Lemma form_escapes s v : form escapes s v <-> form read_as s v.
Proof. split; apply form_mono; intros q t; apply escapes_read. Qed.
Lemma key_escapes s v : key_form escapes s v <-> key_form read_as s v.
Proof. split; apply key_form_mono; intros q t; apply escapes_read. Qed.
Lemma complete_read s v : complete escapes s v <-> complete read_as s v.
Proof. unfold complete. destruct s; [tauto|apply form_escapes]. Qed.

(** ** Getting stuck *)
Inductive gstuck {A} (form : ustr -> A -> Prop) (bad : ustr -> Prop) : ustr -> Prop :=
| gs_here s : bad s -> gstuck form bad s
| gs_next s a b : form s a -> gstuck form bad b -> gstuck form bad (s ++ ch "," :: b).

Definition entry_stuck (s : ustr) : Prop :=
  (exists w q r, s = w ++ ch """" :: q ++ ch """" :: r /\ blank w /\ quotable q /\ breaks q)
  \/ (exists w1 w2 ks k f, s = w1 ++ ks ++ w2 ++ ch "=" :: f /\ blank w1 /\ blank w2
        /\ key_form read_as ks k /\ stuck f).

Lemma stuck_items_g b : stuck_items b <-> gstuck (form read_as) stuck b.
Proof. split; [induction 1|induction 1]; try (econstructor; eauto; fail). Qed.
Lemma stuck_entries_g b : stuck_entries b <-> gstuck (entry_form read_as) entry_stuck b.
Proof.
  split.
  - induction 1 as [w q r B Q Br|w1 w2 ks k s B1 B2 K S|w1 w2 ks k s v b B1 B2 K F S IH].
    + apply gs_here. left. exists w, q, r. auto.
    + apply gs_here. right. exists w1, w2, ks, k, s. auto.
    + replace (w1 ++ ks ++ w2 ++ ch "=" :: s ++ ch "," :: b)
        with ((w1 ++ ks ++ w2 ++ ch "=" :: s) ++ ch "," :: b)
        by (rewrite <- !app_assoc; reflexivity).
      apply (gs_next _ _ _ (k, v)); auto. exists w1, w2, ks, s. auto.
  - induction 1 as [s [[w [q [r [-> [B [Q Br]]]]]]|[w1 [w2 [ks [k [f [-> [B1 [B2 [K S]]]]]]]]]]
                   |s [k v] b [w1 [w2 [ks [f [-> [B1 [B2 [K F]]]]]]]] G IH].
    + now constructor.
    + eapply stuck_value; eauto.
    + rewrite <- !app_assoc. cbn [app]. eapply stuck_entry; eauto.
Qed.

Lemma stuck_lead w s : blank w -> stuck s -> stuck (w ++ s).
Proof.
  intros B [w' q r B' Q Br|w' b B' S|w' b B' S]; rewrite app_assoc; constructor; auto; now apply blank_app.
Qed.
Lemma entry_stuck_lead w s : blank w -> entry_stuck s -> entry_stuck (w ++ s).
Proof.
  intros B [[w' [q [r [-> [B' H]]]]]|[w1 [w2 [ks [k [f [-> [B1 H]]]]]]]].
  - left. exists (w ++ w'), q, r. rewrite <- app_assoc. split; auto. split; auto. now apply blank_app.
  - right. exists (w ++ w1), w2, ks, k, f. rewrite <- app_assoc. split; auto. split; auto. now apply blank_app.
Qed.

Section Delimited.
  Context {A : Type} (form : ustr -> A -> Prop) (bad : ustr -> Prop) (item : ustr -> pres A) (stop : uchar).
  Hypothesis lead : forall w t a, blank w -> form t a -> form (w ++ t) a.
  Hypothesis trail : forall w t a, blank w -> form t a -> form (t ++ w) a.
  Hypothesis bad_lead : forall w t, blank w -> bad t -> bad (w ++ t).
  Hypothesis stop_comma : stop <> ch ",".

  Lemma gstuck_lead w b : blank w -> gstuck form bad b -> gstuck form bad (w ++ b).
  Proof using lead bad_lead.
    intros B [s H|s a b' F G].
    - apply gs_here. auto.
    - rewrite app_assoc. eapply gs_next; eauto.
  Qed.

  Lemma dgo_panic_sound
    (item_sound : forall s a r, item s = Ret (Some (a, r)) -> r = [] \/ exists t, s = t ++ r /\ form t a)
    (item_panic : forall s, item s = Panic -> bad s) :
    forall fuel acc s, delimited_go fuel item stop acc s = Panic -> gstuck form bad s.
  Proof using lead trail bad_lead.
    induction fuel as [|fuel IH]; intros acc s H; [discriminate|].
    cbn [delimited_go] in H. destruct (peek stop s).
    - apply pbind_panic in H. destruct H as [H|[c [s' [_ H]]]]; [|discriminate].
      destruct (eat_ret stop s); congruence.
    - apply pbind_panic in H. destruct H as [H|[a [s1 [E H]]]]; [apply gs_here; auto|].
      cbv zeta in H.
      assert (S1 : s1 <> []) by (intros ->; cbn in H; discriminate).
      apply item_sound in E. destruct E as [E|[t [-> Ft]]]; [contradiction|].
      destruct (trim_start_decomp s1) as [w [Bw Ew]].
      destruct (eat_ret (ch ",") (trim_start s1)) as [[[x s3]|] Ec]; rewrite Ec in H.
      + apply eat_spec in Ec. destruct Ec as [_ Ec].
        apply IH in H. destruct (trim_start_decomp s3) as [w3 [B3 E3]].
        rewrite Ew, Ec, E3.
        replace (t ++ w ++ ch "," :: w3 ++ trim_start s3) with ((t ++ w) ++ ch "," :: w3 ++ trim_start s3)
          by (now rewrite <- app_assoc).
        eapply gs_next; eauto. now apply gstuck_lead.
      + apply pbind_panic in H. destruct H as [H|[c [s' [_ H]]]]; [|discriminate].
        destruct (eat_ret stop (trim_start s1)); congruence.
  Qed.

  Lemma dgo_panic_complete K
    (head : forall t a c r, form t a -> trim_start t = c :: r -> c <> stop)
    (bad_head : forall t c r, bad t -> trim_start t = c :: r -> c <> stop)
    (item_complete : forall t a, form t a -> (length t < K)%nat ->
       forall c r, c = ch "," \/ c = stop -> item (trim_start (t ++ c :: r)) = Ret (Some (a, c :: r)))
    (item_panics : forall t, bad t -> (length t < K)%nat -> item (trim_start t) = Panic) :
    forall b, gstuck form bad b -> (length b < K)%nat ->
    forall fuel acc, (length b < fuel)%nat -> delimited_go fuel item stop acc (trim_start b) = Panic.
  Proof using stop_comma.
    induction 1 as [s B|s a b F G IH]; intros LK fuel acc LF;
      (destruct fuel as [|fuel]; [lia|]); cbn [delimited_go].
    - assert (P : peek stop (trim_start s) = false).
      { apply not_true_iff_false. rewrite peek_cons. intros [r' E]. now apply (bad_head s stop r'). }
      rewrite P, item_panics; auto.
    - rewrite app_length in LK, LF. cbn [length] in LK, LF.
      assert (P : peek stop (trim_start (s ++ ch "," :: b)) = false).
      { destruct (trim_start_cases s) as [Z|[c [s' [Z W]]]].
        - apply trim_start_nil_blank in Z. rewrite trim_start_blank; auto.
          rewrite trim_start_id by reflexivity.
          apply not_true_iff_false. rewrite peek_cons. intros [r' E]. inversion E.
          now apply stop_comma.
        - rewrite trim_start_app_nonblank.
          + rewrite Z. apply not_true_iff_false. rewrite peek_cons. intros [r' E].
            inversion E; subst c. now apply (head s a stop s').
          + intros B. apply trim_start_all_blank in B. congruence. }
      rewrite P. rewrite (item_complete s a F); auto; [|lia]. cbn [pbind].
      rewrite trim_start_id by reflexivity. rewrite eat_cons.
      apply IH; lia.
  Qed.
End Delimited.

Lemma dict_item_panic value s (sound : forall s, value s = Panic -> stuck s) :
  dict_item value s = Panic -> entry_stuck s.
Proof.
  unfold dict_item. intros H. apply pbind_panic in H. destruct H as [H|[k [s1 [E1 H]]]].
  - unfold pkey in H. destruct (peek dquote s).
    + apply quoted_str_panic in H. destruct H as [q [r [-> [Q E]]]]. apply escape_breaks in E.
      left. exists [], q, r. split; auto. split; auto. constructor.
    + rewrite substr_spec in H. discriminate.
  - apply pkey_sound in E1. destruct E1 as [ks [-> Kf]]. apply key_escapes in Kf.
    apply pbind_panic in H. destruct H as [H|[c0 [s2 [E2 H]]]].
    { destruct (eat_ret (ch "=") (trim_start s1)); congruence. }
    apply eat_spec in E2. destruct E2 as [_ E2].
    apply pbind_panic in H. destruct H as [H|[v [s3 [_ H]]]]; [|discriminate].
    apply sound in H.
    destruct (trim_start_decomp s1) as [w1 [B1 D1]]. destruct (trim_start_decomp s2) as [w2 [B2 D2]].
    right. exists [], w1, ks, k, s2. split; [cbn [app]; rewrite D1, E2; reflexivity|].
    split; [constructor|]. split; auto. split; auto. rewrite D2. now apply stuck_lead.
Qed.

Lemma pvalue_panic_sound n : forall s, pvalue n s = Panic -> stuck s.
Proof.
  induction n as [|n IH]; intros s H; [discriminate|].
  cbn [pvalue] in H. cbv zeta in H. apply pbind_panic in H.
  destruct H as [H|[v [r [_ H]]]]; [|discriminate].
  destruct (trim_start_decomp s) as [w [B D]]. rewrite D. apply stuck_lead; auto. clear B D w.
  destruct (trim_start s) as [|c s'] eqn:Z; [discriminate|]. cbn [peek_next] in H.
  destruct (N.eqb_spec c dquote) as [->|Nq].
  { apply pbind_panic in H. destruct H as [H|[t [r [_ H]]]]; [|discriminate].
    apply quoted_str_panic in H. destruct H as [q [r [-> [Q E]]]]. apply escape_breaks in E.
    apply (stuck_string [] q r); auto. constructor. }
  destruct (c =? squote)%N.
  { apply pbind_panic in H. destruct H as [H|[t [r [_ H]]]]; [|discriminate].
    destruct (quoted_char_ret (c :: s')) as [o E]. congruence. }
  destruct (trim_start_decomp s') as [w [B D]].
  assert (IHs : forall s v r, pvalue n s = Ret (Some (v, r)) ->
     r = [] \/ exists t, s = t ++ r /\ form read_as t v).
  { intros s0 v0 r0 H0. apply pvalue_sound in H0. destruct H0 as [[_ [_ ->]]|[t [E F]]]; auto.
    right. exists t. split; auto. now apply form_escapes. }
  destruct (N.eqb_spec c (ch "[")) as [->|Na].
  { apply pbind_panic in H. destruct H as [H|[t [r [_ H]]]]; [|discriminate].
    unfold delimited in H. apply pbind_panic in H. destruct H as [H|[a [s1 [E H]]]].
    { destruct (eat_ret (ch "[") (ch "[" :: s')); congruence. }
    apply eat_spec in E. destruct E as [_ E]. inversion E; subst s1.
    apply (dgo_panic_sound (form read_as) stuck) in H; auto using stuck_lead.
    - apply (stuck_array [] s'); [constructor|]. apply stuck_items_g. rewrite D.
      apply gstuck_lead; auto using stuck_lead. intros; now apply form_lead.
    - intros; now apply form_lead.
    - intros; now apply form_trail. }
  destruct (N.eqb_spec c (ch "{")) as [->|No].
  { apply pbind_panic in H. destruct H as [H|[t [r [_ H]]]]; [|discriminate].
    unfold delimited in H. apply pbind_panic in H. destruct H as [H|[a [s1 [E H]]]].
    { destruct (eat_ret (ch "{") (ch "{" :: s')); congruence. }
    apply eat_spec in E. destruct E as [_ E]. inversion E; subst s1.
    apply (dgo_panic_sound (entry_form read_as) entry_stuck) in H; auto using entry_stuck_lead.
    - apply (stuck_dict [] s'); [constructor|]. apply stuck_entries_g. rewrite D.
      apply gstuck_lead; auto using entry_stuck_lead. intros; now apply entry_lead.
    - intros; now apply entry_lead.
    - intros; now apply entry_trail.
    - intros s0 [k v] r0 H0.
      assert (Snd : r0 = [] \/ exists t, s0 = t ++ r0 /\ entry_form escapes t (k, v)).
      { apply (dict_item_sound (pvalue n) s0 (k, v) r0); auto.
        intros s2 v2 r2 H2. apply pvalue_sound in H2. destruct H2 as [[_ [_ ->]]|H2]; auto. }
      destruct Snd as [->|[t [-> [w1 [w2 [ks [f [-> [B1 [B2 [Kf F]]]]]]]]]]]; auto.
      right. eexists. split; [reflexivity|]. exists w1, w2, ks, f. repeat split; auto.
      + now apply key_escapes.
      + now apply form_escapes.
    - intros s0. apply dict_item_panic. exact IH. }
  rewrite substr_spec in H. discriminate.
Qed.

Lemma stuck_head t c r : stuck t -> trim_start t = c :: r -> c <> ch "]".
Proof.
  intros [w q r' B Q Br|w b B S|w b B S] E; rewrite app_cons_head in E; auto; inversion E; discriminate.
Qed.
Lemma entry_stuck_head t c r : entry_stuck t -> trim_start t = c :: r -> c <> ch "}".
Proof.
  intros [[w [q [r' [-> [B H]]]]]|[w1 [w2 [ks [k [f [-> [B1 [B2 [K S]]]]]]]]]] E.
  - rewrite app_cons_head in E; auto; inversion E; discriminate.
  - rewrite trim_start_blank in E; auto. destruct K as [q k Qb X|k Fk].
    + cbn [app] in E. rewrite trim_start_id in E by reflexivity. inversion E. discriminate.
    + destruct k as [|c0 k].
      * cbn [app] in E. rewrite app_cons_head in E; auto. inversion E. discriminate.
      * cbn [app] in E. inversion Fk as [|? ? I1 I2]; subst.
        rewrite trim_start_id in E.
        -- inversion E; subst c0. apply ident_char_not; auto.
        -- apply ident_not_ws. now apply is_ident_char_spec.
Qed.

Lemma quoted_str_panics q r : quotable q -> breaks q -> quoted_str (ch """" :: q ++ ch """" :: r) = Panic.
Proof.
  intros Q E. unfold quoted_str. change (ch """") with dquote. rewrite eat_cons. cbn [pbind].
  rewrite substr_spec. cbn [pbind]. destruct (quoted_step_complete q Q r) as [-> ->].
  rewrite eat_cons. cbn [pbind]. apply escape_breaks in E. now rewrite E.
Qed.

(** A dictionary's entry up to its value. *)
Lemma dict_item_value value x1 x2 ks k f : blank x1 -> blank x2 -> key_form escapes ks k ->
  dict_item value (trim_start (x1 ++ ks ++ x2 ++ ch "=" :: f))
  = pbind (value (trim_start f)) (fun v s => Ret (Some ((k, v), s))).
Proof.
  intros X1 X2 K.
  assert (Tk : trim_start (x1 ++ ks ++ x2 ++ ch "=" :: f) =
               match ks with [] => ch "=" :: f | _ => ks ++ x2 ++ ch "=" :: f end).
  { rewrite trim_start_blank; auto. destruct ks as [|k0 ks].
    - cbn [app]. now rewrite app_cons_head.
    - cbn [app]. apply trim_start_id. exact (key_head _ _ _ _ K). }
  rewrite Tk. clear Tk. unfold dict_item. destruct ks as [|k0 ks].
  - change (ch "=" :: f) with ([] ++ ch "=" :: f) at 1.
    rewrite (pkey_complete [] k (ch "=" :: f)); [|exact K|].
    + cbn [pbind]. rewrite trim_start_id by reflexivity. rewrite eat_cons. reflexivity.
    + exists (ch "="), f. repeat split; [|discriminate].
      intros Hi. apply is_ident_char_spec in Hi. discriminate Hi.
  - rewrite (pkey_complete (k0 :: ks) k); [|exact K|].
    + cbn [pbind]. rewrite app_cons_head by auto. rewrite eat_cons. reflexivity.
    + destruct x2 as [|y x2].
      * exists (ch "="), f. repeat split; [|discriminate].
        intros Hi. apply is_ident_char_spec in Hi. discriminate Hi.
      * exists y, (x2 ++ ch "=" :: f). inversion X2 as [|? ? Wy _]; subst.
        repeat split.
        -- intros Hi. apply is_ident_char_spec in Hi. apply ident_not_ws in Hi. congruence.
        -- intros ->. discriminate Wy.
Qed.

Lemma pvalue_panic_complete n : forall s, stuck s -> (length s < n)%nat -> pvalue n s = Panic.
Proof.
  induction n as [|n IH]; intros s S L; [lia|].
  assert (FC : forall t v, form read_as t v -> (length t < n)%nat -> forall c r,
     c = ch "," \/ c = ch "]" \/ c = ch "}" -> pvalue n (t ++ c :: r) = Ret (Some (v, c :: r))).
  { intros t v F Lt c r Hc. apply form_complete; auto.
    - now apply form_escapes.
    - right. eauto.
    - right. discriminate. }
  cbn [pvalue]. cbv zeta. destruct S as [w q r B Q Br|w b B G|w b B G].
  - rewrite app_cons_head; auto. cbn [peek_next].
    change (ch """" =? dquote)%N with true. cbv iota. now rewrite quoted_str_panics.
  - rewrite app_length in L. cbn [length] in L.
    rewrite app_cons_head; auto. cbn [peek_next].
    change (ch "[" =? dquote)%N with false. change (ch "[" =? squote)%N with false.
    change (ch "[" =? ch "[")%N with true. cbv iota.
    unfold delimited. rewrite eat_cons. cbn [pbind]. apply stuck_items_g in G.
    rewrite (dgo_panic_complete (form read_as) stuck (pvalue n) (ch "]")) with (K := n); auto.
    + discriminate.
    + intros t a c0 r0 Ft E. destruct (form_head _ _ _ _ _ Ft E) as [? _]. auto.
    + apply stuck_head.
    + intros t a Ft Lt c0 r0 Hc. rewrite pvalue_trim. apply FC; tauto.
    + intros t St Lt. rewrite pvalue_trim. now apply IH.
    + cbn [length]. lia.
  - rewrite app_length in L. cbn [length] in L.
    rewrite app_cons_head; auto. cbn [peek_next].
    change (ch "{" =? dquote)%N with false. change (ch "{" =? squote)%N with false.
    change (ch "{" =? ch "[")%N with false. change (ch "{" =? ch "{")%N with true. cbv iota.
    unfold delimited. rewrite eat_cons. cbn [pbind]. apply stuck_entries_g in G.
    rewrite (dgo_panic_complete (entry_form read_as) entry_stuck (dict_item (pvalue n)) (ch "}")) with (K := n); auto.
    + discriminate.
    + intros t a c0 r0 Ft E. destruct (entry_head _ _ _ _ _ Ft E) as [_ [? _]]. auto.
    + apply entry_stuck_head.
    + intros t [k v] [x1 [x2 [ks [f [-> [X1 [X2 [K F]]]]]]]] Lt c0 r0 Hc.
      rewrite !app_length in Lt. cbn [length] in Lt. cbn [fst snd] in K, F.
      replace ((x1 ++ ks ++ x2 ++ ch "=" :: f) ++ c0 :: r0)
        with (x1 ++ ks ++ x2 ++ ch "=" :: f ++ c0 :: r0)
        by (rewrite <- !app_assoc; cbn [app]; now rewrite <- ?app_assoc).
      rewrite dict_item_value with (k := k); auto; [|now apply key_escapes].
      rewrite pvalue_trim, (FC f v); auto; [lia|tauto].
    + intros t [[w' [q [r' [-> [B' [Q Br]]]]]]|[x1 [x2 [ks [k [f [-> [X1 [X2 [K S]]]]]]]]]] Lt.
      * rewrite app_cons_head; auto. unfold dict_item, pkey.
        change (peek dquote (ch """" :: q ++ ch """" :: r')) with true. cbv iota.
        now rewrite quoted_str_panics.
      * rewrite !app_length in Lt. cbn [length] in Lt.
        rewrite dict_item_value with (k := k); auto; [|now apply key_escapes].
        rewrite pvalue_trim, IH; auto. lia.
    + cbn [length]. lia.
Qed.

Lemma value_from_str_stuck s : value_from_str s = Panic <-> stuck (trim s).
Proof.
  unfold value_from_str. cbv zeta. split.
  - intros H. apply (pvalue_panic_sound (S (length (trim s)))).
    destruct (pvalue (S (length (trim s))) (trim s)) as [[[v [|c r]]|]| |]; congruence.
  - intros S. rewrite pvalue_panic_complete; auto.
Qed.

Lemma value_from_str_exact s v : value_from_str s = Ret v <->
  complete read_as (trim s) v
  \/ (~ stuck (trim s) /\ (forall v', ~ complete read_as (trim s) v') /\ v = VString tag_default (trim s)).
Proof.
  split.
  - intros H. assert (H' := H). apply value_from_str_complete in H'.
    destruct H' as [H'|E]; [left; now apply complete_read|].
    assert (NS : ~ stuck (trim s)) by (rewrite <- value_from_str_stuck; congruence).
    subst v. unfold value_from_str in H. cbv zeta in H.
    destruct (pvalue (S (length (trim s))) (trim s)) as [[[v' r]|]| |] eqn:P; try discriminate.
    + destruct r as [|c r].
      * left. apply complete_read. inversion H; subst.
        destruct (trim s) as [|c t] eqn:Et; [cbn in P; inversion P|].
        unfold complete. apply pvalue_sound in P. destruct P as [[B _]|[t' [E' F]]].
        -- assert (T := trim_idem s). rewrite Et in T. apply trim_nil_blank in B. congruence.
        -- rewrite app_nil_r in E'. subst t'. exact F.
      * right. split; auto. split; auto. intros w C. apply complete_read in C.
        assert (E := complete_escapes s w C). unfold value_from_str in E. cbv zeta in E.
        unfold complete in C. destruct (trim s) as [|c' t] eqn:Et; [cbn in P; discriminate|].
        assert (P2 : pvalue (S (length (c' :: t))) (c' :: t) = Ret (Some (w, []))).
        { rewrite <- (app_nil_r (c' :: t)) at 2. apply form_complete; auto.
          - left. reflexivity.
          - left. intros B. assert (T := trim_idem s). rewrite Et in T.
            apply trim_nil_blank in B. congruence. }
        congruence.
    + right. split; auto. split; auto. intros w C. apply complete_read in C.
      unfold complete in C. destruct (trim s) as [|c' t] eqn:Et; [cbn in P; discriminate|].
      assert (P2 : pvalue (S (length (c' :: t))) (c' :: t) = Ret (Some (w, []))).
      { rewrite <- (app_nil_r (c' :: t)) at 2. apply form_complete; auto.
        - left. reflexivity.
        - left. intros B. assert (T := trim_idem s). rewrite Et in T.
          apply trim_nil_blank in B. congruence. }
      congruence.
  - intros [C|[NS [NC ->]]].
    + apply complete_escapes. now apply complete_read.
    + destruct (value_from_str s) as [v| |] eqn:E.
      * f_equal. apply value_from_str_complete in E. destruct E as [E|E]; auto.
        apply complete_read in E. now apply NC in E.
      * apply value_from_str_stuck in E. contradiction.
      * now apply value_from_str_terminates in E.
Qed.
