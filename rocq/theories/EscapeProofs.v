(** Decoding of escapes. *)
From Coq Require Import Ascii String NArith Bool Lia List.
From Verif Require Import Res Str StrProofs Escape SpecParse.
Import ListNotations.
Local Open Scope N_scope.

Lemma ch_bs : ch "\" = 92. Proof. reflexivity. Qed.
Lemma ch_dq : ch """" = 34. Proof. reflexivity. Qed.

(** ** Hexadecimal *)
Lemma hex_value_spec c d : hex_value c = Some d <-> hex_digit c d.
Proof.
  unfold hex_value. change (ch "0") with 48. change (ch "9") with 57.
  change (ch "a") with 97. change (ch "f") with 102.
  change (ch "A") with 65. change (ch "F") with 70.
  split.
  - destruct (48 <=? c) eqn:E1; destruct (c <=? 57) eqn:E2; simpl;
    destruct (97 <=? c) eqn:E3; destruct (c <=? 102) eqn:E4; simpl;
    destruct (65 <=? c) eqn:E5; destruct (c <=? 70) eqn:E6; simpl; intros H; inversion H; subst;
    repeat match goal with
           | E : (_ <=? _) = true |- _ => apply N.leb_le in E
           | E : (_ <=? _) = false |- _ => apply N.leb_gt in E
           end; try lia;
    first [ replace c with (48 + (c - 48)) at 1 by lia; apply hd_digit; lia
          | replace c with (97 + (c - 97)) at 1 by lia;
            replace (c - 97 + 10) with (10 + (c - 97)) by lia; apply hd_lower; lia
          | replace c with (65 + (c - 65)) at 1 by lia;
            replace (c - 65 + 10) with (10 + (c - 65)) by lia; apply hd_upper; lia ].
  - intros H. destruct H as [d H|d H|d H];
    change (ch "0") with 48; change (ch "a") with 97; change (ch "A") with 65.
    + replace (48 <=? 48 + d) with true by (symmetry; apply N.leb_le; lia).
      replace (48 + d <=? 57) with true by (symmetry; apply N.leb_le; lia). cbn [andb].
      f_equal. lia.
    + replace (97 + d <=? 57) with false by (symmetry; apply N.leb_gt; lia).
      rewrite andb_false_r.
      replace (97 <=? 97 + d) with true by (symmetry; apply N.leb_le; lia).
      replace (97 + d <=? 102) with true by (symmetry; apply N.leb_le; lia). cbn [andb].
      f_equal. lia.
    + replace (65 + d <=? 57) with false by (symmetry; apply N.leb_gt; lia).
      rewrite andb_false_r.
      replace (97 <=? 65 + d) with false by (symmetry; apply N.leb_gt; lia).
      replace (65 <=? 65 + d) with true by (symmetry; apply N.leb_le; lia).
      replace (65 + d <=? 70) with true by (symmetry; apply N.leb_le; lia). cbn [andb].
      f_equal. lia.
Qed.

(** Folding a list of digits onto an accumulator. *)
Inductive hex_fold : N -> ustr -> N -> Prop :=
| hf_nil a : hex_fold a [] a
| hf_cons a c d r n : hex_digit c d -> hex_fold (16 * a + d) r n -> hex_fold a (c :: r) n.

Lemma hex_fold_snoc a s c n d : hex_fold a s n -> hex_digit c d -> hex_fold a (s ++ [c]) (16 * n + d).
Proof.
  induction 1; simpl; intros.
  - econstructor; eauto. constructor.
  - econstructor; eauto.
Qed.

Lemma hex_fold_app a s n : hex_fold a s n ->
  forall p, hex_number p a -> hex_number (p ++ s) n.
Proof.
  induction 1; intros p Hp.
  - now rewrite app_nil_r.
  - replace (p ++ c :: r) with ((p ++ [c]) ++ r) by (now rewrite <- app_assoc).
    apply IHhex_fold. now constructor.
Qed.

Lemma hex_number_fold s n : hex_number s n <-> hex_fold 0 s n.
Proof.
  split.
  - induction 1; [constructor | now apply hex_fold_snoc].
  - intros H. apply (hex_fold_app _ _ _ H []). constructor.
Qed.

Lemma hex_digit_fun c d d' : hex_digit c d -> hex_digit c d' -> d = d'.
Proof. intros A B. apply hex_value_spec in A. apply hex_value_spec in B. congruence. Qed.

Lemma hex_fold_fun a s n : hex_fold a s n -> forall n', hex_fold a s n' -> n = n'.
Proof.
  induction 1 as [a|a c d r n Hc Hr IH]; intros n' H'; inversion H' as [|? ? d' ? ? Hc' Hr']; subst; auto.
  rewrite (hex_digit_fun _ _ _ Hc Hc') in *. auto.
Qed.

Lemma hex_number_fun s n n' : hex_number s n -> hex_number s n' -> n = n'.
Proof. rewrite !hex_number_fold. intros A B. exact (hex_fold_fun _ _ _ A _ B). Qed.

Lemma hex_digits_ok len : forall pos acc chars v r,
  hex_digits len pos acc chars = Ok (v, r) ->
  exists h, chars = h ++ r /\ length h = len /\ hex_fold acc h v.
Proof.
  induction len as [|len IH]; simpl; intros pos acc chars v r H.
  - inversion H; subst. exists []. repeat split; constructor.
  - destruct chars as [|c chars]; [discriminate|].
    destruct (hex_value c) as [d|] eqn:E; [|discriminate].
    apply IH in H. destruct H as [h [-> [L F]]]. exists (c :: h). simpl.
    repeat split; auto. apply (hf_cons acc c d); [now apply hex_value_spec|].
    now replace (16 * acc + d) with (acc * 16 + d) by lia.
Qed.

Lemma hex_digits_complete h : forall acc v pos r,
  hex_fold acc h v -> hex_digits (length h) pos acc (h ++ r) = Ok (v, r).
Proof.
  induction h as [|c h IH]; intros acc v pos r H; inversion H as [|? ? d ? ? Hc Hr]; subst; simpl.
  - reflexivity.
  - apply hex_value_spec in Hc. rewrite Hc. apply IH.
    now replace (acc * 16 + d) with (16 * acc + d) by lia.
Qed.

Lemma hex_ok i len chars v r :
  hex i len chars = Ok (v, r) ->
  exists h, chars = h ++ r /\ length h = len /\ hex_number h v /\ scalar v = true.
Proof.
  unfold hex. destruct (hex_digits len (i + 1) 0 chars) as [[v0 r0]|] eqn:E; [|discriminate].
  destruct (scalar v0) eqn:S; [|discriminate]. intros H; inversion H; subst.
  apply hex_digits_ok in E. destruct E as [h [-> [L F]]]. exists h.
  repeat split; auto. now apply hex_number_fold.
Qed.

Lemma hex_complete i h v r :
  hex_number h v -> scalar v = true -> hex i (length h) (h ++ r) = Ok (v, r).
Proof.
  intros H S. unfold hex. apply hex_number_fold in H.
  now rewrite (hex_digits_complete h 0 v (i + 1) r H), S.
Qed.

(** ** Characters *)
Lemma permitted_literal c : c <> ch "\" -> (permitted c = true <-> literal c).
Proof.
  intros N0. unfold permitted, literal. change 0x10ffff with 1114111.
  rewrite orb_true_iff, !andb_true_iff, N.eqb_eq, !N.leb_le, negb_true_iff, N.eqb_neq.
  intuition lia.
Qed.

Lemma hex_app_inj (h h' q q' : ustr) : length h = length h' -> h ++ q = h' ++ q' -> h = h' /\ q = q'.
Proof.
  revert h'; induction h as [|c h IH]; intros [|c' h'] L; try discriminate; simpl; intros E; auto.
  inversion E; subst. injection L; intros L'. destruct (IH h' L' H1) as [-> ->]. auto.
Qed.

Lemma decodes_fun q t : decodes q t -> forall t', decodes q t' -> t = t'.
Proof.
  induction 1 as [|c q t Hc Hq IH|c d q t Hc Hq IH|h n q t Hl Hn Hs Hq IH|h n q t Hl Hn Hs Hq IH];
    intros t' H'.
  - now inversion H'.
  - inversion H' as [|? ? ? ? ?|? ? ? ? ? ? E|? ? ? ? ? ? ? ? E|? ? ? ? ? ? ? ? E]; subst;
      try (f_equal; auto; fail); exfalso; destruct Hc as [Hc _]; now apply Hc.
  - inversion H' as [|? ? ? Hl'|? d' ? ? Hc'|h' n' q' t2 L' N' S' D' E|h' n' q' t2 L' N' S' D' E]; subst.
    + exfalso. destruct Hl' as [Hl' _]. now apply Hl'.
    + f_equal; auto. inversion Hc; subst; inversion Hc'; subst; auto.
    + inversion Hc.
    + inversion Hc.
  - inversion H' as [|? ? ? Hl'|? d' ? ? Hc'|h' n' q' t2 L' N' S' D' E|h' n' q' t2 L' N' S' D' E]; subst.
    + exfalso. destruct Hl' as [Hl' _]. now apply Hl'.
    + inversion Hc'.
    + destruct (hex_app_inj h' h q' q) as [-> ->]; [congruence|auto|].
      f_equal; [now apply (hex_number_fun h)|auto].
  - inversion H' as [|? ? ? Hl'|? d' ? ? Hc'|h' n' q' t2 L' N' S' D' E|h' n' q' t2 L' N' S' D' E]; subst.
    + exfalso. destruct Hl' as [Hl' _]. now apply Hl'.
    + inversion Hc'.
    + destruct (hex_app_inj h' h q' q) as [-> ->]; [congruence|auto|].
      f_equal; [now apply (hex_number_fun h)|auto].
Qed.

(** ** The loop *)

(** What remains of a decoding after a backslash and the character after it. *)
Lemma decodes_bs e r t : decodes (ch "\" :: e :: r) t ->
  (exists d t', letter_escape e d /\ decodes r t' /\ t = d :: t')
  \/ (exists len h n q t', (e = ch "u" /\ len = 4%nat \/ e = ch "U" /\ len = 8%nat) /\ r = h ++ q /\
        length h = len /\ hex_number h n /\ scalar n = true /\ decodes q t' /\ t = n :: t').
Proof.
  intros H. inversion H as [|? ? ? Hl'|? d' ? ? Hc'|h' n' q' t2 L' N' S' D' E|h' n' q' t2 L' N' S' D' E]; subst.
  - exfalso. destruct Hl' as [Hl' _]. now apply Hl'.
  - left. eauto.
  - right. exists 4%nat, h', n', q', t2. repeat split; auto.
  - right. exists 8%nat, h', n', q', t2. repeat split; auto.
Qed.

Ltac bs_case e :=
  match goal with
  | |- context [if e =? ?x then _ else _] =>
      let Q := fresh "Q" in destruct (N.eqb_spec e x) as [Q|Q]; [subst e|]
  end.

Lemma escape_go_some fuel : forall string i chars o,
  (length chars < fuel)%nat ->
  (exists t, escape_go fuel string i chars (Some o) = Ret (Ok (o ++ t)) /\ decodes chars t)
  \/ (exists e, escape_go fuel string i chars (Some o) = Ret (Err e) /\ forall t, ~ decodes chars t).
Proof.
  induction fuel as [|fuel IH]; intros string i chars o L; [lia|].
  destruct chars as [|c r]; cbn [escape_go].
  - left. exists []. rewrite app_nil_r. split; [reflexivity|constructor].
  - cbn [length] in L. destruct (N.eqb_spec c backslash) as [->|Nb].
    + destruct r as [|e r].
      { right. eexists. split; [reflexivity|]. intros t H. inversion H as [|? ? ? Hl'| | |]; subst.
        destruct Hl' as [Hl' _]. now apply Hl'. }
      cbn [length] in L.
      assert (Simple : forall d, letter_escape e d ->
        (exists t, escape_go fuel string (i + 2) r (Some (o ++ [d])) = Ret (Ok (o ++ t))
                   /\ decodes (backslash :: e :: r) t)
        \/ (exists x, escape_go fuel string (i + 2) r (Some (o ++ [d])) = Ret (Err x)
                      /\ forall t, ~ decodes (backslash :: e :: r) t)).
      { intros d Hd. destruct (IH string (i + 2) r (o ++ [d])) as [[t [E D]]|[x [E D]]]; [lia| |].
        - left. exists (d :: t). split; [rewrite <- app_assoc in E; exact E|].
          now apply (dec_letter e d).
        - right. exists x. split; [exact E|]. intros t H. apply decodes_bs in H.
          destruct H as [[d' [t' [_ [H _]]]]|[len [h [n [q [t' [[[He _]|[He _]] _]]]]]]].
          + exact (D _ H).
          + subst e; inversion Hd.
          + subst e; inversion Hd. }
      bs_case e; [exact (Simple _ le_quote)|].
      bs_case e; [exact (Simple _ le_backslash)|].
      bs_case e; [exact (Simple _ le_b)|].
      bs_case e; [exact (Simple _ le_f)|].
      bs_case e; [exact (Simple _ le_n)|].
      bs_case e; [exact (Simple _ le_r)|].
      bs_case e; [exact (Simple _ le_t)|].
      clear Simple.
      destruct ((e =? ch "u") || (e =? ch "U")) eqn:Hu.
      * set (len := if e =? ch "u" then 4%nat else 8%nat).
        assert (Hlen : e = ch "u" /\ len = 4%nat \/ e = ch "U" /\ len = 8%nat).
        { unfold len. apply orb_true_iff in Hu. rewrite !N.eqb_eq in Hu.
          destruct Hu as [->| ->]; [left|right]; split; reflexivity. }
        destruct (hex (i + 1) len r) as [[v r']|x] eqn:Hh.
        -- apply hex_ok in Hh. destruct Hh as [h [-> [Lh [Hn Hs]]]].
           rewrite app_length in L.
           destruct (IH string (i + 2 + N.of_nat len) r' (o ++ [v])) as [[t [E D]]|[x [E D]]]; [lia| |].
           ++ left. exists (v :: t). split; [rewrite <- app_assoc in E; exact E|].
              destruct Hlen as [[-> Hl]|[-> Hl]]; [apply dec_u4|apply dec_u8]; auto; congruence.
           ++ right. exists x. split; [exact E|]. intros t H. apply decodes_bs in H.
              destruct H as [[d' [t' [H _]]]|[len' [h' [n' [q [t' [He [Eq [Lh' [_ [_ [Dq _]]]]]]]]]]]].
              ** destruct Hlen as [[-> _]|[-> _]]; inversion H.
              ** assert (len' = len).
                 { destruct Hlen as [[-> ->]|[-> ->]]; destruct He as [[He ->]|[He ->]];
                     auto; discriminate He. }
                 destruct (hex_app_inj h h' r' q) as [_ Er]; [congruence|auto|].
                 subst r'. exact (D _ Dq).
        -- right. exists x. split; [reflexivity|]. intros t H. apply decodes_bs in H.
           destruct H as [[d' [t' [H _]]]|[len' [h' [n' [q [t' [He [Eq [Lh' [Hn [Hs _]]]]]]]]]]].
           ++ destruct Hlen as [[-> _]|[-> _]]; inversion H.
           ++ assert (len' = len).
              { destruct Hlen as [[-> ->]|[-> ->]]; destruct He as [[He ->]|[He ->]];
                  auto; discriminate He. }
              assert (length h' = len) by congruence.
              subst r. rewrite <- H0 in Hh. rewrite (hex_complete (i + 1) h' n' q Hn Hs) in Hh.
              discriminate.
      * right. eexists. split; [reflexivity|]. intros t H. apply decodes_bs in H.
        apply orb_false_iff in Hu. rewrite !N.eqb_neq in Hu. destruct Hu as [U1 U2].
        destruct H as [[d' [t' [H _]]]|[len' [h' [n' [q [t' [[[He _]|[He _]] _]]]]]]].
        -- inversion H; subst; auto.
        -- auto.
        -- auto.
    + destruct (permitted c) eqn:Hp.
      * apply permitted_literal in Hp; auto.
        destruct (IH string (i + 1) r (o ++ [c])) as [[t [E D]]|[x [E D]]]; [lia| |].
        -- left. exists (c :: t). split; [rewrite <- app_assoc in E; exact E|].
           now constructor.
        -- right. exists x. split; [exact E|]. intros t H.
           inversion H as [|? ? t0 Hl' Dq| | |]; subst; try (now apply Nb). exact (D _ Dq).
      * right. eexists. split; [reflexivity|]. intros t H.
        inversion H as [|? ? t0 Hl' Dq| | |]; subst; try (now apply Nb).
        apply permitted_literal in Hl'; [congruence|auto].
Qed.

Lemma byte_len_ascii s : Forall ascii_char s -> byte_len s = N.of_nat (length s).
Proof.
  induction 1 as [|c s Hc Hs IH]; [reflexivity|].
  cbn [byte_len length]. rewrite IH. unfold ascii_char in Hc. unfold utf8_len.
  replace (c <? 0x80) with true by (symmetry; now apply N.ltb_lt). lia.
Qed.

Lemma escape_go_none fuel : forall pre i chars,
  let string := pre ++ chars in
  (length chars < fuel)%nat ->
  i = N.of_nat (length pre) ->
  ~ In (ch "\") pre ->
  (exists t t', escape_go fuel string i chars None = Ret (Ok t) /\ decodes chars t'
                /\ (ascii_lead string -> t = pre ++ t'))
  \/ (exists e, escape_go fuel string i chars None = Ret (Err e) /\ forall t, ~ decodes chars t)
  \/ (escape_go fuel string i chars None = Panic /\ ~ ascii_lead string).
Proof.
  induction fuel as [|fuel IH]; intros pre i chars string L Hi Np; [lia|].
  destruct chars as [|c r].
  - left. exists string, []. split; [reflexivity|]. split; [constructor|auto].
  - destruct (N.eqb_spec c backslash) as [->|Nb].
    + (* the first backslash *)
      destruct (split_at_byte string i) as [[a b]|] eqn:Es.
      * destruct (escape_go_some (S fuel) string i (backslash :: r) a) as [[t [E D]]|[x [E D]]]; [exact L| |].
        -- left. exists (a ++ t), t. split; [|split; [exact D|]].
           ++ revert E. cbn [escape_go]. rewrite N.eqb_refl, Es. auto.
           ++ intros A. f_equal. specialize (A pre r eq_refl Np).
              apply byte_len_ascii in A. rewrite <- A in Hi. subst i. unfold string in Es.
              rewrite split_at_byte_app in Es. now inversion Es.
        -- right. left. exists x. split; [|exact D].
           revert E. cbn [escape_go]. rewrite N.eqb_refl, Es. auto.
      * right. right. split.
        -- cbn [escape_go]. now rewrite N.eqb_refl, Es.
        -- intros A. specialize (A pre r eq_refl Np). apply byte_len_ascii in A.
           rewrite <- A in Hi. subst i. unfold string in Es.
           rewrite split_at_byte_app in Es. discriminate.
    + cbn [escape_go]. apply N.eqb_neq in Nb as Nb'. rewrite Nb'.
      destruct (permitted c) eqn:Hp.
      * apply permitted_literal in Hp; auto.
        specialize (IH (pre ++ [c]) (i + 1) r). cbv zeta in IH.
        rewrite <- app_assoc in IH. cbn [app] in IH.
        destruct IH as [[t [t' [E [D A]]]]|[[x [E D]]|[E A]]].
        -- cbn [length] in L. lia.
        -- rewrite app_length. cbn [length]. lia.
        -- rewrite in_app_iff. intros [H|[H|[]]]; auto.
        -- left. exists t, (c :: t'). split; [exact E|]. split; [now constructor|].
           intros H. rewrite (A H), <- app_assoc. reflexivity.
        -- right. left. exists x. split; [exact E|]. intros t H.
           inversion H as [|? ? t0 Hl' Dq| | |]; subst; try (now apply Nb). exact (D _ Dq).
        -- right. right. split; auto.
      * right. left. eexists. split; [reflexivity|]. intros t H.
        inversion H as [|? ? t0 Hl' Dq| | |]; subst; try (now apply Nb).
        apply permitted_literal in Hl'; [congruence|auto].
Qed.

Lemma escape_cases q :
  (exists t t', escape q = Ret (Ok t) /\ decodes q t' /\ (ascii_lead q -> t = t'))
  \/ (exists e, escape q = Ret (Err e) /\ forall t, ~ decodes q t)
  \/ (escape q = Panic /\ ~ ascii_lead q).
Proof.
  exact (escape_go_none (S (length q)) [] 0 q (PeanoNat.Nat.lt_succ_diag_r _) eq_refl (@in_nil _ _)).
Qed.

Lemma escape_no_nofuel q : escape q <> NoFuel.
Proof. destruct (escape_cases q) as [[t [t' [E _]]]|[[e [E _]]|[E _]]]; congruence. Qed.

(** With an ASCII lead, [escape] computes the decoding. *)
Lemma escape_decodes q t : ascii_lead q -> (escape q = Ret (Ok t) <-> decodes q t).
Proof.
  intros A. destruct (escape_cases q) as [[u [t' [E [D Ht]]]]|[[e [E D]]|[E NA]]].
  - specialize (Ht A). subst u. rewrite E. split.
    + intros H; inversion H; now subst.
    + intros H. now rewrite (decodes_fun _ _ D _ H).
  - rewrite E. split; [discriminate|]. intros H. now apply D in H.
  - contradiction.
Qed.

Lemma escape_no_panic q : ascii_lead q -> escape q <> Panic.
Proof. intros A. destruct (escape_cases q) as [[t [t' [E _]]]|[[e [E _]]|[E NA]]]; congruence. Qed.

(** Even without it, a string is accepted only if it decodes to something. *)
Lemma escape_accepts q t : escape q = Ret (Ok t) -> exists t', decodes q t'.
Proof.
  destruct (escape_cases q) as [[u [t' [E [D _]]]]|[[e [E D]]|[E NA]]]; rewrite E;
    try discriminate; eauto.
Qed.
