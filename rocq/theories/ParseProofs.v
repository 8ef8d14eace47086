(** The parser implements the grammar. *)
From Coq Require Import Ascii String ZArith NArith Bool Lia.
From Coq Require Import List.
From Verif Require Import SpecNear NearProofs.
From Verif Require Import Res BMap Str StrProofs Profile Tag Num Value Escape NumParse Parse
  SpecParse EscapeProofs TrimProofs NumParseProofs.
Import ListNotations.

(** ** Unquoted text *)
Lemma contains_dot_In s : contains_c dot s = true <-> In (ch ".") s.
Proof.
  unfold contains_c. rewrite existsb_exists. split.
  - intros [c [I E]]. apply N.eqb_eq in E. now subst.
  - intros I. exists dot. split; auto.
Qed.

Lemma denotes_num_fun s n n' : denotes_num s n -> denotes_num s n' -> n = n'.
Proof.
  assert (T : forall s n, denotes_num s n ->
    (exists f, n = NF64 f /\ In (ch ".") s /\ parse_f64 s = Some f)
    \/ (exists z, n = NInt USize z /\ (numeral s z \/ exists ds, s = ch "+" :: ds /\ numeral ds z))
    \/ (exists z, n = NInt ISize (- z) /\ exists ds, s = ch "-" :: ds /\ numeral ds z)).
  { intros s0 n0 H. destruct H as [s0 neg m e x I P Rx|ds z N0 R|ds z N0 R|ds z N0 R].
    - left. eexists. split; [reflexivity|]. split; auto. apply (parse_float_near _ _ _ _ ok_double). eauto.
    - right. left. exists z. auto.
    - right. left. exists z. split; auto. right. eauto.
    - right. right. exists z. split; auto. eauto. }
  assert (D : forall s z, (numeral s z \/ exists ds, s = ch "+" :: ds /\ numeral ds z) -> int_text U8 s z).
  { intros s0 z [H|[ds [-> H]]]; [now left|]. right. left. eauto. }
  assert (M : forall s z, (exists ds, s = ch "-" :: ds /\ numeral ds z) -> int_text I8 s (- z)).
  { intros s0 z [ds [-> H]]. right. right. split; auto. exists ds, z. auto. }
  assert (U : forall s z, int_text U8 s z -> int_text I8 s z).
  { intros s0 z [H|[H|[H _]]]; [now left|now right; left|discriminate]. }
  assert (X : forall s, In (ch ".") s -> forall k z, ~ int_text k s z).
  { intros s0 I k z H. apply int_text_no_dot in H. apply contains_dot_In in I. congruence. }
  intros A B. apply T in A. apply T in B.
  destruct A as [[f [-> [I P]]]|[[z [-> A]]|[z [-> A]]]];
  destruct B as [[f' [-> [I' P']]]|[[z' [-> B]]|[z' [-> B]]]].
  - congruence.
  - exfalso. exact (X s I U8 z' (D s z' B)).
  - exfalso. exact (X s I I8 _ (M s z' B)).
  - exfalso. exact (X s I' U8 z (D s z A)).
  - f_equal. exact (int_text_fun U8 s z z' (D _ _ A) (D _ _ B)).
  - exfalso. destruct B as [ds [-> B]]. destruct A as [A|[ds' [E A]]]; [|discriminate].
    apply numeral_head_digit in A. now apply digit_not_minus in A.
  - exfalso. exact (X s I' I8 _ (M s z A)).
  - exfalso. destruct A as [ds [-> A]]. destruct B as [B|[ds' [E B]]]; [|discriminate].
    apply numeral_head_digit in B. now apply digit_not_minus in B.
  - f_equal. exact (int_text_fun I8 s _ _ (M _ _ A) (M _ _ B)).
Qed.

(** Whether [s] denotes a number, and which, as the code finds out. *)
Definition bare_num_of (s : ustr) : option num :=
  if contains_c dot s then option_map NF64 (parse_f64 s)
  else match parse_int USize s with
       | Some z => Some (NInt USize z)
       | None => option_map (NInt ISize) (parse_int ISize s)
       end.

Lemma bare_num_of_spec s n : bare_num_of s = Some n <-> denotes_num s n.
Proof.
  unfold bare_num_of. split.
  - destruct (contains_c dot s) eqn:C.
    + apply contains_dot_In in C. destruct (parse_f64 s) as [f|] eqn:P; [|discriminate].
      intros H; inversion H; subst.
      apply (parse_float_near _ _ _ _ ok_double) in P. destruct P as [neg [m [e [D Rf]]]]. now apply (dn_float s neg m e).
    + destruct (parse_int USize s) as [z|] eqn:P.
      * intros H; inversion H; subst. apply parse_int_spec in P. destruct P as [R [T|[T|[T _]]]].
        -- assert (0 <= z)%Z by (now apply numeral_nonneg in T).
           apply in_range_usize in R; auto. now constructor.
        -- destruct T as [ds [-> T]]. assert (0 <= z)%Z by (now apply numeral_nonneg in T).
           apply in_range_usize in R; auto. now constructor.
        -- discriminate.
      * destruct (parse_int ISize s) as [z|] eqn:P'; [|discriminate].
        intros H; inversion H; subst. apply parse_int_spec in P'. destruct P' as [R T].
        assert (Small : (0 <= z)%Z -> in_range USize z = true).
        { intros Z0. apply in_range_usize; auto. apply in_range_spec in R.
          change (ikind_max ISize) with (2 ^ 63 - 1)%Z in R. lia. }
        destruct T as [T|[T|[_ [ds [y [-> [T ->]]]]]]].
        -- assert (0 <= z)%Z by (now apply numeral_nonneg in T).
           rewrite (parse_int_none _ _ P z) in Small; [|now left]. discriminate (Small H0).
        -- destruct T as [ds [-> T]]. assert (0 <= z)%Z by (now apply numeral_nonneg in T).
           rewrite (parse_int_none _ _ P z) in Small; [|right; left; eauto].
           discriminate (Small H0).
        -- assert (0 <= y)%Z by (now apply numeral_nonneg in T).
           apply in_range_isize_neg in R; auto. now constructor.
  - intros H. destruct H as [s neg m e x I P Rx|ds z N0 R|ds z N0 R|ds z N0 R].
    + apply contains_dot_In in I. rewrite I.
      assert (E : parse_f64 s = Some x)
        by (apply (parse_float_near _ _ _ _ ok_double); eauto).
      now rewrite E.
    + assert (T : int_text USize ds z) by (now left).
      rewrite (int_text_no_dot _ _ _ T).
      replace (parse_int USize ds) with (Some z); auto. symmetry. apply parse_int_spec.
      split; auto. apply in_range_usize; auto. now apply numeral_nonneg in N0.
    + assert (T : int_text USize (ch "+" :: ds) z) by (right; left; eauto).
      rewrite (int_text_no_dot _ _ _ T).
      replace (parse_int USize (ch "+" :: ds)) with (Some z); auto. symmetry. apply parse_int_spec.
      split; auto. apply in_range_usize; auto. now apply numeral_nonneg in N0.
    + assert (T : int_text ISize (ch "-" :: ds) (- z)) by (right; right; split; auto; eauto).
      rewrite (int_text_no_dot _ _ _ T).
      change (parse_int USize (ch "-" :: ds)) with (@None Z).
      replace (parse_int ISize (ch "-" :: ds)) with (Some (- z)%Z); auto.
      symmetry. apply parse_int_spec. split; auto. apply in_range_isize_neg; auto.
      now apply numeral_nonneg in N0.
Qed.

Lemma bare_value_bare s v : bare s v <-> v = bare_value s.
Proof.
  assert (F : bare_value s =
    if ueqb s (lit "true") then VBool tag_default true
    else if ueqb s (lit "false") then VBool tag_default false
    else match bare_num_of s with
         | Some n => VNum tag_default n
         | None => VString tag_default s
         end).
  { unfold bare_value, bare_num_of.
    destruct (ueqb s (lit "true")); auto. destruct (ueqb s (lit "false")); auto.
    destruct (contains_c dot s).
    - destruct (parse_f64 s); auto.
    - destruct (parse_int USize s); auto. destruct (parse_int ISize s); auto. }
  assert (NT : forall n, ~ denotes_num (lit "true") n).
  { intros n H. apply bare_num_of_spec in H. vm_compute in H. discriminate. }
  assert (NF : forall n, ~ denotes_num (lit "false") n).
  { intros n H. apply bare_num_of_spec in H. vm_compute in H. discriminate. }
  rewrite F. clear F. split.
  - intros H. destruct H as [| |s n D|s N1 N2 D].
    + reflexivity.
    + reflexivity.
    + destruct (ueqb s (lit "true")) eqn:E1; [apply ueqb_eq in E1; subst; now apply NT in D|].
      destruct (ueqb s (lit "false")) eqn:E2; [apply ueqb_eq in E2; subst; now apply NF in D|].
      apply bare_num_of_spec in D. now rewrite D.
    + apply ueqb_neq in N1. apply ueqb_neq in N2. rewrite N1, N2.
      destruct (bare_num_of s) as [n|] eqn:E; auto. apply bare_num_of_spec in E. now apply D in E.
  - intros ->. destruct (ueqb s (lit "true")) eqn:E1; [apply ueqb_eq in E1; subst; constructor|].
    destruct (ueqb s (lit "false")) eqn:E2; [apply ueqb_eq in E2; subst; constructor|].
    apply ueqb_neq in E1. apply ueqb_neq in E2.
    destruct (bare_num_of s) as [n|] eqn:E.
    + constructor. now apply bare_num_of_spec.
    + constructor; auto. intros n D. apply bare_num_of_spec in D. congruence.
Qed.

(** ** Substrings *)
Fixpoint accepted {S} (f : S -> uchar -> bool * S) (st : S) (s : ustr) : ustr :=
  match s with
  | [] => []
  | c :: r => let '(b, st') := f st c in if b then c :: accepted f st' r else []
  end.
Fixpoint rejected {S} (f : S -> uchar -> bool * S) (st : S) (s : ustr) : ustr :=
  match s with
  | [] => []
  | c :: r => let '(b, st') := f st c in if b then rejected f st' r else s
  end.

Lemma accepted_rejected {S} (f : S -> uchar -> bool * S) s : forall st,
  s = accepted f st s ++ rejected f st s.
Proof.
  induction s as [|c s IH]; intros st; simpl; auto.
  destruct (f st c) as [[|] st']; simpl; auto. f_equal. apply IH.
Qed.

Lemma substr_spec {S} (f : S -> uchar -> bool * S) st s :
  substr f st s = Ret (Some (accepted f st s, rejected f st s)).
Proof.
  unfold substr.
  assert (L : accepted_len f st s = byte_len (accepted f st s)).
  { revert st. induction s as [|c s IH]; intros st; simpl; auto.
    destruct (f st c) as [[|] st']; simpl; auto. now rewrite IH. }
  rewrite L. rewrite (accepted_rejected f s st) at 1. now rewrite split_at_byte_app.
Qed.

Lemma stateless_accepted f s st : Forall (fun c => f c = true) (accepted (stateless f) st s).
Proof.
  revert st; induction s as [|c s IH]; intros st; simpl; auto.
  destruct (f c) eqn:E; auto.
Qed.

Lemma stateless_rejected f s st : rejected (stateless f) st s = []
  \/ exists c r, rejected (stateless f) st s = c :: r /\ f c = false.
Proof.
  revert st; induction s as [|c s IH]; intros st; simpl; auto.
  destruct (f c) eqn:E; auto. right. eauto.
Qed.

Lemma stateless_app f a b st : Forall (fun c => f c = true) a ->
  (b = [] \/ exists c r, b = c :: r /\ f c = false) ->
  accepted (stateless f) st (a ++ b) = a /\ rejected (stateless f) st (a ++ b) = b.
Proof.
  revert st. induction a as [|c a IH]; intros st F B.
  - destruct B as [->|[c [r [-> E]]]]; simpl; auto. now rewrite E.
  - inversion F as [|? ? Hc Fa]; subst. simpl. rewrite Hc.
    destruct (IH tt Fa B) as [-> ->]. auto.
Qed.

(** ** Quoted strings *)
Lemma quoted_step_sound s : forall st r,
  rejected quoted_step st s = dquote :: r ->
  if st then exists c q, accepted quoted_step st s = c :: q /\ quotable q
  else quotable (accepted quoted_step st s).
Proof.
  induction s as [|c s IH]; intros st r H; simpl in *; [discriminate|].
  destruct st; simpl in *.
  - apply IH in H. eauto.
  - destruct (N.eqb_spec c backslash) as [->|Nb].
    + apply IH in H. destruct H as [c' [q [E Q]]]. rewrite E. now apply qb_pair.
    + destruct (N.eqb_spec c dquote) as [->|Nq]; simpl in *; [constructor|].
      apply IH in H. now constructor.
Qed.

Lemma quoted_step_complete q : quotable q -> forall r,
  accepted quoted_step false (q ++ dquote :: r) = q
  /\ rejected quoted_step false (q ++ dquote :: r) = dquote :: r.
Proof.
  induction 1 as [|c q Nb Nq Q IH|c q Q IH]; intros r.
  - cbn. auto.
  - assert (E : quoted_step false c = (true, false)).
    { unfold quoted_step. apply N.eqb_neq in Nb. apply N.eqb_neq in Nq.
      change backslash with (ch "\"). change dquote with (ch """"). now rewrite Nb, Nq. }
    cbn [app accepted rejected]. rewrite E. destruct (IH r) as [-> ->]. auto.
  - cbn [app accepted rejected].
    change (quoted_step false (ch "\")) with (true, true). cbv iota.
    change (quoted_step true c) with (true, false). cbv iota.
    destruct (IH r) as [-> ->]. auto.
Qed.

Lemma eat_spec c s a r : eat c s = Ret (Some (a, r)) <-> a = c /\ s = c :: r.
Proof.
  unfold eat, eat_if. destruct s as [|x s]; [split; [discriminate|intros [_ ?]; discriminate]|].
  destruct (N.eqb_spec x c) as [->|N0].
  - split; [intros H; inversion H; auto | intros [-> H]; now inversion H].
  - split; [discriminate|intros [_ H]; now inversion H].
Qed.
Lemma eat_cons c r : eat c (c :: r) = Ret (Some (c, r)).
Proof. now apply eat_spec. Qed.
Lemma eat_ret c s : exists o, eat c s = Ret o.
Proof. unfold eat, eat_if. destruct s as [|x s]; eauto. destruct (x =? c)%N; eauto. Qed.
Lemma eat_none c s : (forall r, s <> c :: r) -> eat c s = Ret None.
Proof.
  intros H. destruct (eat_ret c s) as [[[a r]|] E]; auto. apply eat_spec in E.
  destruct E as [_ E]. now apply H in E.
Qed.

Lemma pbind_some {A B} (x : pres A) (f : A -> ustr -> pres B) y :
  pbind x f = Ret (Some y) -> exists a s, x = Ret (Some (a, s)) /\ f a s = Ret (Some y).
Proof. destruct x as [[[a s]|]| |]; simpl; try discriminate. eauto. Qed.
Lemma pbind_panic {A B} (x : pres A) (f : A -> ustr -> pres B) :
  pbind x f = Panic -> x = Panic \/ exists a s, x = Ret (Some (a, s)) /\ f a s = Panic.
Proof. destruct x as [[[a s]|]| |]; simpl; try discriminate; eauto. Qed.
Lemma pbind_nofuel {A B} (x : pres A) (f : A -> ustr -> pres B) :
  pbind x f = NoFuel -> x = NoFuel \/ exists a s, x = Ret (Some (a, s)) /\ f a s = NoFuel.
Proof. destruct x as [[[a s]|]| |]; simpl; try discriminate; eauto. Qed.

(** The meaning the code gives to the text between quotes. *)
Definition escapes (q t : ustr) : Prop := escape q = Ret (Ok t).

Lemma quoted_str_sound s t r : quoted_str s = Ret (Some (t, r)) ->
  exists q, s = ch """" :: q ++ ch """" :: r /\ quotable q /\ escapes q t.
Proof.
  unfold quoted_str. intros H.
  apply pbind_some in H. destruct H as [a [s1 [E1 H]]]. apply eat_spec in E1. destruct E1 as [_ ->].
  rewrite substr_spec in H. cbn [pbind] in H.
  apply pbind_some in H. destruct H as [b [s3 [E3 H]]]. apply eat_spec in E3. destruct E3 as [_ E3].
  exists (accepted quoted_step false s1). split; [|split].
  - f_equal. rewrite (accepted_rejected quoted_step s1 false) at 1. rewrite E3.
    destruct (escape (accepted quoted_step false s1)) as [[u|e]| |]; inversion H; subst; auto.
  - exact (quoted_step_sound s1 false s3 E3).
  - unfold escapes. destruct (escape (accepted quoted_step false s1)) as [[u|e]| |]; inversion H; subst; auto.
Qed.

Lemma quoted_str_complete q t r : quotable q -> escapes q t ->
  quoted_str (ch """" :: q ++ ch """" :: r) = Ret (Some (t, r)).
Proof.
  intros Q E. unfold quoted_str. change (ch """") with dquote. rewrite eat_cons. cbn [pbind].
  rewrite substr_spec. cbn [pbind]. destruct (quoted_step_complete q Q r) as [-> ->].
  rewrite eat_cons. cbn [pbind]. now rewrite E.
Qed.

Lemma quoted_str_nofuel s : quoted_str s <> NoFuel.
Proof.
  unfold quoted_str. intros H.
  apply pbind_nofuel in H. destruct H as [H|[a [s1 [_ H]]]].
  { destruct (eat_ret dquote s); congruence. }
  rewrite substr_spec in H. cbn [pbind] in H.
  apply pbind_nofuel in H. destruct H as [H|[b [s3 [_ H]]]].
  { destruct (eat_ret dquote (rejected quoted_step false s1)); congruence. }
  assert (E := escape_no_nofuel (accepted quoted_step false s1)).
  destruct (escape (accepted quoted_step false s1)) as [[u|e]| |]; congruence.
Qed.

Lemma quoted_str_panic s : quoted_str s = Panic ->
  exists q r, s = ch """" :: q ++ ch """" :: r /\ quotable q /\ escape q = Panic.
Proof.
  unfold quoted_str. intros H.
  apply pbind_panic in H. destruct H as [H|[a [s1 [E1 H]]]].
  { destruct (eat_ret dquote s); congruence. }
  apply eat_spec in E1. destruct E1 as [_ ->].
  rewrite substr_spec in H. cbn [pbind] in H.
  apply pbind_panic in H. destruct H as [H|[b [s3 [E3 H]]]].
  { destruct (eat_ret dquote (rejected quoted_step false s1)); congruence. }
  apply eat_spec in E3. destruct E3 as [_ E3].
  exists (accepted quoted_step false s1), s3. split; [|split].
  - f_equal. rewrite (accepted_rejected quoted_step s1 false) at 1. now rewrite E3.
  - exact (quoted_step_sound s1 false s3 E3).
  - destruct (escape (accepted quoted_step false s1)) as [[u|e]| |]; congruence.
Qed.

(** ** Clean input *)
Lemma clean_suffix a b : clean (a ++ b) -> clean b.
Proof.
  intros H x q y -> Nq Nb. apply (H (a ++ x) q y); auto. now rewrite <- app_assoc.
Qed.

Lemma quotable_lead q p b : quotable q -> q = p ++ ch "\" :: b -> ~ In (ch "\") p -> ~ In (ch """") p.
Proof.
  intros Q. revert p. induction Q as [|c q Nb Nq Q IH|c q Q IH]; intros p E N0.
  - destruct p; discriminate.
  - destruct p as [|c' p]; [simpl; auto|]. inversion E; subst.
    intros [H|H]; [congruence|]. apply (IH p) in H; auto. intros I. apply N0. now right.
  - destruct p as [|c' p]; [simpl; auto|]. inversion E; subst. exfalso. apply N0. now left.
Qed.

Lemma clean_lead a q r : clean (a ++ ch """" :: q ++ r) -> quotable q -> ascii_lead q.
Proof.
  intros C Q p b E N0. apply (C a p (b ++ r)); auto.
  - rewrite E, <- app_assoc. reflexivity.
  - now apply (quotable_lead q p b).
Qed.

Lemma clean_quoted_no_panic s : clean s -> quoted_str s <> Panic.
Proof.
  intros C H. apply quoted_str_panic in H. destruct H as [q [r [-> [Q P]]]].
  apply (clean_lead [] q) in C; auto. now apply escape_no_panic in C.
Qed.

(** ** Keys *)
Lemma is_ident_char_spec c : is_ident_char c = true <-> ident_char c.
Proof.
  unfold is_ident_char, ident_char, is_digit.
  rewrite !orb_true_iff, !andb_true_iff, !N.leb_le, !N.eqb_eq. tauto.
Qed.

Lemma pkey_sound s k r : pkey s = Ret (Some (k, r)) ->
  exists ks, s = ks ++ r /\ key_form escapes ks k.
Proof.
  unfold pkey. destruct (peek dquote s) eqn:P.
  - intros H. apply quoted_str_sound in H. destruct H as [q [-> [Q E]]].
    exists (ch """" :: q ++ [ch """"]). split.
    + simpl. now rewrite <- app_assoc.
    + now constructor.
  - rewrite substr_spec. intros H; inversion H; subst.
    exists (accepted (stateless is_ident_char) tt s). split.
    + apply accepted_rejected.
    + constructor. eapply Forall_impl; [|apply stateless_accepted]. intros c. apply is_ident_char_spec.
Qed.

Lemma pkey_complete ks k r : key_form escapes ks k ->
  (exists c r', r = c :: r' /\ ~ ident_char c /\ c <> ch """") ->
  pkey (ks ++ r) = Ret (Some (k, r)).
Proof.
  intros H [c [r' [-> [Nc Nq]]]]. unfold pkey. destruct H as [q k Q E|k F].
  - replace ((ch """" :: q ++ [ch """"]) ++ c :: r') with (ch """" :: q ++ ch """" :: c :: r')
      by (simpl; now rewrite <- app_assoc).
    change (peek dquote (ch """" :: q ++ ch """" :: c :: r')) with true. cbv iota.
    now apply quoted_str_complete.
  - assert (P : peek dquote (k ++ c :: r') = false).
    { unfold peek, peek_next. destruct k as [|c0 k]; simpl.
      - now apply N.eqb_neq.
      - inversion F; subst. apply N.eqb_neq. intros ->. apply is_ident_char_spec in H1.
        vm_compute in H1. discriminate. }
    rewrite P, substr_spec.
    destruct (stateless_app is_ident_char k (c :: r') tt) as [-> ->]; auto.
    + eapply Forall_impl; [|exact F]. intros x. apply is_ident_char_spec.
    + right. exists c, r'. split; auto. apply not_true_iff_false. now rewrite is_ident_char_spec.
Qed.

Lemma pkey_nofuel s : pkey s <> NoFuel.
Proof.
  unfold pkey. destruct (peek dquote s); [apply quoted_str_nofuel|]. now rewrite substr_spec.
Qed.
Lemma pkey_no_panic s : clean s -> pkey s <> Panic.
Proof.
  intros C. unfold pkey. destruct (peek dquote s); [now apply clean_quoted_no_panic|].
  now rewrite substr_spec.
Qed.
