(** Lemmas about text. *)
From Coq Require Import NArith ZArith Lia Bool.
From Coq Require Import List.
From Verif Require Import Res BMap Str SpecText StrProofs.
Import ListNotations.
Local Open Scope N_scope.

Ltac Zify.zify_post_hook ::= Z.div_mod_to_equations.

Lemma utf8_length c : N.of_nat (length (utf8_of c)) = utf8_len c.
Proof.
  unfold utf8_of, utf8_len.
  change 0x80 with 128. change 0x800 with 2048. change 0x10000 with 65536.
  destruct (c <? 128), (c <? 2048), (c <? 65536); reflexivity.
Qed.
Lemma utf8_app a b : utf8 (a ++ b) = utf8 a ++ utf8 b.
Proof. apply flat_map_app. Qed.
Lemma byte_len_utf8 s : byte_len s = N.of_nat (length (utf8 s)).
Proof.
  induction s as [|c s IH]; [reflexivity|]. cbn [byte_len]. rewrite IH, <- utf8_length.
  change (utf8 (c :: s)) with (utf8_of c ++ utf8 s). rewrite app_length. lia.
Qed.

Lemma utf8_nonempty c : utf8_of c <> [].
Proof. unfold utf8_of. destruct (c <? 128), (c <? 2048), (c <? 65536); discriminate. Qed.

Lemma digits c d : c < d -> c / 64 < d / 64 \/ (c / 64 = d / 64 /\ c mod 64 < d mod 64).
Proof.
  intros L. assert (A := N.div_mod' c 64). assert (B := N.div_mod' d 64).
  assert (C := N.mod_lt c 64 ltac:(discriminate)). assert (D := N.mod_lt d 64 ltac:(discriminate)).
  generalize dependent (c / 64). generalize dependent (d / 64).
  generalize dependent (c mod 64). generalize dependent (d mod 64). intros. nia.
Qed.
Lemma digits3 c d : c < d -> c / 4096 < d / 4096 \/ (c / 4096 = d / 4096 /\
  (c / 64 mod 64 < d / 64 mod 64 \/ (c / 64 mod 64 = d / 64 mod 64 /\ c mod 64 < d mod 64))).
Proof.
  intros L. change 4096 with (64 * 64). rewrite <- !N.div_div by discriminate.
  destruct (digits c d L) as [H|[H1 H2]]; [destruct (digits _ _ H); tauto|]. rewrite H1. tauto.
Qed.
Lemma digits4 c d : c < d -> c / 262144 < d / 262144 \/ (c / 262144 = d / 262144 /\
  (c / 4096 mod 64 < d / 4096 mod 64 \/ (c / 4096 mod 64 = d / 4096 mod 64 /\
  (c / 64 mod 64 < d / 64 mod 64 \/ (c / 64 mod 64 = d / 64 mod 64 /\ c mod 64 < d mod 64))))).
Proof.
  intros L. change 262144 with (4096 * 64). rewrite <- !N.div_div by discriminate.
  destruct (digits3 c d L) as [H|[H1 H2]]; [destruct (digits _ _ H); tauto|]. rewrite H1. tauto.
Qed.

Lemma utf8_less c d x y : c < d -> d < 1114112 -> bytes_before (utf8_of c ++ x) (utf8_of d ++ y).
Proof.
  intros L B. unfold utf8_of.
  destruct (N.ltb_spec c 128), (N.ltb_spec d 128); try lia.
  - now apply bb_less.
  - destruct (N.ltb_spec d 2048); [|destruct (N.ltb_spec d 65536)]; cbn [app]; apply bb_less; lia.
  - destruct (N.ltb_spec c 2048), (N.ltb_spec d 2048); try lia.
    + cbn [app]. destruct (digits c d L) as [C|[-> C]]; [apply bb_less; lia|]. apply bb_same, bb_less. lia.
    + destruct (N.ltb_spec d 65536); cbn [app]; apply bb_less; lia.
    + destruct (N.ltb_spec c 65536), (N.ltb_spec d 65536); try lia; cbn [app].
      * destruct (digits3 c d L) as [C|[-> [C|[-> C]]]]; [apply bb_less; lia|apply bb_same, bb_less; lia|apply bb_same, bb_same, bb_less; lia].
      * apply bb_less; lia.
      * destruct (digits4 c d L) as [C|[-> [C|[-> [C|[-> C]]]]]]; [apply bb_less; lia|apply bb_same, bb_less; lia
          |apply bb_same, bb_same, bb_less; lia|apply bb_same, bb_same, bb_same, bb_less; lia].
Qed.

Lemma before_app p a b : bytes_before a b -> bytes_before (p ++ a) (p ++ b).
Proof. induction p; cbn; auto using bytes_before. Qed.

Lemma before_not a b : bytes_before a b -> a <> b /\ ~ bytes_before b a.
Proof.
  induction 1 as [y b|x y a b L|x a b H [I1 I2]].
  - split; [discriminate|]. intros K. inversion K.
  - split; [intros [= -> _]; lia|]. intros K. inversion K; subst; lia.
  - split; [intros [= E]; auto|]. intros K. inversion K; subst; [lia|auto].
Qed.

Lemma ucmp_lt a : forall b, Forall (fun c => c < 1114112) a -> Forall (fun c => c < 1114112) b ->
  ucmp a b = Lt -> bytes_before (utf8 a) (utf8 b).
Proof.
  induction a as [|c a IH]; intros [|d b] Fa Fb H; try discriminate.
  - cbn. destruct (utf8_of d) eqn:E; [now destruct (utf8_nonempty d)|]. apply bb_nil.
  - cbn in H. inversion Fa; inversion Fb; subst.
    change (utf8 (c :: a)) with (utf8_of c ++ utf8 a). change (utf8 (d :: b)) with (utf8_of d ++ utf8 b).
    destruct (N.compare_spec c d) as [->|L|L]; [|now apply utf8_less|discriminate].
    apply before_app. now apply IH.
Qed.

Lemma scalar_bound c : scalar c = true -> c < 1114112.
Proof.
  unfold scalar. change 0x110000 with 1114112. change 0xD800 with 55296. change 0xDFFF with 57343.
  destruct (N.ltb_spec c 55296), (N.ltb_spec 57343 c), (N.ltb_spec c 1114112); cbn; intros; lia || discriminate.
Qed.

(** ** Splitting at a byte *)
Lemma utf8_len_pos c : 0 < utf8_len c.
Proof. unfold utf8_len. destruct (c <? 0x80), (c <? 0x800), (c <? 0x10000); lia. Qed.

Lemma split_at_byte_spec s : forall i a b, split_at_byte s i = Some (a, b) <-> s = a ++ b /\ byte_len a = i.
Proof.
  induction s as [|c s IH]; intros i a b; cbn [split_at_byte].
  - destruct (N.eqb_spec i 0) as [->|Ni].
    + split; [intros [= <- <-]; auto|]. intros [E H]. symmetry in E. apply app_eq_nil in E. destruct E as [-> ->]. reflexivity.
    + split; [discriminate|]. intros [E H]. symmetry in E. apply app_eq_nil in E. destruct E as [-> _]. cbn in H. congruence.
  - destruct (N.eqb_spec i 0) as [->|Ni].
    + split; [intros [= <- <-]; auto|]. intros [E H]. destruct a as [|x a]; [cbn in E; now subst|].
      cbn in H. assert (P := utf8_len_pos x). lia.
    + destruct (N.ltb_spec i (utf8_len c)) as [L|L].
      * split; [discriminate|]. intros [E H]. destruct a as [|x a]; [cbn in H; congruence|]. injection E as -> ->. cbn in H. lia.
      * destruct (split_at_byte s (i - utf8_len c)) as [[a' b']|] eqn:ES.
        -- apply IH in ES. destruct ES as [-> H']. split.
           ++ intros [= <- <-]. split; [reflexivity|]. cbn. lia.
           ++ intros [E H]. destruct a as [|x a]; [cbn in H; congruence|]. injection E as -> E. cbn in H.
              assert (K : split_at_byte (a ++ b) (byte_len a) = Some (a, b)).
              { specialize (IH (byte_len a) a b). rewrite E in IH. now apply IH. }
              assert (K' : split_at_byte (a ++ b) (byte_len a) = Some (a', b')).
              { specialize (IH (byte_len a) a' b'). rewrite E in IH. apply IH. split; [reflexivity|lia]. }
              rewrite K in K'. injection K' as <- <-. reflexivity.
        -- split; [discriminate|]. intros [E H]. destruct a as [|x a]; [cbn in H; congruence|]. injection E as -> E. cbn in H.
           assert (K : split_at_byte s (i - utf8_len x) = Some (a, b)) by (apply IH; split; [exact E|lia]). congruence.
Qed.

(** ** White space *)
Lemma is_ws_spec c : is_ws c = true <-> In c white_space.
Proof.
  unfold is_ws. rewrite !orb_true_iff, !andb_true_iff, !N.leb_le, !N.eqb_eq. split.
  - intros H. assert (K : c = 9 \/ c = 10 \/ c = 11 \/ c = 12 \/ c = 13 \/ c = 32 \/ c = 133 \/ c = 160 \/ c = 5760 \/
      c = 8192 \/ c = 8193 \/ c = 8194 \/ c = 8195 \/ c = 8196 \/ c = 8197 \/ c = 8198 \/ c = 8199 \/ c = 8200 \/
      c = 8201 \/ c = 8202 \/ c = 8232 \/ c = 8233 \/ c = 8239 \/ c = 8287 \/ c = 12288) by lia.
    clear H. cbn. intuition congruence.
  - intros H. cbn in H. assert (K : In c white_space) by exact H. clear H.
    repeat (destruct K as [<-|K]; [lia|]). destruct K.
Qed.

Lemma trim_start_spec s : exists w, s = w ++ trim_start s /\ all_white w /\
  (forall c r, trim_start s = c :: r -> ~ In c white_space).
Proof.
  induction s as [|c s IH]; cbn [trim_start].
  - exists []. split; [reflexivity|]. split; [constructor|]. discriminate.
  - destruct (is_ws c) eqn:E.
    + destruct IH as (w & H1 & H2 & H3). exists (c :: w). split; [cbn; now f_equal|]. split; [|exact H3].
      constructor; [now apply is_ws_spec|exact H2].
    + exists []. split; [reflexivity|]. split; [constructor|]. intros c' r [= <- <-] I. apply is_ws_spec in I. congruence.
Qed.

Lemma trim_start_keep s w : all_white w -> (forall c r, s = c :: r -> ~ In c white_space) -> trim_start (w ++ s) = s.
Proof.
  induction 1 as [|c w I F IH]; intros H; cbn [app].
  - destruct s as [|c r]; [reflexivity|]. cbn. destruct (is_ws c) eqn:E; [|reflexivity].
    apply is_ws_spec in E. now destruct (H c r eq_refl).
  - cbn. apply is_ws_spec in I. rewrite I. auto.
Qed.

Lemma trim_spec s t : trim s = t <->
  exists w1 w2, s = w1 ++ t ++ w2 /\ all_white w1 /\ all_white w2 /\
    (forall c r, t = c :: r -> ~ In c white_space) /\ (forall c r, t = r ++ [c] -> ~ In c white_space).
Proof.
  assert (K : forall s, exists w1 w2, s = w1 ++ trim s ++ w2 /\ all_white w1 /\ all_white w2 /\
    (forall c r, trim s = c :: r -> ~ In c white_space) /\ (forall c r, trim s = r ++ [c] -> ~ In c white_space)).
  { clear s t. intros s. destruct (trim_start_spec s) as (w1 & E1 & W1 & H1).
    destruct (trim_start_spec (rev (trim_start s))) as (w2 & E2 & W2 & H2).
    assert (ET : trim_start s = trim s ++ rev w2).
    { unfold trim, trim_end. apply (f_equal (@rev _)) in E2. rewrite rev_involutive, rev_app_distr in E2. exact E2. }
    exists w1, (rev w2). split; [congruence|]. split; [exact W1|]. split; [apply Forall_rev; exact W2|]. split.
    - intros c r E. rewrite E in ET. now apply (H1 c (r ++ rev w2)).
    - intros c r E. unfold trim, trim_end in E. apply (f_equal (@rev _)) in E. rewrite rev_involutive, rev_app_distr in E.
      now apply (H2 c (rev r)). }
  split; [intros <-; apply K|]. intros (w1 & w2 & -> & W1 & W2 & H1 & H2).
  destruct t as [|c t'] eqn:Et.
  - (* everything is white *)
    cbn [app]. destruct (K (w1 ++ w2)) as (v1 & v2 & E & _ & _ & K1 & _). destruct (trim (w1 ++ w2)) as [|c r] eqn:ET; [reflexivity|].
    exfalso. apply (K1 c r eq_refl). assert (F : all_white (w1 ++ w2)) by (apply Forall_app; auto).
    rewrite E in F. unfold all_white in F. rewrite Forall_forall in F. apply F. apply in_or_app. right. now left.
  - rewrite <- Et in *. unfold trim. rewrite trim_start_keep; [|exact W1|].
    + unfold trim_end. rewrite rev_app_distr, trim_start_keep; [apply rev_involutive|now apply Forall_rev|].
      intros d r E. apply (H2 d (rev r)). rewrite <- (rev_involutive t), E. reflexivity.
    + intros d r E. rewrite Et in E. cbn in E. injection E as <- _. apply (H1 c t'). exact Et.
Qed.

(** ** Case *)
Lemma lower_c_spec c : (forall l, In (c, l) letters -> lower_c c = l) /\
  ((forall l, ~ In (c, l) letters) -> lower_c c = c).
Proof.
  split.
  - intros l H. cbn in H. assert (K : In (c, l) letters) by exact H. clear H.
    repeat (destruct K as [[= <- <-]|K]; [reflexivity|]). destruct K.
  - intros H. unfold lower_c. destruct (N.leb_spec 65 c), (N.leb_spec c 90); try reflexivity. cbn [andb].
    exfalso. assert (K : c = 65 \/ c = 66 \/ c = 67 \/ c = 68 \/ c = 69 \/ c = 70 \/ c = 71 \/ c = 72 \/ c = 73 \/
      c = 74 \/ c = 75 \/ c = 76 \/ c = 77 \/ c = 78 \/ c = 79 \/ c = 80 \/ c = 81 \/ c = 82 \/ c = 83 \/ c = 84 \/
      c = 85 \/ c = 86 \/ c = 87 \/ c = 88 \/ c = 89 \/ c = 90) by lia.
    apply (H (c + 32)). cbn.
    repeat (destruct K as [->|K]; [cbn; tauto|]). subst c. cbn. tauto.
Qed.
Lemma upper_c_spec c : (forall u, In (u, c) letters -> upper_c c = u) /\
  ((forall u, ~ In (u, c) letters) -> upper_c c = c).
Proof.
  split.
  - intros l H. cbn in H. assert (K : In (l, c) letters) by exact H. clear H.
    repeat (destruct K as [[= <- <-]|K]; [reflexivity|]). destruct K.
  - intros H. unfold upper_c. destruct (N.leb_spec 97 c), (N.leb_spec c 122); try reflexivity. cbn [andb].
    exfalso. assert (K : c = 97 \/ c = 98 \/ c = 99 \/ c = 100 \/ c = 101 \/ c = 102 \/ c = 103 \/ c = 104 \/ c = 105 \/
      c = 106 \/ c = 107 \/ c = 108 \/ c = 109 \/ c = 110 \/ c = 111 \/ c = 112 \/ c = 113 \/ c = 114 \/ c = 115 \/ c = 116 \/
      c = 117 \/ c = 118 \/ c = 119 \/ c = 120 \/ c = 121 \/ c = 122) by lia.
    apply (H (c - 32)). cbn.
    repeat (destruct K as [->|K]; [cbn; tauto|]). subst c. cbn. tauto.
Qed.

(** ** Occurrences *)
Lemma strip_prefix_app p s r : strip_prefix p s = Some r <-> s = p ++ r.
Proof.
  revert s. induction p as [|x p IH]; intros s; cbn; [split; congruence|].
  destruct s as [|y s]; [split; discriminate|]. destruct (N.eqb_spec x y) as [->|N].
  - rewrite IH. split; congruence.
  - split; [discriminate|]. intros [= ->]. congruence.
Qed.

Lemma replace_go_cut pat to : pat <> [] -> forall n s, (length s <= n)%nat ->
  exists l, cut pat s l /\ replace_go n pat to s = join to l /\ l <> [].
Proof.
  intros NP. induction n as [|n IH]; intros s L.
  - destruct s; [|cbn in L; lia]. exists [[]]. split; [|split; [reflexivity|discriminate]].
    apply cut_end. intros a [b E]. symmetry in E. apply app_eq_nil in E. destruct E as [_ E].
    apply app_eq_nil in E. destruct E as [E _]. contradiction.
  - cbn [replace_go]. destruct s as [|c s].
    + exists [[]]. split; [|split; [reflexivity|discriminate]]. apply cut_end. intros a [b E]. symmetry in E.
      apply app_eq_nil in E. destruct E as [_ E]. apply app_eq_nil in E. destruct E as [E _]. contradiction.
    + destruct (strip_prefix pat (c :: s)) as [r|] eqn:E.
      * apply strip_prefix_app in E. assert (Lr : (length r <= n)%nat).
        { assert (EL := f_equal (@length _) E). rewrite app_length in EL. destruct pat as [|x pat]; [contradiction|]. cbn in EL, L. lia. }
        destruct (IH r Lr) as (l & C & RL & NL). exists ([] :: l). split; [|split; [|discriminate]].
        -- rewrite E. change (pat ++ r) with ([] ++ pat ++ r). apply cut_at; [cbn; intros; lia|exact C].
        -- rewrite RL. destruct l; [contradiction|]. reflexivity.
      * destruct (IH s ltac:(cbn in L; lia)) as (l & C & RL & NL).
        assert (NH : forall b, c :: s <> pat ++ b) by (intros b EB; apply strip_prefix_app in EB; congruence).
        inversion C as [s' H Es El|a b l' H C' Es El]; subst.
        -- exists [c :: s]. split; [|split; [rewrite RL; reflexivity|discriminate]]. apply cut_end. intros a [b EB].
           destruct a as [|x a]; [now apply (NH b)|]. injection EB as -> EB. apply (H a). now exists b.
        -- exists ((c :: a) :: l'). split; [|split; [|discriminate]].
           ++ change (c :: a ++ pat ++ b) with ((c :: a) ++ pat ++ b). apply cut_at; [|exact C'].
              intros a' [b' EB]. destruct a' as [|x a']; [now destruct (NH b')|]. cbn. injection EB as -> EB.
              apply le_n_S. apply H. now exists b'.
           ++ rewrite RL. assert (l' <> []) by (inversion C'; discriminate). destruct l'; [contradiction|]. reflexivity.
Qed.

Lemma app_same_length {A} (a a' b b' : list A) : a ++ b = a' ++ b' -> length a = length a' -> a = a' /\ b = b'.
Proof.
  revert a'. induction a as [|x a IH]; intros [|x' a'] E L; cbn in *; try discriminate; auto.
  injection E as -> E. destruct (IH a' E ltac:(lia)) as [-> ->]. auto.
Qed.

Lemma cut_fun pat s l : cut pat s l -> forall l', cut pat s l' -> l = l'.
Proof.
  induction 1 as [s H|a b l H C IH]; intros l' C'.
  - inversion C' as [|a b l0 H' C0 E]; subst; [reflexivity|]. destruct (H a). now exists b.
  - inversion C' as [s H'|a' b' l0 H' C0 E]; subst; [destruct (H' a); now exists b|].
    assert (EA : a' = a /\ pat ++ b' = pat ++ b).
    { apply app_same_length; [exact E|]. apply PeanoNat.Nat.le_antisymm.
      - apply H'. exists b. exact E.
      - apply H. exists b'. now symmetry. }
    destruct EA as [-> EB]. apply app_inv_head in EB. subst b'. f_equal. now apply IH.
Qed.

Lemma replace_cut pat to s : pat <> [] -> exists l, cut pat s l /\ replace pat to s = join to l.
Proof.
  intros NP. destruct (replace_go_cut pat to NP (length s) s (le_n _)) as (l & C & E & _). exists l. split; [exact C|].
  unfold replace. destruct pat; [contradiction|exact E].
Qed.

Lemma replace_empty to s : replace [] to s = to ++ flat_map (fun c => c :: to) s.
Proof. reflexivity. Qed.

Lemma lowered_lower a b : lowered a b <-> lower a = b.
Proof.
  split.
  - induction 1 as [|c d a b H F IH]; [reflexivity|]. cbn. f_equal; [|exact IH].
    destruct H as [H|[<- H]]; now apply (lower_c_spec c).
  - intros <-. unfold lower. induction a as [|c a IH]; [constructor|]. constructor; [|exact IH].
    destruct (in_dec N.eq_dec c (map fst letters)) as [I|I].
    + left. apply in_map_iff in I. destruct I as [[c' l] [<- I]]. cbn [fst].
      destruct (lower_c_spec c') as [K _]. now rewrite (K l I).
    + right. assert (K : forall l, ~ In (c, l) letters) by (intros l J; apply I; apply in_map_iff; now exists (c, l)).
      split; [|exact K]. symmetry. now apply (lower_c_spec c).
Qed.

Lemma small_fixed u c : In (u, c) letters -> lower_c c = c.
Proof.
  intros K. cbn in K. assert (K' : In (u, c) letters) by exact K. clear K.
  repeat (destruct K' as [[= <- <-]|K']; [reflexivity|]). destruct K'.
Qed.
Lemma alike_lower a b : alike a b -> lower a = lower b.
Proof.
  induction 1 as [|c d a b H F IH]; [reflexivity|]. cbn. f_equal; [|exact IH].
  destruct H as [->|[H|H]]; [reflexivity| |].
  - rewrite (small_fixed c d H). now apply (lower_c_spec c).
  - rewrite (small_fixed d c H). symmetry. now apply (lower_c_spec d).
Qed.

Lemma cut_forall (Q : uchar -> Prop) pat s l : cut pat s l -> Forall Q s -> Forall (Forall Q) l.
Proof.
  induction 1 as [s H|a b l H C IH]; intros F; [auto|].
  rewrite !Forall_app in F. constructor; [apply F|]. apply IH, F.
Qed.
Lemma cut_nonnil pat s l : cut pat s l -> l <> [].
Proof. destruct 1; discriminate. Qed.

Lemma join_forall (Q : uchar -> Prop) sep l : Forall Q sep -> Forall (Forall Q) l -> Forall Q (join sep l).
Proof.
  intros FS. induction 1 as [|x r Fx Fr IH]; [constructor|]. destruct r as [|y r]; [exact Fx|].
  cbn [join]. rewrite !Forall_app. auto.
Qed.

Lemma trim_none s : Forall (fun c => ~ In c white_space) s -> trim s = s.
Proof.
  intros F. apply trim_spec. exists [], []. rewrite app_nil_r. cbn. repeat split; try constructor.
  - intros c r ->. now inversion F.
  - intros c r ->. apply Forall_app in F. destruct F as [_ F]. now inversion F.
Qed.
Lemma trim_around w1 w2 s : all_white w1 -> all_white w2 -> Forall (fun c => ~ In c white_space) s ->
  trim (w1 ++ s ++ w2) = s.
Proof.
  intros W1 W2 F. apply trim_spec. exists w1, w2. repeat split; auto.
  - intros c r ->. now inversion F.
  - intros c r ->. apply Forall_app in F. destruct F as [_ F]. now inversion F.
Qed.

Lemma lower_join sep l : lower (join sep l) = join (lower sep) (map lower l).
Proof.
  unfold lower. induction l as [|x r IH]; [reflexivity|]. destruct r as [|y r]; [reflexivity|].
  change (join sep (x :: y :: r)) with (x ++ sep ++ join sep (y :: r)). rewrite !map_app, IH. reflexivity.
Qed.
