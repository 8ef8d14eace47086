(** Lossy conversion of bytes to text. *)
From Coq Require Import NArith ZArith Bool Lia.
From Coq Require Import List.
From Verif Require Import Res BMap Str Profile Env OsText SpecText SpecOsText.
Import ListNotations.
Local Open Scope N_scope.
Ltac Zify.zify_post_hook ::= Z.to_euclidean_division_equations.

Lemma continues_spec b : continues b = true <-> 128 <= b < 192.
Proof. unfold continues. rewrite andb_true_iff, N.leb_le, N.ltb_lt. tauto. Qed.

Lemma second_spec a b : second_fits a b = true <->
  128 <= b < 192 /\ (a = 224 -> 160 <= b) /\ (a = 237 -> b < 160) /\ (a = 240 -> 144 <= b) /\ (a = 244 -> b < 144).
Proof.
  unfold second_fits, continues.
  destruct (N.eqb_spec a 224); [rewrite andb_true_iff, N.leb_le, N.ltb_lt; lia|].
  destruct (N.eqb_spec a 237); [rewrite andb_true_iff, N.leb_le, N.ltb_lt; lia|].
  destruct (N.eqb_spec a 240); [rewrite andb_true_iff, N.leb_le, N.ltb_lt; lia|].
  destruct (N.eqb_spec a 244); rewrite andb_true_iff, N.leb_le, N.ltb_lt; lia.
Qed.

Lemma width_spec a : char_width a =
  if a <? 128 then 1 else if a <? 194 then 0 else if a <? 224 then 2 else if a <? 240 then 3 else if a <? 245 then 4 else 0.
Proof. reflexivity. Qed.

(** The encodings, by the number of bytes. *)
Inductive encoding : uchar -> list N -> Prop :=
| en1 c : c < 128 -> encoding c [c]
| en2 c a b : 194 <= a < 224 -> 128 <= b < 192 -> c = (a - 192) * 64 + (b - 128) -> encoding c [a; b]
| en3 c a b d : 224 <= a < 240 -> second_fits a b = true -> 128 <= d < 192 ->
    c = (a - 224) * 4096 + (b - 128) * 64 + (d - 128) -> encoding c [a; b; d]
| en4 c a b d e : 240 <= a < 245 -> second_fits a b = true -> 128 <= d < 192 -> 128 <= e < 192 ->
    c = (a - 240) * 262144 + (b - 128) * 4096 + (d - 128) * 64 + (e - 128) -> encoding c [a; b; d; e].

Lemma encoding_utf8 c bs : encoding c bs -> character c /\ utf8_of c = bs.
Proof.
  unfold character, utf8_of. intros [c' H|c' a b A B ->|c' a b d A S D ->|c' a b d e A S D E ->].
  - split; [lia|]. destruct (N.ltb_spec c' 128); [reflexivity|lia].
  - split; [lia|]. destruct (N.ltb_spec ((a - 192) * 64 + (b - 128)) 128); [lia|].
    destruct (N.ltb_spec ((a - 192) * 64 + (b - 128)) 2048); [|lia]. repeat f_equal; lia.
  - apply second_spec in S. split; [lia|].
    set (x := (a - 224) * 4096 + (b - 128) * 64 + (d - 128)).
    assert (X : x = (a - 224) * 4096 + (b - 128) * 64 + (d - 128)) by reflexivity. clearbody x.
    destruct (N.ltb_spec x 128); [lia|]. destruct (N.ltb_spec x 2048); [lia|]. destruct (N.ltb_spec x 65536); [|lia]. repeat f_equal; lia.
  - apply second_spec in S. split; [lia|].
    set (x := (a - 240) * 262144 + (b - 128) * 4096 + (d - 128) * 64 + (e - 128)).
    assert (X : x = (a - 240) * 262144 + (b - 128) * 4096 + (d - 128) * 64 + (e - 128)) by reflexivity. clearbody x.
    destruct (N.ltb_spec x 128); [lia|]. destruct (N.ltb_spec x 2048); [lia|]. destruct (N.ltb_spec x 65536); [lia|]. repeat f_equal; lia.
Qed.

Lemma utf8_encoding c : character c -> encoding c (utf8_of c).
Proof.
  unfold character, utf8_of. intros H. destruct (N.ltb_spec c 128); [now constructor|].
  destruct (N.ltb_spec c 2048); [apply en2; lia|]. destruct (N.ltb_spec c 65536).
  - apply en3; [lia| |lia|lia]. apply second_spec. lia.
  - apply en4; [lia| |lia|lia|lia]. apply second_spec. lia.
Qed.

(** Only whole pieces: no more arithmetic from here on. *)
Ltac widths := repeat match goal with
  | |- context [char_width ?a =? ?n] => destruct (N.eqb_spec (char_width a) n)
  | H : context [char_width ?a =? ?n] |- _ => destruct (N.eqb_spec (char_width a) n)
  end.
Lemma width1 a : char_width a = 1 <-> a < 128.
Proof. unfold char_width. destruct (N.ltb_spec a 128), (N.ltb_spec a 194), (N.ltb_spec a 224), (N.ltb_spec a 240), (N.ltb_spec a 245); lia. Qed.
Lemma width2 a : char_width a = 2 <-> 194 <= a < 224.
Proof. unfold char_width. destruct (N.ltb_spec a 128), (N.ltb_spec a 194), (N.ltb_spec a 224), (N.ltb_spec a 240), (N.ltb_spec a 245); lia. Qed.
Lemma width3 a : char_width a = 3 <-> 224 <= a < 240.
Proof. unfold char_width. destruct (N.ltb_spec a 128), (N.ltb_spec a 194), (N.ltb_spec a 224), (N.ltb_spec a 240), (N.ltb_spec a 245); lia. Qed.
Lemma width4 a : char_width a = 4 <-> 240 <= a < 245.
Proof. unfold char_width. destruct (N.ltb_spec a 128), (N.ltb_spec a 194), (N.ltb_spec a 224), (N.ltb_spec a 240), (N.ltb_spec a 245); lia. Qed.

Lemma next_encoding c bs r : encoding c bs -> next_char (bs ++ r) = (Some c, r).
Proof.
  intros [c' H|c' a b A B ->|c' a b d A S D ->|c' a b d e A S D E ->]; cbn [app next_char].
  - apply width1 in H. now rewrite H.
  - apply width2 in A. rewrite A. cbn. apply continues_spec in B. now rewrite B.
  - apply width3 in A. rewrite A. cbn. apply continues_spec in D. now rewrite S, D.
  - apply width4 in A. rewrite A. cbn. apply continues_spec in D, E. now rewrite S, D, E.
Qed.

Lemma next_some bs c r : next_char bs = (Some c, r) -> exists e, encoding c e /\ bs = e ++ r.
Proof.
  destruct bs as [|a bs]; cbn [next_char]; [discriminate|].
  destruct (N.eqb_spec (char_width a) 1) as [W|_].
  { intros [= <- <-]. apply width1 in W. exists [a]. split; [now constructor|reflexivity]. }
  destruct (N.eqb_spec (char_width a) 2) as [W|_].
  { apply width2 in W. destruct bs as [|b bs]; [discriminate|]. destruct (continues b) eqn:B; [|discriminate]. intros [= <- <-].
    apply continues_spec in B. exists [a; b]. split; [now apply en2|reflexivity]. }
  destruct (N.eqb_spec (char_width a) 3) as [W|_].
  { apply width3 in W. destruct bs as [|b bs]; [discriminate|]. destruct (second_fits a b) eqn:S; [|discriminate].
    destruct bs as [|d bs]; [discriminate|]. destruct (continues d) eqn:D; [|discriminate]. intros [= <- <-].
    apply continues_spec in D. exists [a; b; d]. split; [now apply en3|reflexivity]. }
  destruct (N.eqb_spec (char_width a) 4) as [W|_]; [|discriminate].
  apply width4 in W. destruct bs as [|b bs]; [discriminate|]. destruct (second_fits a b) eqn:S; [|discriminate].
  destruct bs as [|d bs]; [discriminate|]. destruct (continues d) eqn:D; [|discriminate].
  destruct bs as [|e bs]; [discriminate|]. destruct (continues e) eqn:E; [|discriminate]. intros [= <- <-].
  apply continues_spec in D, E. exists [a; b; d; e]. split; [now apply en4|reflexivity].
Qed.

(** *** Beginnings *)
Lemma incomplete_enc p : incomplete p <-> exists c q, encoding c (p ++ q) /\ q <> [].
Proof.
  split.
  - intros (c & q & C & E & Q). exists c, q. split; [|exact Q]. rewrite <- E. now apply utf8_encoding.
  - intros (c & q & E & Q). apply encoding_utf8 in E. exists c, q. tauto.
Qed.

Lemma incomplete1 a : incomplete [a] <-> 194 <= a < 245.
Proof.
  rewrite incomplete_enc. split.
  - intros (c & q & E & Q). cbn [app] in E. inversion E; subst; try lia. now destruct Q.
  - intros H. destruct (N.ltb_spec a 224); [|destruct (N.ltb_spec a 240)].
    + exists ((a - 192) * 64 + (128 - 128)), [128]. split; [apply en2; lia|discriminate].
    + exists ((a - 224) * 4096 + ((if a =? 224 then 160 else 128) - 128) * 64 + (128 - 128)), [(if a =? 224 then 160 else 128); 128].
      split; [|discriminate]. apply en3; try lia. apply second_spec. destruct (N.eqb_spec a 224); lia.
    + exists ((a - 240) * 262144 + ((if a =? 240 then 144 else 128) - 128) * 4096 + (128 - 128) * 64 + (128 - 128)), [(if a =? 240 then 144 else 128); 128; 128].
      split; [|discriminate]. apply en4; try lia. apply second_spec. destruct (N.eqb_spec a 240); lia.
Qed.

Lemma incomplete2 a b : incomplete [a; b] <-> 224 <= a < 245 /\ second_fits a b = true.
Proof.
  rewrite incomplete_enc. split.
  - intros (c & q & E & Q). cbn [app] in E. inversion E; subst; try (split; [lia|assumption]). now destruct Q.
  - intros [H S]. destruct (N.ltb_spec a 240).
    + exists ((a - 224) * 4096 + (b - 128) * 64 + (128 - 128)), [128]. split; [|discriminate]. apply en3; auto; lia.
    + exists ((a - 240) * 262144 + (b - 128) * 4096 + (128 - 128) * 64 + (128 - 128)), [128; 128].
      split; [|discriminate]. apply en4; auto; lia.
Qed.

Lemma incomplete3 a b d : incomplete [a; b; d] <-> 240 <= a < 245 /\ second_fits a b = true /\ 128 <= d < 192.
Proof.
  rewrite incomplete_enc. split.
  - intros (c & q & E & Q). cbn [app] in E. inversion E; subst; try (repeat split; (lia || assumption)). now destruct Q.
  - intros (H & S & D).
    exists ((a - 240) * 262144 + (b - 128) * 4096 + (d - 128) * 64 + (128 - 128)), [128]. split; [|discriminate]. apply en4; auto; lia.
Qed.

Lemma incomplete4 a b d e r : ~ incomplete (a :: b :: d :: e :: r).
Proof.
  rewrite incomplete_enc. intros (c & q & E & Q). cbn [app] in E.
  assert (L : forall c bs, encoding c bs -> (length bs <= 4)%nat) by (intros ? ? []; cbn [length]; lia).
  apply L in E. cbn [length] in E. rewrite app_length in E. destruct q; [now destruct Q|cbn [length] in E; lia].
Qed.

Lemma incomplete_prefix p q : incomplete (p ++ q) -> incomplete p.
Proof.
  intros (c & r & C & E & R). exists c, (q ++ r). split; [exact C|]. rewrite app_assoc. split; [exact E|].
  intros X. apply app_eq_nil in X. tauto.
Qed.

Lemma next_none a bs r : next_char (a :: bs) = (None, r) ->
  exists p, bs = p ++ r /\ (p = [] \/ incomplete (a :: p)) /\ (forall b r', r = b :: r' -> ~ incomplete (a :: p ++ [b])).
Proof.
  cbn [next_char]. 
  destruct (N.eqb_spec (char_width a) 1) as [W|N1]; [discriminate|].
  destruct (N.eqb_spec (char_width a) 2) as [W|N2].
  { apply width2 in W. intros H. exists []. split.
    - destruct bs as [|b bs]; [now injection H as <-|]. destruct (continues b); [discriminate|now injection H as <-].
    - split; [now left|]. intros b r' -> I. cbn [app] in I. apply incomplete2 in I. lia. }
  destruct (N.eqb_spec (char_width a) 3) as [W|N3].
  { apply width3 in W. destruct bs as [|b bs].
    { intros [= <-]. exists []. split; [reflexivity|]. split; [now left|discriminate]. }
    destruct (second_fits a b) eqn:S.
    - intros H. exists [b]. split; [|split].
      + destruct bs as [|d bs]; [now injection H as <-|]. destruct (continues d); [discriminate|now injection H as <-].
      + right. apply incomplete2. split; [lia|exact S].
      + intros d r' -> I. cbn [app] in I. apply incomplete3 in I. lia.
    - intros [= <-]. exists []. split; [reflexivity|]. split; [now left|]. intros b' r' [= <- <-] I. cbn [app] in I. apply incomplete2 in I. destruct I. congruence. }
  destruct (N.eqb_spec (char_width a) 4) as [W|N4].
  { apply width4 in W. destruct bs as [|b bs].
    { intros [= <-]. exists []. split; [reflexivity|]. split; [now left|discriminate]. }
    destruct (second_fits a b) eqn:S.
    - destruct bs as [|d bs].
      { intros [= <-]. exists [b]. split; [reflexivity|]. split; [right; apply incomplete2; split; [lia|exact S]|discriminate]. }
      destruct (continues d) eqn:D.
      + apply continues_spec in D. intros H. exists [b; d]. split; [|split].
        * destruct bs as [|e bs]; [now injection H as <-|]. destruct (continues e); [discriminate|now injection H as <-].
        * right. apply incomplete3. auto.
        * intros e r' -> I. cbn [app] in I. exact (incomplete4 _ _ _ _ _ I).
      + intros [= <-]. exists [b]. split; [reflexivity|]. split; [right; apply incomplete2; split; [lia|exact S]|].
        intros d' r' [= <- <-] I. cbn [app] in I. apply incomplete3 in I. destruct I as (_ & _ & I). apply continues_spec in I. congruence.
    - intros [= <-]. exists []. split; [reflexivity|]. split; [now left|]. intros b' r' [= <- <-] I. cbn [app] in I. apply incomplete2 in I. destruct I. congruence. }
  intros [= <-]. exists []. split; [reflexivity|]. split; [now left|]. intros b r' _ I.
  change (a :: [] ++ [b]) with ([a] ++ [b]) in I. apply incomplete_prefix, incomplete1 in I.
  assert (X1 := width2 a). assert (X2 := width3 a). assert (X3 := width4 a). clear - I N2 N3 N4 X1 X2 X3.
  destruct (N.ltb_spec a 224); [apply N2, X1; lia|]. destruct (N.ltb_spec a 240); [apply N3, X2; lia|]. apply N4, X3. lia.
Qed.

Lemma next_shorter a bs c r : next_char (a :: bs) = (c, r) -> (length r <= length bs)%nat.
Proof.
  destruct c as [c|]; intros H.
  - apply next_some in H. destruct H as (e & E & H). apply (f_equal (@length N)) in H. rewrite app_length in H. cbn [length] in H.
    assert (length e <> 0)%nat by (inversion E; discriminate). lia.
  - apply next_none in H. destruct H as (p & -> & _). rewrite app_length. lia.
Qed.

(** *** The loop *)
Lemma loop_step n a bs c r : next_char (a :: bs) = (c, r) ->
  lossy_loop (S n) (a :: bs) = match c with Some c => c | None => replacement end :: lossy_loop n r.
Proof. intros H. cbn [lossy_loop]. now rewrite H. Qed.

Lemma loop_enough n : forall m bs, (length bs <= n)%nat -> (length bs <= m)%nat -> lossy_loop n bs = lossy_loop m bs.
Proof.
  induction n as [|n IH]; intros [|m] [|a bs] A B; cbn [length] in *; try lia; try reflexivity.
  destruct (next_char (a :: bs)) as [c r] eqn:E. assert (L := next_shorter _ _ _ _ E).
  rewrite (loop_step n _ _ _ _ E), (loop_step m _ _ _ _ E). f_equal. apply IH; lia.
Qed.

Lemma lossy_step a bs c r : next_char (a :: bs) = (c, r) ->
  to_string_lossy (a :: bs) = match c with Some c => c | None => replacement end :: to_string_lossy r.
Proof.
  intros H. unfold to_string_lossy. cbn [length]. rewrite (loop_step _ _ _ _ _ H). f_equal.
  apply loop_enough; [exact (next_shorter _ _ _ _ H)|lia].
Qed.

Lemma lossy_decoded bs : forall s, to_string_lossy bs = s <-> decoded bs s.
Proof.
  assert (D : forall n bs, (length bs <= n)%nat -> decoded bs (to_string_lossy bs)).
  { induction n as [|n IH]; intros [|a l] L; cbn [length] in L; try lia; try constructor.
    destruct (next_char (a :: l)) as [c r] eqn:E. assert (LR := next_shorter _ _ _ _ E). rewrite (lossy_step _ _ _ _ E).
    assert (X := IH r ltac:(lia)). destruct c as [c|].
    - apply next_some in E. destruct E as (e & E & ->). apply encoding_utf8 in E. destruct E as [C <-]. now constructor.
    - assert (NC : forall c r', character c -> a :: l <> utf8_of c ++ r').
      { intros c r' C H. rewrite H, (next_encoding _ _ _ (utf8_encoding c C)) in E. discriminate. }
      apply next_none in E. destruct E as (p & -> & P1 & P2). now constructor. }
  intros s. split; [intros <-; exact (D (length bs) bs (le_n _))|].
  induction 1 as [|c r s C H IH|a p r s NC P1 P2 H IH]; [reflexivity| |].
  - destruct (utf8_of c ++ r) as [|a l] eqn:E.
    { exfalso. assert (X := utf8_encoding c C). apply app_eq_nil in E. destruct E as [E _]. rewrite E in X. inversion X. }
    assert (N := next_encoding _ _ r (utf8_encoding c C)). rewrite E in N. rewrite (lossy_step _ _ _ _ N), IH. reflexivity.
  - destruct (next_char (a :: p ++ r)) as [c r0] eqn:E. destruct c as [c|].
    { exfalso. apply next_some in E. destruct E as (e & E & X). apply encoding_utf8 in E. destruct E as [C <-]. exact (NC c r0 C X). }
    rewrite (lossy_step _ _ _ _ E). change replacement with 65533. f_equal.
    apply next_none in E. destruct E as (p0 & EP & Q1 & Q2).
    assert (p = p0 /\ r = r0) as [_ <-]; [|exact IH].
    clear - EP P1 P2 Q1 Q2. 
    assert (G : forall (x y : list N) p0 p1 q, x ++ p0 = y ++ p1 -> p0 = q ++ p1 -> y = x ++ q).
    { intros x y p2 p3 q E1 E2. subst p2. rewrite app_assoc in E1. now apply app_inv_tail in E1. }
    assert (L : forall (x y u v : list N), x ++ u = y ++ v -> (exists z, y = x ++ z /\ u = z ++ v) \/ (exists z, x = y ++ z /\ v = z ++ u)).
    { induction x as [|h x IHx]; intros y u v E.
      - left. exists y. auto.
      - destruct y as [|h' y]; [right; exists (h :: x); auto|]. cbn [app] in E. injection E as -> E.
        destruct (IHx y u v E) as [(z & -> & ->)|(z & -> & ->)]; [left|right]; exists z; auto. }
    destruct (L _ _ _ _ EP) as [(z & -> & ->)|(z & -> & ->)].
    + destruct z as [|b z]; [rewrite app_nil_r; auto|]. exfalso. apply (P2 b (z ++ r0)); [reflexivity|].
      destruct Q1 as [Q1|Q1]; [destruct p; discriminate|]. apply (incomplete_prefix _ z). cbn [app]. rewrite <- app_assoc. exact Q1.
    + destruct z as [|b z]; [rewrite app_nil_r; auto|]. exfalso. apply (Q2 b (z ++ r)); [reflexivity|].
      destruct P1 as [P1|P1]; [destruct p0; discriminate|]. apply (incomplete_prefix _ z). cbn [app]. rewrite <- app_assoc. exact P1.
Qed.

(** *** Consequences *)
Lemma lossy_char c b : character c -> to_string_lossy (utf8_of c ++ b) = c :: to_string_lossy b.
Proof. intros C. apply lossy_decoded. constructor; [exact C|]. now apply lossy_decoded. Qed.

Lemma lossy_text s b : Forall character s -> to_string_lossy (utf8 s ++ b) = s ++ to_string_lossy b.
Proof.
  induction 1 as [|c s C _ IH]; [reflexivity|]. unfold utf8 in *. cbn [flat_map app]. rewrite <- app_assoc.
  rewrite (lossy_char _ _ C), IH. reflexivity.
Qed.

Lemma lossy_valid s : Forall character s -> to_string_lossy (utf8 s) = s.
Proof. intros F. rewrite <- (app_nil_r (utf8 s)), (lossy_text s [] F). apply app_nil_r. Qed.

Lemma lossy_chars bs : Forall character (to_string_lossy bs).
Proof.
  assert (D := proj1 (lossy_decoded bs _) eq_refl). revert D. generalize (to_string_lossy bs). intros s.
  induction 1; constructor; auto. right. lia.
Qed.

Lemma lossy_faithful bs : ~ In 65533 (to_string_lossy bs) -> utf8 (to_string_lossy bs) = bs.
Proof.
  assert (D := proj1 (lossy_decoded bs _) eq_refl). revert D. generalize (to_string_lossy bs). intros s.
  induction 1 as [|c r s C H IH|a p r s NC P1 P2 H IH]; intros N; [reflexivity| |].
  - unfold utf8 in *. cbn [flat_map]. f_equal. apply IH. intros I. apply N. now right.
  - destruct N. now left.
Qed.

Lemma lossy_nil bs : to_string_lossy bs = [] <-> bs = [].
Proof.
  split; [|now intros ->]. destruct bs as [|a bs]; [reflexivity|].
  destruct (next_char (a :: bs)) as [c r] eqn:E. rewrite (lossy_step _ _ _ _ E). discriminate.
Qed.

Lemma split_two (x y u v : list N) : x ++ u = y ++ v -> (exists z, y = x ++ z /\ u = z ++ v) \/ (exists z, x = y ++ z /\ v = z ++ u).
Proof.
  revert y. induction x as [|h x IHx]; intros y E.
  - left. exists y. auto.
  - destruct y as [|h' y]; [right; exists (h :: x); auto|]. cbn [app] in E. injection E as -> E.
    destruct (IHx y E) as [(z & -> & ->)|(z & -> & ->)]; [left|right]; exists z; auto.
Qed.

Lemma tail_continues c a l : encoding c (a :: l) -> Forall (fun b => 128 <= b < 192) l.
Proof.
  assert (S2 : forall a b, second_fits a b = true -> 128 <= b < 192).
  { intros a' b H. apply second_spec in H. lia. }
  intros E. inversion E; subst; repeat constructor; try lia; match goal with H : second_fits _ _ = true |- _ => apply S2 in H; lia end.
Qed.

(** A byte that continues nothing begins anew. *)
Lemma lossy_boundary a x b : ~ (128 <= x < 192) -> to_string_lossy (a ++ x :: b) = to_string_lossy a ++ to_string_lossy (x :: b).
Proof.
  intros X. assert (D := proj1 (lossy_decoded a _) eq_refl). revert D. generalize (to_string_lossy a). intros s.
  intros D. apply lossy_decoded. induction D as [|c r s C H IH|y p r s NC P1 P2 H IH].
  - now apply lossy_decoded.
  - rewrite <- app_assoc. cbn [app]. now constructor.
  - cbn [app]. rewrite <- app_assoc. constructor; auto.
    + intros c r' C E. change (y :: p ++ r ++ x :: b) with ((y :: p) ++ r ++ x :: b) in E. rewrite app_assoc in E.
      destruct (split_two _ _ _ _ E) as [(z & E1 & E2)|(z & E1 & E2)].
      * destruct z as [|z0 z]; [rewrite app_nil_r in E1; apply (NC c [] C); rewrite app_nil_r; symmetry; exact E1|].
        injection E2 as <- E2. assert (EN := utf8_encoding c C). rewrite E1 in EN. cbn [app] in EN.
        apply tail_continues in EN. apply Forall_app in EN. destruct EN as [_ EN]. inversion EN; subst. contradiction.
      * apply (NC c z C). exact E1.
    + intros b0 r' E. destruct r as [|r0 r]; cbn [app] in E.
      * injection E as <- <-. intros I. apply incomplete_enc in I. destruct I as (c & q & I & _). cbn [app] in I.
        apply tail_continues in I. rewrite <- app_assoc in I. apply Forall_app in I. destruct I as [_ I]. inversion I; subst. contradiction.
      * injection E as <- <-. apply (P2 r0 r eq_refl).
Qed.

Lemma lossy_ascii a x b : x < 128 -> to_string_lossy (a ++ x :: b) = to_string_lossy a ++ x :: to_string_lossy b.
Proof.
  intros X. rewrite lossy_boundary by lia. f_equal. assert (C : character x) by (left; lia).
  assert (U : utf8_of x = [x]). { unfold utf8_of. now apply N.ltb_lt in X as ->. }
  change (x :: b) with ([x] ++ b). rewrite <- U. now apply lossy_char.
Qed.

Lemma encoding_ascii c bs x : encoding c bs -> x < 128 -> In x bs -> c = x.
Proof.
  intros E X I. destruct bs as [|a l]; [destruct I|]. assert (T := tail_continues _ _ _ E). destruct I as [->|I].
  - inversion E; subst; try lia.
  - rewrite Forall_forall in T. apply T in I. lia.
Qed.

Lemma lossy_ascii_in bs x : x < 128 -> (In x (to_string_lossy bs) <-> In x bs).
Proof.
  intros X. split.
  - assert (D := proj1 (lossy_decoded bs _) eq_refl). revert D. generalize (to_string_lossy bs). intros s.
    induction 1 as [|c r s C H IH|a p r s NC P1 P2 H IH]; intros I; [destruct I| |].
    + apply in_or_app. destruct I as [->|I]; [left|right; auto]. unfold utf8_of. apply N.ltb_lt in X as ->. now left.
    + destruct I as [I|I]; [lia|]. right. apply in_or_app. right. auto.
  - intros I. apply in_split in I. destruct I as (a & b & ->). rewrite (lossy_ascii _ _ _ X). apply in_or_app. right. now left.
Qed.

Lemma lossy_join x l : x < 128 -> to_string_lossy (join [x] l) = join [x] (map to_string_lossy l).
Proof.
  intros X. induction l as [|a [|b l] IH]; [reflexivity|reflexivity|].
  change (join [x] (a :: b :: l)) with (a ++ x :: join [x] (b :: l)). rewrite (lossy_ascii _ _ _ X), IH. reflexivity.
Qed.

Lemma filter_seen (vars : os_environ) e :
  env_iter e (os_seen (filter (fun kv => match fst kv with [] => false | _ => true end) vars)) = env_iter e (os_seen vars).
Proof.
  induction vars as [|[k v] r IH]; [reflexivity|]. destruct k as [|k0 k].
  - exact IH.
  - cbn [filter fst]. unfold os_seen in *. cbn [map env_iter fst snd]. rewrite IH. reflexivity.
Qed.
