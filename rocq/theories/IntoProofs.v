(** Proofs about the accessors of numbers and the conversions into values. *)
From Coq Require Import Ascii String ZArith NArith Bool Lia.
From Coq Require Import Floats.SpecFloat.
From Coq Require Import List.
From Verif Require Import Res BMap BMapProofs Str StrProofs Tag Num Value Err De Ser Into SpecNear NearProofs SpecInto.
Import ListNotations.
Local Open Scope Z_scope.

(** ** Numbers *)
Lemma num_to_u32_spec n z : num_to_u32 n = Some z <-> integer_of narrow n z.
Proof.
  unfold integer_of, narrow. cbn [In]. split.
  - destruct n as [[]|x|x]; try discriminate; intros [=->]; eexists; split; try reflexivity; tauto.
  - intros [k [H ->]]. destruct H as [<-|[<-|[<-|[]]]]; reflexivity.
Qed.
Lemma num_to_u128_spec n z : num_to_u128 n = Some z <-> integer_of unsigned_types n z.
Proof.
  unfold integer_of, unsigned_types. cbn [In]. split.
  - destruct n as [[]|x|x]; try discriminate; intros [=->]; eexists; split; try reflexivity; tauto.
  - intros [k [H ->]]. destruct H as [<-|[<-|[<-|[<-|[<-|[<-|[]]]]]]]; reflexivity.
Qed.
Lemma num_to_i128_spec n z : num_to_i128 n = Some z <-> integer_of signed_types n z.
Proof.
  unfold integer_of, signed_types. cbn [In]. split.
  - destruct n as [[]|x|x]; try discriminate; intros [=->]; eexists; split; try reflexivity; tauto.
  - intros [k [H ->]]. destruct H as [<-|[<-|[<-|[<-|[<-|[<-|[]]]]]]]; reflexivity.
Qed.
Lemma num_to_u128_lossy_spec n z : num_ok n = true ->
  num_to_u128_lossy n = Some z <-> (exists k, n = NInt k z) /\ 0 <= z.
Proof.
  intros O. split.
  - destruct n as [k x|x|x]; try discriminate. cbn [num_ok] in O. unfold in_range in O.
    apply andb_true_iff in O. destruct O as [L _]. apply Z.leb_le in L.
    intros H. assert (x = z /\ 0 <= z) as [-> P].
    { destruct k; cbn in H, L; try (injection H as <-; split; [reflexivity|exact L]);
        destruct (0 <=? x) eqn:E; try discriminate; injection H as <-; (split; [reflexivity|apply Z.leb_le; exact E]). }
    split; [exists k; reflexivity|exact P].
  - intros [[k ->] P]. apply Z.leb_le in P. destruct k; cbn; rewrite ?P; reflexivity.
Qed.
Lemma num_to_f64_spec n f : num_to_f64 n = Some f <-> double_of n f.
Proof.
  unfold double_of. destruct n as [k z|x|x]; cbn [num_to_f64].
  - split; [discriminate|]. intros [H|[y [H _]]]; discriminate.
  - split.
    + intros [=<-]. right. exists x. split; [reflexivity|]. apply widen_converted. reflexivity.
    + intros [H|[y [[=->] H]]]; [discriminate|]. apply widen_converted in H. subst. reflexivity.
  - split; [intros [=->]; left; reflexivity|]. intros [[=->]|[y [H _]]]; [reflexivity|discriminate].
Qed.

(** A cast that does not lose anything. *)
Lemma wrap_in_range k z : in_range k z = true -> wrap k z = z.
Proof.
  unfold in_range, wrap, ikind_min, ikind_max. intros H. apply andb_true_iff in H. destruct H as [A B].
  apply Z.leb_le in A, B. assert (P : 2 ^ ikind_bits k = 2 * 2 ^ (ikind_bits k - 1)) by (destruct k; reflexivity).
  assert (Q : 0 < 2 ^ (ikind_bits k - 1)) by (destruct k; reflexivity).
  destruct (ikind_signed k); cbn [andb].
  - destruct (Z_lt_le_dec z 0) as [N|N].
    + assert (E : z mod 2 ^ ikind_bits k = z + 2 ^ ikind_bits k).
      { symmetry. apply (Z.mod_unique_pos _ _ (-1)); lia. }
      rewrite E. destruct (Z.leb_spec (2 ^ (ikind_bits k - 1)) (z + 2 ^ ikind_bits k)); lia.
    + rewrite Z.mod_small by lia. destruct (Z.leb_spec (2 ^ (ikind_bits k - 1)) z); lia.
  - apply Z.mod_small. lia.
Qed.
Lemma wider_range k k' z : In (k, k') (list_prod narrow [U32] ++ list_prod unsigned_types [U128] ++ list_prod signed_types [I128]) ->
  in_range k z = true -> in_range k' z = true.
Proof.
  intros I H. unfold in_range in *. apply andb_true_iff in H. destruct H as [A B]. apply Z.leb_le in A, B.
  apply andb_true_iff. rewrite !Z.leb_le. cbn in I.
  assert (L : ikind_min k' <= ikind_min k /\ ikind_max k <= ikind_max k').
  { repeat (destruct I as [I|I]; [injection I as <- <-; split; vm_compute; discriminate|]). destruct I. }
  lia.
Qed.
Lemma cast_lossy k z : in_range k z = true -> 0 <= z -> in_range U128 z = true.
Proof.
  unfold in_range. intros H P. apply andb_true_iff in H. destruct H as [_ B]. apply Z.leb_le in B.
  apply andb_true_iff. rewrite !Z.leb_le. split; [exact P|].
  enough (ikind_max k <= ikind_max U128) by lia. destruct k; vm_compute; discriminate.
Qed.

(** ** Conversions *)
Section Ind.
  Variable P : source -> Prop.
  Hypothesis Hs : forall s, P (FStr s).
  Hypothesis Hc : forall c, P (FChar c).
  Hypothesis Hb : forall b, P (FBool b).
  Hypothesis Hn : forall n, P (FNum n).
  Hypothesis He : forall e, P (FEmpty e).
  Hypothesis Hl : forall l, Forall P l -> P (FList l).
  Hypothesis Hm : forall l, Forall (fun kv => P (snd kv)) l -> P (FMap l).
  Hypothesis Hv : forall v, P (FValue v).
  Fixpoint source_ind' (s : source) : P s :=
    match s with
    | FStr s => Hs s | FChar c => Hc c | FBool b => Hb b | FNum n => Hn n | FEmpty e => He e
    | FList l => Hl l ((fix go l : Forall P l :=
                          match l with [] => Forall_nil _ | x :: r => Forall_cons _ (source_ind' x) (go r) end) l)
    | FMap l => Hm l ((fix go l : Forall (fun kv => P (snd kv)) l :=
                         match l with [] => Forall_nil _ | x :: r => Forall_cons _ (source_ind' (snd x)) (go r) end) l)
    | FValue v => Hv v
    end.
End Ind.

(** Collecting keeps the last entry of each key. *)
Lemma get_extend_given {A} (l : list (ustr * A)) : forall m k x,
  get k (extend m l) = Some x <-> given l k x \/ ((forall y, ~ In (k, y) l) /\ get k m = Some x).
Proof.
  induction l as [|[k' y] l IH]; intros m k x; cbn [extend].
  - split; [intros H; right; split; [intros ? []|exact H]|].
    intros [[l1 [l2 [E _]]]|[_ H]]; [destruct l1; discriminate|exact H].
  - rewrite IH. split.
    + intros [[l1 [l2 [E N]]]|[N H]].
      * left. exists ((k', y) :: l1), l2. split; [cbn; rewrite E; reflexivity|exact N].
      * destruct (cmp k k') eqn:C.
        -- rewrite get_insert_eq in H by exact C. injection H as <-. apply cmp_leibniz in C. subst k'.
           left. exists [], l. split; [reflexivity|exact N].
        -- right. rewrite get_insert_ne in H by (rewrite C; discriminate). split; [|exact H].
           intros z [Z|Z]; [injection Z as -> _; rewrite cmp_refl in C; discriminate|exact (N z Z)].
        -- right. rewrite get_insert_ne in H by (rewrite C; discriminate). split; [|exact H].
           intros z [Z|Z]; [injection Z as -> _; rewrite cmp_refl in C; discriminate|exact (N z Z)].
    + intros [[l1 [l2 [E N]]]|[N H]].
      * destruct l1 as [|p l1]; cbn in E.
        -- injection E as -> -> ->. right. split; [exact N|]. apply get_insert_eq, cmp_refl.
        -- injection E as _ ->. left. exists l1, l2. split; [reflexivity|exact N].
      * right. split; [intros z Z; exact (N z (or_intror Z))|]. rewrite get_insert_ne; [exact H|].
        intros C. apply cmp_leibniz in C. subst k'. exact (N y (or_introl eq_refl)).
Qed.
Lemma get_collect_given {A} (l : list (ustr * A)) k x : get k (collect l) = Some x <-> given l k x.
Proof.
  unfold collect. rewrite get_extend_given. cbn [get]. intuition discriminate.
Qed.
Lemma given_map {A B} (f : A -> B) (l : list (ustr * A)) k x :
  given (map (fun kv => (fst kv, f (snd kv))) l) k x <-> exists y, given l k y /\ x = f y.
Proof.
  split.
  - intros [l1 [l2 [E N]]]. apply map_eq_app in E. destruct E as (a & b & -> & Ea & Eb).
    destruct b as [|[k' y] b]; [discriminate|]. cbn in Eb. injection Eb as -> <- <-. exists y. split; [|reflexivity].
    exists a, b. split; [reflexivity|]. intros z Z. apply (N (f z)).
    apply (in_map (fun kv => (fst kv, f (snd kv)))) in Z. exact Z.
  - intros [y [[l1 [l2 [-> N]]] ->]]. exists (map (fun kv => (fst kv, f (snd kv))) l1), (map (fun kv => (fst kv, f (snd kv))) l2).
    split; [rewrite map_app; reflexivity|]. intros z Z. apply in_map_iff in Z. destruct Z as [[k' w] [E Z]].
    cbn in E. injection E as -> _. exact (N w Z).
Qed.
Lemma given_unique {A} (l : list (ustr * A)) k x y : given l k x -> given l k y -> x = y.
Proof. intros H1 H2. apply get_collect_given in H1, H2. congruence. Qed.
Lemma given_In {A} (l : list (ustr * A)) k x : given l k x -> In (k, x) l.
Proof. intros [a [b [-> _]]]. apply in_elt. Qed.

Lemma In_get_iff {A} (d : bmap ustr A) k x : sorted d -> In (k, x) d <-> get k d = Some x.
Proof.
  intros S. split; [apply In_get, S|]. intros H. apply get_In in H. destruct H as [k' [C H]].
  apply cmp_leibniz in C. subst. exact H.
Qed.

Lemma into_holds s : holds s (into_value s).
Proof.
  induction s as [s|c|b|n|e|l IH|l IH|v] using source_ind'; cbn [into_value]; try constructor.
  - induction IH; constructor; assumption.
  - apply sorted_collect.
  - intros k s G. exists (into_value s). split.
    + apply In_get_iff; [apply sorted_collect|]. apply get_collect_given, given_map. exists s. split; [exact G|reflexivity].
    + apply given_In in G. rewrite Forall_forall in IH. exact (IH _ G).
  - intros k v H. apply In_get_iff in H; [|apply sorted_collect]. apply get_collect_given, given_map in H.
    destruct H as [s [G _]]. exists s. exact G.
Qed.
Lemma holds_unique s : forall v, holds s v -> v = into_value s.
Proof.
  induction s as [s|c|b|n|e|l IH|l IH|v'] using source_ind'; intros v H; inversion H; subst; try reflexivity; cbn [into_value].
  - f_equal. clear H. match goal with F : Forall2 _ _ _ |- _ => induction F as [|x v l vs Hx Hl G] end; [reflexivity|].
    inversion IH; subst. cbn [map]. f_equal; auto.
  - f_equal. match goal with S : sorted d |- _ => rename S into Sd end.
    apply (sorted_ext _); [exact Sd|apply sorted_collect|]. intros k.
    rewrite Forall_forall in IH.
    destruct (get k d) as [v|] eqn:E.
    + symmetry. apply get_collect_given, given_map.
      assert (I : In (k, v) d) by (apply In_get_iff; assumption).
      match goal with Q : forall k v, In (k, v) d -> _ |- _ => destruct (Q k v I) as [s G] end.
      match goal with Q : forall k s, given l k s -> _ |- _ => destruct (Q k s G) as [w [Iw Hw]] end.
      exists s. split; [exact G|]. apply In_get_iff in Iw; [|exact Sd]. rewrite E in Iw. injection Iw as <-.
      exact (IH _ (given_In _ _ _ G) _ Hw).
    + destruct (get k (collect _)) as [v|] eqn:E2; [|reflexivity]. exfalso.
      apply get_collect_given, given_map in E2. destruct E2 as [s [G _]].
      match goal with Q : forall k s, given l k s -> _ |- _ => destruct (Q k s G) as [w [Iw Hw]] end.
      apply In_get_iff in Iw; [|exact Sd]. congruence.
Qed.

Lemma all_ok_map {A B} (f : A -> B) (g : A -> res error B) l :
  Forall (fun x => g x = Ok (f x)) l -> all_ok (map g l) = Ok (map f l).
Proof. induction 1 as [|x l H _ IH]; [reflexivity|]. cbn. rewrite H. cbn. rewrite IH. reflexivity. Qed.

Lemma collect_map_collect {A B} (f : A -> B) (l : list (ustr * A)) :
  collect (map (fun kv => (fst kv, f (snd kv))) (collect l)) = collect (map (fun kv => (fst kv, f (snd kv))) l).
Proof.
  apply (sorted_ext _); try apply sorted_collect. intros k.
  assert (G : forall x, get k (collect (map (fun kv => (fst kv, f (snd kv))) (collect l))) = Some x <->
                   get k (collect (map (fun kv => (fst kv, f (snd kv))) l)) = Some x).
  { intros x. rewrite !get_collect_given, !given_map.
    assert (Q : forall y, given (collect l) k y <-> given l k y).
    { intros y. rewrite <- !get_collect_given, collect_sorted; [reflexivity|apply sorted_collect]. }
    split; intros [y [Y E]]; exists y; (split; [apply Q; exact Y|exact E]). }
  destruct (get k _) as [x|] eqn:E1; [symmetry; apply G; reflexivity|].
  match goal with |- None = ?r => destruct r as [y|] eqn:E2; [|reflexivity] end.
  assert (X := proj2 (G y) eq_refl). discriminate.
Qed.

Lemma into_serialize s : serialize (serde_of s) = Ok (serialize_value (into_value s)).
Proof.
  induction s as [s|c|b|n|e|l IH|l IH|v] using source_ind'; try reflexivity.
  - destruct n; reflexivity.
  - destruct e; reflexivity.
  - cbn [serde_of serialize into_value serialize_value]. rewrite !map_map.
    rewrite (all_ok_map (fun s => serialize_value (into_value s))) by exact IH. reflexivity.
  - cbn [serde_of serialize into_value serialize_value]. rewrite map_map.
    rewrite (all_ok_map (fun kv => (fst kv, serialize_value (into_value (snd kv))))).
    + cbn [res_map]. unfold map_end. rewrite collect_map_collect, map_map. reflexivity.
    + revert IH. apply Forall_impl. intros [k s] H. cbn [fst snd] in *. rewrite H. reflexivity.
Qed.
