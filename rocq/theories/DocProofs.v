(** Proofs about documents. *)
From Coq Require Import Ascii String ZArith NArith Bool Lia.
From Coq Require Import Floats.SpecFloat.
From Coq Require Import List.
From Verif Require Import Res BMap BMapProofs Str StrProofs Profile ProfileProofs Tag Num Value Metadata Err
  Figment De Path Data Doc SpecValue SpecFigment SpecPriority SpecLookup SpecRt SpecInto SpecDoc
  ValueProofs FigmentProofs PriorityProofs PriorityProofs2 LookupProofs SerProofs IntoProofs DeProofs SpecData DataProofs.
Import ListNotations.

Section Ind.
  Variable P : doc -> Prop.
  Hypothesis Hnull : P DocNull.
  Hypothesis Hnone : P DocNone.
  Hypothesis Hsome : forall d, P d -> P (DocSome d).
  Hypothesis Hbool : forall b, P (DocBool b).
  Hypothesis Hint : forall k z, P (DocInt k z).
  Hypothesis Hf32 : forall x, P (DocF32 x).
  Hypothesis Hf64 : forall x, P (DocF64 x).
  Hypothesis Hchar : forall c, P (DocChar c).
  Hypothesis Hstr : forall s, P (DocStr s).
  Hypothesis Hseq : forall l, Forall P l -> P (DocSeq l).
  Hypothesis Hmap : forall l, Forall (fun kv => P (snd kv)) l -> P (DocMap l).
  Hypothesis Henum : forall n d, P d -> P (DocEnum n d).
  Fixpoint doc_ind' (d : doc) : P d :=
    match d with
    | DocNull => Hnull | DocNone => Hnone | DocSome d => Hsome d (doc_ind' d)
    | DocBool b => Hbool b | DocInt k z => Hint k z | DocF32 x => Hf32 x | DocF64 x => Hf64 x
    | DocChar c => Hchar c | DocStr s => Hstr s
    | DocSeq l => Hseq l ((fix go l : Forall P l :=
                             match l with [] => Forall_nil _ | x :: r => Forall_cons _ (doc_ind' x) (go r) end) l)
    | DocMap l => Hmap l ((fix go l : Forall (fun kv => P (snd kv)) l :=
                             match l with [] => Forall_nil _ | x :: r => Forall_cons _ (doc_ind' (snd x)) (go r) end) l)
    | DocEnum n d => Henum n d (doc_ind' d)
    end.
End Ind.

(** ** Unfolding *)
Fixpoint doc_seq (l : list doc) : res kind (list value) :=
  match l with
  | [] => Ok []
  | x :: r => res_bind (doc_value x) (fun y => res_map (cons y) (doc_seq r))
  end.
Fixpoint doc_entries (l : list (ustr * doc)) (acc : dict) (id : option tag) (raw : option value)
  : res kind value :=
  match l with
  | [] => Ok (finish_map acc id raw)
  | (k, x) :: r =>
      if ueqb k value_id then res_bind (doc_tag x) (fun t => doc_entries r acc (Some t) raw)
      else if ueqb k value_value then res_bind (doc_value x) (fun y => doc_entries r acc id (Some y))
      else res_bind (doc_value x) (fun y => doc_entries r (insert k y acc) id raw)
  end.
Lemma doc_value_seq l : doc_value (DocSeq l) = res_map (VArray tag_default) (doc_seq l).
Proof. reflexivity. Qed.
Lemma doc_value_map l : doc_value (DocMap l) = doc_entries l [] None None.
Proof. reflexivity. Qed.

Lemma doc_seq_ok l vs : doc_seq l = Ok vs <-> Forall2 (fun x v => doc_value x = Ok v) l vs.
Proof.
  revert vs. induction l as [|x r IH]; intros vs; cbn [doc_seq].
  - split; [intros [= <-]; constructor|]. intros H; inversion H; reflexivity.
  - destruct (doc_value x) as [y|e] eqn:E; cbn [res_bind].
    + destruct (doc_seq r) as [ys|e] eqn:E2; cbn [res_map].
      * split; [intros [= <-]; constructor; [exact E|apply IH; reflexivity]|].
        intros H; inversion H; subst. apply IH in H4. congruence.
      * split; [discriminate|]. intros H; inversion H; subst. apply IH in H4. discriminate.
    + split; [discriminate|]. intros H; inversion H; subst. congruence.
Qed.

Lemma doc_tag_ok d t : doc_tag d = Ok t <-> doc_id d t.
Proof.
  split.
  - destruct d as [| | | |k z| | | | | | |]; try discriminate. destruct k; cbn; try discriminate; intros [= <-]; constructor; cbn; auto 10.
  - intros H. destruct H as [k z H]. cbn in H. repeat destruct H as [<-|H]; try reflexivity. destruct H.
Qed.

(** ** The last entry of a key *)
Fixpoint last_of {A} (k : ustr) (l : list (ustr * A)) : option A :=
  match l with
  | [] => None
  | (k', x) :: r => match last_of k r with Some y => Some y | None => if ueqb k' k then Some x else None end
  end.
Lemma last_of_none {A} k (l : list (ustr * A)) : last_of k l = None <-> forall y, ~ In (k, y) l.
Proof.
  induction l as [|[k' x] r IH]; cbn [last_of]; [split; [intros _ ? []|reflexivity]|].
  destruct (last_of k r) as [y|] eqn:E.
  - split; [discriminate|]. intros H. exfalso. assert (X : Some y = None) by (apply IH; intros z Z; apply (H z); right; exact Z).
    discriminate.
  - destruct (ueqb k' k) eqn:U.
    + apply ueqb_eq in U. subst. split; [discriminate|]. intros H. exfalso. apply (H x). left. reflexivity.
    + split; [|reflexivity]. intros _ y [Y|Y]; [injection Y as -> _; rewrite ueqb_refl in U; discriminate|].
      revert Y. apply IH. reflexivity.
Qed.
Lemma last_of_some {A} k (l : list (ustr * A)) x : last_of k l = Some x <-> given l k x.
Proof.
  assert (F : forall (l : list (ustr * A)) x, last_of k l = Some x -> given l k x).
  { clear. intros l x. revert x. induction l as [|[k' y] r IH]; intros x; cbn [last_of]; [discriminate|].
    destruct (last_of k r) as [z|] eqn:E.
    - intros [= ->]. destruct (IH _ eq_refl) as (l1 & l2 & -> & N). exists ((k', y) :: l1), l2. auto.
    - destruct (ueqb k' k) eqn:U; [|discriminate]. intros [= ->]. apply ueqb_eq in U. subst.
      exists [], r. split; [reflexivity|]. apply last_of_none. exact E. }
  split; [apply F|]. intros H. destruct (last_of k l) as [y|] eqn:E.
  - apply F in E. f_equal. eapply given_unique; eassumption.
  - exfalso. apply (proj1 (last_of_none k l) E x). apply given_In. exact H.
Qed.

(** ** Pairing entries *)
Definition paired {A B} (R : A -> B -> Prop) (l : list (ustr * A)) (l' : list (ustr * B)) : Prop :=
  Forall2 (fun a b => fst b = fst a /\ R (snd a) (snd b)) l l'.
Lemma paired_In {A B} (R : A -> B -> Prop) l l' k x : paired R l l' -> In (k, x) l -> exists y, In (k, y) l' /\ R x y.
Proof.
  induction 1 as [|[a1 a2] [b1 b2] l l' [E H] F IH]; intros I; [destruct I|]. cbn in E, H. subst.
  destruct I as [I|I]; [injection I as -> ->; exists b2; split; [left; reflexivity|exact H]|].
  destruct (IH I) as (y & Y & R'). exists y. split; [right; exact Y|exact R'].
Qed.
Lemma paired_flip {A B} (R : A -> B -> Prop) l l' : paired R l l' -> paired (fun y x => R x y) l' l.
Proof. induction 1 as [|a b l l' [E H] F IH]; constructor; auto. Qed.
Lemma paired_given {A B} (R : A -> B -> Prop) l l' k x : paired R l l' -> given l k x -> exists y, given l' k y /\ R x y.
Proof.
  intros H (l1 & l2 & -> & N). apply Forall2_app_inv_l in H. destruct H as (m1 & m2 & H1 & H2 & ->).
  inversion H2 as [|? [k' y] ? m3 [E R'] F]; subst. cbn in E, R'. subst. exists y. split; [|exact R'].
  exists m1, m3. split; [reflexivity|]. intros z Z. apply (paired_In _ _ _ _ _ (paired_flip _ _ _ F)) in Z.
  destruct Z as (w & W & _). exact (N w W).
Qed.
Lemma paired_given_r {A B} (R : A -> B -> Prop) l l' k y : paired R l l' -> given l' k y -> exists x, given l k x /\ R x y.
Proof. intros H G. apply (paired_given _ _ _ _ _ (paired_flip _ _ _ H) G). Qed.

Definition ordinary (k : ustr) : bool := negb (ueqb k value_id) && negb (ueqb k value_value).
Lemma ordinary_spec k : ordinary k = true <-> k <> value_id /\ k <> value_value.
Proof.
  unfold ordinary. rewrite andb_true_iff, !negb_true_iff. split.
  - intros [H1 H2]. split; intros ->; rewrite ueqb_refl in *; discriminate.
  - intros [H1 H2]. split; (destruct (ueqb k _) eqn:E; [apply ueqb_eq in E; congruence|reflexivity]).
Qed.
Lemma given_filter {A} (f : ustr -> bool) (l : list (ustr * A)) k x :
  given (filter (fun kv => f (fst kv)) l) k x <-> f k = true /\ given l k x.
Proof.
  rewrite <- !last_of_some. induction l as [|[k' y] r IH]; cbn [filter last_of fst].
  - intuition discriminate.
  - destruct (f k') eqn:F; cbn [last_of].
    + destruct (last_of k r) as [z|] eqn:E1.
      * destruct (last_of k (filter (fun kv => f (fst kv)) r)) as [w|] eqn:E2.
        -- rewrite IH. tauto.
        -- split; [|intros [Fk Hz]; exfalso; assert (X : @None A = Some x) by (apply IH; auto); discriminate]. destruct (ueqb k' k) eqn:U; [|discriminate]. intros [= ->].
           apply ueqb_eq in U. subst. exfalso.
           apply (proj1 (last_of_none k _) E2 z).
           apply last_of_some, given_In in E1. apply filter_In. cbn. auto.
      * destruct (last_of k (filter (fun kv => f (fst kv)) r)) as [w|] eqn:E2.
        -- exfalso. apply last_of_some, given_In, filter_In in E2. destruct E2 as [E2 _].
           exact (proj1 (last_of_none k r) E1 w E2).
        -- destruct (ueqb k' k) eqn:U; [|intuition discriminate]. apply ueqb_eq in U. subst. intuition.
    + rewrite IH. destruct (last_of k r) as [z|]; [tauto|]. destruct (ueqb k' k) eqn:U; [|tauto].
      apply ueqb_eq in U. subst. rewrite F. intuition discriminate.
Qed.

Lemma doc_entries_ok l : forall acc id raw w,
  doc_entries l acc id raw = Ok w <->
  (forall x, In (value_id, x) l -> exists t, doc_tag x = Ok t) /\
  (forall k x, In (k, x) l -> k <> value_id -> exists v, doc_value x = Ok v) /\
  exists l', paired (fun x v => doc_value x = Ok v) (filter (fun kv => ordinary (fst kv)) l) l' /\
    w = finish_map (extend acc l')
          (match last_of value_id l with Some y => res_ok (doc_tag y) | None => id end)
          (match last_of value_value l with Some y => res_ok (doc_value y) | None => raw end).
Proof.
  induction l as [|[k x] r IH]; intros acc id raw w; cbn [doc_entries filter last_of fst].
  - split.
    + intros [= <-]. split; [intros ? []|]. split; [intros ? ? []|]. exists []. split; [constructor|reflexivity].
    + intros (_ & _ & l' & H & ->). inversion H; subst. reflexivity.
  - unfold ordinary at 1. destruct (ueqb k value_id) eqn:U1; cbn [negb andb].
    + apply ueqb_eq in U1. subst k. change (ueqb value_id value_value) with false. cbv iota.
      destruct (doc_tag x) as [t|e] eqn:E; cbn [res_bind].
      * rewrite IH. split.
        -- intros (H1 & H2 & l' & P & ->). split; [intros y [Y|Y]; [injection Y as <-; eauto|eauto]|].
           split; [intros k y [Y|Y] N; [injection Y as <- <-; congruence|eauto]|].
           exists l'. split; [exact P|]. f_equal; [|destruct (last_of value_value r); reflexivity].
           destruct (last_of value_id r); [reflexivity|]. rewrite E. reflexivity.
        -- intros (H1 & H2 & l' & P & ->). split; [intros y Y; apply H1; right; exact Y|].
           split; [intros k y Y N; apply (H2 k y); [right; exact Y|exact N]|].
           exists l'. split; [exact P|]. f_equal; [|destruct (last_of value_value r); reflexivity].
           destruct (last_of value_id r); [reflexivity|]. rewrite E. reflexivity.
      * split; [discriminate|]. intros (H1 & _). destruct (H1 x (or_introl eq_refl)) as [t T]. congruence.
    + destruct (ueqb k value_value) eqn:U2; cbn [negb].
      * apply ueqb_eq in U2. subst k.
        destruct (doc_value x) as [v|e] eqn:E; cbn [res_bind].
        -- rewrite IH. split.
           ++ intros (H1 & H2 & l' & P & ->). split; [intros y [Y|Y]; [discriminate|eauto]|].
              split; [intros k y [Y|Y] N; [injection Y as <- <-; eauto|eauto]|].
              exists l'. split; [exact P|]. f_equal; [destruct (last_of value_id r); reflexivity|].
              destruct (last_of value_value r); [reflexivity|]. rewrite E. reflexivity.
           ++ intros (H1 & H2 & l' & P & ->). split; [intros y Y; apply H1; right; exact Y|].
              split; [intros k y Y N; apply (H2 k y); [right; exact Y|exact N]|].
              exists l'. split; [exact P|]. f_equal; [destruct (last_of value_id r); reflexivity|].
              destruct (last_of value_value r); [reflexivity|]. rewrite E. reflexivity.
        -- split; [discriminate|]. intros (_ & H2 & _).
           destruct (H2 value_value x (or_introl eq_refl)) as [t T]; [discriminate|congruence].
      * destruct (doc_value x) as [v|e] eqn:E; cbn [res_bind].
        -- rewrite IH. split.
           ++ intros (H1 & H2 & l' & P & ->). split; [intros y [Y|Y]; [injection Y as -> _; rewrite ueqb_refl in U1; discriminate|eauto]|].
              split; [intros k' y [Y|Y] N; [injection Y as <- <-; eauto|eauto]|].
              exists ((k, v) :: l'). split; [constructor; [auto|exact P]|]. cbn [extend].
              destruct (last_of value_id r), (last_of value_value r); reflexivity.
           ++ intros (H1 & H2 & l' & P & ->). split; [intros y Y; apply H1; right; exact Y|].
              split; [intros k' y Y N; apply (H2 k' y); [right; exact Y|exact N]|].
              inversion P as [|? [k' v'] ? l'' [K V] P']; subst. cbn in K, V. subst k'. rewrite E in V. injection V as <-.
              exists l''. split; [exact P'|]. cbn [extend].
              destruct (last_of value_id r), (last_of value_value r); reflexivity.
        -- split; [discriminate|]. intros (_ & H2 & _).
           destruct (H2 k x (or_introl eq_refl)) as [t T]; [|congruence].
           intros ->. rewrite ueqb_refl in U1. discriminate.
Qed.

Lemma from_default u : tag_eqb u tag_default = (metadata_id u =? 0)%N.
Proof. apply eq_true_iff_eq. rewrite tag_eqb_default, N.eqb_eq. reflexivity. Qed.
Lemma sourced_map_tag t v : sourced t v = map_tag (fun _ => t) v.
Proof.
  induction v as [? ?|? ?|? ?|? ?|? ?|? d IH|? l IH] using value_ind'; cbn [sourced map_tag]; rewrite ?from_default; try reflexivity; f_equal.
  - apply map_ext_in. intros [k x] I. rewrite Forall_forall in IH. cbn. f_equal. exact (IH _ I).
  - apply map_ext_in. intros x I. rewrite Forall_forall in IH. exact (IH _ I).
Qed.

Lemma nest_nested name ks v w : spells name ks -> nested_under ks v w <-> w = nest name v.
Proof.
  intros H. unfold nest. rewrite nest_keys_upto, (spells_upto _ _ H).
  assert (X := nest_keys_nested ks v (proj1 H)). split; [|intros ->; exact X].
  intros N. exact (nested_under_fun _ _ _ N _ X).
Qed.

(** ** Reading is what it says *)
Lemma doc_value_reads d : forall v, doc_value d = Ok v <-> reads d v.
Proof.
  induction d as [| |d IH|b0|k0 z0|f1|f2|c0|s0|l IH|l IH|n d IH] using doc_ind'; intros v.
  1,2,4,5,6,7,8,9: (split; [intros [= <-]; constructor|intros H; inversion H; reflexivity]).
  - cbn [doc_value]. rewrite IH. split; [constructor; assumption|intros H; inversion H; assumption].
  - rewrite doc_value_seq, res_map_ok. split.
    + intros (vs & H & E). rewrite E. clear E v. constructor. apply doc_seq_ok in H.
      revert H. revert vs. induction IH as [|x r Hx Hr IH']; intros vs H; inversion H; subst; constructor; [apply Hx; assumption|auto].
    + intros H. inversion H as [| | | | | | | | |? vs F| | | |]; subst. exists vs. split; [|reflexivity]. apply doc_seq_ok.
      clear H. revert F. revert vs. induction IH as [|x r Hx Hr IH']; intros vs H; inversion H; subst; constructor; [apply Hx; assumption|auto].
  - rewrite doc_value_map, doc_entries_ok. rewrite Forall_forall in IH.
    assert (IH2 : forall k x, In (k, x) l -> forall v, doc_value x = Ok v <-> reads x v).
    { intros k x I. exact (IH (k, x) I). }
    clear IH. split.
    + intros (H1 & H2 & l' & P & ->).
      assert (T : forall x, In (value_id, x) l -> exists t, doc_id x t).
      { intros x I. destruct (H1 x I) as [t E]. exists t. apply doc_tag_ok. exact E. }
      assert (R : forall k x, In (k, x) l -> k <> value_id -> exists v, reads x v).
      { intros k x I N. destruct (H2 k x I N) as [u U]. exists u. apply (IH2 k x I). exact U. }
      destruct (last_of value_value l) as [x|] eqn:E1.
      * apply last_of_some in E1. assert (I := given_In _ _ _ E1).
        destruct (H2 _ _ I) as [u U]; [discriminate|]. rewrite U. cbn [res_ok finish_map].
        apply (IH2 _ _ I) in U.
        destruct (last_of value_id l) as [y|] eqn:E2.
        -- apply last_of_some in E2. destruct (T _ (given_In _ _ _ E2)) as [t Ht].
           rewrite (proj2 (doc_tag_ok _ _) Ht). cbn [res_ok]. rewrite <- sourced_map_tag.
           eapply rd_sourced; eassumption.
        -- apply (rd_value _ x); auto. { apply last_of_none. exact E2. }
           intros k y I2. apply (R k y I2). intros ->. exact (proj1 (last_of_none _ _) E2 _ I2).
      * cbn [finish_map]. apply rd_map; auto.
        -- apply last_of_none. exact E1.
        -- apply (sorted_collect (K := ustr) l').
        -- intros k x G N. assert (N2 : k <> value_value).
           { intros ->. apply last_of_some in G. congruence. }
           assert (G2 : given (filter (fun kv => ordinary (fst kv)) l) k x).
           { apply given_filter. split; [apply ordinary_spec; auto|exact G]. }
           destruct (paired_given _ _ _ _ _ P G2) as (u & G3 & U). exists u. split.
           ++ apply get_collect_given in G3. apply In_get_iff; [apply (sorted_collect (K := ustr))|exact G3].
           ++ apply (IH2 k x); [apply given_In; exact G|exact U].
        -- intros k u I. apply In_get_iff in I; [|apply (sorted_collect (K := ustr))].
           apply get_collect_given in I. destruct (paired_given_r _ _ _ _ _ P I) as (x & G & _).
           apply given_filter in G. destruct G as [O G]. apply ordinary_spec in O. split; [tauto|eauto].
    + intros H.
      assert (X : forall (T : forall x, In (value_id, x) l -> exists t, doc_id x t)
        (R : forall k x, In (k, x) l -> k <> value_id -> exists v, reads x v),
        (forall x, In (value_id, x) l -> exists t, doc_tag x = Ok t) /\
        (forall k x, In (k, x) l -> k <> value_id -> exists v, doc_value x = Ok v) /\
        exists l', paired (fun x v => doc_value x = Ok v) (filter (fun kv => ordinary (fst kv)) l) l').
      { intros T R. split; [|split].
        - intros x I. destruct (T x I) as [t Ht]. exists t. apply doc_tag_ok. exact Ht.
        - intros k x I N. destruct (R k x I N) as [u U]. exists u. apply (IH2 k x I). exact U.
        - assert (Y : forall r, (forall kv, In kv r -> exists u, doc_value (snd kv) = Ok u) ->
            exists l', paired (fun x v => doc_value x = Ok v) r l').
          { induction r as [|[k x] r IHr]; intros Hr; [exists []; constructor|].
            destruct (Hr (k, x) (or_introl eq_refl)) as [u U]. destruct IHr as [r' Hr']; [intros kv I; apply Hr; right; exact I|].
            exists ((k, u) :: r'). constructor; auto. }
          apply Y. intros [k x] I. apply filter_In in I. destruct I as [I O]. cbn in O. apply ordinary_spec in O.
          destruct (R k x I (proj1 O)) as [u U]. exists u. apply (IH2 k x I). exact U. }
      inversion H as [| | | | | | | | | | |? m T NV R S G1 G2|? x u NI R G U|? x u y t T R G U G2 Ht]; subst.
      * destruct (X T R) as (H1 & H2 & l' & P). split; [exact H1|]. split; [exact H2|]. exists l'. split; [exact P|].
        apply last_of_none in NV. rewrite NV. cbn [finish_map]. f_equal.
        apply (sorted_ext _); [exact S|apply (sorted_collect (K := ustr))|]. intros k.
        destruct (get k m) as [u|] eqn:E.
        -- apply In_get_iff in E; [|exact S]. destruct (G2 k u E) as [N [x G]].
           assert (N2 : k <> value_value). { intros ->. apply last_of_some in G. congruence. }
           destruct (G1 k x G N) as (u' & I & U). apply In_get_iff in I; [|exact S]. apply In_get_iff in E; [|exact S].
           assert (u' = u) by congruence. subst u'. symmetry. apply get_collect_given.
           assert (G3 : given (filter (fun kv => ordinary (fst kv)) l) k x).
           { apply given_filter. split; [apply ordinary_spec; auto|exact G]. }
           destruct (paired_given _ _ _ _ _ P G3) as (u2 & G4 & U2).
           apply (IH2 k x (given_In _ _ _ G)) in U. assert (u2 = u) by congruence. subst u2. exact G4.
        -- destruct (get k (extend [] l')) as [u|] eqn:E2; [|reflexivity]. exfalso.
           apply get_collect_given in E2. destruct (paired_given_r _ _ _ _ _ P E2) as (x & G & _).
           apply given_filter in G. destruct G as [O G]. apply ordinary_spec in O.
           destruct (G1 k x G (proj1 O)) as (u' & I & _). apply In_get_iff in I; [|exact S]. congruence.
      * destruct X as (H1 & H2 & l' & P).
        { intros y I. exfalso. exact (NI y I). } { intros k y I _. exact (R k y I). }
        split; [exact H1|]. split; [exact H2|]. exists l'. split; [exact P|].
        apply last_of_none in NI. rewrite NI. apply (IH2 _ _ (given_In _ _ _ G)) in U.
        apply last_of_some in G. rewrite G, U. reflexivity.
      * destruct (X T R) as (H1 & H2 & l' & P). split; [exact H1|]. split; [exact H2|]. exists l'. split; [exact P|].
        apply (IH2 _ _ (given_In _ _ _ G)) in U. apply last_of_some in G, G2. rewrite G, G2, U.
        apply doc_tag_ok in Ht. rewrite Ht. cbn. apply sourced_map_tag.
  - cbn [doc_value]. rewrite res_map_ok. split.
    + intros (u & H & ->). destruct (spells_total n) as [ks K]. apply (rd_enum n ks d u); [exact K|apply IH; exact H|].
      apply (nest_nested _ _ _ _ K). reflexivity.
    + intros H. inversion H; subst. exists v0. split; [apply IH; assumption|].
      eapply nest_nested; eassumption.
Qed.

(** ** Maps *)
Lemma doc_insert_ok {K V} {C : Cmp K} (key : ustr -> K) (val : doc -> res kind V) l : forall acc m,
  doc_insert key val l acc = Ok m <->
  exists l', Forall2 (fun a b => fst b = key (fst a) /\ val (snd a) = Ok (snd b)) l l' /\ m = extend acc l'.
Proof.
  induction l as [|[k x] r IH]; intros acc m; cbn [doc_insert].
  - split; [intros [= <-]; exists []; split; [constructor|reflexivity]|]. intros (l' & H & ->). inversion H. reflexivity.
  - destruct (val x) as [y|e] eqn:E; cbn [res_bind].
    + rewrite IH. split.
      * intros (l' & H & ->). exists ((key k, y) :: l'). split; [constructor; auto|reflexivity].
      * intros (l' & H & ->). inversion H as [|? [k' y'] ? l'' [A B] H']; subst. cbn in A, B. subst.
        assert (y' = y) by congruence. subst. exists l''. auto.
    + split; [discriminate|]. intros (l' & H & ->). inversion H as [|? [k' y'] ? l'' [A B] H']; subst. cbn in B. congruence.
Qed.

Lemma paired_total {A B} (R : A -> B -> Prop) (r : list (ustr * A)) :
  (forall k x, In (k, x) r -> exists y, R x y) -> exists l', paired R r l'.
Proof.
  induction r as [|[k x] r IH]; intros H; [exists []; constructor|].
  destruct (H k x (or_introl eq_refl)) as [y Y]. destruct IH as [r' R']; [intros k' x' I; apply (H k' x'); right; exact I|].
  exists ((k, y) :: r'). constructor; auto.
Qed.

Lemma reads_fun d v w : reads d v -> reads d w -> v = w.
Proof. intros H1 H2. apply doc_value_reads in H1, H2. congruence. Qed.

Lemma doc_dict_says d m : doc_dict d = Ok m <-> exists l, d = DocMap l /\ says l m.
Proof.
  unfold doc_dict, doc_map. split.
  - destruct d; try discriminate. intros H. exists l. split; [reflexivity|].
    apply doc_insert_ok in H. destruct H as (l' & P & ->). change (paired (fun x v => doc_value x = Ok v) l l') in P.
    split; [|split; [apply (sorted_collect (K := ustr))|split]].
    + intros k x I. destruct (paired_In _ _ _ _ _ P I) as (v & _ & V). exists v. apply doc_value_reads. exact V.
    + intros k x G. destruct (paired_given _ _ _ _ _ P G) as (v & G' & V). exists v. split.
      * apply In_get_iff; [apply (sorted_collect (K := ustr))|]. apply get_collect_given. exact G'.
      * apply doc_value_reads. exact V.
    + intros k v I. apply In_get_iff in I; [|apply (sorted_collect (K := ustr))]. apply get_collect_given in I.
      destruct (paired_given_r _ _ _ _ _ P I) as (x & G & _). eauto.
  - intros (l & -> & R & S & G1 & G2). apply doc_insert_ok.
    destruct (paired_total (fun x v => doc_value x = Ok v) l) as [l' P].
    { intros k x I. destruct (R k x I) as [v V]. exists v. apply doc_value_reads. exact V. }
    exists l'. split; [exact P|]. apply (sorted_ext _); [exact S|apply (sorted_collect (K := ustr))|]. intros k.
    destruct (get k m) as [u|] eqn:E.
    + apply In_get_iff in E; [|exact S]. destruct (G2 k u E) as [x G]. destruct (G1 k x G) as (u' & I & U).
      apply In_get_iff in I; [|exact S]. apply In_get_iff in E; [|exact S]. assert (u' = u) by congruence. subst u'.
      symmetry. apply get_collect_given. destruct (paired_given _ _ _ _ _ P G) as (u2 & G4 & U2).
      apply doc_value_reads in U. assert (u2 = u) by congruence. subst. exact G4.
    + destruct (get k (extend [] l')) as [u|] eqn:E2; [|reflexivity]. exfalso.
      apply get_collect_given in E2. destruct (paired_given_r _ _ _ _ _ P E2) as (x & G & _).
      destruct (G1 k x G) as (u' & I & _). apply In_get_iff in I; [|exact S]. congruence.
Qed.

Lemma says_fun l m m' : says l m -> says l m' -> m = m'.
Proof.
  intros H1 H2. assert (X : doc_dict (DocMap l) = Ok m) by (apply doc_dict_says; eauto).
  assert (Y : doc_dict (DocMap l) = Ok m') by (apply doc_dict_says; eauto). congruence.
Qed.

(** ** Profiles *)
Definition section_p {A} (l : list (profile * A)) (p : profile) (x : A) : Prop :=
  exists l1 k l2, l = l1 ++ (k, x) :: l2 /\ cmp p k = Eq /\ forall k' y, In (k', y) l2 -> cmp p k' <> Eq.

Lemma get_extend_section {A} (l : list (profile * A)) : forall m p x,
  get p (extend m l) = Some x <-> section_p l p x \/ ((forall k y, In (k, y) l -> cmp p k <> Eq) /\ get p m = Some x).
Proof.
  induction l as [|[k' y] l IH]; intros m p x; cbn [extend].
  - split; [intros H; right; split; [intros ? ? []|exact H]|].
    intros [[l1 [k [l2 [E _]]]]|[_ H]]; [destruct l1; discriminate|exact H].
  - rewrite IH. split.
    + intros [[l1 [k [l2 [E N]]]]|[N H]].
      * left. exists ((k', y) :: l1), k, l2. split; [cbn; rewrite E; reflexivity|exact N].
      * rewrite get_insert in H. destruct (cmp p k') eqn:C.
        -- injection H as <-. left. exists [], k', l. repeat split; auto.
        -- right. split; [|exact H]. intros k z [Z|Z]; [injection Z as <- _; rewrite C; discriminate|exact (N k z Z)].
        -- right. split; [|exact H]. intros k z [Z|Z]; [injection Z as <- _; rewrite C; discriminate|exact (N k z Z)].
    + intros [[l1 [k [l2 [E [Ck N]]]]]|[N H]].
      * destruct l1 as [|q l1]; cbn in E.
        -- injection E as -> -> ->. right. split; [exact N|]. apply get_insert_eq, Ck.
        -- injection E as _ ->. left. exists l1, k, l2. repeat split; auto.
      * right. split; [intros k z Z; exact (N k z (or_intror Z))|]. rewrite get_insert_ne; [exact H|].
        exact (N k' y (or_introl eq_refl)).
Qed.

(** The key of an entry is that of the first insertion. *)
Lemma keys_insert_present {A} k (v : A) (m : bmap profile A) : sorted m -> get k m <> None -> keys (insert k v m) = keys m.
Proof.
  induction m as [|[k1 v1] m IH]; intros S G; [destruct (G eq_refl)|]. cbn [insert get] in *.
  destruct S as [L S]. destruct (cmp k k1) eqn:C.
  - reflexivity.
  - exfalso. apply G. apply (lt_all_get k k1 m L). rewrite C. discriminate.
  - cbn [keys map fst]. f_equal. exact (IH S G).
Qed.
Lemma get_none_keys {A} k (m : bmap profile A) : sorted m -> get k m = None -> forall k1, In k1 (keys m) -> cmp k k1 <> Eq.
Proof.
  intros S G k1 I C. unfold keys in I. apply in_map_iff in I. destruct I as ([k2 v] & <- & I). cbn in C.
  apply (In_get k2 v m S) in I. rewrite (get_eq k k2 m C) in G. congruence.
Qed.
Lemma extend_first {A} (l : list (profile * A)) : forall m p x, sorted m -> In (p, x) (extend m l) ->
  In p (keys m) \/ exists l1 y l2, l = l1 ++ (p, y) :: l2 /\ (forall k z, In (k, z) l1 -> cmp p k <> Eq) /\
    forall k, In k (keys m) -> cmp p k <> Eq.
Proof.
  induction l as [|[k' y] l IH]; intros m p x S; cbn [extend].
  - intros I. left. apply (in_map fst) in I. exact I.
  - intros I. destruct (IH _ _ _ (sorted_insert k' y m S) I) as [K|(l1 & z & l2 & -> & N & M)].
    + destruct (get k' m) as [w|] eqn:G.
      * left. rewrite keys_insert_present in K; [exact K|exact S|congruence].
      * apply keys_insert_In in K. destruct K as [->|K]; [|left; exact K]. right.
        exists [], y, l. split; [reflexivity|]. split; [intros ? ? []|]. exact (get_none_keys k' m S G).
    + right. exists ((k', y) :: l1), z, l2. split; [reflexivity|].
      assert (Q : cmp p k' <> Eq /\ forall k, In k (keys m) -> cmp p k <> Eq).
      { destruct (get k' m) as [w|] eqn:G.
        - assert (M' : forall k, In k (keys m) -> cmp p k <> Eq) by (intros k I'; apply M; rewrite keys_insert_present; [exact I'|exact S|congruence]).
          split; [|exact M'].
          apply get_Some_key in G. destruct G as (k2 & I2 & C). rewrite (cmp_eq_r k' k2 p C). exact (M' _ I2).
        - assert (X : forall k, In k (keys (insert k' y m)) <-> k = k' \/ In k (keys m)).
          { intros k. split; [apply keys_insert_In|]. intros [->|K].
            - assert (E := get_insert_eq k' k' y m (cmp_refl k')). apply get_In in E. destruct E as (k2 & C & E).
              apply (in_map fst) in E. cbn in E. change (In k2 (keys (insert k' y m))) in E.
              destruct (keys_insert_In _ _ _ _ E) as [->|K]; [exact E|].
              exfalso. exact (get_none_keys k' m S G _ K C).
            - unfold keys in K. apply in_map_iff in K. destruct K as ([k2 v] & <- & I2). cbn.
              assert (N2 : cmp k2 k' <> Eq).
              { intros C. apply cmp_eq_sym in C. apply (get_none_keys k' m S G k2); [apply (in_map fst) in I2; exact I2|exact C]. }
              assert (E : get k2 (insert k' y m) = Some v) by (rewrite get_insert_ne by exact N2; apply In_get; assumption).
              apply get_In in E. destruct E as (k3 & C & E). assert (E' := E). apply (in_map fst) in E. cbn in E.
              change (In k3 (keys (insert k' y m))) in E.
              destruct (keys_insert_In _ _ _ _ E) as [->|K]; [congruence|].
              unfold keys in K. apply in_map_iff in K. destruct K as ([k4 v4] & Ek & I4). cbn in Ek. subst k4.
              assert (k3 = k2).
              { clear - S C I2 I4. induction m as [|[a b] m IHm]; [destruct I2|]. destruct S as [L S].
                destruct I2 as [I2|I2], I4 as [I4|I4].
                - congruence.
                - injection I2 as -> ->. rewrite lt_all_In in L. rewrite (L _ _ I4) in C. discriminate.
                - injection I4 as -> ->. rewrite lt_all_In in L. apply cmp_eq_sym in C. rewrite (L _ _ I2) in C. discriminate.
                - exact (IHm S I2 I4). }
              subst. exact E. }
          split; [apply M, X; left; reflexivity|]. intros k K. apply M, X. right. exact K. }
      split; [|exact (proj2 Q)]. intros k w [W|W]; [injection W as <- _; exact (proj1 Q)|exact (N k w W)].
Qed.

Lemma sorted_ext_keys {A} (m1 : bmap profile A) : forall m2, sorted m1 -> sorted m2 ->
  (forall k, get k m1 = get k m2) ->
  (forall p q, In p (keys m1) -> In q (keys m2) -> cmp p q = Eq -> p = q) -> m1 = m2.
Proof.
  induction m1 as [|[k1 v1] r1 IH]; intros [|[k2 v2] r2] H1 H2 H HK; auto.
  - specialize (H k2). simpl in H. rewrite cmp_refl in H. discriminate.
  - specialize (H k1). simpl in H. rewrite cmp_refl in H. discriminate.
  - simpl in H1, H2. destruct H1 as [H1a H1b], H2 as [H2a H2b].
    assert (E : cmp k1 k2 = Eq).
    { destruct (cmp k1 k2) eqn:E; auto; exfalso.
      - pose proof (H k1) as Hk. simpl in Hk. rewrite cmp_refl, E in Hk.
        rewrite (lt_all_get k1 k2) in Hk; auto; congruence.
      - pose proof (H k2) as Hk. simpl in Hk. rewrite cmp_refl in Hk.
        rewrite (cmp_sym k1 k2), E in Hk. simpl in Hk.
        rewrite (lt_all_get k2 k1) in Hk; auto; try congruence.
        rewrite (cmp_sym k1 k2), E. simpl. congruence. }
    apply HK in E; [|left; reflexivity|left; reflexivity]. subst k2.
    pose proof (H k1) as Hk. simpl in Hk. rewrite cmp_refl in Hk. inversion Hk; subst v2.
    f_equal. apply IH; auto.
    + intros k. specialize (H k). simpl in H. destruct (cmp k k1) eqn:E.
      * rewrite !(lt_all_get k k1); auto; congruence.
      * auto.
      * auto.
    + intros p q Ip Iq. apply HK; right; assumption.
Qed.

Definition paired_p (l : list (ustr * doc)) (l' : list (profile * dict)) : Prop :=
  Forall2 (fun a b => fst b = profile_new (fst a) /\ doc_dict (snd a) = Ok (snd b)) l l'.
Lemma paired_p_In l l' k x : paired_p l l' -> In (k, x) l -> exists y, In (mkProfile k, y) l' /\ doc_dict x = Ok y.
Proof.
  induction 1 as [|[a1 a2] [b1 b2] l l' [E H] F IH]; intros I; [destruct I|]. cbn in E, H. subst.
  destruct I as [I|I]; [injection I as -> ->; exists b2; split; [left; reflexivity|exact H]|].
  destruct (IH I) as (y & Y & R'). exists y. split; [right; exact Y|exact R'].
Qed.
Lemma paired_p_In_r l l' p y : paired_p l l' -> In (p, y) l' -> exists x, In (pname p, x) l /\ doc_dict x = Ok y.
Proof.
  induction 1 as [|[a1 a2] [b1 b2] l l' [E H] F IH]; intros I; [destruct I|]. cbn in E, H. subst.
  destruct I as [I|I]; [injection I as <- ->; exists a2; split; [left; reflexivity|exact H]|].
  destruct (IH I) as (x & X & R'). exists x. split; [right; exact X|exact R'].
Qed.
Lemma same_cmp p k : cmp p (mkProfile k) = Eq <-> same_profile (mkProfile k) p.
Proof. rewrite same_profile_cmp, cmp_eq_sym. reflexivity. Qed.
Lemma paired_section l l' p x : paired_p l l' -> section l p x -> exists y, section_p l' p y /\ doc_dict x = Ok y.
Proof.
  intros H (l1 & k & l2 & -> & Sk & N). apply Forall2_app_inv_l in H. destruct H as (m1 & m2 & H1 & H2 & ->).
  inversion H2 as [|? [k' y] ? m3 [E R'] F]; subst. cbn in E, R'. subst. exists y. split; [|exact R'].
  exists m1, (profile_new k), m3. split; [reflexivity|]. split; [apply same_cmp; exact Sk|].
  intros k' z Z C. destruct (paired_p_In_r _ _ _ _ F Z) as (w & W & _). apply (N _ _ W). destruct k'. apply same_cmp. exact C.
Qed.
Lemma paired_section_r l l' p y : paired_p l l' -> section_p l' p y -> exists x, section l p x /\ doc_dict x = Ok y.
Proof.
  intros H (m1 & k & m2 & -> & Sk & N). apply Forall2_app_inv_r in H. destruct H as (l1 & l2 & H1 & H2 & ->).
  inversion H2 as [|[k' x] ? l3 ? [E R'] F]; subst. cbn in E, R'. subst. exists x. split; [|exact R'].
  exists l1, k', l3. split; [reflexivity|]. split; [apply same_cmp; exact Sk|].
  intros k z Z C. destruct (paired_p_In _ _ _ _ F Z) as (w & W & _). apply (N _ _ W). apply same_cmp. exact C.
Qed.
Lemma section_fun {A} (l : list (ustr * A)) p x y : section l p x -> section l p y -> x = y.
Proof.
  intros (a1 & k & a2 & -> & Sk & N) (b1 & k' & b2 & E & Sk' & N').
  revert b1 E. induction a1 as [|q a1 IH]; intros [|r b1] E; cbn in E.
  - injection E as -> -> ->. reflexivity.
  - injection E as _ ->. exfalso. apply (N k' y); [apply in_elt|exact Sk'].
  - injection E as _ <-. exfalso. apply (N' k x); [apply in_elt|exact Sk].
  - injection E as _ E. exact (IH _ E).
Qed.

Lemma doc_profiles_says d m : doc_profiles d = Ok m <-> exists l, d = DocMap l /\ says_profiles l m.
Proof.
  unfold doc_profiles, doc_map. split.
  - destruct d; try discriminate. intros H. exists l. split; [reflexivity|].
    apply doc_insert_ok in H. destruct H as (l' & P & ->). change (paired_p l l') in P.
    assert (So : sorted (extend (C := Cmp_profile) [] l')) by apply sorted_collect.
    split; [|split; [exact So|split; [|split]]].
    + intros k x I. destruct (paired_p_In _ _ _ _ P I) as (y & _ & Y). apply doc_dict_says in Y.
      destruct Y as (lx & -> & Y). eauto.
    + intros p x G. destruct (paired_section _ _ _ _ P G) as (y & G' & Y). apply doc_dict_says in Y.
      destruct Y as (lx & -> & Y). exists lx, y. split; [reflexivity|]. split; [|exact Y].
      apply get_extend_section. left. exact G'.
    + intros p mx G. apply get_extend_section in G. destruct G as [G|[_ G]]; [|discriminate].
      destruct (paired_section_r _ _ _ _ P G) as (x & X & _). eauto.
    + intros p mx I. apply extend_first in I; [|constructor]. destruct I as [[]|(l1 & y & l2 & -> & N & _)].
      apply Forall2_app_inv_r in P. destruct P as (k1 & k2 & P1 & P2 & ->).
      inversion P2 as [|[k' x] ? l3 ? [E R'] F]; subst. cbn in E, R'. subst. exists k1, x, l3. split; [reflexivity|].
      intros k z Z C. destruct (paired_p_In _ _ _ _ P1 Z) as (w & W & _). apply (N _ _ W). apply same_cmp. exact C.
  - intros (l & -> & R & S & G1 & G2 & K). apply doc_insert_ok.
    assert (P : exists l', paired_p l l').
    { clear S G1 G2 K. induction l as [|[k x] l IH]; [exists []; constructor|].
      destruct IH as [l' P]; [intros k' x' I; apply (R k'); right; exact I|].
      destruct (R k x (or_introl eq_refl)) as (lx & mx & -> & Sx). exists ((mkProfile k, mx) :: l').
      constructor; [|exact P]. split; [reflexivity|]. apply doc_dict_says. exists lx. split; [reflexivity|exact Sx]. }
    destruct P as [l' P]. exists l'. split; [exact P|].
    assert (So : sorted (extend (C := Cmp_profile) [] l')) by apply sorted_collect.
    apply sorted_ext_keys; [exact S|exact So| |].
    + intros p. destruct (get p m) as [u|] eqn:E.
      * destruct (G2 _ _ E) as [x X]. destruct (G1 _ _ X) as (lx & mx & -> & E' & Sx).
        symmetry. apply get_extend_section. left. destruct (paired_section _ _ _ _ P X) as (y & Y & Dy).
        assert (Z : doc_dict (DocMap lx) = Ok mx) by (apply doc_dict_says; exists lx; split; [reflexivity|exact Sx]). assert (y = u) by congruence. subst. exact Y.
      * destruct (get p (extend [] l')) as [u|] eqn:E2; [|reflexivity]. exfalso.
        apply get_extend_section in E2. destruct E2 as [X|[_ X]]; [|discriminate].
        destruct (paired_section_r _ _ _ _ P X) as (x & X' & _). destruct (G1 _ _ X') as (lx & mx & _ & E' & _). congruence.
    + intros p q Ip Iq C. unfold keys in Ip, Iq. apply in_map_iff in Ip, Iq.
      destruct Ip as ([p' u] & <- & Ip), Iq as ([q' w] & <- & Iq). cbn in C |- *. rename p' into p, q' into q.
      destruct (K _ _ Ip) as (a1 & x & a2 & Ea & Na).
      apply extend_first in Iq; [|exact Logic.I]. destruct Iq as [[]|(l1 & y & l2 & -> & N & _)].
      apply Forall2_app_inv_r in P. destruct P as (k1 & k2 & P1 & P2 & Ek).
      inversion P2 as [|[k' z] ? l3 ? [E R'] F]; subst. cbn in E, R'. subst.
      clear - Na N C Ea P1. symmetry in Ea. rename Ea into Ek. destruct p as [p]. cbn [pname] in *. unfold profile_new in *. f_equal.
      assert (N1 : forall k z, In (k, z) k1 -> ~ same_profile (mkProfile k) (mkProfile k')).
      { intros k w W Sp. destruct (paired_p_In _ _ _ _ P1 W) as (v & V & _). apply (N _ _ V). apply same_cmp. exact Sp. }
      assert (Sp : same_profile (mkProfile k') (mkProfile p)) by (apply same_cmp; exact C).
      clear N P1 C. revert k1 Ek N1. induction a1 as [|e a1 IH]; intros [|f k1] Ek N1; cbn in Ek.
      * injection Ek as -> _ _. reflexivity.
      * injection Ek as <- _. exfalso. apply (N1 p x); [left; reflexivity|]. unfold same_profile in *. congruence.
      * injection Ek as -> _. exfalso. apply (Na k' z); [left; reflexivity|exact Sp].
      * injection Ek as _ Ek. apply (IH) with (k1 := k1); auto.
        -- intros k y I. apply (Na k y). right. exact I.
        -- intros k y I. apply (N1 k y). right. exact I.
Qed.

(** ** Well-formedness and sources *)
Lemma wf_sourced t v : wf v -> wf (sourced t v).
Proof.
  induction v as [? ?|? ?|? ?|? ?|? ?|u d IH|u l IH] using value_ind'; try (intros; exact Logic.I); intros W.
  - cbn [sourced]. apply wf_VDict in W. apply wf_VDict. destruct W as [S F]. split.
    + apply (sorted_keys (K := ustr) d); [unfold keys; rewrite map_map; reflexivity|exact S].
    + rewrite Forall_forall in *. intros kv I. apply in_map_iff in I. destruct I as (kv' & <- & I). cbn. apply (IH _ I), (F _ I).
  - cbn [sourced]. apply wf_VArray in W. apply wf_VArray. rewrite Forall_forall in *. intros x I.
    apply in_map_iff in I. destruct I as (y & <- & I). apply (IH _ I), (W _ I).
Qed.
Lemma wf_nested ks v w : nested_under ks v w -> wf v -> wf w.
Proof.
  induction 1; intros W; [exact W|]. apply wf_VDict. split; [cbn; auto|]. constructor; [apply IHnested_under; exact W|constructor].
Qed.
Lemma reads_wf d : forall v, reads d v -> wf v.
Proof.
  induction d as [| |d IH|b0|k0 z0|f1|f2|c0|s0|l IH|l IH|n d IH] using doc_ind'; intros v H;
    inversion H as [| |? ? R| | | | | | |? vs F|? ks ? u ? K R N|? m T NV R S G1 G2|? x u NI R G U|? x u y t T R G U G2 Ht]; subst;
    try exact Logic.I.
  - exact (IH _ R).
  - apply wf_VArray. clear H. revert vs F. induction IH as [|x r Hx Hr IH']; intros vs F; inversion F; subst; constructor; auto.
  - rewrite Forall_forall in IH. apply wf_VDict. split; [exact S|]. apply Forall_forall. intros [k u] I. cbn.
    destruct (G2 _ _ I) as [N [x G]]. destruct (G1 _ _ G N) as (u' & I' & U).
    assert (u' = u). { apply In_get_iff in I, I'; [|exact S|exact S]. congruence. } subst u'.
    exact (IH (k, x) (given_In _ _ _ G) _ U).
  - rewrite Forall_forall in IH. exact (IH (value_value, x) (given_In _ _ _ G) _ U).
  - rewrite Forall_forall in IH. apply wf_sourced. exact (IH (value_value, x) (given_In _ _ _ G) _ U).
  - eapply wf_nested; [exact N|exact (IH _ R)].
Qed.
Lemma says_wf l m : says l m -> wf_dict m.
Proof.
  intros (R & S & G1 & G2). split; [exact S|]. apply Forall_forall. intros [k u] I. cbn.
  destruct (G2 _ _ I) as [x G]. destruct (G1 _ _ G) as (u' & I' & U).
  assert (u' = u). { apply In_get_iff in I, I'; [|exact S|exact S]. congruence. } subst u'.
  exact (reads_wf _ _ U).
Qed.

Lemma all_default_scalar v : vtag v = tag_default -> is_dict v = false -> is_array v = false -> all_tags (eq tag_default) v.
Proof. intros H D A p x R. destruct R; [auto|discriminate|discriminate]. Qed.
Lemma all_default_dict (m : dict) : (forall k v, In (k, v) m -> all_tags (eq tag_default) v) -> all_tags (eq tag_default) (VDict tag_default m).
Proof.
  intros H p x R. inversion R as [|k r t d y z G R' E1 E2|]; subst; [reflexivity|].
  apply get_In in G. destruct G as (k' & _ & I). exact (H _ _ I _ _ R').
Qed.
Lemma all_default_array l : (forall v, In v l -> all_tags (eq tag_default) v) -> all_tags (eq tag_default) (VArray tag_default l).
Proof.
  intros H p x R. inversion R as [| |r t l' y z I R' E1 E2]; subst; [reflexivity|]. exact (H _ I _ _ R').
Qed.
Lemma all_default_nested ks v w : nested_under ks v w -> all_tags (eq tag_default) v -> all_tags (eq tag_default) w.
Proof. induction 1; intros A; [exact A|]. apply all_default_dict. intros k' v' [E|[]]. injection E as <- <-. auto. Qed.

Ltac unplain H := inversion H; subst;
  try match goal with
      | S : forall x, DocSome ?d <> DocSome x |- _ => exfalso; exact (S d eq_refl)
      | S : forall l, DocSeq ?d <> DocSeq l |- _ => exfalso; exact (S d eq_refl)
      | S : forall l, DocMap ?d <> DocMap l |- _ => exfalso; exact (S d eq_refl)
      | S : forall a b, DocEnum ?n ?d <> DocEnum a b |- _ => exfalso; exact (S n d eq_refl)
      end.

Lemma plain_map_inv l : plain_doc (DocMap l) ->
  (forall k x, In (k, x) l -> k <> value_id /\ k <> value_value) /\ (forall k x, In (k, x) l -> plain_doc x).
Proof.
  intros H. unplain H. split; [assumption|]. intros k x I. rewrite Forall_forall in H2. exact (H2 _ I).
Qed.

Lemma plain_tags d : forall v, plain_doc d -> reads d v -> all_tags (eq tag_default) v.
Proof.
  induction d as [| |d IH|b0|k0 z0|f1|f2|c0|s0|l IH|l IH|n d IH] using doc_ind'; intros v P H;
    inversion H as [| |? ? R| | | | | | |? vs F|? ks ? u ? K R N|? m T NV R S G1 G2|? x u NI R G U|? x u y t T R G U G2 Ht]; subst;
    try (apply all_default_scalar; reflexivity).
  - apply IH; [unplain P; assumption|exact R].
  - apply all_default_array. assert (Q : Forall plain_doc l) by (unplain P; assumption). clear H P.
    revert vs F. induction IH as [|x r Hx Hr IH']; intros vs F v I; inversion F; subst; [destruct I|].
    inversion Q; subst. destruct I as [<-|I]; [auto|]. eapply IH'; eauto.
  - apply plain_map_inv in P. destruct P as [_ P]. rewrite Forall_forall in IH. apply all_default_dict. intros k v I.
    destruct (G2 _ _ I) as [N [x G]]. destruct (G1 _ _ G N) as (u' & I' & U).
    assert (u' = v). { apply In_get_iff in I, I'; [|exact S|exact S]. congruence. } subst u'.
    apply (IH (k, x) (given_In _ _ _ G)); [exact (P _ _ (given_In _ _ _ G))|exact U].
  - apply plain_map_inv in P. destruct P as [P _]. apply given_In, P in G. destruct G as [_ G]. congruence.
  - apply plain_map_inv in P. destruct P as [P _]. apply given_In, P in G. destruct G as [_ G]. congruence.
  - eapply all_default_nested; [exact N|]. apply IH; [unplain P; assumption|exact R].
Qed.

(** ** Failing *)
Lemma doc_seq_err l e : doc_seq l = Err e -> exists x, In x l /\ doc_value x = Err e.
Proof.
  induction l as [|x r IH]; cbn [doc_seq]; [discriminate|]. destruct (doc_value x) as [y|e'] eqn:E; cbn [res_bind].
  - destruct (doc_seq r) as [ys|e2] eqn:E2; cbn [res_map]; [discriminate|]. intros [= <-].
    destruct (IH eq_refl) as (z & I & Z). exists z. split; [right; exact I|exact Z].
  - intros [= <-]. exists x. split; [left; reflexivity|exact E].
Qed.
Lemma doc_entries_err l e : forall acc id raw, doc_entries l acc id raw = Err e ->
  exists k x, In (k, x) l /\ ((k = value_id /\ doc_tag x = Err e) \/ (k <> value_id /\ doc_value x = Err e)).
Proof.
  induction l as [|[k x] r IH]; intros acc id raw; cbn [doc_entries]; [discriminate|].
  assert (A : forall acc id raw, doc_entries r acc id raw = Err e -> exists k0 x0, In (k0, x0) ((k, x) :: r) /\
     ((k0 = value_id /\ doc_tag x0 = Err e) \/ (k0 <> value_id /\ doc_value x0 = Err e))).
  { intros a i w H. destruct (IH _ _ _ H) as (k0 & x0 & I & R). exists k0, x0. split; [right; exact I|exact R]. }
  destruct (ueqb k value_id) eqn:U1.
  - apply ueqb_eq in U1. destruct (doc_tag x) as [t|e'] eqn:E; cbn [res_bind]; [apply A|].
    intros [= <-]. exists k, x. split; [left; reflexivity|auto].
  - assert (N : k <> value_id) by (intros ->; rewrite ueqb_refl in U1; discriminate).
    destruct (ueqb k value_value); (destruct (doc_value x) as [t|e'] eqn:E; cbn [res_bind]; [apply A|];
    intros [= <-]; exists k, x; split; [left; reflexivity|auto]).
Qed.
Lemma doc_value_err d e : doc_value d = Err e ->
  exists l x, inside d (DocMap l) /\ In (value_id, x) l /\ (forall t, ~ doc_id x t) /\
    e = KInvalidType (doc_actual x) (lit "a 64-bit metadata id integer").
Proof.
  induction d as [| |d IH|b0|k0 z0|f1|f2|c0|s0|l IH|l IH|n d IH] using doc_ind'; try discriminate.
  - cbn [doc_value]. intros H. destruct (IH H) as (l & x & I & R). exists l, x. split; [constructor; exact I|exact R].
  - rewrite doc_value_seq. destruct (doc_seq l) as [vs|e'] eqn:E; cbn [res_map]; [discriminate|]. intros [= <-].
    apply doc_seq_err in E. destruct E as (x & I & E). rewrite Forall_forall in IH.
    destruct (IH _ I E) as (l' & y & Iy & R). exists l', y. split; [econstructor; eassumption|exact R].
  - rewrite doc_value_map. intros H. apply doc_entries_err in H. destruct H as (k & x & I & [[-> H]|[N H]]).
    + exists l, x. split; [constructor|]. split; [exact I|]. split.
      * intros t T. apply doc_tag_ok in T. congruence.
      * destruct x as [| | | |k z| | | | | | |]; try (injection H as <-; reflexivity). destruct k; try discriminate H; injection H as <-; reflexivity.
    + rewrite Forall_forall in IH. destruct (IH _ I H) as (l' & y & Iy & R). exists l', y.
      split; [econstructor; eassumption|exact R].
  - cbn [doc_value]. destruct (doc_value d) as [v|e'] eqn:E; cbn [res_map]; [discriminate|]. intros [= <-].
    destruct (IH eq_refl) as (l & x & I & R). exists l, x. split; [constructor; exact I|exact R].
Qed.
Lemma plain_inside d y : inside d y -> plain_doc d -> plain_doc y.
Proof.
  induction 1; intros P; auto.
  - apply IHinside. unplain P. assumption.
  - apply IHinside. unplain P. rewrite Forall_forall in *. auto.
  - apply IHinside. apply plain_map_inv in P. destruct P as [_ P]. exact (P _ _ H).
  - apply IHinside. unplain P. assumption.
Qed.
Lemma plain_reads d : plain_doc d -> exists v, reads d v.
Proof.
  intros P. destruct (doc_value d) as [v|e] eqn:E; [exists v; apply doc_value_reads; exact E|].
  apply doc_value_err in E. destruct E as (l & x & I & H & _). exfalso.
  apply (plain_inside _ _ I), plain_map_inv in P. destruct P as [P _]. destruct (P _ _ H). congruence.
Qed.

(** ** Looking things up *)
Lemma nested_at ks v w r : nested_under ks v w -> at_path (ks ++ r) w = at_path r v.
Proof.
  induction 1 as [v|k ks v w N IH]; [reflexivity|]. cbn [app at_path get]. rewrite cmp_refl. exact IH.
Qed.
Lemma doc_at_path d ks y : doc_at d ks y -> plain_doc d -> forall v, reads d v -> exists w, at_path ks v = Some w /\ reads y w.
Proof.
  induction 1 as [d|d ks y A IH|l k x ks y G A IH|n ks d r y K A IH]; intros P v R.
  - exists v. split; [reflexivity|exact R].
  - inversion R; subst. apply IH; [unplain P; assumption|assumption].
  - apply plain_map_inv in P. destruct P as [P1 P2]. assert (I := given_In _ _ _ G). destruct (P1 _ _ I) as [N1 N2].
    inversion R as [| | | | | | | | | | |? m T NV R' S G1 G2|? x' u NI R' G' U|? x' u y' t T R' G' U G2 Ht]; subst.
    + destruct (G1 _ _ G N1) as (u & Iu & U). destruct (IH (P2 _ _ I) _ U) as (w & W & RW).
      exists w. split; [|exact RW]. cbn [at_path]. apply In_get_iff in Iu; [|exact S]. rewrite Iu. exact W.
    + apply given_In, P1 in G'. destruct G'. congruence.
    + apply given_In, P1 in G'. destruct G'. congruence.
  - inversion R as [| | | | | | | | | |? ks' ? u ? K' R' N| | |]; subst.
    assert (ks' = ks) by (apply spells_upto in K, K'; congruence). subst.
    rewrite (nested_at _ _ _ r N). apply IH; [unplain P; assumption|assumption].
Qed.
Lemma path_doc_at ks : forall d v w, untagged_doc d -> plain_doc d -> reads d v -> at_path ks v = Some w ->
  exists y, doc_at d ks y /\ reads y w.
Proof.
  induction ks as [|k ks IH]; intros d.
  - intros v w _ _ R [= <-]. exists d. split; [constructor|exact R].
  - induction d as [| |d IHd|b0|k0 z0|f1|f2|c0|s0|l _|l _|n d _] using doc_ind'; intros v w U P R A.
    1,2,4,5,6,7,8,9,10: inversion R; subst; discriminate.
    + inversion R; subst. destruct (IHd v w) as (y & Y & RY); [unplain U; assumption|unplain P; assumption|assumption|assumption|].
      exists y. split; [constructor; exact Y|exact RY].
    + assert (U' : forall k x, In (k, x) l -> untagged_doc x).
      { unplain U. intros k' x' I'. rewrite Forall_forall in *. match goal with H : forall x, In x l -> _ |- _ => exact (H _ I') end. }
      apply plain_map_inv in P. destruct P as [P1 P2].
      inversion R as [| | | | | | | | | | |? m T NV R' S G1 G2|? x' u NI R' G' Ux|? x' u y' t T R' G' Ux G2 Ht]; subst.
      * cbn [at_path] in A. destruct (get k m) as [u|] eqn:E; [|discriminate]. apply In_get_iff in E; [|exact S].
        destruct (G2 _ _ E) as [N [x G]]. destruct (G1 _ _ G N) as (u' & I' & Ux).
        assert (u' = u). { apply In_get_iff in E, I'; [|exact S|exact S]. congruence. } subst u'.
        assert (I := given_In _ _ _ G).
        destruct (IH x u w (U' _ _ I) (P2 _ _ I) Ux A) as (y & Y & RY). exists y. split; [econstructor; eassumption|exact RY].
      * apply given_In, P1 in G'. destruct G'. congruence.
      * apply given_In, P1 in G'. destruct G'. congruence.
    + unplain U.
Qed.

Lemma says_total l : (forall k x, In (k, x) l -> plain_doc x) -> exists m, says l m.
Proof.
  intros P. destruct (doc_dict (DocMap l)) as [m|e] eqn:E.
  - exists m. apply doc_dict_says in E. destruct E as (l' & [= <-] & H). exact H.
  - exfalso. unfold doc_dict, doc_map in E.
    destruct (paired_total (fun x v => doc_value x = Ok v) l) as [l' Q].
    { intros k x I. destruct (plain_reads _ (P _ _ I)) as [v V]. exists v. apply doc_value_reads. exact V. }
    assert (X : doc_insert (fun k => k) doc_value l [] = Ok (extend [] l')) by (apply doc_insert_ok; exists l'; auto).
    congruence.
Qed.
Lemma says_profiles_total l : (forall k x, In (k, x) l -> exists lx, x = DocMap lx /\ forall k' y, In (k', y) lx -> plain_doc y) ->
  exists m, says_profiles l m.
Proof.
  intros P. destruct (doc_profiles (DocMap l)) as [m|e] eqn:E.
  - exists m. apply doc_profiles_says in E. destruct E as (l' & [= <-] & H). exact H.
  - exfalso. unfold doc_profiles, doc_map in E.
    destruct (paired_total (fun x v => doc_dict x = Ok v) l) as [l' Q].
    { intros k x I. destruct (P _ _ I) as (lx & -> & Px). destruct (says_total lx Px) as [mx M]. exists mx.
      apply doc_dict_says. exists lx. split; [reflexivity|exact M]. }
    assert (X : exists l2, Forall2 (fun a b => fst b = profile_new (fst a) /\ doc_dict (snd a) = Ok (snd b)) l l2).
    { clear - Q. induction Q as [|[a1 a2] [b1 b2] l l' [E H] F [l2 IH]]; [exists []; constructor|].
      exists ((profile_new a1, b2) :: l2). constructor; auto. }
    destruct X as [l2 X].
    assert (Y : doc_insert profile_new doc_dict l [] = Ok (extend [] l2)) by (apply doc_insert_ok; exists l2; auto).
    congruence.
Qed.

Lemma says_at l m ks y : says l m -> (forall k x, In (k, x) l -> plain_doc x) -> ks <> [] ->
  doc_at (DocMap l) ks y -> exists v, (forall t, at_path ks (VDict t m) = Some v) /\ reads y v.
Proof.
  intros (_ & S & G1 & _) P N A. inversion A as [|  |? k x r ? G A'|]; subst; [congruence|].
  destruct (G1 _ _ G) as (u & I & U). destruct (doc_at_path _ _ _ A' (P _ _ (given_In _ _ _ G)) _ U) as (w & W & RW).
  exists w. split; [|exact RW]. intros t. cbn [at_path]. apply In_get_iff in I; [|exact S]. rewrite I. exact W.
Qed.
Lemma at_says l m ks t v : says l m -> (forall k x, In (k, x) l -> plain_doc x /\ untagged_doc x) -> ks <> [] ->
  at_path ks (VDict t m) = Some v -> exists y, doc_at (DocMap l) ks y /\ reads y v.
Proof.
  intros (_ & S & G1 & G2) P N A. destruct ks as [|k ks]; [congruence|]. cbn [at_path] in A.
  destruct (get k m) as [u|] eqn:E; [|discriminate]. apply In_get_iff in E; [|exact S].
  destruct (G2 _ _ E) as [x G]. destruct (G1 _ _ G) as (u' & I' & U).
  assert (u' = u). { apply In_get_iff in E, I'; [|exact S|exact S]. congruence. } subst u'.
  destruct (P _ _ (given_In _ _ _ G)) as [P1 P2].
  destruct (path_doc_at ks x u v P2 P1 U A) as (y & Y & RY). exists y. split; [econstructor; eassumption|exact RY].
Qed.
Lemma says_tags l m : says l m -> (forall k x, In (k, x) l -> plain_doc x) ->
  all_tags (fun t => metadata_id t = 0%N) (VDict tag_default m).
Proof.
  intros (_ & S & G1 & G2) P.
  assert (H : all_tags (eq tag_default) (VDict tag_default m)).
  { apply all_default_dict. intros k u I. destruct (G2 _ _ I) as [x G]. destruct (G1 _ _ G) as (u' & I' & U).
    assert (u' = u). { apply In_get_iff in I, I'; [|exact S|exact S]. congruence. } subst u'.
    exact (plain_tags _ _ (P _ _ (given_In _ _ _ G)) U). }
  intros p x R. rewrite <- (H _ _ R). reflexivity.
Qed.

Lemma doc_source nm parse mistake custom p text r : parsed (doc_format nm parse mistake custom) (Some p) text r ->
  match parse text with
  | Err e => r = Err (err_msg e)
  | Ok d => (exists l m, d = DocMap l /\ says l m /\ r = Ok [(p, m)]) \/
            (exists k, r = Err (err_msg (mistake text k)) /\ forall l m, d = DocMap l -> ~ says l m)
  end.
Proof.
  cbn. destruct (parse text) as [d|e]; cbn [res_bind]; [|auto].
  destruct (doc_dict d) as [m|k] eqn:E; cbn [res_map_err]; intros ->.
  - apply doc_dict_says in E. destruct E as (l & -> & H). left. exists l, m. auto.
  - right. exists k. split; [reflexivity|]. intros l m -> H.
    assert (X : doc_dict (DocMap l) = Ok m) by (apply doc_dict_says; exists l; auto). congruence.
Qed.
Lemma doc_nested_source nm parse mistake custom text r : parsed (doc_format nm parse mistake custom) None text r ->
  match parse text with
  | Err e => r = Err (err_msg e)
  | Ok d => (exists l m, d = DocMap l /\ says_profiles l m /\ r = Ok m) \/
            (exists k, r = Err (err_msg (mistake text k)) /\ forall l m, d = DocMap l -> ~ says_profiles l m)
  end.
Proof.
  cbn. destruct (parse text) as [d|e]; cbn [res_bind]; [|auto].
  destruct (doc_profiles d) as [m|k] eqn:E; cbn [res_map_err]; intros ->.
  - apply doc_profiles_says in E. destruct E as (l & -> & H). left. exists l, m. auto.
  - right. exists k. split; [reflexivity|]. intros l m -> H.
    assert (X : doc_profiles (DocMap l) = Ok m) by (apply doc_profiles_says; exists l; auto). congruence.
Qed.

Lemma plain_provider nm parse mistake custom fs dd pr p text l :
  data_provider (doc_format nm parse mistake custom) fs dd = Ret pr ->
  parsed (doc_format nm parse mistake custom) (Some p) text (pv_data pr) ->
  parse text = Ok (DocMap l) -> (forall k x, In (k, x) l -> plain_doc x) ->
  plain pr /\ exists m, pv_data pr = Ok [(p, m)] /\ says l m.
Proof.
  intros D Pa E P. destruct (data_provider_ok (doc_format nm parse mistake custom) fs dd) as (pr' & D' & _ & _ & _ & M).
  rewrite D in D'. injection D' as <-. apply doc_source in Pa. rewrite E in Pa.
  destruct Pa as [(l' & m & [= <-] & S & Hd)|(k & _ & N)].
  - split; [|eauto]. split; [exact M|]. rewrite Hd. split.
    + split; [cbn; auto|]. constructor; [|constructor]. exact (says_wf _ _ S).
    + intros q d [I|[]]. injection I as <- <-. exact (says_tags _ _ S P).
  - exfalso. destruct (says_total l P) as [m S]. exact (N l m eq_refl S).
Qed.
Lemma nested_provider nm parse mistake custom fs dd pr text l :
  data_provider (doc_format nm parse mistake custom) fs dd = Ret pr ->
  parsed (doc_format nm parse mistake custom) None text (pv_data pr) ->
  parse text = Ok (DocMap l) ->
  (forall k x, In (k, x) l -> exists lx, x = DocMap lx /\ forall k' y, In (k', y) lx -> plain_doc y) ->
  plain pr /\ exists m, pv_data pr = Ok m /\ says_profiles l m.
Proof.
  intros D Pa E P. destruct (data_provider_ok (doc_format nm parse mistake custom) fs dd) as (pr' & D' & _ & _ & _ & M).
  rewrite D in D'. injection D' as <-. apply doc_nested_source in Pa. rewrite E in Pa.
  destruct Pa as [(l' & m & [= <-] & S & Hd)|(k & _ & N)].
  - split; [|eauto]. split; [exact M|]. rewrite Hd. destruct S as (S1 & S2 & S3 & S4 & S5).
    assert (X : forall q d, In (q, d) m -> exists lx, (exists k, In (k, DocMap lx) l) /\ says lx d).
    { intros q d I. apply In_get in I; [|exact S2]. destruct (S4 _ _ I) as [x Hx]. destruct (S3 _ _ Hx) as (lx & mx & -> & G & Sx).
      assert (mx = d) by congruence. subst. exists lx. split; [|exact Sx].
      destruct Hx as (l1 & k & l2 & -> & _). exists k. apply in_elt. }
    split.
    + split; [exact S2|]. apply Forall_forall. intros [q d] I. destruct (X _ _ I) as (lx & _ & Sx). exact (says_wf _ _ Sx).
    + intros q d I. destruct (X _ _ I) as (lx & [k Ik] & Sx). apply (says_tags _ _ Sx).
      destruct (P _ _ Ik) as (ly & [= <-] & Py). exact Py.
  - exfalso. destruct (says_profiles_total l P) as [m S]. exact (N l m eq_refl S).
Qed.
