(** Extraction, path by path. *)
From Coq Require Import Ascii String ZArith NArith Bool Lia.
From Coq Require Import List.
From Verif Require Import Res BMap BMapProofs Str StrProofs Profile Tag Num Value Metadata Err Coalesce Figment De.
From Verif Require Import SpecValue SpecFigment SpecRt SpecDe SpecExtract SpecInto SpecStack SpecView SpecSettings.
From Verif Require Import ValueProofs DeProofs ExtractProofs RtProofs SerProofs BlindProofs ViewProofs LayersProofs StackProofs.
Import ListNotations.

Lemma at_path_app p q : forall v, at_path (p ++ q) v = match at_path p v with Some w => at_path q w | None => None end.
Proof.
  induction p as [|k p IH]; intros v; [reflexivity|]. cbn [app at_path].
  destruct v as [| | | | |g d|]; try reflexivity. destruct (get k d); [apply IH|reflexivity].
Qed.

Lemma at_path_untag p : forall w, at_path p (untag w) = option_map untag (at_path p w).
Proof.
  induction p as [|k p IH]; intros w; [reflexivity|].
  destruct w as [| | | | |t d|]; try reflexivity. cbn [at_path untag].
  fold (undict d). rewrite get_undict. destruct (get k d) as [y|]; cbn; [apply IH|reflexivity].
Qed.

Lemma same_keys {A B} (a : bmap ustr A) : forall b : bmap ustr B, sorted a -> sorted b ->
  (forall k, In k (map fst a) <-> In k (map fst b)) -> map fst a = map fst b.
Proof.
  induction a as [|[k x] a IH]; intros [|[k' y] b] Sa Sb H; cbn [map fst] in *; [reflexivity| | |].
  - destruct (proj2 (H k') (or_introl eq_refl)).
  - destruct (proj1 (H k) (or_introl eq_refl)).
  - cbn [sorted] in Sa, Sb. destruct Sa as [La Sa], Sb as [Lb Sb].
    assert (LA : forall j, In j (map fst a) -> cmp k j = Lt).
    { intros j I. apply in_map_iff in I. destruct I as ([j' z] & <- & I). exact (proj1 (lt_all_In _ _) La _ _ I). }
    assert (LB : forall j, In j (map fst b) -> cmp k' j = Lt).
    { intros j I. apply in_map_iff in I. destruct I as ([j' z] & <- & I). exact (proj1 (lt_all_In _ _) Lb _ _ I). }
    assert (E : k = k').
    { destruct (proj1 (H k) (or_introl eq_refl)) as [E|I1]; [auto|]. destruct (proj2 (H k') (or_introl eq_refl)) as [E|I2]; [auto|].
      assert (X := LA _ I2). rewrite cmp_sym, (LB _ I1) in X. discriminate. }
    subst k'. f_equal. apply IH; auto. intros j. split; intros I.
    + destruct (proj1 (H j) (or_intror I)) as [<-|I']; [|exact I']. assert (X := LA _ I). rewrite cmp_refl in X. discriminate.
    + destruct (proj2 (H j) (or_intror I)) as [<-|I']; [|exact I']. assert (X := LB _ I). rewrite cmp_refl in X. discriminate.
Qed.

Section At.
  Variables (i : interp) (V : view) (u : value).
  Hypothesis SV : forall p n, V p n <-> view_of u p n.
  Hypothesis WU : wf u.

  Lemma leaf_here p w x : at_path p u = Some w -> V p (Leaf x) <-> x = w /\ is_dict w = false.
  Proof. intros E. rewrite SV. cbn. unfold leaf_at. rewrite E. split; [intros [[= <-] D]; auto|intros [-> D]; auto]. Qed.

  Lemma table_here p w : at_path p u = Some w -> V p Table <-> is_dict w = true.
  Proof.
    intros E. rewrite SV. cbn. rewrite E. split; [intros (t & d & [= ->]); reflexivity|].
    destruct w as [| | | | |g d|]; try discriminate. eauto.
  Qed.

  Lemma present_below p g d k : at_path p u = Some (VDict g d) -> present V (p ++ [k]) <-> In k (map fst d).
  Proof.
    intros E. assert (W : wf (VDict g d)) by exact (at_path_wf _ _ _ WU E). apply wf_VDict in W. destruct W as [Sd _].
    assert (EP : at_path (p ++ [k]) u = get k d) by (rewrite at_path_app, E; cbn; now destruct (get k d)).
    assert (EI : In k (map fst d) <-> exists x, get k d = Some x).
    { split.
      - intros I. apply in_map_iff in I. destruct I as ([k' x] & <- & I). exists x. exact (In_get _ _ _ Sd I).
      - intros [x G]. apply get_In in G. destruct G as (k' & C & I). apply cmp_leibniz in C. subst k'. apply in_map_iff. exists (k, x). auto. }
    rewrite EI. split.
    - intros [n H]. rewrite SV in H. destruct n; cbn in H; unfold leaf_at in H; rewrite EP in H.
      + destruct H as (t & d' & ->). eauto.
      + destruct H as [-> _]. eauto.
    - intros [x G]. destruct (is_dict x) eqn:D.
      + exists Table. apply (table_here _ x); [now rewrite EP|exact D].
      + exists (Leaf x). apply (leaf_here _ x); [now rewrite EP|auto].
  Qed.

  Lemma at_leaf t p w y : at_path p u = Some w -> (is_dict w = true -> ~ extracts i t w y) ->
    extracts i t w y <-> exists x, V p (Leaf x) /\ extracts i t x y.
  Proof.
    intros E D. split.
    - intros H. exists w. split; [|exact H]. apply (leaf_here p w); [exact E|]. split; [reflexivity|]. destruct (is_dict w); [destruct (D eq_refl H)|reflexivity].
    - intros (x & L & H). apply (leaf_here p w _ E) in L. destruct L as [-> _]. exact H.
  Qed.

  Lemma extracts_laid_out t : tabular t -> forall p w y, at_path p u = Some w -> extracts i t w y <-> laid_out i V t p y.
  Proof.
    induction t as [|k| | | | | |t IH|t IH|ts IH|t IH|k t IHk IH|n id dn fs IH|id t IH|id ts IH|id|id vs IH| | | | | | |a b IHa IHb]
      using ty_ind'; intros T p w y E; cbn [tabular undivided] in T; try (destruct T; fail).
    all: cbn [laid_out].
    all: try (apply at_leaf; [exact E|]; intros D; apply undivided_dict; [exact I|exact D]).
    - cbn [extracts].
      assert (X : (exists g e, w = VEmpty g e) <-> (exists g e, V p (Leaf (VEmpty g e)))).
      { split; intros (g & e & H); exists g, e.
        - apply (leaf_here p w _ E). subst w. auto.
        - apply (leaf_here p w _ E) in H. destruct H as [-> _]. reflexivity. }
      rewrite X. split; (intros [H|[N (x & H & ->)]]; [now left|right; split; [exact N|exists x; split; [|reflexivity]]]); now apply (IH T p w x E).
    - cbn [extracts]. split.
      + intros (g & d & ys & -> & F & ->). split; [now apply (table_here p _ E)|]. exists ys. split; [reflexivity|].
        assert (W : wf (VDict g d)) by exact (at_path_wf _ _ _ WU E). apply wf_VDict in W. destruct W as [Sd _].
        assert (K : map fst ys = map fst d).
        { clear - F. induction F as [|[a b] [c e] d ys [H _] F IH]; [reflexivity|]. cbn in *. now rewrite H, IH. }
        split; [|split].
        * eapply sorted_keys; [|exact Sd]. symmetry. exact K.
        * intros k. rewrite K. exact (present_below p g d k E).
        * assert (Q : forall k x, In (k, x) d -> at_path (p ++ [k]) u = Some x).
          { intros k x I. rewrite at_path_app, E. cbn. now rewrite (In_get _ _ _ Sd I). }
          clear - IH T F Q. induction F as [|[a b] [c e] d ys [H X] F IHF]; constructor.
          -- cbn in *. subst c. apply (IH T (p ++ [a]) b e); [apply Q; now left|exact X].
          -- apply IHF. intros k x I. apply Q. now right.
      + intros (TB & ys & -> & Sy & PR & F). apply (table_here p w E) in TB. destruct w as [| | | | |g d|]; try discriminate.
        assert (W : wf (VDict g d)) by exact (at_path_wf _ _ _ WU E). apply wf_VDict in W. destruct W as [Sd _].
        exists g, d, ys. split; [reflexivity|]. split; [|reflexivity].
        assert (K : map fst d = map fst ys).
        { apply same_keys; [exact Sd|exact Sy|]. intros k. rewrite <- PR. symmetry. exact (present_below p g d k E). }
        assert (Q : forall k x, In (k, x) d -> at_path (p ++ [k]) u = Some x).
        { intros k x I. rewrite at_path_app, E. cbn. now rewrite (In_get _ _ _ Sd I). }
        clear - IH T F Q K. revert d K Q. induction F as [|[c e] ys X F IHF]; intros [|[a b] d] K Q; try discriminate; constructor.
        * injection K as -> K. cbn in *. split; [reflexivity|]. apply (IH T (p ++ [c]) b e); [apply Q; now left|exact X].
        * injection K as _ K. apply IHF; [exact K|]. intros k x I. apply Q. now right.
    - change (TStruct n id dn fs) with (TStruct n id dn fs).
      assert (FL : forall g d, w = VDict g d -> forall ys,
        by_name (map (fun f => (fst f, (optional (snd f), extracts i (snd f)))) fs) d ys <->
        each_field V p (map (fun f => (fst f, (optional (snd f), laid_out i V (snd f)))) fs) ys).
      { intros g d -> ys. revert ys. assert (W : wf (VDict g d)) by exact (at_path_wf _ _ _ WU E). apply wf_VDict in W. destruct W as [Sd _].
        clear - IH T E Sd SV WU. induction fs as [|[m t] fs IHF]; intros [|[m' y] ys]; cbn [map by_name each_field fst snd] in *; try reflexivity.
        destruct T as [T1 T2]. inversion IH as [|? ? I1 I2]; subst. cbn [snd] in I1. rewrite (IHF I2 T2 ys).
        assert (A : match get m d with Some v => extracts i t v y | None => optional t /\ y = EVNone end <->
                    (present V (p ++ [m]) /\ laid_out i V t (p ++ [m]) y) \/ (~ present V (p ++ [m]) /\ optional t /\ y = EVNone)).
        { assert (EP : at_path (p ++ [m]) u = get m d) by (rewrite at_path_app, E; cbn; now destruct (get m d)).
          assert (PB := present_below p g d m E).
          destruct (get m d) as [x|] eqn:G.
          - assert (P : present V (p ++ [m])).
            { apply PB. apply get_In in G. destruct G as (k' & C & J). apply cmp_leibniz in C. subst k'. apply in_map_iff. exists (m, x). auto. }
            rewrite (I1 T1 (p ++ [m]) x y EP). tauto.
          - assert (P : ~ present V (p ++ [m])).
            { intros P. apply PB in P. apply in_map_iff in P. destruct P as ([k' x] & <- & J). cbn [fst] in G. rewrite (In_get _ _ _ Sd J) in G. discriminate. }
            tauto. }
        rewrite A. reflexivity. }
      split.
      + intros H. destruct (is_dict w) eqn:D.
        * destruct w as [| | | | |g d|]; try discriminate. left. split; [now apply (table_here p _ E)|].
          cbn [extracts] in H. destruct H as [(g' & d' & ys & E' & DN & B & ->)|(g' & l & ys & E' & _)]; [|discriminate].
          injection E' as <- <-. split.
          -- intros Dn k P. apply (present_below p g d k E) in P. apply in_map_iff in P. destruct P as ([k' x] & <- & J). exact (DN Dn _ _ J).
          -- exists ys. split; [reflexivity|]. now apply (FL g d eq_refl).
        * right. exists w. split; [now apply (leaf_here p w _ E)|exact H].
      + intros [(TB & DN & ys & -> & B)|(x & L & H)].
        * apply (table_here p w E) in TB. destruct w as [| | | | |g d|]; try discriminate. cbn [extracts]. left.
          exists g, d, ys. split; [reflexivity|]. split; [|split; [now apply (FL g d eq_refl)|reflexivity]].
          intros Dn k x J. apply (DN Dn). apply (present_below p g d k E). apply in_map_iff. exists (k, x). auto.
        * apply (leaf_here p w _ E) in L. destruct L as [-> _]. exact H.
    - cbn [extracts]. split; intros (x & H & ->); exists x; (split; [|reflexivity]); now apply (IH T p w x E).
  Qed.

  Lemma laid_out_present t : tabular t -> forall p y, laid_out i V t p y -> present V p.
  Proof.
    induction t as [|k| | | | | |t IH|t IH|ts IH|t IH|k t IHk IH|n id dn fs IH|id t IH|id ts IH|id|id vs IH| | | | | | |a b IHa IHb]
      using ty_ind'; intros T p y; cbn [tabular undivided laid_out] in *; try (destruct T; fail);
      try (intros (x & H & _); exists (Leaf x); exact H).
    - intros [[(g & e & H) _]|(_ & x & H & _)]; [eexists; exact H|]. exact (IH T p x H).
    - intros [H _]. eexists. exact H.
    - intros [[H _]|(x & H & _)]; eexists; exact H.
    - intros (x & H & _). exact (IH T p x H).
  Qed.
End At.
