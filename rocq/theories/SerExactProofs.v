(** Lemmas about what Rust values are written as. *)
From Coq Require Import Ascii String ZArith NArith Bool.
From Coq Require Import List.
From Verif Require Import Res BMap Str Profile Tag Num Value Err Figment Fmt De Ser SpecSer.
From Verif Require Import BMapProofs StrProofs ValueProofs.
From Verif Require LayersProofs.
Import ListNotations.

Section Last.
  Context {V : Type}.
  Implicit Types (l : list (ustr * V)) (m d : bmap ustr V).

  Lemma in_get k v m : sorted m -> In (k, v) m <-> get k m = Some v.
  Proof.
    intros S. split; [now apply In_get|]. intros G. destruct (get_In _ _ _ G) as (k' & C & I).
    apply cmp_leibniz in C. now subst.
  Qed.

  Lemma get_extend_last k v l : forall m, sorted m ->
    get k (extend m l) = Some v <->
    (exists a b, l = a ++ (k, v) :: b /\ forall w, ~ In (k, w) b) \/
    (get k m = Some v /\ forall w, ~ In (k, w) l).
  Proof.
    induction l as [|[k' v'] r IH]; intros m S; cbn [extend].
    - split; [auto|]. intros [(a & b & E & _)|[G _]]; [destruct a; discriminate|exact G].
    - rewrite (IH (insert k' v' m) (sorted_insert _ _ _ S)). split.
      + intros [(a & b & -> & N)|[G N]].
        * left. exists ((k', v') :: a), b. auto.
        * rewrite get_insert in G. destruct (cmp k k') eqn:C.
          -- apply cmp_leibniz in C. subst k'. injection G as <-. left. exists [], r. auto.
          -- right. split; [exact G|]. intros w [E|I]; [injection E as -> ->; rewrite cmp_refl in C; discriminate|exact (N w I)].
          -- right. split; [exact G|]. intros w [E|I]; [injection E as -> ->; rewrite cmp_refl in C; discriminate|exact (N w I)].
      + intros [(a & b & E & N)|[G N]].
        * destruct a as [|x a]; cbn [app] in E.
          -- injection E as -> -> ->. right. rewrite get_insert, cmp_refl. auto.
          -- injection E as _ E. left. exists a, b. auto.
        * right. split.
          -- rewrite get_insert. destruct (cmp k k') eqn:C; auto. apply cmp_leibniz in C. subst k'.
             now destruct (N v'); left.
          -- intros w I. apply (N w). now right.
  Qed.

  Lemma collect_last l : has_last l (collect l).
  Proof.
    split; [apply sorted_collect|]. intros k v. rewrite in_get by apply sorted_collect.
    unfold collect. rewrite get_extend_last by exact I. split; [|auto].
    intros [H|[G _]]; [exact H|discriminate G].
  Qed.

  Lemma last_unique l d : has_last l d -> d = collect l.
  Proof.
    intros [S H]. destruct (collect_last l) as [S' H']. apply (sorted_ext _ d (collect l) S S').
    intros k. destruct (get k d) as [v|] eqn:G.
    - symmetry. apply in_get; [exact S'|]. apply H', H. now apply in_get.
    - destruct (get k (collect l)) as [v|] eqn:G'; [|reflexivity]. apply in_get in G'; [|exact S'].
      apply H', H in G'. apply in_get in G'; [|exact S]. congruence.
  Qed.
End Last.

Lemma kind_written k z : serialized_num (NInt k z) = NInt (written_kind k) z.
Proof. now destruct k. Qed.

Lemma rewritten_iff v : forall w, serialize_value v = w <-> rewritten v w.
Proof.
  induction v as [t s|t c|t b|t n|t e|t d IH|t l IH] using value_ind'; intros w; cbn [serialize_value].
  - split; [intros <-; constructor|now inversion 1].
  - split; [intros <-; constructor|now inversion 1].
  - split; [intros <-; constructor|now inversion 1].
  - destruct n as [k z|x|x].
    + rewrite kind_written. split; [intros <-; constructor|now inversion 1].
    + split; [intros <-; constructor|now inversion 1].
    + split; [intros <-; constructor|now inversion 1].
  - split; [intros <-; constructor|now inversion 1].
  - unfold map_end. set (F := fun x y : ustr * value => fst x = fst y /\ rewritten (snd x) (snd y)).
    assert (M : Forall2 F d (map (fun kv => (fst kv, serialize_value (snd kv))) d)).
    { induction IH as [|[k x] r Hx Hr IHr]; cbn; constructor; [|exact IHr]. split; [reflexivity|]. now apply Hx. }
    assert (U : forall l, Forall2 F d l -> l = map (fun kv => (fst kv, serialize_value (snd kv))) d).
    { clear M. induction IH as [|[k x] r Hx Hr IHr]; intros l H; inversion H as [|? [k' y] ? l' [E R] Hl]; subst; [reflexivity|].
      cbn in E, R |- *. subst k'. apply Hx in R. cbn in R. rewrite R. f_equal. now apply IHr. }
    split.
    + intros <-. econstructor; [exact M|apply collect_last].
    + intros H. inversion H as [| | | | | | |? ? l d' A B|]; subst. apply U in A. subst l. now rewrite (last_unique _ _ B).
  - assert (M : Forall2 rewritten l (map serialize_value l)).
    { induction IH as [|x r Hx Hr IHr]; cbn; constructor; [|exact IHr]. now apply Hx. }
    split.
    + intros <-. now constructor.
    + intros H. inversion H as [| | | | | | | |? ? l' A]; subst. f_equal. clear H M. revert l' A.
      induction IH as [|x r Hx Hr IHr]; intros l' A; inversion A; subst; [reflexivity|]. cbn. f_equal; [now apply Hx|now apply IHr].
Qed.

Definition key_trouble (a : actual) : error := err_of_kind (KUnsupportedKey a (lit "string")).

(** What is to be shown of one value. *)
Definition exact (d : dval) : Prop :=
  (forall v, serialize d = Ok v <-> written d v) /\
  (forall e, serialize d = Err e <-> exists a, bad_key d a /\ e = key_trouble a).

Lemma pictured_iff v a : pictured v a <-> (forall t s, v <> VString t s) /\ a = to_actual v.
Proof.
  split.
  - intros H. inversion H; subst; (split; [discriminate|]); try reflexivity; destruct k; try discriminate; reflexivity.
  - intros [N ->]. destruct v as [t s|t c|t b|t n|t e|t d|t l]; try (now destruct (N t s)); try constructor.
    + destruct n as [k z|x|x]; [|constructor|constructor]. destruct k; cbn; try (now constructor).
    + destruct e; constructor.
Qed.

(** *** Lists *)
Lemma list_ok l : Forall exact l -> forall vs, all_ok (map serialize l) = Ok vs <-> Forall2 written l vs.
Proof.
  induction 1 as [|d l [A B] F IH]; intros vs; cbn [map all_ok].
  - split; [intros [= <-]; constructor|now inversion 1].
  - destruct (serialize d) as [v|e] eqn:E; cbn [res_bind].
    + destruct (all_ok (map serialize l)) as [vs'|e]; cbn [res_map].
      * split; [intros [= <-]; constructor; [now apply A|now apply IH]|].
        intros H. inversion H as [|? v' ? vs2 W Ws]; subst. apply A in W. apply IH in Ws. congruence.
      * split; [discriminate|]. intros H. inversion H as [|? v' ? vs2 W Ws]; subst. apply IH in Ws. discriminate.
    + split; [discriminate|]. intros H. inversion H as [|? v' ? vs2 W Ws]; subst. apply A in W. congruence.
Qed.
Lemma list_err l : Forall exact l -> forall e, all_ok (map serialize l) = Err e <-> exists a, bad_in l a /\ e = key_trouble a.
Proof.
  induction 1 as [|d l [A B] F IH]; intros e; cbn [map all_ok].
  - split; [discriminate|]. intros (a & H & _). inversion H.
  - destruct (serialize d) as [v|e'] eqn:E; cbn [res_bind].
    + destruct (all_ok (map serialize l)) as [vs'|e1]; cbn [res_map].
      * split; [discriminate|]. intros (a & H & ->). inversion H; subst.
        -- assert (X : Ok v = Err (key_trouble a)) by (apply B; eauto). discriminate X.
        -- assert (X : Ok vs' = Err (key_trouble a)) by (apply IH; eauto). discriminate X.
      * split.
        -- intros [= <-]. destruct (proj1 (IH e1) eq_refl) as (a & H & ->). exists a. split; [|reflexivity].
           eapply bi_later; [apply A; reflexivity|exact H].
        -- intros (a & H & ->). inversion H; subst.
           ++ assert (X : Ok v = Err (key_trouble a)) by (apply B; eauto). discriminate X.
           ++ apply (proj2 (IH (key_trouble a))). eauto.
    + split.
      * intros [= <-]. destruct (proj1 (B e') eq_refl) as (a & H & ->). exists a. split; [now constructor|reflexivity].
      * intros (a & H & ->). inversion H; subst.
        -- pose proof (proj2 (B (key_trouble a)) ltac:(eauto)). congruence.
        -- apply A in H2. discriminate.
Qed.

(** *** Fields *)
Lemma fields_ok l : Forall (fun kv : ustr * dval => exact (snd kv)) l ->
  forall vs, all_ok (map (fun kv => named (fst kv, serialize (snd kv))) l) = Ok vs <-> entries l vs.
Proof.
  induction 1 as [|[k d] l [A B] F IH]; intros vs; cbn [map all_ok fst snd].
  - split; [intros [= <-]; constructor|now inversion 1].
  - unfold named at 1. cbn [fst snd] in *. destruct (serialize d) as [v|e] eqn:E; cbn [res_map res_bind].
    + destruct (all_ok _) as [vs'|e]; cbn [res_map].
      * split; [intros [= <-]; constructor; [now apply A|now apply IH]|].
        intros H. inversion H as [|? ? v' ? vs2 W Ws]; subst. apply A in W. apply IH in Ws. congruence.
      * split; [discriminate|]. intros H. inversion H as [|? ? v' ? vs2 W Ws]; subst. apply IH in Ws. discriminate.
    + split; [discriminate|]. intros H. inversion H as [|? ? v' ? vs2 W Ws]; subst. apply A in W. congruence.
Qed.
Lemma fields_err l : Forall (fun kv : ustr * dval => exact (snd kv)) l ->
  forall e, all_ok (map (fun kv => named (fst kv, serialize (snd kv))) l) = Err e <->
    exists a, bad_in (map snd l) a /\ e = key_trouble a.
Proof.
  induction 1 as [|[k d] l [A B] F IH]; intros e; cbn [map all_ok fst snd].
  - split; [discriminate|]. intros (a & H & _). inversion H.
  - unfold named at 1. cbn [fst snd] in *. destruct (serialize d) as [v|e'] eqn:E; cbn [res_map res_bind].
    + destruct (all_ok _) as [vs'|e1]; cbn [res_map].
      * split; [discriminate|]. intros (a & H & ->). inversion H; subst.
        -- assert (X : Ok v = Err (key_trouble a)) by (apply B; eauto). discriminate X.
        -- assert (X : Ok vs' = Err (key_trouble a)) by (apply IH; eauto). discriminate X.
      * split.
        -- intros [= <-]. destruct (proj1 (IH e1) eq_refl) as (a & H & ->). exists a. split; [|reflexivity].
           eapply bi_later; [apply A; reflexivity|exact H].
        -- intros (a & H & ->). inversion H; subst.
           ++ assert (X : Ok v = Err (key_trouble a)) by (apply B; eauto). discriminate X.
           ++ apply (proj2 (IH (key_trouble a))). eauto.
    + split.
      * intros [= <-]. destruct (proj1 (B e') eq_refl) as (a & H & ->). exists a. split; [now constructor|reflexivity].
      * intros (a & H & ->). inversion H; subst.
        -- pose proof (proj2 (B (key_trouble a)) ltac:(eauto)). congruence.
        -- apply A in H2. discriminate.
Qed.

(** *** Pairs *)
Definition written_pair (x : dval * dval) : res error (ustr * value) :=
  res_bind (res_bind (serialize (fst x)) serialized_key) (fun k => named (k, serialize (snd x))).

Lemma tags_default d v : written d v -> exact d -> vtag v = tag_default.
Proof.
  intros W _. induction W; try reflexivity; auto. destruct H; reflexivity.
Qed.

Lemma key_cases d : exact d ->
  (exists s, serialize d = Ok (VString tag_default s) /\ written d (VString tag_default s) /\
     res_bind (serialize d) serialized_key = Ok s) \/
  (exists v, serialize d = Ok v /\ written d v /\ pictured v (to_actual v) /\ (forall t s, v <> VString t s) /\
     res_bind (serialize d) serialized_key = Err (key_trouble (to_actual v))) \/
  (exists a, serialize d = Err (key_trouble a) /\ bad_key d a /\ res_bind (serialize d) serialized_key = Err (key_trouble a)).
Proof.
  intros X. assert (X' := X). destruct X' as [A B]. destruct (serialize d) as [v|e] eqn:E.
  - assert (W : written d v) by (apply A; reflexivity). assert (T := tags_default d v W X).
    destruct v as [t s|t c|t b|t n|t em|t dd|t l]; cbn in T; subst t.
    + left. exists s. auto.
    + right. left. eexists. split; [reflexivity|]. split; [exact W|]. split; [apply pictured_iff; split; [discriminate|reflexivity]|]. split; [discriminate|reflexivity].
    + right. left. eexists. split; [reflexivity|]. split; [exact W|]. split; [apply pictured_iff; split; [discriminate|reflexivity]|]. split; [discriminate|reflexivity].
    + right. left. eexists. split; [reflexivity|]. split; [exact W|]. split; [apply pictured_iff; split; [discriminate|reflexivity]|]. split; [discriminate|reflexivity].
    + right. left. eexists. split; [reflexivity|]. split; [exact W|]. split; [apply pictured_iff; split; [discriminate|reflexivity]|]. split; [discriminate|reflexivity].
    + right. left. eexists. split; [reflexivity|]. split; [exact W|]. split; [apply pictured_iff; split; [discriminate|reflexivity]|]. split; [discriminate|reflexivity].
    + right. left. eexists. split; [reflexivity|]. split; [exact W|]. split; [apply pictured_iff; split; [discriminate|reflexivity]|]. split; [discriminate|reflexivity].
  - right. right. destruct (proj1 (B e) eq_refl) as (a & H & ->). exists a. auto.
Qed.

Lemma exact_det d v w : exact d -> written d v -> written d w -> v = w.
Proof. intros [A _] H K. apply A in H, K. congruence. Qed.
Lemma exact_not d v a : exact d -> written d v -> bad_key d a -> False.
Proof.
  intros [A B] H K. apply A in H. assert (X : serialize d = Err (key_trouble a)) by (apply B; eauto). congruence.
Qed.

Lemma pairs_ok l : Forall (fun kv => exact (fst kv) /\ exact (snd kv)) l ->
  forall vs, all_ok (map written_pair l) = Ok vs <->
    Forall2 (fun x y => written (fst x) (VString tag_default (fst y)) /\ written (snd x) (snd y)) l vs.
Proof.
  induction 1 as [|[k d] l [KX [A B]] F IH]; intros vs; cbn [map all_ok].
  - split; [intros [= <-]; constructor|now inversion 1].
  - unfold written_pair at 1. cbn [fst snd] in *.
    destruct (key_cases k KX) as [(s & E & W & ->)|[(v & E & W & P & N & ->)|(a & E & W & ->)]]; cbn [res_bind].
    + unfold named at 1. cbn [fst snd]. destruct (serialize d) as [v|e] eqn:Ed; cbn [res_map res_bind].
      * destruct (all_ok _) as [vs'|e]; cbn [res_map].
        -- split; [intros [= <-]; constructor; [split; [exact W|now apply A]|now apply IH]|].
           intros H. inversion H as [|? [s' v'] ? vs2 [W1 W2] Ws]; subst. cbn [fst snd] in *. apply A in W2. apply IH in Ws.
           assert (Q := exact_det _ _ _ KX W W1). congruence.
        -- split; [discriminate|]. intros H. inversion H as [|? v' ? vs2 _ Ws]; subst. apply IH in Ws. discriminate.
      * split; [discriminate|]. intros H. inversion H as [|? v' ? vs2 [_ W2] Ws]; subst. apply A in W2. discriminate.
    + split; [discriminate|]. intros H. inversion H as [|? [s' v'] ? vs2 [W1 _] Ws]; subst. cbn in W1.
      assert (Q := exact_det _ _ _ KX W W1). now destruct (N _ _ Q).
    + split; [discriminate|]. intros H. inversion H as [|? [s' v'] ? vs2 [W1 _] Ws]; subst. cbn in W1.
      destruct (exact_not _ _ _ KX W1 W).
Qed.
Lemma pairs_err l : Forall (fun kv => exact (fst kv) /\ exact (snd kv)) l ->
  forall e, all_ok (map written_pair l) = Err e <-> exists a, bad_pair l a /\ e = key_trouble a.
Proof.
  induction 1 as [|[k d] l [KX DX] F IH]; intros e; cbn [map all_ok].
  - split; [discriminate|]. intros (a & H & _). inversion H.
  - unfold written_pair at 1. cbn [fst snd] in *. assert (DX' := DX). destruct DX' as [A B].
    destruct (key_cases k KX) as [(s & E & W & ->)|[(v & E & W & P & N & ->)|(a & E & W & ->)]]; cbn [res_bind].
    + unfold named at 1. cbn [fst snd]. destruct (serialize d) as [v|e'] eqn:Ed; cbn [res_map res_bind].
      * assert (Wd : written d v) by (apply A; reflexivity).
        destruct (all_ok _) as [vs'|e1]; cbn [res_map].
        -- split; [discriminate|]. intros (a & H & ->). exfalso. inversion H; subst.
           ++ eapply (exact_not k); eauto.
           ++ assert (Q := exact_det _ _ _ KX W ltac:(eassumption)). subst. match goal with X : pictured _ _ |- _ => inversion X end.
           ++ eapply (exact_not d); eauto.
           ++ assert (X : Ok vs' = Err (key_trouble a)) by (apply IH; eauto). discriminate X.
        -- split.
           ++ intros [= <-]. destruct (proj1 (IH e1) eq_refl) as (a & H & ->). exists a. split; [|reflexivity].
              eapply bp_later; eauto.
           ++ intros (a & H & ->). inversion H; subst; try (exfalso; eapply (exact_not k); eauto; fail); try (exfalso; eapply (exact_not d); eauto; fail).
              ** assert (Q := exact_det _ _ _ KX W ltac:(eassumption)). subst. match goal with X : pictured _ _ |- _ => inversion X end.
              ** apply (proj2 (IH (key_trouble a))). eauto.
      * split.
        -- intros [= <-]. destruct (proj1 (B e') eq_refl) as (a & H & ->). exists a. split; [|reflexivity]. eapply bp_value; eauto.
        -- intros (a & H & ->). inversion H; subst; try (exfalso; eapply (exact_not k); eauto; fail).
           ++ assert (Q := exact_det _ _ _ KX W ltac:(eassumption)). subst. match goal with X : pictured _ _ |- _ => inversion X end.
           ++ pose proof (proj2 (B (key_trouble a)) ltac:(eauto)). congruence.
           ++ match goal with X : written d _ |- _ => apply A in X; discriminate X end.
    + split.
      * intros [= <-]. exists (to_actual v). split; [|reflexivity]. eapply bp_key; eauto.
      * intros (a & H & ->). inversion H; subst; try (exfalso; eapply (exact_not k); eauto; fail);
          assert (Q := exact_det _ _ _ KX W ltac:(eassumption)); subst; try (now destruct (N _ _ eq_refl)).
        match goal with X : pictured _ _ |- _ => apply pictured_iff in X; destruct X as [_ ->] end. reflexivity.
    + split.
      * intros [= <-]. exists a. split; [|reflexivity]. now apply bp_within.
      * intros (a' & H & ->). assert (KX' := KX). destruct KX' as [Ak Bk].
        inversion H; subst; try (exfalso; eapply (exact_not k); eauto; fail).
        assert (X : serialize k = Err (key_trouble a')) by (apply Bk; eauto). congruence.
Qed.

(** *** All values *)
Lemma serialize_exact : forall d, exact d.
Proof.
  apply LayersProofs.dval_ind'.
  - intros d S. destruct d; try destruct S; (split; [intros w|intros er]); cbn [serialize];
      try (split; [discriminate|intros (a & H & _); inversion H]);
      try (split; [intros [= <-]; constructor|now inversion 1]).
    + rewrite kind_written. split; [intros [= <-]; constructor|now inversion 1].
    + split; [intros [= <-]; constructor; now apply rewritten_iff|]. intros H. inversion H; subst. f_equal. now apply rewritten_iff.
    + destruct t as [n]. cbn [tag_raw]. split; [intros [= <-]; constructor|now inversion 1].
  - intros d [A B]. repeat split; cbn [serialize]; intros H;
      try (constructor; now apply A); try (inversion H; subst; now apply A);
      try (apply B in H; destruct H as (a & H & ->); exists a; split; [now constructor|reflexivity]);
      destruct H as (a & H & ->); inversion H; subst; apply B; eauto.
  - intros l F. assert (LO := list_ok l F). assert (LE := list_err l F).
    split; (split; [intros v|intros e]); cbn [serialize]; destruct (all_ok (map serialize l)) as [vs|e'] eqn:E; cbn [res_map];
      try (split; [discriminate|]; try (intros (a & H & ->)); try (intros H); inversion H; subst;
           match goal with X : Forall2 written _ _ |- _ => apply LO in X; discriminate X
                         | X : bad_in _ ?a |- _ => assert (Y : Ok vs = Err (key_trouble a)) by (apply LE; eauto); discriminate Y end).
    all: try (split; [intros [= <-]; constructor; now apply LO|intros H; inversion H; subst;
              match goal with X : Forall2 written _ _ |- _ => apply LO in X; congruence end]).
    all: split; [intros [= <-]; destruct (proj1 (LE e') eq_refl) as (a & H & ->); exists a; split; [now constructor|reflexivity]
                |intros (a & H & ->); inversion H; subst; pose proof (proj2 (LE (key_trouble a)) ltac:(eauto)); congruence].
  - intros l F. assert (LO := fields_ok l F). assert (LE := fields_err l F).
    split; (split; [intros v|intros e]); cbn [serialize]; destruct (all_ok _) as [vs|e'] eqn:E; cbn [res_map];
      try (split; [discriminate|]; try (intros (a & H & ->)); try (intros H); inversion H; subst;
           match goal with X : entries _ _ |- _ => apply LO in X; discriminate X
                         | X : bad_in _ ?a |- _ => assert (Y : Ok vs = Err (key_trouble a)) by (apply LE; eauto); discriminate Y end).
    all: try (split; [intros [= <-]; econstructor; [now apply LO|apply collect_last]|intros H; inversion H; subst;
              match goal with X : entries _ _ |- _ => apply LO in X; injection X as <- end;
              match goal with X : has_last _ _ |- _ => rewrite (last_unique _ _ X) end; reflexivity]).
    all: split; [intros [= <-]; destruct (proj1 (LE e') eq_refl) as (a & H & ->); exists a; split; [now constructor|reflexivity]
                |intros (a & H & ->); inversion H; subst; pose proof (proj2 (LE (key_trouble a)) ltac:(eauto)); congruence].
  - intros l F. assert (LO := pairs_ok l F). assert (LE := pairs_err l F).
    (split; [intros v|intros e]); cbn [serialize]; fold written_pair; change (fun kv => res_bind (res_bind (serialize (fst kv)) serialized_key) (fun k => named (k, serialize (snd kv)))) with written_pair;
      destruct (all_ok _) as [vs|e'] eqn:E; cbn [res_map].
    + split; [intros [= <-]; econstructor; [now apply LO|apply collect_last]|]. intros H. inversion H; subst.
      match goal with X : Forall2 _ _ _ |- _ => apply LO in X; injection X as <- end.
      match goal with X : has_last _ _ |- _ => rewrite (last_unique _ _ X) end. reflexivity.
    + split; [discriminate|]. intros H. inversion H; subst. match goal with X : Forall2 _ _ _ |- _ => apply LO in X; discriminate X end.
    + split; [discriminate|]. intros (a & H & ->). inversion H; subst.
      assert (Y : Ok vs = Err (key_trouble a)) by (apply LE; eauto). discriminate Y.
    + split; [intros [= <-]; destruct (proj1 (LE e') eq_refl) as (a & H & ->); exists a; split; [now constructor|reflexivity]
             |intros (a & H & ->); inversion H; subst; pose proof (proj2 (LE (key_trouble a)) ltac:(eauto)); congruence].
  - intros name s F. destruct s as [|d|l|l]; cbn in F.
    + split; [intros v|intros e]; cbn [serialize]; [split; [intros [= <-]; constructor|now inversion 1]|].
      split; [discriminate|intros (a & H & _); inversion H].
    + destruct F as [A B]. split; [intros v|intros e]; cbn [serialize]; destruct (serialize d) as [w|e'] eqn:E; cbn [res_map].
      * split; [intros [= <-]; constructor; now apply A|]. intros H. inversion H; subst.
        match goal with X : written d _ |- _ => apply A in X; injection X as <- end. reflexivity.
      * split; [discriminate|]. intros H. inversion H; subst. match goal with X : written d _ |- _ => apply A in X; discriminate X end.
      * split; [discriminate|]. intros (a & H & ->). inversion H; subst.
        assert (Y : Ok w = Err (key_trouble a)) by (apply B; eauto). discriminate Y.
      * split; [intros [= <-]; destruct (proj1 (B e') eq_refl) as (a & H & ->); exists a; split; [now constructor|reflexivity]
             |intros (a & H & ->); inversion H; subst; pose proof (proj2 (B (key_trouble a)) ltac:(eauto)); congruence].
    + assert (LO := list_ok l F). assert (LE := list_err l F).
      split; [intros v|intros e]; cbn [serialize]; destruct (all_ok _) as [vs|e'] eqn:E; cbn [res_map].
      * split; [intros [= <-]; constructor; now apply LO|]. intros H. inversion H; subst.
        match goal with X : Forall2 _ _ _ |- _ => apply LO in X; injection X as <- end. reflexivity.
      * split; [discriminate|]. intros H. inversion H; subst. match goal with X : Forall2 _ _ _ |- _ => apply LO in X; discriminate X end.
      * split; [discriminate|]. intros (a & H & ->). inversion H; subst.
        assert (Y : Ok vs = Err (key_trouble a)) by (apply LE; eauto). discriminate Y.
      * split; [intros [= <-]; destruct (proj1 (LE e') eq_refl) as (a & H & ->); exists a; split; [now constructor|reflexivity]
             |intros (a & H & ->); inversion H; subst; pose proof (proj2 (LE (key_trouble a)) ltac:(eauto)); congruence].
    + assert (LO := fields_ok l F). assert (LE := fields_err l F).
      split; [intros v|intros e]; cbn [serialize]; destruct (all_ok _) as [vs|e'] eqn:E; cbn [res_map].
      * split; [intros [= <-]; econstructor; [now apply LO|apply collect_last]|]. intros H. inversion H; subst.
        match goal with X : entries _ _ |- _ => apply LO in X; injection X as <- end.
        match goal with X : has_last _ _ |- _ => rewrite (last_unique _ _ X) end. reflexivity.
      * split; [discriminate|]. intros H. inversion H; subst. match goal with X : entries _ _ |- _ => apply LO in X; discriminate X end.
      * split; [discriminate|]. intros (a & H & ->). inversion H; subst.
        assert (Y : Ok vs = Err (key_trouble a)) by (apply LE; eauto). discriminate Y.
      * split; [intros [= <-]; destruct (proj1 (LE e') eq_refl) as (a & H & ->); exists a; split; [now constructor|reflexivity]
             |intros (a & H & ->); inversion H; subst; pose proof (proj2 (LE (key_trouble a)) ltac:(eauto)); congruence].
Qed.
