(** Equality. *)
From Coq Require Import Ascii String ZArith NArith Bool.
From Coq Require Import Floats.SpecFloat.
From Coq Require Import List.
From Verif Require Import Res BMap Str Profile Tag Num Value Metadata Path Err Coalesce Figment Fmt De Data Eq.
From Verif Require Import BMapProofs StrProofs ValueProofs ProfileProofs TagProofs LookupProofs.
From Verif Require Import SpecFigment SpecLookup SpecEq.
Import ListNotations.

Lemma list_eqb_eq {A} (eqb : A -> A -> bool) : (forall a b, eqb a b = true <-> a = b) ->
  forall l l', list_eqb eqb l l' = true <-> l = l'.
Proof.
  intros H. induction l as [|x r IH]; intros [|y s]; cbn; try (split; [discriminate|]; discriminate).
  - split; reflexivity.
  - rewrite andb_true_iff, H, IH. split; [intros [-> ->]; reflexivity|]. intros E. injection E as -> ->. auto.
Qed.
Lemma option_eqb_same {A} (eqb : A -> A -> bool) (R : A -> A -> Prop) a b :
  (forall x y, eqb x y = true <-> R x y) -> option_eqb eqb a b = true <-> same_option R a b.
Proof.
  intros H. destruct a as [x|], b as [y|]; cbn; try (split; [discriminate|]; intros E; inversion E).
  - rewrite H. split; [now constructor|]. intros E. now inversion E.
  - split; [constructor|reflexivity].
Qed.

Lemma component_eqb_eq a b : component_eqb a b = true <-> a = b.
Proof.
  destruct a, b; cbn; try (split; [discriminate|]; discriminate); try (split; reflexivity).
  rewrite ueqb_eq. split; [intros ->; reflexivity|]. intros E. now injection E.
Qed.
Lemma path_eqb_components p q : path_eqb p q = true <-> components p = components q.
Proof. apply list_eqb_eq. exact component_eqb_eq. Qed.

Definition comp (s : ustr) : component := if ueqb s (lit "..") then ParentDir else Normal s.
Lemma comp_inj a b : comp a = comp b -> a = b.
Proof.
  unfold comp. destruct (ueqb a (lit "..")) eqn:E1, (ueqb b (lit "..")) eqn:E2; try discriminate.
  - apply ueqb_eq in E1, E2. congruence.
  - intros E. now injection E.
Qed.
Lemma is_nil_ueqb s : is_nil s = ueqb s [].
Proof. destruct s; reflexivity. Qed.
Lemma components_of_steps' l : components_of l = map comp (filter step_counts l).
Proof.
  induction l as [|x r IH]; cbn [components_of filter]; [reflexivity|]. unfold component_of, step_counts.
  rewrite is_nil_ueqb. destruct (ueqb x []); cbn [negb andb]; [exact IH|].
  destruct (ueqb x (lit ".")); cbn [negb]; [exact IH|]. cbn [map]. unfold comp at 1.
  destruct (ueqb x (lit "..")); now rewrite IH.
Qed.
Lemma map_inj {A B} (f : A -> B) : (forall a b, f a = f b -> a = b) -> forall l l', map f l = map f l' -> l = l'.
Proof.
  intros H. induction l as [|x r IH]; intros [|y s]; cbn; try discriminate; [reflexivity|].
  intros E. injection E as E1 E2. f_equal; auto.
Qed.
Lemma has_root_spec p : has_root p = true <-> starts_at_root p.
Proof.
  unfold has_root, starts_at_root. destruct p as [|c r]; [split; [discriminate|]; intros [x E]; discriminate|].
  rewrite N.eqb_eq. split; [intros ->; eauto|]. intros [x E]. congruence.
Qed.
Lemma split_head c (p : ustr) : exists x r, split_on c p = x :: r /\
  (p = x \/ exists s, p = x ++ c :: s) /\ ~ In c x.
Proof.
  induction p as [|a p IH]; cbn [split_on].
  - exists [], []. repeat split; auto.
  - destruct (N.eqb a c) eqn:E.
    + apply N.eqb_eq in E. subst a. exists [], (split_on c p). repeat split; auto. right. now exists p.
    + apply N.eqb_neq in E. destruct IH as (x & r & E1 & E2 & E3). rewrite E1.
      exists (a :: x), r. split; [reflexivity|]. split.
      * destruct E2 as [->|[s ->]]; [now left|right]. now exists s.
      * intros [H|H]; [congruence|contradiction].
Qed.
Lemma include_cur_dir_spec p : include_cur_dir p = true <-> starts_here p.
Proof.
  unfold include_cur_dir, starts_here. destruct (split_head slash p) as (x & r & -> & E2 & E3).
  rewrite ueqb_eq. split.
  - intros ->. destruct E2 as [->|[s ->]]; [now left|right]. now exists s.
  - intros [->|[s ->]].
    + destruct E2 as [E|[s E]]; [auto|]. destruct x as [|a [|b x]]; cbn in E; try discriminate.
    + destruct E2 as [E|[s' E]].
      * exfalso. apply E3. rewrite <- E. right. now left.
      * destruct x as [|a x]; [discriminate E|]. cbn in E. injection E as <- E.
        destruct x as [|b x]; [reflexivity|]. cbn in E. injection E as <- E.
        exfalso. apply E3. right. now left.
Qed.
Lemma path_eqb_same p q : path_eqb p q = true <-> same_path p q.
Proof.
  rewrite path_eqb_components. unfold components, same_path, steps_of.
  rewrite <- !has_root_spec, <- !include_cur_dir_spec, !components_of_steps'.
  assert (HX : forall p, has_root p = true -> include_cur_dir p = false).
  { intros s H. destruct (include_cur_dir s) eqn:E; [|reflexivity].
    apply has_root_spec in H. apply include_cur_dir_spec in E. destruct H as [r ->].
    destruct E as [E|[x E]]; discriminate. }
  assert (HM : forall l m, RootDir :: l <> map comp m /\ CurDir :: l <> map comp m).
  { intros l [|x m]; cbn; unfold comp; [split; discriminate|]. destruct (ueqb x (lit "..")); split; discriminate. }
  destruct (has_root p) eqn:P1, (has_root q) eqn:Q1;
    try (rewrite (HX p P1)); try (rewrite (HX q Q1));
    try (destruct (include_cur_dir p) eqn:P2); try (destruct (include_cur_dir q) eqn:Q2); cbn [app];
    (split;
      [ intros E; try discriminate E; try (symmetry in E; apply HM in E; contradiction); try (apply HM in E; contradiction);
        try (injection E as E); apply (map_inj comp comp_inj) in E; repeat split; auto; discriminate
      | intros ([A1 A2] & [B1 B2] & E);
        try (specialize (A1 eq_refl); discriminate); try (specialize (A2 eq_refl); discriminate);
        try (specialize (B1 eq_refl); discriminate); try (specialize (B2 eq_refl); discriminate);
        now rewrite E ]).
Qed.

Lemma location_eqb_eq a b : location_eqb a b = true <-> a = b.
Proof.
  destruct a as [f l c], b as [f' l' c']. unfold location_eqb. cbn.
  rewrite !andb_true_iff, ueqb_eq, !N.eqb_eq. split; [intros [[-> ->] ->]; reflexivity|].
  intros E. injection E as -> -> ->. auto.
Qed.
Lemma source_eqb_same a b : source_eqb a b = true <-> same_source a b.
Proof.
  destruct a as [p|l|s], b as [q|l'|s']; cbn; try (split; [discriminate|]; intros E; inversion E; fail).
  - rewrite path_eqb_same. split; [now constructor|]. intros E. now inversion E.
  - rewrite location_eqb_eq. split; [intros ->; constructor|]. intros E. now inversion E.
  - rewrite ueqb_eq. split; [intros ->; constructor|]. intros E. now inversion E.
Qed.
Lemma metadata_eqb_same a b : metadata_eqb a b = true <-> same_metadata a b.
Proof.
  unfold metadata_eqb, same_metadata. rewrite andb_true_iff, ueqb_eq.
  now rewrite (option_eqb_same source_eqb same_source) by exact source_eqb_same.
Qed.

Lemma actual_eqb_same a b : actual_eqb a b = true <-> same_actual a b.
Proof.
  assert (HR : forall x y, same_actual x y -> (exists f g, x = AFloat f /\ y = AFloat g /\ same_float f g) \/ x = y).
  { intros x y H. inversion H; subst; [left; eauto|now right]. }
  destruct a, b; cbn;
    try (split; [discriminate|]; intros E; apply HR in E as [(f1 & g1 & E1 & E2 & _)|E]; discriminate; fail);
    try (split; [intros _; apply sa_other; discriminate|reflexivity]; fail).
  - rewrite eqb_true_iff. split; [intros ->; apply sa_other; discriminate|].
    intros E; apply HR in E as [(f1 & g1 & E1 & _)|E]; [discriminate|congruence].
  - rewrite Z.eqb_eq. split; [intros ->; apply sa_other; discriminate|].
    intros E; apply HR in E as [(f1 & g1 & E1 & _)|E]; [discriminate|congruence].
  - rewrite Z.eqb_eq. split; [intros ->; apply sa_other; discriminate|].
    intros E; apply HR in E as [(f1 & g1 & E1 & _)|E]; [discriminate|congruence].
  - rewrite SFeqb_spec. split; [now constructor|]. intros E. inversion E as [? ? S|? N]; subst; [exact S|].
    now destruct (N _ eq_refl).
  - rewrite N.eqb_eq. split; [intros ->; apply sa_other; discriminate|].
    intros E; apply HR in E as [(f1 & g1 & E1 & _)|E]; [discriminate|congruence].
  - rewrite ueqb_eq. split; [intros ->; apply sa_other; discriminate|].
    intros E; apply HR in E as [(f1 & g1 & E1 & _)|E]; [discriminate|congruence].
  - rewrite (list_eqb_eq N.eqb) by exact N.eqb_eq. split; [intros ->; apply sa_other; discriminate|].
    intros E; apply HR in E as [(f1 & g1 & E1 & _)|E]; [discriminate|congruence].
  - rewrite ueqb_eq. split; [intros ->; apply sa_other; discriminate|].
    intros E; apply HR in E as [(f1 & g1 & E1 & _)|E]; [discriminate|congruence].
Qed.

Lemma kind_eqb_same a b : kind_eqb a b = true <-> same_kind a b.
Proof.
  destruct a, b; cbn;
    try (split; [discriminate|]; intros E; inversion E; fail);
    rewrite ?andb_true_iff, ?actual_eqb_same, ?ueqb_eq, ?N.eqb_eq, ?Z.eqb_eq, ?(list_eqb_eq ueqb ueqb_eq);
    try (split; [intros [HA ->]; now constructor|];
         intros E; inversion E as [| | | |? N]; subst; [split; auto|]; exfalso;
         destruct (N a0 expected0) as (N1 & N2 & N3 & N4); congruence);
    try (split; [intros [-> ->]; apply sk_other; intros; repeat split; discriminate|];
         intros E; inversion E; auto; fail);
    try (split; [intros ->; apply sk_other; intros; repeat split; discriminate|];
         intros E; inversion E; auto; fail).
  split; [now constructor|]. intros E. inversion E as [| | | |? N]; subst; [assumption|].
  exfalso. destruct (N a0 []) as (N1 & N2 & N3 & N4). congruence.
Qed.

Lemma error_eqb_same : forall a b, error_eqb a b = true <-> same_error a b.
Proof.
  fix IH 1. intros [t p m path k v] [t' p' m' path' k' v']. cbn [error_eqb].
  rewrite !andb_true_iff, tag_eqb_eq, kind_eqb_same, (list_eqb_eq ueqb ueqb_eq),
    (option_eqb_same profile_eqb same_profile) by exact profile_eqb_eq.
  rewrite (option_eqb_same metadata_eqb same_metadata) by exact metadata_eqb_same.
  assert (HV : match v, v' with
               | None, None => true | Some e, Some e' => error_eqb e e' | _, _ => false end = true
               <-> same_option same_error v v').
  { destruct v as [e|], v' as [e'|]; try (split; [discriminate|]; intros E; inversion E; fail).
    - rewrite (IH e e'). split; [now constructor|]. intros E. now inversion E.
    - split; [constructor|reflexivity]. }
  rewrite HV. split.
  - intros (((((H1 & H2) & H3) & <-) & H5) & H6). now constructor.
  - intros E. inversion E; subst. auto 10.
Qed.

(** ** Equivalence *)
Lemma same_float_sym x y : same_float x y -> same_float y x.
Proof. unfold same_float. intros (H1 & H2 & [H|[H3 H4]]); repeat split; auto. Qed.
Lemma same_float_trans x y z : same_float x y -> same_float y z -> same_float x z.
Proof.
  unfold same_float. intros (H1 & H2 & [<-|[H3 H4]]) (H5 & H6 & [<-|[H7 H8]]); repeat split; auto.
Qed.
Lemma same_float_refl x : same_float x x <-> x <> S754_nan.
Proof. unfold same_float. tauto. Qed.

Lemma same_path_refl p : same_path p p. Proof. unfold same_path. tauto. Qed.
Lemma same_path_sym p q : same_path p q -> same_path q p.
Proof. unfold same_path. intros (H1 & H2 & H3). repeat split; try tauto. congruence. Qed.
Lemma same_path_trans p q r : same_path p q -> same_path q r -> same_path p r.
Proof. unfold same_path. intros (H1 & H2 & H3) (H4 & H5 & H6). repeat split; try tauto. congruence. Qed.

Lemma same_option_sym {A} (R : A -> A -> Prop) a b : (forall x y, R x y -> R y x) ->
  same_option R a b -> same_option R b a.
Proof. intros H. destruct 1; constructor; auto. Qed.
Lemma same_option_trans {A} (R : A -> A -> Prop) a b c : (forall x y z, R x y -> R y z -> R x z) ->
  same_option R a b -> same_option R b c -> same_option R a c.
Proof. intros H H1 H2. destruct H1; inversion H2; subst; constructor; eauto. Qed.
Lemma same_option_refl {A} (R : A -> A -> Prop) a : (forall x, R x x) -> same_option R a a.
Proof. intros H. destruct a; constructor; auto. Qed.

Lemma same_source_refl s : same_source s s.
Proof. destruct s; constructor. apply same_path_refl. Qed.
Lemma same_source_sym a b : same_source a b -> same_source b a.
Proof. destruct 1; constructor. now apply same_path_sym. Qed.
Lemma same_source_trans a b c : same_source a b -> same_source b c -> same_source a c.
Proof. intros H1 H2. destruct H1; inversion H2; subst; constructor. eauto using same_path_trans. Qed.

Lemma same_metadata_refl a : same_metadata a a.
Proof. split; [reflexivity|]. apply same_option_refl, same_source_refl. Qed.
Lemma same_metadata_sym a b : same_metadata a b -> same_metadata b a.
Proof. intros [H1 H2]. split; [congruence|]. now apply same_option_sym; [apply same_source_sym|]. Qed.
Lemma same_metadata_trans a b c : same_metadata a b -> same_metadata b c -> same_metadata a c.
Proof.
  intros [H1 H2] [H3 H4]. split; [congruence|].
  eapply same_option_trans; [apply same_source_trans|eassumption..].
Qed.

Lemma same_actual_sym a b : same_actual a b -> same_actual b a.
Proof. destruct 1; [constructor; now apply same_float_sym|now apply sa_other]. Qed.
Lemma same_actual_trans a b c : same_actual a b -> same_actual b c -> same_actual a c.
Proof.
  intros H1 H2. inversion H1; subst; inversion H2; subst; try (now apply sa_other).
  - constructor. eauto using same_float_trans.
  - constructor. assumption.
  - now constructor.
Qed.
Lemma same_actual_refl a : same_actual a a <-> a <> AFloat S754_nan.
Proof.
  split.
  - intros H. inversion H as [x y HS|? HN]; subst; [|apply HN]. intros E. injection E as ->. now destruct HS.
  - intros H. destruct a; try (apply sa_other; discriminate). constructor. apply same_float_refl. congruence.
Qed.
Lemma same_kind_sym a b : same_kind a b -> same_kind b a.
Proof. destruct 1; try (constructor; now apply same_actual_sym). now apply sk_other. Qed.
Lemma same_kind_trans a b c : same_kind a b -> same_kind b c -> same_kind a c.
Proof.
  intros H1 H2. inversion H1; subst; inversion H2; subst; try (constructor; eauto using same_actual_trans; fail);
    try assumption; try (now apply sk_other).
Qed.
Lemma same_kind_refl k : same_kind k k <-> ~ names_nan k.
Proof.
  split.
  - intros H [s HN]. destruct HN as [-> | [-> | [-> | ->]]]; inversion H as [? ? ? HS|? ? ? HS|? ? HS|? ? ? HS|? HN]; subst;
      try (apply same_actual_refl in HS; congruence); destruct (HN (AFloat S754_nan) s) as (N1 & N2 & N3 & N4); congruence.
  - intros H. destruct k; try (apply sk_other; intros; repeat split; discriminate);
      constructor; apply same_actual_refl; intros ->; apply H; unfold names_nan; eauto 6.
  Unshelve. exact [].
Qed.

Lemma same_error_sym : forall a b, same_error a b -> same_error b a.
Proof.
  fix IH 1. intros [t p m path k v] b H. inversion H as [? ? ? ? ? ? ? ? ? ? v' H1 H2 H3 H4 H5]; subst.
  constructor; auto using same_kind_sym.
  - apply same_option_sym; [|exact H2]. unfold same_profile. congruence.
  - apply same_option_sym; [apply same_metadata_sym|exact H3].
  - destruct v as [e|]; inversion H5 as [|? ? HS]; subst; constructor. apply IH. exact HS.
Qed.
Lemma same_error_trans : forall a b c, same_error a b -> same_error b c -> same_error a c.
Proof.
  fix IH 1. intros [t p m path k v] b c H. inversion H as [? ? ? ? ? ? ? ? ? ? v' H1 H2 H3 H4 H5]; subst.
  intros G. inversion G as [? ? ? ? ? ? ? ? ? ? v2 G1 G2 G3 G4 G5]; subst.
  constructor; eauto using same_kind_trans.
  - congruence.
  - eapply same_option_trans; [|exact H2|exact G2]. unfold same_profile. congruence.
  - eapply same_option_trans; [apply same_metadata_trans|exact H3|exact G3].
  - destruct v as [e|]; inversion H5 as [|? ? HS]; subst; inversion G5 as [|? ? GS]; subst; constructor.
    eapply IH; eassumption.
Qed.
Lemma same_error_refl : forall e, same_error e e <-> no_nan e.
Proof.
  fix IH 1. intros [t p m path k v]. unfold no_nan. cbn [errors_of]. split.
  - intros H. inversion H as [? ? ? ? ? ? ? ? ? ? v' H1 H2 H3 H4 H5]; subst.
    intros x [<-|HX]; [cbn; now apply same_kind_refl|].
    destruct v as [e|]; [|destruct HX]. inversion H5 as [|? ? HS]; subst. apply (proj1 (IH e) HS). exact HX.
  - intros H. constructor; try reflexivity.
    + apply same_option_refl. reflexivity.
    + apply same_option_refl, same_metadata_refl.
    + apply same_kind_refl. apply (H (MkError t p m path k None)). now left.
    + destruct v as [e|]; constructor. apply IH. intros x HX. apply H. now right.
Qed.

(** From relations to the boolean functions. *)
Lemma eqb_sym {A} (eqb : A -> A -> bool) (R : A -> A -> Prop) :
  (forall a b, eqb a b = true <-> R a b) -> (forall a b, R a b -> R b a) -> symmetric eqb.
Proof.
  intros H HS a b. destruct (eqb a b) eqn:E1, (eqb b a) eqn:E2; auto.
  - apply H, HS, H in E1. congruence.
  - apply H, HS, H in E2. congruence.
Qed.
Lemma eqb_trans {A} (eqb : A -> A -> bool) (R : A -> A -> Prop) :
  (forall a b, eqb a b = true <-> R a b) -> (forall a b c, R a b -> R b c -> R a c) -> transitive eqb.
Proof. intros H HT a b c H1 H2. apply H in H1, H2. apply H. eauto. Qed.

(** Values. *)
Lemma same_num_sym a b : same_num a b -> same_num b a.
Proof.
  destruct a, b; cbn; intros H; try (destruct H as (x & y & E1 & E2 & H); exists y, x; auto using same_float_sym).
  destruct H; split; congruence.
Qed.
Lemma same_num_trans a b c : same_num a b -> same_num b c -> same_num a c.
Proof.
  destruct a, b, c; cbn; intros H1 H2;
    try (destruct H1 as (x1 & y1 & E1 & E2 & H1)); try (destruct H2 as (x2 & y2 & E3 & E4 & H2)); try discriminate;
    try (exists x1, y2; split; [assumption|]; split; [assumption|];
         eapply same_float_trans; [exact H1|]; congruence).
  destruct H1, H2; split; congruence.
Qed.
Lemma same_num_refl n : same_num n n <-> float_of n <> Some S754_nan.
Proof.
  destruct n as [k z|x|x]; cbn.
  - split; [discriminate|auto].
  - split.
    + intros (a & b & E1 & E2 & H). rewrite E1. intros E. injection E as ->. now destruct H.
    + intros H. exists (f32_to_f64 x), (f32_to_f64 x). repeat split; auto; congruence.
  - split.
    + intros (a & b & E1 & E2 & H). rewrite E1. intros E. injection E as ->. now destruct H.
    + intros H. exists x, x. repeat split; auto; congruence.
Qed.
Lemma same_value_sym : forall a b, same_value a b -> same_value b a.
Proof.
  induction a as [t s|t c|t x|t n|t e|t d IH|t l IH] using value_ind'; intros b H;
    inversion H as [| | |? ? ? ? HN| |? ? ? b' HF|? ? ? b' HF]; subst; constructor.
  - now apply same_num_sym.
  - rewrite Forall_forall in IH. clear H. induction HF as [|x y r r' [E1 E2] HF IHF]; constructor.
    + split; [congruence|]. apply IH; [now left|exact E2].
    + apply IHF. intros z HZ. apply IH. now right.
  - rewrite Forall_forall in IH. clear H. induction HF as [|x y r r' E HF IHF]; constructor.
    + apply IH; [now left|exact E].
    + apply IHF. intros z HZ. apply IH. now right.
Qed.
Lemma same_value_trans : forall a b c, same_value a b -> same_value b c -> same_value a c.
Proof.
  induction a as [t s|t c0|t x|t n|t e|t d IH|t l IH] using value_ind'; intros b c H G;
    inversion H as [| | |? ? ? ? HN| |? ? ? b' HF|? ? ? b' HF]; subst;
    inversion G as [| | |? ? ? ? GN| |? ? ? c' GF|? ? ? c' GF]; subst; constructor.
  - eauto using same_num_trans.
  - rewrite Forall_forall in IH. clear H G. revert c' GF.
    induction HF as [|x y r r' [E1 E2] HF IHF]; intros c' GF; inversion GF as [|? z ? r2 [F1 F2] GF']; subst; constructor.
    + split; [congruence|]. eapply IH; [now left|exact E2|exact F2].
    + apply IHF; [|exact GF']. intros w HW. apply IH. now right.
  - rewrite Forall_forall in IH. clear H G. revert c' GF.
    induction HF as [|x y r r' E HF IHF]; intros c' GF; inversion GF as [|? z ? r2 F GF']; subst; constructor.
    + eapply IH; [now left|exact E|exact F].
    + apply IHF; [|exact GF']. intros w HW. apply IH. now right.
Qed.
Lemma same_value_refl : forall v, same_value v v <-> ~ has_nan v.
Proof.
  induction v as [t s|t c|t x|t n|t e|t d IH|t l IH] using value_ind';
    try (split; [intros _ HN; inversion HN|constructor]; fail).
  - split.
    + intros H HN. inversion H as [| | |? ? ? ? HS| | |]; subst. inversion HN as [? ? E| |]; subst.
      now apply (proj1 (same_num_refl n)).
    + intros H. constructor. apply same_num_refl. intros E. apply H. now constructor.
  - rewrite Forall_forall in IH. split.
    + intros H HN. inversion H as [| | | | |? ? ? ? HF|]; subst. inversion HN as [|? ? k x HI HX|]; subst.
      assert (HS : forall l l' : list (ustr * value), Forall2 (fun x y => fst x = fst y /\ same_value (snd x) (snd y)) l l' -> l = l' ->
                   forall y, In y l -> same_value (snd y) (snd y)).
      { clear. induction 1 as [|x y r r' [E1 E2] HF IHF]; intros E z HZ; [destruct HZ|]; injection E as <- E'; destruct HZ as [<-|HZ]; auto. }
      apply (proj1 (IH (k, x) HI) (HS _ _ HF eq_refl (k, x) HI)). exact HX.
    + intros H. constructor.
      assert (HA : forall y, In y d -> same_value (snd y) (snd y)).
      { intros [k x] HY. apply IH; [exact HY|]. intros HN. apply H. econstructor; eassumption. }
      clear -HA. induction d as [|x r IHr]; constructor; [split; [reflexivity|apply HA; now left]|].
      apply IHr. intros y HY. apply HA. now right.
  - rewrite Forall_forall in IH. split.
    + intros H HN. inversion H as [| | | | | |? ? ? ? HF]; subst. inversion HN as [| |? ? x HI HX]; subst.
      assert (HS : forall l l', Forall2 same_value l l' -> l = l' -> forall y, In y l -> same_value y y).
      { clear. induction 1 as [|x y r r' E1 HF IHF]; intros E z HZ; [destruct HZ|]; injection E as <- E'; destruct HZ as [<-|HZ]; auto. }
      apply (proj1 (IH x HI) (HS _ _ HF eq_refl x HI)). exact HX.
    + intros H. constructor.
      assert (HA : forall y, In y l -> same_value y y).
      { intros x HY. apply IH; [exact HY|]. intros HN. apply H. econstructor; eassumption. }
      clear -HA. induction l as [|x r IHr]; constructor; [apply HA; now left|].
      apply IHr. intros y HY. apply HA. now right.
Qed.
