(** Property C16, for Figments composed of Figments. *)
From Coq Require Import Ascii String ZArith NArith Bool Lia.
From Coq Require Import List.
From Verif Require Import Res BMap BMapProofs Str Profile Tag Value Metadata Err Coalesce Figment.
From Verif Require Import SpecValue SpecFigment SpecBuilt TagProofs ProfileProofs FigmentProofs ProvProofs FigmentProofs2 PropsCoalesce PropsFigment.
Import ListNotations.
Local Open Scope N_scope.

Lemma reachable_built H f : reachable H f <-> exists ids, built H f ids.
Proof.
  split.
  - induction 1 as [H|H f n _ [ids IH]|H f p _ [ids IH]|H f loc o p f' c' _ [ids IH] P E
                   |H f g loc o f' c' _ [ids IH] _ [ids' IH'] E]; eexists.
    + apply BU_new.
    + apply BU_other. exact IH.
    + apply BU_select. exact IH.
    + eapply BU_provide; [exact IH|exact P|exact E].
    + eapply BU_figment; [exact IH|exact IH'|exact E].
  - intros [ids B]. induction B.
    + apply RC_new.
    + apply RC_other. assumption.
    + apply RC_select. assumption.
    + eapply RC_provide; eassumption.
    + eapply RC_figment; [exact IHB1|exact IHB2|eassumption].
Qed.

Definition lists (f : figment) (ids : list N) : Prop :=
  forall id, In id ids <-> exists t m, get t (f_metadata f) = Some m /\ metadata_id t = id.

Lemma get_tag_new id t m (mds : bmap tag metadata) : id < 2 ^ 62 ->
  get t (insert (tag_new id PTDefault) m mds) = if metadata_id t =? id then Some m else get t mds.
Proof.
  intros B. rewrite get_insert. destruct (cmp t (tag_new id PTDefault)) eqn:X.
  - apply cmp_tag_eq in X. rewrite metadata_id_new_small in X by exact B. rewrite X, N.eqb_refl. reflexivity.
  - destruct (N.eqb_spec (metadata_id t) id) as [E|]; [|reflexivity].
    assert (cmp t (tag_new id PTDefault) = Eq); [|congruence].
    apply cmp_tag_eq. rewrite metadata_id_new_small by exact B. exact E.
  - destruct (N.eqb_spec (metadata_id t) id) as [E|]; [|reflexivity].
    assert (cmp t (tag_new id PTDefault) = Eq); [|congruence].
    apply cmp_tag_eq. rewrite metadata_id_new_small by exact B. exact E.
Qed.

Lemma listed_more (mds : bmap tag metadata) id m ids : id < 2 ^ 62 ->
  (forall j, In j ids <-> exists t m, get t mds = Some m /\ metadata_id t = j) ->
  forall j, In j (ids ++ [id]) <->
    exists t x, get t (insert (tag_new id PTDefault) m mds) = Some x /\ metadata_id t = j.
Proof.
  intros B L j. rewrite in_app_iff, L. split.
  - intros [(t & x & G & <-)|[<-|[]]].
    + destruct (N.eqb_spec (metadata_id t) id) as [E|E].
      * exists t, m. rewrite get_tag_new by exact B. rewrite E, N.eqb_refl. auto.
      * exists t, x. rewrite get_tag_new by exact B. destruct (N.eqb_spec (metadata_id t) id); [contradiction|auto].
    + exists (tag_new id PTDefault), m. rewrite get_tag_new, metadata_id_new_small, N.eqb_refl by exact B. auto.
  - intros (t & x & G & <-). rewrite get_tag_new in G by exact B.
    destruct (N.eqb_spec (metadata_id t) id) as [E|E]; [right; left; auto|left; eauto].
Qed.

Lemma built_lists H f ids : built H f ids -> lists f ids.
Proof.
  intros B. assert (forall H f ids, built H f ids -> reachable H f) as R
    by (intros; apply reachable_built; eauto).
  induction B as [H|H f n ids B IH|H f p ids B IH|H f loc o p f' c' ids B IH P E
                 |H f g loc o f' c' ids ids' B IH B' IH' E]; unfold lists in *; auto.
  - intros id. cbn. split; [contradiction|]. intros (t & m & X & _). discriminate X.
  - apply provide_ret in E. destruct E as (L & _ & ->). cbn [f_metadata].
    destruct P as [-> _]. apply listed_more; assumption.
  - apply provide_ret in E. destruct E as (L & _ & ->). cbn [f_metadata pv_metadata_map figment_provider].
    rewrite app_assoc. apply listed_more; [exact L|].
    destruct (reachable_inv _ _ (R _ _ _ B')) as [[S _] _]. intros j. rewrite in_app_iff, IH, IH'.
    setoid_rewrite get_extend; [|exact S]. split.
    + intros [(t & m & G & <-)|(t & m & G & <-)].
      * exists t. rewrite G. destruct (get t (f_metadata g)); eauto.
      * exists t. rewrite G. eauto.
    + intros (t & m & G & <-). destruct (get t (f_metadata g)) eqn:X; [right|left]; eauto.
Qed.

Lemma increasing_ids (mds : bmap tag metadata) : sorted mds -> increasing (map (fun tm => metadata_id (fst tm)) mds).
Proof.
  induction mds as [|[t m] r IH]; cbn; [auto|]. intros [L S]. split; [|auto].
  intros j I. apply in_map_iff in I. destruct I as ([u x] & <- & I). cbn.
  assert (X := proj1 (lt_all_In _ _) L _ _ I).
  unfold cmp, Cmp_tag in X. apply N.compare_lt_iff in X. exact X.
Qed.

(** ** C16 *)

(** Whatever Figments are provided to Figments: [metadata()] has one entry for every provide
    operation that went into the Figment, in the order of the operations in the whole program. *)
Theorem C16_composed : forall H f ids, built H f ids ->
  exists js, increasing js /\ (forall j, In j js <-> In j ids) /\
    Forall2 (fun j md => exists n, nth_provision H j = Some n /\ md = pn_metadata n) js (fig_metadata f).
Proof.
  intros H f ids B. assert (L := built_lists _ _ _ B).
  destruct (reachable_inv H f) as [[S M] _]; [apply reachable_built; eauto|].
  exists (map (fun tm => metadata_id (fst tm)) (f_metadata f)). split; [apply increasing_ids; exact S|]. split.
  - intros j. rewrite (L j), in_map_iff. split.
    + intros ([t m] & <- & I). exists t, m. split; [apply In_get; assumption|reflexivity].
    + intros (t & m & G & <-). apply get_In in G. destruct G as (u & C & I). exists (u, m). split; [|exact I].
      cbn. apply cmp_tag_eq in C. auto.
  - unfold fig_metadata, values. assert (A : forall t m, In (t, m) (f_metadata f) ->
      exists n, nth_provision H (metadata_id t) = Some n /\ m = pn_metadata n)
      by (intros t m I; apply M, In_get; assumption).
    clear - A. induction (f_metadata f) as [|[t m] r IH]; cbn; constructor.
    + apply (A t m). left; reflexivity.
    + apply IH. intros u x I. apply A. right. exact I.
Qed.
Print Assumptions C16_composed.

(** This is about all Figments that can be built. *)
Theorem C16_all : forall H f, reachable H f <-> exists ids, built H f ids.
Proof. exact reachable_built. Qed.
Print Assumptions C16_all.

(** A Figment made of two providers, one of them through another Figment that was made first. *)
Example C16_ex_composed : exists f,
  built [mkProvision ex_loc ex_p1; mkProvision ex_loc ex_p2; mkProvision ex_loc (figment_provider ex_f1)] f [2; 1; 3] /\
  map md_name (fig_metadata f) = [lit "A"; lit "B"; lit "Default"].
Proof.
  eexists. split.
  - apply (BU_figment [mkProvision ex_loc ex_p1; mkProvision ex_loc ex_p2] ex_g ex_f1 ex_loc Join _ 4 [2] [1]).
    + apply (BU_provide [mkProvision ex_loc ex_p1] fig_new ex_loc Merge ex_p2 ex_g 3 []);
        [apply BU_new|exact ex_p2_plain|reflexivity].
    + apply (BU_other [mkProvision ex_loc ex_p1]).
      apply (BU_provide [] fig_new ex_loc Merge ex_p1 ex_f1 2 []); [apply BU_new| |reflexivity]. exact ex_p1_plain.
    + reflexivity.
  - reflexivity.
Qed.
