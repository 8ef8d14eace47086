(** When restoring the environment fails. *)
From Coq Require Import Ascii String NArith Bool Lia PeanoNat Permutation.
From Coq Require Import List.
From Verif Require Import Res BMap Str Err Path Jail BMapProofs StrProofs SpecPath SpecJail PathProofs JailProofs.
Import ListNotations.

Lemma value_ok v : env_value_ok v = true <-> ~ In 0%N v.
Proof. unfold env_value_ok. now rewrite negb_true_iff, contains_In. Qed.

(** ** Harmless operations go through *)
Definition named_well (e : environment) : Prop := forall k v, In (k, v) e -> env_name_ok k = true.
Lemma named_insert k v e : env_name_ok k = true -> named_well e -> named_well (insert k v e).
Proof.
  intros K H k' v' I. apply In_insert in I. destruct I as [[_ C]|I]; [|now apply (H k' v')].
  apply cmp_ustr_eq in C. now subst k'.
Qed.
Lemma named_remove k e : named_well e -> named_well (remove k e).
Proof.
  intros H k' v' I. apply (H k' v'). clear H. induction e as [|[a b] e IH]; [exact I|]. cbn in I.
  destruct (cmp k a); [now right| |]; (destruct I as [I|I]; [now left|right; auto]).
Qed.
Lemma clear_goes_through vars : forall j, (forall k v, In (k, v) vars -> env_name_ok k = true) -> named_well (j_env j) ->
  exists j', clear_loop vars j = (j', true) /\ named_well (j_env j').
Proof.
  induction vars as [|[k v] r IH]; intros j V W; [exists j; auto|]. cbn [clear_loop].
  unfold env_remove. rewrite (V k v (or_introl eq_refl)).
  apply IH; [intros; eapply V; right; eassumption|]. cbn [j_env]. now apply named_remove.
Qed.
Lemma step_goes_through dir op j : lists_all op -> harmless op -> named_well (j_env j) ->
  exists j' t, jail_step dir op j = (j', t, true) /\ named_well (j_env j').
Proof.
  intros L H W. destruct op as [p ok|p ok|p ok|k v|vo]; cbn [jail_step].
  - eauto.
  - eauto.
  - destruct (safe_jailed_path dir p); [destruct ok|]; eauto.
  - destruct H as [H1 H2]. apply var_name_ok in H1. apply value_ok in H2. unfold set_env, env_set. rewrite H1, H2. cbn [andb].
    do 2 eexists. split; [reflexivity|]. cbn [j_env]. now apply named_insert.
  - destruct (clear_goes_through (vo (j_env j)) j) as (j' & -> & W'); [|exact W|eauto].
    intros k v I. apply (W k v). eapply Permutation_in; [apply (L (j_env j))|exact I].
Qed.
Lemma run_goes_through dir a : Forall lists_all a -> Forall harmless a -> forall b j, named_well (j_env j) ->
  exists j' t, named_well (j_env j') /\ jail_run dir a j = (j', t) /\
    jail_run dir (a ++ b) j = let (j'', r) := jail_run dir b j' in (j'', t ++ r).
Proof.
  intros L H. revert L. induction H as [|op a H Ha IH]; intros L b j W.
  - exists j, []. split; [exact W|]. split; [reflexivity|]. cbn [app]. now destruct (jail_run dir b j).
  - inversion L as [|? ? L1 L2]; subst. destruct (step_goes_through dir op j L1 H W) as (j1 & t1 & E & W1).
    destruct (IH L2 b j1 W1) as (j2 & t2 & W2 & E2 & E3). cbn [jail_run app]. rewrite E, E2, E3.
    exists j2. eexists. split; [exact W2|]. split; [reflexivity|].
    destruct (jail_run dir b j2). now rewrite app_assoc.
Qed.

(** ** A saved variable with an impossible name *)
Lemma restore_panics k : env_name_ok k = false -> forall order, In (k, None) order -> forall e,
  restore_env order e = Panic.
Proof.
  intros K. induction order as [|[k' v'] r IH]; [intros []|]. intros [E|J] e; cbn [restore_env].
  - injection E as -> ->. unfold env_remove. now rewrite K.
  - assert (C : forall o, (match o with Ret _ => True | Panic => True | NoFuel => False end) -> out_bind o (restore_env r) = Panic).
    { intros [e'| |] X; cbn; [now apply IH|reflexivity|contradiction]. }
    apply C. destruct v'; unfold env_set, env_remove; [destruct (env_name_ok k' && _)|destruct (env_name_ok k')]; exact I.
Qed.

Lemma harmless_dec op : {harmless op} + {~ harmless op}.
Proof.
  destruct op as [p ok|p ok|p ok|k v|vo]; try (left; exact I).
  destruct (env_name_ok k) eqn:K; [destruct (env_value_ok v) eqn:V|].
  - left. split; [now apply var_name_ok|now apply value_ok].
  - right. intros [_ H]. apply value_ok in H. congruence.
  - right. intros [H _]. apply var_name_ok in H. congruence.
Qed.
Lemma first_harm ops : Forall harmless ops \/ exists a op b, ops = a ++ op :: b /\ Forall harmless a /\ ~ harmless op.
Proof.
  induction ops as [|op r IH]; [left; constructor|]. destruct (harmless_dec op) as [H|H].
  - destruct IH as [IH|(a & o & b & -> & Ha & Ho)]; [left; now constructor|].
    right. exists (op :: a), o, b. split; [reflexivity|]. split; [now constructor|exact Ho].
  - right. exists [], op, r. split; [reflexivity|]. split; [constructor|exact H].
Qed.
Lemma first_harm_unique a op b a' op' b' : a ++ op :: b = a' ++ op' :: b' -> Forall harmless a -> ~ harmless op ->
  Forall harmless a' -> ~ harmless op' -> op = op'.
Proof.
  revert a'. induction a as [|x a IH]; intros [|x' a'] E Ha Ho Ha' Ho'; cbn in E; injection E as E1 E2.
  - exact E1.
  - inversion Ha'; subst. contradiction.
  - inversion Ha; subst. contradiction.
  - inversion Ha; inversion Ha'; subst. now apply (IH a').
Qed.
Lemma good_sets a : Forall lists_all a -> Forall harmless a -> Forall sets_valid_names a.
Proof.
  intros L H. rewrite Forall_forall in *. intros op I. specialize (L op I). specialize (H op I).
  destruct op; try exact I; cbn in *; auto. apply var_name_ok. apply H.
Qed.

Lemma restored_exactly e0 dir cwd ops j t order : sorted e0 ->
  (forall k v, get k e0 = Some v -> env_value_ok v = true) -> named_well e0 ->
  Forall lists_all ops ->
  jail_run dir ops (jail_start e0 dir cwd) = (j, t) -> Permutation order (j_saved j) ->
  (restore_env order (j_env j) = Ret e0 /\ ~ exists a k v b, ops = a ++ OpSetEnv k v :: b /\ Forall harmless a /\ ~ var_name k) \/
  (restore_env order (j_env j) = Panic /\ exists a k v b, ops = a ++ OpSetEnv k v :: b /\ Forall harmless a /\ ~ var_name k).
Proof.
  intros S VO W L R P. destruct (first_harm ops) as [H|(a & op & b & -> & Ha & Ho)].
  - left. split; [exact (restored e0 dir cwd ops j t order S VO (good_sets ops L H) R P)|].
    intros (a & k & v & b & -> & Ha & Hk). apply Forall_app in H as [_ H]. inversion H as [|? ? H1 _]; subst. now apply Hk, H1.
  - apply Forall_app in L as [La Lb]. inversion Lb as [|? ? Lo Lr]; subst.
    destruct op as [p ok|p ok|p ok|k v|vo]; try (exfalso; apply Ho; exact I).
    destruct (run_goes_through dir a La Ha (OpSetEnv k v :: b) (jail_start e0 dir cwd) W) as (j1 & t1 & W1 & E1 & E2).
    rewrite E2 in R. destruct (env_name_ok k) eqn:K.
    + left. split.
      * assert (V : env_value_ok v = false).
        { destruct (env_value_ok v) eqn:V; [|reflexivity]. exfalso. apply Ho. split; [now apply var_name_ok|now apply value_ok]. }
        assert (X : jail_run dir (a ++ [OpSetEnv k v]) (jail_start e0 dir cwd) = (j, t)).
        { destruct (run_goes_through dir a La Ha [OpSetEnv k v] (jail_start e0 dir cwd) W) as (j1' & t1' & _ & E1' & E2').
          rewrite E1 in E1'. injection E1' as <- <-. rewrite E2'. cbn [jail_run jail_step] in *.
          unfold set_env, env_set in *. rewrite K, V in *. cbn [andb] in *. exact R. }
        apply (restored e0 dir cwd (a ++ [OpSetEnv k v]) j t order S VO); auto.
        apply Forall_app. split; [now apply good_sets|]. constructor; [exact K|constructor].
      * intros (a' & k' & v' & b' & E & Ha' & Hk'). assert (Ho' : ~ harmless (OpSetEnv k' v')) by (intros [X _]; contradiction).
        assert (EO := first_harm_unique _ _ _ _ _ _ E Ha Ho Ha' Ho'). injection EO as <- <-. apply Hk', var_name_ok, K.
    + right. split.
      * cbn [jail_run jail_step] in R. unfold set_env, env_set in R. rewrite K in R. cbn [andb] in R.
        injection R as <- _. cbn [j_saved j_env] in *.
        destruct (recoverable_run e0 dir a (good_sets a La Ha) _ _ _ (recoverable_start e0 dir cwd S) E1) as [_ [Ss [A _]]].
        destruct (get k (j_saved j1)) as [x|] eqn:G; [apply A in G as [G _]; congruence|].
        apply (restore_panics k K). eapply Permutation_in; [apply Permutation_sym, P|].
        unfold env_get. rewrite K. assert (GI := get_insert_same (option ustr) k None (j_saved j1)).
        apply get_In in GI. destruct GI as (k' & C & J). apply cmp_ustr_eq in C. now subst k'.
      * exists a, k, v, b. split; [reflexivity|]. split; [exact Ha|]. intros X. apply var_name_ok in X. congruence.
Qed.
