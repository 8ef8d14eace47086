(** Properties C31-C35: the environment provider. *)
From Coq Require Import Ascii String ZArith NArith Bool Permutation.
From Coq Require Import List.
From Verif Require Import Res BMap Str StrProofs Profile Tag Num Value Metadata Coalesce Parse Env
  SpecLookup SpecParse SpecEnv SpecShow TrimProofs ParseProofs3 EnvProofs PropsParse.
Import ListNotations.

Definition ex_vars : environ :=
  [(lit "APP_DB__HOST", lit "localhost"); (lit "HOME", lit "/root"); (lit "app_Port", lit " 8000 ");
   (lit "APP_", lit "x"); (lit " APP_NAME ", lit """n\t"""); (lit "APP_DB__PORTS", lit "[1, 2]")].
Definition ex_ops : list env_op := [OpSplit (lit "__"); OpIgnore [lit "NAME"]].

(** ** C31 *)

(** The variables kept are exactly the ones whose name survives every filter and mapping, in
    order, and the call never panics. *)
Theorem C31_iter : forall s ops vars, exists kept,
  env_iter (build_env s ops) vars = Ret kept /\
  selects (survives (ev_lowercase (build_env s ops)) (mapped_key s ops)) vars kept.
Proof. intros s ops vars. apply env_iter_spec. apply build_key. Qed.
Print Assumptions C31_iter.

(** Every key is trimmed, has no empty component, and is in lower case unless disabled. *)
Theorem C31_keys : forall s ops vars kept k v,
  env_iter (build_env s ops) vars = Ret kept -> In (k, v) kept ->
  dotted k /\ trim k = k /\ (ev_lowercase (build_env s ops) = true -> lower k = k) /\
  exists name, In (name, v) vars.
Proof.
  intros s ops vars kept k v H I. destruct (C31_iter s ops vars) as [kept' [E S]].
  rewrite E in H. inversion H; subst kept'.
  destruct (selects_In _ _ _ _ S I) as [[name v'] [Ia R]].
  assert (K := survives_key _ _ _ _ R). destruct K as [K1 [K2 K3]]. repeat split; auto.
  exists name. destruct R as [_ [Ev _]]. cbn [snd] in Ev. now subst v'.
Qed.
Print Assumptions C31_keys.

(** The prefix: names that start with it, whatever the case of the letters. *)
Theorem C31_prefix : forall p name key,
  start_key (FromPrefix p) name = Some key <-> exists p', name = p' ++ key /\ lower p' = lower p.
Proof.
  intros p name key. cbn [start_key].
  destruct (ueqb (lower (firstn (length p) name)) (lower p)) eqn:E.
  - apply ueqb_eq in E. split.
    + intros H. inversion H; subst. exists (firstn (length p) name). split; auto.
      symmetry. apply firstn_skipn.
    + intros [p' [-> L]].
      assert (Len : length p' = length p) by (rewrite <- (lower_length p'), L; apply lower_length).
      rewrite <- Len, skipn_app, skipn_all, PeanoNat.Nat.sub_diag. reflexivity.
  - apply ueqb_neq in E. split; [discriminate|]. intros [p' [-> L]]. exfalso. apply E.
    assert (Len : length p' = length p) by (rewrite <- (lower_length p'), L; apply lower_length).
    rewrite <- Len, firstn_app, firstn_all, PeanoNat.Nat.sub_diag. cbn [firstn].
    now rewrite app_nil_r.
Qed.
Print Assumptions C31_prefix.

Example C31_ex : env_iter (build_env (FromPrefix (lit "app_")) ex_ops) ex_vars =
  Ret [(lit "db.host", lit "localhost"); (lit "port", lit " 8000 "); (lit "db.ports", lit "[1, 2]")].
Proof. reflexivity. Qed.

(** ** C32 *)

(** [Env::data] panics only where parsing one of the variables' values panics (C27). *)
Theorem C32_data : forall s ops vars,
  (exists d, env_data (build_env s ops) vars = Ret d) \/
  (env_data (build_env s ops) vars = Panic /\
   exists name v, In (name, v) vars /\ value_from_str v = Panic).
Proof.
  intros s ops vars. destruct (env_data_cases s ops vars) as [H|[H [[k v] [I P]]]]; auto.
  right. split; auto. exists k, v. auto.
Qed.
Print Assumptions C32_data.

Theorem C32_data_clean : forall s ops vars,
  Forall (fun kv => clean (snd kv)) vars -> exists d, env_data (build_env s ops) vars = Ret d.
Proof.
  intros s ops vars F. destruct (C32_data s ops vars) as [H|[_ [k [v [I P]]]]]; auto.
  exfalso. rewrite Forall_forall in F. specialize (F _ I). cbn [snd] in F.
  destruct (value_from_str_no_panic _ F) as [x E]. congruence.
Qed.
Print Assumptions C32_data_clean.

Example C32_ex : Forall (fun kv : ustr * ustr => clean (snd kv)) ex_vars /\
  env_data (build_env (FromPrefix (lit "app_")) ex_ops) ex_vars =
  Ret [(p_default,
        [(lit "db", VDict tag_default
            [(lit "host", VString tag_default (lit "localhost"));
             (lit "ports", VArray tag_default [VNum tag_default (NInt USize 1);
                                               VNum tag_default (NInt USize 2)])]);
         (lit "port", VNum tag_default (NInt USize 8000))])].
Proof.
  split; [|vm_compute; reflexivity].
  repeat constructor; apply C27_clean_ascii; repeat constructor.
Qed.

(** ** C33 *)
Theorem C33_order : forall s ops vars vars',
  Permutation vars vars' ->
  (forall kept, env_iter (build_env s ops) vars = Ret kept ->
     ForallOrdPairs (fun a b => unrelated (fst a) (fst b)) kept) ->
  env_data (build_env s ops) vars' = env_data (build_env s ops) vars.
Proof. exact env_data_perm. Qed.
Print Assumptions C33_order.

Lemma unrelated_by_char a b c1 c2 p r1 r2 : a = p ++ c1 :: r1 -> b = p ++ c2 :: r2 -> c1 <> c2 ->
  unrelated a b.
Proof.
  intros -> -> N0. repeat split.
  - intros E. apply app_inv_head in E. congruence.
  - intros r E. rewrite <- app_assoc in E. apply app_inv_head in E. cbn [app] in E. congruence.
  - intros r E. rewrite <- app_assoc in E. apply app_inv_head in E. cbn [app] in E. congruence.
Qed.

Example C33_ex : forall kept,
  env_iter (build_env (FromPrefix (lit "app_")) ex_ops) ex_vars = Ret kept ->
  ForallOrdPairs (fun a b => unrelated (fst a) (fst b)) kept.
Proof.
  rewrite C31_ex. intros kept H. inversion H; subst. cbn [fst].
  constructor; [|constructor; [|constructor; [constructor|constructor]]].
  - constructor; [|constructor; [|constructor]]; cbn [fst].
    + apply (unrelated_by_char _ _ (ch "d") (ch "p") [] (lit "b.host") (lit "ort")); try reflexivity.
      discriminate.
    + apply (unrelated_by_char _ _ (ch "h") (ch "p") (lit "db.") (lit "ost") (lit "orts"));
        try reflexivity. discriminate.
  - constructor; [|constructor]; cbn [fst].
    apply (unrelated_by_char _ _ (ch "p") (ch "d") [] (lit "ort") (lit "b.ports")); try reflexivity.
    discriminate.
Qed.

(** The condition is needed: two spellings of one name. *)
Theorem C33_needs_distinct : exists vars vars', Permutation vars vars' /\
  env_data env_raw vars' <> env_data env_raw vars.
Proof.
  exists [(lit "A", lit "1"); (lit "a", lit "2")], [(lit "a", lit "2"); (lit "A", lit "1")].
  split; [constructor|]. vm_compute. discriminate.
Qed.

(** ** C34 *)
Definition is_setting (o : env_op) : bool :=
  match o with OpLowercase _ | OpProfile _ | OpGlobal => true | _ => false end.
Definition profile_set (o : env_op) : option profile :=
  match o with OpProfile p => Some p | OpGlobal => Some p_global | _ => None end.
Definition case_set (o : env_op) : option bool :=
  match o with OpLowercase b => Some b | _ => None end.

(** Lower-casing is switched on again by every later filter or mapping. *)
Theorem C34_lowercase_refuted : exists e f,
  ev_lowercase (env_lowercase e false) = false /\
  ev_lowercase (env_filter (env_lowercase e false) f) = true.
Proof. exists env_raw, (fun _ => true). split; reflexivity. Qed.
Print Assumptions C34_lowercase_refuted.

(** Visible in the keys: [FOO] with lower-casing disabled before an (ineffective) filter. *)
Theorem C34_lowercase_keys_refuted :
  env_iter (build_env FromRaw [OpLowercase false]) [(lit "FOO", lit "1")] = Ret [(lit "FOO", lit "1")] /\
  env_iter (build_env FromRaw [OpLowercase false; OpFilter (fun _ => true)]) [(lit "FOO", lit "1")]
    = Ret [(lit "foo", lit "1")].
Proof. split; reflexivity. Qed.
Print Assumptions C34_lowercase_keys_refuted.

Theorem C34_settings_partial : forall s ops1 ops2,
  (* The profile is the one set last, whatever filters and mappings follow. *)
  (forall o p, profile_set o = Some p -> Forall (fun o => profile_set o = None) ops2 ->
     ev_profile (build_env s (ops1 ++ o :: ops2)) = p) /\
  (Forall (fun o => profile_set o = None) ops1 -> ev_profile (build_env s ops1) = p_default) /\
  (* The prefix is the one the provider was made with. *)
  (forall p, ev_prefix (build_env (FromPrefix p) ops1) = Some p) /\
  ev_prefix (build_env FromRaw ops1) = None /\
  (* Lower-casing is the one set last if only settings follow. *)
  (forall b, Forall (fun o => is_setting o = true /\ case_set o = None) ops2 ->
     ev_lowercase (build_env s (ops1 ++ OpLowercase b :: ops2)) = b) /\
  (Forall (fun o => case_set o = None) ops1 -> ev_lowercase (build_env s ops1) = true).
Proof.
  intros s ops1 ops2.
  assert (P : forall ops e, Forall (fun o => profile_set o = None) ops ->
    ev_profile (fold_left apply_env_op ops e) = ev_profile e).
  { induction ops as [|o ops IH]; intros e F; auto. inversion F as [|? ? H F']; subst.
    cbn [fold_left]. rewrite IH by auto. destruct o; try discriminate; reflexivity. }
  assert (Q : forall ops e, ev_prefix (fold_left apply_env_op ops e) = ev_prefix e).
  { induction ops as [|o ops IH]; intros e; auto. cbn [fold_left]. rewrite IH.
    destruct o; reflexivity. }
  assert (L : forall ops e, Forall (fun o => is_setting o = true /\ case_set o = None) ops ->
    ev_lowercase (fold_left apply_env_op ops e) = ev_lowercase e).
  { induction ops as [|o ops IH]; intros e F; auto. inversion F as [|? ? [H1 H2] F']; subst.
    cbn [fold_left]. rewrite IH by auto. destruct o; try discriminate; reflexivity. }
  assert (T : forall ops e, ev_lowercase e = true -> Forall (fun o => case_set o = None) ops ->
    ev_lowercase (fold_left apply_env_op ops e) = true).
  { induction ops as [|o ops IH]; intros e H F; auto. inversion F as [|? ? H1 F']; subst.
    cbn [fold_left]. apply IH; auto. destruct o; try discriminate; auto. }
  unfold build_env. repeat split.
  - intros o p H F. rewrite fold_left_app. cbn [fold_left]. rewrite P by auto.
    destruct o; inversion H; reflexivity.
  - intros F. rewrite P by auto. destruct s; reflexivity.
  - intros p. now rewrite Q.
  - now rewrite Q.
  - intros b F. rewrite fold_left_app. cbn [fold_left]. now rewrite L.
  - intros F. apply T; auto. destruct s; reflexivity.
Qed.
Print Assumptions C34_settings_partial.

(** Exactly: keys are left as they are if lower-casing was switched off and no filter or
    mapping was added afterwards. *)
Theorem C34_lowercase_exact : forall s ops,
  ev_lowercase (build_env s ops) = false <->
  exists ops1 ops2, ops = ops1 ++ OpLowercase false :: ops2 /\
    Forall (fun o => is_setting o = true /\ case_set o = None) ops2.
Proof.
  intros s ops. unfold build_env. split.
  - induction ops as [|o ops IH] using rev_ind.
    + destruct s; discriminate.
    + rewrite fold_left_app. cbn [fold_left]. intros H.
      assert (K : forall o', is_setting o' = true /\ case_set o' = None ->
        ev_lowercase (fold_left apply_env_op ops (start_env s)) = false ->
        exists ops1 ops2, ops ++ [o'] = ops1 ++ OpLowercase false :: ops2 /\
          Forall (fun o => is_setting o = true /\ case_set o = None) ops2).
      { intros o' S H'. destruct (IH H') as [ops1 [ops2 [-> F]]].
        exists ops1, (ops2 ++ [o']). rewrite <- app_assoc. split; [reflexivity|].
        apply Forall_app. auto. }
      destruct o as [f|f|f|ks|ks|pat|b|p|]; try discriminate H.
      * cbn in H. subst b. exists ops, []. auto.
      * apply K; [split; reflexivity|exact H].
      * apply K; [split; reflexivity|exact H].
  - intros [ops1 [ops2 [-> F]]]. rewrite fold_left_app. cbn [fold_left].
    assert (L : forall ops e, Forall (fun o => is_setting o = true /\ case_set o = None) ops ->
      ev_lowercase (fold_left apply_env_op ops e) = ev_lowercase e).
    { clear. induction ops as [|o ops IH]; intros e F; auto. inversion F as [|? ? [H1 H2] F']; subst.
      cbn [fold_left]. rewrite IH by auto. destruct o; try discriminate; reflexivity. }
    now rewrite L.
Qed.
Print Assumptions C34_lowercase_exact.

Example C34_ex :
  ev_profile (build_env (FromPrefix (lit "A_")) [OpProfile p_global; OpMap lower; OpSplit (lit "_")]) = p_global /\
  ev_lowercase (build_env FromRaw ([OpFilter (fun _ => true)] ++ OpLowercase false :: [OpGlobal])) = false.
Proof. split; reflexivity. Qed.

(** ** C35 *)

(** One variable: kept by exactly one of the two. *)
Theorem C35_exclusive : forall s ops ks name key,
  mapped_key s ops name = Some key ->
  (mapped_key s (ops ++ [OpOnly ks]) name = Some key <-> exists k, In k ks /\ lower k = lower key) /\
  (mapped_key s (ops ++ [OpOnly ks]) name = Some key <-> mapped_key s (ops ++ [OpIgnore ks]) name = None) /\
  (mapped_key s (ops ++ [OpIgnore ks]) name = Some key <-> mapped_key s (ops ++ [OpOnly ks]) name = None).
Proof.
  intros s ops ks name key H. unfold mapped_key in *. rewrite !fold_left_app, H. cbn [fold_left op_key].
  assert (X : named_in ks key = true <-> exists k, In k ks /\ lower k = lower key).
  { unfold named_in. rewrite existsb_exists.
    split; intros [k [I E]]; exists k; split; auto; now apply ueqb_eq. }
  destruct (named_in ks key).
  - repeat split; try discriminate; try tauto; auto.
  - split; [|repeat split; try discriminate; try tauto; auto].
    rewrite <- X. split; discriminate.
Qed.
Print Assumptions C35_exclusive.

(** The whole environment: [only] and [ignore] split what there is. *)
Theorem C35_partition : forall s ops ks vars, ev_lowercase (build_env s ops) = true ->
  exists all yes no,
    env_iter (build_env s ops) vars = Ret all /\
    env_iter (env_only (build_env s ops) ks) vars = Ret yes /\
    env_iter (env_ignore (build_env s ops) ks) vars = Ret no /\
    Permutation all (yes ++ no).
Proof.
  intros s ops ks vars L. destruct (only_ignore_perm s ops ks vars L) as [a [y [n [A [Y [N0 P]]]]]].
  exists a, y, n. split; auto. unfold build_env in Y, N0. rewrite fold_left_app in Y, N0. auto.
Qed.
Print Assumptions C35_partition.

Example C35_ex :
  env_iter (env_only (env_prefixed (lit "app_")) [lit "PORT"; lit "x"]) ex_vars = Ret [(lit "port", lit " 8000 ")] /\
  mapped_key (FromPrefix (lit "app_")) [] (lit "app_Port") = Some (lit "Port").
Proof. split; reflexivity. Qed.
