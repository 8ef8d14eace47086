(** Property C63: what the environment provides. *)
From Coq Require Import Ascii String ZArith NArith Bool Permutation.
From Coq Require Import List.
From Verif Require Import Res BMap Str StrProofs Profile Tag Num Value Metadata Err Coalesce Parse Env Figment
  SpecValue SpecFigment SpecPriority SpecLookup SpecParse SpecStuck SpecEnv SpecEnvData
  ValueProofs CoalesceProofs FigmentProofs ParseProofs3 StuckProofs EnvProofs EnvDataProofs PropsEnv.
Import ListNotations.

(** ** C63 *)

(** The data is one dictionary, in the provider's profile. A scalar or array is found at a
    path in it exactly if one of the kept variables says so and no later one overrides it. *)
Theorem C63_leaves : forall s ops vars m,
  env_data (build_env s ops) vars = Ret m ->
  exists kept d,
    env_iter (build_env s ops) vars = Ret kept /\
    m = [(ev_profile (build_env s ops), d)] /\ wf_dict d /\
    forall p x, leaf_at p (VDict tag_default d) x <->
      exists before var after, kept = before ++ var :: after /\ sets var p x /\
        Forall (fun var => spares var p) after.
Proof. exact env_data_leaves. Qed.
Print Assumptions C63_leaves.

(** If no kept key is the beginning of another, every kept variable's whole value is there. *)
Theorem C63_found : forall s ops vars m kept,
  env_data (build_env s ops) vars = Ret m ->
  env_iter (build_env s ops) vars = Ret kept ->
  ForallOrdPairs (fun a b => unrelated (fst a) (fst b)) kept ->
  exists d, m = [(ev_profile (build_env s ops), d)] /\
    forall var ks y, In var kept -> assigned var ks y -> at_path ks (VDict tag_default d) = Some y.
Proof.
  intros s ops vars m kept H E U. apply env_data_ret in H.
  destruct H as [kept' [d [E' [_ [F [Ef ->]]]]]]. rewrite E' in E. inversion E; subst kept'.
  exists d. split; [reflexivity|]. intros var ks y I A.
  destruct (env_fold_found kept ks F [] d Ef wf_dict_nil) as [_ Fd].
  apply (Fd var y); auto. destruct A as [N0 _]. now destruct ks.
Qed.
Print Assumptions C63_found.

(** Every kept variable says something about one path. *)
Theorem C63_assigned : forall s ops vars m kept var,
  env_data (build_env s ops) vars = Ret m -> env_iter (build_env s ops) vars = Ret kept ->
  In var kept -> exists ks y, assigned var ks y /\
    forall ks' y', assigned var ks' y' -> ks' = ks /\ y' = y.
Proof.
  intros s ops vars m kept [k v] H E I. assert (H' := H). apply env_data_ret in H'.
  destruct H' as [kept' [d [E' [_ [F [Ef _]]]]]]. rewrite E' in E. inversion E; subst kept'.
  rewrite Forall_forall in F. assert (D := F _ I). cbn [fst] in D.
  destruct (value_from_str v) as [y| |] eqn:Ev.
  - destruct (dotted_assigned k v y D Ev) as [ks A]. exists ks, y. split; auto.
    intros ks' y' A'. destruct (assigned_fun _ _ _ _ _ A' A). auto.
  - exfalso. assert (P := env_fold_panics kept (proj2 (Forall_forall _ _) F) [] (k, v) I Ev). congruence.
  - exfalso. now apply value_from_str_terminates in Ev.
Qed.
Print Assumptions C63_assigned.

(** It panics exactly when a kept variable's value is text the parser panics on. *)
Theorem C63_panics : forall s ops vars, env_data (build_env s ops) vars = Panic <->
  exists kept k v, env_iter (build_env s ops) vars = Ret kept /\ In (k, v) kept /\ stuck (trim v).
Proof. exact env_data_panics. Qed.
Print Assumptions C63_panics.

(** As a provider it is an ordinary one: nothing in its data has a source of its own. *)
Theorem C63_provider : forall s ops vars pr,
  env_provider (build_env s ops) vars = Ret pr ->
  plain pr /\ pv_profile pr = None /\ pv_metadata pr = env_metadata (build_env s ops) /\
  exists m, env_data (build_env s ops) vars = Ret m /\ pv_data pr = Ok m.
Proof.
  intros s ops vars pr H. split; [now apply (env_provider_plain s ops vars)|].
  unfold env_provider in H. destruct (env_data (build_env s ops) vars) as [m| |]; try discriminate.
  inversion H; subst pr. repeat split. exists m. auto.
Qed.
Print Assumptions C63_provider.

(** In a figment made from it alone, the value of every kept variable is found under its key. *)
Theorem C63_figment : forall s ops vars pr loc o c f c',
  env_provider (build_env s ops) vars = Ret pr -> provide loc fig_new pr o c = (Ret f, c') ->
  exists kept, env_iter (build_env s ops) vars = Ret kept /\
    (ForallOrdPairs (fun a b => unrelated (fst a) (fst b)) kept ->
     forall var ks y, In var kept -> assigned var ks y ->
       exists x, find_value (fig_select f (ev_profile (build_env s ops))) (fst var) = Ok x /\
         strip x = strip y).
Proof. exact env_figment. Qed.
Print Assumptions C63_figment.

(** The order matters: [A={b=1}] and [A_B=2] both speak about [a.b]. *)
Definition ex_over : environ :=
  [(lit "A", lit "{b=1, c=[x]}"); (lit "A_B", lit "2"); (lit "D", lit "true"); (lit "D_E", lit "''")].
Definition ex_split : list env_op := [OpSplit (lit "_")].

Example C63_ex_leaves :
  env_data (build_env FromRaw ex_split) ex_over =
  Ret [(p_default,
        [(lit "a", VDict tag_default
            [(lit "b", VNum tag_default (NInt USize 2));
             (lit "c", VArray tag_default [VString tag_default (lit "x")])]);
         (lit "d", VDict tag_default [(lit "e", VString tag_default (lit "''"))])])] /\
  env_data (build_env FromRaw ex_split) (rev ex_over) =
  Ret [(p_default,
        [(lit "a", VDict tag_default
            [(lit "b", VNum tag_default (NInt USize 1));
             (lit "c", VArray tag_default [VString tag_default (lit "x")])]);
         (lit "d", VBool tag_default true)])].
Proof. split; vm_compute; reflexivity. Qed.

(** The variable [A_B=2] sets [a.b], and the later [D=true] and [D_E] spare it. *)
Example C63_ex_sets :
  sets (lit "a.b", lit "2") [lit "a"; lit "b"] (VNum tag_default (NInt USize 2)) /\
  ~ spares (lit "a.b", lit "2") [lit "a"; lit "b"] /\
  spares (lit "d", lit "true") [lit "a"; lit "b"].
Proof.
  assert (A : assigned (lit "a.b", lit "2") [lit "a"; lit "b"] (VNum tag_default (NInt USize 2))).
  { split; [discriminate|]. split; [|split; vm_compute; reflexivity].
    constructor; [|constructor; [|constructor]]; (split; [discriminate|]);
      cbn; intros [H|[]]; discriminate H. }
  split; [|split].
  - exists [lit "a"; lit "b"], (VNum tag_default (NInt USize 2)), []. split; [exact A|].
    split; [reflexivity|]. split; reflexivity.
  - intros S. destruct (S _ _ A) as [H _]. apply H. exists []. reflexivity.
  - assert (D : assigned (lit "d", lit "true") [lit "d"] (VBool tag_default true)).
    { split; [discriminate|]. split; [|split; vm_compute; reflexivity].
      constructor; [|constructor]. split; [discriminate|]. cbn. intros [H|[]]; discriminate H. }
    intros ks y H. destruct (assigned_fun _ _ _ _ _ H D) as [-> ->]. split.
    + intros [r E]. discriminate E.
    + intros r E. discriminate E.
Qed.

(** The variables of the example of C31 are unrelated, so all of them are found. *)
Example C63_ex_figment : exists pr f c',
  env_provider (build_env (FromPrefix (lit "app_")) ex_ops) ex_vars = Ret pr /\
  provide (mkLoc (lit "src/main.rs") 1 1) fig_new pr Merge 1%N = (Ret f, c') /\
  (exists x, find_value (fig_select f p_default) (lit "db.ports") = Ok x /\
     strip x = strip (VArray tag_default [VNum tag_default (NInt USize 1); VNum tag_default (NInt USize 2)])).
Proof.
  eexists. eexists. eexists. split; [vm_compute; reflexivity|].
  split; [vm_compute; reflexivity|]. eexists. split; vm_compute; reflexivity.
Qed.

Example C63_ex_panics :
  stuck (trim (lit "[1, """ ++ [233]%N ++ lit "\n""]")) /\
  env_data (build_env FromRaw [])
    [(lit "A", lit "1"); (lit "B", lit "[1, """ ++ [233]%N ++ lit "\n""]")] = Panic.
Proof.
  split; [|vm_compute; reflexivity]. apply value_from_str_stuck. vm_compute. reflexivity.
Qed.
