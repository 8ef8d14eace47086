(** C44: when a jail restores what it found, in every case. *)
From Coq Require Import Ascii String NArith Bool Permutation.
From Coq Require Import List.
From Verif Require Import Res BMap Str Err Path Jail BMapProofs StrProofs SpecPath SpecJail JailProofs JailExactProofs.
From Verif Require Import PropsFile.
Import ListNotations.

(** ** C44 *)

(** Any operations, also ones that panic: dropping the jail restores the environment and the
    working directory, unless the first operation to panic is setting a variable whose name is
    not a possible one; and then dropping panics as well. *)
Theorem C44_exact : forall e0 dir cwd0 ops j touched order,
  sorted e0 -> var_values_ok e0 -> var_names_ok e0 -> Forall lists_all ops ->
  jail_run dir ops (jail_start e0 dir cwd0) = (j, touched) ->
  Permutation order (j_saved j) ->
  (drop_jail order cwd0 true j = Panic <->
     exists a k v b, ops = a ++ OpSetEnv k v :: b /\ Forall harmless a /\ ~ var_name k) /\
  (drop_jail order cwd0 true j <> Panic -> drop_jail order cwd0 true j = Ret (e0, cwd0)).
Proof.
  intros e0 dir cwd0 ops j t order S V W L R P. unfold drop_jail.
  destruct (restored_exactly e0 dir cwd0 ops j t order) as [[-> X]|[-> X]]; auto.
  - intros k v G. apply value_ok. eapply V; eauto.
  - intros k v I. apply var_name_ok. apply (W k v). now apply In_get.
  - cbn. split; [|reflexivity]. split; [discriminate|intros Y; now destruct X].
  - cbn. split; [|intros Y; now destruct Y]. split; [intros _; exact X|reflexivity].
Qed.
Print Assumptions C44_exact.

(** A value with a NUL panics and is undone; an impossible name after it does no harm, and before
    it does. *)
Example C44_exact_ex :
  let nul := OpSetEnv (lit "A") [0%N] in
  let bad := OpSetEnv (lit "x=y") (lit "z") in
  let run ops := fst (jail_run (lit "/tmp/j") ops (jail_start ex_env (lit "/tmp/j") [lit "home"])) in
  var_names_ok ex_env /\ Forall lists_all [nul; bad] /\ ~ harmless nul /\ ~ var_name (lit "x=y") /\
  (let j := run [OpSetEnv (lit "C") (lit "1"); nul; bad] in
   j_env j <> ex_env /\ drop_jail (j_saved j) [lit "home"] true j = Ret (ex_env, [lit "home"])) /\
  (let j := run [OpClearEnv (fun e => e); bad; nul] in drop_jail (j_saved j) [lit "home"] true j = Panic).
Proof.
  cbv zeta. split; [|split; [|split; [|split; [|split]]]].
  - intros k v G. apply get_In in G. destruct G as (k' & C & I). apply cmp_ustr_eq in C. subst k'. apply var_name_ok.
    destruct I as [I|[I|[]]]; injection I as <- _; reflexivity.
  - repeat constructor.
  - intros [_ H]. apply H. now left.
  - intros H. apply var_name_ok in H. discriminate.
  - split; [discriminate|reflexivity].
  - reflexivity.
Qed.
