(** C88: providing the same thing again. *)
From Coq Require Import Ascii String ZArith NArith Bool.
From Coq Require Import List.
From Verif Require Import Res BMap Str Profile Tag Num Value Metadata Err Coalesce Figment De.
From Verif Require Import BMapProofs StrProofs ValueProofs CoalesceProofs FigmentProofs FigmentProofs2 ProvProofs PriorityProofs.
From Verif Require Import SpecValue SpecFigment SpecRt SpecBlind BlindProofs SpecFrame FrameProofs OrderProofs AgainProofs PropsFrame.
Import ListNotations.

Lemma reachable_sound H f : reachable H f -> sound f.
Proof.
  intros HR. unfold sound. destruct (f_value f) as [m|] eqn:Ev; [|exact I]. eapply reachable_data_tagged; eassumption.
Qed.

(** A provider that is merged last makes every earlier call with it, whichever it was, idle, if all
    that was provided in between was merged or admerged. *)
Theorem C88_last : forall H f p o l a b b' c c' f' g' n n', reachable H f -> quiet p ->
  Forall (fun x => quiet (call_with x) /\ (call_order x = Merge \/ call_order x = Admerge)) l ->
  run (calls (mkCall a o p :: l ++ [mkCall b Merge p])) f c = (Ret f', n) ->
  run (calls (l ++ [mkCall b' Merge p])) f c' = (Ret g', n') ->
  indistinguishable f' g'.
Proof.
  intros H f p o l a b b' c c' f' g' n n' HR HQ HF E1 E2. apply level_indistinguishable.
  eapply again_last; [exact HQ|eapply reachable_sound; exact HR| |exact E1|exact E2].
  eapply Forall_impl; [|exact HF]. intros x [Hx [Ho|Ho]]; (split; [exact Hx|]); now rewrite Ho.
Qed.
Print Assumptions C88_last.

(** Joining what was provided before, whichever way, does nothing, if all that was provided in
    between was joined or adjoined. *)
Theorem C88_first : forall H f p o l a a' b c c' f' g' n n', reachable H f -> quiet p ->
  Forall (fun x => quiet (call_with x) /\ (call_order x = Join \/ call_order x = Adjoin)) l ->
  run (calls (mkCall a o p :: l ++ [mkCall b Join p])) f c = (Ret f', n) ->
  run (calls (mkCall a' o p :: l)) f c' = (Ret g', n') ->
  indistinguishable f' g'.
Proof.
  intros H f p o l a a' b c c' f' g' n n' HR HQ HF E1 E2. apply level_indistinguishable.
  eapply again_first; [exact HQ|eapply reachable_sound; exact HR| |exact E1|exact E2].
  eapply Forall_impl; [|exact HF]. intros x [Hx [Ho|Ho]]; (split; [exact Hx|]); now rewrite Ho.
Qed.
Print Assumptions C88_first.

(** *** Cases *)
Definition ag_dict (d : dict) : dict := fr_db d ++ [(lit "tags", VArray tag_default [fr_v "t"])].
Definition ag_p : provider := fr_provider "p" (ag_dict [(lit "url", fr_v "x")]).
Definition ag_call (o : order) : call := mkCall fr_loc o ag_p.
(** Two calls that replace part of what [ag_p] provides. *)
Definition ag_over (o o' : order) : list call :=
  [fr_call o "a" (fr_db [(lit "pool", fr_n 4); (lit "url", fr_v "y")]); fr_call o' "b" [(lit "db", fr_n 7); (lit "tags", VArray tag_default [fr_v "s"])]].

Lemma ag_p_quiet : quiet ag_p.
Proof.
  split; [reflexivity|]. eexists. split; [reflexivity|].
  apply fr_wf; [vm_compute; tauto|repeat (constructor; cbn; try tauto)].
Qed.

Example C88_last_ex :
  quiet ag_p /\
  Forall (fun x => quiet (call_with x) /\ (call_order x = Merge \/ call_order x = Admerge)) (ag_over Merge Admerge) /\
  let f := fr_run (fr_start ++ calls (ag_call Admerge :: ag_over Merge Admerge ++ [ag_call Merge])) in
  let g := fr_run (fr_start ++ calls (ag_over Merge Admerge ++ [ag_call Merge])) in
  let h := fr_run (fr_start ++ calls (ag_call Admerge :: ag_over Merge Admerge)) in
  seen untag (merged f) = seen untag (merged g) /\
  seen untag (merged f) = Ok (VDict tag_default (ag_dict [(lit "url", fr_v "x")])) /\
  seen untag (merged h) <> seen untag (merged f).
Proof.
  split; [exact ag_p_quiet|]. split; [|split; [|split]]; try (vm_compute; reflexivity); [|vm_compute; discriminate].
  repeat (apply Forall_cons || apply Forall_nil); (split; [|now (left + right)]); (split; [reflexivity|]); eexists;
    (split; [reflexivity|]); (apply fr_wf; [vm_compute; tauto|repeat (constructor; cbn; try tauto)]).
Qed.

Example C88_first_ex :
  Forall (fun x => quiet (call_with x) /\ (call_order x = Join \/ call_order x = Adjoin)) (ag_over Join Adjoin) /\
  let f := fr_run (fr_start ++ calls (ag_call Join :: ag_over Join Adjoin ++ [ag_call Join])) in
  let g := fr_run (fr_start ++ calls (ag_call Join :: ag_over Join Adjoin)) in
  seen untag (merged f) = seen untag (merged g) /\
  seen untag (merged f) = Ok (VDict tag_default
    [(lit "db", VDict tag_default [(lit "pool", fr_n 4); (lit "url", fr_v "old"); (lit "user", fr_v "u")]);
     (lit "tags", VArray tag_default [fr_v "s"; fr_v "s"])]).
Proof.
  split; [|split]; try (vm_compute; reflexivity).
  repeat (apply Forall_cons || apply Forall_nil); (split; [|now (left + right)]); (split; [reflexivity|]); eexists;
    (split; [reflexivity|]); (apply fr_wf; [vm_compute; tauto|repeat (constructor; cbn; try tauto)]).
Qed.

(** What is joined in between meets what the earlier call left: then the earlier call matters. *)
Theorem C88_join_between_refuted : exists base x p, quiet p /\ quiet (call_with x) /\ call_order x = Join /\
  seen untag (merged (fr_run (base ++ calls [mkCall fr_loc Merge p; x; mkCall fr_loc Merge p]))) <>
  seen untag (merged (fr_run (base ++ calls [x; mkCall fr_loc Merge p]))).
Proof.
  exists [OpProvide fr_loc Merge (fr_provider "base" [(lit "db", fr_n 3)])], (fr_call Join "r" (fr_db [(lit "pool", fr_n 4)])),
    (fr_provider "p" (fr_db [(lit "url", fr_v "x")])).
  split; [|split; [|split; [reflexivity|vm_compute; discriminate]]]; (split; [reflexivity|]); eexists;
    (split; [reflexivity|]); (apply fr_wf; [vm_compute; tauto|repeat (constructor; cbn; try tauto)]).
Qed.
Print Assumptions C88_join_between_refuted.

(** And what is merged in between can make room for what is joined again. *)
Theorem C88_merge_between_refuted : exists base x p, quiet p /\ quiet (call_with x) /\ call_order x = Merge /\
  seen untag (merged (fr_run (base ++ calls [mkCall fr_loc Join p; x; mkCall fr_loc Join p]))) <>
  seen untag (merged (fr_run (base ++ calls [mkCall fr_loc Join p; x]))).
Proof.
  exists [OpProvide fr_loc Merge (fr_provider "base" [(lit "db", fr_n 3)])], (fr_call Merge "r" (fr_db [(lit "pool", fr_n 4)])),
    (fr_provider "p" (fr_db [(lit "url", fr_v "x")])).
  split; [|split; [|split; [reflexivity|vm_compute; discriminate]]]; (split; [reflexivity|]); eexists;
    (split; [reflexivity|]); (apply fr_wf; [vm_compute; tauto|repeat (constructor; cbn; try tauto)]).
Qed.
Print Assumptions C88_merge_between_refuted.

(** Concatenating again is not idle. *)
Theorem C88_concatenate_refuted : exists p, quiet p /\
  seen untag (merged (fr_run (calls [mkCall fr_loc Admerge p; mkCall fr_loc Admerge p]))) <>
  seen untag (merged (fr_run (calls [mkCall fr_loc Admerge p]))).
Proof. exists ag_p. split; [exact ag_p_quiet|vm_compute; discriminate]. Qed.
Print Assumptions C88_concatenate_refuted.
