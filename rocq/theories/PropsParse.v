(** Properties C25-C30: lossy conversions, parsing values from text. *)
From Coq Require Import Ascii String ZArith NArith Bool.
From Coq Require Import Floats.SpecFloat.
From Coq Require Import List.
From Verif Require Import SpecNear NearProofs.
From Verif Require Import Res BMap Str Profile Tag Num Value Escape NumParse Parse SpecParse
  SpecLossy SpecShow EscapeProofs TrimProofs NumParseProofs ParseProofs ParseProofs3 ShowProofs
  LossyProofs.
Import ListNotations.

Ltac in_list := repeat (first [left; reflexivity | right]).
Ltac digits := repeat constructor; vm_compute; discriminate.

(** ** C25 *)
Theorem C25_lossy_bool : forall v b, to_bool_lossy v = Some b <-> boolish v b.
Proof. exact to_bool_lossy_spec. Qed.
Print Assumptions C25_lossy_bool.

Example C25_ex : boolish (VString tag_default (lit "YeS")) true
  /\ boolish (VNum tag_default (NInt I32 0)) false
  /\ to_bool_lossy (VString tag_default (lit " true")) = None
  /\ to_bool_lossy (VNum tag_default (NInt I8 (-1))) = None
  /\ to_bool_lossy (VEmpty tag_default ENone) = None.
Proof.
  split; [apply (bl_yes _ _ (lit "yes")); [in_list|reflexivity]|].
  split; [constructor|]. repeat split; reflexivity.
Qed.

(** ** C26 *)
Theorem C26_lossy_num : forall t s n,
  to_num_lossy (VString t s) = Some n <-> lossy_num (trim s) n.
Proof. intros t s n. exact (num_from_str_spec s n). Qed.
Print Assumptions C26_lossy_num.

Theorem C26_others : forall v,
  (forall t n, v = VNum t n -> to_num_lossy v = Some n) /\
  ((forall t n, v <> VNum t n) -> (forall t s, v <> VString t s) -> to_num_lossy v = None).
Proof.
  intros v. split.
  - intros t n ->. reflexivity.
  - intros A B. destruct v; try reflexivity; [exfalso; eapply B|exfalso; eapply A]; reflexivity.
Qed.
Print Assumptions C26_others.

(** Not the nearest double: short fractions are rounded to single precision first. *)
Theorem C26_nearest_double_refuted : exists s n f,
  to_num_lossy (VString tag_default s) = Some n /\ In (ch ".") s /\
  denotes_num s (NF64 f) /\ num_to_f64 n <> Some f.
Proof.
  exists (lit "0.1"). eexists. exists (decimal_to_float 53 1024 false 1 (-1)). split; [vm_compute; reflexivity|].
  split; [in_list|]. split.
  - apply (dn_float (lit "0.1") false 1 (-1)); [in_list| |apply decimal_nearest; [exact ok_double|discriminate]].
    change (lit "0.1") with ([] ++ ([ch "0"] ++ ch "." :: [ch "1"]) ++ []).
    change (-1)%Z with (0 - Z.of_nat (length [ch "1"]))%Z. constructor; try constructor.
    + discriminate.
    + digits.
    + digits.
  - vm_compute. discriminate.
Qed.
Print Assumptions C26_nearest_double_refuted.

Example C26_ex : lossy_num (lit "-129") (NInt I16 (-129)) /\ lossy_num (lit "007") (NInt U8 7) /\
  to_num_lossy (VString tag_default (lit "340282366920938463463374607431768211456")) = None /\
  to_num_lossy (VString tag_default (lit "1e5")) = None /\
  to_num_lossy (VString tag_default (lit "1.5e3abc")) = None.
Proof.
  split; [apply (num_from_str_spec (lit "-129")); vm_compute; reflexivity|].
  split; [apply (num_from_str_spec (lit "007")); vm_compute; reflexivity|].
  repeat split; vm_compute; reflexivity.
Qed.

(** ** C27 *)
Theorem C27_terminates : forall s, value_from_str s <> NoFuel.
Proof. exact value_from_str_terminates. Qed.
Print Assumptions C27_terminates.

Theorem C27_no_panic_partial : forall s, clean s -> exists v, value_from_str s = Ret v.
Proof. exact value_from_str_no_panic. Qed.
Print Assumptions C27_no_panic_partial.

(** A non-ASCII character before the first escape of a quoted string: ["é\n"]. *)
Theorem C27_no_panic_refuted : exists s, text s /\ value_from_str s = Panic.
Proof.
  exists (ch """" :: 233%N :: lit "\n"""). split; [|vm_compute; reflexivity].
  repeat constructor.
Qed.
Print Assumptions C27_no_panic_refuted.

(** [clean] holds of all ASCII text, and of text without backslashes. *)
Theorem C27_clean_ascii : forall s, Forall ascii_char s -> clean s.
Proof.
  intros s H a q b -> _ _. apply Forall_app in H. destruct H as [_ H]. inversion H; subst.
  now apply Forall_app in H3.
Qed.
Theorem C27_clean_unescaped : forall s, ~ In (ch "\") s -> clean s.
Proof.
  intros s H a q b -> _ _. exfalso. apply H. apply in_or_app. right. right. apply in_or_app.
  right. left. reflexivity.
Qed.

Example C27_ex : clean (lit "{a = [1, ""x\ty"", 'c'], ""b\n"" = }") /\ clean [ch """"; 233; ch """"]%N.
Proof.
  split.
  - apply C27_clean_ascii. repeat constructor.
  - apply C27_clean_unescaped. vm_compute. intuition discriminate.
Qed.

(** ** C28 *)
Theorem C28_fallback : forall s v, value_from_str s = Ret v ->
  (forall v', ~ denotes (trim s) v') -> v = VString tag_default (trim s).
Proof.
  intros s v H N0. apply value_from_str_complete in H. destruct H as [H|H]; auto.
  apply complete_weaken in H. destruct H as [v' H]. now apply N0 in H.
Qed.
Print Assumptions C28_fallback.

(** The other direction: a text of the grammar gives its meaning.  For text in which no
    escape follows a non-ASCII character in quotes. *)
Theorem C28_denotes_partial : forall s v, clean s -> denotes (trim s) v -> value_from_str s = Ret v.
Proof. intros s v C D. apply complete_escapes. apply clean_complete; auto. now apply clean_trim. Qed.
Print Assumptions C28_denotes_partial.

(** And without that condition it fails. *)
Theorem C28_denotes_refuted : exists s v v', text s /\ denotes (trim s) v /\
  value_from_str s = Ret v' /\ v' <> v.
Proof.
  exists (ch """" :: 233%N :: 233%N :: lit "\n"""), (VString tag_default [233; 233; 10]%N).
  eexists. split; [repeat constructor|]. split; [|split; [vm_compute; reflexivity|discriminate]].
  change (trim (ch """" :: 233%N :: 233%N :: lit "\n"""))
    with ([] ++ (ch """" :: [233%N; 233%N; ch "\"; ch "n"] ++ [ch """"]) ++ []).
  apply (form_string decodes); try constructor; try discriminate.
  - constructor; try discriminate. apply qb_pair. constructor.
  - split; [discriminate|]. right. repeat split; discriminate.
  - apply dec_literal. { split; [discriminate|]. right. repeat split; discriminate. }
    apply (dec_letter (ch "n") 10%N [] [] le_n dec_nil).
Qed.
Print Assumptions C28_denotes_refuted.

Example C28_ex :
  value_from_str (lit " [1, 2 ") = Ret (VString tag_default (lit "[1, 2")) /\
  (exists v, denotes (lit "[1, 2]") v /\ value_from_str (lit "[1, 2]") = Ret v).
Proof.
  split; [vm_compute; reflexivity|].
  eexists. assert (E : value_from_str (lit "[1, 2]") = Ret (VArray tag_default
     [VNum tag_default (NInt USize 1); VNum tag_default (NInt USize 2)])) by (vm_compute; reflexivity).
  split; [|exact E]. apply value_from_str_complete in E. destruct E as [E|E]; [|discriminate].
  apply clean_complete in E; [exact E|].
  apply C27_clean_ascii. repeat constructor.
Qed.

(** ** C29 *)
Theorem C29_show_parse : forall v, showable v -> value_from_str (show v) = Ret v.
Proof. exact show_parses. Qed.
Print Assumptions C29_show_parse.

Theorem C29_show_denotes : forall v, showable v -> denotes (show v) v.
Proof. exact show_denotes. Qed.
Print Assumptions C29_show_denotes.

Example C29_ex : exists v, showable v /\
  v = VDict tag_default
    [(lit "a b", VArray tag_default [VNum tag_default (NInt ISize (-5)); VBool tag_default true]);
     ([233; 10]%N, VString tag_default (ch """" :: [128512]%N))] /\
  show v = lit "{""a b""=[-5,true],""\U000000e9\U0000000a""=""\U00000022\U0001f600""}".
Proof.
  eexists. split; [|split; [reflexivity|vm_compute; reflexivity]].
  constructor.
  - repeat split.
  - repeat constructor.
  - repeat constructor; vm_compute; intuition discriminate.
Qed.

(** ** C30 *)
Theorem C30_escapes_partial : forall q t, ascii_lead q -> (escape q = Ret (Ok t) <-> decodes q t).
Proof. exact escape_decodes. Qed.
Print Assumptions C30_escapes_partial.

(** An invalid one is an error, not a panic. *)
Theorem C30_invalid_partial : forall q, ascii_lead q -> (forall t, ~ decodes q t) ->
  exists e, escape q = Ret (Err e).
Proof.
  intros q A H. assert (NP := escape_no_panic q A). assert (NF := escape_no_nofuel q).
  destruct (escape q) as [[t|e]| |] eqn:E; try congruence; eauto.
  exfalso. apply (H t). now apply escape_decodes.
Qed.
Print Assumptions C30_invalid_partial.

(** Without any condition, exactly the valid texts are accepted or panic. *)
Theorem C30_accepts : forall q t, escape q = Ret (Ok t) -> exists t', decodes q t'.
Proof. exact escape_accepts. Qed.
Print Assumptions C30_accepts.

(** The text [éé\n] loses a character. *)
Theorem C30_escapes_refuted : exists q t t', decodes q t /\ escape q = Ret (Ok t') /\
  length t = 3 /\ length t' = 2.
Proof.
  exists (233%N :: 233%N :: lit "\n"), [233; 233; 10]%N. eexists.
  split; [|split; [vm_compute; reflexivity|split; reflexivity]].
  apply dec_literal. { split; [discriminate|]. right. repeat split; discriminate. }
  apply dec_literal. { split; [discriminate|]. right. repeat split; discriminate. }
  apply (dec_letter (ch "n") 10%N [] [] le_n dec_nil).
Qed.
Print Assumptions C30_escapes_refuted.

Example C30_ex : ascii_lead (lit "a\t" ++ [233]%N ++ lit "\u00e9") /\
  escape (lit "a\t" ++ [233]%N ++ lit "\u00e9") = Ret (Ok [97; 9; 233; 233]%N) /\
  ascii_lead (lit "\q") /\ exists e, escape (lit "\q") = Ret (Err e).
Proof.
  split; [|split; [vm_compute; reflexivity|split; [|eexists; vm_compute; reflexivity]]].
  - intros p b E N0. destruct p as [|x p]; [constructor|]. inversion E; subst.
    destruct p as [|y p]; [repeat constructor|]. inversion H1; subst. exfalso. apply N0.
    right. left. reflexivity.
  - intros p b E N0. destruct p as [|x p]; [constructor|]. inversion E; subst. exfalso. apply N0.
    left. reflexivity.
Qed.
