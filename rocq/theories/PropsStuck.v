(** Properties C27, C28, C30, exactly: the reading of every text. *)
From Coq Require Import Ascii String ZArith NArith Bool.
From Coq Require Import List.
From Verif Require Import Res BMap Str Profile Tag Num Value Escape NumParse Parse SpecParse
  SpecStuck EscapeProofs TrimProofs ParseProofs ParseProofs3 StuckProofs.
Import ListNotations.

(** ** C30 *)
Theorem C30_exact : forall q t, escape q = Ret (Ok t) <-> read_as q t.
Proof. exact escapes_read. Qed.
Print Assumptions C30_exact.

Theorem C30_panics : forall q, escape q = Panic <-> breaks q.
Proof. exact escape_breaks. Qed.
Print Assumptions C30_panics.

(** Everything else is an error: a text with an invalid escape or character, unless it breaks
    before that. *)
Theorem C30_errors : forall q,
  (exists e, escape q = Ret (Err e)) <-> (forall t, ~ decodes q t) /\ ~ breaks q.
Proof.
  intros q. destruct (escape_exact q) as [[u [E R]]|[[e [E [D B]]]|[E B]]].
  - split; [intros [e H]; congruence|]. intros [D _]. apply read_as_decodes in R.
    destruct R as [t R]. now apply D in R.
  - split; eauto.
  - split; [intros [e H]; congruence|tauto].
Qed.
Print Assumptions C30_errors.

Lemma cut_2 : cut [233; 233]%N [233]%N.
Proof. exists [233%N]. split; reflexivity. Qed.
Lemma no_cut_1 a : ~ cut [233]%N a.
Proof.
  intros [rest [E L]]. destruct a as [|x a]; [discriminate L|].
  inversion E as [[E1 E2]]. destruct a; [subst; discriminate L|discriminate E2].
Qed.
Lemma lit_233 : literal 233%N.
Proof. split; [discriminate|]. right. repeat split; discriminate. Qed.

Example C30_ex_exact :
  read_as ([233; 233]%N ++ lit "\n") ([233]%N ++ [10]%N) /\
  breaks ([233]%N ++ lit "\q") /\ (forall t, ~ decodes ([233]%N ++ lit "\q") t) /\
  read_as [233; 233]%N [233; 233]%N.
Proof.
  split; [|split; [|split]].
  - apply (ra_escaped [233; 233]%N (lit "n") [233]%N [10]%N).
    + repeat (constructor; [exact lit_233|]). constructor.
    + exact cut_2.
    + apply (dec_letter (ch "n") 10%N [] [] le_n dec_nil).
  - exists [233]%N, (lit "q"). split; [reflexivity|]. split; [|exact no_cut_1].
    constructor; [exact lit_233|constructor].
  - intros t D. inversion D as [|? ? t0 Hl D'| | |]; subst. apply decodes_bs in D'.
    destruct D' as [[d [t' [L _]]]|[len [h [n [q [t' [[[L _]|[L _]] _]]]]]]].
    + inversion L.
    + discriminate L.
    + discriminate L.
  - constructor. repeat (constructor; [exact lit_233|]). constructor.
Qed.

(** ** C27 *)
Theorem C27_exact : forall s, value_from_str s = Panic <-> stuck (trim s).
Proof. exact value_from_str_stuck. Qed.
Print Assumptions C27_exact.

(** An item of a nested array; and a key of a dictionary that is not even closed. *)
Example C27_ex_exact :
  stuck (lit "{a = [1, """ ++ [233]%N ++ lit "\n"" ], ...") /\
  stuck (lit "{""" ++ [233]%N ++ lit "\q""") /\
  ~ stuck (lit "{""" ++ [233]%N ++ lit "\q").
Proof.
  assert (B : forall b, breaks ([233]%N ++ ch "\" :: b)).
  { intros b. exists [233]%N, b. split; [reflexivity|]. split; [|exact no_cut_1].
    constructor; [exact lit_233|constructor]. }
  split; [|split].
  - apply (stuck_dict [] (lit "a = [1, """ ++ [233]%N ++ lit "\n"" ], ...")); [constructor|].
    apply (stuck_value [] (lit " ") (lit "a") (lit "a") (lit " [1, """ ++ [233]%N ++ lit "\n"" ], ...")).
    + constructor.
    + repeat constructor.
    + apply key_ident. constructor; [|constructor]. right. left. split; discriminate.
    + apply (stuck_array (lit " ") (lit "1, """ ++ [233]%N ++ lit "\n"" ], ...")); [repeat constructor|].
      apply (stuck_next (lit "1") (VNum tag_default (NInt USize 1))
                        (lit " """ ++ [233]%N ++ lit "\n"" ], ...")).
      * apply form_escapes. assert (E : value_from_str (lit "1") = Ret (VNum tag_default (NInt USize 1)))
          by (vm_compute; reflexivity).
        apply value_from_str_complete in E. destruct E as [E|E]; [exact E|discriminate E].
      * apply stuck_item. apply (stuck_string (lit " ") ([233]%N ++ lit "\n") (lit " ], ...")).
        -- repeat constructor.
        -- apply qb_plain; try discriminate. apply qb_pair. constructor.
        -- apply (B (lit "n")).
  - apply (stuck_dict [] (lit """" ++ [233]%N ++ lit "\q""")); [constructor|].
    apply (stuck_key [] ([233]%N ++ lit "\q") []).
    + constructor.
    + apply qb_plain; try discriminate. apply qb_pair. constructor.
    + apply (B (lit "q")).
  - intros S. assert (E : trim (lit "{""" ++ [233]%N ++ lit "\q") = lit "{""" ++ [233]%N ++ lit "\q")
      by (vm_compute; reflexivity).
    rewrite <- E in S. apply C27_exact in S. vm_compute in S. discriminate S.
Qed.

(** ** C28 *)
Theorem C28_exact : forall s v, value_from_str s = Ret v <->
  complete read_as (trim s) v
  \/ (~ stuck (trim s) /\ (forall v', ~ complete read_as (trim s) v') /\ v = VString tag_default (trim s)).
Proof. exact value_from_str_exact. Qed.
Print Assumptions C28_exact.

(** The readings of a text are unique, and a text is never both readable and stuck. *)
Theorem C28_unique : forall s v v', complete read_as (trim s) v -> complete read_as (trim s) v' -> v = v'.
Proof.
  intros s v v' A B. assert (X := proj2 (C28_exact s v) (or_introl A)).
  assert (Y := proj2 (C28_exact s v') (or_introl B)). congruence.
Qed.
Theorem C28_read_not_stuck : forall s v, complete read_as (trim s) v -> ~ stuck (trim s).
Proof.
  intros s v A S. assert (X := proj2 (C28_exact s v) (or_introl A)). apply C27_exact in S. congruence.
Qed.
Print Assumptions C28_unique.
Print Assumptions C28_read_not_stuck.

(** The documented meaning and the code's agree except through quoted text. *)
Theorem C28_same_without_escapes : forall s v, ~ In (ch "\") s ->
  (denotes (trim s) v <-> complete read_as (trim s) v).
Proof.
  intros s v N0.
  assert (C : clean (trim s)).
  { intros a q b E _ _. exfalso. apply N0. destruct (trim_decomp s) as [w1 [w2 [_ [_ D]]]].
    rewrite D. apply in_or_app. right. apply in_or_app. left. rewrite E.
    apply in_or_app. right. right. apply in_or_app. right. now left. }
  rewrite <- complete_read. symmetry. now apply clean_complete.
Qed.
Print Assumptions C28_same_without_escapes.

Example C28_ex_exact :
  complete read_as (ch """" :: [233; 233]%N ++ lit "\n""") (VString tag_default [233; 10]%N) /\
  value_from_str (ch """" :: [233; 233]%N ++ lit "\n""") = Ret (VString tag_default [233; 10]%N) /\
  value_from_str (ch """" :: [233]%N ++ lit "\n") = Ret (VString tag_default (ch """" :: [233]%N ++ lit "\n")) /\
  denotes (trim [ch """"; 233%N; ch """"]) (VString tag_default [233]%N).
Proof.
  split; [|split; [vm_compute; reflexivity|split; [vm_compute; reflexivity|]]].
  - assert (E : value_from_str (ch """" :: [233; 233]%N ++ lit "\n""") = Ret (VString tag_default [233; 10]%N))
      by (vm_compute; reflexivity).
    apply C28_exact in E. destruct E as [E|[_ [_ E]]]; [exact E|discriminate E].
  - apply C28_same_without_escapes; [vm_compute; intuition discriminate|].
    assert (E : value_from_str [ch """"; 233%N; ch """"] = Ret (VString tag_default [233]%N))
      by (vm_compute; reflexivity).
    apply C28_exact in E. destruct E as [E|[_ [_ E]]]; [exact E|discriminate E].
Qed.
