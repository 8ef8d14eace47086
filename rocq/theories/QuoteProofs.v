(** Proofs about lists of names in a message. *)
From Coq Require Import Ascii String NArith Bool.
From Coq Require Import List.
From Verif Require Import Res BMap Str StrProofs Err Fmt SpecQuote.
Import ListNotations.

Lemma quotes_inside s : ~ In (ch "`") s -> forall t r, quotes (Some t) (s ++ lit "`" ++ r) = (rev t ++ s) :: quotes None r.
Proof.
  induction s as [|c s IH]; intros H t r.
  - cbn. now rewrite app_nil_r.
  - cbn [app quotes]. destruct (N.eqb_spec c (ch "`")) as [E|E]; [exfalso; apply H; now left|].
    cbn [option_map]. rewrite IH by (intros X; apply H; now right). cbn [rev]. now rewrite <- app_assoc.
Qed.
Lemma quotes_outside s : ~ In (ch "`") s -> forall r, quotes None (s ++ r) = quotes None r.
Proof.
  induction s as [|c s IH]; intros H r; [reflexivity|]. cbn [app quotes].
  destruct (N.eqb_spec c (ch "`")) as [E|E]; [exfalso; apply H; now left|]. apply IH. intros X. apply H. now right.
Qed.
Lemma quotes_quoted s r : ~ In (ch "`") s -> quotes None ((lit "`" ++ s ++ lit "`") ++ r) = s :: quotes None r.
Proof. intros H. rewrite <- !app_assoc. cbn [lit app]. exact (quotes_inside s H [] r). Qed.

Ltac quote_free := let X := fresh in intros X; vm_compute in X; intuition discriminate.

Lemma quotes_join l : Forall (fun s => ~ In (ch "`") s) l ->
  quotes None (join (lit ", ") (map (fun s => lit "`" ++ s ++ lit "`") l)) = l.
Proof.
  induction 1 as [|s [|s' r] H HF IH]; [reflexivity| |].
  - cbn [map join]. rewrite <- (app_nil_r (lit "`" ++ s ++ lit "`")). rewrite quotes_quoted by exact H. reflexivity.
  - change (map (fun s => lit "`" ++ s ++ lit "`") (s :: s' :: r))
      with ((lit "`" ++ s ++ lit "`") :: map (fun s => lit "`" ++ s ++ lit "`") (s' :: r)).
    change (join (lit ", ") ((lit "`" ++ s ++ lit "`") :: map (fun s => lit "`" ++ s ++ lit "`") (s' :: r)))
      with ((lit "`" ++ s ++ lit "`") ++ (lit ", " ++ join (lit ", ") (map (fun s => lit "`" ++ s ++ lit "`") (s' :: r)))).
    rewrite quotes_quoted by exact H. rewrite quotes_outside by quote_free. now rewrite IH.
Qed.

Lemma quotes_one_of l : Forall (fun s => ~ In (ch "`") s) l -> quotes None (fmt_one_of l) = l.
Proof.
  intros H. destruct l as [|a [|b [|c r]]].
  - reflexivity.
  - inversion H; subst. unfold fmt_one_of. rewrite <- (app_nil_r (_ ++ _)). rewrite quotes_quoted by assumption. reflexivity.
  - inversion H as [|? ? Ha H']; subst. inversion H' as [|? ? Hb _]; subst. unfold fmt_one_of.
    rewrite quotes_quoted by exact Ha. rewrite quotes_outside by quote_free.
    rewrite <- (app_nil_r (lit "`" ++ b ++ lit "`")). rewrite quotes_quoted by exact Hb. reflexivity.
  - unfold fmt_one_of. rewrite quotes_outside by quote_free. now apply quotes_join.
Qed.
