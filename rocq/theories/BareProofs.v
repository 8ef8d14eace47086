(** What goes wrong in reading a copy is said without a place: the errors of [from_content] and
    [xcontent] have no path, no tag and no source. *)
From Coq Require Import Ascii String ZArith NArith Bool Lia.
From Coq Require Import List.
From Verif Require Import Res BMap Str Profile Tag Num Value Metadata Err Coalesce Figment Fmt De Content Derive.
From Verif Require Import SpecValue SpecLossy SpecDe SpecMagic SpecExtract SpecTaken SpecGives SpecBuffer SpecDerive.
From Verif Require Import ValueProofs DeProofs FieldProofs ContentProofs DeriveProofs.
Import ListNotations.

Definition bare {A} (r : res error A) : Prop := match r with Err e => exists k, e = err_of_kind k | Ok _ => True end.

Lemma bare_bind {A B} (r : res error A) (f : A -> res error B) : bare r -> (forall a, bare (f a)) -> bare (res_bind r f).
Proof. destruct r; cbn; auto. Qed.
Lemma bare_map {A B} (r : res error A) (f : A -> B) : bare r -> bare (res_map f r).
Proof. destruct r; cbn; auto. Qed.
Lemma bare_type {A} a exp : bare (@invalid_type A a exp).
Proof. unfold invalid_type. cbn. eauto. Qed.
Lemma bare_value {A} a exp : bare (@invalid_value A a exp).
Proof. unfold invalid_value. cbn. eauto. Qed.
Lemma bare_length {A} a exp : bare (@invalid_length A a exp).
Proof. unfold invalid_length. cbn. eauto. Qed.
Lemma bare_err {A} k : bare (@Err error A (err_of_kind k)).
Proof. cbn. eauto. Qed.
Lemma bare_msg {A} k : bare (@Err error A (err_msg k)).
Proof. cbn. unfold err_msg. eauto. Qed.
Global Hint Resolve bare_bind bare_map bare_type bare_value bare_length bare_err bare_msg : bare.
Global Hint Extern 1 (bare (Ok _)) => exact I : bare.
Global Hint Extern 1 (bare (Err _)) => (eexists; reflexivity) : bare.
Global Hint Extern 1 (exists k, _ = err_of_kind k) => (eexists; reflexivity) : bare.

Lemma bare_contents {A B} (rec : A -> res error B) l : (forall a, bare (rec a)) -> bare (contents rec l).
Proof. intros H. induction l as [|c l IH]; cbn; auto with bare. Qed.
Lemma bare_exact recs short : Forall (fun rec => forall c, bare (rec c)) recs -> forall l n, bare (exact_elements recs short l n).
Proof.
  induction 1 as [|rec recs H _ IH]; intros [|c l] n; cbn; auto with bare.
Qed.
Lemma bare_elements fs short : Forall (fun f : field (content -> res error dval) => forall c, bare (f_type f c)) fs ->
  forall l n, bare (read_elements (fun _ rec c => rec c) fs short l n).
Proof.
  induction 1 as [|f fs H _ IH]; intros [|c l] n; cbn; auto with bare. destruct (f_default f); auto with bare.
Qed.
Lemma bare_whole fs exp l : Forall (fun f : field (content -> res error dval) => forall c, bare (f_type f c)) fs ->
  bare (whole_seq fs exp l).
Proof. intros H. unfold whole_seq. apply bare_bind; [apply bare_elements, H|]. intros [? []]; cbn; auto with bare. Qed.
Lemma bare_read {A} deny other fs : Forall (fun f : field (A -> res error dval) => forall c, bare (f_type f c)) fs ->
  match other with Some copy => forall a, bare (copy a) | None => True end ->
  forall l slots, bare (read_fields (fun _ e => e) deny other fs l slots).
Proof.
  intros H O. rewrite Forall_forall in H. induction l as [|[k a] l IH]; intros slots; cbn; auto with bare.
  destruct (field_of fs k) as [f|] eqn:E.
  - apply field_of_some in E. destruct (assoc (f_name f) slots); auto with bare. apply bare_bind; auto. apply H, E.
  - destruct other; auto with bare. destruct deny; auto with bare.
Qed.
Lemma bare_complete fs slots : Forall (fun f : field (ustr -> res error dval) => forall n, bare (f_type f n)) fs ->
  bare (complete fs slots).
Proof.
  induction 1 as [|f fs H _ IH]; cbn; auto with bare. apply bare_bind; auto with bare.
  destruct (assoc (f_name f) slots); auto with bare. destruct (f_default f); auto with bare.
Qed.
Lemma bare_tag c : bare (content_tag c).
Proof. destruct c as [|[]| | | | | | | |]; cbn; auto with bare; apply bare_type. Qed.

Fixpoint bare_content_value (c : content) : bare (content_value c).
Proof.
  destruct c as [b|k z|x|x|x|s| | |l|l]; cbn [content_value]; auto with bare.
  - apply bare_map. revert l. fix go 1. intros [|x l]; cbn; auto with bare.
  - generalize (@nil (ustr * value)) (@None tag) (@None value). revert l. fix go 1. intros [|[k x] l] acc id raw; [exact I|]. cbn -[bare value_id value_value ueqb].
    destruct (ueqb k value_id); [apply bare_bind; [apply bare_tag|intros; apply go]|].
    destruct (ueqb k value_value); (apply bare_bind; [apply bare_content_value|intros; apply go]).
Qed.

Lemma bare_missing t n : bare (deserialize t (DMissing n)).
Proof.
  destruct t as [|[]| | | | | |t|t|ts|t|k t|nm i dn fs|i t|i ts|i|i vs| | | | | | |a b]; cbn; eauto.
Qed.

Lemma bare_struct exp deny fs wrong c (h : ty -> content -> res error dval) :
  Forall (fun f => forall c, bare (h (snd f) c)) fs -> bare wrong ->
  bare (content_struct exp deny (map (fun f : ustr * ty => just (fst f) (h (snd f))) fs) (absent_fields fs) wrong c).
Proof.
  intros H W. assert (H' : Forall (fun f : field (content -> res error dval) => forall c, bare (f_type f c)) (map (fun f : ustr * ty => just (fst f) (h (snd f))) fs)).
  { apply Forall_map. exact H. }
  destruct c; cbn [content_struct]; auto; [apply bare_whole, H'|].
  apply bare_bind; [apply bare_read; [exact H'|exact I]|]. intros sc. apply bare_complete. apply Forall_map. apply Forall_forall.
  intros f _ n. apply bare_missing.
Qed.

Lemma bare_copy o t : forall c, bare (from_content o t c).
Proof.
  induction t as [|k| | | | | |t IHt|t IHt|ts IHts|t IHt|k t IHk IHt|n i dn fs IHfs|i t IHt|i ts IHts|i|i vs IHvs| | | | | | |a b IHa IHb] using ty_ind';
    intros c; cbn [from_content]; auto with bare.
  all: try (destruct c; auto with bare; fail).
  - destruct k; destruct c; auto with bare; match goal with |- context [in_range ?k ?z] => destruct (in_range k z) end; auto with bare.
  - destruct c as [| | | | |[|? []]| | | |]; auto with bare.
  - destruct c; auto with bare. apply bare_map, bare_contents, IHt.
  - destruct c; auto with bare. apply bare_map, bare_exact. apply Forall_map. exact IHts.
  - destruct c; auto with bare. apply bare_map, bare_contents. intros e. auto with bare.
  - destruct c; auto with bare. apply bare_map, bare_contents. intros e. auto with bare.
  - apply bare_map, bare_struct; auto with bare.
  - destruct c; auto with bare. apply bare_map, bare_exact. apply Forall_map. exact IHts.
  - destruct o; destruct c as [| | | | | | | |[]|[]]; auto with bare.
  - assert (V : forall s h, assoc s (map (fun nv => (fst nv, shape_reader o (i ++ lit "::" ++ fst nv) (snd nv))) vs) = Some h -> forall x, bare (h x)).
    { induction IHvs as [|[n sh] vs H _ IH]; cbn; intros s h; [discriminate|]. destruct (ueqb s n); [|apply IH].
      intros [= <-] x. cbn in H. destruct sh as [|t|ts|fs]; cbn [shape_reader].
      - destruct x as [[]|]; auto with bare.
      - destruct x; auto with bare.
      - destruct x as [[]|]; auto with bare. apply bare_map, bare_exact. apply Forall_map. exact H.
      - destruct x; auto with bare. apply bare_map, bare_struct; auto with bare. }
    destruct c as [| | | | |s| | | |[|[s x] []]]; auto with bare.
    + match goal with |- context [assoc s ?l] => change l with (map (fun nv => (fst nv, shape_reader o (i ++ lit "::" ++ fst nv) (snd nv))) vs) end.
      specialize (V s). destruct (assoc s _); auto with bare.
    + match goal with |- context [assoc s ?l] => change l with (map (fun nv => (fst nv, shape_reader o (i ++ lit "::" ++ fst nv) (snd nv))) vs) end.
      specialize (V s). destruct (assoc s _); auto with bare.
  - apply bare_map, bare_content_value.
  - apply bare_map, bare_tag.
  - destruct c; auto with bare.
    + destruct (_ || _); auto with bare.
    + destruct (uncased_eqb _ _); auto with bare. destruct (uncased_eqb _ _); auto with bare.
  - destruct c; auto with bare; (apply bare_bind; [apply bare_content_value|]); intros v;
      destruct (deserialize a (DPlain v)); auto with bare; destruct (deserialize b _); auto with bare.
Qed.

Lemma bare_absent x n : bare (absent_field x n).
Proof. destruct x; cbn [absent_field]; auto with bare. apply bare_missing. Qed.

Definition bare_reader (f : flat reader) : Prop :=
  match f with
  | FlStruct _ fs => Forall (fun f : field reader => (forall c, bare (fst (f_type f) c)) /\ forall n, bare (snd (f_type f) n)) fs
  | FlMap rd => forall c, bare (fst rd c)
  end.

Lemma bare_take fs : Forall (fun f : field (content -> res error dval) => forall c, bare (f_type f c)) fs ->
  forall l slots, bare (fst (take_fields fs l slots)).
Proof.
  intros H. rewrite Forall_forall in H. induction l as [|[k c] l IH]; intros slots; cbn; auto.
  destruct (field_of fs k) as [f|] eqn:E.
  - apply field_of_some in E. destruct (assoc (f_name f) slots); [apply bare_err|].
    assert (B := H f (proj1 E) c). destruct (f_type f c); [apply IH|exact B].
  - specialize (IH slots). destruct (take_fields fs l slots). exact IH.
Qed.

Lemma bare_flats fls : Forall (fun nf => bare_reader (snd nf)) fls -> forall l, bare (read_flats fls l).
Proof.
  induction 1 as [|[n [opt fs|rd]] fls H _ IH]; intros l; cbn [read_flats]; auto with bare.
  - cbn in H. assert (T := bare_take (map (map_field fst) fs) ltac:(apply Forall_map; eapply Forall_impl; [|exact H]; intros f [F _]; exact F) l []).
    destruct (take_fields _ l []) as [s rest]. cbn in T. apply bare_bind; [|auto with bare].
    destruct opt; auto with bare. apply bare_map, bare_bind; [exact T|]. intros sl. apply bare_complete.
    apply Forall_map. eapply Forall_impl; [|exact H]. intros f [_ F]. exact F.
  - cbn in H. apply bare_bind; [|auto with bare]. apply bare_map, bare_contents. auto with bare.
Qed.

Lemma bare_first ident vs c : bare (first_fitting ident vs c).
Proof. induction vs as [|[n r] vs IH]; cbn [first_fitting]; auto with bare. destruct (r c); auto with bare. Qed.

Lemma bare_flat_reader f : flat_all (fun x => forall o c, bare (xcontent o x c)) f -> bare_reader (flat_reader f).
Proof.
  destruct f as [opt fs|x]; cbn; [|intros H c; apply H]. intros H. apply Forall_map. eapply Forall_impl; [|exact H].
  intros f F. split; [apply F|]. apply bare_absent.
Qed.

Lemma bare_xcopy x : forall o c, bare (xcontent o x c).
Proof.
  induction x as [t|x IHx|x IHx|x IHx|i d fs fls IHfs IHfls|i vs IHvs] using xty_ind'; intros o c.
  - apply bare_copy.
  - cbn [xcontent]. destruct c; auto with bare.
  - cbn [xcontent]. destruct c; auto with bare. apply bare_map, bare_contents, IHx.
  - cbn [xcontent]. destruct c; auto with bare. apply bare_map, bare_contents. auto with bare.
  - assert (R : Forall (fun f : field (content -> res error dval) => forall c, bare (f_type f c)) (map (map_field (xcontent o)) fs)).
    { apply Forall_map. eapply Forall_impl; [|exact IHfs]. intros f F. apply F. }
    cbn [xcontent]. destruct c; auto with bare.
    + destruct (map _ fls); auto with bare. apply bare_map, bare_whole, R.
    + unfold read_struct. apply bare_bind; [apply bare_read; [exact R|destruct (map _ fls); auto with bare]|].
      intros [s rest]. apply bare_bind; [apply bare_complete; apply Forall_map, Forall_forall; intros; apply bare_absent|].
      intros own. apply bare_bind.
      * match goal with |- bare (read_flats ?l _) => change l with (map (fun nf => (fst nf, flat_reader (snd nf))) fls) end.
        apply bare_flats. apply Forall_map. eapply Forall_impl; [|exact IHfls]. intros nf F. apply bare_flat_reader, F.
      * intros [ys r]. destruct (map _ fls); auto with bare. destruct d; auto with bare. cbn. destruct r as [|[k c]]; auto with bare; try apply bare_msg. 
  - apply bare_first.
Qed.

Lemma bare_all_flats (fls : list (ustr * flat xty)) l : bare (read_flats (map (fun nf => (fst nf, flat_reader (snd nf))) fls) l).
Proof.
  apply bare_flats, Forall_map, Forall_forall. intros nf _. apply bare_flat_reader. destruct (snd nf); cbn.
  - apply Forall_forall. intros f _. apply bare_xcopy.
  - apply bare_xcopy.
Qed.
