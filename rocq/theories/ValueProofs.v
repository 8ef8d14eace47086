(** Lemmas about values, paths, tags on values. *)
From Coq Require Import NArith ZArith Bool List Lia.
From Coq Require Import Floats.SpecFloat.
From Verif Require Import Res BMap BMapProofs Str StrProofs Profile Tag Num Value Coalesce SpecValue.
Import ListNotations.

(** Induction on values with hypotheses for all children. *)
Section ValueInd.
  Context (P : value -> Prop)
    (Hs : forall t s, P (VString t s)) (Hc : forall t c, P (VChar t c))
    (Hb : forall t b, P (VBool t b)) (Hn : forall t n, P (VNum t n))
    (He : forall t e, P (VEmpty t e))
    (Hd : forall t d, Forall (fun kv => P (snd kv)) d -> P (VDict t d))
    (Ha : forall t l, Forall P l -> P (VArray t l)).
  Fixpoint value_ind' (v : value) : P v :=
    match v with
    | VString t s => Hs t s
    | VChar t c => Hc t c
    | VBool t b => Hb t b
    | VNum t n => Hn t n
    | VEmpty t e => He t e
    | VDict t d =>
        Hd t d ((fix go (d : list (ustr * value)) : Forall (fun kv => P (snd kv)) d :=
                   match d with
                   | [] => Forall_nil _
                   | kv :: r => Forall_cons kv (value_ind' (snd kv)) (go r)
                   end) d)
    | VArray t l =>
        Ha t l ((fix go (l : list value) : Forall P l :=
                   match l with
                   | [] => Forall_nil _
                   | x :: r => Forall_cons x (value_ind' x) (go r)
                   end) l)
    end.
End ValueInd.

Lemma wf_VDict t d : wf (VDict t d) <-> wf_dict d.
Proof.
  simpl. unfold wf_dict. split; intros [H1 H2]; split; auto.
  - clear H1. induction d as [|[k x] r IH]; constructor; simpl in *; tauto.
  - clear H1. induction H2 as [|[k x] r H H' IH]; simpl in *; auto.
Qed.

Lemma wf_VArray t l : wf (VArray t l) <-> Forall wf l.
Proof.
  simpl. split; intros H.
  - induction l as [|x r IH]; constructor; simpl in *; tauto.
  - induction H; simpl; auto.
Qed.

Lemma wf_get d k x : wf_dict d -> get k d = Some x -> wf x.
Proof.
  intros [_ H2] H. apply get_In in H. destruct H as [k' [_ H]].
  rewrite Forall_forall in H2. apply (H2 (k', x) H).
Qed.

Lemma wf_dict_intro d : sorted d -> (forall k x, get k d = Some x -> wf x) -> wf_dict d.
Proof.
  intros Hs H. split; auto. apply Forall_forall. intros [k x] Hin. simpl.
  eapply H. apply In_get; eauto.
Qed.

Lemma wf_dict_nil : wf_dict [].
Proof. split; [exact I | constructor]. Qed.

Lemma wf_dict_insert k x d : wf_dict d -> wf x -> wf_dict (insert k x d).
Proof.
  intros Hd Hx. apply wf_dict_intro; [apply sorted_insert, Hd|].
  intros k' y. rewrite get_insert. destruct (cmp k' k); intros E; inversion E; subst; auto;
    eapply wf_get; eauto.
Qed.

Lemma Forall_get {K V} `{CmpLaws K} (P : V -> Prop) (m : bmap K V) k x :
  Forall (fun kv => P (snd kv)) m -> get k m = Some x -> P x.
Proof.
  intros HF Hg. apply get_In in Hg. destruct Hg as [k' [_ Hin]].
  rewrite Forall_forall in HF. apply (HF _ Hin).
Qed.

Lemma get_dict_eq (d1 d2 : dict) : sorted d1 -> sorted d2 ->
  (forall k, get k d1 = get k d2) -> d1 = d2.
Proof. apply sorted_ext; exact _. Qed.

(** ** Paths *)
Lemma at_path_app p q v : at_path (p ++ q) v = match at_path p v with
                                               | Some x => at_path q x
                                               | None => None end.
Proof.
  revert v; induction p as [|k p IH]; intros v; simpl; auto.
  destruct v; auto. destruct (get k d); auto.
Qed.

Lemma at_path_wf p v x : wf v -> at_path p v = Some x -> wf x.
Proof.
  revert v; induction p as [|k p IH]; simpl; intros v Hw H.
  - congruence.
  - destruct v; try discriminate. destruct (get k d) eqn:E; try discriminate.
    apply (IH _ (wf_get _ _ _ (proj1 (wf_VDict _ _) Hw) E) H).
Qed.

(** The model's two lookups and the specification agree on non-empty keys. *)
Lemma find_keys_at_path (ks : list ustr) v : forallb (fun k : ustr => negb (is_nil k)) ks = true ->
  find_keys ks v = at_path ks v.
Proof.
  revert v; induction ks as [|k ks IH]; intros v H; simpl in *; auto.
  apply andb_true_iff in H. destruct H as [H1 H2].
  destruct (is_nil k); [discriminate|].
  destruct v; simpl; auto. rewrite take_spec. destruct (get k d); auto.
Qed.

Lemma find_ref_keys_eq ks v : find_ref_keys ks v = find_keys ks v.
Proof.
  revert v; induction ks as [|k ks IH]; intros v; simpl in *; auto.
  destruct (is_nil k); auto. destruct (as_dict v); auto.
  rewrite take_spec. destruct (get k d); auto.
Qed.
