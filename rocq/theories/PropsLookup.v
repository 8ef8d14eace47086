(** Properties C17-C19, C46, C47: lookup, nesting, focusing, error chains, equality. *)
From Coq Require Import Ascii String ZArith NArith Bool List.
From Coq Require Import Floats.SpecFloat.
From Verif Require Import Res BMap Str Profile Tag Num Value Metadata Err Coalesce Figment
  SpecValue SpecFigment SpecLookup ValueProofs LookupProofs PropsCoalesce PropsFigment.
Import ListNotations.

(** ** C17 *)

(** Every string spells a list of keys, and looking it up is looking those up one by one. *)
Theorem C17_find : forall path, exists ks, spells path ks /\
  (forall ks', spells path ks' -> ks' = ks) /\
  forall v, vfind path v = at_path ks v /\ vfind_ref path v = at_path ks v.
Proof.
  intros path. destruct (spells_total path) as [ks H]. exists ks. split; auto. split.
  - intros ks' H'. apply spells_upto in H, H'. congruence.
  - intros v. rewrite vfind_ref_spec. split; now apply vfind_spec.
Qed.
Print Assumptions C17_find.

Theorem C17_keys : forall ks v, Forall plain_key ks -> vfind (join [dot] ks) v = at_path ks v.
Proof. intros ks v H. apply vfind_spec. split; auto. Qed.
Print Assumptions C17_keys.

Theorem C17_contains : forall f path,
  fig_contains f path = true <-> exists v, find_value f path = Ok v.
Proof. exact contains_spec. Qed.
Print Assumptions C17_contains.

Example C17_ex : vfind [] ex_a = Some ex_a /\
  vfind (lit "a.x") ex_a = Some (i 1) /\ vfind (lit "b.x") ex_a = None /\
  spells (lit "a.x") [lit "a"; lit "x"] /\
  vfind (lit "a..zzz") ex_a = vfind (lit "a") ex_a.
Proof.
  split; [reflexivity|]. split; [reflexivity|]. split; [reflexivity|]. split; [|reflexivity].
  split; [|left; reflexivity].
  repeat constructor; try discriminate; vm_compute; intuition discriminate.
Qed.

(** ** C18 *)
Theorem C18_nest_find : forall key v, vfind key (nest key v) = Some v.
Proof. exact nest_find. Qed.
Print Assumptions C18_nest_find.

(** What is in the nested value: along the key only fresh dictionaries, below it [v]. *)
Theorem C18_nest_only : forall key ks v p x, spells key ks -> at_path p (nest key v) = Some x ->
  (exists r, p = ks ++ r /\ at_path r v = Some x) \/
  (exists q k r, ks = p ++ k :: r /\ q = k :: r /\ is_dict x = true /\ vtag x = tag_default /\
                 at_path q x = Some v).
Proof. exact nest_only. Qed.
Print Assumptions C18_nest_only.

Example C18_ex : nest (lit "a.b") (i 1) = dct [(lit "a", dct [(lit "b", i 1)])] /\
  nest [] (i 1) = i 1.
Proof. split; reflexivity. Qed.

(** ** C19 *)
Theorem C19_focus_partial : forall f m ks sub, ks <> [] -> sub <> [] ->
  Forall plain_key ks -> Forall plain_key sub -> f_value f = Ok m -> wf_profiles m ->
  (forall q d, in_play f q -> get q m = Some d -> dicts_along ks (VDict tag_default d)) ->
  res_ok (find_value (focus f (join [dot] ks)) (join [dot] sub)) =
  res_ok (find_value f (join [dot] ks ++ [dot] ++ join [dot] sub)) /\
  find_metadata (focus f (join [dot] ks)) (join [dot] sub) =
  find_metadata f (join [dot] ks ++ [dot] ++ join [dot] sub).
Proof. exact focus_find. Qed.
Print Assumptions C19_focus_partial.

Definition ex_focus_map : bmap profile dict :=
  [(p_debug, [(lit "a", dct [(lit "b", i 2)])]);
   (p_default, [(lit "a", dct [(lit "b", i 1); (lit "c", i 1)])])].
Definition ex_focus_fig : figment := mkFigment p_debug [] (Ok ex_focus_map).
Example C19_focus_ex : wf_profiles ex_focus_map /\
  (forall q d, in_play ex_focus_fig q -> get q ex_focus_map = Some d ->
     dicts_along [lit "a"] (VDict tag_default d)) /\
  res_ok (find_value (focus ex_focus_fig (lit "a")) (lit "c")) = Some (i 1) /\
  res_ok (find_value (focus ex_focus_fig (lit "a")) (lit "b")) = Some (i 2).
Proof.
  split; [vm_compute; repeat constructor; auto|]. split; [|split; reflexivity].
  intros q d _ Hg. rewrite dicts_along_cons. intros x Hx. apply dicts_along_nil.
  cbn [ex_focus_map get] in Hg.
  destruct (cmp q p_debug); [|destruct (cmp q p_default); try discriminate..];
    inversion Hg; subst; vm_compute in Hx; inversion Hx; reflexivity.
Qed.

(** In general it is false: a scalar in a lower profile disappears under focus, but a scalar in
    a higher profile hides the whole dictionary without focus. *)
Theorem C19_focus_refuted : exists f m ks sub x,
  ks <> [] /\ sub <> [] /\ Forall plain_key ks /\ Forall plain_key sub /\
  f_value f = Ok m /\ wf_profiles m /\
  find_value (focus f (join [dot] ks)) (join [dot] sub) = Ok x /\
  res_ok (find_value f (join [dot] ks ++ [dot] ++ join [dot] sub)) = None.
Proof.
  exists (mkFigment p_debug []
     (Ok [(p_debug, [(lit "a", i 2)]); (p_default, [(lit "a", dct [(lit "b", i 1)])])])).
  eexists. exists [lit "a"], [lit "b"]. eexists.
  split; [discriminate|]. split; [discriminate|].
  split; [repeat constructor; try discriminate; vm_compute; intuition discriminate|].
  split; [repeat constructor; try discriminate; vm_compute; intuition discriminate|].
  split; [reflexivity|]. split; [vm_compute; repeat constructor; auto|].
  split; reflexivity.
Qed.
Print Assumptions C19_focus_refuted.

(** What focusing does, for every figment and key: each profile keeps the dictionary it has
    under the key, or nothing; the rest of the figment stays. *)
Theorem C19_exact : forall f key ks, spells key ks ->
  f_profile (focus f key) = f_profile f /\ f_metadata (focus f key) = f_metadata f /\
  (forall e, f_value f = Err e -> f_value (focus f key) = Err (resolved e f)) /\
  (forall m, f_value f = Ok m -> wf_profiles m ->
     exists m', f_value (focus f key) = Ok m' /\ wf_profiles m' /\
       forall q d', In (q, d') m' <->
         exists d t, In (q, d) m /\ at_path ks (VDict tag_default d) = Some (VDict t d')).
Proof. exact focus_exact. Qed.
Print Assumptions C19_exact.

(** Focusing in two steps is focusing once. *)
Theorem C19_twice : forall f m key1 key2 key ks1 ks2,
  spells key1 ks1 -> spells key2 ks2 -> spells key (ks1 ++ ks2) ->
  f_value f = Ok m -> wf_profiles m ->
  focus (focus f key1) key2 = focus f key.
Proof. exact focus_twice. Qed.
Print Assumptions C19_twice.

Example C19_ex_exact :
  f_value (focus (mkFigment p_debug []
     (Ok [(p_debug, [(lit "a", i 2)]); (p_default, [(lit "a", dct [(lit "b", i 1)])])])) (lit "a"))
  = Ok [(p_default, [(lit "b", i 1)])] /\
  f_value (focus (focus ex_focus_fig (lit "a")) (lit "b")) = Ok [] /\
  f_value (focus (focus (mkFigment p_debug [] (Ok [(p_debug, [(lit "a", dct [(lit "b", dct [(lit "c", i 7)])])])]))
     (lit "a")) (lit "b")) = Ok [(p_debug, [(lit "c", i 7)])].
Proof. repeat split; reflexivity. Qed.

(** ** C46 *)
Theorem C46_iteration : forall e l, yields (Some e) l ->
  l = errors_of e /\ e_count e = length l /\ Forall (fun x => e_prev x = None) l.
Proof.
  intros e l H. assert (l = errors_of e) by (eapply yields_det; eauto using yields_errors_of).
  subst l. split; auto. split; [apply count_errors_of|].
  apply Forall_forall. intros x. apply errors_of_plain.
Qed.
Print Assumptions C46_iteration.

Theorem C46_iteration_total : forall e, exists l, yields (Some e) l.
Proof. intros e. exists (errors_of e). apply yields_errors_of. Qed.
Print Assumptions C46_iteration_total.

(** Chaining onto a single error adds the whole chain of the other one behind it. *)
Theorem C46_chain_partial : forall a b, e_prev b = None ->
  errors_of (chain a b) = errors_of b ++ errors_of a /\
  e_count (chain a b) = e_count a + 1.
Proof.
  intros a b H. destruct b as [t p m pa k v]. cbn in H. subst v. split; [reflexivity|].
  cbn. now rewrite PeanoNat.Nat.add_comm.
Qed.
Print Assumptions C46_chain_partial.

(** Whatever is chained onto, its first error stays, followed by all of the other one. *)
Theorem C46_chain_exact : forall a b, exists b1 rest,
  errors_of b = b1 :: rest /\ errors_of (chain a b) = b1 :: errors_of a /\
  e_count (chain a b) = 1 + e_count a.
Proof. intros a [t p m pa k v]. eexists _, _. repeat split. Qed.
Print Assumptions C46_chain_exact.

(** Chaining onto a chain loses its tail. *)
Theorem C46_chain_refuted : exists a b, In (err_msg (lit "old")) (errors_of b) /\
  ~ In (err_msg (lit "old")) (errors_of (chain a b)) /\ e_count (chain a b) <> e_count a + e_count b.
Proof.
  exists (err_msg (lit "new")), (chain (err_msg (lit "old")) (err_msg (lit "mid"))).
  split; [right; left; reflexivity|]. split; [|discriminate].
  intros H. vm_compute in H. destruct H as [H|[H|[]]]; discriminate.
Qed.
Print Assumptions C46_chain_refuted.

Example C46_ex : e_count (chain (err_msg (lit "a")) (err_msg (lit "b"))) = 2 /\
  e_prev (err_msg (lit "b")) = None.
Proof. split; reflexivity. Qed.

(** ** C47 *)
Theorem C47_equality : forall a b, value_eqb a b = true <-> same_value a b.
Proof. exact value_eqb_spec. Qed.
Print Assumptions C47_equality.

Example C47_ex :
  value_eqb (dct [(lit "a", VNum (tag_new 5 PTGlobal) (NInt U8 3))]) (dct [(lit "a", VNum tag_default (NInt U128 3))]) = true /\
  value_eqb (VNum tag_default (NInt U8 3)) (VNum tag_default (NInt I8 3)) = false.
Proof. split; reflexivity. Qed.
