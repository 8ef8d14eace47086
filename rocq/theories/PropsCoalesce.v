(** Properties C01-C04: combining configuration. *)
From Coq Require Import Ascii String ZArith NArith Bool List.
From Verif Require Import Res BMap Str StrProofs Profile Tag Num Value Metadata Err Coalesce Figment
  SpecValue SpecFigment ValueProofs CoalesceProofs FigmentProofs FigmentProofs2.
Import ListNotations.

(** ** C01 *)

(** Values: the result of combining is the documented one, and only that. *)
Theorem C01_table : forall o a b c, wf a -> wf b -> (vcoalesce o a b = c <-> combined o a b c).
Proof. exact C01_value_lemma. Qed.
Print Assumptions C01_table.

(** Providers: after [join]/[adjoin]/[merge]/[admerge], each profile's data is the documented
    combination of what was there and what the provider emitted (with the provider's tag on
    values that had none). *)
Theorem C01_provide : forall loc f p o c f' c' old new,
  provide loc f p o c = (Ret f', c') -> f_value f = Ok old -> pv_data p = Ok new ->
  wf_profiles old -> wf_profiles new ->
  exists new' result, stamped c new new' /\ f_value f' = Ok result /\ wf_profiles result /\
    profiles_combined o old new' result.
Proof. exact provide_combines. Qed.
Print Assumptions C01_provide.

Definition i (z : Z) : value := VNum tag_default (NInt I32 z).
Definition dct (l : list (ustr * value)) : value := VDict tag_default l.
Definition arr (l : list value) : value := VArray tag_default l.
Definition ex_a : value := dct [(lit "a", dct [(lit "x", i 1); (lit "y", arr [i 1])]); (lit "b", i 2)].
Definition ex_b : value := dct [(lit "a", dct [(lit "x", i 7); (lit "y", arr [i 3; i 4])]); (lit "c", i 5)].

Example C01_table_ex : wf ex_a /\ wf ex_b /\
  vcoalesce Admerge ex_a ex_b =
  dct [(lit "a", dct [(lit "x", i 7); (lit "y", arr [i 1; i 3; i 4])]); (lit "b", i 2); (lit "c", i 5)] /\
  vcoalesce Adjoin ex_a ex_b =
  dct [(lit "a", dct [(lit "x", i 1); (lit "y", arr [i 1; i 3; i 4])]); (lit "b", i 2); (lit "c", i 5)] /\
  vcoalesce Join ex_a ex_b =
  dct [(lit "a", dct [(lit "x", i 1); (lit "y", arr [i 1])]); (lit "b", i 2); (lit "c", i 5)] /\
  vcoalesce Merge ex_a ex_b =
  dct [(lit "a", dct [(lit "x", i 7); (lit "y", arr [i 3; i 4])]); (lit "b", i 2); (lit "c", i 5)].
Proof. repeat split. Qed.

Definition ex_loc : location := mkLoc (lit "main.rs") 3 9.
Definition ex_provider (name : ustr) (m : bmap profile dict) : provider :=
  mkProvider (md_named name) (Ok m) None None.
Definition as_d (v : value) : dict := match v with VDict _ d => d | _ => [] end.

Example C01_provide_ex :
  let p := ex_provider (lit "A") [(p_default, as_d ex_a)] in
  let q := ex_provider (lit "B") [(p_default, as_d ex_b); (p_global, [(lit "k", i 1)])] in
  wf_profiles [(p_default, as_d ex_b); (p_global, [(lit "k", i 1)])] /\
  exists f1 c1 f2 c2 old, provide ex_loc fig_new p Merge counter_init = (Ret f1, c1) /\
    f_value f1 = Ok old /\ wf_profiles old /\ provide ex_loc f1 q Adjoin c1 = (Ret f2, c2).
Proof.
  cbv zeta. split.
  - vm_compute. repeat constructor; auto.
  - do 5 eexists. split; [reflexivity|]. split; [reflexivity|]. split; [|reflexivity].
    vm_compute. repeat constructor; auto.
Qed.

(** ** C02 *)
Theorem C02_merge_leaves : forall p a b x, wf a -> wf b ->
  (leaf_at p (vcoalesce Merge a b) x <->
   leaf_at p b x \/ (leaf_at p a x /\ open_at p b)).
Proof. exact C02_merge_lemma. Qed.
Print Assumptions C02_merge_leaves.

Theorem C02_join_leaves : forall p a b x, wf a -> wf b ->
  (leaf_at p (vcoalesce Join a b) x <->
   leaf_at p a x \/ (leaf_at p b x /\ open_at p a)).
Proof.
  intros p a b x Ha Hb. rewrite join_merge_swap by assumption. now apply C02_merge_lemma.
Qed.
Print Assumptions C02_join_leaves.

Example C02_leaves_ex :
  leaf_at [lit "a"; lit "x"] (vcoalesce Merge ex_a ex_b) (i 7) /\
  leaf_at [lit "b"] (vcoalesce Merge ex_a ex_b) (i 2) /\ open_at [lit "b"] ex_b.
Proof.
  repeat split. intros q y [r E] H. destruct q as [|k q]; [inversion H; reflexivity|].
  inversion E; subst. cbn in H. discriminate.
Qed.

(** ** C03 *)
Theorem C03_join_merge_swap : forall a b, wf a -> wf b -> vcoalesce Join a b = vcoalesce Merge b a.
Proof. exact join_merge_swap. Qed.
Print Assumptions C03_join_merge_swap.

Theorem C03_idempotent : forall a, wf a -> vcoalesce Merge a a = a /\ vcoalesce Join a a = a.
Proof. intros a H. split; [now apply merge_idem|now apply join_idem]. Qed.
Print Assumptions C03_idempotent.

Theorem C03_empty : forall o t t' d, sorted d ->
  vcoalesce o (VDict t d) (VDict t' []) = VDict (if keeps_existing o then t else t') d /\
  vcoalesce o (VDict t' []) (VDict t d) = VDict (if keeps_existing o then t' else t) d.
Proof.
  intros o t t' d H. rewrite !vcoalesce_dict. split; f_equal.
  - now apply dcoalesce_nil_r.
  - now apply dcoalesce_nil_l.
Qed.
Print Assumptions C03_empty.

Example C03_ex : wf ex_a /\ wf ex_b /\ vcoalesce Join ex_a ex_b <> vcoalesce Merge ex_a ex_b.
Proof. repeat split. vm_compute. discriminate. Qed.

(** The array-extending strategies are not idempotent. *)
Example C03_admerge_not_idempotent : vcoalesce Admerge ex_a ex_a <> ex_a.
Proof. vm_compute. discriminate. Qed.

(** ** C04 *)
Theorem C04_grouping : forall o a b c, wf a -> wf b -> wf c -> no_clash o a b c ->
  vcoalesce o (vcoalesce o a b) c = vcoalesce o a (vcoalesce o b c).
Proof. exact vcoalesce_assoc. Qed.
Print Assumptions C04_grouping.

Definition ex_c : value := dct [(lit "a", dct [(lit "z", i 9)]); (lit "b", i 0)].
Example C04_grouping_ex : no_clash Merge ex_a ex_b ex_c /\
  vcoalesce Merge (vcoalesce Merge ex_a ex_b) ex_c <> vcoalesce Merge ex_a ex_c.
Proof.
  split; [|vm_compute; discriminate].
  intros p x y z Ha Hb Hc Hd.
  destruct p as [|k1 p]; [inversion Ha; inversion Hb; inversion Hc; reflexivity|].
  cbn [at_path ex_a ex_b ex_c dct] in Ha, Hb, Hc.
  cbn [get] in Ha, Hb, Hc.
  destruct (cmp k1 (lit "a")) eqn:E1.
  - destruct p as [|k2 p]; [inversion Ha; inversion Hb; inversion Hc; subst; reflexivity|].
    cbn [at_path dct get] in Ha, Hb, Hc.
    destruct (cmp k2 (lit "z")) eqn:E2; [|discriminate|discriminate].
    apply cmp_ustr_eq in E2. subst k2. vm_compute in Ha. discriminate.
  - destruct (cmp k1 (lit "b")) eqn:E2; try discriminate.
    apply cmp_ustr_eq in E2. subst k1. vm_compute in Hb. discriminate.
  - destruct (cmp k1 (lit "b")) eqn:E2; try discriminate.
    apply cmp_ustr_eq in E2. subst k1. vm_compute in Hb. discriminate.
Qed.

(** Without the condition, grouping matters: a dictionary, then a scalar, then a dictionary. *)
Theorem C04_grouping_refuted : forall o, exists a b c, wf a /\ wf b /\ wf c /\
  vcoalesce o (vcoalesce o a b) c <> vcoalesce o a (vcoalesce o b c).
Proof.
  intros o.
  exists (dct [(lit "k", dct [(lit "x", i 1)])]), (dct [(lit "k", i 2)]),
         (dct [(lit "k", dct [(lit "y", i 3)])]).
  repeat split; destruct o; vm_compute; discriminate.
Qed.
Print Assumptions C04_grouping_refuted.
