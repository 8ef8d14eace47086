(** Proofs about providing the same thing twice. *)
From Coq Require Import Ascii String ZArith NArith Bool Lia.
From Coq Require Import List.
From Verif Require Import Res BMap BMapProofs Str StrProofs Profile Tag Num Value Metadata Err Coalesce Figment De.
From Verif Require Import SpecValue ValueProofs CoalesceProofs FigmentProofs FigmentProofs2 ProvProofs PriorityProofs.
From Verif Require Import SpecFigment SpecRt SpecBlind BlindProofs SpecFrame FrameProofs OrderProofs.
Import ListNotations.

(** ** Values *)
Definition owf (a : option value) : Prop := match a with Some x => wf x | None => True end.
Definition oc (o : order) (a b : option value) : option value := opt_combine (vcoalesce o) a b.
(** The entries of a dictionary; none of anything else. *)
Definition entries_of (a : option value) : dict := match a with Some (VDict _ d) => d | _ => [] end.

Lemma owf_get d k : wf_dict d -> owf (get k d).
Proof. intros H. destruct (get k d) eqn:E; cbn; [eapply wf_get; eassumption|exact I]. Qed.
Lemma owf_entries a : owf a -> wf_dict (entries_of a).
Proof. destruct a as [[]|]; cbn [owf entries_of]; try (intros _; split; [exact I|constructor]).
  apply wf_VDict. Qed.
Lemma owf_oc o a b : owf a -> owf b -> owf (oc o a b).
Proof. destruct a, b; cbn; auto using wf_vcoalesce. Qed.

Lemma oc_none_r o a : oc o a None = a.
Proof. now destruct a. Qed.
Lemma oc_merge_other a p : is_dict p = false -> oc Merge a (Some p) = Some p.
Proof. destruct a as [a|]; cbn; [|reflexivity]. intros H. rewrite vcoalesce_other; [reflexivity|].
  unfold combinable. now rewrite H, andb_false_r. Qed.
Lemma oc_merge_dict a t d : owf a -> wf_dict d ->
  oc Merge a (Some (VDict t d)) = Some (VDict t (dcoalesce Merge (entries_of a) d)).
Proof.
  intros Ha Hd. assert (E : dcoalesce Merge [] d = d) by (apply dcoalesce_nil_l; apply Hd).
  destruct a as [[]|]; cbn [oc opt_combine entries_of]; try (rewrite E; reflexivity).
  now rewrite vcoalesce_dict.
Qed.

(** What replaces keeps nothing of what is no dictionary. *)
Lemma entries_replacing o a q : keeps_existing o = false -> owf a -> owf q ->
  entries_of (oc o a q) = match q with
    | None => entries_of a
    | Some (VDict _ d) => dcoalesce o (entries_of a) d
    | Some _ => []
    end.
Proof.
  intros Ho Ha Hq. destruct q as [q|]; [|now rewrite oc_none_r].
  destruct q; cbn [owf] in Hq; try apply wf_VDict in Hq.
  6: { assert (E : dcoalesce o [] d = d) by (apply dcoalesce_nil_l; apply Hq).
       destruct a as [[]|]; cbn [oc opt_combine entries_of];
         try (rewrite vcoalesce_other by (destruct o; reflexivity); rewrite Ho; symmetry; exact E).
       - now rewrite vcoalesce_dict.
       - now rewrite E. }
  all: destruct a as [[]|]; cbn [oc opt_combine entries_of]; try reflexivity;
    destruct o; try discriminate; reflexivity.
Qed.

(** Two things that are the same once [p] is brought into them are so whatever else is brought into
    both in between, as long as it replaces. *)
Lemma replacing_between p : wf p -> forall o a b q, keeps_existing o = false -> owf a -> owf b -> owf q ->
  oc Merge a (Some p) = oc Merge b (Some p) ->
  oc Merge (oc o a q) (Some p) = oc Merge (oc o b q) (Some p).
Proof.
  induction p using value_ind'; intros Hp o a a' q Ho Ha Hb Hq E;
    try (rewrite !oc_merge_other by reflexivity; reflexivity).
  apply wf_VDict in Hp. rewrite !oc_merge_dict in E by assumption.
  rewrite !oc_merge_dict by auto using owf_oc. do 2 f_equal. injection E as E.
  rewrite !entries_replacing by assumption.
  assert (Da := owf_entries _ Ha). assert (Db := owf_entries _ Hb).
  destruct q as [[]|]; try reflexivity; [|exact E]. rename d0 into dq. cbn [owf] in Hq. apply wf_VDict in Hq.
  apply get_dict_eq; auto using dcoalesce_sorted. intros k.
  assert (Ek := f_equal (get k) E). rewrite !dcoalesce_get in Ek by (apply Da || apply Db || apply Hp).
  rewrite !dcoalesce_get by (try apply dcoalesce_sorted; apply Da || apply Db || apply Hp || apply Hq).
  destruct (get k d) as [x|] eqn:Ex.
  - destruct (get_In _ _ _ Ex) as (k' & _ & HIn). rewrite Forall_forall in H. specialize (H _ HIn). cbn [snd] in H.
    unfold oc in H. apply H; auto using owf_get. refine (wf_get _ _ _ _ Ex); assumption.
  - change (oc Merge (get k (entries_of a)) None = oc Merge (get k (entries_of a')) None) in Ek.
    rewrite !oc_none_r in Ek. now rewrite Ek.
Qed.

Lemma twice_replacing p : wf p -> forall o a, owf a -> oc Merge (oc o a (Some p)) (Some p) = oc Merge a (Some p).
Proof.
  induction p using value_ind'; intros Hp o a Ha; try (rewrite !oc_merge_other by reflexivity; reflexivity).
  pose proof (proj1 (wf_VDict _ _) Hp) as Hd.
  rewrite !oc_merge_dict by auto using owf_oc. do 2 f_equal.
  assert (EI : dcoalesce Merge d d = d).
  { pose proof (merge_idem _ Hp) as E. rewrite vcoalesce_dict in E. now injection E. }
  assert (EN : dcoalesce Merge [] d = d) by (apply dcoalesce_nil_l; apply Hd).
  assert (HO : forall x, is_dict x = false -> a = Some x ->
    dcoalesce Merge (entries_of (oc o a (Some (VDict t d)))) d = dcoalesce Merge (entries_of a) d).
  { intros x Hx ->. cbn [oc opt_combine]. rewrite vcoalesce_other by (unfold combinable; rewrite Hx; cbn;
      now rewrite andb_false_r). destruct (keeps_existing o); [reflexivity|]. cbn [entries_of]. rewrite EI.
    destruct x; try discriminate; now rewrite EN. }
  destruct a as [x|]; [|cbn [oc opt_combine entries_of]; now rewrite EI, EN].
  destruct x as [| | | | |ta da|]; try (eapply HO; [|reflexivity]; reflexivity).
  cbn [oc opt_combine]. rewrite vcoalesce_dict. cbn [entries_of].
  cbn [owf] in Ha. apply wf_VDict in Ha.
  apply get_dict_eq; auto using dcoalesce_sorted. intros k.
  rewrite !dcoalesce_get by (try apply dcoalesce_sorted; apply Ha || apply Hd).
  destruct (get k d) as [x|] eqn:Ex.
  - destruct (get_In _ _ _ Ex) as (k' & _ & HIn). rewrite Forall_forall in H. specialize (H _ HIn). cbn [snd] in H.
    unfold oc in H. apply H; auto using owf_get. refine (wf_get _ _ _ _ Ex); assumption.
  - now destruct (get k da).
Qed.

(** What adds nothing to a value adds nothing to it after more was added. *)
Lemma join_left z p : is_dict z && is_dict p = false -> vcoalesce Join z p = z.
Proof. intros H. rewrite vcoalesce_other; [reflexivity|]. unfold combinable. cbn. now rewrite H. Qed.

Lemma keeping_between p : wf p -> forall o z r, keeps_existing o = true -> owf z -> owf r ->
  oc Join z (Some p) = z -> oc Join (oc o z r) (Some p) = oc o z r.
Proof.
  induction p using value_ind'; intros Hp o z r Ho Hz Hr E;
    (destruct z as [z|]; [|discriminate E]); (destruct r as [r|]; [|rewrite oc_none_r; exact E]);
    cbn [oc opt_combine owf] in *;
    try (rewrite join_left by apply andb_false_r; reflexivity).
  destruct z as [| | | | |tz dz|]; try (rewrite join_left; [reflexivity|]; destruct o; try discriminate Ho; destruct r; reflexivity).
  destruct r as [| | | | |tr dr|]; try (rewrite (vcoalesce_other o) by (destruct o; reflexivity); rewrite Ho; exact E).
  apply wf_VDict in Hp, Hz, Hr. rewrite !vcoalesce_dict in *. rewrite Ho. cbn [keeps_existing] in *. do 2 f_equal.
  injection E as E. apply get_dict_eq; auto using dcoalesce_sorted. intros k.
  assert (Ek := f_equal (get k) E). rewrite !dcoalesce_get in Ek by (apply Hz || apply Hp).
  rewrite !dcoalesce_get by (try apply dcoalesce_sorted; apply Hz || apply Hp || apply Hr).
  destruct (get k d) as [x|] eqn:Ex.
  - destruct (get_In _ _ _ Ex) as (k' & _ & HIn). rewrite Forall_forall in H. specialize (H _ HIn). cbn [snd] in H.
    unfold oc in H. apply H; auto using owf_get. refine (wf_get _ _ _ _ Ex); assumption.
  - apply (oc_none_r Join).
Qed.

Lemma twice_keeping p : wf p -> forall o a, owf a -> oc Join (oc o a (Some p)) (Some p) = oc o a (Some p).
Proof.
  assert (HI : forall p, wf p -> oc Join (Some p) (Some p) = Some p).
  { intros q Hq. cbn. now rewrite join_idem. }
  induction p using value_ind'; intros Hp o a Ha; (destruct a as [a|]; [|now apply HI]);
    cbn [oc opt_combine owf] in *; try (rewrite join_left by apply andb_false_r; reflexivity).
  destruct a as [| | | | |ta da|];
    try (rewrite (vcoalesce_other o) by (destruct o; reflexivity); destruct (keeps_existing o); [now rewrite join_left|now apply HI]).
  pose proof (proj1 (wf_VDict _ _) Hp) as Hd. apply wf_VDict in Ha.
  rewrite !vcoalesce_dict. cbn [keeps_existing]. do 2 f_equal.
  apply get_dict_eq; auto using dcoalesce_sorted. intros k.
  rewrite !dcoalesce_get by (try apply dcoalesce_sorted; apply Ha || apply Hd).
  destruct (get k d) as [x|] eqn:Ex.
  - destruct (get_In _ _ _ Ex) as (k' & _ & HIn). rewrite Forall_forall in H. specialize (H _ HIn). cbn [snd] in H.
    unfold oc in H. apply H; auto using owf_get. refine (wf_get _ _ _ _ Ex); assumption.
  - apply (oc_none_r Join).
Qed.

(** ** Dictionaries *)
Lemma oc_dicts o (a b : dict) :
  oc o (Some (VDict tag_default a)) (Some (VDict tag_default b)) = Some (VDict tag_default (dcoalesce o a b)).
Proof. cbn [oc opt_combine]. rewrite vcoalesce_dict. now destruct (keeps_existing o). Qed.

Lemma dict_replacing_between (p a b q : dict) o : keeps_existing o = false -> wf_dict p -> wf_dict a -> wf_dict b ->
  wf_dict q -> dcoalesce Merge a p = dcoalesce Merge b p ->
  dcoalesce Merge (dcoalesce o a q) p = dcoalesce Merge (dcoalesce o b q) p.
Proof.
  intros Ho Hp Ha Hb Hq E.
  pose proof (replacing_between (VDict tag_default p) (proj2 (wf_VDict _ _) Hp) o (Some (VDict tag_default a))
    (Some (VDict tag_default b)) (Some (VDict tag_default q)) Ho (proj2 (wf_VDict _ _) Ha) (proj2 (wf_VDict _ _) Hb)
    (proj2 (wf_VDict _ _) Hq)) as H.
  rewrite !oc_dicts, E in H. specialize (H eq_refl). congruence.
Qed.
Lemma dict_twice_replacing (p a : dict) o : wf_dict p -> wf_dict a ->
  dcoalesce Merge (dcoalesce o a p) p = dcoalesce Merge a p.
Proof.
  intros Hp Ha.
  pose proof (twice_replacing (VDict tag_default p) (proj2 (wf_VDict _ _) Hp) o (Some (VDict tag_default a))
    (proj2 (wf_VDict _ _) Ha)) as H. rewrite !oc_dicts in H. congruence.
Qed.
Lemma dict_keeping_between (p z r : dict) o : keeps_existing o = true -> wf_dict p -> wf_dict z -> wf_dict r ->
  dcoalesce Join z p = z -> dcoalesce Join (dcoalesce o z r) p = dcoalesce o z r.
Proof.
  intros Ho Hp Hz Hr E.
  pose proof (keeping_between (VDict tag_default p) (proj2 (wf_VDict _ _) Hp) o (Some (VDict tag_default z))
    (Some (VDict tag_default r)) Ho (proj2 (wf_VDict _ _) Hz) (proj2 (wf_VDict _ _) Hr)) as H.
  rewrite !oc_dicts, E in H. specialize (H eq_refl). congruence.
Qed.
Lemma dict_twice_keeping (p a : dict) o : wf_dict p -> wf_dict a ->
  dcoalesce Join (dcoalesce o a p) p = dcoalesce o a p.
Proof.
  intros Hp Ha.
  pose proof (twice_keeping (VDict tag_default p) (proj2 (wf_VDict _ _) Hp) o (Some (VDict tag_default a))
    (proj2 (wf_VDict _ _) Ha)) as H. rewrite !oc_dicts in H. congruence.
Qed.

(** ** Figments *)

(** What a run of quiet calls makes of the data of a profile, up to tags. *)
Lemma run_data l : forall f m c f' n, Forall (fun x => quiet (call_with x)) l -> f_value f = Ok m -> wf_profiles m ->
  run (calls l) f c = (Ret f', n) -> exists m', f_value f' = Ok m' /\ wf_profiles m' /\
  exists F : profile -> dict -> dict,
    (forall q, dut (data_of m' q) (F q (data_of m q))) /\
    (forall q d, wf_dict d -> wf_dict (F q d)) /\
    (forall q, (Forall (fun x => keeps_existing (call_order x) = false) l ->
       forall p a b, wf_dict p -> wf_dict a -> wf_dict b -> dcoalesce Merge a p = dcoalesce Merge b p ->
         dcoalesce Merge (F q a) p = dcoalesce Merge (F q b) p) /\
       (Forall (fun x => keeps_existing (call_order x) = true) l ->
       forall p z, wf_dict p -> wf_dict z -> dcoalesce Join z p = z -> dcoalesce Join (F q z) p = F q z)) /\
    (forall q a b, dut a b -> dut (F q a) (F q b)) /\
    (forall g k c0 g' n0, f_value g = Ok k -> wf_profiles k -> run (calls l) g c0 = (Ret g', n0) ->
       exists k', f_value g' = Ok k' /\ wf_profiles k' /\ forall q, dut (data_of k' q) (F q (data_of k q))).
Proof.
  induction l as [|x r IH]; intros f m c f' n HF Ev Wm; cbn [calls map run run_op].
  - intros E. injection E as <- _. exists m. split; [exact Ev|]. split; [exact Wm|].
    exists (fun _ d => d). repeat split; auto using dut_refl; try apply H.
    intros g k c0 g' n0 Eg Wk E. injection E as <- _. exists k. auto using dut_refl.
  - inversion HF as [|? ? Hx HF']; subst.
    destruct (provide (call_at x) f (call_with x) (call_order x) c) as [[f1| |] c1] eqn:E1; try discriminate.
    intros E. assert (Sf : sound f) by (unfold sound; now rewrite Ev).
    destruct (quiet_provide _ _ _ _ _ _ _ Hx Sf E1) as (S1 & _ & nx & Dx & Wx & H1).
    rewrite Ev in H1. unfold sound in S1. destruct (f_value f1) as [m1|] eqn:Ev1; [|contradiction].
    destruct (IH f1 m1 c1 f' n HF' Ev1 S1 E) as (m' & Ev' & Wm' & F & HD & HW & HP & HC & HG).
    exists m'. split; [exact Ev'|]. split; [exact Wm'|].
    exists (fun q d => F q (dcoalesce (call_order x) d (data_of nx q))).
    split; [|split; [|split; [|split]]].
    + intros q. eapply dut_trans; [apply HD|]. apply HC, H1.
    + intros q d Wd. apply HW. apply wf_dcoalesce; auto using data_of_wf.
    + intros q. split; intros HO; inversion HO as [|? ? Ho HO']; subst.
      * intros p a b Wp Wa Wb Eab. destruct (HP q) as [HP1 _].
        apply HP1; auto using wf_dcoalesce, data_of_wf. apply dict_replacing_between; auto using data_of_wf.
      * intros p z Wp Wz Ez. destruct (HP q) as [_ HP2].
        apply HP2; auto using wf_dcoalesce, data_of_wf. apply dict_keeping_between; auto using data_of_wf.
    + intros q a b Hab. apply HC. apply dcoalesce_rel; [exact Hab|apply dut_refl].
    + intros g k c0 g' n0 Eg Wk. cbn [calls map run run_op].
      destruct (provide (call_at x) g (call_with x) (call_order x) c0) as [[g1| |] c2] eqn:E2; try discriminate.
      intros ER. assert (Sg : sound g) by (unfold sound; now rewrite Eg).
      destruct (quiet_provide _ _ _ _ _ _ _ Hx Sg E2) as (S2 & _ & nx' & Dx' & _ & H2).
      rewrite Dx in Dx'. injection Dx' as <-. rewrite Eg in H2. unfold sound in S2.
      destruct (f_value g1) as [k1|] eqn:Eg1; [|contradiction].
      destruct (HG g1 k1 c2 g' n0 Eg1 S2 ER) as (k' & Eg' & Wk' & HK). exists k'. split; [exact Eg'|]. split; [exact Wk'|].
      intros q. eapply dut_trans; [apply HK|]. apply HC, H2.
Qed.

Lemma run_failed l : forall f e c f' n, Forall (fun x => quiet (call_with x)) l -> f_value f = Err e ->
  run (calls l) f c = (Ret f', n) -> f_value f' = Err e.
Proof.
  induction l as [|x r IH]; intros f e c f' n HF Ev; cbn [calls map run run_op].
  - intros E. injection E as <- _. exact Ev.
  - inversion HF as [|? ? Hx HF']; subst.
    destruct (provide (call_at x) f (call_with x) (call_order x) c) as [[f1| |] c1] eqn:E1; try discriminate.
    intros E. assert (Sf : sound f) by (unfold sound; now rewrite Ev).
    destruct (quiet_provide _ _ _ _ _ _ _ Hx Sf E1) as (_ & _ & nx & _ & _ & H1). rewrite Ev in H1.
    destruct (f_value f1) as [m1|e1] eqn:Ev1; [contradiction|]. subst e1. exact (IH f1 e c1 f' n HF' Ev1 E).
Qed.

Lemma run_split l1 l2 : forall f c f' n, run (calls (l1 ++ l2)) f c = (Ret f', n) ->
  exists f1 c1, run (calls l1) f c = (Ret f1, c1) /\ run (calls l2) f1 c1 = (Ret f', n).
Proof.
  induction l1 as [|x r IH]; intros f c f' n; cbn [calls map run run_op app].
  - intros E. exists f, c. now split.
  - destruct (provide (call_at x) f (call_with x) (call_order x) c) as [[f1| |] c1] eqn:E1; try discriminate.
    apply IH.
Qed.

Lemma run_one x f c f' n : run (calls [x]) f c = (Ret f', n) ->
  provide (call_at x) f (call_with x) (call_order x) c = (Ret f', n).
Proof.
  cbn [calls map run run_op].
  destruct (provide (call_at x) f (call_with x) (call_order x) c) as [[f1| |] c1]; try discriminate. auto.
Qed.

Lemma again_last p l a b b' o f c1 c2 f1 f2 n1 n2 : quiet p -> sound f ->
  Forall (fun x => quiet (call_with x) /\ keeps_existing (call_order x) = false) l ->
  run (calls (mkCall a o p :: l ++ [mkCall b Merge p])) f c1 = (Ret f1, n1) ->
  run (calls (l ++ [mkCall b' Merge p])) f c2 = (Ret f2, n2) -> level f1 f2.
Proof.
  intros Qp Sf HF R1 R2.
  assert (HQ : Forall (fun x => quiet (call_with x)) l) by (eapply Forall_impl; [|exact HF]; intros x Hx; apply Hx).
  assert (HO : Forall (fun x => keeps_existing (call_order x) = false) l) by (eapply Forall_impl; [|exact HF]; intros x Hx; apply Hx).
  change (mkCall a o p :: l ++ [mkCall b Merge p]) with ([mkCall a o p] ++ (l ++ [mkCall b Merge p])) in R1.
  apply run_split in R1. destruct R1 as (g0 & k0 & RA & R1). apply run_split in R1. destruct R1 as (g1 & k1 & RB & RC).
  apply run_split in R2. destruct R2 as (h1 & j1 & RD & RE).
  apply run_one in RA, RC, RE. cbn [call_at call_with call_order] in RA, RC, RE.
  destruct (f_value f) as [m|e] eqn:Ev.
  - assert (Wm : wf_profiles m) by (unfold sound in Sf; now rewrite Ev in Sf).
    destruct (run_data l f m c2 h1 j1 HQ Ev Wm RD) as (mh & Eh & Wh & F & HD & HW & HP & HC & HG).
    destruct (quiet_provide _ _ _ _ _ _ _ Qp Sf RA) as (S0 & _ & np & Dp & Wp & H0).
    rewrite Ev in H0. unfold sound in S0. destruct (f_value g0) as [m0|] eqn:Ev0; [|contradiction].
    destruct (HG g0 m0 k0 g1 k1 Ev0 S0 RB) as (mg & Eg & Wg & HK).
    assert (Sg : sound g1) by (unfold sound; now rewrite Eg). assert (Sh : sound h1) by (unfold sound; now rewrite Eh).
    destruct (quiet_provide _ _ _ _ _ _ _ Qp Sg RC) as (S1 & _ & np1 & Dp1 & _ & H1).
    destruct (quiet_provide _ _ _ _ _ _ _ Qp Sh RE) as (S2 & _ & np2 & Dp2 & _ & H2).
    rewrite Dp in Dp1, Dp2. injection Dp1 as <-. injection Dp2 as <-.
    rewrite Eg in H1. rewrite Eh in H2. unfold level, sound in *.
    destruct (f_value f1) as [m1|]; [|contradiction]. destruct (f_value f2) as [m2|]; [|contradiction].
    split; [exact S1|]. split; [exact S2|]. intros q.
    assert (Wmq := data_of_wf m q Wm). assert (Wpq := data_of_wf np q Wp).
    eapply dut_trans; [apply H1|]. eapply dut_trans; [|apply dut_sym, H2].
    eapply dut_trans; [apply dcoalesce_rel; [apply HK|apply dut_refl]|].
    eapply dut_trans; [|apply dut_sym, dcoalesce_rel; [apply HD|apply dut_refl]].
    eapply dut_trans; [apply dcoalesce_rel; [apply HC, H0|apply dut_refl]|].
    destruct (HP q) as [HP1 _].
    rewrite (HP1 HO (data_of np q) (dcoalesce o (data_of m q) (data_of np q)) (data_of m q)); auto using wf_dcoalesce, dut_refl.
    now apply dict_twice_replacing.
  - assert (Hx : forall loc g p o c g' n', quiet p -> f_value g = Err e -> provide loc g p o c = (Ret g', n') -> f_value g' = Err e).
    { intros loc g p0 o0 c0 g' n' Q0 E0 P0.
      assert (Sg : sound g) by (unfold sound; now rewrite E0).
      destruct (quiet_provide _ _ _ _ _ _ _ Q0 Sg P0) as (_ & _ & n0 & _ & _ & H0). rewrite E0 in H0.
      destruct (f_value g'); [contradiction|now subst]. }
    pose proof (Hx _ _ _ _ _ _ _ Qp Ev RA) as E0. pose proof (run_failed _ _ _ _ _ _ HQ E0 RB) as E1.
    pose proof (Hx _ _ _ _ _ _ _ Qp E1 RC) as E2. pose proof (run_failed _ _ _ _ _ _ HQ Ev RD) as E3.
    pose proof (Hx _ _ _ _ _ _ _ Qp E3 RE) as E4. unfold level. rewrite E2, E4. reflexivity.
Qed.

Lemma again_first p l a a' b o f c1 c2 f1 f2 n1 n2 : quiet p -> sound f ->
  Forall (fun x => quiet (call_with x) /\ keeps_existing (call_order x) = true) l ->
  run (calls (mkCall a o p :: l ++ [mkCall b Join p])) f c1 = (Ret f1, n1) ->
  run (calls (mkCall a' o p :: l)) f c2 = (Ret f2, n2) -> level f1 f2.
Proof.
  intros Qp Sf HF R1 R2.
  assert (HQ : Forall (fun x => quiet (call_with x)) l) by (eapply Forall_impl; [|exact HF]; intros x Hx; apply Hx).
  assert (HO : Forall (fun x => keeps_existing (call_order x) = true) l) by (eapply Forall_impl; [|exact HF]; intros x Hx; apply Hx).
  change (mkCall a o p :: l ++ [mkCall b Join p]) with ([mkCall a o p] ++ (l ++ [mkCall b Join p])) in R1.
  change (mkCall a' o p :: l) with ([mkCall a' o p] ++ l) in R2.
  apply run_split in R1. destruct R1 as (g0 & k0 & RA & R1). apply run_split in R1. destruct R1 as (g1 & k1 & RB & RC).
  apply run_split in R2. destruct R2 as (h0 & j0 & RD & RE).
  apply run_one in RA, RC, RD. cbn [call_at call_with call_order] in RA, RC, RD.
  assert (L0 : level g0 h0) by (eapply level_provide; [exact Qp|apply level_refl; exact Sf|exact RA|exact RD]).
  assert (L1 : level g1 f2) by (eapply run_level; [exact HQ|exact L0|exact RB|exact RE]).
  apply (level_trans _ g1); [|exact L1].
  destruct (quiet_provide _ _ _ _ _ _ _ Qp Sf RA) as (S0 & _ & np & Dp & Wp & H0).
  destruct (level_sound _ _ L1) as [Sg _].
  destruct (quiet_provide _ _ _ _ _ _ _ Qp Sg RC) as (S1 & _ & np1 & Dp1 & _ & H1).
  rewrite Dp in Dp1. injection Dp1 as <-.
  destruct (f_value f) as [m|e] eqn:Ev.
  - assert (Wm : wf_profiles m) by (unfold sound in Sf; now rewrite Ev in Sf).
    unfold sound in S0. destruct (f_value g0) as [m0|] eqn:Ev0; [|contradiction].
    destruct (run_data l g0 m0 k0 g1 k1 HQ Ev0 S0 RB) as (mg & Eg & Wg & F & HD & HW & HP & HC & _).
    rewrite Eg in H1. unfold level, sound in *. rewrite Eg in *.
    destruct (f_value f1) as [m1|]; [|contradiction]. split; [exact S1|]. split; [exact Wg|]. intros q.
    assert (Wmq := data_of_wf m q Wm). assert (Wpq := data_of_wf np q Wp).
    assert (HX : dut (data_of mg q) (F q (dcoalesce o (data_of m q) (data_of np q)))).
    { eapply dut_trans; [apply HD|]. apply HC, H0. }
    eapply dut_trans; [apply H1|]. eapply dut_trans; [|apply dut_sym, HX].
    eapply dut_trans; [apply dcoalesce_rel; [apply HX|apply dut_refl]|].
    destruct (HP q) as [_ HP2].
    rewrite (HP2 HO (data_of np q)); auto using wf_dcoalesce, dut_refl. now apply dict_twice_keeping.
  - destruct (f_value g0) as [|e0] eqn:Ev0; [contradiction|]. subst e0.
    pose proof (run_failed _ _ _ _ _ _ HQ Ev0 RB) as E1. rewrite E1 in H1. unfold level. rewrite E1.
    destruct (f_value f1); [contradiction|now subst].
Qed.
