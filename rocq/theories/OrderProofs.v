(** Data that does not overlap can be provided in any order. *)
From Coq Require Import Ascii String ZArith NArith Bool Lia Permutation.
From Coq Require Import List.
From Verif Require Import Res BMap Str Profile Tag Num Value Metadata Err Coalesce Figment Fmt De.
From Verif Require Import BMapProofs StrProofs ValueProofs CoalesceProofs FigmentProofs SerProofs ProvProofs PriorityProofs.
From Verif Require Import SpecValue SpecFigment SpecRt SpecBlind BlindProofs SpecFrame FrameProofs.
Import ListNotations.

(** ** Two dictionaries that hold the same, key by key *)
Lemma dut_refl d : dut d d.
Proof. apply dut_data. reflexivity. Qed.
Lemma dut_trans a b c : dut a b -> dut b c -> dut a c.
Proof. rewrite !dut_data. congruence. Qed.
Lemma dut_sym a b : dut a b -> dut b a.
Proof. rewrite !dut_data. congruence. Qed.

Lemma dut_intro a b : sorted a -> sorted b -> (forall k, both ut (get k a) (get k b)) -> dut a b.
Proof. intros Ha Hb H. exact (sorted_both (fun _ => ut) a b Ha Hb H). Qed.

Lemma both_refl o : both ut o o.
Proof. destruct o; constructor. reflexivity. Qed.

Lemma apart_get a b k x y : apart a b -> get k a = Some x -> get k b = Some y ->
  exists t d t' d', x = VDict t d /\ y = VDict t' d' /\ apart d d'.
Proof.
  intros H Hx Hy. destruct (H [k] x y) as [D1 D2]; [cbn; now rewrite Hx|cbn; now rewrite Hy|].
  destruct x as [| | | | |t d|]; try discriminate. destruct y as [| | | | |t' d'|]; try discriminate.
  exists t, d, t', d'. split; [reflexivity|]. split; [reflexivity|].
  intros p u v Hu Hv. destruct p as [|k' p]; [cbn in *; injection Hu as <-; injection Hv as <-; now split|].
  apply (H (k :: k' :: p)); cbn in *; [rewrite Hx|rewrite Hy]; assumption.
Qed.

Lemma untag_idem : forall v, untag (untag v) = untag v.
Proof.
  induction v as [| | | | |t d IH|t l IH] using value_ind'; cbn [untag]; try reflexivity; f_equal; rewrite map_map.
  - apply map_ext_in. intros [k x] Hin. rewrite Forall_forall in IH. cbn. f_equal. exact (IH _ Hin).
  - apply map_ext_in. intros x Hin. rewrite Forall_forall in IH. exact (IH _ Hin).
Qed.

(** ** The core: bringing in two things that are apart, in either order *)
Section Swap.
  Context (o1 o2 : order) (Ho : keeps_existing o1 = keeps_existing o2).
  Let c1 := opt_combine (vcoalesce o1).
  Let c2 := opt_combine (vcoalesce o2).

  Lemma swap_value : forall x y a t d t' d', x = VDict t d -> y = VDict t' d' -> apart d d' ->
    wf x -> wf y -> (forall v, a = Some v -> wf v) ->
    both ut (c2 (c1 a (Some x)) (Some y)) (c1 (c2 a (Some y)) (Some x)).
  Proof.
    induction x as [| | | | |t d IH|] using value_ind'; intros y a t1 d1 t' d' E E' HA Wx Wy Wa; try discriminate E.
    injection E as <- <-. subst y. apply wf_VDict in Wx, Wy.
    assert (HS : forall da, wf_dict da ->
      dut (dcoalesce o2 (dcoalesce o1 da d) d') (dcoalesce o1 (dcoalesce o2 da d') d)).
    { intros da Wda. apply dut_intro; try apply dcoalesce_sorted. intros k.
      rewrite !dcoalesce_get by (try apply dcoalesce_sorted; apply Wda || apply Wx || apply Wy).
      fold c1 c2. destruct (get k d) as [x|] eqn:Ex; [|unfold c1, c2; cbn; destruct (get k da); cbn;
        destruct (get k d'); apply both_refl].
      destruct (get k d') as [y|] eqn:Ey; [|unfold c1, c2; destruct (get k da); cbn; apply both_refl].
      destruct (apart_get _ _ _ _ _ HA Ex Ey) as (u & e & u' & e' & -> & -> & HA').
      eapply (Forall_get (fun x => forall y a t d t' d', x = VDict t d -> y = VDict t' d' -> apart d d' ->
        wf x -> wf y -> (forall v, a = Some v -> wf v) ->
        both ut (c2 (c1 a (Some x)) (Some y)) (c1 (c2 a (Some y)) (Some x))) _ _ _ IH Ex); [reflexivity|reflexivity|exact HA'| | |].
      - eapply wf_get; [|exact Ex]. exact Wx.
      - eapply wf_get; [|exact Ey]. exact Wy.
      - intros v Hv. eapply wf_get; [|exact Hv]. exact Wda. }
    unfold c1, c2. destruct a as [v|]; cbn [opt_combine].
    - constructor. destruct (is_dict v) eqn:Ev.
      + destruct v as [| | | | |ta da|]; try discriminate Ev. rewrite !vcoalesce_dict.
        apply utc_ut. constructor. apply HS. apply (wf_VDict ta). now apply Wa.
      + rewrite (vcoalesce_other o1 v) by (unfold combinable; rewrite Ev; cbn; now rewrite andb_false_r).
        rewrite (vcoalesce_other o2 v) by (unfold combinable; rewrite Ev; cbn; now rewrite andb_false_r).
        rewrite Ho. destruct (keeps_existing o2) eqn:Ek.
        * rewrite (vcoalesce_other o1 v) by (unfold combinable; rewrite Ev; cbn; now rewrite andb_false_r).
          rewrite (vcoalesce_other o2 v) by (unfold combinable; rewrite Ev; cbn; now rewrite andb_false_r).
          rewrite Ho, Ek. reflexivity.
        * rewrite !vcoalesce_dict. apply utc_ut. constructor.
          specialize (HS [] (conj I (Forall_nil _))). 
          now rewrite !dcoalesce_nil_l in HS by (apply Wx || apply Wy).
    - constructor. rewrite !vcoalesce_dict. apply utc_ut. constructor.
      specialize (HS [] (conj I (Forall_nil _))). now rewrite !dcoalesce_nil_l in HS by (apply Wx || apply Wy).
  Qed.

  Lemma swap_dict a x y : wf_dict a -> wf_dict x -> wf_dict y -> apart x y ->
    dut (dcoalesce o2 (dcoalesce o1 a x) y) (dcoalesce o1 (dcoalesce o2 a y) x).
  Proof.
    intros Wa Wx Wy HA.
    pose proof (swap_value (VDict tag_default x) (VDict tag_default y) (Some (VDict tag_default a))
                  tag_default x tag_default y eq_refl eq_refl HA) as H.
    unfold c1, c2 in H. cbn [opt_combine] in H. rewrite !vcoalesce_dict in H.
    specialize (H (proj2 (wf_VDict _ _) Wx) (proj2 (wf_VDict _ _) Wy)).
    assert (HW : forall v, Some (VDict tag_default a) = Some v -> wf v).
    { intros v E. injection E as <-. now apply wf_VDict. }
    specialize (H HW). inversion H as [|? ? U]; subst. apply ut_cases in U. now inversion U.
  Qed.
End Swap.

(** ** Figments that hold the same, profile by profile *)
Definition level (f g : figment) : Prop :=
  match f_value f, f_value g with
  | Ok m, Ok n => wf_profiles m /\ wf_profiles n /\ forall q, dut (data_of m q) (data_of n q)
  | Err e, Err e' => report e = report e'
  | _, _ => False
  end.

Lemma level_same f g s : level f g -> agree ut (merged (fig_select f s)) (merged (fig_select g s)).
Proof.
  unfold level. destruct (f_value f) as [m|e] eqn:Ef, (f_value g) as [n|e'] eqn:Eg; try contradiction.
  - intros (Wm & Wn & H).
    rewrite (merged_ok3 (fig_select f s) m Ef Wm), (merged_ok3 (fig_select g s) n Eg Wn).
    constructor. apply utc_ut. constructor. unfold selected_of. cbn [fig_select f_profile].
    unfold dmerge. repeat apply dcoalesce_rel; auto. destruct (is_custom s); [apply H|constructor].
  - intros H. rewrite (merged_err (fig_select f s) e Ef), (merged_err (fig_select g s) e' Eg).
    constructor. now rewrite !report_resolved.
Qed.

Lemma level_indistinguishable f g : level f g -> indistinguishable f g.
Proof.
  intros H s i t k U. pose proof (level_same f g s H) as HM.
  assert (HF : agree ut (find_value (fig_select f s) k) (find_value (fig_select g s) k)).
  { unfold find_value. destruct HM as [v v' UV|e e' E]; [|now constructor].
    pose proof (find_keys_rel (split_on dot k) _ _ UV) as HF. unfold vfind.
    destruct (find_keys (split_on dot k) v), (find_keys (split_on dot k) v'); cbn in HF; try contradiction;
      now constructor. }
  split; [|split; [|split]].
  - apply agree_seen. unfold extract. eapply agree_bind; [exact HM|].
    intros v v' HU. apply deserialize_blind; [exact U|]. now constructor.
  - apply agree_seen. unfold extract_inner. eapply agree_bind; [exact HF|].
    intros v v' HU. apply agree_map_err.
    + intros e e' E. now rewrite !report_with_path, E.
    + apply deserialize_blind; [exact U|]. now constructor.
  - now apply agree_seen.
  - unfold fig_contains. destruct HM as [v v' UV|e e' E]; [|reflexivity].
    pose proof (find_ref_keys_rel (split_on dot k) _ _ UV) as HR. unfold vfind_ref.
    destruct (find_ref_keys (split_on dot k) v), (find_ref_keys (split_on dot k) v'); cbn in HR;
      try contradiction; reflexivity.
Qed.

Definition sound (f : figment) : Prop := match f_value f with Ok m => wf_profiles m | Err _ => True end.

Lemma level_refl f : sound f -> level f f.
Proof. unfold sound, level. destruct (f_value f); [|reflexivity]. intros W. split; [exact W|]. split; [exact W|].
  intros q. apply dut_refl. Qed.
Lemma level_trans f g h : level f g -> level g h -> level f h.
Proof.
  unfold level. destruct (f_value f), (f_value g), (f_value h); try contradiction; [|congruence].
  intros (W1 & W2 & H1) (W3 & W4 & H2). split; [exact W1|]. split; [exact W4|]. intros q.
  eapply dut_trans; [apply H1|apply H2].
Qed.
Lemma level_sound f g : level f g -> sound f /\ sound g.
Proof.
  unfold level, sound. destruct (f_value f), (f_value g); try contradiction; [|now split]. intros (A & B & _). now split.
Qed.

Lemma data_of_retag t n q : dut (data_of (retag_data t n) q) (data_of n q).
Proof.
  unfold data_of. rewrite retag_data_get. destruct (get q n) as [d|]; cbn; [|constructor].
  unfold retag_dict. induction d as [|[k v] r IH]; cbn; constructor; [|exact IH].
  split; [reflexivity|]. cbn. unfold ut. now rewrite untag_map_tag.
Qed.

(** What one quiet provider does. *)
Lemma quiet_provide loc f p o c f' c' : quiet p -> sound f -> provide loc f p o c = (Ret f', c') ->
  sound f' /\ f_profile f' = f_profile f /\
  exists n, pv_data p = Ok n /\ wf_profiles n /\
  match f_value f, f_value f' with
  | Ok m, Ok m' => forall q, dut (data_of m' q) (dcoalesce o (data_of m q) (data_of n q))
  | Err e, Err e' => e = e'
  | _, _ => False
  end.
Proof.
  intros (HQ & n & HD & Wn) HS HP. apply provide_ret in HP. destruct HP as (_ & _ & ->).
  unfold sound in *. rewrite HQ, HD. cbn [f_value f_profile]. destruct (f_value f) as [m|e] eqn:Ef.
  - assert (Wr := wf_retag_data (tag_new c PTDefault) n Wn).
    split; [now apply wf_pcoalesce|]. split; [reflexivity|]. exists n. split; [reflexivity|]. split; [exact Wn|].
    intros q. rewrite data_of_pcoalesce by assumption. apply dcoalesce_rel; [apply dut_refl|apply data_of_retag].
  - split; [exact I|]. split; [reflexivity|]. exists n. split; [reflexivity|]. split; [exact Wn|reflexivity].
Qed.

Lemma level_provide loc loc' f g p o c c' f' g' n n' : quiet p -> level f g ->
  provide loc f p o c = (Ret f', n) -> provide loc' g p o c' = (Ret g', n') -> level f' g'.
Proof.
  intros HQ HL H1 H2. destruct (level_sound _ _ HL) as [Sf Sg].
  destruct (quiet_provide _ _ _ _ _ _ _ HQ Sf H1) as (Sf' & _ & n1 & D1 & _ & E1).
  destruct (quiet_provide _ _ _ _ _ _ _ HQ Sg H2) as (Sg' & _ & n2 & D2 & _ & E2).
  rewrite D1 in D2. injection D2 as <-. unfold level, sound in *.
  destruct (f_value f), (f_value g); try contradiction; destruct (f_value f'), (f_value g'); try contradiction.
  - split; [exact Sf'|]. split; [exact Sg'|]. intros q. destruct HL as (_ & _ & HL).
    eapply dut_trans; [apply E1|]. eapply dut_trans; [|apply dut_sym, E2].
    apply dcoalesce_rel; [apply HL|apply dut_refl].
  - congruence.
Qed.

Lemma apart_data p q n1 n2 r : apart_providers p q -> pv_data p = Ok n1 -> pv_data q = Ok n2 ->
  apart (data_of n1 r) (data_of n2 r).
Proof.
  intros H H1 H2. unfold data_of. destruct (get r n1) as [d|] eqn:E1.
  - destruct (get r n2) as [e|] eqn:E2; [eapply H; eassumption|].
    intros [|k l] x y Hx Hy; cbn in *; [injection Hx as <-; injection Hy as <-; now split|discriminate].
  - intros [|k l] x y Hx Hy; cbn in *; [injection Hx as <-; injection Hy as <-; now split|discriminate].
Qed.

Lemma level_swap l1 l2 l3 l4 f p q o o' c1 c2 c3 c4 n1 n2 n3 n4 f1 f2 g1 g2 :
  quiet p -> quiet q -> apart_providers p q -> keeps_existing o = keeps_existing o' -> sound f ->
  provide l1 f p o c1 = (Ret f1, n1) -> provide l2 f1 q o' c2 = (Ret f2, n2) ->
  provide l3 f q o' c3 = (Ret g1, n3) -> provide l4 g1 p o c4 = (Ret g2, n4) -> level f2 g2.
Proof.
  intros HP HQ HA Ho HS H1 H2 H3 H4.
  destruct (quiet_provide _ _ _ _ _ _ _ HP HS H1) as (S1 & _ & np & Dp & Wp & E1).
  destruct (quiet_provide _ _ _ _ _ _ _ HQ S1 H2) as (S2 & _ & nq & Dq & Wq & E2).
  destruct (quiet_provide _ _ _ _ _ _ _ HQ HS H3) as (S3 & _ & nq' & Dq' & _ & E3).
  destruct (quiet_provide _ _ _ _ _ _ _ HP S3 H4) as (S4 & _ & np' & Dp' & _ & E4).
  rewrite Dp in Dp'. injection Dp' as <-. rewrite Dq in Dq'. injection Dq' as <-.
  unfold level, sound in *.
  destruct (f_value f) as [m|]; destruct (f_value f1), (f_value f2), (f_value g1), (f_value g2); try contradiction.
  - split; [exact S2|]. split; [exact S4|]. intros r.
    eapply dut_trans; [apply E2|]. eapply dut_trans; [|apply dut_sym, E4].
    eapply dut_trans; [apply dcoalesce_rel; [apply E1|apply dut_refl]|].
    eapply dut_trans; [|apply dut_sym, dcoalesce_rel; [apply E3|apply dut_refl]].
    apply swap_dict; auto using data_of_wf. eapply apart_data; eassumption.
  - congruence.
Qed.

(** ** Any order *)
Definition side (o : order) (x : call) : Prop := quiet (call_with x) /\ keeps_existing (call_order x) = keeps_existing o.
Definition apart_calls (x y : call) : Prop := apart_providers (call_with x) (call_with y).

Lemma apart_sym a b : apart a b -> apart b a.
Proof. intros H p x y Hx Hy. apply and_comm. eapply H; eassumption. Qed.
Lemma apart_calls_sym x y : apart_calls x y -> apart_calls y x.
Proof. intros H m n r d e H1 H2 H3 H4. apply apart_sym. eapply H; eassumption. Qed.

Lemma run_level l : forall f g c c' f' g' n n', Forall (fun x => quiet (call_with x)) l -> level f g ->
  run (calls l) f c = (Ret f', n) -> run (calls l) g c' = (Ret g', n') -> level f' g'.
Proof.
  induction l as [|x r IH]; intros f g c c' f' g' n n' HF HL; cbn.
  - intros E1 E2. injection E1 as <- _. injection E2 as <- _. exact HL.
  - inversion HF as [|? ? Hx HF']; subst.
    destruct (provide (call_at x) f (call_with x) (call_order x) c) as [[f1| |] c1] eqn:E1; try discriminate.
    destruct (provide (call_at x) g (call_with x) (call_order x) c') as [[g1| |] c2] eqn:E2; try discriminate.
    apply IH; [exact HF'|]. eapply level_provide; eassumption.
Qed.

Lemma run_counter l : forall f c f' n, run (calls l) f c = (Ret f', n) ->
  (l = [] \/ (c + N.of_nat (length l) <= 2 ^ 62)%N) /\ n = (c + N.of_nat (length l))%N.
Proof.
  induction l as [|x r IH]; intros f c f' n; cbn [calls map run run_op].
  - intros E. injection E as _ <-. split; [now left|]. cbn. lia.
  - destruct (provide (call_at x) f (call_with x) (call_order x) c) as [[f1| |] c1] eqn:E1; try discriminate.
    intros E. apply provide_ret in E1. destruct E1 as (H1 & -> & _). apply IH in E. destruct E as [E2 ->].
    cbn [length]. split; [right|lia]. destruct E2 as [-> | E2]; cbn; lia.
Qed.

Lemma run_some l : forall f c, (c + N.of_nat (length l) <= 2 ^ 62)%N -> exists f' n, run (calls l) f c = (Ret f', n).
Proof.
  induction l as [|x r IH]; intros f c H; cbn [calls map run run_op]; [eauto|]. cbn [length] in H.
  destruct (provide_small (call_at x) f (call_with x) (call_order x) c) as [f' ->]; [lia|]. apply IH. lia.
Qed.

Lemma run_quiet_sound l : forall f c f' n, Forall (fun x => quiet (call_with x)) l -> sound f ->
  run (calls l) f c = (Ret f', n) -> sound f' /\ f_profile f' = f_profile f.
Proof.
  induction l as [|x r IH]; intros f c f' n HF HS; cbn [calls map run run_op].
  - intros E. injection E as <- _. now split.
  - inversion HF as [|? ? Hx HF']; subst.
    destruct (provide (call_at x) f (call_with x) (call_order x) c) as [[f1| |] c1] eqn:E1; try discriminate.
    intros E. destruct (quiet_provide _ _ _ _ _ _ _ Hx HS E1) as (S1 & P1 & _).
    destruct (IH _ _ _ _ HF' S1 E) as [S2 P2]. split; [exact S2|congruence].
Qed.

Lemma ordered_pairs l l' : Permutation l l' -> ForallOrdPairs apart_calls l -> ForallOrdPairs apart_calls l'.
Proof.
  induction 1 as [|x l l' HP IH|x y l|a b c H1 IH1 H2 IH2]; intros H; auto.
  - inversion H; subst. constructor; [eapply Permutation_Forall; eassumption|auto].
  - inversion H as [|? ? Hy H']; subst. inversion H' as [|? ? Hx H'']; subst. inversion Hy; subst.
    constructor; [constructor; [now apply apart_calls_sym|assumption]|]. now constructor.
Qed.

Lemma run_permutation o l l' : Permutation l l' -> forall f g c c' f' g' n n',
  Forall (side o) l -> ForallOrdPairs apart_calls l -> level f g ->
  run (calls l) f c = (Ret f', n) -> run (calls l') g c' = (Ret g', n') -> level f' g'.
Proof.
  assert (HQ : forall l, Forall (side o) l -> Forall (fun x => quiet (call_with x)) l).
  { intros k. apply Forall_impl. intros x Hx. apply Hx. }
  induction 1 as [|x l l' HP IH|x y l|l1 l2 l3 H1 IH1 H2 IH2]; intros f g c c' f' g' n n' HF HA HL.
  - intros E1 E2. injection E1 as <- _. injection E2 as <- _. exact HL.
  - cbn [calls map run run_op]. inversion HF as [|? ? Hx HF']; subst. inversion HA; subst.
    destruct (provide (call_at x) f (call_with x) (call_order x) c) as [[f1| |] c1] eqn:E1; try discriminate.
    destruct (provide (call_at x) g (call_with x) (call_order x) c') as [[g1| |] c2] eqn:E2; try discriminate.
    apply IH; auto. eapply level_provide; [apply Hx|exact HL|eassumption|eassumption].
  - cbn [calls map run run_op]. inversion HF as [|? ? Hy HF1]; subst. inversion HF1 as [|? ? Hx HF2]; subst.
    inversion HA as [|? ? Hyx HA1]; subst. inversion Hyx as [|? ? Hyx' _]; subst.
    destruct (level_sound _ _ HL) as [Sf Sg].
    destruct (provide (call_at y) f (call_with y) (call_order y) c) as [[f1| |] c1] eqn:E1; try discriminate.
    destruct (provide (call_at x) f1 (call_with x) (call_order x) c1) as [[f2| |] c2] eqn:E2; try discriminate.
    destruct (provide (call_at x) g (call_with x) (call_order x) c') as [[g1| |] c3] eqn:E3; try discriminate.
    destruct (provide (call_at y) g1 (call_with y) (call_order y) c3) as [[g2| |] c4] eqn:E4; try discriminate.
    apply run_level; [now apply HQ|].
    (* the two calls on [g], in the order of the first list *)
    destruct (provide_ret _ _ _ _ _ _ _ E3) as (B3 & -> & _).
    destruct (provide_ret _ _ _ _ _ _ _ E4) as (B4 & -> & _).
    destruct (provide_small (call_at y) g (call_with y) (call_order y) c' B3) as [h1 F1].
    destruct (provide_small (call_at x) h1 (call_with x) (call_order x) (c' + 1)%N B4) as [h2 F2].
    apply (level_trans _ h2).
    + eapply level_provide; [apply Hx| |exact E2|exact F2]. eapply level_provide; [apply Hy|exact HL|exact E1|exact F1].
    + eapply level_swap; [apply Hy|apply Hx|exact Hyx'| |exact Sg|exact F1|exact F2|exact E3|exact E4].
      destruct Hx as [_ ->], Hy as [_ ->]. reflexivity.
  - intros E1 E2. pose proof (run_counter _ _ _ _ _ E2) as [B _].
    destruct (level_sound _ _ HL) as [Sf Sg].
    assert (HM : exists h n0, run (calls l2) g c' = (Ret h, n0)).
    { destruct B as [-> | B].
      - apply Permutation_sym, Permutation_nil in H2. subst l2. cbn. eauto.
      - apply run_some. now rewrite (Permutation_length H2). }
    destruct HM as (h & n0 & EM). apply (level_trans _ h).
    + eapply IH1; eassumption.
    + eapply IH2; [eapply Permutation_Forall; eassumption|eapply ordered_pairs; eassumption| |exact EM|exact E2].
      now apply level_refl.
Qed.
