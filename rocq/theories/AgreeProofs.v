(** Proofs about putting together values that say the same. *)
From Coq Require Import Ascii String ZArith NArith Bool Lia.
From Coq Require Import List.
From Verif Require Import Res BMap Str Profile Tag Num Value Metadata Err Coalesce Figment De Ser.
From Verif Require Import BMapProofs StrProofs ValueProofs CoalesceProofs FigmentProofs DeProofs BlameProofs MeaningProofs SerProofs RtProofs.
From Verif Require Import SpecLookup SpecValue SpecFigment SpecDe SpecExtract SpecRt SpecBlind SpecFrame SpecLayers SpecHollow SpecLossy SpecMagic.
From Verif Require Import BlindProofs ExtractProofs PriorityProofs ProvProofs OrderProofs LayersProofs.
Import ListNotations.

(** [X] is [Y] with some of [w] worked in. *)
Inductive blend : value -> value -> value -> Prop :=
| bl_old w Y : blend w Y Y
| bl_new w Y : blend w Y w
| bl_dict gw w gy Y gx X : sorted X ->
    (forall k x, get k X = Some x -> get k Y = None -> get k w = Some x) ->
    (forall k y, get k Y = Some y -> exists x, get k X = Some x) ->
    (forall k x y, get k X = Some x -> get k Y = Some y -> get k w = None -> x = y) ->
    (forall k x y z, get k X = Some x -> get k Y = Some y -> get k w = Some z -> blend z y x) ->
    blend (VDict gw w) (VDict gy Y) (VDict gx X).

(** The same, where nothing of [Y] is replaced. *)
Inductive beneath : value -> value -> value -> Prop :=
| bn_old w Y : beneath w Y Y
| bn_dict gw w gy Y gx X : sorted X ->
    (forall k x, get k X = Some x -> get k Y = None -> get k w = Some x) ->
    (forall k y, get k Y = Some y -> exists x, get k X = Some x) ->
    (forall k x y, get k X = Some x -> get k Y = Some y -> get k w = None -> x = y) ->
    (forall k x y z, get k X = Some x -> get k Y = Some y -> get k w = Some z -> beneath z y x) ->
    beneath (VDict gw w) (VDict gy Y) (VDict gx X).

Lemma beneath_blend w : forall Y X, beneath w Y X -> blend w Y X.
Proof.
  induction w as [| | | | |g w IH|] using value_ind'; intros Y X B; inversion B; subst; try constructor; auto.
  intros k x y z Gx Gy Gz. destruct (get_In _ _ _ Gz) as (k' & _ & HI). rewrite Forall_forall in IH. apply (IH _ HI). eauto.
Qed.

Ltac comb G := rewrite dcoalesce_get in G by assumption; cbn [opt_combine] in G.

Lemma get_merge_some (a b : dict) k x : sorted a -> sorted b -> get k (dcoalesce Merge a b) = Some x ->
  match get k a, get k b with
  | Some p, Some q => x = vcoalesce Merge p q
  | Some p, None => x = p
  | None, Some q => x = q
  | None, None => False
  end.
Proof.
  intros Sa Sb G. rewrite dcoalesce_get in G by assumption.
  destruct (get k a), (get k b); cbn in G; congruence.
Qed.
Lemma get_merge_there (a b : dict) k : sorted a -> sorted b ->
  (exists x, get k a = Some x) \/ (exists x, get k b = Some x) -> exists x, get k (dcoalesce Merge a b) = Some x.
Proof.
  intros Sa Sb H. rewrite dcoalesce_get by assumption.
  destruct (get k a), (get k b); cbn; eauto. destruct H as [[x H]|[x H]]; discriminate.
Qed.
Lemma get_merge_none (a b : dict) k : sorted a -> sorted b -> get k (dcoalesce Merge a b) = None ->
  get k a = None /\ get k b = None.
Proof. intros Sa Sb. rewrite dcoalesce_get by assumption. destruct (get k a), (get k b); cbn; auto; discriminate. Qed.

Lemma not_dict_or v : (exists g d, v = VDict g d) \/ forall g d, v <> VDict g d.
Proof. destruct v; eauto; right; intros; discriminate. Qed.
Lemma merge_onto u v : (forall g d, u <> VDict g d) -> vcoalesce Merge u v = v.
Proof. intros H. destruct u, v; try reflexivity. exfalso. eapply H. reflexivity. Qed.
Lemma entry_wf g d k v : wf (VDict g d) -> get k d = Some v -> wf v.
Proof. intros W. apply get_wf. apply wf_VDict in W. exact W. Qed.
Lemma dict_sorted g d : wf (VDict g d) -> sorted d.
Proof. intros W. apply wf_VDict in W. apply W. Qed.

Lemma beneath_merge w : wf w -> forall Y, wf Y -> beneath w Y (vcoalesce Merge w Y).
Proof.
  induction w as [| | | | |g w IH|] using value_ind'; intros W Y WY; try (rewrite merge_onto by (intros; discriminate); constructor).
  destruct (not_dict_or Y) as [(gy & Y0 & ->)|N]; [|rewrite merge_replaces by exact N; constructor].
  rewrite vcoalesce_dict. assert (Sw := dict_sorted _ _ W). assert (SY := dict_sorted _ _ WY). apply bn_dict.
  - apply dcoalesce_sorted.
  - intros k x G E. apply get_merge_some in G; auto. rewrite E in G. destruct (get k w); [congruence|destruct G].
  - intros k y G. apply get_merge_there; eauto.
  - intros k x y G Gy Gw. apply get_merge_some in G; auto. rewrite Gy, Gw in G. exact G.
  - intros k x y z G Gy Gw. apply get_merge_some in G; auto. rewrite Gy, Gw in G. subst x.
    destruct (get_In _ _ _ Gw) as (k' & _ & HI). rewrite Forall_forall in IH.
    apply (IH _ HI); cbn [snd]; [exact (entry_wf _ _ _ _ W Gw)|exact (entry_wf _ _ _ _ WY Gy)].
Qed.

(** What is beneath stays beneath when more is merged. *)
Lemma beneath_more w : wf w -> forall Y X S, wf Y -> wf X -> wf S -> beneath w Y X ->
  beneath w (vcoalesce Merge Y S) (vcoalesce Merge X S).
Proof.
  induction w as [| | | | |g w IH|] using value_ind'; intros W Y X S WY WX WS B; inversion B; subst; try constructor.
  destruct (not_dict_or S) as [(gs & S0 & ->)|N]; [|rewrite !merge_replaces by exact N; constructor].
  rewrite !vcoalesce_dict. assert (Sw := dict_sorted _ _ W). assert (SY := dict_sorted _ _ WY). assert (SX := dict_sorted _ _ WX).
  assert (SS := dict_sorted _ _ WS). rewrite Forall_forall in IH. apply bn_dict.
  - apply dcoalesce_sorted.
  - intros k x G E. apply get_merge_none in E; auto. destruct E as [E1 E2]. apply get_merge_some in G; auto. rewrite E2 in G.
    destruct (get k X0) eqn:Gx; [|destruct G]. subst. eauto.
  - intros k y G. apply get_merge_there; auto. apply get_merge_some in G; auto.
    destruct (get k Y0) eqn:Gy; [left; eauto|]. destruct (get k S0); [right; eauto|destruct G].
  - intros k x y G Gy Gw. apply get_merge_some in G, Gy; auto.
    destruct (get k X0) as [x0|] eqn:Ex, (get k Y0) as [y0|] eqn:Ey, (get k S0) as [s0|] eqn:Es; try contradiction; subst.
    all: try (destruct (H3 k _ Ey) as [? ?]; congruence).
    all: try (assert (Z := H2 k _ Ex Ey); congruence).
    all: try f_equal; eauto.
  - intros k x y z G Gy Gw. destruct (get_In _ _ _ Gw) as (k' & _ & HI). assert (IHz := IH _ HI). cbn [snd] in IHz.
    assert (Wz := entry_wf _ _ _ _ W Gw).
    apply get_merge_some in G, Gy; auto.
    destruct (get k X0) as [x0|] eqn:Ex, (get k Y0) as [y0|] eqn:Ey, (get k S0) as [s0|] eqn:Es; try contradiction; subst.
    all: try (destruct (H3 k _ Ey) as [? ?]; congruence).
    all: try (exact (H7 k _ _ _ Ex Ey Gw)).
    all: try constructor.
    + apply IHz; [exact Wz|exact (entry_wf _ _ _ _ WY Ey)|exact (entry_wf _ _ _ _ WX Ex)|exact (entry_wf _ _ _ _ WS Es)|eauto].
    + assert (Z := H2 k x0 Ex Ey). assert (x0 = z) by congruence. subst x0. apply beneath_merge; [exact Wz|exact (entry_wf _ _ _ _ WS Es)].
Qed.

Lemma blend_onto w : wf w -> forall Y, wf Y -> blend w Y (vcoalesce Merge Y w).
Proof.
  induction w as [| | | | |g w IH|] using value_ind'; intros W Y WY; try (rewrite merge_replaces by (intros; discriminate); constructor).
  destruct (not_dict_or Y) as [(gy & Y0 & ->)|N]; [|rewrite merge_onto by exact N; constructor].
  rewrite vcoalesce_dict. assert (Sw := dict_sorted _ _ W). assert (SY := dict_sorted _ _ WY). apply bl_dict.
  - apply dcoalesce_sorted.
  - intros k x G E. apply get_merge_some in G; auto. rewrite E in G. destruct (get k w); [congruence|destruct G].
  - intros k y G. apply get_merge_there; eauto.
  - intros k x y G Gy Gw. apply get_merge_some in G; auto. rewrite Gy, Gw in G. exact G.
  - intros k x y z G Gy Gw. apply get_merge_some in G; auto. rewrite Gy, Gw in G. subst x.
    destruct (get_In _ _ _ Gw) as (k' & _ & HI). rewrite Forall_forall in IH.
    apply (IH _ HI); cbn [snd]; [exact (entry_wf _ _ _ _ W Gw)|exact (entry_wf _ _ _ _ WY Gy)].
Qed.

(** [w] put beneath the upper of two layers. *)
Lemma blend_between w : wf w -> forall B G, wf B -> wf G ->
  blend w (vcoalesce Merge B G) (vcoalesce Merge B (vcoalesce Merge w G)).
Proof.
  induction w as [| | | | |g w IH|] using value_ind'; intros W B G WB WG;
    try (match goal with |- blend ?u _ _ => rewrite (merge_onto u G) by (intros; discriminate) end; constructor).
  destruct (not_dict_or G) as [(gg & G0 & ->)|N]; [|rewrite (merge_replaces (VDict g w) G) by exact N; constructor].
  destruct (not_dict_or B) as [(gb & B0 & ->)|N].
  2: { rewrite !(merge_onto B) by exact N. apply beneath_blend, beneath_merge; assumption. }
  rewrite !vcoalesce_dict. assert (Sw := dict_sorted _ _ W). assert (SB := dict_sorted _ _ WB). assert (SG := dict_sorted _ _ WG).
  rewrite Forall_forall in IH. cbn [keeps_existing].
  assert (SwG := dcoalesce_sorted Merge w G0). apply bl_dict.
  - apply dcoalesce_sorted.
  - intros k x Gx E. apply get_merge_none in E; auto. destruct E as [E1 E2]. apply get_merge_some in Gx; auto. rewrite E1 in Gx.
    destruct (get k (dcoalesce Merge w G0)) eqn:E; [|destruct Gx]. subst. apply get_merge_some in E; auto. rewrite E2 in E.
    destruct (get k w); [congruence|destruct E].
  - intros k y Gy. apply get_merge_there; auto. apply get_merge_some in Gy; auto.
    destruct (get k B0) eqn:Eb; [left; eauto|]. right. apply get_merge_there; auto. destruct (get k G0); [eauto|destruct Gy].
  - intros k x y Gx Gy Gw. apply get_merge_some in Gx, Gy; auto.
    rewrite dcoalesce_get, Gw in Gx by assumption. destruct (get k B0), (get k G0); cbn in Gx; try contradiction; congruence.
  - intros k x y z Gx Gy Gw. destruct (get_In _ _ _ Gw) as (k' & _ & HI). assert (IHz := IH _ HI). cbn [snd] in IHz.
    assert (Wz := entry_wf _ _ _ _ W Gw).
    apply get_merge_some in Gx, Gy; auto. rewrite dcoalesce_get, Gw in Gx by assumption.
    destruct (get k B0) as [b0|] eqn:Eb, (get k G0) as [g0|] eqn:Eg; cbn in Gx; try contradiction; subst.
    + apply IHz; [exact Wz|exact (entry_wf _ _ _ _ WB Eb)|exact (entry_wf _ _ _ _ WG Eg)].
    + apply blend_onto; [exact Wz|exact (entry_wf _ _ _ _ WB Eb)].
    + apply beneath_blend, beneath_merge; [exact Wz|exact (entry_wf _ _ _ _ WG Eg)].
Qed.

(** ** What a blend is read as *)
Lemma first_entry (k : ustr) (x : value) r k' : get k' ((k, x) :: r) = (match cmp k' k with Eq => Some x | _ => get k' r end).
Proof. reflexivity. Qed.

Lemma by_name_blend (R : ty -> value -> dval -> Prop) (fs : list (ustr * ty)) gw w gy Y gx X :
  wf (VDict gw w) -> wf (VDict gy Y) -> wf (VDict gx X) ->
  Forall (fun f => forall u v x y, wf u -> wf v -> wf x -> blend u v x -> R (snd f) u y -> R (snd f) v y -> R (snd f) x y) fs ->
  blend (VDict gw w) (VDict gy Y) (VDict gx X) ->
  forall ys, by_name (map (fun f => (fst f, (optional (snd f), R (snd f)))) fs) w ys ->
  by_name (map (fun f => (fst f, (optional (snd f), R (snd f)))) fs) Y ys ->
  by_name (map (fun f => (fst f, (optional (snd f), R (snd f)))) fs) X ys.
Proof.
  intros Ww WY WX HF B. inversion B as [|? ? E|? ? ? ? ? ? SX H1 H2 H3 H4]; subst; [auto|auto|].
  induction HF as [|[n t] fs Hf HF IH]; intros [|[n' y] ys]; cbn; auto.
  intros (-> & A1 & A2) (_ & B1 & B2). split; [reflexivity|]. split; [|auto].
  destruct (get n X) as [x|] eqn:Ex.
  - destruct (get n Y) as [v|] eqn:Ey.
    + destruct (get n w) as [u|] eqn:Eu.
      * eapply Hf; [| | |exact (H4 n x v u Ex Ey Eu)|exact A1|exact B1];
          [exact (entry_wf _ _ _ _ Ww Eu)|exact (entry_wf _ _ _ _ WY Ey)|exact (entry_wf _ _ _ _ WX Ex)].
      * rewrite (H3 n x v Ex Ey Eu). exact B1.
    + rewrite (H1 n x Ex Ey) in A1. exact A1.
  - destruct (get n Y) as [v|] eqn:Ey; [|exact B1]. destruct (H2 n v Ey). congruence.
Qed.

Lemma blend_key gw w gy Y gx X k x : wf (VDict gx X) -> blend (VDict gw w) (VDict gy Y) (VDict gx X) -> In (k, x) X ->
  (exists z, In (k, z) w) \/ (exists z, In (k, z) Y).
Proof.
  intros WX B I. inversion B as [|? ? E|? ? ? ? ? ? SX H1 H2 H3 H4]; subst; [eauto|eauto|].
  assert (G := In_get _ _ _ SX I). destruct (get k Y) as [z|] eqn:Ey.
  - right. destruct (get_In _ _ _ Ey) as (k' & E & J). apply cmp_leibniz in E. subst k'. eauto.
  - left. assert (G' := H1 k x G Ey). destruct (get_In _ _ _ G') as (k' & E & J). apply cmp_leibniz in E. subst k'. eauto.
Qed.

Lemma storable_ordinary t : storable t -> SpecDe.ordinary t /\ named_apart t.
Proof.
  induction t as [|k| | | | | |t IH|t IH|ts IH|t IH|k t IHk IH|n id dn fs IH|id t IH|id ts IH|id|id vs IH| | | | | | |a b IHa IHb]
    using ty_ind'; cbn [storable SpecDe.ordinary named_apart]; try tauto.
  - destruct k; cbn; intros H; try tauto; split; auto; split; discriminate.
  - intros H. eapply all_both; eauto.
  - intros (H1 & H2 & H3). destruct (all_both _ _ _ fs IH H3). tauto.
  - intros H. eapply all_both; eauto.
  - intros [H1 H2]. assert (X := all_both (fun nv : ustr * shape ty => match snd nv with
                          | ShUnit => True | ShNew t => storable t | ShTuple ts => all (map storable ts)
                          | ShStruct fs => NoDup (map fst fs) /\ all (map (fun f => storable (snd f)) fs) end)
      (fun nv => match snd nv with ShUnit => True | ShNew t => SpecDe.ordinary t | ShTuple ts => all (map SpecDe.ordinary ts)
                          | ShStruct fs => all (map (fun f => SpecDe.ordinary (snd f)) fs) end)
      (fun nv => match snd nv with ShUnit => True | ShNew t => named_apart t | ShTuple ts => all (map named_apart ts)
                          | ShStruct fs => NoDup (map fst fs) /\ all (map (fun f => named_apart (snd f)) fs) end) vs).
    destruct X as [X1 X2]; [|exact H2|tauto].
    apply Forall_forall. intros [k s] I. rewrite Forall_forall in IH. specialize (IH _ I). cbn [snd] in *.
    destruct s as [|t|ts|fs]; auto.
    + intros S. eapply all_both; eauto.
    + intros [S1 S2]. destruct (all_both _ _ _ fs IH S2). tauto.
Qed.

Lemma keyed_sorted {A B} (R : A -> B -> Prop) (m : bmap ustr A) (m' : bmap ustr B) :
  Forall2 (fun a b => fst b = fst a /\ R (snd a) (snd b)) m m' -> sorted m -> sorted m'.
Proof.
  induction 1 as [|[k x] [k' y] m m' [E _] F IH]; [auto|]. cbn in E. subst k'. cbn. intros [L S]. split; [|auto].
  apply lt_all_In. intros k' v' I. clear - L F I. induction F as [|[k1 x1] [k2 x2] m m' [E _] F IH]; [destruct I|].
  cbn in E. subst k2. cbn in L. destruct I as [[= <- <-]|I]; [apply L|apply IH; [apply L|exact I]].
Qed.

(** The first entry of a dictionary. *)
Lemma blend_first gw k x1 r1 gy x2 r2 gx X :
  wf (VDict gw ((k, x1) :: r1)) -> wf (VDict gy ((k, x2) :: r2)) -> wf (VDict gx X) ->
  blend (VDict gw ((k, x1) :: r1)) (VDict gy ((k, x2) :: r2)) (VDict gx X) ->
  exists x3 r3, X = (k, x3) :: r3 /\ blend x1 x2 x3.
Proof.
  intros Ww WY WX B. assert (B' := B). inversion B as [|? ? E|? ? ? ? ? ? SX H1 H2 H3 H4]; subst.
  - exists x2, r2. split; [reflexivity|constructor].
  - exists x1, r1. split; [reflexivity|constructor].
  - destruct (H2 k x2) as [x3 G3]; [cbn; rewrite cmp_refl; reflexivity|].
    destruct (get_In _ _ _ G3) as (k3 & E3 & I3). apply cmp_leibniz in E3. subst k3.
    destruct X as [|[k0 x0] r0]; [destruct I3|].
    assert (k0 = k).
    { destruct (blend_key _ _ _ _ _ _ k0 x0 WX B' (or_introl eq_refl)) as [[z J]|[z J]].
      - destruct J as [J|J]; [congruence|]. destruct I3 as [I3|I3]; [congruence|].
        apply dict_sorted in Ww. cbn in Ww. destruct Ww as [L _]. cbn in SX. destruct SX as [L' _].
        assert (C1 := proj1 (lt_all_In _ _) L _ _ J). assert (C2 := proj1 (lt_all_In _ _) L' _ _ I3).
        rewrite cmp_sym, C2 in C1. discriminate C1.
      - destruct J as [J|J]; [congruence|]. destruct I3 as [I3|I3]; [congruence|].
        apply dict_sorted in WY. cbn in WY. destruct WY as [L _]. cbn in SX. destruct SX as [L' _].
        assert (C1 := proj1 (lt_all_In _ _) L _ _ J). assert (C2 := proj1 (lt_all_In _ _) L' _ _ I3).
        rewrite cmp_sym, C2 in C1. discriminate C1. }
    subst k0. exists x0, r0. split; [reflexivity|]. apply (H4 k); cbn; rewrite cmp_refl; reflexivity.
Qed.

Lemma variant_one {A} (vs : list (ustr * shape A)) n s s' : NoDup (map fst vs) -> variant vs n s -> variant vs n s' -> s = s'.
Proof.
  unfold variant. induction vs as [|[k z] vs IH]; cbn; intros N I J; [destruct I|]. inversion N as [|? ? N1 N2]; subst.
  destruct I as [I|I], J as [J|J]; try congruence; [| |auto].
  - injection I as -> ->. destruct N1. apply (in_map fst) in J. exact J.
  - injection J as -> ->. destruct N1. apply (in_map fst) in I. exact I.
Qed.

Lemma blend_extracts i t : storable t -> forall w Y X y, wf w -> wf Y -> wf X -> blend w Y X ->
  extracts i t w y -> extracts i t Y y -> extracts i t X y.
Proof.
  induction t as [|k| | | | | |t IH|t IH|ts IH|t IH|k t IHk IH|n id dn fs IH|id t IH|id ts IH|id|id vs IH| | | | | | |a b IHa IHb]
    using ty_ind'; intros St w Y X y Ww WY WX B Ew EY; try (destruct St; fail);
    (inversion B as [|? ? E|gw w0 gy Y0 gx X0 SX H1 H2 H3 H4]; [subst; exact EY|subst; exact Ew|subst w Y X]);
    cbn [extracts] in Ew, EY |- *.
  - destruct Ew as (b & S & _). inversion S; subst. match goal with H : boolish _ _ |- _ => inversion H end.
  - destruct Ew as (j & z & S & _). inversion S.
  - destruct Ew as (j & z & S & _). inversion S.
  - destruct Ew as (j & z & S & _). inversion S.
  - destruct Ew as (c & S & _). inversion S.
  - destruct Ew as (c & S & _). inversion S.
  - destruct Ew as ((g & S) & _). discriminate S.
  - right. destruct Ew as [[(g & e & E) _]|[_ (x & Ex & ->)]]; [discriminate E|].
    destruct EY as [[(g & e & E) _]|[_ (x' & Ex' & [= <-])]]; [discriminate E|]. split; [intros (g & e & E); discriminate E|].
    exists x. split; [|reflexivity]. exact (IH St _ _ _ _ Ww WY WX B Ex Ex').
  - destruct Ew as (g & l & ys & E & _). discriminate E.
  - destruct Ew as (g & l & ys & E & _). discriminate E.
  - destruct Ew as (g & d & ys & [= <- <-] & Fw & ->). destruct EY as (g' & d' & ys' & [= <- <-] & FY & [= <-]).
    exists gx, X0, ys. split; [reflexivity|]. split; [|reflexivity].
    assert (Sy : sorted ys). { eapply keyed_sorted; [exact FY|exact (dict_sorted _ _ WY)]. }
    apply keyed_intro; [exact SX|exact Sy|]. intros k.
    assert (Kw := keyed_entries _ _ _ k Fw). assert (KY := keyed_entries _ _ _ k FY).
    destruct (get k X0) as [x|] eqn:Ex.
    + destruct (get k Y0) as [v|] eqn:Ey; destruct (get k ys) as [y0|] eqn:Eys; try contradiction.
      * destruct (get k w0) as [u|] eqn:Eu; [|contradiction].
        eapply (IH St u v x); [| | |exact (H4 k x v u Ex Ey Eu)|exact Kw|exact KY];
          [exact (entry_wf _ _ _ _ Ww Eu)|exact (entry_wf _ _ _ _ WY Ey)|exact (entry_wf _ _ _ _ WX Ex)].
      * rewrite (H1 k x Ex Ey) in Kw. exact Kw.
    + destruct (get k Y0) as [v|] eqn:Ey; [destruct (H2 k v Ey); congruence|]. destruct (get k ys); [contradiction|exact I].
  - destruct St as (_ & Nf & St).
    destruct Ew as [(g & d & ys & [= <- <-] & Dw & Fw & ->)|(g & l & ys & E & _)]; [|discriminate E].
    destruct EY as [(g' & d' & ys' & [= <- <-] & DY & FY & [= <-])|(g' & l & ys' & E & _)]; [|discriminate E].
    left. exists gx, X0, ys. split; [reflexivity|]. split.
    + intros D k x J. destruct (blend_key _ _ _ _ _ _ k x WX B J) as [[z Z]|[z Z]]; eauto.
    + split; [|reflexivity]. eapply (by_name_blend (extracts i) fs); [exact Ww|exact WY|exact WX| |exact B|exact Fw|exact FY].
      rewrite all_Forall in St. rewrite Forall_forall in *. intros f J u v x y' Wu Wv Wx Bl. intros E1 E2. exact (IH f J (St f J) u v x y' Wu Wv Wx Bl E1 E2).
  - destruct Ew as (x & Ex & ->). destruct EY as (x' & Ex' & [= <-]). exists x. split; [|reflexivity]. exact (IH St _ _ _ _ Ww WY WX B Ex Ex').
  - destruct Ew as (g & l & ys & E & _). discriminate E.
  - destruct Ew as ((g & S) & _). discriminate S.
  - destruct St as (Nv & St).
    match goal with |- (exists g s, _ /\ variant ?sh s ShUnit /\ _) \/ _ => set (shapes := sh) in * end.
    assert (Ns : NoDup (map fst shapes)) by (unfold shapes; rewrite map_map; exact Nv).
    destruct Ew as [(g & s & E & _)|[(g & m & z & s & E & _)|(g & k & x1 & r1 & s & p & [= <- ->] & V1 & P1 & ->)]]; [discriminate E|discriminate E|].
    destruct EY as [(g' & s' & E & _)|[(g' & m & z & s' & E & _)|(g' & k' & x2 & r2 & s' & p' & [= <- ->] & V2 & P2 & [= <- <-])]];
      [discriminate E|discriminate E|].
    assert (s' = s) by (eapply variant_one; eauto). subst s'.
    destruct (blend_first _ _ _ _ _ _ _ _ _ Ww WY WX B) as (x3 & r3 & -> & Bx).
    right. right. exists gx, k, x3, r3, s, p. split; [reflexivity|]. split; [exact V1|]. split; [|reflexivity].
    assert (W1 : wf x1) by (apply wf_VDict in Ww; destruct Ww as [_ F]; inversion F; assumption).
    assert (W2 : wf x2) by (apply wf_VDict in WY; destruct WY as [_ F]; inversion F; assumption).
    assert (W3 : wf x3) by (apply wf_VDict in WX; destruct WX as [_ F]; inversion F; assumption).
    unfold variant, shapes in V1. apply in_map_iff in V1. destruct V1 as ([k0 s0] & E0 & J). cbn in E0. injection E0 as -> E0.
    rewrite Forall_forall in IH. assert (IHs := IH _ J). rewrite all_Forall, Forall_forall in St. assert (Ss := St _ J). cbn [snd] in IHs, Ss.
    destruct s0 as [|t0|ts0|fs0]; subst s.
    + inversion P1; subst; try discriminate. inversion P2; subst; try discriminate. inversion Bx; subst; assumption.
    + inversion P1 as [|? ? ? Es P| | |]; subst; try discriminate. injection Es as <- <-.
      inversion P2 as [|? ? ? Es' P'| | |]; subst; try discriminate. injection Es' as <- <-.
      eapply pl_new; [reflexivity|]. exact (IHs Ss _ _ _ _ W1 W2 W3 Bx P P').
    + inversion P1; subst; try discriminate. inversion P2; subst; try discriminate. inversion Bx; subst; assumption.
    + inversion Bx as [|? ? E|gw2 w2 gy2 Y2 gx2 X2 SX2 J1 J2 J3 J4]; subst; [exact P2|exact P1|].
      inversion P1 as [| | |fs1 t1 d1 ys1 Es Ed P|]; subst; try discriminate. injection Es as <-. injection Ed as <- <-.
      inversion P2 as [| | |fs2 t2 d2 ys2 Es2 Ed2 P'|]; subst; try discriminate. injection Es2 as <-. injection Ed2 as <- <-.
      eapply pl_fields; [reflexivity|reflexivity|].
      eapply (by_name_blend (extracts i) fs0); [exact W1|exact W2|exact W3| |exact Bx|exact P|exact P'].
      destruct Ss as [_ Ss]. rewrite all_Forall in Ss. cbn [DeProofs.shape_all] in IHs. rewrite Forall_forall in *. intros f Jf u v x y' Wu Wv Wx Bl. intros E1 E2. exact (IHs f Jf (Ss f Jf) u v x y' Wu Wv Wx Bl E1 E2).
  - destruct Ew as (c & n & z & S & _). discriminate S.
  - destruct Ew as (c & S & _). inversion S.
  - destruct Ew as (c & S & _). inversion S.
  - exact EY.
  - destruct Ew as (b & S & _). inversion S.
Qed.
