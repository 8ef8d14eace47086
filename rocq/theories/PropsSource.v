(** C96: whose value a nested setting is, and whose fault it is if it is wrong. *)
From Coq Require Import Ascii String ZArith NArith Bool Lia.
From Coq Require Import List.
From Verif Require Import Res BMap BMapProofs Str StrProofs Profile Tag Num Value Metadata Err Coalesce Figment De.
From Verif Require Import SpecValue SpecLookup SpecFigment SpecRt SpecDe SpecExtract SpecView SpecSource.
From Verif Require Import ValueProofs FigmentProofs LookupProofs ExtractProofs ViewProofs SourceProofs PropsView.
From Verif Require PropsFigment PropsSettings.
Import ListNotations.

(** Providers merged in any number and of any shape: the value at a path is the one the deciding
    provider has there, and [find_metadata] names that provider and the place where it was merged. *)
Theorem C96_source : forall l c f c' ks q loc pr x,
  run l fig_new c = (Ret f, c') -> sound_ops l -> failures l = [] -> merge_only l -> plain_ops l ->
  ks <> [] -> Forall plain_key ks -> decides (f_profile f) l ks q loc pr x ->
  (exists w, find_value f (join [dot] ks) = Ok w /\ untag w = x) /\
  find_metadata f (join [dot] ks) = Some (md_with_location (pv_metadata pr) loc).
Proof.
  intros l c f c' ks q loc pr x HR HS HF HM HP NE K D.
  destruct (decided_merged l c f c' ks q loc pr x HR HS HF HM HP NE D) as (v & w & id & LE & E & W & A & U & T & M).
  assert (F : find_value f (join [dot] ks) = Ok w).
  { apply (find_value_spec f _ ks); [split; auto|]. eauto. }
  split; [eauto|]. unfold find_metadata. rewrite F. apply M. exact (T [] w (R_here w)).
Qed.
Print Assumptions C96_source.

(** If the setting cannot be extracted, the error is attributed to that provider, wherever in the
    value it is. *)
Theorem C96_fault : forall i l c f c' ks q loc pr x t e,
  run l fig_new c = (Ret f, c') -> sound_ops l -> failures l = [] -> merge_only l -> plain_ops l ->
  ks <> [] -> Forall plain_key ks -> ordinary t -> decides (f_profile f) l ks q loc pr x ->
  extract_inner i f t (join [dot] ks) = Err e ->
  e_metadata e = Some (md_with_location (pv_metadata pr) loc).
Proof.
  intros i l c f c' ks q loc pr x t e HR HS HF HM HP NE K O D X.
  destruct (decided_merged l c f c' ks q loc pr x HR HS HF HM HP NE D) as (v & w & id & LE & E & W & A & U & T & M).
  destruct (extract_inner_path i f t ks v w e E W O K A X) as (e0 & P & ->). cbn [e_metadata].
  rewrite (pp_metadata _ _ _ _ P). apply M. apply (pinpoints_tag i f w e0 id); auto. eapply at_path_wf; eassumption.
Qed.
Print Assumptions C96_fault.

(** The same for an error of extracting everything: if its path starts with that of the setting, or
    is that of the setting, it is attributed to the provider of the setting. *)
Theorem C96_whole : forall i l c f c' ks q loc pr x t e,
  run l fig_new c = (Ret f, c') -> sound_ops l -> failures l = [] -> merge_only l -> plain_ops l ->
  ks <> [] -> ordinary t -> (0 < c)%N -> decides (f_profile f) l ks q loc pr x ->
  extract i f t = Err e -> prefix_of ks (e_path e) ->
  e_metadata e = Some (md_with_location (pv_metadata pr) loc).
Proof.
  intros i l c f c' ks q loc pr x t e HR HS HF HM HP NE O C0 D X (r & PE).
  destruct (decided_merged l c f c' ks q loc pr x HR HS HF HM HP NE D) as (v & w & id & LE & E & W & A & U & T & M).
  assert (P := extract_pinpoints i f v t e E W O X). rewrite (pp_metadata _ _ _ _ P). apply M.
  destruct (pp_trail _ _ _ _ P) as (vs & y & TR & _ & N & _). rewrite PE in TR.
  exact (trail_into ks r v w vs _ id W A TR N T ltac:(lia)).
Qed.
Print Assumptions C96_whole.

(** Every value that is no table has exactly such a provider. *)
Theorem C96_decided : forall l c f c' ks x,
  run l fig_new c = (Ret f, c') -> sound_ops l -> failures l = [] -> merge_only l -> Forall plain_key ks ->
  (exists q loc pr, decides (f_profile f) l ks q loc pr x) <->
  exists w, find_value f (join [dot] ks) = Ok w /\ is_dict w = false /\ untag w = x.
Proof.
  intros l c f c' ks x HR HS HF HM K.
  rewrite <- (proj1 (C72_found l c f c' (join [dot] ks) ks HR HS HF ltac:(split; auto)) x). unfold decides, held, looked_at.
  assert (LS : forall q, layer q l blank ks (Leaf x) <-> exists loc pr before after, l = before ++ OpProvide loc Merge pr :: after /\
     said q pr ks (Leaf x) /\ forall loc' o' pr', In (OpProvide loc' o' pr') after -> free (said q pr') ks).
  { intros q. rewrite (last_said q l HM ks x). split.
    - intros (b & loc & pr & a & H). eauto 6.
    - intros (loc & pr & b & a & H). eauto 6. }
  split.
  - intros (q & loc & pr & (below & above & LA & AB) & H).
    assert (L : layer q l blank ks (Leaf x)) by (apply LS; exists loc, pr; exact H). clear H.
    unfold over. destruct (is_custom (f_profile f)).
    + destruct below as [|b0 below]; cbn in LA; injection LA; intros.
      * subst q above. right. split; [apply AB; right; now left|]. right. split; [apply AB; now left|exact L].
      * destruct below as [|b1 below]; cbn in H; injection H; intros.
        -- subst q above. right. split; [apply AB; now left|]. left. exact L.
        -- destruct below as [|b2 below]; cbn in H1; injection H1; intros; [subst q; left; exact L|]. destruct below; discriminate.
    + destruct below as [|b0 below]; cbn in LA; injection LA; intros.
      * subst q above. right. split; [apply AB; now left|exact L].
      * destruct below as [|b1 below]; cbn in H; injection H; intros; [subst q; left; exact L|]. destruct below; discriminate.
  - unfold over. destruct (is_custom (f_profile f)).
    + intros [H|[F [H|[F' H]]]]; apply LS in H; destruct H as (loc & pr & H).
      * exists p_global, loc, pr. split; [|exact H]. exists [p_default; f_profile f], []. split; [reflexivity|intros q' []].
      * exists (f_profile f), loc, pr. split; [|exact H]. exists [p_default], [p_global]. split; [reflexivity|].
        intros q' [<-|[]]. exact F.
      * exists p_default, loc, pr. split; [|exact H]. exists [], [f_profile f; p_global]. split; [reflexivity|].
        intros q' [<-|[<-|[]]]; [exact F'|]. destruct F as [F1 F2]. split; [exact F1|exact F2].
    + intros [H|[F H]]; apply LS in H; destruct H as (loc & pr & H).
      * exists p_global, loc, pr. split; [|exact H]. exists [p_default], []. split; [reflexivity|intros q' []].
      * exists p_default, loc, pr. split; [|exact H]. exists [], [p_global]. split; [reflexivity|].
        intros q' [<-|[]]. exact F.
Qed.
Print Assumptions C96_decided.

(** A number where later a table is, which a third provider then only touches. *)
Definition sr_p (name : ustr) (d : dict) : provider := mkProvider (md_named name) (Ok [(p_default, d)]) None None.
Definition sr_at (n : N) : location := mkLoc (lit "main.rs") n 1.
Definition sr_2 : provider := sr_p (lit "two") [(lit "a", VDict tag_default [(lit "b", VString tag_default (lit "x"))])].
Definition sr_ops : list op :=
  [OpProvide (sr_at 1) Merge (sr_p (lit "one") [(lit "a", VNum tag_default (NInt U8 1))]);
   OpProvide (sr_at 2) Merge sr_2;
   OpProvide (sr_at 3) Merge (sr_p (lit "three") [(lit "a", VDict tag_default [(lit "c", VBool tag_default true)])])].
Definition sr_fig : figment := match fst (run sr_ops fig_new 1%N) with Ret f => f | _ => fig_new end.
Definition sr_ty : ty := TStruct (lit "C") (lit "C") false [(lit "a", TStruct (lit "A") (lit "A") false [(lit "b", TBool)])].
Example C96_ex :
  run sr_ops fig_new 1%N = (Ret sr_fig, 4%N) /\ sound_ops sr_ops /\ failures sr_ops = [] /\ merge_only sr_ops /\ plain_ops sr_ops /\
  decides (f_profile sr_fig) sr_ops [lit "a"; lit "b"] p_default (sr_at 2) sr_2 (VString tag_default (lit "x")) /\
  find_metadata sr_fig (lit "a.b") = Some (md_with_location (md_named (lit "two")) (sr_at 2)) /\
  exists e, extract Exact sr_fig sr_ty = Err e /\ e_path e = [lit "a"; lit "b"] /\
    e_metadata e = Some (md_with_location (md_named (lit "two")) (sr_at 2)).
Proof.
  assert (HR : run sr_ops fig_new 1%N = (Ret sr_fig, 4%N)) by (vm_compute; reflexivity).
  assert (HS : sound_ops sr_ops).
  { intros loc o p m I D. cbn in I. destruct I as [[= <- <- <-]|[[= <- <- <-]|[[= <- <- <-]|[]]]]; cbn in D; injection D as <-;
      vm_compute; repeat split; repeat constructor. }
  assert (HM : merge_only sr_ops) by (intros loc o p I; cbn in I; destruct I as [[= <- <- <-]|[[= <- <- <-]|[[= <- <- <-]|[]]]]; reflexivity).
  split; [exact HR|]. split; [exact HS|]. split; [reflexivity|]. split; [exact HM|]. split; [|split; [|split]].
  - unfold plain_ops, sr_ops. repeat (apply Forall_cons; [apply PropsFigment.plain_ok; [vm_compute; repeat constructor; auto|reflexivity]|]).
    constructor.
  - split.
    + exists [], [p_global]. split; [reflexivity|]. intros q' [<-|[]].
      assert (SV : same_view (layer p_global sr_ops blank) blank).
      { apply PropsSettings.layer_mute; [exact HM|]. intros loc o p m I D. cbn in I.
        destruct I as [[= <- <- <-]|[[= <- <- <-]|[[= <- <- <-]|[]]]]; cbn in D; injection D as <-; reflexivity. }
      destruct (blank_free [lit "a"; lit "b"] ltac:(discriminate)) as [B1 B2].
      split; [intros n H; exact (B1 n (proj1 (SV _ _) H))|intros r n R H; exact (B2 r n R (proj1 (SV _ _) H))].
    + exists [OpProvide (sr_at 1) Merge (sr_p (lit "one") [(lit "a", VNum tag_default (NInt U8 1))])],
        [OpProvide (sr_at 3) Merge (sr_p (lit "three") [(lit "a", VDict tag_default [(lit "c", VBool tag_default true)])])].
      split; [reflexivity|]. split; [split; reflexivity|]. intros loc o p [[= <- <- <-]|[]]. split.
      * intros [|x] H; cbn in H; [destruct H as (g & d & [=])|destruct H as [[=] _]].
      * intros r [|x] (r' & E) H; [reflexivity|]. exfalso.
        destruct r as [|k1 [|k2 [|k3 r]]]; cbn [app] in E; [|inversion E; subst k1|inversion E; subst k1 k2|discriminate E];
          destruct H as [H H']; vm_compute in H; try discriminate H; injection H as <-; discriminate H'.
  - vm_compute. reflexivity.
  - eexists. split; [vm_compute; reflexivity|]. split; vm_compute; reflexivity.
Qed.
