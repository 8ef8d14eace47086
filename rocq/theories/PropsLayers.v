(** C71: defaults hold unless overridden. *)
From Coq Require Import Ascii String ZArith NArith Bool Lia.
From Coq Require Import List.
From Verif Require Import Res BMap Str Profile Tag Num Value Metadata Err Coalesce Figment De Ser.
From Verif Require Import BMapProofs StrProofs ValueProofs CoalesceProofs FigmentProofs DeProofs SerProofs ProfileProofs ProvProofs.
From Verif Require Import SpecLookup SpecValue SpecFigment SpecLossy SpecDe SpecExtract SpecRt SpecLayers.
From Verif Require Import BlindProofs OrderProofs LayersProofs PropsRt.
Import ListNotations.

(** A serialized value is written out field by field. *)
Theorem C71_serialized : forall i t x, restorable t -> inhabits t x ->
  exists v, serialize x = Ok v /\ shaped i t v x.
Proof. intros i t x R H. exact (serialized_shaped i t R x H). Qed.
Print Assumptions C71_serialized.

(** Merging changes exactly what the new value mentions; the rest of the old Rust value stays. *)
Theorem C71_merge : forall i t u x v y, wf u -> wf v -> shaped i t u x -> patched i t x v y ->
  shaped i t (vcoalesce Merge u v) y /\ extracts i t (vcoalesce Merge u v) y.
Proof.
  intros i t u x v y Wu Wv HS HP. assert (H := patched_shaped i t u x v y HS HP Wu Wv).
  split; [exact H|now apply shaped_extracts].
Qed.
Print Assumptions C71_merge.

(** A Figment reads its default layer, changed by the selected layer, changed by the global. *)
Theorem C71_layers : forall i t f m x y z, f_value f = Ok m -> wf_profiles m -> ordinary t -> named_apart t ->
  shaped i t (VDict tag_default (default_layer m)) x ->
  patched i t x (VDict tag_default (selected_layer (f_profile f) m)) y ->
  patched i t y (VDict tag_default (global_layer m)) z ->
  extract i f t = Ok z.
Proof. exact patched_extract. Qed.
Print Assumptions C71_layers.

(** The documented way to build a configuration: start from [Serialized::defaults(x)], then
    merge what overrides it. *)
Theorem C71_config : forall i t x y0 y1 y2 name loc loc' l ds c f c' m,
  restorable t -> inhabits t x -> overrides l ds ->
  run (OpProvide loc Merge (serialized_provider name (sz_defaults x loc')) :: l) fig_new c = (Ret f, c') ->
  f_value f = Ok m ->
  patched_by i t x ds y0 ->
  patched i t y0 (VDict tag_default (selected_layer (f_profile f) m)) y1 ->
  patched i t y1 (VDict tag_default (global_layer m)) y2 ->
  extract i f t = Ok y2.
Proof.
  intros i t x y0 y1 y2 name loc loc' l ds c f c' m R H HO HR Hf H0 H1 H2.
  cbn [run run_op] in HR.
  destruct (provide loc fig_new (serialized_provider name (sz_defaults x loc')) Merge c) as [[f1| |] c1] eqn:E;
    try discriminate.
  destruct (serialized_shaped i t R x H) as (v & Hs & HS).
  assert (W0 : wf_profiles []) by (split; [exact I|constructor]).
  destruct (serialized_provide _ _ _ _ _ fig_new [] _ _ _ v Hs eq_refl W0 E) as [(t0 & d & m1 & -> & Wd & Hf1 & Wm1 & HU)|[_ [e He]]].
  - assert (S1 : shaped i t (VDict tag_default (default_layer m1)) x).
    { eapply shaped_ut; [|exact HS]. apply ut_sym, utc_ut. constructor. specialize (HU p_default).
      rewrite dcoalesce_nil_l in HU by apply Wd. exact HU. }
    destruct (overrides_shaped i t l ds HO f1 m1 c1 f c' x y0 Hf1 Wm1 S1 H0 HR) as (m2 & Hf2 & Wm2 & S2).
    rewrite Hf in Hf2. injection Hf2 as <-.
    destruct (restorable_ordinary t R) as [O N]. eapply patched_extract; eauto.
  - exfalso. clear -HO He HR Hf.
    assert (X : forall l ds, overrides l ds -> forall f1 c1 e, f_value f1 = Err e -> run l f1 c1 = (Ret f, c') -> exists e, f_value f = Err e).
    { clear. induction 1 as [|loc p n l ds HD Wn HO IH|q l ds HO IH]; intros f1 c1 e He HR.
      - injection HR as <- <-. eauto.
      - cbn [run run_op] in HR. destruct (provide loc f1 p Merge c1) as [[f2| |] c2] eqn:E; try discriminate.
        apply provide_ret in E. destruct E as (_ & _ & ->). eapply IH; [|exact HR]. rewrite HD, He. reflexivity.
      - cbn [run run_op] in HR. eapply IH; [|exact HR]. exact He. }
    destruct (X l ds HO f1 c1 e He HR) as [e' He']. congruence.
Qed.
Print Assumptions C71_config.

(** What no layer mentions keeps its default. *)
Theorem C71_untouched : forall i t g u x, shaped i t u x -> (exists n id dn fs, t = TStruct n id dn fs) ->
  patched i t x (VDict g []) x.
Proof. exact kept_by_nothing. Qed.
Print Assumptions C71_untouched.

(** A whole value [y] given for a profile that is in play replaces the default [x]; given for
    another profile it changes nothing. *)
Theorem C71_replace : forall i n id dn fs x y q s name loc l1 l2 c f c',
  let t := TStruct n id dn fs in
  restorable t -> replaceable t -> inhabits t x -> inhabits t y ->
  run [OpProvide loc Merge (serialized_provider name (sz_defaults x l1));
       OpProvide loc Merge (serialized_provider name (sz_from y q l2))] fig_new c = (Ret f, c') ->
  (in_play (fig_select f s) q -> extract i (fig_select f s) t = Ok y) /\
  (~ in_play (fig_select f s) q -> extract i (fig_select f s) t = Ok x).
Proof.
  intros i n id dn fs x y q s name loc l1 l2 c f c' t R P HX HY HR.
  cbn [run run_op] in HR.
  destruct (provide loc fig_new (serialized_provider name (sz_defaults x l1)) Merge c) as [[f1| |] c1] eqn:E1;
    try discriminate.
  destruct (provide loc f1 (serialized_provider name (sz_from y q l2)) Merge c1) as [[f2| |] c2] eqn:E2;
    try discriminate.
  injection HR as <- <-.
  destruct (serialized_shaped i t R x HX) as (vx & Hsx & HSx).
  destruct (serialized_shaped i t R y HY) as (vy & Hsy & HSy).
  assert (PY := replaced i t P R x y vy HX HY Hsy).
  assert (DX : exists tx dx, vx = VDict tx dx) by (destruct HSx as (g & d & _ & -> & _); eauto).
  assert (DY : exists tx dx, vy = VDict tx dx) by (destruct HSy as (g & d & _ & -> & _); eauto).
  assert (W0 : wf_profiles []) by (split; [exact I|constructor]).
  destruct (serialized_provide _ _ _ _ _ fig_new [] _ _ _ vx Hsx eq_refl W0 E1)
    as [(t1 & dx & m1 & -> & Wx & Hf1 & Wm1 & HU1)|[X _]]; [|exfalso; destruct DX as (? & ? & DX); eapply X; eauto].
  destruct (serialized_provide _ _ _ _ _ f1 m1 _ _ _ vy Hsy Hf1 Wm1 E2)
    as [(t2 & dy & m2 & -> & Wy & Hf2 & Wm2 & HU2)|[X _]]; [|exfalso; destruct DY as (? & ? & DY); eapply X; eauto].
  clear DX DY.
  destruct (restorable_ordinary t R) as [O N].
  assert (TS : exists n id dn fs, t = TStruct n id dn fs) by (unfold t; eauto).
  assert (SX : forall d, dut d dx -> shaped i t (VDict tag_default d) x).
  { intros d U. eapply shaped_ut; [|exact HSx]. apply ut_sym, utc_ut. now constructor. }
  assert (PYd : forall d, dut d dy -> patched i t x (VDict tag_default d) y).
  { intros d U. eapply patched_ut; [|exact PY]. apply ut_sym, utc_ut. now constructor. }
  assert (KX : patched i t x (VDict tag_default []) x) by (eapply kept_by_nothing; eauto).
  assert (KY : patched i t y (VDict tag_default []) y) by (eapply kept_by_nothing; eauto).
  assert (D1 : forall r, (same_profile r p_default -> dut (data_of m1 r) dx) /\
                         (~ same_profile r p_default -> data_of m1 r = [])).
  { intros r. specialize (HU1 r). destruct (data_single p_default dx r) as [S1 S2]. split; intros H.
    - rewrite S1, dcoalesce_nil_l in HU1 by (exact H || apply Wx). exact HU1.
    - rewrite S2 in HU1 by exact H. inversion HU1. reflexivity. }
  assert (NDG : ~ same_profile p_global p_default) by (intros H; vm_compute in H; discriminate).
  assert (CU : is_custom s = true -> ~ same_profile s p_default /\ ~ same_profile s p_global).
  { intros HC. split; intros H; rewrite (same_profile_custom _ _ H) in HC; discriminate. }
  assert (SYM : forall a b, same_profile a b -> same_profile b a) by (unfold same_profile; congruence).
  assert (TRN : forall a b c, same_profile a b -> same_profile b c -> same_profile a c) by (unfold same_profile; congruence).
  (* what each layer is *)
  assert (L0 : forall r, ~ same_profile r q -> dut (data_of m2 r) (data_of m1 r)).
  { intros r H. specialize (HU2 r). destruct (data_single q dy r) as [_ S2]. rewrite S2 in HU2 by exact H.
    rewrite dcoalesce_nil_r in HU2 by apply (data_of_wf m1 r Wm1). exact HU2. }
  assert (L1 : forall r, same_profile r q -> ~ same_profile r p_default -> dut (data_of m2 r) dy).
  { intros r H H'. specialize (HU2 r). destruct (data_single q dy r) as [S1 _]. rewrite S1 in HU2 by exact H.
    rewrite (proj2 (D1 r) H') in HU2. rewrite dcoalesce_nil_l in HU2 by apply Wy. exact HU2. }
  assert (L2 : forall r, ~ same_profile r q -> ~ same_profile r p_default -> data_of m2 r = []).
  { intros r H H'. specialize (L0 r H). rewrite (proj2 (D1 r) H') in L0. inversion L0. reflexivity. }
  assert (LD : ~ same_profile p_default q -> shaped i t (VDict tag_default (default_layer m2)) x).
  { intros H. specialize (L0 p_default H). apply SX. eapply dut_trans; [exact L0|]. now apply D1. }
  split.
  - intros HQ.
    assert (CQ : same_profile p_default q \/
                 (~ same_profile p_default q /\ same_profile p_global q) \/
                 (~ same_profile p_default q /\ ~ same_profile p_global q /\ same_profile s q)).
    { unfold in_play in HQ. cbn [fig_select f_profile] in HQ. unfold same_profile in *.
      destruct (list_eq_dec N.eq_dec (lower (pname p_default)) (lower (pname q)));
        destruct (list_eq_dec N.eq_dec (lower (pname p_global)) (lower (pname q))); intuition congruence. }
    destruct CQ as [H1|[[H1 H2]|(H1 & H2 & H3)]].
    + eapply (patched_extract i t (fig_select f2 s) m2 y y y); auto.
      * specialize (HU2 p_default). destruct (data_single q dy p_default) as [S1 _]. rewrite S1 in HU2 by exact H1.
        eapply shaped_ut; [apply ut_sym, utc_ut; constructor; exact HU2|].
        exact (patched_shaped i t (VDict tag_default (data_of m1 p_default)) x (VDict tag_default dy) y
                 (SX _ (proj1 (D1 p_default) eq_refl)) (PYd _ (dut_refl _))
                 (proj2 (wf_VDict _ _) (data_of_wf m1 p_default Wm1)) (proj2 (wf_VDict _ _) Wy)).
      * unfold selected_layer. cbn [fig_select f_profile]. destruct (is_custom s) eqn:EC; [|exact KY].
        destruct (CU eq_refl) as [C1 C2]. rewrite (L2 s); [exact KY| |exact C1].
        intros H. apply C1. eapply TRN; [exact H|]. now apply SYM.
      * unfold global_layer. rewrite (L2 p_global); [exact KY| |exact NDG].
        intros H. apply NDG. eapply TRN; [exact H|]. now apply SYM.
    + eapply (patched_extract i t (fig_select f2 s) m2 x x y); auto.
      * unfold selected_layer. cbn [fig_select f_profile]. destruct (is_custom s) eqn:EC; [|exact KX].
        destruct (CU eq_refl) as [C1 C2]. rewrite (L2 s); [exact KX| |exact C1].
        intros H. apply C2. eapply TRN; [exact H|]. now apply SYM.
      * apply PYd. apply L1; assumption.
    + assert (C1 : is_custom s = true).
      { assert (X1 : ~ same_profile s p_default) by (intros H; apply H1; eapply TRN; [apply SYM; exact H|exact H3]).
        assert (X2 : ~ same_profile s p_global) by (intros H; apply H2; eapply TRN; [apply SYM; exact H|exact H3]).
        unfold is_custom. apply andb_true_intro. split; apply negb_true_iff.
        - destruct (profile_eqb s p_default) eqn:X; auto. exfalso. apply X1. now apply profile_eqb_eq.
        - destruct (profile_eqb s p_global) eqn:X; auto. exfalso. apply X2. now apply profile_eqb_eq. }
      destruct (CU C1) as [C2 C3].
      eapply (patched_extract i t (fig_select f2 s) m2 x y y); auto.
      * unfold selected_layer. cbn [fig_select f_profile]. rewrite C1. apply PYd. apply L1; assumption.
      * unfold global_layer. rewrite (L2 p_global); assumption.
  - intros HQ. unfold in_play in HQ. cbn [fig_select f_profile] in HQ.
    eapply (patched_extract i t (fig_select f2 s) m2 x x x); auto.
    + apply LD. intros H. apply HQ. left. now apply SYM.
    + unfold selected_layer. cbn [fig_select f_profile]. destruct (is_custom s) eqn:EC; [|exact KX].
      destruct (CU eq_refl) as [C1 C2]. rewrite (L2 s); [exact KX| |exact C1].
      intros H. apply HQ. right. right. now apply SYM.
    + unfold global_layer. rewrite (L2 p_global); [exact KX| |exact NDG].
      intros H. apply HQ. right. left. now apply SYM.
Qed.
Print Assumptions C71_replace.

(** ** Where overriding goes wrong *)

(** A whole value for an enum with data does not replace the default: both variants end up in
    one dictionary, and the alphabetically first is read. *)
Definition ly_loc : location := mkLoc (lit "src/main.rs") 1 1.
Definition ly_mode : ty := TEnum (lit "Mode") [(lit "Level", ShNew (TInt U8)); (lit "Pos", ShNew (TInt U8))].
Definition ly_app : ty := TStruct (lit "App") (lit "App") false [(lit "mode", ly_mode)].
Definition ly_level (n : Z) : dval := EVStruct [(lit "mode", EVVariant (lit "Level") (ShNew (EVInt U8 n)))].
Definition ly_pos (n : Z) : dval := EVStruct [(lit "mode", EVVariant (lit "Pos") (ShNew (EVInt U8 n)))].
Definition ly_over (x y : dval) : list op :=
  [OpProvide ly_loc Merge (serialized_provider (lit "App") (sz_defaults x ly_loc));
   OpProvide ly_loc Merge (serialized_provider (lit "App") (sz_defaults y ly_loc))].
Lemma ly_app_inhabits n : (0 <= n < 256)%Z -> inhabits ly_app (ly_level n) /\ inhabits ly_app (ly_pos n).
Proof.
  intros H. split; repeat constructor; cbn.
  - eapply ih_new_variant; [now left|]. constructor. cbn. lia.
  - eapply ih_new_variant; [right; now left|]. constructor. cbn. lia.
Qed.
Theorem C71_enum_refuted : exists t x y f c', restorable t /\ inhabits t x /\ inhabits t y /\
  run (ly_over x y) fig_new 1 = (Ret f, c') /\ extract Exact f t = Ok x /\ x <> y.
Proof.
  exists ly_app, (ly_level 3), (ly_pos 7). do 2 eexists.
  split; [|split; [apply ly_app_inhabits; lia|split; [apply ly_app_inhabits; lia|]]].
  - cbn. split; [intros [H|[H|[H|[]]]]; discriminate|]. split; [repeat constructor; cbn; tauto|].
    split; [split; [|cbn; tauto]|exact I]. repeat constructor; cbn; intuition discriminate.
  - split; [reflexivity|]. split; [reflexivity|discriminate].
Qed.
Print Assumptions C71_enum_refuted.

(** A map is never replaced: the keys of the default stay. *)
Definition ly_limits : ty := TStruct (lit "App") (lit "App") false [(lit "limits", TMap (TInt U8))].
Definition ly_limit (l : list (ustr * dval)) : dval := EVStruct [(lit "limits", EVMap l)].
Theorem C71_map_refuted : exists t x y f c', restorable t /\ inhabits t x /\ inhabits t y /\
  run (ly_over x y) fig_new 1 = (Ret f, c') /\ (exists z, extract Exact f t = Ok z /\ z <> y).
Proof.
  exists ly_limits, (ly_limit [(lit "a", EVInt U8 1)]), (ly_limit []). do 2 eexists.
  split; [|split; [|split]].
  - cbn. split; [intros [H|[H|[H|[]]]]; discriminate|]. split; [repeat constructor; cbn; tauto|tauto].
  - repeat constructor; cbn; lia.
  - repeat constructor.
  - split; [reflexivity|]. eexists. split; [reflexivity|discriminate].
Qed.
Print Assumptions C71_map_refuted.

(** ** Examples *)
Definition ly_tls : ty := TStruct (lit "Tls") (lit "Tls") false [(lit "cert", TString); (lit "key", TString)].
Definition ly_config : ty :=
  TStruct (lit "Config") (lit "Config") true
    [(lit "address", TString); (lit "port", TInt U16); (lit "tls", TOption ly_tls)].
Definition ly_x (port : Z) (key : string) : dval :=
  EVStruct [(lit "address", EVStr (lit "localhost")); (lit "port", EVInt U16 port);
            (lit "tls", EVSome (EVStruct [(lit "cert", EVStr (lit "c.pem")); (lit "key", EVStr (lit key))]))].
Lemma ly_config_restorable : restorable ly_config.
Proof.
  cbn. repeat match goal with |- _ /\ _ => split end; try tauto;
    try (intros [H|[H|[H|[]]]]; discriminate); repeat constructor; cbn; intuition discriminate.
Qed.
Lemma ly_x_inhabits p k : (0 <= p < 65536)%Z -> inhabits ly_config (ly_x p k).
Proof. intros H. repeat constructor; cbn; lia. Qed.
Definition ly_provider (m : bmap profile dict) : provider :=
  mkProvider (md_named (lit "layer")) (Ok m) None None.
Definition ly_file : bmap profile dict :=
  [(p_default, [(lit "port", VNum tag_default (NInt U64 9000))]);
   (p_global, [(lit "tls", VDict tag_default [(lit "key", VString tag_default (lit "g.pem"))])])].
Definition ly_ops : list op :=
  [OpProvide ly_loc Merge (serialized_provider (lit "Config") (sz_defaults (ly_x 8000 "k.pem") ly_loc));
   OpProvide ly_loc Merge (ly_provider ly_file); OpSelect (mkProfile (lit "debug"))].
Example C71_ex : exists f c', run ly_ops fig_new 1 = (Ret f, c') /\
  patched_by Exact ly_config (ly_x 8000 "k.pem") [data_of ly_file p_default] (ly_x 9000 "k.pem") /\
  patched Exact ly_config (ly_x 9000 "k.pem") (VDict tag_default (data_of ly_file p_global)) (ly_x 9000 "g.pem") /\
  extract Exact f ly_config = Ok (ly_x 9000 "g.pem").
Proof.
  do 2 eexists. split; [reflexivity|]. split; [|split; [|reflexivity]].
  - econstructor; [|constructor]. cbn [ly_config patched]. do 4 eexists. split; [reflexivity|].
    split; [intros _ k w [H|[]]; injection H as <- <-; right; now left|]. split; [|split; reflexivity].
    split; [reflexivity|]. split; [reflexivity|]. split; [reflexivity|].
    split; [reflexivity|]. split; [reflexivity|]. split; [|repeat split].
    split; [discriminate|]. exists U64, 9000%Z. split; [constructor|]. repeat split; cbn; lia.
  - cbn [ly_config patched]. do 4 eexists. split; [reflexivity|].
    split; [intros _ k w [H|[]]; injection H as <- <-; right; right; now left|]. split; [|split; reflexivity].
    split; [reflexivity|]. split; [reflexivity|]. split; [reflexivity|].
    split; [reflexivity|]. split; [reflexivity|]. split; [reflexivity|].
    split; [reflexivity|]. split; [reflexivity|]. split; [|exact I].
    right. right. split; [intros (g & e & H); discriminate|]. do 2 eexists. split; [reflexivity|]. split; [|reflexivity].
    cbn [ly_tls patched]. do 4 eexists. split; [reflexivity|].
    split; [discriminate|]. split; [|split; reflexivity]. repeat split; try discriminate.
    eexists. split; [constructor|reflexivity].
Qed.
Example C71_replace_ex :
  restorable ly_config /\ replaceable ly_config /\
  inhabits ly_config (ly_x 8000 "a") /\ inhabits ly_config (ly_x 1 "b") /\
  exists f c', run (ly_over (ly_x 8000 "a") (ly_x 1 "b")) fig_new 1 = (Ret f, c').
Proof.
  split; [exact ly_config_restorable|]. split; [cbn; tauto|]. split; [apply ly_x_inhabits; lia|].
  split; [apply ly_x_inhabits; lia|]. do 2 eexists. reflexivity.
Qed.
