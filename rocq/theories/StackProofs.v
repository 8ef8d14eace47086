(** Proofs about the documented stack of sources. *)
From Coq Require Import Ascii String ZArith NArith Bool Lia.
From Coq Require Import List.
From Verif Require Import Res BMap BMapProofs Str StrProofs Profile Tag Num Value Metadata Err Coalesce Figment De Ser Parse Path Data Doc Env.
From Verif Require Import SpecLookup SpecFigment SpecDe SpecExtract SpecValue SpecRt SpecInto SpecData SpecDoc SpecEnv SpecText SpecLayers SpecStack.
From Verif Require BlameProofs.
From Verif Require Import ValueProofs CoalesceProofs FigmentProofs DeProofs SerProofs IntoProofs MeaningProofs ExtractProofs
  EnvProofs LookupProofs TextProofs DataProofs DocProofs BlindProofs LayersProofs.
Import ListNotations.

(** ** Names *)
Lemma letter_of c : lower_c c = c \/ In (c, lower_c c) letters.
Proof.
  destruct (in_dec N.eq_dec c (map fst letters)) as [I|I].
  - apply in_map_iff in I. destruct I as ([u l] & E & I). cbn in E. subst u. right.
    now rewrite (proj1 (lower_c_spec c) l I).
  - left. apply (lower_c_spec c). intros l J. apply I. apply in_map_iff. now exists (c, l).
Qed.
Lemma letter_inj u u' l : In (u, l) letters -> In (u', l) letters -> u = u'.
Proof.
  intros H H'. destruct (upper_c_spec l) as [A _]. now rewrite <- (A u H), <- (A u' H').
Qed.
Lemma lower_alike a : forall b, lower a = lower b -> alike a b.
Proof.
  induction a as [|c a IH]; intros [|d b] E; cbn in E; try discriminate; [constructor|].
  injection E as E1 E2. constructor; [|now apply IH].
  destruct (letter_of c) as [Hc|Hc], (letter_of d) as [Hd|Hd].
  - left. congruence.
  - right; right. rewrite <- E1, Hc in Hd. exact Hd.
  - right; left. rewrite E1, Hd in Hc. exact Hc.
  - left. rewrite E1 in Hc. eapply letter_inj; eauto.
Qed.

Lemma trim_ends s : clean_ends (trim s).
Proof. destruct (proj1 (trim_spec s _) eq_refl) as (w1 & w2 & _ & _ & _ & H1 & H2). split; auto. Qed.
Lemma trim_clean w1 w2 s : all_white w1 -> all_white w2 -> clean_ends s -> trim (w1 ++ s ++ w2) = s.
Proof. intros W1 W2 [H1 H2]. apply trim_spec. exists w1, w2. repeat split; auto. Qed.

Lemma white_app a b : all_white a -> all_white b -> all_white (a ++ b).
Proof. intros. apply Forall_app. auto. Qed.

Lemma dotted_single k : ~ In dot k -> dotted k <-> k <> [].
Proof.
  intros ND. split.
  - intros (ks & N & F & ->) E. destruct ks as [|a ks]; [congruence|]. inversion F as [|? ? [Na _] _]; subst.
    destruct ks; cbn in E; [congruence|]. apply app_eq_nil in E. tauto.
  - intros N. exists [k]. split; [discriminate|]. split; [constructor; [split; auto|constructor]|reflexivity].
Qed.

Lemma lower_no_dot k : ~ In dot k -> ~ In dot (lower k).
Proof.
  intros H I. apply H. unfold lower in I. apply in_map_iff in I. destruct I as (c & E & I).
  destruct (letter_of c) as [L|L]; [congruence|]. exfalso. rewrite E in L. revert L. clear.
  cbn. intros L. repeat (destruct L as [L|L]; [discriminate|]). exact L.
Qed.

Lemma named_key pre name m : no_white pre -> mapped_key (FromPrefix pre) [] (trim name) = Some m ->
  exists w1 p w2, name = w1 ++ p ++ m ++ w2 /\ all_white w1 /\ all_white w2 /\ alike p pre.
Proof.
  intros NW H. unfold mapped_key in H. cbn [fold_left start_key] in H.
  destruct (ueqb (lower (firstn (length pre) (trim name))) (lower pre)) eqn:E; [|discriminate].
  injection H as <-. apply ueqb_eq in E. apply lower_alike in E.
  destruct (proj1 (trim_spec name _) eq_refl) as (w1 & w2 & EN & W1 & W2 & _ & _).
  exists w1, (firstn (length pre) (trim name)), w2. split; [|auto].
  rewrite (app_assoc (firstn _ _)), firstn_skipn. exact EN.
Qed.

Lemma survives_names pre name s k s' : no_white pre -> ~ In dot name ->
  survives true (mapped_key (FromPrefix pre) []) (name, s) (k, s') <-> s' = s /\ names pre k name.
Proof.
  intros NW ND. split.
  - intros (_ & Es & m & Hm & D & Ek). cbn [fst snd] in *. split; [exact Es|].
    destruct (named_key pre name m NW Hm) as (w1 & p & w4 & EN & W1 & W4 & A).
    destruct (proj1 (trim_spec m _) eq_refl) as (w2 & w3 & EM & W2 & W3 & H1 & H2).
    exists w1, p, w2, (trim m), (w3 ++ w4). split; [|split; [exact W1|split; [exact W2|split; [now apply white_app|split; [exact A|]]]]].
    + rewrite EN at 1. rewrite EM at 1. now rewrite <- !app_assoc.
    + split; [|split; [apply trim_ends|now apply lowered_lower]].
      apply dotted_single; [|exact D]. intros I. apply ND. rewrite EN, EM, !in_app_iff. tauto.
  - intros [-> (w1 & p & w2 & k0 & w3 & -> & W1 & W2 & W3 & A & NK & CK & L)].
    assert (NK2 : ~ In dot k0) by (intros I; apply ND; rewrite !in_app_iff; tauto).
    apply lowered_lower in L. assert (LP := alike_lower _ _ A).
    assert (LN : length p = length pre) by (rewrite <- (lower_length p), LP; apply lower_length).
    assert (NP : no_white p).
    { clear - NW A. unfold no_white in *. induction A as [|c d p pre H F IH]; [constructor|]. inversion NW; subst. constructor; auto.
      destruct H as [->|[H|H]]; auto; intros I; cbn in H; repeat (destruct H as [[= <- <-]|H]; [cbn in I; repeat (destruct I as [I|I]; [discriminate|]); exact I|]);
        exact H. }
    split; [|split; [reflexivity|]].
    { cbn [fst]. intros E. apply app_eq_nil in E. destruct E as [_ E]. apply app_eq_nil in E. destruct E as [_ E].
      apply app_eq_nil in E. destruct E as [_ E]. apply app_eq_nil in E. tauto. }
    cbn [fst]. destruct p as [|c p].
    + exists k0. cbn [app]. rewrite (app_assoc w1), (trim_clean (w1 ++ w2) w3 k0) by auto using white_app.
      destruct pre; [|discriminate LN]. split; [reflexivity|].
      assert (T : trim k0 = k0) by (rewrite <- (trim_clean [] [] k0) at 2 by (auto; constructor); now rewrite app_nil_r).
      rewrite T. split; [now apply dotted_single|now symmetry].
    + exists (w2 ++ k0). replace (w1 ++ (c :: p) ++ w2 ++ k0 ++ w3) with (w1 ++ ((c :: p) ++ w2 ++ k0) ++ w3)
        by (now rewrite <- !app_assoc).
      rewrite trim_clean; auto.
      2:{ split.
          - cbn. intros ? ? [= <- _]. now inversion NP.
          - intros d r E. destruct (exists_last NK) as (k1 & e & EK). destruct CK as [_ CK].
            rewrite EK, !app_assoc in E. apply app_inj_tail in E. destruct E as [_ <-]. now apply (CK e k1). }
      split.
      * unfold mapped_key. cbn [fold_left start_key].
        rewrite <- LN, firstn_app, PeanoNat.Nat.sub_diag, firstn_all, app_nil_r, LP, ueqb_refl.
        now rewrite skipn_app, skipn_all, PeanoNat.Nat.sub_diag.
      * assert (T : trim (w2 ++ k0) = k0) by (rewrite <- (app_nil_r k0) at 1; apply trim_clean; auto; constructor).
        rewrite T. split; [now apply dotted_single|now symmetry].
Qed.

(** ** The last variable *)
Lemma kept_last pre n vars : no_white pre -> (forall name s, In (name, s) vars -> ~ In dot name) -> forall kept,
  selects (survives true (mapped_key (FromPrefix pre) [])) vars kept ->
  match last_of n kept with Some s => set_to pre vars n s | None => unset pre vars n end.
Proof.
  intros NW ND kept S. induction S as [|[name s] [k s'] vars kept H S IH|[name s] vars kept H S IH].
  - cbn. intros ? ? [].
  - cbn [last_of]. assert (IH' := IH (fun a b I => ND a b (or_intror I))). clear IH.
    assert (D := ND _ _ (or_introl eq_refl)).
    assert (HN := H). apply survives_names in HN; auto. destruct HN as [-> HN].
    destruct (last_of n kept) as [t|].
    + destruct IH' as (b & nm & a & -> & N & L). exists ((name, s) :: b), nm, a. auto.
    + destruct (ueqb k n) eqn:E.
      * apply ueqb_eq in E. subst k. exists [], name, vars. split; [reflexivity|]. split; [exact HN|]. exact IH'.
      * intros nm t [I|I]; [|now apply (IH' nm t)]. injection I as <- <-. intros N'.
        destruct HN as (w1 & p & w2 & k0 & w3 & EN & HN').
        assert (X : survives true (mapped_key (FromPrefix pre) []) (name, s) (n, s)) by (apply survives_names; auto).
        destruct X as (_ & _ & m' & Em' & _ & En). destruct H as (_ & _ & m & Em & _ & Ek). cbn [fst snd] in *.
        assert (m = m') by congruence. subst m'. rewrite Ek, En, ueqb_refl in E. discriminate.
  - assert (IH' := IH (fun a b I => ND a b (or_intror I))). clear IH.
    assert (NO : ~ names pre n name).
    { intros N'. apply (H (n, s)). apply survives_names; auto. apply (ND name s). now left. }
    destruct (last_of n kept) as [t|].
    + destruct IH' as (b & nm & a & -> & N & L). exists ((name, s) :: b), nm, a. auto.
    + intros nm t [I|I]; [|now apply (IH' nm t)]. injection I as <- <-. exact NO.
Qed.

Lemma set_to_fun pre vars n s s' : set_to pre vars n s -> set_to pre vars n s' -> s = s'.
Proof.
  intros (b & nm & a & -> & N & L) (b' & nm' & a' & E & N' & L').
  revert b' E. induction b as [|x b IH]; intros b' E.
  - destruct b' as [|y b']; [now injection E|]. injection E as _ E. exfalso.
    apply (L nm' s'); [rewrite E; apply in_or_app; right; now left|exact N'].
  - destruct b' as [|y b']; [|injection E as _ E; eapply IH; eauto]. injection E as _ E. exfalso.
    apply (L' nm s); [rewrite <- E; apply in_or_app; right; now left|exact N].
Qed.
Lemma set_not_unset pre vars n s : set_to pre vars n s -> unset pre vars n -> False.
Proof. intros (b & nm & a & -> & N & _) U. apply (U nm s); [apply in_or_app; right; now left|exact N]. Qed.

(** ** The value on top *)
Definition close (w v : value) : Prop := w = v \/ (is_dict w = true /\ is_dict v = true).
Lemma close_merge u v : close (vcoalesce Merge u v) v.
Proof. destruct u, v; (left; reflexivity) || (right; split; reflexivity). Qed.
Lemma close_trans a b c : close a b -> close b c -> close a c.
Proof. intros [->|[A B]] [->|[C D]]; unfold close; auto. Qed.

Lemma get_merged a b n : sorted a -> sorted b ->
  match get n b with
  | Some v => exists w, get n (dcoalesce Merge a b) = Some w /\ close w v
  | None => get n (dcoalesce Merge a b) = get n a
  end.
Proof.
  intros Sa Sb. rewrite dcoalesce_get by assumption. destruct (get n a) as [u|], (get n b) as [v|]; cbn; eauto using close_merge.
  exists v. split; [reflexivity|now left].
Qed.

Lemma undivided_dict i t : undivided t -> forall v y, is_dict v = true -> ~ extracts i t v y.
Proof.
  induction t as [|k| | | | | |t IH|t IH|ts IH|t IH|k t IHk IH|n id dn fs IH|id t IH|id ts IH|id|id vs IH| | | | | | |a b IHa IHb]
    using ty_ind'; intros U v y D; destruct v; try discriminate D; try (destruct U; fail); cbn [extracts].
  1: intros (b & H & _); inversion H as [|? ? B]; subst; inversion B.
  1: intros (j & z & H & _); inversion H.
  1,2: intros (n & x & H & _); inversion H.
  1: intros (c & H & _); inversion H.
  1: intros (s & H & _); inversion H.
  1: intros ((g & E) & _); discriminate.
  1: intros [((g & e & E) & _)|(_ & x & H & _)]; [discriminate|]; revert H; now apply IH.
  1,2: intros (g & l & ys & E & _); discriminate.
  1: intros (x & H & _); revert H; now apply IH.
  1: intros (g & l & ys & E & _); discriminate.
  1: intros ((g & E) & _); discriminate.
  all: try (intros (s & H & _); inversion H; fail).
Qed.
Lemma close_extracts i t w v y : undivided t -> close w v -> extracts i t w y <-> extracts i t v y.
Proof.
  intros U [->|[A B]]; [reflexivity|]. split; intros H; exfalso; revert H; now apply undivided_dict.
Qed.

(** ** The environment's dictionary *)
Lemma env_top items n : Forall (fun kv => dotted (fst kv) /\ ~ In dot (fst kv)) items -> forall d d',
  env_fold items d = Ret d' -> wf_dict d ->
  wf_dict d' /\
  match last_of n items with
  | Some s => exists v w, value_from_str s = Ret v /\ get n d' = Some w /\ close w v
  | None => get n d' = get n d
  end.
Proof.
  induction 1 as [|[k s] items [Dk Nk] F IH]; intros d d' E W; cbn [env_fold] in E.
  - inversion E; subst. cbn. auto.
  - cbn [fst] in Dk, Nk. destruct (value_from_str s) as [y| |] eqn:Ev; try discriminate. cbn [out_bind] in E.
    assert (EN : nest k y = VDict tag_default [(k, y)]).
    { unfold nest. assert (SO : split_on dot k = [k]) by (apply (split_join dot [k]); [discriminate|constructor; [now apply contains_In|constructor]]).
      rewrite SO. assert (K0 := proj1 (dotted_single k Nk) Dk). destruct k; [congruence|]. reflexivity. }
    rewrite EN in E. cbn [as_dict] in E.
    assert (Wn : wf_dict [(k, y)]) by (apply (wf_VDict tag_default); rewrite <- EN; unfold nest; apply wf_nest_keys; now apply (value_from_str_wf s)).
    destruct (IH _ _ E (wf_dmerge _ _ W Wn)) as [W' H]. split; [exact W'|]. cbn [last_of].
    destruct (last_of n items) as [t|]; [exact H|].
    assert (G := get_merged d [(k, y)] n (proj1 W) (proj1 Wn)). rewrite get_single in G.
    unfold dmerge in H. rewrite H.
    destruct (ueqb n k) eqn:E1.
    + apply ueqb_eq in E1. subst. rewrite ueqb_refl. destruct G as (w & G1 & G2). eauto 6.
    + destruct (ueqb k n) eqn:E2; [apply ueqb_eq in E2; subst; rewrite ueqb_refl in E1; discriminate|]. exact G.
Qed.

(** ** The defaults *)
Lemma defaults_at fs : NoDup (map fst fs) -> forall xs vs,
  Forall2 (fun (f : ustr * ty) (y : ustr * dval) => fst f = fst y /\ inhabits (snd f) (snd y)) fs xs ->
  all_ok (map (fun kv => named (fst kv, serialize (snd kv))) xs) = Ok vs ->
  Forall2 (fun (f : ustr * ty) (y : ustr * dval) => fst f = fst y /\ inhabits (snd f) (snd y) /\
             exists v, serialize (snd y) = Ok v /\ get (fst f) (collect vs) = Some v) fs xs.
Proof.
  intros ND xs vs HL HS.
  assert (X : map fst vs = map fst fs /\ Forall2 (fun (f : ustr * ty) (y : ustr * dval) => exists v, serialize (snd y) = Ok v /\ In (fst f, v) vs) fs xs).
  { clear ND. revert vs HS. induction HL as [|[n t] [n' x] fs xs [E Hx] HL IH]; intros vs HS.
    - cbn in HS. injection HS as <-. auto.
    - cbn in E. subst n'. cbn [map all_ok] in HS. unfold named at 1 in HS. cbn [fst snd] in HS.
      destruct (serialize x) as [v|e] eqn:Es; [|discriminate]. cbn [res_map res_bind] in HS.
      destruct (all_ok (map (fun kv => named (fst kv, serialize (snd kv))) xs)) as [vs'|e] eqn:E'; [|discriminate].
      cbn in HS. injection HS as <-. destruct (IH vs' eq_refl) as [K F]. split; [cbn; congruence|].
      constructor; [exists v; cbn; auto|]. eapply F2_imp; [|exact F]. cbn. intros f y (u & A & B). eauto. }
  destruct X as [K F]. assert (ND' : NoDup (map fst vs)) by congruence.
  clear - HL F ND'. induction HL as [|f y fs xs [E Hy] HL IH]; [constructor|]. inversion F as [|? ? ? ? (v & A & B) F']; subst.
  constructor; [|now apply IH]. split; [exact E|]. split; [exact Hy|]. exists v. split; [exact A|]. now apply get_collected.
Qed.

Lemma extracts_fun i t v y y' : SpecDe.ordinary t -> named_apart t -> wf v -> extracts i t v y -> extracts i t v y' -> y = y'.
Proof.
  intros O N W H H'.
  apply (mn_value _ _ _ _ (extraction_meant t O N (MConf i fig_new)) v y W) in H.
  apply (mn_value _ _ _ _ (extraction_meant t O N (MConf i fig_new)) v y' W) in H'. congruence.
Qed.

(** ** One field *)
Section Stack.
  Variables (i : interp) (pre : ustr) (vars kept : list (ustr * ustr)) (l : list (ustr * doc)) (d0 d1 d2 D : dict).
  Hypothesis NW : no_white pre.
  Hypothesis ND : forall name s, In (name, s) vars -> ~ In dot name.
  Hypothesis KS : selects (survives true (mapped_key (FromPrefix pre) [])) vars kept.
  Hypothesis W0 : wf_dict d0.
  Hypothesis S1 : says l d1.
  Hypothesis EF : env_fold kept [] = Ret d2.
  Hypothesis HD : dut D (dcoalesce Merge (dcoalesce Merge d0 d1) d2).

  Lemma kept_single : Forall (fun kv : ustr * ustr => dotted (fst kv) /\ ~ In dot (fst kv)) kept.
  Proof.
    clear EF. induction KS as [|[name s] [k s'] vs ks H S IH|a vs ks H S IH]; [constructor| |].
    - constructor; [|apply IH; [intros a b I; apply (ND a b); now right|exact S]].
      assert (NN := ND name s (or_introl eq_refl)).
      destruct (survives_key _ _ _ _ H) as [DK _]. split; [exact DK|]. cbn [fst].
      apply survives_names in H; auto. destruct H as [_ (w1 & p & w2 & k0 & w3 & -> & _ & _ & _ & _ & _ & _ & L)].
      apply lowered_lower in L. subst k. apply lower_no_dot. intros I. apply NN. rewrite !in_app_iff. tauto.
    - apply IH; [intros x b I; apply (ND x b); now right|exact S].
  Qed.

  Lemma sorted_d1 : sorted d1. Proof. apply S1. Qed.

  Lemma field_settled n t x v0 : restorable t -> undivided t -> inhabits t x -> serialize x = Ok v0 -> get n d0 = Some v0 ->
    forall y, match get n D with Some v => extracts i t v y | None => optional t /\ y = EVNone end <->
              settled i pre vars l n t x y.
  Proof.
    intros R U HX Hs G0 y.
    destruct (env_top kept n kept_single [] d2 EF wf_dict_nil) as [W2 H2].
    assert (HK := kept_last pre n vars NW ND kept KS).
    assert (G12 := get_merged (dcoalesce Merge d0 d1) d2 n (dcoalesce_sorted _ _ _) (proj1 W2)).
    assert (G01 := get_merged d0 d1 n (proj1 W0) sorted_d1).
    assert (HG := magic_get n _ _ HD). unfold oput in HG.
    assert (UT : forall w v, get n (dcoalesce Merge (dcoalesce Merge d0 d1) d2) = Some w -> close w v ->
              match get n D with Some v => extracts i t v y | None => optional t /\ y = EVNone end <-> extracts i t v y).
    { intros w v E C. rewrite E in HG. destruct (get n D) as [w'|]; [|destruct HG].
      rewrite <- (close_extracts i t w v y U C). split; apply extracts_ut; [exact HG|now symmetry]. }
    destruct (last_of n kept) as [s|] eqn:EL.
    - destruct H2 as (v & w & Ev & Gw & C). rewrite Gw in G12. destruct G12 as (w' & Gw' & C').
      rewrite (UT w' v Gw' (close_trans _ _ _ C' C)). split.
      + intros H. eapply st_variable; eauto.
      + intros [s' v' Hs' Ev' H|d v' Hu _ _ _|Hu _ _].
        * rewrite (set_to_fun _ _ _ _ _ Hs' HK) in Ev'. congruence.
        * destruct (set_not_unset _ _ _ _ HK Hu).
        * destruct (set_not_unset _ _ _ _ HK Hu).
    - cbn [get] in H2. rewrite H2 in G12.
      destruct S1 as (_ & SD & SG & SI).
      destruct (last_of n l) as [d|] eqn:ED.
      + assert (HGv := proj1 (last_of_some n l d) ED). destruct (SG n d HGv) as (v & Iv & Rv).
        assert (G1 := In_get _ _ _ SD Iv). rewrite G1 in G01. destruct G01 as (w & Gw & C).
        rewrite (UT w v) by congruence. split.
        * intros H. eapply st_file; eauto.
        * intros [s' v' Hs' _ _|d' v' _ Hd Hr H|_ Hd _].
          -- destruct (set_not_unset _ _ _ _ Hs' HK).
          -- apply (proj2 (last_of_some n l d')) in Hd. rewrite ED in Hd. injection Hd as <-.
             apply doc_value_reads in Hr, Rv. congruence.
          -- destruct (Hd d). now apply given_In.
      + assert (NI := proj1 (last_of_none n l) ED).
        assert (G1 : get n d1 = None).
        { destruct (get n d1) as [v|] eqn:E; [|reflexivity]. exfalso. destruct (get_In _ _ _ E) as (k & Ek & I).
          apply cmp_leibniz in Ek. subst k. destruct (SI _ _ I) as [d Hd]. apply (NI d). now apply given_In. }
        rewrite G1, G0 in G01. rewrite (UT v0 v0); [|congruence|now left].
        destruct (restorable_ordinary t R) as [O N].
        destruct (serialized_extracts i t x R HX) as (v' & E' & HV). rewrite Hs in E'. injection E' as <-.
        split.
        * intros H. apply st_default; auto. eapply extracts_fun; eauto using serialize_wf.
        * intros [s' v' Hs' _ _|d' v' _ Hd _ _|_ _ ->]; [destruct (set_not_unset _ _ _ _ Hs' HK)| |exact HV].
          exfalso. apply (NI d'). now apply given_In.
  Qed.

  Lemma fields_settled fs xs : all (map (fun f => restorable (snd f)) fs) -> Forall (fun f => undivided (snd f)) fs ->
    Forall2 (fun (f : ustr * ty) (y : ustr * dval) => fst f = fst y /\ inhabits (snd f) (snd y) /\
             exists v, serialize (snd y) = Ok v /\ get (fst f) d0 = Some v) fs xs ->
    forall ys, by_name (map (fun f => (fst f, (optional (snd f), extracts i (snd f)))) fs) D ys <->
               settled_all i pre vars l fs xs ys.
  Proof.
    intros R U HF. rewrite BlameProofs.all_Forall in R. induction HF as [|[n t] [n' x] fs xs (E & HX & v0 & Hs & G0) HF IH]; intros ys.
    - destruct ys; cbn; tauto.
    - inversion R; inversion U; subst. cbn [fst snd] in *. subst n'. destruct ys as [|[n2 y] ys]; [cbn; tauto|].
      cbn [map by_name settled_all fst snd].
      rewrite (field_settled n t x v0) by assumption. rewrite IH by assumption. tauto.
  Qed.
End Stack.

Lemma dut_trans a b c : dut a b -> dut b c -> dut a c.
Proof. rewrite !dut_data. congruence. Qed.
