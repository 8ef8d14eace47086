(** C89: a struct is extracted field by field. *)
From Coq Require Import Ascii String ZArith NArith Bool Lia.
From Coq Require Import List.
From Verif Require Import Res BMap BMapProofs Str StrProofs Profile Tag Num Value Metadata Err Coalesce Figment Fmt De.
From Verif Require Import SpecValue SpecFigment SpecLookup SpecShow SpecLossy SpecDe SpecMagic SpecExtract SpecDoc SpecTaken SpecGives SpecRefuse SpecField.
From Verif Require Import ValueProofs FigmentProofs FigmentProofs2 LookupProofs DeProofs ExtractProofs GivesProofs RefusalProofs
  PropsCoalesce PropsFigment PropsRefuse.
Import ListNotations.

(** Extracting everything is extracting what is at no key at all. *)
Theorem C89_whole : forall i f t, extract_inner i f t [] = extract i f t.
Proof.
  intros i f t. unfold extract_inner, extract, find_value. destruct (merged f) as [v|e]; [|reflexivity].
  cbn. destruct (deserialize t (DConf i f v)) as [y|[tg pr md pa kd pv]]; cbn; [reflexivity|].
  now rewrite app_nil_r.
Qed.
Print Assumptions C89_whole.

Lemma inner_gives H i f t ks x y : reachable H f -> named_apart t -> Forall plain_key ks ->
  find_value f (join [dot] ks) = Ok x -> extract_inner i f t (join [dot] ks) = Ok y <-> gives (MConf i f) t x y.
Proof.
  intros R A K F. assert (S : spells (join [dot] ks) ks) by (split; auto).
  destruct (proj1 (find_value_spec _ _ _ _ S) F) as (v & M & E).
  assert (W := at_path_wf _ _ _ (reachable_merged_wf _ _ _ R M) E).
  rewrite <- (granted_at t (MConf i f) x y W A). unfold extract_inner. rewrite F. cbn [res_bind mk_de].
  destruct (deserialize t (DConf i f x)); cbn; [reflexivity|]. split; discriminate.
Qed.

Lemma inner_refuses H i f t ks x q k : reachable H f -> named_apart t -> Forall plain_key ks ->
  find_value f (join [dot] ks) = Ok x ->
  (exists e, extract_inner i f t (join [dot] ks) = Err e /\ e_path e = q ++ ks /\ e_kind e = k) <->
  refuses (MConf i f) t x q k.
Proof.
  intros R A K F. assert (S : spells (join [dot] ks) ks) by (split; auto).
  destruct (proj1 (find_value_spec _ _ _ _ S) F) as (v & M & E).
  rewrite (C84_inner H i f t ks v x (q ++ ks) k R M A K E). split; [|eauto].
  intros (q' & HR & HE). apply app_inv_tail in HE. now subst.
Qed.

(** What is at a key of the dictionary that is found at [ks]. *)
Lemma find_entry f ks g d n : Forall plain_key ks -> plain_key n -> find_value f (join [dot] ks) = Ok (VDict g d) ->
  (forall x, find_value f (join [dot] (ks ++ [n])) = Ok x <-> get n d = Some x) /\
  (fig_contains f (join [dot] (ks ++ [n])) = true <-> get n d <> None).
Proof.
  intros K Kn F. assert (S : spells (join [dot] ks) ks) by (split; auto).
  destruct (proj1 (find_value_spec _ _ _ _ S) F) as (v & M & E).
  assert (S' : spells (join [dot] (ks ++ [n])) (ks ++ [n])).
  { split; [|now left]. apply Forall_app. auto. }
  assert (X : forall x, find_value f (join [dot] (ks ++ [n])) = Ok x <-> get n d = Some x).
  { intros x. rewrite (find_value_spec _ _ _ _ S'). split.
    - intros (v' & M' & E'). rewrite M in M'. injection M' as <-. rewrite at_path_app, E in E'. cbn in E'.
      destruct (get n d); [exact E'|discriminate].
    - intros G. exists v. split; [exact M|]. rewrite at_path_app, E. cbn. now rewrite G. }
  split; [exact X|]. rewrite contains_spec. split.
  - intros (x & Hx) HN. apply X in Hx. congruence.
  - intros HN. destruct (get n d) as [x|] eqn:G; [|congruence]. exists x. now apply X.
Qed.

Lemma own_value H i f ks g d n t y : reachable H f -> named_apart t -> Forall plain_key ks -> plain_key n ->
  find_value f (join [dot] ks) = Ok (VDict g d) ->
  on_its_own i f (ks ++ [n]) t y <->
  match get n d with Some v => gives (MConf i f) t v y | None => optional t /\ y = EVNone end.
Proof.
  intros R A K Kn F. destruct (find_entry f ks g d n K Kn F) as [X C]. unfold on_its_own.
  assert (K' : Forall plain_key (ks ++ [n])) by (apply Forall_app; auto).
  destruct (get n d) as [x|] eqn:G.
  - assert (C' : fig_contains f (join [dot] (ks ++ [n])) = true) by (apply C; discriminate).
    assert (F' : find_value f (join [dot] (ks ++ [n])) = Ok x) by now apply X.
    rewrite <- (inner_gives H i f t (ks ++ [n]) x y R A K' F'). rewrite C'.
    split; [intros [[_ Y]|[Y _]]; [exact Y|discriminate]|intros Y; left; now split].
  - destruct (fig_contains f (join [dot] (ks ++ [n]))) eqn:C'; [exfalso; now apply C|].
    split; [intros [[Y _]|[_ Y]]; [discriminate|exact Y]|intros Y; right; now split].
Qed.

(** Where there is a dictionary, a struct is extracted exactly if each of its fields is, on its
    own, and then its fields are those; with [deny_unknown_fields] there must be no other keys. *)
Theorem C89_struct : forall H i f ks g d name ident deny fs y, reachable H f ->
  Forall plain_key ks -> find_value f (join [dot] ks) = Ok (VDict g d) ->
  ~ In name [value_name; rel_name; tagged_name] -> named_apart (TStruct name ident deny fs) ->
  Forall (fun ft => plain_key (fst ft)) fs ->
  (extract_inner i f (TStruct name ident deny fs) (join [dot] ks) = Ok y <->
   (deny = true -> forall k x, In (k, x) d -> In k (map fst fs)) /\
   exists ys, y = EVStruct ys /\
     Forall2 (fun ft ny => fst ny = fst ft /\ on_its_own i f (ks ++ [fst ft]) (snd ft) (snd ny)) fs ys).
Proof.
  intros H i f ks g d name ident deny fs y R K F Hn A P.
  rewrite (inner_gives H i f _ ks _ y R A K F). cbn [gives named_apart] in *. destruct A as [_ A].
  assert (B : forall ys,
    by_name (map (fun f0 => (fst f0, (optional (snd f0), gives (MConf i f) (snd f0)))) fs) d ys <->
    Forall2 (fun ft ny => fst ny = fst ft /\ on_its_own i f (ks ++ [fst ft]) (snd ft) (snd ny)) fs ys).
  { clear Hn y deny. induction fs as [|[n t] fs IH]; intros [|[n' y] ys]; cbn [map by_name fst snd].
    - split; [constructor|auto].
    - split; [intros []|intros X; inversion X].
    - split; [intros []|intros X; inversion X].
    - cbn [map all fst snd] in A. destruct A as [At A]. inversion P as [|? ? Pn P']; subst. cbn [fst] in Pn.
      specialize (IH A P' ys). rewrite <- (own_value H i f ks g d n t y R At K Pn F). rewrite IH. split.
      + intros (E1 & E2 & E3). constructor; auto.
      + intros X. inversion X as [|? ? ? ? [E1 E2] E3]; subst. auto. }
  split.
  - intros (w & PR & [(g' & d' & ys & -> & HD & BN & ->)|(g' & l & ys & -> & _)]).
    + inversion PR; subst; try (exfalso; apply Hn; cbn; tauto). split; [exact HD|]. exists ys. split; [reflexivity|]. now apply B.
    + inversion PR; subst; exfalso; apply Hn; cbn; tauto.
  - intros (HD & ys & -> & X). exists (VDict g d). split; [now constructor|]. left. exists g, d, ys.
    split; [reflexivity|]. split; [exact HD|]. split; [now apply B|reflexivity].
Qed.
Print Assumptions C89_struct.

Lemma Forall2_hd {A B} {R : A -> B -> Prop} {a b l l'} : Forall2 R (a :: l) (b :: l') -> R a b.
Proof. intros H. inversion H. assumption. Qed.
Lemma Forall2_tl {A B} {R : A -> B -> Prop} {a b l l'} : Forall2 R (a :: l) (b :: l') -> Forall2 R l l'.
Proof. intros H. inversion H. assumption. Qed.

(** So is a map, key by key. *)
Theorem C89_map : forall H i f ks g d t y, reachable H f ->
  Forall plain_key ks -> find_value f (join [dot] ks) = Ok (VDict g d) ->
  named_apart t -> Forall plain_key (keys d) ->
  (extract_inner i f (TMap t) (join [dot] ks) = Ok y <->
   exists ys, y = EVMap ys /\
     Forall2 (fun n ny => fst ny = n /\ extract_inner i f t (join [dot] (ks ++ [n])) = Ok (snd ny)) (keys d) ys).
Proof.
  intros H i f ks g d t y R K F A P. rewrite (inner_gives H i f (TMap t) ks _ y R A K F). cbn [gives].
  assert (S : spells (join [dot] ks) ks) by (split; auto).
  assert (W : wf_dict d).
  { destruct (proj1 (find_value_spec _ _ _ _ S) F) as (v & M & E).
    apply (wf_VDict g). exact (at_path_wf _ _ _ (reachable_merged_wf _ _ _ R M) E). }
  assert (B : forall ys, Forall2 (fun kv ky => fst ky = fst kv /\ gives (MConf i f) t (snd kv) (snd ky)) d ys <->
    Forall2 (fun n ny => fst ny = n /\ extract_inner i f t (join [dot] (ks ++ [n])) = Ok (snd ny)) (keys d) ys).
  { assert (G : forall n x y, In (n, x) d -> extract_inner i f t (join [dot] (ks ++ [n])) = Ok y <-> gives (MConf i f) t x y).
    { intros n x z HI. assert (Kn : plain_key n) by (rewrite Forall_forall in P; apply P, (in_map fst _ _ HI)).
      apply (inner_gives H); [exact R|exact A|apply Forall_app; auto|].
      apply (proj1 (find_entry f ks g d n K Kn F)). apply In_get; [apply W|exact HI]. }
    clear F W P y. induction d as [|[n x] r IH]; intros [|[n' y] ys]; cbn [keys map fst snd];
      try (split; intros X; inversion X; fail); [split; constructor|].
    assert (G' : forall m z w, In (m, z) r -> extract_inner i f t (join [dot] (ks ++ [m])) = Ok w <-> gives (MConf i f) t z w)
      by (intros m z w HI; apply G; now right).
    specialize (IH G' ys). pose proof (G n x y (or_introl eq_refl)) as G0.
    split; intros X.
    + assert (X1 := Forall2_hd X). assert (X2 := Forall2_tl X). cbn [fst snd] in X1. destruct X1 as [E1 E2].
      constructor; [cbn [fst snd]; split; [exact E1|now apply G0]|now apply IH].
    + assert (X1 := Forall2_hd X). assert (X2 := Forall2_tl X). cbn [fst snd] in X1. destruct X1 as [E1 E2].
      constructor; [cbn [fst snd]; split; [exact E1|now apply G0]|now apply IH]. }
  split.
  - intros (g' & d' & ys & E & X & ->). injection E as <- <-. exists ys. split; [reflexivity|]. now apply B.
  - intros (ys & -> & X). exists g, d, ys. split; [reflexivity|]. split; [now apply B|reflexivity].
Qed.
Print Assumptions C89_map.

Lemma sorted_before (d : dict) : forall a n x b, sorted d -> d = a ++ (n, x) :: b ->
  forall n' x', In (n', x') d -> (cmp n' n = Lt <-> In (n', x') a).
Proof.
  intros a n x b Sd ->. induction a as [|[m w] a IH]; intros n' x' HI.
  - cbn [app] in *. cbn in Sd. destruct Sd as [L _]. split; [|intros []]. intros C. destruct HI as [HI|HI].
    + injection HI as <- _. rewrite cmp_refl in C. discriminate.
    + pose proof (proj1 (lt_all_In _ _) L _ _ HI) as L'. rewrite cmp_sym, L' in C. discriminate.
  - cbn [app] in *. cbn in Sd. destruct Sd as [L Sd]. destruct HI as [HI|HI].
    + injection HI as <- <-. split; [now left|]. intros _.
      apply (proj1 (lt_all_In _ _) L n x). apply in_or_app. right. now left.
    + rewrite (IH Sd n' x' HI). split; [now right|]. intros [E|E]; [|exact E]. injection E as <- <-.
      pose proof (proj1 (lt_all_In _ _) L _ _ HI) as L'. rewrite cmp_refl in L'. discriminate.
Qed.

(** The error of a struct is that of its first field, in the order of the names, that fails on its
    own; if none does, it is about the first field, in the order of declaration, that is missing and
    may not be. *)
Theorem C89_error : forall H i f ks g d name ident fs p k, reachable H f ->
  Forall plain_key ks -> find_value f (join [dot] ks) = Ok (VDict g d) ->
  ~ In name [value_name; rel_name; tagged_name] -> named_apart (TStruct name ident false fs) ->
  Forall (fun ft => plain_key (fst ft)) fs ->
  ((exists e, extract_inner i f (TStruct name ident false fs) (join [dot] ks) = Err e /\ e_path e = p ++ ks /\ e_kind e = k) <->
   (exists n t q, In (n, t) fs /\ fails_on_its_own i f (ks ++ [n]) t q k /\ p = n :: q /\
      forall n' t', In (n', t') fs -> cmp n' n = Lt -> fig_contains f (join [dot] (ks ++ [n'])) = true ->
        exists y, extract_inner i f t' (join [dot] (ks ++ [n'])) = Ok y) \/
   ((forall n t, In (n, t) fs -> fig_contains f (join [dot] (ks ++ [n])) = true ->
        exists y, extract_inner i f t (join [dot] (ks ++ [n])) = Ok y) /\
    exists a n t b, fs = a ++ (n, t) :: b /\ fig_contains f (join [dot] (ks ++ [n])) = false /\ ~ optional t /\
      Forall (fun ft => fig_contains f (join [dot] (ks ++ [fst ft])) = true \/ optional (snd ft)) a /\
      p = [] /\ k = KMissingField n)).
Proof.
  intros H i f ks g d name ident fs p k R K F Hn A P.
  rewrite (inner_refuses H i f _ ks _ p k R A K F). cbn [refuses named_apart] in *. destruct A as [_ A].
  assert (At : forall n t, In (n, t) fs -> named_apart t).
  { clear - A. induction fs as [|[n t] fs IH]; cbn [map all fst snd] in *; intros n' t' HI; [destruct HI|].
    destruct A as [A1 A2]. destruct HI as [E|HI]; [now injection E as <- <-|]. eapply IH; eassumption. }
  assert (Pn : forall n t, In (n, t) fs -> plain_key n).
  { intros n t HI. rewrite Forall_forall in P. exact (P _ HI). }
  assert (W : wf_dict d).
  { assert (S : spells (join [dot] ks) ks) by (split; auto).
    destruct (proj1 (find_value_spec _ _ _ _ S) F) as (v & M & E).
    apply (wf_VDict g). exact (at_path_wf _ _ _ (reachable_merged_wf _ _ _ R M) E). }
  assert (X : forall n t, In (n, t) fs -> (fig_contains f (join [dot] (ks ++ [n])) = true <-> exists x, In (n, x) d)).
  { intros n t HI. rewrite (proj2 (find_entry f ks g d n K (Pn _ _ HI) F)). split.
    - intros HN. destruct (get n d) as [x|] eqn:E; [|congruence]. exists x.
      destruct (get_In _ _ _ E) as (n' & C & HI'). apply cmp_leibniz in C. now subst.
    - intros (x & HI') HN. rewrite (In_get _ _ _ (proj1 W) HI') in HN. discriminate. }
  assert (V : forall n t x, In (n, t) fs -> In (n, x) d -> find_value f (join [dot] (ks ++ [n])) = Ok x).
  { intros n t x HI HI'. apply (proj1 (find_entry f ks g d n K (Pn _ _ HI) F)). apply In_get; [apply W|exact HI']. }
  assert (KP : forall n t, In (n, t) fs -> Forall plain_key (ks ++ [n])).
  { intros n t HI. apply Forall_app. split; [exact K|]. constructor; [eapply Pn; eassumption|constructor]. }
  assert (Y : forall n t x, In (n, t) fs -> In (n, x) d ->
     (exists y, extract_inner i f t (join [dot] (ks ++ [n])) = Ok y) <-> exists y, gives (MConf i f) t x y).
  { intros n t x HI HI'.
    split; intros [y Hy]; exists y; apply (inner_gives H i f t (ks ++ [n]) x y R (At _ _ HI) (KP _ _ HI) (V _ _ _ HI HI')); exact Hy. }
  assert (Z : forall n t x q, In (n, t) fs -> In (n, x) d ->
     fails_on_its_own i f (ks ++ [n]) t q k <-> refuses (MConf i f) t x q k).
  { intros n t x q HI HI'. unfold fails_on_its_own.
    rewrite <- (inner_refuses H i f t (ks ++ [n]) x q k R (At _ _ HI) (KP _ _ HI) (V _ _ _ HI HI')).
    split; [intros (e & _ & E); eauto|intros (e & E); exists e; split; [|exact E]].
    apply (X _ _ HI). eauto. }
  assert (ND : forall n x x', In (n, x) d -> In (n, x') d -> x = x').
  { intros n x x' H1 H2. apply (In_get _ _ _ (proj1 W)) in H1, H2. congruence. }
  set (part_of := fun t : ty => (optional t, fun v : value => exists y, gives (MConf i f) t v y, refuses (MConf i f) t)).
  assert (IM : forall n r, In (n, r) (map (fun f0 => (fst f0, part_of (snd f0))) fs) <-> exists t, In (n, t) fs /\ r = part_of t).
  { intros n r. rewrite in_map_iff. split.
    - intros ([m t] & E & HI). cbn in E. injection E as <- <-. eauto.
    - intros (t & HI & ->). exists (n, t). auto. }
  assert (KN : forall n x, In (n, x) d ->
    (known false (map (fun f0 => (fst f0, part_of (snd f0))) fs) n x <->
     forall t, In (n, t) fs -> exists y, extract_inner i f t (join [dot] (ks ++ [n])) = Ok y)).
  { intros n x HI. unfold known. split.
    - intros [_ Hk] t HI'. apply (Y n t x HI' HI). apply (Hk (part_of t)). apply IM. eauto.
    - intros Hk. split; [discriminate|]. intros r Hr. apply IM in Hr. destruct Hr as (t & HI' & ->).
      apply (Y n t x HI' HI). auto. }
  change (map (fun f0 => (fst f0, (optional (snd f0), fun v => exists y, gives (MConf i f) (snd f0) v y, refuses (MConf i f) (snd f0)))) fs)
    with (map (fun f0 => (fst f0, part_of (snd f0))) fs).
  split.
  - intros (w & PR & SR). assert (Ew : w = VDict g d) by (inversion PR; subst; try reflexivity; exfalso; apply Hn; cbn; tauto).
    subst w. clear PR. destruct SR as [(g' & d' & E & FR)|[(g' & l & E & _)|(ND' & _)]];
      [|discriminate|exfalso; apply ND'; hnf; eauto]. injection E as <- <-.
    destruct FR as [(a & key & x & b & q & Ed & HA & HB & Ep)|(HA & a & n & r & b & Ef & HM & HNo & HF & Ep & Ek)].
    + left. destruct HB as [(C & _)|(r & Hr & HB)]; [discriminate|]. apply IM in Hr. destruct Hr as (t & HI & ->).
      assert (HIx : In (key, x) d) by (rewrite Ed; apply in_or_app; right; now left).
      exists key, t, q. split; [exact HI|]. split; [now apply (Z key t x q)|]. split; [exact Ep|].
      intros n' t' HI' C HC. apply (X _ _ HI') in HC. destruct HC as (x' & HIx').
      apply (sorted_before d a key x b (proj1 W) Ed n' x' HIx') in C.
      rewrite Forall_forall in HA. specialize (HA _ C). cbn [fst snd] in HA. exact (proj1 (KN n' x' HIx') HA t' HI').
    + right. split.
      * intros n' t' HI' HC. apply (X _ _ HI') in HC. destruct HC as (x' & HIx').
        rewrite Forall_forall in HA. specialize (HA _ HIx'). cbn [fst snd] in HA. exact (proj1 (KN n' x' HIx') HA t' HI').
      * apply map_eq_app in Ef. destruct Ef as (fa & fb & -> & Ea & Eb).
        destruct fb as [|[n0 t] fb]; [discriminate|]. cbn [map fst snd] in Eb. injection Eb as -> <- _.
        assert (HI : In (n, t) (fa ++ (n, t) :: fb)) by (apply in_or_app; right; now left).
        exists fa, n, t, fb. split; [reflexivity|]. split.
        { destruct (fig_contains f (join [dot] (ks ++ [n]))) eqn:C; [|reflexivity]. exfalso. apply HNo.
          apply (X _ _ HI) in C. destruct C as (x & HIx). exact (in_map fst _ _ HIx). }
        split; [exact HM|]. split; [|now split].
        subst a. rewrite Forall_map in HF. apply Forall_forall. intros [m u] HIm. rewrite Forall_forall in HF.
        destruct (HF _ HIm) as [C|C]; cbn [fst snd] in *; [left|now right].
        assert (HI' : In (m, u) (fa ++ (n, t) :: fb)) by (apply in_or_app; now left).
        apply (X _ _ HI'). apply in_map_iff in C. destruct C as ([m' z] & E & C). cbn in E. subst m'. eauto.
  - intros [(n & t & q & HI & HF & -> & HB)|(HA & a & n & t & b & -> & HC & HO & HF & -> & ->)];
      (exists (VDict g d); split; [now constructor|]); left; exists g, d; (split; [reflexivity|]).
    + left. assert (HC : fig_contains f (join [dot] (ks ++ [n])) = true) by (destruct HF as (e & C & _); exact C).
      apply (X _ _ HI) in HC. destruct HC as (x & HIx). destruct (in_split _ _ HIx) as (a & b & Ed).
      exists a, n, x, b, q. split; [exact Ed|]. split; [|split; [|reflexivity]].
      * apply Forall_forall. intros [n' x'] HI'. cbn [fst snd].
        assert (HIx' : In (n', x') d) by (rewrite Ed; apply in_or_app; now left).
        apply (KN n' x' HIx'). intros t' HIt. apply HB with (1 := HIt).
        -- now apply (sorted_before d a n x b (proj1 W) Ed n' x' HIx').
        -- apply (X _ _ HIt). eauto.
      * right. exists (part_of t). split; [apply IM; eauto|]. now apply (Z n t x q).
    + right. assert (HI : In (n, t) (a ++ (n, t) :: b)) by (apply in_or_app; right; now left). split.
      * apply Forall_forall. intros [n' x'] HIx'. cbn [fst snd]. apply (KN n' x' HIx'). intros t' HIt. apply (HA _ _ HIt).
        apply (X _ _ HIt). eauto.
      * exists (map (fun f0 => (fst f0, part_of (snd f0))) a), n, (part_of t), (map (fun f0 => (fst f0, part_of (snd f0))) b).
        split; [now rewrite map_app|]. split; [exact HO|]. split.
        { intros C. apply in_map_iff in C. destruct C as ([m z] & E & C). cbn in E. subst m.
          assert (HT : fig_contains f (join [dot] (ks ++ [n])) = true) by (apply (X _ _ HI); eauto). congruence. }
        split; [|now split]. rewrite Forall_map. apply Forall_forall. intros [m u] HIm. rewrite Forall_forall in HF.
        destruct (HF _ HIm) as [C|C]; cbn [fst snd] in *; [left|now right].
        assert (HI' : In (m, u) (a ++ (n, t) :: b)) by (apply in_or_app; now left).
        apply (X _ _ HI') in C. destruct C as (z & C). exact (in_map fst _ _ C).
Qed.
Print Assumptions C89_error.

(** *** Cases *)
Definition fd_n (z : Z) : value := VNum tag_default (NInt I64 z).
Definition fd_db : ty := TStruct (lit "Db") (lit "Db") false
  [(lit "url", TString); (lit "pool", TInt U8); (lit "user", TOption TString)].
Definition fd_ty : ty := TStruct (lit "Config") (lit "Config") false [(lit "port", TInt U16); (lit "db", fd_db)].
Definition fd_data (pool : Z) : dict :=
  [(lit "a.b", fd_n 1);
   (lit "db", VDict tag_default [(lit "pool", fd_n pool); (lit "url", VString tag_default (lit "x"))]);
   (lit "port", fd_n 80)].
Definition fd_p (pool : Z) : provider := ex_provider (lit "A") [(p_default, fd_data pool)].
Definition fd_f (pool : Z) : figment := given fig_new (fd_p pool) Merge 1.
Lemma fd_reach pool : reachable [mkProvision ex_loc (fd_p pool)] (fd_f pool).
Proof.
  apply (RC_provide [] fig_new ex_loc Merge (fd_p pool) (fd_f pool) 2); [apply RC_new| |reflexivity].
  apply plain_ok; [|reflexivity]. vm_compute. repeat constructor; auto.
Qed.
Lemma fd_apart : named_apart fd_ty.
Proof. cbn. repeat split; repeat constructor; cbn; intros H; decompose [or] H; discriminate || contradiction. Qed.

Example C89_ex : reachable [mkProvision ex_loc (fd_p 8)] (fd_f 8) /\ named_apart fd_ty /\
  (exists g d, find_value (fd_f 8) [] = Ok (VDict g d)) /\
  extract Exact (fd_f 8) fd_ty =
    Ok (EVStruct [(lit "port", EVInt U16 80);
                  (lit "db", EVStruct [(lit "url", EVStr (lit "x")); (lit "pool", EVInt U8 8); (lit "user", EVNone)])]) /\
  on_its_own Exact (fd_f 8) [lit "port"] (TInt U16) (EVInt U16 80) /\
  on_its_own Exact (fd_f 8) [lit "db"; lit "url"] TString (EVStr (lit "x")) /\
  on_its_own Exact (fd_f 8) [lit "db"; lit "user"] (TOption TString) EVNone.
Proof.
  split; [apply fd_reach|]. split; [exact fd_apart|]. split; [eexists _, _; vm_compute; reflexivity|].
  split; [vm_compute; reflexivity|]. split; [left; split; vm_compute; reflexivity|].
  split; [left; split; vm_compute; reflexivity|]. right. split; [vm_compute; reflexivity|]. split; [eexists; reflexivity|reflexivity].
Qed.

(** A pool too large, found through the struct and on its own; and a missing field. *)
Example C89_error_ex : let said r := match r with Err e => Some (e_path e, e_kind e) | Ok _ => None end in
  said (extract Exact (fd_f 300) fd_ty) =
    Some ([lit "db"; lit "pool"], KInvalidValue (ASigned 300) (lit "u8")) /\
  fails_on_its_own Exact (fd_f 300) [lit "db"; lit "pool"] (TInt U8) [] (KInvalidValue (ASigned 300) (lit "u8")) /\
  said (extract Exact (fd_f 8) (TStruct (lit "C") (lit "C") false [(lit "zone", TBool); (lit "port", TInt U16)])) =
    Some ([], KMissingField (lit "zone")).
Proof.
  split; [vm_compute; reflexivity|]. split; [|vm_compute; reflexivity].
  unfold fails_on_its_own. eexists. split; [vm_compute; reflexivity|]. split; [vm_compute; reflexivity|]. split; reflexivity.
Qed.

(** A field whose name has a dot is extracted with the struct, but cannot be asked for. *)
Theorem C89_dotted_refuted : exists f y, (exists H, reachable H f) /\
  extract Exact f (TStruct (lit "S") (lit "S") false [(lit "a.b", TInt U8)]) = Ok (EVStruct [(lit "a.b", y)]) /\
  (exists e, extract_inner Exact f (TInt U8) (lit "a.b") = Err e) /\ fig_contains f (lit "a.b") = false.
Proof.
  exists (fd_f 8), (EVInt U8 1). split; [eexists; apply fd_reach|]. split; [vm_compute; reflexivity|].
  split; [eexists; vm_compute; reflexivity|vm_compute; reflexivity].
Qed.
Print Assumptions C89_dotted_refuted.
