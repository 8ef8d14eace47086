(** Serialization round trips. *)
From Coq Require Import Ascii String ZArith NArith Bool Lia.
From Coq Require Import Floats.SpecFloat.
From Coq Require Import List.
From Verif Require Import Res BMap Str Profile Tag Num Value NumParse Metadata Err Coalesce Figment Fmt De Ser.
From Verif Require Import BMapProofs StrProofs ValueProofs LossyProofs.
From Verif Require Import SpecParse SpecLossy SpecDe SpecRt DeProofs BlameProofs ExtractProofs.
Import ListNotations.

Lemma mode_settle_ok {A} m t (r : res error A) x : mode_settle m t r = Ok x <-> r = Ok x.
Proof. destruct m; cbn; [apply settle_ok|apply map_err_ok]. Qed.

Lemma any_ok {A} m v (vis : visitor A) x :
  de_any (mk_de m v) vis = Ok x <-> value_visit (mk_de m) v vis = Ok x.
Proof. rewrite mk_de_mode. apply mode_settle_ok. Qed.

Lemma enum_ok {A} m v (vis : visitor A) x :
  de_enum (mk_de m v) vis = Ok x <-> enum_visit (mk_de m) v vis = Ok x.
Proof. destruct m; cbn; [apply settle_ok|apply map_err_ok]. Qed.

(** [v'] is [v] up to tags. *)
Definition upto_tags (v v' : value) : Prop := untag v' = untag v.

Lemma ut_string t s v' : upto_tags (VString t s) v' -> exists t', v' = VString t' s.
Proof. destruct v'; unfold upto_tags; cbn; intros H; try discriminate. injection H as ->. eauto. Qed.
Lemma ut_char t s v' : upto_tags (VChar t s) v' -> exists t', v' = VChar t' s.
Proof. destruct v'; unfold upto_tags; cbn; intros H; try discriminate. injection H as ->. eauto. Qed.
Lemma ut_bool t s v' : upto_tags (VBool t s) v' -> exists t', v' = VBool t' s.
Proof. destruct v'; unfold upto_tags; cbn; intros H; try discriminate. injection H as ->. eauto. Qed.
Lemma ut_num t s v' : upto_tags (VNum t s) v' -> exists t', v' = VNum t' s.
Proof. destruct v'; unfold upto_tags; cbn; intros H; try discriminate. injection H as ->. eauto. Qed.
Lemma ut_empty t s v' : upto_tags (VEmpty t s) v' -> exists t', v' = VEmpty t' s.
Proof. destruct v'; unfold upto_tags; cbn; intros H; try discriminate. injection H as ->. eauto. Qed.

Lemma F2_impl {A B} (P Q : A -> B -> Prop) l l' :
  (forall x y, P x y -> Q x y) -> Forall2 P l l' -> Forall2 Q l l'.
Proof. intros H. induction 1; constructor; auto. Qed.

Lemma map_eq_Forall2 {A B} (f : A -> B) l l' : map f l' = map f l -> Forall2 (fun x x' => f x' = f x) l l'.
Proof.
  revert l'. induction l as [|x r IH]; intros [|x' r']; cbn; try discriminate; [constructor|].
  intros H. injection H as H1 H2. constructor; auto.
Qed.

Lemma ut_array t l v' : upto_tags (VArray t l) v' ->
  exists t' l', v' = VArray t' l' /\ Forall2 upto_tags l l'.
Proof.
  destruct v'; unfold upto_tags; cbn; intros H; try discriminate. injection H as H.
  do 2 eexists. split; [reflexivity|]. apply map_eq_Forall2. assumption.
Qed.

Definition entry_ut (a b : ustr * value) : Prop := fst b = fst a /\ upto_tags (snd a) (snd b).
Lemma ut_dict t d v' : upto_tags (VDict t d) v' ->
  exists t' d', v' = VDict t' d' /\ Forall2 entry_ut d d'.
Proof.
  destruct v'; unfold upto_tags; cbn; intros H; try discriminate. injection H as H.
  do 2 eexists. split; [reflexivity|]. apply map_eq_Forall2 in H.
  eapply F2_impl; [|exact H]. intros [k x] [k' x'] E. injection E as E1 E2. split; assumption.
Qed.

Lemma upto_refl v : upto_tags v v.
Proof. reflexivity. Qed.

(** ** Lists *)
Lemma all_ok_spec {A} (l : list (res error A)) xs : all_ok l = Ok xs <-> Forall2 (fun r x => r = Ok x) l xs.
Proof.
  revert xs. induction l as [|r l IH]; intros xs; cbn.
  - split; intros H; [injection H as <-; constructor|inversion H; reflexivity].
  - rewrite res_bind_ok. split.
    + intros (a & -> & H). apply res_map_ok in H. destruct H as (ys & H & ->).
      apply IH in H. constructor; auto.
    + intros H. inversion H as [|? y ? ys -> H2]; subst. apply IH in H2. rewrite H2. eauto.
Qed.

(** A serialization and what its value reads back as. *)
Definition restores (rec : deser -> res error dval) (d : dval) (v : value) : Prop :=
  serialize d = Ok v /\ forall m v', upto_tags v v' -> rec (mk_de m v') = Ok d.

Lemma elements_restored rec m l : forall vs vs' n,
  Forall2 (restores rec) l vs -> Forall2 upto_tags vs vs' ->
  all_elements rec (map (mk_de m) vs') n = Ok l.
Proof.
  induction l as [|d l IH]; intros vs vs' n H1 H2; inversion H1 as [|? v ? vr [Hs Hd] H3]; subst;
    inversion H2 as [|? v' ? vr' Hv H4]; subst; cbn [map all_elements]; [reflexivity|].
  unfold next_element. rewrite (Hd m v' Hv). cbn [res_map_err res_bind].
  rewrite (IH vr vr'); auto.
Qed.

Lemma tuple_restored recs short m : forall l vs vs' n,
  Forall2 (fun rd v => restores (fst rd) (snd rd) v) (combine recs l) vs -> length recs = length l ->
  Forall2 upto_tags vs vs' ->
  tuple_elements recs short (map (mk_de m) vs') n = Ok l.
Proof.
  induction recs as [|rec recs IH]; intros [|d l] vs vs' n H1 HL H2; try discriminate HL;
    [reflexivity|]. cbn [combine] in H1.
  inversion H1 as [|? v ? vr [Hs Hd] H3]; subst.
  inversion H2 as [|? v' ? vr' Hv H4]; subst. cbn [map tuple_elements fst snd] in *.
  unfold next_element. rewrite (Hd m v' Hv). cbn [res_map_err res_bind].
  rewrite (IH l vr vr'); auto.
Qed.

(** ** Maps *)
Lemma map_restored rec m l : forall (vs vs' : dict) acc,
  Forall2 (fun d v => fst v = fst d /\ restores rec (snd d) (snd v)) l vs -> Forall2 entry_ut vs vs' ->
  map_entries rec (map_access (mk_de m) vs') acc = Ok (extend acc l).
Proof.
  induction l as [|[k d] l IH]; intros vs vs' acc H1 H2;
    inversion H1 as [|? [k1 v] ? vr [E1 [Hs Hd]] H3]; subst;
    inversion H2 as [|? [k2 v'] ? vr' [E2 Hv] H4]; subst; cbn [map_access map map_entries fst snd] in *;
    [reflexivity|].
  subst k1 k2. unfold next_key at 1. rewrite string_key_str. cbn [res_map_err res_bind].
  unfold next_value at 1. rewrite (Hd m v' Hv). cbn [res_map_err res_bind].
  apply (IH vr vr'); assumption.
Qed.

(** ** Structs *)
Definition field_restored (f : ustr * (deser -> res error dval)) (y : ustr * dval) (v : ustr * value) : Prop :=
  fst y = fst f /\ fst v = fst f /\ restores (snd f) (snd y) (snd v).

Inductive Forall3 {A B C} (R : A -> B -> C -> Prop) : list A -> list B -> list C -> Prop :=
| F3_nil : Forall3 R [] [] []
| F3_cons x y z l1 l2 l3 : R x y z -> Forall3 R l1 l2 l3 -> Forall3 R (x :: l1) (y :: l2) (z :: l3).

Lemma Forall3_In3 {A B C} (R : A -> B -> C -> Prop) l1 l2 l3 z :
  Forall3 R l1 l2 l3 -> In z l3 -> exists x y, In x l1 /\ In y l2 /\ R x y z.
Proof.
  induction 1 as [|x y z' l1 l2 l3 H Hr IH]; intros []; [subst; exists x, y; cbn; auto|].
  destruct IH as (x' & y' & ? & ? & ?); [assumption|]. exists x', y'. cbn. auto.
Qed.

Lemma fields_keys fs ys vs : Forall3 field_restored fs ys vs ->
  map fst ys = map fst fs /\ map fst vs = map fst fs.
Proof.
  induction 1 as [|x y z l1 l2 l3 (E1 & E2 & _) Hr [IH1 IH2]]; [auto|]. cbn. split; congruence.
Qed.

Lemma field_entries_restored deny fs ys m (d' : dict) :
  NoDup (map fst fs) -> map fst ys = map fst fs ->
  (forall k v', In (k, v') d' -> exists rec y, In (k, rec) fs /\ In (k, y) ys /\ rec (mk_de m v') = Ok y) ->
  NoDup (map fst d') -> forall slots,
  (forall k, In k (map fst slots) -> ~ In k (map fst d')) ->
  exists slots', field_entries deny fs (map_access (mk_de m) d') slots = Ok slots' /\
    forall k, assoc k slots' = if existsb (ueqb k) (map fst d') then assoc k ys else assoc k slots.
Proof.
  intros N Ey. induction d' as [|[k v] r IH]; intros He Nd slots Hs.
  - exists slots. split; reflexivity.
  - cbn [map_access map field_entries fst snd] in *. inversion Nd as [|? ? Nd1 Nd2]; subst.
    destruct (He k v) as (rec & y & H1 & H2 & H3); [left; reflexivity|].
    assert (Hk : In k (map fst fs)) by (apply (in_map fst) in H1; exact H1).
    unfold next_key. rewrite field_key_str. apply existsb_ueqb in Hk. rewrite Hk.
    cbn [res_map_err res_bind]. rewrite (assoc_nodup k fs rec N H1).
    assert (As : assoc k slots = None).
    { apply assoc_none. intros Hin. apply (Hs k Hin). left. reflexivity. }
    rewrite As. unfold next_value at 1. rewrite H3. cbn [res_map_err res_bind].
    destruct (IH) with (slots := (k, y) :: slots) as (slots' & E & Ha).
    + intros k' v' Hin. apply He. right. assumption.
    + assumption.
    + cbn. intros k' [<-|Hin] Hin'; [auto|]. apply (Hs k' Hin). right. assumption.
    + exists slots'. split; [exact E|]. intros k'. rewrite Ha. cbn.
      destruct (ueqb k' k) eqn:Ek; cbn; [|reflexivity].
      apply ueqb_eq in Ek. subst k'.
      assert (X : existsb (ueqb k) (map fst r) = false) by (apply existsb_ueqb_false; assumption).
      rewrite X. symmetry. apply assoc_nodup; [rewrite Ey; exact N|assumption].
Qed.

Lemma fill_fields_restored : forall (fs : list (ustr * (deser -> res error dval))) ys slots,
  map fst ys = map fst fs -> (forall k y, In (k, y) ys -> assoc k slots = Some y) ->
  fill_fields fs slots = Ok ys.
Proof.
  induction fs as [|[n rec] fs IH]; intros [|[n' y] ys] slots E H; try discriminate E; [reflexivity|].
  injection E as -> E. cbn [fill_fields]. rewrite (H n y) by (left; reflexivity).
  cbn [res_bind]. rewrite (IH ys slots E); [reflexivity|]. intros k z Hin. apply H. right. assumption.
Qed.

Lemma get_collect_nodup (l : list (ustr * value)) k x :
  In (k, x) (collect l) -> In (k, x) l.
Proof.
  unfold collect. enough (G : forall l m, In (k, x) (extend m l) -> In (k, x) m \/ In (k, x) l).
  { intros H. destruct (G _ _ H) as [[]|H']. assumption. }
  clear l. induction l as [|[k' x'] r IH]; intros m H; cbn in H; [auto|].
  apply IH in H. destruct H as [H|H]; [|cbn; auto].
  apply In_insert in H. destruct H as [H|H]; [|auto].
  right. left. destruct H as [-> H]. apply cmp_leibniz in H. congruence.
Qed.

Lemma collect_key (l : list (ustr * value)) k : In k (map fst l) -> In k (map fst (collect l)).
Proof.
  unfold collect.
  enough (G : forall l (m : dict), In k (map fst m) \/ In k (map fst l) -> In k (map fst (extend m l))).
  { intros H. apply G. auto. }
  clear l. induction l as [|[k' x'] r IH]; intros m H; cbn in *; [tauto|].
  apply IH. destruct H as [H|[<-|H]]; [left|left|auto].
  - induction m as [|[a b] m IHm]; cbn in *; [tauto|].
    destruct (cmp k' a) eqn:E; cbn; [exact H|tauto|destruct H; auto].
  - clear IH. induction m as [|[a b] m IHm]; cbn; [auto|].
    destruct (cmp k' a) eqn:E; cbn; auto. left. symmetry. apply cmp_leibniz. exact E.
Qed.

Lemma struct_restored exp deny fs ys vs h m t d' :
  NoDup (map fst fs) -> Forall3 field_restored fs ys vs -> Forall2 entry_ut (collect vs) d' ->
  value_visit (mk_de m) (VDict t d') (struct_visitor exp deny fs h) = Ok (h ys).
Proof.
  intros N HF HU. cbn [value_visit]. unfold visit_map. cbn [struct_visitor v_map].
  destruct (fields_keys _ _ _ HF) as [Ey Ev].
  assert (Ek : map fst d' = map fst (collect vs)).
  { clear -HU. induction HU as [|a b l l' [E _] H IH]; cbn; congruence. }
  assert (Nc : NoDup (map fst (collect vs))).
  { assert (S := sorted_collect (K := ustr) vs). clear -S. revert S. generalize (collect (K := ustr) vs) as c.
    intros c S. induction c as [|[k x] r IH]; cbn; constructor.
    - destruct S as [S1 S2]. intros H. apply in_map_iff in H. destruct H as ([k' y] & E & H).
      cbn in E. subst k'. rewrite (lt_all_In (K := ustr) k r) in S1. specialize (S1 k y H).
      assert (R : cmp k k = Eq) by apply cmp_refl. congruence.
    - apply IH. apply S. }
  destruct (field_entries_restored deny fs ys m d' N Ey) with (slots := @nil (ustr * dval)) as (slots & E & Ha).
  - intros k v' Hin.
    assert (X : exists v, In (k, v) (collect vs) /\ upto_tags v v').
    { clear -HU Hin. induction HU as [|[a x] [b y] l l' [E U] H IH]; [destruct Hin|].
      destruct Hin as [Hin|Hin].
      - injection Hin as -> ->. cbn in E. subst. exists x. cbn. auto.
      - destruct (IH Hin) as (v & ? & ?). exists v. cbn. auto. }
    destruct X as (v & Hv & U). apply get_collect_nodup in Hv.
    destruct (Forall3_In3 _ _ _ _ _ HF Hv) as ([k1 rec] & [k2 y] & H1 & H2 & E1 & E2 & R).
    cbn in *. subst. exists rec, y. repeat split; auto. apply R. assumption.
  - rewrite Ek. exact Nc.
  - intros k [].
  - rewrite E. cbn [res_bind]. rewrite (fill_fields_restored fs ys slots Ey); [reflexivity|].
    intros k y Hin. rewrite Ha.
    assert (Hk : In k (map fst d')).
    { rewrite Ek. apply collect_key. rewrite Ev, <- Ey. apply (in_map fst) in Hin. exact Hin. }
    apply existsb_ueqb in Hk. rewrite Hk. apply assoc_nodup; [rewrite Ey; exact N|assumption].
Qed.

(** ** All types *)
Definition round_trips (t : ty) : Prop :=
  restorable t -> forall d, inhabits t d -> exists v,
    restores (deserialize t) d v /\ (~ vanishing t -> forall tg e, v <> VEmpty tg e).

Lemma tuple_serialized ts l :
  Forall round_trips ts -> all (map restorable ts) -> Forall2 inhabits ts l ->
  exists vs, all_ok (map serialize l) = Ok vs /\ length (map deserialize ts) = length l /\
    Forall2 (fun rd v => restores (fst rd) (snd rd) v) (combine (map deserialize ts) l) vs.
Proof.
  intros HF O. rewrite all_Forall in O. revert l. induction HF as [|t ts Ht Hr IH]; intros l H;
    inversion H as [|? d ? l' H1 H2]; subst.
  - exists []. repeat split; constructor.
  - inversion O as [|? ? O1 O2]; subst.
    destruct (Ht O1 d H1) as (v & R & _). destruct (IH O2 l' H2) as (vs & E & L & F).
    exists (v :: vs). cbn. split.
    + destruct R as [-> _]. cbn. rewrite E. reflexivity.
    + split; [congruence|]. constructor; assumption.
Qed.

Lemma fields_serialized fs l :
  Forall (fun f => round_trips (snd f)) fs -> all (map (fun f => restorable (snd f)) fs) ->
  Forall2 (fun f y => fst f = fst y /\ inhabits (snd f) (snd y)) fs l ->
  exists vs, all_ok (map (fun kv => named (fst kv, serialize (snd kv))) l) = Ok vs /\
    Forall3 field_restored (map (fun f => (fst f, deserialize (snd f))) fs) l vs.
Proof.
  intros HF O. rewrite all_Forall in O. revert l. induction HF as [|[n t] fs Ht Hr IH]; intros l H;
    inversion H as [|? [n' d] ? l' [E1 H1] H2]; subst.
  - exists []. split; constructor.
  - inversion O as [|? ? O1 O2]; subst. cbn in *. subst n'.
    destruct (Ht O1 d H1) as (v & R & _). destruct (IH O2 l' H2) as (vs & E & F).
    exists ((n, v) :: vs). split.
    + destruct R as [Rs _]. unfold named at 1. cbn [fst snd]. rewrite Rs. cbn. rewrite E. reflexivity.
    + constructor; [|exact F]. repeat split; try reflexivity; apply R.
Qed.

Lemma named_keys_nodup (fs : list (ustr * ty)) :
  map fst (map (fun f => (fst f, deserialize (snd f))) fs) = map fst fs.
Proof. rewrite map_map. reflexivity. Qed.

Ltac leaf := eexists; split; [split; [reflexivity|]|intros _ ? ?; discriminate].

Lemma roundtrip t : round_trips t.
Proof.
  induction t as [|k| | | | | |t IH|t IH|ts IH|t IH|k t IHk IH|n i dn fs IH|i t IH|i ts IH|i|i vs IH| | | | | | |a b IHa IHb]
    using ty_ind'; intros O d H; cbn [restorable] in O; try (destruct O; fail).
  - inversion H; subst. leaf. intros [i f|] v' U; apply ut_bool in U; destruct U as [t' ->].
    + cbn [deserialize mk_de de_bool]. rewrite settle_ok. destruct i; reflexivity.
    + reflexivity.
  - inversion H as [|? z Hz| | | | | | | | | | | | | | | | | | | | | | | | | | |]; subst.
    leaf. intros m v' U. apply ut_num in U. destruct U as [t' ->].
    rewrite deserialize_int by assumption.
    assert (X : num_visit (serialized_num (NInt k z)) (int_visitor k) = Ok (EVInt k z)).
    { apply in_range_holds in Hz. destruct k; try (destruct O; fail); cbn; rewrite Hz; reflexivity. }
    destruct m as [i f|]; cbn [mk_de de_num].
    + rewrite settle_ok. destruct i; cbn [interpret_as_num to_num_lossy de_any]; rewrite map_err_ok; exact X.
    + cbn [de_any]. rewrite map_err_ok. exact X.
  - inversion H; subst. leaf. intros [i f|] v' U; apply ut_num in U; destruct U as [t' ->].
    + cbn [deserialize mk_de de_num]. rewrite settle_ok. destruct i; reflexivity.
    + reflexivity.
  - inversion H; subst. leaf. intros [i f|] v' U; apply ut_num in U; destruct U as [t' ->].
    + cbn [deserialize mk_de de_num]. rewrite settle_ok. destruct i; reflexivity.
    + reflexivity.
  - inversion H; subst. leaf. intros m v' U; apply ut_char in U; destruct U as [t' ->].
    cbn [deserialize]. apply any_ok. reflexivity.
  - inversion H; subst. leaf. intros m v' U; apply ut_string in U; destruct U as [t' ->].
    cbn [deserialize]. apply any_ok. reflexivity.
  - inversion H; subst. eexists; split; [split; [reflexivity|]|cbn; tauto].
    intros m v' U; apply ut_empty in U; destruct U as [t' ->].
    cbn [deserialize]. apply any_ok. reflexivity.
  - destruct O as [O1 O2]. inversion H as [| | | | | | | |? d' Hd| | | | | | | | | | | | | | | | | | | |]; subst.
    + eexists; split; [split; [reflexivity|]|cbn; tauto].
      intros [i f|] v' U; apply ut_empty in U; destruct U as [t' ->]; reflexivity.
    + destruct (IH O1 d' Hd) as (v & [Hs Hr] & Hv). exists v. split; [split; [exact Hs|]|cbn; tauto].
      intros m v' U. specialize (Hr m v' U). cbn [deserialize].
      assert (Hne : forall tg e, v' <> VEmpty tg e).
      { intros tg e ->. destruct v; unfold upto_tags in U; cbn in U; try discriminate U.
        eapply Hv; [exact O2|reflexivity]. }
      destruct m as [i f|]; cbn [mk_de] in *; cbn [de_option].
      * apply settle_ok. destruct v'; try (cbn; rewrite Hr; reflexivity). exfalso. eapply Hne. reflexivity.
      * destruct v'; try (cbn; rewrite Hr; reflexivity). exfalso. eapply Hne. reflexivity.
  - inversion H as [| | | | | | | | |? l Hl| | | | | | | | | | | | | | | | | | |]; subst.
    assert (X : exists vs, all_ok (map serialize l) = Ok vs /\ Forall2 (restores (deserialize t)) l vs).
    { clear H. induction Hl as [|d l Hd Hl [vs [E F]]]; [exists []; split; constructor|].
      destruct (IH O d Hd) as (v & R & _). exists (v :: vs). split; [|constructor; assumption].
      destruct R as [Rs _]. cbn. rewrite Rs. cbn. rewrite E. reflexivity. }
    destruct X as (vs & E & F). exists (VArray tag_default vs).
    split; [split; [cbn; rewrite E; reflexivity|]|discriminate].
    intros m v' U. apply ut_array in U. destruct U as (t' & l' & -> & U).
    cbn [deserialize]. apply any_ok. cbn [value_visit]. unfold visit_seq. cbn [seq_visitor v_seq].
    rewrite (elements_restored _ m l vs l'); auto.
  - inversion H as [| | | | | | | | | |? l Hl| | | | | | | | | | | | | | | | | |]; subst.
    destruct (tuple_serialized ts l IH O Hl) as (vs & E & L & F). exists (VArray tag_default vs).
    split; [split; [cbn; rewrite E; reflexivity|]|discriminate].
    intros m v' U. apply ut_array in U. destruct U as (t' & l' & -> & U).
    cbn [deserialize]. apply any_ok. cbn [value_visit]. unfold visit_seq. cbn [seq_visitor v_seq].
    rewrite (tuple_restored _ _ m l vs l'); auto.
  - inversion H as [| | | | | | | | | | |? l Hs Hl| | | | | | | | | | | | | | | | |]; subst.
    assert (X : exists vs, all_ok (map (fun kv => named (fst kv, serialize (snd kv))) l) = Ok vs /\
                  Forall2 (fun d v => fst v = fst d /\ restores (deserialize t) (snd d) (snd v)) l vs).
    { clear H Hs. induction Hl as [|[k d] l Hd Hl [vs [E F]]]; [exists []; split; constructor|].
      destruct (IH O d Hd) as (v & R & _). exists ((k, v) :: vs). split; [|constructor; auto].
      destruct R as [Rs _]. cbn in *. unfold named at 1. cbn. rewrite Rs. cbn. rewrite E. reflexivity. }
    destruct X as (vs & E & F).
    assert (Sv : sorted vs).
    { apply (sorted_keys (K := ustr) l vs); [|exact Hs]. unfold keys.
      clear -F. induction F as [|a b l l' [E _] F IH]; cbn; congruence. }
    exists (map_end vs).
    split; [split; [cbn; rewrite E; reflexivity|]|discriminate].
    unfold map_end. rewrite collect_sorted by assumption.
    intros m v' U. apply ut_dict in U. destruct U as (t' & l' & -> & U).
    cbn [deserialize]. apply any_ok. cbn [value_visit]. unfold visit_map. cbn [map_visitor v_map].
    rewrite (map_restored _ m l vs l'); auto. cbn. f_equal. f_equal.
    change (collect (K := ustr) l = l). apply collect_sorted. assumption.
  - destruct O as (O1 & O2 & O3).
    inversion H as [| | | | | | | | | | | | |? ? ? ? l Hl| | | | | | | | | | | | | | |]; subst.
    destruct (fields_serialized fs l IH O3 Hl) as (vs & E & F). exists (map_end vs).
    split; [split; [cbn; rewrite E; reflexivity|]|discriminate].
    intros m v' U. apply ut_dict in U. destruct U as (t' & d' & -> & U).
    cbn [deserialize].
    assert (X : de_any (mk_de m (VDict t' d'))
                  (struct_visitor (lit "struct " ++ i) dn
                     (map (fun f => (fst f, deserialize (snd f))) fs) EVStruct) = Ok (EVStruct l)).
    { apply any_ok. eapply struct_restored; [|exact F|exact U]. rewrite named_keys_nodup. exact O2. }
    destruct m as [j f|]; cbn [mk_de de_struct] in *; [|exact X].
    rewrite magic_map_none by assumption. rewrite settle_ok. exact X.
  - inversion H as [| | | | | | | | | | | | | |? ? d' Hd| | | | | | | | | | | | | |]; subst.
    destruct (IH O d' Hd) as (v & [Hs Hr] & Hv). exists v. split; [split; [exact Hs|]|exact Hv].
    intros m v' U. specialize (Hr m v' U). cbn [deserialize].
    destruct m; cbn in *; rewrite Hr; reflexivity.
  - inversion H as [| | | | | | | | | | | | | | |? ? l Hl| | | | | | | | | | | | |]; subst.
    destruct (tuple_serialized ts l IH O Hl) as (vs & E & L & F). exists (VArray tag_default vs).
    split; [split; [cbn; rewrite E; reflexivity|]|discriminate].
    intros m v' U. apply ut_array in U. destruct U as (t' & l' & -> & U).
    cbn [deserialize]. apply any_ok. cbn [value_visit]. unfold visit_seq. cbn [tuple_visitor seq_visitor v_seq].
    rewrite (tuple_restored _ _ m l vs l'); auto.
  - inversion H; subst. eexists; split; [split; [reflexivity|]|cbn; tauto].
    intros m v' U; apply ut_empty in U; destruct U as [t' ->].
    cbn [deserialize]. apply any_ok. reflexivity.
  - destruct O as [O1 O2]. rewrite all_Forall in O2. rewrite Forall_forall in O2, IH.
    cbn [deserialize].
    set (ds := fun s : shape ty => match s with
                 | ShUnit => ShUnit
                 | ShNew t => ShNew (deserialize t)
                 | ShTuple ts => ShTuple (map deserialize ts)
                 | ShStruct fs => ShStruct (map (fun f => (fst f, deserialize (snd f))) fs)
                 end).
    change (map (fun nv => (fst nv, match snd nv with
                 | ShUnit => ShUnit
                 | ShNew t => ShNew (deserialize t)
                 | ShTuple ts => ShTuple (map deserialize ts)
                 | ShStruct fs => ShStruct (map (fun f => (fst f, deserialize (snd f))) fs)
                 end)) vs) with (map (fun nv => (fst nv, ds (snd nv))) vs).
    assert (Hassoc : forall name s, In (name, s) vs ->
               existsb (ueqb name) (map fst (map (fun nv => (fst nv, ds (snd nv))) vs)) = true /\
               assoc name (map (fun nv => (fst nv, ds (snd nv))) vs) = Some (ds s)).
    { intros name s Hin. split.
      - apply existsb_ueqb. rewrite map_map. cbn. apply (in_map fst) in Hin. exact Hin.
      - rewrite assoc_map, (assoc_nodup name vs s O1 Hin). reflexivity. }
    inversion H as [| | | | | | | | | | | | | | | | | ? ? name Hin|? ? name t' d' Hin Hd|? ? name ts l Hin Hl|? ? name fs l Hin Hl| | | | | | | |];
      subst; destruct (Hassoc _ _ Hin) as [HA1 HA2].
    + leaf. intros m v' U. apply ut_string in U. destruct U as [t' ->].
      apply enum_ok. cbn [enum_visit]. unfold visit_enum. cbn [enum_visitor v_enum].
      rewrite variant_key_str, HA1. cbn [res_bind]. rewrite HA2. reflexivity.
    + destruct (IH _ Hin (O2 _ Hin) d' Hd) as (v & [Hs Hr] & Hv).
      exists (wrap_variant name v). split; [split; [cbn; rewrite Hs; reflexivity|]|discriminate].
      intros m v' U. apply ut_dict in U. destruct U as (t1 & d1 & -> & U).
      inversion U as [|? [k x] ? ? [E1 U1] U2]; subst. inversion U2; subst. cbn in E1, U1. subst k.
      apply enum_ok. cbn [enum_visit map_access map fst snd]. unfold visit_enum. cbn [enum_visitor v_enum enum_first].
      unfold next_key. rewrite variant_key_str, HA1. cbn [res_map_err res_bind]. rewrite HA2.
      cbn [ds variant_value]. unfold next_value. rewrite (Hr m x U1). reflexivity.
    + assert (O3 := O2 _ Hin). cbn in O3. assert (IH3 := IH _ Hin). cbn in IH3.
      destruct (tuple_serialized ts l IH3 O3 Hl) as (vs' & E & L & F).
      exists (wrap_variant name (VArray tag_default vs')).
      split; [split; [cbn; rewrite E; reflexivity|]|discriminate].
      intros m v' U. apply ut_dict in U. destruct U as (t1 & d1 & -> & U).
      inversion U as [|? [k x] ? ? [E1 U1] U2]; subst. inversion U2; subst. cbn in E1, U1. subst k.
      apply enum_ok. cbn [enum_visit map_access map fst snd]. unfold visit_enum. cbn [enum_visitor v_enum enum_first].
      unfold next_key. rewrite variant_key_str, HA1. cbn [res_map_err res_bind]. rewrite HA2.
      cbn [ds variant_value]. unfold next_value.
      apply ut_array in U1. destruct U1 as (t' & l' & -> & U1).
      match goal with |- context [de_any ?a ?b] => assert (X : de_any a b = Ok (EVTuple l)) end.
      { apply any_ok. cbn [value_visit]. unfold visit_seq. cbn [tuple_visitor seq_visitor v_seq].
        rewrite (tuple_restored _ _ m l vs' l'); auto. }
      rewrite X. reflexivity.
    + assert (O3 := O2 _ Hin). cbn in O3. destruct O3 as [O3 O4]. assert (IH3 := IH _ Hin). cbn in IH3.
      destruct (fields_serialized fs l IH3 O4 Hl) as (vs' & E & F).
      exists (wrap_variant name (map_end vs')).
      split; [split; [cbn; rewrite E; reflexivity|]|discriminate].
      intros m v' U. apply ut_dict in U. destruct U as (t1 & d1 & -> & U).
      inversion U as [|? [k x] ? ? [E1 U1] U2]; subst. inversion U2; subst. cbn in E1, U1. subst k.
      apply enum_ok. cbn [enum_visit map_access map fst snd]. unfold visit_enum. cbn [enum_visitor v_enum enum_first].
      unfold next_key. rewrite variant_key_str, HA1. cbn [res_map_err res_bind]. rewrite HA2.
      cbn [ds variant_value]. unfold next_value.
      apply ut_dict in U1. destruct U1 as (t' & l' & -> & U1).
      match goal with |- context [de_any ?a ?b] => assert (X : de_any a b = Ok (EVStruct l)) end.
      { apply any_ok. eapply struct_restored; [|exact F|exact U1]. rewrite named_keys_nodup. exact O3. }
      rewrite X. reflexivity.
  - inversion H; subst. leaf. intros m v' U; apply ut_num in U; destruct U as [t' ->].
    cbn [deserialize]. unfold deserialize_tag. apply res_map_ok. eexists. split.
    + apply any_ok. reflexivity.
    + cbn. rewrite Znat.N2Z.id. match goal with |- EVTag ?t = _ => destruct t end. reflexivity.
  - inversion H; subst. leaf. intros m v' U; apply ut_string in U; destruct U as [t' ->].
    cbn [deserialize]. apply any_ok. cbn. destruct p. reflexivity.
  - inversion H; subst. leaf. intros m v' U; apply ut_string in U; destruct U as [t' ->].
    cbn [deserialize]. apply any_ok. reflexivity.
  - inversion H; subst. eexists; split; [split; [reflexivity|]|cbn; tauto].
    intros [i f|] v' U; reflexivity.
  - inversion H; subst. leaf. intros m v' U; apply ut_bool in U; destruct U as [t' ->].
    cbn [deserialize]. apply any_ok. reflexivity.
Qed.
