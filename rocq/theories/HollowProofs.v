(** Round trips of values with a [Some] around nothing. *)
From Coq Require Import Ascii String ZArith NArith Bool Lia.
From Coq Require Import Floats.SpecFloat.
From Coq Require Import List.
From Verif Require Import Res BMap Str Profile Tag Num Value NumParse Metadata Err Coalesce Figment Fmt De Ser.
From Verif Require Import BMapProofs StrProofs ValueProofs LossyProofs.
From Verif Require Import SpecParse SpecLossy SpecDe SpecRt DeProofs BlameProofs ExtractProofs RtProofs LayersProofs SpecHollow.
Import ListNotations.

Definition forget_entry (kv : ustr * dval) : ustr * dval := (fst kv, forgetful (snd kv)).

(** A serialization and what its value reads back as. *)
Definition returns (rec : deser -> res error dval) (d : dval) (v : value) : Prop :=
  serialize d = Ok v /\ forall m v', upto_tags v v' -> rec (mk_de m v') = Ok (forgetful d).

Lemma elements_returned rec m l : forall vs vs' n,
  Forall2 (returns rec) l vs -> Forall2 upto_tags vs vs' ->
  all_elements rec (map (mk_de m) vs') n = Ok (map forgetful l).
Proof.
  induction l as [|d l IH]; intros vs vs' n H1 H2; inversion H1 as [|? v ? vr [Hs Hd] H3]; subst;
    inversion H2 as [|? v' ? vr' Hv H4]; subst; cbn [map all_elements]; [reflexivity|].
  unfold next_element. rewrite (Hd m v' Hv). cbn [res_map_err res_bind].
  rewrite (IH vr vr'); auto.
Qed.

Lemma tuple_returned recs short m : forall l vs vs' n,
  Forall2 (fun rd v => returns (fst rd) (snd rd) v) (combine recs l) vs -> length recs = length l ->
  Forall2 upto_tags vs vs' ->
  tuple_elements recs short (map (mk_de m) vs') n = Ok (map forgetful l).
Proof.
  induction recs as [|rec recs IH]; intros [|d l] vs vs' n H1 HL H2; try discriminate HL;
    [reflexivity|]. cbn [combine] in H1.
  inversion H1 as [|? v ? vr [Hs Hd] H3]; subst.
  inversion H2 as [|? v' ? vr' Hv H4]; subst. cbn [map tuple_elements fst snd] in *.
  unfold next_element. rewrite (Hd m v' Hv). cbn [res_map_err res_bind].
  rewrite (IH l vr vr'); auto.
Qed.

(** ** Maps *)
Lemma map_returned rec m l : forall (vs vs' : dict) acc,
  Forall2 (fun d v => fst v = fst d /\ returns rec (snd d) (snd v)) l vs -> Forall2 entry_ut vs vs' ->
  map_entries rec (map_access (mk_de m) vs') acc = Ok (extend acc (map forget_entry l)).
Proof.
  induction l as [|[k d] l IH]; intros vs vs' acc H1 H2;
    inversion H1 as [|? [k1 v] ? vr [E1 [Hs Hd]] H3]; subst;
    inversion H2 as [|? [k2 v'] ? vr' [E2 Hv] H4]; subst; cbn [map_access map map_entries fst snd] in *;
    [reflexivity|].
  subst k1 k2. unfold next_key at 1. rewrite string_key_str. cbn [res_map_err res_bind].
  unfold next_value at 1. rewrite (Hd m v' Hv). cbn [res_map_err res_bind].
  apply (IH vr vr'); assumption.
Qed.

Definition field_returned (f : ustr * (deser -> res error dval)) (y : ustr * dval) (v : ustr * value) : Prop :=
  fst y = fst f /\ fst v = fst f /\ returns (snd f) (snd y) (snd v).

Lemma fields_keys_back fs ys vs : Forall3 field_returned fs ys vs ->
  map fst ys = map fst fs /\ map fst vs = map fst fs.
Proof.
  induction 1 as [|x y z l1 l2 l3 (E1 & E2 & _) Hr [IH1 IH2]]; [auto|]. cbn. split; congruence.
Qed.

Lemma struct_returned exp deny fs ys vs h m t d' :
  NoDup (map fst fs) -> Forall3 field_returned fs ys vs -> Forall2 entry_ut (collect vs) d' ->
  value_visit (mk_de m) (VDict t d') (struct_visitor exp deny fs h) = Ok (h (map forget_entry ys)).
Proof.
  intros N HF HU. cbn [value_visit]. unfold visit_map. cbn [struct_visitor v_map].
  destruct (fields_keys_back _ _ _ HF) as [Ey0 Ev].
  assert (Ey : map fst (map forget_entry ys) = map fst fs) by (rewrite map_map; exact Ey0).
  assert (Ek : map fst d' = map fst (collect vs)).
  { clear -HU. induction HU as [|a b l l' [E _] H IH]; cbn; congruence. }
  assert (Nc : NoDup (map fst (collect vs))).
  { assert (S := sorted_collect (K := ustr) vs). clear -S. revert S. generalize (collect (K := ustr) vs) as c.
    intros c S. induction c as [|[k x] r IH]; cbn; constructor.
    - destruct S as [S1 S2]. intros H. apply in_map_iff in H. destruct H as ([k' y] & E & H).
      cbn in E. subst k'. rewrite (lt_all_In (K := ustr) k r) in S1. specialize (S1 k y H).
      assert (R : cmp k k = Eq) by apply cmp_refl. congruence.
    - apply IH. apply S. }
  destruct (field_entries_restored deny fs (map forget_entry ys) m d' N Ey) with (slots := @nil (ustr * dval)) as (slots & E & Ha).
  - intros k v' Hin.
    assert (X : exists v, In (k, v) (collect vs) /\ upto_tags v v').
    { clear -HU Hin. induction HU as [|[a x] [b y] l l' [E U] H IH]; [destruct Hin|].
      destruct Hin as [Hin|Hin].
      - injection Hin as -> ->. cbn in E. subst. exists x. cbn. auto.
      - destruct (IH Hin) as (v & ? & ?). exists v. cbn. auto. }
    destruct X as (v & Hv & U). apply get_collect_nodup in Hv.
    destruct (Forall3_In3 _ _ _ _ _ HF Hv) as ([k1 rec] & [k2 y] & H1 & H2 & E1 & E2 & R).
    cbn in *. subst. exists rec, (forgetful y). repeat split; auto; [now apply (in_map forget_entry) in H2|]. apply R. assumption.
  - rewrite Ek. exact Nc.
  - intros k [].
  - rewrite E. cbn [res_bind]. rewrite (fill_fields_restored fs (map forget_entry ys) slots Ey); [reflexivity|].
    intros k y Hin. rewrite Ha.
    assert (Hk : In k (map fst d')).
    { rewrite Ek. apply collect_key. rewrite Ev, <- Ey. apply (in_map fst) in Hin. exact Hin. }
    apply existsb_ueqb in Hk. rewrite Hk. apply assoc_nodup; [rewrite Ey; exact N|assumption].
Qed.

(** ** All types *)
Definition comes_back (t : ty) : Prop :=
  storable t -> forall d, inhabits t d -> exists v,
    returns (deserialize t) d v /\ (if hollow d then exists e, v = VEmpty tag_default e else forall tg e, v <> VEmpty tg e).

Lemma tuple_back ts l :
  Forall comes_back ts -> all (map storable ts) -> Forall2 inhabits ts l ->
  exists vs, all_ok (map serialize l) = Ok vs /\ length (map deserialize ts) = length l /\
    Forall2 (fun rd v => returns (fst rd) (snd rd) v) (combine (map deserialize ts) l) vs.
Proof.
  intros HF O. rewrite all_Forall in O. revert l. induction HF as [|t ts Ht Hr IH]; intros l H;
    inversion H as [|? d ? l' H1 H2]; subst.
  - exists []. repeat split; constructor.
  - inversion O as [|? ? O1 O2]; subst.
    destruct (Ht O1 d H1) as (v & R & _). destruct (IH O2 l' H2) as (vs & E & L & F).
    exists (v :: vs). cbn. split.
    + destruct R as [-> _]. cbn. rewrite E. reflexivity.
    + split; [congruence|]. constructor; assumption.
Qed.

Lemma fields_back fs l :
  Forall (fun f => comes_back (snd f)) fs -> all (map (fun f => storable (snd f)) fs) ->
  Forall2 (fun f y => fst f = fst y /\ inhabits (snd f) (snd y)) fs l ->
  exists vs, all_ok (map (fun kv => named (fst kv, serialize (snd kv))) l) = Ok vs /\
    Forall3 field_returned (map (fun f => (fst f, deserialize (snd f))) fs) l vs.
Proof.
  intros HF O. rewrite all_Forall in O. revert l. induction HF as [|[n t] fs Ht Hr IH]; intros l H;
    inversion H as [|? [n' d] ? l' [E1 H1] H2]; subst.
  - exists []. split; constructor.
  - inversion O as [|? ? O1 O2]; subst. cbn in *. subst n'.
    destruct (Ht O1 d H1) as (v & R & _). destruct (IH O2 l' H2) as (vs & E & F).
    exists ((n, v) :: vs). split.
    + destruct R as [Rs _]. unfold named at 1. cbn [fst snd]. rewrite Rs. cbn. rewrite E. reflexivity.
    + constructor; [|exact F]. repeat split; try reflexivity; apply R.
Qed.

Ltac leaf := eexists; split; [split; [reflexivity|]|intros ? ?; discriminate].

Lemma come_back t : comes_back t.
Proof.
  induction t as [|k| | | | | |t IH|t IH|ts IH|t IH|k t IHk IH|n i dn fs IH|i t IH|i ts IH|i|i vs IH| | | | | | |a b IHa IHb]
    using ty_ind'; intros O d H; cbn [storable] in O; try (destruct O; fail).
  - inversion H; subst. leaf. intros [i f|] v' U; apply ut_bool in U; destruct U as [t' ->].
    + cbn [deserialize mk_de de_bool]. rewrite settle_ok. destruct i; reflexivity.
    + reflexivity.
  - inversion H as [|? z Hz| | | | | | | | | | | | | | | | | | | | | | | | | | |]; subst.
    leaf. intros m v' U. apply ut_num in U. destruct U as [t' ->].
    rewrite deserialize_int by assumption.
    assert (X : num_visit (serialized_num (NInt k z)) (int_visitor k) = Ok (EVInt k z)).
    { apply in_range_holds in Hz. destruct k; try (destruct O; fail); cbn; rewrite Hz; reflexivity. }
    destruct m as [i f|]; cbn [mk_de de_num].
    + rewrite settle_ok. destruct i; cbn [interpret_as_num to_num_lossy de_any]; rewrite map_err_ok; exact X.
    + cbn [de_any]. rewrite map_err_ok. exact X.
  - inversion H; subst. leaf. intros [i f|] v' U; apply ut_num in U; destruct U as [t' ->].
    + cbn [deserialize mk_de de_num]. rewrite settle_ok. destruct i; reflexivity.
    + reflexivity.
  - inversion H; subst. leaf. intros [i f|] v' U; apply ut_num in U; destruct U as [t' ->].
    + cbn [deserialize mk_de de_num]. rewrite settle_ok. destruct i; reflexivity.
    + reflexivity.
  - inversion H; subst. leaf. intros m v' U; apply ut_char in U; destruct U as [t' ->].
    cbn [deserialize]. apply any_ok. reflexivity.
  - inversion H; subst. leaf. intros m v' U; apply ut_string in U; destruct U as [t' ->].
    cbn [deserialize]. apply any_ok. reflexivity.
  - inversion H; subst. eexists; split; [split; [reflexivity|]|cbn; eauto].
    intros m v' U; apply ut_empty in U; destruct U as [t' ->].
    cbn [deserialize]. apply any_ok. reflexivity.
  - inversion H as [| | | | | | | |? d' Hd| | | | | | | | | | | | | | | | | | | |]; subst.
    + eexists; split; [split; [reflexivity|]|cbn; eauto].
      intros [i f|] v' U; apply ut_empty in U; destruct U as [t' ->]; reflexivity.
    + destruct (IH O d' Hd) as (v & [Hs Hr] & Hv). exists v. split; [split; [exact Hs|]|exact Hv].
      intros m v' U. specialize (Hr m v' U). cbn [deserialize forgetful].
      destruct (hollow d').
      * destruct Hv as [e ->]. apply ut_empty in U. destruct U as [t' ->]. destruct m, e; reflexivity.
      * assert (Hne : forall tg e, v' <> VEmpty tg e).
        { intros tg e ->. destruct v; unfold upto_tags in U; cbn in U; try discriminate U.
          eapply Hv; reflexivity. }
        destruct m as [i f|]; cbn [mk_de] in *; cbn [de_option].
        -- apply settle_ok. destruct v'; try (cbn; rewrite Hr; reflexivity). exfalso. eapply Hne. reflexivity.
        -- destruct v'; try (cbn; rewrite Hr; reflexivity). exfalso. eapply Hne. reflexivity.
  - inversion H as [| | | | | | | | |? l Hl| | | | | | | | | | | | | | | | | | |]; subst.
    assert (X : exists vs, all_ok (map serialize l) = Ok vs /\ Forall2 (returns (deserialize t)) l vs).
    { clear H. induction Hl as [|d l Hd Hl [vs [E F]]]; [exists []; split; constructor|].
      destruct (IH O d Hd) as (v & R & _). exists (v :: vs). split; [|constructor; assumption].
      destruct R as [Rs _]. cbn. rewrite Rs. cbn. rewrite E. reflexivity. }
    destruct X as (vs & E & F). exists (VArray tag_default vs).
    split; [split; [cbn; rewrite E; reflexivity|]|intros; discriminate].
    intros m v' U. apply ut_array in U. destruct U as (t' & l' & -> & U).
    cbn [deserialize]. apply any_ok. cbn [value_visit]. unfold visit_seq. cbn [seq_visitor v_seq].
    rewrite (elements_returned _ m l vs l'); auto.
  - inversion H as [| | | | | | | | | |? l Hl| | | | | | | | | | | | | | | | | |]; subst.
    destruct (tuple_back ts l IH O Hl) as (vs & E & L & F). exists (VArray tag_default vs).
    split; [split; [cbn; rewrite E; reflexivity|]|intros; discriminate].
    intros m v' U. apply ut_array in U. destruct U as (t' & l' & -> & U).
    cbn [deserialize]. apply any_ok. cbn [value_visit]. unfold visit_seq. cbn [seq_visitor v_seq].
    rewrite (tuple_returned _ _ m l vs l'); auto.
  - inversion H as [| | | | | | | | | | |? l Hs Hl| | | | | | | | | | | | | | | | |]; subst.
    assert (X : exists vs, all_ok (map (fun kv => named (fst kv, serialize (snd kv))) l) = Ok vs /\
                  Forall2 (fun d v => fst v = fst d /\ returns (deserialize t) (snd d) (snd v)) l vs).
    { clear H Hs. induction Hl as [|[k d] l Hd Hl [vs [E F]]]; [exists []; split; constructor|].
      destruct (IH O d Hd) as (v & R & _). exists ((k, v) :: vs). split; [|constructor; auto].
      destruct R as [Rs _]. cbn in *. unfold named at 1. cbn. rewrite Rs. cbn. rewrite E. reflexivity. }
    destruct X as (vs & E & F).
    assert (Sv : sorted vs).
    { apply (sorted_keys (K := ustr) l vs); [|exact Hs]. unfold keys.
      clear -F. induction F as [|a b l l' [E _] F IH]; cbn; congruence. }
    exists (map_end vs).
    split; [split; [cbn; rewrite E; reflexivity|]|intros; discriminate].
    unfold map_end. rewrite collect_sorted by assumption.
    intros m v' U. apply ut_dict in U. destruct U as (t' & l' & -> & U).
    cbn [deserialize]. apply any_ok. cbn [value_visit]. unfold visit_map. cbn [map_visitor v_map].
    rewrite (map_returned _ m l vs l'); auto. cbn. f_equal. f_equal.
    change (collect (K := ustr) (map forget_entry l) = map forget_entry l). apply collect_sorted.
    apply (sorted_keys (K := ustr) l); [|exact Hs]. unfold keys. rewrite map_map. reflexivity.
  - destruct O as (O1 & O2 & O3).
    inversion H as [| | | | | | | | | | | | |? ? ? ? l Hl| | | | | | | | | | | | | | |]; subst.
    destruct (fields_back fs l IH O3 Hl) as (vs & E & F). exists (map_end vs).
    split; [split; [cbn; rewrite E; reflexivity|]|intros; discriminate].
    intros m v' U. apply ut_dict in U. destruct U as (t' & d' & -> & U).
    cbn [deserialize].
    assert (X : de_any (mk_de m (VDict t' d'))
                  (struct_visitor (lit "struct " ++ i) dn
                     (map (fun f => (fst f, deserialize (snd f))) fs) EVStruct) = Ok (EVStruct (map forget_entry l))).
    { apply any_ok. eapply struct_returned; [|exact F|exact U]. rewrite named_keys_nodup. exact O2. }
    destruct m as [j f|]; cbn [mk_de de_struct] in *; [|exact X].
    rewrite magic_map_none by assumption. rewrite settle_ok. exact X.
  - inversion H as [| | | | | | | | | | | | | |? ? d' Hd| | | | | | | | | | | | | |]; subst.
    destruct (IH O d' Hd) as (v & [Hs Hr] & Hv). exists v. split; [split; [exact Hs|]|exact Hv].
    intros m v' U. specialize (Hr m v' U). cbn [deserialize].
    destruct m; cbn in *; rewrite Hr; reflexivity.
  - inversion H as [| | | | | | | | | | | | | | |? ? l Hl| | | | | | | | | | | | |]; subst.
    destruct (tuple_back ts l IH O Hl) as (vs & E & L & F). exists (VArray tag_default vs).
    split; [split; [cbn; rewrite E; reflexivity|]|intros; discriminate].
    intros m v' U. apply ut_array in U. destruct U as (t' & l' & -> & U).
    cbn [deserialize]. apply any_ok. cbn [value_visit]. unfold visit_seq. cbn [tuple_visitor seq_visitor v_seq].
    rewrite (tuple_returned _ _ m l vs l'); auto.
  - inversion H; subst. eexists; split; [split; [reflexivity|]|cbn; eauto].
    intros m v' U; apply ut_empty in U; destruct U as [t' ->].
    cbn [deserialize]. apply any_ok. reflexivity.
  - destruct O as [O1 O2]. rewrite all_Forall in O2. rewrite Forall_forall in O2, IH.
    cbn [deserialize].
    set (ds := fun s : shape ty => match s with
                 | ShUnit => ShUnit
                 | ShNew t => ShNew (deserialize t)
                 | ShTuple ts => ShTuple (map deserialize ts)
                 | ShStruct fs => ShStruct (map (fun f => (fst f, deserialize (snd f))) fs)
                 end).
    change (map (fun nv => (fst nv, match snd nv with
                 | ShUnit => ShUnit
                 | ShNew t => ShNew (deserialize t)
                 | ShTuple ts => ShTuple (map deserialize ts)
                 | ShStruct fs => ShStruct (map (fun f => (fst f, deserialize (snd f))) fs)
                 end)) vs) with (map (fun nv => (fst nv, ds (snd nv))) vs).
    assert (Hassoc : forall name s, In (name, s) vs ->
               existsb (ueqb name) (map fst (map (fun nv => (fst nv, ds (snd nv))) vs)) = true /\
               assoc name (map (fun nv => (fst nv, ds (snd nv))) vs) = Some (ds s)).
    { intros name s Hin. split.
      - apply existsb_ueqb. rewrite map_map. cbn. apply (in_map fst) in Hin. exact Hin.
      - rewrite assoc_map, (assoc_nodup name vs s O1 Hin). reflexivity. }
    inversion H as [| | | | | | | | | | | | | | | | | ? ? name Hin|? ? name t' d' Hin Hd|? ? name ts l Hin Hl|? ? name fs l Hin Hl| | | | | | | |];
      subst; destruct (Hassoc _ _ Hin) as [HA1 HA2].
    + leaf. intros m v' U. apply ut_string in U. destruct U as [t' ->].
      apply enum_ok. cbn [enum_visit]. unfold visit_enum. cbn [enum_visitor v_enum].
      rewrite variant_key_str, HA1. cbn [res_bind]. rewrite HA2. reflexivity.
    + destruct (IH _ Hin (O2 _ Hin) d' Hd) as (v & [Hs Hr] & Hv).
      exists (wrap_variant name v). split; [split; [cbn; rewrite Hs; reflexivity|]|intros; discriminate].
      intros m v' U. apply ut_dict in U. destruct U as (t1 & d1 & -> & U).
      inversion U as [|? [k x] ? ? [E1 U1] U2]; subst. inversion U2; subst. cbn in E1, U1. subst k.
      apply enum_ok. cbn [enum_visit map_access map fst snd]. unfold visit_enum. cbn [enum_visitor v_enum enum_first].
      unfold next_key. rewrite variant_key_str, HA1. cbn [res_map_err res_bind]. rewrite HA2.
      cbn [ds variant_value]. unfold next_value. rewrite (Hr m x U1). reflexivity.
    + assert (O3 := O2 _ Hin). cbn in O3. assert (IH3 := IH _ Hin). cbn in IH3.
      destruct (tuple_back ts l IH3 O3 Hl) as (vs' & E & L & F).
      exists (wrap_variant name (VArray tag_default vs')).
      split; [split; [cbn; rewrite E; reflexivity|]|intros; discriminate].
      intros m v' U. apply ut_dict in U. destruct U as (t1 & d1 & -> & U).
      inversion U as [|? [k x] ? ? [E1 U1] U2]; subst. inversion U2; subst. cbn in E1, U1. subst k.
      apply enum_ok. cbn [enum_visit map_access map fst snd]. unfold visit_enum. cbn [enum_visitor v_enum enum_first].
      unfold next_key. rewrite variant_key_str, HA1. cbn [res_map_err res_bind]. rewrite HA2.
      cbn [ds variant_value]. unfold next_value.
      apply ut_array in U1. destruct U1 as (t' & l' & -> & U1).
      match goal with |- context [de_any ?a ?b] => assert (X : de_any a b = Ok (EVTuple (map forgetful l))) end.
      { apply any_ok. cbn [value_visit]. unfold visit_seq. cbn [tuple_visitor seq_visitor v_seq].
        rewrite (tuple_returned _ _ m l vs' l'); auto. }
      rewrite X. reflexivity.
    + assert (O3 := O2 _ Hin). cbn in O3. destruct O3 as [O3 O4]. assert (IH3 := IH _ Hin). cbn in IH3.
      destruct (fields_back fs l IH3 O4 Hl) as (vs' & E & F).
      exists (wrap_variant name (map_end vs')).
      split; [split; [cbn; rewrite E; reflexivity|]|intros; discriminate].
      intros m v' U. apply ut_dict in U. destruct U as (t1 & d1 & -> & U).
      inversion U as [|? [k x] ? ? [E1 U1] U2]; subst. inversion U2; subst. cbn in E1, U1. subst k.
      apply enum_ok. cbn [enum_visit map_access map fst snd]. unfold visit_enum. cbn [enum_visitor v_enum enum_first].
      unfold next_key. rewrite variant_key_str, HA1. cbn [res_map_err res_bind]. rewrite HA2.
      cbn [ds variant_value]. unfold next_value.
      apply ut_dict in U1. destruct U1 as (t' & l' & -> & U1).
      match goal with |- context [de_any ?a ?b] => assert (X : de_any a b = Ok (EVStruct (map forget_entry l))) end.
      { apply any_ok. eapply struct_returned; [|exact F|exact U1]. rewrite named_keys_nodup. exact O3. }
      rewrite X. reflexivity.
  - inversion H; subst. leaf. intros m v' U; apply ut_num in U; destruct U as [t' ->].
    cbn [deserialize]. unfold deserialize_tag. apply res_map_ok. eexists. split.
    + apply any_ok. reflexivity.
    + cbn. rewrite Znat.N2Z.id. match goal with |- EVTag ?t = _ => destruct t end. reflexivity.
  - inversion H; subst. leaf. intros m v' U; apply ut_string in U; destruct U as [t' ->].
    cbn [deserialize]. apply any_ok. cbn. destruct p. reflexivity.
  - inversion H; subst. leaf. intros m v' U; apply ut_string in U; destruct U as [t' ->].
    cbn [deserialize]. apply any_ok. reflexivity.
  - inversion H; subst. eexists; split; [split; [reflexivity|]|cbn; eauto].
    intros [i f|] v' U; reflexivity.
  - inversion H; subst. leaf. intros m v' U; apply ut_bool in U; destruct U as [t' ->].
    cbn [deserialize]. apply any_ok. reflexivity.
Qed.

(** ** Twice is as good as once *)
Lemma forgetful_hollow d : hollow (forgetful d) = hollow d.
Proof. induction d; cbn; try reflexivity; [destruct (hollow d) eqn:E; cbn; auto|assumption]. Qed.
Lemma map_idem {A} (f : A -> A) l : Forall (fun x => f (f x) = f x) l -> map f (map f l) = map f l.
Proof. induction 1 as [|x l E _ IH]; cbn; congruence. Qed.
Lemma entries_idem l : Forall (fun kv : ustr * dval => forgetful (forgetful (snd kv)) = forgetful (snd kv)) l ->
  map forget_entry (map forget_entry l) = map forget_entry l.
Proof.
  intros H. apply map_idem. revert H. apply Forall_impl. intros [k d] E. unfold forget_entry. cbn in *. now rewrite E.
Qed.
Lemma forgetful_idem : forall d, forgetful (forgetful d) = forgetful d.
Proof.
  apply (dval_ind' (fun d => forgetful (forgetful d) = forgetful d)).
  - intros d S. destruct d; try contradiction; reflexivity.
  - intros d IH. repeat split; cbn; try congruence. destruct (hollow d) eqn:E; [reflexivity|]. cbn. rewrite forgetful_hollow, E. congruence.
  - intros l IH. split; cbn; f_equal; now apply map_idem.
  - intros l IH. split; cbn; f_equal; now apply entries_idem.
  - reflexivity.
  - intros name s IH. cbn. f_equal. destruct s; cbn in *; f_equal; [assumption|now apply map_idem|now apply entries_idem].
Qed.

Definition kept (t : ty) : Prop := forall d, inhabits t d -> inhabits t (forgetful d).
Lemma tuple_kept ts l : Forall kept ts -> Forall2 inhabits ts l -> Forall2 inhabits ts (map forgetful l).
Proof. intros H F. induction F; cbn; inversion H; subst; constructor; auto. Qed.
Lemma fields_kept (fs : list (ustr * ty)) l : Forall (fun f => kept (snd f)) fs ->
  Forall2 (fun f y => fst f = fst y /\ inhabits (snd f) (snd y)) fs l ->
  Forall2 (fun f y => fst f = fst y /\ inhabits (snd f) (snd y)) fs (map forget_entry l).
Proof.
  intros H F. induction F as [|[n t] [n' d] fs l [E I] F IH]; cbn; inversion H; subst; constructor; auto.
  cbn [fst snd forget_entry] in *. auto.
Qed.
Lemma inhabits_forgetful : forall t, kept t.
Proof.
  induction t as [|k| | | | | |t IH|t IH|ts IH|t IH|k t IHk IH|n i dn fs IH|i t IH|i ts IH|i|i vs IH| | | | | | |a b IHa IHb]
    using ty_ind'; intros d H; try (inversion H; subst; cbn; constructor; assumption).
  - inversion H; subst; cbn; [constructor|]. destruct (hollow d0); constructor. auto.
  - inversion H; subst. cbn. constructor. apply Forall_map. eapply Forall_impl; [|eassumption]. auto.
  - inversion H; subst. cbn. constructor. now apply tuple_kept.
  - inversion H; subst. cbn. constructor.
    + apply (sorted_keys (K := ustr) l); [|assumption]. unfold keys. rewrite map_map. reflexivity.
    + apply Forall_map. eapply Forall_impl; [|eassumption]. cbn. auto.
  - inversion H; subst. cbn. constructor. now apply fields_kept.
  - inversion H; subst. cbn. constructor. now apply IH.
  - inversion H; subst. cbn. constructor. now apply tuple_kept.
  - rewrite Forall_forall in IH.
    inversion H as [| | | | | | | | | | | | | | | | | ? ? name Hin|? ? name t' d' Hin Hd|? ? name ts l Hin Hl|? ? name fs l Hin Hl| | | | | | | |];
      subst; cbn; specialize (IH _ Hin); cbn in IH.
    + now constructor.
    + econstructor; [eassumption|]. now apply IH.
    + econstructor; [eassumption|]. now apply tuple_kept.
    + econstructor; [eassumption|]. now apply fields_kept.
Qed.
