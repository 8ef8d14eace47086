(** Extracting [Value], [Tagged], pairs and lenient booleans. *)
From Coq Require Import Ascii String ZArith NArith Bool Lia Permutation.
From Coq Require Import Floats.SpecFloat.
From Coq Require Import List.
From Verif Require Import Res BMap Str Profile Tag Num Value NumParse Metadata Err Coalesce Figment Fmt De Ser.
From Verif Require Import BMapProofs StrProofs ProfileProofs ValueProofs CoalesceProofs FigmentProofs LookupProofs
  LossyProofs.
From Verif Require Import SpecValue SpecFigment SpecLookup SpecParse SpecLossy SpecDe SpecRt SpecMagic
  DeProofs BlameProofs RtProofs.
Import ListNotations.

(** ** [Value] *)
Fixpoint as_read (o : tag) (v : value) : value :=
  match v with
  | VString t s => VString (inherits o t) s
  | VChar t c => VChar (inherits o t) c
  | VBool t b => VBool (inherits o t) b
  | VNum t n => VNum (inherits o t) (visited_num n)
  | VEmpty t e => VEmpty (inherits o t) e
  | VDict t d => VDict (inherits o t) (map (fun kv => (fst kv, as_read (inherits o t) (snd kv))) d)
  | VArray t l => VArray (inherits o t) (map (as_read (inherits o t)) l)
  end.

Lemma inherits_inherits a b c : inherits a (inherits b c) = inherits (inherits a b) c.
Proof. unfold inherits. destruct (N.eqb (metadata_id c) 0) eqn:E; [reflexivity|]. rewrite E. reflexivity. Qed.

Lemma map_tag_inherits t u : (if tag_eqb u tag_default then t else u) = inherits t u.
Proof. reflexivity. Qed.

Lemma map_tag_as_read t : forall v u, map_tag (fun _ => t) (as_read u v) = as_read (inherits t u) v.
Proof.
  induction v as [t0 s|t0 c|t0 b0|t0 n|t0 e|t0 d IH|t0 l IH] using value_ind'; intros u; cbn [as_read map_tag];
    rewrite map_tag_inherits, inherits_inherits; try reflexivity.
  - f_equal. rewrite map_map. apply map_ext_in. intros [k x] Hx. cbn [fst snd]. f_equal.
    rewrite Forall_forall in IH. rewrite (IH _ Hx). cbn [snd]. rewrite inherits_inherits. reflexivity.
  - f_equal. rewrite map_map. apply map_ext_in. intros x Hx.
    rewrite Forall_forall in IH. rewrite (IH _ Hx). rewrite inherits_inherits. reflexivity.
Qed.

Lemma inherits_self t : inherits t t = t.
Proof. unfold inherits. destruct (N.eqb _ _); reflexivity. Qed.

Lemma inherits_default t : inherits t tag_default = t.
Proof. reflexivity. Qed.

Definition raw_form (v : value) : value := set_tag tag_default (as_read (vtag v) v).

Lemma magic_free_child v k c : child k v c -> wf v -> magic_free v -> magic_free c.
Proof.
  intros Hc W H p x Hp. destruct Hc as [t d k x' Hin|t l i x' Hn].
  - apply wf_VDict in W. apply (H (SKey k :: p)). econstructor; [|exact Hp].
    apply In_get; [apply W|assumption].
  - apply (H (SElem :: p)). econstructor; [|exact Hp]. eapply nth_error_In. exact Hn.
Qed.

Lemma value_entries_plain m d : ~ In value_id (map fst d) -> ~ In value_value (map fst d) ->
  Forall (fun kv => deserialize_value (mk_de m (snd kv)) = Ok (as_read (vtag (snd kv)) (snd kv))) d ->
  forall acc, value_entries (map_access (mk_de m) d) acc None None =
    Ok (VDict tag_default (extend acc (map (fun kv => (fst kv, as_read (vtag (snd kv)) (snd kv))) d))).
Proof.
  intros N1 N2 H. induction H as [|[k x] r Hx Hr IH]; intros acc; [reflexivity|].
  cbn [map_access map value_entries fst snd] in *.
  destruct (ueqb k value_id) eqn:E1; [apply ueqb_eq in E1; subst; exfalso; apply N1; cbn; auto|].
  destruct (ueqb k value_value) eqn:E2; [apply ueqb_eq in E2; subst; exfalso; apply N2; cbn; auto|].
  unfold next_value. rewrite Hx. cbn [res_map_err res_bind]. apply IH.
  - intros H. apply N1. right. exact H.
  - intros H. apply N2. right. exact H.
Qed.

Lemma value_elements_plain m l :
  Forall (fun x => deserialize_value (mk_de m x) = Ok (as_read (vtag x) x)) l ->
  forall n, value_elements (map (mk_de m) l) n = Ok (map (fun x => as_read (vtag x) x) l).
Proof.
  induction 1 as [|x r Hx Hr IH]; intros n; [reflexivity|].
  cbn [map value_elements]. unfold next_element. rewrite Hx. cbn [res_map_err res_bind].
  rewrite IH. reflexivity.
Qed.

Lemma extend_mapped (d : dict) (g : value -> value) : sorted d ->
  extend [] (map (fun kv => (fst kv, g (snd kv))) d) = map (fun kv => (fst kv, g (snd kv))) d.
Proof.
  intros S. change (collect (K := ustr) (map (fun kv => (fst kv, g (snd kv))) d) = map (fun kv => (fst kv, g (snd kv))) d).
  apply collect_sorted. apply (sorted_keys (K := ustr) d); [|exact S]. unfold keys. rewrite map_map. reflexivity.
Qed.

Lemma value_read i f v : wf v -> magic_free v ->
  deserialize_value (DConf i f v) = Ok (as_read (vtag v) v).
Proof.
  induction v as [t s|t c|t b0|t n|t e|t d IH|t l IH] using value_ind'; intros W M;
    change (deserialize_value (DConf i f ?v)) with (deserialize_value (mk_de (MConf i f) v));
    rewrite deserialize_value_mk; cbn [vtag].
  - cbn. rewrite inherits_self. reflexivity.
  - cbn. rewrite inherits_self. reflexivity.
  - cbn. rewrite inherits_self. reflexivity.
  - cbn. rewrite inherits_self. reflexivity.
  - cbn. rewrite inherits_self. reflexivity.
  - rewrite raw_value_any.
    match goal with |- value_of_raw _ _ ?r = _ =>
      assert (X : r = Ok (VDict tag_default (map (fun kv => (fst kv, as_read (vtag (snd kv)) (snd kv))) d))) end.
    { apply any_ok. cbn [value_visit]. unfold visit_map. cbn [value_visitor v_map].
      destruct (M [] (VDict t d) (R_here _)) as [M1 M2].
      apply wf_VDict in W.
      rewrite value_entries_plain; auto.
      - do 2 f_equal. apply (extend_mapped d (fun x => as_read (vtag x) x)). apply W.
      - rewrite Forall_forall in *. intros [k x] Hx. cbn [snd]. apply (IH _ Hx).
        + destruct W as [_ W]. rewrite Forall_forall in W. apply (W _ Hx).
        + eapply magic_free_child; [|apply wf_VDict; exact W|exact M]. constructor. exact Hx. }
    rewrite X. cbn [value_of_raw at_key res_map_err res_map settle]. unfold settle. cbn [res_map_err].
    f_equal. cbn [map_tag as_read]. rewrite inherits_self. change (tag_eqb tag_default tag_default) with true.
    cbn match. f_equal. rewrite map_map. apply map_ext. intros [k x]. cbn [fst snd]. f_equal.
    rewrite map_tag_as_read. clear.
    destruct x; cbn [as_read vtag]; rewrite !inherits_self || idtac; unfold inherits;
      destruct (N.eqb (metadata_id _) 0) eqn:E; rewrite ?E; reflexivity.
  - rewrite raw_value_any.
    match goal with |- value_of_raw _ _ ?r = _ =>
      assert (X : r = Ok (VArray tag_default (map (fun x => as_read (vtag x) x) l))) end.
    { apply any_ok. cbn [value_visit]. unfold visit_seq. cbn [value_visitor v_seq].
      apply wf_VArray in W.
      rewrite value_elements_plain; auto.
      rewrite Forall_forall in *. intros x Hx. apply (IH _ Hx); [apply (W _ Hx)|].
      apply In_nth_error in Hx. destruct Hx as [j Hj].
      eapply magic_free_child; [|apply wf_VArray; rewrite Forall_forall; exact W|exact M].
      constructor. exact Hj. }
    rewrite X. cbn [value_of_raw at_key res_map_err res_map settle]. unfold settle. cbn [res_map_err].
    f_equal. cbn [map_tag as_read]. rewrite inherits_self. change (tag_eqb tag_default tag_default) with true.
    cbn match. f_equal. rewrite map_map. apply map_ext. intros x.
    rewrite map_tag_as_read. clear.
    destruct x; cbn [as_read vtag]; unfold inherits;
      destruct (N.eqb (metadata_id _) 0) eqn:E; rewrite ?E; reflexivity.
Qed.

Lemma fixed_width_visited n : match n with
    | NInt USize z => holds USize z | NInt ISize z => holds ISize z | _ => True end ->
  fixed_width n (visited_num n).
Proof.
  destruct n as [k z|x|x]; [|reflexivity|reflexivity]. destruct k; cbn; try reflexivity; intros H.
  - exists (fitting false z). split; [|reflexivity]. unfold fitting.
    destruct (in_range U8 z) eqn:E1; [exists [], [U16; U32; U64]; rewrite in_range_holds in E1; auto|].
    destruct (in_range U16 z) eqn:E2.
    { exists [U8], [U32; U64]. rewrite in_range_holds in E2. rewrite in_range_not_holds in E1. auto. }
    destruct (in_range U32 z) eqn:E3.
    { exists [U8; U16], [U64]. rewrite in_range_holds in E3. rewrite in_range_not_holds in E1, E2. auto. }
    exists [U8; U16; U32], []. rewrite in_range_not_holds in E1, E2, E3. split; [reflexivity|split; [exact H|auto]].
  - exists (fitting true z). split; [|reflexivity]. unfold fitting.
    destruct (in_range I8 z) eqn:E1; [exists [], [I16; I32; I64]; rewrite in_range_holds in E1; auto|].
    destruct (in_range I16 z) eqn:E2.
    { exists [I8], [I32; I64]. rewrite in_range_holds in E2. rewrite in_range_not_holds in E1. auto. }
    destruct (in_range I32 z) eqn:E3.
    { exists [I8; I16], [I64]. rewrite in_range_holds in E3. rewrite in_range_not_holds in E1, E2. auto. }
    exists [I8; I16; I32], []. rewrite in_range_not_holds in E1, E2, E3. split; [reflexivity|split; [exact H|auto]].
Qed.

Lemma sized_child v k c : child k v c -> wf v -> sized v -> sized c.
Proof.
  intros Hc W H p x Hp. destruct Hc as [t d k x' Hin|t l i x' Hn].
  - apply wf_VDict in W. apply (H (SKey k :: p)). econstructor; [|exact Hp].
    apply In_get; [apply W|assumption].
  - apply (H (SElem :: p)). econstructor; [|exact Hp]. eapply nth_error_In. exact Hn.
Qed.

Lemma wf_child k v c : child k v c -> wf v -> wf c.
Proof.
  intros [t d k' x Hin|t l i x Hn] W.
  - apply wf_VDict in W. destruct W as [_ W]. rewrite Forall_forall in W. exact (W _ Hin).
  - apply wf_VArray in W. rewrite Forall_forall in W. apply W. eapply nth_error_In. exact Hn.
Qed.

Lemma as_read_spec : forall v o, wf v -> sized v -> read_as o v (as_read o v).
Proof.
  induction v as [t s|t c|t b0|t n|t e|t d IH|t l IH] using value_ind'; intros o W S; cbn [as_read];
    try (constructor; fail).
  - constructor. apply fixed_width_visited. exact (S [] _ (R_here _)).
  - constructor. rewrite Forall_forall in IH.
    assert (G : forall e, incl e d -> Forall2 (fun a b => fst b = fst a /\ read_as (inherits o t) (snd a) (snd b))
      e (map (fun kv => (fst kv, as_read (inherits o t) (snd kv))) e)).
    { induction e as [|[k x] r IHr]; intros I; constructor.
      - split; [reflexivity|]. cbn [fst snd]. assert (Hin : In (k, x) d) by (apply I; left; reflexivity).
        assert (C : child k (VDict t d) x) by (constructor; exact Hin).
        apply (IH _ Hin); [eapply wf_child|eapply sized_child]; eassumption.
      - apply IHr. intros a Ha. apply I. right. exact Ha. }
    apply G. apply incl_refl.
  - constructor. rewrite Forall_forall in IH.
    assert (G : forall e, incl e l -> Forall2 (read_as (inherits o t)) e (map (as_read (inherits o t)) e)).
    { induction e as [|x r IHr]; intros I; constructor.
      - assert (Hin : In x l) by (apply I; left; reflexivity).
        destruct (In_nth_error _ _ Hin) as [j Hj].
        assert (C := child_array t l j x Hj).
        apply (IH _ Hin); [eapply wf_child|eapply sized_child]; eassumption.
      - apply IHr. intros a Ha. apply I. right. exact Ha. }
    apply G. apply incl_refl.
Qed.

Lemma as_read_exact : forall v, wf v -> no_pointer_sized v ->
  (forall p x, reach p v x -> p <> [] -> metadata_id (vtag x) <> 0%N) ->
  forall o, inherits o (vtag v) = vtag v -> as_read o v = v.
Proof.
  induction v as [t s|t c|t b0|t n|t e|t d IH|t l IH] using value_ind'; intros W S T o Ho; cbn [as_read vtag] in *;
    rewrite Ho; try reflexivity.
  - f_equal. specialize (S [] _ (R_here _)). cbn in S. destruct n as [[]| |]; cbn; tauto || reflexivity.
  - f_equal. rewrite <- (map_id d) at 2. apply map_ext_in. intros [k x] Hin. cbn [fst snd]. f_equal.
    assert (G : get k d = Some x) by (apply In_get; [apply wf_VDict in W; apply W|exact Hin]).
    assert (C : child k (VDict t d) x) by (constructor; exact Hin).
    rewrite Forall_forall in IH. apply (IH _ Hin).
    + eapply wf_child; eassumption.
    + intros p y Hp. apply (S (SKey k :: p)). econstructor; eassumption.
    + intros p y Hp _. apply (T (SKey k :: p)); [econstructor; eassumption|discriminate].
    + unfold inherits. cbn [snd]. rewrite (proj2 (N.eqb_neq _ _)); [reflexivity|].
      apply (T [SKey k]); [econstructor; [eassumption|constructor]|discriminate].
  - f_equal. rewrite <- (map_id l) at 2. apply map_ext_in. intros x Hin.
    assert (C : wf x) by (apply wf_VArray in W; rewrite Forall_forall in W; auto).
    rewrite Forall_forall in IH. apply (IH _ Hin); auto.
    + intros p y Hp. apply (S (SElem :: p)). econstructor; eassumption.
    + intros p y Hp _. apply (T (SElem :: p)); [econstructor; eassumption|discriminate].
    + unfold inherits. rewrite (proj2 (N.eqb_neq _ _)); [reflexivity|].
      apply (T [SElem]); [econstructor; [eassumption|constructor]|discriminate].
Qed.

(** ** [Tagged] *)
Lemma get_absent (d : dict) k : ~ In k (map fst d) -> get k d = None.
Proof.
  intros H. destruct (get k d) eqn:E; [|reflexivity].
  apply get_In in E. destruct E as (k' & Hk & E). apply cmp_leibniz in Hk. subst k'. exfalso. apply H.
  change k with (fst (k, v)). apply in_map. exact E.
Qed.

Lemma tagged_magic_fresh v : not_tagged v ->
  tagged_magic v = [(tagged_tag, value_of_tag (vtag v)); (tagged_value, v)].
Proof.
  intros H. unfold tagged_magic.
  assert (F : vfind_ref tagged_value v = None).
  { unfold vfind_ref. change (split_on dot tagged_value) with [tagged_value].
    cbn [find_ref_keys]. change (is_nil tagged_value) with false. cbn match.
    destruct v; try reflexivity. cbn [as_dict]. rewrite get_absent by apply H. reflexivity. }
  rewrite F.
  assert (G : forall A (a : A) g, match as_dict v with
     | Some d => match get tagged_tag d with Some x => g d x | None => a end | None => a end = a).
  { intros A a g. destruct v; try reflexivity. cbn [as_dict]. rewrite get_absent by apply H. reflexivity. }
  rewrite G. reflexivity.
Qed.

Lemma tagged_fields r1 r2 t1 t2 d1 d2 x : r1 d1 = Ok x ->
  res_bind (field_entries false [(tagged_tag, r1); (tagged_value, r2)]
              [(tagged_tag, t1, d1); (tagged_value, t2, d2)] [])
           (fill_fields [(tagged_tag, r1); (tagged_value, r2)]) =
  res_map (fun y => [(tagged_tag, x); (tagged_value, y)]) (at_key tagged_value t2 (r2 d2)).
Proof. intros H. cbn. rewrite H. cbn. destruct (r2 d2); reflexivity. Qed.

Lemma tagged_unfold t i f v : not_tagged v ->
  deserialize (TTagged t) (DConf i f v) =
  settle f (vtag v)
    (res_map (fun x => tagged_result (vtag v) x) (at_key tagged_value (vtag v) (deserialize t (DConf i f v)))).
Proof.
  intros H. unfold TTagged. cbn [deserialize map fst snd de_struct].
  change (magic_map tagged_name f v) with (Some (tagged_magic v)). cbn match.
  rewrite (tagged_magic_fresh v H). f_equal.
  cbn [map_access map fst snd]. unfold visit_map. cbn [struct_visitor v_map].
  rewrite (tagged_fields _ _ _ _ _ _ (EVTag (vtag v))).
  - destruct (at_key tagged_value (vtag v) (deserialize t (DConf i f v))); reflexivity.
  - rewrite deserialize_tag_of_tag. reflexivity.
Qed.

Lemma tagged_ok t i f v d : not_tagged v ->
  deserialize (TTagged t) (DConf i f v) = Ok d <->
  exists x, deserialize t (DConf i f v) = Ok x /\ d = tagged_result (vtag v) x.
Proof.
  intros H. rewrite (tagged_unfold _ _ _ _ H), settle_ok, res_map_ok. unfold at_key.
  setoid_rewrite map_err_ok. split; intros (x & A & B); exists x; auto.
Qed.

Lemma tagged_err t i f v e : not_tagged v -> deserialize (TTagged t) (DConf i f v) = Err e ->
  exists e', deserialize t (DConf i f v) = Err e' /\ e_kind e = e_kind e' /\
    e_path e = tagged_value :: e_path e'.
Proof.
  intros H. rewrite (tagged_unfold _ _ _ _ H). unfold settle, at_key.
  destruct (deserialize t (DConf i f v)) as [x|e0]; cbn [res_map_err res_map]; intros E; [discriminate|].
  injection E as <-. exists e0. unfold resolved, retagged, prefixed.
  destruct e0. cbn. repeat match goal with |- context [if ?b then _ else _] => destruct b end; auto.
Qed.

(** ** Lenient booleans *)
Lemma uncased_same a b : uncased_eqb a b = true <-> same_letters a b.
Proof. unfold uncased_eqb, same_letters. apply ueqb_eq. Qed.

Lemma str_switch s (b : bool) : same_letters s (if b then lit "true" else lit "false") ->
  (if uncased_eqb s (lit "true") then Ok (EVBool true)
   else if uncased_eqb s (lit "false") then Ok (EVBool false)
   else invalid_value (AStr s) (lit "true or false")) = Ok (EVBool b).
Proof.
  intros H. destruct b.
  - apply uncased_same in H. rewrite H. reflexivity.
  - destruct (uncased_eqb s (lit "true")) eqn:E.
    + apply uncased_same in E. unfold same_letters in *. rewrite E in H. discriminate.
    + apply uncased_same in H. rewrite H. reflexivity.
Qed.

Lemma switch_spec m v d :
  deserialize TBoolish (mk_de m v) = Ok d <-> exists b, d = EVBool b /\ switch v b.
Proof.
  cbn [deserialize]. rewrite (any_ok m). split.
  - destruct v as [t s|t c|t b|t n|t e|t d'|t l]; cbn [value_visit].
    + unfold visit_str. cbn [v_str boolish_visitor]. intros H.
      destruct (uncased_eqb s (lit "true")) eqn:E1.
      { injection H as <-. exists true. split; [reflexivity|]. apply sw_true, uncased_same; assumption. }
      destruct (uncased_eqb s (lit "false")) eqn:E2; [|discriminate].
      injection H as <-. exists false. split; [reflexivity|]. apply sw_false, uncased_same; assumption.
    + unfold visit_char, visit_str. cbn [v_char v_str boolish_visitor].
      replace (uncased_eqb [c] (lit "true")) with false.
      2:{ symmetry. destruct (uncased_eqb [c] (lit "true")) eqn:E; [|reflexivity]. apply uncased_same in E. discriminate E. }
      replace (uncased_eqb [c] (lit "false")) with false.
      2:{ symmetry. destruct (uncased_eqb [c] (lit "false")) eqn:E; [|reflexivity]. apply uncased_same in E. discriminate E. }
      discriminate.
    + unfold visit_bool. cbn. intros H. injection H as <-. exists b. split; [reflexivity|constructor].
    + destruct n as [k z|x|x]; [|discriminate..].
      assert (G : forall a : res error dval, (if (z =? 0)%Z || (z =? 1)%Z then Ok (EVBool (negb (z =? 0)%Z)) else a) = Ok d ->
                  (exists e, a = Err e) -> narrow k -> exists b, d = EVBool b /\ switch (VNum t (NInt k z)) b).
      { intros a H [e ->] N. destruct (Z.eqb_spec z 0) as [->|].
        - injection H as <-. exists false. split; [reflexivity|constructor; exact N].
        - destruct (Z.eqb_spec z 1) as [->|]; [|discriminate].
          injection H as <-. exists true. split; [reflexivity|constructor; exact N]. }
      unfold num_visit, visit_signed, visit_unsigned, visit_i128, visit_u128. cbn [v_signed v_unsigned boolish_visitor v_u128 v_i128].
      destruct k; try (intros H; eapply G; [exact H|unfold invalid_value; eauto|cbn; auto]; fail); discriminate.
    + destruct e; discriminate.
    + discriminate.
    + discriminate.
  - intros (b & -> & H). destruct H; try reflexivity.
    + destruct k; try reflexivity; cbn in H; tauto.
    + destruct k; try reflexivity; cbn in H; tauto.
    + apply (str_switch s true H).
    + apply (str_switch s false H).
Qed.

(** ** Pairs *)
Lemma enum_units_text i vs name : NoDup (map fst vs) -> Forall (fun nv : ustr * shape ty => snd nv = ShUnit) vs ->
  In (name, ShUnit) vs ->
  deserialize (TEnum i vs) (DStr name) = Ok (EVVariant name ShUnit).
Proof.
  intros N F Hin. cbn [deserialize de_enum]. unfold visit_enum. cbn [v_enum enum_visitor].
  rewrite map_map. cbn [fst]. unfold variant_key. cbn [de_any]. unfold visit_str. cbn [v_str].
  assert (E : existsb (ueqb name) (map (fun x : ustr * shape ty => fst x) vs) = true).
  { apply existsb_ueqb. change name with (fst (name, @ShUnit ty)). apply in_map. exact Hin. }
  rewrite E. cbn match. cbn [res_bind].
  match goal with |- context [assoc name (map (fun nv => (fst nv, @?g nv)) vs)] => idtac end.
  match goal with |- match assoc name ?l with _ => _ end = _ =>
    assert (A : assoc name l = Some ShUnit) end.
  { apply assoc_nodup.
    - rewrite map_map. exact N.
    - apply in_map_iff. exists (name, ShUnit). split; [reflexivity|exact Hin]. }
  rewrite A. reflexivity.
Qed.

Lemma textual_key k d : textual k -> inhabits k d ->
  serialize d = Ok (VString tag_default (text_of d)) /\ deserialize k (DStr (text_of d)) = Ok d.
Proof.
  intros T H. destruct H; cbn in T; try contradiction; try (split; reflexivity).
  - destruct T as [N F]. split; [reflexivity|]. apply enum_units_text; assumption.
  - destruct T as [N F]. rewrite Forall_forall in F. discriminate (F _ H).
  - destruct T as [N F]. rewrite Forall_forall in F. discriminate (F _ H).
  - destruct T as [N F]. rewrite Forall_forall in F. discriminate (F _ H).
  - destruct p. split; reflexivity.
Qed.

Lemma text_injective k l : textual k -> Forall (inhabits k) l -> NoDup l -> NoDup (map text_of l).
Proof.
  intros T. induction l as [|d r IH]; intros F N; [constructor|].
  inversion F as [|? ? Hd Hr]; subst. inversion N as [|? ? Hn Nr]; subst. cbn [map]. constructor; auto.
  intros H. apply in_map_iff in H. destruct H as (d' & E & Hin).
  rewrite Forall_forall in Hr. destruct (textual_key k d T Hd) as [_ A]. destruct (textual_key k d' T (Hr _ Hin)) as [_ B].
  rewrite E, A in B. injection B as ->. contradiction.
Qed.

Lemma insert_perm (k : ustr) (v : value) m : ~ In k (map fst m) -> Permutation (insert k v m) ((k, v) :: m).
Proof.
  induction m as [|[k' v'] r IH]; intros H; [reflexivity|]. cbn [insert].
  destruct (cmp k k') eqn:C.
  - apply cmp_leibniz in C. subst. exfalso. apply H. left. reflexivity.
  - reflexivity.
  - rewrite IH; [apply perm_swap|]. intros X. apply H. right. exact X.
Qed.

Lemma extend_perm (l : list (ustr * value)) : forall m, NoDup (map fst (m ++ l)) ->
  Permutation (extend m l) (m ++ l).
Proof.
  induction l as [|[k v] r IH]; intros m H; [rewrite app_nil_r; reflexivity|].
  change (extend m ((k, v) :: r)) with (extend (insert k v m) r).
  assert (P : Permutation (map fst (m ++ (k, v) :: r)) (k :: map fst (m ++ r))).
  { rewrite !map_app. cbn. symmetry. apply Permutation_middle. }
  assert (N := Permutation_NoDup P H). inversion N as [|? ? Hk N']; subst.
  assert (Hk' : ~ In k (map fst m)). { intros X. apply Hk. rewrite map_app. apply in_or_app. left. exact X. }
  rewrite IH.
  - rewrite (insert_perm k v m Hk'). cbn. apply Permutation_middle.
  - eapply Permutation_NoDup; [|exact N]. rewrite <- (map_cons fst (k, v)), app_comm_cons.
    apply Permutation_map. apply Permutation_app_tail. symmetry. apply insert_perm. exact Hk'.
Qed.

Lemma collect_perm (l : list (ustr * value)) : NoDup (map fst l) -> Permutation (collect l) l.
Proof. intros H. change (Permutation (extend [] l) ([] ++ l)). apply extend_perm. exact H. Qed.

Lemma F2_flip {A B} (P : A -> B -> Prop) l l' : Forall2 P l l' -> Forall2 (fun b a => P a b) l' l.
Proof. induction 1; constructor; auto. Qed.

Definition pair_restored (k : ty) rec (p : dval * dval) (kv : ustr * value) : Prop :=
  inhabits k (fst p) /\ fst kv = text_of (fst p) /\ restores rec (snd p) (snd kv).

Lemma pair_entries_restored m k rec : textual k -> forall l kvs kvs',
  Forall2 (pair_restored k rec) l kvs -> Forall2 entry_ut kvs kvs' ->
  pair_entries (deserialize k) rec (map_access (mk_de m) kvs') = Ok l.
Proof.
  intros T. induction l as [|[dk dv] r IH]; intros kvs kvs' H1 H2; inversion H1; subst; inversion H2; subst; [reflexivity|].
  destruct y as [key v], y0 as [key' v'].
  match goal with H : pair_restored _ _ _ _ |- _ => destruct H as (Hi & Hk & [_ Hr]) end.
  match goal with H : entry_ut _ _ |- _ => destruct H as [E U] end. cbn [fst snd] in *. subst key' key.
  cbn [map_access map pair_entries next_key next_value fst snd].
  destruct (textual_key k dk T Hi) as [_ ->]. cbn [res_map_err res_bind].
  rewrite (Hr m v' U). cbn [res_map_err res_bind].
  match goal with H : Forall2 entry_ut ?a ?b, G : Forall2 (pair_restored k rec) r ?a |- _ =>
    change (res_map (cons (dk, dv)) (pair_entries (deserialize k) rec (map_access (mk_de m) b)) = Ok ((dk, dv) :: r));
    rewrite (IH _ _ G H) end. reflexivity.
Qed.

Lemma pairs_restored k t l : textual k -> restorable t -> inhabits (TPairs k t) (EVPairs l) ->
  NoDup (map fst l) ->
  exists v l', serialize (EVPairs l) = Ok v /\ Permutation l l' /\
    (forall m v', untag v' = untag v -> deserialize (TPairs k t) (mk_de m v') = Ok (EVPairs l')) /\
    (sorted (K := ustr) (map (fun p => (text_of (fst p), snd p)) l) -> l' = l).
Proof.
  intros T R H N. 
  assert (F : Forall (fun kv => inhabits k (fst kv) /\ inhabits t (snd kv)) l) by (inversion H; assumption).
  assert (exists kvs, Forall2 (pair_restored k (deserialize t)) l kvs) as [kvs Hk].
  { clear N H. induction F as [|[dk dv] r [Hd Hv] Hr IH]; [exists []; constructor|].
    destruct IH as [kvs IH]. destruct (roundtrip t R _ Hv) as (v & Hv' & _).
    exists ((text_of dk, v) :: kvs). constructor; [|exact IH]. repeat split; auto; apply Hv'. }
  assert (Hs : serialize (EVPairs l) = Ok (map_end kvs)).
  { cbn [serialize]. match goal with |- res_map _ ?r = _ => assert (X : r = Ok kvs) end; [|rewrite X; reflexivity].
    apply all_ok_spec. clear -Hk T. induction Hk as [|[dk dv] [key v] l kvs (Hi & Ek & [Hs _]) Hr IH]; constructor; auto.
    cbn [fst snd] in *. destruct (textual_key k dk T Hi) as [-> _]. cbn. rewrite Hs. cbn. subst. reflexivity. }
  assert (Hkeys : map fst kvs = map text_of (map fst l)).
  { clear -Hk. induction Hk as [|p kv l kvs (_ & E & _) Hr IH]; [reflexivity|]. cbn. rewrite E, IH. reflexivity. }
  assert (Nk : NoDup (map fst kvs)).
  { rewrite Hkeys. apply (text_injective k); auto. clear -F. induction F as [|p r [A _] _ IH]; constructor; auto. }
  assert (P := collect_perm kvs Nk).
  assert (exists l', Permutation l l' /\ Forall2 (pair_restored k (deserialize t)) l' (collect kvs)) as (l' & Pl & Hl).
  { apply Permutation_sym in P. assert (Hk' : Forall2 (fun kv p => pair_restored k (deserialize t) p kv) kvs l).
    { apply F2_flip. exact Hk. }
    destruct (Permutation_Forall2 P Hk') as (l' & Pl & Hl). exists l'. split; [exact Pl|]. apply F2_flip. exact Hl. }
  exists (map_end kvs).
  assert (D : forall l2, Forall2 (pair_restored k (deserialize t)) l2 (collect kvs) ->
    forall m v', untag v' = untag (map_end kvs) -> deserialize (TPairs k t) (mk_de m v') = Ok (EVPairs l2)).
  { intros l2 Hl2 m v' U. destruct (ut_dict _ _ _ U) as (t' & d' & -> & Ud).
    cbn [deserialize]. apply any_ok. cbn [value_visit]. unfold visit_map. cbn [v_map map_visitor].
    rewrite (pair_entries_restored m k (deserialize t) T l2 _ _ Hl2 Ud). reflexivity. }
  exists l'. split; [exact Hs|]. split; [exact Pl|]. split; [apply D; exact Hl|].
  intros S.
  assert (Ec : collect kvs = kvs).
  { apply (collect_sorted (K := ustr)). apply (sorted_keys (K := ustr) (map (fun p => (text_of (fst p), snd p)) l)); [|exact S].
    unfold keys. rewrite Hkeys, !map_map. reflexivity. }
  assert (A := D l' Hl MPlain (map_end kvs) eq_refl). rewrite <- Ec in Hk.
  assert (B := D l Hk MPlain (map_end kvs) eq_refl). rewrite A in B. congruence.
Qed.

(** ** Deciding properties of every value inside a value *)
Fixpoint everywhere (P : value -> bool) (v : value) : bool :=
  P v && match v with
         | VDict _ d => forallb (fun kv => everywhere P (snd kv)) d
         | VArray _ l => forallb (everywhere P) l
         | _ => true
         end.

Lemma everywhere_reach P p v x : reach p v x -> everywhere P v = true -> P x = true.
Proof.
  induction 1 as [v|k r t d x y G R IH|r t l x y G R IH]; intros E.
  - destruct v; cbn in E; apply andb_prop in E; apply E.
  - cbn in E. apply andb_prop in E. destruct E as [_ E]. rewrite forallb_forall in E.
    apply get_In in G. destruct G as (k' & _ & G). exact (IH (E _ G)).
  - cbn in E. apply andb_prop in E. destruct E as [_ E]. rewrite forallb_forall in E.
    exact (IH (E _ G)).
Qed.

Definition magic_here (x : value) : bool :=
  match x with
  | VDict _ d => negb (existsb (ueqb value_id) (map fst d)) && negb (existsb (ueqb value_value) (map fst d))
  | _ => true
  end.
Lemma magic_free_dec v : everywhere magic_here v = true -> magic_free v.
Proof.
  intros E p x H. assert (X := everywhere_reach _ _ _ _ H E). destruct x; auto. cbn [magic_here] in X.
  apply andb_prop in X. destruct X as [A B]. rewrite negb_true_iff in A, B.
  apply existsb_ueqb_false in A, B. auto.
Qed.

Definition sized_here (x : value) : bool :=
  match x with VNum _ (NInt (USize | ISize) _) => false | _ => true end.
Lemma no_pointer_sized_dec v : everywhere sized_here v = true -> no_pointer_sized v.
Proof.
  intros E p x H. assert (X := everywhere_reach _ _ _ _ H E).
  destruct x as [| | |? [[] ?| |]| | |]; auto; discriminate.
Qed.

(** ** A map of values *)
Lemma map_entries_values i f d : forall acc,
  Forall (fun kv => wf (snd kv) /\ magic_free (snd kv)) d ->
  map_entries (deserialize TValue) (map_access (DConf i f) d) acc =
  Ok (extend acc (map (fun kv => (fst kv, EVValue (as_read (vtag (snd kv)) (snd kv)))) d)).
Proof.
  induction d as [|[k x] r IH]; intros acc H; [reflexivity|].
  inversion H as [|? ? [W M] Hr]; subst. cbn [map_access map map_entries fst snd] in *.
  unfold next_key at 1. rewrite string_key_str. cbn [res_map_err res_bind].
  unfold next_value at 1. cbn [deserialize]. rewrite (value_read i f x W M). cbn [res_map res_map_err res_bind].
  apply IH. exact Hr.
Qed.

Lemma value_map_read i f t d : wf (VDict t d) -> Forall (fun kv => sized (snd kv) /\ magic_free (snd kv)) d ->
  exists l, deserialize (TMap TValue) (DConf i f (VDict t d)) = Ok (EVMap l) /\
    Forall2 (fun kv e => fst e = fst kv /\
               exists w, snd e = EVValue w /\ read_as (vtag (snd kv)) (snd kv) w) d l.
Proof.
  intros W H. apply wf_VDict in W. destruct W as [S W].
  exists (map (fun kv => (fst kv, EVValue (as_read (vtag (snd kv)) (snd kv)))) d). split.
  - cbn [deserialize]. change (DConf i f (VDict t d)) with (mk_de (MConf i f) (VDict t d)).
    apply any_ok. cbn [value_visit]. unfold visit_map. cbn [v_map map_visitor].
    change (mk_de (MConf i f)) with (DConf i f). rewrite map_entries_values.
    + cbn [res_map]. do 2 f_equal.
      change (collect (K := ustr) (map (fun kv => (fst kv, EVValue (as_read (vtag (snd kv)) (snd kv)))) d) =
              map (fun kv => (fst kv, EVValue (as_read (vtag (snd kv)) (snd kv)))) d).
      apply collect_sorted. apply (sorted_keys (K := ustr) d); [|exact S].
      unfold keys. rewrite map_map. reflexivity.
    + rewrite Forall_forall in *. intros kv Hk. split; [exact (W _ Hk)|apply (H _ Hk)].
  - clear S. induction H as [|kv r [Hs Hm] Hr IH]; [constructor|].
    inversion W; subst. cbn [map]. constructor; [|apply IH; assumption].
    split; [reflexivity|]. eexists. split; [reflexivity|]. apply as_read_spec; assumption.
Qed.
