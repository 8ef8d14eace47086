(** Providers of serialized values. *)
From Coq Require Import Ascii String ZArith NArith Bool Lia.
From Coq Require Import Floats.SpecFloat.
From Coq Require Import List.
From Verif Require Import Res BMap Str Profile Tag Num Value NumParse Metadata Err Coalesce Figment Fmt De Ser.
From Verif Require Import BMapProofs StrProofs ProfileProofs ValueProofs CoalesceProofs FigmentProofs LookupProofs
  PriorityProofs.
From Verif Require Import SpecValue SpecFigment SpecLookup SpecParse SpecLossy SpecDe SpecRt DeProofs RtProofs.
Import ListNotations.

Lemma untag_map_tag g v : untag (map_tag g v) = untag v.
Proof.
  induction v as [t s|t c|t b0|t n|t e|t d IH|t l IH] using value_ind'; try reflexivity.
  - cbn. f_equal. rewrite map_map. apply map_ext_in. intros [k x] Hx. cbn.
    rewrite Forall_forall in IH. f_equal. exact (IH _ Hx).
  - cbn. f_equal. rewrite map_map. apply map_ext_in. intros x Hx.
    rewrite Forall_forall in IH. auto.
Qed.

Lemma serialized_sorted d : forall t m, serialize d = Ok (VDict t m) -> sorted m.
Proof.
  induction d; cbn; intros t' m H; try discriminate; try (eapply IHd; eassumption);
    try (apply res_map_ok in H; destruct H as (x & _ & H)); try discriminate H.
  - injection H as _ ->. apply sorted_collect.
  - injection H as _ ->. apply sorted_collect.
  - injection H as _ ->. apply sorted_collect.
  - destruct s; try discriminate H; apply res_map_ok in H; destruct H as (x & _ & H);
      injection H as _ ->; cbn; auto.
  - destruct v; try discriminate H. injection H as _ <-. apply sorted_collect.
Qed.

(** ** C48 *)
Lemma sz_value_nested s v ks : serialize (sz_value s) = Ok v -> key_path (sz_key s) ks ->
  sz_data s = match as_dict (nest_keys ks v) with
              | Some d => Ok [(sz_profile s, d)]
              | None => Err (err_of_kind (KInvalidType (to_actual v) (lit "map")))
              end.
Proof.
  intros Hv Hk. unfold sz_data. rewrite Hv. cbn [res_bind].
  destruct (sz_key s) as [k|]; cbn in Hk.
  - unfold nest. rewrite nest_keys_upto, (spells_upto _ _ Hk). reflexivity.
  - subst ks. reflexivity.
Qed.

Lemma nested_sorted d v ks t m : serialize d = Ok v -> nest_keys ks v = VDict t m -> sorted m.
Proof.
  intros Hd H. destruct ks as [|k r]; cbn in H; [subst v; eapply serialized_sorted; eassumption|].
  destruct (is_nil k); [subst v; eapply serialized_sorted; eassumption|].
  injection H as _ <-. cbn. auto.
Qed.

(** ** One provider *)
Lemma single_merged loc pr o c f c' p d :
  provide loc fig_new pr o c = (Ret f, c') -> pv_data pr = Ok [(p, d)] -> sorted d ->
  exists g, merged (fig_select f p) = Ok (VDict tag_default (map (fun kv => (fst kv, map_tag g (snd kv))) d)).
Proof.
  intros Hp Hd Hs. apply provide_ret in Hp. destruct Hp as (_ & _ & ->). rewrite Hd.
  cbn [f_value fig_new]. set (t := tag_new c PTDefault).
  exists (fun _ => for_profile t p).
  set (x := map (fun kv => (fst kv, map_tag (fun _ => for_profile t p) (snd kv))) d).
  assert (Sx : sorted x).
  { apply (sorted_keys (K := ustr) d x); [|exact Hs]. unfold keys, x. rewrite map_map. reflexivity. }
  match goal with |- merged (fig_select ?f p) = _ => set (F := f) end.
  assert (Hv : f_value (fig_select F p) = Ok [(p, x)]) by reflexivity.
  rewrite (merged_ok _ _ Hv) by (cbn; repeat split; auto). cbn [f_profile fig_select].
  do 2 f_equal.
  assert (G : forall q, get q [(p, x)] = if profile_eqb q p then Some x else None).
  { intros q. cbn [get]. rewrite profile_eqb_cmp. destruct (cmp q p); reflexivity. }
  assert (E : profile_eqb p p = true) by (rewrite profile_eqb_cmp, cmp_refl; reflexivity).
  assert (Sym : forall q, profile_eqb q p = profile_eqb p q).
  { intros q. rewrite !profile_eqb_cmp, (cmp_sym p q). destruct (cmp p q); reflexivity. }
  unfold data_of. rewrite !G, E, !Sym. unfold is_custom, dmerge.
  destruct (profile_eqb p p_default) eqn:E1; cbn [negb andb].
  - assert (E2 : profile_eqb p p_global = false).
    { rewrite profile_eqb_cmp in *. destruct (cmp p p_default) eqn:C; try discriminate.
      rewrite (cmp_eq_l p p_default p_global C). reflexivity. }
    rewrite E2. apply dcoalesce_nil_r. assumption.
  - destruct (profile_eqb p p_global) eqn:E2; cbn [negb andb].
    + apply dcoalesce_nil_l. assumption.
    + rewrite dcoalesce_nil_l by assumption. apply dcoalesce_nil_r. assumption.
Qed.

Lemma retag_dict g t d : exists t', VDict tag_default (map (fun kv => (fst kv, map_tag g (snd kv))) d) = VDict t' (map (fun kv => (fst kv, map_tag g (snd kv))) d) /\
  untag (VDict t' (map (fun kv => (fst kv, map_tag g (snd kv))) d)) = untag (VDict t d).
Proof.
  eexists. split; [reflexivity|]. cbn. f_equal. rewrite map_map. apply map_ext. intros [k x]. cbn.
  rewrite untag_map_tag. reflexivity.
Qed.

Lemma serialized_extracted loc tn s o c f c' t i :
  restorable t -> inhabits t (sz_value s) -> sz_key s = None ->
  provide loc fig_new (serialized_provider tn s) o c = (Ret f, c') ->
  is_ok (sz_data s) = true ->
  extract i (fig_select f (sz_profile s)) t = Ok (sz_value s).
Proof.
  intros Ht Hi Hk Hp Hok. destruct (roundtrip t Ht _ Hi) as (v & [Hs Hr] & _).
  assert (HD := sz_value_nested s v [] Hs). rewrite Hk in HD. specialize (HD eq_refl). cbn [nest_keys] in HD.
  destruct v as [| | | | |tg d|]; cbn [as_dict] in HD; try (rewrite HD in Hok; discriminate Hok).
  destruct (single_merged _ _ _ _ _ _ _ _ Hp HD) as (g & Hm).
  { eapply serialized_sorted. exact Hs. }
  unfold extract. rewrite Hm. cbn [res_bind]. apply (Hr (MConf i _)).
  destruct (retag_dict g tg d) as (t' & E & U). rewrite E. exact U.
Qed.

Lemma nested_extracted loc tn s o c f c' t i key ks :
  restorable t -> inhabits t (sz_value s) -> sz_key s = Some key -> spells key ks -> ks <> [] ->
  provide loc fig_new (serialized_provider tn s) o c = (Ret f, c') ->
  extract_inner i (fig_select f (sz_profile s)) t key = Ok (sz_value s).
Proof.
  intros Ht Hi Hk Hsp Hne Hp. destruct (roundtrip t Ht _ Hi) as (v & [Hs Hr] & _).
  assert (HD := sz_value_nested s v ks Hs). rewrite Hk in HD. specialize (HD Hsp).
  destruct ks as [|k r]; [congruence|].
  assert (exists d, nest_keys (k :: r) v = VDict tag_default d) as [d Hd].
  { assert (Hall := proj1 Hsp). inversion Hall as [|? ? [Hk2 _] _]; subst. destruct k; [congruence|]. cbn. eauto. }
  rewrite Hd in HD. cbn [as_dict] in HD.
  destruct (single_merged _ _ _ _ _ _ _ _ Hp HD) as (g & Hm).
  { eapply nested_sorted; eassumption. }
  unfold extract_inner.
  assert (Hf : find_value (fig_select f (sz_profile s)) key = Ok (map_tag g v)).
  { apply (find_value_spec _ _ _ _ Hsp). eexists. split; [exact Hm|].
    assert (A := nest_keys_at (k :: r) v (proj1 Hsp)). rewrite Hd in A.
    change (VDict tag_default (map (fun kv => (fst kv, map_tag g (snd kv))) d))
      with (set_tag tag_default (map_tag g (VDict tag_default d))).
    cbn [at_path]. cbn [at_path] in A.
    assert (B := at_path_map_tag g (k :: r) (VDict tag_default d)).
    cbn [map_tag at_path] in B. cbn [set_tag map_tag]. rewrite B. rewrite A. reflexivity. }
  rewrite Hf. cbn [res_bind]. apply map_err_ok. apply (Hr (MConf i _)). apply untag_map_tag.
Qed.

Lemma nest_keys_nested ks v : Forall plain_key ks -> nested_under ks v (nest_keys ks v).
Proof.
  induction 1 as [|k r [Hk _] Hr IH]; [constructor|]. cbn [nest_keys].
  destruct k; [congruence|]. cbn [is_nil]. constructor. exact IH.
Qed.

Lemma nested_under_fun ks v w : nested_under ks v w -> forall w', nested_under ks v w' -> w = w'.
Proof. induction 1; intros w' H'; inversion H'; subst; [reflexivity|]. do 3 f_equal. auto. Qed.

Lemma key_path_plain s ks : key_path s ks -> Forall plain_key ks.
Proof. destruct s; cbn; intros H; [apply H|subst; constructor]. Qed.

Lemma sz_data_spec s v ks m : serialize (sz_value s) = Ok v -> key_path (sz_key s) ks ->
  sz_data s = Ok m <-> exists t d, nested_under ks v (VDict t d) /\ m = [(sz_profile s, d)].
Proof.
  intros Hv Hk. rewrite (sz_value_nested s v ks Hv Hk).
  assert (H := nest_keys_nested ks v (key_path_plain _ _ Hk)).
  split.
  - destruct (nest_keys ks v) as [| | | | |t d|] eqn:E; cbn [as_dict]; try discriminate.
    intros X. injection X as <-. exists t, d. auto.
  - intros (t & d & Hn & ->). rewrite (nested_under_fun _ _ _ H _ Hn). reflexivity.
Qed.

Lemma sz_data_err s e ks : key_path (sz_key s) ks ->
  sz_data s = Err e <->
  serialize (sz_value s) = Err e \/
  exists v, serialize (sz_value s) = Ok v /\ ks = [] /\ is_dict v = false /\
            e = err_of_kind (KInvalidType (to_actual v) (lit "map")).
Proof.
  intros Hk. destruct (serialize (sz_value s)) as [v|e0] eqn:Hv.
  - rewrite (sz_value_nested s v ks Hv Hk). assert (Hp := key_path_plain _ _ Hk). split.
    + destruct (nest_keys ks v) as [| | | | |t d|] eqn:E; cbn [as_dict]; intros X; try discriminate; injection X as <-;
        (right; exists v; split; [reflexivity|]; destruct ks as [|k r];
         [cbn in E; subst v; auto|exfalso; inversion Hp as [|? ? [Hk' _] _]; subst; destruct k; [congruence|discriminate E]]).
    + intros [X|(v' & X & -> & D & ->)]; [discriminate|]. injection X as <-. cbn [nest_keys].
      destruct v; try reflexivity. discriminate D.
  - unfold sz_data. rewrite Hv. cbn [res_bind]. split; intros X; [left; congruence|].
    destruct X as [X|(v & X & _)]; congruence.
Qed.
