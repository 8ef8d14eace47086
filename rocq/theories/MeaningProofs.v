(** Typed extraction does what [SpecExtract.extracts] says. *)
From Coq Require Import Ascii String ZArith NArith Bool Lia.
From Coq Require Import Floats.SpecFloat.
From Coq Require Import List.
From Verif Require Import SpecNear NearProofs.
From Verif Require Import Res BMap Str Profile Tag Num Value NumParse Metadata Err Coalesce Figment Fmt De.
From Verif Require Import SpecValue SpecParse SpecLossy SpecDe SpecMagic SpecExtract.
From Verif Require Import BMapProofs StrProofs ValueProofs NumParseProofs LossyProofs DeProofs BlameProofs
  ExtractProofs SpecRt RtProofs SerProofs MagicProofs.
Import ListNotations.

Definition mode_interp (m : mode) : interp := match m with MConf i _ => i | MPlain => Exact end.

(** ** Scalars *)
Lemma bool_extracted m v y :
  de_bool (mk_de m v) bool_visitor = Ok y <-> exists b, stands_for_bool (mode_interp m) v b /\ y = EVBool b.
Proof.
  assert (P : value_visit DPlain v bool_visitor = Ok y <-> exists t b, v = VBool t b /\ y = EVBool b).
  { split.
    - destruct v as [t s|t c|t b|t [[]| |]|t []|t d|t l]; try discriminate.
      cbn. intros H. injection H as <-. eauto.
    - intros (t & b & -> & ->). reflexivity. }
  destruct m as [i f|]; cbn [mk_de de_bool mode_interp].
  - rewrite settle_ok. cbn [de_any]. rewrite map_err_ok.
    destruct i; cbn [interpret_as_bool].
    + rewrite P. split.
      * intros (t & b & -> & ->). eexists. split; [constructor|reflexivity].
      * intros (b & H & ->). inversion H; subst. eauto.
    + destruct (to_bool_lossy v) as [b|] eqn:E.
      * split.
        -- cbn. intros H. injection H as <-. exists b. split; [|reflexivity]. apply sb_lossy.
           apply to_bool_lossy_spec. exact E.
        -- intros (b' & H & ->). assert (b = b') as <-; [|reflexivity].
           inversion H as [? t ?|? ? Hb]; subst.
           ++ cbn in E. congruence.
           ++ apply to_bool_lossy_spec in Hb. congruence.
      * rewrite P. split.
        -- intros (t & b & -> & ->). discriminate E.
        -- intros (b' & H & ->). inversion H as [? t ?|? ? Hb]; subst; [eauto|].
           apply to_bool_lossy_spec in Hb. congruence.
  - cbn [de_any]. rewrite map_err_ok, P. split.
    + intros (t & b & -> & ->). eexists. split; [constructor|reflexivity].
    + intros (b & H & ->). inversion H; subst. eauto.
Qed.

Lemma num_extracted (vis : visitor dval) m v y :
  (forall v y, value_visit DPlain v vis = Ok y -> exists t n, v = VNum t n) ->
  de_num (mk_de m v) vis = Ok y <->
  exists n, stands_for_num (mode_interp m) v n /\ num_visit n vis = Ok y.
Proof.
  intros P.
  assert (Q : value_visit DPlain v vis = Ok y <-> exists t n, v = VNum t n /\ num_visit n vis = Ok y).
  { split.
    - intros H. destruct (P _ _ H) as (t & n & ->). eauto.
    - intros (t & n & -> & H). exact H. }
  assert (X : value_visit DPlain v vis = Ok y <->
              exists n, stands_for_num Exact v n /\ num_visit n vis = Ok y).
  { rewrite Q. split.
    - intros (t & n & -> & H). exists n. split; [constructor|exact H].
    - intros (n & H & E). inversion H; subst. eauto. }
  destruct m as [i f|]; cbn [mk_de de_num mode_interp].
  - rewrite settle_ok. cbn [de_any]. rewrite map_err_ok.
    destruct i; cbn [interpret_as_num]; [exact X|].
    destruct (to_num_lossy v) as [n|] eqn:E.
    + cbn [value_visit]. split.
      * intros H. exists n. split; [|exact H].
        destruct v as [t s|t c|t b|t n'|t e|t d|t l]; try discriminate E.
        -- constructor. apply num_from_str_spec. exact E.
        -- injection E as <-. constructor.
      * intros (n' & H & H'). assert (n = n') as ->; [|exact H'].
        inversion H as [? t ?|t s ? Hs]; subst; cbn in E; [congruence|].
        apply num_from_str_spec in Hs. congruence.
    + rewrite Q. split.
      * intros (t & n & -> & _). discriminate E.
      * intros (n & H & _). inversion H as [? t ?|t s ? Hs]; subst; [discriminate E|].
        apply num_from_str_spec in Hs. cbn in E. congruence.
  - cbn [de_any]. rewrite map_err_ok. exact X.
Qed.

Lemma f64_visits v y : value_visit DPlain v f64_visitor = Ok y -> exists t n, v = VNum t n.
Proof. destruct v as [t s|t c|t b|t n|t []|t d|t l]; try discriminate; eauto. Qed.
Lemma f32_visits v y : value_visit DPlain v f32_visitor = Ok y -> exists t n, v = VNum t n.
Proof. destruct v as [t s|t c|t b|t n|t []|t d|t l]; try discriminate; eauto. Qed.
Lemma int_visits k v y : value_visit DPlain v (int_visitor k) = Ok y -> exists t n, v = VNum t n.
Proof. intros H. apply int_visit_nonnum in H. destruct H as (t & n & -> & _). eauto. Qed.

Lemma f64_num n y : num_visit n f64_visitor = Ok y <-> exists x, as_double n x /\ y = EVF64 x.
Proof.
  split.
  - destruct n as [k z|x|x].
    + intros H. exists (int_to_float f64_prec f64_emax z).
      destruct k; try discriminate H; cbn [num_visit] in H;
        unfold visit_signed, visit_unsigned in H; cbn [v_signed v_unsigned f64_visitor] in H;
        injection H as <-; (split; [constructor; [exact I|apply int_nearest; exact ok_double]|reflexivity]).
    + cbn. intros H. injection H as <-. eexists. split; [constructor|reflexivity]. apply widen_converted. reflexivity.
    + cbn. intros H. injection H as <-. eexists. split; [constructor|reflexivity].
  - intros (x & H & ->). destruct H as [j z x N R|x|x y C]; [|reflexivity|apply widen_converted in C; subst y; reflexivity].
    apply (int_converted _ _ _ _ ok_double) in R. subst x. destruct j; try (destruct N; fail); reflexivity.
Qed.
Lemma f32_num n y : num_visit n f32_visitor = Ok y <-> exists x, as_single n x /\ y = EVF32 x.
Proof.
  split.
  - destruct n as [k z|x|x].
    + intros H. exists (int_to_float f32_prec f32_emax z).
      destruct k; try discriminate H; cbn [num_visit] in H;
        unfold visit_signed, visit_unsigned in H; cbn [v_signed v_unsigned f32_visitor] in H;
        injection H as <-; (split; [constructor; [exact I|apply int_nearest; exact ok_single]|reflexivity]).
    + cbn. intros H. injection H as <-. eexists. split; [constructor|reflexivity].
    + cbn. intros H. injection H as <-. eexists. split; [constructor|reflexivity]. apply narrow_converted. reflexivity.
  - intros (x & H & ->). destruct H as [j z x N R|x|x y C]; [|reflexivity|apply narrow_converted in C; subst y; reflexivity].
    apply (int_converted _ _ _ _ ok_single) in R. subst x. destruct j; try (destruct N; fail); reflexivity.
Qed.

Lemma text_extracted m exp h v y :
  de_any (mk_de m v) (str_visitor exp (fun s => Ok (h s))) = Ok y <-> exists s, text v s /\ y = h s.
Proof.
  rewrite (any_ok m). split.
  - destruct v as [t s|t c|t b|t [[]| |]|t []|t d|t l]; try discriminate; cbn; intros H; injection H as <-;
      eexists; (split; [constructor|reflexivity]).
  - intros (s & H & ->). destruct H; reflexivity.
Qed.

Lemma char_extracted m v y :
  de_any (mk_de m v) char_visitor = Ok y <-> exists c, text v [c] /\ y = EVChar c.
Proof.
  rewrite (any_ok m). split.
  - destruct v as [t s|t c|t b|t [[]| |]|t []|t d|t l]; try discriminate; cbn.
    + destruct s as [|c [|c' s]]; try discriminate. intros H. injection H as <-.
      exists c. split; [constructor|reflexivity].
    + intros H. injection H as <-. exists c. split; [constructor|reflexivity].
  - intros (c & H & ->). inversion H; subst; reflexivity.
Qed.

Lemma unit_extracted m exp v y :
  de_any (mk_de m v) (unit_visitor exp) = Ok y <-> (exists g, v = VEmpty g EUnit) /\ y = EVUnit.
Proof.
  rewrite (any_ok m). split.
  - destruct v as [t s|t c|t b|t [[]| |]|t []|t d|t l]; try discriminate; cbn; intros H; injection H as <-.
    eauto.
  - intros [[g ->] ->]. reflexivity.
Qed.

Lemma tag_extracted m v y :
  res_map EVTag (deserialize_tag (mk_de m v)) = Ok y <->
  exists g n z, v = VNum g n /\ unsigned64 n z /\ y = EVTag (Tag (Z.to_N z)).
Proof.
  rewrite res_map_ok. unfold deserialize_tag.
  assert (X : forall t, de_any (mk_de m v) tag_visitor = Ok t <->
              exists g n z, v = VNum g n /\ unsigned64 n z /\ t = Tag (Z.to_N z)).
  { intros t. rewrite (any_ok m). split.
    - destruct v as [g s|g c|g b|g [k z| |]|g []|g d|g l]; try discriminate; intros H.
      exists g, (NInt k z), z. split; [reflexivity|].
      destruct k; try discriminate H; cbn in H; injection H as <-;
        (split; [eexists; split; [reflexivity|cbn; tauto]|reflexivity]).
    - intros (g & n & z & -> & (j & -> & Hj) & ->).
      cbn in Hj. destruct Hj as [<-|[<-|[<-|[<-|[<-|[]]]]]]; reflexivity. }
  split.
  - intros (t & H & ->). apply X in H. destruct H as (g & n & z & A & B & ->). exists g, n, z. auto.
  - intros (g & n & z & A & B & ->). eexists. split; [|reflexivity]. apply X. exists g, n, z. auto.
Qed.

(** ** What a [Deserialize] impl has to do *)
Record means (m : mode) (opt : Prop) (R : value -> dval -> Prop) (rec : deser -> res error dval) : Prop := {
  mn_value : forall v y, wf v -> (rec (mk_de m v) = Ok y <-> R v y);
  mn_missing : forall n y, rec (DMissing n) = Ok y <-> opt /\ y = EVNone
}.

Lemma next_element_ok {A} (seed : deser -> res error A) i d y :
  next_element seed i d = Ok y <-> seed d = Ok y.
Proof. unfold next_element. apply map_err_ok. Qed.
Lemma next_value_ok {A} (seed : deser -> res error A) k t d y :
  next_value seed (k, t, d) = Ok y <-> seed d = Ok y.
Proof. unfold next_value. apply map_err_ok. Qed.
Lemma next_key_ok {A} (seed : deser -> res error A) k t d y :
  next_key seed (k, t, d) = Ok y <-> seed (DStr k) = Ok y.
Proof. unfold next_key. apply map_err_ok. Qed.

Lemma elements_extracted m opt R rec l : means m opt R rec -> Forall wf l -> forall n ys,
  all_elements rec (map (mk_de m) l) n = Ok ys <-> Forall2 R l ys.
Proof.
  intros M W. induction W as [|v l Wv Wl IH]; intros n ys; cbn [map all_elements].
  - split; [intros H; injection H as <-; constructor|intros H; inversion H; reflexivity].
  - rewrite res_bind_ok. split.
    + intros (y & H1 & H2). apply next_element_ok in H1. apply (mn_value _ _ _ _ M _ _ Wv) in H1.
      apply res_map_ok in H2. destruct H2 as (ys' & H2 & ->). apply IH in H2. constructor; assumption.
    + intros H. inversion H as [|? y ? ys' H1 H2]; subst. exists y. split.
      * apply next_element_ok, (mn_value _ _ _ _ M _ _ Wv). exact H1.
      * apply res_map_ok. exists ys'. split; [apply IH; exact H2|reflexivity].
Qed.

Lemma tuple_extracted m recs rs short : Forall2 (fun rec r => means m (fst r) (snd r) rec) recs rs ->
  forall l n ys, Forall wf l ->
  (tuple_elements recs short (map (mk_de m) l) n = Ok ys <-> leading (map snd rs) l ys).
Proof.
  induction 1 as [|rec r recs rs M Ms IH]; intros l n ys W; cbn [map tuple_elements leading].
  - split; [intros H; injection H as <-; destruct l; exact I|destruct ys; [reflexivity|destruct l; intros []]].
  - destruct l as [|v l]; cbn [map].
    { split; [discriminate|intros []]. }
    inversion W as [|? ? Wv Wl]; subst. rewrite res_bind_ok. split.
    + intros (y & H1 & H2). apply next_element_ok, (mn_value _ _ _ _ M _ _ Wv) in H1.
      apply res_map_ok in H2. destruct H2 as (ys' & H2 & ->). split; [exact H1|].
      apply (IH l (n + 1)%N ys' Wl). exact H2.
    + destruct ys as [|y ys]; [intros []|]. intros [H1 H2]. exists y. split.
      * apply next_element_ok, (mn_value _ _ _ _ M _ _ Wv). exact H1.
      * apply res_map_ok. exists ys. split; [apply (IH l (n + 1)%N ys Wl); exact H2|reflexivity].
Qed.

Lemma map_extracted m opt R rec (d : dict) : means m opt R rec -> Forall (fun kv => wf (snd kv)) d ->
  forall acc r,
  map_entries rec (map_access (mk_de m) d) acc = Ok r <->
  exists ys, Forall2 (fun kv ky => fst ky = fst kv /\ R (snd kv) (snd ky)) d ys /\ r = extend acc ys.
Proof.
  intros M W. induction W as [|[k v] d Wv Wd IH]; intros acc r; cbn [map_access map map_entries fst snd].
  - split.
    + intros H. injection H as <-. exists []. split; [constructor|reflexivity].
    + intros (ys & H & ->). inversion H; reflexivity.
  - cbn in Wv. rewrite res_bind_ok. split.
    + intros (k' & H1 & H2). apply next_key_ok in H1. rewrite string_key_str in H1. injection H1 as <-.
      apply res_bind_ok in H2. destruct H2 as (y & H2 & H3).
      apply next_value_ok, (mn_value _ _ _ _ M _ _ Wv) in H2.
      apply IH in H3. destruct H3 as (ys & H3 & ->). exists ((k, y) :: ys). split; [constructor; auto|reflexivity].
    + intros (ys & H & ->). inversion H as [|? [k' y] ? ys' [Hk Hy] H3]; subst. cbn in Hk, Hy. subst k'.
      exists k. split; [apply next_key_ok, string_key_str|].
      apply res_bind_ok. exists y. split; [apply next_value_ok, (mn_value _ _ _ _ M _ _ Wv); exact Hy|].
      apply IH. exists ys'. split; [exact H3|reflexivity].
Qed.

Lemma Forall2_keys {A B} (R : A -> B -> Prop) (d : list (ustr * A)) (ys : list (ustr * B)) :
  Forall2 (fun kv ky => fst ky = fst kv /\ R (snd kv) (snd ky)) d ys -> map fst ys = map fst d.
Proof. induction 1 as [|x y d ys [H _] _ IH]; cbn; congruence. Qed.

Lemma sorted_same_keys {A B} (d : bmap ustr A) (ys : bmap ustr B) :
  map fst ys = map fst d -> sorted d -> sorted ys.
Proof.
  revert ys. induction d as [|[k x] d IH]; intros [|[k' y] ys] E S; try discriminate E; [exact I|].
  cbn in E. injection E as -> E. destruct S as [S1 S2]. split; [|apply IH; assumption].
  apply lt_all_In. intros k' v' Hin. apply (in_map fst) in Hin. cbn in Hin. rewrite E in Hin.
  apply in_map_iff in Hin. destruct Hin as ([k2 x2] & <- & Hin).
  rewrite (lt_all_In (K := ustr)) in S1. exact (S1 _ _ Hin).
Qed.

Lemma pairs_extracted m (Rk : ustr -> dval -> Prop) reck opt R rec (d : dict) :
  (forall s y, reck (DStr s) = Ok y <-> Rk s y) ->
  means m opt R rec -> Forall (fun kv => wf (snd kv)) d -> forall r,
  pair_entries reck rec (map_access (mk_de m) d) = Ok r <->
  Forall2 (fun kv ky => Rk (fst kv) (fst ky) /\ R (snd kv) (snd ky)) d r.
Proof.
  intros K M W. induction W as [|[k v] d Wv Wd IH]; intros r; cbn [map_access map pair_entries fst snd].
  - split; [intros H; injection H as <-; constructor|intros H; inversion H; reflexivity].
  - cbn in Wv. rewrite res_bind_ok. split.
    + intros (k' & H1 & H2). apply next_key_ok, K in H1.
      apply res_bind_ok in H2. destruct H2 as (y & H2 & H3).
      apply next_value_ok, (mn_value _ _ _ _ M _ _ Wv) in H2.
      apply res_map_ok in H3. destruct H3 as (r' & H3 & ->). apply IH in H3. constructor; auto.
    + intros H. inversion H as [|? [k' y] ? r' [Hk Hy] H3]; subst. cbn in Hk, Hy.
      exists k'. split; [apply next_key_ok, K; exact Hk|].
      apply res_bind_ok. exists y. split; [apply next_value_ok, (mn_value _ _ _ _ M _ _ Wv); exact Hy|].
      apply res_map_ok. exists r'. split; [apply IH; exact H3|reflexivity].
Qed.

(** ** Structs *)
Definition ok_of {A} (r : res error A) : option A := match r with Ok y => Some y | Err _ => None end.

Lemma get_cons_ne (k k' : ustr) (x : value) (d : dict) : k <> k' -> get k ((k', x) :: d) = get k d.
Proof.
  intros N. cbn. destruct (cmp k k') eqn:E; try reflexivity. apply cmp_leibniz in E. contradiction.
Qed.
Lemma get_cons_eq (k : ustr) (x : value) (d : dict) : get k ((k, x) :: d) = Some x.
Proof. cbn. rewrite cmp_refl. reflexivity. Qed.
Lemma get_notin (k : ustr) (d : dict) : ~ In k (map fst d) -> get k d = None.
Proof.
  intros N. apply get_None_notin. intros k' v Hin E. apply cmp_leibniz in E. subst k'.
  apply N. apply (in_map fst) in Hin. exact Hin.
Qed.
Lemma get_in_keys (k : ustr) (d : dict) x : get k d = Some x -> In (k, x) d.
Proof. intros H. apply get_In in H. destruct H as (k' & E & H). apply cmp_leibniz in E. subst. exact H. Qed.

Lemma assoc_cons_eq {A} k (a : A) l : assoc k ((k, a) :: l) = Some a.
Proof. cbn. replace (ueqb k k) with true; [reflexivity|]. symmetry. apply ueqb_eq. reflexivity. Qed.
Lemma assoc_cons_ne {A} k k' (a : A) l : k <> k' -> assoc k ((k', a) :: l) = assoc k l.
Proof.
  intros N. cbn. destruct (ueqb k k') eqn:E; [|reflexivity]. apply ueqb_eq in E. contradiction.
Qed.

Lemma fields_read deny fs m (d : dict) : NoDup (map fst d) -> forall slots slots',
  (forall k, In k (map fst slots) -> ~ In k (map fst d)) ->
  field_entries deny fs (map_access (mk_de m) d) slots = Ok slots' ->
  (deny = true -> forall k x, In (k, x) d -> In k (map fst fs)) /\
  (forall k rec x, assoc k fs = Some rec -> get k d = Some x ->
     exists y, rec (mk_de m x) = Ok y /\ assoc k slots' = Some y) /\
  (forall k, get k d = None -> assoc k slots' = assoc k slots).
Proof.
  induction d as [|[k v] d IH]; intros N slots slots' S; cbn [map_access map field_entries fst snd].
  { intros H. injection H as <-. split; [intros _ k x []|]. split; [discriminate|reflexivity]. }
  inversion N as [|? ? N1 N2]; subst. cbn [map fst] in S.
  assert (S' : forall k', In k' (map fst slots) -> ~ In k' (map fst d)).
  { intros k' H1 H2. apply (S k' H1). right. exact H2. }
  intros H. apply res_bind_ok in H. destruct H as (key & Hk & H).
  apply next_key_ok in Hk. rewrite field_key_str in Hk.
  destruct (existsb (ueqb k) (map fst fs)) eqn:E.
  - injection Hk as <-. apply existsb_ueqb in E.
    destruct (assoc_total k fs E) as [rec Er]. rewrite Er in H.
    assert (Es : assoc k slots = None).
    { apply assoc_none. intros Hin. apply (S k Hin). left. reflexivity. }
    rewrite Es in H. apply res_bind_ok in H. destruct H as (y & Hy & H). apply next_value_ok in Hy.
    destruct (IH N2 _ _ (fun k' (Hin : In k' (map fst ((k, y) :: slots))) =>
                match Hin with or_introl E => eq_ind k (fun k => ~ In k (map fst d)) N1 k' E | or_intror Hin => S' k' Hin end)
                H) as (A & B & C).
    split; [|split].
    + intros D k' x [Hin|Hin]; [injection Hin as <- <-; exact E|exact (A D k' x Hin)].
    + intros k' rec' x Hr Hg. destruct (ueqb k' k) eqn:Ek.
      * apply ueqb_eq in Ek. subst k'. rewrite get_cons_eq in Hg. injection Hg as <-.
        rewrite Er in Hr. injection Hr as <-. exists y. split; [exact Hy|].
        rewrite (C k) by (apply get_notin; exact N1). apply assoc_cons_eq.
      * assert (Nk : k' <> k) by (intros ->; rewrite (proj2 (ueqb_eq k k) eq_refl) in Ek; discriminate).
        rewrite get_cons_ne in Hg by exact Nk. exact (B k' rec' x Hr Hg).
    + intros k' Hg. assert (Nk : k' <> k) by (intros ->; rewrite get_cons_eq in Hg; discriminate).
      rewrite get_cons_ne in Hg by exact Nk. rewrite (C k' Hg). apply assoc_cons_ne. exact Nk.
  - apply existsb_ueqb_false in E. destruct deny; [discriminate|]. injection Hk as <-.
    destruct (IH N2 _ _ S' H) as (A & B & C). split; [discriminate|]. split.
    + intros k' rec x Hr Hg. assert (Nk : k' <> k).
      { intros ->. apply assoc_In in Hr. apply (in_map fst) in Hr. contradiction. }
      rewrite get_cons_ne in Hg by exact Nk. exact (B k' rec x Hr Hg).
    + intros k' Hg. assert (Nk : k' <> k) by (intros ->; rewrite get_cons_eq in Hg; discriminate).
      rewrite get_cons_ne in Hg by exact Nk. exact (C k' Hg).
Qed.

Lemma fields_readable (deny : bool) fs m (d : dict) : NoDup (map fst d) -> forall slots,
  (forall k, In k (map fst slots) -> ~ In k (map fst d)) ->
  (deny = true -> forall k x, In (k, x) d -> In k (map fst fs)) ->
  (forall k rec x, assoc k fs = Some rec -> In (k, x) d -> exists y, rec (mk_de m x) = Ok y) ->
  exists slots', field_entries deny fs (map_access (mk_de m) d) slots = Ok slots'.
Proof.
  induction d as [|[k v] d IH]; intros N slots S D R; cbn [map_access map field_entries fst snd]; [eauto|].
  inversion N as [|? ? N1 N2]; subst. cbn [map fst] in S.
  assert (S' : forall k', In k' (map fst slots) -> ~ In k' (map fst d)).
  { intros k' H1 H2. apply (S k' H1). right. exact H2. }
  assert (D' : deny = true -> forall k x, In (k, x) d -> In k (map fst fs)).
  { intros T k' x Hin. apply (D T k' x). right. exact Hin. }
  assert (R' : forall k rec x, assoc k fs = Some rec -> In (k, x) d -> exists y, rec (mk_de m x) = Ok y).
  { intros k' rec x Hr Hin. apply (R k' rec x Hr). right. exact Hin. }
  destruct (existsb (ueqb k) (map fst fs)) eqn:E.
  - assert (E' := E). apply existsb_ueqb in E'. destruct (assoc_total k fs E') as [rec Er].
    destruct (R k rec v Er (or_introl eq_refl)) as [y Hy].
    assert (Es : assoc k slots = None).
    { apply assoc_none. intros Hin. apply (S k Hin). left. reflexivity. }
    destruct (IH N2 ((k, y) :: slots)) as [slots' H]; auto.
    { intros k' [<-|Hin]; [exact N1|exact (S' k' Hin)]. }
    exists slots'. apply res_bind_ok. exists (Some k). split.
    + apply next_key_ok. rewrite field_key_str, E. reflexivity.
    + rewrite Er, Es. apply res_bind_ok. exists y. split; [apply next_value_ok; exact Hy|exact H].
  - destruct (IH N2 slots S' D' R') as [slots' H]. exists slots'. apply res_bind_ok. exists None. split; [|exact H].
    apply next_key_ok. rewrite field_key_str, E. destruct deny; [|reflexivity].
    apply existsb_ueqb_false in E. exfalso. apply E. exact (D eq_refl k v (or_introl eq_refl)).
Qed.

Definition field_means (m : mode) (f : ustr * (deser -> res error dval))
                       (r : ustr * (Prop * (value -> dval -> Prop))) : Prop :=
  fst f = fst r /\ means m (fst (snd r)) (snd (snd r)) (snd f).

Lemma fields_filled m (d : dict) slots : forall fs rs,
  Forall2 (field_means m) fs rs -> wf_dict d ->
  (forall k rec x, In (k, rec) fs -> get k d = Some x ->
     exists y, rec (mk_de m x) = Ok y /\ assoc k slots = Some y) ->
  (forall k, get k d = None -> assoc k slots = None) ->
  forall ys, fill_fields fs slots = Ok ys <-> by_name rs d ys.
Proof.
  induction 1 as [|[n rec] [n' [opt R]] fs rs [E M] Fs IH]; intros W B C ys; cbn [fill_fields by_name].
  { split; [intros H; injection H as <-; exact I|destruct ys; [reflexivity|intros []]]. }
  cbn in E, M. subst n'.
  assert (IH' : forall ys, fill_fields fs slots = Ok ys <-> by_name rs d ys).
  { apply IH; auto. intros k rec' x Hin. apply (B k rec' x). right. exact Hin. }
  assert (X : forall y, match assoc n slots with Some y => Ok y | None => rec (DMissing n) end = Ok y <->
              match get n d with Some v => R v y | None => opt /\ y = EVNone end).
  { intros y. destruct (get n d) as [x|] eqn:G.
    - destruct (B n rec x (or_introl eq_refl) G) as (y' & Hy & ->).
      rewrite <- (mn_value _ _ _ _ M). { rewrite Hy. split; congruence. }
      apply get_in_keys in G. destruct W as [_ W]. rewrite Forall_forall in W. exact (W _ G).
    - rewrite (C n G). apply (mn_missing _ _ _ _ M). }
  rewrite res_bind_ok. split.
  - intros (y & H1 & H2). apply X in H1. apply res_map_ok in H2. destruct H2 as (ys' & H2 & ->).
    apply IH' in H2. auto.
  - destruct ys as [|[n' y] ys]; [intros []|]. intros (-> & H1 & H2). exists y. split; [apply X; exact H1|].
    apply res_map_ok. exists ys. split; [apply IH'; exact H2|reflexivity].
Qed.

Lemma by_name_readable m (d : dict) : forall fs rs,
  Forall2 (field_means m) fs rs -> wf_dict d -> forall ys, by_name rs d ys ->
  forall k rec x, In (k, rec) fs -> get k d = Some x -> exists y, rec (mk_de m x) = Ok y.
Proof.
  induction 1 as [|[n rec] [n' [opt R]] fs rs [E M] Fs IH]; intros W ys H k rec' x Hin G; [destruct Hin|].
  cbn in E, M. subst n'. destruct ys as [|[n' y] ys]; [destruct H|]. destruct H as (-> & H1 & H2).
  destruct Hin as [Hin|Hin]; [|exact (IH W ys H2 k rec' x Hin G)].
  injection Hin as <- <-. rewrite G in H1. exists y. apply (mn_value _ _ _ _ M); [|exact H1].
  apply get_in_keys in G. destruct W as [_ W]. rewrite Forall_forall in W. exact (W _ G).
Qed.

Lemma field_means_keys m fs rs : Forall2 (field_means m) fs rs -> map fst fs = map fst rs.
Proof. induction 1 as [|f r fs rs [E _] _ IH]; cbn; congruence. Qed.

Lemma struct_extracted m exp deny fs rs h v y :
  Forall2 (field_means m) fs rs -> NoDup (map fst fs) -> wf v ->
  value_visit (mk_de m) v (struct_visitor exp deny fs h) = Ok y <->
  (exists g d ys, v = VDict g d /\
     (deny = true -> forall k x, In (k, x) d -> In k (map fst fs)) /\ by_name rs d ys /\ y = h ys) \/
  (exists g l ys, v = VArray g l /\ leading (map (fun r => snd (snd r)) rs) l ys /\
     y = h (combine (map fst fs) ys)).
Proof.
  intros F N W.
  assert (T : Forall2 (fun rec r => means m (fst r) (snd r) rec) (map snd fs) (map snd rs)).
  { clear N. induction F as [|f r fs rs [_ M] _ IH]; cbn; constructor; auto. }
  split.
  - destruct v as [t s|t c|t b|t [[]| |]|t []|t d|t l]; try discriminate; cbn [value_visit].
    + unfold visit_map. cbn [v_map struct_visitor]. intros H. apply res_map_ok in H.
      destruct H as (ys & H & ->). apply res_bind_ok in H. destruct H as (slots & H1 & H2).
      apply wf_VDict in W. assert (Nd := wf_dict_nodup d W).
      destruct (fields_read deny fs m d Nd [] slots (fun _ H => match H with end) H1) as (A & B & C).
      left. exists t, d, ys. split; [reflexivity|]. split; [exact A|]. split; [|reflexivity].
      apply (fields_filled m d slots fs rs F W); auto.
      intros k rec x Hin. apply B. apply assoc_nodup; assumption.
    + unfold visit_seq. cbn [v_seq struct_visitor]. intros H. apply res_map_ok in H.
      destruct H as (ys & H & ->). right. exists t, l, ys. split; [reflexivity|]. split; [|reflexivity].
      rewrite <- map_map. apply wf_VArray in W. eapply tuple_extracted; [exact T|exact W|exact H].
  - intros [(g & d & ys & -> & D & B & ->)|(g & l & ys & -> & L & ->)]; cbn [value_visit].
    + unfold visit_map. cbn [v_map struct_visitor]. apply res_map_ok. exists ys. split; [|reflexivity].
      apply wf_VDict in W. assert (Nd := wf_dict_nodup d W).
      destruct (fields_readable deny fs m d Nd []) as [slots Hs]; auto.
      { intros k rec x Hr Hin. apply (by_name_readable m d fs rs F W ys B k rec x).
        - apply assoc_In. exact Hr.
        - apply In_get; [apply W|exact Hin]. }
      destruct (fields_read deny fs m d Nd [] slots (fun _ H => match H with end) Hs) as (_ & B' & C).
      apply res_bind_ok. exists slots. split; [exact Hs|].
      apply (fields_filled m d slots fs rs F W); auto.
      intros k rec x Hin. apply B'. apply assoc_nodup; assumption.
    + unfold visit_seq. cbn [v_seq struct_visitor]. apply res_map_ok. exists ys. split; [|reflexivity].
      rewrite <- map_map in L. apply wf_VArray in W. eapply tuple_extracted; [exact T|exact W|exact L].
Qed.

(** ** Enums *)
Definition shape_means (m : mode) (s : shape (deser -> res error dval))
                       (r : shape (Prop * (value -> dval -> Prop))) : Prop :=
  match s, r with
  | ShUnit, ShUnit => True
  | ShNew rec, ShNew r => means m (fst r) (snd r) rec
  | ShTuple recs, ShTuple rs => Forall2 (fun rec r => means m (fst r) (snd r) rec) recs rs
  | ShStruct fs, ShStruct rs => Forall2 (field_means m) fs rs /\ NoDup (map fst fs)
  | _, _ => False
  end.

Lemma payload_extracted m full s r k t x p : shape_means m s r -> wf x ->
  variant_value full s (k, t, mk_de m x) = Ok p <-> payload r x p.
Proof.
  intros M W. destruct s as [|rec|recs|fs], r as [|[o R]|rs|rs]; try (destruct M; fail); cbn [variant_value shape_means] in *.
  - rewrite res_map_ok. split.
    + intros (u & H & ->). apply next_value_ok, unit_extracted in H. destruct H as [[g ->] ->].
      eapply pl_unit; reflexivity.
    + intros H. inversion H as [g E ->| | | |]; subst; try discriminate.
      exists EVUnit. split; [|reflexivity]. apply next_value_ok, unit_extracted. eauto.
  - cbn in M. rewrite res_map_ok. split.
    + intros (y & H & ->). apply next_value_ok, (mn_value _ _ _ _ M _ _ W) in H. eapply pl_new; [reflexivity|exact H].
    + intros H. inversion H as [|o' R' y E Hy| | |]; subst; try discriminate. injection E as <- <-.
      exists y. split; [|reflexivity]. apply next_value_ok, (mn_value _ _ _ _ M _ _ W). exact Hy.
  - assert (X : forall y, de_any (mk_de m x) (tuple_visitor (lit "tuple variant " ++ full) recs EVTuple) = Ok y <->
                exists g l ys, x = VArray g l /\ leading (map snd rs) l ys /\ y = EVTuple ys).
    { intros y. rewrite (any_ok m). split.
      - destruct x as [g s|g c|g b|g [[]| |]|g []|g d|g l]; try discriminate. cbn [value_visit].
        unfold visit_seq. cbn [v_seq tuple_visitor seq_visitor]. intros H. apply res_map_ok in H.
        destruct H as (ys & H & ->). exists g, l, ys. split; [reflexivity|]. split; [|reflexivity].
        apply wf_VArray in W. eapply tuple_extracted; [exact M|exact W|exact H].
      - intros (g & l & ys & -> & L & ->). cbn [value_visit]. unfold visit_seq. cbn [v_seq tuple_visitor seq_visitor].
        apply res_map_ok. exists ys. split; [|reflexivity]. apply wf_VArray in W. eapply tuple_extracted; [exact M|exact W|exact L]. }
    rewrite res_map_ok. split.
    + intros (y & H & ->). apply next_value_ok, X in H. destruct H as (g & l & ys & -> & L & ->).
      eapply pl_tuple; [reflexivity|reflexivity|exact L].
    + intros H. inversion H as [| |rs' g l ys E Ex L| |]; subst; try discriminate. injection E as <-.
      exists (EVTuple ys). split; [|reflexivity]. apply next_value_ok, X. eauto 6.
  - destruct M as [F N].
    assert (X : forall y, de_any (mk_de m x) (struct_visitor (lit "struct variant " ++ full) false fs EVStruct) = Ok y <-> _)
      by (intros y; rewrite (any_ok m); exact (struct_extracted m _ false fs rs EVStruct x y F N W)).
    rewrite res_map_ok. split.
    + intros (y & H & ->). apply next_value_ok, X in H.
      destruct H as [(g & d & ys & -> & _ & B & ->)|(g & l & ys & -> & L & ->)].
      * eapply pl_fields; [reflexivity|reflexivity|exact B].
      * rewrite (field_means_keys _ _ _ F). eapply pl_elems; [reflexivity|reflexivity|exact L].
    + intros H. inversion H as [| | |rs' g d ys E Ex B|rs' g l ys E Ex L]; subst; try discriminate; injection E as <-.
      * exists (EVStruct ys). split; [|reflexivity]. apply next_value_ok, X. left. exists g, d, ys.
        split; [reflexivity|]. split; [discriminate|]. auto.
      * exists (EVStruct (combine (map fst fs) ys)). split; [|rewrite (field_means_keys _ _ _ F); reflexivity].
        apply next_value_ok, X. right. exists g, l, ys. auto.
Qed.

Definition variants_mean (m : mode) (vs : list (ustr * shape (deser -> res error dval)))
                         (rs : list (ustr * shape (Prop * (value -> dval -> Prop)))) : Prop :=
  Forall2 (fun v r => fst v = fst r /\ shape_means m (snd v) (snd r)) vs rs.

Lemma variants_keys m vs rs : variants_mean m vs rs -> map fst vs = map fst rs.
Proof. induction 1 as [|v r vs rs [E _] _ IH]; cbn; congruence. Qed.

Lemma variants_assoc m vs rs k : variants_mean m vs rs ->
  match assoc k vs, assoc k rs with
  | Some s, Some r => shape_means m s r
  | None, None => True
  | _, _ => False
  end.
Proof.
  induction 1 as [|[n s] [n' r] vs rs [E M] _ IH]; [exact I|]. cbn in E, M. subst n'. cbn [assoc].
  destruct (ueqb k n); assumption.
Qed.

Lemma unit_named m ident vs rs s y : variants_mean m vs rs -> NoDup (map fst vs) ->
  visit_enum (enum_visitor ident vs) (EUnitOnly (DStr s)) = Ok y <->
  variant rs s ShUnit /\ y = EVVariant s ShUnit.
Proof.
  intros V N. unfold visit_enum. cbn [v_enum enum_visitor]. rewrite res_bind_ok. rewrite variant_key_str.
  assert (A := variants_assoc m vs rs s V). assert (K := variants_keys m vs rs V). split.
  - intros (name & H1 & H2). destruct (existsb (ueqb s) (map fst vs)); [|discriminate]. injection H1 as <-.
    destruct (assoc s vs) as [sh|]; [|discriminate]. destruct (assoc s rs) as [r|] eqn:Er; [|destruct A].
    apply res_map_ok in H2. destruct H2 as (p & H2 & ->).
    destruct sh; try discriminate H2. injection H2 as <-. destruct r; try (destruct A; fail).
    split; [apply assoc_In; exact Er|reflexivity].
  - intros [Hin ->]. exists s. assert (Hk : In s (map fst vs)).
    { rewrite K. apply (in_map fst) in Hin. exact Hin. }
    rewrite (proj2 (existsb_ueqb s (map fst vs)) Hk). split; [reflexivity|].
    assert (Er : assoc s rs = Some ShUnit) by (apply assoc_nodup; [rewrite <- K; exact N|exact Hin]).
    rewrite Er in A. destruct (assoc s vs) as [sh|]; [|destruct A]. destruct sh; try (destruct A; fail). reflexivity.
Qed.

Lemma unit_numbered m ident vs rs z y : variants_mean m vs rs -> NoDup (map fst vs) ->
  visit_enum (enum_visitor ident vs) (EUnitOnly (DU32 z)) = Ok y <->
  exists s, nth_error rs (Z.to_nat z) = Some (s, ShUnit) /\ y = EVVariant s ShUnit.
Proof.
  intros V N. unfold visit_enum. cbn [v_enum enum_visitor]. rewrite res_bind_ok.
  assert (K := variants_keys m vs rs V).
  assert (E : variant_key (map fst vs) (DU32 z) =
              match nth_error (map fst vs) (Z.to_nat z) with
              | Some v => Ok v
              | None => invalid_value (AUnsigned z) (lit "variant index 0 <= i < " ++ fmt_nat (N.of_nat (length (map fst vs))))
              end) by reflexivity.
  rewrite E. clear E. rewrite K.
  assert (X : forall s r, nth_error rs (Z.to_nat z) = Some (s, r) -> assoc s rs = Some r).
  { intros s r H. apply assoc_nodup; [rewrite <- K; exact N|]. eapply nth_error_In. exact H. }
  split.
  - intros (name & H1 & H2). destruct (nth_error (map fst rs) (Z.to_nat z)) as [nm|] eqn:En; [|discriminate].
    injection H1 as <-. rewrite nth_error_map in En.
    destruct (nth_error rs (Z.to_nat z)) as [[s r]|] eqn:En'; [|discriminate]. injection En as <-.
    assert (A := variants_assoc m vs rs s V). rewrite (X s r eq_refl) in A.
    cbn [fst] in H2. destruct (assoc s vs) as [sh|]; [|destruct A].
    apply res_map_ok in H2. destruct H2 as (p & H2 & ->).
    destruct sh; try discriminate H2. injection H2 as <-. destruct r; try (destruct A; fail). eauto.
  - intros (s & H & ->). exists s. rewrite nth_error_map, H. split; [reflexivity|].
    assert (A := variants_assoc m vs rs s V). rewrite (X s _ H) in A.
    destruct (assoc s vs) as [sh|]; [|destruct A]. destruct sh; try (destruct A; fail). reflexivity.
Qed.

Lemma variant_entry m ident vs rs g (d : dict) y : variants_mean m vs rs -> NoDup (map fst vs) ->
  wf (VDict g d) ->
  visit_enum (enum_visitor ident vs) (EMap (map_access (mk_de m) d)) = Ok y <->
  exists k x r s p, d = (k, x) :: r /\ variant rs k s /\ payload s x p /\ y = EVVariant k p.
Proof.
  intros V N W. unfold visit_enum. cbn [v_enum enum_visitor]. destruct d as [|[k x] d]; cbn [map_access map enum_first fst snd].
  { split; [discriminate|intros (k & x & r & s & p & E & _); discriminate E]. }
  assert (Wx : wf x).
  { destruct W as [_ W]. cbn in W. apply W. }
  assert (A := variants_assoc m vs rs k V). assert (K := variants_keys m vs rs V).
  rewrite res_bind_ok. split.
  - intros (name & H1 & H2). apply next_key_ok in H1. rewrite variant_key_str in H1.
    destruct (existsb (ueqb k) (map fst vs)); [|discriminate]. injection H1 as <-.
    destruct (assoc k vs) as [sh|]; [|discriminate]. destruct (assoc k rs) as [r|] eqn:Er; [|destruct A].
    apply res_map_ok in H2. destruct H2 as (p & H2 & ->).
    exists k, x, d, r, p. split; [reflexivity|]. split; [apply assoc_In; exact Er|]. split; [|reflexivity].
    eapply payload_extracted; [exact A|exact Wx|exact H2].
  - intros (k' & x' & r' & s & p & E & Hin & Hp & ->). injection E as <- <- <-.
    assert (Hk : In k (map fst vs)).
    { rewrite K. apply (in_map fst) in Hin. exact Hin. }
    assert (Er : assoc k rs = Some s) by (apply assoc_nodup; [rewrite <- K; exact N|exact Hin]).
    rewrite Er in A. destruct (assoc k vs) as [sh|] eqn:Es; [|destruct A].
    exists k. split.
    + apply next_key_ok. rewrite variant_key_str, (proj2 (existsb_ueqb k (map fst vs)) Hk). reflexivity.
    + rewrite Es. apply res_map_ok. exists p. split; [|reflexivity].
      eapply payload_extracted; [exact A|exact Wx|exact Hp].
Qed.

(** ** Keys and missing fields *)
Lemma existsb_shapes {A B} (g : shape A -> shape B) (vs : list (ustr * shape A)) :
  map fst (map (fun nv => (fst nv, g (snd nv))) vs) = map fst vs.
Proof. rewrite map_map. reflexivity. Qed.

Definition shape_des (s : shape ty) : shape (deser -> res error dval) :=
  match s with
  | ShUnit => ShUnit
  | ShNew t => ShNew (deserialize t)
  | ShTuple ts => ShTuple (map deserialize ts)
  | ShStruct fs => ShStruct (map (fun f => (fst f, deserialize (snd f))) fs)
  end.

Lemma key_extracted t s y : match t with TValue | TEither _ _ => False | _ => True end -> named_apart t ->
  deserialize t (DStr s) = Ok y <-> reads_key t s y.
Proof.
  intros O N. destruct t as [|k| | | | | |t|t|ts|t|k t|n i dn fs|i t|i ts|i|i vs| | | | | | |a b];
    try (split; [discriminate|intros []]; fail).
  - split; [destruct k; discriminate|intros []].
  - cbn. split.
    + destruct s as [|c [|c' s]]; try discriminate. intros H. injection H as <-. eauto.
    + intros (c & -> & ->). reflexivity.
  - cbn. split; [congruence|intros ->; reflexivity].
  - cbn [deserialize de_enum reads_key]. cbn in N. destruct N as [Nd Ns].
    match goal with |- context [enum_visitor i ?l] =>
      change l with (map (fun nv => (fst nv, shape_des (snd nv))) vs) end.
    unfold visit_enum. cbn [v_enum enum_visitor]. rewrite existsb_shapes.
    rewrite res_bind_ok, variant_key_str. unfold variant.
    split.
    + intros (name & H1 & H2). destruct (existsb (ueqb s) (map fst vs)) eqn:E; [|discriminate].
      injection H1 as <-. rewrite (assoc_map s shape_des vs) in H2.
      destruct (assoc s vs) as [sh|] eqn:Es; [|discriminate]. cbn [option_map] in H2.
      apply res_map_ok in H2. destruct H2 as (p & H2 & ->). destruct sh; try discriminate H2.
      injection H2 as <-. split; [apply assoc_In; exact Es|reflexivity].
    + intros [Hin ->]. exists s. assert (Hk := in_map fst _ _ Hin). cbn in Hk.
      rewrite (proj2 (existsb_ueqb s (map fst vs)) Hk). split; [reflexivity|].
      rewrite (assoc_map s shape_des vs). rewrite (assoc_nodup s vs ShUnit Nd Hin). reflexivity.
  - destruct O.
  - cbn. split; [congruence|intros ->; reflexivity].
  - cbn. split; [congruence|intros ->; reflexivity].
  - cbn. split; [congruence|intros ->; reflexivity].
  - assert (X := switch_spec MPlain (VString tag_default s) y). cbn [reads_key].
    cbn [deserialize mk_de de_any] in X |- *. rewrite map_err_ok in X. cbn [value_visit] in X. rewrite X.
    split; intros (b & A & B); exists b; auto.
  - destruct O.
Qed.

Lemma missing_extracted t n y : deserialize t (DMissing n) = Ok y <-> optional t /\ y = EVNone.
Proof.
  destruct t as [|k| | | | | |t|t|ts|t|k t|nm i dn fs|i t|i ts|i|i vs| | | | | | |a b];
    try (split; [discriminate|intros [[u E] _]; discriminate E]; fail).
  - split; [destruct k; discriminate|intros [[u E] _]; discriminate E].
  - cbn. split; [intros H; injection H as <-; split; [exists t; reflexivity|reflexivity]|intros [_ ->]; reflexivity].
Qed.

(** ** All types *)
Definition shape_spec (i : interp) (s : shape ty) : shape (Prop * (value -> dval -> Prop)) :=
  match s with
  | ShUnit => ShUnit
  | ShNew t => ShNew (optional t, extracts i t)
  | ShTuple ts => ShTuple (map (fun t => (optional t, extracts i t)) ts)
  | ShStruct fs => ShStruct (map (fun f => (fst f, (optional (snd f), extracts i (snd f)))) fs)
  end.

Definition meant (t : ty) : Prop :=
  ordinary t -> named_apart t -> forall m, means m (optional t) (extracts (mode_interp m) t) (deserialize t).

Lemma meant_list ts m : Forall meant ts -> all (map ordinary ts) -> all (map named_apart ts) ->
  Forall2 (fun rec r => means m (fst r) (snd r) rec) (map deserialize ts)
          (map (fun t => (optional t, extracts (mode_interp m) t)) ts).
Proof.
  intros H O N. rewrite all_Forall in O, N. induction H as [|t ts Ht _ IH]; cbn [map]; constructor.
  - inversion O; inversion N; subst. apply Ht; assumption.
  - inversion O; inversion N; subst. apply IH; assumption.
Qed.

Lemma meant_fields (fs : list (ustr * ty)) m : Forall (fun f => meant (snd f)) fs ->
  all (map (fun f => ordinary (snd f)) fs) -> all (map (fun f => named_apart (snd f)) fs) ->
  Forall2 (field_means m) (map (fun f => (fst f, deserialize (snd f))) fs)
          (map (fun f => (fst f, (optional (snd f), extracts (mode_interp m) (snd f)))) fs).
Proof.
  intros H O N. rewrite all_Forall in O, N. induction H as [|t ts Ht _ IH]; cbn [map]; constructor.
  - inversion O; inversion N; subst. split; [reflexivity|]. apply Ht; assumption.
  - inversion O; inversion N; subst. apply IH; assumption.
Qed.

Lemma keys_map {A B} (g : A -> B) (l : list (ustr * A)) :
  map fst (map (fun f => (fst f, g (snd f))) l) = map fst l.
Proof. rewrite map_map. reflexivity. Qed.

Lemma meant_variants (vs : list (ustr * shape ty)) m : Forall (fun v => shape_all meant (snd v)) vs ->
  all (map (fun nv => match snd nv with
                      | ShUnit => True
                      | ShNew t => ordinary t
                      | ShTuple ts => all (map ordinary ts)
                      | ShStruct fs => all (map (fun f => ordinary (snd f)) fs)
                      end) vs) ->
  all (map (fun nv => match snd nv with
                      | ShUnit => True
                      | ShNew t => named_apart t
                      | ShTuple ts => all (map named_apart ts)
                      | ShStruct fs => NoDup (map fst fs) /\ all (map (fun f => named_apart (snd f)) fs)
                      end) vs) ->
  variants_mean m (map (fun nv => (fst nv, shape_des (snd nv))) vs)
                  (map (fun nv => (fst nv, shape_spec (mode_interp m) (snd nv))) vs).
Proof.
  intros H O N. rewrite all_Forall in O, N. induction H as [|[n s] vs Hs _ IH]; cbn [map]; constructor.
  - inversion O as [|? ? O1 O2]; inversion N as [|? ? N1 N2]; subst. cbn [fst snd] in *. split; [reflexivity|].
    destruct s as [|t|ts|fs]; cbn [shape_des shape_spec shape_means shape_all] in *.
    + exact I.
    + apply Hs; assumption.
    + apply meant_list; assumption.
    + destruct N1 as [N1 N1']. split; [apply meant_fields; assumption|]. rewrite keys_map. exact N1.
  - inversion O; inversion N; subst. apply IH; assumption.
Qed.

Lemma seq_vis_ok m (vis : visitor dval) h v y :
  v_bool vis = None -> v_signed vis = None -> v_unsigned vis = None -> v_i128 vis = None -> v_u128 vis = None ->
  v_f32 vis = None -> v_f64 vis = None -> v_char vis = None -> v_str vis = None -> v_none vis = None ->
  v_unit vis = None -> v_map vis = None -> v_seq vis = Some h ->
  value_visit (mk_de m) v vis = Ok y <-> exists g l, v = VArray g l /\ h (map (mk_de m) l) = Ok y.
Proof.
  intros. split.
  - destruct v as [t s|t c|t b|t [[]| |]|t []|t d|t l]; cbn [value_visit num_visit empty_visit];
      unfold visit_str, visit_char, visit_str, visit_bool, visit_unsigned, visit_signed, visit_i128, visit_u128, visit_f32,
        visit_f64, visit_unit, visit_none, visit_map, visit_seq;
      repeat match goal with E : _ vis = _ |- _ => rewrite E; clear E end; try discriminate; eauto.
  - intros (g & l & -> & E). cbn [value_visit]. unfold visit_seq.
    match goal with E : v_seq vis = _ |- _ => rewrite E end. exact E.
Qed.
Lemma map_vis_ok m (vis : visitor dval) h v y :
  v_bool vis = None -> v_signed vis = None -> v_unsigned vis = None -> v_i128 vis = None -> v_u128 vis = None ->
  v_f32 vis = None -> v_f64 vis = None -> v_char vis = None -> v_str vis = None -> v_none vis = None ->
  v_unit vis = None -> v_seq vis = None -> v_map vis = Some h ->
  value_visit (mk_de m) v vis = Ok y <-> exists g d, v = VDict g d /\ h (map_access (mk_de m) d) = Ok y.
Proof.
  intros. split.
  - destruct v as [t s|t c|t b|t [[]| |]|t []|t d|t l]; cbn [value_visit num_visit empty_visit];
      unfold visit_str, visit_char, visit_str, visit_bool, visit_unsigned, visit_signed, visit_i128, visit_u128, visit_f32,
        visit_f64, visit_unit, visit_none, visit_map, visit_seq;
      repeat match goal with E : _ vis = _ |- _ => rewrite E; clear E end; try discriminate; eauto.
  - intros (g & l & -> & E). cbn [value_visit]. unfold visit_map.
    match goal with E : v_map vis = _ |- _ => rewrite E end. exact E.
Qed.

Lemma option_extracted m t R v y : wf v ->
  (forall v y, wf v -> (deserialize t (mk_de m v) = Ok y <-> R v y)) ->
  de_option (mk_de m v) (option_visitor (deserialize t)) = Ok y <->
  ((exists g e, v = VEmpty g e) /\ y = EVNone) \/
  (~ (exists g e, v = VEmpty g e) /\ exists x, R v x /\ y = EVSome x).
Proof.
  intros W IH.
  assert (X : visit_some (option_visitor (deserialize t)) (mk_de m v) = Ok y <->
              exists x, R v x /\ y = EVSome x).
  { unfold visit_some. cbn [v_some option_visitor]. rewrite res_map_ok.
    split; intros (x & H & ->); exists x; (split; [apply IH; assumption|reflexivity]). }
  assert (D : (exists g e, v = VEmpty g e) \/ ~ (exists g e, v = VEmpty g e) /\
              (de_option (mk_de m v) (option_visitor (deserialize t)) = Ok y <->
               visit_some (option_visitor (deserialize t)) (mk_de m v) = Ok y)).
  { destruct v as [g s|g c|g b|g n|g e|g d|g l];
      try (right; split; [intros (? & ? & H); discriminate H|
             destruct m; cbn [mk_de de_option]; [apply settle_ok|reflexivity]]).
    left. eauto. }
  destruct D as [(g & e & ->)|[N D]].
  - split.
    + intros H. left. split; [eauto|]. destruct m as [i f|], e; cbn in H; congruence.
    + intros [[_ ->]|[N _]]; [|exfalso; apply N; eauto]. destruct m as [i f|], e; reflexivity.
  - rewrite D, X. split; [intros H; right; auto|]. intros [[H _]|[_ H]]; [elim (N H)|exact H].
Qed.

Lemma enum_extracted m ident vs rs v y : variants_mean m vs rs -> NoDup (map fst vs) -> wf v ->
  enum_visit (mk_de m) v (enum_visitor ident vs) = Ok y <->
  (exists g s, v = VString g s /\ variant rs s ShUnit /\ y = EVVariant s ShUnit) \/
  (exists g n z s, v = VNum g n /\ unsigned32 n z /\
     nth_error rs (Z.to_nat z) = Some (s, ShUnit) /\ y = EVVariant s ShUnit) \/
  (exists g k x r s p, v = VDict g ((k, x) :: r) /\ variant rs k s /\ payload s x p /\
     y = EVVariant k p).
Proof.
  intros M N W.
  assert (Z : forall v, de_any (mk_de m v) (enum_visitor ident vs) <> Ok y).
  { intros w H. apply (any_ok m) in H. destruct w as [g s|g c|g b|g [[]| |]|g []|g d|g l]; discriminate H. }
  destruct v as [g s|g c|g b|g n|g e|g d|g l]; cbn [enum_visit].
  - rewrite (unit_named m ident vs rs) by assumption. split.
    + intros H. left. eauto.
    + intros [(? & ? & H & H')|[(? & ? & ? & ? & H & _)|(? & ? & ? & ? & ? & ? & H & _)]]; try discriminate H.
      injection H as <- <-. exact H'.
  - split; [intros H; elim (Z _ H)|].
    intros [(? & ? & H & H')|[(? & ? & ? & ? & H & _)|(? & ? & ? & ? & ? & ? & H & _)]]; discriminate H.
  - split; [intros H; elim (Z _ H)|].
    intros [(? & ? & H & H')|[(? & ? & ? & ? & H & _)|(? & ? & ? & ? & ? & ? & H & _)]]; discriminate H.
  - assert (U : forall z, num_to_u32 n = Some z <-> unsigned32 n z).
    { intros z. unfold unsigned32. split.
      - destruct n as [[]| |]; cbn; intros H; try discriminate; injection H as <-; eexists; (split; [reflexivity|cbn; auto]).
      - intros (j & -> & Hj). cbn in Hj. destruct Hj as [<-|[<-|[<-|[]]]]; reflexivity. }
    destruct (num_to_u32 n) as [z|] eqn:E.
    + rewrite (unit_numbered m ident vs rs) by assumption. split.
      * intros (s & H & ->). right. left. exists g, n, z, s. split; [reflexivity|]. split; [apply U; reflexivity|]. auto.
      * intros [(? & ? & H & H')|[(g' & n' & z' & s & H & Hu & Hn & ->)|(? & ? & ? & ? & ? & ? & H & _)]]; try discriminate H.
        injection H as <- <-. apply U in Hu. injection Hu as <-. eauto.
    + split; [intros H; elim (Z _ H)|].
      intros [(? & ? & H & H')|[(g' & n' & z' & s & H & Hu & Hn & ->)|(? & ? & ? & ? & ? & ? & H & _)]]; try discriminate H.
      injection H as <- <-. apply U in Hu. discriminate Hu.
  - split; [intros H; elim (Z _ H)|].
    intros [(? & ? & H & H')|[(? & ? & ? & ? & H & _)|(? & ? & ? & ? & ? & ? & H & _)]]; discriminate H.
  - rewrite (variant_entry m ident vs rs g) by assumption. split.
    + intros (k & x & r & s & p & -> & H). right. right. exists g, k, x, r, s, p. auto.
    + intros [(? & ? & H & H')|[(? & ? & ? & ? & H & _)|(? & k & x & r & s & p & H & H')]]; try discriminate H.
      injection H as <- ->. exists k, x, r, s, p. auto.
  - split; [intros H; elim (Z _ H)|].
    intros [(? & ? & H & H')|[(? & ? & ? & ? & H & _)|(? & ? & ? & ? & ? & ? & H & _)]]; discriminate H.
Qed.

Theorem extraction_meant t : meant t.
Proof.
  induction t using ty_ind'; intros O N m;
    (constructor; [intros v y W|intros ? y; apply missing_extracted]).
  - apply bool_extracted.
  - cbn [ordinary] in O. assert (narrow k) by (destruct k; cbn; tauto).
    rewrite deserialize_int by assumption. rewrite num_extracted by apply int_visits. cbn [extracts]. split.
    + intros (n & H1 & H2). apply num_visit_int in H2. destruct H2 as (j & z & -> & H3). eauto.
    + intros (j & z & H1 & H2). exists (NInt j z). split; [exact H1|]. apply num_visit_int. eauto.
  - cbn [deserialize extracts]. rewrite num_extracted by apply f32_visits. split.
    + intros (n & H1 & H2). apply f32_num in H2. destruct H2 as (x & H3). eauto.
    + intros (n & x & H1 & H2). exists n. split; [exact H1|]. apply f32_num. eauto.
  - cbn [deserialize extracts]. rewrite num_extracted by apply f64_visits. split.
    + intros (n & H1 & H2). apply f64_num in H2. destruct H2 as (x & H3). eauto.
    + intros (n & x & H1 & H2). exists n. split; [exact H1|]. apply f64_num. eauto.
  - apply char_extracted.
  - apply (text_extracted m (lit "a string") EVStr).
  - apply unit_extracted.
  - cbn [deserialize extracts]. apply option_extracted; [exact W|]. intros. apply IHt; assumption.
  - cbn [deserialize extracts]. rewrite (any_ok m), seq_vis_ok by reflexivity. split.
    + intros (g & l & -> & H). apply res_map_ok in H. destruct H as (ys & H & ->).
      apply wf_VArray in W. eapply elements_extracted in H; [|apply IHt; assumption|exact W]. eauto 6.
    + intros (g & l & ys & -> & H & ->). exists g, l. split; [reflexivity|]. apply res_map_ok. exists ys.
      apply wf_VArray in W. split; [|reflexivity]. eapply elements_extracted; [apply IHt; assumption|exact W|exact H].
  - cbn [deserialize extracts]. rewrite (any_ok m), seq_vis_ok by reflexivity. cbn [ordinary named_apart] in O, N.
    pose proof (meant_list _ m H O N) as M. split.
    + intros (g & l & -> & H'). apply res_map_ok in H'. destruct H' as (ys & H' & ->).
      apply wf_VArray in W. eapply tuple_extracted in H'; [|exact M|exact W]. rewrite map_map in H'. eauto 6.
    + intros (g & l & ys & -> & H' & ->). exists g, l. split; [reflexivity|]. apply res_map_ok. exists ys.
      apply wf_VArray in W. split; [|reflexivity]. eapply tuple_extracted; [exact M|exact W|]. rewrite map_map. exact H'.
  - cbn [deserialize extracts]. rewrite (any_ok m), map_vis_ok by reflexivity. split.
    + intros (g & d & -> & H). apply res_map_ok in H. destruct H as (r & H & ->).
      pose proof W as W'. apply wf_VDict in W'. destruct W' as [S W'].
      eapply map_extracted in H; [|apply IHt; assumption|exact W'].
      destruct H as (ys & H & ->). exists g, d, ys. split; [reflexivity|]. split; [exact H|]. f_equal.
      apply collect_sorted. eapply sorted_same_keys; [eapply Forall2_keys; exact H|exact S].
    + intros (g & d & ys & -> & H & ->). exists g, d. split; [reflexivity|]. apply res_map_ok. exists ys.
      split; [|reflexivity]. apply wf_VDict in W. destruct W as [S W].
      eapply map_extracted; [apply IHt; assumption|exact W|]. exists ys. split; [exact H|].
      symmetry. apply collect_sorted. eapply sorted_same_keys; [eapply Forall2_keys; exact H|exact S].
  - cbn [deserialize extracts]. rewrite (any_ok m), map_vis_ok by reflexivity.
    cbn [ordinary named_apart] in O, N. destruct O as [O1 O2], N as [N1 N2]. split.
    + intros (g & d & -> & H). apply res_map_ok in H. destruct H as (r & H & ->).
      apply wf_VDict in W. destruct W as [S W].
      eapply pairs_extracted in H; [|intros; apply key_extracted; [destruct t1; auto|assumption]|apply IHt2; assumption|exact W].
      exists g, d, r. auto.
    + intros (g & d & ys & -> & H & ->). exists g, d. split; [reflexivity|]. apply res_map_ok. exists ys.
      split; [|reflexivity]. apply wf_VDict in W. destruct W as [S W].
      eapply pairs_extracted; [intros; apply key_extracted; [destruct t1; auto|assumption]|apply IHt2; assumption|exact W|exact H].
  - cbn [deserialize extracts]. cbn [ordinary named_apart] in O, N. destruct O as [O1 O2], N as [N1 N2].
    pose proof (meant_fields _ m H O2 N2) as M.
    assert (E : forall vis : visitor dval, de_struct n (mk_de m v) vis = Ok y <-> value_visit (mk_de m) v vis = Ok y).
    { intros vis. destruct m as [i' f|]; cbn [mk_de de_struct].
      - rewrite settle_ok, magic_map_none by assumption. apply (any_ok (MConf i' f)).
      - apply (any_ok MPlain). }
    rewrite E, struct_extracted; [|exact M|rewrite keys_map; exact N1|exact W].
    rewrite keys_map. reflexivity.
  - cbn [deserialize extracts].
    assert (E : de_newtype (mk_de m v) (newtype_visitor (lit "tuple struct " ++ i) (deserialize t)) =
                res_map EVNewtype (deserialize t (mk_de m v))) by (destruct m; reflexivity).
    rewrite E, res_map_ok. split; intros (x & H & ->); exists x; (split; [|reflexivity]); apply IHt; assumption.
  - cbn [deserialize extracts]. rewrite (any_ok m), seq_vis_ok by reflexivity. cbn [ordinary named_apart] in O, N.
    pose proof (meant_list _ m H O N) as M. split.
    + intros (g & l & -> & H'). apply res_map_ok in H'. destruct H' as (ys & H' & ->).
      apply wf_VArray in W. eapply tuple_extracted in H'; [|exact M|exact W]. rewrite map_map in H'. eauto 6.
    + intros (g & l & ys & -> & H' & ->). exists g, l. split; [reflexivity|]. apply res_map_ok. exists ys.
      apply wf_VArray in W. split; [|reflexivity]. eapply tuple_extracted; [exact M|exact W|]. rewrite map_map. exact H'.
  - apply unit_extracted.
  - cbn [ordinary named_apart] in O, N. destruct N as [N1 N2].
    pose proof (meant_variants _ m H O N2) as M.
    change (deserialize (TEnum i vs) (mk_de m v)) with
      (de_enum (mk_de m v) (enum_visitor i (map (fun nv => (fst nv, shape_des (snd nv))) vs))).
    rewrite enum_ok. rewrite enum_extracted; [|exact M|rewrite keys_map; exact N1|exact W]. reflexivity.
  - destruct O.
  - apply tag_extracted.
  - apply (text_extracted m (lit "a string") (fun s => EVProfile (mkProfile s))).
  - apply (text_extracted m (lit "path string") EVPath).
  - cbn [deserialize extracts]. destruct m; split; cbn; congruence.
  - rewrite switch_spec. cbn [extracts]. split; intros (b & H1 & H2); eauto.
  - destruct O.
Qed.
