(** Properties C80-C82: types with serde attributes. *)
From Coq Require Import Ascii String ZArith NArith Bool Lia.
From Coq Require Import List.
From Verif Require Import Res BMap BMapProofs Str StrProofs Profile Tag Num Value Metadata Err Coalesce Figment De Content Derive.
From Verif Require Import SpecValue SpecFigment SpecLossy SpecDe SpecMagic SpecExtract SpecTaken SpecGives SpecBuffer SpecDerive.
From Verif Require Import ValueProofs ProvProofs DeProofs ExtractProofs MeaningProofs GivesProofs FieldProofs ContentProofs DeriveProofs
  BareProofs CopyProofs PlaceProofs PropsCoalesce PropsFigment.
From Verif Require BlameProofs.
From Verif Require Import Fmt.
Import ListNotations.

(** ** C80: [default], [rename], [alias] *)

(** What [extract] and [extract_lossy] give at any type with these attributes. *)
Theorem C80_extract : forall H i f x y, reachable H f -> x_apart x ->
  xextract i f x = Ok y <-> exists v, merged f = Ok v /\ xgives (MConf i f) x v y.
Proof.
  intros H i f x y R N. unfold xextract. rewrite res_bind_ok. split; intros (v & M & G); exists v; (split; [exact M|]);
    assert (W := reachable_merged_wf _ _ _ R M); apply (x_granted_at x (MConf i f)); assumption.
Qed.
Print Assumptions C80_extract.

(** A field is what its value gives, at any of its names, and its default if none is there. *)
Theorem C80_fields : forall i fig ident deny fs g d y, wf (VDict g d) -> x_apart (XStruct ident deny fs []) ->
  ~ In ident [value_name; rel_name; tagged_name] ->
  xdeserialize (XStruct ident deny fs []) (DConf i fig (VDict g d)) = Ok y <->
  (deny = true -> forall k x, In (k, x) d -> exists f, In f fs /\ In k (f_names f)) /\
  exists ys, y = EVStruct ys /\
    Forall2 (fun f ny => fst ny = f_name f /\
      ((exists x, under f d x /\ xdeserialize (f_type f) (DConf i fig x) = Ok (snd ny)) \/
       (not_there f d /\ match f_default f with
                         | Some z => snd ny = z
                         | None => x_optional (f_type f) /\ snd ny = EVNone
                         end))) fs ys.
Proof.
  intros i fig ident deny fs g d y W A Hn. rewrite (x_granted_at _ (MConf i fig) _ _ W A). cbn [xgives].
  assert (P : forall w, presents (MConf i fig) ident (VDict g d) w <-> w = VDict g d).
  { intros w. split; [|intros ->; constructor; exact Hn]. intros P. inversion P; subst; try reflexivity; destruct Hn; cbn; auto. }
  assert (F : forall ys, by_names (map (map_field (fun x => (x_optional x, xgives (MConf i fig) x))) fs) d ys <->
    Forall2 (fun f ny => fst ny = f_name f /\
      ((exists x, under f d x /\ xdeserialize (f_type f) (DConf i fig x) = Ok (snd ny)) \/
       (not_there f d /\ match f_default f with
                         | Some z => snd ny = z
                         | None => x_optional (f_type f) /\ snd ny = EVNone
                         end))) fs ys).
  { destruct A as (_ & A & _). revert A. induction fs as [|f fs IH]; intros A ys; cbn [map].
    - split; intros X; inversion X; constructor.
    - cbn in A. destruct A as [A1 A2].
      assert (E : forall y, filled (map_field (fun x => (x_optional x, xgives (MConf i fig) x)) f) d y <->
        ((exists x, under f d x /\ xdeserialize (f_type f) (DConf i fig x) = Ok y) \/
         (not_there f d /\ match f_default f with Some z => y = z | None => x_optional (f_type f) /\ y = EVNone end))).
      { intros y0. unfold filled, substitute. cbn [map_field f_type f_default fst snd].
        split; (intros [(x & U & G)|N]; [left; exists x; split; [exact U|]|right; exact N]);
          destruct U as (k & _ & J & _); apply (x_granted_at _ (MConf i fig)); eauto using wf_entry. }
      split; intros X; inversion X as [|? [n z] ? ? [X1 X2] X3]; subst; constructor; try (apply IH; assumption);
        (split; [exact X1|]); apply E; exact X2. }
  assert (S : forall k, (exists f, In f fs /\ In k (f_names f)) <-> In k (all_names fs)).
  { intros k. unfold all_names. rewrite in_flat_map. reflexivity. }
  split.
  - intros (w & Pw & [(g' & d' & E & D)|(g' & l & ys & E & _)]); apply P in Pw; subst w; [|discriminate E].
    injection E as <- <-. destruct D as (own & others & rest & B & R & Dn & ->). destruct others; [|destruct R]. cbn in R. subst rest.
    rewrite all_names_map in Dn. split.
    + intros Ed k x I. apply S. specialize (Dn Ed). exact (proj1 (without_nil _ _) Dn k x I).
    + exists own. rewrite app_nil_r. split; [reflexivity|]. apply F. exact B.
  - intros [Dn (ys & -> & B)]. exists (VDict g d). split; [apply P; reflexivity|]. left. exists g, d. split; [reflexivity|].
    exists ys, [], (without (all_names fs) d). rewrite all_names_map. split; [apply F; exact B|]. split; [reflexivity|].
    split; [|rewrite app_nil_r; reflexivity]. intros Ed. apply without_nil. intros k x I. apply S. exact (Dn Ed k x I).
Qed.
Print Assumptions C80_fields.

(** A value that is there and cannot be read is an error, whatever the default; so are two names
    of the same field. *)
Theorem C80_no_mask : forall i fig ident deny fs g d f k x y, wf (VDict g d) -> x_apart (XStruct ident deny fs []) ->
  ~ In ident [value_name; rel_name; tagged_name] ->
  In f fs -> In k (f_names f) -> In (k, x) d ->
  (forall z, xdeserialize (f_type f) (DConf i fig x) <> Ok z) \/
  (exists k' x', In k' (f_names f) /\ In (k', x') d /\ k' <> k) ->
  xdeserialize (XStruct ident deny fs []) (DConf i fig (VDict g d)) <> Ok y.
Proof.
  intros i fig ident deny fs g d f k x y W A Hn I K J Bad E. apply C80_fields in E; auto. destruct E as (_ & ys & _ & F).
  assert (G : exists z, (exists x, under f d x /\ xdeserialize (f_type f) (DConf i fig x) = Ok z) \/ not_there f d).
  { clear - F I. induction F as [|f' [n z] fs ys [_ X] _ IH]; [destruct I|]. destruct I as [->|I]; [|auto].
    exists z. destruct X as [X|[X _]]; auto. }
  destruct G as (z & [(x' & U & G)|N]); [|exact (N k x K J)].
  destruct U as (k0 & K0 & J0 & U). destruct Bad as [Bad|(k' & x1 & K' & J' & Ne)].
  - assert (k = k0) by (eapply U; eauto). subst k0. rewrite (nodup_one d k x x' (wf_nodup _ _ W) J J0) in Bad. exact (Bad z G).
  - apply Ne. transitivity k0; [eapply U; eauto|symmetry; eapply U; eauto].
Qed.
Print Assumptions C80_no_mask.

(** What [settle] does to an error. *)
Lemma settle_reported {A} f g k x e : exists e',
  @settle A f g (Err (retagged (vtag x) (prefixed k e))) = Err e' /\
  @settle A f g (settle f g (Err (retagged (vtag x) (prefixed k e)))) = Err e' /\ reported f g k x e e'.
Proof.
  destruct e as [t p m pa kd v]. cbn. eexists. split; [reflexivity|]. unfold resolved. cbn [prefixed retagged resolved_with].
  assert (V : forall v mds pr, match match v with Some e' => Some (resolved_with mds pr e') | None => None end with
            | Some e' => Some (resolved_with mds pr e') | None => None end =
            match v with Some e' => Some (resolved_with mds pr e') | None => None end).
  { intros [e'|] mds pr; [|reflexivity]. f_equal. revert e'. fix go 1. intros [t' p' m' pa' kd' [e''|]]; cbn [resolved_with]; [|reflexivity].
    rewrite go. reflexivity. }
  assert (T : (if is_default (if is_default (if is_default t then vtag x else t) then g else if is_default t then vtag x else t) then g
    else if is_default (if is_default t then vtag x else t) then g else if is_default t then vtag x else t) =
    if is_default (if is_default t then vtag x else t) then g else if is_default t then vtag x else t).
  { destruct (is_default t) eqn:E1; [destruct (is_default (vtag x)) eqn:E2|]; [destruct (is_default g); reflexivity| |]; rewrite ?E1, ?E2; reflexivity. }
  split.
  - rewrite T. rewrite V. reflexivity.
  - unfold reported, nearest, get_metadata. cbn [e_path e_kind e_tag e_metadata].
    split; [reflexivity|]. split; [reflexivity|]. split; [|reflexivity].
    unfold is_default. cbn [tag_raw tag_default]. destruct (N.eqb_spec (tag_raw t) 0) as [Z|Z].
    + destruct (N.eqb_spec (tag_raw (vtag x)) 0) as [Z2|Z2]; [|reflexivity]. destruct (N.eqb_spec (tag_raw g) 0) as [Z3|Z3]; [|reflexivity].
      destruct g as [r]. cbn in Z3. subst r. reflexivity.
    + destruct (N.eqb_spec (tag_raw t) 0); [contradiction|reflexivity].
Qed.

(** The first entry, in order of keys, that is one of the struct's own fields and cannot be read is
    what the error is about: its path begins with the key as written, and its source is the
    nearest there is.  This holds with flattened fields too ([fls]). *)
Theorem C80_error : forall i fig ident deny fs fls g pre k x post f e,
  wf (VDict g (pre ++ (k, x) :: post)) -> x_apart (XStruct ident deny fs fls) ->
  ~ In ident [value_name; rel_name; tagged_name] ->
  (* everything before it is all right *)
  readable (map (map_field (fun x => (x_optional x, xgives (MConf i fig) x))) fs) pre ->
  match fls with
  | [] => deny = true -> forall k' x', In (k', x') pre -> In k' (all_names fs)
  | _ => forall k' x', In (k', x') pre -> ~ In k' (all_names fs) -> narrow_only x'
  end ->
  In f fs -> In k (f_names f) -> (forall k' x', In k' (f_names f) -> ~ In (k', x') pre) ->
  xdeserialize (f_type f) (DConf i fig x) = Err e ->
  exists e', xdeserialize (XStruct ident deny fs fls) (DConf i fig (VDict g (pre ++ (k, x) :: post))) = Err e' /\
    reported fig g k x e e'.
Proof.
  intros i fig ident deny fs fls g pre k x post f e W A Hn R C I K U E.
  destruct (@settle_reported dval fig g k x e) as (e' & S1 & S2 & S3). exists e'. split; [|exact S3].
  assert (M := first_wrong (MConf i fig) deny fs fls (proj1 A) (proj1 (proj2 A)) g pre k x post f e W R
    ltac:(unfold accepts; destruct fls; [intros D; apply without_nil; exact (C D)|exact C]) I K U E).
  rewrite xdeserialize_struct. destruct fls as [|nf fls].
  - cbn [de_struct]. assert (Mg : magic_map ident fig (VDict g (pre ++ (k, x) :: post)) = None).
    { unfold magic_map. cbn in Hn. destruct (ueqb ident value_name) eqn:E1; [apply ueqb_eq in E1; subst; tauto|].
      destruct (ueqb ident rel_name) eqn:E2; [apply ueqb_eq in E2; subst; tauto|].
      destruct (ueqb ident tagged_name) eqn:E3; [apply ueqb_eq in E3; subst; tauto|]. reflexivity. }
    rewrite Mg. cbn [de_any value_visit vtag]. unfold visit_map. cbn [v_map x_struct_visitor].
    cbn [mk_de] in M. rewrite M. exact S2.
  - cbn [de_any value_visit vtag]. unfold visit_map. cbn [v_map map_visitor]. cbn [mk_de] in M. rewrite M. exact S1.
Qed.
Print Assumptions C80_error.

(** How structs without, and with, flattened fields come to their loop. *)
Lemma own_fields_visit i fig ident deny fs g d : ~ In ident [value_name; rel_name; tagged_name] ->
  xdeserialize (XStruct ident deny fs []) (DConf i fig (VDict g d)) =
  settle fig g (settle fig g (struct_from_map deny fs [] (map_access (DConf i fig) d))).
Proof.
  intros Hn. rewrite xdeserialize_struct. cbn [de_struct]. assert (Mg : magic_map ident fig (VDict g d) = None).
  { unfold magic_map. cbn in Hn. destruct (ueqb ident value_name) eqn:E1; [apply ueqb_eq in E1; subst; tauto|].
    destruct (ueqb ident rel_name) eqn:E2; [apply ueqb_eq in E2; subst; tauto|].
    destruct (ueqb ident tagged_name) eqn:E3; [apply ueqb_eq in E3; subst; tauto|]. reflexivity. }
  rewrite Mg. reflexivity.
Qed.
Lemma struct_blamed i fig ident deny fs fls g d kd : ~ In ident [value_name; rel_name; tagged_name] ->
  struct_from_map deny fs fls (map_access (DConf i fig) d) = Err (err_of_kind kd) ->
  exists e, xdeserialize (XStruct ident deny fs fls) (DConf i fig (VDict g d)) = Err e /\
    e_path e = [] /\ e_kind e = kd /\ e_tag e = g /\ e_metadata e = get_metadata fig g.
Proof.
  intros Hn E.
  assert (S : exists e, @settle dval fig g (Err (err_of_kind kd)) = Err e /\ settle fig g (@settle dval fig g (Err (err_of_kind kd))) = Err e /\
    e_path e = [] /\ e_kind e = kd /\ e_tag e = g /\ e_metadata e = get_metadata fig g).
  { eexists. split; [reflexivity|]. cbn. unfold resolved. cbn. destruct (is_default g); repeat split. }
  destruct S as (e & S1 & S2 & S3). exists e. split; [|exact S3]. destruct fls as [|nf fls].
  - rewrite own_fields_visit, E by exact Hn. exact S2.
  - rewrite xdeserialize_struct. cbn [de_any value_visit vtag]. unfold visit_map. cbn [v_map map_visitor]. rewrite E. exact S1.
Qed.

(** An entry that nobody has a name for, where that is refused, is pointed at too; the error lists
    every name there is, aliases included. *)
Theorem C80_unknown : forall i fig ident fs g pre k x post,
  wf (VDict g (pre ++ (k, x) :: post)) -> x_apart (XStruct ident true fs []) ->
  ~ In ident [value_name; rel_name; tagged_name] ->
  readable (map (map_field (fun x => (x_optional x, xgives (MConf i fig) x))) fs) pre ->
  (forall k' x', In (k', x') pre -> exists f, In f fs /\ In k' (f_names f)) ->
  (forall f, In f fs -> ~ In k (f_names f)) ->
  exists e, xdeserialize (XStruct ident true fs []) (DConf i fig (VDict g (pre ++ (k, x) :: post))) = Err e /\
    e_path e = [k] /\ e_kind e = KUnknownField k (flat_map f_names fs) /\
    e_tag e = nearest [vtag x; g] /\ e_metadata e = get_metadata fig (e_tag e).
Proof.
  intros i fig ident fs g pre k x post W A Hn R C K.
  destruct (@settle_reported dval fig g k x (err_of_kind (KUnknownField k (all_names fs)))) as (e' & _ & S2 & S3 & S4 & S5 & S6).
  exists e'. split.
  - rewrite <- S2. rewrite own_fields_visit by exact Hn. f_equal. f_equal.
    apply (first_unknown (MConf i fig) true fs [] (proj1 A) (proj1 (proj2 A)) g pre k x post W R); try reflexivity.
    + intros _. apply without_nil. intros k' x' J. destruct (C k' x' J) as (f & I & F). apply in_flat_map. eauto.
    + intros J. apply in_flat_map in J. destruct J as (f & I & F). exact (K f I F).
  - auto.
Qed.
Print Assumptions C80_unknown.

(** Two names of one field: the struct is to blame, not the entries. *)
Theorem C80_twice : forall i fig ident deny fs fls g pre k x post f k' x',
  wf (VDict g (pre ++ (k, x) :: post)) -> x_apart (XStruct ident deny fs fls) ->
  ~ In ident [value_name; rel_name; tagged_name] ->
  readable (map (map_field (fun x => (x_optional x, xgives (MConf i fig) x))) fs) pre ->
  match fls with
  | [] => deny = true -> forall k' x', In (k', x') pre -> In k' (all_names fs)
  | _ => forall k' x', In (k', x') pre -> ~ In k' (all_names fs) -> narrow_only x'
  end ->
  In f fs -> In k (f_names f) -> In k' (f_names f) -> In (k', x') pre ->
  exists e, xdeserialize (XStruct ident deny fs fls) (DConf i fig (VDict g (pre ++ (k, x) :: post))) = Err e /\
    e_path e = [] /\ e_kind e = KDuplicateField (f_name f) /\ e_tag e = g /\ e_metadata e = get_metadata fig g.
Proof.
  intros i fig ident deny fs fls g pre k x post f k' x' W A Hn R C I K K' J.
  apply struct_blamed; [exact Hn|].
  apply (second_name (MConf i fig) deny fs fls (proj1 A) (proj1 (proj2 A)) g pre k x post f k' x' W R); auto.
  unfold accepts; destruct fls; [intros D; apply without_nil; exact (C D)|exact C].
Qed.
Print Assumptions C80_twice.

(** The first field, in order of declaration, that is not there and that nothing stands for. *)
Theorem C80_missing : forall i fig ident deny fs fls g d fa f fb,
  wf (VDict g d) -> x_apart (XStruct ident deny fs fls) ->
  ~ In ident [value_name; rel_name; tagged_name] ->
  readable (map (map_field (fun x => (x_optional x, xgives (MConf i fig) x))) fs) d ->
  match fls with
  | [] => deny = true -> forall k' x', In (k', x') d -> In k' (all_names fs)
  | _ => forall k' x', In (k', x') d -> ~ In k' (all_names fs) -> narrow_only x'
  end ->
  fs = fa ++ f :: fb ->
  (forall f', In f' fa -> not_there f' d -> f_default f' <> None \/ x_optional (f_type f')) ->
  not_there f d -> f_default f = None -> ~ x_optional (f_type f) ->
  exists e, xdeserialize (XStruct ident deny fs fls) (DConf i fig (VDict g d)) = Err e /\
    e_path e = [] /\ e_kind e = KMissingField (f_name f) /\ e_tag e = g /\ e_metadata e = get_metadata fig g.
Proof.
  intros i fig ident deny fs fls g d fa f fb W A Hn R C E Fa Nt Df Op.
  apply struct_blamed; [exact Hn|].
  apply (first_missing (MConf i fig) deny fs fls (proj1 A) (proj1 (proj2 A)) g d fa f fb W R); auto.
  unfold accepts; destruct fls; [intros D; apply without_nil; exact (C D)|exact C].
Qed.
Print Assumptions C80_missing.

(** ** C81: [flatten] *)

(** What a struct with flattened fields gives. *)
Theorem C81_flatten : forall i fig ident deny fs fls v y, wf v -> x_apart (XStruct ident deny fs fls) -> fls <> [] ->
  xdeserialize (XStruct ident deny fs fls) (DConf i fig v) = Ok y <->
  exists g d, v = VDict g d /\
    (forall k x, In (k, x) d -> ~ In k (all_names fs) -> narrow_only x) /\
    from_dict deny (map (map_field (fun x => (x_optional x, xgives (MConf i fig) x))) fs)
      (map (fun nf => (fst nf, match snd nf with
                               | FlStruct opt gs => FlStruct opt (map (map_field (fun x => (x_optional x, xstrictly true x))) gs)
                               | FlMap x => FlMap (x_optional x, xstrictly false x)
                               end)) fls) d y.
Proof.
  intros i fig ident deny fs fls v y W A N. rewrite (x_granted_at _ (MConf i fig) _ _ W A). destruct fls; [congruence|]. reflexivity.
Qed.
Print Assumptions C81_flatten.

(** In strict extraction, flattening a struct gives nothing that its fields, written in the outer
    struct, would not give. *)
Theorem C81_inline : forall fig ident fs n gs v own zs, wf v ->
  NoDup (all_names (fs ++ gs)) -> all (map (fun f => x_apart (f_type f)) fs) ->
  ~ In ident [value_name; rel_name; tagged_name] ->
  Forall (fun f => exists t, f_type f = XTy t /\ SpecDe.ordinary t /\ named_apart t /\ same_copied t) gs ->
  length own = length fs ->
  xdeserialize (XStruct ident false fs [(n, FlStruct false gs)]) (DConf Exact fig v) = Ok (EVStruct (own ++ [(n, EVStruct zs)])) ->
  xdeserialize (XStruct ident false (fs ++ gs) []) (DConf Exact fig v) = Ok (EVStruct (own ++ zs)).
Proof.
  intros fig ident fs n gs v own zs W N A Hn G L E.
  assert (Nf : NoDup (all_names fs) /\ NoDup (all_names gs) /\ forall k, In k (all_names fs) -> ~ In k (all_names gs)).
  { unfold all_names in N |- *. rewrite flat_map_app in N. split; [|split; [eapply NoDup_app_r; exact N|intros k; apply NoDup_app_disjoint; exact N]].
    clear - N. induction (flat_map f_names fs) as [|a l IH]; [constructor|]. inversion N; subst. constructor; [|auto].
    intros I. apply H1. apply in_or_app. auto. }
  destruct Nf as (N1 & N2 & N3).
  assert (Ag : all (map (fun f => x_apart (f_type f)) gs)).
  { apply BlameProofs.all_Forall. eapply Forall_impl; [|exact G]. cbn. intros f (t & -> & _ & T & _). exact T. }
  assert (A0 : x_apart (XStruct ident false fs [(n, FlStruct false gs)])) by (cbn; tauto).
  assert (A' : x_apart (XStruct ident false (fs ++ gs) [])).
  { cbn [x_apart]. split; [exact N|]. split; [|exact I]. apply BlameProofs.all_Forall. apply Forall_forall. intros f Hf.
    apply in_app_or in Hf. destruct Hf; [exact (all_at _ _ _ A H)|exact (all_at _ _ _ Ag H)]. }
  apply C81_flatten in E; [|exact W|exact A0|discriminate]. destruct E as (g & d & -> & _ & D).
  destruct D as (own' & others & rest & B & R & _ & Ey). cbn [map fst snd] in R.
  destruct others as [|[n' y'] [|? ?]]; cbn [from_rest] in R; try (destruct R; fail).
  2:{ destruct R as (_ & _ & d' & _ & R). destruct R. }
  destruct R as (-> & (zs' & B' & ->) & _).
  assert (Lo : length own' = length fs). { clear - B. revert own' B. induction fs as [|f fs IH]; intros own' B; inversion B; subst; cbn; auto. }
  injection Ey as Ey. assert (own = own' /\ zs = zs') as [<- <-].
  { clear - Ey L Lo. assert (X : length own = length own') by congruence. clear L Lo. revert own' X Ey.
    induction own as [|a own IH]; intros [|b own']; cbn; intros X Ey; try discriminate X; injection Ey.
    - intros ->. auto.
    - intros Y ->. injection X as X. destruct (IH own' X Y) as [-> ->]. auto. }
  apply (x_granted_at _ (MConf Exact fig) _ _ W A'). cbn [xgives]. exists (VDict g d). split; [constructor; exact Hn|].
  left. exists g, d. split; [reflexivity|]. exists (own ++ zs), [], (without (all_names (fs ++ gs)) d).
  rewrite all_names_map. split; [|split; [reflexivity|split; [discriminate|rewrite app_nil_r; reflexivity]]].
  rewrite map_app. apply Forall2_app; [exact B|]. rewrite all_names_map in B'. clear - B' G N3 W.
  assert (Sub : forall f, In f gs -> forall k x, In k (f_names f) -> In (k, x) (without (all_names fs) d) <-> In (k, x) d).
  { intros f I k x K. rewrite in_without. split; [tauto|]. intros J. split; [exact J|]. intros Kf. apply (N3 k Kf). unfold all_names. apply in_flat_map. eauto. }
  unfold by_names in *. clear N3. revert zs B'. induction gs as [|f gs IH]; intros zs B'; inversion B' as [|? [m y] ? zs' [X1 X2] X3]; subst; constructor.
  - split; [exact X1|]. inversion G as [|? ? (t & Et & O & Na & Sc) _]; subst. specialize (Sub f (or_introl eq_refl)).
    destruct X2 as [(x & U & X2)|[Nt X2]]; [left|right].
    + exists x. cbn [map_field f_type snd fst] in *. destruct U as (k & K & J & U). cbn [map_field f_names f_name f_aliases] in *.
      split; [exists k; split; [exact K|]; split; [apply (Sub k x K); exact J|]|].
      * intros k' x' K' J'. apply (U k' x' K'). apply (Sub k' x' K'). exact J'.
      * rewrite Et in X2 |- *. cbn [xstrictly xgives] in *. apply (Sub k x K) in J.
        assert (Wx := wf_entry _ _ _ _ W J).
        apply (mn_value _ _ _ _ (proj1 (extraction_granted t Na) (MConf Exact fig)) x y Wx). apply (plain_meant t (MConf Exact fig) x y Wx O Na).
        cbn [mode_interp]. eapply copy_sound; eassumption.
    + split; [|exact X2]. intros k x K J. apply (Nt k x K). apply (Sub k x K). exact J.
  - apply IH; [inversion G; assumption| |assumption]. intros f' I. apply Sub. right. exact I.
Qed.
Print Assumptions C81_inline.

(** If the struct's own fields are all right, whatever is wrong has no place: the error's path
    ends at the struct, and its source is that of the struct's dictionary. *)
Theorem C81_no_place : forall i fig ident deny fs fls g d own e, wf (VDict g d) -> x_apart (XStruct ident deny fs fls) -> fls <> [] ->
  by_names (map (map_field (fun x => (x_optional x, xgives (MConf i fig) x))) fs) d own ->
  (forall k x, In (k, x) d -> ~ In k (all_names fs) -> narrow_only x) ->
  xdeserialize (XStruct ident deny fs fls) (DConf i fig (VDict g d)) = Err e ->
  e_path e = [] /\ e_tag e = g /\ e_metadata e = get_metadata fig g.
Proof.
  intros i fig ident deny fs fls g d own e W A N B C. rewrite xdeserialize_struct. destruct fls as [|nf fls]; [congruence|].
  cbn [de_any value_visit vtag]. unfold visit_map. cbn [v_map map_visitor].
  destruct (struct_from_map deny fs (nf :: fls) (map_access (DConf i fig) d)) as [y|e0] eqn:E; [discriminate|].
  apply (rest_wrong (MConf i fig) deny fs (nf :: fls) (proj1 A) (proj1 (proj2 A)) g d own e0 W B C) in E. destruct E as (k & ->).
  cbn [settle res_map_err retagged err_of_kind]. intros E.
  assert (X : forall a b : error, @Err error dval a = Err b -> a = b) by (intros a b [= H]; exact H). apply X in E. subst e.
  unfold resolved. cbn [resolved_with e_path e_tag e_metadata is_default tag_default tag_raw N.eqb]. auto.
Qed.
Print Assumptions C81_no_place.

(** What it complains about, where what was copied for a flattened field is of the wrong kind. *)
Theorem C81_wrong_kind : forall o x ident deny fs fls c,
  ((forall l, c <> CSeq l) ->
     xcontent o (XSeq x) c = Err (err_of_kind (KInvalidType (unexpected c) (lit "a sequence")))) /\
  ((forall l, c <> CMap l) ->
     xcontent o (XMap x) c = Err (err_of_kind (KInvalidType (unexpected c) (lit "a map")))) /\
  ((forall l, c <> CMap l) -> (forall l, c <> CSeq l) ->
     xcontent o (XStruct ident deny fs fls) c = Err (err_of_kind (KInvalidType (unexpected c) (lit "struct " ++ ident)))).
Proof.
  intros o x ident deny fs fls c. split; [|split]; cbn [xcontent]; intros; destruct c; try reflexivity;
    exfalso; match goal with H : forall l, _ <> _ |- _ => solve [eapply H; reflexivity] end.
Qed.
Print Assumptions C81_wrong_kind.

(** From a value of the wrong kind, the error is that of the same type without attributes: C84 says which. *)
Theorem C81_as_plain : forall m x t ident deny fs ts v,
  ((forall g l, v <> VArray g l) -> xdeserialize (XSeq x) (mk_de m v) = deserialize (TSeq t) (mk_de m v)) /\
  ((forall g d, v <> VDict g d) -> xdeserialize (XMap x) (mk_de m v) = deserialize (TMap t) (mk_de m v)) /\
  ((forall g d, v <> VDict g d) -> (forall g l, v <> VArray g l) -> ~ In ident [value_name; rel_name; tagged_name] ->
     xdeserialize (XStruct ident deny fs []) (mk_de m v) = deserialize (TStruct ident ident deny ts) (mk_de m v)).
Proof.
  intros m x t ident deny fs ts v. split; [|split].
  - intros H. destruct v; destruct m; try reflexivity; exfalso; eapply H; reflexivity.
  - intros H. destruct v; destruct m; try reflexivity; exfalso; eapply H; reflexivity.
  - intros H H' HN. cbn [xdeserialize deserialize].
    destruct m as [i f|]; destruct v; try (exfalso; (eapply H; reflexivity) || (eapply H'; reflexivity));
      unfold mk_de, de_struct; rewrite ?(fun f v => BlameProofs.magic_map_none ident f v HN); try reflexivity.
Qed.
Print Assumptions C81_as_plain.

(** At the top level, then, there is no source at all. *)
Theorem C81_unsourced : forall H i f ident deny fs fls d g own e, reachable H f -> x_apart (XStruct ident deny fs fls) -> fls <> [] ->
  merged f = Ok (VDict g d) ->
  by_names (map (map_field (fun x => (x_optional x, xgives (MConf i f) x))) fs) d own ->
  (forall k x, In (k, x) d -> ~ In k (all_names fs) -> narrow_only x) ->
  xextract i f (XStruct ident deny fs fls) = Err e ->
  e_path e = [] /\ e_metadata e = None.
Proof.
  intros H i f ident deny fs fls d g own e R A N M B C E. unfold xextract in E. rewrite M in E. cbn [res_bind] in E.
  destruct (C81_no_place i f ident deny fs fls g d own e (reachable_merged_wf _ _ _ R M) A N B C E) as (E1 & E2 & E3).
  split; [exact E1|]. rewrite E3. assert (g = tag_default) as ->.
  { unfold merged in M. destruct (f_value f) as [m|]; [|discriminate M]. destruct (take_or_empty p_default m) as [a b].
    destruct (take_or_empty p_global b). injection M as <- _. reflexivity. }
  destruct (reachable_inv _ _ R) as [[_ Md] _]. unfold get_metadata. destruct (get tag_default (f_metadata f)) as [x|] eqn:G; [|reflexivity].
  destruct (Md _ _ G) as (p & Np & _). discriminate Np.
Qed.
Print Assumptions C81_unsourced.

(** An integer of 128 bits among what is not one of the struct's own fields makes extraction fail,
    whether or not anything reads it. *)
Theorem C81_wide : forall i fig ident deny fs fls g d k x y, wf (VDict g d) -> x_apart (XStruct ident deny fs fls) -> fls <> [] ->
  In (k, x) d -> ~ In k (all_names fs) -> ~ narrow_only x ->
  xdeserialize (XStruct ident deny fs fls) (DConf i fig (VDict g d)) <> Ok y.
Proof.
  intros i fig ident deny fs fls g d k x y W A N J K Nx E. apply C81_flatten in E; auto. destruct E as (g' & d' & [= <- <-] & C & _).
  exact (Nx (C k x J K)).
Qed.
Print Assumptions C81_wide.

(** Flattened fields are never converted leniently. *)
Theorem C81_lossy : forall fig ident deny fls v y, wf v -> x_apart (XStruct ident deny [] fls) -> fls <> [] ->
  xdeserialize (XStruct ident deny [] fls) (DConf Lossy fig v) = Ok y <->
  xdeserialize (XStruct ident deny [] fls) (DConf Exact fig v) = Ok y.
Proof. intros fig ident deny fls v y W A N. rewrite !C81_flatten by assumption. reflexivity. Qed.
Print Assumptions C81_lossy.

(** ** C82: [untagged] *)

(** The first variant, in order of declaration, that the value strictly is. *)
Theorem C82_untagged : forall i fig ident vs v y, wf v -> x_apart (XUntagged ident vs) ->
  xdeserialize (XUntagged ident vs) (DConf i fig v) = Ok y <->
  narrow_only v /\
  exists pre n x post z, vs = pre ++ (n, x) :: post /\ y = EVVariant n (ShNew z) /\ xstrictly false x v z /\
    forall n' x' z', In (n', x') pre -> ~ xstrictly false x' v z'.
Proof.
  intros i fig ident vs v y W A. rewrite (x_granted_at _ (MConf i fig) _ _ W A). cbn [xgives].
  split; intros [Nv X]; (split; [exact Nv|]).
  - destruct X as (n & z & (pre & r & post & E & R & F) & ->).
    apply map_eq_app in E. destruct E as (l1 & l2 & -> & <- & E). apply map_eq_cons in E.
    destruct E as ([n0 x] & l3 & -> & E & <-). cbn in E. injection E as -> <-.
    exists l1, n, x, l3, z. split; [reflexivity|]. split; [reflexivity|]. split; [exact R|].
    intros n' x' z' I. apply (F n' (xstrictly false x') z'). apply in_map_iff. exists (n', x'). auto.
  - destruct X as (pre & n & x & post & z & -> & -> & R & F). exists n, z. split; [|reflexivity].
    exists (map (fun nv => (fst nv, xstrictly false (snd nv))) pre), (xstrictly false x), (map (fun nv => (fst nv, xstrictly false (snd nv))) post).
    rewrite map_app. split; [reflexivity|]. split; [exact R|]. intros n' r' z' I. apply in_map_iff in I. destruct I as ([n1 x1] & E & I).
    cbn in E. injection E as -> <-. eapply F. exact I.
Qed.
Print Assumptions C82_untagged.

(** If none fits, there is one message, with neither place nor source; what was wrong with each
    variant is not said. *)
Theorem C82_error : forall i fig ident vs v, wf v -> x_apart (XUntagged ident vs) -> narrow_only v ->
  (forall n x z, In (n, x) vs -> ~ xstrictly false x v z) ->
  xdeserialize (XUntagged ident vs) (DConf i fig v) =
  Err (MkError tag_default None None [] (KMessage (lit "data did not match any variant of untagged enum " ++ ident)) None).
Proof.
  intros i fig ident vs v W A Nv F. cbn [xdeserialize deserialize_content].
  assert (E : buffer (MConf i fig) v = Ok (pure v)) by (apply buffered; auto). rewrite E. cbn [res_bind].
  cbn [x_apart] in A. induction vs as [|[n x] vs IH]; cbn [map first_fitting fst snd]; [reflexivity|].
  cbn in A. destruct (xcontent false x (pure v)) as [z|e] eqn:X.
  - apply (x_copy_read x (proj1 A) false v z W Nv) in X. destruct (F n x z (or_introl eq_refl) X).
  - apply IH; [apply A|]. intros n' x' z' I. apply (F n' x' z'). right. exact I.
Qed.
Print Assumptions C82_error.

(** Strictly or leniently, it is the same. *)
Theorem C82_lossy : forall fig ident vs v y, wf v -> x_apart (XUntagged ident vs) ->
  xdeserialize (XUntagged ident vs) (DConf Lossy fig v) = Ok y <->
  xdeserialize (XUntagged ident vs) (DConf Exact fig v) = Ok y.
Proof. intros fig ident vs v y W A. rewrite !C82_untagged by assumption. reflexivity. Qed.
Print Assumptions C82_lossy.

(** ** Witnesses *)

(** A Figment with one provider, called X. *)
Definition ex_x : provider :=
  ex_provider (lit "X")
    [(p_default, [(lit "host", VString tag_default (lit "localhost")); (lit "initial", VChar tag_default 120%N);
                  (lit "p", VNum tag_default (NInt I64 80)); (lit "ready", VString tag_default (lit "yes"))])].
Definition ex_fx : figment := given fig_new ex_x Merge 1.
Lemma ex_fx_reachable : reachable [mkProvision ex_loc ex_x] ex_fx.
Proof.
  apply (RC_provide [] fig_new ex_loc Merge ex_x ex_fx 2); [apply RC_new| |reflexivity].
  apply plain_ok; [|reflexivity]. vm_compute. repeat constructor; auto.
Qed.
Definition plain_field (n : ustr) (t : ty) : field xty := mkField n [] None (XTy t).
Definition ex_port : field xty := mkField (lit "port") [lit "p"] (Some (EVInt U16 8080)) (XTy (TInt U16)).
Definition ex_conf (fs : list (field xty)) (fls : list (ustr * Derive.flat xty)) : xty := XStruct (lit "Config") false fs fls.
Definition got (r : res error dval) : option dval := match r with Ok y => Some y | Err _ => None end.
Definition err_of (r : res error dval) : option (list ustr * kind * option ustr) :=
  match r with Ok _ => None | Err e => Some (e_path e, e_kind e, option_map md_name (e_metadata e)) end.

Example C80_ex :
  x_apart (ex_conf [ex_port; plain_field (lit "host") TString] []) /\
  got (xextract Exact ex_fx (ex_conf [ex_port; plain_field (lit "host") TString] [])) =
    Some (EVStruct [(lit "port", EVInt U16 80); (lit "host", EVStr (lit "localhost"))]) /\
  (* absent: the default *)
  got (xextract Exact ex_fx (ex_conf [mkField (lit "q") [] (Some (EVInt U16 8080)) (XTy (TInt U16))] [])) =
    Some (EVStruct [(lit "q", EVInt U16 8080)]) /\
  (* present and wrong: an error that names the key as written and the provider *)
  err_of (xextract Exact ex_fx (ex_conf [mkField (lit "port") [lit "p"] (Some (EVBool true)) (XTy TBool)] [])) =
    Some ([lit "p"], KInvalidType (ASigned 80) (lit "a boolean"), Some (lit "X")).
Proof. split; [cbn; repeat constructor; cbn; intuition discriminate|]. vm_compute. auto. Qed.
Example C80_ex_no_mask :
  (* null is there: no default *)
  err_of (xdeserialize (ex_conf [ex_port] []) (DConf Exact fig_new (VDict tag_default [(lit "port", VEmpty tag_default ENone)]))) =
    Some ([lit "port"], KInvalidType AOption (lit "u16"), None) /\
  err_of (xdeserialize (ex_conf [ex_port] []) (DConf Exact fig_new (VDict tag_default [(lit "p", VNum tag_default (NInt U8 1)); (lit "port", VNum tag_default (NInt U8 2))]))) =
    Some ([], KDuplicateField (lit "port"), None).
Proof. vm_compute. auto. Qed.

Example C80_ex_errors :
  (* the names of a struct that refuses others; [ready] is one of them *)
  err_of (xextract Exact ex_fx (XStruct (lit "Config") true [ex_port; plain_field (lit "host") TString; plain_field (lit "initial") TChar] [])) =
    Some ([lit "ready"], KUnknownField (lit "ready") [lit "port"; lit "p"; lit "host"; lit "initial"], Some (lit "X")) /\
  (* nothing stands for [a]; [b] would be missing too *)
  err_of (xextract Exact ex_fx (ex_conf [ex_port; plain_field (lit "o") (TOption TBool); plain_field (lit "a") TBool; plain_field (lit "b") TBool] [])) =
    Some ([], KMissingField (lit "a"), None) /\
  err_of (xextract Exact ex_fx (ex_conf [mkField (lit "ready") [lit "initial"] None (XTy TString)] [])) =
    Some ([], KDuplicateField (lit "ready"), None).
Proof. vm_compute. auto. Qed.
Example C80_ex_unknown : let d := [(lit "p", VNum (Tag 1) (NInt I64 80))] in
  readable (map (map_field (fun x => (x_optional x, xgives (MConf Exact ex_fx) x))) [ex_port]) d /\
  (forall k' x', In (k', x') d -> exists f, In f [ex_port] /\ In k' (f_names f)) /\
  (forall f, In f [ex_port] -> ~ In (lit "ready") (f_names f)).
Proof.
  split; [|split].
  - intros f k x [<-|[]] K [[= <- <-]|[]]. split.
    + exists (EVInt U16 80). apply (x_granted_at (XTy (TInt U16)) (MConf Exact ex_fx)); [exact Logic.I|cbn; auto|reflexivity].
    + intros k' x' _ [[= <- <-]|[]]. reflexivity.
  - intros k x [[= <- <-]|[]]. exists ex_port. split; [left; reflexivity|right; left; reflexivity].
  - intros f [<-|[]] [E|[E|[]]]; discriminate E.
Qed.

(** The same fields, flattened: *)
Example C81_ex :
  x_apart (ex_conf [plain_field (lit "host") TString] [(lit "net", FlStruct false [ex_port]); (lit "rest", FlMap (XTy TString))]) /\
  got (xextract Exact ex_fx (ex_conf [plain_field (lit "host") TString] [(lit "net", FlStruct false [ex_port]); (lit "rest", FlMap (XTy TValue))])) =
    Some (EVStruct [(lit "host", EVStr (lit "localhost")); (lit "net", EVStruct [(lit "port", EVInt U16 80)]);
                    (lit "rest", EVMap [(lit "initial", EVValue (VChar tag_default 120%N)); (lit "ready", EVValue (VString tag_default (lit "yes")))])]) /\
  (* what cannot be read is [None] *)
  got (xextract Exact ex_fx (ex_conf [] [(lit "net", FlStruct true [plain_field (lit "p") TBool])])) = Some (EVStruct [(lit "net", EVNone)]).
Proof. split; [cbn; repeat constructor; cbn; intuition discriminate|]. vm_compute. auto. Qed.

(** Flattening loses the key and the source of errors: written in the outer struct, the field's
    error names both. *)
Theorem C81_place_lost : exists H f fs e1 e2, reachable H f /\
  xextract Exact f (ex_conf fs []) = Err e1 /\ e_path e1 = [lit "p"] /\ option_map md_name (e_metadata e1) = Some (lit "X") /\
  xextract Exact f (ex_conf [] [(lit "inner", FlStruct false fs)]) = Err e2 /\ e_path e2 = [] /\ e_metadata e2 = None /\
  e_kind e1 = e_kind e2.
Proof.
  exists [mkProvision ex_loc ex_x], ex_fx, [plain_field (lit "p") TBool]. do 2 eexists. split; [exact ex_fx_reachable|].
  split; [vm_compute; reflexivity|]. split; [reflexivity|]. split; [reflexivity|]. split; [vm_compute; reflexivity|].
  repeat split.
Qed.
Print Assumptions C81_place_lost.

(** It also loses values: characters as strings, and all of the lenient conversions. *)
Theorem C81_values_lost : exists H f,
  reachable H f /\
  got (xextract Exact f (ex_conf [plain_field (lit "initial") TString] [])) = Some (EVStruct [(lit "initial", EVStr (lit "x"))]) /\
  got (xextract Exact f (ex_conf [] [(lit "inner", FlStruct false [plain_field (lit "initial") TString])])) = None /\
  got (xextract Lossy f (ex_conf [plain_field (lit "ready") TBool] [])) = Some (EVStruct [(lit "ready", EVBool true)]) /\
  got (xextract Lossy f (ex_conf [] [(lit "inner", FlStruct false [plain_field (lit "ready") TBool])])) = None.
Proof. exists [mkProvision ex_loc ex_x], ex_fx. split; [exact ex_fx_reachable|]. vm_compute. auto. Qed.
Print Assumptions C81_values_lost.

(** The hypotheses of [C81_no_place] and [C81_unsourced]. *)
Example C81_ex_no_place : forall own, own = [(lit "host", EVStr (lit "localhost"))] ->
  exists d, merged ex_fx = Ok (VDict tag_default d) /\
  by_names (map (map_field (fun x => (x_optional x, xgives (MConf Exact ex_fx) x))) [plain_field (lit "host") TString]) d own /\
  (forall k x, In (k, x) d -> narrow_only x).
Proof.
  intros own ->. eexists. split; [vm_compute; reflexivity|]. split.
  - constructor; [|constructor]. split; [reflexivity|]. left. exists (VString (Tag 1) (lit "localhost")). split.
    + exists (lit "host"). split; [left; reflexivity|]. split; [left; reflexivity|].
      intros k x [<-|[]] _. reflexivity.
    + cbn. exists (lit "localhost"). split; [constructor|reflexivity].
  - intros k x I. cbn in I. repeat (destruct I as [[= <- <-]|I]; [exact I || exact Logic.I|]). destruct I.
Qed.

Definition ex_untagged : xty := XUntagged (lit "Baz") [(lit "A", XTy TString); (lit "B", XTy (TInt USize))].
Example C82_ex :
  x_apart ex_untagged /\
  got (xdeserialize ex_untagged (DConf Exact ex_fx (VString (Tag 1) (lit "80")))) = Some (EVVariant (lit "A") (ShNew (EVStr (lit "80")))) /\
  got (xdeserialize ex_untagged (DConf Lossy ex_fx (VNum (Tag 1) (NInt I64 80)))) = Some (EVVariant (lit "B") (ShNew (EVInt USize 80))) /\
  err_of (xextract Exact ex_fx (ex_conf [mkField (lit "initial") [] None ex_untagged] [])) =
    Some ([lit "initial"], KMessage (lit "data did not match any variant of untagged enum Baz"), Some (lit "X")).
Proof. split; [cbn; auto|]. vm_compute. auto. Qed.

(** An untagged enum does not allow for [RelativePathBuf] and [Tagged] (magic.rs:428-430): neither is
    ever read from text. *)
Theorem C82_magic : forall i fig ident vs v s n z, wf v -> x_apart (XUntagged ident vs) -> text v s ->
  (In (n, XTy TRelative) vs \/ exists t, In (n, XTy (TTagged t)) vs) -> NoDup (map fst vs) ->
  xdeserialize (XUntagged ident vs) (DConf i fig v) <> Ok (EVVariant n (ShNew z)).
Proof.
  intros i fig ident vs v s n z W A T M N E. apply C82_untagged in E; auto.
  destruct E as (_ & pre & n' & x & post & z' & -> & [= <- <-] & S & _).
  assert (X : x = XTy TRelative \/ exists t, x = XTy (TTagged t)).
  { assert (U : forall x', In (n, x') (pre ++ (n, x) :: post) -> x' = x).
    { intros x' I. rewrite map_app in N. cbn [map fst] in N. apply NoDup_remove_2 in N. rewrite <- map_app in N.
      apply in_app_or in I. cbn in I. destruct I as [I|[[= <-]|I]]; [|reflexivity|]; exfalso; apply N; apply in_map_iff; exists (n, x'); (split; [reflexivity|]); apply in_or_app; auto. }
    destruct M as [M|(t & M)]; [left|right; exists t]; symmetry; apply U; exact M. }
  destruct X as [->|(t & ->)]; cbn [xstrictly strictly TRelative TTagged] in S;
    destruct S as (ys & [(g & d & -> & _)|(g & l & xs & -> & _)] & _); inversion T.
Qed.
Print Assumptions C82_magic.
Example C82_ex_magic :
  let x := XUntagged (lit "E") [(lit "P", XTy TRelative); (lit "S", XTy TString)] in
  x_apart x /\ text (VString (Tag 1) (lit "a/b")) (lit "a/b") /\
  got (xdeserialize x (DConf Exact ex_fx (VString (Tag 1) (lit "a/b")))) = Some (EVVariant (lit "S") (ShNew (EVStr (lit "a/b")))).
Proof. split; [cbn; split; [|auto]; split; [|auto]; repeat constructor; cbn; intuition discriminate|]. split; [constructor|vm_compute; reflexivity]. Qed.

(** A list that is too short for a struct: the error is about the list as a whole, and the length it
    mentions is the number of fields up to the first that has no default, which may be more than the
    list has elements.  An element that cannot be read is named by its number. *)
Lemma read_given {i fig} (given : list (field xty)) : forall l rest short more n,
  Forall2 (fun f v => exists y, xdeserialize (f_type f) (DConf i fig v) = Ok y) given l ->
  exists ys, read_elements (fun n rec d => next_element rec n d) (map (map_field xdeserialize) (given ++ more)) short
    (map (DConf i fig) (l ++ rest)) n =
  res_map (fun yr => (ys ++ fst yr, snd yr))
    (read_elements (fun n rec d => next_element rec n d) (map (map_field xdeserialize) more) short
      (map (DConf i fig) rest) (n + N.of_nat (length given))%N).
Proof.
  induction given as [|f given IH]; intros l rest short more n F; inversion F as [|? v ? l' (y & E) F']; subst.
  - exists []. cbn [app length]. rewrite N.add_0_r. destruct (read_elements _ _ _ _ _) as [[]|]; reflexivity.
  - destruct (IH l' rest short more (n + 1)%N F') as (ys & R). exists ((f_name f, y) :: ys). cbn [app map read_elements].
    unfold next_element at 1. change (f_type (map_field xdeserialize f)) with (xdeserialize (f_type f)). rewrite E. cbn [res_map_err res_bind].
    rewrite R. replace (n + N.of_nat (length (f :: given)))%N with (n + 1 + N.of_nat (length given))%N by (cbn [length]; lia).
    match goal with |- context [res_map _ (read_elements ?a ?b ?c ?d ?e)] => destruct (read_elements a b c d e) as [[]|] end; reflexivity.
Qed.
Lemma read_absent (absent : list (field xty)) : forall short more n,
  Forall (fun f => f_default f <> None) absent ->
  exists ys, read_elements (fun n rec d => next_element rec n d) (map (map_field xdeserialize) (absent ++ more)) short [] n =
  res_map (fun yr => (ys ++ fst yr, snd yr))
    (read_elements (fun n rec d => next_element rec n d) (map (map_field xdeserialize) more) short [] (n + N.of_nat (length absent))%N).
Proof.
  induction absent as [|f absent IH]; intros short more n F; inversion F as [|? ? D F']; subst.
  - exists []. cbn [app length]. rewrite N.add_0_r. destruct (read_elements _ _ _ _ _) as [[]|]; reflexivity.
  - destruct (f_default f) as [y|] eqn:E; [|congruence]. destruct (IH short more (n + 1)%N F') as (ys & R).
    exists ((f_name f, y) :: ys). cbn [app map read_elements]. change (f_default (map_field xdeserialize f)) with (f_default f).
    rewrite E, R. replace (n + N.of_nat (length (f :: absent)))%N with (n + 1 + N.of_nat (length absent))%N by (cbn [length]; lia).
    match goal with |- context [res_map _ (read_elements ?a ?b ?c ?d ?e)] => destruct (read_elements a b c d e) as [[]|] end; reflexivity.
Qed.
Lemma struct_of_list i fig ident deny fs g l : ~ In ident [value_name; rel_name; tagged_name] ->
  match struct_from_seq (lit "struct " ++ ident) fs (map (DConf i fig) l) with
  | Ok _ => True
  | Err e => exists e', xdeserialize (XStruct ident deny fs []) (DConf i fig (VArray g l)) = Err e' /\
      e_path e' = e_path e /\ e_kind e' = e_kind e
  end.
Proof.
  intros N. rewrite xdeserialize_struct. unfold de_struct.
  assert (M : magic_map ident fig (VArray g l) = None).
  { apply BlameProofs.magic_map_none. exact N. }
  rewrite M. cbn [de_any value_visit]. unfold visit_seq. cbn [x_struct_visitor v_seq].
  destruct (struct_from_seq _ _ _) as [y|[t p m pa k v]]; [exact I|]. eexists. split; [reflexivity|]. split; reflexivity.
Qed.
Theorem C80_short : forall i fig ident deny given absent f after g l,
  ~ In ident [value_name; rel_name; tagged_name] ->
  Forall2 (fun f v => exists y, xdeserialize (f_type f) (DConf i fig v) = Ok y) given l ->
  Forall (fun f => f_default f <> None) absent -> f_default f = None ->
  exists e exp, xdeserialize (XStruct ident deny (given ++ absent ++ f :: after) []) (DConf i fig (VArray g l)) = Err e /\
    e_path e = [] /\ e_kind e = KInvalidLength (N.of_nat (length given + length absent)) exp.
Proof.
  intros i fig ident deny given absent f after g l N G A D.
  pose proof (struct_of_list i fig ident deny (given ++ absent ++ f :: after) g l N) as S.
  unfold struct_from_seq in S. set (sh := (lit "struct " ++ ident) ++ _) in S.
  destruct (read_given given l [] sh (absent ++ f :: after) 0%N G) as (ys & R). rewrite app_nil_r in R.
  destruct (read_absent absent sh (f :: after) (0 + N.of_nat (length given))%N A) as (zs & R').
  cbn [map] in R. rewrite R' in R. rewrite R in S. cbn [read_elements map] in S.
  change (f_default (map_field xdeserialize f)) with (f_default f) in S. rewrite D in S. unfold invalid_length in S. cbn [res_map] in S.
  destruct S as (e & E & P & K). exists e, sh. split; [exact E|]. split; [exact P|]. rewrite K. cbn. f_equal. lia.
Qed.
Print Assumptions C80_short.
Theorem C80_element : forall i fig ident deny given f after g l v rest e,
  ~ In ident [value_name; rel_name; tagged_name] ->
  Forall2 (fun f v => exists y, xdeserialize (f_type f) (DConf i fig v) = Ok y) given l ->
  xdeserialize (f_type f) (DConf i fig v) = Err e ->
  exists e', xdeserialize (XStruct ident deny (given ++ f :: after) []) (DConf i fig (VArray g (l ++ v :: rest))) = Err e' /\
    e_path e' = fmt_nat (N.of_nat (length l)) :: e_path e /\ e_kind e' = e_kind e.
Proof.
  intros i fig ident deny given f after g l v rest e N G D.
  pose proof (struct_of_list i fig ident deny (given ++ f :: after) g (l ++ v :: rest) N) as S.
  unfold struct_from_seq in S. set (sh := (lit "struct " ++ ident) ++ _) in S.
  destruct (read_given given l (v :: rest) sh (f :: after) 0%N G) as (ys & R).
  rewrite R in S. cbn [read_elements map] in S. unfold next_element at 1 in S.
  change (f_type (map_field xdeserialize f)) with (xdeserialize (f_type f)) in S. rewrite D in S. cbn [res_map res_bind res_map_err] in S.
  destruct S as (e' & E & P & K). exists e'. split; [exact E|]. rewrite P, K. rewrite N.add_0_l.
  assert (L : length given = length l) by (clear -G; induction G; cbn; congruence). rewrite L. destruct e. split; reflexivity.
Qed.
Print Assumptions C80_element.
(** Two fields and a list of one element: the length is said to be 2. *)
Example C80_ex_short :
  let fs := [plain_field (lit "host") TString; mkField (lit "port") [] (Some (EVInt U16 80)) (XTy (TInt U16)); plain_field (lit "ready") TBool] in
  err_of (xdeserialize (ex_conf fs []) (DConf Exact ex_fx (VArray (Tag 1) [VString (Tag 1) (lit "h")]))) =
    Some ([], KInvalidLength 2 (lit "struct Config with 3 elements"), Some (lit "X")) /\
  err_of (xdeserialize (ex_conf fs []) (DConf Exact ex_fx (VArray (Tag 1) [VString (Tag 1) (lit "h"); VBool (Tag 1) true]))) =
    Some ([lit "1"], KInvalidType (ABool true) (lit "u16"), Some (lit "X")).
Proof. vm_compute. split; [reflexivity|]. reflexivity. Qed.
