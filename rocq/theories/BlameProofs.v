(** Extraction errors pinpoint the offending value. *)
From Coq Require Import Ascii String ZArith NArith Bool Lia.
From Coq Require Import Floats.SpecFloat.
From Coq Require Import List.
From Verif Require Import Res BMap Str Profile Tag Num Value NumParse Metadata Err Coalesce Figment Fmt De.
From Verif Require Import BMapProofs StrProofs ValueProofs NumParseProofs LossyProofs.
From Verif Require Import SpecParse SpecShow SpecLossy SpecDe DeProofs ShowProofs FmtProofs.
Import ListNotations.

Lemma all_Forall {A} (P : A -> Prop) l : all (map P l) <-> Forall P l.
Proof.
  unfold all. induction l as [|x r IH]; cbn; split; intros H; auto.
  - constructor; tauto.
  - inversion H; subst. tauto.
Qed.

Lemma is_default_eq t : is_default t = true <-> t = tag_default.
Proof.
  destruct t as [r]. unfold is_default, tag_default. cbn. rewrite N.eqb_eq. split; congruence.
Qed.

(** ** Facts about [nearest] and [trail] *)
Lemma trail_head p v vs : trail p v vs -> exists r, vs = v :: r.
Proof. inversion 1; subst; eauto. Qed.

Lemma nearest_cons v vs t :
  vs <> [] -> nearest vs t ->
  nearest (v :: vs) (if is_default t then vtag v else t).
Proof.
  intros Hne [(a & x & b & -> & Ht & Hd & Hb)|[-> Hb]].
  - destruct (is_default t) eqn:E; [apply is_default_eq in E; congruence|].
    left. exists (v :: a), x, b. auto.
  - change (is_default tag_default) with true. cbn match.
    destruct (is_default (vtag v)) eqn:E.
    + apply is_default_eq in E. right. rewrite E. split; [reflexivity|]. constructor; assumption.
    + left. exists [], v, vs. repeat split; auto.
      intros H. apply is_default_eq in H. congruence.
Qed.

Lemma nearest_one v : nearest [v] (vtag v).
Proof.
  destruct (is_default (vtag v)) eqn:E.
  - apply is_default_eq in E. right. rewrite E. split; [reflexivity|]. constructor; auto.
  - left. exists [], v, []. repeat split; auto. intros H. apply is_default_eq in H. congruence.
Qed.

Lemma nearest_default c vs : nearest (c :: vs) tag_default -> vtag c = tag_default.
Proof.
  intros [(a & x & b & E & Ht & Hd & Hb)|[_ Hb]]; [congruence|].
  inversion Hb; assumption.
Qed.

Lemma last_cons_ne {A} (x : A) r d d' : last (x :: r) d = last (x :: r) d'.
Proof.
  revert x. induction r as [|y r IH]; intros x; [reflexivity|].
  change (last (y :: r) d = last (y :: r) d'). apply IH.
Qed.

Lemma last_cons_cons {A} (x y : A) r d : last (x :: y :: r) d = last (y :: r) d.
Proof. reflexivity. Qed.

(** ** Errors in closed form *)
Definition settled (f : figment) (t : tag) (p : list ustr) (k : kind) : error :=
  MkError t (Some (match tag_profile t with Some q => q | None => f_profile f end))
          (get t (f_metadata f)) p k None.

Definition located (i : interp) (f : figment) (v : value) (e : error) : Prop :=
  exists t p k vs, e = settled f t p k /\ trail p v vs /\ nearest vs t /\ accounts i p (last vs v) k.

Lemma located_pinpoints i f v e : located i f v e -> pinpoints i f v e.
Proof.
  intros (t & p & k & vs & -> & H1 & H2 & H3). constructor; try reflexivity.
  cbn. exists vs, (last vs v). auto.
Qed.

Lemma located_settle i f v e : located i f v e -> located i f v (resolved (retagged (vtag v) e) f).
Proof.
  intros (t & p & k & vs & -> & H1 & H2 & H3).
  exists t, p, k, vs. split; [|auto].
  cbn. destruct (is_default t) eqn:E; [|reflexivity].
  apply is_default_eq in E. subst t.
  destruct (trail_head _ _ _ H1) as [r ->]. apply nearest_default in H2. rewrite H2. reflexivity.
Qed.

(** Errors before they pass the value they arise in. *)
Inductive pre (i : interp) (f : figment) (v : value) : error -> Prop :=
| pre_here k : accounts i [] v k -> pre i f v (err_of_kind k)
| pre_child k c e : child k v c -> located i f c e -> pre i f v (prefixed k e)
| pre_key k c kd : child k v c -> about_key k kd ->
    pre i f v (retagged (vtag c) (prefixed k (err_of_kind kd))).

Lemma pre_child_retag i f v k c e :
  child k v c -> located i f c e -> pre i f v (retagged (vtag c) (prefixed k e)).
Proof.
  intros Hc He.
  replace (retagged (vtag c) (prefixed k e)) with (prefixed k e); [eapply pre_child; eauto|].
  destruct He as (t & p & kd & vs & -> & H1 & H2 & H3). cbn.
  destruct (is_default t) eqn:E; [|reflexivity].
  apply is_default_eq in E. subst t.
  destruct (trail_head _ _ _ H1) as [r ->]. apply nearest_default in H2. rewrite H2. reflexivity.
Qed.

Lemma accounts_cons i k p x kd : accounts i p x kd -> accounts i (k :: p) x kd.
Proof.
  intros H. inversion H; subst; try (econstructor; eassumption).
  destruct H0 as [q ->]. eapply ac_key; [|eassumption]. exists (k :: q). reflexivity.
Qed.

Lemma pre_settle i f v e : pre i f v e -> located i f v (resolved (retagged (vtag v) e) f).
Proof.
  intros [k H|k c e' Hc (t & p & kd & vs & -> & H1 & H2 & H3)|k c kd Hc Hk].
  - exists (vtag v), [], k, [v]. split; [reflexivity|]. repeat split.
    + constructor.
    + apply nearest_one.
    + exact H.
  - exists (if is_default t then vtag v else t), (k :: p), kd, (v :: vs).
    destruct (trail_head _ _ _ H1) as [r ->]. repeat split.
    + econstructor; eassumption.
    + apply nearest_cons; [discriminate|assumption].
    + rewrite last_cons_cons. rewrite (last_cons_ne c r v c). apply accounts_cons. assumption.
  - exists (if is_default (vtag c) then vtag v else vtag c), [k], kd, [v; c].
    repeat split.
    + econstructor; [eassumption|constructor].
    + apply nearest_cons; [discriminate|]. apply nearest_one.
    + eapply ac_key; [|eassumption]. exists []. reflexivity.
Qed.

(** ** Visitors *)
Definition complaint (a : actual) (e : error) : Prop :=
  exists exp, e = err_of_kind (KInvalidType a exp) \/ e = err_of_kind (KInvalidValue a exp).

Record vis_good (i : interp) (f : figment) {A} (vis : visitor A) : Prop := {
  vg_bool : forall b e, visit_bool vis b = Err e -> complaint (ABool b) e;
  vg_str : forall s e, visit_str vis s = Err e -> complaint (AStr s) e;
  vg_char : forall c e, visit_char vis c = Err e -> complaint (AChar c) e \/ complaint (AStr [c]) e;
  vg_num : forall n e, num_visit n vis = Err e -> exists a, shown_num n a /\ complaint a e;
  vg_empty : forall m e, empty_visit m vis = Err e -> complaint (empty_to_actual m) e;
  vg_seq : forall t l e, Forall wf l -> visit_seq vis (map (DConf i f) l) = Err e ->
                         pre i f (VArray t l) e;
  vg_map : forall t d e, wf_dict d -> visit_map vis (map_access (DConf i f) d) = Err e ->
                         pre i f (VDict t d) e
}.

Lemma complaint_pre i f v a e : shown_as i v a -> complaint a e -> pre i f v e.
Proof. intros H [exp [->| ->]]; apply pre_here; constructor; assumption. Qed.

Lemma value_visit_pre i f {A} (vis : visitor A) v e :
  vis_good i f vis -> wf v -> value_visit (DConf i f) v vis = Err e -> pre i f v e.
Proof.
  intros G W H. destruct v as [t s|t c|t b|t n|t m|t d|t l]; cbn [value_visit] in H.
  - eapply complaint_pre; [|eapply vg_str; eassumption]. apply (sa_self i (VString t s)).
  - apply (vg_char _ _ _ G) in H. destruct H as [H|H]; (eapply complaint_pre; [|exact H]).
    + apply (sa_self i (VChar t c)).
    + apply sa_char.
  - eapply complaint_pre; [|eapply vg_bool; eassumption]. apply (sa_self i (VBool t b)).
  - apply (vg_num _ _ _ G) in H. destruct H as (a & Ha & H).
    eapply complaint_pre; [|exact H]. constructor. assumption.
  - eapply complaint_pre; [|eapply vg_empty; eassumption]. apply (sa_self i (VEmpty t m)).
  - eapply vg_map; [eassumption| |eassumption]. apply wf_VDict in W. assumption.
  - eapply vg_seq; [eassumption| |eassumption]. apply wf_VArray in W. assumption.
Qed.

Lemma settle_err {A} f t (r : res error A) e :
  settle f t r = Err e -> exists e0, r = Err e0 /\ e = resolved (retagged t e0) f.
Proof. unfold settle. destruct r; cbn; intros H; [discriminate|]. injection H as <-. eauto. Qed.

Lemma map_err_err {A} (g : error -> error) (r : res error A) e :
  res_map_err g r = Err e -> exists e0, r = Err e0 /\ e = g e0.
Proof. destruct r; cbn; intros H; [discriminate|]. injection H as <-. eauto. Qed.

Lemma res_map_err' {A B} (g : A -> B) (r : res error A) e : res_map g r = Err e -> r = Err e.
Proof. destruct r; cbn; congruence. Qed.

Lemma res_bind_err {A B} (r : res error A) (g : A -> res error B) e :
  res_bind r g = Err e -> r = Err e \/ exists x, r = Ok x /\ g x = Err e.
Proof. destruct r; cbn; intros H; [right; eauto|left; congruence]. Qed.

Lemma de_any_located i f {A} (vis : visitor A) v e :
  vis_good i f vis -> wf v -> de_any (DConf i f v) vis = Err e -> located i f v e.
Proof.
  intros G W H. apply settle_err in H. destruct H as (e0 & H & ->).
  apply pre_settle. eapply value_visit_pre; eassumption.
Qed.

(** What a [Deserialize] impl promises about its errors. *)
Record good (rec : deser -> res error dval) : Prop := {
  gd_conf : forall i f v e, wf v -> rec (DConf i f v) = Err e -> located i f v e;
  gd_str : forall s e, rec (DStr s) = Err e -> exists k, e = err_of_kind k /\ about_key s k;
  gd_missing : forall n e, rec (DMissing n) = Err e -> e = err_of_kind (KMissingField n)
}.

Lemma str_complaint s e : complaint (AStr s) e -> exists k, e = err_of_kind k /\ about_key s k.
Proof. intros [exp [->| ->]]; eexists; (split; [reflexivity|]); constructor. Qed.

Lemma good_any (vis : visitor dval) :
  (forall i f, vis_good i f vis) -> good (fun d => de_any d vis).
Proof.
  intros G. constructor.
  - intros i f v e. apply de_any_located. apply G.
  - intros s e H. apply str_complaint. apply (vg_str _ _ _ (G Exact fig_new)). assumption.
  - intros n e H. cbn in H. congruence.
Qed.

(** ** Scalars *)
Lemma wrong_complaint {A} (vis : visitor A) a e :
  @invalid_type A a (v_expecting vis) = Err e -> complaint a e.
Proof. intros H. injection H as <-. eexists. left. reflexivity. Qed.

Ltac invalid :=
  intros;
  match goal with
  | H : invalid_type _ _ = Err _ |- _ => injection H as <-
  | H : invalid_value _ _ = Err _ |- _ => injection H as <-
  end; eexists; auto.

(** A visitor that does not look at sequences and maps. *)
Lemma scalar_good i f {A} (vis : visitor A) :
  (forall b e, visit_bool vis b = Err e -> complaint (ABool b) e) ->
  (forall s e, visit_str vis s = Err e -> complaint (AStr s) e) ->
  (forall c e, visit_char vis c = Err e -> complaint (AChar c) e \/ complaint (AStr [c]) e) ->
  (forall n e, num_visit n vis = Err e -> exists a, shown_num n a /\ complaint a e) ->
  (forall m e, empty_visit m vis = Err e -> complaint (empty_to_actual m) e) ->
  v_seq vis = None -> v_map vis = None -> vis_good i f vis.
Proof.
  intros H1 H2 H3 H4 H5 H6 H7. constructor; auto.
  - intros t l e _ H. unfold visit_seq in H. rewrite H6 in H.
    eapply complaint_pre; [apply sa_self|]. eapply wrong_complaint. exact H.
  - intros t d e _ H. unfold visit_map in H. rewrite H7 in H.
    eapply complaint_pre; [apply sa_self|]. eapply wrong_complaint. exact H.
Qed.

Ltac shown := first [apply sn_u128 | apply sn_i128
                    | match goal with |- shown_num ?n _ => exact (sn_self n) end].

Lemma no_num {A} (vis : visitor A) n e :
  v_signed vis = None -> v_unsigned vis = None -> v_i128 vis = None -> v_u128 vis = None ->
  v_f32 vis = None -> v_f64 vis = None ->
  num_visit n vis = Err e -> exists a, shown_num n a /\ complaint a e.
Proof.
  intros E1 E2 E3 E4 E5 E6 H.
  destruct n as [k z|x|x].
  - destruct k; cbn [num_visit] in H;
      unfold visit_unsigned, visit_signed, visit_u128, visit_i128 in H;
      rewrite ?E1, ?E2, ?E3, ?E4 in H; injection H as <-;
      (eexists; split; [|eexists; left; reflexivity]);
      rewrite ?fmt_int_show; shown.
  - cbn [num_visit] in H. unfold visit_f32, visit_f64 in H. rewrite E5, E6 in H. injection H as <-.
    eexists. split; [apply (sn_self (NF32 x))|]. eexists. left. reflexivity.
  - cbn [num_visit] in H. unfold visit_f64 in H. rewrite E6 in H. injection H as <-.
    eexists. split; [apply (sn_self (NF64 x))|]. eexists. left. reflexivity.
Qed.

Ltac plain_case :=
  intros; unfold empty_visit, visit_bool, visit_char, visit_str, visit_none, visit_unit, invalid_type, invalid_value in *; cbn in *;
  first [ discriminate
        | match goal with
          | H : Err _ = Err _ |- _ =>
              injection H as <-; first [left; eexists; left; reflexivity | right; eexists; left; reflexivity
                                       | eexists; left; reflexivity | eexists; right; reflexivity]
          end ].

Ltac no_empty := intros [] ? ?; plain_case.

Lemma bool_good i f : vis_good i f bool_visitor.
Proof.
  apply scalar_good; try reflexivity; try plain_case; try no_empty.
  intros n e. apply no_num; reflexivity.
Qed.

Lemma int_good i f k : vis_good i f (int_visitor k).
Proof.
  apply scalar_good; try reflexivity; try plain_case; try no_empty.
  intros [j z|x|x] e H.
  - destruct j; cbn in H;
      try (destruct (in_range k z); [discriminate|]); injection H as <-;
      (eexists; split; [|eexists; first [left; reflexivity|right; reflexivity]]);
      rewrite ?fmt_int_show; shown.
  - injection H as <-. eexists. split; [apply (sn_self (NF32 x))|]. eexists. left. reflexivity.
  - injection H as <-. eexists. split; [apply (sn_self (NF64 x))|]. eexists. left. reflexivity.
Qed.

Lemma f32_good i f : vis_good i f f32_visitor.
Proof.
  apply scalar_good; try reflexivity; try plain_case; try no_empty.
  intros [j z|x|x] e H; [|discriminate..].
  destruct j; cbn in H; try discriminate; injection H as <-;
    (eexists; split; [|eexists; left; reflexivity]);
    rewrite ?fmt_int_show; shown.
Qed.

Lemma f64_good i f : vis_good i f f64_visitor.
Proof.
  apply scalar_good; try reflexivity; try plain_case; try no_empty.
  intros [j z|x|x] e H; [|discriminate..].
  destruct j; cbn in H; try discriminate; injection H as <-;
    (eexists; split; [|eexists; left; reflexivity]);
    rewrite ?fmt_int_show; shown.
Qed.

Lemma char_good i f : vis_good i f char_visitor.
Proof.
  apply scalar_good; try reflexivity; try plain_case; try no_empty.
  - intros s e H. cbn in H. destruct s as [|c [|c' r]]; try discriminate H;
      injection H as <-; eexists; right; reflexivity.
  - intros n e. apply no_num; reflexivity.
Qed.

Lemma str_good i f exp h : (forall s e, h s = Err e -> complaint (AStr s) e) ->
  vis_good i f (str_visitor exp h).
Proof.
  intros Hh. apply scalar_good; try reflexivity; try plain_case; try no_empty.
  - intros s e H. cbn in H. auto.
  - intros c e H. right. apply Hh. exact H.
  - intros n e. apply no_num; reflexivity.
Qed.

Lemma unit_good i f exp : vis_good i f (unit_visitor exp).
Proof.
  apply scalar_good; try reflexivity; try plain_case; try no_empty.
  intros n e. apply no_num; reflexivity.
Qed.

Lemma tag_good i f : vis_good i f tag_visitor.
Proof.
  apply scalar_good; try reflexivity; try plain_case; try no_empty.
  intros [j z|x|x] e H.
  - destruct j; cbn in H; try discriminate; injection H as <-;
      (eexists; split; [|eexists; left; reflexivity]);
      rewrite ?fmt_int_show; shown.
  - injection H as <-. eexists. split; [apply (sn_self (NF32 x))|]. eexists. left. reflexivity.
  - injection H as <-. eexists. split; [apply (sn_self (NF64 x))|]. eexists. left. reflexivity.
Qed.

Lemma boolish_good i f : vis_good i f boolish_visitor.
Proof.
  apply scalar_good; try reflexivity; try plain_case; try no_empty.
  - intros s e H. cbn in H. destruct (uncased_eqb s _); [discriminate|].
    destruct (uncased_eqb s _); [discriminate|]. injection H as <-. eexists. right. reflexivity.
  - intros c e H. right. cbn in H. rewrite !andb_false_r in H. injection H as <-. eexists. right. reflexivity.
  - intros [j z|x|x] e H.
    + destruct j; cbn in H;
        try (destruct ((z =? 0)%Z || (z =? 1)%Z); [discriminate|]); injection H as <-;
        (eexists; split; [|eexists; first [left; reflexivity|right; reflexivity]]);
        rewrite ?fmt_int_show; shown.
    + injection H as <-. eexists. split; [apply (sn_self (NF32 x))|]. eexists. left. reflexivity.
    + injection H as <-. eexists. split; [apply (sn_self (NF64 x))|]. eexists. left. reflexivity.
Qed.

(** Booleans and numbers are first interpreted. *)
Lemma plain_visit_pre i f {A} (vis : visitor A) v e :
  vis_good i f vis -> v_seq vis = None -> v_map vis = None ->
  value_visit DPlain v vis = Err e -> pre i f v e.
Proof.
  intros G E1 E2 H. destruct v as [t s|t c|t b|t n|t m|t d|t l];
    try (eapply value_visit_pre; [eassumption|exact I|exact H]).
  - cbn in H. unfold visit_map in H. rewrite E2 in H.
    eapply complaint_pre; [apply sa_self|]. eapply wrong_complaint. exact H.
  - cbn in H. unfold visit_seq in H. rewrite E1 in H.
    eapply complaint_pre; [apply sa_self|]. eapply wrong_complaint. exact H.
Qed.

Lemma retag_twice t e : retagged t (retagged t e) = retagged t e.
Proof. destruct e. cbn. destruct (is_default t0) eqn:E; [destruct (is_default t)|rewrite E]; reflexivity. Qed.

Lemma de_bool_located i f v e :
  de_bool (DConf i f v) bool_visitor = Err e -> located i f v e.
Proof.
  intros H. apply settle_err in H. destruct H as (e0 & H & ->).
  apply map_err_err in H. destruct H as (e1 & H & ->).
  assert (T : vtag (interpret_as_bool i v) = vtag v).
  { destruct i; [reflexivity|]. cbn. destruct (to_bool_lossy v); reflexivity. }
  rewrite T, retag_twice. apply pre_settle.
  destruct i; cbn [interpret_as_bool] in H.
  - eapply plain_visit_pre; [apply bool_good|..]; eauto.
  - destruct (to_bool_lossy v); [discriminate|].
    eapply plain_visit_pre; [apply bool_good|..]; eauto.
Qed.

Lemma de_num_located i f (vis : visitor dval) v e :
  vis_good i f vis -> v_seq vis = None -> v_map vis = None ->
  de_num (DConf i f v) vis = Err e -> located i f v e.
Proof.
  intros G E1 E2 H. apply settle_err in H. destruct H as (e0 & H & ->).
  apply map_err_err in H. destruct H as (e1 & H & ->).
  assert (T : vtag (interpret_as_num i v) = vtag v).
  { destruct i; [reflexivity|]. cbn. destruct (to_num_lossy v); reflexivity. }
  rewrite T, retag_twice. apply pre_settle.
  destruct i; cbn [interpret_as_num] in H.
  - eapply plain_visit_pre; eauto.
  - destruct (to_num_lossy v) as [n|] eqn:En; [|eapply plain_visit_pre; eauto].
    destruct v as [t s|t c|t b|t m|t m|t d|t l]; try discriminate En.
    + cbn [value_visit] in H. apply (vg_num _ _ _ G) in H. destruct H as (a & Ha & H).
      eapply complaint_pre; [|exact H]. eapply sa_lossy; [|exact Ha].
      apply (num_from_str_spec s n). exact En.
    + injection En as ->. cbn [value_visit vtag] in H. apply (vg_num _ _ _ G) in H. destruct H as (a & Ha & H).
      eapply complaint_pre; [|exact H]. constructor. exact Ha.
Qed.

Lemma good_bool : good (fun d => de_bool d bool_visitor).
Proof.
  constructor.
  - intros i f v e _. apply de_bool_located.
  - intros s e H. apply str_complaint. apply (vg_str _ _ _ (bool_good Exact fig_new)). assumption.
  - intros n e H. cbn in H. congruence.
Qed.

Lemma good_num (vis : visitor dval) :
  (forall i f, vis_good i f vis) -> v_seq vis = None -> v_map vis = None ->
  good (fun d => de_num d vis).
Proof.
  intros G E1 E2. constructor.
  - intros i f v e _. apply de_num_located; auto.
  - intros s e H. apply str_complaint. apply (vg_str _ _ _ (G Exact fig_new)). assumption.
  - intros n e H. cbn in H. congruence.
Qed.

(** ** Containers *)
Lemma next_element_err rec i f n c e :
  good rec -> wf c -> next_element rec n (DConf i f c) = Err e ->
  exists e0, located i f c e0 /\ e = prefixed (fmt_nat n) e0.
Proof.
  intros G W H. apply map_err_err in H. destruct H as (e0 & H & ->).
  exists e0. split; [|reflexivity]. eapply gd_conf; eassumption.
Qed.

Lemma all_elements_err rec i f l : good rec -> Forall wf l -> forall n e,
  all_elements rec (map (DConf i f) l) n = Err e ->
  exists j c e0, nth_error l j = Some c /\ located i f c e0 /\ e = prefixed (fmt_nat (n + N.of_nat j)) e0.
Proof.
  intros G. induction 1 as [|x r Hx Hr IH]; intros n e; cbn [map all_elements]; [discriminate|].
  intros H. apply res_bind_err in H. destruct H as [H|(y & _ & H)].
  - apply next_element_err in H; auto. destruct H as (e0 & H & ->).
    exists 0%nat, x, e0. rewrite N.add_0_r. auto.
  - apply res_map_err' in H. apply IH in H. destruct H as (j & c & e0 & H1 & H2 & ->).
    exists (S j), c, e0. split; [assumption|]. split; [assumption|]. f_equal. f_equal. lia.
Qed.

Lemma tuple_elements_err recs short i f : Forall good recs -> forall l n e, Forall wf l ->
  tuple_elements recs short (map (DConf i f) l) n = Err e ->
  (exists j c e0, nth_error l j = Some c /\ located i f c e0 /\ e = prefixed (fmt_nat (n + N.of_nat j)) e0)
  \/ e = err_of_kind (KInvalidLength (n + N.of_nat (length l)) short).
Proof.
  induction 1 as [|rec rs G Gs IH]; intros l n e W; cbn [tuple_elements]; [discriminate|].
  destruct W as [|x r Hx Hr]; cbn [map].
  - intros H. injection H as <-. right. f_equal. f_equal. cbn. lia.
  - intros H. apply res_bind_err in H. destruct H as [H|(y & _ & H)].
    + apply next_element_err in H; auto. destruct H as (e0 & H & ->).
      left. exists 0%nat, x, e0. rewrite N.add_0_r. auto.
    + apply res_map_err' in H. apply IH in H; [|assumption].
      destruct H as [(j & c & e0 & H1 & H2 & ->)| ->].
      * left. exists (S j), c, e0. split; [assumption|]. split; [assumption|]. f_equal. f_equal. lia.
      * right. f_equal. f_equal. cbn [length]. lia.
Qed.

Lemma elements_pre i f t l j c e0 :
  nth_error l j = Some c -> located i f c e0 ->
  pre i f (VArray t l) (prefixed (fmt_nat (0 + N.of_nat j)) e0).
Proof.
  intros H1 H2. rewrite N.add_0_l, fmt_nat_decimal.
  eapply pre_child; [|eassumption]. constructor. assumption.
Qed.

Lemma tuple_pre i f recs short t l e :
  Forall good recs -> Forall wf l ->
  tuple_elements recs short (map (DConf i f) l) 0 = Err e -> pre i f (VArray t l) e.
Proof.
  intros G W H. apply tuple_elements_err in H; auto.
  destruct H as [(j & c & e0 & H1 & H2 & ->)| ->].
  - apply elements_pre with (c := c); auto.
  - rewrite N.add_0_l. apply pre_here. constructor.
Qed.

Definition seq_only (vis : visitor dval) : Prop :=
  v_bool vis = None /\ v_signed vis = None /\ v_unsigned vis = None /\ v_i128 vis = None /\
  v_u128 vis = None /\ v_f32 vis = None /\ v_f64 vis = None /\ v_char vis = None /\
  v_str vis = None /\ v_none vis = None /\ v_unit vis = None.

Lemma seq_only_good i f (vis : visitor dval) :
  seq_only vis ->
  (forall t l e, Forall wf l -> visit_seq vis (map (DConf i f) l) = Err e ->
                         pre i f (VArray t l) e) ->
  (forall t d e, wf_dict d -> visit_map vis (map_access (DConf i f) d) = Err e ->
                         pre i f (VDict t d) e) ->
  vis_good i f vis.
Proof.
  intros (E1 & E2 & E3 & E4 & E5 & E6 & E7 & E8 & E9 & E10 & E11) Hs Hm. constructor; auto.
  - intros b e. unfold visit_bool. rewrite E1. apply wrong_complaint.
  - intros b e. unfold visit_str. rewrite E9. apply wrong_complaint.
  - intros c e. unfold visit_char, visit_str. rewrite E8, E9. intros H. right.
    eapply wrong_complaint. exact H.
  - intros n e. apply no_num; assumption.
  - intros [] e; cbn; unfold visit_none, visit_unit; rewrite ?E10, ?E11; apply wrong_complaint.
Qed.

Lemma no_map_pre i f (vis : visitor dval) t d e :
  v_map vis = None -> visit_map vis (map_access (DConf i f) d) = Err e -> pre i f (VDict t d) e.
Proof.
  intros E H. unfold visit_map in H. rewrite E in H.
  eapply complaint_pre; [apply sa_self|]. eapply wrong_complaint. exact H.
Qed.
Lemma no_seq_pre i f (vis : visitor dval) t l e :
  v_seq vis = None -> visit_seq vis (map (DConf i f) l) = Err e -> pre i f (VArray t l) e.
Proof.
  intros E H. unfold visit_seq in H. rewrite E in H.
  eapply complaint_pre; [apply sa_self|]. eapply wrong_complaint. exact H.
Qed.

Ltac so := repeat split; reflexivity.

Lemma vec_good i f rec : good rec ->
  vis_good i f (seq_visitor (lit "a sequence") (fun l => res_map EVSeq (all_elements rec l 0))).
Proof.
  intros G. apply seq_only_good; [so| |].
  - intros t l e W H. cbn in H. apply res_map_err' in H. apply all_elements_err in H; auto.
    destruct H as (j & c & e0 & H1 & H2 & ->). apply elements_pre with (c := c); auto.
  - intros t d e _. apply no_map_pre. reflexivity.
Qed.

Lemma tuple_vis_good i f exp recs short h : Forall good recs ->
  vis_good i f (seq_visitor exp (fun l => res_map h (tuple_elements recs short l 0))).
Proof.
  intros G. apply seq_only_good; [so| |].
  - intros t l e W H. cbn in H. apply res_map_err' in H. eapply tuple_pre; eassumption.
  - intros t d e _. apply no_map_pre. reflexivity.
Qed.

Lemma next_value_err rec i f k c e :
  good rec -> wf c -> next_value rec (k, vtag c, DConf i f c) = Err e ->
  exists e0, located i f c e0 /\ e = retagged (vtag c) (prefixed k e0).
Proof.
  intros G W H. apply map_err_err in H. destruct H as (e0 & H & ->).
  exists e0. split; [|reflexivity]. eapply gd_conf; eassumption.
Qed.

(** The ways an entry of the dictionary can be at fault. *)
Definition entry_error (i : interp) (f : figment) (d : dict) (e : error) : Prop :=
  (exists k c e0, In (k, c) d /\ located i f c e0 /\ e = retagged (vtag c) (prefixed k e0)) \/
  (exists k c kd, In (k, c) d /\ about_key k kd /\ e = retagged (vtag c) (prefixed k (err_of_kind kd))).

Lemma entry_error_pre i f t d e : entry_error i f d e -> pre i f (VDict t d) e.
Proof.
  intros [(k & c & e0 & H1 & H2 & ->)|(k & c & kd & H1 & H2 & ->)].
  - apply pre_child_retag; [constructor; assumption|assumption].
  - apply pre_key; [constructor; assumption|assumption].
Qed.

Lemma entry_error_cons i f x d e : entry_error i f d e -> entry_error i f (x :: d) e.
Proof.
  intros [(k & c & e0 & H1 & H2 & ->)|(k & c & kd & H1 & H2 & ->)].
  - left. exists k, c, e0. cbn. auto.
  - right. exists k, c, kd. cbn. auto.
Qed.

Lemma string_key_str s : string_key (DStr s) = Ok s.
Proof. reflexivity. Qed.

Lemma map_entries_err rec i f d : good rec -> Forall (fun kv => wf (snd kv)) d -> forall acc e,
  map_entries rec (map_access (DConf i f) d) acc = Err e -> entry_error i f d e.
Proof.
  intros G. induction 1 as [|[k c] r Hx Hr IH]; intros acc e;
    cbn [map_access map map_entries fst snd] in *; [discriminate|].
  unfold next_key at 1. rewrite string_key_str. cbn [res_map_err res_bind].
  intros H. apply res_bind_err in H. destruct H as [H|(y & _ & H)].
  - apply next_value_err in H; auto. destruct H as (e0 & H & ->).
    left. exists k, c, e0. cbn. auto.
  - apply entry_error_cons. eapply IH. exact H.
Qed.

Lemma pair_entries_err reck rec i f d : good reck -> good rec -> Forall (fun kv => wf (snd kv)) d -> forall e,
  pair_entries reck rec (map_access (DConf i f) d) = Err e -> entry_error i f d e.
Proof.
  intros Gk G. induction 1 as [|[k c] r Hx Hr IH]; intros e;
    cbn [map_access map pair_entries fst snd] in *; [discriminate|].
  intros H. apply res_bind_err in H. destruct H as [H|(y & _ & H)].
  - apply map_err_err in H. destruct H as (e0 & H & ->).
    apply (gd_str _ Gk) in H. destruct H as (kd & -> & H).
    right. exists k, c, kd. cbn. auto.
  - apply res_bind_err in H. destruct H as [H|(z & _ & H)].
    + apply next_value_err in H; auto. destruct H as (e0 & H & ->).
      left. exists k, c, e0. cbn. auto.
    + apply res_map_err' in H. apply entry_error_cons. eapply IH. exact H.
Qed.

Lemma map_good i f rec : good rec ->
  vis_good i f (map_visitor (lit "a map") (fun l => res_map EVMap (map_entries rec l []))).
Proof.
  intros G. apply seq_only_good; [so| |].
  - intros t l e _. apply no_seq_pre. reflexivity.
  - intros t d e [_ W] H. cbn in H. apply res_map_err' in H. apply map_entries_err in H; auto.
    apply entry_error_pre. assumption.
Qed.

Lemma pairs_good i f reck rec : good reck -> good rec ->
  vis_good i f (map_visitor (lit "a map") (fun l => res_map EVPairs (pair_entries reck rec l))).
Proof.
  intros Gk G. apply seq_only_good; [so| |].
  - intros t l e _. apply no_seq_pre. reflexivity.
  - intros t d e [_ W] H. cbn in H. apply res_map_err' in H. apply pair_entries_err in H; auto.
    apply entry_error_pre. assumption.
Qed.

(** ** Structs *)
Lemma existsb_ueqb s l : existsb (ueqb s) l = true <-> In s l.
Proof.
  rewrite existsb_exists. split.
  - intros (x & H & E). apply ueqb_eq in E. congruence.
  - intros H. exists s. split; [assumption|]. apply ueqb_eq. reflexivity.
Qed.

Lemma existsb_ueqb_false s l : existsb (ueqb s) l = false <-> ~ In s l.
Proof. rewrite <- existsb_ueqb. destruct (existsb (ueqb s) l); split; congruence. Qed.

Lemma field_key_str deny fs s :
  field_key deny fs (DStr s) =
  if existsb (ueqb s) fs then Ok (Some s)
  else if deny then Err (err_of_kind (KUnknownField s fs)) else Ok None.
Proof. reflexivity. Qed.

Definition fields_good (fs : list (ustr * (deser -> res error dval))) : Prop :=
  Forall (fun f => good (snd f)) fs.

Lemma field_entries_err deny fs i f d : fields_good fs ->
  Forall (fun kv => wf (snd kv)) d -> NoDup (map fst d) -> forall slots e,
  (forall k, In k (map fst slots) -> ~ In k (map fst d)) ->
  field_entries deny fs (map_access (DConf i f) d) slots = Err e -> entry_error i f d e.
Proof.
  intros G. induction 1 as [|[k c] r Hx Hr IH]; intros N slots e S;
    cbn [map_access map field_entries fst snd] in *; [discriminate|].
  inversion N as [|? ? N1 N2]; subst.
  intros H. apply res_bind_err in H. destruct H as [H|(y & Hk & H)].
  - apply map_err_err in H. destruct H as (e0 & H & ->). rewrite field_key_str in H.
    destruct (existsb (ueqb k) (map fst fs)) eqn:E; [discriminate|].
    destruct deny; [|discriminate]. injection H as <-.
    right. exists k, c, (KUnknownField k (map fst fs)). split; [cbn; auto|]. split; [|reflexivity].
    constructor. apply existsb_ueqb_false. assumption.
  - cbn [next_key] in Hk. rewrite map_err_ok, field_key_str in Hk.
    assert (S' : forall k', In k' (map fst slots) -> ~ In k' (map fst r)).
    { intros k' Hin Hin'. apply (S k' Hin). cbn. auto. }
    destruct y as [k'|]; [|apply entry_error_cons; eapply IH; eauto].
    destruct (existsb (ueqb k) (map fst fs)) eqn:E; [|destruct deny; discriminate].
    injection Hk as <-.
    destruct (assoc k fs) as [rec|] eqn:Er; [|apply entry_error_cons; eapply IH; eauto].
    destruct (assoc k slots) eqn:Es.
    { exfalso. apply assoc_In in Es. apply (in_map fst) in Es. apply (S k Es). cbn. auto. }
    apply res_bind_err in H. destruct H as [H|(z & _ & H)].
    + apply next_value_err in H; auto.
      * destruct H as (e0 & H & ->). left. exists k, c, e0. cbn. auto.
      * apply assoc_In in Er. unfold fields_good in G. rewrite Forall_forall in G. apply (G _ Er).
    + apply entry_error_cons. eapply IH; [assumption| |exact H].
      cbn. intros k' [<-|Hin]; auto.
Qed.

Lemma field_entries_slots deny fs i f d : forall slots slots',
  field_entries deny fs (map_access (DConf i f) d) slots = Ok slots' ->
  forall k, In k (map fst fs) -> In k (map fst d) \/ In k (map fst slots) -> In k (map fst slots').
Proof.
  induction d as [|[k c] r IH]; intros slots slots';
    cbn [map_access map field_entries fst snd] in *.
  { intros H. injection H as <-. intros k _ [[]|H]; assumption. }
  intros H k' Hf Hk'. apply res_bind_ok in H. destruct H as (y & Hk & H).
  cbn [next_key] in Hk. rewrite map_err_ok, field_key_str in Hk.
  destruct (existsb (ueqb k) (map fst fs)) eqn:E.
  - injection Hk as <-. destruct (assoc k fs) as [rec|] eqn:Er.
    + destruct (assoc k slots); [discriminate|]. apply res_bind_ok in H.
      destruct H as (z & _ & H). apply (IH _ _ H k' Hf). destruct Hk' as [[->|Hk']|Hk']; cbn; auto.
    + exfalso. apply assoc_none in Er. apply Er. apply existsb_ueqb. assumption.
  - apply existsb_ueqb_false in E. destruct deny; [discriminate|]. injection Hk as <-.
    apply (IH _ _ H k' Hf). destruct Hk' as [[->|Hk']|Hk']; [tauto|auto|auto].
Qed.

Lemma fill_fields_err fs slots e : fields_good fs -> fill_fields fs slots = Err e ->
  exists n, In n (map fst fs) /\ ~ In n (map fst slots) /\ e = err_of_kind (KMissingField n).
Proof.
  induction 1 as [|[n rec] r G Gs IH]; cbn; [discriminate|].
  intros H. apply res_bind_err in H. destruct H as [H|(y & _ & H)].
  - destruct (assoc n slots) eqn:E; [discriminate|]. apply assoc_none in E.
    apply (gd_missing _ G) in H. eauto.
  - apply res_map_err' in H. destruct (IH H) as (n' & H1 & H2 & ->). eauto.
Qed.

Lemma wf_dict_nodup (d : dict) : wf_dict d -> NoDup (map fst d).
Proof.
  intros [S _]. induction d as [|[k x] r IH]; cbn; constructor.
  - destruct S as [S1 S2]. intros H. apply in_map_iff in H. destruct H as ([k' y] & E & H).
    cbn in E. subst k'. rewrite (lt_all_In (K := ustr) k r) in S1. specialize (S1 k y H).
    assert (R : cmp k k = Eq) by apply cmp_refl. congruence.
  - apply IH. apply S.
Qed.

Lemma struct_good i f exp deny fs h : fields_good fs -> vis_good i f (struct_visitor exp deny fs h).
Proof.
  intros G. apply seq_only_good; [so| |].
  - intros t l e W H. cbn in H. apply res_map_err' in H. eapply tuple_pre; [|eassumption..].
    unfold fields_good in G. rewrite Forall_map. exact G.
  - intros t d e Wd H. cbn in H. apply res_map_err' in H.
    assert (N := wf_dict_nodup d Wd). destruct Wd as [S W].
    apply res_bind_err in H. destruct H as [H|(slots & Hs & H)].
    + apply field_entries_err in H; auto. apply entry_error_pre. assumption.
    + apply fill_fields_err in H; auto. destruct H as (n & H1 & H2 & ->).
      apply pre_here. constructor. intros Hin. apply H2.
      eapply field_entries_slots; eauto.
Qed.

(** ** Enums *)
Definition shape_good (s : shape (deser -> res error dval)) : Prop :=
  match s with
  | ShUnit => True
  | ShNew rec => good rec
  | ShTuple recs => Forall good recs
  | ShStruct fs => fields_good fs
  end.

Lemma variant_key_str vs s :
  variant_key vs (DStr s) = if existsb (ueqb s) vs then Ok s else Err (err_of_kind (KUnknownVariant s vs)).
Proof. reflexivity. Qed.

Lemma assoc_total {A} k (l : list (ustr * A)) : In k (map fst l) -> exists a, assoc k l = Some a.
Proof.
  intros H. destruct (assoc k l) eqn:E; [eauto|]. apply assoc_none in E. tauto.
Qed.

Lemma variant_unit_only_err s e : variant_unit_only s = Err e ->
  exists exp, e = err_of_kind (KInvalidType AUnitVariant exp).
Proof. destruct s; cbn; intros H; [discriminate|injection H as <-; eauto..]. Qed.

Lemma variant_value_err full s i f k c e :
  shape_good s -> wf c -> variant_value full s (k, vtag c, DConf i f c) = Err e ->
  exists e0, located i f c e0 /\ e = retagged (vtag c) (prefixed k e0).
Proof.
  intros G W H. destruct s as [|rec|recs|fs]; cbn [variant_value shape_good] in *;
    apply res_map_err' in H;
    (apply next_value_err in H; [exact H| |exact W]).
  - apply good_any. intros. apply unit_good.
  - assumption.
  - apply good_any. intros. apply tuple_vis_good. assumption.
  - apply good_any. intros. apply struct_good. assumption.
Qed.

Section enums.
  Variable ident : ustr.
  Variable vs : list (ustr * shape (deser -> res error dval)).
  Hypothesis G : Forall (fun v => shape_good (snd v)) vs.

  Lemma enum_any_good i f : vis_good i f (enum_visitor ident vs).
  Proof using.
    apply seq_only_good; [so| |].
    - intros t l e _. apply no_seq_pre. reflexivity.
    - intros t d e _. apply no_map_pre. reflexivity.
  Qed.

  Lemma enum_str_err s e : visit_enum (enum_visitor ident vs) (EUnitOnly (DStr s)) = Err e ->
    exists k, e = err_of_kind k /\
      ((exists exp, k = KInvalidType AUnitVariant exp) \/
       (exists exp, ~ In s exp /\ k = KUnknownVariant s exp)).
  Proof using.
    unfold visit_enum, enum_visitor. cbn [v_enum]. rewrite variant_key_str.
    destruct (existsb (ueqb s) (map fst vs)) eqn:E; cbn [res_bind].
    - apply existsb_ueqb in E. apply assoc_total in E. destruct E as [a ->].
      intros H. apply res_map_err' in H. apply variant_unit_only_err in H. destruct H as [exp ->]. eauto.
    - intros H. injection H as <-. apply existsb_ueqb_false in E. eauto 6.
  Qed.

  Lemma enum_u32_err z e : visit_enum (enum_visitor ident vs) (EUnitOnly (DU32 z)) = Err e ->
    exists exp, e = err_of_kind (KInvalidType AUnitVariant exp) \/
                e = err_of_kind (KInvalidValue (AUnsigned z) exp).
  Proof using.
    unfold visit_enum, enum_visitor, variant_key. cbn [v_enum de_any].
    unfold visit_unsigned. cbn [v_unsigned].
    destruct (nth_error (map fst vs) (Z.to_nat z)) as [n|] eqn:E; cbn [res_bind].
    - apply nth_error_In in E. apply assoc_total in E. destruct E as [a ->].
      intros H. apply res_map_err' in H. apply variant_unit_only_err in H. destruct H as [exp ->]. eauto.
    - intros H. injection H as <-. eauto.
  Qed.

  Lemma enum_map_err i f t d e : wf_dict d ->
    visit_enum (enum_visitor ident vs) (EMap (map_access (DConf i f) d)) = Err e ->
    pre i f (VDict t d) e.
  Proof using G.
    intros [_ W]. unfold visit_enum, enum_visitor. cbn [v_enum]. unfold enum_first.
    destruct d as [|[k c] r]; cbn [map_access map].
    { intros H. injection H as <-. apply pre_here. constructor.
      apply (sa_self i (VDict t [])). }
    cbn [fst snd]. inversion W as [|? ? Hx Hr]; subst. cbn [snd] in Hx.
    intros H. apply entry_error_pre. apply res_bind_err in H. destruct H as [H|(y & Hk & H)].
    - apply map_err_err in H. destruct H as (e0 & H & ->). rewrite variant_key_str in H.
      destruct (existsb (ueqb k) (map fst vs)) eqn:E; [discriminate|]. injection H as <-.
      right. exists k, c, (KUnknownVariant k (map fst vs)). split; [cbn; auto|]. split; [|reflexivity].
      constructor. apply existsb_ueqb_false. assumption.
    - cbn [next_key] in Hk. rewrite map_err_ok, variant_key_str in Hk.
      destruct (existsb (ueqb k) (map fst vs)) eqn:E; [|discriminate]. injection Hk as <-.
      apply existsb_ueqb in E. apply assoc_total in E. destruct E as [a Ea]. rewrite Ea in H.
      apply res_map_err' in H. apply variant_value_err in H; auto.
      + destruct H as (e0 & H & ->). left. exists k, c, e0. cbn. auto.
      + apply assoc_In in Ea. rewrite Forall_forall in G. apply (G _ Ea).
  Qed.

  Lemma good_enum : good (fun d => de_enum d (enum_visitor ident vs)).
  Proof using G.
    constructor.
    - intros i f v e W H. apply settle_err in H. destruct H as (e0 & H & ->).
      assert (HA : de_any (DConf i f v) (enum_visitor ident vs) = Err e0 ->
                   located i f v (resolved (retagged (vtag v) e0) f)).
      { intros HA. apply located_settle. eapply de_any_located; [apply enum_any_good|exact W|exact HA]. }
      destruct v as [t s|t c|t b|t n|t m|t d|t l]; cbn [enum_visit] in H; auto.
      + apply pre_settle. apply enum_str_err in H. destruct H as (k & -> & [[exp ->]|(exp & Hn & ->)]).
        * apply pre_here. constructor. apply sa_name.
        * apply pre_here. constructor. assumption.
      + destruct (num_to_u32 n) as [z|] eqn:E; [|auto].
        apply pre_settle. apply enum_u32_err in H. destruct H as (exp & [->| ->]).
        * apply pre_here. constructor. apply sa_index.
        * apply pre_here. apply ac_value.
          assert (Ez : to_actual (VNum t n) = AUnsigned z).
          { destruct n as [k y|y|y]; [destruct k|..]; try discriminate E; injection E as ->; reflexivity. }
          rewrite <- Ez. apply sa_self.
      + apply pre_settle. eapply enum_map_err; [apply wf_VDict in W; exact W|exact H].
    - intros s e H. apply enum_str_err in H. destruct H as (k & -> & [[exp ->]|(exp & Hn & ->)]);
        eexists; (split; [reflexivity|]); constructor; assumption.
    - intros n e H. cbn in H. congruence.
  Qed.
End enums.

(** ** All types *)
Lemma good_option rec : good rec -> good (fun d => de_option d (option_visitor rec)).
Proof.
  intros G. constructor.
  - intros i f v e W H. apply settle_err in H. destruct H as (e0 & H & ->).
    destruct v as [t s|t c|t b|t n|t m|t d|t l];
      try (cbn in H; apply res_map_err' in H; apply located_settle; eapply gd_conf; eassumption).
    destruct m; discriminate H.
  - intros s e H. cbn in H. injection H as <-. eexists. split; [reflexivity|]. constructor.
  - intros n e H. discriminate H.
Qed.

Lemma good_newtype exp rec : good rec -> good (fun d => de_newtype d (newtype_visitor exp rec)).
Proof.
  intros G. constructor.
  - intros i f v e W H. cbn in H. apply res_map_err' in H. eapply gd_conf; eassumption.
  - intros s e H. cbn in H. injection H as <-. eexists. split; [reflexivity|]. constructor.
  - intros n e H. cbn in H. congruence.
Qed.

Lemma magic_map_none name f v :
  ~ In name [value_name; rel_name; tagged_name] -> magic_map name f v = None.
Proof.
  intros H. unfold magic_map.
  destruct (ueqb name value_name) eqn:E1; [apply ueqb_eq in E1; subst; elim H; cbn; auto|].
  destruct (ueqb name rel_name) eqn:E2; [apply ueqb_eq in E2; subst; elim H; cbn; auto|].
  destruct (ueqb name tagged_name) eqn:E3; [apply ueqb_eq in E3; subst; elim H; cbn; auto|].
  reflexivity.
Qed.

Lemma good_struct name exp deny fs h :
  ~ In name [value_name; rel_name; tagged_name] -> fields_good fs ->
  good (fun d => de_struct name d (struct_visitor exp deny fs h)).
Proof.
  intros Hn G. constructor.
  - intros i f v e W H. cbn [de_struct] in H. rewrite magic_map_none in H by assumption.
    apply settle_err in H. destruct H as (e0 & H & ->). apply located_settle.
    eapply de_any_located; [|exact W|exact H]. apply struct_good. assumption.
  - intros s e H. cbn in H. injection H as <-. eexists. split; [reflexivity|]. constructor.
  - intros n e H. cbn in H. congruence.
Qed.

Theorem deserialize_good t : ordinary t -> good (deserialize t).
Proof.
  induction t as [|k| | | | | |t IH|t IH|ts IH|t IH|k t IHk IH|n i dn fs IH|i t IH|i ts IH|i|i vs IH| | | | | | |a b IHa IHb]
    using ty_ind'; cbn [ordinary]; intros O; try (destruct O; fail).
  - apply good_bool.
  - destruct O as [O1 O2]. destruct k; try congruence; apply good_num; auto; intros; apply int_good.
  - apply good_num; auto; intros; apply f32_good.
  - apply good_num; auto; intros; apply f64_good.
  - apply good_any. intros. apply char_good.
  - apply good_any. intros. apply str_good. discriminate.
  - apply good_any. intros. apply unit_good.
  - apply good_option. auto.
  - apply good_any. intros. apply vec_good. auto.
  - apply good_any. intros. apply tuple_vis_good. rewrite all_Forall in O.
    rewrite Forall_map. rewrite Forall_forall in *. auto.
  - apply good_any. intros. apply map_good. auto.
  - apply good_any. intros. destruct O; apply pairs_good; auto.
  - destruct O as [O1 O2]. apply good_struct; [assumption|]. rewrite all_Forall in O2.
    unfold fields_good. rewrite Forall_map. cbn. rewrite Forall_forall in *. auto.
  - apply good_newtype. auto.
  - apply good_any. intros. apply tuple_vis_good. rewrite all_Forall in O.
    rewrite Forall_map. rewrite Forall_forall in *. auto.
  - apply good_any. intros. apply unit_good.
  - apply good_enum. rewrite all_Forall in O. rewrite Forall_map. rewrite Forall_forall in *.
    intros [n s] Hin. specialize (IH _ Hin). specialize (O _ Hin). cbn in *.
    destruct s as [|t|ts|fs]; cbn in *; auto.
    + rewrite all_Forall in O. rewrite Forall_map. rewrite Forall_forall in *. auto.
    + rewrite all_Forall in O. unfold fields_good. rewrite Forall_map. cbn. rewrite Forall_forall in *. auto.
  - constructor.
    + intros i f v e W H. apply res_map_err' in H. eapply de_any_located; [apply tag_good|exact W|exact H].
    + intros s e H. injection H as <-. eexists. split; [reflexivity|]. constructor.
    + intros n e H. cbn in H. congruence.
  - apply good_any. intros. apply str_good. discriminate.
  - apply good_any. intros. apply str_good. discriminate.
  - constructor.
    + discriminate.
    + discriminate.
    + intros n e H. cbn in H. congruence.
  - apply good_any. intros. apply boolish_good.
Qed.
