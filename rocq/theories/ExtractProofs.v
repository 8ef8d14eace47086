(** Extraction: where errors point in reachable Figments, [extract_inner], integers. *)
From Coq Require Import Ascii String ZArith NArith Bool Lia.
From Coq Require Import Floats.SpecFloat.
From Coq Require Import List.
From Verif Require Import Res BMap Str Profile Tag Num Value NumParse Metadata Err Coalesce Figment Fmt De Ser.
From Verif Require Import BMapProofs StrProofs ProfileProofs ValueProofs NumParseProofs LossyProofs
  FigmentProofs ProvProofs FigmentProofs2 LookupProofs.
From Verif Require Import SpecValue SpecFigment SpecLookup SpecParse SpecShow SpecLossy SpecDe
  DeProofs ShowProofs FmtProofs BlameProofs LossyDeProofs.
Import ListNotations.

Lemma extract_pinpoints i f v t e :
  merged f = Ok v -> wf v -> ordinary t -> extract i f t = Err e -> pinpoints i f v e.
Proof.
  intros Hm W O. unfold extract. rewrite Hm. cbn [res_bind]. intros H.
  apply located_pinpoints. eapply gd_conf; [apply deserialize_good; exact O|exact W|exact H].
Qed.

Lemma reachable_merged_wf H f v : reachable H f -> merged f = Ok v -> wf v.
Proof.
  intros Hr Hm. destruct (f_value f) as [m|e0] eqn:Ev.
  2:{ rewrite (merged_err _ _ Ev) in Hm. discriminate. }
  destruct (reachable_data_tagged _ _ _ Hr Ev) as [Hw _].
  rewrite (merged_ok3 f m Ev Hw) in Hm. injection Hm as <-.
  apply wf_VDict. apply wf_dmerge; [apply wf_dmerge|]; auto using data_of_wf, selected_wf.
Qed.

Lemma trail_reach p v vs : trail p v vs -> wf v ->
  exists sp, Forall2 step_of p sp /\ reach sp v (last vs v).
Proof.
  induction 1 as [v|k ks v c vs Hc Ht IH]; intros W.
  - exists []. split; constructor.
  - destruct (trail_head _ _ _ Ht) as [r ->]. rewrite last_cons_cons, (last_cons_ne c r v c).
    destruct Hc as [t d k x Hin|t l j x Hn].
    + apply wf_VDict in W. assert (Hg : get k d = Some x) by (apply In_get; auto; apply W).
      destruct (IH (wf_get _ _ _ W Hg)) as (sp & H1 & H2).
      exists (SKey k :: sp). split; [constructor; auto; constructor|]. econstructor; eassumption.
    + apply wf_VArray in W. apply nth_error_In in Hn.
      assert (Wx : wf x) by (rewrite Forall_forall in W; auto).
      destruct (IH Wx) as (sp & H1 & H2).
      exists (SElem :: sp). split; [constructor; auto; constructor|]. econstructor; eassumption.
Qed.

Lemma extract_names_provider H i f v t e :
  reachable H f -> merged f = Ok v -> ordinary t -> extract i f t = Err e -> e_path e <> [] ->
  exists sp x q,
    Forall2 step_of (e_path e) sp /\ reach sp v x /\ accounts i (e_path e) x (e_kind e) /\
    e_tag e = vtag x /\ traced H f q sp x /\
    e_metadata e = get_metadata f (vtag x) /\ e_profile e = Some q.
Proof.
  intros Hr Hm O He Hp. assert (W := reachable_merged_wf _ _ _ Hr Hm).
  assert (P := extract_pinpoints _ _ _ _ _ Hm W O He).
  destruct P as [(vs & x & Ht & <- & Hn & Ha) Hmd Hpr _].
  destruct (trail_reach _ _ _ Ht W) as (sp & H1 & H2).
  assert (Hsp : sp <> []) by (intros ->; inversion H1; congruence).
  destruct (merged_traced _ _ _ _ _ Hr Hm Hsp H2) as (q & Hq & Htr).
  assert (Et : e_tag e = vtag (last vs v)).
  { assert (Hd : vtag (last vs v) <> tag_default).
    { destruct Htr as (n & m & d & y & Hnp & _). intros E. rewrite E in Hnp. discriminate. }
    destruct Hn as [(a & y & b & -> & Hy & Hyd & Hb)|[_ Hall]].
    - destruct (rev b) as [|z b'] eqn:Eb.
      + assert (b = []) as -> by (rewrite <- (rev_involutive b), Eb; reflexivity).
        rewrite last_last. congruence.
      + assert (b = rev b' ++ [z]) as -> by (rewrite <- (rev_involutive b), Eb; reflexivity).
        exfalso. apply Hd. rewrite app_comm_cons, app_assoc, last_last.
        apply Forall_app in Hb. destruct Hb as [_ Hb]. inversion Hb; assumption.
    - exfalso. apply Hd. destruct (trail_head _ _ _ Ht) as [r ->].
      rewrite Forall_forall in Hall. apply Hall.
      destruct (exists_last (l := v :: r)) as (l' & z & E); [discriminate|]. rewrite E, last_last.
      apply in_or_app. right. left. reflexivity. }
  exists sp, (last vs v), q. repeat split; auto.
  - rewrite Hmd, Et. reflexivity.
  - rewrite Hpr, Et. destruct Htr as (n & m & d & y & _ & _ & _ & Hpt & _).
    unfold tag_profile. rewrite Hpt.
    destruct Hq as [->|[->|[-> Hc]]]; [reflexivity..|].
    apply andb_true_iff in Hc. destruct Hc as [C1 C2]. apply negb_true_iff in C1, C2.
    unfold tag_of_profile. rewrite C1, C2. reflexivity.
Qed.

(** ** [extract_inner] *)
Lemma extract_inner_err i f t path ks v x e :
  merged f = Ok v -> spells path ks -> at_path ks v = Some x ->
  extract_inner i f t path = Err e ->
  exists e0, deserialize t (DConf i f x) = Err e0 /\ e = with_path path e0.
Proof.
  intros Hm Hs Ha H. unfold extract_inner in H.
  assert (Hf : find_value f path = Ok x) by (apply (find_value_spec _ _ _ _ Hs); eauto).
  rewrite Hf in H. cbn [res_bind] in H. apply map_err_err in H. exact H.
Qed.

Lemma at_path_wf ks : forall v x, wf v -> at_path ks v = Some x -> wf x.
Proof.
  induction ks as [|k ks IH]; intros v x W H; [injection H as <-; exact W|].
  destruct v as [t s|t c|t b|t n|t m|t d|t l]; try discriminate H. cbn in H.
  destruct (get k d) as [y|] eqn:E; [|discriminate]. apply wf_VDict in W.
  eapply IH; [|exact H]. eapply wf_get; eassumption.
Qed.

Lemma nonempty_components ks : Forall plain_key ks -> 
  filter (fun s => negb (is_nil s)) (split_on dot (join [dot] ks)) = ks.
Proof.
  intros Hk. destruct ks as [|k r]; [reflexivity|].
  rewrite split_join; auto using plain_nodot; [|discriminate].
  revert Hk. generalize (k :: r). clear k r. induction l as [|k r IH]; intros H; [reflexivity|].
  inversion H as [|? ? [Hk _] Hr]; subst. cbn. destruct k; [congruence|]. cbn. f_equal. auto.
Qed.

Lemma extract_inner_path i f t ks v x e :
  merged f = Ok v -> wf v -> ordinary t -> Forall plain_key ks -> at_path ks v = Some x ->
  extract_inner i f t (join [dot] ks) = Err e ->
  exists e0, pinpoints i f x e0 /\
    e = MkError (e_tag e0) (e_profile e0) (e_metadata e0) (e_path e0 ++ ks) (e_kind e0) (e_prev e0).
Proof.
  intros Hm W O Hk Ha H.
  assert (Hs : spells (join [dot] ks) ks) by (split; auto).
  destruct (extract_inner_err _ _ _ _ _ _ _ _ Hm Hs Ha H) as (e0 & H0 & ->).
  exists e0. split.
  - apply located_pinpoints. eapply gd_conf; [apply deserialize_good; exact O| |exact H0].
    eapply at_path_wf; eassumption.
  - destruct e0. cbn. rewrite nonempty_components by assumption. reflexivity.
Qed.

(** ** Integers *)
Lemma num_visit_int k n d :
  num_visit n (int_visitor k) = Ok d <->
  exists j z, n = NInt j z /\ narrow j /\ holds k z /\ d = EVInt k z.
Proof.
  split.
  - destruct n as [j z|x|x]; [|discriminate..]. intros H. exists j, z. split; [reflexivity|].
    destruct j; try discriminate H; cbn in H; (destruct (in_range k z) eqn:R; [|discriminate]);
      injection H as <-; apply in_range_holds in R; (split; [exact I|auto]).
  - intros (j & z & -> & Hj & Hz & ->). apply in_range_holds in Hz.
    destruct j; try (destruct Hj; fail); cbn; rewrite Hz; reflexivity.
Qed.

Lemma int_visit_nonnum k v d :
  value_visit DPlain v (int_visitor k) = Ok d -> exists t n, v = VNum t n /\ num_visit n (int_visitor k) = Ok d.
Proof.
  destruct v as [t s|t c|t b|t n|t m|t d0|t l]; try discriminate; eauto.
  destruct m; discriminate.
Qed.

Lemma deserialize_int k : narrow k -> deserialize (TInt k) = fun d => de_num d (int_visitor k).
Proof. destruct k; intros []; reflexivity. Qed.

Lemma int_extracted i f k v d : narrow k ->
  (deserialize (TInt k) (DConf i f v) = Ok d <->
   exists j z, reads_int i v j z /\ narrow j /\ holds k z /\ d = EVInt k z).
Proof.
  intros Hk. rewrite deserialize_int by assumption. unfold de_num. rewrite settle_ok.
  unfold de_any. rewrite map_err_ok.
  destruct i; cbn [interpret_as_num].
  - split.
    + intros H. apply int_visit_nonnum in H. destruct H as (t & n & -> & H).
      apply num_visit_int in H. destruct H as (j & z & -> & H). exists j, z. split; [constructor|exact H].
    + intros (j & z & Hr & H). inversion Hr; subst. cbn [value_visit].
      apply num_visit_int. eauto.
  - destruct (to_num_lossy v) as [n|] eqn:En.
    + cbn [value_visit]. rewrite num_visit_int. split.
      * intros (j & z & -> & H). exists j, z. split; [|exact H].
        destruct v as [t s|t c|t b|t m|t m|t d0|t l]; try discriminate En.
        -- apply num_from_str_spec in En. constructor. exact En.
        -- injection En as ->. constructor.
      * intros (j & z & Hr & H). exists j, z. split; [|exact H].
        inversion Hr; subst; cbn in En; [congruence|].
        match goal with Hl : lossy_num _ _ |- _ => apply num_from_str_spec in Hl end. congruence.
    + split.
      * intros H. apply int_visit_nonnum in H. destruct H as (t & n & -> & H). discriminate En.
      * intros (j & z & Hr & _). inversion Hr; subst; [discriminate En|].
        match goal with Hl : lossy_num _ _ |- _ => apply num_from_str_spec in Hl end.
        cbn in En. congruence.
Qed.
