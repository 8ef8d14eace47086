(** Variables passed over, and the profile chosen by one. *)
From Coq Require Import Ascii String ZArith NArith Bool Lia.
From Coq Require Import List.
From Verif Require Import Res BMap BMapProofs Str StrProofs Profile Tag Num Value Metadata Err Coalesce Figment De Parse Path Data Doc Env.
From Verif Require Import SpecEnv SpecText SpecStack SpecRocket TextProofs EnvProofs StackProofs.
Import ListNotations.

Lemma alike_white a b : alike a b -> no_white b -> no_white a.
Proof.
  intros A NW. unfold no_white in *. induction A as [|c d p pre H F IH]; [constructor|]. inversion NW; subst. constructor; auto.
  destruct H as [->|[H|H]]; auto; intros I; cbn in H; repeat (destruct H as [[= <- <-]|H]; [cbn in I; repeat (destruct I as [I|I]; [discriminate|]); exact I|]);
    exact H.
Qed.

Lemma named_in_spec ks k : named_in ks k = true <-> exists k', In k' ks /\ alike k k'.
Proof.
  unfold named_in. rewrite existsb_exists. split; intros (x & I & H); exists x; (split; [exact I|]).
  - apply ueqb_eq in H. apply lower_alike. now symmetry.
  - apply ueqb_eq. symmetry. now apply alike_lower.
Qed.

Lemma start_prefix pre p k : alike p pre -> start_key (FromPrefix pre) (p ++ k) = Some k.
Proof.
  intros A. cbn [start_key]. assert (LP := alike_lower _ _ A).
  assert (LN : length p = length pre) by (rewrite <- (lower_length p), LP; apply lower_length).
  rewrite <- LN, firstn_app, PeanoNat.Nat.sub_diag, firstn_all, app_nil_r, LP, ueqb_refl.
  now rewrite skipn_app, skipn_all, PeanoNat.Nat.sub_diag.
Qed.

Section Over.
Variables (pre : ustr) (ks : list ustr).
Hypothesis NP : no_white pre.
Hypothesis NK : Forall no_white ks.

Lemma passed_key name : passed_over pre ks name <->
  exists m, start_key (FromPrefix pre) (trim name) = Some m /\ named_in ks m = true.
Proof.
  split.
  - intros (w1 & p & k & w2 & -> & W1 & W2 & A & k' & I & AK).
    exists k. split; [|apply named_in_spec; eauto].
    replace (w1 ++ p ++ k ++ w2) with (w1 ++ (p ++ k) ++ w2) by (now rewrite <- app_assoc).
    rewrite trim_around; [now apply start_prefix|exact W1|exact W2|]. apply Forall_app. split.
    + exact (alike_white _ _ A NP).
    + rewrite Forall_forall in NK. exact (alike_white _ _ AK (NK _ I)).
  - intros (m & S & N). destruct (named_key pre name m NP S) as (w1 & p & w2 & E & W1 & W2 & A).
    exists w1, p, m, w2. apply named_in_spec in N. auto.
Qed.

Lemma passed_dec name : passed_over pre ks name \/ ~ passed_over pre ks name.
Proof.
  rewrite passed_key. destruct (start_key (FromPrefix pre) (trim name)) as [m|]; [|right; intros (m & [=] & _)].
  destruct (named_in ks m) eqn:E; [left; eauto|right]. intros (m' & [= <-] & H). congruence.
Qed.

Lemma heeded_ex vars : exists vars', heeded pre ks vars vars'.
Proof.
  induction vars as [|[name s] l (l' & IH)]; [exists []; constructor|].
  destruct (passed_dec name); eexists; [now apply he_over; eauto|now apply he_keep; eauto].
Qed.

Lemma heeded_fun vars : forall a b, heeded pre ks vars a -> heeded pre ks vars b -> a = b.
Proof.
  intros a b H. revert b. induction H; intros b B; inversion B; subst; try contradiction; auto. f_equal. auto.
Qed.

Lemma heeded_in vars vars' : heeded pre ks vars vars' -> forall x, In x vars' -> In x vars.
Proof. induction 1; intros x I; [exact I|right; auto|]. destruct I as [<-|I]; [now left|right; auto]. Qed.

Lemma over_entry name s : env_entry (build_env (FromPrefix pre) [OpIgnore ks; OpGlobal]) (name, s) =
  match start_key (FromPrefix pre) (trim name) with
  | Some m => if named_in ks m then Ret None else env_entry (build_env (FromPrefix pre) [OpGlobal]) (name, s)
  | None => env_entry (build_env (FromPrefix pre) [OpGlobal]) (name, s)
  end.
Proof.
  unfold env_entry. rewrite !build_key. unfold mapped_key. cbn [fold_left op_key fst snd].
  destruct (start_key (FromPrefix pre) (trim name)) as [m|]; [|reflexivity]. cbn [op_key].
  destruct (named_in ks m); reflexivity.
Qed.

Lemma over_iter vars vars' : heeded pre ks vars vars' ->
  env_iter (build_env (FromPrefix pre) [OpIgnore ks; OpGlobal]) vars = env_iter (build_env (FromPrefix pre) [OpGlobal]) vars'.
Proof.
  induction 1 as [|name s l l' P H IH|name s l l' P H IH]; [reflexivity| |]; cbn [env_iter]; rewrite over_entry, IH.
  - apply passed_key in P. destruct P as (m & -> & ->). cbn [out_bind]. destruct (is_nil name); [reflexivity|].
    destruct (env_iter _ l'); reflexivity.
  - destruct (start_key (FromPrefix pre) (trim name)) as [m|] eqn:E; [|reflexivity].
    destruct (named_in ks m) eqn:N; [|reflexivity]. exfalso. apply P, passed_key. eauto.
Qed.

Lemma over_provider vars vars' : heeded pre ks vars vars' ->
  env_provider (env_global (env_ignore (env_prefixed pre) ks)) vars = env_provider (env_global (env_prefixed pre)) vars'.
Proof.
  intros H. assert (I := over_iter _ _ H). unfold env_provider, env_data.
  change (env_global (env_ignore (env_prefixed pre) ks)) with (build_env (FromPrefix pre) [OpIgnore ks; OpGlobal]).
  change (env_global (env_prefixed pre)) with (build_env (FromPrefix pre) [OpGlobal]).
  rewrite I. reflexivity.
Qed.

(** A variable for a field not among [ks] is not passed over. *)
Lemma names_heeded n name : ~ In dot name -> (forall k, In k ks -> ~ alike n k) -> names pre n name -> ~ passed_over pre ks name.
Proof.
  intros ND NI HN HP. apply passed_key in HP. destruct HP as (m & S & N).
  destruct (proj2 (survives_names pre name [] n [] NP ND) (conj eq_refl HN)) as (_ & _ & m' & S' & _ & E).
  unfold mapped_key in S'. cbn [fold_left fst snd] in S', E. rewrite S in S'. injection S' as <-.
  apply named_in_spec in N. destruct N as (k & I & A). apply (NI k I). apply lower_alike.
  rewrite Forall_forall in NK. rewrite (trim_none m (alike_white _ _ A (NK _ I))) in E. subst n.
  apply alike_lower in A. rewrite <- A. apply lower_idem.
Qed.
End Over.

Lemma unset_cons pre a b l n : unset pre ((a, b) :: l) n <-> ~ names pre n a /\ unset pre l n.
Proof.
  unfold unset. split.
  - intros H. split; [apply (H a b); now left|]. intros name s I. apply (H name s). now right.
  - intros [H1 H2] name s [[= <- <-]|I]; eauto.
Qed.
Lemma set_to_cons pre a b l n s : set_to pre ((a, b) :: l) n s <-> set_to pre l n s \/ (unset pre l n /\ names pre n a /\ s = b).
Proof.
  unfold set_to, unset. split.
  - intros ([|[x y] before] & name & after & E & N & U); injection E as E1 E2.
    + right. inversion E1; subst. auto.
    + left. exists before, name, after. auto.
  - intros [(before & name & after & -> & N & U)|(U & N & ->)].
    + exists ((a, b) :: before), name, after. auto.
    + exists [], a, l. auto.
Qed.

Lemma heeded_field pre ks vars vars' n : no_white pre -> Forall no_white ks -> (forall name s, In (name, s) vars -> ~ In dot name) ->
  (forall k, In k ks -> ~ alike n k) -> heeded pre ks vars vars' ->
  (unset pre vars' n <-> unset pre vars n) /\ forall s, set_to pre vars' n s <-> set_to pre vars n s.
Proof.
  intros NP NK ND NI H. induction H as [|name s l l' P H IH|name s l l' P H IH]; [tauto| |].
  - assert (NN : ~ names pre n name).
    { intros X. revert P. eapply names_heeded; eauto. apply (ND name s). now left. }
    destruct IH as [IU IS]; [intros; eapply ND; right; eauto|]. split.
    + rewrite unset_cons. tauto.
    + intros x. rewrite set_to_cons, (IS x). tauto.
  - destruct IH as [IU IS]; [intros; eapply ND; right; eauto|]. split.
    + rewrite !unset_cons. tauto.
    + intros x. rewrite !set_to_cons, (IS x), IU. tauto.
Qed.

(** The profile. *)
Lemma called_spec key name : no_white key -> (called key name <-> uncased_eqb (trim name) key = true).
Proof.
  intros NK. rewrite uncased_eqb_eq. split.
  - intros (w1 & k & w2 & -> & W1 & W2 & A). rewrite trim_around; [now apply alike_lower|exact W1|exact W2|exact (alike_white _ _ A NK)].
  - intros E. destruct (proj1 (trim_spec name _) eq_refl) as (w1 & w2 & EN & W1 & W2 & _ & _).
    exists w1, (trim name), w2. repeat split; auto. now apply lower_alike.
Qed.

Lemma chosen_spec vars key d p : no_white key -> (chosen vars key d p <-> profile_from_env_or vars key d = p).
Proof.
  intros NK. unfold profile_from_env_or. split.
  - intros [before name s after -> C NB|N].
    + induction before as [|[a b] before IH]; cbn [app profile_from_env].
      * apply called_spec in C as ->; [reflexivity|exact NK].
      * destruct (uncased_eqb (trim a) key) eqn:E; [|apply IH; intros; eapply NB; right; eauto].
        exfalso. apply (NB a b); [now left|]. now apply called_spec.
    + induction vars as [|[a b] l IH]; cbn [profile_from_env]; [reflexivity|].
      destruct (uncased_eqb (trim a) key) eqn:E; [|apply IH; intros; eapply N; right; eauto].
      exfalso. apply (N a b); [now left|]. now apply called_spec.
  - intros <-. assert (G : (exists before name s after, vars = before ++ (name, s) :: after /\ called key name /\
        (forall name' s', In (name', s') before -> ~ called key name') /\ profile_from_env vars key = Some (mkProfile s)) \/
        ((forall name s, In (name, s) vars -> ~ called key name) /\ profile_from_env vars key = None)).
    { induction vars as [|[a b] l IH]; [right; split; [intros ? ? []|reflexivity]|]. cbn [profile_from_env].
      destruct (uncased_eqb (trim a) key) eqn:E.
      - left. exists [], a, b, l. split; [reflexivity|]. split; [now apply called_spec|]. split; [intros ? ? []|reflexivity].
      - assert (NC : ~ called key a) by (intros C; apply called_spec in C; [congruence|exact NK]).
        destruct IH as [(before & name & s & after & -> & C & NB & ->)|[N ->]]; [left|right].
        + exists ((a, b) :: before), name, s, after. split; [reflexivity|]. split; [exact C|]. split; [|reflexivity].
          intros ? ? [[= <- <-]|I]; eauto.
        + split; [|reflexivity]. intros ? ? [[= <- <-]|I]; eauto. }
    destruct G as [(before & name & s & after & E & C & NB & ->)|[N ->]]; [eapply ch_set; eauto|now apply ch_default].
Qed.
