(** C77: metadata and profiles say what was put into them. *)
From Coq Require Import Ascii String NArith Bool List Lia.
From Verif Require Import Res BMap Str Profile Metadata Tag Num Value SpecText SpecMeta TextProofs StrProofs StackProofs PropsText.
Import ListNotations.

(** ** Metadata *)
Lemma md_fold calls : forall m,
  md_name (fold_left md_apply calls m) = md_name m /\
  md_location (fold_left md_apply calls m) = md_location m /\
  ((forall s, ~ In (CallSource s) calls) -> md_source (fold_left md_apply calls m) = md_source m) /\
  ((forall f, ~ In (CallInterpolater f) calls) -> md_interpolater (fold_left md_apply calls m) = md_interpolater m).
Proof.
  induction calls as [|c calls IH]; intros m; cbn [fold_left]; [auto|].
  destruct (IH (md_apply m c)) as (H1 & H2 & H3 & H4). rewrite H1, H2. destruct c as [s|f]; cbn in *; repeat split; auto.
  - intros N. exfalso. apply (N s). now left.
  - intros N. apply H4. intros f I. apply (N f). now right.
  - intros N. apply H3. intros s I. apply (N s). now right.
  - intros N. exfalso. apply (N f). now left.
Qed.

(** Whatever is called in whatever order, the metadata has the name it was given, the last
    source, the last interpolater, and no location; providing adds the location only. *)
Theorem C77_built : forall name calls,
  md_name (md_built name calls) = name /\ md_location (md_built name calls) = None /\
  (forall s, last_source calls s -> md_source (md_built name calls) = Some s) /\
  ((forall s, ~ In (CallSource s) calls) -> md_source (md_built name calls) = None) /\
  (forall f p ks, last_interpolater calls f -> md_interpolate (md_built name calls) p ks = f p ks) /\
  ((forall f, ~ In (CallInterpolater f) calls) -> forall p ks,
     md_interpolate (md_built name calls) p ks = pname p ++ [dot] ++ join [dot] ks).
Proof.
  intros name calls. destruct (md_fold calls (md_named name)) as (H1 & H2 & H3 & H4). unfold md_built, md_interpolate.
  split; [exact H1|]. split; [exact H2|]. split; [|split; [exact H3|split]].
  - intros s (b & a & -> & N). rewrite fold_left_app. cbn [fold_left]. destruct (md_fold a (md_apply (fold_left md_apply b (md_named name)) (CallSource s))) as (_ & _ & E & _).
    now rewrite E.
  - intros f p ks (b & a & -> & N). rewrite fold_left_app. cbn [fold_left].
    destruct (md_fold a (md_apply (fold_left md_apply b (md_named name)) (CallInterpolater f))) as (_ & _ & _ & E).
    now rewrite E.
  - intros N p ks. rewrite H4 by exact N. reflexivity.
Qed.
Print Assumptions C77_built.

Theorem C77_shortcut : forall name s, md_from name s = md_built name [CallSource s].
Proof. reflexivity. Qed.
Print Assumptions C77_shortcut.

Theorem C77_provided : forall m l,
  md_location (md_with_location m l) = Some l /\ md_name (md_with_location m l) = md_name m /\
  md_source (md_with_location m l) = md_source m /\
  forall p ks, md_interpolate (md_with_location m l) p ks = md_interpolate m p ks.
Proof. intros m l. repeat split. Qed.
Print Assumptions C77_provided.

(** A source is a file, a place in the code, or something else, and says which. *)
Theorem C77_source : forall s,
  (forall p, source_file_path s = Some p <-> s = SFile p) /\
  (forall l, source_code_location s = Some l <-> s = SCode l) /\
  (forall c, source_custom s = Some c <-> s = SCustom c).
Proof. intros [p|l|c]; repeat split; cbn; intros H; congruence. Qed.
Print Assumptions C77_source.

Example C77_ex :
  md_source (md_built (lit "x") [CallSource (SCustom (lit "a")); CallInterpolater (fun _ _ => []); CallSource (SFile (lit "b"))])
    = Some (SFile (lit "b")) /\
  last_source [CallSource (SCustom (lit "a")); CallInterpolater (fun _ _ => []); CallSource (SFile (lit "b"))] (SFile (lit "b")).
Proof.
  split; [reflexivity|]. exists [CallSource (SCustom (lit "a")); CallInterpolater (fun _ _ => [])], []. split; [reflexivity|intros s []].
Qed.

(** ** Profiles *)
Lemma alike_eqb a b : uncased_eqb a b = true <-> alike a b.
Proof.
  unfold uncased_eqb. rewrite ueqb_eq. split; [apply lower_alike|apply alike_lower].
Qed.

Theorem C77_same : forall p q, profile_eqb p q = true <-> alike (pname p) (pname q).
Proof. intros p q. apply alike_eqb. Qed.
Print Assumptions C77_same.

Theorem C77_custom : forall p, is_custom p = true <->
  ~ alike (pname p) (lit "default") /\ ~ alike (pname p) (lit "global").
Proof.
  intros p. unfold is_custom. rewrite andb_true_iff, !negb_true_iff, <- !not_true_iff_false, !C77_same. reflexivity.
Qed.
Print Assumptions C77_custom.

Theorem C77_begins : forall p prefix, profile_starts_with p prefix = true <-> begins_like (pname p) prefix.
Proof.
  intros [name] prefix. unfold profile_starts_with. rewrite uncased_starts_with_spec. cbn [pname].
  split; intros (a & b & E & H); exists a, b; (split; [exact E|]); [now apply lower_alike|now apply alike_lower].
Qed.
Print Assumptions C77_begins.

(** Profiles are sorted by the bytes of their names in small letters. *)
Theorem C77_order : forall p q a b, lowered (pname p) a -> lowered (pname q) b ->
  Forall (fun c => scalar c = true) a -> Forall (fun c => scalar c = true) b ->
  (cmp p q = Lt <-> bytes_before (utf8 a) (utf8 b)) /\ (cmp p q = Eq <-> a = b).
Proof.
  intros p q a b La Lb Sa Sb. apply lowered_lower in La, Lb. subst a b.
  unfold cmp, Cmp_profile, uncased_cmp. split.
  - exact (proj1 (C74_order _ _ Sa Sb)).
  - apply ucmp_eq.
Qed.
Print Assumptions C77_order.

(** The data of one profile, found under every spelling of its name and under no other. *)
Theorem C77_collect : forall (D : Type) p q (d x : D), get q (profile_collect p d) = Some x <->
  x = d /\ alike (pname q) (pname p).
Proof.
  intros D p q d x. unfold profile_collect. cbn [insert get]. rewrite <- (C77_same q p).
  unfold cmp, Cmp_profile, uncased_cmp, profile_eqb, uncased_eqb. rewrite ueqb_eq.
  destruct (ucmp (lower (pname q)) (lower (pname p))) eqn:E.
  - apply ucmp_eq in E. split; [intros [= ->]; auto|intros [-> _]; reflexivity].
  - split; [discriminate|]. intros [_ H]. apply ucmp_eq in H. congruence.
  - split; [discriminate|]. intros [_ H]. apply ucmp_eq in H. congruence.
Qed.
Print Assumptions C77_collect.

Example C77_profiles_ex :
  profile_starts_with (mkProfile (lit "DEBUG-local")) (lit "debug") = true /\
  profile_starts_with (mkProfile (lit "debug")) (lit "debug-local") = false /\
  is_custom (mkProfile (lit "GLOBAL")) = false /\ is_custom (mkProfile (lit "globals")) = true /\
  cmp (mkProfile (lit "Zeta")) (mkProfile (lit "alpha")) = Gt /\
  begins_like (lit "DEBUG-local") (lit "debug").
Proof.
  repeat (split; [reflexivity|]). exists (lit "DEBUG"), (lit "-local"). split; [reflexivity|].
  repeat (apply Forall2_cons; [right; left; repeat (first [left; reflexivity|right])|]). apply Forall2_nil.
Qed.
