(** C66: equality, ordering and hashing agree. *)
From Coq Require Import Ascii String ZArith NArith Bool.
From Coq Require Import Floats.SpecFloat.
From Coq Require Import List.
From Verif Require Import Res BMap Str Profile Tag Num Value Metadata Path Err Coalesce Figment Fmt De Data Display Eq.
From Verif Require Import BMapProofs StrProofs ValueProofs ProfileProofs TagProofs LookupProofs EqProofs.
From Verif Require Import SpecFigment SpecLookup SpecEq.
Import ListNotations.

(** Tags and profiles: equal, equally ordered, equally hashed are the same thing. *)
Theorem C66_hash :
  (forall a b : tag, (tag_eqb a b = true <-> metadata_id a = metadata_id b) /\
                     (tag_eqb a b = true <-> cmp a b = Eq) /\ (tag_eqb a b = true <-> tag_hash a = tag_hash b)) /\
  (forall a b : profile, (profile_eqb a b = true <-> lower (pname a) = lower (pname b)) /\
                     (profile_eqb a b = true <-> cmp a b = Eq) /\
                     (profile_eqb a b = true <-> profile_hash a = profile_hash b)).
Proof.
  split; intros a b.
  - rewrite tag_eqb_eq. unfold tag_hash. repeat split; auto; try (intros H; now apply cmp_tag_eq).
  - rewrite profile_eqb_eq. unfold profile_hash, same_profile. repeat split; auto; intros H.
    + now apply cmp_profile_eq.
    + now apply cmp_profile_eq in H.
Qed.
Print Assumptions C66_hash.

Example C66_ex_hash :
  profile_eqb (profile_new (lit "Debug")) (profile_new (lit "dEBUG")) = true /\
  profile_hash (profile_new (lit "Debug")) = profile_hash (profile_new (lit "dEBUG")) /\
  profile_eqb (profile_new (lit "debug")) (profile_new (lit "debu")) = false /\
  tag_eqb (tag_new 5 PTGlobal) (tag_new 5 PTDefault) = true /\ tag_eqb (tag_new 5 PTGlobal) (tag_new 6 PTGlobal) = false.
Proof. repeat split. Qed.

(** Paths, sources, metadata and errors: exactly when they are equal. *)
Theorem C66_exact :
  (forall p q, path_eqb p q = true <-> same_path p q) /\
  (forall a b, source_eqb a b = true <-> same_source a b) /\
  (forall a b, metadata_eqb a b = true <-> same_metadata a b) /\
  (forall a b, kind_eqb a b = true <-> same_kind a b) /\
  (forall a b, error_eqb a b = true <-> same_error a b).
Proof.
  split; [exact path_eqb_same|]. split; [exact source_eqb_same|]. split; [exact metadata_eqb_same|].
  split; [exact kind_eqb_same|exact error_eqb_same].
Qed.
Print Assumptions C66_exact.

(** Repeated, dotted and trailing slashes do not change a path. *)
Lemma filter_app' {A} f (l m : list A) : filter f (l ++ m) = filter f l ++ filter f m.
Proof. induction l as [|x r IH]; cbn; [reflexivity|]. destruct (f x); cbn; now rewrite IH. Qed.
Lemma split_app c (a b : ustr) : split_on c (a ++ c :: b) = split_on c a ++ split_on c b.
Proof.
  induction a as [|x r IH]; cbn [app split_on].
  - now rewrite N.eqb_refl.
  - destruct (N.eqb x c); [now rewrite IH|]. rewrite IH.
    destruct (split_on c r) as [|y s] eqn:E; [|reflexivity].
    destruct (split_head c r) as (w & z & E' & _). congruence.
Qed.
Lemma steps_app a b : steps_of (a ++ slash :: b) = steps_of a ++ steps_of b.
Proof. unfold steps_of. now rewrite split_app, filter_app'. Qed.
Lemma root_app a b c : starts_at_root (a ++ slash :: b) <-> starts_at_root (a ++ slash :: c).
Proof. unfold starts_at_root. destruct a as [|x r]; cbn; split; intros [s E]; inversion E; subst; eauto. Qed.
Lemma here_app a b c : starts_here (a ++ slash :: b) <-> starts_here (a ++ slash :: c).
Proof.
  rewrite <- !include_cur_dir_spec. unfold include_cur_dir. rewrite !split_app.
  destruct (split_head slash a) as (x & r & -> & _). reflexivity.
Qed.
Lemma here_one a b : starts_here (a ++ slash :: b) <-> starts_here a.
Proof.
  rewrite <- !include_cur_dir_spec. unfold include_cur_dir. rewrite !split_app.
  destruct (split_head slash a) as (x & r & -> & _). reflexivity.
Qed.
Theorem C66_respelled : forall a b,
  path_eqb (a ++ lit "//" ++ b) (a ++ lit "/" ++ b) = true /\
  path_eqb (a ++ lit "/./" ++ b) (a ++ lit "/" ++ b) = true /\
  (a <> [] -> path_eqb (a ++ lit "/") a = true /\ path_eqb (a ++ lit "/.") a = true) /\
  (path_eqb (a ++ lit "/../" ++ b) (a ++ lit "/" ++ b) = false).
Proof.
  intros a b.
  change (lit "//" ++ b) with (slash :: (@nil N) ++ slash :: b).
  change (lit "/./" ++ b) with (slash :: lit "." ++ slash :: b).
  change (lit "/../" ++ b) with (slash :: lit ".." ++ slash :: b).
  change (lit "/" ++ b) with (slash :: b).
  change (lit "/") with (slash :: @nil N). change (lit "/.") with (slash :: lit ".").
  split; [|split; [|split]].
  - apply path_eqb_same. split; [apply root_app|]. split; [apply here_app|]. now rewrite !steps_app.
  - apply path_eqb_same. split; [apply root_app|]. split; [apply here_app|]. now rewrite !steps_app.
  - intros HA. split; apply path_eqb_same; (split; [|split; [apply here_one|rewrite steps_app; apply app_nil_r]]);
      unfold starts_at_root; destruct a as [|x r]; try congruence; cbn; split; intros [s E]; inversion E; subst; eauto.
  - destruct (path_eqb (a ++ slash :: lit ".." ++ slash :: b) (a ++ slash :: b)) eqn:E; [|reflexivity].
    apply path_eqb_same in E. destruct E as (_ & _ & E). rewrite !steps_app in E.
    apply app_inv_head in E. apply (f_equal (@length _)) in E. cbn in E.
    exfalso. clear -E. induction (length (steps_of b)); congruence.
Qed.
Print Assumptions C66_respelled.

Example C66_ex_paths :
  path_eqb (lit "/etc//app/./x.toml/") (lit "/etc/app/x.toml") = true /\
  path_eqb (lit "./x.toml") (lit "x.toml") = false /\ path_eqb (lit "/x.toml") (lit "x.toml") = false /\
  source_eqb (SFile (lit "a//b")) (SFile (lit "a/b")) = true /\ source_eqb (SCustom (lit "a//b")) (SCustom (lit "a/b")) = false /\
  source_eqb (SFile (lit "a")) (SCustom (lit "a")) = false /\
  source_eqb (SCode (mkLoc (lit "m.rs") 3 5)) (SCode (mkLoc (lit "m.rs") 3 6)) = false.
Proof. repeat split. Qed.

(** All of them are symmetric and transitive; those without floats are reflexive too. *)
Theorem C66_equivalence :
  (symmetric tag_eqb /\ symmetric profile_eqb /\ symmetric path_eqb /\ symmetric source_eqb /\
   symmetric metadata_eqb /\ symmetric kind_eqb /\ symmetric error_eqb /\ symmetric value_eqb /\
   forall fs, symmetric (rel_eqb fs)) /\
  (transitive tag_eqb /\ transitive profile_eqb /\ transitive path_eqb /\ transitive source_eqb /\
   transitive metadata_eqb /\ transitive kind_eqb /\ transitive error_eqb /\ transitive value_eqb /\
   forall fs, transitive (rel_eqb fs)) /\
  (reflexive tag_eqb /\ reflexive profile_eqb /\ reflexive path_eqb /\ reflexive source_eqb /\
   reflexive metadata_eqb /\ forall fs, reflexive (rel_eqb fs)).
Proof.
  assert (TS : symmetric tag_eqb).
  { apply (eqb_sym tag_eqb (fun a b => metadata_id a = metadata_id b)); [exact tag_eqb_eq|congruence]. }
  assert (PS : symmetric path_eqb) by exact (eqb_sym _ _ path_eqb_same same_path_sym).
  assert (PT : transitive path_eqb) by exact (eqb_trans _ _ path_eqb_same same_path_trans).
  assert (PR : reflexive path_eqb) by (intros p; apply path_eqb_same, same_path_refl).
  split; [|split].
  - split; [exact TS|].
    split; [apply (eqb_sym _ _ profile_eqb_eq); unfold same_profile; congruence|]. split; [exact PS|].
    split; [exact (eqb_sym _ _ source_eqb_same same_source_sym)|].
    split; [exact (eqb_sym _ _ metadata_eqb_same same_metadata_sym)|].
    split; [exact (eqb_sym _ _ kind_eqb_same same_kind_sym)|].
    split; [exact (eqb_sym _ _ error_eqb_same same_error_sym)|].
    split; [exact (eqb_sym _ _ value_eqb_spec same_value_sym)|].
    intros fs a b. apply PS.
  - split; [apply (eqb_trans _ _ tag_eqb_eq); congruence|].
    split; [apply (eqb_trans _ _ profile_eqb_eq); unfold same_profile; congruence|]. split; [exact PT|].
    split; [exact (eqb_trans _ _ source_eqb_same same_source_trans)|].
    split; [exact (eqb_trans _ _ metadata_eqb_same same_metadata_trans)|].
    split; [exact (eqb_trans _ _ kind_eqb_same same_kind_trans)|].
    split; [exact (eqb_trans _ _ error_eqb_same same_error_trans)|].
    split; [exact (eqb_trans _ _ value_eqb_spec same_value_trans)|].
    intros fs a b c. apply PT.
  - split; [intros a; now apply tag_eqb_eq|]. split; [intros a; now apply profile_eqb_eq|]. split; [exact PR|].
    split; [intros a; apply source_eqb_same, same_source_refl|].
    split; [intros a; apply metadata_eqb_same, same_metadata_refl|].
    intros fs a. apply PR.
Qed.
Print Assumptions C66_equivalence.

(** A value, an error, equals itself exactly when it carries no float that is not a number. *)
Theorem C66_reflexive :
  (forall v, value_eqb v v = true <-> ~ has_nan v) /\ (forall e, error_eqb e e = true <-> no_nan e).
Proof.
  split; intros x; [rewrite value_eqb_spec; apply same_value_refl|rewrite error_eqb_same; apply same_error_refl].
Qed.
Print Assumptions C66_reflexive.

Theorem C66_self_refuted : exists v e,
  value_eqb v v = false /\ error_eqb e e = false /\
  deserialize (TInt U8) (DConf Exact fig_new v) = Err e.
Proof.
  exists (VNum tag_default (NF64 S754_nan)). eexists. split; [reflexivity|]. split; [|reflexivity]. reflexivity.
Qed.
Print Assumptions C66_self_refuted.

Example C66_ex_reflexive : ~ has_nan (VDict tag_default [(lit "a", VNum tag_default (NF64 (S754_zero true)))]) /\
  value_eqb (VNum tag_default (NF64 (S754_zero true))) (VNum tag_default (NF32 (S754_zero false))) = true.
Proof. split; [apply C66_reflexive|]; reflexivity. Qed.

(** [Tagged] compares the value only, [RelativePathBuf] the resolved paths only. *)
Theorem C66_wrappers :
  (forall A (eqb : A -> A -> bool) (t t' : tag) (x y : A),
     tagged_eqb eqb (mkTagged t x) (mkTagged t' y) = eqb x y /\
     into_inner (mkTagged t x) = x /\ tg_tag (tagged_of x) = tag_default /\ into_inner (tagged_of x) = x) /\
  (forall fs a b, rel_eqb fs a b = true <->
     same_path (relative fs (rb_metadata_path a) (rb_path a)) (relative fs (rb_metadata_path b) (rb_path b))) /\
  (forall fs p q, rel_eqb fs (rel_of_path p) (rel_of_path q) = true <-> same_path p q).
Proof.
  split; [|split].
  - intros A eqb t t' x y. repeat split.
  - intros fs a b. apply path_eqb_same.
  - intros fs p q. unfold rel_eqb, rel_of_path, relative. cbn.
    replace (if has_root p then p else p) with p by (now destruct (has_root p)).
    replace (if has_root q then q else q) with q by (now destruct (has_root q)). apply path_eqb_same.
Qed.
Print Assumptions C66_wrappers.

(** Equal errors need not read the same: metadata that spells keys its own way, a zero of the
    other sign. *)
Theorem C66_shown_refuted : exists a b c,
  error_eqb a b = true /\ fmt_error None a <> fmt_error None b /\
  error_eqb b c = true /\ fmt_error None b <> fmt_error None c.
Proof.
  set (k x := KInvalidType (AFloat (S754_zero x)) (lit "a string")).
  exists (MkError tag_default (Some p_default) (Some (md_named (lit "E"))) [lit "a"] (k false) None).
  exists (MkError tag_default (Some p_default)
            (Some (md_with_interpolater (md_named (lit "E")) (fun _ ks => join (lit "_") ks))) [lit "a"] (k false) None).
  exists (MkError tag_default (Some p_default)
            (Some (md_with_interpolater (md_named (lit "E")) (fun _ ks => join (lit "_") ks))) [lit "a"] (k true) None).
  split; [reflexivity|]. split; [vm_compute; discriminate|]. split; [reflexivity|]. vm_compute; discriminate.
Qed.
Print Assumptions C66_shown_refuted.

(** Equal values need not extract alike. *)
Theorem C66_extracts_refuted : forall i f, exists a b,
  value_eqb a b = true /\ deserialize (TInt U8) (DConf i f a) = Ok (EVInt U8 3) /\
  exists e, deserialize (TInt U8) (DConf i f b) = Err e.
Proof.
  intros i f. exists (VNum tag_default (NInt U8 3)), (VNum tag_default (NInt U128 3)).
  split; [reflexivity|]. destruct i; (split; [reflexivity|]; eexists; reflexivity).
Qed.
Print Assumptions C66_extracts_refuted.
