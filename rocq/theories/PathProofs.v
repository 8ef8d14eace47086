(** Lemmas about paths: components, joining, parents, [diff_paths] and [dedot]. *)
From Coq Require Import Ascii String NArith Bool Lia PeanoNat.
From Coq Require Import List.
From Verif Require Import Res BMap Str StrProofs Path SpecPath.
Import ListNotations.

(** ** Splitting at slashes *)
Lemma split_app d a b : split_on d (a ++ d :: b) = split_on d a ++ split_on d b.
Proof.
  induction a as [|c r IH]; simpl.
  - now rewrite N.eqb_refl.
  - destruct (N.eqb c d); [now rewrite IH|]. rewrite IH.
    destruct (split_on d r) eqn:E; [now apply split_on_nonnil in E|reflexivity].
Qed.

Lemma has_root_iff p : has_root p = true <-> exists r, p = slash :: r.
Proof.
  destruct p as [|c r]; simpl; [split; [discriminate|intros [r H]; discriminate]|].
  split.
  - intros H. apply N.eqb_eq in H. subst. eauto.
  - intros [r' H]. inversion H. apply N.eqb_refl.
Qed.

Lemma relative_path_iff p : relative_path p <-> has_root p = false.
Proof.
  split.
  - intros H. destruct (has_root p) eqn:E; auto. apply has_root_iff in E. destruct E as [r ->].
    now destruct (H r).
  - intros H r ->. discriminate.
Qed.

Lemma step_nil at_ : step_into at_ [] = at_.
Proof. reflexivity. Qed.

Lemma fold_step_nil l at_ : fold_left step_into (l ++ [[]]) at_ = fold_left step_into l at_.
Proof. now rewrite fold_left_app. Qed.

Lemma locate_nil cwd : locate cwd [] = cwd.
Proof. reflexivity. Qed.

Lemma locate_rooted cwd cwd' p : has_root p = true -> locate cwd p = locate cwd' p.
Proof. intros H. unfold locate. now rewrite H. Qed.

(** Joining two paths: the second is followed from where the first leads. *)
Lemma locate_app cwd p x : p <> [] -> locate cwd (p ++ slash :: x) =
  fold_left step_into (split_on slash x) (locate cwd p).
Proof.
  intros N. unfold locate. rewrite split_app, fold_left_app.
  replace (has_root (p ++ slash :: x)) with (has_root p); auto.
  now destruct p.
Qed.

Lemma locate_push cwd p x : locate cwd (path_push p x) = locate (locate cwd p) x.
Proof.
  unfold path_push. destruct (has_root x) eqn:Hx.
  - now apply locate_rooted.
  - assert (F : locate (locate cwd p) x = fold_left step_into (split_on slash x) (locate cwd p))
      by (unfold locate at 1; now rewrite Hx).
    destruct (rev p) as [|c r] eqn:E.
    + assert (p = []) by (rewrite <- (rev_involutive p), E; reflexivity). now subst.
    + assert (Ep : p = rev r ++ [c]) by (rewrite <- (rev_involutive p), E; reflexivity).
      destruct (N.eqb c slash) eqn:Ec.
      * apply N.eqb_eq in Ec. subst c. rewrite F, Ep, <- app_assoc. cbn [app].
        destruct (rev r) as [|y r'] eqn:Er.
        -- reflexivity.
        -- rewrite locate_app by discriminate. f_equal.
           rewrite locate_app by discriminate. reflexivity.
      * rewrite F, locate_app; [reflexivity|]. rewrite Ep. now destruct (rev r).
Qed.

Lemma locate_join cwd p x : locate cwd (path_join p x) = locate (locate cwd p) x.
Proof. apply locate_push. Qed.

(** ** Components *)
Definition cstep (at_ : list ustr) (c : component) : list ustr :=
  match c with
  | RootDir => []
  | CurDir => at_
  | ParentDir => removelast at_
  | Normal s => at_ ++ [s]
  end.

Definition comp_ok (c : component) : Prop :=
  match c with Normal s => name_ok s | _ => True end.

Lemma component_of_step at_ x :
  step_into at_ x = match component_of x with Some c => cstep at_ c | None => at_ end.
Proof.
  unfold step_into, component_of. destruct (is_nil x); auto.
  destruct (ueqb x (lit ".")); auto. destruct (ueqb x (lit "..")); auto.
Qed.

Lemma components_of_steps l : forall at_,
  fold_left cstep (components_of l) at_ = fold_left step_into l at_.
Proof.
  induction l as [|x r IH]; intros at_; auto. cbn [components_of fold_left].
  rewrite component_of_step. destruct (component_of x); [cbn [fold_left]|]; apply IH.
Qed.

Lemma components_locate cwd p : fold_left cstep (components p) cwd = locate cwd p.
Proof.
  unfold components, locate. rewrite fold_left_app, components_of_steps.
  destruct (has_root p); [reflexivity|]. destruct (include_cur_dir p); reflexivity.
Qed.

Lemma component_of_ok x c : contains_c slash x = false -> component_of x = Some c ->
  comp_ok c /\ c <> RootDir /\ c <> CurDir.
Proof.
  unfold component_of. intros S. destruct (is_nil x) eqn:E0; [discriminate|].
  destruct (ueqb x (lit ".")) eqn:E1; [discriminate|].
  destruct (ueqb x (lit "..")) eqn:E2; intros H; inversion H; subst;
    (split; [|split; discriminate]); [exact I|].
  cbn. split; [intros ->; discriminate|]. split; [now apply ueqb_neq|]. split; auto. now apply ueqb_neq.
Qed.

Lemma components_of_ok l : Forall (fun p => contains_c slash p = false) l ->
  Forall (fun c => comp_ok c /\ c <> RootDir /\ c <> CurDir) (components_of l).
Proof.
  induction 1 as [|x r H F IH]; [constructor|]. cbn [components_of].
  destruct (component_of x) eqn:E; auto. constructor; auto. eapply component_of_ok; eauto.
Qed.

Lemma components_ok p : Forall comp_ok (components p).
Proof.
  unfold components. apply Forall_app. split.
  - destruct (has_root p); [repeat constructor|]. destruct (include_cur_dir p); repeat constructor.
  - eapply Forall_impl; [|apply components_of_ok, split_on_pieces]. cbn. tauto.
Qed.

Lemma name_step at_ s : name_ok s -> step_into at_ s = at_ ++ [s].
Proof.
  intros [A [B [C D]]]. unfold step_into. destruct s; [congruence|]. cbn [is_nil].
  rewrite (proj2 (ueqb_neq _ _) B), (proj2 (ueqb_neq _ _) C). reflexivity.
Qed.

Lemma name_not_rooted s : contains_c slash s = false -> has_root s = false.
Proof.
  destruct s as [|c r]; auto. cbn. intros H. apply orb_false_iff in H.
  now rewrite N.eqb_sym.
Qed.

Lemma locate_component cwd c : comp_ok c -> locate cwd (component_str c) = cstep cwd c.
Proof.
  destruct c as [| | |s]; intros H; try reflexivity.
  cbn in *. assert (S := H). destruct S as [_ [_ [_ S]]].
  unfold locate. rewrite name_not_rooted, split_on_none by auto. cbn [fold_left].
  now apply name_step.
Qed.

(** Collecting components gives a path that leads where they lead. *)
Lemma locate_collect_gen cwd l : Forall comp_ok l -> forall acc,
  locate cwd (fold_left (fun p c => path_push p (component_str c)) l acc)
  = fold_left cstep l (locate cwd acc).
Proof.
  induction 1 as [|c r H F IH]; intros acc; auto. cbn [fold_left].
  rewrite IH, locate_push, locate_component; auto.
Qed.

Lemma locate_collect cwd l : Forall comp_ok l -> locate cwd (path_collect l) = fold_left cstep l cwd.
Proof. intros H. apply locate_collect_gen; auto. Qed.

(** ** [diff_paths] *)
Lemma component_eqb_eq a b : component_eqb a b = true <-> a = b.
Proof.
  destruct a, b; cbn; split; intros H; try discriminate; auto.
  - apply ueqb_eq in H. now subst.
  - inversion H. apply ueqb_refl.
Qed.

Definition is_normal (c : component) : Prop := exists s, c = Normal s.

Lemma climb_back l : Forall is_normal l -> forall at_,
  fold_left cstep (map (fun _ => ParentDir) l) (fold_left cstep l at_) = at_.
Proof.
  induction l as [|c r IH] using rev_ind; intros F at_; auto.
  apply Forall_app in F. destruct F as [F G]. inversion G as [|? ? [s ->] _]; subst.
  rewrite map_app, !fold_left_app. cbn [map fold_left cstep].
  (* the climbs commute: they are all the same *)
  assert (C : forall m (x : list ustr), removelast (fold_left cstep (map (fun _ : component => ParentDir) m) x)
                  = fold_left cstep (map (fun _ : component => ParentDir) m) (removelast x)).
  { clear. induction m as [|y m IHm]; intros x; auto. cbn. now rewrite IHm. }
  rewrite C, removelast_last. now apply IH.
Qed.

Lemma diff_loop_end itb : forall acc,
  diff_loop [] itb acc = Some (acc ++ map (fun _ => ParentDir) itb).
Proof.
  induction itb as [|b r IH]; intros acc; cbn [diff_loop map]; [reflexivity|].
  rewrite IH, <- app_assoc. reflexivity.
Qed.

Lemma diff_loop_normal itb : Forall is_normal itb -> forall ita, exists l,
  diff_loop ita itb [] = Some l /\ (Forall comp_ok ita -> Forall comp_ok l) /\
  forall at_, fold_left cstep l (fold_left cstep itb at_) = fold_left cstep ita at_.
Proof.
  induction 1 as [|b r [s ->] F IH]; intros ita.
  - exists ita. repeat split; auto.
  - destruct ita as [|a ita].
    + rewrite diff_loop_end. eexists; split; [reflexivity|]. split.
      * intros _. cbn [app]. apply Forall_forall. intros x I. apply in_map_iff in I.
        destruct I as [? [<- _]]. exact I.
      * intros at_. cbn [app]. rewrite climb_back; auto.
        constructor; [now exists s|auto].
    + cbn [diff_loop is_nil andb]. destruct (component_eqb a (Normal s)) eqn:E.
      * apply component_eqb_eq in E. subst a. destruct (IH ita) as [l [A [B C]]].
        exists l. split; auto. split.
        -- intros H. apply B. now inversion H.
        -- intros at_. cbn [fold_left]. apply C.
      * eexists; split; [reflexivity|]. cbn [app]. split.
        -- intros H. constructor; [exact I|]. apply Forall_app. split; auto.
           apply Forall_forall. intros x J. apply in_map_iff in J. destruct J as [? [<- _]]. exact I.
        -- intros at_. change (ParentDir :: map (fun _ => ParentDir) r ++ a :: ita)
             with (map (fun _ : component => ParentDir) (Normal s :: r) ++ a :: ita).
           rewrite fold_left_app, climb_back; auto. constructor; [now exists s|auto].
Qed.

(** The components of a path without [.] and [..]. *)
Lemma components_of_plain l : Forall (fun p => contains_c slash p = false) l ->
  ~ In (lit "..") l -> Forall is_normal (components_of l).
Proof.
  induction 1 as [|x r H F IH]; intros N; [constructor|]. cbn [components_of].
  assert (IH' : Forall is_normal (components_of r)) by (apply IH; intros I; apply N; now right).
  unfold component_of. destruct (is_nil x); auto. destruct (ueqb x (lit ".")); auto.
  destruct (ueqb x (lit "..")) eqn:E; [exfalso; apply N; left; now apply ueqb_eq|].
  constructor; auto. now exists x.
Qed.

Lemma include_cur_dir_false p : ~ In (lit ".") (split_on slash p) -> include_cur_dir p = false.
Proof.
  unfold include_cur_dir. destruct (split_on slash p) as [|x r]; auto. intros N.
  apply ueqb_neq. intros ->. apply N. now left.
Qed.

Lemma plain_components p : plain_path p -> exists l, Forall is_normal l /\
  components p = (if has_root p then [RootDir] else []) ++ l.
Proof.
  intros [N1 N2]. exists (components_of (split_on slash p)). split.
  - apply components_of_plain; auto. apply split_on_pieces.
  - unfold components. now rewrite include_cur_dir_false.
Qed.

Lemma components_head p : exists l, Forall comp_ok l /\
  components p = (if has_root p then [RootDir] else []) ++ l.
Proof.
  assert (H := components_ok p). unfold components in *. destruct (has_root p).
  - eexists; split; [|reflexivity]. apply Forall_app in H. tauto.
  - eexists; split; [|rewrite app_nil_l; reflexivity]. exact H.
Qed.

Lemma diff_paths_total path base : plain_path base -> has_root path = has_root base ->
  exists r, diff_paths path base = Some r /\
            forall cwd, locate cwd (path_join base r) = locate cwd path.
Proof.
  intros P E. destruct (plain_components base P) as [lb [Nb Cb]].
  destruct (components_head path) as [la [Oa Ca]].
  unfold diff_paths. rewrite E, eqb_reflx.
  assert (D : exists l, diff_loop (components path) (components base) [] = Some l /\ Forall comp_ok l /\
                forall at_, fold_left cstep l (fold_left cstep (components base) at_)
                            = fold_left cstep (components path) at_).
  { rewrite Ca, Cb, E. destruct (has_root base); cbn [app].
    - cbn [diff_loop is_nil component_eqb andb]. destruct (diff_loop_normal lb Nb la) as [l [A [B C]]].
      exists l. split; auto. split; auto. intros at_. cbn [fold_left]. apply C.
    - destruct (diff_loop_normal lb Nb la) as [l [A [B C]]]. exists l. split; auto. }
  destruct D as [l [-> [Ol C]]]. exists (path_collect l). split; [reflexivity|].
  intros cwd. rewrite locate_join, locate_collect by auto.
  rewrite <- (components_locate cwd base), C. apply components_locate.
Qed.

Lemma diff_paths_none path base : has_root path <> has_root base -> diff_paths path base = None.
Proof.
  intros H. unfold diff_paths. destruct (eqb (has_root path) (has_root base)) eqn:E; auto.
  apply eqb_prop in E. contradiction.
Qed.

(** ** The exact answer, whatever the base *)
Lemma component_eqb_refl a : component_eqb a a = true.
Proof. destruct a; cbn; auto. apply ueqb_refl. Qed.
Lemma diff_loop_prefix pre : forall a b, diff_loop (pre ++ a) (pre ++ b) [] = diff_loop a b [].
Proof.
  induction pre as [|c r IH]; intros a b; [reflexivity|]. cbn [app diff_loop is_nil andb].
  rewrite component_eqb_refl. apply IH.
Qed.
Lemma diff_loop_way a b : parted a b -> ~ In CurDir (tl b) -> diff_loop a b [] = way a b.
Proof.
  intros HP HC. destruct b as [|y b]; [now destruct a|]. destruct a as [|x a].
  - rewrite diff_loop_end. cbn [way]. now destruct y.
  - cbn [diff_loop is_nil andb]. destruct (component_eqb x y) eqn:E.
    { apply component_eqb_eq in E. exfalso. exact (HP x y a b eq_refl eq_refl E). }
    destruct y; cbn [way app]; try reflexivity.
    destruct b as [|z b]; [now destruct a|]. destruct a as [|u a].
    + rewrite diff_loop_end. cbn. now destruct z.
    + cbn [diff_loop is_nil andb app]. destruct z; try reflexivity. exfalso. apply HC. now left.
Qed.
Lemma components_tail p c : In c (tl (components p)) -> c <> CurDir.
Proof.
  intros H. assert (F := components_of_ok _ (split_on_pieces slash p)). rewrite Forall_forall in F.
  unfold components in H. destruct (has_root p); [cbn in H; apply F; exact H|].
  destruct (include_cur_dir p); [cbn in H; apply F; exact H|]. cbn [app] in H.
  destruct (components_of (split_on slash p)) as [|x r]; [destruct H|]. apply F. now right.
Qed.

Lemma diff_paths_exact path base pre a b : has_root path = has_root base ->
  components path = pre ++ a -> components base = pre ++ b -> parted a b ->
  diff_paths path base = option_map path_collect (way a b).
Proof.
  intros E Ha Hb HP. unfold diff_paths. rewrite E, eqb_reflx, Ha, Hb, diff_loop_prefix.
  f_equal. apply diff_loop_way; [exact HP|]. intros HI. refine (components_tail base CurDir _ eq_refl).
  rewrite Hb. destruct pre as [|c r]; [exact HI|]. cbn. apply in_or_app. right. destruct b; [destruct HI|now right].
Qed.

Lemma way_right a b : Forall is_normal b -> parted a b -> way a b = Some (ups b ++ a) \/ (a = [] /\ way a b = Some (ups b)).
Proof.
  intros F HP. destruct b as [|y b]; [left; now destruct a|]. inversion F as [|? ? [s ->] F']; subst.
  destruct a as [|x a]; [right; now split|]. left. reflexivity.
Qed.

Lemma diff_paths_right path base pre a b : has_root path = has_root base ->
  components path = pre ++ a -> components base = pre ++ b -> parted a b -> Forall is_normal b ->
  exists r, diff_paths path base = Some r /\
            forall cwd, locate cwd (path_join base r) = locate cwd path.
Proof.
  intros E Ha Hb HP F. rewrite (diff_paths_exact path base pre a b E Ha Hb HP).
  assert (OK : Forall comp_ok (ups b ++ a)).
  { apply Forall_app. split.
    - apply Forall_forall. intros x J. apply in_map_iff in J. destruct J as [? [<- _]]. exact I.
    - assert (H := components_ok path). rewrite Ha in H. apply Forall_app in H. apply H. }
  assert (W : way a b = Some (ups b ++ a)).
  { destruct (way_right a b F HP) as [H|[-> H]]; [exact H|]. now rewrite app_nil_r. }
  rewrite W. eexists. split; [reflexivity|]. intros cwd.
  rewrite locate_join, locate_collect by exact OK.
  rewrite <- (components_locate cwd base), <- (components_locate cwd path), Ha, Hb, !fold_left_app.
  unfold ups. rewrite climb_back by exact F. reflexivity.
Qed.

(** ** Texts of directories *)
Lemma join_app (s : ustr) a b : a <> [] -> b <> [] -> join s (a ++ b) = join s a ++ s ++ join s b.
Proof.
  induction a as [|x a IH]; [congruence|]. intros _ Nb. destruct a as [|y a].
  - cbn [app]. destruct b as [|z b]; [congruence|]. reflexivity.
  - change (join s ((x :: y :: a) ++ b)) with (x ++ s ++ join s ((y :: a) ++ b)).
    rewrite IH by (auto; discriminate).
    change (join s (x :: y :: a)) with (x ++ s ++ join s (y :: a)). now rewrite <- !app_assoc.
Qed.

Lemma names_pieces ns : Forall name_ok ns -> Forall (fun p => contains_c slash p = false) ns.
Proof. apply Forall_impl. intros s [_ [_ [_ H]]]. exact H. Qed.

Lemma split_dir_text ns : Forall name_ok ns ->
  split_on slash (dir_text ns) = [] :: match ns with [] => [[]] | _ => ns end.
Proof.
  intros H. unfold dir_text.
  change (slash :: join [slash] ns) with ([] ++ slash :: join [slash] ns).
  rewrite split_app. cbn [split_on app]. f_equal.
  destruct ns as [|x r]; [reflexivity|]. apply split_join; [discriminate|]. now apply names_pieces.
Qed.

Lemma fold_names ns : Forall name_ok ns -> forall at_, fold_left step_into ns at_ = at_ ++ ns.
Proof.
  induction 1 as [|x r H F IH]; intros at_; [now rewrite app_nil_r|]. cbn [fold_left].
  rewrite name_step, IH, <- app_assoc; auto.
Qed.

Lemma locate_dir_text cwd ns : Forall name_ok ns -> locate cwd (dir_text ns) = ns.
Proof.
  intros H. unfold locate. rewrite split_dir_text by auto. cbn [fold_left has_root dir_text].
  rewrite N.eqb_refl, step_nil. destruct ns as [|x r]; [reflexivity|].
  now rewrite fold_names.
Qed.

Lemma dir_text_plain ns : Forall name_ok ns -> plain_path (dir_text ns).
Proof.
  intros H. unfold plain_path. rewrite split_dir_text by auto.
  assert (K : forall x, In x ns -> x <> lit "." /\ x <> lit "..").
  { intros x I. apply (Forall_forall name_ok ns) in I; auto. unfold name_ok in I. tauto. }
  split; intros [A|A]; try discriminate; destruct ns as [|x r];
    try (destruct A as [A|[]]; discriminate); now apply K in A.
Qed.

Lemma push_name p x : has_root x = false -> p <> [] -> (forall q, p <> q ++ [slash]) ->
  path_push p x = p ++ slash :: x.
Proof.
  intros Hx N E. unfold path_push. rewrite Hx. destruct (rev p) as [|c r] eqn:Er.
  - exfalso. apply N. now rewrite <- (rev_involutive p), Er.
  - destruct (N.eqb c slash) eqn:Ec; auto. apply N.eqb_eq in Ec. subst c.
    exfalso. apply (E (rev r)). now rewrite <- (rev_involutive p), Er.
Qed.

Lemma last_not_slash p name q : name <> [] -> contains_c slash name = false ->
  p ++ name <> q ++ [slash].
Proof.
  intros N C H. destruct (exists_last N) as [n' [c ->]]. rewrite app_assoc in H.
  apply app_inj_tail in H. destruct H as [_ ->]. rewrite contains_c_app in C. cbn in C.
  rewrite orb_true_r in C. discriminate.
Qed.

Lemma dir_text_last ns : Forall name_ok ns -> ns <> [] -> forall q, dir_text ns <> q ++ [slash].
Proof.
  intros H N q. destruct (exists_last N) as [m [x ->]]. apply Forall_app in H.
  destruct H as [_ H]. inversion H as [|? ? Hx _]; subst. destruct Hx as [A [_ [_ B]]].
  unfold dir_text. destruct m as [|y m].
  - cbn [app join]. apply (last_not_slash [slash]); auto.
  - rewrite join_app by discriminate. cbn [join].
    rewrite app_assoc. rewrite app_comm_cons. now apply last_not_slash.
Qed.

Lemma join_dir_text ns path : Forall name_ok ns -> has_root path = false ->
  path_join (dir_text ns) path = in_dir ns path.
Proof.
  intros H R. unfold path_join, in_dir. destruct ns as [|x r].
  - cbn [app]. unfold dir_text. cbn [join]. unfold path_push. rewrite R. reflexivity.
  - rewrite push_name; auto; [|discriminate|apply dir_text_last; auto; discriminate].
    unfold dir_text. rewrite join_app by discriminate. reflexivity.
Qed.

(** ** Parents *)
Lemma drop_skipped_app l : exists w, l = w ++ drop_skipped l /\
  Forall (fun x => component_of x = None) w.
Proof.
  induction l as [|x r IH]; [now exists []|]. cbn [drop_skipped].
  destruct (component_of x) eqn:E.
  - exists []. split; auto.
  - destruct IH as [w [A B]]. exists (x :: w). split; [cbn; now rewrite <- A|now constructor].
Qed.

Lemma skipped_steps w : Forall (fun x => component_of x = None) w -> forall at_,
  fold_left step_into w at_ = at_.
Proof.
  induction 1 as [|x r H F IH]; intros at_; auto. cbn [fold_left].
  rewrite component_of_step, H. apply IH.
Qed.

Lemma fold_rev_drop l at_ :
  fold_left step_into (rev (drop_skipped l)) at_ = fold_left step_into (rev l) at_.
Proof.
  destruct (drop_skipped_app l) as [w [A B]]. rewrite A at 2. rewrite rev_app_distr, fold_left_app.
  symmetry. apply skipped_steps. now apply Forall_rev.
Qed.

Lemma drop_skipped_head l x r : drop_skipped l = x :: r -> exists c, component_of x = Some c.
Proof.
  induction l as [|y m IH]; [discriminate|]. cbn [drop_skipped].
  destruct (component_of y) eqn:E; auto. intros H. inversion H; subst. eauto.
Qed.

Lemma join_length_app (l m : list ustr) : (length (join [slash] l) <= length (join [slash] (l ++ m)))%nat.
Proof.
  destruct l as [|x r]; [cbn; lia|]. destruct m as [|y m]; [rewrite app_nil_r; lia|].
  rewrite join_app, app_length by discriminate. lia.
Qed.

Lemma path_head_app p : p = fst (path_head p) ++ snd (path_head p).
Proof.
  destruct p as [|c r]; auto. unfold path_head.
  destruct (has_root (c :: r) || include_cur_dir (c :: r)); reflexivity.
Qed.

(** The parent is shorter. *)
Lemma parent_shorter p q : path_parent p = Some q -> (length q < length p)%nat.
Proof.
  unfold path_parent. assert (H := path_head_app p). destruct (path_head p) as [head body].
  cbn [fst snd] in H. destruct (drop_skipped (rev (split_on slash body))) as [|x r] eqn:E.
  - destruct (include_cur_dir p) eqn:C; [|discriminate]. intros Q. inversion Q; subst q.
    destruct p; [discriminate|cbn; lia].
  - intros Q. inversion Q; subst q. clear Q.
    destruct (drop_skipped_app (rev (split_on slash body))) as [w [A _]]. rewrite E in A.
    destruct (drop_skipped_app r) as [w' [A' _]].
    assert (B : split_on slash body = rev (drop_skipped r) ++ rev w' ++ [x] ++ rev w).
    { rewrite <- (rev_involutive (split_on slash body)), A, A' at 1.
      rewrite rev_app_distr. cbn [rev]. rewrite rev_app_distr, <- !app_assoc. reflexivity. }
    assert (Lb : body = join [slash] (rev (drop_skipped r) ++ rev w' ++ [x] ++ rev w))
      by (rewrite <- B; symmetry; apply join_split).
    rewrite H. rewrite !app_length, Lb. apply Nat.add_lt_mono_l.
    destruct (drop_skipped_head _ _ _ E) as [c Hc].
    assert (Nx : x <> []) by (intros ->; discriminate).
    assert (Lx : (0 < length x)%nat) by (destruct x; [congruence|cbn; lia]).
    rewrite app_assoc, app_assoc.
    eapply Nat.lt_le_trans; [|apply join_length_app].
    destruct (rev (drop_skipped r) ++ rev w') as [|z l] eqn:Ez.
    + apply app_eq_nil in Ez. destruct Ez as [-> _]. exact Lx.
    + rewrite join_app, !app_length by discriminate. change (length (join [slash] [x])) with (length x).
      rewrite <- Ez. assert (J := join_length_app (rev (drop_skipped r)) (rev w')). lia.
Qed.

Lemma rev_single {A} (l : list A) x : rev (l ++ [x]) = x :: rev l.
Proof. now rewrite rev_app_distr. Qed.

Lemma name_component s : name_ok s -> component_of s = Some (Normal s).
Proof.
  intros [A [B [C D]]]. unfold component_of. destruct s; [congruence|]. cbn [is_nil].
  now rewrite (proj2 (ueqb_neq _ _) B), (proj2 (ueqb_neq _ _) C).
Qed.

Lemma drop_names ns : Forall name_ok ns -> drop_skipped (rev ns) = rev ns.
Proof.
  intros H. destruct ns as [|x r] using rev_ind; auto. apply Forall_app in H. destruct H as [_ H].
  inversion H; subst. rewrite rev_single. cbn [drop_skipped]. now rewrite name_component.
Qed.

Lemma parent_dir_text ns x : Forall name_ok ns -> name_ok x ->
  path_parent (dir_text (ns ++ [x])) = Some (dir_text ns).
Proof.
  intros H Hx. unfold path_parent, path_head, dir_text. cbn [has_root].
  rewrite N.eqb_refl. cbn [orb].
  rewrite split_join; [|now destruct ns|].
  2:{ apply names_pieces, Forall_app. split; auto. }
  rewrite rev_single. cbn [drop_skipped]. rewrite name_component by auto.
  rewrite drop_names, rev_involutive by auto. reflexivity.
Qed.

Lemma parent_root : path_parent (dir_text []) = None.
Proof. reflexivity. Qed.

Lemma fold_split_join l : Forall (fun p => contains_c slash p = false) l -> forall at_,
  fold_left step_into (split_on slash (join [slash] l)) at_ = fold_left step_into l at_.
Proof.
  intros H at_. destruct l as [|x r]; [reflexivity|]. now rewrite split_join.
Qed.

Lemma fold_split_dot j rest at_ : split_on slash j = [] :: rest ->
  fold_left step_into (split_on slash (ch "." :: j)) at_ = fold_left step_into (split_on slash j) at_.
Proof. intros H. cbn [split_on]. rewrite H. reflexivity. Qed.

Lemma rev_drop_prefix l : exists w, l = rev (drop_skipped (rev l)) ++ w.
Proof.
  destruct (drop_skipped_app (rev l)) as [w [A _]]. exists (rev w).
  rewrite <- rev_app_distr, <- A. symmetry. apply rev_involutive.
Qed.

Lemma join_first c (x : ustr) ps l w : (c :: x) :: ps = l ++ w -> N.eqb c slash = false ->
  has_root (join [slash] l) = false.
Proof.
  destruct l as [|y l']; [reflexivity|]. intros W G.
  inversion W; subst y. destruct l'; exact G.
Qed.

(** Where the parent leads: the directory the path's last name is in. *)
Lemma locate_parent cwd p q : ends_in_name p -> path_parent p = Some q ->
  locate cwd q = removelast (locate cwd p).
Proof.
  intros [pre [name [Hn E]]] Q.
  assert (Cn : contains_c slash name = false) by (destruct Hn as [_ [_ [_ K]]]; exact K).
  assert (Sn : split_on slash name = [name]) by now apply split_on_none.
  destruct E as [[-> ->]|E].
  - unfold path_parent, path_head in Q. destruct name as [|c r]; [destruct Hn; congruence|].
    assert (R : has_root (c :: r) = false) by now apply name_not_rooted.
    assert (I : include_cur_dir (c :: r) = false).
    { unfold include_cur_dir. rewrite Sn. apply ueqb_neq. unfold name_ok in Hn. tauto. }
    rewrite R, I in Q. cbn [orb] in Q. rewrite Sn in Q. cbn [rev app drop_skipped] in Q.
    rewrite name_component in Q by auto. cbn in Q. inversion Q; subst q.
    unfold locate. rewrite R, Sn. cbn [fold_left]. rewrite name_step, removelast_last; auto.
  - (* pre ++ "/" ++ name *)
    assert (L : locate cwd p = fold_left step_into (split_on slash pre)
                  (if has_root p then [] else cwd) ++ [name]).
    { unfold locate. rewrite E at 1. rewrite split_app, Sn, fold_left_app. cbn [fold_left].
      now apply name_step. }
    rewrite L, removelast_last. unfold path_parent in Q.
    destruct pre as [|c pre].
    + cbn [app] in E. subst p. cbn [path_head has_root orb] in Q. rewrite N.eqb_refl in Q.
      cbn [orb] in Q. rewrite Sn in Q. cbn [rev app drop_skipped] in Q.
      rewrite name_component in Q by auto. inversion Q; subst q. reflexivity.
    + assert (P1 : split_on slash (pre ++ slash :: name) = split_on slash pre ++ [name])
        by now rewrite split_app, Sn.
      assert (Pn : split_on slash pre <> []) by apply split_on_nonnil.
      unfold path_head in Q. rewrite E in Q. cbn [app] in Q.
      destruct (has_root (c :: pre ++ slash :: name) || include_cur_dir (c :: pre ++ slash :: name)) eqn:G.
      * rewrite P1, rev_single in Q. cbn [drop_skipped] in Q.
        rewrite name_component in Q by auto. inversion Q; subst q. clear Q.
        set (l := rev (drop_skipped (rev (split_on slash pre)))).
        assert (Fl : forall at_, fold_left step_into (split_on slash (join [slash] l)) at_
                       = fold_left step_into (split_on slash pre) at_).
        { intros at_. rewrite fold_split_join.
          - unfold l. now rewrite fold_rev_drop, rev_involutive.
          - destruct (rev_drop_prefix (split_on slash pre)) as [w W].
            assert (P := split_on_pieces slash pre). rewrite W in P. apply Forall_app in P. tauto. }
        unfold locate. cbn [app has_root]. rewrite E. cbn [app has_root].
        destruct (N.eqb c slash) eqn:Ec.
        -- apply N.eqb_eq in Ec. subst c. cbn [split_on]. rewrite N.eqb_refl. cbn [fold_left].
           rewrite step_nil. apply Fl.
        -- cbn [has_root] in G. rewrite Ec in G. cbn [orb] in G. unfold include_cur_dir in G.
           cbn [split_on] in G. rewrite Ec in G. rewrite P1 in G.
           destruct (split_on slash pre) as [|x ps] eqn:Ep; [congruence|]. cbn [app] in G.
           apply ueqb_eq in G. inversion G; subst c x. change 46%N with (ch ".") in *.
           cbn [split_on]. change (N.eqb (ch ".") slash) with false. cbn iota. rewrite Ep.
           assert (exists rest, split_on slash (join [slash] l) = [] :: rest) as [rest Er].
           { destruct l as [|y l'] eqn:El; [now exists []|].
             destruct (rev_drop_prefix ([] :: ps)) as [w W]. change ([] :: ps = l ++ w) in W.
             rewrite El in W. cbn [app] in W. inversion W. subst y. rewrite split_join; [eauto|discriminate|].
             assert (P := split_on_pieces slash pre). rewrite Ep in P.
             assert (P' : Forall (fun p => contains_c slash p = false) (([] :: l') ++ w)) by exact (eq_ind _ _ P _ W).
             apply Forall_app in P'. tauto. }
           rewrite Er. cbn [fold_left]. specialize (Fl cwd). rewrite Er in Fl. exact Fl.
      * apply orb_false_iff in G. destruct G as [G1 G2].
        change (c :: pre ++ slash :: name) with ((c :: pre) ++ slash :: name) in Q.
        rewrite split_app, Sn, rev_single in Q. cbn [drop_skipped] in Q.
        rewrite name_component in Q by auto.
        assert (Eq : q = join [slash] (rev (drop_skipped (rev (split_on slash (c :: pre))))))
          by (now inversion Q).
        clear Q.
        destruct (rev_drop_prefix (split_on slash (c :: pre))) as [w W].
        assert (P := split_on_pieces slash (c :: pre)). rewrite W in P. apply Forall_app in P.
        destruct P as [P _].
        assert (R : has_root (join [slash] (rev (drop_skipped (rev (split_on slash (c :: pre)))))) = false).
        { cbn [has_root] in G1. cbn [split_on] in *. rewrite G1 in *.
          destruct (split_on slash pre) as [|x ps]; [congruence|].
          eapply join_first; [exact W|exact G1]. }
        unfold locate. rewrite Eq, R, E. change (has_root ((c :: pre) ++ slash :: name)) with (has_root (c :: pre ++ slash :: name)).
        rewrite G1, fold_split_join by auto. rewrite fold_rev_drop, rev_involutive. reflexivity.
Qed.

Lemma parent_exists p : ends_in_name p -> exists q, path_parent p = Some q.
Proof.
  intros [pre [name [Hn E]]].
  assert (Cn : contains_c slash name = false) by (destruct Hn as [_ [_ [_ K]]]; exact K).
  assert (Sn : split_on slash name = [name]) by now apply split_on_none.
  assert (Nn : name <> []) by (destruct Hn; auto).
  unfold path_parent.
  assert (B : exists l, split_on slash (snd (path_head p)) = l ++ [name]).
  { destruct E as [[-> _]|E].
    - destruct name as [|c r]; [congruence|]. unfold path_head.
      rewrite name_not_rooted by auto. unfold include_cur_dir. rewrite Sn.
      destruct (ueqb (c :: r) (lit ".")) eqn:U.
      + apply ueqb_eq in U. unfold name_ok in Hn. tauto.
      + exists []. exact Sn.
    - destruct pre as [|c pre].
      + subst p. cbn [app path_head has_root]. rewrite N.eqb_refl. cbn [orb snd]. exists []. exact Sn.
      + subst p. cbn [app]. unfold path_head.
        destruct (has_root (c :: pre ++ slash :: name) || include_cur_dir (c :: pre ++ slash :: name));
          cbn [snd].
        * exists (split_on slash pre). now rewrite split_app, Sn.
        * exists (split_on slash (c :: pre)).
          change (c :: pre ++ slash :: name) with ((c :: pre) ++ slash :: name).
          now rewrite split_app, Sn. }
  destruct B as [l B]. destruct (path_head p) as [head body]. cbn [snd] in B. rewrite B, rev_single.
  cbn [drop_skipped]. rewrite name_component by auto. eauto.
Qed.
