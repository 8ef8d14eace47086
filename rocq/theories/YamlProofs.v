(** Lemmas about merge keys. *)
From Coq Require Import Ascii String ZArith NArith Bool.
From Coq Require Import List.
From Verif Require Import Res BMap Str Num Value De Doc Yaml SpecLookup SpecInto SpecDoc SpecYaml.
From Verif Require Import StrProofs DeProofs DocProofs.
Import ListNotations.

(** ** Induction on everything inside *)
Lemma inside_trans a b : inside a b -> forall c, inside b c -> inside a c.
Proof. induction 1; intros c0 H2; eauto using inside. Qed.

Inductive child : doc -> doc -> Prop :=
| ch_some d : child (DocSome d) d
| ch_seq l x : In x l -> child (DocSeq l) x
| ch_map l k x : In (k, x) l -> child (DocMap l) x
| ch_enum n d : child (DocEnum n d) d.

Lemma child_inside d x : child d x -> inside d x.
Proof. destruct 1; eauto using inside. Qed.

Lemma doc_deep (P : doc -> Prop) :
  (forall d, (forall x y, child d x -> inside x y -> P y) -> P d) -> forall d, P d.
Proof.
  intros H. assert (K : forall d y, inside d y -> P y).
  { induction d as [| |d IH|b0|k0 z0|f1|f2|c0|s0|l IH|l IH|n d IH] using doc_ind'.
    1,2,4,5,6,7,8,9: intros y I; inversion I; subst; apply H; intros ? ? C; inversion C.
    - intros y I. inversion I; subst; [|auto]. apply H. intros x z C. inversion C; subst. apply IH.
    - rewrite Forall_forall in IH. intros y I. inversion I; subst; [|eauto]. apply H. intros x z C.
      inversion C; subst. now apply IH.
    - rewrite Forall_forall in IH. intros y I. inversion I; subst.
      + apply H. intros x z C. inversion C; subst. match goal with HI : In (?k, x) l |- _ => exact (IH (k, x) HI z) end.
      + match goal with HI : In (?k, ?x) l |- _ => exact (IH (k, x) HI y ltac:(assumption)) end.
    - intros y I. inversion I; subst; [|auto]. apply H. intros x z C. inversion C; subst. apply IH. }
  intros d. apply (K d d). constructor.
Qed.

Lemma bases_inside b ms m k x : bases b ms -> In m ms -> In (k, x) m -> inside b x.
Proof.
  destruct 1; intros I J.
  - destruct I as [<-|[]]. eapply ins_map; [exact J|constructor].
  - eapply ins_seq; [apply in_map; exact I|]. eapply ins_map; [exact J|constructor].
Qed.

Lemma bases_fun b ms ms' : bases b ms -> bases b ms' -> ms = ms'.
Proof.
  intros B B'. destruct b as [| |d|b|k z|f1|f2|c|s|l|l|n d]; inversion B as [m E|m E]; inversion B' as [m' E'|m' E']; subst.
  - clear B B'. revert ms E'. induction ms' as [|a ms' IH]; intros [|a' ms] E; cbn in E; try discriminate; auto.
    injection E as <- E. f_equal. now apply IH.
  - reflexivity.
Qed.

Lemma bases_once b ms m : bases b ms -> In m ms -> inside b (DocMap m).
Proof.
  destruct 1; intros I; [destruct I as [<-|[]]; constructor|].
  eapply ins_seq; [apply in_map; exact I|constructor].
Qed.

(** Everything written in a map is inside one of its entries. *)
Lemma written_inside l k x : written l k x -> exists k' y, In (k', y) l /\ inside y x.
Proof.
  intros [N I|b m1 m m2 I B J _ _]; [exists k, x; split; [exact I|constructor]|].
  exists merge_key, b. split; [exact I|]. eapply bases_inside; [exact B| |exact J].
  apply in_or_app. right. now left.
Qed.

Lemma once_inside d x : once d -> inside d x -> once x.
Proof. intros O I l J. apply O. eapply inside_trans; eassumption. Qed.

(** ** Lists of entries *)
Section Entries.
  Context {A : Type}.
  Implicit Types l m : list (ustr * A).

  Lemma lookup_none k l : lookup k l = None <-> forall x, ~ In (k, x) l.
  Proof.
    induction l as [|[k' y] r IH]; cbn; [split; [intros _ x []|auto]|].
    destruct (ueqb k k') eqn:E.
    - apply ueqb_eq in E as ->. split; [discriminate|]. intros H. destruct (H y). now left.
    - rewrite IH. split; intros H x; [intros [[= -> ->]|J]; [now rewrite ueqb_refl in E|now apply (H x)]|].
      intros J. apply (H x). now right.
  Qed.
  Lemma lookup_some k l x : NoDup (map fst l) -> lookup k l = Some x <-> In (k, x) l.
  Proof.
    induction l as [|[k' y] r IH]; cbn; intros N; [split; [discriminate|intros []]|].
    inversion N as [|? ? N1 N2]; subst. destruct (ueqb k k') eqn:E.
    - apply ueqb_eq in E as ->. split; [intros [= ->]; now left|].
      intros [[= ->]|J]; [reflexivity|]. destruct N1. now apply (in_map fst) in J.
    - rewrite (IH N2). split; [now right|]. intros [[= -> ->]|J]; [now rewrite ueqb_refl in E|exact J].
  Qed.

  Lemma in_without k l k' x : In (k', x) (without k l) <-> k' <> k /\ In (k', x) l.
  Proof.
    unfold without. rewrite filter_In. cbn. split.
    - intros [I E]. split; [|exact I]. intros ->. now rewrite ueqb_refl in E.
    - intros [E I]. split; [exact I|]. destruct (ueqb k k') eqn:U; [|reflexivity]. apply ueqb_eq in U. congruence.
  Qed.
  Lemma nodup_without k l : NoDup (map fst l) -> NoDup (map fst (without k l)).
  Proof.
    induction l as [|[k' y] r IH]; cbn; intros N; [constructor|]. inversion N as [|? ? N1 N2]; subst.
    destruct (negb (ueqb k k')); [|auto]. cbn. constructor; [|auto]. intros J. apply N1.
    apply in_map_iff in J. destruct J as ([k2 x] & <- & J). apply in_without in J. apply (in_map fst r (k2, x)). apply J.
  Qed.

  Lemma or_insert_nodup m : forall l, NoDup (map fst l) -> NoDup (map fst (or_insert_all l m)).
  Proof.
    induction m as [|[k y] m IH]; cbn; intros l N; [exact N|]. apply IH. destruct (lookup k l) eqn:E; [exact N|].
    rewrite map_app. cbn. rewrite lookup_none in E. apply NoDup_rev in N. rewrite <- (rev_involutive (map fst l ++ [k])).
    apply NoDup_rev. rewrite rev_app_distr. cbn. constructor; [|exact N].
    intros J. apply in_rev in J. apply in_map_iff in J. destruct J as ([k2 x] & <- & J). now apply (E x).
  Qed.
  Lemma or_insert_in m : forall l k x, NoDup (map fst m) ->
    In (k, x) (or_insert_all l m) <-> In (k, x) l \/ (In (k, x) m /\ forall y, ~ In (k, y) l).
  Proof.
    induction m as [|[k0 y0] m IH]; intros l k x N; cbn; [tauto|]. inversion N as [|? ? N1 N2]; subst.
    destruct (lookup k0 l) as [z|] eqn:E.
    - assert (Z : ~ forall y, ~ In (k0, y) l).
      { intros H. apply lookup_none in H. congruence. }
      rewrite (IH l k x N2). split; [tauto|]. intros [H|[[[= <- <-]|H] K]]; [tauto| |tauto]. now destruct Z.
    - rewrite lookup_none in E. rewrite (IH _ k x N2). split.
      + intros [H|[H K]].
        * apply in_app_or in H. destruct H as [H|[[= <- <-]|[]]]; [now left|]. right. auto.
        * right. split; [now right|]. intros y J. apply (K y). apply in_or_app. now left.
      + intros [H|[[[= <- <-]|H] K]].
        * left. apply in_or_app. now left.
        * left. apply in_or_app. right. now left.
        * right. split; [exact H|]. intros y J. apply in_app_or in J. destruct J as [J|[[= <- <-]|[]]]; [now apply (K y)|].
          apply N1. now apply (in_map fst) in H.
  Qed.
End Entries.

(** ** Unfolding *)
Definition visited (l : list (ustr * doc)) : list (ustr * res ustr doc) :=
  map (fun kx => (fst kx, apply_merge (snd kx))) l.

Fixpoint each (s : list doc) (acc : list (ustr * res ustr doc)) : res ustr (list (ustr * res ustr doc)) :=
  match s with
  | [] => Ok acc
  | DocMap m :: s => each s (or_insert_all acc (visited m))
  | DocSeq _ :: _ => Err sequence_in_merge_element
  | DocEnum _ _ :: _ => Err tagged_in_merge
  | _ :: _ => Err scalar_in_merge_element
  end.
Definition joined (b : doc) (own : list (ustr * res ustr doc)) : res ustr (list (ustr * res ustr doc)) :=
  match b with
  | DocMap m => Ok (or_insert_all own (visited m))
  | DocSeq s => each s own
  | DocEnum _ _ => Err tagged_in_merge
  | _ => Err scalar_in_merge
  end.
Definition gathered (l : list (ustr * doc)) : res ustr (list (ustr * res ustr doc)) :=
  let own := without merge_key (visited l) in
  match lookup merge_key l with None => Ok own | Some b => joined b own end.

Lemma apply_merge_map l :
  apply_merge (DocMap l) = res_bind (gathered l) (fun es => res_map DocMap (visit_entries es)).
Proof.
  cbn [apply_merge]. unfold gathered. fold (visited l). f_equal.
  set (own := without merge_key (visited l)). clearbody own.
  induction l as [|[k x] r IH]; [reflexivity|]. cbn [lookup].
  destruct (ueqb merge_key k); [|exact IH]. now destruct x.
Qed.

Lemma each_maps ms : forall acc, each (map DocMap ms) acc = Ok (fold_left (fun a m => or_insert_all a (visited m)) ms acc).
Proof. induction ms as [|m ms IH]; intros acc; [reflexivity|]. cbn. apply IH. Qed.

Lemma each_ok s : forall acc es, each s acc = Ok es -> exists ms, s = map DocMap ms.
Proof.
  induction s as [|d s IH]; intros acc es H; [now exists []|]. destruct d; try discriminate.
  destruct (IH _ _ H) as [ms ->]. now exists (l :: ms).
Qed.

Lemma joined_bases b ms own : bases b ms ->
  joined b own = Ok (fold_left (fun a m => or_insert_all a (visited m)) ms own).
Proof. destruct 1; [reflexivity|]. cbn [joined]. apply each_maps. Qed.

Lemma joined_ok b own es : joined b own = Ok es -> exists ms, bases b ms.
Proof.
  destruct b; try discriminate; cbn [joined]; intros H.
  - apply each_ok in H. destruct H as [ms ->]. eexists. constructor.
  - eexists. constructor.
Qed.

Lemma keys_visited l : map fst (visited l) = map fst l.
Proof. unfold visited. rewrite map_map. reflexivity. Qed.

Lemma in_visited k r l : In (k, r) (visited l) <-> exists x, In (k, x) l /\ r = apply_merge x.
Proof.
  unfold visited. rewrite in_map_iff. split.
  - intros ([k' x] & [= <- <-] & I). eauto.
  - intros (x & I & ->). now exists (k, x).
Qed.

(** Bases are consulted in order. *)
Lemma fold_bases ms : forall acc, Forall (fun m => NoDup (map fst m)) ms -> NoDup (map fst acc) ->
  let res := fold_left (fun a m => or_insert_all a (visited m)) ms acc in
  NoDup (map fst res) /\
  forall k r, In (k, r) res <-> In (k, r) acc \/
    ((forall r', ~ In (k, r') acc) /\
     exists m1 m m2 x, ms = m1 ++ m :: m2 /\ In (k, x) m /\ r = apply_merge x /\
       forall m' y, In m' m1 -> ~ In (k, y) m').
Proof.
  induction ms as [|m0 ms IH]; intros acc F N; cbn zeta; cbn [fold_left].
  - split; [exact N|]. intros k r. split; [now left|]. intros [H|(_ & m1 & m & m2 & x & E & _)]; [exact H|].
    destruct m1; discriminate.
  - inversion F as [|? ? F1 F2]; subst.
    assert (F1' : NoDup (map fst (visited m0))) by now rewrite keys_visited.
    destruct (IH (or_insert_all acc (visited m0)) F2 (or_insert_nodup _ _ N)) as [H1 H2]. cbn zeta in H1, H2.
    split; [exact H1|]. intros k r. rewrite H2. clear H1 H2 IH. rewrite (or_insert_in _ _ _ _ F1'), in_visited. split.
    + intros [[H|[(x & I & ->) NA]]|[NA (m1 & m & m2 & x & -> & I & -> & NB)]].
      * now left.
      * right. split; [exact NA|]. exists [], m0, ms, x. split; [reflexivity|]. split; [exact I|]. split; [reflexivity|]. intros m' y [].
      * right. assert (NA' : forall r', ~ In (k, r') acc).
        { intros r' J. apply (NA r'). apply (or_insert_in _ _ _ _ F1'). now left. }
        split; [exact NA'|]. exists (m0 :: m1), m, m2, x. split; [reflexivity|]. split; [exact I|]. split; [reflexivity|].
        intros m' y [<-|J]; [|now apply NB]. intros J. apply (NA (apply_merge y)). apply (or_insert_in _ _ _ _ F1').
        right. split; [apply in_visited; eauto|exact NA'].
    + intros [H|[NA (m1 & m & m2 & x & E & I & -> & NB)]]; [now left; left|].
      destruct m1 as [|m1h m1]; injection E as -> ->.
      * left. right. split; [eauto|exact NA].
      * right. split.
        -- intros r' J. apply (or_insert_in _ _ _ _ F1') in J. destruct J as [J|[J _]]; [now apply (NA r')|].
           apply in_visited in J. destruct J as (y & J & _). apply (NB m1h y); [now left|exact J].
        -- exists m1, m, m2, x. split; [reflexivity|]. split; [exact I|]. split; [reflexivity|]. intros m' y J. apply NB. now right.
Qed.

(** What is gathered is what is written. *)
Lemma gathered_written l es : once (DocMap l) -> gathered l = Ok es ->
  NoDup (map fst es) /\ forall k r, In (k, r) es <-> exists x, written l k x /\ r = apply_merge x.
Proof.
  intros O G. assert (N : NoDup (map fst l)) by (apply O; constructor).
  assert (NO : NoDup (map fst (without merge_key (visited l)))) by (apply nodup_without; now rewrite keys_visited).
  assert (IO : forall k r, In (k, r) (without merge_key (visited l)) <-> exists x, k <> merge_key /\ In (k, x) l /\ r = apply_merge x).
  { intros k r. rewrite in_without, in_visited. firstorder. }
  unfold gathered in G. destruct (lookup merge_key l) as [b|] eqn:E.
  - apply lookup_some in E; [|exact N]. destruct (joined_ok _ _ _ G) as [ms B]. rewrite (joined_bases b ms _ B) in G.
    injection G as <-.
    assert (FB : Forall (fun m => NoDup (map fst m)) ms).
    { apply Forall_forall. intros m I. apply O. eapply ins_map; [exact E|]. now apply (bases_once b ms). }
    destruct (fold_bases ms _ FB NO) as [H1 H2]. split; [exact H1|]. intros k r. rewrite H2, IO. clear H1 H2. split.
    + intros [(x & K & I & ->)|[NA (m1 & m & m2 & x & -> & I & -> & NB)]].
      * exists x. split; [now apply wr_own|reflexivity].
      * exists x. split; [|reflexivity]. eapply wr_base; try eassumption.
        destruct (ueqb k merge_key) eqn:U; [left; now apply ueqb_eq|right]. intros y J. apply (NA (apply_merge y)).
        apply IO. exists y. split; [|auto]. intros ->. now rewrite ueqb_refl in U.
    + intros (x & [K I|b' m1 m m2 I' B' I K NB] & ->); [left; eauto|]. right.
      assert (b' = b) as ->.
      { apply (lookup_some merge_key l b' N) in I'. apply (lookup_some merge_key l b N) in E. congruence. }
      assert (EM : m1 ++ m :: m2 = ms).
      { now apply (bases_fun b). }
      split.
      * intros r' J. apply IO in J. destruct J as (y & K' & J & _). destruct K as [K|K]; [contradiction|]. now apply (K y).
      * exists m1, m, m2, x. repeat split; auto.
  - injection G as <-. rewrite lookup_none in E. split; [exact NO|]. intros k r. rewrite IO. split.
    + intros (x & K & I & ->). exists x. split; [now apply wr_own|reflexivity].
    + intros (x & [K I|b' m1 m m2 I' _ _ _ _] & ->); [eauto|]. now destruct (E b').
Qed.

Lemma visit_entries_ok es : forall l, visit_entries es = Ok l <-> Forall2 (fun e x => fst e = fst x /\ snd e = Ok (snd x)) es l.
Proof.
  induction es as [|[k r] es IH]; intros l; cbn [visit_entries].
  - split; [intros [= <-]; constructor|intros H; inversion H; reflexivity].
  - rewrite res_bind_ok. split.
    + intros (xs & E & H). apply res_map_ok in H. destruct H as (x & -> & ->). constructor; [split; reflexivity|now apply IH].
    + intros H. inversion H as [|? [k' x] ? xs [E1 E2] F]; subst. cbn in E1, E2. subst k' r. exists xs. split; [now apply IH|reflexivity].
Qed.
Lemma visit_all_ok rs : forall l, visit_all rs = Ok l <-> Forall2 (fun r x => r = Ok x) rs l.
Proof.
  induction rs as [|r rs IH]; intros l; cbn [visit_all].
  - split; [intros [= <-]; constructor|intros H; inversion H; reflexivity].
  - rewrite res_bind_ok. split.
    + intros (xs & E & H). apply res_map_ok in H. destruct H as (x & -> & ->). constructor; [reflexivity|now apply IH].
    + intros H. inversion H as [|? x ? xs E F]; subst. exists xs. split; [now apply IH|reflexivity].
Qed.
Lemma visit_entries_err es e : visit_entries es = Err e -> exists k, In (k, Err e) es.
Proof.
  induction es as [|[k r] es IH]; [discriminate|]. cbn [visit_entries].
  destruct (visit_entries es) as [xs|e'] eqn:E; cbn [res_bind].
  - destruct r; [discriminate|]. intros [= ->]. exists k. now left.
  - intros [= ->]. destruct (IH eq_refl) as [k' I]. exists k'. now right.
Qed.
Lemma visit_all_err rs e : visit_all rs = Err e -> In (Err e) rs.
Proof.
  induction rs as [|r rs IH]; [discriminate|]. cbn [visit_all].
  destruct (visit_all rs) as [xs|e'] eqn:E; cbn [res_bind].
  - destruct r; [discriminate|]. intros [= ->]. now left.
  - intros [= ->]. right. now apply IH.
Qed.

(** ** The result *)
Lemma apply_merge_resolved : forall d d', once d -> apply_merge d = Ok d' -> resolved d d'.
Proof.
  apply (doc_deep (fun d => forall d', once d -> apply_merge d = Ok d' -> resolved d d')).
  intros d IH d' O H. destruct d as [| |d|b|k z|f1|f2|c|s|l|l|n d].
  1,2,4,5,6,7,8,9: injection H as <-; constructor; intros; discriminate.
  - cbn in H. apply res_map_ok in H. destruct H as (x & E & ->). constructor.
    apply (IH d d (ch_some d) (ins_here d)); [|exact E]. eapply once_inside; [exact O|]. eauto using inside.
  - cbn [apply_merge] in H. apply res_map_ok in H. destruct H as (xs & E & ->). constructor. apply visit_all_ok in E.
    assert (G : forall x y, In x l -> apply_merge x = Ok y -> resolved x y).
    { intros x y I K. apply (IH x x (ch_seq l x I) (ins_here x)); [|exact K]. eapply once_inside; [exact O|]. eauto using inside. }
    clear IH O. revert xs E. induction l as [|x l IHl]; intros xs E; inversion E; subst; constructor.
    + apply G; [now left|assumption].
    + apply IHl; [|assumption]. intros x' y' I. apply G. now right.
  - rewrite apply_merge_map in H. apply res_bind_ok in H. destruct H as (es & EG & H).
    apply res_map_ok in H. destruct H as (l' & EV & ->). apply visit_entries_ok in EV.
    destruct (gathered_written l es O EG) as [N W].
    assert (EK : map fst l' = map fst es).
    { clear -EV. induction EV as [|? ? ? ? [E _] _ IH]; cbn; congruence. }
    assert (EI : forall k x', In (k, x') l' <-> In (k, Ok x') es).
    { clear -EV. intros k x'. induction EV as [|[k1 r1] [k2 x2] es l' [E1 E2] _ IH]; cbn; [tauto|].
      cbn in E1, E2. subst. rewrite IH. split; (intros [E|J]; [left; congruence|now right]). }
    assert (D : forall k x x', written l k x -> apply_merge x = Ok x' -> resolved x x').
    { intros k x x' WX K. destruct (written_inside _ _ _ WX) as (k' & y & I & J).
      apply (IH y x (ch_map l k' y I) J); [|exact K]. eapply once_inside; [exact O|]. eauto using inside. }
    apply rs_map.
    + now rewrite EK.
    + intros k x WX. assert (J : In (k, apply_merge x) es) by (apply W; eauto).
      assert (exists x', apply_merge x = Ok x') as [x' E'].
      { clear -J EV. induction EV as [|[k1 r1] [k2 x2] es l' [E1 E2] _ IH]; [destruct J|].
        cbn in E1, E2. destruct J as [[= <- <-]|J]; eauto. }
      exists x'. split; [apply EI; now rewrite <- E'|now apply (D k)].
    + intros k x' I. apply EI in I. apply W in I. destruct I as (x & WX & E). exists x. split; [exact WX|now apply (D k)].
  - cbn in H. apply res_map_ok in H. destruct H as (x & E & ->). constructor.
    apply (IH d d (ch_enum n d) (ins_here d)); [|exact E]. eapply once_inside; [exact O|]. eauto using inside.
Qed.

Lemma joined_err b own e : joined b own = Err e -> forall ms, ~ bases b ms.
Proof. intros H ms B. rewrite (joined_bases b ms own B) in H. discriminate. Qed.

Lemma apply_merge_err : forall d e, once d -> apply_merge d = Err e -> unmergeable d.
Proof.
  apply (doc_deep (fun d => forall e, once d -> apply_merge d = Err e -> unmergeable d)).
  intros d IH e O H. destruct d as [| |d|b|k z|f1|f2|c|s|l|l|n d].
  1,2,4,5,6,7,8,9: discriminate.
  - cbn in H. destruct (apply_merge d) as [x|e'] eqn:E; [discriminate|]. apply um_some.
    apply (IH d d (ch_some d) (ins_here d) e'); [|exact E]. eapply once_inside; [exact O|]. eauto using inside.
  - cbn [apply_merge] in H. destruct (visit_all (map apply_merge l)) as [x|e'] eqn:E; [discriminate|].
    apply visit_all_err in E. apply in_map_iff in E. destruct E as (x & E & I). eapply um_seq; [exact I|].
    apply (IH x x (ch_seq l x I) (ins_here x) e'); [|exact E]. eapply once_inside; [exact O|]. eauto using inside.
  - rewrite apply_merge_map in H. destruct (gathered l) as [es|e'] eqn:EG; cbn [res_bind] in H.
    + destruct (visit_entries es) as [xs|e'] eqn:E; [discriminate|]. apply visit_entries_err in E. destruct E as [k I].
      destruct (gathered_written l es O EG) as [_ W]. apply W in I. destruct I as (x & WX & E). eapply um_map; [exact WX|].
      destruct (written_inside _ _ _ WX) as (k' & y & I & J).
      apply (IH y x (ch_map l k' y I) J e'); [|now symmetry]. eapply once_inside; [exact O|]. eauto using inside.
    + unfold gathered in EG. destruct (lookup merge_key l) as [b|] eqn:E; [|discriminate].
      apply lookup_some in E; [|apply O; constructor]. eapply um_here; [exact E|]. eapply joined_err. exact EG.
  - cbn in H. destruct (apply_merge d) as [x|e'] eqn:E; [discriminate|]. apply um_enum.
    apply (IH d d (ch_enum n d) (ins_here d) e'); [|exact E]. eapply once_inside; [exact O|]. eauto using inside.
Qed.

(** A document with a mistake has no resolution. *)
Lemma unmergeable_err d : unmergeable d -> once d -> forall d', apply_merge d <> Ok d'.
Proof.
  induction 1 as [l b I NB|l k x WX U IH|l x I U IH|n x U IH|x U IH]; intros O d' H.
  - rewrite apply_merge_map in H. apply res_bind_ok in H. destruct H as (es & EG & _). unfold gathered in EG.
    apply (lookup_some merge_key l b) in I; [|apply O; constructor]. rewrite I in EG. apply joined_ok in EG.
    destruct EG as [ms B]. now apply (NB ms).
  - rewrite apply_merge_map in H. apply res_bind_ok in H. destruct H as (es & EG & H).
    apply res_map_ok in H. destruct H as (l' & EV & _). apply visit_entries_ok in EV.
    destruct (gathered_written l es O EG) as [_ W]. assert (J : In (k, apply_merge x) es) by (apply W; eauto).
    assert (exists x', apply_merge x = Ok x') as [x' E'].
    { clear -J EV. induction EV as [|[k1 r1] [k2 x2] es l' [E1 E2] _ IH]; [destruct J|].
      cbn in E1, E2. destruct J as [[= <- <-]|J]; eauto. }
    destruct (written_inside _ _ _ WX) as (k' & y & I & J').
    apply (IH (once_inside _ _ O (ins_map _ _ _ _ I J')) x' E').
  - cbn [apply_merge] in H. apply res_map_ok in H. destruct H as (xs & E & _). apply visit_all_ok in E.
    assert (exists x', apply_merge x = Ok x') as [x' E'].
    { clear -I E. revert xs E. induction l as [|y l IH]; intros xs E; [destruct I|]. inversion E; subst. destruct I as [->|I]; eauto. }
    apply (IH (once_inside _ _ O (ins_seq _ _ _ I (ins_here x))) x' E').
  - cbn in H. apply res_map_ok in H. destruct H as (y & E & _). eapply IH; [|exact E]. eapply once_inside; [exact O|eauto using inside].
  - cbn in H. apply res_map_ok in H. destruct H as (y & E & _). eapply IH; [|exact E]. eapply once_inside; [exact O|eauto using inside].
Qed.

(** Without merge keys nothing changes. *)
Lemma mergeless_same : forall d, mergeless d -> apply_merge d = Ok d.
Proof.
  induction d as [| |d IH|b0|k0 z0|f1|f2|c0|s0|l IH|l IH|n d IH] using doc_ind'; intros M; try reflexivity.
  - cbn. rewrite IH; [reflexivity|]. intros l x I. apply M. now constructor.
  - cbn [apply_merge]. assert (E : visit_all (map apply_merge l) = Ok l); [|now rewrite E].
    apply visit_all_ok. rewrite Forall_forall in IH.
    assert (G : forall x, In x l -> apply_merge x = Ok x).
    { intros x I. apply IH; [exact I|]. intros l0 y J. apply M. eapply ins_seq; eassumption. }
    clear IH M. induction l as [|x l IHl]; constructor; [apply G; now left|]. apply IHl. intros y I. apply G. now right.
  - rewrite apply_merge_map.
    assert (NM : forall x, ~ In (merge_key, x) l) by (intros x; apply M; constructor).
    unfold gathered. rewrite (proj2 (lookup_none merge_key l) NM). cbn [res_bind].
    assert (E : visit_entries (without merge_key (visited l)) = Ok l); [|now rewrite E].
    rewrite Forall_forall in IH.
    assert (G : forall k x, In (k, x) l -> apply_merge x = Ok x).
    { intros k x I. apply (IH (k, x) I). intros l0 y J. apply M. eapply ins_map; eassumption. }
    clear IH M. apply visit_entries_ok. induction l as [|[k x] l IHl]; [constructor|].
    cbn [visited map without filter fst snd]. destruct (ueqb merge_key k) eqn:U.
    { apply ueqb_eq in U. subst k. destruct (NM x). now left. }
    cbn. constructor; [split; [reflexivity|apply (G k); now left]|]. apply IHl.
    + intros y I. apply (NM y). now right.
    + intros k' y I. apply (G k'). now right.
  - cbn. rewrite IH; [reflexivity|]. intros l x I. apply M. now constructor.
Qed.

(** ** Paths *)
Lemma nodup_given {A} (l : list (ustr * A)) k x : NoDup (map fst l) -> In (k, x) l -> given l k x.
Proof.
  induction l as [|[k' y] l IH]; cbn; intros N I; [destruct I|]. inversion N as [|? ? N1 N2]; subst.
  destruct I as [[= -> ->]|I].
  - exists [], l. split; [reflexivity|]. intros y J. apply N1. now apply (in_map fst) in J.
  - destruct (IH N2 I) as (l1 & l2 & -> & H). exists ((k', y) :: l1), l2. auto.
Qed.

Lemma resolved_at d ks y : written_at d ks y -> forall d', resolved d d' -> exists y', doc_at d' ks y' /\ resolved y y'.
Proof.
  induction 1 as [d|d ks y H IH|l k x ks y WX H IH|n ks d r y S H IH]; intros d' R.
  - exists d'. split; [constructor|exact R].
  - inversion R as [? N1| | | |]; subst; [now destruct (N1 d)|].
    match goal with R : resolved d _ |- _ => destruct (IH _ R) as (y' & K1 & K2) end. exists y'. split; [now constructor|exact K2].
  - inversion R as [? ? ? N3| | | |? l' N HW HI]; subst; [now destruct (N3 l)|].
    destruct (HW k x WX) as (x' & I & RX). destruct (IH x' RX) as (y' & K1 & K2). exists y'. split; [|exact K2].
    eapply da_key; [|exact K1]. now apply nodup_given.
  - inversion R as [? ? ? ? N4| | | |]; subst; [now destruct (N4 n d)|].
    match goal with R : resolved d _ |- _ => destruct (IH _ R) as (y' & K1 & K2) end. exists y'. split; [|exact K2].
    now constructor.
Qed.

Lemma resolved_from d' ks y' : doc_at d' ks y' -> forall d, resolved d d' -> exists y, written_at d ks y /\ resolved y y'.
Proof.
  induction 1 as [d'|d' ks y' H IH|l' k x' ks y' G H IH|n ks d' r y' S H IH]; intros d R.
  - exists d. split; [constructor|exact R].
  - inversion R as [? N1| | | |]; subst; [now destruct (N1 d')|].
    match goal with R : resolved _ d' |- _ => destruct (IH _ R) as (y & K1 & K2) end. exists y. split; [now constructor|exact K2].
  - inversion R as [? ? ? N3| | | |l ? N HW HI]; subst; [now destruct (N3 l')|].
    assert (I : In (k, x') l').
    { destruct G as (l1 & l2 & -> & _). apply in_or_app. right. now left. }
    destruct (HI k x' I) as (x & WX & RX). destruct (IH x RX) as (y & K1 & K2). exists y. split; [|exact K2].
    eapply wa_key; eassumption.
  - inversion R as [? ? ? ? N4| | | |]; subst; [now destruct (N4 n d')|].
    match goal with R : resolved _ d' |- _ => destruct (IH _ R) as (y & K1 & K2) end. exists y. split; [|exact K2].
    now constructor.
Qed.

(** Resolving brings in no reserved key and no tagged value. *)
Lemma plain_child d x : plain_doc d -> child d x -> plain_doc x.
Proof.
  intros P C. destruct C as [d|l x I|l k x I|n d]; inversion P as [? N1 N2 N3 N4|? Q|? F|? K F|? ? Q]; subst; auto.
  - now destruct (N1 d).
  - now destruct (N2 l).
  - rewrite Forall_forall in F. auto.
  - now destruct (N3 l).
  - rewrite Forall_forall in F. exact (F (k, x) I).
  - now destruct (N4 n d).
Qed.
Lemma plain_inside d x : plain_doc d -> inside d x -> plain_doc x.
Proof.
  intros P I. induction I; auto; apply IHI; eapply plain_child; try eassumption; econstructor; eassumption.
Qed.
Lemma untagged_child d x : untagged_doc d -> child d x -> untagged_doc x.
Proof.
  intros P C. destruct C as [d|l x I|l k x I|n d]; inversion P as [? N1 N2 N3 N4|? Q|? F|? F]; subst; auto.
  - now destruct (N1 d).
  - now destruct (N2 l).
  - rewrite Forall_forall in F. auto.
  - now destruct (N3 l).
  - rewrite Forall_forall in F. exact (F (k, x) I).
  - now destruct (N4 n d).
Qed.
Lemma untagged_inside d x : untagged_doc d -> inside d x -> untagged_doc x.
Proof.
  intros P I. induction I; auto; apply IHI; eapply untagged_child; try eassumption; econstructor; eassumption.
Qed.

Lemma written_key l k x (Q : ustr -> Prop) :
  (forall d k x, inside (DocMap l) (DocMap d) -> In (k, x) d -> Q k) -> written l k x -> Q k.
Proof.
  intros H [K I|b m1 m m2 I B J _ _].
  - apply (H l k x); [constructor|exact I].
  - apply (H m k x); [|exact J]. eapply ins_map; [exact I|]. eapply bases_once; [exact B|]. apply in_or_app. right. now left.
Qed.

Lemma resolved_plain : forall d d', plain_doc d -> resolved d d' -> plain_doc d'.
Proof.
  apply (doc_deep (fun d => forall d', plain_doc d -> resolved d d' -> plain_doc d')).
  intros d IH d' P R. inversion R as [? N1 N2 N3 N4|x x' RX|l l' F|n x x' RX|l l' N HW HI]; subst; [exact P| | | |].
  - apply pd_some. apply (IH x x (ch_some x) (ins_here x)); [|exact RX]. eapply plain_inside; [exact P|eauto using inside].
  - apply pd_seq. apply Forall_forall. intros y' I.
    assert (exists y, In y l /\ resolved y y') as (y & J & RY).
    { clear -F I. induction F; [destruct I|]. destruct I as [->|I]; [eexists; split; [now left|eassumption]|].
      destruct (IHF I) as (z & J & RZ). exists z. split; [now right|exact RZ]. }
    apply (IH y y (ch_seq l y J) (ins_here y)); [|exact RY]. eapply plain_inside; [exact P|eauto using inside].
  - apply pd_enum. apply (IH x x (ch_enum n x) (ins_here x)); [|exact RX]. eapply plain_inside; [exact P|eauto using inside].
  - apply pd_map.
    + intros k x' I. destruct (HI k x' I) as (x & WX & _).
      apply (written_key l k x (fun k => k <> value_id /\ k <> value_value)); [|exact WX].
      intros m k0 x0 IM J. apply (plain_inside _ _ P) in IM. inversion IM as [? ? ? N3'| | |? HK|]; subst.
      * exfalso. now apply (N3' m).
      * now apply (HK k0 x0).
    + apply Forall_forall. intros [k x'] I. cbn. destruct (HI k x' I) as (x & WX & RX).
      destruct (written_inside _ _ _ WX) as (k' & y & J & K).
      apply (IH y x (ch_map l k' y J) K); [|exact RX]. eapply plain_inside; [exact P|]. eapply ins_map; eassumption.
Qed.

Lemma resolved_untagged : forall d d', untagged_doc d -> resolved d d' -> untagged_doc d'.
Proof.
  apply (doc_deep (fun d => forall d', untagged_doc d -> resolved d d' -> untagged_doc d')).
  intros d IH d' P R. inversion R as [? N1 N2 N3 N4|x x' RX|l l' F|n x x' RX|l l' N HW HI]; subst; [exact P| | | |].
  - apply ud_some. apply (IH x x (ch_some x) (ins_here x)); [|exact RX]. eapply untagged_inside; [exact P|eauto using inside].
  - apply ud_seq. apply Forall_forall. intros y' I.
    assert (exists y, In y l /\ resolved y y') as (y & J & RY).
    { clear -F I. induction F; [destruct I|]. destruct I as [->|I]; [eexists; split; [now left|eassumption]|].
      destruct (IHF I) as (z & J & RZ). exists z. split; [now right|exact RZ]. }
    apply (IH y y (ch_seq l y J) (ins_here y)); [|exact RY]. eapply untagged_inside; [exact P|eauto using inside].
  - inversion P as [? ? ? ? N4| | |]; subst. now destruct (N4 n x).
  - apply ud_map. apply Forall_forall. intros [k x'] I. cbn. destruct (HI k x' I) as (x & WX & RX).
    destruct (written_inside _ _ _ WX) as (k' & y & J & K).
    apply (IH y x (ch_map l k' y J) K); [|exact RX]. eapply untagged_inside; [exact P|]. eapply ins_map; eassumption.
Qed.
