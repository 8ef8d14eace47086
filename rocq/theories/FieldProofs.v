(** The loops of derived structs ([Content.read_fields], [Content.complete], [Derive.take_fields])
    against [SpecDerive]. *)
From Coq Require Import Ascii String ZArith NArith Bool Lia.
From Coq Require Import List.
From Verif Require Import Res BMap Str Profile Tag Num Value Metadata Err Coalesce Figment Fmt De Content Derive.
From Verif Require Import SpecValue SpecExtract SpecBuffer SpecDerive.
From Verif Require Import BMapProofs StrProofs ValueProofs DeProofs MeaningProofs.
Import ListNotations.

Lemma f_names_map {X Y} (h : X -> Y) f : f_names (map_field h f) = f_names f.
Proof. reflexivity. Qed.
Lemma all_names_map {X Y} (h : X -> Y) fs : all_names (map (map_field h) fs) = all_names fs.
Proof. unfold all_names. induction fs as [|f fs IH]; cbn; [reflexivity|]. rewrite IH. reflexivity. Qed.
Lemma field_of_map {X Y} (h : X -> Y) fs k : field_of (map (map_field h) fs) k = option_map (map_field h) (field_of fs k).
Proof.
  unfold field_of. induction fs as [|f fs IH]; [reflexivity|]. cbn [map find]. rewrite f_names_map.
  destruct (existsb (ueqb k) (f_names f)); [reflexivity|exact IH].
Qed.

Lemma existsb_name k l : existsb (ueqb k) l = true <-> In k l.
Proof.
  rewrite existsb_exists. split.
  - intros (x & I & E). apply ueqb_eq in E. subst. exact I.
  - intros I. exists k. split; [exact I|apply ueqb_eq; reflexivity].
Qed.

Lemma field_of_some {X} (fs : list (field X)) k f : field_of fs k = Some f -> In f fs /\ In k (f_names f).
Proof. intros H. apply find_some in H. destruct H as [I E]. rewrite existsb_name in E. auto. Qed.
Lemma field_of_none {X} (fs : list (field X)) k : field_of fs k = None <-> ~ In k (all_names fs).
Proof.
  split.
  - intros H I. unfold all_names in I. apply in_flat_map in I. destruct I as (f & I & K).
    apply (find_none _ _ H) in I. apply existsb_name in K. congruence.
  - intros H. destruct (field_of fs k) as [f|] eqn:E; [|reflexivity]. exfalso. apply H.
    apply field_of_some in E. unfold all_names. apply in_flat_map. exists f. exact E.
Qed.

Lemma NoDup_app_disjoint {A} (a b : list A) x : NoDup (a ++ b) -> In x a -> ~ In x b.
Proof.
  induction a as [|y a IH]; intros N I J; [destruct I|]. inversion N as [|? ? N1 N2]; subst. destruct I as [->|I].
  - apply N1. apply in_or_app. right. exact J.
  - exact (IH N2 I J).
Qed.
Lemma NoDup_app_r {A} (a b : list A) : NoDup (a ++ b) -> NoDup b.
Proof. induction a as [|x a IH]; [auto|]. intros N. inversion N; auto. Qed.

Lemma name_owner {X} (fs : list (field X)) k f : NoDup (all_names fs) -> In f fs -> In k (f_names f) -> field_of fs k = Some f.
Proof.
  unfold field_of. induction fs as [|f' fs IH]; intros N I K; [destruct I|]. cbn [find].
  change (all_names (f' :: fs)) with (f_names f' ++ all_names fs) in N. destruct I as [->|I].
  - apply existsb_name in K. rewrite K. reflexivity.
  - destruct (existsb (ueqb k) (f_names f')) eqn:E.
    + apply existsb_name in E. destruct (NoDup_app_disjoint _ _ _ N E). unfold all_names. apply in_flat_map. eauto.
    + apply IH; auto. apply NoDup_app_r in N. exact N.
Qed.
Lemma one_owner {X} (fs : list (field X)) f f' k : NoDup (all_names fs) -> In f fs -> In f' fs ->
  In k (f_names f) -> In k (f_names f') -> f = f'.
Proof.
  intros N I I' K K'. apply (name_owner fs k f N I) in K. apply (name_owner fs k f' N I') in K'. congruence.
Qed.
Lemma own_name {X} (f : field X) : In (f_name f) (f_names f).
Proof. left. reflexivity. Qed.

(** ** The loop over the entries *)
Section Loop.
Context {X A : Type} (fs : list (field X)) (h : X -> A -> res error dval) (ann : A -> error -> error)
  (deny : bool) (other : option (A -> res error content)).
Hypothesis apart : NoDup (all_names fs).

Definition strangers (l : list (ustr * A)) : list (ustr * A) :=
  filter (fun kv => negb (existsb (ueqb (fst kv)) (all_names fs))) l.
Definition others_read (l : list (ustr * A)) (rest : list (ustr * content)) : Prop :=
  match other with
  | Some copy => Forall2 (fun kv kc => fst kc = fst kv /\ copy (snd kv) = Ok (snd kc)) (strangers l) rest
  | None => rest = [] /\ (deny = true -> strangers l = [])
  end.

Lemma strangers_none k a l : field_of fs k = None -> strangers ((k, a) :: l) = (k, a) :: strangers l.
Proof.
  intros F. apply field_of_none in F. unfold strangers. cbn [filter fst].
  destruct (existsb (ueqb k) (all_names fs)) eqn:E; [|reflexivity]. apply existsb_name in E. contradiction.
Qed.
Lemma strangers_some k a l f : field_of fs k = Some f -> strangers ((k, a) :: l) = strangers l.
Proof.
  intros F. unfold strangers. cbn [filter fst].
  destruct (existsb (ueqb k) (all_names fs)) eqn:E; [reflexivity|].
  assert (G : ~ In k (all_names fs)) by (intros G; apply existsb_name in G; congruence). apply field_of_none in G. congruence.
Qed.

Lemma read_sound (l : list (ustr * A)) : forall slots s rest,
  read_fields ann deny other (map (map_field h) fs) l slots = Ok (s, rest) -> NoDup (map fst l) ->
  (forall k a f, In (k, a) l -> field_of fs k = Some f ->
     assoc (f_name f) slots = None /\
     (exists y, h (f_type f) a = Ok y /\ assoc (f_name f) s = Some y) /\
     (forall k' a', In (k', a') l -> field_of fs k' = Some f -> k' = k)) /\
  (forall n, (forall k a f, In (k, a) l -> field_of fs k = Some f -> f_name f <> n) -> assoc n s = assoc n slots) /\
  others_read l rest.
Proof.
  induction l as [|[k a] l IH]; intros slots s rest H N.
  - injection H as <- <-. split; [intros ? ? ? []|]. split; [reflexivity|].
    unfold others_read. destruct other; [constructor|split; reflexivity].
  - cbn [map fst] in N. inversion N as [|? ? N1 N2]; subst. cbn [read_fields] in H. rewrite field_of_map in H.
    destruct (field_of fs k) as [f|] eqn:F; cbn [option_map] in H.
    + change (f_name (map_field h f)) with (f_name f) in H. destruct (assoc (f_name f) slots) eqn:S; [discriminate|].
      apply res_bind_ok in H. destruct H as (y & Hy & H). change (f_type (map_field h f) a) with (h (f_type f) a) in Hy.
      destruct (IH _ _ _ H N2) as (I1 & I2 & I3).
      assert (U : forall k' a', In (k', a') l -> field_of fs k' <> Some f).
      { intros k' a' I' F'. destruct (I1 _ _ _ I' F') as (Z & _). rewrite assoc_cons_eq in Z. discriminate. }
      split; [|split].
      * intros k0 a0 f0 [E|I0] F0.
        -- injection E as <- <-. rewrite F in F0. injection F0 as <-. split; [exact S|]. split.
           ++ exists y. split; [exact Hy|]. rewrite I2; [apply assoc_cons_eq|].
              intros k' a' f' I' F' E. apply (U k' a' I'). rewrite F'. f_equal.
              apply field_of_some in F, F'. apply (one_owner fs f' f (f_name f)); try tauto.
              ** rewrite <- E. apply own_name.
              ** apply own_name.
           ++ intros k' a' [E|I'] F'; [congruence|]. destruct (U _ _ I' F').
        -- destruct (I1 _ _ _ I0 F0) as (Z & Y & W). split.
           ++ assert (E : f_name f0 <> f_name f).
              { intros E. rewrite E, assoc_cons_eq in Z. discriminate. }
              rewrite assoc_cons_ne in Z; auto.
           ++ split; [exact Y|]. intros k' a' [E|I'] F'; [|exact (W _ _ I' F')].
              injection E as <- <-. rewrite F in F'. injection F' as ->. destruct (U _ _ I0 F0).
      * intros n D. rewrite I2; [|intros k' a' f' I' F'; apply (D k' a' f'); [right; exact I'|exact F']].
        apply assoc_cons_ne. intros E. apply (D k a f); [left; reflexivity|exact F|]. congruence.
      * unfold others_read in *. rewrite (strangers_some k a l f F). exact I3.
    + unfold others_read. rewrite (strangers_none k a l F). destruct other as [copy|] eqn:O.
      * apply res_bind_ok in H. destruct H as (c & Hc & H). apply res_map_ok in H. destruct H as ([s' rest'] & H & E).
        injection E as -> ->. destruct (IH _ _ _ H N2) as (I1 & I2 & I3). split; [|split].
        -- intros k0 a0 f0 [E|I0] F0; [injection E as <- <-; congruence|]. destruct (I1 _ _ _ I0 F0) as (Z & Y & W).
           split; [exact Z|]. split; [exact Y|]. intros k' a' [E|I'] F'; [injection E as <- <-; congruence|eauto].
        -- intros n D. apply I2. intros k' a' f' I' F'. apply (D k' a' f'); [right; exact I'|exact F'].
        -- unfold others_read in I3. rewrite O in I3. constructor; [split; [reflexivity|exact Hc]|exact I3].
      * destruct deny; [discriminate|]. destruct (IH _ _ _ H N2) as (I1 & I2 & I3). split; [|split].
        -- intros k0 a0 f0 [E|I0] F0; [injection E as <- <-; congruence|]. destruct (I1 _ _ _ I0 F0) as (Z & Y & W).
           split; [exact Z|]. split; [exact Y|]. intros k' a' [E|I'] F'; [injection E as <- <-; congruence|eauto].
        -- intros n D. apply I2. intros k' a' f' I' F'. apply (D k' a' f'); [right; exact I'|exact F'].
        -- unfold others_read in I3. rewrite O in I3. split; [apply I3|discriminate].
Qed.

Lemma read_able (l : list (ustr * A)) : NoDup (map fst l) -> forall slots rest,
  (forall k a f, In (k, a) l -> field_of fs k = Some f ->
     assoc (f_name f) slots = None /\ (exists y, h (f_type f) a = Ok y) /\
     (forall k' a', In (k', a') l -> field_of fs k' = Some f -> k' = k)) ->
  others_read l rest ->
  exists s, read_fields ann deny other (map (map_field h) fs) l slots = Ok (s, rest).
Proof.
  induction l as [|[k a] l IH]; intros N slots rest H O.
  - exists slots. unfold others_read in O. cbn. destruct other; [inversion O; reflexivity|]. destruct O as [-> _]. reflexivity.
  - cbn [map fst] in N. inversion N as [|? ? N1 N2]; subst. cbn [read_fields]. rewrite field_of_map.
    unfold others_read in O. destruct (field_of fs k) as [f|] eqn:F; cbn [option_map].
    + rewrite (strangers_some k a l f F) in O. destruct (H k a f (or_introl eq_refl) F) as (S & (y & Hy) & U).
      change (f_name (map_field h f)) with (f_name f). rewrite S. change (f_type (map_field h f) a) with (h (f_type f) a).
      rewrite Hy. cbn [res_bind]. apply (IH N2); [|exact O].
      intros k' a' f' I' F'. destruct (H k' a' f' (or_intror I') F') as (S' & Y' & U'). split; [|split].
      * rewrite assoc_cons_ne; [exact S'|]. intros E.
        assert (f' = f).
        { apply field_of_some in F, F'. apply (one_owner fs f' f (f_name f)); try tauto.
          - rewrite <- E. apply own_name.
          - apply own_name. }
        subst f'. assert (k' = k) by exact (U k' a' (or_intror I') F'). subst k'. apply N1. apply (in_map fst) in I'. exact I'.
      * exact Y'.
      * intros k2 a2 I2 F2. exact (U' k2 a2 (or_intror I2) F2).
    + rewrite (strangers_none k a l F) in O.
      assert (H' : forall slots', slots' = slots -> forall k a f, In (k, a) l -> field_of fs k = Some f ->
         assoc (f_name f) slots' = None /\ (exists y, h (f_type f) a = Ok y) /\
         (forall k' a', In (k', a') l -> field_of fs k' = Some f -> k' = k)).
      { intros slots' -> k' a' f' I' F'. destruct (H k' a' f' (or_intror I') F') as (S' & Y' & U').
        split; [exact S'|]. split; [exact Y'|]. intros k2 a2 I2 F2. exact (U' k2 a2 (or_intror I2) F2). }
      destruct other as [copy|] eqn:Eo.
      * inversion O as [|? [k0 c] ? rest' [E1 E2] O']; subst. cbn [fst snd] in E1, E2. subst k0.
        destruct (IH N2 slots rest' (H' _ eq_refl)) as [s Hs]; [unfold others_read; rewrite Eo; exact O'|].
        exists s. rewrite E2. cbn [res_bind]. rewrite Hs. reflexivity.
      * destruct O as [-> O]. destruct deny eqn:D; [specialize (O eq_refl); discriminate|].
        apply (IH N2 slots [] (H' _ eq_refl)). unfold others_read. rewrite Eo, D. split; [reflexivity|discriminate].
Qed.
End Loop.

(** ** With the values *)
Lemma entries_in {A} (g : ustr * value -> A) (d : dict) k a :
  In (k, a) (map (fun kv => (fst kv, g kv)) d) <-> exists x, In (k, x) d /\ a = g (k, x).
Proof.
  rewrite in_map_iff. split.
  - intros ([k' x] & E & I). injection E as <- <-. eauto.
  - intros (x & I & ->). exists (k, x). auto.
Qed.
Lemma entries_keys {A} (g : ustr * value -> A) (d : dict) : map fst (map (fun kv => (fst kv, g kv)) d) = map fst d.
Proof. rewrite map_map. reflexivity. Qed.
Lemma strangers_entries {X A} (fs : list (field X)) (g : ustr * value -> A) (d : dict) :
  strangers fs (map (fun kv => (fst kv, g kv)) d) = map (fun kv => (fst kv, g kv)) (without (all_names fs) d).
Proof.
  unfold strangers, without. induction d as [|kv d IH]; [reflexivity|]. cbn [map filter fst].
  destruct (existsb (ueqb (fst kv)) (all_names fs)); cbn [negb map]; rewrite IH; reflexivity.
Qed.

Lemma nodup_one (d : dict) k x y : NoDup (map fst d) -> In (k, x) d -> In (k, y) d -> x = y.
Proof.
  induction d as [|[k' z] d IH]; intros N I J; [destruct I|]. inversion N as [|? ? N1 N2]; subst.
  destruct I as [E|I], J as [E'|J]; try congruence.
  - injection E as -> ->. destruct N1. apply (in_map fst) in J. exact J.
  - injection E' as -> ->. destruct N1. apply (in_map fst) in I. exact I.
  - auto.
Qed.

Lemma under_fun {X} (f : field X) d x y : NoDup (map fst d) -> under f d x -> under f d y -> x = y.
Proof.
  intros N (k & K & I & U) (k' & K' & I' & U'). assert (k = k') by eauto. subst k'. exact (nodup_one d k x y N I I').
Qed.

(** Nothing, exactly one, or several entries of a field. *)
Lemma present_or_not {X} (f : field X) (d : dict) : not_there f d \/ exists k x, In k (f_names f) /\ In (k, x) d.
Proof.
  induction d as [|[k x] d IH]; [left; intros ? ? _ []|].
  destruct (existsb (ueqb k) (f_names f)) eqn:E.
  - right. exists k, x. apply existsb_name in E. split; [exact E|left; reflexivity].
  - destruct IH as [IH|(k' & x' & K & I)].
    + left. intros k' x' K [E'|I]; [|exact (IH k' x' K I)]. injection E' as <- <-. apply existsb_name in K. congruence.
    + right. exists k', x'. split; [exact K|right; exact I].
Qed.

Section Struct.
Context {X A : Type} (fs : list (field X)) (h : X -> A -> res error dval) (w : X -> how)
  (miss : X -> ustr -> res error dval) (g : ustr * value -> A) (d : dict).
Hypothesis apart : NoDup (all_names fs).
Hypothesis keys : NoDup (map fst d).
Hypothesis reads : forall f kv, In f fs -> In kv d -> In (fst kv) (f_names f) ->
  forall y, h (f_type f) (g kv) = Ok y <-> snd (w (f_type f)) (snd kv) y.
Hypothesis missing : forall f, In f fs -> f_default f = None ->
  forall y, miss (f_type f) (f_name f) = Ok y <-> fst (w (f_type f)) /\ y = EVNone.

Lemma completed slots :
  (forall k x f, In (k, x) d -> field_of fs k = Some f ->
     (exists y, h (f_type f) (g (k, x)) = Ok y /\ assoc (f_name f) slots = Some y) /\
     (forall k' x', In (k', x') d -> field_of fs k' = Some f -> k' = k)) ->
  (forall n, (forall k x f, In (k, x) d -> field_of fs k = Some f -> f_name f <> n) -> assoc n slots = None) ->
  forall ys, complete (map (map_field miss) fs) slots = Ok ys <-> by_names (map (map_field w) fs) d ys.
Proof.
  intros B C. unfold by_names.
  assert (G : forall fs', incl fs' fs -> forall ys, complete (map (map_field miss) fs') slots = Ok ys <->
    Forall2 (fun f ny => fst ny = f_name f /\ filled f d (snd ny)) (map (map_field w) fs') ys).
  2: { apply G. intros f I. exact I. }
  induction fs' as [|f fs' IH]; intros Inc ys; cbn [map complete].
  - split; [intros [= <-]; constructor|intros H; inversion H; reflexivity].
  - assert (If : In f fs) by (apply Inc; left; reflexivity).
    assert (IH' := IH (fun f' I' => Inc f' (or_intror I'))). clear IH.
    assert (One : forall y, (match assoc (f_name f) slots with
                             | Some y => Ok y
                             | None => match f_default f with Some y => Ok y | None => miss (f_type f) (f_name f) end
                             end = Ok y <-> filled (map_field w f) d y)).
    { intros y. destruct (present_or_not f d) as [Nt|(k & x & K & I)].
      - rewrite C.
        2: { intros k x f' I F E. apply field_of_some in F. destruct F as [I' K].
             assert (f' = f). { apply (one_owner fs f' f (f_name f)); auto; [rewrite <- E|]; apply own_name. }
             subst f'. exact (Nt k x K I). }
        split.
        + intros H. right. split; [exact Nt|]. unfold substitute. cbn [map_field f_default f_type].
          destruct (f_default f) eqn:Df; [congruence|]. apply missing; auto.
        + intros [(x & (k & K & I & _) & _)|[_ S]]; [destruct (Nt k x K I)|]. unfold substitute in S.
          cbn [map_field f_default f_type] in S. destruct (f_default f) eqn:Df; [congruence|]. apply missing; auto.
      - destruct (B k x f I (name_owner fs k f apart If K)) as ((z & Hz & ->) & U).
        assert (Un : under (map_field w f) d x).
        { exists k. split; [exact K|]. split; [exact I|]. intros k' x' K' I'. apply (U k' x' I'). apply name_owner; auto. }
        rewrite (reads f (k, x) If I K) in Hz. cbn [snd] in Hz. split.
        + intros [= ->]. left. exists x. split; [exact Un|exact Hz].
        + intros [(x' & Un' & R)|[Nt _]]; [|destruct (Nt k x K I)].
          rewrite <- (under_fun _ d x x' keys Un Un') in R. cbn [map_field f_type snd] in R.
          assert (h (f_type f) (g (k, x)) = Ok y) by (apply (reads f (k, x) If I K); exact R).
          assert (h (f_type f) (g (k, x)) = Ok z) by (apply (reads f (k, x) If I K); exact Hz). congruence. }
    cbn [map_field f_name f_default f_type]. rewrite res_bind_ok. split.
    + intros (y & Hy & H). apply One in Hy. apply res_map_ok in H. destruct H as (ys' & H & ->).
      constructor; [split; [reflexivity|exact Hy]|]. apply IH'. exact H.
    + intros H. inversion H as [|? [n y] ? ys' [E F] H']; subst. cbn [fst snd] in E, F. subst n.
      exists y. split; [apply One; exact F|]. apply res_map_ok. exists ys'. split; [apply IH'; exact H'|reflexivity].
Qed.

Lemma by_names_readable ys : by_names (map (map_field w) fs) d ys -> readable (map (map_field w) fs) d.
Proof.
  unfold by_names. intros H f k x I K J.
  assert (G : exists y, filled f d y).
  { clear reads missing apart. revert I H. generalize (map (map_field w) fs). clear. intros l I H. induction H as [|? ? ? ? [_ F] _ IH]; [destruct I|].
    destruct I as [->|I]; eauto. }
  destruct G as [y [(x' & Un & R)|[Nt _]]]; [|destruct (Nt k x K J)].
  destruct Un as (k' & K' & J' & U). assert (E : k = k') by exact (U k x K J). subst k'.
  rewrite (nodup_one d k x x' keys J J'). split; [eauto|exact U].
Qed.

Lemma readable_entry : readable (map (map_field w) fs) d ->
  forall k x f, In (k, x) d -> field_of fs k = Some f ->
  (exists y, h (f_type f) (g (k, x)) = Ok y) /\ (forall k' x', In (k', x') d -> field_of fs k' = Some f -> k' = k).
Proof.
  intros R k x f I F. apply field_of_some in F. destruct F as [If K].
  destruct (R (map_field w f) k x (in_map _ _ _ If) K I) as ((y & Hy) & U). split.
  - exists y. apply (reads f (k, x) If I K). exact Hy.
  - intros k' x' I' F'. apply field_of_some in F'. apply (U k' x'); tauto.
Qed.

Definition copies (deny : bool) (other : option (A -> res error content)) (rest : list (ustr * content)) : Prop :=
  match other with
  | Some copy => Forall2 (fun kv kc => fst kc = fst kv /\ copy (g kv) = Ok (snd kc)) (without (all_names fs) d) rest
  | None => rest = [] /\ (deny = true -> without (all_names fs) d = [])
  end.
Lemma copies_others deny other rest :
  others_read fs deny other (map (fun kv => (fst kv, g kv)) d) rest <-> copies deny other rest.
Proof.
  unfold others_read, copies. rewrite strangers_entries. destruct other as [copy|].
  - generalize (without (all_names fs) d). intros l. revert rest. induction l as [|kv l IH]; intros rest.
    + split; intros H; inversion H; constructor.
    + split; intros H; inversion H; subst; constructor; auto; apply IH; auto.
  - split; intros [-> H]; (split; [reflexivity|]); intros E; specialize (H E).
    + apply map_eq_nil in H. exact H.
    + rewrite H. reflexivity.
Qed.

Lemma struct_read ann deny other rest ys :
  (exists s, read_fields ann deny other (map (map_field h) fs) (map (fun kv => (fst kv, g kv)) d) [] = Ok (s, rest) /\
             complete (map (map_field miss) fs) s = Ok ys) <->
  by_names (map (map_field w) fs) d ys /\ copies deny other rest.
Proof.
  assert (Sound : forall s, read_fields ann deny other (map (map_field h) fs) (map (fun kv => (fst kv, g kv)) d) [] = Ok (s, rest) ->
    (forall ys, complete (map (map_field miss) fs) s = Ok ys <-> by_names (map (map_field w) fs) d ys) /\ copies deny other rest).
  { intros s Hs. apply read_sound in Hs; [|exact apart|rewrite entries_keys; exact keys].
    destruct Hs as (H1 & H2 & H3). split.
    - apply completed.
      + intros k x f I F. destruct (H1 k (g (k, x)) f) as (_ & Y & U); [apply entries_in; eauto|exact F|].
        split; [exact Y|]. intros k' x' I' F'. apply (U k' (g (k', x'))); [apply entries_in; eauto|exact F'].
      + intros n Hn. rewrite H2; [reflexivity|]. intros k a f I F. apply entries_in in I. destruct I as (x & I & ->). eauto.
    - apply copies_others. exact H3. }
  split.
  - intros (s & Hs & Hc). destruct (Sound s Hs) as [S1 S2]. split; [apply S1; exact Hc|exact S2].
  - intros [B O]. destruct (read_able fs h ann deny other apart (map (fun kv => (fst kv, g kv)) d)
      (eq_ind_r (fun l => NoDup l) keys (entries_keys g d)) [] rest) as [s Hs].
    + intros k a f I F. apply entries_in in I. destruct I as (x & I & ->).
      destruct (readable_entry (by_names_readable ys B) k x f I F) as [Y U]. split; [reflexivity|]. split; [exact Y|].
      intros k' a' I' F'. apply entries_in in I'. destruct I' as (x' & I' & ->). exact (U k' x' I' F').
    + apply copies_others. exact O.
    + exists s. split; [exact Hs|]. destruct (Sound s Hs) as [S1 _]. apply S1. exact B.
Qed.
End Struct.

(** ** Taking fields out *)
Lemma take_is_read (fs : list (field (content -> res error dval))) l : forall slots s rest,
  take_fields fs l slots = (Ok s, rest) <-> read_fields (fun _ e => e) false (Some Ok) fs l slots = Ok (s, rest).
Proof.
  induction l as [|[k c] l IH]; intros slots s rest; cbn [take_fields read_fields].
  - split; intros [= <- <-]; reflexivity.
  - destruct (field_of fs k) as [f|].
    + destruct (assoc (f_name f) slots); [split; discriminate|]. destruct (f_type f c); [apply IH|cbn; split; discriminate].
    + cbn [res_bind]. rewrite res_map_ok. destruct (take_fields fs l slots) as [s' rest'] eqn:E. split.
      * intros [= -> <-]. apply IH in E. exists (s, rest'). split; [exact E|reflexivity].
      * intros ([s2 rest2] & H & Q). injection Q as -> ->. apply IH in H. cbn [fst snd]. congruence.
Qed.

Section Taking.
Context {X : Type} (fs : list (field X)) (h : X -> content -> res error dval) (w : X -> how)
  (g : ustr * value -> content).
Hypothesis apart : NoDup (all_names fs).
Let hs := map (map_field w) fs.
Let entries (d : dict) := map (fun kv => (fst kv, g kv)) d.

Lemma hs_in f : In f hs -> exists f0, In f0 fs /\ f = map_field w f0.
Proof. unfold hs. rewrite in_map_iff. intros (f0 & <- & I). eauto. Qed.

Lemma readable_prefix d d' : readable hs (d ++ d') -> readable hs d.
Proof.
  intros R f k x I K J. destruct (R f k x I K (in_or_app _ _ _ (or_introl J))) as [Y U]. split; [exact Y|].
  intros k' x' K' J'. apply (U k' x' K'). apply in_or_app. left. exact J'.
Qed.

Lemma without_app names (a b : dict) : without names (a ++ b) = without names a ++ without names b.
Proof. apply filter_app. Qed.

Lemma taking (d : dict) : forall pre slots, NoDup (map fst (pre ++ d)) ->
  (forall f kv, In f fs -> In kv d -> In (fst kv) (f_names f) ->
     forall y, h (f_type f) (g kv) = Ok y <-> snd (w (f_type f)) (snd kv) y) ->
  readable hs pre ->
  (forall f, In f fs -> assoc (f_name f) slots <> None <-> exists k x, In k (f_names f) /\ In (k, x) pre) ->
  exists r d', take_fields (map (map_field h) fs) (entries d) slots = (r, entries d') /\
    ((readable hs (pre ++ d) /\ d' = without (all_names fs) d /\ exists s, r = Ok s) \/
     ((exists p k x post, d = p ++ (k, x) :: post /\ readable hs (pre ++ p) /\ ~ readable hs (pre ++ p ++ [(k, x)]) /\
         d' = without (all_names fs) p ++ post) /\ exists e, r = Err e)).
Proof.
  induction d as [|[k x] d IH]; intros pre slots N R Rp S.
  - exists (Ok slots), []. split; [reflexivity|]. left. rewrite app_nil_r. eauto.
  - change (entries ((k, x) :: d)) with ((k, g (k, x)) :: entries d). cbn [take_fields]. rewrite field_of_map.
    assert (App : forall q : dict, (pre ++ [(k, x)]) ++ q = pre ++ (k, x) :: q) by (intros q; rewrite <- app_assoc; reflexivity).
    assert (Nk : forall y, ~ In (k, y) pre).
    { intros y I. rewrite map_app in N. apply (NoDup_app_disjoint _ _ k N); [apply (in_map fst) in I; exact I|left; reflexivity]. }
    assert (R' : forall f kv, In f fs -> In kv d -> In (fst kv) (f_names f) ->
      forall y, h (f_type f) (g kv) = Ok y <-> snd (w (f_type f)) (snd kv) y).
    { intros f kv I J. apply R; [exact I|right; exact J]. }
    destruct (field_of fs k) as [f|] eqn:F; cbn [option_map].
    + apply field_of_some in F. destruct F as [If K].
      change (f_name (map_field h f)) with (f_name f). change (f_type (map_field h f) (g (k, x))) with (h (f_type f) (g (k, x))).
      destruct (assoc (f_name f) slots) as [y0|] eqn:E.
      { (* twice *)
        exists (Err (err_of_kind (KDuplicateField (f_name f)))), d. split; [reflexivity|]. right. split; [|eauto].
        exists [], k, x, d. split; [reflexivity|]. rewrite app_nil_r. split; [exact Rp|]. split; [|reflexivity].
        cbn [app]. intros Q. destruct (proj1 (S f If)) as (k' & x' & K' & I'); [congruence|].
        destruct (Q (map_field w f) k x (in_map _ _ _ If) K) as [_ U]; [apply in_or_app; right; left; reflexivity|].
        assert (k' = k) by (apply (U k' x' K'); apply in_or_app; left; exact I'). subst k'. exact (Nk x' I'). }
      destruct (h (f_type f) (g (k, x))) as [y|e] eqn:Y.
      * assert (Yw : snd (w (f_type f)) x y) by (apply (R f (k, x) If (or_introl eq_refl) K); exact Y).
        assert (Rp' : readable hs (pre ++ [(k, x)])).
        { intros f' k' x' I' K' J'. apply hs_in in I'. destruct I' as (f0 & I0 & ->).
          assert (Fresh : forall k2 x2, In k2 (f_names f) -> In (k2, x2) pre -> False).
          { intros k2 x2 K2 J2. apply (proj2 (S f If)); [eauto|exact E]. }
          apply in_app_or in J'. destruct J' as [J'|[J'|[]]].
          - destruct (Rp (map_field w f0) k' x' (in_map _ _ _ I0) K' J') as [Y' U']. split; [exact Y'|].
            intros k2 x2 K2 J2. apply in_app_or in J2. destruct J2 as [J2|[J2|[]]]; [exact (U' k2 x2 K2 J2)|].
            injection J2 as <- <-. assert (f0 = f) by (apply (one_owner fs f0 f k); auto). subst f0.
            destruct (Fresh k' x' K' J').
          - injection J' as <- <-. assert (f0 = f) by (apply (one_owner fs f0 f k); auto). subst f0. split; [eauto|].
            intros k2 x2 K2 J2. apply in_app_or in J2. destruct J2 as [J2|[J2|[]]]; [destruct (Fresh k2 x2 K2 J2)|congruence]. }
        destruct (IH (pre ++ [(k, x)]) ((f_name f, y) :: slots)) as (r & d' & T & Res).
        -- rewrite App. exact N.
        -- exact R'.
        -- exact Rp'.
        -- intros f' I'. destruct (ueqb (f_name f') (f_name f)) eqn:En.
           ++ apply ueqb_eq in En. assert (f' = f).
              { apply (one_owner fs f' f (f_name f)); auto; [rewrite <- En|]; apply own_name. }
              subst f'. rewrite assoc_cons_eq. split; [intros _; exists k, x; split; [exact K|apply in_or_app; right; left; reflexivity]|discriminate].
           ++ rewrite assoc_cons_ne; [|intros Q; rewrite Q in En; assert (ueqb (f_name f) (f_name f) = true) by (apply ueqb_eq; reflexivity); congruence].
              rewrite (S f' I'). split; intros (k2 & x2 & K2 & J2); exists k2, x2; (split; [exact K2|]).
              ** apply in_or_app. left. exact J2.
              ** apply in_app_or in J2. destruct J2 as [J2|[J2|[]]]; [exact J2|]. injection J2 as <- <-.
                 assert (f' = f) by (apply (one_owner fs f' f k); auto). subst f'.
                 assert (ueqb (f_name f) (f_name f) = true) by (apply ueqb_eq; reflexivity). congruence.
        -- exists r, d'. split; [exact T|]. rewrite App in Res. destruct Res as [(Q1 & -> & Q3)|((p & k2 & x2 & post & -> & Q1 & Q2 & ->) & Q3)].
           ++ left. split; [exact Q1|]. split; [|exact Q3]. unfold without at 2. cbn [filter fst].
              assert (existsb (ueqb k) (all_names fs) = true) as -> by (apply existsb_name; unfold all_names; apply in_flat_map; eauto).
              reflexivity.
           ++ right. split; [|exact Q3]. exists ((k, x) :: p), k2, x2, post. split; [reflexivity|].
              rewrite App in Q1. rewrite App in Q2. split; [exact Q1|]. split; [exact Q2|].
              f_equal. unfold without at 2. cbn [filter fst].
              assert (existsb (ueqb k) (all_names fs) = true) as -> by (apply existsb_name; unfold all_names; apply in_flat_map; eauto).
              reflexivity.
      * (* unreadable *)
        exists (Err e), d. split; [reflexivity|]. right. split; [|eauto].
        exists [], k, x, d. split; [reflexivity|]. rewrite app_nil_r. split; [exact Rp|]. split; [|reflexivity].
        cbn [app]. intros Q.
        destruct (Q (map_field w f) k x (in_map _ _ _ If) K) as [(y & Yw) _]; [apply in_or_app; right; left; reflexivity|].
        apply (R f (k, x) If (or_introl eq_refl) K) in Yw. congruence.
    + assert (Nn := proj1 (field_of_none fs k) F).
      assert (Out : forall f0, In f0 fs -> ~ In k (f_names f0)).
      { intros f0 I0 K0. apply Nn. unfold all_names. apply in_flat_map. eauto. }
      destruct (IH (pre ++ [(k, x)]) slots) as (r & d' & T & Res).
      * rewrite App. exact N.
      * exact R'.
      * intros f' k' x' I' K' J'. apply hs_in in I'. destruct I' as (f0 & I0 & ->).
        apply in_app_or in J'. destruct J' as [J'|[J'|[]]]; [|injection J' as <- <-; destruct (Out f0 I0 K')].
        destruct (Rp (map_field w f0) k' x' (in_map _ _ _ I0) K' J') as [Y' U']. split; [exact Y'|].
        intros k2 x2 K2 J2. apply in_app_or in J2. destruct J2 as [J2|[J2|[]]]; [exact (U' k2 x2 K2 J2)|].
        injection J2 as <- <-. destruct (Out f0 I0 K2).
      * intros f' I'. rewrite (S f' I'). split; intros (k2 & x2 & K2 & J2); exists k2, x2; (split; [exact K2|]).
        -- apply in_or_app. left. exact J2.
        -- apply in_app_or in J2. destruct J2 as [J2|[J2|[]]]; [exact J2|]. injection J2 as <- <-. destruct (Out f' I' K2).
      * assert (W : forall q : dict, without (all_names fs) ((k, x) :: q) = (k, x) :: without (all_names fs) q).
        { intros q. unfold without. cbn [filter fst]. destruct (existsb (ueqb k) (all_names fs)) eqn:E; [|reflexivity].
          apply existsb_name in E. contradiction. }
        exists r, ((k, x) :: d'). rewrite T. split; [reflexivity|]. rewrite App in Res.
        destruct Res as [(Q1 & -> & Q3)|((p & k2 & x2 & post & -> & Q1 & Q2 & ->) & Q3)].
        -- left. split; [exact Q1|]. split; [|exact Q3]. symmetry. apply W.
        -- right. split; [|exact Q3]. exists ((k, x) :: p), k2, x2, post. split; [reflexivity|].
           rewrite App in Q1. rewrite App in Q2. split; [exact Q1|]. split; [exact Q2|]. rewrite W. reflexivity.
Qed.

(** From the start. *)
Lemma taken_out (d : dict) : NoDup (map fst d) ->
  (forall f kv, In f fs -> In kv d -> In (fst kv) (f_names f) ->
     forall y, h (f_type f) (g kv) = Ok y <-> snd (w (f_type f)) (snd kv) y) ->
  exists r d', take_fields (map (map_field h) fs) (entries d) [] = (r, entries d') /\ leaves hs d d' /\
    (readable hs d <-> exists s, r = Ok s) /\ (readable hs d -> d' = without (all_names fs) d).
Proof.
  intros N R. destruct (taking d [] [] N R) as (r & d' & T & Res).
  - intros f k x _ _ [].
  - intros f _. split; [intros H; destruct (H eq_refl)|intros (k & x & _ & [])].
  - exists r, d'. split; [exact T|]. cbn [app] in Res.
    destruct Res as [(Q1 & -> & Q3)|((p & k2 & x2 & post & E & Q1 & Q2 & E') & e & Q3)].
    + split; [|tauto]. left. unfold hs. rewrite all_names_map. split; [exact Q1|reflexivity].
    + split; [|split].
      * right. exists p, k2, x2, post. unfold hs at 3. rewrite all_names_map. auto.
      * split; [|intros (s & Q); congruence]. intros Q. destruct Q2. subst d.
        apply (readable_prefix _ post). rewrite <- app_assoc. exact Q.
      * intros Q. destruct Q2. subst d. apply (readable_prefix _ post). rewrite <- app_assoc. exact Q.
Qed.

Lemma leaves_fun d a b : leaves hs d a -> leaves hs d b -> a = b.
Proof.
  intros [[R ->]|(p & k & x & post & E & R1 & R2 & ->)] [[R' ->]|(p' & k' & x' & post' & E' & R1' & R2' & ->)].
  - reflexivity.
  - destruct R2'. subst d. apply (readable_prefix _ post'). rewrite <- app_assoc. exact R.
  - destruct R2. subst d. apply (readable_prefix _ post). rewrite <- app_assoc. exact R'.
  - rewrite E in E'. apply app_eq_app in E'. destruct E' as (l & [[-> Q]|[-> Q]]).
    + destruct l as [|z l]; [rewrite app_nil_r in *; cbn in Q; injection Q as <- <- <-; reflexivity|].
      injection Q as <- _. destruct R2'. apply (readable_prefix _ l). rewrite <- app_assoc. exact R1.
    + destruct l as [|z l]; [rewrite app_nil_r in *; cbn in Q; injection Q as <- <- <-; reflexivity|].
      injection Q as <- _. destruct R2. apply (readable_prefix _ l). rewrite <- app_assoc. exact R1'.
Qed.
End Taking.
