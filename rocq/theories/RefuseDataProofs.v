(** Typed extraction of compound data fails exactly as [SpecRefuse.refuses] says. *)
From Coq Require Import Ascii String ZArith NArith Bool Lia.
From Coq Require Import Floats.SpecFloat.
From Coq Require Import List.
From Verif Require Import Res BMap Str Profile Tag Num Value NumParse Metadata Err Coalesce Figment Fmt De.
From Verif Require Import SpecValue SpecParse SpecShow SpecLossy SpecDe SpecMagic SpecExtract SpecDoc SpecTaken SpecGives SpecRefuse.
From Verif Require Import BMapProofs StrProofs ValueProofs DeProofs BlameProofs ExtractProofs
  SpecRt RtProofs SerProofs MagicProofs MeaningProofs TakenProofs GivesProofs FmtProofs ShowProofs RefuseProofs.
Import ListNotations.

(** What a [Deserialize] impl has to do. *)
Record tells (m : mode) (r : part) (rec : deser -> res error dval) : Prop := {
  tl_fine : forall v, wf v -> (exists y, rec (mk_de m v) = Ok y) <-> fine r v;
  tl_refused : forall v p k, wf v -> says (rec (mk_de m v)) p k <-> refused r v p k;
  tl_lack : forall n, (exists y, rec (DMissing n) = Ok y) <-> may_lack r;
  tl_missing : forall n p k, says (rec (DMissing n)) p k <-> ~ may_lack r /\ p = [] /\ k = KMissingField n
}.

(** ** Elements *)
Lemma elements_read m r rec l : tells m r rec -> Forall wf l -> forall n p k,
  says (all_elements rec (map (mk_de m) l) n) p k <->
  exists a x b q, l = a ++ x :: b /\ Forall (fine r) a /\ refused r x q k /\ p = decimal (n + N.of_nat (length a)) :: q.
Proof.
  intros T W. induction W as [|v l Wv Wl IH]; intros n p k; cbn [map all_elements].
  - rewrite says_ok. split; [intros []|]. intros (a & x & b & q & E & _). destruct a; discriminate E.
  - rewrite says_bind, says_element. setoid_rewrite (tl_refused _ _ _ T v _ _ Wv). setoid_rewrite next_element_ok.
    setoid_rewrite says_map. split.
    + intros [(q & H & ->)|(y & Y & H)].
      * exists [], v, l, q. rewrite N.add_0_r. auto.
      * apply IH in H. destruct H as (a & x & b & q & -> & A & X & ->). exists (v :: a), x, b, q.
        split; [reflexivity|]. split; [constructor; [apply (tl_fine _ _ _ T v Wv); eauto|exact A]|]. split; [exact X|].
        cbn [length]. f_equal. f_equal. lia.
    + intros (a & x & b & q & E & A & X & ->). destruct a as [|v' a]; injection E as -> ->.
      * left. exists q. rewrite N.add_0_r. auto.
      * inversion A as [|? ? A1 A2]; subst. apply (tl_fine _ _ _ T v' Wv) in A1. destruct A1 as (y & Y). right.
        exists y. split; [exact Y|]. apply IH. exists a, x, b, q. split; [reflexivity|]. split; [exact A2|]. split; [exact X|].
        cbn [length]. f_equal. f_equal. lia.
Qed.

Lemma position_cons r rs short l p k n :
  ((exists ra r' rb a x b q, r :: rs = ra ++ r' :: rb /\ l = a ++ x :: b /\ Forall2 fine ra a /\ refused r' x q k /\
      p = decimal (n + N.of_nat (length a)) :: q) \/
   (exists ra r' rb, r :: rs = ra ++ r' :: rb /\ Forall2 fine ra l /\
      p = [] /\ k = KInvalidLength (n + N.of_nat (length l)) short)) <->
  match l with
  | [] => p = [] /\ k = KInvalidLength n short
  | v :: l =>
      (exists q, refused r v q k /\ p = decimal n :: q) \/
      fine r v /\
      ((exists ra r' rb a x b q, rs = ra ++ r' :: rb /\ l = a ++ x :: b /\ Forall2 fine ra a /\ refused r' x q k /\
          p = decimal (n + 1 + N.of_nat (length a)) :: q) \/
       (exists ra r' rb, rs = ra ++ r' :: rb /\ Forall2 fine ra l /\
          p = [] /\ k = KInvalidLength (n + 1 + N.of_nat (length l)) short))
  end.
Proof.
  assert (S : forall j, (n + N.of_nat (S j) = n + 1 + N.of_nat j)%N) by (intros; lia).
  destruct l as [|v l].
  - split.
    + intros [(ra & r' & rb & a & x & b & q & _ & E & _)|(ra & r' & rb & _ & _ & -> & ->)].
      * destruct a; discriminate E.
      * rewrite N.add_0_r. auto.
    + intros [-> ->]. right. exists [], r, rs. rewrite N.add_0_r. auto.
  - split.
    + intros [(ra & r' & rb & a & x & b & q & E1 & E2 & F & X & ->)|(ra & r' & rb & E1 & F & -> & ->)].
      * destruct a as [|v' a].
        -- inversion F; subst. injection E1 as -> ->. injection E2 as -> ->. left. exists q. rewrite N.add_0_r. auto.
        -- inversion F as [|r1 ? ra' ? F1 F2]; subst. injection E1 as -> ->. injection E2 as -> ->. right. split; [exact F1|].
           left. exists ra', r', rb, a, x, b, q. cbn [length]. rewrite S. auto 6.
      * inversion F as [|r1 ? ra' ? F1 F2]; subst. injection E1 as -> ->. right. split; [exact F1|].
        right. exists ra', r', rb. cbn [length]. rewrite S. auto.
    + intros [(q & X & ->)|[F [(ra & r' & rb & a & x & b & q & -> & -> & Fs & X & ->)|(ra & r' & rb & -> & Fs & -> & ->)]]].
      * left. exists [], r, rs, [], v, l, q. rewrite N.add_0_r. auto 6.
      * left. exists (r :: ra), r', rb, (v :: a), x, b, q. cbn [length]. rewrite S. auto 8.
      * right. exists (r :: ra), r', rb. cbn [length]. rewrite S. auto.
Qed.

Lemma positions_read m recs rs short : Forall2 (fun rec r => tells m r rec) recs rs ->
  forall l n p k, Forall wf l ->
  says (tuple_elements recs short (map (mk_de m) l) n) p k <->
  (exists ra r rb a x b q, rs = ra ++ r :: rb /\ l = a ++ x :: b /\ Forall2 fine ra a /\ refused r x q k /\
     p = decimal (n + N.of_nat (length a)) :: q) \/
  (exists ra r rb, rs = ra ++ r :: rb /\ Forall2 fine ra l /\ p = [] /\ k = KInvalidLength (n + N.of_nat (length l)) short).
Proof.
  induction 1 as [|rec r recs rs T Ts IH]; intros l n p k W; cbn [tuple_elements].
  - rewrite says_ok. split; [intros []|].
    intros [(ra & r & rb & a & x & b & q & E & _)|(ra & r & rb & E & _)]; destruct ra; discriminate E.
  - rewrite position_cons. destruct l as [|v l]; cbn [map].
    + apply says_kind.
    + inversion W as [|? ? Wv Wl]; subst. rewrite says_bind, says_element. setoid_rewrite (tl_refused _ _ _ T v _ _ Wv).
      setoid_rewrite next_element_ok. setoid_rewrite says_map. setoid_rewrite (IH l (n + 1)%N p k Wl).
      assert (F := tl_fine _ _ _ T v Wv). rewrite <- F. split.
      * intros [H|(y & Y & H)]; [left; exact H|right; eauto].
      * intros [H|[(y & Y) H]]; [left; exact H|right; eauto].
Qed.

Lemma tuple_read m recs rs short l p k : Forall2 (fun rec r => tells m r rec) recs rs -> Forall wf l ->
  says (tuple_elements recs short (map (mk_de m) l) 0%N) p k <-> position_refused rs short l p k.
Proof. intros T W. apply (positions_read m recs rs short T l 0%N p k W). Qed.

(** ** Entries *)
Lemma entry_cons ok bad key x d p k :
  entry_refused ok bad ((key, x) :: d) p k <->
  (exists q, bad key x q k /\ p = key :: q) \/ (ok key x /\ entry_refused ok bad d p k).
Proof.
  unfold entry_refused. split.
  - intros (a & key' & x' & b & q & E & A & B & ->). destruct a as [|[key1 x1] a]; injection E as -> -> ->.
    + left. eauto.
    + inversion A as [|? ? A1 A2]; subst. right. split; [exact A1|]. exists a, key', x', b, q. auto.
  - intros [(q & B & ->)|[O (a & key' & x' & b & q & -> & A & B & ->)]].
    + exists [], key, x, d, q. auto.
    + exists ((key, x) :: a), key', x', b, q. split; [reflexivity|]. split; [constructor; [exact O|exact A]|]. auto.
Qed.
Lemma entry_nil ok bad p k : entry_refused ok bad [] p k <-> False.
Proof. split; [|intros []]. intros (a & key' & x' & b & q & E & _). destruct a; discriminate E. Qed.

Lemma map_read m r rec (d : dict) : tells m r rec -> Forall (fun kv => wf (snd kv)) d -> forall acc p k,
  says (map_entries rec (map_access (mk_de m) d) acc) p k <->
  entry_refused (fun _ => fine r) (fun _ => refused r) d p k.
Proof.
  intros T W. induction W as [|[key v] d Wv Wd IH]; intros acc p k; cbn [map_access map map_entries fst snd].
  - rewrite says_ok, entry_nil. reflexivity.
  - cbn [snd] in Wv. rewrite entry_cons, says_bind.
    assert (K : next_key string_key (key, vtag v, mk_de m v) = Ok key) by (apply next_key_ok, string_key_str).
    rewrite K, says_ok.
    assert (X : (exists a, @Ok error ustr key = Ok a /\
       says (res_bind (next_value rec (key, vtag v, mk_de m v)) (fun y => map_entries rec (map (fun kv => (fst kv, vtag (snd kv), mk_de m (snd kv))) d) (insert a y acc))) p k) <->
       says (res_bind (next_value rec (key, vtag v, mk_de m v)) (fun y => map_entries rec (map_access (mk_de m) d) (insert key y acc))) p k).
    { split; [intros (a & [= <-] & H); exact H|eauto]. }
    rewrite X, says_bind, says_value. setoid_rewrite (tl_refused _ _ _ T v _ _ Wv). setoid_rewrite next_value_ok.
    setoid_rewrite IH. rewrite <- (tl_fine _ _ _ T v Wv). split.
    + intros [[]|[H|(y & Y & H)]]; [left; exact H|right; eauto].
    + intros [H|[(y & Y) H]]; right; [left; exact H|right; eauto].
Qed.

Lemma pairs_read m (Kf : ustr -> Prop) (Kb : ustr -> kind -> Prop) reck r rec (d : dict) :
  (forall s, (exists y, reck (DStr s) = Ok y) <-> Kf s) ->
  (forall s p k, says (reck (DStr s)) p k <-> p = [] /\ Kb s k) ->
  tells m r rec -> Forall (fun kv => wf (snd kv)) d -> forall p k,
  says (pair_entries reck rec (map_access (mk_de m) d)) p k <->
  entry_refused (fun s x => Kf s /\ fine r x) (fun s x q kd => (q = [] /\ Kb s kd) \/ (Kf s /\ refused r x q kd)) d p k.
Proof.
  intros KF KB T W. induction W as [|[key v] d Wv Wd IH]; intros p k; cbn [map_access map pair_entries fst snd].
  - rewrite says_ok, entry_nil. reflexivity.
  - cbn [snd] in Wv. rewrite entry_cons, says_bind, says_next_key. setoid_rewrite KB. setoid_rewrite next_key_ok.
    setoid_rewrite says_bind. setoid_rewrite says_value. setoid_rewrite (tl_refused _ _ _ T v _ _ Wv).
    setoid_rewrite next_value_ok. setoid_rewrite says_map. setoid_rewrite IH.
    split.
    + intros [(q & [Q B] & ->)|(y & Y & [(q & R & ->)|(z & Z & H)])].
      * left. exists q. auto.
      * left. exists q. split; [right; split; [apply KF; eauto|exact R]|reflexivity].
      * right. split; [split; [apply KF; eauto|apply (tl_fine _ _ _ T v Wv); eauto]|exact H].
    + intros [(q & [[Q B]|[Y R]] & ->)|[[Y Z] H]].
      * left. exists q. auto.
      * apply KF in Y. destruct Y as (y & Y). right. exists y. split; [exact Y|]. left. eauto.
      * apply KF in Y. destruct Y as (y & Y). apply (tl_fine _ _ _ T v Wv) in Z. destruct Z as (z & Z).
        right. exists y. split; [exact Y|]. right. exists z. split; [exact Z|]. exact H.
Qed.

(** ** Structs *)
Definition field_tells (m : mode) (f : ustr * (deser -> res error dval)) (r : ustr * part) : Prop :=
  fst f = fst r /\ tells m (snd r) (snd f).

Lemma field_tells_keys m fs rs : Forall2 (field_tells m) fs rs -> map fst fs = map fst rs.
Proof. induction 1 as [|f r fs rs [E _] _ IH]; cbn; congruence. Qed.
Lemma field_tells_assoc m fs rs key : Forall2 (field_tells m) fs rs ->
  match assoc key fs, assoc key rs with
  | Some rec, Some r => tells m r rec
  | None, None => True
  | _, _ => False
  end.
Proof.
  induction 1 as [|[n s] [n' r] vs rs [E M] _ IH]; [exact I|]. cbn in E, M. subst n'. cbn [assoc].
  destruct (ueqb key n); assumption.
Qed.

Definition field_bad (deny : bool) (rs : list (ustr * part)) (key : ustr) : refusal := fun x q kd =>
  (deny = true /\ ~ In key (map fst rs) /\ q = [] /\ kd = KUnknownField key (map fst rs)) \/
  exists r, In (key, r) rs /\ refused r x q kd.

Lemma entries_read deny m fs rs (d : dict) p k : Forall2 (field_tells m) fs rs -> NoDup (map fst fs) ->
  NoDup (map fst d) -> Forall (fun kv => wf (snd kv)) d -> forall slots,
  (forall key, In key (map fst slots) -> ~ In key (map fst d)) ->
  says (field_entries deny fs (map_access (mk_de m) d) slots) p k <->
  entry_refused (known deny rs) (field_bad deny rs) d p k.
Proof.
  intros F Nf Nd W. assert (K := field_tells_keys _ _ _ F).
  induction W as [|[key v] d Wv Wd IH]; intros slots S; cbn [map_access map field_entries fst snd].
  - rewrite says_ok, entry_nil. reflexivity.
  - cbn [snd] in Wv. inversion Nd as [|? ? N1 N2]; subst. cbn [map fst] in S.
    assert (S' : forall k', In k' (map fst slots) -> ~ In k' (map fst d)).
    { intros k' H1 H2. apply (S k' H1). right. exact H2. }
    rewrite entry_cons, says_bind, says_next_key. setoid_rewrite next_key_ok. setoid_rewrite field_key_str.
    destruct (existsb (ueqb key) (map fst fs)) eqn:E.
    + apply existsb_ueqb in E. destruct (assoc_total key fs E) as [rec Er].
      assert (A := field_tells_assoc m fs rs key F). rewrite Er in A.
      destruct (assoc key rs) as [r|] eqn:Er'; [|destruct A].
      assert (U : forall r', In (key, r') rs <-> r' = r).
      { intros r'. split; [intros H; apply assoc_nodup in H; [congruence|rewrite <- K; exact Nf]|].
        intros ->. apply assoc_In. exact Er'. }
      assert (Kn : known deny rs key v <-> fine r v).
      { unfold known. rewrite <- K. split; [intros [_ H]; apply H, U; reflexivity|].
        intros H. split; [auto|]. intros r' R. apply U in R. subst r'. exact H. }
      assert (Bd : forall q, field_bad deny rs key v q k <-> refused r v q k).
      { intros q. unfold field_bad. rewrite <- K. split.
        - intros [(_ & H & _)|(r' & H & R)]; [contradiction|]. apply U in H. subst r'. exact R.
        - intros H. right. exists r. split; [apply U; reflexivity|exact H]. }
      rewrite Kn. setoid_rewrite Bd.
      assert (Es : assoc key slots = None).
      { apply assoc_none. intros Hin. apply (S key Hin). left. reflexivity. }
      assert (X : (exists a, @Ok error (option ustr) (Some key) = Ok a /\
                    says (match a with
                      | None => field_entries deny fs (map (fun kv => (fst kv, vtag (snd kv), mk_de m (snd kv))) d) slots
                      | Some k0 => match assoc k0 fs with
                         | None => field_entries deny fs (map (fun kv => (fst kv, vtag (snd kv), mk_de m (snd kv))) d) slots
                         | Some rec => match assoc k0 slots with
                           | Some _ => Err (err_of_kind (KDuplicateField k0))
                           | None => res_bind (next_value rec (key, vtag v, mk_de m v))
                               (fun y => field_entries deny fs (map (fun kv => (fst kv, vtag (snd kv), mk_de m (snd kv))) d) ((k0, y) :: slots))
                           end end end) p k) <->
                  says (res_bind (next_value rec (key, vtag v, mk_de m v))
                          (fun y => field_entries deny fs (map_access (mk_de m) d) ((key, y) :: slots))) p k).
      { split.
        - intros (a & [= <-] & H). rewrite Er, Es in H. exact H.
        - intros H. exists (Some key). split; [reflexivity|]. rewrite Er, Es. exact H. }
      rewrite X, says_bind, says_value. setoid_rewrite (tl_refused _ _ _ A v _ _ Wv). setoid_rewrite next_value_ok.
      assert (IH' : forall y, says (field_entries deny fs (map_access (mk_de m) d) ((key, y) :: slots)) p k <->
                              entry_refused (known deny rs) (field_bad deny rs) d p k).
      { intros y. apply IH; [exact N2|]. intros k' [<-|Hin]; [exact N1|exact (S' k' Hin)]. }
      setoid_rewrite IH'. rewrite <- (tl_fine _ _ _ A v Wv). split.
      * intros [(q & Q & _)|[H|(y & Y & H)]]; [elim (proj1 (says_ok _ _ _) Q)|left; exact H|right; eauto].
      * intros [H|[(y & Y) H]]; right; [left; exact H|right; eauto].
    + apply existsb_ueqb_false in E.
      assert (U : forall r', ~ In (key, r') rs).
      { intros r' H. apply (in_map fst) in H. cbn in H. rewrite <- K in H. contradiction. }
      assert (Kn : known deny rs key v <-> deny = false).
      { unfold known. rewrite <- K. split.
        - intros [H _]. destruct deny; [elim (E (H eq_refl))|reflexivity].
        - intros ->. split; [discriminate|]. intros r' R. elim (U r' R). }
      assert (Bd : forall q, field_bad deny rs key v q k <-> deny = true /\ q = [] /\ k = KUnknownField key (map fst fs)).
      { intros q. unfold field_bad. rewrite <- K. split.
        - intros [(A & _ & B & C)|(r' & H & R)]; [auto|elim (U r' H)].
        - intros (A & B & C). left. auto. }
      rewrite Kn. setoid_rewrite Bd. destruct deny.
      * setoid_rewrite says_kind. split.
        -- intros [(q & [-> ->] & ->)|(a & H & _)]; [left; eauto|discriminate H].
        -- intros [(q & (_ & -> & ->) & ->)|[H _]]; [left; eauto|discriminate H].
      * assert (X := IH N2 slots S'). split.
        -- intros [(q & Q & _)|(a & [= <-] & H)]; [elim (proj1 (says_ok _ _ _) Q)|]. right. split; [reflexivity|]. apply X. exact H.
        -- intros [(q & (H & _) & _)|[_ H]]; [discriminate H|]. right. exists None. split; [reflexivity|]. apply X. exact H.
Qed.

(** All entries are known and fine exactly if they are read. *)
Lemma entries_fine deny m fs rs (d : dict) : Forall2 (field_tells m) fs rs -> NoDup (map fst fs) -> wf_dict d ->
  (exists slots, field_entries deny fs (map_access (mk_de m) d) [] = Ok slots) <->
  Forall (fun e => known deny rs (fst e) (snd e)) d.
Proof.
  intros F Nf W. assert (K := field_tells_keys _ _ _ F). assert (Nd := wf_dict_nodup d W).
  assert (Wx : forall key x, In (key, x) d -> wf x).
  { destruct W as [_ W]. rewrite Forall_forall in W. intros key x H. exact (W _ H). }
  split.
  - intros (slots & H). destruct (fields_read deny fs m d Nd [] slots (fun _ H => match H with end) H) as (A & B & _).
    apply Forall_forall. intros [key x] I. cbn [fst snd]. split; [intros D; rewrite <- K; exact (A D key x I)|].
    intros r R. assert (T := field_tells_assoc m fs rs key F).
    assert (Er : assoc key rs = Some r) by (apply assoc_nodup; [rewrite <- K; exact Nf|exact R]). rewrite Er in T.
    destruct (assoc key fs) as [rec|] eqn:Ef; [|destruct T].
    destruct (B key rec x Ef) as (y & Y & _); [apply In_get; [apply W|exact I]|].
    apply (tl_fine _ _ _ T x (Wx _ _ I)). eauto.
  - intros H. rewrite Forall_forall in H. apply (fields_readable deny fs m d Nd []).
    + intros key [].
    + intros D key x I. rewrite K. destruct (H _ I) as [H1 _]. exact (H1 D).
    + intros key rec x Ef I. assert (T := field_tells_assoc m fs rs key F). rewrite Ef in T.
      destruct (assoc key rs) as [r|] eqn:Er; [|destruct T]. apply (tl_fine _ _ _ T x (Wx _ _ I)).
      destruct (H _ I) as [_ H2]. apply H2. apply assoc_In. exact Er.
Qed.

Lemma fill_read m (d : dict) slots p k : forall fs rs, Forall2 (field_tells m) fs rs ->
  (forall key, In key (map fst fs) -> In key (map fst d) -> assoc key slots <> None) ->
  (forall key, ~ In key (map fst d) -> assoc key slots = None) ->
  says (fill_fields fs slots) p k <->
  exists a n r b, rs = a ++ (n, r) :: b /\ ~ may_lack r /\ ~ In n (map fst d) /\
    Forall (fun f => In (fst f) (map fst d) \/ may_lack (snd f)) a /\ p = [] /\ k = KMissingField n.
Proof.
  induction 1 as [|[n rec] [n' r] fs rs [E M] Fs IH]; intros B C; cbn [fill_fields].
  { rewrite says_ok. split; [intros []|]. intros (a & n & r & b & E & _). destruct a; discriminate E. }
  cbn in E, M. subst n'. rewrite says_bind. setoid_rewrite says_map.
  assert (IH' := IH (fun key H => B key (or_intror H)) C). setoid_rewrite IH'.
  assert (D : In n (map fst d) \/ ~ In n (map fst d)).
  { destruct (existsb (ueqb n) (map fst d)) eqn:X; [left; apply existsb_ueqb; exact X|right; apply existsb_ueqb_false; exact X]. }
  destruct D as [D|D].
  - assert (X := B n (or_introl eq_refl) D). destruct (assoc n slots) as [y|]; [|elim X; reflexivity]. rewrite says_ok. split.
    + intros [[]|(y' & _ & a & n0 & r0 & b & -> & L & N & A & P)]. exists ((n, r) :: a), n0, r0, b.
      split; [reflexivity|]. split; [exact L|]. split; [exact N|]. split; [constructor; [left; exact D|exact A]|exact P].
    + intros (a & n0 & r0 & b & E & L & N & A & P). right. exists y. split; [reflexivity|].
      destruct a as [|[n1 r1] a]; injection E as -> -> ->; [contradiction|]. exists a, n0, r0, b.
      inversion A; subst. auto 6.
  - rewrite (C n D), (tl_missing _ _ _ M). split.
    + intros [(L & -> & ->)|(y & Y & a & n0 & r0 & b & -> & L & N & A & P)].
      * exists [], n, r, rs. auto 7.
      * exists ((n, r) :: a), n0, r0, b. split; [reflexivity|]. split; [exact L|]. split; [exact N|]. split; [|exact P].
        constructor; [right; apply (tl_lack _ _ _ M n); eauto|exact A].
    + intros (a & n0 & r0 & b & E & L & N & A & P). destruct a as [|[n1 r1] a]; injection E as -> -> ->.
      * left. destruct P. auto.
      * right. inversion A as [|? ? A1 A2]; subst. destruct A1 as [A1|A1]; [contradiction|]. cbn [snd] in A1.
        apply (tl_lack _ _ _ M n1) in A1. destruct A1 as (y & Y). exists y. split; [exact Y|]. exists a, n0, r0, b. auto 6.
Qed.

Lemma fields_said deny m fs rs (d : dict) p k : Forall2 (field_tells m) fs rs -> NoDup (map fst fs) -> wf_dict d ->
  says (res_bind (field_entries deny fs (map_access (mk_de m) d) []) (fill_fields fs)) p k <->
  fields_refused deny rs d p k.
Proof.
  intros F Nf W. assert (Nd := wf_dict_nodup d W). unfold fields_refused.
  rewrite says_bind, (entries_read deny m fs rs d p k F Nf Nd (proj2 W) []) by (intros key []).
  rewrite <- (entries_fine deny m fs rs d F Nf W).
  assert (X : forall slots, field_entries deny fs (map_access (mk_de m) d) [] = Ok slots ->
    (says (fill_fields fs slots) p k <->
     exists a n r b, rs = a ++ (n, r) :: b /\ ~ may_lack r /\ ~ In n (map fst d) /\
       Forall (fun f => In (fst f) (map fst d) \/ may_lack (snd f)) a /\ p = [] /\ k = KMissingField n)).
  { intros slots H. destruct (fields_read deny fs m d Nd [] slots (fun _ H => match H with end) H) as (_ & B & C).
    apply (fill_read m d slots p k fs rs F).
    - intros key I J E. apply in_map_iff in J. destruct J as ([key' x] & Ek & J). cbn in Ek. subst key'.
      destruct (assoc_total key fs I) as [rec Er]. destruct (B key rec x Er) as (y & _ & Y); [apply In_get; [apply W|exact J]|congruence].
    - intros key N. rewrite (C key); [reflexivity|]. apply get_notin. exact N. }
  split.
  - intros [H|(slots & H & H')]; [left; exact H|right]. split; [eauto|]. apply (X slots H). exact H'.
  - intros [H|[(slots & H) H']]; [left; exact H|right]. exists slots. split; [exact H|]. apply (X slots H). exact H'.
Qed.

Lemma elements_counted n : elements_text n = counted n.
Proof. unfold elements_text, counted. rewrite fmt_nat_decimal. destruct n as [|[|n]]; reflexivity. Qed.

Lemma Forall2_length_tells {A B} (R : A -> B -> Prop) l l' : Forall2 R l l' -> length l = length l'.
Proof. induction 1; cbn; congruence. Qed.

Lemma not_array v : (forall g l, v <> VArray g l) -> ~ is_array v.
Proof. intros H (g & l & ->). elim (H g l eq_refl). Qed.
Lemma not_dict v : (forall g d, v <> VDict g d) -> ~ is_dict v.
Proof. intros H (g & l & ->). elim (H g l eq_refl). Qed.

Lemma struct_said m exp deny fs rs h v p k : Forall2 (field_tells m) fs rs -> NoDup (map fst fs) -> wf v ->
  says (value_visit (mk_de m) v (struct_visitor exp deny fs h)) p k <-> struct_refused deny rs exp v p k.
Proof.
  intros F Nf W. unfold struct_refused.
  assert (T : Forall2 (fun rec r => tells m r rec) (map snd fs) (map snd rs)).
  { clear Nf. induction F as [|f r fs rs [_ M] _ IH]; cbn; constructor; auto. }
  assert (O : ~ is_dict v -> ~ is_array v -> no_method (struct_visitor exp deny fs h) v ->
     says (value_visit (mk_de m) v (struct_visitor exp deny fs h)) p k <->
     (exists g d, v = VDict g d /\ fields_refused deny rs d p k) \/
     (exists g l, v = VArray g l /\ position_refused (map snd rs) (exp ++ counted (length rs)) l p k) \/
     (~ is_dict v /\ ~ is_array v /\ unwanted exp v p k)).
  { intros D A N. rewrite wrong_kind by exact N. split; [intros H; right; right; auto|].
    intros [(g & d & -> & _)|[(g & l & -> & _)|(_ & _ & H)]]; [elim D; exists g, d; reflexivity|elim A; exists g, l; reflexivity|exact H]. }
  destruct v as [t s|t c|t b|t [[]| |]|t []|t d|t l];
    try (apply O; [apply not_dict; discriminate|apply not_array; discriminate|cbn; auto]).
  - cbn [value_visit]. unfold visit_map. cbn [v_map struct_visitor]. rewrite says_map.
    apply wf_VDict in W. rewrite (fields_said deny m fs rs d p k F Nf W). split.
    + intros H. left. eauto.
    + intros [(g & d' & [= <- <-] & H)|[(g & l & X & _)|(N & _)]]; [exact H|discriminate X|]. elim N. exists t, d. reflexivity.
  - cbn [value_visit]. unfold visit_seq. cbn [v_seq struct_visitor]. rewrite says_map.
    apply wf_VArray in W. rewrite (tuple_read m _ _ _ l p k T W), elements_counted, (Forall2_length_tells _ _ _ F). split.
    + intros H. right. left. eauto.
    + intros [(g & d' & X & _)|[(g & l' & [= <- <-] & H)|(_ & N & _)]]; [discriminate X|exact H|]. elim N. exists t, l. reflexivity.
Qed.

(** What only takes arrays, or only dictionaries. *)
Lemma seq_said m (vis : visitor dval) h v p k :
  v_bool vis = None -> v_signed vis = None -> v_unsigned vis = None -> v_i128 vis = None -> v_u128 vis = None ->
  v_f32 vis = None -> v_f64 vis = None -> v_char vis = None -> v_str vis = None -> v_none vis = None ->
  v_unit vis = None -> v_map vis = None -> v_seq vis = Some h ->
  says (value_visit (mk_de m) v vis) p k <->
  (exists g l, v = VArray g l /\ says (h (map (mk_de m) l)) p k) \/ (~ is_array v /\ unwanted (v_expecting vis) v p k).
Proof.
  intros. destruct v as [t s|t c|t b|t [[]| |]|t []|t d|t l];
    try (rewrite wrong_kind by (cbn; auto); split;
      [intros; right; split; [apply not_array; discriminate|assumption]|intros [(g & z' & X & _)|[_ X]]; [discriminate X|exact X]]; fail).
  cbn [value_visit]. unfold visit_seq. match goal with E : v_seq vis = _ |- _ => rewrite E end. split; [eauto|].
  intros [(g & l' & [= <- <-] & X)|[X _]]; [exact X|]. elim X. exists t, l. reflexivity.
Qed.
Lemma map_said m (vis : visitor dval) h v p k :
  v_bool vis = None -> v_signed vis = None -> v_unsigned vis = None -> v_i128 vis = None -> v_u128 vis = None ->
  v_f32 vis = None -> v_f64 vis = None -> v_char vis = None -> v_str vis = None -> v_none vis = None ->
  v_unit vis = None -> v_seq vis = None -> v_map vis = Some h ->
  says (value_visit (mk_de m) v vis) p k <->
  (exists g d, v = VDict g d /\ says (h (map_access (mk_de m) d)) p k) \/ (~ is_dict v /\ unwanted (v_expecting vis) v p k).
Proof.
  intros. destruct v as [t s|t c|t b|t [[]| |]|t []|t d|t l];
    try (rewrite wrong_kind by (cbn; auto); split;
      [intros; right; split; [apply not_dict; discriminate|assumption]|intros [(g & z' & X & _)|[_ X]]; [discriminate X|exact X]]; fail).
  cbn [value_visit]. unfold visit_map. match goal with E : v_map vis = _ |- _ => rewrite E end. split; [eauto|].
  intros [(g & l' & [= <- <-] & X)|[X _]]; [exact X|]. elim X. exists t, d. reflexivity.
Qed.

(** ** Enums *)
Definition shape_tells (m : mode) (s : shape (deser -> res error dval)) (r : shape part) : Prop :=
  match s, r with
  | ShUnit, ShUnit => True
  | ShNew rec, ShNew r => tells m r rec
  | ShTuple recs, ShTuple rs => Forall2 (fun rec r => tells m r rec) recs rs
  | ShStruct fs, ShStruct rs => Forall2 (field_tells m) fs rs /\ NoDup (map fst fs)
  | _, _ => False
  end.

Lemma tuple_said m exp recs rs h v p k : Forall2 (fun rec r => tells m r rec) recs rs -> wf v ->
  says (value_visit (mk_de m) v (tuple_visitor exp recs h)) p k <->
  tuple_refused rs exp (exp ++ counted (length rs)) v p k.
Proof.
  intros T W. unfold tuple_refused. rewrite (seq_said m (tuple_visitor exp recs h)
    (fun l => res_map h (tuple_elements recs (exp ++ elements_text (length recs)) l 0%N))) by reflexivity.
  cbn [v_expecting tuple_visitor seq_visitor]. setoid_rewrite says_map.
  rewrite elements_counted, (Forall2_length_tells _ _ _ T).
  split; (intros [(g & l & -> & H)|H]; [left|right; exact H]); exists g, l; (split; [reflexivity|]);
    apply wf_VArray in W; apply (tuple_read m recs rs _ l p k T W); exact H.
Qed.

Lemma payload_said m full s r key t x p k : shape_tells m s r -> wf x ->
  says (variant_value full s (key, t, mk_de m x)) p k <-> exists q, payload_refused full r x q k /\ p = key :: q.
Proof.
  intros M W. destruct s as [|rec|recs|fs], r as [|r|rs|rs]; try (destruct M; fail);
    cbn [variant_value shape_tells payload_refused] in *; rewrite says_map, says_value.
  - setoid_rewrite (unit_read m (lit "unit") x). reflexivity.
  - setoid_rewrite (tl_refused _ _ _ M x _ _ W). reflexivity.
  - setoid_rewrite says_any. setoid_rewrite (fun q => tuple_said m _ recs rs EVTuple x q k M W). rewrite <- app_assoc. reflexivity.
  - destruct M as [F N]. setoid_rewrite says_any.
    setoid_rewrite (fun q => struct_said m _ false fs rs EVStruct x q k F N W). reflexivity.
Qed.

Definition variants_tell (m : mode) (vs : list (ustr * shape (deser -> res error dval)))
                         (rs : list (ustr * shape part)) : Prop :=
  Forall2 (fun v r => fst v = fst r /\ shape_tells m (snd v) (snd r)) vs rs.
Lemma variants_tell_keys m vs rs : variants_tell m vs rs -> map fst vs = map fst rs.
Proof. induction 1 as [|v r vs rs [E _] _ IH]; cbn; congruence. Qed.
Lemma variants_tell_assoc m vs rs k : variants_tell m vs rs ->
  match assoc k vs, assoc k rs with
  | Some s, Some r => shape_tells m s r
  | None, None => True
  | _, _ => False
  end.
Proof.
  induction 1 as [|[n s] [n' r] vs rs [E M] _ IH]; [exact I|]. cbn in E, M. subst n'. cbn [assoc].
  destruct (ueqb k n); assumption.
Qed.

Lemma unit_only_said m s r p k : shape_tells m s r ->
  says (variant_unit_only s) p k <-> exists exp, lacks_payload r exp /\ p = [] /\ k = KInvalidType AUnitVariant exp.
Proof.
  intros M. destruct s as [|rec|recs|fs], r as [|r|rs|rs]; try (destruct M; fail); cbn [variant_unit_only];
    unfold invalid_type; rewrite ?says_ok, ?says_kind.
  - split; [intros []|]. intros (exp & H & _). inversion H.
  - split; [intros [-> ->]; eexists; split; [constructor|auto]|]. intros (exp & H & A & B). inversion H; subst. auto.
  - split; [intros [-> ->]; eexists; split; [constructor|auto]|]. intros (exp & H & A & B). inversion H; subst. auto.
  - split; [intros [-> ->]; eexists; split; [constructor|auto]|]. intros (exp & H & A & B). inversion H; subst. auto.
Qed.

Lemma named_said m ident vs rs s p k : variants_tell m vs rs -> NoDup (map fst vs) ->
  says (visit_enum (enum_visitor ident vs) (EUnitOnly (DStr s))) p k <-> p = [] /\ name_refused rs s k.
Proof.
  intros V N. unfold visit_enum, name_refused. cbn [v_enum enum_visitor]. rewrite says_bind, variant_key_str.
  assert (A := variants_tell_assoc m vs rs s V). assert (K := variants_tell_keys m vs rs V). rewrite K in *.
  destruct (existsb (ueqb s) (map fst rs)) eqn:E.
  - apply existsb_ueqb in E. destruct (assoc_total s rs E) as [r Er]. rewrite Er in A.
    destruct (assoc s vs) as [sh|] eqn:Es; [|destruct A].
    assert (U : forall r', variant rs s r' <-> r' = r).
    { intros r'. unfold variant. split; [intros H; apply assoc_nodup in H; [congruence|exact N]|].
      intros ->. apply assoc_In. exact Er. }
    assert (X := unit_only_said m sh r p k A). split.
    + intros [H|(name & [= <-] & H)]; [elim (proj1 (says_ok _ _ _) H)|]. rewrite Es, says_map, X in H.
      destruct H as (exp & L & P & Q). split; [exact P|]. right. exists r, exp. split; [apply U; reflexivity|]. auto.
    + intros (P & [[H _]|(r' & exp & R & L & Q)]); [contradiction|]. apply U in R. subst r'. right. exists s.
      split; [reflexivity|]. rewrite Es, says_map, X. eauto.
  - apply existsb_ueqb_false in E. split.
    + intros [H|(name & H & _)]; [|discriminate H]. apply says_kind in H. destruct H as [P Q]. auto.
    + intros (P & [[_ Q]|(r' & exp & R & _)]); [left; apply says_kind; auto|]. apply (in_map fst) in R. contradiction.
Qed.

Lemma numbered_said m ident vs rs z p k : variants_tell m vs rs -> NoDup (map fst vs) ->
  says (visit_enum (enum_visitor ident vs) (EUnitOnly (DU32 z))) p k <-> p = [] /\
     ((nth_error rs (Z.to_nat z) = None /\
       k = KInvalidValue (AUnsigned z) (lit "variant index 0 <= i < " ++ decimal (N.of_nat (length rs)))) \/
      exists s sh exp, nth_error rs (Z.to_nat z) = Some (s, sh) /\ lacks_payload sh exp /\
        k = KInvalidType AUnitVariant exp).
Proof.
  intros V N. unfold visit_enum. cbn [v_enum enum_visitor]. rewrite says_bind.
  assert (K := variants_tell_keys m vs rs V).
  assert (E : variant_key (map fst vs) (DU32 z) =
              match nth_error (map fst vs) (Z.to_nat z) with
              | Some v => Ok v
              | None => invalid_value (AUnsigned z) (lit "variant index 0 <= i < " ++ fmt_nat (N.of_nat (length (map fst vs))))
              end) by reflexivity.
  rewrite E. clear E. rewrite K, fmt_nat_decimal, map_length, nth_error_map. rewrite K in N.
  destruct (nth_error rs (Z.to_nat z)) as [[s r]|] eqn:En; cbn [option_map fst].
  - assert (Er : assoc s rs = Some r) by (apply assoc_nodup; [exact N|]; eapply nth_error_In; exact En).
    assert (A := variants_tell_assoc m vs rs s V). rewrite Er in A.
    destruct (assoc s vs) as [sh|] eqn:Es; [|destruct A]. assert (X := unit_only_said m sh r p k A). split.
    + intros [H|(name & [= <-] & H)]; [elim (proj1 (says_ok _ _ _) H)|]. rewrite Es, says_map, X in H.
      destruct H as (exp & L & P & Q). split; [exact P|]. right. exists s, r, exp. auto.
    + intros (P & [[H _]|(s' & r' & exp & [= <- <-] & L & Q)]); [discriminate H|]. right. exists s.
      split; [reflexivity|]. rewrite Es, says_map, X. eauto.
  - unfold invalid_value. rewrite says_kind. split.
    + intros [[P Q]|(name & H & _)]; [auto|discriminate H].
    + intros (P & [[_ Q]|(s' & r' & exp & H & _)]); [auto|discriminate H].
Qed.

Lemma entry_said m ident vs rs g (d : dict) p k : variants_tell m vs rs -> NoDup (map fst vs) -> wf (VDict g d) ->
  says (visit_enum (enum_visitor ident vs) (EMap (map_access (mk_de m) d))) p k <->
  (d = [] /\ p = [] /\ k = KInvalidType AMap (lit "enum")) \/
  (exists key x r q, d = (key, x) :: r /\ p = key :: q /\
     ((~ In key (map fst rs) /\ q = [] /\ k = KUnknownVariant key (map fst rs)) \/
      exists sh, variant rs key sh /\ payload_refused (ident ++ lit "::" ++ key) sh x q k)).
Proof.
  intros V N W. unfold visit_enum. cbn [v_enum enum_visitor]. destruct d as [|[key x] d]; cbn [map_access map enum_first fst snd].
  { unfold invalid_type. rewrite says_kind. split; [intros [P Q]; auto|].
    intros [(_ & P & Q)|(k' & x & r & q & E & _)]; [auto|discriminate E]. }
  assert (Wx : wf x) by (destruct W as [_ W]; cbn in W; apply W).
  assert (A := variants_tell_assoc m vs rs key V). assert (K := variants_tell_keys m vs rs V). rewrite K in *.
  rewrite says_bind, says_next_key. setoid_rewrite next_key_ok. setoid_rewrite variant_key_str.
  destruct (existsb (ueqb key) (map fst rs)) eqn:E.
  - apply existsb_ueqb in E. destruct (assoc_total key rs E) as [r Er]. rewrite Er in A.
    destruct (assoc key vs) as [sh|] eqn:Es; [|destruct A].
    assert (U : forall r', variant rs key r' <-> r' = r).
    { intros r'. unfold variant. split; [intros H; apply assoc_nodup in H; [congruence|exact N]|].
      intros ->. apply assoc_In. exact Er. }
    assert (X := payload_said m (ident ++ lit "::" ++ key) sh r key (vtag x) x p k A Wx). split.
    + intros [(q & H & _)|(name & [= <-] & H)]; [elim (proj1 (says_ok _ _ _) H)|]. rewrite Es, says_map, X in H.
      destruct H as (q & H & ->). right. exists key, x, d, q. split; [reflexivity|]. split; [reflexivity|]. right.
      exists r. split; [apply U; reflexivity|exact H].
    + intros [(H & _)|(key' & x' & d' & q & [= <- <- <-] & -> & [(H & _)|(r' & R & H)])]; [discriminate H|contradiction|].
      apply U in R. subst r'. right. exists key. split; [reflexivity|]. rewrite Es, says_map, X. eauto.
  - apply existsb_ueqb_false in E. split.
    + intros [(q & H & ->)|(name & H & _)]; [|discriminate H]. apply says_kind in H. destruct H as [-> ->].
      right. exists key, x, d, []. auto 6.
    + intros [(H & _)|(key' & x' & d' & q & [= <- <- <-] & -> & [(_ & -> & ->)|(r' & R & H)])]; [discriminate H| |].
      * left. exists []. split; [apply says_kind; auto|reflexivity].
      * apply (in_map fst) in R. contradiction.
Qed.

Lemma enum_said m ident vs rs v p k : variants_tell m vs rs -> NoDup (map fst vs) -> wf v ->
  says (enum_visit (mk_de m) v (enum_visitor ident vs)) p k <-> enum_refused ident rs v p k.
Proof.
  intros M N W. unfold enum_refused.
  assert (Z : (forall g s, v <> VString g s) -> ~ is_dict v -> (forall g n z, v = VNum g n -> ~ unsigned32 n z) ->
    (enum_visit (mk_de m) v (enum_visitor ident vs) = de_any (mk_de m v) (enum_visitor ident vs)) ->
    (says (enum_visit (mk_de m) v (enum_visitor ident vs)) p k <->
    (exists g s, v = VString g s /\ p = [] /\ name_refused rs s k) \/
    (exists g n z, v = VNum g n /\ unsigned32 n z /\ p = [] /\
     ((nth_error rs (Z.to_nat z) = None /\
       k = KInvalidValue (AUnsigned z) (lit "variant index 0 <= i < " ++ decimal (N.of_nat (length rs)))) \/
      exists s sh exp, nth_error rs (Z.to_nat z) = Some (s, sh) /\ lacks_payload sh exp /\
        k = KInvalidType AUnitVariant exp)) \/
    (exists g, v = VDict g [] /\ p = [] /\ k = KInvalidType AMap (lit "enum")) \/
    (exists g key x r q, v = VDict g ((key, x) :: r) /\ p = key :: q /\
     ((~ In key (map fst rs) /\ q = [] /\ k = KUnknownVariant key (map fst rs)) \/
      exists sh, variant rs key sh /\ payload_refused (ident ++ lit "::" ++ key) sh x q k)) \/
    (~ is_dict v /\ (forall g s, v <> VString g s) /\ (forall g n z, v = VNum g n -> ~ unsigned32 n z) /\
     unwanted (lit "enum " ++ ident) v p k))).
  { intros Hs Hd Hn E. rewrite E, says_any, wrong_kind.
    - cbn [v_expecting enum_visitor]. split; [intros H; right; right; right; right; auto|].
      intros [(g & s & -> & _)|[(g & n & z & -> & U & _)|[(g & -> & _)|[(g & key & x & r & q & -> & _)|(_ & _ & _ & H)]]]].
      + elim (Hs g s eq_refl).
      + elim (Hn g n z eq_refl U).
      + elim Hd. eexists. eexists. reflexivity.
      + elim Hd. eexists. eexists. reflexivity.
      + exact H.
    - destruct v as [t s|t c|t b|t [[]| |]|t []|t d|t l]; cbn; auto. }
  destruct v as [g s|g c|g b|g n|g e|g d|g l];
    try (apply Z; [discriminate|apply not_dict; discriminate|discriminate|reflexivity]; fail).
  - cbn [enum_visit]. rewrite (named_said m ident vs rs s p k M N). split.
    + intros H. left. eauto.
    + intros [(g' & s' & [= <- <-] & H)|[(? & ? & ? & H & _)|[(? & H & _)|[(? & ? & ? & ? & ? & H & _)|(_ & H & _)]]]];
        try discriminate H; [exact H|elim (H g s eq_refl)].
  - assert (U : forall z, num_to_u32 n = Some z <-> unsigned32 n z).
    { intros z. unfold unsigned32. split.
      - destruct n as [[]| |]; cbn; intros H; try discriminate; injection H as <-; eexists; (split; [reflexivity|cbn; auto]).
      - intros (j & -> & Hj). cbn in Hj. destruct Hj as [<-|[<-|[<-|[]]]]; reflexivity. }
    destruct (num_to_u32 n) as [z|] eqn:E.
    + cbn [enum_visit]. rewrite E, (numbered_said m ident vs rs z p k M N). split.
      * intros H. right. left. exists g, n, z. split; [reflexivity|]. split; [apply U; reflexivity|exact H].
      * intros [(? & ? & H & _)|[(g' & n' & z' & [= <- <-] & H' & H)|[(? & H & _)|[(? & ? & ? & ? & ? & H & _)|(_ & _ & H & _)]]]];
          try discriminate H.
        -- apply U in H'. injection H' as <-. exact H.
        -- elim (H g n z eq_refl). apply U. reflexivity.
    + apply Z; [discriminate|apply not_dict; discriminate| |cbn [enum_visit]; rewrite E; reflexivity].
      intros g' n' z [= <- <-] H. apply U in H. discriminate H.
  - cbn [enum_visit]. rewrite (entry_said m ident vs rs g d p k M N W). split.
    + intros [(-> & H)|(key & x & r & q & -> & H)]; right; right; [left; eauto|right; left]. exists g, key, x, r, q. auto.
    + intros [(? & ? & H & _)|[(? & ? & ? & H & _)|[(? & [= <- ->] & H)|[(? & key & x & r & q & [= <- ->] & H)|(H & _)]]]];
        try discriminate H.
      * left. auto.
      * right. exists key, x, r, q. auto.
      * elim H. exists g, d. reflexivity.
Qed.

Lemma enum_mode m {A} (vis : visitor A) v p k :
  says (de_enum (mk_de m v) vis) p k <-> says (enum_visit (mk_de m) v vis) p k.
Proof. destruct m; cbn [mk_de de_enum]; [apply says_settle|apply says_retagged]. Qed.

(** ** The special structs *)
Lemma presented_said m name v w {A} (vis : visitor A) p k : wf v -> presents m name v w ->
  says (de_struct name (mk_de m v) vis) p k <-> says (value_visit (mk_de m) w vis) p k.
Proof.
  intros W P. destruct m as [i f|]; [|inversion P; subst; apply says_retagged].
  cbn [mk_de]. unfold de_struct. rewrite says_settle.
  assert (X : forall n, magic_map n f v = if ueqb n value_name then Some (value_magic v)
    else if ueqb n rel_name then Some (rel_magic f v) else if ueqb n tagged_name then Some (tagged_magic v) else None) by reflexivity.
  inversion P as [|? ? ? ? N|? ? ?|? ? ? S|? ? ? x S X0|? ? ? S|? ? ? x q S X0 Q|? ? ? x S X0 Q]; subst.
  - assert (E : magic_map name f w = None).
    { rewrite X. destruct (ueqb name value_name) eqn:E1; [apply ueqb_eq in E1; elim N; cbn; auto|].
      destruct (ueqb name rel_name) eqn:E2; [apply ueqb_eq in E2; elim N; cbn; auto|].
      destruct (ueqb name tagged_name) eqn:E3; [apply ueqb_eq in E3; elim N; cbn; auto|reflexivity]. }
    rewrite E. apply (says_any (MConf i f)).
  - reflexivity.
  - destruct (says_source_dec w W) as [(_ & t & d & -> & E)|(S' & _)]; [|contradiction].
    change (magic_map tagged_name f (VDict t d)) with (Some (tagged_magic (VDict t d))). cbv iota. rewrite E. reflexivity.
  - destruct (says_source_dec v W) as [(S' & _)|(_ & x' & X' & E)]; [contradiction|].
    change (magic_map tagged_name f v) with (Some (tagged_magic v)). cbv iota. rewrite E.
    apply entry_or_self_get in X0, X'; try exact W. subst. reflexivity.
  - destruct (says_file_dec f w W) as [(_ & t & d & -> & E)|(S' & _)]; [|contradiction].
    change (magic_map rel_name f (VDict t d)) with (Some (rel_magic f (VDict t d))). cbv iota. rewrite E. reflexivity.
  - destruct (says_file_dec f v W) as [(S' & _)|(_ & x' & X' & [(q' & Q' & E)|(Q' & _)])]; [contradiction| |elim (Q' q Q)].
    change (magic_map rel_name f v) with (Some (rel_magic f v)). cbv iota. rewrite E.
    apply entry_or_self_get in X0, X'; try exact W. subst.
    assert (q' = q) as ->. { destruct Q as (md & G & H), Q' as (md' & G' & H'). congruence. }
    reflexivity.
  - destruct (says_file_dec f v W) as [(S' & _)|(_ & x' & X' & [(q' & Q' & _)|(_ & E)])]; [contradiction|elim (Q q' Q')|].
    change (magic_map rel_name f v) with (Some (rel_magic f v)). cbv iota. rewrite E.
    apply entry_or_self_get in X0, X'; try exact W. subst. reflexivity.
Qed.
