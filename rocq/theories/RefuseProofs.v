(** Typed extraction fails exactly as [SpecRefuse.refuses] says. *)
From Coq Require Import Ascii String ZArith NArith Bool Lia.
From Coq Require Import Floats.SpecFloat.
From Coq Require Import List.
From Verif Require Import SpecNear NearProofs.
From Verif Require Import Res BMap Str Profile Tag Num Value NumParse Metadata Err Coalesce Figment Fmt De.
From Verif Require Import SpecValue SpecParse SpecShow SpecLossy SpecDe SpecMagic SpecExtract SpecDoc SpecTaken SpecGives SpecRefuse.
From Verif Require Import BMapProofs StrProofs ValueProofs NumParseProofs LossyProofs DeProofs BlameProofs ExtractProofs
  SpecRt RtProofs SerProofs MagicProofs MeaningProofs TakenProofs GivesProofs FmtProofs ShowProofs.
Import ListNotations.

(** ** What an error says *)
Definition says {A} (r : res error A) (p : list ustr) (k : kind) : Prop :=
  exists e, r = Err e /\ e_path e = p /\ e_kind e = k.

Lemma says_ok {A} (a : A) p k : says (Ok a) p k <-> False.
Proof. split; [intros (e & H & _); discriminate H|intros []]. Qed.
Lemma says_kind {A} k0 p k : @says A (Err (err_of_kind k0)) p k <-> p = [] /\ k = k0.
Proof.
  split.
  - intros (e & [= <-] & <- & <-). auto.
  - intros [-> ->]. eexists. split; [reflexivity|]. auto.
Qed.
Lemma says_map_err {A} g (r : res error A) p k :
  (forall e, e_path (g e) = e_path e /\ e_kind (g e) = e_kind e) -> says (res_map_err g r) p k <-> says r p k.
Proof.
  intros G. destruct r as [a|e]; cbn [res_map_err]; [rewrite !says_ok; tauto|]. unfold says. destruct (G e) as [G1 G2]. split.
  - intros (e' & [= <-] & <- & <-). exists e. auto.
  - intros (e' & [= <-] & <- & <-). eexists. split; [reflexivity|]. auto.
Qed.
Lemma retagged_same t e : e_path (retagged t e) = e_path e /\ e_kind (retagged t e) = e_kind e.
Proof. destruct e; auto. Qed.
Lemma resolved_same f e : e_path (resolved e f) = e_path e /\ e_kind (resolved e f) = e_kind e.
Proof. destruct e; auto. Qed.
Lemma says_settle {A} f t (r : res error A) p k : says (settle f t r) p k <-> says r p k.
Proof. apply says_map_err. intros e. destruct e; split; reflexivity. Qed.
Lemma says_retagged {A} t (r : res error A) p k : says (res_map_err (retagged t) r) p k <-> says r p k.
Proof. apply says_map_err. intros. apply retagged_same. Qed.
Lemma says_mode_settle {A} m t (r : res error A) p k : says (mode_settle m t r) p k <-> says r p k.
Proof. destruct m; [apply says_settle|apply says_retagged]. Qed.
Lemma says_map {A B} (g : A -> B) (r : res error A) p k : says (res_map g r) p k <-> says r p k.
Proof.
  destruct r as [a|e]; cbn; [rewrite !says_ok; tauto|]. unfold says.
  split; intros (e' & H & E); injection H as <-; eauto.
Qed.
Lemma says_bind {A B} (r : res error A) (g : A -> res error B) p k :
  says (res_bind r g) p k <-> says r p k \/ exists a, r = Ok a /\ says (g a) p k.
Proof.
  destruct r as [a|e]; cbn [res_bind].
  - rewrite says_ok. split; [eauto|]. intros [[]|(a' & [= <-] & H)]. exact H.
  - unfold says. split.
    + intros (e' & [= <-] & E). left. eauto.
    + intros [(e' & [= <-] & E)|(a & H & _)]; [eauto|discriminate H].
Qed.
Lemma says_prefixed {A} key (r : res error A) p k :
  says (res_map_err (prefixed key) r) p k <-> exists q, says r q k /\ p = key :: q.
Proof.
  destruct r as [a|e]; cbn [res_map_err].
  - rewrite says_ok. split; [intros []|]. intros (q & H & _). exact (proj1 (says_ok _ _ _) H).
  - unfold says. split.
    + intros (e' & [= <-] & <- & <-). exists (e_path e). destruct e. eauto.
    + intros (q & (e' & [= <-] & <- & <-) & ->). eexists. split; [reflexivity|]. destruct e. auto.
Qed.
Lemma says_element {A} (seed : deser -> res error A) n d p k :
  says (next_element seed n d) p k <-> exists q, says (seed d) q k /\ p = decimal n :: q.
Proof. unfold next_element. rewrite says_prefixed, fmt_nat_decimal. reflexivity. Qed.
Lemma says_at_key {A} key t (r : res error A) p k :
  says (at_key key t r) p k <-> exists q, says r q k /\ p = key :: q.
Proof.
  unfold at_key. rewrite <- says_prefixed. destruct r as [a|e]; cbn [res_map_err]; [rewrite !says_ok; tauto|].
  unfold says. split; intros (e' & [= <-] & <- & <-); (eexists; split; [reflexivity|]); destruct e; auto.
Qed.
Lemma says_value {A} (seed : deser -> res error A) key t d p k :
  says (next_value seed (key, t, d)) p k <-> exists q, says (seed d) q k /\ p = key :: q.
Proof. apply (says_at_key key t (seed d)). Qed.
Lemma says_next_key {A} (seed : deser -> res error A) key t d p k :
  says (next_key seed (key, t, d)) p k <-> exists q, says (seed (DStr key)) q k /\ p = key :: q.
Proof. apply (says_at_key key t (seed (DStr key))). Qed.
Lemma says_any m {A} (vis : visitor A) v p k :
  says (de_any (mk_de m v) vis) p k <-> says (value_visit (mk_de m) v vis) p k.
Proof. destruct m; cbn [mk_de de_any]; [apply says_settle|apply says_retagged]. Qed.

Lemma any_err m {A} (vis : visitor A) v e :
  de_any (mk_de m v) vis = Err e -> exists e', value_visit (mk_de m) v vis = Err e'.
Proof. destruct m; cbn [mk_de de_any settle]; unfold settle; destruct (value_visit _ v vis); cbn; intros H; try discriminate H; eauto. Qed.

(** ** Values of a wrong kind *)
Definition describe (v : value) : actual :=
  match v with
  | VString _ s => AStr s
  | VChar _ c => AStr [c]
  | VBool _ b => ABool b
  | VNum _ (NInt I128 z) => AOther (lit "integer `" ++ fmt_int z ++ lit "` as i128")
  | VNum _ (NInt U128 z) => AOther (lit "integer `" ++ fmt_int z ++ lit "` as u128")
  | VNum _ (NInt j z) => int_shown j z
  | VNum _ (NF32 x) => AFloat (f32_to_f64 x)
  | VNum _ (NF64 x) => AFloat x
  | VEmpty _ EUnit => AUnit
  | VEmpty _ ENone => AOption
  | VDict _ _ => AMap
  | VArray _ _ => ASeq
  end.
Lemma described_iff v a : described v a <-> a = describe v.
Proof.
  split.
  - intros H. destruct H as [| | |t j z J|t j z J|t z|t z|t x y C| | | | |]; try reflexivity.
    + cbn in J. destruct J as [<-|[<-|[<-|[<-|[<-|[]]]]]]; reflexivity.
    + cbn in J. destruct J as [<-|[<-|[<-|[<-|[<-|[]]]]]]; reflexivity.
    + cbn [describe]. rewrite fmt_int_show. reflexivity.
    + cbn [describe]. rewrite fmt_int_show. reflexivity.
    + apply widen_converted in C. subst y. reflexivity.
  - intros ->. destruct v as [t s|t c|t b|t [j z|x|x]|t []|t d|t l]; cbn [describe]; try constructor.
    + destruct j; cbn [int_shown]; rewrite ?fmt_int_show; constructor; cbn; auto 6.
    + apply widen_converted. reflexivity.
Qed.
Lemma unwanted_iff exp v p k : unwanted exp v p k <-> p = [] /\ k = KInvalidType (describe v) exp.
Proof.
  unfold unwanted. split.
  - intros (-> & a & D & ->). apply described_iff in D. subst a. auto.
  - intros [-> ->]. split; [reflexivity|]. exists (describe v). split; [apply described_iff|]; reflexivity.
Qed.

Ltac visits := cbn [value_visit num_visit empty_visit];
  unfold visit_str, visit_char, visit_str, visit_bool, visit_unsigned, visit_signed, visit_i128, visit_u128, visit_f32,
    visit_f64, visit_unit, visit_none, visit_map, visit_seq.

(** A visitor that has no method for the value. *)
Definition no_method {A} (vis : visitor A) (v : value) : Prop :=
  match v with
  | VString _ _ => v_str vis = None
  | VChar _ _ => v_char vis = None /\ v_str vis = None
  | VBool _ _ => v_bool vis = None
  | VNum _ (NInt U128 _) => v_u128 vis = None
  | VNum _ (NInt I128 _) => v_i128 vis = None
  | VNum _ (NInt (U8 | U16 | U32 | U64 | USize) _) => v_unsigned vis = None
  | VNum _ (NInt _ _) => v_signed vis = None
  | VNum _ (NF32 _) => v_f32 vis = None /\ v_f64 vis = None
  | VNum _ (NF64 _) => v_f64 vis = None
  | VEmpty _ EUnit => v_unit vis = None
  | VEmpty _ ENone => v_none vis = None
  | VDict _ _ => v_map vis = None
  | VArray _ _ => v_seq vis = None
  end.
Lemma wrong_kind {A} mk (vis : visitor A) v p k : no_method vis v ->
  says (value_visit mk v vis) p k <-> unwanted (v_expecting vis) v p k.
Proof.
  intros N. rewrite unwanted_iff.
  assert (E : value_visit mk v vis = Err (err_of_kind (KInvalidType (describe v) (v_expecting vis)))).
  { destruct v as [t s|t c|t b|t [[]| |]|t []|t d|t l]; cbn [no_method] in N; visits; cbn [describe int_shown];
      try (rewrite N; reflexivity); destruct N as [N1 N2]; rewrite N1, N2; reflexivity. }
  rewrite E. apply says_kind.
Qed.

(** ** Scalars *)
Lemma bool_refused m v p k :
  says (de_bool (mk_de m v) bool_visitor) p k <->
  (forall b, ~ stands_for_bool (reading m) v b) /\ unwanted (lit "a boolean") v p k.
Proof.
  assert (B := fun y => bool_extracted m v y). change (mode_interp m) with (reading m) in B.
  assert (P : forall v', (forall b, v' <> VBool (vtag v') b) ->
    says (value_visit DPlain v' bool_visitor) p k <-> unwanted (lit "a boolean") v' p k).
  { intros v' N. apply (wrong_kind DPlain bool_visitor). destruct v' as [t s|t c|t b|t [[]| |]|t []|t d|t l]; cbn; auto.
    elim (N b). reflexivity. }
  destruct (de_bool (mk_de m v) bool_visitor) as [y|e] eqn:E.
  - rewrite says_ok. split; [intros []|]. intros [N _]. destruct (proj1 (B y) eq_refl) as (b & S & _). exact (N b S).
  - assert (N : forall b, ~ stands_for_bool (reading m) v b).
    { intros b S. assert (X := proj2 (B (EVBool b)) (ex_intro _ b (conj S eq_refl))). discriminate X. }
    rewrite <- E. clear E B.
    assert (V : forall b, v <> VBool (vtag v) b). { intros b H. apply (N b). rewrite H. constructor. }
    rewrite <- (P v V).
    assert (X : says (de_bool (mk_de m v) bool_visitor) p k <-> says (value_visit DPlain v bool_visitor) p k).
    { destruct m as [i f|]; cbn [mk_de de_bool].
      - rewrite says_settle. cbn [de_any]. rewrite says_retagged. destruct i; cbn [interpret_as_bool]; [reflexivity|].
        destruct (to_bool_lossy v) as [b|] eqn:T; [|reflexivity]. elim (N b). apply sb_lossy, to_bool_lossy_spec. exact T.
      - cbn [de_any]. apply says_retagged. }
    rewrite X. tauto.
Qed.

(** A number is read as what the value stands for. *)
Lemma num_read (vis : visitor dval) m v p k :
  (exists n, stands_for_num (reading m) v n /\ (forall n', stands_for_num (reading m) v n' -> n' = n) /\
     (says (de_num (mk_de m v) vis) p k <-> says (num_visit n vis) p k)) \/
  ((forall n, ~ stands_for_num (reading m) v n) /\ (forall t n, v <> VNum t n) /\
   (says (de_num (mk_de m v) vis) p k <-> says (value_visit DPlain v vis) p k)).
Proof.
  assert (X : reading m = Exact -> 
     (exists n, stands_for_num (reading m) v n /\ (forall n', stands_for_num (reading m) v n' -> n' = n) /\
        (says (value_visit DPlain v vis) p k <-> says (num_visit n vis) p k)) \/
     ((forall n, ~ stands_for_num (reading m) v n) /\ (forall t n, v <> VNum t n))).
  { intros ->. destruct v as [t s|t c|t b|t n|t e|t d|t l];
      try (right; split; [intros n H; inversion H|discriminate]; fail).
    left. exists n. split; [constructor|]. split; [intros n' H; inversion H; reflexivity|reflexivity]. }
  destruct m as [i f|]; cbn [mk_de de_num reading] in *.
  - setoid_rewrite says_settle. cbn [de_any]. setoid_rewrite says_retagged. destruct i; cbn [interpret_as_num].
    + destruct (X eq_refl) as [Y|[Y1 Y2]]; [left; exact Y|right]. split; [exact Y1|]. split; [exact Y2|reflexivity].
    + clear X. destruct (to_num_lossy v) as [n|] eqn:E.
      * left. exists n. assert (S : stands_for_num Lossy v n).
        { destruct v as [t s|t c|t b|t n'|t e|t d|t l]; try discriminate E.
          - constructor. apply num_from_str_spec. exact E.
          - injection E as <-. constructor. }
        split; [exact S|]. split; [|reflexivity]. intros n' H.
        inversion H as [? t ?|t s ? Hs]; subst; cbn in E; [congruence|]. apply num_from_str_spec in Hs. congruence.
      * right. split; [|split; [|reflexivity]].
        -- intros n H. inversion H as [? t ?|t s ? Hs]; subst; cbn in E; [discriminate E|]. apply num_from_str_spec in Hs. congruence.
        -- intros t n ->. discriminate E.
  - cbn [de_any]. setoid_rewrite says_retagged. destruct (X eq_refl) as [Y|[Y1 Y2]]; [left; exact Y|right].
    split; [exact Y1|]. split; [exact Y2|reflexivity].
Qed.

Lemma holds_range k z : in_range k z = true <-> holds k z.
Proof. apply in_range_holds. Qed.

Lemma int_read m j v p k : narrow j ->
  says (de_num (mk_de m v) (int_visitor j)) p k <-> int_refused (reading m) j v p k.
Proof.
  intros J. unfold int_refused. change (called j) with (int_name j).
  destruct (num_read (int_visitor j) m v p k) as [(n & S & U & E)|(N & V & E)]; rewrite E; clear E.
  - assert (R : (exists j' z, n = NInt j' z /\ narrow j') \/ (forall j' z, n = NInt j' z -> ~ narrow j')).
    { destruct n as [[] z| |]; try (left; eexists; eexists; split; [reflexivity|exact I]; fail); right; intros ? ? H Q; try discriminate H;
        injection H as <- _; exact Q. }
    destruct R as [(j' & z & -> & Nj)|R].
    + assert (X : says (num_visit (NInt j' z) (int_visitor j)) p k <->
                  ~ holds j z /\ p = [] /\ k = KInvalidValue (int_shown j' z) (int_name j)).
      { assert (num_visit (NInt j' z) (int_visitor j) =
          if in_range j z then Ok (EVInt j z) else invalid_value (int_shown j' z) (int_name j)) as ->.
        { destruct j'; try destruct Nj; reflexivity. }
        rewrite <- holds_range. destruct (in_range j z).
        - rewrite says_ok. split; [intros []|]. intros [H _]. elim H. reflexivity.
        - unfold invalid_value. rewrite says_kind. split; [intros [A B]; split; [discriminate|auto]|tauto]. }
      rewrite X. split.
      * intros (A & B & C). left. exists j', z. auto.
      * intros [(j2 & z2 & S2 & N2 & A & B & C)|[(n2 & S2 & N2 & _)|(N2 & _)]].
        -- apply U in S2. injection S2 as -> ->. auto.
        -- apply U in S2. subst n2. elim (N2 _ _ eq_refl Nj).
        -- elim (N2 _ S).
    + assert (X : says (num_visit n (int_visitor j)) p k <-> unwanted (int_name j) (VNum tag_default n) p k).
      { change (num_visit n (int_visitor j)) with (value_visit DPlain (VNum tag_default n) (int_visitor j)).
        apply (wrong_kind DPlain (int_visitor j)). destruct n as [[] z| |]; cbn; auto; elim (R _ _ eq_refl I). }
      rewrite X. split.
      * intros H. right. left. exists n. auto.
      * intros [(j2 & z2 & S2 & N2 & _)|[(n2 & S2 & N2 & H)|(N2 & _)]].
        -- apply U in S2. elim (R _ _ (eq_sym S2) N2).
        -- apply U in S2. subst n2. exact H.
        -- elim (N2 _ S).
  - rewrite (wrong_kind DPlain (int_visitor j)).
    + cbn [v_expecting int_visitor]. split; [intros H; right; right; auto|].
      intros [(j2 & z2 & S2 & _)|[(n2 & S2 & _)|(_ & H)]]; [elim (N _ S2)|elim (N _ S2)|exact H].
    + destruct v as [t s|t c|t b|t n|t []|t d|t l]; cbn; auto. elim (V _ _ eq_refl).
Qed.

Lemma float_read m (vis : visitor dval) v p k :
  (forall j z, narrow j -> exists y, num_visit (NInt j z) vis = Ok y) ->
  (forall x, (exists y, num_visit (NF32 x) vis = Ok y) /\ exists y, num_visit (NF64 x) vis = Ok y) ->
  (forall v, (forall t n, v <> VNum t n) -> no_method vis v) -> v_i128 vis = None -> v_u128 vis = None ->
  says (de_num (mk_de m v) vis) p k <-> float_refused (reading m) (v_expecting vis) v p k.
Proof.
  intros A B C D1 D2. unfold float_refused.
  destruct (num_read vis m v p k) as [(n & S & U & E)|(N & V & E)]; rewrite E; clear E.
  - assert (R : (exists j z, n = NInt j z /\ ~ narrow j) \/ ((exists y, num_visit n vis = Ok y) /\ forall j z, n = NInt j z -> narrow j)).
    { destruct n as [j z|x|x].
      - destruct (match j with U128 | I128 => true | _ => false end) eqn:T.
        + left. exists j, z. split; [reflexivity|]. destruct j; try discriminate T; intros [].
        + right. assert (Nj : narrow j) by (destruct j; try discriminate T; exact I). split.
          * exact (A j z Nj).
          * intros ? ? [= <- <-]. exact Nj.
      - right. split; [apply B|discriminate].
      - right. split; [apply B|discriminate]. }
    destruct R as [(j & z & -> & Nj)|[(y & H) Nj]].
    + assert (X : says (num_visit (NInt j z) vis) p k <-> unwanted (v_expecting vis) (VNum tag_default (NInt j z)) p k).
      { change (num_visit (NInt j z) vis) with (value_visit DPlain (VNum tag_default (NInt j z)) vis).
        apply wrong_kind. destruct j; cbn; auto; elim Nj; exact I. }
      rewrite X. split.
      * intros H. left. exists j, z. auto.
      * intros [(j2 & z2 & S2 & N2 & H)|(N2 & _)]; [|elim (N2 _ S)]. apply U in S2. injection S2 as -> ->. exact H.
    + rewrite H, says_ok. split; [intros []|]. intros [(j2 & z2 & S2 & N2 & _)|(N2 & _)]; [|elim (N2 _ S)].
      apply U in S2. elim N2. apply (Nj _ _ (eq_sym S2)).
  - rewrite wrong_kind by (apply C, V). split; [intros H; right; auto|].
    intros [(j2 & z2 & S2 & _)|(_ & H)]; [elim (N _ S2)|exact H].
Qed.
Lemma f32_read m v p k : says (de_num (mk_de m v) f32_visitor) p k <-> float_refused (reading m) (lit "f32") v p k.
Proof.
  apply (float_read m f32_visitor); try reflexivity.
  - intros j z J. destruct j; try destruct J; eexists; reflexivity.
  - intros x. split; eexists; reflexivity.
  - intros w N. destruct w as [t s|t c|t b|t n|t []|t d|t l]; cbn; auto. elim (N _ _ eq_refl).
Qed.
Lemma f64_read m v p k : says (de_num (mk_de m v) f64_visitor) p k <-> float_refused (reading m) (lit "f64") v p k.
Proof.
  apply (float_read m f64_visitor); try reflexivity.
  - intros j z J. destruct j; try destruct J; eexists; reflexivity.
  - intros x. split; eexists; reflexivity.
  - intros w N. destruct w as [t s|t c|t b|t n|t []|t d|t l]; cbn; auto. elim (N _ _ eq_refl).
Qed.

Lemma text_read m exp h v p k :
  says (de_any (mk_de m v) (str_visitor exp (fun s => Ok (h s)))) p k <-> (forall s, ~ text v s) /\ unwanted exp v p k.
Proof.
  rewrite says_any. destruct v as [t s|t c|t b|t [[]| |]|t []|t d|t l];
    try (rewrite wrong_kind by (cbn; auto); split; [intros H; split; [intros s' X; inversion X|exact H]|tauto]; fail).
  - visits. cbn [v_str str_visitor]. rewrite says_ok. split; [intros []|]. intros [H _]. apply (H s). constructor.
  - visits. cbn [v_str v_char str_visitor]. rewrite says_ok. split; [intros []|]. intros [H _]. apply (H [c]). constructor.
Qed.

Lemma char_read m v p k :
  says (de_any (mk_de m v) char_visitor) p k <->
  (exists s, text v s /\ (forall c, s <> [c]) /\ p = [] /\ k = KInvalidValue (AStr s) (lit "a character")) \/
  ((forall s, ~ text v s) /\ unwanted (lit "a character") v p k).
Proof.
  rewrite says_any. destruct v as [t s|t c|t b|t [[]| |]|t []|t d|t l];
    try (rewrite wrong_kind by (cbn; auto); split; [intros H; right; split; [intros s' X; inversion X|exact H]|
           intros [(s' & X & _)|[_ H]]; [inversion X|exact H]]; fail).
  - visits. cbn [v_str char_visitor].
    assert (T : forall s', text (VString t s) s' <-> s' = s) by (intros s'; split; [intros X; inversion X; reflexivity|intros ->; constructor]).
    destruct s as [|c [|c' s]].
    + unfold invalid_value. rewrite says_kind. split.
      * intros [-> ->]. left. exists []. rewrite T. split; [reflexivity|]. split; [discriminate|auto].
      * intros [(s' & X & _ & A & B)|[X _]]; [apply T in X; subst s'; auto|elim (X []); apply T; reflexivity].
    + rewrite says_ok. split; [intros []|]. intros [(s' & X & N & _)|[X _]]; [apply T in X; subst s'; elim (N c); reflexivity|].
      elim (X [c]). apply T. reflexivity.
    + unfold invalid_value. rewrite says_kind. split.
      * intros [-> ->]. left. exists (c :: c' :: s). rewrite T. split; [reflexivity|]. split; [discriminate|auto].
      * intros [(s' & X & _ & A & B)|[X _]]; [apply T in X; subst s'; auto|elim (X (c :: c' :: s)); apply T; reflexivity].
  - visits. cbn [v_char char_visitor]. rewrite says_ok. split; [intros []|].
    intros [(s' & X & N & _)|[X _]]; [inversion X; subst; elim (N c); reflexivity|]. elim (X [c]). constructor.
Qed.

Lemma unit_read m exp v p k :
  says (de_any (mk_de m v) (unit_visitor exp)) p k <-> (forall g, v <> VEmpty g EUnit) /\ unwanted exp v p k.
Proof.
  rewrite says_any. destruct v as [t s|t c|t b|t [[]| |]|t []|t d|t l];
    try (rewrite wrong_kind by (cbn; auto); split; [intros H; split; [discriminate|exact H]|tauto]; fail).
  visits. cbn [v_unit unit_visitor]. rewrite says_ok. split; [intros []|]. intros [H _]. elim (H t). reflexivity.
Qed.

Lemma tag_read m v p k :
  says (deserialize_tag (mk_de m v)) p k <->
  (forall g n z, v = VNum g n -> ~ unsigned64 n z) /\ unwanted (wants TTag) v p k.
Proof.
  unfold deserialize_tag. rewrite says_any. destruct v as [t s|t c|t b|t n|t []|t d|t l];
    try (rewrite wrong_kind by (cbn; auto); split; [intros H; split; [discriminate|exact H]|tauto]; fail).
  destruct n as [j z|x|x];
    try (rewrite wrong_kind by (cbn; auto); split; [intros H; split; [intros g n z [= <- <-] (j' & X & _); discriminate X|exact H]|tauto]; fail).
  assert (J : In j [U8; U16; U32; U64; USize] \/ ~ In j [U8; U16; U32; U64; USize]).
  { destruct j; cbn; try (left; tauto); right; intros [Q|[Q|[Q|[Q|[Q|[]]]]]]; discriminate Q. }
  destruct J as [J|J].
  - assert (E : value_visit (mk_de m) (VNum t (NInt j z)) tag_visitor = Ok (Tag (Z.to_N z))).
    { cbn in J. destruct J as [<-|[<-|[<-|[<-|[<-|[]]]]]]; reflexivity. }
    rewrite E, says_ok. split; [intros []|]. intros [H _]. apply (H t (NInt j z) z eq_refl). exists j. auto.
  - rewrite wrong_kind by (destruct j; cbn in *; auto; elim J; auto 6).
    split; [intros H; split; [|exact H]|tauto]. intros g n z' [= <- <-] (j' & [= <- <-] & X). exact (J X).
Qed.

Lemma boolish_read m v p k :
  says (de_any (mk_de m v) boolish_visitor) p k <->
  (forall b, ~ switch v b) /\
  ((exists g j z, v = VNum g (NInt j z) /\ narrow j /\ p = [] /\ k = KInvalidValue (int_shown j z) (lit "0 or 1")) \/
   (exists s, text v s /\ p = [] /\ k = KInvalidValue (AStr s) (lit "true or false")) \/
   ((forall g j z, v = VNum g (NInt j z) -> ~ narrow j) /\ (forall s, ~ text v s) /\ unwanted (lit "a boolean") v p k)).
Proof.
  assert (S := fun y => switch_spec m v y).
  destruct (de_any (mk_de m v) boolish_visitor) as [y|e] eqn:E.
  - rewrite says_ok. split; [intros []|]. intros [N _]. destruct (proj1 (S y) E) as (b & _ & B). exact (N b B).
  - assert (N : forall b, ~ switch v b).
    { intros b B. assert (X := proj2 (S (EVBool b)) (ex_intro _ b (conj eq_refl B))). cbn [deserialize] in X. congruence. }
    rewrite <- E, says_any. clear S.
    assert (Q : forall a exp, (value_visit (mk_de m) v boolish_visitor = Err (err_of_kind (KInvalidValue a exp))) ->
       (says (value_visit (mk_de m) v boolish_visitor) p k <-> p = [] /\ k = KInvalidValue a exp)).
    { intros a exp ->. apply says_kind. }
    destruct v as [t s|t c|t b|t n|t []|t d|t l];
      try (rewrite wrong_kind by (cbn; auto); split;
           [intros H; split; [exact N|]; right; right; split; [discriminate|]; split; [intros s' X; inversion X|exact H]
           |intros [_ [(g & j & z & X & _)|[(s' & X & _)|(_ & _ & H)]]]; [discriminate X|inversion X|exact H]]; fail).
    + rewrite (Q (AStr s) (lit "true or false")).
      * split; [intros H; split; [exact N|]; right; left; exists s; split; [constructor|exact H]|].
        intros [_ [(g & j & z & X & _)|[(s' & X & H)|(_ & X & _)]]]; [discriminate X|inversion X; subst; exact H|elim (X s); constructor].
      * visits. cbn [v_str boolish_visitor]. destruct (uncased_eqb s (lit "true")) eqn:T1.
        { exfalso. apply (any_err m) in E. revert E. visits. cbn [v_str boolish_visitor]. rewrite T1. intros (e' & E). discriminate E. }
        destruct (uncased_eqb s (lit "false")) eqn:T2; [|reflexivity].
        exfalso. apply (any_err m) in E. revert E. visits. cbn [v_str boolish_visitor]. rewrite T1, T2. intros (e' & E). discriminate E.
    + rewrite (Q (AStr [c]) (lit "true or false")).
      * split; [intros H; split; [exact N|]; right; left; exists [c]; split; [constructor|exact H]|].
        intros [_ [(g & j & z & X & _)|[(s' & X & H)|(_ & X & _)]]]; [discriminate X|inversion X; subst; exact H|elim (X [c]); constructor].
      * visits. cbn [v_str v_char boolish_visitor]. destruct (uncased_eqb [c] (lit "true")) eqn:T1.
        { exfalso. apply (any_err m) in E. revert E. visits. cbn [v_str v_char boolish_visitor]. rewrite T1. intros (e' & E). discriminate E. }
        destruct (uncased_eqb [c] (lit "false")) eqn:T2; [|reflexivity].
        exfalso. apply (any_err m) in E. revert E. visits. cbn [v_str v_char boolish_visitor]. rewrite T1, T2. intros (e' & E). discriminate E.
    + exfalso. apply (N b). constructor.
    + destruct n as [j z|x|x];
        try (rewrite wrong_kind by (cbn; auto); split;
           [intros H; split; [exact N|]; right; right; split; [intros g j z X; discriminate X|]; split; [intros s' X; inversion X|exact H]
           |intros [_ [(g & j & z & X & _)|[(s' & X & _)|(_ & _ & H)]]]; [discriminate X|inversion X|exact H]]; fail).
      destruct (match j with U128 | I128 => true | _ => false end) eqn:T.
      * rewrite wrong_kind by (destruct j; try discriminate T; cbn; auto). split.
        -- intros H. split; [exact N|]. right. right. split; [intros g j' z' [= <- <- <-]; destruct j; try discriminate T; intros []|].
           split; [intros s' X; inversion X|exact H].
        -- intros [_ [(g & j' & z' & [= <- <- <-] & X & _)|[(s' & X & _)|(_ & _ & H)]]];
             [destruct j; try discriminate T; destruct X|inversion X|exact H].
      * assert (Nj : narrow j) by (destruct j; try discriminate T; exact I).
        rewrite (Q (int_shown j z) (lit "0 or 1")).
        -- split; [intros H; split; [exact N|]; left; exists t, j, z; auto|].
           intros [_ [(g & j' & z' & [= <- <- <-] & _ & H)|[(s' & X & _)|(X & _)]]]; [exact H|inversion X|elim (X _ _ _ eq_refl Nj)].
        -- assert (Z0 : z <> 0%Z) by (intros ->; apply (N false); constructor; exact Nj).
           assert (Z1 : z <> 1%Z) by (intros ->; apply (N true); constructor; exact Nj).
           apply Z.eqb_neq in Z0, Z1.
           destruct j; try discriminate T; visits; cbn [v_signed v_unsigned boolish_visitor]; rewrite Z0, Z1; reflexivity.
Qed.
