(** Copies of values give what [SpecBuffer.strictly] says. *)
From Coq Require Import Ascii String ZArith NArith Bool Lia.
From Coq Require Import Floats.SpecFloat.
From Coq Require Import List.
From Verif Require Import Res BMap Str Profile Tag Num Value NumParse Metadata Err Coalesce Figment Fmt De Content.
From Verif Require Import SpecValue SpecParse SpecLossy SpecDe SpecMagic SpecExtract SpecTaken SpecGives SpecBuffer.
From Verif Require Import BMapProofs StrProofs ValueProofs DeProofs MeaningProofs TakenProofs GivesProofs.
From Verif Require Import FieldProofs.
From Verif Require Import Derive SpecDerive.
From Verif Require BlameProofs ExtractProofs RtProofs IntoProofs.
Import ListNotations.

(** ** The copy *)
Definition pure_num (n : num) : content :=
  match n with
  | NInt USize z => CInt (fitting false z) z
  | NInt ISize z => CInt (fitting true z) z
  | NInt k z => CInt k z
  | NF32 x => CF32 x
  | NF64 x => CF64 x
  end.
Fixpoint pure (v : value) : content :=
  match v with
  | VString _ s => CStr s
  | VChar _ c => CChar c
  | VBool _ b => CBool b
  | VNum _ n => pure_num n
  | VEmpty _ EUnit => CUnit
  | VEmpty _ ENone => CNone
  | VDict _ d => CMap (map (fun kv => (fst kv, pure (snd kv))) d)
  | VArray _ l => CSeq (map pure l)
  end.

Lemma settle_some m t (r : res error content) c : mode_settle m t r = Ok c <-> r = Ok c.
Proof. apply RtProofs.mode_settle_ok. Qed.

Lemma buffered m v : forall c, buffer m v = Ok c <-> narrow_only v /\ c = pure v.
Proof.
  induction v as [t s|t c|t b|t n|t e|t d IH|t l IH] using value_ind'; intros c'; cbn [buffer narrow_only pure];
    rewrite settle_some; try (split; [intros [= <-]; auto|intros [_ ->]; reflexivity]).
  - destruct n as [[]| |]; cbn; (split; [try discriminate; intros [= <-]; auto|intros [H ->]; try destruct H; reflexivity]).
  - destruct e; (split; [intros [= <-]; auto|intros [_ ->]; reflexivity]).
  - assert (G : forall l,
      (fix go (d : list (ustr * value)) : res error (list (ustr * content)) :=
             match d with
             | [] => Ok []
             | (k, x) :: r =>
                 res_bind (at_key k (vtag x) (buffer m x)) (fun c => res_map (cons (k, c)) (go r))
             end) d = Ok l <-> all (map (fun kv => narrow_only (snd kv)) d) /\ l = map (fun kv => (fst kv, pure (snd kv))) d).
    { induction IH as [|[k x] d Hx _ IHd]; intros l; [split; [intros [= <-]; split; [exact I|reflexivity]|intros [_ ->]; reflexivity]|].
      cbn [map all fst snd fold_right] in *. rewrite res_bind_ok. split.
      - intros (c & H1 & H2). apply map_err_ok, Hx in H1. destruct H1 as [N ->]. apply res_map_ok in H2.
        destruct H2 as (l' & H2 & ->). apply IHd in H2. destruct H2 as [N2 ->]. split; [split; assumption|reflexivity].
      - intros ([N N2] & ->). exists (pure x). split; [apply map_err_ok, Hx; auto|]. apply res_map_ok.
        eexists. split; [apply IHd; split; [exact N2|reflexivity]|reflexivity]. }
    rewrite res_map_ok. split.
    + intros (l & H & ->). apply G in H. destruct H as [H ->]. auto.
    + intros [H ->]. eexists. split; [apply G; split; [exact H|reflexivity]|reflexivity].
  - assert (G : forall n ls,
      (fix go (l : list value) (n : N) : res error (list content) :=
             match l with
             | [] => Ok []
             | x :: r =>
                 res_bind (res_map_err (prefixed (fmt_nat n)) (buffer m x)) (fun c => res_map (cons c) (go r (n + 1)%N))
             end) l n = Ok ls <-> all (map narrow_only l) /\ ls = map pure l).
    { induction IH as [|x l Hx _ IHl]; intros n ls; [split; [intros [= <-]; split; [exact I|reflexivity]|intros [_ ->]; reflexivity]|].
      cbn [map all fold_right] in *. rewrite res_bind_ok. split.
      - intros (c & H1 & H2). apply map_err_ok, Hx in H1. destruct H1 as [N ->]. apply res_map_ok in H2.
        destruct H2 as (l' & H2 & ->). apply IHl in H2. destruct H2 as [N2 ->]. split; [split; assumption|reflexivity].
      - intros ([N N2] & ->). exists (pure x). split; [apply map_err_ok, Hx; auto|]. apply res_map_ok.
        eexists. split; [apply IHl; split; [exact N2|reflexivity]|reflexivity]. }
    rewrite res_map_ok. split.
    + intros (ls & H & ->). apply G in H. destruct H as [H ->]. auto.
    + intros [H ->]. eexists. split; [apply G; split; [exact H|reflexivity]|reflexivity].
Qed.

(** ** [Value] from a copy *)
Lemma content_tag_ok v t : narrow_only v -> content_tag (pure v) = Ok t <-> deserialize_tag (DPlain v) = Ok t.
Proof.
  intros N. destruct v as [g s|g c|g b|g [[]| |]|g []|g d|g l]; try (destruct N; fail); cbn; try (split; discriminate); try reflexivity.
  unfold fitting. destruct (in_range U8 z), (in_range U16 z), (in_range U32 z); reflexivity.
  unfold fitting. destruct (in_range I8 z), (in_range I16 z), (in_range I32 z); split; discriminate.
Qed.

Lemma narrow_dict g d k x : narrow_only (VDict g d) -> In (k, x) d -> narrow_only x.
Proof. cbn. intros N I. rewrite BlameProofs.all_Forall, Forall_forall in N. exact (N _ I). Qed.

Lemma content_value_ok v : narrow_only v -> forall u, content_value (pure v) = Ok u <-> raw_value MPlain v = Ok u.
Proof.
  induction v as [t s|t c|t b|t n|t e|t d IH|t l IH] using value_ind'; intros N u; cbn [raw_value pure content_value mode_settle];
    rewrite map_err_ok; try reflexivity.
  - destruct n as [[]| |]; try (destruct N; fail); reflexivity.
  - destruct e; reflexivity.
  - cbn [narrow_only] in N. generalize (@nil (ustr * value)) as acc, (@None tag) as id, (@None value) as raw.
    induction IH as [|[k x] d Hx _ IHd]; intros acc id raw; [reflexivity|]. cbn [map all fst snd fold_right] in *. destruct N as [N1 N2].
    specialize (IHd N2).
    destruct (ueqb k value_id); [|destruct (ueqb k value_value)]; rewrite !res_bind_ok; split;
      intros (y & A & B); exists y; (split; [|apply IHd; exact B]).
    + apply map_err_ok. apply content_tag_ok; assumption.
    + apply map_err_ok in A. apply content_tag_ok; assumption.
    + apply map_err_ok. apply Hx; assumption.
    + apply map_err_ok in A. apply Hx; assumption.
    + apply map_err_ok. apply Hx; assumption.
    + apply map_err_ok in A. apply Hx; assumption.
  - cbn [narrow_only] in N. rewrite !res_map_ok.
    assert (G : forall n ws,
        (fix go (l : list content) : res error (list value) :=
            match l with
            | [] => Ok []
            | x :: r => res_bind (content_value x) (fun y => res_map (cons y) (go r))
            end) (map pure l) = Ok ws <->
        (fix go (l : list value) (n : BinNums.N) : res error (list value) :=
             match l with
             | [] => Ok []
             | x :: r =>
                 res_bind (res_map_err (prefixed (fmt_nat n)) (value_of_raw MPlain (vtag x) (raw_value MPlain x)))
                          (fun y => res_map (cons y) (go r (n + 1)%N))
             end) l n = Ok ws).
    { induction IH as [|x l Hx _ IHl]; intros n ws; [reflexivity|]. cbn [map all fold_right] in *. destruct N as [N1 N2].
      specialize (IHl N2). rewrite !res_bind_ok. split; intros (y & A & B); exists y.
      - split; [apply map_err_ok; apply Hx; assumption|]. apply res_map_ok in B. destruct B as (w & B & ->).
        apply res_map_ok. exists w. split; [apply IHl; exact B|reflexivity].
      - apply map_err_ok in A. split; [apply Hx; assumption|]. apply res_map_ok in B. destruct B as (w & B & ->).
        apply res_map_ok. exists w. split; [eapply IHl; exact B|reflexivity]. }
    split; intros (ws & A & ->); exists ws; (split; [apply (G 0%N); exact A|reflexivity]).
Qed.

(** ** Lists *)
Lemma contents_ok {A B C} (g : C -> A) (rec : A -> res error B) l : forall ys,
  contents rec (map g l) = Ok ys <-> Forall2 (fun v y => rec (g v) = Ok y) l ys.
Proof.
  induction l as [|v l IH]; intros ys; cbn [map contents].
  - split; [intros [= <-]; constructor|intros H; inversion H; reflexivity].
  - rewrite res_bind_ok. split.
    + intros (y & H1 & H2). apply res_map_ok in H2. destruct H2 as (ys' & H2 & ->). constructor; [exact H1|apply IH; exact H2].
    + intros H. inversion H as [|? y ? ys' H1 H2]; subst. exists y. split; [exact H1|]. apply res_map_ok. exists ys'.
      split; [apply IH; exact H2|reflexivity].
Qed.

Lemma Forall2_same {A B} (P Q : A -> B -> Prop) l ys : (forall v y, In v l -> P v y <-> Q v y) -> Forall2 P l ys <-> Forall2 Q l ys.
Proof.
  revert ys. induction l as [|v l IH]; intros ys H; split; intros F; inversion F; subst; constructor.
  - apply H; [left; reflexivity|assumption].
  - apply IH; [|assumption]. intros w0 y0 I. apply H. right. exact I.
  - apply H; [left; reflexivity|assumption].
  - apply IH; [|assumption]. intros w0 y0 I. apply H. right. exact I.
Qed.

Lemma exact_elements_ok {X} (h : X -> content -> res error dval) (r : X -> value -> dval -> Prop) short ts : forall l n ys,
  (forall t v y, In t ts -> In v l -> h t (pure v) = Ok y <-> r t v y) ->
  exact_elements (map h ts) short (map pure l) n = Ok ys <-> each (map r ts) l ys.
Proof.
  induction ts as [|t ts IH]; intros l n ys H; cbn [map exact_elements each].
  - destruct l as [|v l]; cbn [map].
    + split; [intros [= <-]; exact I|destruct ys; [reflexivity|intros []]].
    + split; [discriminate|intros []].
  - destruct l as [|v l]; cbn [map]; [split; [discriminate|intros []]|]. rewrite res_bind_ok. split.
    + intros (y & H1 & H2). apply res_map_ok in H2. destruct H2 as (ys' & H2 & ->). split.
      * apply H; [left; reflexivity|left; reflexivity|exact H1].
      * apply IH in H2; [exact H2|]. intros t' v' y' I J. apply H; right; assumption.
    + destruct ys as [|y ys]; [intros []|]. intros [H1 H2]. exists y. split; [apply H; auto; left; reflexivity|].
      apply res_map_ok. exists ys. split; [|reflexivity]. apply IH; [|exact H2]. intros t' v' y' I J. apply H; right; assumption.
Qed.

(** ** Structs by position *)
Lemma elements_read {X A} (h : X -> A -> res error dval) (w : X -> how) (g : value -> A) next short (fs : list (field X)) :
  forall l n ys rest,
  (forall n f v y, In f fs -> In v l -> next n (h (f_type f)) (g v) = Ok y <-> snd (w (f_type f)) v y) ->
  read_elements next (map (map_field h) fs) short (map g l) n = Ok (ys, rest) <->
  exists l', rest = map g l' /\ l' = skipn (length fs) l /\ by_position false (map (map_field w) fs) l ys.
Proof.
  induction fs as [|f fs IH]; intros l n ys rest H; cbn [map read_elements by_position].
  - split.
    + intros [= <- <-]. exists l. split; [reflexivity|]. split; [reflexivity|discriminate].
    + intros (l' & -> & -> & B). cbn [length skipn]. destruct ys; [reflexivity|destruct B].
  - destruct l as [|v l]; cbn [map length skipn].
    + change (f_default (map_field h f)) with (f_default f). change (f_name (map_field h f)) with (f_name f).
      destruct (f_default f) as [z|] eqn:D.
      * rewrite res_map_ok. split.
        -- intros ([ys' r'] & H1 & E). injection E as -> ->. apply (IH [] _ _ _) in H1; [|intros ? ? ? ? _ []].
           destruct H1 as (l' & E & E' & B). cbn [fst snd]. exists l'. split; [exact E|].
           rewrite skipn_nil in E'. split; [exact E'|]. cbn [map_field f_name f_default]. auto.
        -- intros (l' & -> & -> & B). destruct ys as [|[n' y] ys]; [destruct B|]. cbn [map_field f_name f_default] in B.
           destruct B as (-> & E & B). rewrite D in E. injection E as <-.
           exists (ys, []). split; [|reflexivity]. apply (IH [] _ _ _); [intros ? ? ? ? _ []|]. exists []. rewrite skipn_nil. auto.
      * split; [discriminate|]. intros (l' & _ & _ & B). destruct ys as [|[n' y] ys]; [destruct B|].
        cbn [map_field f_name f_default] in B. destruct B as (_ & E & _). congruence.
    + rewrite res_bind_ok. change (f_type (map_field h f)) with (h (f_type f)). change (f_name (map_field h f)) with (f_name f).
      assert (H' : forall n f v y, In f fs -> In v l -> next n (h (f_type f)) (g v) = Ok y <-> snd (w (f_type f)) v y).
      { intros n' f' v' y' I' J'. apply H; right; assumption. }
      split.
      * intros (y & H1 & H2). apply res_map_ok in H2. destruct H2 as ([ys' r'] & H2 & E). injection E as -> ->.
        apply (IH l _ _ _ H') in H2. destruct H2 as (l' & E & E' & B). exists l'. cbn [fst snd]. split; [exact E|]. split; [exact E'|].
        split; [reflexivity|]. split; [|exact B]. apply (H n f v y) in H1; [exact H1|left; reflexivity|left; reflexivity].
      * intros (l' & -> & -> & B). destruct ys as [|[n' y] ys]; [destruct B|]. destruct B as (-> & R & B).
        exists y. split; [apply (H n f v y); [left; reflexivity|left; reflexivity|exact R]|]. apply res_map_ok.
        exists (ys, map g (skipn (length fs) l)). split; [|reflexivity]. apply (IH l _ _ _ H'). eauto.
Qed.
Lemma by_position_all fs : forall l ys, by_position true fs l ys <-> by_position false fs l ys /\ skipn (length fs) l = [].
Proof.
  induction fs as [|f fs IH]; intros l ys; cbn [by_position length skipn].
  - destruct ys; [|tauto]. split; [intros H; split; [discriminate|auto]|tauto].
  - destruct ys as [|[n y] ys]; [tauto|]. destruct l as [|v l]; rewrite IH.
    + rewrite skipn_nil. tauto.
    + tauto.
Qed.

Lemma whole_seq_ok {X} (h : X -> content -> res error dval) (w : X -> how) (fs : list (field X)) exp l ys :
  (forall f v y, In f fs -> In v l -> h (f_type f) (pure v) = Ok y <-> snd (w (f_type f)) v y) ->
  whole_seq (map (map_field h) fs) exp (map pure l) = Ok ys <-> by_position true (map (map_field w) fs) l ys.
Proof.
  intros H. unfold whole_seq. rewrite res_bind_ok, by_position_all. split.
  - intros ([ys' rest] & H1 & H2). cbn [fst snd] in H2. apply (elements_read h w pure) in H1; [|intros; apply H; assumption].
    destruct H1 as (l' & -> & E & B). rewrite map_length. destruct l' as [|a l']; [|discriminate]. cbn in H2. injection H2 as <-. auto.
  - intros [B E]. exists (ys, []). split; [|reflexivity].
    apply (elements_read h w pure); [intros; apply H; assumption|]. exists []. rewrite map_length in E. auto.
Qed.

(** Without defaults. *)
Definition plain_fields {X} (fs : list (ustr * X)) : list (field X) := map (fun f => just (fst f) (snd f)) fs.
Lemma all_names_plain {X} (fs : list (ustr * X)) : all_names (plain_fields fs) = map fst fs.
Proof. induction fs as [|f fs IH]; [reflexivity|]. cbn. f_equal. exact IH. Qed.

Lemma position_each (w : ty -> how) fs : forall l ys,
  by_position true (map (map_field w) (plain_fields fs)) l ys <->
  exists xs, each (map (fun f => snd (w (snd f))) fs) l xs /\ ys = combine (map fst fs) xs.
Proof.
  induction fs as [|f fs IH]; intros l ys; cbn [plain_fields map by_position each combine].
  - destruct ys; split.
    + intros H. rewrite (H eq_refl). exists []. split; [exact I|reflexivity].
    + intros (xs & H & _) _. destruct l; [reflexivity|destruct H].
    + intros [].
    + intros (xs & _ & E). discriminate E.
  - destruct ys as [|[n y] ys].
    + split; [intros []|]. intros (xs & H & E). destruct l, xs; try destruct H; try discriminate.
    + destruct l as [|v l].
      * split; [intros (_ & E & _); discriminate E|]. intros (xs & [] & _).
      * cbn [map_field f_name f_type just snd]. change (map (fun f => just (fst f) (snd f)) fs) with (plain_fields fs).
        rewrite IH. split.
        -- intros (-> & R & xs & E & ->). exists (y :: xs). split; [split; assumption|reflexivity].
        -- intros (xs & E & Q). destruct xs as [|x xs]; [destruct E|]. destruct E as [R E]. injection Q as -> -> ->. eauto.
Qed.

Lemma by_names_plain (w : ty -> how) fs (d : dict) : sorted d -> forall ys,
  by_names (map (map_field w) (plain_fields fs)) d ys <-> by_name (map (fun f => (fst f, w (snd f))) fs) d ys.
Proof.
  intros S. unfold by_names. induction fs as [|f fs IH]; intros ys; cbn [plain_fields map by_name].
  - split; [intros H; inversion H; exact I|destruct ys; [constructor|intros []]].
  - assert (One : forall y, filled (map_field w (just (fst f) (snd f))) d y <->
      match get (fst f) d with Some v => snd (w (snd f)) v y | None => fst (w (snd f)) /\ y = EVNone end).
    { intros y. unfold filled, under, not_there, substitute. cbn [map_field just f_names f_name f_aliases f_default f_type].
      destruct (get (fst f) d) as [v|] eqn:G.
      - apply get_in_keys in G. split.
        + intros [(x & (k & [<-|[]] & I & _) & R)|[Nt _]].
          * assert (x = v) as -> by (pose proof (IntoProofs.In_get_iff d (fst f) x S) as Q1; pose proof (IntoProofs.In_get_iff d (fst f) v S) as Q2; apply Q1 in I; apply Q2 in G; congruence). exact R.
          * destruct (Nt (fst f) v (or_introl eq_refl) G).
        + intros R. left. exists v. split; [|exact R]. exists (fst f). split; [left; reflexivity|]. split; [exact G|].
          intros k' x' [<-|[]] _. reflexivity.
      - assert (Nt : forall x, ~ In (fst f, x) d).
        { intros x I. apply (IntoProofs.In_get_iff d (fst f) x S) in I. congruence. }
        split.
        + intros [(x & (k & [<-|[]] & I & _) & R)|[_ R]]; [destruct (Nt x I)|exact R].
        + intros R. right. split; [|exact R]. intros k x [<-|[]]. apply Nt. }
    destruct (w (snd f)) as [opt r] eqn:W. cbn [fst snd] in One. change (map (fun f => just (fst f) (snd f)) fs) with (plain_fields fs). split.
    + intros H. inversion H as [|? [n y] ? ys' [E F] H']; subst. cbn [fst snd] in E, F. split; [exact E|].
      split; [apply One; exact F|]. apply IH. exact H'.
    + destruct ys as [|[n y] ys]; [intros []|]. intros (E & F & H). constructor; [split; [exact E|apply One; exact F]|].
      apply IH. exact H.
Qed.

Lemma without_nil names (d : dict) : without names d = [] <-> forall k x, In (k, x) d -> In k names.
Proof.
  unfold without. induction d as [|[k x] d IH]; cbn [filter fst]; [split; [intros _ ? ? []|reflexivity]|].
  destruct (existsb (ueqb k) names) eqn:E; cbn [negb].
  - rewrite IH. apply existsb_name in E. split; [intros H k' x' [Q|I]; [injection Q as <- <-; exact E|eauto]|].
    intros H k' x' I. apply (H k' x'). right. exact I.
  - split; [discriminate|]. intros H. exfalso. assert (K : In k names) by (apply (H k x); left; reflexivity).
    apply existsb_name in K. congruence.
Qed.

Lemma wf_nodup g d : wf (VDict g d) -> NoDup (map fst d).
Proof. intros W. apply wf_VDict in W. apply BlameProofs.wf_dict_nodup. exact W. Qed.
Lemma wf_entry g d k x : wf (VDict g d) -> In (k, x) d -> wf x.
Proof. intros W I. apply wf_VDict in W. destruct W as [_ W]. rewrite Forall_forall in W. exact (W _ I). Qed.
Lemma wf_element g l x : wf (VArray g l) -> In x l -> wf x.
Proof. intros W I. apply wf_VArray in W. rewrite Forall_forall in W. exact (W _ I). Qed.
Lemma narrow_array g l x : narrow_only (VArray g l) -> In x l -> narrow_only x.
Proof. cbn. intros N I. rewrite BlameProofs.all_Forall, Forall_forall in N. exact (N _ I). Qed.

Lemma content_struct_ok (h : ty -> content -> res error dval) (r : ty -> value -> dval -> Prop) exp deny fs wrong v ys :
  (forall f x y, In f fs -> wf x -> narrow_only x -> h (snd f) (pure x) = Ok y <-> r (snd f) x y) ->
  wf v -> narrow_only v -> NoDup (map fst fs) -> (forall z, wrong <> Ok z) ->
  content_struct exp deny (map (fun f => just (fst f) (h (snd f))) fs) (absent_fields fs) wrong (pure v) = Ok ys <->
  strict_struct deny (map (fun f => (fst f, (optional (snd f), r (snd f)))) fs) v ys.
Proof.
  intros H W N D Wr.
  set (w := fun t : ty => (optional t, r t)).
  assert (E1 : map (fun f => just (fst f) (h (snd f))) fs = map (map_field h) (plain_fields fs)).
  { unfold plain_fields. rewrite map_map. reflexivity. }
  assert (E2 : absent_fields fs = map (map_field (fun t n => deserialize t (DMissing n))) (plain_fields fs)).
  { unfold absent_fields, plain_fields. rewrite map_map. reflexivity. }
  assert (H' : forall f x y, In f (plain_fields fs) -> wf x -> narrow_only x -> h (f_type f) (pure x) = Ok y <-> snd (w (f_type f)) x y).
  { intros f x y I. unfold plain_fields in I. apply in_map_iff in I. destruct I as (f0 & <- & I). apply (H f0 x y I). }
  rewrite E1, E2. unfold strict_struct. rewrite !map_map. cbn [fst snd].
  destruct v as [t s|t c|t b|t n|t e|t d|t l]; cbn [pure].
  1-3: cbn [content_struct]; split; [intros Q; destruct (Wr _ Q)|intros [(g & d & Q & _)|(g & l & xs & Q & _)]; discriminate Q].
  - destruct n as [[]| |]; cbn [pure_num content_struct];
      (split; [intros Q; destruct (Wr _ Q)|intros [(g & d & Q & _)|(g & l & xs & Q & _)]; discriminate Q]).
  - destruct e; cbn [content_struct];
      (split; [intros Q; destruct (Wr _ Q)|intros [(g & d & Q & _)|(g & l & xs & Q & _)]; discriminate Q]).
  - cbn [content_struct]. rewrite res_bind_ok.
    pose proof (struct_read (plain_fields fs) h w (fun t n => deserialize t (DMissing n)) (fun kv => pure (snd kv)) d) as SR.
    rewrite all_names_plain in SR. specialize (SR D (wf_nodup _ _ W)).
    specialize (SR (fun f kv I J K y => H' f (snd kv) y I (wf_entry t d (fst kv) (snd kv) W (eq_ind_r (fun z => In z d) J (eq_sym (surjective_pairing kv))))
       (narrow_dict t d (fst kv) (snd kv) N (eq_ind_r (fun z => In z d) J (eq_sym (surjective_pairing kv)))))).
    specialize (SR (fun f I _ y => missing_extracted (f_type f) (f_name f) y) (fun _ e => e) deny None).
    unfold copies in SR. rewrite all_names_plain in SR. split.
    + intros ([s rest] & Q1 & Q2). cbn [fst] in Q2. destruct (proj1 (SR rest ys)) as [B [_ Dn]]; [eauto|].
      left. exists t, d. split; [reflexivity|]. split.
      * intros T k x I. apply (proj1 (without_nil _ _) (Dn T) k x I).
      * apply by_names_plain in B; [exact B|]. apply wf_VDict in W. apply W.
    + intros [(g & d' & Q & Dn & B)|(g & l & xs & Q & _)]; [|discriminate]. injection Q as <- <-.
      destruct (proj2 (SR [] ys)) as (s & Q1 & Q2).
      * split; [apply by_names_plain; [apply wf_VDict in W; apply W|exact B]|]. split; [reflexivity|].
        intros T. apply without_nil. intros k x I. exact (Dn T k x I).
      * exists (s, []). auto.
  - cbn [content_struct]. rewrite (whole_seq_ok h w), position_each.
    + split.
      * intros (xs & E & ->). right. exists t, l, xs. auto.
      * intros [(g & d & Q & _)|(g & l' & xs & Q & E & ->)]; [discriminate|]. injection Q as <- <-. exists xs. auto.
    + intros f v y I J. apply H'; [exact I|eapply wf_element; eauto|eapply narrow_array; eauto].
Qed.

(** ** All types *)
Definition copied_ok (t : ty) : Prop := named_apart t -> forall o v y, wf v -> narrow_only v ->
  from_content o t (pure v) = Ok y <-> strictly o t v y.

(** Where a copy is read as the [Value] itself is. *)
Lemma scalar_copied t o v y : wf v -> named_apart t ->
  (from_content o t (pure v) = Ok y <-> deserialize t (DPlain v) = Ok y) ->
  (from_content o t (pure v) = Ok y <-> gives MPlain t v y).
Proof. intros W N E. rewrite E. apply (granted_at t MPlain v y W N). Qed.

Ltac every_value v := destruct v as [?t ?s|?t ?c|?t ?b|?t [[]| |]|?t []|?t ?d|?t ?l].

Lemma fitting_u z : fitting false z = U8 \/ fitting false z = U16 \/ fitting false z = U32 \/ fitting false z = U64.
Proof. unfold fitting. destruct (in_range U8 z), (in_range U16 z), (in_range U32 z); auto. Qed.
Lemma fitting_i z : fitting true z = I8 \/ fitting true z = I16 \/ fitting true z = I32 \/ fitting true z = I64.
Proof. unfold fitting. destruct (in_range I8 z), (in_range I16 z), (in_range I32 z); auto. Qed.

Ltac fit := try match goal with |- context[fitting false ?z] => destruct (fitting_u z) as [->|[->|[->| ->]]] end;
            try match goal with |- context[fitting true ?z] => destruct (fitting_i z) as [->|[->|[->| ->]]] end.

Lemma bool_copied o v y : narrow_only v -> from_content o TBool (pure v) = Ok y <-> deserialize TBool (DPlain v) = Ok y.
Proof. intros N. every_value v; try (destruct N; fail); cbn; fit; try (split; discriminate); reflexivity. Qed.
Lemma f32_copied o v y : narrow_only v -> from_content o TF32 (pure v) = Ok y <-> deserialize TF32 (DPlain v) = Ok y.
Proof. intros N. every_value v; try (destruct N; fail); cbn; fit; try (split; discriminate); reflexivity. Qed.
Lemma f64_copied o v y : narrow_only v -> from_content o TF64 (pure v) = Ok y <-> deserialize TF64 (DPlain v) = Ok y.
Proof. intros N. every_value v; try (destruct N; fail); cbn; fit; try (split; discriminate); reflexivity. Qed.
Lemma char_copied o v y : narrow_only v -> from_content o TChar (pure v) = Ok y <-> deserialize TChar (DPlain v) = Ok y.
Proof.
  intros N. every_value v; try (destruct N; fail); cbn; fit; try (split; discriminate); try reflexivity.
  destruct s as [|c [|]]; cbn; try (split; discriminate); reflexivity.
Qed.
Lemma unit_copied o v y : narrow_only v -> from_content o TUnit (pure v) = Ok y <-> deserialize TUnit (DPlain v) = Ok y.
Proof. intros N. every_value v; try (destruct N; fail); cbn; fit; try (split; discriminate); reflexivity. Qed.
Lemma tag_copied o v y : narrow_only v -> from_content o TTag (pure v) = Ok y <-> deserialize TTag (DPlain v) = Ok y.
Proof.
  intros N. cbn [from_content deserialize]. rewrite !res_map_ok. split; intros (t & H & ->); exists t; (split; [|reflexivity]);
    apply (content_tag_ok v t N); exact H.
Qed.
Lemma boolish_copied o v y : narrow_only v -> from_content o TBoolish (pure v) = Ok y <-> deserialize TBoolish (DPlain v) = Ok y.
Proof.
  intros N. every_value v; try (destruct N; fail); cbn; fit; try (split; discriminate); try reflexivity.
  all: rewrite ?map_err_ok, ?andb_false_r; repeat match goal with |- context[if ?b then _ else _] => destruct b end;
    try reflexivity; split; discriminate.
Qed.
Lemma int_copied k o v y : narrow_only v -> narrow k -> from_content o (TInt k) (pure v) = Ok y <-> deserialize (TInt k) (DPlain v) = Ok y.
Proof.
  intros N K. destruct k; try (destruct K; fail); every_value v; try (destruct N; fail); cbn -[in_range]; fit; try (split; discriminate); try reflexivity.
  all: rewrite ?map_err_ok, ?andb_false_r; repeat match goal with |- context[if ?b then _ else _] => destruct b end;
    try reflexivity; split; discriminate.
Qed.

Lemma scalars t o v y : wf v -> narrow_only v -> In t [TBool; TF32; TF64; TChar; TUnit; TTag; TBoolish] ->
  from_content o t (pure v) = Ok y <-> extracts Exact t v y.
Proof.
  intros W N I.
  assert (E : from_content o t (pure v) = Ok y <-> gives MPlain t v y).
  { apply scalar_copied; [exact W|destruct I as [<-|[<-|[<-|[<-|[<-|[<-|[<-|[]]]]]]]]; exact Logic.I|].
    destruct I as [<-|[<-|[<-|[<-|[<-|[<-|[<-|[]]]]]]]].
    - apply bool_copied; exact N.
    - apply f32_copied; exact N.
    - apply f64_copied; exact N.
    - apply char_copied; exact N.
    - apply unit_copied; exact N.
    - apply tag_copied; exact N.
    - apply boolish_copied; exact N. }
  rewrite E. destruct I as [<-|[<-|[<-|[<-|[<-|[<-|[<-|[]]]]]]]]; reflexivity.
Qed.

Lemma text_copied o t (h : ustr -> dval) v y : narrow_only v ->
  (forall c, from_content o t c = match c with CStr s => Ok (h s) | _ => from_content o t c end) ->
  (forall c, match c with CStr _ => True | _ => forall z, from_content o t c <> Ok z end) ->
  from_content o t (pure v) = Ok y <-> exists s, is_string v s /\ y = h s.
Proof.
  intros N H1 H2. unfold is_string. split.
  - intros H. specialize (H2 (pure v)). every_value v; cbn [pure pure_num] in *; try (destruct (H2 _ H)).
    rewrite H1 in H. injection H as <-. eauto.
  - intros (s & (g & ->) & ->). cbn [pure]. rewrite H1. reflexivity.
Qed.

Lemma empty_or_not v : (exists g e, v = VEmpty g e) \/ ~ (exists g e, v = VEmpty g e).
Proof. destruct v; try (right; intros (g' & e' & Q); discriminate). left. eauto. Qed.

Lemma option_content {A} v (none : A) f : (exists g e, v = VEmpty g e) ->
  match pure v with CNone | CUnit => none | _ => f end = none.
Proof. intros (g & [] & ->); reflexivity. Qed.
Lemma option_content_not {A} v (none : A) f : ~ (exists g e, v = VEmpty g e) ->
  match pure v with CNone | CUnit => none | _ => f end = f.
Proof. intros H. every_value v; try reflexivity; destruct H; eauto. Qed.

(** Lists and maps. *)
Lemma array_content {A} v (f : list content -> res error A) wrong y : (forall z, wrong <> Ok z) ->
  match pure v with CSeq l => f l | _ => wrong end = Ok y <-> exists g l, v = VArray g l /\ f (map pure l) = Ok y.
Proof.
  intros Wr. split.
  - intros H. every_value v; cbn [pure pure_num] in H; try (destruct (Wr _ H)). eauto.
  - intros (g & l & -> & H). exact H.
Qed.
Lemma dict_content {A} v (f : list (ustr * content) -> res error A) wrong y : (forall z, wrong <> Ok z) ->
  match pure v with CMap l => f l | _ => wrong end = Ok y <->
  exists g d, v = VDict g d /\ f (map (fun kv => (fst kv, pure (snd kv))) d) = Ok y.
Proof.
  intros Wr. split.
  - intros H. every_value v; cbn [pure pure_num] in H; try (destruct (Wr _ H)). eauto.
  - intros (g & l & -> & H). exact H.
Qed.

Lemma seq_content (h : content -> res error dval) (r : value -> dval -> Prop) v exp y :
  (forall x z, wf x -> narrow_only x -> h (pure x) = Ok z <-> r x z) -> wf v -> narrow_only v ->
  match pure v with CSeq l => res_map EVSeq (contents h l) | _ => invalid_type (unexpected (pure v)) exp end = Ok y <->
  exists g l ys, v = VArray g l /\ Forall2 r l ys /\ y = EVSeq ys.
Proof.
  intros H W N. rewrite array_content by discriminate. split.
  - intros (g & l & -> & Q). apply res_map_ok in Q. destruct Q as (ys & Q & ->). apply contents_ok in Q.
    exists g, l, ys. split; [reflexivity|]. split; [|reflexivity]. revert Q. apply Forall2_same.
    intros x z I. first [apply H|symmetry; apply H]; [eapply wf_element; eauto|eapply narrow_array; eauto].
  - intros (g & l & ys & -> & Q & ->). exists g, l. split; [reflexivity|]. apply res_map_ok. exists ys. split; [|reflexivity].
    apply contents_ok. revert Q. apply Forall2_same.
    intros x z I. first [apply H|symmetry; apply H]; [eapply wf_element; eauto|eapply narrow_array; eauto].
Qed.

Lemma entries_read (h : content -> res error dval) (r : value -> dval -> Prop) (d : dict) ys :
  (forall k x z, In (k, x) d -> h (pure x) = Ok z <-> r x z) ->
  contents (fun e => res_map (pair (fst e)) (h (snd e))) (map (fun kv => (fst kv, pure (snd kv))) d) = Ok ys <->
  Forall2 (fun kv ky => fst ky = fst kv /\ r (snd kv) (snd ky)) d ys.
Proof.
  intros H. rewrite contents_ok. apply Forall2_same. intros [k x] [k' z] I. cbn [fst snd]. rewrite res_map_ok. split.
  - intros (z' & Q & E). injection E as -> ->. split; [reflexivity|]. apply (H k x); assumption.
  - intros [-> R]. exists z. split; [apply (H k x); assumption|reflexivity].
Qed.

Lemma map_content (h : content -> res error dval) (r : value -> dval -> Prop) v exp y :
  (forall x z, wf x -> narrow_only x -> h (pure x) = Ok z <-> r x z) -> wf v -> narrow_only v ->
  match pure v with
  | CMap l => res_map (fun l => EVMap (collect l))
                (contents (fun e => res_map (pair (fst e)) (h (snd e))) l)
  | _ => invalid_type (unexpected (pure v)) exp
  end = Ok y <->
  exists g d ys, v = VDict g d /\ Forall2 (fun kv ky => fst ky = fst kv /\ r (snd kv) (snd ky)) d ys /\ y = EVMap ys.
Proof.
  intros H W N. rewrite dict_content by discriminate.
  assert (Same : forall g (d : dict) ys, wf (VDict g d) -> Forall2 (fun kv ky => fst ky = fst kv /\ r (snd kv) (snd ky)) d ys ->
    collect ys = ys).
  { intros g d ys Wd F. apply collect_sorted. eapply sorted_same_keys; [eapply Forall2_keys; exact F|]. apply wf_VDict in Wd. apply Wd. }
  split.
  - intros (g & d & -> & Q). apply res_map_ok in Q. destruct Q as (ys & Q & ->). apply (entries_read h r) in Q.
    2: { intros k x z I. apply H; [eapply wf_entry; eauto|eapply narrow_dict; eauto]. }
    exists g, d, ys. split; [reflexivity|]. split; [exact Q|]. f_equal. eapply Same; eauto.
  - intros (g & d & ys & -> & Q & ->). exists g, d. split; [reflexivity|]. apply res_map_ok. exists ys. split.
    + apply (entries_read h r); [|exact Q]. intros k x z I. apply H; [eapply wf_entry; eauto|eapply narrow_dict; eauto].
    + f_equal. symmetry. eapply Same; eauto.
Qed.

Lemma content_value_taken v u : wf v -> narrow_only v -> content_value (pure v) = Ok u <-> taken false v u.
Proof. intros W N. rewrite (content_value_ok v N u). apply (raw_value_taken MPlain v W u). Qed.

Lemma all_at {A} (P : A -> Prop) l x : all (map P l) -> In x l -> P x.
Proof. rewrite BlameProofs.all_Forall, Forall_forall. auto. Qed.

(** The variants of an enum. *)
Definition shape_reader (o : bool) (full : ustr) (s : shape ty) : option content -> res error (shape dval) :=
  match s with
  | ShUnit => fun x => match x with
                       | None | Some CUnit => Ok ShUnit
                       | Some c => invalid_type (unexpected c) (lit "unit")
                       end
  | ShNew t => fun x => match x with
                        | None => invalid_type AUnitVariant (lit "newtype variant")
                        | Some c => res_map ShNew (from_content o t c)
                        end
  | ShTuple ts => fun x =>
      match x with
      | None => invalid_type AUnitVariant (lit "tuple variant")
      | Some (CSeq l) => res_map ShTuple
          (exact_elements (map (from_content o) ts)
             (lit "tuple variant " ++ full ++ elements_text (length ts)) l 0%N)
      | Some c => invalid_type (unexpected c) (lit "tuple variant")
      end
  | ShStruct fs => fun x =>
      match x with
      | None => invalid_type AUnitVariant (lit "struct variant")
      | Some c => res_map ShStruct
          (content_struct (lit "struct variant " ++ full) false
             (map (fun f => just (fst f) (from_content o (snd f))) fs)
             (absent_fields fs) (invalid_type (unexpected c) (lit "struct variant")) c)
      end
  end.
Definition shape_strictly (o : bool) (s : shape ty) : shape how :=
  match s with
  | ShUnit => ShUnit
  | ShNew t => ShNew (optional t, strictly o t)
  | ShTuple ts => ShTuple (map (fun t => (optional t, strictly o t)) ts)
  | ShStruct fs => ShStruct (map (fun f => (fst f, (optional (snd f), strictly o (snd f)))) fs)
  end.
Definition shape_apart (s : shape ty) : Prop :=
  match s with
  | ShUnit => True
  | ShNew t => named_apart t
  | ShTuple ts => all (map named_apart ts)
  | ShStruct fs => NoDup (map fst fs) /\ all (map (fun f => named_apart (snd f)) fs)
  end.

Lemma shape_unit o full s p : shape_reader o full s None = Ok p <-> s = ShUnit /\ p = ShUnit.
Proof.
  destruct s; cbn; (split; [try discriminate; intros [= <-]; auto|intros [E ->]; try discriminate E; reflexivity]).
Qed.

Lemma shape_read o full s v p : shape_all copied_ok s -> shape_apart s -> wf v -> narrow_only v ->
  shape_reader o full s (Some (pure v)) = Ok p <-> strict_payload (shape_strictly o s) v p.
Proof.
  intros IH A W N. destruct s as [|t|ts|fs]; cbn [shape_reader shape_strictly shape_all shape_apart] in *.
  - split.
    + intros H. every_value v; cbn [pure pure_num] in H; try discriminate H. injection H as <-. eapply sp_unit; reflexivity.
    + intros H. inversion H as [t E V| | |]; try discriminate. subst. reflexivity.
  - rewrite res_map_ok. split.
    + intros (y & H & ->). eapply sp_new; [reflexivity|]. apply (IH A); assumption.
    + intros H. inversion H as [|o' r y E R| |]; try discriminate. injection E as <- <-. exists y. split; [apply (IH A); assumption|reflexivity].
  - rewrite array_content by discriminate. split.
    + intros (g & l & -> & H). apply res_map_ok in H. destruct H as (ys & H & ->).
      apply (exact_elements_ok (from_content o) (strictly o)) in H.
      * eapply sp_tuple; [reflexivity|reflexivity|]. rewrite map_map. exact H.
      * intros t x y I J. rewrite Forall_forall in IH. apply IH; [exact I|exact (all_at _ _ _ A I)|eapply wf_element; eauto|eapply narrow_array; eauto].
    + intros H. inversion H as [| |rs t l ys E V R|]; try discriminate. injection E as <-. subst. exists t, l. split; [reflexivity|].
      apply res_map_ok. exists ys. split; [|reflexivity]. rewrite map_map in R.
      apply (exact_elements_ok (from_content o) (strictly o)); [|exact R].
      intros t' x y I J. rewrite Forall_forall in IH. apply IH; [exact I|exact (all_at _ _ _ A I)|eapply wf_element; eauto|eapply narrow_array; eauto].
  - destruct A as [A1 A2]. rewrite res_map_ok.
    assert (C : forall ys, content_struct (lit "struct variant " ++ full) false (map (fun f => just (fst f) (from_content o (snd f))) fs)
      (absent_fields fs) (invalid_type (unexpected (pure v)) (lit "struct variant")) (pure v) = Ok ys <->
      strict_struct false (map (fun f => (fst f, (optional (snd f), strictly o (snd f)))) fs) v ys).
    { intros ys. apply content_struct_ok; [|exact W|exact N|exact A1|discriminate].
      intros f x y I Wx Nx. rewrite Forall_forall in IH. apply (IH f I); [exact (all_at _ _ _ A2 I)|exact Wx|exact Nx]. }
    split.
    + intros (ys & H & ->). eapply sp_struct; [reflexivity|]. apply C. exact H.
    + intros H. inversion H as [| | |fs' ys E R]; try discriminate. injection E as <-. exists ys. split; [apply C; exact R|reflexivity].
Qed.

Lemma enum_copied o ident vs v y : Forall (fun nv => shape_all copied_ok (snd nv)) vs -> NoDup (map fst vs) ->
  all (map (fun nv => shape_apart (snd nv)) vs) -> wf v -> narrow_only v ->
  from_content o (TEnum ident vs) (pure v) = Ok y <->
  (exists g s, v = VString g s /\ variant (map (fun nv => (fst nv, shape_strictly o (snd nv))) vs) s ShUnit /\ y = EVVariant s ShUnit) \/
  (exists g k x s p, v = VDict g [(k, x)] /\ variant (map (fun nv => (fst nv, shape_strictly o (snd nv))) vs) k s /\
     strict_payload s x p /\ y = EVVariant k p).
Proof.
  intros IH D A W N.
  set (shapes := map (fun nv => (fst nv, shape_reader o (ident ++ lit "::" ++ fst nv) (snd nv))) vs).
  set (unknown := fun name : ustr => @Err error dval (err_of_kind (KUnknownVariant name (map fst vs)))).
  assert (E : from_content o (TEnum ident vs) (pure v) =
    match pure v with
    | CStr s => match assoc s shapes with Some h => res_map (EVVariant s) (h None) | None => unknown s end
    | CMap [(s, x)] => match assoc s shapes with Some h => res_map (EVVariant s) (h (Some x)) | None => unknown s end
    | CMap _ => invalid_value AMap (lit "map with a single key")
    | _ => invalid_type (unexpected (pure v)) (lit "string or map")
    end).
  { assert (S : shapes = map (fun nv => (fst nv,
          match snd nv with
          | ShUnit => fun x => match x with
                               | None | Some CUnit => Ok ShUnit
                               | Some c => invalid_type (unexpected c) (lit "unit")
                               end
          | ShNew t => fun x => match x with
                                | None => invalid_type AUnitVariant (lit "newtype variant")
                                | Some c => res_map ShNew (from_content o t c)
                                end
          | ShTuple ts => fun x =>
              match x with
              | None => invalid_type AUnitVariant (lit "tuple variant")
              | Some (CSeq l) => res_map ShTuple
                  (exact_elements (map (from_content o) ts)
                     (lit "tuple variant " ++ (ident ++ lit "::" ++ fst nv) ++ elements_text (length ts)) l 0%N)
              | Some c => invalid_type (unexpected c) (lit "tuple variant")
              end
          | ShStruct fs => fun x =>
              match x with
              | None => invalid_type AUnitVariant (lit "struct variant")
              | Some c => res_map ShStruct
                  (content_struct (lit "struct variant " ++ (ident ++ lit "::" ++ fst nv)) false
                     (map (fun f => just (fst f) (from_content o (snd f))) fs)
                     (absent_fields fs) (invalid_type (unexpected c) (lit "struct variant")) c)
              end
          end)) vs).
    { unfold shapes. apply map_ext. intros [n []]; reflexivity. }
    rewrite S. reflexivity. }
  rewrite E. clear E.
  assert (Keys : map fst shapes = map fst vs) by (unfold shapes; rewrite map_map; reflexivity).
  assert (Find : forall k h, assoc k shapes = Some h -> exists s, In (k, s) vs /\ h = shape_reader o (ident ++ lit "::" ++ k) s).
  { intros k h Q. apply assoc_In in Q. unfold shapes in Q. apply in_map_iff in Q. destruct Q as ([k' s] & Q & I). injection Q as <- <-. eauto. }
  assert (Found : forall k s, In (k, s) vs -> assoc k shapes = Some (shape_reader o (ident ++ lit "::" ++ k) s)).
  { intros k s I. apply assoc_nodup; [exact (eq_ind_r (fun l => NoDup l) D Keys)|]. unfold shapes. apply in_map_iff. exists (k, s). auto. }
  rewrite Forall_forall in IH. unfold variant. split.
  - intros H. every_value v; cbn [pure pure_num] in H; try discriminate H.
    + destruct (assoc s shapes) as [h|] eqn:F; [|discriminate]. apply Find in F. destruct F as (sh & I & ->).
      apply res_map_ok in H. destruct H as (p & H & ->). apply shape_unit in H. destruct H as [-> ->].
      left. exists t, s. split; [reflexivity|]. split; [|reflexivity]. apply in_map_iff. exists (s, ShUnit). auto.
    + destruct d as [|[k x] [|kx d]]; try discriminate H. cbn [map fst snd] in H.
      destruct (assoc k shapes) as [h|] eqn:F; [|discriminate]. apply Find in F. destruct F as (sh & I & ->).
      apply res_map_ok in H. destruct H as (p & H & ->).
      apply shape_read in H; [|exact (IH _ I)|exact (all_at _ _ _ A I)|eapply wf_entry; [exact W|left; reflexivity]|eapply narrow_dict; [exact N|left; reflexivity]].
      right. exists t, k, x, (shape_strictly o sh), p. split; [reflexivity|]. split; [|auto]. apply in_map_iff. exists (k, sh). auto.
  - intros [(g & s & -> & V & ->)|(g & k & x & s & p & -> & V & P & ->)]; cbn [pure map fst snd];
      apply in_map_iff in V; destruct V as ([k' sh] & Q & I); cbn [fst snd] in Q; injection Q as -> Q.
    + rewrite (Found _ _ I). apply res_map_ok. exists ShUnit. split; [|reflexivity]. apply shape_unit. split; [|reflexivity].
      destruct sh; try discriminate; reflexivity.
    + rewrite (Found _ _ I). apply res_map_ok. exists p. split; [|reflexivity].
      apply shape_read; [exact (IH _ I)|exact (all_at _ _ _ A I)|eapply wf_entry; [exact W|left; reflexivity]|eapply narrow_dict; [exact N|left; reflexivity]|].
      rewrite Q. exact P.
Qed.

Theorem copy_read t : copied_ok t.
Proof.
  induction t as [|k| | | | | |t IHt|t IHt|ts IHts|t IHt|t1 t2 IH1 IH2|n i d fs IHfs|i t IHt|i ts IHts|i|i vs IHvs| | | | | | |a b IHa IHb] using ty_ind';
    intros A o v y W N.
  - cbn [strictly]. apply (scalars TBool); auto; cbn; tauto.
  - cbn [strictly]. split.
    + intros H. assert (K : narrow k) by (destruct k; try exact I; cbn in H; discriminate H). split; [exact K|].
      apply int_copied in H; [|exact N|exact K]. apply (granted_at (TInt k) MPlain v y W A) in H. apply H.
    + intros [K H]. apply int_copied; [exact N|exact K|]. apply (granted_at (TInt k) MPlain v y W A). split; assumption.
  - cbn [strictly]. apply (scalars TF32); auto; cbn; tauto.
  - cbn [strictly]. apply (scalars TF64); auto; cbn; tauto.
  - cbn [strictly]. apply (scalars TChar); auto; cbn; tauto.
  - cbn [strictly]. apply (text_copied o TString EVStr); [exact N|intros []; reflexivity|intros []; try exact I; discriminate].
  - cbn [strictly]. apply (scalars TUnit); auto; cbn; tauto.
  - cbn [strictly from_content]. destruct (empty_or_not v) as [E|E].
    + rewrite option_content by exact E. split; [intros [= <-]; left; auto|intros [[_ ->]|[Q _]]; [reflexivity|contradiction]].
    + rewrite option_content_not by exact E. rewrite res_map_ok. split.
      * intros (x & H & ->). right. split; [exact E|]. exists x. split; [apply (IHt A); assumption|reflexivity].
      * intros [[Q _]|[_ (x & H & ->)]]; [contradiction|]. exists x. split; [apply (IHt A); assumption|reflexivity].
  - cbn [strictly from_content]. apply seq_content; [|exact W|exact N]. intros x z Wx Nx. apply (IHt A); assumption.
  - cbn [strictly from_content]. cbn [named_apart] in A. rewrite array_content by discriminate.
    assert (E : forall g l ys, wf (VArray g l) -> narrow_only (VArray g l) ->
      exact_elements (map (from_content o) ts) (lit "a tuple of size " ++ fmt_nat (N.of_nat (length ts))) (map pure l) 0%N = Ok ys <->
      each (map (strictly o) ts) l ys).
    { intros g l ys Wl Nl. apply exact_elements_ok. intros t x z J K. rewrite Forall_forall in IHts.
      apply (IHts t J (all_at _ _ _ A J)); [eapply wf_element; eauto|eapply narrow_array; eauto]. }
    split.
    + intros (g & l & -> & H). apply res_map_ok in H. destruct H as (ys & H & ->). exists g, l, ys. split; [reflexivity|].
      split; [eapply E; eauto|reflexivity].
    + intros (g & l & ys & -> & H & ->). exists g, l. split; [reflexivity|]. apply res_map_ok. exists ys. split; [eapply E; eauto|reflexivity].
  - cbn [strictly from_content]. apply map_content; [|exact W|exact N]. intros x z Wx Nx. apply (IHt A); assumption.
  - cbn [strictly from_content]. cbn [named_apart] in A. destruct A as [A1 A2]. rewrite dict_content by discriminate.
    assert (E : forall g (d : dict) ys, wf (VDict g d) -> narrow_only (VDict g d) ->
      contents (fun e => res_bind (from_content o t1 (CStr (fst e))) (fun x => res_map (pair x) (from_content o t2 (snd e))))
        (map (fun kv => (fst kv, pure (snd kv))) d) = Ok ys <->
      Forall2 (fun kv ky => strictly o t1 (VString tag_default (fst kv)) (fst ky) /\ strictly o t2 (snd kv) (snd ky)) d ys).
    { intros g d ys Wd Nd. rewrite contents_ok. apply Forall2_same. intros [k x] [z1 z2] J. cbn [fst snd]. rewrite res_bind_ok.
      rewrite <- (IH1 A1 o (VString tag_default k) z1 I I). rewrite <- (IH2 A2 o x z2); [|eapply wf_entry; eauto|eapply narrow_dict; eauto].
      cbn [pure]. split.
      - intros (x1 & H1 & H2). apply res_map_ok in H2. destruct H2 as (x2 & H2 & Q). injection Q as -> ->. auto.
      - intros [H1 H2]. exists z1. split; [exact H1|]. apply res_map_ok. exists z2. auto. }
    split.
    + intros (g & d & -> & H). apply res_map_ok in H. destruct H as (ys & H & ->). exists g, d, ys. split; [reflexivity|].
      split; [eapply E; eauto|reflexivity].
    + intros (g & d & ys & -> & H & ->). exists g, d. split; [reflexivity|]. apply res_map_ok. exists ys. split; [eapply E; eauto|reflexivity].
  - cbn [strictly from_content]. cbn [named_apart] in A. destruct A as [A1 A2]. rewrite res_map_ok. rewrite Forall_forall in IHfs.
    assert (E : forall ys, content_struct (lit "struct " ++ i) d (map (fun f => just (fst f) (from_content o (snd f))) fs)
       (absent_fields fs) (invalid_type (unexpected (pure v)) (lit "struct " ++ i)) (pure v) = Ok ys <->
       strict_struct d (map (fun f => (fst f, (optional (snd f), strictly o (snd f)))) fs) v ys).
    { intros ys. apply content_struct_ok; [|exact W|exact N|exact A1|discriminate].
      intros f x z J Wx Nx. apply (IHfs f J (all_at _ _ _ A2 J)); assumption. }
    split; intros (ys & H & ->); exists ys; (split; [apply E; exact H|reflexivity]).
  - cbn [strictly from_content]. rewrite res_map_ok. split; intros (x & H & ->); exists x; (split; [apply (IHt A); assumption|reflexivity]).
  - cbn [strictly from_content]. cbn [named_apart] in A. rewrite array_content by discriminate.
    assert (E : forall g l ys, wf (VArray g l) -> narrow_only (VArray g l) ->
      exact_elements (map (from_content o) ts) ((lit "tuple struct " ++ i) ++ elements_text (length ts)) (map pure l) 0%N = Ok ys <->
      each (map (strictly o) ts) l ys).
    { intros g l ys Wl Nl. apply exact_elements_ok. intros t x z J K. rewrite Forall_forall in IHts.
      apply (IHts t J (all_at _ _ _ A J)); [eapply wf_element; eauto|eapply narrow_array; eauto]. }
    split.
    + intros (g & l & -> & H). apply res_map_ok in H. destruct H as (ys & H & ->). exists g, l, ys. split; [reflexivity|].
      split; [eapply E; eauto|reflexivity].
    + intros (g & l & ys & -> & H & ->). exists g, l. split; [reflexivity|]. apply res_map_ok. exists ys. split; [eapply E; eauto|reflexivity].
  - cbn [strictly from_content]. split.
    + intros H. destruct o.
      * every_value v; cbn [pure pure_num] in H; try discriminate H.
        -- injection H as <-. split; [reflexivity|]. left. eauto.
        -- destruct d; [|discriminate]. injection H as <-. split; [reflexivity|]. right. split; [reflexivity|]. exists t. right. reflexivity.
        -- destruct l; [|discriminate]. injection H as <-. split; [reflexivity|]. right. split; [reflexivity|]. exists t. left. reflexivity.
      * every_value v; cbn [pure pure_num] in H; try discriminate H. injection H as <-. split; [reflexivity|]. left. eauto.
    + intros [-> [(g & ->)|(-> & g & [->| ->])]]; [destruct o; reflexivity|reflexivity|reflexivity].
  - cbn [strictly]. cbn [named_apart] in A. destruct A as [A1 A2]. apply enum_copied; auto.
  - cbn [strictly from_content]. rewrite res_map_ok. split; intros (u & H & ->); exists u; (split; [apply content_value_taken; assumption|reflexivity]).
  - cbn [strictly]. apply (scalars TTag); auto; cbn; tauto.
  - cbn [strictly]. apply (text_copied o TProfile (fun s => EVProfile (mkProfile s))); [exact N|intros []; reflexivity|intros []; try exact I; discriminate].
  - cbn [strictly]. apply (text_copied o TPath EVPath); [exact N|intros []; reflexivity|intros []; try exact I; discriminate].
  - cbn. split; [intros [= <-]; reflexivity|intros ->; reflexivity].
  - cbn [strictly]. apply (scalars TBoolish); auto; cbn; tauto.
  - cbn [strictly]. cbn [named_apart] in A. destruct A as [A1 A2].
    assert (Ga : means MPlain (optional a) (gives MPlain a) (deserialize a)) by apply (extraction_granted a A1).
    assert (Gb : means MPlain (optional b) (gives MPlain b) (deserialize b)) by apply (extraction_granted b A2).
    assert (E : from_content o (TEither a b) (pure v) =
      match pure v with
      | CMap _ | CSeq _ => res_bind (content_value (pure v)) (tried a b)
      | _ => invalid_type (unexpected (pure v)) (lit "any valid figment value")
      end) by reflexivity.
    rewrite E. clear E. split.
    + intros H.
      assert (S : (exists g d, v = VDict g d) \/ (exists g l, v = VArray g l)).
      { every_value v; cbn [pure pure_num] in H; try discriminate H; eauto. }
      split; [exact S|].
      assert (H' : res_bind (content_value (pure v)) (tried a b) = Ok y).
      { destruct S as [(g & d & ->)|(g & l & ->)]; exact H. }
      apply res_bind_ok in H'. destruct H' as (u & H1 & H2). apply content_value_taken in H1; [|exact W|exact N].
      apply tried_spec in H2; [|exact Ga|exact Gb|eapply raw_value_total_wf; [exact W|exact H1]].
      destruct H2 as (f & F & H2). exists u, f. auto.
    + intros (S & u & f & T & F & H).
      assert (H' : res_bind (content_value (pure v)) (tried a b) = Ok y).
      { apply res_bind_ok. exists u. split; [apply content_value_taken; assumption|].
        apply tried_spec; [exact Ga|exact Gb|eapply raw_value_total_wf; [exact W|exact T]|]. exists f. auto. }
      destruct S as [(g & d & ->)|(g & l & ->)]; exact H'.
Qed.
