(** Typed extraction at every type fails exactly as [SpecRefuse.refuses] says. *)
From Coq Require Import Ascii String ZArith NArith Bool Lia.
From Coq Require Import Floats.SpecFloat.
From Coq Require Import List.
From Verif Require Import Res BMap Str Profile Tag Num Value NumParse Metadata Err Coalesce Figment Fmt De.
From Verif Require Import SpecValue SpecParse SpecShow SpecLossy SpecDe SpecMagic SpecExtract SpecDoc SpecTaken SpecGives SpecRefuse.
From Verif Require Import BMapProofs StrProofs ValueProofs DeProofs BlameProofs ExtractProofs
  SpecRt RtProofs SerProofs MagicProofs MeaningProofs TakenProofs GivesProofs FmtProofs ShowProofs RefuseProofs RefuseDataProofs.
Import ListNotations.

(** ** Values taken as they are *)
Definition copy_bad (kept : bool) (key : ustr) : refusal := fun x q kd =>
  (key = value_id /\ (forall t, ~ id_number x t) /\ unwanted (wants TTag) x q kd) \/
  (key = value_value /\ uncopied kept x q kd) \/
  (~ In key [value_id; value_value] /\ exists q', uncopied kept x q' kd /\ q = below kept q').

Lemma uncopied_dict kept g d p k : uncopied kept (VDict g d) p k <-> entry_refused (copied_fine kept) (copy_bad kept) d p k.
Proof.
  split.
  - intros H. inversion H as [? a x b kd A N U|? a x b q kd A U|? a key x b q kd A N U|]; subst.
    + exists a, value_id, x, b, []. split; [reflexivity|]. split; [exact A|]. split; [left; auto|reflexivity].
    + exists a, value_value, x, b, q. split; [reflexivity|]. split; [exact A|]. split; [right; left; auto|reflexivity].
    + exists a, key, x, b, (below kept q). split; [reflexivity|]. split; [exact A|]. split; [right; right; eauto|reflexivity].
  - intros (a & key & x & b & q & -> & A & [(-> & N & U)|[(-> & U)|(N & q' & U & ->)]] & ->).
    + assert (q = []) as -> by (apply U). constructor; assumption.
    + constructor; assumption.
    + constructor; assumption.
Qed.
Lemma uncopied_array kept g l p k : uncopied kept (VArray g l) p k <->
  exists a x b q, l = a ++ x :: b /\ Forall (fun y => exists u, taken kept y u) a /\ uncopied kept x q k /\
    p = decimal (N.of_nat (length a)) :: below kept q.
Proof.
  split.
  - intros H. inversion H as [| | |? a x b q kd A U]; subst. exists a, x, b, q. auto.
  - intros (a & x & b & q & -> & A & U & ->). constructor; assumption.
Qed.

Lemma said_of_raw m t r p k :
  says (value_of_raw m t r) p k <-> exists q, says r q k /\ p = below (tracked m) q.
Proof.
  destruct m as [i f|]; cbn [value_of_raw tracked below].
  - rewrite says_settle, says_map, says_at_key. reflexivity.
  - split; [eauto|]. intros (q & H & ->). exact H.
Qed.

Lemma tag_said m x p k : says (deserialize_tag (mk_de m x)) p k <-> (forall t, ~ id_number x t) /\ unwanted (wants TTag) x p k.
Proof.
  rewrite tag_read. split; intros [A B]; (split; [|exact B]).
  - intros t H. inversion H as [g j z J]; subst. apply (A g (NInt j z) z eq_refl). exists j. auto.
  - intros g n z -> (j & -> & J). apply (A (Tag (Z.to_N z))). constructor. exact J.
Qed.

Lemma value_entries_said m (d : dict) p k :
  (forall key x, In (key, x) d -> wf x /\ forall q, says (raw_value m x) q k <-> uncopied (tracked m) x q k) ->
  forall acc id raw, says (value_entries (map_access (mk_de m) d) acc id raw) p k <->
    entry_refused (copied_fine (tracked m)) (copy_bad (tracked m)) d p k.
Proof.
  induction d as [|[key x] d IHd]; intros IH acc id raw; cbn [map_access map value_entries fst snd].
  { rewrite says_ok, entry_nil. reflexivity. }
  assert (IHd' := IHd (fun key' x' I => IH key' x' (or_intror I))).
  fold (map_access (mk_de m) d). destruct (IH key x (or_introl eq_refl)) as [Wx R]. clear IH IHd. rewrite entry_cons.
  destruct (ueqb key value_id) eqn:E1; [|destruct (ueqb key value_value) eqn:E2].
  - apply ueqb_eq in E1. subst key. rewrite says_bind, says_value. setoid_rewrite next_value_ok.
    setoid_rewrite IHd'. setoid_rewrite tag_said. setoid_rewrite id_number_ok.
    assert (B : forall q, copy_bad (tracked m) value_id x q k <-> (forall t, ~ id_number x t) /\ unwanted (wants TTag) x q k).
    { intros q. unfold copy_bad. split; [|intros [A B]; left; auto].
      intros [(_ & A & B)|[(X & _)|(N & _)]]; [auto|discriminate X|elim N; cbn; auto]. }
    assert (C : copied_fine (tracked m) value_id x <-> exists t, id_number x t).
    { unfold copied_fine. split; [intros [A _]; exact (A eq_refl)|]. intros A. split; [auto|]. intros N. elim N. reflexivity. }
    setoid_rewrite B. rewrite C. split.
    + intros [H|(t & T & H)]; [left; exact H|right; eauto].
    + intros [H|[(t & T) H]]; [left; exact H|right; eauto].
  - apply ueqb_eq in E2. subst key. rewrite says_bind, says_value. setoid_rewrite next_value_ok.
    setoid_rewrite IHd'. setoid_rewrite deserialize_raw_mk. setoid_rewrite R. setoid_rewrite (raw_value_taken m x Wx).
    change (kept_mode m) with (tracked m).
    assert (B : forall q, copy_bad (tracked m) value_value x q k <-> uncopied (tracked m) x q k).
    { intros q. unfold copy_bad. split; [|intros B; right; left; auto].
      intros [(X & _)|[(_ & B)|(N & _)]]; [discriminate X|exact B|elim N; cbn; auto]. }
    assert (C : copied_fine (tracked m) value_value x <-> exists u, taken (tracked m) x u).
    { unfold copied_fine. split; [intros [_ A]; apply A; discriminate|]. intros A. split; [discriminate|auto]. }
    setoid_rewrite B. rewrite C. split.
    + intros [H|(t & T & H)]; [left; exact H|right; eauto].
    + intros [H|[(t & T) H]]; [left; exact H|right; eauto].
  - assert (N1 : key <> value_id) by (intros ->; rewrite ueqb_refl in E1; discriminate E1).
    assert (N2 : key <> value_value) by (intros ->; rewrite ueqb_refl in E2; discriminate E2).
    rewrite says_bind, says_value. setoid_rewrite next_value_ok. setoid_rewrite deserialize_value_mk.
    setoid_rewrite said_of_raw. setoid_rewrite R. setoid_rewrite IHd'. setoid_rewrite value_of_raw_ok.
    setoid_rewrite (raw_value_taken m x Wx). change (kept_mode m) with (tracked m).
    assert (B : forall q, copy_bad (tracked m) key x q k <-> exists q', uncopied (tracked m) x q' k /\ q = below (tracked m) q').
    { intros q. unfold copy_bad. split.
      - intros [(X & _)|[(X & _)|(_ & B)]]; [contradiction|contradiction|exact B].
      - intros B. right. right. split; [|exact B]. intros [X|[X|[]]]; [exact (N1 (eq_sym X))|exact (N2 (eq_sym X))]. }
    assert (C : copied_fine (tracked m) key x <-> exists u, taken (tracked m) x u).
    { unfold copied_fine. split; [intros [_ A]; apply A; exact N1|]. intros A. split; [intros X; contradiction|auto]. }
    setoid_rewrite B. rewrite C. split.
    + intros [H|(w & (u & U & _) & H)]; [left; exact H|right; eauto].
    + intros [H|[(u & U) H]]; [left; exact H|right; eauto 6].
Qed.

Lemma value_elements_said m (l : list value) p k :
  (forall x, In x l -> wf x /\ forall q, says (raw_value m x) q k <-> uncopied (tracked m) x q k) ->
  forall n, says (value_elements (map (mk_de m) l) n) p k <->
    exists a x b q, l = a ++ x :: b /\ Forall (fun y => exists u, taken (tracked m) y u) a /\ uncopied (tracked m) x q k /\
      p = decimal (n + N.of_nat (length a)) :: below (tracked m) q.
Proof.
  induction l as [|v l IHl]; intros IH n; cbn [map value_elements].
  { rewrite says_ok. split; [intros []|]. intros (a & x & b & q & E & _). destruct a; discriminate E. }
  assert (IHl' := IHl (fun x' I => IH x' (or_intror I))). destruct (IH v (or_introl eq_refl)) as [Wv R]. clear IH IHl.
  rewrite says_bind, says_element. setoid_rewrite next_element_ok. setoid_rewrite deserialize_value_mk.
  setoid_rewrite said_of_raw. setoid_rewrite R. setoid_rewrite says_map. setoid_rewrite IHl'.
  setoid_rewrite value_of_raw_ok. setoid_rewrite (raw_value_taken m v Wv). change (kept_mode m) with (tracked m). split.
  - intros [(q0 & (q & U & ->) & ->)|(w & (u & U & _) & a & x & b & q & -> & A & X & ->)].
    + exists [], v, l, q. rewrite N.add_0_r. auto.
    + exists (v :: a), x, b, q. split; [reflexivity|]. split; [constructor; [eauto|exact A]|]. split; [exact X|].
      cbn [length]. f_equal. f_equal. lia.
  - intros (a & x & b & q & E & A & X & ->). destruct a as [|v' a]; injection E as -> ->.
    + left. exists (below (tracked m) q). rewrite N.add_0_r. eauto.
    + inversion A as [|? ? [u U] A2]; subst. right. exists (fill m v' u). split; [eauto|]. exists a, x, b, q.
      split; [reflexivity|]. split; [exact A2|]. split; [exact X|]. cbn [length]. f_equal. f_equal. lia.
Qed.

Lemma raw_said m v k : wf v -> forall p, says (raw_value m v) p k <-> uncopied (tracked m) v p k.
Proof.
  induction v as [t s|t c|t b0|t n|t e|t d IH|t l IH] using value_ind'; intros W p.
  1-5: cbn [raw_value]; rewrite says_mode_settle, says_ok; (split; [intros []|]); intros H; inversion H.
  - rewrite raw_value_any, says_any. cbn [value_visit]. unfold visit_map. cbn [value_visitor v_map].
    rewrite uncopied_dict. apply value_entries_said. intros key x I. apply wf_VDict in W. destruct W as [_ W].
    rewrite Forall_forall in IH, W. split; [exact (W _ I)|]. exact (IH (key, x) I (W _ I)).
  - rewrite raw_value_any, says_any. cbn [value_visit]. unfold visit_seq. cbn [value_visitor v_seq].
    rewrite says_map, uncopied_array. apply (value_elements_said m l p k). intros x I. apply wf_VArray in W.
    rewrite Forall_forall in IH, W. split; [exact (W _ I)|]. exact (IH x I (W _ I)).
Qed.

(** ** Missing fields and keys *)
Lemma missing_said t n p k : says (deserialize t (DMissing n)) p k <-> ~ optional t /\ p = [] /\ k = KMissingField n.
Proof.
  assert (O : (exists u, t = TOption u) \/ (~ optional t /\ deserialize t (DMissing n) = Err (err_of_kind (KMissingField n)))).
  { destruct t as [|j| | | | | |t|t|ts|t|a t|nm i dn fs|i t|i ts|i|i vs| | | | | | |a b];
      try (right; split; [intros [u E]; discriminate E|reflexivity]; fail).
    - right. split; [intros [u E]; discriminate E|]. destruct j; reflexivity.
    - left. eauto. }
  destruct O as [[u ->]|[O E]].
  - cbn. rewrite says_ok. split; [intros []|]. intros [H _]. apply H. exists u. reflexivity.
  - rewrite E, says_kind. tauto.
Qed.

Definition key_bad (t : ty) (s : ustr) (k : kind) : Prop :=
  match t with
  | TEither a b => exists f, last_of_fields a f /\
      both_refused f (refuses MPlain a) (refuses MPlain b) (VString tag_default s) [] k
  | _ => key_refused t s k
  end.
Definition key_fine (t : ty) (s : ustr) : Prop :=
  match t with
  | TValue => True
  | TEither a b => exists f y, last_of_fields a f /\
      first_else f (gives MPlain a) (gives MPlain b) (VString tag_default s) y
  | _ => exists y, reads_key t s y
  end.

Definition part_of (m : mode) (t : ty) : part := (optional t, fun v => exists y, gives m t v y, refuses m t).
Definition told (t : ty) : Prop :=
  named_apart t ->
  (forall m v p k, wf v -> says (deserialize t (mk_de m v)) p k <-> refuses m t v p k) /\
  forall s p k, says (deserialize t (DStr s)) p k <-> p = [] /\ key_bad t s k.

Lemma told_tells t m : told t -> named_apart t -> tells m (part_of m t) (deserialize t).
Proof.
  intros T N. constructor.
  - intros v W. unfold part_of, fine. cbn [fst snd]. split; intros (y & Y); exists y; apply (granted_at t m v y W N); exact Y.
  - intros v p k W. apply (T N). exact W.
  - intros n. unfold may_lack, part_of. cbn [fst]. split; [intros (y & Y); apply missing_extracted in Y; apply Y|].
    intros O. exists EVNone. apply missing_extracted. auto.
  - intros n p k. apply missing_said.
Qed.

Lemma key_said t s p k : match t with TValue | TEither _ _ => False | _ => True end -> named_apart t ->
  says (deserialize t (DStr s)) p k <-> p = [] /\ key_refused t s k.
Proof.
  intros O N. destruct t as [|j| | | | | |t|t|ts|t|a t|n i dn fs|i t|i ts|i|i vs| | | | | | |a b];
    try (cbn [key_refused]; apply says_kind); try (destruct O; fail).
  - assert (E : deserialize (TInt j) (DStr s) = Err (err_of_kind (KInvalidType (AStr s) (int_name j)))) by (destruct j; reflexivity).
    rewrite E. apply says_kind.
  - cbn. unfold visit_str. cbn [v_str char_visitor]. destruct s as [|c [|c' s]]; unfold invalid_value; rewrite ?says_ok, ?says_kind.
    + split; [intros [-> ->]; split; [reflexivity|]; split; [discriminate|reflexivity]|tauto].
    + split; [intros []|]. intros (_ & H & _). elim (H c). reflexivity.
    + split; [intros [-> ->]; split; [reflexivity|]; split; [discriminate|reflexivity]|tauto].
  - cbn. unfold visit_str. cbn [v_str str_visitor]. rewrite says_ok. tauto.
  - cbn [key_refused wants]. rewrite <- fmt_nat_decimal. apply says_kind.
  - cbn [deserialize de_enum key_refused]. cbn in N. destruct N as [Nd Ns].
    match goal with |- context [enum_visitor i ?l] =>
      change l with (map (fun nv => (fst nv, shape_des (snd nv))) vs) end.
    unfold visit_enum. cbn [v_enum enum_visitor]. rewrite existsb_shapes. rewrite says_bind, variant_key_str. unfold name_refused.
    destruct (existsb (ueqb s) (map fst vs)) eqn:E.
    + apply existsb_ueqb in E. destruct (assoc_total s vs E) as [r Er].
      assert (U : forall r', variant vs s r' <-> r' = r).
      { intros r'. unfold variant. split; [intros H; apply assoc_nodup in H; [congruence|exact Nd]|].
        intros ->. apply assoc_In. exact Er. }
      assert (X : says (variant_unit_only (shape_des r)) p k <-> exists exp, lacks_payload r exp /\ p = [] /\ k = KInvalidType AUnitVariant exp).
      { destruct r as [|r|rs|rs]; cbn [variant_unit_only shape_des]; unfold invalid_type; rewrite ?says_ok, ?says_kind.
        - split; [intros []|]. intros (exp & H & _). inversion H.
        - split; [intros [-> ->]; eexists; split; [constructor|auto]|]. intros (exp & H & A & B). inversion H; subst. auto.
        - split; [intros [-> ->]; eexists; split; [constructor|auto]|]. intros (exp & H & A & B). inversion H; subst. auto.
        - split; [intros [-> ->]; eexists; split; [constructor|auto]|]. intros (exp & H & A & B). inversion H; subst. auto. }
      assert (Es : assoc s (map (fun nv => (fst nv, shape_des (snd nv))) vs) = Some (shape_des r)).
      { rewrite (assoc_map s shape_des vs), Er. reflexivity. }
      split.
      * intros [H|(name & [= <-] & H)]; [elim (proj1 (says_ok _ _ _) H)|]. rewrite Es, says_map, X in H.
        destruct H as (exp & L & P & Q). split; [exact P|]. right. exists r, exp. split; [apply U; reflexivity|]. auto.
      * intros (P & [[H _]|(r' & exp & R & L & Q)]); [contradiction|]. apply U in R. subst r'. right. exists s.
        split; [reflexivity|]. rewrite Es, says_map, X. eauto.
    + apply existsb_ueqb_false in E. split.
      * intros [H|(name & H & _)]; [|discriminate H]. apply says_kind in H. destruct H as [P Q]. auto.
      * intros (P & [[_ Q]|(r' & exp & R & _)]); [left; apply says_kind; auto|]. apply (in_map fst) in R. contradiction.
  - cbn. unfold visit_str. cbn [v_str str_visitor]. rewrite says_ok. tauto.
  - cbn. unfold visit_str. cbn [v_str str_visitor]. rewrite says_ok. tauto.
  - cbn. rewrite says_ok. tauto.
  - assert (B := boolish_read MPlain (VString tag_default s) p k). rewrite says_any in B.
    cbn [key_refused deserialize de_any]. cbn [value_visit] in B. rewrite B. split.
    + intros [Ns [(g & j & z & X & _)|[(s' & X & P & Q)|(_ & X & _)]]]; [discriminate X| |elim (X s); constructor].
      inversion X; subst. auto.
    + intros (P & Ns & Q). split; [exact Ns|]. right. left. exists s. split; [constructor|auto].
Qed.

(** ** Either *)
Lemma tried_said a b u p k : told a -> told b -> named_apart a -> named_apart b -> wf u ->
  says (tried a b u) p k <->
  exists f, last_of_fields a f /\ both_refused f (refuses MPlain a) (refuses MPlain b) u p k.
Proof.
  intros Ta Tb Na Nb W. unfold tried, both_refused.
  assert (Ha := fun p k => proj1 (Ta Na) MPlain u p k W). cbn [mk_de] in Ha.
  set (u' := match option_bind (as_dict u) (get (last_field a)) with Some x => x | None => u end).
  assert (S : entry_or_self (last_field a) u u') by (apply entry_or_self_get; [exact W|reflexivity]).
  assert (Hb := fun p k => proj1 (Tb Nb) MPlain u' p k (wf_entry_or_self _ _ _ W S)). cbn [mk_de] in Hb.
  split.
  - intros H. exists (last_field a). split; [apply last_field_spec; reflexivity|].
    destruct (deserialize a (DPlain u)) as [x|ea] eqn:E; [elim (proj1 (says_ok _ _ _) H)|].
    cbv zeta in H. destruct (deserialize b (DPlain u')) as [x|eb] eqn:Eb; [elim (proj1 (says_ok _ _ _) H)|].
    apply says_kind in H. exists u', (e_path ea), (e_kind ea), (e_path eb), (e_kind eb).
    split; [apply Ha; exists ea; auto|]. split; [exact S|]. split; [apply Hb; exists eb; auto|]. exact H.
  - intros (f & F & w & pa & ka & pb & kb & A & S' & B & P & Q). apply last_field_spec in F. subst f.
    assert (w = u') as -> by (apply entry_or_self_get in S'; [exact S'|exact W]).
    apply Ha in A. destruct A as (ea & -> & _ & <-). cbv zeta. apply Hb in B. destruct B as (eb & -> & _ & <-).
    apply says_kind. auto.
Qed.

(** ** All types *)
Lemma told_list ts m : Forall told ts -> all (map named_apart ts) ->
  Forall2 (fun rec r => tells m r rec) (map deserialize ts) (map (part_of m) ts).
Proof.
  intros H N. rewrite all_Forall in N. induction H as [|t ts Ht _ IH]; cbn [map]; constructor;
    inversion N; subst; [apply told_tells|apply IH]; assumption.
Qed.
Lemma told_fields (fs : list (ustr * ty)) m : Forall (fun f => told (snd f)) fs ->
  all (map (fun f => named_apart (snd f)) fs) ->
  Forall2 (field_tells m) (map (fun f => (fst f, deserialize (snd f))) fs)
          (map (fun f => (fst f, part_of m (snd f))) fs).
Proof.
  intros H N. rewrite all_Forall in N. induction H as [|t ts Ht _ IH]; cbn [map]; constructor; inversion N; subst.
  - split; [reflexivity|]. apply told_tells; assumption.
  - apply IH; assumption.
Qed.
Definition shape_part (m : mode) (s : shape ty) : shape part :=
  match s with
  | ShUnit => ShUnit
  | ShNew t => ShNew (part_of m t)
  | ShTuple ts => ShTuple (map (part_of m) ts)
  | ShStruct fs => ShStruct (map (fun f => (fst f, part_of m (snd f))) fs)
  end.
Lemma told_variants (vs : list (ustr * shape ty)) m : Forall (fun v => shape_all told (snd v)) vs ->
  all (map (fun nv => match snd nv with
                      | ShUnit => True
                      | ShNew t => named_apart t
                      | ShTuple ts => all (map named_apart ts)
                      | ShStruct fs => NoDup (map fst fs) /\ all (map (fun f => named_apart (snd f)) fs)
                      end) vs) ->
  variants_tell m (map (fun nv => (fst nv, shape_des (snd nv))) vs)
                  (map (fun nv => (fst nv, shape_part m (snd nv))) vs).
Proof.
  intros H N. rewrite all_Forall in N. induction H as [|[n s] vs Hs _ IH]; cbn [map]; constructor.
  - inversion N as [|? ? N1 N2]; subst. cbn [fst snd] in *. split; [reflexivity|].
    destruct s as [|t|ts|fs]; cbn [shape_des shape_part shape_tells shape_all] in *.
    + exact I.
    + apply told_tells; assumption.
    + apply told_list; assumption.
    + destruct N1 as [N1 N1']. split; [apply told_fields; assumption|]. rewrite keys_map. exact N1.
  - inversion N; subst. apply IH; assumption.
Qed.

Theorem extraction_told t : told t.
Proof.
  induction t using ty_ind'; intros N;
    (split; [intros m v p kd W|intros s p kd; try (apply key_said; [exact I|exact N])]).
  - apply bool_refused.
  - cbn [refuses]. assert (E : narrow k \/ k = U128 \/ k = I128) by (destruct k; cbn; auto).
    destruct E as [E|[->| ->]].
    + assert (X := int_read m k v p kd E).
      destruct k; try destruct E; exact X.
    + destruct m; apply says_kind.
    + destruct m; apply says_kind.
  - apply f32_read.
  - apply f64_read.
  - apply char_read.
  - apply (text_read m (lit "a string") EVStr).
  - apply (unit_read m (lit "unit")).
  - cbn [deserialize refuses].
    assert (X : says (visit_some (option_visitor (deserialize t)) (mk_de m v)) p kd <-> refuses m t v p kd).
    { unfold visit_some. cbn [v_some option_visitor]. rewrite says_map. apply IHt; assumption. }
    rewrite <- X. destruct v as [g s|g c|g b|g n|g e|g d|g l];
      try (destruct m; cbn [mk_de de_option]; rewrite ?says_settle; (split; [intros H; split; [discriminate|exact H]|tauto]); fail).
    split; [|intros [H _]; elim (H g e eq_refl)].
    destruct m as [i f|], e; cbn; intros (e' & H & _); discriminate H.
  - cbn [deserialize refuses]. rewrite says_any, (seq_said m _ (fun l => res_map EVSeq (all_elements (deserialize t) l 0%N))) by reflexivity.
    setoid_rewrite says_map. fold (part_of m t). unfold element_refused.
    split; (intros [(g & l & -> & H)|H]; [left|right; exact H]); exists g, l; (split; [reflexivity|]);
      apply wf_VArray in W; apply (elements_read m (part_of m t) (deserialize t) l (told_tells t m IHt N) W 0%N p kd); exact H.
  - cbn [deserialize refuses]. cbn [named_apart] in N. pose proof (told_list _ m H N) as M.
    rewrite says_any. match goal with |- context [seq_visitor ?e ?h] => rewrite (seq_said m (seq_visitor e h) h) by reflexivity end.
    setoid_rewrite says_map. unfold tuple_refused. cbn [wants v_expecting seq_visitor]. rewrite fmt_nat_decimal.
    split; (intros [(g & l & -> & X)|X]; [left|right; exact X]); exists g, l; (split; [reflexivity|]);
      apply wf_VArray in W; apply (tuple_read m _ (map (part_of m) ts) _ l p kd M W); exact X.
  - cbn [deserialize refuses]. rewrite says_any.
    match goal with |- context [map_visitor ?e ?h] => rewrite (map_said m (map_visitor e h) h) by reflexivity end.
    setoid_rewrite says_map.
    split; (intros [(g & d & -> & X)|X]; [left|right; exact X]); exists g, d; (split; [reflexivity|]);
      apply wf_VDict in W; apply (map_read m (part_of m t) (deserialize t) d (told_tells t m IHt N) (proj2 W) [] p kd); exact X.
  - cbn [deserialize refuses]. cbn [named_apart] in N. destruct N as [N1 N2].
    rewrite says_any. match goal with |- context [map_visitor ?e ?h] => rewrite (map_said m (map_visitor e h) h) by reflexivity end.
    setoid_rewrite says_map. fold (key_fine t1). fold (key_bad t1).
    assert (KF : forall s, (exists y, deserialize t1 (DStr s) = Ok y) <-> key_fine t1 s).
    { intros s. assert (G := proj2 (extraction_granted t1 N1) s). unfold key_fine.
      destruct t1; try (split; intros (y & Y); exists y; apply G; exact Y; fail).
      - split; [auto|]. intros _. exists (EVValue (VString tag_default s)). apply G. reflexivity.
      - split.
        + intros (y & Y). apply G in Y. destruct Y as (f & F & Y). eauto.
        + intros (f & y & F & Y). exists y. apply G. exists f. auto. }
    assert (KB := proj2 (IHt1 N1)).
    split; (intros [(g & d & -> & X)|X]; [left|right; exact X]); exists g, d; (split; [reflexivity|]);
      apply wf_VDict in W;
      apply (pairs_read m (key_fine t1) (key_bad t1) (deserialize t1) (part_of m t2) (deserialize t2) d KF KB
               (told_tells t2 m IHt2 N2) (proj2 W) p kd); exact X.
  - cbn [deserialize refuses]. cbn [named_apart] in N. destruct N as [N1 N2].
    pose proof (told_fields _ m H N2) as M.
    destruct (presented m n v W) as (w & P & Ww & U & _).
    rewrite (presented_said m n v w _ p kd W P).
    rewrite (struct_said m _ d _ _ EVStruct w p kd M) by (rewrite ?keys_map; assumption). split.
    + intros X. exists w. split; [exact P|exact X].
    + intros (w' & P' & X). rewrite (U w' P') in X. exact X.
  - cbn [deserialize refuses].
    assert (E : de_newtype (mk_de m v) (newtype_visitor (lit "tuple struct " ++ i) (deserialize t)) =
                res_map EVNewtype (deserialize t (mk_de m v))) by (destruct m; reflexivity).
    rewrite E, says_map. apply IHt; assumption.
  - cbn [deserialize refuses]. cbn [named_apart] in N. pose proof (told_list _ m H N) as M.
    rewrite says_any, (tuple_said m _ _ _ EVTuple v p kd M W), map_length. reflexivity.
  - apply (unit_read m (lit "unit struct " ++ i)).
  - cbn [named_apart] in N. destruct N as [N1 N2].
    pose proof (told_variants _ m H N2) as M.
    change (deserialize (TEnum i vs) (mk_de m v)) with
      (de_enum (mk_de m v) (enum_visitor i (map (fun nv => (fst nv, shape_des (snd nv))) vs))).
    rewrite enum_mode, (enum_said m i _ _ v p kd M); [reflexivity|rewrite keys_map; exact N1|exact W].
  - cbn [deserialize refuses]. rewrite says_map, deserialize_value_mk, said_of_raw. setoid_rewrite (raw_said m v kd W). reflexivity.
  - cbn. rewrite says_ok. tauto.
  - cbn [deserialize refuses]. rewrite says_map. apply tag_read.
  - apply (text_read m (lit "a string") (fun s => EVProfile (mkProfile s))).
  - apply (text_read m (lit "path string") EVPath).
  - destruct m; cbn; rewrite says_ok; tauto.
  - apply boolish_read.
  - rewrite deserialize_either, says_bind. cbn [refuses]. cbn [named_apart] in N. destruct N as [N1 N2].
    destruct (presented m (struct_name t1) v W) as (w & P & Ww & U & E).
    rewrite (presented_said m _ v w value_visitor p kd W P), <- says_any, <- raw_value_any, (raw_said m w kd Ww).
    split.
    + intros [X|(u & X & Y)]; exists w; (split; [exact P|]); [left; exact X|right].
      apply E, copied in X; [|exact Ww].
      apply tried_said in Y; auto; [|eapply raw_value_total_wf; [exact Ww|exact X]].
      destruct Y as (f & F & Y). exists u, f. auto.
    + intros (w' & P' & X). assert (w' = w) as -> by (apply U; exact P').
      destruct X as [X|(u & f & T & F & X)]; [left; exact X|right].
      exists u. split; [apply E, copied; assumption|].
      apply tried_said; auto; [eapply raw_value_total_wf; [exact Ww|exact T]|]. exists f. auto.
  - cbn [named_apart] in N. destruct N as [N1 N2].
    rewrite deserialize_either. change (de_struct (struct_name t1) (DStr s) value_visitor) with (@Ok error value (VString tag_default s)).
    cbn [res_bind key_bad]. rewrite tried_said; auto; [|exact I]. unfold both_refused. split.
    + intros (f & F & u' & pa & ka & pb & kb & A & B & C & -> & Q). split; [reflexivity|]. exists f. split; [exact F|]. exists u', pa, ka, pb, kb. auto 6.
    + intros (-> & f & F & X). exists f. auto.
Qed.
