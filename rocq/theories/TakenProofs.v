(** Extraction as [Value], reserved keys included. *)
From Coq Require Import Ascii String ZArith NArith Bool.
From Coq Require Import List.
From Verif Require Import Res BMap BMapProofs Str StrProofs Profile Tag Num Value Metadata Err Figment De
  SpecValue SpecLossy SpecMagic SpecInto SpecDoc SpecTaken
  ValueProofs LossyProofs DeProofs RtProofs MagicProofs IntoProofs DocProofs.
Import ListNotations.

Definition kept_mode (m : mode) : bool := match m with MConf _ _ => true | MPlain => false end.
Definition fill (m : mode) (x u : value) : value := if kept_mode m then sourced (vtag x) u else u.

Lemma id_number_ok m x t : deserialize_tag (mk_de m x) = Ok t <-> id_number x t.
Proof.
  unfold deserialize_tag. rewrite mk_de_mode, mode_settle_ok. split.
  - destruct x as [| | |u n|u e| |]; cbn; try discriminate.
    + destruct n as [[]| |]; cbn; try discriminate; intros [= <-]; constructor; cbn; tauto.
    + destruct e; discriminate.
  - intros H. inversion H as [u k z I]; subst. cbn in I.
    destruct I as [<-|[<-|[<-|[<-|[<-|[]]]]]]; reflexivity.
Qed.

Lemma value_of_raw_ok m x r w :
  value_of_raw m (vtag x) r = Ok w <-> exists u, r = Ok u /\ w = fill m x u.
Proof.
  destruct m as [i f|]; cbn [value_of_raw fill kept_mode].
  - rewrite settle_ok. unfold at_key. rewrite res_map_ok. setoid_rewrite map_err_ok.
    unfold fill. cbn [kept_mode]. setoid_rewrite sourced_map_tag. split; intros (u & A & B); exists u; split; congruence.
  - unfold fill. cbn [kept_mode]. split; [eauto|]. intros (u & -> & ->). reflexivity.
Qed.

Lemma value_entries_ok m l : forall acc id raw w,
  value_entries (map_access (mk_de m) l) acc id raw = Ok w <->
  (forall x, In (value_id, x) l -> exists t, deserialize_tag (mk_de m x) = Ok t) /\
  (forall k x, In (k, x) l -> k <> value_id -> exists v, raw_value m x = Ok v) /\
  exists l', paired (fun x v => exists u, raw_value m x = Ok u /\ v = fill m x u)
               (filter (fun kv => ordinary (fst kv)) l) l' /\
    w = finish_map (extend acc l')
          (match last_of value_id l with Some x => res_ok (deserialize_tag (mk_de m x)) | None => id end)
          (match last_of value_value l with Some x => res_ok (raw_value m x) | None => raw end).
Proof.
  induction l as [|[k x] r IH]; intros acc id raw w; cbn [map_access map value_entries filter last_of fst snd].
  - split; [intros [= <-]|].
    + split; [intros ? []|]. split; [intros ? ? []|]. exists []. split; [constructor|reflexivity].
    + intros (_ & _ & l' & H & ->). inversion H. reflexivity.
  - fold (map_access (mk_de m) r). unfold next_value.
    rewrite deserialize_raw_mk, deserialize_value_mk.
    destruct (ueqb k value_id) eqn:U1.
    + apply ueqb_eq in U1. subst k. change (ordinary value_id) with false. cbn match.
      change (ueqb value_id value_value) with false.
      destruct (deserialize_tag (mk_de m x)) as [t|e] eqn:E; cbn [res_map_err res_bind].
      * rewrite IH. split; intros (H1 & H2 & l' & P & ->).
        -- split; [intros y [Y|Y]; [injection Y as <-; eauto|eauto]|].
           split; [intros k y [Y|Y] N; [congruence|eauto]|]. exists l'. split; [exact P|].
           destruct (last_of value_id r), (last_of value_value r); rewrite ?E; reflexivity.
        -- split; [intros y Y; apply H1; right; exact Y|].
           split; [intros k y Y N; apply (H2 k y); [right; exact Y|exact N]|]. exists l'. split; [exact P|].
           destruct (last_of value_id r), (last_of value_value r); rewrite ?E; reflexivity.
      * split; [discriminate|]. intros (H1 & _). destruct (H1 x (or_introl eq_refl)) as [t T]. congruence.
    + destruct (ueqb k value_value) eqn:U2.
      * apply ueqb_eq in U2. subst k. change (ordinary value_value) with false. cbn match.
        destruct (raw_value m x) as [v|e] eqn:E; cbn [res_map_err res_bind].
        -- rewrite IH. split; intros (H1 & H2 & l' & P & ->).
           ++ split; [intros y [Y|Y]; [discriminate Y|eauto]|].
              split; [intros k y [Y|Y] N; [injection Y as <- <-; eauto|eauto]|]. exists l'. split; [exact P|].
              destruct (last_of value_id r), (last_of value_value r); rewrite ?E; reflexivity.
           ++ split; [intros y Y; apply H1; right; exact Y|].
              split; [intros k y Y N; apply (H2 k y); [right; exact Y|exact N]|]. exists l'. split; [exact P|].
              destruct (last_of value_id r), (last_of value_value r); rewrite ?E; reflexivity.
        -- split; [discriminate|]. intros (_ & H2 & _).
           destruct (H2 value_value x (or_introl eq_refl)) as [t T]; [discriminate|congruence].
      * unfold ordinary. rewrite U1, U2. cbn [negb andb].
        assert (N1 : k <> value_id) by (intros ->; rewrite ueqb_refl in U1; discriminate).
        destruct (value_of_raw m (vtag x) (raw_value m x)) as [v|e] eqn:E; cbn [res_map_err res_bind].
        -- apply value_of_raw_ok in E. destruct E as (u & Eu & Ev). rewrite IH. split; intros (H1 & H2 & l' & P & ->).
           ++ split; [intros y [Y|Y]; [congruence|eauto]|].
              split; [intros k' y [Y|Y] N; [injection Y as <- <-; eauto|eauto]|].
              exists ((k, v) :: l'). split; [constructor; [cbn; eauto|exact P]|]. cbn [extend].
              destruct (last_of value_id r), (last_of value_value r); reflexivity.
           ++ split; [intros y Y; apply H1; right; exact Y|].
              split; [intros k' y Y N; apply (H2 k' y); [right; exact Y|exact N]|].
              inversion P as [|? [k' v'] ? l'' [K (u' & U' & V)] P']; subst. cbn in K, V, U'. subst k'.
              assert (u' = u) by congruence. subst u' v'.
              exists l''. split; [exact P'|]. cbn [extend].
              destruct (last_of value_id r), (last_of value_value r); reflexivity.
        -- split; [discriminate|]. intros (_ & H2 & _).
           destruct (H2 k x (or_introl eq_refl) N1) as [u U].
           assert (X : value_of_raw m (vtag x) (raw_value m x) = Ok (fill m x u)) by (apply value_of_raw_ok; eauto).
           congruence.
Qed.

Lemma value_elements_ok m l : forall n ws,
  value_elements (map (mk_de m) l) n = Ok ws <->
  Forall2 (fun x w => exists u, raw_value m x = Ok u /\ w = fill m x u) l ws.
Proof.
  induction l as [|x l IH]; intros n ws; cbn [map value_elements].
  - split; [intros [= <-]; constructor|]. intros H. inversion H. reflexivity.
  - unfold next_element. rewrite res_bind_ok. rewrite deserialize_value_mk. split.
    + intros (w & Hw & H). apply map_err_ok, value_of_raw_ok in Hw. apply res_map_ok in H.
      destruct H as (ws' & H & ->). apply IH in H. constructor; auto.
    + intros H. inversion H as [|? w ? ws' Hw F]; subst. exists w. split.
      * apply map_err_ok, value_of_raw_ok. exact Hw.
      * apply res_map_ok. exists ws'. split; [apply (IH (n + 1)%N); exact F|reflexivity].
Qed.

Lemma first_holding_fun ks z k k' : first_holding ks z k -> first_holding ks z k' -> k = k'.
Proof.
  intros (a & b & -> & H & F) (a' & b' & E & H' & F'). revert a' E F'.
  induction a as [|x a IH]; intros [|x' a'] E F'; inversion E; subst; auto.
  - inversion F'; subst. contradiction.
  - inversion F; subst. contradiction.
  - inversion F; inversion F'; subst. eapply IH; eauto.
Qed.

Lemma narrowest_fun ks w z k k' : narrowest ks w z k -> narrowest ks w z k' -> k = k'.
Proof.
  intros [F|[N ->]] [F'|[N' ->]]; auto.
  - eapply first_holding_fun; eassumption.
  - destruct F as (a & b & -> & H & _). rewrite Forall_app in N'. destruct N' as [_ N']. inversion N'; contradiction.
  - destruct F' as (a & b & -> & H & _). rewrite Forall_app in N. destruct N as [_ N]. inversion N; contradiction.
Qed.
Lemma of_width_fun n a b : of_width n a -> of_width n b -> a = b.
Proof.
  destruct n as [k z|x|x]; cbn; try congruence. destruct k; try congruence.
  - intros (k1 & F1 & ->) (k2 & F2 & ->). f_equal. eapply narrowest_fun; eassumption.
  - intros (k1 & F1 & ->) (k2 & F2 & ->). f_equal. eapply narrowest_fun; eassumption.
Qed.
Lemma of_width_visited n : of_width n (visited_num n).
Proof.
  destruct n as [k z|x|x]; [|reflexivity|reflexivity]. destruct k; cbn; try reflexivity.
  - exists (fitting false z). split; [|reflexivity]. unfold fitting, narrowest.
    destruct (in_range U8 z) eqn:E1; [left; exists [], [U16; U32]; rewrite in_range_holds in E1; auto|].
    destruct (in_range U16 z) eqn:E2.
    { left. exists [U8], [U32]. rewrite in_range_holds in E2. rewrite in_range_not_holds in E1. auto. }
    destruct (in_range U32 z) eqn:E3.
    { left. exists [U8; U16], []. rewrite in_range_holds in E3. rewrite in_range_not_holds in E1, E2. auto. }
    right. rewrite in_range_not_holds in E1, E2, E3. auto.
  - exists (fitting true z). split; [|reflexivity]. unfold fitting, narrowest.
    destruct (in_range I8 z) eqn:E1; [left; exists [], [I16; I32]; rewrite in_range_holds in E1; auto|].
    destruct (in_range I16 z) eqn:E2.
    { left. exists [I8], [I32]. rewrite in_range_holds in E2. rewrite in_range_not_holds in E1. auto. }
    destruct (in_range I32 z) eqn:E3.
    { left. exists [I8; I16], []. rewrite in_range_holds in E3. rewrite in_range_not_holds in E1, E2. auto. }
    right. rewrite in_range_not_holds in E1, E2, E3. auto.
Qed.

Lemma In_last_of (d : dict) k x : sorted d -> In (k, x) d <-> last_of k d = Some x.
Proof.
  intros S. split.
  - intros I. destruct (last_of k d) as [y|] eqn:E.
    + apply last_of_some, given_In in E. apply In_get_iff in I, E; auto. congruence.
    + exfalso. exact (proj1 (last_of_none k d) E x I).
  - intros H. apply last_of_some, given_In in H. exact H.
Qed.

Lemma raw_value_taken m v : wf v -> forall w, raw_value m v = Ok w <-> taken (kept_mode m) v w.
Proof.
  induction v as [t s|t c|t b0|t n|t e|t d IH|t l IH] using value_ind'; intros W w.
  1,2,3,5: cbn [raw_value]; rewrite mode_settle_ok; split; [intros [= <-]; constructor|intros H; inversion H; reflexivity].
  - cbn [raw_value]; rewrite mode_settle_ok.
    assert (F := of_width_visited n).
    split; [intros [= <-]; constructor; exact F|]. intros H. inversion H; subst. f_equal. f_equal.
    eapply of_width_fun; eassumption.
  - rewrite raw_value_any, mk_de_mode, mode_settle_ok. cbn [value_visit]. unfold visit_map. cbn [value_visitor v_map].
    rewrite value_entries_ok. apply wf_VDict in W. assert (Sd : sorted d) by apply W.
    rewrite Forall_forall in IH.
    assert (IH2 : forall k x, In (k, x) d -> forall w, raw_value m x = Ok w <-> taken (kept_mode m) x w).
    { intros k x I. apply (IH (k, x) I).
      destruct W as [_ W]. rewrite Forall_forall in W. exact (W _ I). }
    clear IH.
    split.
    + intros (H1 & H2 & l' & P & ->).
      assert (T : forall x, In (value_id, x) d -> exists t, id_number x t).
      { intros x I. destruct (H1 x I) as [t' E]. exists t'. apply (id_number_ok m). exact E. }
      assert (R : forall k x, In (k, x) d -> k <> value_id -> exists u, taken (kept_mode m) x u).
      { intros k x I N. destruct (H2 k x I N) as [u U]. exists u. apply (IH2 k x I). exact U. }
      destruct (last_of value_value d) as [x|] eqn:E1.
      * apply In_last_of in E1; [|exact Sd].
        destruct (H2 _ _ E1) as [u U]; [discriminate|]. rewrite U. cbn [res_ok finish_map].
        apply (IH2 _ _ E1) in U.
        destruct (last_of value_id d) as [y|] eqn:E2.
        -- apply In_last_of in E2; [|exact Sd]. destruct (T _ E2) as [t' Ht].
           rewrite (proj2 (id_number_ok m _ _) Ht). cbn [res_ok]. rewrite <- sourced_map_tag.
           eapply tk_sourced; eassumption.
        -- apply (tk_value _ _ _ x); auto. { apply last_of_none. exact E2. }
           intros k y I2. apply (R k y I2). intros ->. exact (proj1 (last_of_none _ _) E2 _ I2).
      * cbn [finish_map]. assert (NV := proj1 (last_of_none _ _) E1). apply tk_dict; auto.
        -- apply (sorted_collect (K := ustr) l').
        -- intros k x I N. assert (N2 : k <> value_value) by (intros ->; exact (NV _ I)).
           assert (G2 : given (filter (fun kv => ordinary (fst kv)) d) k x).
           { apply given_filter. split; [apply ordinary_spec; auto|]. apply last_of_some, In_last_of; auto. }
           destruct (paired_given _ _ _ _ _ P G2) as (w & G3 & u & U & ->). exists u. split.
           ++ apply (IH2 k x I). exact U.
           ++ apply get_collect_given in G3. apply In_get_iff; [apply (sorted_collect (K := ustr))|exact G3].
        -- intros k u I. apply In_get_iff in I; [|apply (sorted_collect (K := ustr))].
           apply get_collect_given in I. destruct (paired_given_r _ _ _ _ _ P I) as (x & G & _).
           apply given_filter in G. destruct G as [O G]. apply ordinary_spec in O. split; [tauto|].
           exists x. apply given_In. exact G.
    + intros H.
      assert (X : forall (T : forall x, In (value_id, x) d -> exists t, id_number x t)
        (R : forall k x, In (k, x) d -> k <> value_id -> exists u, taken (kept_mode m) x u),
        (forall x, In (value_id, x) d -> exists t, deserialize_tag (mk_de m x) = Ok t) /\
        (forall k x, In (k, x) d -> k <> value_id -> exists v, raw_value m x = Ok v) /\
        exists l', paired (fun x v => exists u, raw_value m x = Ok u /\ v = fill m x u)
                     (filter (fun kv => ordinary (fst kv)) d) l').
      { intros T R. split; [|split].
        - intros x I. destruct (T x I) as [t' Ht]. exists t'. apply id_number_ok. exact Ht.
        - intros k x I N. destruct (R k x I N) as [u U]. exists u. apply (IH2 k x I). exact U.
        - assert (Y : forall r, (forall kv, In kv r -> exists u, raw_value m (snd kv) = Ok u) ->
            exists l', paired (fun x v => exists u, raw_value m x = Ok u /\ v = fill m x u) r l').
          { induction r as [|[k x] r IHr]; intros Hr; [exists []; constructor|].
            destruct (Hr (k, x) (or_introl eq_refl)) as [u U]. destruct IHr as [r' Hr']; [intros kv I; apply Hr; right; exact I|].
            exists ((k, fill m x u) :: r'). constructor; [cbn; eauto|exact Hr']. }
          apply Y. intros [k x] I. apply filter_In in I. destruct I as [I O]. cbn in O. apply ordinary_spec in O.
          destruct (R k x I (proj1 O)) as [u U]. exists u. apply (IH2 k x I). exact U. }
      inversion H as [| | | | | |? ? mm T NV Sm G1 G2|? ? x u NI R I U|? ? x u y t' I2 Ht R I U]; subst.
      * destruct (X T) as (H1 & H2 & l' & P).
        { intros k x I N. destruct (G1 k x I N) as (u & U & _). eauto. }
        split; [exact H1|]. split; [exact H2|]. exists l'. split; [exact P|].
        apply last_of_none in NV. rewrite NV. cbn [finish_map]. f_equal.
        apply (sorted_ext _); [exact Sm|apply (sorted_collect (K := ustr))|]. intros k.
        destruct (get k mm) as [u|] eqn:E.
        -- assert (E' := E). apply In_get_iff in E; [|exact Sm]. destruct (G2 k u E) as [N [x I]].
           assert (N2 : k <> value_value) by (intros ->; exact (proj1 (last_of_none _ _) NV _ I)).
           destruct (G1 k x I N) as (u' & U & I'). apply In_get_iff in I'; [|exact Sm].
           assert (Eu : u = fill m x u') by (unfold fill; congruence). subst u. symmetry. apply get_collect_given.
           assert (G3 : given (filter (fun kv => ordinary (fst kv)) d) k x).
           { apply given_filter. split; [apply ordinary_spec; auto|]. apply last_of_some, In_last_of; auto. }
           destruct (paired_given _ _ _ _ _ P G3) as (u2 & G4 & u3 & U2 & ->).
           apply (IH2 k x I) in U. assert (u3 = u') by congruence. subst u3. exact G4.
        -- destruct (get k (extend [] l')) as [u|] eqn:E2; [|reflexivity]. exfalso.
           apply get_collect_given in E2. destruct (paired_given_r _ _ _ _ _ P E2) as (x & G & _).
           apply given_filter in G. destruct G as [O G]. apply ordinary_spec in O.
           destruct (G1 k x (given_In _ _ _ G) (proj1 O)) as (u' & _ & I). apply In_get_iff in I; [|exact Sm]. congruence.
      * destruct X as (H1 & H2 & l' & P).
        { intros y I'. exfalso. exact (NI y I'). } { intros k y I' _. exact (R k y I'). }
        split; [exact H1|]. split; [exact H2|]. exists l'. split; [exact P|].
        apply last_of_none in NI. rewrite NI. apply (IH2 _ _ I) in U.
        apply In_last_of in I; [|exact Sd]. rewrite I, U. reflexivity.
      * destruct X as (H1 & H2 & l' & P).
        { intros x' I'. apply In_last_of in I'; [|exact Sd]. apply In_last_of in I2; [|exact Sd].
          assert (x' = y) by congruence. subst. eauto. }
        { exact R. }
        split; [exact H1|]. split; [exact H2|]. exists l'. split; [exact P|].
        apply (IH2 _ _ I) in U. apply In_last_of in I, I2; try exact Sd. rewrite I, I2, U.
        apply (id_number_ok m) in Ht. rewrite Ht. cbn. apply sourced_map_tag.
  - rewrite raw_value_any, mk_de_mode, mode_settle_ok. cbn [value_visit]. unfold visit_seq. cbn [value_visitor v_seq].
    rewrite res_map_ok. setoid_rewrite value_elements_ok. apply wf_VArray in W.
    assert (IH2 : forall x, In x l -> forall w, raw_value m x = Ok w <-> taken (kept_mode m) x w).
    { intros x I. rewrite Forall_forall in IH, W. apply IH; auto. }
    clear IH W. split.
    + intros (ws & F & ->). constructor. induction F as [|x w l ws (u & U & ->) F IH]; constructor.
      * exists u. split; [apply IH2; [left; reflexivity|exact U]|reflexivity].
      * apply IH. intros y I. apply IH2. right. exact I.
    + intros H. inversion H as [| | | | |? ? ws F| | |]; subst. exists ws. split; [|reflexivity].
      clear H. induction F as [|x w l ws (u & U & ->) F IH]; constructor.
      * exists u. split; [apply IH2; [left; reflexivity|exact U]|reflexivity].
      * apply IH. intros y I. apply IH2. right. exact I.
Qed.

Lemma value_taken i f v w : wf v ->
  deserialize TValue (DConf i f v) = Ok (EVValue w) <-> exists u, taken true v u /\ w = sourced (vtag v) u.
Proof.
  intros W. cbn [deserialize]. rewrite res_map_ok.
  change (deserialize_value (DConf i f v)) with (deserialize_value (mk_de (MConf i f) v)).
  rewrite deserialize_value_mk. setoid_rewrite value_of_raw_ok. split.
  - intros (x & (u & U & ->) & E). inversion E; subst. exists u. split; [|reflexivity].
    apply (raw_value_taken (MConf i f)); auto.
  - intros (u & U & ->). exists (sourced (vtag v) u). split; [|reflexivity]. exists u. split; [|reflexivity].
    apply (raw_value_taken (MConf i f)) in U; auto.
Qed.
Lemma value_taken_plain v w : wf v ->
  deserialize TValue (DPlain v) = Ok (EVValue w) <-> taken false v w.
Proof.
  intros W. cbn [deserialize deserialize_value]. rewrite res_map_ok.
  assert (X := raw_value_taken MPlain v W). cbn [kept_mode] in X. setoid_rewrite X. split.
  - intros (x & U & E). inversion E; subst. exact U.
  - intros U. eauto.
Qed.

(** ** When it fails *)
Lemma taken_total kept v : wf v ->
  (forall p t d x, reach p v (VDict t d) -> In (value_id, x) d -> exists t', id_number x t') ->
  exists w, taken kept v w.
Proof.
  induction v as [t s|t c|t b0|t n|t e|t d IH|t l IH] using value_ind'; intros W H.
  1,2,3,5: eexists; constructor.
  - eexists. constructor. apply of_width_visited.
  - apply wf_VDict in W. assert (Sd : sorted d) by apply W. rewrite Forall_forall in IH.
    assert (Hc : forall k x, In (k, x) d -> exists u, taken kept x u).
    { intros k x I. apply (IH (k, x) I).
      - destruct W as [_ W]. rewrite Forall_forall in W. exact (W _ I).
      - intros p t' d' y R. apply (H (SKey k :: p) t'). apply (R_key _ _ _ _ x); [|exact R]. apply In_get_iff; auto. }
    assert (Hi := fun x => H [] t d x (R_here _)).
    destruct (last_of value_value d) as [x|] eqn:E1.
    + apply In_last_of in E1; [|exact Sd]. destruct (Hc _ _ E1) as [u U].
      destruct (last_of value_id d) as [y|] eqn:E2.
      * apply In_last_of in E2; [|exact Sd]. destruct (Hi _ E2) as [t' Ht].
        exists (sourced t' u). apply (tk_sourced _ _ _ x _ y); auto. intros k z I _. exact (Hc k z I).
      * exists u. apply (tk_value _ _ _ x); auto. apply last_of_none. exact E2.
    + assert (NV := proj1 (last_of_none _ _) E1).
      assert (Y : forall r, (forall kv, In kv r -> exists u, taken kept (snd kv) u) ->
         exists l', paired (fun x w => exists u, taken kept x u /\ w = if kept then sourced (vtag x) u else u) r l').
      { induction r as [|[k x] r IHr]; intros Hr; [exists []; constructor|].
        destruct (Hr (k, x) (or_introl eq_refl)) as [u U]. destruct IHr as [r' Hr']; [intros kv I; apply Hr; right; exact I|].
        exists ((k, if kept then sourced (vtag x) u else u) :: r'). constructor; [cbn; eauto|exact Hr']. }
      destruct (Y (filter (fun kv => ordinary (fst kv)) d)) as [l' P].
      { intros [k x] I. apply filter_In in I. apply (Hc k x), I. }
      exists (VDict tag_default (collect l')). apply tk_dict; auto.
      * apply sorted_collect.
      * intros k x I N. assert (N2 : k <> value_value) by (intros ->; exact (NV _ I)).
        assert (G2 : given (filter (fun kv => ordinary (fst kv)) d) k x).
        { apply given_filter. split; [apply ordinary_spec; auto|]. apply last_of_some, In_last_of; auto. }
        destruct (paired_given _ _ _ _ _ P G2) as (w & G3 & u & U & ->). exists u. split; [exact U|].
        apply get_collect_given in G3. apply In_get_iff; [apply (sorted_collect (K := ustr))|exact G3].
      * intros k u I. apply In_get_iff in I; [|apply (sorted_collect (K := ustr))].
        apply get_collect_given in I. destruct (paired_given_r _ _ _ _ _ P I) as (x & G & _).
        apply given_filter in G. destruct G as [O G]. apply ordinary_spec in O. split; [tauto|].
        exists x. apply given_In. exact G.
  - apply wf_VArray in W. rewrite Forall_forall in IH, W.
    assert (Y : forall r, (forall x, In x r -> exists u, taken kept x u) ->
       exists ws, Forall2 (fun x w => exists u, taken kept x u /\ w = if kept then sourced (vtag x) u else u) r ws).
    { induction r as [|x r IHr]; intros Hr; [exists []; constructor|].
      destruct (Hr x (or_introl eq_refl)) as [u U]. destruct IHr as [r' Hr']; [intros y I; apply Hr; right; exact I|].
      exists ((if kept then sourced (vtag x) u else u) :: r'). constructor; [eauto|exact Hr']. }
    destruct (Y l) as [ws F].
    + intros x I. apply IH; auto.
      intros p t' d' y R. apply (H (SElem :: p) t'). eapply R_elem; eassumption.
    + exists (VArray tag_default ws). constructor. exact F.
Qed.

(** Everything is looked at, except what is in place of a number. *)
Lemma taken_ids kept v w : taken kept v w -> wf v ->
  forall p t d x, reach p v (VDict t d) -> In (value_id, x) d -> exists t', id_number x t'.
Proof.
  intros H W p t d x R. revert w H W. remember (VDict t d) as y eqn:Ey. revert Ey.
  induction R as [v|k r u e z y G R IH|r u l z y I R IH]; intros Ey w H W In0.
  - subst v. apply wf_VDict in W. inversion H; subst; eauto.
    + exfalso. firstorder.
    + apply In_last_of in In0; [|apply W].
      match goal with I : In (value_id, ?y) d |- _ => apply In_last_of in I; [|apply W];
        assert (y = x) by congruence; subst; eauto end.
  - apply wf_VDict in W. assert (In1 : In (k, z) e) by (apply In_get_iff; [apply W|exact G]).
    assert (Wz : wf z) by (destruct W as [_ W]; rewrite Forall_forall in W; exact (W _ In1)).
    assert (C : forall q, id_number z q -> False).
    { intros q Q. inversion Q; subst. inversion R. }
    assert (Tz : exists w, taken kept z w).
    { destruct (ueqb k value_id) eqn:Ek.
      - apply ueqb_eq in Ek. subst k. exfalso. inversion H; subst.
        + match goal with T : forall x, In (value_id, x) e -> _ |- _ => destruct (T z In1) as [q Q]; exact (C q Q) end.
        + match goal with T : forall y, ~ In (value_id, y) e |- _ => exact (T z In1) end.
        + apply In_last_of in In1; [|apply W].
          match goal with I : In (value_id, ?y) e |- _ => apply In_last_of in I; [|apply W];
            assert (y = z) by congruence; subst; eauto end.
      - assert (N : k <> value_id) by (intros ->; rewrite ueqb_refl in Ek; discriminate).
        inversion H; subst; eauto.
        match goal with T : forall k x, In (k, x) e -> k <> value_id -> exists u, _ /\ _ |- _ =>
          destruct (T k z In1 N) as (q & Q & _); eauto end. }
    destruct Tz as [wz Tz]. exact (IH Ey wz Tz Wz In0).
  - apply wf_VArray in W. rewrite Forall_forall in W. inversion H as [| | | | |? ? ws F| | |]; subst.
    assert (Tz : exists w, taken kept z w).
    { clear - F I. induction F as [|a b l ws (q & Q & _) F IH]; [destruct I|]. destruct I as [<-|I]; eauto. }
    destruct Tz as [wz Tz]. exact (IH eq_refl wz Tz (W _ I) In0).
Qed.

(** ** Sources *)
Lemma named_key t d k x u : sorted d -> In (k, x) d -> named_source x u -> named_source (VDict t d) u.
Proof.
  intros S I [(p & y & R & E)|(p & t0 & e & y & R & I' & Q)].
  - left. exists (SKey k :: p), y. split; [|exact E]. apply (R_key _ _ _ _ x); [|exact R]. apply In_get_iff; auto.
  - right. exists (SKey k :: p), t0, e, y. split; [|auto]. apply (R_key _ _ _ _ x); [|exact R]. apply In_get_iff; auto.
Qed.
Lemma named_elem t l x u : In x l -> named_source x u -> named_source (VArray t l) u.
Proof.
  intros I [(p & y & R & E)|(p & t0 & e & y & R & I' & Q)].
  - left. exists (SElem :: p), y. split; [|exact E]. eapply R_elem; eassumption.
  - right. exists (SElem :: p), t0, e, y. split; [|auto]. eapply R_elem; eassumption.
Qed.

Lemma reach_sourced t u : forall p y, reach p (sourced t u) y -> exists y0, reach p u y0 /\ y = sourced t y0.
Proof.
  induction u as [? ?|? ?|? ?|? ?|? ?|? d IH|? l IH] using value_ind'; intros p y R; cbn [sourced] in R.
  1-5: inversion R; subst; eexists; split; [constructor|reflexivity].
  - inversion R as [|k r ? ? x ? G R'|]; subst; [eexists; split; [constructor|reflexivity]|].
    rewrite (get_map_values (fun _ => sourced t)) in G by auto. destruct (get k d) as [x0|] eqn:E; [|discriminate]. inversion G; subst x.
    rewrite Forall_forall in IH. destruct (get_In _ _ _ E) as (k' & _ & I).
    destruct (IH _ I _ _ R') as (y0 & R0 & ->). exists y0. split; [|reflexivity]. eapply R_key; eassumption.
  - inversion R as [| |r ? ? x ? I R']; subst; [eexists; split; [constructor|reflexivity]|].
    apply in_map_iff in I. destruct I as (x0 & <- & I). rewrite Forall_forall in IH.
    destruct (IH _ I _ _ R') as (y0 & R0 & ->). exists y0. split; [|reflexivity]. eapply R_elem; eassumption.
Qed.

Lemma all_tags_sourced (P : tag -> Prop) t u : P t -> all_tags P u -> all_tags P (sourced t u).
Proof.
  intros Pt H p y R. apply reach_sourced in R. destruct R as (y0 & R & ->). specialize (H _ _ R).
  destruct y0; cbn [sourced vtag] in *; destruct (metadata_id _ =? 0)%N; auto.
Qed.

Lemma taken_sources v : wf v -> forall u, taken true v u ->
  all_tags (fun t => t = tag_default \/ named_source v t) u.
Proof.
  induction v as [t s|t c|t b0|t n|t e|t d IH|t l IH] using value_ind'; intros W u H.
  1-5: inversion H; subst; intros p y R; inversion R; subst; left; reflexivity.
  - apply wf_VDict in W. assert (Sd : sorted d) by apply W. rewrite Forall_forall in IH.
    assert (Hc : forall k x u, In (k, x) d -> taken true x u -> all_tags (fun q => q = tag_default \/ named_source (VDict t d) q) u).
    { intros k x w I T p y R. destruct W as [_ W]. rewrite Forall_forall in W.
      destruct (IH _ I (W _ I) w T p y R) as [E|N]; [left; exact E|right]. exact (named_key t d k x _ Sd I N). }
    inversion H as [| | | | | |? ? mm T NV Sm G1 G2|? ? x u' NI R I U|? ? x u' y t' I2 Ht R I U]; subst.
    + intros p y R. inversion R as [|k r ? ? x ? G R'|]; subst; [left; reflexivity|].
      apply In_get_iff in G; [|exact Sm]. destruct (G2 _ _ G) as [N [z Iz]]. destruct (G1 _ _ Iz N) as (u & U & I').
      apply In_get_iff in G, I'; try exact Sm. assert (x = sourced (vtag z) u) by congruence. subst x.
      apply (all_tags_sourced (fun q => q = tag_default \/ named_source (VDict t d) q) (vtag z) u) in R'; auto.
      * right. left. exists [SKey k], z. split; [|reflexivity]. eapply R_key; [|constructor]. apply In_get_iff; auto.
      * exact (Hc _ _ _ Iz U).
    + exact (Hc _ _ _ I U).
    + apply all_tags_sourced; [|exact (Hc _ _ _ I U)]. right. right. exists [], t, d, y. split; [constructor|auto].
  - apply wf_VArray in W. rewrite Forall_forall in IH, W.
    inversion H as [| | | | |? ? ws F| | |]; subst. intros p y R. inversion R as [| |r ? ? x ? I R']; subst; [left; reflexivity|].
    assert (X : exists z u, In z l /\ taken true z u /\ x = sourced (vtag z) u).
    { clear - F I. induction F as [|a b l ws (q & Q & E) F IH]; [destruct I|].
      destruct I as [<-|I]; [exists a, q; split; [left; reflexivity|auto]|].
      destruct (IH I) as (z & u & Iz & T & E'). exists z, u. split; [right; exact Iz|auto]. }
    destruct X as (z & u & Iz & T & ->).
    apply (all_tags_sourced (fun q => q = tag_default \/ named_source (VArray t l) q) (vtag z) u) in R'; auto.
    + right. left. exists [SElem], z. split; [|reflexivity]. eapply R_elem; [exact Iz|constructor].
    + intros p' y' R2. destruct (IH z Iz (W z Iz) u T p' y' R2) as [E|N]; [left; exact E|right].
      exact (named_elem t l z _ Iz N).
Qed.

Lemma id_number_dec x : (exists t, id_number x t) \/ forall t, ~ id_number x t.
Proof.
  destruct x as [t s|t c|t b|t [k z| |]|t e|t d|t l]; try (right; intros u H; inversion H; fail).
  destruct k; try (left; eexists; constructor; cbn; tauto);
    right; intros u H; inversion H as [? ? ? I]; subst; cbn in I; decompose [or] I; discriminate || contradiction.
Qed.

Lemma forged_or_not v : wf v ->
  (forall p t d x, reach p v (VDict t d) -> In (value_id, x) d -> exists t', id_number x t') \/
  exists p t d x, reach p v (VDict t d) /\ In (value_id, x) d /\ forall t', ~ id_number x t'.
Proof.
  induction v as [t s|t c|t b0|t n|t e|t d IH|t l IH] using value_ind'; intros W;
    try (left; intros p t' d' x R; inversion R; fail).
  - apply wf_VDict in W. assert (Sd : sorted d) by apply W. destruct W as [_ W]. rewrite Forall_forall in IH, W.
    assert (L : forall r, incl r d ->
      (forall k x, In (k, x) r -> (k = value_id -> exists t', id_number x t') /\
         forall p t d y, reach p x (VDict t d) -> In (value_id, y) d -> exists t', id_number y t') \/
      exists p t0 d0 y, reach p (VDict t d) (VDict t0 d0) /\ In (value_id, y) d0 /\ forall t', ~ id_number y t').
    { induction r as [|[k x] r IHr]; intros S; [left; intros k x []|].
      assert (Ikx : In (k, x) d) by (apply S; left; reflexivity).
      destruct IHr as [A|A]; [intros z Hz; apply S; right; exact Hz| |right; exact A].
      destruct (IH (k, x) Ikx (W _ Ikx)) as [B|(p & t0 & d0 & y & R & I & N)].
      - destruct (id_number_dec x) as [T|T].
        + left. intros k' x' [[= <- <-]|I]; [split; [intros _; exact T|exact B]|apply A; exact I].
        + destruct (ueqb k value_id) eqn:E.
          * apply ueqb_eq in E. subst k. right. exists [], t, d, x. split; [constructor|]. split; [exact Ikx|exact T].
          * left. intros k' x' [[= <- <-]|I]; [split; [intros ->|exact B]|apply A; exact I].
            rewrite (proj2 (ueqb_eq _ _) eq_refl) in E. discriminate.
      - right. exists (SKey k :: p), t0, d0, y. split; [|auto]. apply (R_key _ _ _ _ x); [|exact R].
        apply In_get_iff; auto. }
    destruct (L d (incl_refl d)) as [A|A]; [left|right; exact A].
    intros p t' d' x R I. inversion R as [|? k ? p' y ? G R'|]; subst.
    + exact (proj1 (A _ _ I) eq_refl).
    + apply In_get_iff in G; [|exact Sd]. exact (proj2 (A _ _ G) _ _ _ _ R' I).
  - apply wf_VArray in W. rewrite Forall_forall in IH, W.
    assert (L : forall r, incl r l ->
      (forall x, In x r -> forall p t d y, reach p x (VDict t d) -> In (value_id, y) d -> exists t', id_number y t') \/
      exists p t0 d0 y, reach p (VArray t l) (VDict t0 d0) /\ In (value_id, y) d0 /\ forall t', ~ id_number y t').
    { induction r as [|x r IHr]; intros S; [left; intros x []|].
      assert (Ix : In x l) by (apply S; left; reflexivity).
      destruct IHr as [A|A]; [intros z Hz; apply S; right; exact Hz| |right; exact A].
      destruct (IH x Ix (W _ Ix)) as [B|(p & t0 & d0 & y & R & I & N)].
      - left. intros x' [<-|I]; [exact B|apply A; exact I].
      - right. exists (SElem :: p), t0, d0, y. split; [|auto]. eapply R_elem; eassumption. }
    destruct (L l (incl_refl l)) as [A|A]; [left|right; exact A].
    intros p t' d' x R I. inversion R as [| |? ? ? y ? G R']; subst. exact (A _ G _ _ _ _ R' I).
Qed.
