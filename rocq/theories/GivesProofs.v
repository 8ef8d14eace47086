(** Typed extraction at every type does what [SpecGives.gives] says. *)
From Coq Require Import Ascii String ZArith NArith Bool Lia.
From Coq Require Import Floats.SpecFloat.
From Coq Require Import List.
From Verif Require Import SpecNear NearProofs.
From Verif Require Import Res BMap Str Profile Tag Num Value NumParse Metadata Err Coalesce Figment Fmt De.
From Verif Require Import SpecValue SpecParse SpecLossy SpecDe SpecMagic SpecExtract SpecInto SpecDoc SpecTaken SpecGives.
From Verif Require Import BMapProofs StrProofs ValueProofs NumParseProofs LossyProofs DeProofs BlameProofs
  ExtractProofs SpecRt RtProofs SerProofs MagicProofs IntoProofs DocProofs MeaningProofs TakenProofs.
Import ListNotations.

Lemma tracked_kept m : tracked m = kept_mode m.
Proof. destruct m; reflexivity. Qed.

(** ** What is taken is well formed *)
Lemma raw_value_total_wf kept v : wf v -> forall u, taken kept v u -> wf u.
Proof.
  induction v as [t s|t c|t b0|t n|t e|t d IH|t l IH] using value_ind'; intros W u U.
  1-5: inversion U; subst; exact I.
  - apply wf_VDict in W. destruct W as [Sd W]. rewrite Forall_forall in IH, W.
    assert (F : forall k x y, In (k, x) d -> taken kept x y -> wf (if kept then sourced (vtag x) y else y)).
    { intros k x y Ix Ty. assert (Y := IH (k, x) Ix (W _ Ix) _ Ty). destruct kept; [apply wf_sourced|]; exact Y. }
    inversion U as [| | | | | |? ? m Hi Hv Sm H1 H2|? ? x ? Hi Hc Ix Tx|? ? x ? y t' Iy Ty Hc Ix Tx]; subst.
    + apply wf_VDict. split; [exact Sm|]. apply Forall_forall. intros [k w] Ikw. cbn [snd].
      destruct (H2 k w Ikw) as (Nk & x & Ix). destruct (H1 k x Ix Nk) as (y & Ty & Iy).
      assert (w = if kept then sourced (vtag x) y else y) as ->.
      { apply In_get_iff in Ikw, Iy; auto. congruence. }
      eapply F; eassumption.
    + exact (IH (value_value, x) Ix (W _ Ix) _ Tx).
    + apply wf_sourced. exact (IH (value_value, x) Ix (W _ Ix) _ Tx).
  - inversion U as [| | | | |? ? ws H| | |]; subst. apply wf_VArray. apply wf_VArray in W.
    clear U. induction H as [|x w l ws (y & Ty & ->) H IHl]; constructor.
    + inversion IH as [|? ? H1 H2]; inversion W as [|? ? W1 W2]; subst. assert (Y := H1 W1 _ Ty).
      destruct kept; [apply wf_sourced|]; exact Y.
    + inversion IH; inversion W; subst. apply IHl; assumption.
Qed.

(** ** The special structs *)
Lemma in_get (k : ustr) (d : dict) x : sorted d -> get k d = Some x <-> In (k, x) d.
Proof. intros S. symmetry. apply In_get_iff. exact S. Qed.

Lemma entry_or_self_get k v x : wf v ->
  entry_or_self k v x <-> x = match option_bind (as_dict v) (get k) with Some y => y | None => v end.
Proof.
  intros W. split.
  - intros H. inversion H as [t d y I|w N]; subst.
    + cbn [as_dict option_bind]. apply wf_VDict in W. apply in_get in I; [|apply W]. rewrite I. reflexivity.
    + match goal with |- ?w = _ => destruct w as [| | | | |t d|] end; try reflexivity. cbn [as_dict option_bind].
      destruct (get k d) as [y|] eqn:E; [|reflexivity]. apply wf_VDict in W. apply in_get in E; [|apply W].
      elim (N t d y eq_refl E).
  - intros ->. destruct v as [| | | | |t d|]; try (constructor; intros; discriminate).
    cbn [as_dict option_bind]. apply wf_VDict in W. destruct (get k d) as [y|] eqn:E.
    + apply in_get in E; [|apply W]. constructor. exact E.
    + apply es_self. intros t' d' y [= <- <-] I. apply in_get in I; [|apply W]. congruence.
Qed.

Lemma vfind_single k v : split_on dot k = [k] -> is_nil k = false ->
  vfind_ref k v = option_bind (as_dict v) (get k).
Proof.
  intros E N. unfold vfind_ref. rewrite E. cbn [find_ref_keys]. rewrite N.
  destruct (as_dict v) as [d|]; [|reflexivity]. cbn [option_bind]. destruct (get k d); reflexivity.
Qed.

Lemma is_default_spec t : is_default t = true <-> t = tag_default.
Proof.
  unfold is_default. destruct t as [n]. unfold tag_default. cbn [tag_raw]. rewrite N.eqb_eq.
  split; congruence.
Qed.

Lemma says_source_dec v : wf v ->
  (says_source v /\ exists t d, v = VDict t d /\ tagged_magic v = d) \/
  (~ says_source v /\ exists x, entry_or_self tagged_value v x /\
     tagged_magic v = [(tagged_tag, source_number v); (tagged_value, x)]).
Proof.
  intros W.
  assert (F : exists x, entry_or_self tagged_value v x /\
     insert tagged_value (match vfind_ref tagged_value v with Some x => x | None => v end)
      (insert tagged_tag (value_of_tag (vtag v)) []) = [(tagged_tag, source_number v); (tagged_value, x)]).
  { eexists. split; [apply entry_or_self_get; [exact W|reflexivity]|].
    rewrite vfind_single by reflexivity. reflexivity. }
  destruct F as (x0 & F1 & F2). unfold tagged_magic. rewrite F2.
  destruct v as [| | | | |t d|];
    try (right; split; [intros (t1 & d1 & x1 & t2 & E & _); discriminate E|]; exists x0; split; [exact F1|reflexivity]).
  cbn [as_dict]. apply wf_VDict in W. assert (Sd : sorted d) by apply W.
  destruct (get tagged_tag d) as [x|] eqn:E.
  - destruct (deserialize_tag (DPlain x)) as [t'|e] eqn:Et.
    + apply (id_number_ok MPlain) in Et. destruct (is_default t') eqn:Ed.
      * right. split; [|eauto]. intros (t1 & d1 & x1 & t2 & [= <- <-] & I & T & N).
        apply in_get in I; [|exact Sd]. rewrite E in I. injection I as <-.
        apply is_default_spec in Ed. inversion T; inversion Et; subst. congruence.
      * left. split; [|eauto]. exists t, d, x, t'. split; [reflexivity|]. split; [apply in_get; assumption|].
        split; [exact Et|]. intros ->. discriminate Ed.
    + right. split; [|eauto]. intros (t1 & d1 & x1 & t2 & [= <- <-] & I & T & N).
      apply in_get in I; [|exact Sd]. rewrite E in I. injection I as <-.
      apply (id_number_ok MPlain) in T. cbn [mk_de] in T. congruence.
  - right. split; [|eauto]. intros (t1 & d1 & x1 & t2 & [= <- <-] & I & T & N).
    apply in_get in I; [|exact Sd]. congruence.
Qed.

Lemma says_file_dec f v : wf v ->
  (says_file v /\ exists t d, v = VDict t d /\ rel_magic f v = d) \/
  (~ says_file v /\ exists x, entry_or_self rel_path v x /\
     ((exists p, from_file f v p /\
         rel_magic f v = [(rel_metadata_path, VString tag_default p); (rel_path, x)]) \/
      ((forall p, ~ from_file f v p) /\ rel_magic f v = [(rel_path, x)]))).
Proof.
  intros W. set (fresh := let metadata_path :=
      option_bind (get_metadata f (vtag v))
                  (fun m => option_bind (md_source m) source_file_path) in
    let m := match metadata_path with
             | Some p => insert rel_metadata_path (VString tag_default p) []
             | None => []
             end in
    insert rel_path (match vfind_ref rel_path v with Some x => x | None => v end) m).
  assert (F : exists x, entry_or_self rel_path v x /\
     ((exists p, from_file f v p /\ fresh = [(rel_metadata_path, VString tag_default p); (rel_path, x)]) \/
      ((forall p, ~ from_file f v p) /\ fresh = [(rel_path, x)]))).
  { eexists. split; [apply entry_or_self_get; [exact W|reflexivity]|].
    unfold fresh. rewrite vfind_single by reflexivity. unfold from_file, get_metadata.
    destruct (get (vtag v) (f_metadata f)) as [md|]; cbn [option_bind].
    - destruct (md_source md) as [[p|l|c]|] eqn:Em; cbn [option_bind source_file_path].
      + left. exists p. split; [eauto|reflexivity].
      + right. split; [|reflexivity]. intros p (md' & [= <-] & E). congruence.
      + right. split; [|reflexivity]. intros p (md' & [= <-] & E). congruence.
      + right. split; [|reflexivity]. intros p (md' & [= <-] & E). congruence.
    - right. split; [|reflexivity]. intros p (md' & E & _). discriminate E. }
  unfold rel_magic. fold fresh. clearbody fresh.
  destruct v as [| | | | |t d|];
    try (right; split; [intros (t1 & d1 & x1 & E & _); discriminate E|]; exact F).
  cbn [as_dict]. apply wf_VDict in W. assert (Sd : sorted d) by apply W.
  destruct (get rel_metadata_path d) as [x|] eqn:E.
  - destruct (to_empty x) as [e|] eqn:Ee.
    + right. split; [|exact F]. intros (t1 & d1 & x1 & [= <- <-] & I & N).
      apply in_get in I; [|exact Sd]. rewrite E in I. injection I as <-.
      destruct x; try discriminate Ee. elim (N t0 e0 eq_refl).
    + left. split; [|eauto]. exists t, d, x. split; [reflexivity|]. split; [apply in_get; assumption|].
      intros g e' ->. discriminate Ee.
  - right. split; [|exact F]. intros (t1 & d1 & x1 & [= <- <-] & I & N).
    apply in_get in I; [|exact Sd]. congruence.
Qed.

Lemma wf_entry_or_self k v x : wf v -> entry_or_self k v x -> wf x.
Proof.
  intros W H. inversion H as [t d x' I|v' N]; subst; [|exact W]. apply wf_VDict in W. destruct W as [_ W].
  rewrite Forall_forall in W. exact (W _ I).
Qed.

(** A struct is read from what is presented to it. *)
Lemma presented m name v : wf v -> exists w, presents m name v w /\ wf w /\
  (forall w', presents m name v w' -> w' = w) /\
  forall A (vis : visitor A) y,
    de_struct name (mk_de m v) vis = Ok y <-> value_visit (mk_de m) w vis = Ok y.
Proof.
  intros W. destruct m as [i f|]; [|exists v; split; [constructor|]; split; [exact W|]; split;
    [intros w' H; inversion H; reflexivity|intros; apply (any_ok MPlain)]].
  cbn [mk_de]. unfold de_struct. unfold magic_map.
  destruct (ueqb name value_name) eqn:E1.
  { apply ueqb_eq in E1. subst name. eexists. split; [apply pr_value|]. split.
    { apply wf_VDict. split; [cbn; auto|]. repeat constructor. exact W. }
    split.
    { intros w' H. inversion H as [|? ? ? ? N| | | | | |]; subst; [|reflexivity]. elim N. cbn. auto. }
    intros A vis y. rewrite settle_ok. reflexivity. }
  destruct (ueqb name rel_name) eqn:E2.
  { apply ueqb_eq in E2. subst name.
    destruct (says_file_dec f v W) as [(S & t & d & -> & E)|(S & x & X & [(p & P & E)|(P & E)])].
    - exists (VDict t d). split; [constructor; exact S|]. split; [exact W|]. split.
      { intros w' H. inversion H; subst; try reflexivity; contradiction. }
      intros A vis y. rewrite settle_ok, E. reflexivity.
    - eexists. split; [eapply pr_in_file; eassumption|]. split.
      { apply wf_VDict. split; [cbn; auto|]. repeat constructor. cbn [snd]. eapply wf_entry_or_self; eassumption. }
      split.
      { intros w' H. inversion H as [|? ? ? ? N| | | |? ? ? S'|? ? ? x' p' _ X' P'|? ? ? x' _ X' P']; subst; try contradiction.
        - elim N. cbn. auto.
        - apply entry_or_self_get in X, X'; [|exact W|exact W]. subst.
          destruct P as (md & G & Q), P' as (md' & G' & Q'). congruence.
        - elim (P' p P). }
      intros A vis y. rewrite settle_ok, E. reflexivity.
    - eexists. split; [eapply pr_no_file; eassumption|]. split.
      { apply wf_VDict. split; [cbn; auto|]. repeat constructor. cbn [snd]. eapply wf_entry_or_self; eassumption. }
      split.
      { intros w' H. inversion H as [|? ? ? ? N| | | |? ? ? S'|? ? ? x' p' _ X' P'|? ? ? x' _ X' P']; subst; try contradiction.
        - elim N. cbn. auto.
        - elim (P p' P').
        - apply entry_or_self_get in X, X'; [|exact W|exact W]. subst. reflexivity. }
      intros A vis y. rewrite settle_ok, E. reflexivity. }
  destruct (ueqb name tagged_name) eqn:E3.
  { apply ueqb_eq in E3. subst name.
    destruct (says_source_dec v W) as [(S & t & d & -> & E)|(S & x & X & E)].
    - exists (VDict t d). split; [constructor; exact S|]. split; [exact W|]. split.
      { intros w' H. inversion H; subst; try reflexivity; contradiction. }
      intros A vis y. rewrite settle_ok, E. reflexivity.
    - eexists. split; [eapply pr_untagged; eassumption|]. split.
      { apply wf_VDict. split; [cbn; auto|]. repeat constructor. cbn [snd]. eapply wf_entry_or_self; eassumption. }
      split.
      { intros w' H. inversion H as [|? ? ? ? N| | |? ? ? x' _ X'| | |]; subst; try contradiction.
        - elim N. cbn. auto.
        - apply entry_or_self_get in X, X'; [|exact W|exact W]. subst. reflexivity. }
      intros A vis y. rewrite settle_ok, E. reflexivity. }
  assert (N : ~ In name [value_name; rel_name; tagged_name]).
  { intros [<-|[<-|[<-|[]]]]; [rewrite (proj2 (ueqb_eq _ _) eq_refl) in E1|rewrite (proj2 (ueqb_eq _ _) eq_refl) in E2
      |rewrite (proj2 (ueqb_eq _ _) eq_refl) in E3]; discriminate. }
  exists v. split; [constructor; exact N|]. split; [exact W|]. split.
  { intros w' H. inversion H; subst; try reflexivity; elim N; cbn; auto. }
  intros A vis y. rewrite settle_ok. apply (any_ok (MConf i f)).
Qed.

(** Copied into a [Value]. *)
Lemma copied m w u : wf w -> value_visit (mk_de m) w value_visitor = Ok u <-> taken (tracked m) w u.
Proof.
  intros W. rewrite tracked_kept, <- (raw_value_taken m w W u), raw_value_any, mk_de_mode, mode_settle_ok. reflexivity.
Qed.

Lemma last_field_spec t f : last_of_fields t f <-> f = last_field t.
Proof.
  split.
  - intros H. inversion H as [n i d fs f' u|t' N]; subst.
    + cbn [last_field]. rewrite map_app. cbn [map fst]. rewrite last_last. reflexivity.
    + destruct t; try reflexivity. cbn [last_field]. destruct fs as [|x fs] using rev_ind; [reflexivity|].
      elim (N _ _ _ _ _ eq_refl).
  - intros ->. destruct t; try (apply lf_none; intros; discriminate).
    cbn [last_field]. destruct fs as [|[f u] fs _] using rev_ind.
    + apply lf_none. intros n i d fs f [= _ _ _ E]. destruct fs; discriminate E.
    + rewrite map_app. cbn [map fst]. rewrite last_last. apply lf_some.
Qed.

Definition key_gives (t : ty) (s : ustr) (x : dval) : Prop :=
  match t with
  | TValue => x = EVValue (VString tag_default s)
  | TEither a b => exists f, last_of_fields a f /\
      first_else f (gives MPlain a) (gives MPlain b) (VString tag_default s) x
  | _ => reads_key t s x
  end.

Definition granted (t : ty) : Prop :=
  named_apart t ->
  (forall m, means m (optional t) (gives m t) (deserialize t)) /\
  forall s y, deserialize t (DStr s) = Ok y <-> key_gives t s y.

Definition tried (a b : ty) (u : value) : res error dval :=
  match deserialize a (DPlain u) with
  | Ok x => Ok (EVLeft x)
  | Err ea =>
      let v' := match option_bind (as_dict u) (get (last_field a)) with
                | Some x => x
                | None => u
                end in
      match deserialize b (DPlain v') with
      | Ok x => Ok (EVRight x)
      | Err eb => Err (err_msg (fmt_kind (e_kind ea) ++ lit "; " ++ fmt_kind (e_kind eb)))
      end
  end.

Lemma tried_spec a b u y :
  means MPlain (optional a) (gives MPlain a) (deserialize a) ->
  means MPlain (optional b) (gives MPlain b) (deserialize b) -> wf u ->
  tried a b u = Ok y <->
  exists f, last_of_fields a f /\ first_else f (gives MPlain a) (gives MPlain b) u y.
Proof.
  intros A B W. unfold tried.
  assert (Ha := fun x => mn_value _ _ _ _ A u x W). cbn [mk_de] in Ha.
  set (u' := match option_bind (as_dict u) (get (last_field a)) with Some x => x | None => u end).
  assert (S : entry_or_self (last_field a) u u') by (apply entry_or_self_get; [exact W|reflexivity]).
  assert (Hb := fun x => mn_value _ _ _ _ B u' x (wf_entry_or_self _ _ _ W S)). cbn [mk_de] in Hb.
  split.
  - intros H. exists (last_field a). split; [apply last_field_spec; reflexivity|]. unfold first_else.
    destruct (deserialize a (DPlain u)) as [x|ea] eqn:E.
    + injection H as <-. left. exists x. split; [apply Ha; reflexivity|reflexivity].
    + right. split; [intros x G; apply Ha in G; discriminate G|].
      cbv zeta in H. destruct (deserialize b (DPlain u')) as [x|eb] eqn:Eb; [|discriminate H].
      injection H as <-. exists u', x. split; [exact S|]. split; [apply Hb; reflexivity|reflexivity].
  - intros (f & F & H). apply last_field_spec in F. subst f. destruct H as [(x & G & ->)|(N & w & x & S' & G & ->)].
    + apply Ha in G. rewrite G. reflexivity.
    + destruct (deserialize a (DPlain u)) as [x'|ea] eqn:E; [elim (N x'); apply Ha; reflexivity|].
      assert (w = u') as ->.
      { apply entry_or_self_get in S'; [|exact W]. exact S'. }
      apply Hb in G. cbv zeta. rewrite G. reflexivity.
Qed.

Lemma deserialize_either a b d :
  deserialize (TEither a b) d = res_bind (de_struct (struct_name a) d value_visitor) (tried a b).
Proof. reflexivity. Qed.

(** ** All types *)
Definition shape_gives (m : mode) (s : shape ty) : shape (Prop * (value -> dval -> Prop)) :=
  match s with
  | ShUnit => ShUnit
  | ShNew t => ShNew (optional t, gives m t)
  | ShTuple ts => ShTuple (map (fun t => (optional t, gives m t)) ts)
  | ShStruct fs => ShStruct (map (fun f => (fst f, (optional (snd f), gives m (snd f)))) fs)
  end.

Lemma granted_list ts m : Forall granted ts -> all (map named_apart ts) ->
  Forall2 (fun rec r => means m (fst r) (snd r) rec) (map deserialize ts)
          (map (fun t => (optional t, gives m t)) ts).
Proof.
  intros H N. rewrite all_Forall in N. induction H as [|t ts Ht _ IH]; cbn [map]; constructor;
    inversion N; subst; [apply Ht|apply IH]; assumption.
Qed.

Lemma granted_fields (fs : list (ustr * ty)) m : Forall (fun f => granted (snd f)) fs ->
  all (map (fun f => named_apart (snd f)) fs) ->
  Forall2 (field_means m) (map (fun f => (fst f, deserialize (snd f))) fs)
          (map (fun f => (fst f, (optional (snd f), gives m (snd f)))) fs).
Proof.
  intros H N. rewrite all_Forall in N. induction H as [|t ts Ht _ IH]; cbn [map]; constructor; inversion N; subst.
  - split; [reflexivity|]. apply Ht; assumption.
  - apply IH; assumption.
Qed.

Lemma granted_variants (vs : list (ustr * shape ty)) m : Forall (fun v => shape_all granted (snd v)) vs ->
  all (map (fun nv => match snd nv with
                      | ShUnit => True
                      | ShNew t => named_apart t
                      | ShTuple ts => all (map named_apart ts)
                      | ShStruct fs => NoDup (map fst fs) /\ all (map (fun f => named_apart (snd f)) fs)
                      end) vs) ->
  variants_mean m (map (fun nv => (fst nv, shape_des (snd nv))) vs)
                  (map (fun nv => (fst nv, shape_gives m (snd nv))) vs).
Proof.
  intros H N. rewrite all_Forall in N. induction H as [|[n s] vs Hs _ IH]; cbn [map]; constructor.
  - inversion N as [|? ? N1 N2]; subst. cbn [fst snd] in *. split; [reflexivity|].
    destruct s as [|t|ts|fs]; cbn [shape_des shape_gives shape_means shape_all] in *.
    + exact I.
    + apply Hs; assumption.
    + apply granted_list; assumption.
    + destruct N1 as [N1 N1']. split; [apply granted_fields; assumption|]. rewrite keys_map. exact N1.
  - inversion N; subst. apply IH; assumption.
Qed.

Lemma plain_meant t m v y : wf v -> SpecDe.ordinary t -> named_apart t ->
  deserialize t (mk_de m v) = Ok y <-> extracts (mode_interp m) t v y.
Proof. intros W O N. apply (mn_value _ _ _ _ (extraction_meant t O N m) v y W). Qed.

Theorem extraction_granted t : granted t.
Proof.
  induction t using ty_ind'; intros N;
    (split; [intros m; constructor; [intros v y W|intros ? y; apply missing_extracted]
            |intros s y; try (apply key_extracted; [exact I|exact N])]).
  - apply (plain_meant TBool); auto; exact I.
  - cbn [gives]. split.
    + intros H. assert (K : SpecDe.narrow k) by (destruct k; try exact I; destruct m; discriminate H).
      split; [exact K|]. apply (plain_meant (TInt k) m v y W); [destruct k; cbn; split; congruence || destruct K|exact N|exact H].
    + intros [K H]. apply (plain_meant (TInt k) m v y W); [destruct k; cbn; split; congruence || destruct K|exact N|exact H].
  - apply (plain_meant TF32); auto; exact I.
  - apply (plain_meant TF64); auto; exact I.
  - apply (plain_meant TChar); auto; exact I.
  - apply (plain_meant TString); auto; exact I.
  - apply (plain_meant TUnit); auto; exact I.
  - cbn [deserialize gives]. apply option_extracted; [exact W|]. intros. apply IHt; assumption.
  - cbn [deserialize gives]. rewrite (any_ok m), seq_vis_ok by reflexivity. split.
    + intros (g & l & -> & H). apply res_map_ok in H. destruct H as (ys & H & ->).
      apply wf_VArray in W. eapply elements_extracted in H; [|apply IHt; assumption|exact W]. eauto 6.
    + intros (g & l & ys & -> & H & ->). exists g, l. split; [reflexivity|]. apply res_map_ok. exists ys.
      apply wf_VArray in W. split; [|reflexivity]. eapply elements_extracted; [apply IHt; assumption|exact W|exact H].
  - cbn [deserialize gives]. rewrite (any_ok m), seq_vis_ok by reflexivity. cbn [named_apart] in N.
    pose proof (granted_list _ m H N) as M. split.
    + intros (g & l & -> & H'). apply res_map_ok in H'. destruct H' as (ys & H' & ->).
      apply wf_VArray in W. eapply tuple_extracted in H'; [|exact M|exact W]. rewrite map_map in H'. eauto 6.
    + intros (g & l & ys & -> & H' & ->). exists g, l. split; [reflexivity|]. apply res_map_ok. exists ys.
      apply wf_VArray in W. split; [|reflexivity]. eapply tuple_extracted; [exact M|exact W|]. rewrite map_map. exact H'.
  - cbn [deserialize gives]. rewrite (any_ok m), map_vis_ok by reflexivity. split.
    + intros (g & d & -> & H). apply res_map_ok in H. destruct H as (r & H & ->).
      pose proof W as W'. apply wf_VDict in W'. destruct W' as [S W'].
      eapply map_extracted in H; [|apply IHt; assumption|exact W'].
      destruct H as (ys & H & ->). exists g, d, ys. split; [reflexivity|]. split; [exact H|]. f_equal.
      apply collect_sorted. eapply sorted_same_keys; [eapply Forall2_keys; exact H|exact S].
    + intros (g & d & ys & -> & H & ->). exists g, d. split; [reflexivity|]. apply res_map_ok. exists ys.
      split; [|reflexivity]. apply wf_VDict in W. destruct W as [S W].
      eapply map_extracted; [apply IHt; assumption|exact W|]. exists ys. split; [exact H|].
      symmetry. apply collect_sorted. eapply sorted_same_keys; [eapply Forall2_keys; exact H|exact S].
  - cbn [deserialize gives]. rewrite (any_ok m), map_vis_ok by reflexivity.
    cbn [named_apart] in N. destruct N as [N1 N2]. fold (key_gives t1).
    destruct (IHt1 N1) as [_ K]. destruct (IHt2 N2) as [V _]. split.
    + intros (g & d & -> & H). apply res_map_ok in H. destruct H as (r & H & ->).
      apply wf_VDict in W. destruct W as [S W].
      eapply pairs_extracted in H; [|exact K|apply V|exact W].
      exists g, d, r. auto.
    + intros (g & d & ys & -> & H & ->). exists g, d. split; [reflexivity|]. apply res_map_ok. exists ys.
      split; [|reflexivity]. apply wf_VDict in W. destruct W as [S W].
      eapply pairs_extracted; [exact K|apply V|exact W|exact H].
  - cbn [deserialize gives]. cbn [named_apart] in N. destruct N as [N1 N2].
    pose proof (granted_fields _ m H N2) as M.
    destruct (presented m n v W) as (w & P & Ww & U & E).
    rewrite E, struct_extracted; [|exact M|rewrite keys_map; exact N1|exact Ww].
    rewrite keys_map. split.
    + intros X. exists w. split; [exact P|exact X].
    + intros (w' & P' & X). rewrite (U w' P') in X. exact X.
  - cbn [deserialize gives].
    assert (E : de_newtype (mk_de m v) (newtype_visitor (lit "tuple struct " ++ i) (deserialize t)) =
                res_map EVNewtype (deserialize t (mk_de m v))) by (destruct m; reflexivity).
    rewrite E, res_map_ok. split; intros (x & H & ->); exists x; (split; [|reflexivity]); apply IHt; assumption.
  - cbn [deserialize gives]. rewrite (any_ok m), seq_vis_ok by reflexivity. cbn [named_apart] in N.
    pose proof (granted_list _ m H N) as M. split.
    + intros (g & l & -> & H'). apply res_map_ok in H'. destruct H' as (ys & H' & ->).
      apply wf_VArray in W. eapply tuple_extracted in H'; [|exact M|exact W]. rewrite map_map in H'. eauto 6.
    + intros (g & l & ys & -> & H' & ->). exists g, l. split; [reflexivity|]. apply res_map_ok. exists ys.
      apply wf_VArray in W. split; [|reflexivity]. eapply tuple_extracted; [exact M|exact W|]. rewrite map_map. exact H'.
  - apply (plain_meant (TUnitStruct i)); auto; exact I.
  - cbn [named_apart] in N. destruct N as [N1 N2].
    pose proof (granted_variants _ m H N2) as M.
    change (deserialize (TEnum i vs) (mk_de m v)) with
      (de_enum (mk_de m v) (enum_visitor i (map (fun nv => (fst nv, shape_des (snd nv))) vs))).
    rewrite enum_ok. rewrite enum_extracted; [|exact M|rewrite keys_map; exact N1|exact W]. reflexivity.
  - cbn [deserialize gives]. rewrite res_map_ok, deserialize_value_mk. setoid_rewrite value_of_raw_ok.
    rewrite tracked_kept. unfold fill. split.
    + intros (x & (u & U & ->) & ->). exists u. split; [apply raw_value_taken; assumption|reflexivity].
    + intros (u & U & ->). eexists. split; [exists u; split; [apply raw_value_taken; assumption|reflexivity]|reflexivity].
  - cbn. split; [intros [= <-]; reflexivity|intros ->; reflexivity].
  - apply (plain_meant TTag); auto; exact I.
  - apply (plain_meant TProfile); auto; exact I.
  - apply (plain_meant TPath); auto; exact I.
  - apply (plain_meant TIgnored); auto; exact I.
  - apply (plain_meant TBoolish); auto; exact I.
  - rewrite deserialize_either, res_bind_ok. cbn [gives]. cbn [named_apart] in N. destruct N as [N1 N2].
    destruct (IHt1 N1) as [A _]. destruct (IHt2 N2) as [B _].
    destruct (presented m (struct_name t1) v W) as (w & P & Ww & U & E). split.
    + intros (u & H1 & H2). apply E, copied in H1; [|exact Ww].
      apply tried_spec in H2; [|apply A|apply B|eapply raw_value_total_wf; [exact Ww|exact H1]].
      destruct H2 as (f & F & H2). exists w, u, f. auto.
    + intros (w' & u & f & P' & T & F & X). assert (w' = w) as -> by (apply U; exact P').
      exists u. split; [apply E, copied; assumption|].
      apply tried_spec; [apply A|apply B|eapply raw_value_total_wf; [exact Ww|exact T]|]. exists f. auto.
  - cbn [named_apart] in N. destruct N as [N1 N2]. destruct (IHt1 N1) as [A _]. destruct (IHt2 N2) as [B _].
    rewrite deserialize_either. change (de_struct (struct_name t1) (DStr s) value_visitor) with (@Ok error value (VString tag_default s)).
    cbn [res_bind key_gives]. apply tried_spec; [apply A|apply B|exact I].
Qed.

(** ** [Tagged] and [RelativePathBuf] *)
Lemma by_name_two n1 o1 r1 n2 o2 r2 (d : dict) ys : sorted d ->
  by_name [(n1, (o1, r1)); (n2, (o2, r2))] d ys <->
  exists y1 y2, ys = [(n1, y1); (n2, y2)] /\
    ((exists x, In (n1, x) d /\ r1 x y1) \/ ((forall x, ~ In (n1, x) d) /\ o1 /\ y1 = EVNone)) /\
    ((exists x, In (n2, x) d /\ r2 x y2) \/ ((forall x, ~ In (n2, x) d) /\ o2 /\ y2 = EVNone)).
Proof.
  intros S.
  assert (X : forall n (o : Prop) (r : value -> dval -> Prop) y,
    match get n d with Some v => r v y | None => o /\ y = EVNone end <->
    ((exists x, In (n, x) d /\ r x y) \/ ((forall x, ~ In (n, x) d) /\ o /\ y = EVNone))).
  { intros n o r y. destruct (get n d) as [v|] eqn:E.
    - split; [intros H; left; exists v; split; [apply in_get; assumption|exact H]|].
      intros [(x & I & H)|(N & _)]; [apply in_get in I; [|exact S]; congruence|].
      elim (N v). apply in_get; assumption.
    - assert (N : forall x, ~ In (n, x) d) by (intros x I; apply in_get in I; [congruence|exact S]).
      split; [intros H; right; auto|]. intros [(x & I & _)|(_ & H)]; [elim (N x I)|exact H]. }
  destruct ys as [|[a y1] [|[b y2] [|? ?]]]; cbn [by_name].
  - split; [intros []|intros (y1 & y2 & E & _); discriminate E].
  - split; [intros (_ & _ & [])|intros (z1 & z2 & E & _); discriminate E].
  - rewrite !X. split.
    + intros (-> & A & -> & B & _). eauto 6.
    + intros (z1 & z2 & [= -> -> -> ->] & A & B). auto.
  - split; [intros (_ & _ & _ & _ & [])|intros (z1 & z2 & E & _); discriminate E].
Qed.

Lemma granted_at t m v y : wf v -> named_apart t -> deserialize t (mk_de m v) = Ok y <-> gives m t v y.
Proof. intros W N. exact (mn_value _ _ _ _ (proj1 (extraction_granted t N) m) v y W). Qed.

Lemma gives_tag m x y : gives m TTag x y <-> exists t, id_number x t /\ y = EVTag t.
Proof.
  cbn [gives extracts]. split.
  - intros (g & n & z & -> & (j & -> & I) & ->). eexists. split; [constructor; exact I|reflexivity].
  - intros (t & H & ->). inversion H as [g k z I]; subst. exists g, (NInt k z), z. split; [reflexivity|].
    split; [|reflexivity]. exists k. auto.
Qed.
Lemma gives_path m x y : gives m TPath x y <-> exists s, text x s /\ y = EVPath s.
Proof. reflexivity. Qed.

Lemma id_number_fun x a b : id_number x a -> id_number x b -> a = b.
Proof. intros A B. inversion A; inversion B; subst. congruence. Qed.
Lemma source_number_id v t : id_number (source_number v) t <-> t = vtag v.
Proof.
  unfold source_number. split.
  - intros H. inversion H; subst. rewrite N2Z.id. destruct (vtag v); reflexivity.
  - intros ->. assert (E : vtag v = Tag (Z.to_N (Z.of_N (tag_raw (vtag v))))).
    { rewrite N2Z.id. destruct (vtag v); reflexivity. }
    rewrite E at 2. constructor. cbn. auto.
Qed.

Lemma struct_exact m name ident fs v y : wf v -> named_apart (TStruct name ident false fs) ->
  forall g d, presents m name v (VDict g d) ->
  deserialize (TStruct name ident false fs) (mk_de m v) = Ok y <->
  exists ys, by_name (map (fun f => (fst f, (optional (snd f), gives m (snd f)))) fs) d ys /\ y = EVStruct ys.
Proof.
  intros W N g d P. rewrite granted_at by assumption. cbn [gives].
  destruct (presented m name v W) as (w & _ & _ & U & _). split.
  - intros (w' & P' & H). rewrite (U _ P'), <- (U _ P) in H.
    destruct H as [(g' & d' & ys & [= <- <-] & _ & B & ->)|(g' & l & ys & E & _)]; [eauto|discriminate E].
  - intros (ys & B & ->). exists (VDict g d). split; [exact P|]. left. exists g, d, ys.
    split; [reflexivity|]. split; [discriminate|]. auto.
Qed.

Lemma tagged_exact i f t v y : wf v -> named_apart t ->
  deserialize (TTagged t) (DConf i f v) = Ok y <->
  exists tg z, y = EVStruct [(tagged_tag, EVTag tg); (tagged_value, z)] /\
    ((~ says_source v /\ tg = vtag v /\
      exists x, entry_or_self tagged_value v x /\ gives (MConf i f) t x z) \/
     (exists g d n, v = VDict g d /\ In (tagged_tag, n) d /\ id_number n tg /\ tg <> tag_default /\
        ((exists x, In (tagged_value, x) d /\ gives (MConf i f) t x z) \/
         ((forall x, ~ In (tagged_value, x) d) /\ optional t /\ z = EVNone)))).
Proof.
  intros W N. set (m := MConf i f).
  assert (Nt : named_apart (TTagged t)).
  { cbn. split; [|auto]. repeat constructor; cbn; intros H; decompose [or] H; discriminate || contradiction. }
  change (DConf i f v) with (mk_de m v).
  destruct (says_source_dec v W) as [(S & g & d & -> & _)|(S & x & X & _)].
  - assert (Sd : sorted d) by (apply wf_VDict in W; apply W). unfold TTagged. rewrite (struct_exact m _ _ _ _ _ W Nt g d) by (constructor; exact S).
    cbn [map fst snd]. setoid_rewrite by_name_two; [|exact Sd]. setoid_rewrite gives_tag.
    destruct S as (g' & d' & n & tg & [= <- <-] & In1 & T1 & D1). split.
    + intros (ys & (y1 & y2 & -> & [(n' & I' & tg' & T' & ->)|(_ & [u O] & _)] & B) & ->); [|discriminate O].
      assert (n' = n) as -> by (apply (in_get _ d _ Sd) in I', In1; congruence).
      assert (tg' = tg) as -> by (eapply id_number_fun; eassumption).
      exists tg, y2. split; [reflexivity|]. right. exists g, d, n. auto 8.
    + intros (tg' & z & -> & [(NS & _)|(g' & d' & n' & [= <- <-] & I' & T' & D' & B)]).
      * elim NS. exists g, d, n, tg. auto.
      * eexists. split; [|reflexivity]. exists (EVTag tg'), z. split; [reflexivity|]. split; [left; eauto|exact B].
  - assert (P : presents m tagged_name v (VDict tag_default [(tagged_tag, source_number v); (tagged_value, x)]))
      by (constructor; assumption).
    unfold TTagged. rewrite (struct_exact m _ _ _ _ _ W Nt _ _ P).
    cbn [map fst snd]. setoid_rewrite by_name_two; [|cbn; auto]. setoid_rewrite gives_tag. split.
    + intros (ys & (y1 & y2 & -> & [(n' & I' & tg' & T' & ->)|(_ & [u O] & _)] & B) & ->); [|discriminate O].
      destruct I' as [[= <-]|[E|[]]]; [|discriminate E]. apply source_number_id in T'. subst tg'.
      exists (vtag v), y2. split; [reflexivity|]. left. split; [exact S|]. split; [reflexivity|].
      destruct B as [(x' & [E|[[= <-]|[]]] & G)|(NB & _)]; [discriminate E|eauto|].
      elim (NB x). right. left. reflexivity.
    + intros (tg & z & -> & [(_ & -> & x' & X' & G)|(g & d & n & -> & I' & T' & D' & _)]).
      * assert (x' = x) as -> by (apply entry_or_self_get in X, X'; auto; congruence).
        eexists. split; [|reflexivity]. exists (EVTag (vtag v)), z. split; [reflexivity|]. split.
        { left. exists (source_number v). split; [left; reflexivity|]. exists (vtag v).
          split; [apply source_number_id; reflexivity|reflexivity]. }
        left. exists x. split; [right; left; reflexivity|exact G].
      * elim S. exists g, d, n, tg. auto.
Qed.

Lemma relative_exact i f v y : wf v ->
  deserialize TRelative (DConf i f v) = Ok y <->
  exists m p, y = EVStruct [(rel_metadata_path, m); (rel_path, EVPath p)] /\
    ((~ says_file v /\ (exists x, entry_or_self rel_path v x /\ text x p) /\
      ((exists q, from_file f v q /\ m = EVSome (EVPath q)) \/
       ((forall q, ~ from_file f v q) /\ m = EVNone))) \/
     (exists g d x s q, v = VDict g d /\ In (rel_path, x) d /\ text x p /\
        In (rel_metadata_path, s) d /\ text s q /\ m = EVSome (EVPath q))).
Proof.
  intros W. set (m := MConf i f).
  assert (Nt : named_apart TRelative).
  { cbn. split; [|auto]. repeat constructor; cbn; intros H; decompose [or] H; discriminate || contradiction. }
  change (DConf i f v) with (mk_de m v).
  assert (GO : forall x z, (forall g e, x <> VEmpty g e) ->
    gives m (TOption TPath) x z <-> exists s, text x s /\ z = EVSome (EVPath s)).
  { intros x z E. cbn [gives extracts]. split.
    - intros [((g & e & ->) & _)|(_ & w & (s & T & ->) & ->)]; [elim (E g e eq_refl)|eauto].
    - intros (s & T & ->). right. split; [intros (g & e & ->); elim (E g e eq_refl)|]. eauto. }
  assert (TE : forall x s, text x s -> forall g e, x <> VEmpty g e) by (intros x s T g e ->; inversion T).
  destruct (says_file_dec f v W) as [(S & g & d & -> & _)|(S & x & X & D)].
  - assert (Sd : sorted d) by (apply wf_VDict in W; apply W). unfold TRelative. rewrite (struct_exact m _ _ _ _ _ W Nt g d) by (constructor; exact S).
    cbn [map fst snd]. setoid_rewrite by_name_two; [|exact Sd].
    destruct S as (g' & d' & s & [= <- <-] & In1 & E1). split.
    + intros (ys & (y1 & y2 & -> & [(s' & I' & G1)|(NN & _)] & [(x & Ix & G2)|(_ & [u O] & _)]) & ->);
        [|discriminate O|elim (NN s In1)|discriminate O].
      assert (s' = s) as -> by (apply (in_get _ d _ Sd) in I', In1; congruence).
      apply GO in G1; [|exact E1]. destruct G1 as (q & Tq & ->). cbn [gives extracts] in G2. destruct G2 as (p & Tp & ->).
      exists (EVSome (EVPath q)), p. split; [reflexivity|]. right. exists g, d, x, s, q. auto 8.
    + intros (m' & p & -> & [(NS & _)|(g' & d' & x & s' & q & [= <- <-] & Ix & Tp & Is & Tq & ->)]).
      { elim NS. exists g, d, s. auto. }
      eexists. split; [|reflexivity]. do 2 eexists. split; [reflexivity|]. split; left.
      * exists s'. split; [exact Is|]. apply GO; eauto.
      * exists x. split; [exact Ix|]. apply gives_path. eauto.
  - assert (NS : forall g d x s q, v = VDict g d -> In (rel_metadata_path, s) d -> text s q -> In (rel_path, x) d -> False).
    { intros g d x0 s q -> Is Tq _. apply S. exists g, d, s. split; [reflexivity|]. split; [exact Is|]. eauto. }
    destruct D as [(p0 & F & _)|(F & _)].
    + assert (P : presents m rel_name v (VDict tag_default [(rel_metadata_path, VString tag_default p0); (rel_path, x)]))
        by (eapply pr_in_file; eassumption).
      unfold TRelative. rewrite (struct_exact m _ _ _ _ _ W Nt _ _ P).
      cbn [map fst snd]. setoid_rewrite by_name_two; [|cbn; auto]. split.
      * intros (ys & (y1 & y2 & -> & A & B) & ->).
        destruct B as [(x' & [E|[[= <-]|[]]] & G)|(NB & _)]; [discriminate E| |elim (NB x); right; left; reflexivity].
        cbn [gives extracts] in G. destruct G as (p & Tp & ->).
        destruct A as [(s' & [[= <-]|[E|[]]] & G)|(NB & _)]; [|discriminate E|elim (NB _ (or_introl eq_refl))].
        apply GO in G; [|discriminate]. destruct G as (q & Tq & ->). inversion Tq; subst.
        do 2 eexists. split; [reflexivity|]. left. split; [exact S|]. split; [eauto|]. left. eauto.
      * intros (m' & p & -> & [(_ & (x' & X' & Tp) & [(q & F' & ->)|(F' & _)])|(g & d & x' & s & q & E & Ix & _ & Is & Tq & _)]);
          [|elim (F' _ F)|elim (NS _ _ _ _ _ E Is Tq Ix)].
        assert (x' = x) as -> by (apply entry_or_self_get in X, X'; auto; congruence).
        assert (q = p0) as -> by (destruct F as (md & G & Q), F' as (md' & G' & Q'); congruence).
        eexists. split; [|reflexivity]. do 2 eexists. split; [reflexivity|]. split; left.
        { exists (VString tag_default p0). split; [left; reflexivity|]. apply GO; [discriminate|].
          exists p0. split; [constructor|reflexivity]. }
        exists x. split; [right; left; reflexivity|]. apply gives_path. eauto.
    + assert (P : presents m rel_name v (VDict tag_default [(rel_path, x)])) by (eapply pr_no_file; eassumption).
      unfold TRelative. rewrite (struct_exact m _ _ _ _ _ W Nt _ _ P).
      cbn [map fst snd]. setoid_rewrite by_name_two; [|cbn; auto]. split.
      * intros (ys & (y1 & y2 & -> & A & B) & ->).
        destruct B as [(x' & [[= <-]|[]] & G)|(NB & _)]; [|elim (NB x); left; reflexivity].
        cbn [gives extracts] in G. destruct G as (p & Tp & ->).
        destruct A as [(s' & [E|[]] & G)|(NB & _ & ->)]; [discriminate E|].
        do 2 eexists. split; [reflexivity|]. left. split; [exact S|]. split; [eauto|]. right. eauto.
      * intros (m' & p & -> & [(_ & (x' & X' & Tp) & [(q & F' & ->)|(F' & ->)])|(g & d & x' & s & q & E & Ix & _ & Is & Tq & _)]);
          [elim (F _ F')| |elim (NS _ _ _ _ _ E Is Tq Ix)].
        assert (x' = x) as -> by (apply entry_or_self_get in X, X'; auto; congruence).
        eexists. split; [|reflexivity]. do 2 eexists. split; [reflexivity|]. split.
        { right. split; [intros y [E|[]]; discriminate E|]. split; [eexists; reflexivity|reflexivity]. }
        left. exists x. split; [left; reflexivity|]. apply gives_path. eauto.
Qed.
