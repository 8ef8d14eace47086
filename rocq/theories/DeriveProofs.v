(** Types with attributes get what [SpecDerive] says. *)
From Coq Require Import Ascii String ZArith NArith Bool Lia.
From Coq Require Import List.
From Verif Require Import Res BMap Str Profile Tag Num Value NumParse Metadata Err Coalesce Figment Fmt De Content Derive.
From Verif Require Import SpecValue SpecParse SpecLossy SpecDe SpecMagic SpecExtract SpecTaken SpecGives SpecBuffer SpecDerive.
From Verif Require Import BMapProofs StrProofs ValueProofs DeProofs MeaningProofs TakenProofs GivesProofs FieldProofs ContentProofs.
From Verif Require BlameProofs RtProofs IntoProofs.
Import ListNotations.

(** ** Induction over types *)
Definition flat_all (P : xty -> Prop) (f : flat xty) : Prop :=
  match f with FlStruct _ fs => Forall (fun f => P (f_type f)) fs | FlMap x => P x end.

Section xty_ind.
  Variable P : xty -> Prop.
  Hypothesis HTy : forall t, P (XTy t).
  Hypothesis HOption : forall x, P x -> P (XOption x).
  Hypothesis HSeq : forall x, P x -> P (XSeq x).
  Hypothesis HMap : forall x, P x -> P (XMap x).
  Hypothesis HStruct : forall i d fs fls, Forall (fun f => P (f_type f)) fs ->
    Forall (fun nf => flat_all P (snd nf)) fls ->
    P (XStruct i d fs fls).
  Hypothesis HUntagged : forall i vs, Forall (fun nv => P (snd nv)) vs -> P (XUntagged i vs).

  Fixpoint xty_ind' (x : xty) : P x :=
    let allf := fix allf (l : list (field xty)) : Forall (fun f => P (f_type f)) l :=
      match l with
      | [] => Forall_nil _
      | f :: r => Forall_cons f (xty_ind' (f_type f)) (allf r)
      end in
    match x with
    | XTy t => HTy t
    | XOption x => HOption x (xty_ind' x)
    | XSeq x => HSeq x (xty_ind' x)
    | XMap x => HMap x (xty_ind' x)
    | XStruct i d fs fls =>
        HStruct i d fs fls (allf fs)
          ((fix alls (l : list (ustr * flat xty))
              : Forall (fun nf => flat_all P (snd nf)) l :=
              match l with
              | [] => Forall_nil _
              | nf :: r =>
                  Forall_cons nf
                    (match snd nf as s return flat_all P s with
                     | FlStruct _ fs => allf fs
                     | FlMap x => xty_ind' x
                     end) (alls r)
              end) fls)
    | XUntagged i vs =>
        HUntagged i vs
          ((fix allv (l : list (ustr * xty)) : Forall (fun nv => P (snd nv)) l :=
              match l with
              | [] => Forall_nil _
              | nv :: r => Forall_cons nv (xty_ind' (snd nv)) (allv r)
              end) vs)
    end.
End xty_ind.

(** ** Parts of a list *)
Inductive sub {A} : list A -> list A -> Prop :=
| sub_nil : sub [] []
| sub_skip x a b : sub a b -> sub a (x :: b)
| sub_keep x a b : sub a b -> sub (x :: a) (x :: b).
Lemma sub_refl {A} (l : list A) : sub l l.
Proof. induction l; constructor; assumption. Qed.
Lemma sub_filter {A} (f : A -> bool) l : sub (filter f l) l.
Proof. induction l as [|x l IH]; cbn; [constructor|]. destruct (f x); constructor; assumption. Qed.
Lemma sub_app {A} (a b c d : list A) : sub a b -> sub c d -> sub (a ++ c) (b ++ d).
Proof. intros H K. induction H; cbn; [assumption|constructor; assumption|constructor; assumption]. Qed.
Lemma sub_in {A} (a b : list A) x : sub a b -> In x a -> In x b.
Proof. induction 1; cbn; [auto|auto|intros [->|I]; auto]. Qed.
Lemma sub_sorted (a b : dict) : sub a b -> sorted b -> sorted a.
Proof.
  induction 1 as [|[k x] a b H IH|[k x] a b H IH]; intros S; [exact S|apply IH; apply S|].
  destruct S as [S1 S2]. split; [|apply IH; exact S2]. apply lt_all_In. intros k' v' I.
  rewrite (lt_all_In (K := ustr)) in S1. apply (S1 k' v'). eapply sub_in; eauto.
Qed.
Lemma leaves_sub fs d d' : leaves fs d d' -> sub d' d.
Proof.
  intros [[_ ->]|(pre & k & x & post & -> & _ & _ & ->)]; [apply sub_filter|].
  apply sub_app; [apply sub_filter|]. constructor. apply sub_refl.
Qed.
Lemma without_sub names d : sub (without names d) d.
Proof. apply sub_filter. Qed.

Lemma wf_sub g d d' : wf (VDict g d) -> sub d' d -> wf (VDict g d').
Proof.
  intros W S. apply wf_VDict in W. apply wf_VDict. destruct W as [W1 W2]. split; [eapply sub_sorted; eauto|].
  rewrite Forall_forall in *. intros kv I. apply W2. eapply sub_in; eauto.
Qed.
Lemma narrow_sub g d d' : narrow_only (VDict g d) -> sub d' d -> narrow_only (VDict g d').
Proof.
  cbn. intros N S. rewrite BlameProofs.all_Forall, Forall_forall in *. intros kv I. apply N. eapply sub_in; eauto.
Qed.
Lemma in_without names (d : dict) k x : In (k, x) (without names d) <-> In (k, x) d /\ ~ In k names.
Proof.
  unfold without. rewrite filter_In. cbn [fst]. rewrite negb_true_iff. split; intros [I K]; (split; [exact I|]).
  - intros J. apply existsb_name in J. congruence.
  - destruct (existsb (ueqb k) names) eqn:E; [|reflexivity]. apply existsb_name in E. contradiction.
Qed.

Lemma absent_ok x n y : absent_field x n = Ok y <-> x_optional x /\ y = EVNone.
Proof.
  destruct x; cbn [absent_field x_optional]; try (split; [discriminate|intros [[] _]]).
  - apply missing_extracted.
  - split; [intros [= <-]; auto|intros [_ ->]; reflexivity].
Qed.

(** ** From copies *)
Definition x_copied (x : xty) : Prop := x_apart x -> forall o v y, wf v -> narrow_only v ->
  xcontent o x (pure v) = Ok y <-> xstrictly o x v y.

Definition as_copied (d : dict) : list (ustr * content) := map (fun kv => (fst kv, pure (snd kv))) d.
Definition strict (o : bool) (x : xty) : how := (x_optional x, xstrictly o x).
Definition flat_reader (f : flat xty) : flat reader :=
  match f with
  | FlStruct opt fs => FlStruct opt (map (map_field (fun x => (xcontent true x, absent_field x))) fs)
  | FlMap x => FlMap (xcontent false x, absent_field x)
  end.
Definition flat_strict (f : flat xty) : flat how :=
  match f with
  | FlStruct opt fs => FlStruct opt (map (map_field (strict true)) fs)
  | FlMap x => FlMap (strict false x)
  end.
Definition flat_copied (f : flat xty) : Prop :=
  match f with FlStruct _ fs => Forall (fun f => x_copied (f_type f)) fs | FlMap x => x_copied x end.
Definition flat_apart (f : flat xty) : Prop :=
  match f with
  | FlStruct _ fs => NoDup (all_names fs) /\ all (map (fun f => x_apart (f_type f)) fs)
  | FlMap x => x_apart x
  end.

Lemma copied_rest (l : dict) rest :
  Forall2 (fun (kv : ustr * value) (kc : ustr * content) => fst kc = fst kv /\ @Ok error content (pure (snd kv)) = Ok (snd kc)) l rest <-> rest = as_copied l.
Proof.
  revert rest. induction l as [|kv l IH]; intros rest; split; intros H.
  - inversion H. reflexivity.
  - subst. constructor.
  - inversion H as [|? [k c] ? r [E Q] H']; subst. cbn in E, Q. injection Q as <-. subst k. apply IH in H'. subst. reflexivity.
  - subst rest. constructor; [auto|]. apply IH. reflexivity.
Qed.

Lemma flat_struct_read (fs : list (field xty)) g (d : dict) :
  Forall (fun f => x_copied (f_type f)) fs -> NoDup (all_names fs) -> all (map (fun f => x_apart (f_type f)) fs) ->
  wf (VDict g d) -> narrow_only (VDict g d) ->
  exists r d', take_fields (map (map_field (xcontent true)) fs) (as_copied d) [] = (r, as_copied d') /\
    leaves (map (map_field (strict true)) fs) d d' /\
    forall zs, res_bind r (Content.complete (map (map_field absent_field) fs)) = Ok zs <-> by_names (map (map_field (strict true)) fs) d zs.
Proof.
  intros IH A1 A2 W N. rewrite Forall_forall in IH.
  assert (R : forall f kv, In f fs -> In kv d -> In (fst kv) (f_names f) ->
     forall y, xcontent true (f_type f) (pure (snd kv)) = Ok y <-> snd (strict true (f_type f)) (snd kv) y).
  { intros f [k x] I J _ y. cbn [snd]. apply (IH f I (all_at _ _ _ A2 I)); [eapply wf_entry; eauto|eapply narrow_dict; eauto]. }
  destruct (taken_out fs (xcontent true) (strict true) (fun kv => pure (snd kv)) A1 d (wf_nodup _ _ W) R) as (r & d' & T & L & S & Wo).
  exists r, d'. split; [exact T|]. split; [exact L|]. intros zs.
  pose proof (struct_read fs (xcontent true) (strict true) absent_field (fun kv => pure (snd kv)) d A1 (wf_nodup _ _ W) R
    (fun f _ _ y => absent_ok (f_type f) (f_name f) y) (fun _ e => e) false (Some Ok)) as SR. split.
  - intros H. apply res_bind_ok in H. destruct H as (s & -> & H). apply take_is_read in T.
    apply (SR (as_copied d') zs). exists s. auto.
  - intros B. destruct (proj2 (SR (as_copied (without (all_names fs) d)) zs)) as (s & Q1 & Q2).
    + split; [exact B|]. unfold copies. apply copied_rest. reflexivity.
    + apply take_is_read in Q1. unfold as_copied in *. rewrite T in Q1. injection Q1 as -> _. exact Q2.
Qed.

Lemma flats_read (fls : list (ustr * flat xty)) g : Forall (fun nf => flat_copied (snd nf)) fls ->
  Forall (fun nf => flat_apart (snd nf)) fls ->
  forall d ys restc, wf (VDict g d) -> narrow_only (VDict g d) ->
  read_flats (map (fun nf => (fst nf, flat_reader (snd nf))) fls) (as_copied d) = Ok (ys, restc) <->
  exists rest, restc = as_copied rest /\ from_rest (map (fun nf => (fst nf, flat_strict (snd nf))) fls) d ys rest.
Proof.
  induction 1 as [|[n f] fls IHf _ IH]; intros A d ys restc W N; cbn [map read_flats from_rest fst snd].
  { split.
    - intros [= <- <-]. exists d. auto.
    - intros (rest & -> & H). destruct ys; [subst; reflexivity|destruct H]. }
  inversion A as [|? ? A1 A2]; subst. cbn [snd] in A1, IHf. specialize (IH A2).
  destruct f as [opt fs|x]; cbn [flat_reader flat_strict flat_copied flat_apart] in *.
  - destruct A1 as [A1 A1']. destruct (flat_struct_read fs g d IHf A1 A1' W N) as (r & d' & T & L & Z).
    rewrite !map_map. change (fun x : field xty => map_field fst (map_field (fun x0 => (xcontent true x0, absent_field x0)) x)) with (map_field (xcontent true)).
    change (fun x : field xty => map_field snd (map_field (fun x0 => (xcontent true x0, absent_field x0)) x)) with (map_field absent_field).
    rewrite T. assert (W' := wf_sub _ _ _ W (leaves_sub _ _ _ L)). assert (N' := narrow_sub _ _ _ N (leaves_sub _ _ _ L)).
    rewrite res_bind_ok.
    assert (Y : forall y, (if opt then Ok (match res_map EVStruct (res_bind r (Content.complete (map (map_field absent_field) fs))) with
                                          | Ok y => EVSome y | Err _ => EVNone end)
                           else res_map EVStruct (res_bind r (Content.complete (map (map_field absent_field) fs)))) = Ok y <->
      (if opt
       then (exists zs, by_names (map (map_field (strict true)) fs) d zs /\ y = EVSome (EVStruct zs)) \/
            ((forall zs, ~ by_names (map (map_field (strict true)) fs) d zs) /\ y = EVNone)
       else exists zs, by_names (map (map_field (strict true)) fs) d zs /\ y = EVStruct zs)).
    { intros y. destruct opt.
      - destruct (res_bind r (Content.complete (map (map_field absent_field) fs))) as [zs|e] eqn:E; cbn [res_map].
        + pose proof (proj1 (Z zs) eq_refl) as B. split.
          * intros [= <-]. left. eauto.
          * intros [(zs' & B' & ->)|[B' _]]; [|destruct (B' _ B)]. apply Z in B'. injection B' as ->. reflexivity.
        + split.
          * intros [= <-]. right. split; [|reflexivity]. intros zs B. apply Z in B. discriminate.
          * intros [(zs' & B' & _)|[_ ->]]; [apply Z in B'; discriminate|reflexivity].
      - rewrite res_map_ok. split; intros (zs & B & ->); exists zs; (split; [apply Z; exact B|reflexivity]). }
    split.
    + intros (y & H1 & H2). apply Y in H1. apply res_map_ok in H2. destruct H2 as ([ys' r'] & H2 & E). injection E as -> ->.
      cbn [fst snd]. apply (IH d' ys' r' W' N') in H2. destruct H2 as (rest & -> & F). exists rest. split; [reflexivity|].
      split; [reflexivity|]. split; [exact H1|]. exists d'. auto.
    + intros (rest & -> & F). destruct ys as [|[n' y] ys]; [destruct F|]. destruct F as (-> & H1 & d2 & L2 & F).
      rewrite (leaves_fun fs (strict true) d d2 d' L2 L) in F.
      exists y. split; [apply Y; exact H1|]. apply res_map_ok. exists (ys, as_copied rest). split; [|reflexivity].
      apply (IH d' ys _ W' N'). eauto.
  - rewrite res_bind_ok. cbn [fst snd].
    assert (Y : forall y, res_map (fun l => EVMap (collect l))
        (contents (fun e => res_map (pair (fst e)) (xcontent false x (snd e))) (as_copied d)) = Ok y <->
      exists zs, Forall2 (fun kv ky => fst ky = fst kv /\ xstrictly false x (snd kv) (snd ky)) d zs /\ y = EVMap zs).
    { intros y. rewrite res_map_ok.
      assert (E : forall zs, contents (fun e => res_map (pair (fst e)) (xcontent false x (snd e))) (as_copied d) = Ok zs <->
        Forall2 (fun kv ky => fst ky = fst kv /\ xstrictly false x (snd kv) (snd ky)) d zs).
      { intros zs. apply entries_read. intros k v z I. apply (IHf A1); [eapply wf_entry; eauto|eapply narrow_dict; eauto]. }
      assert (C : forall zs, Forall2 (fun kv ky => fst ky = fst kv /\ xstrictly false x (snd kv) (snd ky)) d zs -> collect zs = zs).
      { intros zs F. apply collect_sorted. eapply sorted_same_keys; [eapply Forall2_keys; exact F|]. apply wf_VDict in W. apply W. }
      split.
      - intros (zs & H & ->). apply E in H. exists zs. split; [exact H|]. rewrite (C zs H). reflexivity.
      - intros (zs & H & ->). exists zs. split; [apply E; exact H|]. rewrite (C zs H). reflexivity. }
    split.
    + intros (y & H1 & H2). apply Y in H1. apply res_map_ok in H2. destruct H2 as ([ys' r'] & H2 & E). injection E as -> ->.
      cbn [fst snd]. apply (IH d ys' r' W N) in H2. destruct H2 as (rest & -> & F). exists rest. auto.
    + intros (rest & -> & F). destruct ys as [|[n' y] ys]; [destruct F|]. destruct F as (-> & H1 & F).
      exists y. split; [apply Y; exact H1|]. apply res_map_ok. exists (ys, as_copied rest). split; [|reflexivity].
      apply (IH d ys _ W N). eauto.
Qed.

(** A struct from the entries of a dictionary. *)
Lemma struct_from_dict {A} (fs : list (field xty)) (fls : list (ustr * flat xty)) (h : xty -> A -> res error dval)
  (w : xty -> how) (e : ustr * value -> A) ann deny copy g d y :
  NoDup (all_names fs) -> Forall (fun nf => flat_copied (snd nf)) fls -> Forall (fun nf => flat_apart (snd nf)) fls ->
  wf (VDict g d) ->
  (forall f kv, In f fs -> In kv d -> forall y, h (f_type f) (e kv) = Ok y <-> snd (w (f_type f)) (snd kv) y) ->
  (forall x, fst (w x) = x_optional x) ->
  (forall kv c, In kv d -> copy (e kv) = Ok c <-> narrow_only (snd kv) /\ c = pure (snd kv)) ->
  read_struct ann deny copy (map (map_field h) fs) (map (map_field absent_field) fs)
    (map (fun nf => (fst nf, flat_reader (snd nf))) fls) (map (fun kv => (fst kv, e kv)) d) = Ok y <->
  (fls <> [] -> forall k x, In (k, x) d -> ~ In k (all_names fs) -> narrow_only x) /\
  from_dict deny (map (map_field w) fs) (map (fun nf => (fst nf, flat_strict (snd nf))) fls) d y.
Proof.
  intros A1 IHl Al W R O C. unfold read_struct, from_dict. rewrite all_names_map.
  set (other := match map (fun nf => (fst nf, flat_reader (snd nf))) fls with [] => None | _ => Some copy end).
  pose proof (struct_read fs h w absent_field e d A1 (wf_nodup _ _ W) (fun f kv I J _ => R f kv I J)
    (fun f _ _ y => eq_ind_r (fun P => _ <-> P /\ _) (absent_ok (f_type f) (f_name f) y) (O (f_type f))) ann deny other) as SR.
  rewrite res_bind_ok. destruct fls as [|nf fls].
  - cbn [map read_flats from_rest] in *. subst other. cbn [copies] in SR. split.
    + intros ([s rest] & H1 & H2). cbn [fst snd] in H2. apply res_bind_ok in H2. destruct H2 as (own & H2 & H3).
      destruct (proj1 (SR rest own)) as [B [-> Dn]]; [eauto|]. cbn [res_bind] in H3. injection H3 as <-. cbn [fst].
      split; [congruence|]. exists own, [], (without (all_names fs) d). auto.
    + intros (_ & own & others & rest & B & F & Dn & ->). destruct others; [|destruct F]. subst rest.
      destruct (proj2 (SR [] own)) as (s & H1 & H2); [split; [exact B|split; [reflexivity|exact Dn]]|].
      exists (s, []). split; [exact H1|]. cbn [fst snd]. apply res_bind_ok. exists own. split; [exact H2|reflexivity].
  - set (fl := nf :: fls) in *. assert (Oth : other = Some copy) by (subst other fl; reflexivity). clearbody other. subst other.
    cbn [copies] in SR.
    assert (Cp : forall rest, Forall2 (fun kv kc => fst kc = fst kv /\ copy (e kv) = Ok (snd kc)) (without (all_names fs) d) rest <->
      (forall k x, In (k, x) d -> ~ In k (all_names fs) -> narrow_only x) /\ rest = as_copied (without (all_names fs) d)).
    { assert (Aux : forall l, incl l d -> forall rest, Forall2 (fun kv kc => fst kc = fst kv /\ copy (e kv) = Ok (snd kc)) l rest <->
        (forall k x, In (k, x) l -> narrow_only x) /\ rest = as_copied l).
      { induction l as [|[k x] l IH]; intros Inc rest.
        - split; [intros H; inversion H; split; [intros ? ? []|reflexivity]|intros [_ ->]; constructor].
        - assert (Inc' : incl l d) by (intros z Iz; apply Inc; right; exact Iz).
          assert (Ik : In (k, x) d) by (apply Inc; left; reflexivity). split.
          + intros H. inversion H as [|? [k' c] ? r [E Q] H']; subst. cbn [fst snd] in E, Q. subst k'.
            apply (C (k, x)) in Q; [|exact Ik]. destruct Q as [Nx ->]. apply (IH Inc') in H'. destruct H' as [H' ->]. split; [|reflexivity].
            intros k' x' [Q|I']; [injection Q as <- <-; exact Nx|eauto].
          + intros [H ->]. constructor; [split; [reflexivity|]|apply (IH Inc'); split; [|reflexivity]].
            * cbn [fst snd]. apply (C (k, x) _ Ik). split; [apply (H k x); left; reflexivity|reflexivity].
            * intros k' x' I'. apply (H k' x'). right. exact I'. }
      intros rest. rewrite Aux.
      - split; intros [H ->]; (split; [|reflexivity]).
        + intros k x I K. apply (H k x). apply in_without. auto.
        + intros k x I. apply in_without in I. apply (H k x); tauto.
      - intros z I. eapply sub_in; [apply without_sub|exact I]. }
    assert (Wr := wf_sub _ _ _ W (without_sub (all_names fs) d)).
    assert (Fin : forall own (yr : list (ustr * dval) * list (ustr * content)) z,
      match map (fun nf => (fst nf, flat_reader (snd nf))) fl, deny, snd yr with
      | _ :: _, true, (k, _) :: _ => @Err error dval (err_msg (lit "unknown field `" ++ k ++ lit "`"))
      | _, _, _ => Ok (EVStruct (own ++ fst yr))
      end = Ok z <-> (deny = true -> snd yr = []) /\ z = EVStruct (own ++ fst yr)).
    { intros own [ys restc] z. subst fl. cbn [map fst snd]. destruct deny, restc as [|[k c] restc]; split; intros H;
        try discriminate H; try (injection H as <-; split; [auto; discriminate|reflexivity]);
        try (destruct H as [H ->]; try reflexivity; discriminate (H eq_refl)). }
    split.
    + intros ([s rest] & H1 & H2). cbn [fst snd] in H2. apply res_bind_ok in H2. destruct H2 as (own & H2 & H3).
      destruct (proj1 (SR rest own)) as [B Q]; [eauto|]. apply Cp in Q. destruct Q as [Nr ->].
      apply res_bind_ok in H3. destruct H3 as ([ys restc] & H3 & H4). apply Fin in H4. cbn [fst snd] in H4. destruct H4 as [Dn ->].
      assert (Nw : narrow_only (VDict g (without (all_names fs) d))).
      { cbn. apply BlameProofs.all_Forall, Forall_forall. intros [k x] I. apply in_without in I. apply (Nr k x); tauto. }
      apply (flats_read fl g IHl Al _ ys restc Wr Nw) in H3. destruct H3 as (rest & -> & F).
      split; [intros _; exact Nr|]. exists own, ys, rest. split; [exact B|]. split; [exact F|]. split; [|reflexivity].
      intros T. specialize (Dn T). apply map_eq_nil in Dn. exact Dn.
    + intros (Nr & own & ys & rest & B & F & Dn & ->). specialize (Nr ltac:(subst fl; discriminate)).
      assert (Nw : narrow_only (VDict g (without (all_names fs) d))).
      { cbn. apply BlameProofs.all_Forall, Forall_forall. intros [k x] I. apply in_without in I. apply (Nr k x); tauto. }
      destruct (proj2 (SR (as_copied (without (all_names fs) d)) own)) as (s & H1 & H2).
      { split; [exact B|]. apply Cp. auto. }
      exists (s, as_copied (without (all_names fs) d)). split; [exact H1|]. cbn [fst snd]. apply res_bind_ok. exists own.
      split; [exact H2|]. apply res_bind_ok. exists (ys, as_copied rest). split.
      * apply (flats_read fl g IHl Al _ ys _ Wr Nw). eauto.
      * apply Fin. cbn [fst snd]. split; [|reflexivity]. intros T. rewrite (Dn T). reflexivity.
Qed.

Lemma first_fitting_ok ident (rs : list (ustr * (value -> dval -> Prop))) (hs : list (ustr * (content -> res error dval))) v y :
  Forall2 (fun h r => fst h = fst r /\ forall z, snd h (pure v) = Ok z <-> snd r v z) hs rs ->
  first_fitting ident hs (pure v) = Ok y <-> exists n z, first_of rs v n z /\ y = EVVariant n (ShNew z).
Proof.
  unfold first_of. induction 1 as [|[n h] [n' r] hs rs [E H] _ IH]; cbn [first_fitting].
  - split; [discriminate|]. intros (n & z & (pre & r & post & Q & _) & _). destruct pre; discriminate Q.
  - cbn [fst snd] in E, H. subst n'. destruct (h (pure v)) as [z|e] eqn:Hh.
    + pose proof (proj1 (H z) eq_refl) as Hr. split.
      * intros [= <-]. exists n, z. split; [|reflexivity]. exists [], r, rs. split; [reflexivity|]. split; [exact Hr|intros ? ? ? []].
      * intros (n2 & z2 & (pre & r2 & post & Q & R & Non) & ->). destruct pre as [|p pre].
        -- injection Q as <- <- <-. apply H in R. congruence.
        -- injection Q as <- Q. destruct (Non n r z (or_introl eq_refl) Hr).
    + rewrite IH. split; intros (n2 & z2 & (pre & r2 & post & Q & R & Non) & ->); exists n2, z2; (split; [|reflexivity]).
      * exists ((n, r) :: pre), r2, post. split; [rewrite Q; reflexivity|]. split; [exact R|].
        intros n3 r3 z3 [Q3|I3] R3; [injection Q3 as <- <-; apply H in R3; congruence|exact (Non n3 r3 z3 I3 R3)].
      * destruct pre as [|p pre]; [injection Q as <- <- <-; apply H in R; congruence|]. injection Q as <- Q.
        exists pre, r2, post. split; [exact Q|]. split; [exact R|]. intros n3 r3 z3 I3. apply (Non n3 r3 z3). right. exact I3.
Qed.

Lemma variants_copied vs v : Forall (fun nv => x_copied (snd nv)) vs -> all (map (fun nv => x_apart (snd nv)) vs) ->
  wf v -> narrow_only v ->
  Forall2 (fun (h : ustr * (content -> res error dval)) (r : ustr * (value -> dval -> Prop)) =>
             fst h = fst r /\ forall z, snd h (pure v) = Ok z <-> snd r v z)
    (map (fun nv => (fst nv, xcontent false (snd nv))) vs) (map (fun nv => (fst nv, xstrictly false (snd nv))) vs).
Proof.
  intros IH A W N. rewrite BlameProofs.all_Forall in A. induction IH as [|nv vs H _ IH]; inversion A; subst; constructor; auto.
  split; [reflexivity|]. intros z. apply H; assumption.
Qed.

Theorem x_copy_read x : x_copied x.
Proof.
  induction x as [t|x IHx|x IHx|x IHx|i d fs fls IHfs IHfls|i vs IHvs] using xty_ind'; intros A o v y W N.
  - apply copy_read; assumption.
  - cbn [xcontent xstrictly]. destruct (empty_or_not v) as [E|E].
    + rewrite option_content by exact E. split; [intros [= <-]; left; auto|intros [[_ ->]|[Q _]]; [reflexivity|contradiction]].
    + rewrite option_content_not by exact E. rewrite res_map_ok. split.
      * intros (z & H & ->). right. split; [exact E|]. exists z. split; [apply (IHx A); assumption|reflexivity].
      * intros [[Q _]|[_ (z & H & ->)]]; [contradiction|]. exists z. split; [apply (IHx A); assumption|reflexivity].
  - cbn [xcontent xstrictly]. apply seq_content; [|exact W|exact N]. intros z u Wz Nz. apply (IHx A); assumption.
  - cbn [xcontent xstrictly]. apply map_content; [|exact W|exact N]. intros z u Wz Nz. apply (IHx A); assumption.
  - cbn [x_apart] in A. destruct A as (A1 & A2 & A3). rewrite BlameProofs.all_Forall in A3.
    change (xstrictly o (XStruct i d fs fls) v y) with
      ((exists g d0, v = VDict g d0 /\ from_dict d (map (map_field (strict o)) fs) (map (fun nf => (fst nf, flat_strict (snd nf))) fls) d0 y) \/
       (exists g l ys, v = VArray g l /\ fls = [] /\ by_position true (map (map_field (strict o)) fs) l ys /\ y = EVStruct ys)).
    change (xcontent o (XStruct i d fs fls) (pure v)) with
      (match pure v with
       | CMap l => read_struct (fun _ e => e) d Ok (map (map_field (xcontent o)) fs) (map (map_field absent_field) fs)
                     (map (fun nf => (fst nf, flat_reader (snd nf))) fls) l
       | CSeq l => match map (fun nf : ustr * flat xty => (fst nf, flat_reader (snd nf))) fls with
                   | [] => res_map EVStruct (whole_seq (map (map_field (xcontent o)) fs) (lit "struct " ++ i) l)
                   | _ => invalid_type ASeq (lit "struct " ++ i)
                   end
       | _ => invalid_type (unexpected (pure v)) (lit "struct " ++ i)
       end).
    rewrite Forall_forall in IHfs.
    assert (R : forall f x z, In f fs -> wf x -> narrow_only x -> xcontent o (f_type f) (pure x) = Ok z <-> snd (strict o (f_type f)) x z).
    { intros f x z I Wx Nx. apply (IHfs f I (all_at _ _ _ A2 I)); assumption. }
    assert (SD : forall g d0, v = VDict g d0 -> read_struct (fun _ e => e) d Ok (map (map_field (xcontent o)) fs) (map (map_field absent_field) fs)
                     (map (fun nf => (fst nf, flat_reader (snd nf))) fls) (map (fun kv => (fst kv, pure (snd kv))) d0) = Ok y <->
      from_dict d (map (map_field (strict o)) fs) (map (fun nf => (fst nf, flat_strict (snd nf))) fls) d0 y).
    { intros g d0 ->. rewrite (struct_from_dict fs fls (xcontent o) (strict o) (fun kv => pure (snd kv)) _ d Ok g d0 y A1).
      - split; [tauto|]. intros H. split; [|exact H]. intros _ k x I _. eapply narrow_dict; eauto.
      - revert IHfls. apply Forall_impl. intros [n []] H; exact H.
      - revert A3. apply Forall_impl. intros [n []] H; exact H.
      - exact W.
      - intros f [k x] I J z. cbn [snd]. apply R; [exact I|eapply wf_entry; eauto|eapply narrow_dict; eauto].
      - reflexivity.
      - intros [k x] c I. cbn [snd]. split; [intros [= <-]; split; [eapply narrow_dict; eauto|reflexivity]|intros [_ ->]; reflexivity]. }
    split.
    + intros H. every_value v; cbn [pure pure_num] in H; try discriminate H.
      * left. eexists _, _. split; [reflexivity|]. eapply SD; [reflexivity|exact H].
      * destruct fls as [|nf fls]; [|discriminate H]. cbn [map] in H. apply res_map_ok in H. destruct H as (ys & H & ->).
        right. exists t, l, ys. split; [reflexivity|]. split; [reflexivity|]. split; [|reflexivity].
        eapply (whole_seq_ok (xcontent o) (strict o)); [|exact H]. intros f x z I J. apply R; [exact I|eapply wf_element; eauto|eapply narrow_array; eauto].
    + intros [(g & d0 & -> & H)|(g & l & ys & -> & -> & H & ->)].
      * cbn [pure]. eapply SD; [reflexivity|exact H].
      * cbn [pure map]. apply res_map_ok. exists ys. split; [|reflexivity].
        apply (whole_seq_ok (xcontent o) (strict o)); [|exact H]. intros f x z I J. apply R; [exact I|eapply wf_element; eauto|eapply narrow_array; eauto].
  - cbn [xcontent xstrictly x_apart] in *. apply first_fitting_ok. apply variants_copied; assumption.
Qed.

(** ** From a Figment or a [Value] *)
Lemma option_of m (rec : deser -> res error dval) R v y : wf v ->
  (forall v y, wf v -> (rec (mk_de m v) = Ok y <-> R v y)) ->
  de_option (mk_de m v) (option_visitor rec) = Ok y <->
  ((exists g e, v = VEmpty g e) /\ y = EVNone) \/
  (~ (exists g e, v = VEmpty g e) /\ exists x, R v x /\ y = EVSome x).
Proof.
  intros W IH.
  assert (X : visit_some (option_visitor rec) (mk_de m v) = Ok y <-> exists x, R v x /\ y = EVSome x).
  { unfold visit_some. cbn [v_some option_visitor]. rewrite res_map_ok.
    split; intros (x & H & ->); exists x; (split; [apply IH; assumption|reflexivity]). }
  assert (D : (exists g e, v = VEmpty g e) \/ ~ (exists g e, v = VEmpty g e) /\
              (de_option (mk_de m v) (option_visitor rec) = Ok y <-> visit_some (option_visitor rec) (mk_de m v) = Ok y)).
  { destruct v as [g s|g c|g b|g n|g e|g d|g l];
      try (right; split; [intros (? & ? & H); discriminate H|
             destruct m; cbn [mk_de de_option]; [apply settle_ok|reflexivity]]).
    left. eauto. }
  destruct D as [(g & e & ->)|[N D]].
  - split.
    + intros H. left. split; [eauto|]. destruct m as [i f|], e; cbn in H; congruence.
    + intros [[_ ->]|[N _]]; [|exfalso; apply N; eauto]. destruct m as [i f|], e; reflexivity.
  - rewrite D, X. split; [intros H; right; auto|]. intros [[H _]|[_ H]]; [elim (N H)|exact H].
Qed.

Definition lenient (m : mode) (x : xty) : how := (x_optional x, xgives m x).
Definition x_granted (x : xty) : Prop := x_apart x -> forall m, means m (x_optional x) (xgives m x) (xdeserialize x).

(** The visitor of a struct. *)
Definition field_error (a : entry) (e : error) : error := let '(k, t, _) := a in retagged t (prefixed k e).
Definition struct_from_map (deny : bool) (fs : list (field xty)) (fls : list (ustr * flat xty)) (l : list entry) : res error dval :=
  read_struct field_error deny (next_value deserialize_content)
    (map (map_field (fun x => next_value (xdeserialize x))) fs) (map (map_field absent_field) fs)
    (map (fun nf => (fst nf, flat_reader (snd nf))) fls) (map (fun a : entry => (fst (fst a), a)) l).
Definition struct_from_seq (exp : ustr) (fs : list (field xty)) (l : list deser) : res error dval :=
  res_map (fun yr => EVStruct (fst yr))
    (read_elements (fun n rec d => next_element rec n d) (map (map_field xdeserialize) fs) (exp ++ elements_text (length fs)) l 0%N).
Definition x_struct_visitor (i : ustr) (deny : bool) (fs : list (field xty)) : visitor dval :=
  mkVisitor (lit "struct " ++ i) None None None None None None None None None None None None None
    (Some (struct_from_seq (lit "struct " ++ i) fs)) (Some (struct_from_map deny fs [])) None.

Lemma xdeserialize_struct i deny fs fls d : xdeserialize (XStruct i deny fs fls) d =
  match fls with
  | [] => de_struct i d (x_struct_visitor i deny fs)
  | _ => de_any d (map_visitor (lit "struct " ++ i) (struct_from_map deny fs fls))
  end.
Proof. destruct fls; reflexivity. Qed.

Lemma from_map_ok m deny fs fls g d y :
  NoDup (all_names fs) -> Forall (fun nf => flat_apart (snd nf)) fls ->
  (forall f, In f fs -> means m (x_optional (f_type f)) (xgives m (f_type f)) (xdeserialize (f_type f))) ->
  wf (VDict g d) ->
  struct_from_map deny fs fls (map_access (mk_de m) d) = Ok y <->
  (fls <> [] -> forall k x, In (k, x) d -> ~ In k (all_names fs) -> narrow_only x) /\
  from_dict deny (map (map_field (lenient m)) fs) (map (fun nf => (fst nf, flat_strict (snd nf))) fls) d y.
Proof.
  intros A Al R W. unfold struct_from_map, map_access. rewrite map_map. cbn [fst].
  apply (struct_from_dict fs fls (fun x => next_value (xdeserialize x)) (lenient m)
    (fun kv => (fst kv, vtag (snd kv), mk_de m (snd kv))) field_error deny (next_value deserialize_content) g d y A).
  - apply Forall_forall. intros [n [opt fl|x]] _; cbn; [apply Forall_forall; intros f _|]; apply x_copy_read.
  - exact Al.
  - exact W.
  - intros f [k x] I J z. cbn [fst snd]. rewrite next_value_ok. apply (mn_value _ _ _ _ (R f I)). eapply wf_entry; eauto.
  - reflexivity.
  - intros [k x] c I. cbn [fst snd]. rewrite next_value_ok. destruct m; apply buffered.
Qed.

Theorem x_extraction_granted x : x_granted x.
Proof.
  induction x as [t|x IHx|x IHx|x IHx|i d fs fls IHfs IHfls|i vs IHvs] using xty_ind'; intros A m.
  - apply (extraction_granted t A).
  - constructor.
    + intros v y W. cbn [xdeserialize xgives]. apply option_of; [exact W|]. intros v' y' W'. apply (mn_value _ _ _ _ (IHx A m)). exact W'.
    + intros n y. cbn. split; [intros [= <-]; auto|intros [_ ->]; reflexivity].
  - constructor; [|intros n y; cbn; split; [discriminate|intros [[] _]]].
    intros v y W. cbn [xdeserialize xgives]. rewrite (RtProofs.any_ok m), seq_vis_ok by reflexivity. split.
    + intros (g & l & -> & H). apply res_map_ok in H. destruct H as (ys & H & ->).
      apply wf_VArray in W. eapply elements_extracted in H; [|apply (IHx A m)|exact W]. eauto 6.
    + intros (g & l & ys & -> & H & ->). exists g, l. split; [reflexivity|]. apply res_map_ok. exists ys.
      apply wf_VArray in W. split; [|reflexivity]. eapply elements_extracted; [apply (IHx A m)|exact W|exact H].
  - constructor; [|intros n y; cbn; split; [discriminate|intros [[] _]]].
    intros v y W. cbn [xdeserialize xgives]. rewrite (RtProofs.any_ok m), map_vis_ok by reflexivity. split.
    + intros (g & d & -> & H). apply res_map_ok in H. destruct H as (r & H & ->).
      pose proof W as W'. apply wf_VDict in W'. destruct W' as [S W'].
      eapply map_extracted in H; [|apply (IHx A m)|exact W'].
      destruct H as (ys & H & ->). exists g, d, ys. split; [reflexivity|]. split; [exact H|]. f_equal.
      apply collect_sorted. eapply sorted_same_keys; [eapply Forall2_keys; exact H|exact S].
    + intros (g & d & ys & -> & H & ->). exists g, d. split; [reflexivity|]. apply res_map_ok. exists ys.
      split; [|reflexivity]. apply wf_VDict in W. destruct W as [S W].
      eapply map_extracted; [apply (IHx A m)|exact W|]. exists ys. split; [exact H|].
      symmetry. apply collect_sorted. eapply sorted_same_keys; [eapply Forall2_keys; exact H|exact S].
  - cbn [x_apart] in A. destruct A as (A1 & A2 & A3). rewrite BlameProofs.all_Forall in A3. rewrite Forall_forall in IHfs.
    assert (A3' : Forall (fun nf => flat_apart (snd nf)) fls) by (revert A3; apply Forall_impl; intros [n []] H; exact H).
    assert (R : forall f, In f fs -> means m (x_optional (f_type f)) (xgives m (f_type f)) (xdeserialize (f_type f))).
    { intros f I. apply (IHfs f I (all_at _ _ _ A2 I) m). }
    constructor; [|intros n y; rewrite xdeserialize_struct; destruct fls; cbn; (split; [discriminate|intros [[] _]])].
    intros v y W. rewrite xdeserialize_struct. destruct fls as [|nf fls].
    + change (xgives m (XStruct i d fs []) v y) with (exists w, presents m i v w /\
        ((exists g d0, w = VDict g d0 /\ from_dict d (map (map_field (lenient m)) fs) [] d0 y) \/
         (exists g l ys, w = VArray g l /\ by_position false (map (map_field (lenient m)) fs) l ys /\ y = EVStruct ys))).
      destruct (presented m i v W) as (w & P & Ww & U & E). rewrite E. clear E.
      assert (V : value_visit (mk_de m) w (x_struct_visitor i d fs) = Ok y <->
        (exists g d0, w = VDict g d0 /\ from_dict d (map (map_field (lenient m)) fs) [] d0 y) \/
        (exists g l ys, w = VArray g l /\ by_position false (map (map_field (lenient m)) fs) l ys /\ y = EVStruct ys)).
      { assert (D : forall g d0, w = VDict g d0 -> struct_from_map d fs [] (map_access (mk_de m) d0) = Ok y <->
          from_dict d (map (map_field (lenient m)) fs) [] d0 y).
        { intros g d0 ->. rewrite (from_map_ok m d fs [] g d0 y A1 (Forall_nil _) R Ww). split; [tauto|]. intros H. split; [congruence|exact H]. }
        assert (L : forall g l ys, w = VArray g l ->
          (exists rest, read_elements (fun n rec d => next_element rec n d) (map (map_field xdeserialize) fs)
             ((lit "struct " ++ i) ++ elements_text (length fs)) (map (mk_de m) l) 0%N = Ok (ys, rest)) <->
          by_position false (map (map_field (lenient m)) fs) l ys).
        { intros g l ys ->.
          assert (El : forall n f x z, In f fs -> In x l -> next_element (xdeserialize (f_type f)) n (mk_de m x) = Ok z <-> snd (lenient m (f_type f)) x z).
          { intros n f x z I J. rewrite next_element_ok. apply (mn_value _ _ _ _ (R f I)). eapply wf_element; eauto. }
          split.
          - intros (rest & H). apply (elements_read xdeserialize (lenient m) (mk_de m)) in H; [|exact El]. destruct H as (l' & _ & _ & B). exact B.
          - intros B. exists (map (mk_de m) (skipn (length fs) l)). apply (elements_read xdeserialize (lenient m) (mk_de m)); [exact El|]. eauto. }
        split.
        - intros H. destruct w as [g s|g c|g b|g [[]| |]|g []|g d0|g l]; cbn [value_visit num_visit empty_visit] in H; try discriminate H.
          + left. exists g, d0. split; [reflexivity|]. apply (D g d0 eq_refl). exact H.
          + right. unfold visit_seq in H. cbn [v_seq x_struct_visitor] in H. unfold struct_from_seq in H. apply res_map_ok in H.
            destruct H as ([ys rest] & H & ->). exists g, l, ys. split; [reflexivity|]. split; [|reflexivity]. apply (L g l ys eq_refl). eauto.
        - intros [(g & d0 & -> & H)|(g & l & ys & -> & H & ->)]; cbn [value_visit].
          + unfold visit_map. cbn [v_map x_struct_visitor]. apply (D g d0 eq_refl). exact H.
          + unfold visit_seq. cbn [v_seq x_struct_visitor]. unfold struct_from_seq. apply (L g l ys eq_refl) in H. destruct H as (rest & H).
            apply res_map_ok. exists (ys, rest). auto. }
      rewrite V. split.
      * intros H. exists w. auto.
      * intros (w' & P' & H). rewrite (U w' P') in H. exact H.
    + set (fl := nf :: fls) in *.
      change (xgives m (XStruct i d fs fl) v y) with (exists g d0, v = VDict g d0 /\
        (forall k x, In (k, x) d0 -> ~ In k (all_names fs) -> narrow_only x) /\
        from_dict d (map (map_field (lenient m)) fs) (map (fun nf => (fst nf, flat_strict (snd nf))) fl) d0 y).
      rewrite (RtProofs.any_ok m). rewrite (map_vis_ok m _ (struct_from_map d fs fl)) by reflexivity. split.
      * intros (g & d0 & -> & H). exists g, d0. split; [reflexivity|]. apply (from_map_ok m d fs fl g d0 y A1 A3' R W) in H.
        destruct H as [H1 H2]. split; [apply H1; subst fl; discriminate|exact H2].
      * intros (g & d0 & -> & H1 & H2). exists g, d0. split; [reflexivity|]. apply (from_map_ok m d fs fl g d0 y A1 A3' R W). split; [intros _; exact H1|exact H2].
  - cbn [x_apart] in A. constructor; [|intros n y; cbn; split; [discriminate|intros [[] _]]].
    intros v y W. cbn [xdeserialize xgives]. rewrite res_bind_ok.
    assert (B : forall c, deserialize_content (mk_de m v) = Ok c <-> narrow_only v /\ c = pure v) by (intros c; destruct m; apply buffered).
    assert (F : narrow_only v -> first_fitting i (map (fun nv => (fst nv, xcontent false (snd nv))) vs) (pure v) = Ok y <->
      exists n z, first_of (map (fun nv => (fst nv, xstrictly false (snd nv))) vs) v n z /\ y = EVVariant n (ShNew z)).
    { intros N. apply first_fitting_ok. apply variants_copied; [|exact A|exact W|exact N]. apply Forall_forall. intros nv _. apply x_copy_read. }
    split.
    + intros (c & H1 & H2). apply B in H1. destruct H1 as [N ->]. split; [exact N|]. apply F; assumption.
    + intros [N H]. exists (pure v). split; [apply B; auto|]. apply F; assumption.
Qed.

Lemma x_granted_at x m v y : wf v -> x_apart x -> xdeserialize x (mk_de m v) = Ok y <-> xgives m x v y.
Proof. intros W A. apply (mn_value _ _ _ _ (x_extraction_granted x A m)). exact W. Qed.
