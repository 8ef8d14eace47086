(** Where the errors of structs with attributes point. *)
From Coq Require Import Ascii String ZArith NArith Bool Lia.
From Coq Require Import List.
From Verif Require Import Res BMap Str Profile Tag Num Value Metadata Err Coalesce Figment De Content Derive.
From Verif Require Import SpecValue SpecLossy SpecDe SpecMagic SpecExtract SpecTaken SpecGives SpecBuffer SpecDerive.
From Verif Require Import ValueProofs DeProofs ExtractProofs MeaningProofs GivesProofs FieldProofs ContentProofs DeriveProofs BareProofs CopyProofs.
From Verif Require BlameProofs.
Import ListNotations.

Lemma read_app {A} ann deny (other : option (A -> res error content)) fs l2 : forall l1 slots,
  read_fields ann deny other fs (l1 ++ l2) slots =
  res_bind (read_fields ann deny other fs l1 slots) (fun sc =>
    res_map (fun sc2 => (fst sc2, snd sc ++ snd sc2)) (read_fields ann deny other fs l2 (fst sc))).
Proof.
  induction l1 as [|[k a] l1 IH]; intros slots; cbn [app read_fields].
  - cbn. destruct (read_fields _ _ _ _ _ _) as [[]|]; reflexivity.
  - destruct (field_of fs k) as [f|].
    + destruct (assoc (f_name f) slots); [reflexivity|]. destruct (f_type f a); cbn; [apply IH|reflexivity].
    + destruct other as [copy|].
      * destruct (copy a) as [c|e]; cbn; [|reflexivity]. rewrite IH. destruct (read_fields _ _ _ fs l1 slots) as [[s r]|e]; cbn; [|reflexivity].
        destruct (read_fields _ _ _ fs l2 s) as [[]|]; reflexivity.
      * destruct deny; [reflexivity|apply IH].
Qed.

Lemma all_names_map {X Y} (h : X -> Y) fs : all_names (map (map_field h) fs) = all_names fs.
Proof. unfold all_names. induction fs as [|f fs IH]; [reflexivity|]. cbn [map flat_map]. rewrite IH. reflexivity. Qed.

Lemma absent_said x n : ~ x_optional x -> absent_field x n = Err (err_of_kind (KMissingField n)).
Proof.
  destruct x as [t| | | | |]; cbn [absent_field x_optional]; intros O; try reflexivity; [|tauto].
  destruct t as [|j| | | | | |t|t|ts|t|a t|nm i dn fs|i t|i ts|i|i vs| | | | | | |a b]; try reflexivity.
  - destruct j; reflexivity.
  - destruct O. exists t. reflexivity.
Qed.

Section Struct.
Context (m : mode) (deny : bool) (fs : list (field xty)) (fls : list (ustr * flat xty)).
Hypothesis A1 : NoDup (all_names fs).
Hypothesis A2 : all (map (fun f => x_apart (f_type f)) fs).

Definition given : list (field how) := map (map_field (lenient m)) fs.
Definition accepts (d : dict) : Prop :=
  match fls with
  | [] => deny = true -> without (all_names fs) d = []
  | _ => forall k x, In (k, x) d -> ~ In k (all_names fs) -> narrow_only x
  end.
Definition asks : option (entry -> res error content) :=
  match map (fun nf => (fst nf, flat_reader (snd nf))) fls with [] => None | _ => Some (next_value deserialize_content) end.
Definition reads : list (field (entry -> res error dval)) := map (map_field (fun x => next_value (xdeserialize x))) fs.
Definition at_entry (kv : ustr * value) : entry := (fst kv, vtag (snd kv), mk_de m (snd kv)).
Definition entries (d : dict) : list (ustr * entry) := map (fun kv => (fst kv, at_entry kv)) d.

Lemma given_entry f kv g (d : dict) y : In f fs -> In kv d -> wf (VDict g d) ->
  next_value (xdeserialize (f_type f)) (at_entry kv) = Ok y <-> xgives m (f_type f) (snd kv) y.
Proof.
  intros I J W. destruct kv as [k x]. unfold at_entry. cbn [fst snd]. rewrite next_value_ok. apply x_granted_at; [eapply wf_entry; eauto|].
  exact (all_at _ _ _ A2 I).
Qed.

Lemma copy_entry kv c : next_value deserialize_content (at_entry kv) = Ok c <-> narrow_only (snd kv) /\ c = pure (snd kv).
Proof. destruct kv as [k x]. unfold at_entry. cbn [fst snd]. rewrite next_value_ok. destruct m; apply buffered. Qed.

(** Entries that are all right are read. *)
Lemma reading (d : dict) g : wf (VDict g d) -> readable given d -> accepts d ->
  exists s rest, read_fields field_error deny asks reads (entries d) [] = Ok (s, rest) /\ others_read fs deny asks (entries d) rest /\
    forall n, (forall k x f, In (k, x) d -> field_of fs k = Some f -> f_name f <> n) -> assoc n s = None.
Proof.
  intros W R C.
  assert (O : exists rest, others_read fs deny asks (entries d) rest).
  { unfold others_read, asks, accepts in *. destruct fls as [|nf r]; cbn [map].
    - exists []. split; [reflexivity|]. intros D. specialize (C D). unfold entries. rewrite strangers_entries, C. reflexivity.
    - unfold entries. rewrite strangers_entries. exists (map (fun kv => (fst kv, pure (snd kv))) (without (all_names fs) d)).
      assert (forall kv, In kv (without (all_names fs) d) -> narrow_only (snd kv)).
      { intros [k x] I. apply in_without in I. destruct I as [I N]. exact (C k x I N). }
      induction (without (all_names fs) d) as [|kv l IH]; cbn; constructor.
      + split; [reflexivity|]. cbn. apply copy_entry. split; [apply H; left; reflexivity|reflexivity].
      + apply IH. intros. apply H. right. assumption. }
  destruct O as (rest & O).
  assert (N : NoDup (map fst (entries d))) by (unfold entries; rewrite entries_keys; eapply wf_nodup; exact W).
  destruct (read_able fs (fun x => next_value (xdeserialize x)) field_error deny asks A1 (entries d) N [] rest) as (s & H); [|exact O|].
  - intros k a f I F. unfold entries in I. apply entries_in in I. destruct I as (x & I & ->).
    destruct (field_of_some _ _ _ F) as [Ff Fk]. split; [reflexivity|].
    destruct (R (map_field (lenient m) f) k x) as [(y & Y) U]; [apply in_map, Ff|exact Fk|exact I|]. split.
    + exists y. eapply (given_entry f (k, x) g d y); eauto.
    + intros k' a' I' F'. apply entries_in in I'. destruct I' as (x' & I' & ->). destruct (field_of_some _ _ _ F') as [_ Fk'].
      exact (U k' x' Fk' I').
  - exists s, rest. split; [exact H|]. split; [exact O|]. intros n Hn.
    apply (read_sound fs (fun x => next_value (xdeserialize x)) field_error deny asks A1) in H; [|exact N].
    destruct H as (_ & H2 & _). rewrite H2; [reflexivity|]. intros k a f I F. apply entries_in in I. destruct I as (x & I & ->). eauto.
Qed.

Lemma struct_map (d : dict) : struct_from_map deny fs fls (map_access (mk_de m) d) =
  res_bind (read_fields field_error deny asks reads (entries d) []) (fun sc =>
  res_bind (complete (map (map_field absent_field) fs) (fst sc)) (fun own =>
  res_bind (read_flats (map (fun nf => (fst nf, flat_reader (snd nf))) fls) (snd sc)) (fun yr =>
    match map (fun nf => (fst nf, flat_reader (snd nf))) fls, deny, snd yr with
    | _ :: _, true, (k, _) :: _ => Err (err_msg (lit "unknown field `" ++ k ++ lit "`"))
    | _, _, _ => Ok (EVStruct (own ++ fst yr))
    end))).
Proof. unfold struct_from_map, map_access. rewrite map_map. reflexivity. Qed.

(** The first entry of a field that cannot be read is what the error is about. *)
Lemma first_wrong g pre k x post f e : wf (VDict g (pre ++ (k, x) :: post)) -> readable given pre -> accepts pre ->
  In f fs -> In k (f_names f) -> (forall k' x', In k' (f_names f) -> ~ In (k', x') pre) ->
  xdeserialize (f_type f) (mk_de m x) = Err e ->
  struct_from_map deny fs fls (map_access (mk_de m) (pre ++ (k, x) :: post)) = Err (retagged (vtag x) (prefixed k e)).
Proof.
  intros W R C I K U E. rewrite struct_map. unfold entries. rewrite map_app. fold (entries pre).
  assert (W' : wf (VDict g pre)).
  { revert W. rewrite !wf_VDict. intros [S F]. split.
    - clear - S. apply (sub_sorted pre (pre ++ (k, x) :: post)); [|exact S].
      rewrite <- (app_nil_r pre) at 1. apply sub_app; [apply sub_refl|]. clear. generalize ((k, x) :: post) as l. induction l; constructor; assumption.
    - apply Forall_app in F. apply F. }
  rewrite read_app. destruct (reading pre g W' R C) as (s & rest & -> & _ & H). cbn [res_bind fst].
  cbn [map read_fields fst]. unfold reads. rewrite field_of_map, (name_owner fs k f A1 I K). cbn [option_map map_field f_name f_type].
  rewrite H.
  - cbn [at_entry fst snd next_value]. rewrite E. reflexivity.
  - intros k' x' f' I' F' Ef. destruct (field_of_some _ _ _ F') as [F1 F2].
    assert (f' = f). { apply (one_owner fs f' f (f_name f) A1 F1 I); [rewrite <- Ef; apply own_name|apply own_name]. }
    subst f'. exact (U k' x' F2 I').
Qed.

(** If the struct's own fields are all right, the error has no place of its own. *)
Lemma rest_wrong g d own e : wf (VDict g d) -> by_names given d own -> accepts d ->
  struct_from_map deny fs fls (map_access (mk_de m) d) = Err e -> exists k, e = err_of_kind k.
Proof.
  intros W B C. rewrite struct_map.
  assert (Rd : forall f kv, In f fs -> In kv d -> In (fst kv) (f_names f) ->
    forall y, next_value (xdeserialize (f_type f)) (at_entry kv) = Ok y <-> snd (lenient m (f_type f)) (snd kv) y).
  { intros f kv I J _ y. eapply given_entry; eauto. }
  assert (Ms : forall f, In f fs -> f_default f = None ->
    forall y, absent_field (f_type f) (f_name f) = Ok y <-> fst (lenient m (f_type f)) /\ y = EVNone).
  { intros f _ _ y. apply absent_ok. }
  destruct (reading d g W) as (s & rest & H & O & _); [|exact C|].
  { eapply by_names_readable; [exact (wf_nodup _ _ W)|exact B]. }
  assert (S := struct_read fs (fun x => next_value (xdeserialize x)) (lenient m) absent_field at_entry d A1 (wf_nodup _ _ W)
    Rd Ms field_error deny asks rest own).
  destruct S as [_ S]. destruct S as (s' & S1 & S2).
  { split; [exact B|]. apply copies_others. exact O. }
  unfold entries in H. unfold reads in *. rewrite S1 in H. injection H as <-. unfold entries. rewrite S1. cbn [res_bind fst snd].
  rewrite S2. cbn [res_bind].
  assert (Bf := bare_all_flats fls rest). destruct (read_flats _ rest) as [[ys' r]|e']; cbn [res_bind] in *.
  - destruct (map _ fls); [discriminate|]. destruct deny; [|discriminate]. cbn [snd]. destruct r as [|[k c] r]; [discriminate|].
    intros [= <-]. eexists. reflexivity.
  - intros [= <-]. exact Bf.
Qed.

(** A prefix of a dictionary is one. *)
Lemma wf_prefix g pre l : wf (VDict g (pre ++ l)) -> wf (VDict g pre).
Proof.
  rewrite !wf_VDict. intros [S F]. split; [|apply Forall_app in F; apply F].
  apply (sub_sorted pre (pre ++ l)); [|exact S]. rewrite <- (app_nil_r pre) at 1. apply sub_app; [apply sub_refl|].
  clear. induction l; constructor; assumption.
Qed.

(** The first entry nobody has a name for, if that is refused. *)
Lemma first_unknown g pre k x post : wf (VDict g (pre ++ (k, x) :: post)) -> readable given pre -> accepts pre ->
  fls = [] -> deny = true -> ~ In k (all_names fs) ->
  struct_from_map deny fs fls (map_access (mk_de m) (pre ++ (k, x) :: post)) =
  Err (retagged (vtag x) (prefixed k (err_of_kind (KUnknownField k (all_names fs))))).
Proof.
  intros W R C Fl Dn K. rewrite struct_map. unfold entries. rewrite map_app. fold (entries pre).
  rewrite read_app. destruct (reading pre g (wf_prefix _ _ _ W) R C) as (s & rest & -> & _ & _). cbn [res_bind fst].
  cbn [map read_fields fst]. unfold reads. rewrite field_of_map, (proj2 (field_of_none fs k) K). cbn [option_map].
  unfold asks. rewrite Fl, Dn. cbn [map]. rewrite all_names_map. reflexivity.
Qed.

(** The second entry of a field. *)
Lemma second_name g pre k x post f k' x' : wf (VDict g (pre ++ (k, x) :: post)) -> readable given pre -> accepts pre ->
  In f fs -> In k (f_names f) -> In k' (f_names f) -> In (k', x') pre ->
  struct_from_map deny fs fls (map_access (mk_de m) (pre ++ (k, x) :: post)) = Err (err_of_kind (KDuplicateField (f_name f))).
Proof.
  intros W R C I K K' J. rewrite struct_map. unfold entries. rewrite map_app. fold (entries pre).
  assert (W' := wf_prefix _ _ _ W).
  rewrite read_app. destruct (reading pre g W' R C) as (s & rest & H & _ & _). rewrite H. cbn [res_bind fst].
  cbn [map read_fields fst]. unfold reads. rewrite field_of_map, (name_owner fs k f A1 I K). cbn [option_map map_field f_name f_type].
  apply (read_sound fs (fun x => next_value (xdeserialize x)) field_error deny asks A1) in H.
  2: { unfold entries. rewrite entries_keys. eapply wf_nodup. exact W'. }
  destruct H as (H1 & _ & _). destruct (H1 k' (at_entry (k', x')) f) as (_ & (y & _ & Hy) & _).
  - apply entries_in. eauto.
  - apply name_owner; auto.
  - rewrite Hy. reflexivity.
Qed.

(** The first field that is missing. *)
Lemma first_missing g d fa f fb : wf (VDict g d) -> readable given d -> accepts d ->
  fs = fa ++ f :: fb ->
  (forall f', In f' fa -> not_there f' d -> f_default f' <> None \/ x_optional (f_type f')) ->
  not_there f d -> f_default f = None -> ~ x_optional (f_type f) ->
  struct_from_map deny fs fls (map_access (mk_de m) d) = Err (err_of_kind (KMissingField (f_name f))).
Proof.
  intros W R C E Fa Nt Df Op. rewrite struct_map.
  destruct (reading d g W R C) as (s & rest & H & _ & Hn). rewrite H. cbn [res_bind fst].
  apply (read_sound fs (fun x => next_value (xdeserialize x)) field_error deny asks A1) in H.
  2: { unfold entries. rewrite entries_keys. eapply wf_nodup. exact W. }
  destruct H as (H1 & _ & _).
  assert (There : forall f', In f' fs -> not_there f' d \/ exists y, assoc (f_name f') s = Some y).
  { intros f' I'. destruct (present_or_not f' d) as [N'|(k & x & K & I)]; [left; exact N'|right].
    destruct (H1 k (at_entry (k, x)) f') as (_ & (y & _ & Hy) & _); [apply entries_in; eauto|apply name_owner; auto|eauto]. }
  assert (Co : complete (map (map_field absent_field) fs) s = Err (err_of_kind (KMissingField (f_name f)))).
  { clear H1. assert (Inc : incl (fa ++ f :: fb) fs) by (rewrite E; intros z Hz; exact Hz).
    rewrite E at 1. clear E. induction fa as [|f' fa' IH]; cbn [app map complete map_field f_name f_default f_type].
    - rewrite Hn.
      + rewrite Df. rewrite absent_said by exact Op. reflexivity.
      + intros k x f' I F Ef. destruct (field_of_some _ _ _ F) as [F1 F2].
        assert (f' = f). { apply (one_owner fs f' f (f_name f) A1 F1); [apply Inc; left; reflexivity|rewrite <- Ef; apply own_name|apply own_name]. }
        subst f'. exact (Nt k x F2 I).
    - assert (exists y, match assoc (f_name f') s with
                        | Some y => Ok y
                        | None => match f_default f' with Some y => Ok y | None => absent_field (f_type f') (f_name f') end
                        end = Ok y) as (y & ->).
      { destruct (There f') as [N'|(y & ->)]; [apply Inc; left; reflexivity| |eauto].
        destruct (assoc (f_name f') s); [eauto|]. destruct (Fa f' (or_introl eq_refl) N') as [D|O].
        - destruct (f_default f'); [eauto|congruence].
        - destruct (f_default f'); [eauto|]. exists EVNone. apply absent_ok. auto. }
      cbn [res_bind]. rewrite IH; [reflexivity|intros f'' I''; apply Fa; right; exact I''|intros z Hz; apply Inc; right; exact Hz]. }
  rewrite Co. reflexivity.
Qed.
End Struct.
