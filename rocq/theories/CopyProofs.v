(** A copy gives nothing that what was copied does not give. *)
From Coq Require Import Ascii String ZArith NArith Bool Lia.
From Coq Require Import List.
From Verif Require Import Res BMap Str Profile Tag Num Value Metadata Err Coalesce Figment De Content Derive.
From Verif Require Import SpecValue SpecLossy SpecDe SpecMagic SpecExtract SpecTaken SpecGives SpecBuffer SpecDerive.
From Verif Require Import ValueProofs DeProofs ContentProofs.
From Verif Require BlameProofs.
Import ListNotations.

Definition sound_copy (t : ty) : Prop := SpecDe.ordinary t -> same_copied t -> forall o v y, strictly o t v y -> extracts Exact t v y.

Lemma each_leading (ts : list ty) o : Forall sound_copy ts -> all (map SpecDe.ordinary ts) -> all (map same_copied ts) ->
  forall l ys, each (map (strictly o) ts) l ys -> leading (map (extracts Exact) ts) l ys.
Proof.
  induction 1 as [|t ts H _ IH]; intros O S l ys; cbn in *; [destruct l, ys; tauto|].
  destruct l as [|v l], ys as [|y ys]; try tauto. intros [A B]. split; [eapply H; [apply O|apply S|exact A]|].
  apply IH; [apply O|apply S|exact B].
Qed.

Definition read_by (r : ty -> value -> dval -> Prop) (f : ustr * ty) : ustr * how := (fst f, (optional (snd f), r (snd f))).
Lemma sound_names o (fs : list (ustr * ty)) : Forall (fun f => sound_copy (snd f)) fs ->
  all (map (fun f => SpecDe.ordinary (snd f)) fs) -> all (map (fun f => same_copied (snd f)) fs) ->
  forall d ys, by_name (map (read_by (strictly o)) fs) d ys -> by_name (map (read_by (extracts Exact)) fs) d ys.
Proof.
  induction 1 as [|f fs H _ IH]; intros O S d [|[n y] ys]; cbn in *; auto. intros (-> & A & B). split; [reflexivity|].
  split; [|apply IH; [apply O|apply S|exact B]]. destruct (get (fst f) d); [|exact A]. eapply H; [apply O|apply S|exact A].
Qed.
Lemma sound_elems o (fs : list (ustr * ty)) : Forall (fun f => sound_copy (snd f)) fs ->
  all (map (fun f => SpecDe.ordinary (snd f)) fs) -> all (map (fun f => same_copied (snd f)) fs) ->
  forall l ys, each (map (fun f => snd (snd f)) (map (read_by (strictly o)) fs)) l ys ->
    leading (map (fun f => snd (snd f)) (map (read_by (extracts Exact)) fs)) l ys.
Proof.
  induction 1 as [|f fs H _ IH]; intros O S [|v l] [|y ys]; cbn in *; auto. intros [A B].
  split; [eapply H; [apply O|apply S|exact A]|apply IH; [apply O|apply S|exact B]].
Qed.
Lemma names_map r (fs : list (ustr * ty)) : map fst (map (read_by r) fs) = map fst fs.
Proof. rewrite map_map. reflexivity. Qed.

Definition shape_extracts (s : shape ty) : shape how :=
  match s with
  | ShUnit => ShUnit
  | ShNew t => ShNew (optional t, extracts Exact t)
  | ShTuple ts => ShTuple (map (fun t => (optional t, extracts Exact t)) ts)
  | ShStruct fs => ShStruct (map (read_by (extracts Exact)) fs)
  end.

Lemma sound_payload o s v p : shape_all sound_copy s ->
  match s with
  | ShUnit => True
  | ShNew t => SpecDe.ordinary t /\ same_copied t
  | ShTuple ts => all (map SpecDe.ordinary ts) /\ all (map same_copied ts)
  | ShStruct fs => all (map (fun f => SpecDe.ordinary (snd f)) fs) /\ all (map (fun f => same_copied (snd f)) fs)
  end ->
  strict_payload (shape_strictly o s) v p -> payload (shape_extracts s) v p.
Proof.
  intros H O P. destruct P as [g E ->|op r y E R|rs g l ys E -> R|fs ys E R]; destruct s as [|t|ts|fs0]; try discriminate E.
  - eapply pl_unit; reflexivity.
  - injection E as <- <-. eapply pl_new; [reflexivity|]. exact (H (proj1 O) (proj2 O) _ _ _ R).
  - injection E as <-. eapply pl_tuple; [reflexivity|reflexivity|]. rewrite map_map in R |- *. cbn [snd] in R |- *.
    change (fun x => strictly o x) with (strictly o) in R. change (fun x => extracts Exact x) with (extracts Exact).
    eapply each_leading; [exact H|apply O|apply O|exact R].
  - injection E as <-. destruct R as [(g & d & -> & _ & B)|(g & l & xs & -> & B & ->)].
    + eapply pl_fields; [reflexivity|reflexivity|]. eapply sound_names; [exact H|apply O|apply O|exact B].
    + change (map (fun f => (fst f, (optional (snd f), strictly o (snd f)))) fs0) with (map (read_by (strictly o)) fs0).
      rewrite names_map. rewrite <- (names_map (extracts Exact)). eapply pl_elems; [reflexivity|reflexivity|].
      eapply sound_elems; [exact H|apply O|apply O|exact B].
Qed.

Lemma Forall2_weaken {A B} (P Q : A -> B -> Prop) l ys : (forall a b, P a b -> Q a b) -> Forall2 P l ys -> Forall2 Q l ys.
Proof. intros H. induction 1; constructor; auto. Qed.

Lemma key_copied o k s y : sound_copy k -> SpecDe.ordinary k -> same_copied k ->
  match k with TOption _ | TNewtype _ _ => False | _ => True end ->
  strictly o k (VString tag_default s) y -> reads_key k s y.
Proof.
  intros H O S K E. destruct k as [|k| | | | | |t|t|ts|t|k t|nm i dn fs|i t|i ts|i|i vs| | | | | | |a b]; cbn in *; try tauto.
  - destruct E as (b & E & _). inversion E.
  - destruct E as (_ & j & z & E & _). inversion E.
  - destruct E as (j & z & E & _). inversion E.
  - destruct E as (j & z & E & _). inversion E.
  - destruct E as (c & E & ->). inversion E; subst. eauto.
  - destruct E as (s' & (g & E) & ->). injection E as _ <-. reflexivity.
  - destruct E as ((g & E) & _). discriminate E.
  - destruct E as (g & l & ys & E & _). discriminate E.
  - destruct E as (g & l & ys & E & _). discriminate E.
  - destruct E as (g & l & ys & E & _). discriminate E.
  - destruct E as (g & l & ys & E & _). discriminate E.
  - destruct E as (ys & [(g & d & E & _)|(g & l & xs & E & _)] & _); discriminate E.
  - destruct E as (g & l & ys & E & _). discriminate E.
  - destruct E as [(g & s' & E & V & ->)|(g & k & x & sh & p & E & _)]; [|discriminate E]. injection E as _ <-.
    split; [|reflexivity]. unfold variant in V |- *. apply in_map_iff in V. destruct V as ([n sh] & V & I). cbn in V.
    injection V as -> V. destruct sh; try discriminate V. exact I.
  - destruct E as (g & n & z & E & _). discriminate E.
  - destruct E as (s' & (g & E) & ->). injection E as _ <-. reflexivity.
  - destruct E as (s' & (g & E) & ->). injection E as _ <-. reflexivity.
Qed.

Theorem copy_sound t : sound_copy t.
Proof.
  induction t as [|k| | | | | |t IHt|t IHt|ts IHts|t IHt|k t IHk IHt|n i dn fs IHfs|i t IHt|i ts IHts|i|i vs IHvs| | | | | | |a b IHa IHb] using ty_ind';
    intros O S o v y E; cbn [strictly] in E; cbn [SpecDe.ordinary same_copied] in O, S; try exact E; try tauto.
  - destruct E as (s & (g & ->) & ->). exists s. split; [constructor|reflexivity].
  - destruct E as [E|(E & x & X & ->)]; [left; exact E|right]. split; [exact E|]. exists x. split; [|reflexivity]. eapply IHt; eassumption.
  - destruct E as (g & l & ys & -> & E & ->). exists g, l, ys. split; [reflexivity|]. split; [|reflexivity].
    revert E. apply Forall2_weaken. intros a b. apply IHt; assumption.
  - destruct E as (g & l & ys & -> & E & ->). exists g, l, ys. split; [reflexivity|]. split; [|reflexivity].
    eapply each_leading; eassumption.
  - destruct E as (g & d & ys & -> & E & ->). exists g, d, ys. split; [reflexivity|]. split; [|reflexivity].
    revert E. apply Forall2_weaken. intros a b [A B]. split; [exact A|]. eapply IHt; eassumption.
  - destruct E as (g & d & ys & -> & E & ->). exists g, d, ys. split; [reflexivity|]. split; [|reflexivity].
    destruct O as [Ok Ot]. destruct S as (K & Sk & St).
    revert E. apply Forall2_weaken. intros a b [A B]. split; [eapply key_copied; eassumption|]. eapply IHt; eassumption.
  - destruct O as [_ O]. destruct E as (ys & [(g & d & -> & D & B)|(g & l & xs & -> & B & ->)] & ->).
    + left. exists g, d, ys. split; [reflexivity|].
      change (map (fun f => (fst f, (optional (snd f), strictly o (snd f)))) fs) with (map (read_by (strictly o)) fs) in *.
      rewrite names_map in D. split; [exact D|]. split; [|reflexivity]. eapply sound_names; eassumption.
    + right. change (map (fun f => (fst f, (optional (snd f), strictly o (snd f)))) fs) with (map (read_by (strictly o)) fs) in *.
      rewrite names_map. exists g, l, xs. split; [reflexivity|]. split; [|reflexivity]. eapply sound_elems; eassumption.
  - destruct E as (x & E & ->). exists x. split; [|reflexivity]. eapply IHt; eassumption.
  - destruct E as (g & l & ys & -> & E & ->). exists g, l, ys. split; [reflexivity|]. split; [|reflexivity].
    eapply each_leading; eassumption.
  - assert (V : forall s sh, variant (map (fun nv => (fst nv, shape_strictly o (snd nv))) vs) s sh ->
      exists sh0, In (s, sh0) vs /\ sh = shape_strictly o sh0 /\ variant (map (fun nv => (fst nv, shape_extracts (snd nv))) vs) s (shape_extracts sh0)).
    { intros s sh V. apply in_map_iff in V. destruct V as ([n' sh0] & V & I). cbn in V. injection V as -> <-. exists sh0.
      split; [exact I|]. split; [reflexivity|]. apply in_map_iff. exists (s, sh0). auto. }
    destruct E as [(g & s & -> & E & ->)|(g & k & x & sh & p & -> & E & P & ->)].
    + apply V in E. destruct E as (sh0 & I & E & V'). destruct sh0; try discriminate E. left. exists g, s. auto.
    + apply V in E. destruct E as (sh0 & I & -> & V'). right. right. exists g, k, x, (@nil (ustr * value)), (shape_extracts sh0), p.
      split; [reflexivity|]. split; [exact V'|]. split; [|reflexivity].
      eapply sound_payload; [|  |exact P].
      * rewrite Forall_forall in IHvs. exact (IHvs _ I).
      * apply (all_at _ _ _ O) in I as O'. apply (all_at _ _ _ S) in I as S'. cbn in O', S'. destruct sh0; auto.
  - destruct E as (s & (g & ->) & ->). exists s. split; [constructor|reflexivity].
  - destruct E as (s & (g & ->) & ->). exists s. split; [constructor|reflexivity].
Qed.
