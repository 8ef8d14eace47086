(** C72: what a Figment holds at every path, for every history. *)
From Coq Require Import Ascii String ZArith NArith Bool.
From Coq Require Import List.
From Verif Require Import Res BMap Str Profile Tag Num Value Metadata Err Coalesce Figment De.
From Verif Require Import SpecValue SpecLookup SpecFigment SpecRt SpecBlind SpecView.
From Verif Require Import ValueProofs LookupProofs BlindProofs OrderProofs ViewProofs.
Import ListNotations.

(** ** C72 *)

(** Bringing one value into another lays one over the other, path by path. *)
Theorem C72_coalesce : forall o a b, wf a -> wf b -> forall p n,
  view_of (vcoalesce o a b) p n <-> brought o (view_of a) (view_of b) p n.
Proof. intros o a b Wa Wb p n. now apply view_vcoalesce. Qed.
Print Assumptions C72_coalesce.

(** After any history in which no provider failed, a Figment holds exactly the overlay of what its
    providers said: whatever the orders, the profiles and the shapes of their data. *)
Theorem C72_held : forall l c f c',
  run l fig_new c = (Ret f, c') -> sound_ops l -> failures l = [] ->
  exists v, merged f = Ok v /\ forall p n, view_of (untag v) p n <-> held (f_profile f) l p n.
Proof.
  intros l c f c' HR HS HF. destruct (held_merged l c f c' HR HS HF) as (v & E & _ & H). eauto.
Qed.
Print Assumptions C72_held.

(** Seen through [find_value] and [contains]. *)
Theorem C72_found : forall l c f c' path ks,
  run l fig_new c = (Ret f, c') -> sound_ops l -> failures l = [] -> spells path ks ->
  (forall x, held (f_profile f) l ks (Leaf x) <->
     exists y, find_value f path = Ok y /\ is_dict y = false /\ untag y = x) /\
  (held (f_profile f) l ks Table <-> exists t d, find_value f path = Ok (VDict t d)) /\
  (fig_contains f path = true <-> exists n, held (f_profile f) l ks n).
Proof.
  intros l c f c' path ks HR HS HF HP.
  destruct (C72_held l c f c' HR HS HF) as (v & E & H).
  assert (EF : forall y, find_value f path = Ok y <-> at_path ks v = Some y).
  { intros y. unfold find_value. rewrite E, (vfind_spec path ks v HP).
    destruct (at_path ks v); split; intros K; inversion K; reflexivity. }
  assert (EU : forall p w, at_path p (untag w) = option_map untag (at_path p w)).
  { induction p as [|k p IH]; intros w; [reflexivity|]. rewrite !at_path_sub.
    destruct w as [| | | | |t d|]; try reflexivity. cbn [untag sub].
    fold (undict d). rewrite get_undict. destruct (get k d) as [y|]; cbn; [apply IH|reflexivity]. }
  assert (ED : forall w, is_dict (untag w) = is_dict w) by now intros [].
  assert (HL : forall x, held (f_profile f) l ks (Leaf x) <->
     exists y, find_value f path = Ok y /\ is_dict y = false /\ untag y = x).
  { intros x. rewrite <- H. cbn [view_of]. unfold leaf_at. rewrite EU. split.
    - intros [K D]. destruct (at_path ks v) as [y|] eqn:EP; [|discriminate]. injection K as <-.
      exists y. rewrite EF. rewrite ED in D. auto.
    - intros (y & K & D & <-). apply EF in K. rewrite K, ED. auto. }
  assert (HT : held (f_profile f) l ks Table <-> exists t d, find_value f path = Ok (VDict t d)).
  { rewrite <- H. cbn [view_of]. rewrite EU. split.
    - intros (t & d & K). destruct (at_path ks v) as [y|] eqn:EP; [|discriminate].
      assert (D : is_dict y = true) by (rewrite <- ED; cbn in K; injection K as ->; reflexivity).
      destruct y as [| | | | |t' d'|]; try discriminate. exists t', d'. now apply EF.
    - intros (t & d & K). apply EF in K. rewrite K. cbn. eauto. }
  split; [exact HL|]. split; [exact HT|]. rewrite contains_spec. split.
  - intros [y K]. destruct (is_dict y) eqn:D.
    + exists Table. apply HT. destruct y as [| | | | |t d|]; try discriminate. eauto.
    + exists (Leaf (untag y)). apply HL. eauto.
  - intros [[|x] K]; [apply HT in K; destruct K as (t & d & K); eauto|].
    apply HL in K. destruct K as (y & K & _). eauto.
Qed.
Print Assumptions C72_found.

(** What can be seen is all there is: values that look alike at every path have the same data. *)
Theorem C72_values : forall v w, wf v -> wf w ->
  (forall p n, view_of (untag v) p n <-> view_of (untag w) p n) -> untag v = untag w.
Proof.
  intros v w Wv Ww H. apply view_eq; auto using wf_untag, untag_idem.
Qed.
Print Assumptions C72_values.

(** So two programs whose providers amount to the same overlay extract the same, at every type and
    at every key. *)
Theorem C72_alike : forall l l' c c' f g n n',
  run l fig_new c = (Ret f, n) -> run l' fig_new c' = (Ret g, n') ->
  sound_ops l -> sound_ops l' -> failures l = [] -> failures l' = [] ->
  (forall p x, held (f_profile f) l p x <-> held (f_profile g) l' p x) ->
  forall i t, unreserved t ->
    seen forget (extract i f t) = seen forget (extract i g t) /\
    forall k, seen forget (extract_inner i f t k) = seen forget (extract_inner i g t k).
Proof.
  intros l l' c c' f g n n' R1 R2 S1 S2 F1 F2 H i t U.
  destruct (held_merged l c f n R1 S1 F1) as (v & Ev & Wv & Hv).
  destruct (held_merged l' c' g n' R2 S2 F2) as (w & Ew & Ww & Hw).
  assert (EU : ut v w).
  { apply C72_values; auto. intros p x. now rewrite (Hv p x), (Hw p x). }
  split.
  - apply agree_seen. unfold extract. rewrite Ev, Ew. cbn [res_bind].
    apply deserialize_blind; [exact U|]. now constructor.
  - intros k. apply agree_seen. unfold extract_inner.
    assert (HF : agree ut (find_value f k) (find_value g k)).
    { unfold find_value. rewrite Ev, Ew. pose proof (find_keys_rel (split_on dot k) _ _ EU) as HF. unfold vfind.
      destruct (find_keys (split_on dot k) v), (find_keys (split_on dot k) w); cbn in HF; try contradiction;
        now constructor. }
    eapply agree_bind; [exact HF|]. intros x y HU. apply agree_map_err.
    + intros e e' E. now rewrite !report_with_path, E.
    + apply deserialize_blind; [exact U|]. now constructor.
Qed.
Print Assumptions C72_alike.

(** When providers are only merged, the last to have a value at a path, with nothing said after it
    on that path, decides: nothing is assumed of their shapes. *)
Theorem C72_last_word : forall q l p x, merge_only l ->
  (layer q l blank p (Leaf x) <->
   exists before loc pr after, l = before ++ OpProvide loc Merge pr :: after /\
     said q pr p (Leaf x) /\
     forall loc' o' pr', In (OpProvide loc' o' pr') after -> free (said q pr') p).
Proof. intros q l p x H. now apply last_said. Qed.
Print Assumptions C72_last_word.

(** *** A case: a number becomes a table, a table gets an entry from below, an array grows, a
    global number hides what a profile had *)
Definition vw_n (z : Z) : value := VNum tag_default (NInt U32 z).
Definition vw_p (m : bmap profile dict) : provider := mkProvider (md_named (lit "p")) (Ok m) None None.
Definition vw_at : location := mkLoc (lit "main.rs") 1 1.
Definition vw_dev : profile := mkProfile (lit "dev").
Definition vw_ops : list op :=
  [OpProvide vw_at Merge (vw_p [(p_default, [(lit "l", VArray tag_default [vw_n 1]); (lit "x", vw_n 1)])]);
   OpProvide vw_at Merge (vw_p [(p_default, [(lit "x", VDict tag_default [(lit "y", vw_n 2)])])]);
   OpProvide vw_at Join (vw_p [(p_default, [(lit "x", VDict tag_default [(lit "y", vw_n 8); (lit "z", vw_n 3)])])]);
   OpProvide vw_at Admerge (vw_p [(p_default, [(lit "l", VArray tag_default [vw_n 2])]);
                                  (p_global, [(lit "t", vw_n 9)])]);
   OpProvide vw_at Adjoin (vw_p [(vw_dev, [(lit "t", VDict tag_default [(lit "u", vw_n 4)]); (lit "x", VDict tag_default [])])]);
   OpSelect vw_dev].
Definition vw_fig : figment := match run vw_ops fig_new 1 with (Ret f, _) => f | _ => fig_new end.

Lemma vw_sound : sound_ops vw_ops.
Proof.
  intros loc o p m HI HD.
  repeat (destruct HI as [[= <- <- <-]|HI];
          [injection HD as <-; vm_compute; repeat constructor|]).
  destruct HI as [[=]|[]].
Qed.

Example C72_ex :
  (exists c, run vw_ops fig_new 1 = (Ret vw_fig, c)) /\ sound_ops vw_ops /\ failures vw_ops = [] /\
  held vw_dev vw_ops [lit "x"; lit "y"] (Leaf (vw_n 2)) /\
  held vw_dev vw_ops [lit "x"; lit "z"] (Leaf (vw_n 3)) /\
  held vw_dev vw_ops [lit "l"] (Leaf (VArray tag_default [vw_n 1; vw_n 2])) /\
  held vw_dev vw_ops [lit "t"] (Leaf (vw_n 9)) /\
  (forall n, ~ held vw_dev vw_ops [lit "t"; lit "u"] n).
Proof.
  assert (HR : exists c, run vw_ops fig_new 1 = (Ret vw_fig, c)) by (eexists; vm_compute; reflexivity).
  split; [exact HR|]. split; [exact vw_sound|]. split; [reflexivity|]. destruct HR as [c HR].
  destruct (C72_held vw_ops 1 vw_fig c HR vw_sound eq_refl) as (v & E & H).
  change (f_profile vw_fig) with vw_dev in H. vm_compute in E. injection E as <-.
  split; [apply H; split; reflexivity|]. split; [apply H; split; reflexivity|].
  split; [apply H; split; reflexivity|]. split; [apply H; split; reflexivity|].
  intros [|x] K; apply H in K; [destruct K as (t & d & K); discriminate K|destruct K as [K _]; discriminate K].
Qed.

(** Merged only: the provider in the middle is the last to say something about [x.y]. *)
Definition vw_merges : list op :=
  [OpProvide vw_at Merge (vw_p [(p_default, [(lit "x", vw_n 1)])]);
   OpProvide vw_at Merge (vw_p [(p_default, [(lit "x", VDict tag_default [(lit "y", vw_n 2)])])]);
   OpProvide vw_at Merge (vw_p [(p_default, [(lit "x", VDict tag_default [(lit "z", vw_n 3)])])])].
Example C72_last_word_ex : merge_only vw_merges /\
  layer p_default vw_merges blank [lit "x"; lit "y"] (Leaf (vw_n 2)).
Proof.
  assert (M : merge_only vw_merges).
  { intros loc o p [E|[E|[E|[]]]]; injection E as _ <- _; reflexivity. }
  split; [exact M|]. apply (C72_last_word p_default vw_merges _ _ M).
  eexists [_], _, _, [_]. split; [reflexivity|]. split; [split; reflexivity|].
  intros loc o p [E|[]]. injection E as _ _ <-. apply free_cons. split; [reflexivity|].
  intros x E. vm_compute in E. injection E as <-. apply free_cons. split; [reflexivity|].
  intros x E. discriminate E.
Qed.
