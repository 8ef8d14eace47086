(** Tag allocation. *)
From Coq Require Import NArith List Lia.
From Verif Require Import Res BMap Profile ProfileProofs Tag SpecTag.
Import ListNotations.
Local Open Scope N_scope.

Lemma tag_next_panic c : 2 ^ 62 <= c -> tag_next c = (Panic, (c + 1) mod 2 ^ 64).
Proof.
  intros H. unfold tag_next. change metadata_id_mask with (2 ^ 62 - 1).
  destruct (N.ltb_spec (2 ^ 62 - 1) c) as [H1|H1]; [reflexivity|].
  change (2 ^ 62) with 4611686018427387904 in *. lia.
Qed.

(** Before the counter wraps, identifiers are drawn in increasing order. *)
Lemma draws_ids sched : forall c, 0 < c -> c + N.of_nat (length sched) <= 2 ^ 64 ->
  NoDup (map metadata_id (obtained (draws sched c))) /\
  Forall (fun t => c <= metadata_id t) (obtained (draws sched c)).
Proof.
  induction sched as [|th r IH]; intros c Hc Hl.
  - split; constructor.
  - cbn [length] in Hl.
    assert (Hl' : c + 1 + N.of_nat (length r) <= 2 ^ 64) by lia.
    destruct (IH (c + 1)) as [IH1 IH2]; [lia|exact Hl'|].
    cbn [draws]. destruct (N.lt_ge_cases c (2 ^ 62)) as [Hs|Hs].
    + rewrite tag_next_small by auto. cbn [obtained map].
      assert (Hid : metadata_id (tag_new c PTDefault) = c)
        by (rewrite metadata_id_new; now apply N.mod_small).
      split.
      * constructor; auto. rewrite Hid. intros Hin. apply in_map_iff in Hin.
        destruct Hin as [t [Ht Hin]]. rewrite Forall_forall in IH2. apply IH2 in Hin. lia.
      * constructor; [lia|]. eapply Forall_impl; [|exact IH2]. cbv beta. intros; lia.
    + rewrite tag_next_panic by auto. cbn [obtained].
      destruct r as [|th2 r2].
      * split; constructor.
      * rewrite N.mod_small.
        2:{ cbn [length] in Hl'. change (2 ^ 64) with 18446744073709551616 in *. lia. }
        split; auto. eapply Forall_impl; [|exact IH2]. cbv beta. intros; lia.
Qed.

Lemma counter_after (sched : list N) : forall c, c < 2 ^ 64 ->
  fold_left (fun c _ => snd (tag_next c)) sched c = (c + N.of_nat (length sched)) mod 2 ^ 64.
Proof.
  induction sched as [|th r IH]; intros c Hc; cbn [fold_left length].
  - rewrite N.add_0_r. symmetry. now apply N.mod_small.
  - unfold tag_next at 2. cbn [snd]. change 0x10000000000000000 with (2 ^ 64).
    rewrite IH by (apply N.mod_lt; discriminate).
    rewrite N.add_mod_idemp_l by discriminate. f_equal. lia.
Qed.

Lemma draws_app a : forall b c, draws (a ++ b) c =
  draws a c ++ draws b (fold_left (fun c _ => snd (tag_next c)) a c).
Proof.
  induction a as [|th r IH]; intros b c; cbn [app draws fold_left]; auto.
  destruct (tag_next c) as [t c']. simpl. now rewrite IH.
Qed.
