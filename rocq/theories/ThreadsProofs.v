(** Lemmas about jails in threads. *)
From Coq Require Import Ascii String NArith Bool Permutation Lia.
From Coq Require Import List.
From Verif Require Import Res BMap Str Err Path Data Jail World Threads SpecPath SpecJail SpecWorld SpecThreads.
From Verif Require Import BMapProofs StrProofs JailProofs WorldProofs.
Import ListNotations.

(** ** Disks with the same contents *)
Definition alike_disks (d d' : disk) : Prop := forall l, d l = d' l.

Lemma walk_same d d' : alike_disks d d' -> forall ps at_, walk d at_ ps = walk d' at_ ps.
Proof.
  intros A. induction ps as [|x r IH]; intros at_; cbn; [reflexivity|]. rewrite (A at_).
  destruct (d' at_) as [[|]|]; auto.
Qed.
Lemma path_to_same d d' cwd p : alike_disks d d' -> path_to d cwd p = path_to d' cwd p.
Proof. intros A. unfold path_to. now rewrite (walk_same d d' A). Qed.
Lemma node_at_same d d' cwd p : alike_disks d d' -> node_at d cwd p = node_at d' cwd p.
Proof. intros A. unfold node_at. rewrite (path_to_same d d' cwd p A). destruct (path_to d' cwd p); cbn; auto. Qed.
Lemma can_enter_same d d' cwd p : alike_disks d d' -> can_enter d cwd p = can_enter d' cwd p.
Proof. intros A. unfold can_enter. cbn. now rewrite (node_at_same d d' cwd p A). Qed.
Lemma put_alike l n d d' : alike_disks d d' -> alike_disks (put l n d) (put l n d').
Proof. intros A k. unfold put. destruct (same_place l k); auto. Qed.

Definition alike_opt (a b : option disk) : Prop :=
  match a, b with
  | Some x, Some y => alike_disks x y
  | None, None => True
  | _, _ => False
  end.
Lemma write_file_same d d' cwd p t : alike_disks d d' -> alike_opt (write_file d cwd p t) (write_file d' cwd p t).
Proof.
  intros A. unfold write_file. rewrite (path_to_same d d' cwd p A). destruct (path_to d' cwd p) as [l|]; [|exact I].
  rewrite (A l). destruct (d' l) as [[|]|]; cbn; auto using put_alike.
Qed.
Lemma mkdirs_same ps : forall d d' at_, alike_disks d d' -> alike_opt (mkdirs d at_ ps) (mkdirs d' at_ ps).
Proof.
  induction ps as [|x r IH]; intros d d' at_ A; cbn [mkdirs]; [exact A|]. rewrite (A (step_into at_ x)).
  destruct (d' (step_into at_ x)) as [[|]|]; [exact I|now apply IH|]. apply IH. now apply put_alike.
Qed.
Lemma create_dir_all_same d d' cwd p : alike_disks d d' -> alike_opt (create_dir_all d cwd p) (create_dir_all d' cwd p).
Proof. intros A. unfold create_dir_all. destruct (contains_c 0%N p); [exact I|]. now apply mkdirs_same. Qed.

Lemma world_step_same dir op d d' j : alike_disks d d' ->
  exists e e' j' r ok, world_step dir op (mkWorld d j) = (mkWorld e j', r, ok) /\
    world_step dir op (mkWorld d' j) = (mkWorld e' j', r, ok) /\ alike_disks e e'.
Proof.
  intros A. destruct op as [p t|p|p|k v|vo]; unfold world_step; cbn [w_disk w_jail w_cwd].
  - destruct (safe_jailed_path dir p) as [q|e]; cbn [option_bind].
    + assert (W := write_file_same d d' (w_cwd (mkWorld d j)) q t A). unfold w_cwd in *. cbn [w_jail] in *.
      destruct (write_file d (j_cwd j) q t) as [e|], (write_file d' (j_cwd j) q t) as [e'|]; try destruct W.
      * exists e, e'. destruct (jail_step dir (OpCreate p true) j) as [[j' x] ok]. do 3 eexists. split; [reflexivity|]. split; [reflexivity|exact W].
      * exists d, d'. destruct (jail_step dir (OpCreate p false) j) as [[j' x] ok]. do 3 eexists. split; [reflexivity|]. split; [reflexivity|exact A].
    + exists d, d'. destruct (jail_step dir (OpCreate p false) j) as [[j' x] ok]. do 3 eexists. split; [reflexivity|]. split; [reflexivity|exact A].
  - destruct (safe_jailed_path dir p) as [q|e]; cbn [option_bind].
    + assert (W := create_dir_all_same d d' (w_cwd (mkWorld d j)) q A). unfold w_cwd in *. cbn [w_jail] in *.
      destruct (create_dir_all d (j_cwd j) q) as [e|], (create_dir_all d' (j_cwd j) q) as [e'|]; try destruct W.
      * exists e, e'. destruct (jail_step dir (OpMkdir p true) j) as [[j' x] ok]. do 3 eexists. split; [reflexivity|]. split; [reflexivity|exact W].
      * exists d, d'. destruct (jail_step dir (OpMkdir p false) j) as [[j' x] ok]. do 3 eexists. split; [reflexivity|]. split; [reflexivity|exact A].
    + exists d, d'. destruct (jail_step dir (OpMkdir p false) j) as [[j' x] ok]. do 3 eexists. split; [reflexivity|]. split; [reflexivity|exact A].
  - unfold w_cwd. cbn [w_jail]. destruct (safe_jailed_path dir p) as [q|e].
    + rewrite (can_enter_same d d' (j_cwd j) q A). destruct (can_enter d' (j_cwd j) q).
      * exists d, d'. destruct (jail_step dir (OpChdir p true) j) as [[j' x] ok]. do 3 eexists. split; [reflexivity|]. split; [reflexivity|exact A].
      * exists d, d'. destruct (jail_step dir (OpChdir p false) j) as [[j' x] ok]. do 3 eexists. split; [reflexivity|]. split; [reflexivity|exact A].
    + exists d, d'. destruct (jail_step dir (OpChdir p false) j) as [[j' x] ok]. do 3 eexists. split; [reflexivity|]. split; [reflexivity|exact A].
  - exists d, d'. destruct (jail_step dir (OpSetEnv k v) j) as [[j' x] ok]. do 3 eexists. split; [reflexivity|]. split; [reflexivity|exact A].
  - exists d, d'. destruct (jail_step dir (OpClearEnv vo) j) as [[j' x] ok]. do 3 eexists. split; [reflexivity|]. split; [reflexivity|exact A].
Qed.

Lemma same_refl p : same_process p p.
Proof. repeat split. Qed.
Lemma same_sym p q : same_process p q -> same_process q p.
Proof. intros (A & B & C). repeat split; auto. Qed.
Lemma same_trans p q r : same_process p q -> same_process q r -> same_process p r.
Proof. intros (A & B & C) (A' & B' & C'). repeat split; [intros l; now rewrite A|congruence|congruence]. Qed.

Lemma look_same p p' q : same_process p p' -> look p q = look p' q.
Proof.
  intros (A & B & C). unfold look. rewrite B, C. destruct q; cbn; try reflexivity;
    try (now rewrite (node_at_same _ _ _ _ A)). now rewrite (A (p_cwd p')).
Qed.

(** Steps do the same in the same process. *)
Definition same_move (a b : option (process * stage)) : Prop :=
  match a, b with
  | Some (p, s), Some (q, s') => same_process p q /\ s = s'
  | None, None => True
  | _, _ => False
  end.
Lemma go_on_same j p p' s : same_process p p' -> same_move (go_on j p s) (go_on j p' s).
Proof.
  intros S. assert (S' := S). destruct S' as (A & B & C). destruct s as [| |saved home past|saved home past|past|past]; cbn [go_on]; try exact I.
  - rewrite B, C, (A (p_cwd p')). destruct (p_disk p' (p_cwd p')) as [[t|]|]; cbn; auto.
    split; [|reflexivity]. repeat split. intros l. cbn. now apply put_alike.
  - destruct (jb_body j past) as [[op|q|]|]; cbn; auto.
    + rewrite B, C.
      destruct (world_step_same (place_text (jb_dir j)) op (p_disk p) (p_disk p') (mkJailed saved (p_env p') (p_cwd p')) A)
        as (e & e' & j' & r & ok & -> & -> & AE).
      cbn. split; [|reflexivity]. repeat split. exact AE.
    + split; [exact S|]. now rewrite (look_same p p' q S).
  - rewrite B, C, (can_enter_same _ _ (p_cwd p') (place_text home) A).
    destruct (drop_jail (jb_order j saved) home _ _) as [[e c]| |]; cbn; auto.
    split; [|reflexivity]. repeat split. intros l. cbn. unfold temp_dir_gone. destruct (within (jb_dir j) l); auto.
Qed.

(** ** One thread alone *)
Section Jobs.
  Variables (jobs : nat -> job) (p : process).
  Hypothesis (SP : sane_process p) (SJ : forall i, sane_job p (jobs i)).

  Definition solo (i n : nat) : machine := thread_run jobs (repeat i n) (machine_start p).

  Lemma run_app a b m : thread_run jobs (a ++ b) m = thread_run jobs b (thread_run jobs a m).
  Proof. revert m. induction a as [|i a IH]; intros m; cbn; auto. Qed.
  Lemma repeat_snoc (i n : nat) : repeat i (S n) = repeat i n ++ [i].
  Proof. induction n as [|n IH]; cbn in *; [reflexivity|]. now rewrite IH at 1. Qed.
  Lemma solo_S i n : solo i (S n) = match thread_step jobs i (solo i n) with Some m => m | None => solo i n end.
  Proof. unfold solo. rewrite repeat_snoc, run_app. reflexivity. Qed.

  Lemma done_stays i past m s : mc_stage m i = Done past -> mc_stage (thread_run jobs s m) i = Done past.
  Proof.
    revert m. induction s as [|k s IH]; intros m H; cbn; [exact H|]. apply IH.
    unfold thread_step. destruct (PeanoNat.Nat.eqb_spec i k) as [<-|N].
    - rewrite H. cbn. exact H.
    - assert (K : forall s', set_stage k s' (mc_stage m) i = Done past).
      { intros s'. unfold set_stage. destruct (PeanoNat.Nat.eqb_spec i k); [contradiction|exact H]. }
      destruct (mc_stage m k); try (destruct (mc_held m)); try (destruct (go_on (jobs k) (mc_process m) _) as [[q s'']|]); cbn; auto.
  Qed.

  (** The operations a closure has done so far. *)
  Inductive ran (dir : ustr) : list world_op -> world -> world -> Prop :=
  | ran_nil w : ran dir [] w w
  | ran_snoc ops w w1 op w2 r : ran dir ops w w1 -> world_step dir op w1 = (w2, r, true) -> ran dir (ops ++ [op]) w w2.

  Lemma ran_run dir ops w w1 : ran dir ops w w1 -> forall more, world_run dir (ops ++ more) w = world_run dir more w1.
  Proof.
    induction 1 as [w|ops w w1 op w2 r R IH E]; intros more; [reflexivity|].
    rewrite <- app_assoc, IH. cbn. now rewrite E.
  Qed.

  Definition outset (i : nat) : world :=
    mkWorld (temp_dir (jb_dir (jobs i)) (p_disk p)) (jail_start (p_env p) (place_text (jb_dir (jobs i))) (p_cwd p)).
  Definition world_now (q : process) (saved : bmap ustr (option ustr)) : world :=
    mkWorld (p_disk q) (mkJailed saved (p_env q) (p_cwd q)).

  (** Where a thread alone can be. *)
  Definition solo_at (i : nat) (q : process) (s : stage) : Prop :=
    match s with
    | Locked => q = p
    | Inside saved home past => home = p_cwd p /\ exists ops, Forall proper_op ops /\
        ran (place_text (jb_dir (jobs i))) ops (outset i) (world_now q saved)
    | Leaving saved home past => home = p_cwd p /\ exists ops, Forall proper_op ops /\
        world_run (place_text (jb_dir (jobs i))) ops (outset i) = world_now q saved
    | Left past => same_process q p
    | _ => False
    end.

  Lemma leaving_drops i saved home past q : solo_at i q (Leaving saved home past) ->
    exists q', go_on (jobs i) q (Leaving saved home past) = Some (q', Left past) /\ same_process q' p.
  Proof.
    intros (-> & ops & PO & W). destruct SP as (S1 & S2 & S3 & S4). destruct (SJ i) as (J1 & J2 & J3).
    destruct (no_trace (jb_dir (jobs i)) ops (jb_order (jobs i)) p S1 S2 J1 S3 S4 PO J3) as (q' & E & H1 & H2 & H3).
    unfold jail_try in E. rewrite S2 in E. fold (outset i) in E. rewrite W in E.
    unfold world_now in E. cbn [w_disk w_jail w_cwd j_saved] in E. unfold w_cwd in E. cbn [w_jail j_cwd] in E.
    cbn [go_on]. destruct (drop_jail (jb_order (jobs i) saved) (p_cwd p) _ _) as [[e c]| |]; try discriminate E.
    cbn in E. injection E as <-. eexists. split; [reflexivity|]. cbn in *. repeat split; auto.
  Qed.

  Lemma solo_step i q s : solo_at i q s -> forall q' s', go_on (jobs i) q s = Some (q', s') -> solo_at i q' s'.
  Proof.
    intros H q' s' E. destruct s as [| |saved home past|saved home past|past|past]; try discriminate E.
    - destruct SP as (S1 & S2 & S3 & S4). cbn [go_on] in E. cbn in H. subst q. rewrite S2 in E. injection E as <- <-.
      cbn. split; [reflexivity|]. exists []. split; [constructor|]. apply ran_nil.
    - cbn [go_on] in E. destruct H as (-> & ops & PO & R).
      destruct (jb_body (jobs i) past) as [[op|qu|]|] eqn:EB; try discriminate E.
      + fold (world_now q saved) in E.
        destruct (world_step (place_text (jb_dir (jobs i))) op (world_now q saved)) as [[w r] ok] eqn:EW.
        assert (PO' : Forall proper_op (ops ++ [op])).
        { apply Forall_app. split; [exact PO|]. constructor; [|constructor]. destruct (SJ i) as (_ & J & _). exact (J _ _ EB). }
        assert (EN : world_now (mkProcess (w_disk w) (j_env (w_jail w)) (w_cwd w)) (j_saved (w_jail w)) = w).
        { destruct w as [d [sv en cw]]. reflexivity. }
        destruct ok; injection E as <- <-; cbn [solo_at]; (split; [reflexivity|]); exists (ops ++ [op]); (split; [exact PO'|]); rewrite EN.
        * eapply ran_snoc; eauto.
        * rewrite (ran_run _ _ _ _ R). cbn. now rewrite EW.
      + injection E as <- <-. cbn. split; [reflexivity|]. exists ops. auto.
      + injection E as <- <-. cbn [solo_at]. split; [reflexivity|]. exists ops. split; [exact PO|].
        rewrite <- (app_nil_r ops), (ran_run _ _ _ _ R). reflexivity.
    - destruct (leaving_drops i saved home past q H) as (q1 & E1 & S). rewrite E1 in E. injection E as <- <-. exact S.
  Qed.

  (** ** All threads *)
  Definition resting (i : nat) (s : stage) : Prop :=
    s = Waiting \/ exists past, s = Done past /\ told_alone jobs p i past.

  Definition unheld (m : machine) : Prop :=
    mc_held m = false /\ same_process (mc_process m) p /\ forall i, resting i (mc_stage m i).
  Definition holding (i n : nat) (m : machine) : Prop :=
    mc_held m = true /\ (forall k, k <> i -> resting k (mc_stage m k)) /\
    mc_stage (solo i n) i = mc_stage m i /\ mc_held (solo i n) = true /\
    same_process (mc_process (solo i n)) (mc_process m) /\
    solo_at i (mc_process (solo i n)) (mc_stage m i).
  Definition good (m : machine) : Prop := unheld m \/ exists i n, holding i n m.

  Lemma set_same i s f : set_stage i s f i = s.
  Proof. unfold set_stage. now rewrite PeanoNat.Nat.eqb_refl. Qed.
  Lemma set_other i k s f : k <> i -> set_stage i s f k = f k.
  Proof. intros N. unfold set_stage. destruct (PeanoNat.Nat.eqb_spec k i); [contradiction|reflexivity]. Qed.

  Lemma solo_at_busy i q s : solo_at i q s -> busy s.
  Proof. destruct s; cbn; tauto. Qed.

  Lemma good_start : good (machine_start p).
  Proof. left. split; [reflexivity|]. split; [apply same_refl|]. intros i. now left. Qed.

  Lemma resting_step i s : resting i s -> forall m, mc_stage m i = s -> mc_held m = true -> thread_step jobs i m = None.
  Proof.
    intros R m E H. unfold thread_step. rewrite E. destruct R as [->|(past & -> & _)]; [now rewrite H|reflexivity].
  Qed.

  Lemma unheld_step i m m' : unheld m -> thread_step jobs i m = Some m' -> holding i 1 m'.
  Proof.
    intros (H & S & R) ST. destruct (R i) as [W|(past & D & _)].
    2: { unfold thread_step in ST. rewrite D in ST. discriminate. }
    unfold thread_step in ST. rewrite W, H in ST. injection ST as <-. split; [reflexivity|].
    cbn [mc_stage mc_process]. split; [intros k N; rewrite set_other by exact N; apply R|].
    rewrite set_same. assert (ES : solo i 1 = mkMachine p true (set_stage i Locked (fun _ => Waiting))) by reflexivity.
    rewrite ES. cbn [mc_stage mc_held mc_process]. rewrite set_same. repeat split; try (apply same_sym; exact S).
  Qed.

  Lemma holding_moves h n m s : holding h n m -> mc_stage m h = s -> (forall past, s <> Left past) ->
    thread_step jobs h m = match go_on (jobs h) (mc_process m) s with
                           | Some (q, s') => Some (mkMachine q (mc_held m) (set_stage h s' (mc_stage m)))
                           | None => None
                           end.
  Proof.
    intros (_ & _ & _ & _ & _ & E4) E N. unfold thread_step. rewrite E in *.
    destruct s as [| | | |past|]; try reflexivity; try destruct E4. now destruct (N past).
  Qed.

  Lemma holding_step h n m m' : holding h n m -> thread_step jobs h m = Some m' ->
    holding h (S n) m' \/ (unheld m' /\ exists past, mc_stage m' h = Done past).
  Proof.
    intros (H & R & E1 & E2 & E3 & E4) ST. assert (SS := solo_S h n).
    assert (SIM : forall s, mc_stage m h = s -> (forall past, s <> Left past) -> holding h (S n) m').
    { intros s EM NL.
      rewrite (holding_moves h n m s) in ST; [|repeat (split; [assumption|]); assumption|exact EM|exact NL].
      assert (SM : thread_step jobs h (solo h n) = match go_on (jobs h) (mc_process (solo h n)) s with
         | Some (q, s') => Some (mkMachine q (mc_held (solo h n)) (set_stage h s' (mc_stage (solo h n))))
         | None => None end).
      { unfold thread_step. rewrite E1, EM in *. destruct s as [| | | |past|]; try reflexivity; try destruct E4. now destruct (NL past). }
      rewrite SM in SS. rewrite EM in *.
      assert (G := go_on_same (jobs h) _ _ s E3). revert G.
      destruct (go_on (jobs h) (mc_process m) s) as [[q s']|] eqn:EG; [|discriminate ST]. injection ST as <-.
      destruct (go_on (jobs h) (mc_process (solo h n)) s) as [[q' s'']|] eqn:EG'; [|intros []]. intros [SQ ->].
      split; [exact H|]. rewrite SS. cbn [mc_stage mc_held mc_process]. rewrite !set_same.
      split; [intros k N; rewrite set_other by exact N; now apply R|]. split; [reflexivity|]. split; [exact E2|]. split; [exact SQ|].
      eapply solo_step; [exact E4|exact EG']. }
    destruct (mc_stage m h) as [| |saved home past|saved home past|past|past] eqn:EM; try (exfalso; exact E4);
      try (left; eapply SIM; [reflexivity|discriminate]).
    right. unfold thread_step in ST, SS. rewrite EM in ST. rewrite E1 in SS. injection ST as <-. split.
    - split; [reflexivity|]. cbn [mc_stage mc_held mc_process]. cbn in E4. split.
      + apply same_trans with (mc_process (solo h n)); [apply same_sym; exact E3|exact E4].
      + intros k. destruct (PeanoNat.Nat.eq_dec k h) as [->|N]; [|rewrite set_other by exact N; now apply R].
        rewrite set_same. right. exists past. split; [reflexivity|]. exists (S n). fold (solo h (S n)). rewrite SS.
        cbn. apply set_same.
    - exists past. apply set_same.
  Qed.

  Lemma holding_blocks h n m i : holding h n m -> i <> h -> thread_step jobs i m = None.
  Proof. intros (H & R & _) N. exact (resting_step i _ (R i N) m eq_refl H). Qed.

  Lemma good_step i m m' : good m -> thread_step jobs i m = Some m' -> good m'.
  Proof.
    intros [F|(h & n & G)] ST.
    - right. exists i, 1. now apply (unheld_step i m).
    - destruct (PeanoNat.Nat.eq_dec i h) as [->|N].
      + destruct (holding_step h n m m' G ST) as [K|[K _]]; [right; eauto|now left].
      + rewrite (holding_blocks h n m i G N) in ST. discriminate.
  Qed.

  Lemma good_run s : forall m, good m -> good (thread_run jobs s m).
  Proof.
    induction s as [|i s IH]; intros m G; cbn; [exact G|]. apply IH.
    destruct (thread_step jobs i m) as [m'|] eqn:E; [|exact G]. now apply (good_step i m).
  Qed.

  Lemma told_once i a b : told_alone jobs p i a -> told_alone jobs p i b -> a = b.
  Proof.
    intros [n A] [k B].
    assert (K : forall n k a b, n <= k -> mc_stage (solo i n) i = Done a -> mc_stage (solo i k) i = Done b -> a = b).
    { clear. intros n k a b L A B. replace k with (n + (k - n)) in B by lia. unfold solo in B. rewrite repeat_app, run_app in B.
      rewrite (done_stays i a) in B; [congruence|exact A]. }
    destruct (PeanoNat.Nat.le_ge_cases n k) as [L|L]; [eapply K; eauto|]. symmetry. eapply K; eauto.
  Qed.

  (** A thread that has the lock can go on, unless it asks for the lock. *)
  Lemma holder_moves h n m : holding h n m -> thread_step jobs h m = None -> nesting jobs m h.
  Proof.
    intros G ST. assert (G' := G). destruct G' as (H & R & E1 & E2 & E3 & E4).
    destruct (mc_stage m h) as [| |saved home past|saved home past|past|past] eqn:EM; try (exfalso; exact E4).
    - rewrite (holding_moves h n m _ G EM) in ST by discriminate. cbn [go_on] in ST.
      destruct (p_disk (mc_process m) (p_cwd (mc_process m))) as [[|]|]; discriminate.
    - rewrite (holding_moves h n m _ G EM) in ST by discriminate. cbn [go_on] in ST.
      exists saved, home, past. split; [exact EM|]. destruct (jb_body (jobs h) past) as [[op|q|]|]; try discriminate; [|reflexivity].
      destruct (world_step _ _ _) as [[w r] ok]. discriminate.
    - rewrite (holding_moves h n m _ G EM) in ST by discriminate.
      destruct (leaving_drops h saved home past _ E4) as (q' & EG & _).
      assert (K := go_on_same (jobs h) _ _ (Leaving saved home past) E3). rewrite EG in K.
      destruct (go_on (jobs h) (mc_process m) (Leaving saved home past)) as [[q'' s'']|]; [discriminate|destruct K].
    - unfold thread_step in ST. rewrite EM in ST. discriminate.
  Qed.

  Lemma holder_busy h n m : holding h n m -> busy (mc_stage m h).
  Proof. intros (_ & _ & _ & _ & _ & E4). eapply solo_at_busy; exact E4. Qed.

  Lemma stuck_stays i m : thread_step jobs i m = None -> forall n, thread_run jobs (repeat i n) m = m.
  Proof. intros H. induction n as [|n IH]; cbn; [reflexivity|]. now rewrite H. Qed.

  Lemma holder_finishes h d : forall n m past, holding h n m -> mc_stage (solo h (n + d)) h = Done past ->
    exists k, let m' := thread_run jobs (repeat h k) m in unheld m' /\ exists past', mc_stage m' h = Done past'.
  Proof.
    induction d as [|d IH]; intros n m past G D.
    - exfalso. rewrite PeanoNat.Nat.add_0_r in D. assert (B := holder_busy h n m G).
      destruct G as (_ & _ & E1 & _). rewrite <- E1, D in B. exact B.
    - destruct (thread_step jobs h m) as [m'|] eqn:ST.
      + destruct (holding_step h n m m' G ST) as [K|[K K']].
        * destruct (IH (S n) m' past K) as [k F]; [now rewrite PeanoNat.Nat.add_succ_comm|].
          exists (S k). cbn. now rewrite ST.
        * exists 1. cbn. rewrite ST. auto.
      + exfalso. assert (NS := holder_moves h n m G ST). destruct NS as (saved & home & past0 & EM & EB).
        destruct G as (_ & _ & E1 & _ & _ & E4). rewrite EM in *.
        assert (K : thread_step jobs h (solo h n) = None).
        { unfold thread_step. rewrite E1. cbn [go_on]. now rewrite EB. }
        unfold solo in D. rewrite repeat_app, run_app in D. fold (solo h n) in D. rewrite (stuck_stays h _ K), E1 in D. discriminate.
  Qed.

  Lemma can_finish i m : (forall k, exists past, told_alone jobs p k past) -> good m ->
    exists more past, mc_stage (thread_run jobs more m) i = Done past.
  Proof.
    intros T G.
    assert (U : forall m, unheld m -> exists more past, mc_stage (thread_run jobs more m) i = Done past).
    { clear m G. intros m F. destruct F as (H & S & R). destruct (R i) as [W|(past & D & _)]; [|exists [], past; exact D].
      destruct (thread_step jobs i m) as [m'|] eqn:ST; [|unfold thread_step in ST; rewrite W, H in ST; discriminate].
      assert (K := unheld_step i m m' (conj H (conj S R)) ST). destruct (T i) as (past & N & D).
      destruct N as [|N]; [discriminate|].
      destruct (holder_finishes i N 1 m' past K D) as (k & _ & past' & D'). exists (i :: repeat i k), past'. cbn. now rewrite ST. }
    destruct G as [F|(h & n & G)]; [now apply U|].
    destruct (T h) as (past & N & D). fold (solo h N) in D.
    assert (exists k, unheld (thread_run jobs (repeat h k) m)) as (k & F).
    { destruct (PeanoNat.Nat.le_ge_cases n N) as [L|L].
      - replace N with (n + (N - n)) in D by lia. destruct (holder_finishes h _ n m past G D) as (k & F & _). now exists k.
      - exfalso. replace n with (N + (n - N)) in G by lia. assert (B := holder_busy _ _ _ G).
        destruct G as (_ & _ & E1 & _). unfold solo in E1. rewrite repeat_app, run_app in E1.
        rewrite (done_stays h past) in E1; [|exact D]. rewrite <- E1 in B. exact B. }
    destruct (U _ F) as (more & past' & D'). exists (repeat h k ++ more), past'. now rewrite run_app.
  Qed.

  (** ** In the closure *)
  Definition fine (q : process) : Prop :=
    sound_disk (p_disk q) /\ p_disk q (p_cwd q) = Some NDir /\ sorted (p_env q).

  Lemma fine_same q q' : same_process q q' -> fine q -> fine q'.
  Proof.
    intros (A & B & C) ([D E] & F & G). split; [split|split].
    - now rewrite <- A.
    - intros l x n H. rewrite <- A in *. exact (E _ _ _ H).
    - now rewrite <- A, <- C.
    - now rewrite <- B.
  Qed.

  Lemma inside_fine schedule i saved home past :
    mc_stage (thread_run jobs schedule (machine_start p)) i = Inside saved home past ->
    fine (mc_process (thread_run jobs schedule (machine_start p))).
  Proof.
    intros E. set (m := thread_run jobs schedule (machine_start p)) in *.
    assert (GR : good m) by (apply good_run, good_start).
    destruct GR as [(_ & _ & R)|(h & n & G)]; [destruct (R i) as [W|(x & D & _)]; congruence|].
    destruct (PeanoNat.Nat.eq_dec i h) as [->|N].
    2: { destruct G as (_ & R & _). destruct (R i N) as [W|(x & D & _)]; congruence. }
    destruct G as (_ & _ & _ & _ & S & A). apply (fine_same _ _ S). rewrite E in A.
    destruct A as (_ & ops & PO & RN). assert (W := ran_run _ _ _ _ RN []). rewrite app_nil_r in W. cbn [world_run] in W.
    destruct SP as (S1 & S2 & S3 & S4). destruct (SJ h) as (J1 & J2 & J3).
    assert (J0 : in_jail (jb_dir (jobs h)) (outset h)) by (apply jail_begins; assumption).
    destruct (run_confined _ ops _ J0) as [(_ & K1 & _ & K2) _].
    change (dir_text (jb_dir (jobs h))) with (place_text (jb_dir (jobs h))) in *.
    destruct (run_jail (place_text (jb_dir (jobs h))) ops (outset h) PO) as (ops' & t & RJ & PR).
    rewrite W in *. split; [exact K1|]. split; [exact K2|].
    assert (SV : Forall sets_valid_names ops') by (eapply Forall_impl; [|exact PR]; intros o; apply proper_sets).
    destruct (recoverable_run (p_env p) _ ops' SV _ _ _ (recoverable_start _ _ _ S3) RJ) as (SO & _). exact SO.
  Qed.
End Jobs.

Lemma look_truthful q (qu : question) : fine q -> truthful q qu (look q qu).
Proof.
  intros (S & C & SO). assert (NA : forall s l, names (p_cwd q) s l -> node_at (p_disk q) (p_cwd q) s = p_disk q l).
  { intros s l (ns & F & [[N [-> ->]]|[-> ->]]); [now apply node_at_names|now apply node_at_absolute]. }
  destruct qu as [s|s|s| |k|]; cbn [look truthful fs_of fs_is_file fs_is_dir fs_read fs_cwd].
  - eexists. split; [reflexivity|]. intros l N. rewrite (NA s l N). destruct (p_disk q l) as [[t|]|]; split; try discriminate; eauto; intros [t' ?]; discriminate.
  - eexists. split; [reflexivity|]. intros l N. rewrite (NA s l N). destruct (p_disk q l) as [[t|]|]; split; try discriminate; eauto.
  - eexists. split; [reflexivity|]. intros l N t. rewrite (NA s l N). destruct (p_disk q l) as [[[t'|]|]|]; split; intros X; inversion X; reflexivity.
  - rewrite C. reflexivity.
  - eexists. split; [reflexivity|]. intros v VN. unfold env_get. rewrite (proj2 (var_name_ok k) VN). split; intros X.
    + apply get_In in X. destruct X as (k' & K & I). apply cmp_ustr_eq in K. now subst.
    + now apply In_get.
  - eexists. split; [reflexivity|]. tauto.
Qed.
