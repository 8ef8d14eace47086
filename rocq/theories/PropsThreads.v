(** C75: jails in several threads. *)
From Coq Require Import Ascii String NArith Bool Permutation.
From Coq Require Import List.
From Verif Require Import Res BMap Str Err Path Data Jail World Threads SpecPath SpecJail SpecWorld SpecThreads.
From Verif Require Import BMapProofs StrProofs JailProofs WorldProofs ThreadsProofs PropsFile PropsWorld.
Import ListNotations.

(** ** C75 *)

(** However the threads take turns, a closure that is done was told what it would have been told
    had there been no other thread. *)
Theorem C75_alone : forall jobs p, sane_process p -> (forall i, sane_job p (jobs i)) ->
  forall schedule i past,
  mc_stage (thread_run jobs schedule (machine_start p)) i = Done past -> told_alone jobs p i past.
Proof.
  intros jobs p SP SJ schedule i past D.
  destruct (good_run jobs p SP SJ schedule _ (good_start jobs p)) as [(_ & _ & R)|(h & n & G)].
  - destruct (R i) as [W|(past' & E & T)]; congruence.
  - assert (B := holder_busy jobs p h n _ G). destruct G as (_ & R & _).
    destruct (PeanoNat.Nat.eq_dec i h) as [->|N]; [now rewrite D in B|].
    destruct (R i N) as [W|(past' & E & T)]; congruence.
Qed.
Print Assumptions C75_alone.

(** So what it is told does not depend on the order of turns. *)
Theorem C75_schedule : forall jobs p, sane_process p -> (forall i, sane_job p (jobs i)) ->
  forall schedule schedule' i past past',
  mc_stage (thread_run jobs schedule (machine_start p)) i = Done past ->
  mc_stage (thread_run jobs schedule' (machine_start p)) i = Done past' -> past = past'.
Proof.
  intros jobs p SP SJ s s' i a b A B.
  apply (told_once jobs p i); eapply C75_alone; eauto.
Qed.
Print Assumptions C75_schedule.

(** No two threads are in a jail, and when none is, the process is as it was. *)
Theorem C75_exclusive : forall jobs p, sane_process p -> (forall i, sane_job p (jobs i)) ->
  forall schedule, let m := thread_run jobs schedule (machine_start p) in
  (forall i k, busy (mc_stage m i) -> busy (mc_stage m k) -> i = k) /\
  ((forall i, ~ busy (mc_stage m i)) -> same_process (mc_process m) p).
Proof.
  intros jobs p SP SJ schedule m.
  assert (Q : forall i s, resting jobs p i s -> ~ busy s) by (intros i s [->|(past & -> & _)]; exact (fun x => x)).
  assert (GR := good_run jobs p SP SJ schedule _ (good_start jobs p)). fold m in GR.
  destruct GR as [(_ & S & R)|(h & n & G)].
  - split; [|intros _; exact S]. intros i k B. now destruct (Q i _ (R i)).
  - assert (B := holder_busy jobs p h n _ G). destruct G as (_ & R & _). split.
    + assert (K : forall i, busy (mc_stage m i) -> i = h).
      { intros i Bi. destruct (PeanoNat.Nat.eq_dec i h) as [E|N]; [exact E|]. now destruct (Q i _ (R i N)). }
      intros i k Bi Bk. rewrite (K i Bi), (K k Bk). reflexivity.
    + intros NB. now destruct (NB h).
Qed.
Print Assumptions C75_exclusive.

(** A thread that cannot move is done, or another one can move, or somebody has asked for a jail in
    a jail. *)
Theorem C75_progress : forall jobs p, sane_process p -> (forall i, sane_job p (jobs i)) ->
  forall schedule, let m := thread_run jobs schedule (machine_start p) in
  forall i, thread_step jobs i m = None ->
  (exists past, mc_stage m i = Done past) \/ (exists k m', thread_step jobs k m = Some m') \/
  exists k, nesting jobs m k.
Proof.
  intros jobs p SP SJ schedule m i ST.
  assert (GR := good_run jobs p SP SJ schedule _ (good_start jobs p)). fold m in GR.
  destruct GR as [(H & S & R)|(h & n & G)].
  - left. destruct (R i) as [W|(past & E & _)]; [|eauto]. unfold thread_step in ST. rewrite W, H in ST. discriminate.
  - right. destruct (thread_step jobs h m) as [m'|] eqn:E; [left; eauto|]. right. exists h.
    now apply (holder_moves jobs p SP SJ h n).
Qed.
Print Assumptions C75_progress.

(** If every closure returns when it is alone, then wherever the threads are, each can be brought to
    its end. *)
Theorem C75_finishes : forall jobs p, sane_process p -> (forall i, sane_job p (jobs i)) ->
  (forall i, exists past, told_alone jobs p i past) ->
  forall schedule i, exists more past,
  mc_stage (thread_run jobs (schedule ++ more) (machine_start p)) i = Done past.
Proof.
  intros jobs p SP SJ T schedule i.
  destruct (can_finish jobs p SP SJ i _ T (good_run jobs p SP SJ schedule _ (good_start jobs p))) as (more & past & D).
  exists more, past. now rewrite run_app.
Qed.
Print Assumptions C75_finishes.

(** A jail in a jail never begins, and no thread gets another jail from then on. *)
Theorem C75_nested : forall jobs p, sane_process p -> (forall i, sane_job p (jobs i)) ->
  forall schedule i, nesting jobs (thread_run jobs schedule (machine_start p)) i ->
  forall more, thread_run jobs (schedule ++ more) (machine_start p) = thread_run jobs schedule (machine_start p).
Proof.
  intros jobs p SP SJ schedule i N more. rewrite run_app.
  set (m := thread_run jobs schedule (machine_start p)) in *.
  assert (ST : forall k, thread_step jobs k m = None).
  { assert (GR := good_run jobs p SP SJ schedule _ (good_start jobs p)). fold m in GR.
  destruct GR as [(_ & _ & R)|(h & n & G)].
    - destruct N as (saved & home & past & E & _). destruct (R i) as [W|(past' & E' & _)]; congruence.
    - intros k. destruct (PeanoNat.Nat.eq_dec k h) as [->|D]; [|now apply (holding_blocks jobs p h n m k G)].
      destruct N as (saved & home & past & E & EB). assert (i = h) as ->.
      { destruct (PeanoNat.Nat.eq_dec i h) as [X|X]; [exact X|]. destruct G as (_ & R & _).
        destruct (R i X) as [W|(past' & E' & _)]; congruence. }
      unfold thread_step. rewrite E. cbn [go_on]. now rewrite EB. }
  clear N. induction more as [|k more IH]; [reflexivity|]. cbn. now rewrite ST.
Qed.
Print Assumptions C75_nested.

(** What a closure is told is true of the process at that moment, and asking changes nothing. *)
Theorem C75_sees : forall jobs p, sane_process p -> (forall i, sane_job p (jobs i)) ->
  forall schedule i saved home past q, let m := thread_run jobs schedule (machine_start p) in
  mc_stage m i = Inside saved home past -> jb_body (jobs i) past = Some (Ask q) ->
  exists a m', thread_step jobs i m = Some m' /\ mc_stage m' i = Inside saved home (past ++ [a]) /\
    mc_process m' = mc_process m /\ truthful (mc_process m) q a.
Proof.
  intros jobs p SP SJ schedule i saved home past q m E B.
  exists (look (mc_process m) q).
  eexists. split; [unfold thread_step; rewrite E; cbn [go_on]; rewrite B; reflexivity|].
  cbn [mc_stage mc_process]. split; [apply set_same|]. split; [reflexivity|].
  apply look_truthful, (inside_fine jobs p SP SJ schedule i saved home past E).
Qed.
Print Assumptions C75_sees.

(** A variable a closure has set is what it set it to when it looks, whatever the other threads try
    in between. *)
Theorem C75_set : forall jobs p, sane_process p -> (forall i, sane_job p (jobs i)) ->
  forall schedule i saved home past k v, let m := thread_run jobs schedule (machine_start p) in
  mc_stage m i = Inside saved home past -> jb_body (jobs i) past = Some (Act (WSetEnv k v)) ->
  ~ In 0%N v ->
  exists saved', let past' := past ++ [SaidPath None] in
    forall between, ~ In i between ->
    let m1 := thread_run jobs (schedule ++ i :: between) (machine_start p) in
    mc_stage m1 i = Inside saved' home past' /\
    (jb_body (jobs i) past' = Some (Ask (QVar k)) ->
     mc_stage (thread_run jobs (schedule ++ i :: between ++ [i]) (machine_start p)) i =
       Inside saved' home (past' ++ [SaidVar (Some v)])).
Proof.
  intros jobs p SP SJ schedule i saved home past k v m E B NV.
  assert (VN : var_name k) by (destruct (SJ i) as (_ & J & _); exact (J _ _ B)).
  assert (KO : env_name_ok k = true) by now apply var_name_ok.
  assert (VO : env_value_ok v = true) by (unfold env_value_ok; apply negb_true_iff; now apply contains_In).
  set (saved' := match get k saved with Some _ => saved | None => insert k (env_get k (p_env (mc_process m))) saved end).
  set (m0 := mkMachine (mkProcess (p_disk (mc_process m)) (insert k v (p_env (mc_process m))) (p_cwd (mc_process m)))
               (mc_held m) (set_stage i (Inside saved' home (past ++ [SaidPath None])) (mc_stage m))).
  assert (ST : thread_step jobs i m = Some m0).
  { unfold thread_step. rewrite E. cbn [go_on]. rewrite B. unfold world_step. cbn [jail_step w_jail w_disk].
    unfold set_env, env_set. cbn [j_env j_saved j_cwd]. rewrite KO, VO. reflexivity. }
  exists saved'. intros past' between NB m1.
  assert (EM : m1 = m0).
  { unfold m1. rewrite run_app. fold m. cbn [thread_run]. rewrite ST.
    assert (G0 : good jobs p m0).
    { apply (good_step jobs p SP SJ i m); [|exact ST]. apply good_run; auto. apply good_start. }
    assert (HH : exists n, holding jobs p i n m0).
    { destruct G0 as [(_ & _ & R)|(h & n & G)].
      - destruct (R i) as [W|(x & D & _)]; unfold m0 in *; cbn [mc_stage] in *; rewrite set_same in *; discriminate.
      - destruct (PeanoNat.Nat.eq_dec i h) as [->|N]; [eauto|]. destruct G as (_ & R & _).
        destruct (R i N) as [W|(x & D & _)]; unfold m0 in *; cbn [mc_stage] in *; rewrite set_same in *; discriminate. }
    destruct HH as [n HH]. revert NB. clear m1. induction between as [|j r IH]; intros NB; [reflexivity|].
    cbn [thread_run]. rewrite (holding_blocks jobs p i n m0 j HH); [apply IH|]; intros X; apply NB; [now right|now left]. }
  rewrite EM. split; [apply set_same|]. intros Bq.
  replace (schedule ++ i :: between ++ [i]) with ((schedule ++ i :: between) ++ [i]) by (rewrite <- app_assoc; reflexivity).
  rewrite run_app. fold m1. rewrite EM. cbn [thread_run]. unfold thread_step. unfold m0 at 1. cbn [mc_stage]. rewrite set_same.
  cbn [go_on]. fold past'. rewrite Bq. cbn [mc_stage]. rewrite set_same. cbn [look mc_process m0 p_env].
  unfold env_get. rewrite KO, get_insert_same. reflexivity.
Qed.
Print Assumptions C75_set.

(** *** Two tests at once *)

(** The first sets a variable, writes a file and looks at both; the second, and all others, look for
    the same variable and the same file; the third wants a jail in its jail. *)
Definition th_job (name : ustr) (body : closure) : job := mkJob [lit "tmp"; name] body ex_order.
Definition th_writer : closure := fun past =>
  nth_error [Act (WSetEnv (lit "A") (lit "/x")); Act (WCreate (lit "a.toml") (Some (lit "x = 1")));
             Ask (QVar (lit "A")); Ask (QRead (lit "a.toml"))] (length past).
Definition th_reader : closure := fun past =>
  nth_error [Ask (QVar (lit "A")); Ask (QFile (lit "a.toml"))] (length past).
Definition th_nester : closure := fun past => nth_error [Ask QCwd; Nest] (length past).
Definition th_jobs (i : nat) : job :=
  match i with
  | 0 => th_job (lit "jail") th_writer
  | 2 => th_job (lit "jail") th_nester
  | _ => th_job (lit "jail") th_reader
  end.
Definition th_process : process := mkProcess ex_disk ex_env [lit "home"].
Definition th_schedule : list nat := [0;1;0;1;0;1;0;0;1;0;0;0;0;1;1;1;0;1;1;1;1].

Lemma th_sane : sane_process th_process.
Proof. split; [apply ex_sound|]. split; [reflexivity|]. destruct C69_ex_hyp as (_ & _ & A & B & _). auto. Qed.
Lemma th_sane_jobs i : sane_job th_process (th_jobs i).
Proof.
  assert (K : forall body, (forall past op, body past = Some (Act op) -> proper_op op) ->
    sane_job th_process (th_job (lit "jail") body)).
  { intros body H. split; [apply ex_made|]. split; [exact H|]. cbn. apply C69_ex_hyp. }
  assert (W : forall past op, th_writer past = Some (Act op) -> proper_op op).
  { intros past op. unfold th_writer. destruct (length past) as [|[|[|[|n]]]]; cbn; intros E; inversion E; subst; cbn; auto;
      try (destruct n; discriminate). split; [discriminate|]. split; cbn; intuition discriminate. }
  assert (Rd : forall past op, th_reader past = Some (Act op) -> proper_op op).
  { intros past op. unfold th_reader. destruct (length past) as [|[|[|n]]]; discriminate. }
  assert (Nt : forall past op, th_nester past = Some (Act op) -> proper_op op).
  { intros past op. unfold th_nester. destruct (length past) as [|[|[|n]]]; discriminate. }
  destruct i as [|[|[|i]]]; cbn; apply K; assumption.
Qed.

Example C75_ex :
  mc_stage (thread_run th_jobs th_schedule (machine_start th_process)) 0 =
    Done [SaidPath None; SaidPath (Some (lit "a.toml")); SaidVar (Some (lit "/x")); SaidText (Ok (lit "x = 1"))] /\
  mc_stage (thread_run th_jobs th_schedule (machine_start th_process)) 1 =
    Done [SaidVar (Some (lit "1")); SaidBool false].
Proof. split; vm_compute; reflexivity. Qed.
Example C75_nested_ex : nesting th_jobs (thread_run th_jobs [2;2;2] (machine_start th_process)) 2.
Proof. do 3 eexists. split; [vm_compute; reflexivity|]. reflexivity. Qed.
Example C75_sees_ex : exists saved home past,
  mc_stage (thread_run th_jobs [1;1] (machine_start th_process)) 1 = Inside saved home past /\
  jb_body (th_jobs 1) past = Some (Ask (QVar (lit "A"))).
Proof. do 3 eexists. split; [vm_compute; reflexivity|]. reflexivity. Qed.
Example C75_set_ex : exists saved home past,
  mc_stage (thread_run th_jobs [0;0] (machine_start th_process)) 0 = Inside saved home past /\
  jb_body (th_jobs 0) past = Some (Act (WSetEnv (lit "A") (lit "/x"))).
Proof. do 3 eexists. split; [vm_compute; reflexivity|]. reflexivity. Qed.
