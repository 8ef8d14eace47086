(** Proofs: listing profiles, single variables, error messages. *)
From Coq Require Import Ascii String ZArith NArith Bool Lia.
From Coq Require Import List.
From Verif Require Import Res BMap BMapProofs Str StrProofs Profile ProfileProofs Tag Num Value
  Metadata Err Coalesce Figment Env Fmt Path Display.
From Verif Require Import SpecValue SpecFigment SpecEnv SpecMore SpecDisplay ValueProofs CoalesceProofs
  FigmentProofs FigmentProofs2 TrimProofs EnvProofs.
Import ListNotations.

(** ** Profiles *)
Section Keys.
  Context {K V : Type} `{CmpLaws K}.
  Implicit Types m : bmap K V.

  Lemma insert_keys_sub k (v : V) m x : In x (keys (insert k v m)) -> x = k \/ In x (keys m).
  Proof.
    induction m as [|[k' v'] r IH]; cbn [insert].
    - cbn. intuition.
    - destruct (cmp k k'); cbn; intros I; intuition.
  Qed.
  Lemma extend_keys_sub l : forall m x, In x (keys (extend m l)) -> In x (keys m) \/ In x (keys l).
  Proof.
    induction l as [|[k v] r IH]; cbn [extend]; intros m x I; auto.
    apply IH in I. destruct I as [I|I]; [|right; right; exact I].
    apply insert_keys_sub in I. destruct I as [->|I]; [right; left; reflexivity|auto].
  Qed.
  Lemma take_keys_sub k m v r x : take k m = Some (v, r) -> In x (keys r) -> In x (keys m).
  Proof.
    revert r. induction m as [|[k' v'] m IH]; cbn [take]; [discriminate|]. intros r.
    destruct (cmp k k').
    - intros E. injection E as -> ->. cbn. auto.
    - destruct (take k m) as [[y r']|]; [|discriminate]. intros E. injection E as -> <-. cbn.
      intros [I|I]; eauto.
    - destruct (take k m) as [[y r']|]; [|discriminate]. intros E. injection E as -> <-. cbn.
      intros [I|I]; eauto.
  Qed.
  Lemma mc_loop_keys f (self : bmap K V) : forall joined other x,
    In x (keys (mc_loop f self joined other)) -> In x (keys self) \/ In x (keys joined) \/ In x (keys other).
  Proof.
    induction self as [|[ak av] r IH]; cbn [mc_loop]; intros joined other x I.
    - apply extend_keys_sub in I. tauto.
    - destruct (take ak other) as [[bv o']|] eqn:E; apply IH in I; cbn;
        destruct I as [I|[I|I]]; auto.
      + apply insert_keys_sub in I. destruct I as [->|I]; auto.
      + right. right. eapply take_keys_sub; eauto.
      + apply insert_keys_sub in I. destruct I as [->|I]; auto.
  Qed.
End Keys.

Lemma retag_data_keys t m : keys (retag_data t m) = keys m.
Proof. unfold keys, retag_data. rewrite map_map. reflexivity. Qed.

Lemma get_retag_data t m q : get q (retag_data t m) = None <-> get q m = None.
Proof.
  induction m as [|[p d] r IH]; cbn; [tauto|]. destruct (cmp q p); auto; split; discriminate.
Qed.

Lemma sorted_retag t m : sorted m -> sorted (retag_data t m).
Proof.
  induction m as [|[p d] r IH]; cbn; auto. intros [L S]. split; [|auto].
  clear - L. induction r as [|[q e] r IH]; cbn in *; auto. destruct L. auto.
Qed.

(** The profiles of a Figment: those it had and those supplied since. *)
Lemma run_profiles l : forall f c f' c' m, run l f c = (Ret f', c') -> f_value f = Ok m ->
  sorted m -> wf_ops l -> failures l = [] ->
  exists m', f_value f' = Ok m' /\ sorted m' /\
    (forall q, In q (keys m') -> In q (keys m) \/ supplied l q) /\
    (forall q, get q m' = None <->
       get q m = None /\ forall loc o p n, In (OpProvide loc o p) l -> pv_data p = Ok n -> get q n = None).
Proof.
  induction l as [|x r IH]; cbn [run]; intros f c f' c' m E Em S W F.
  - injection E as <- <-. exists m. split; [exact Em|]. split; [exact S|]. split; [auto|].
    intros q. split; [intros H; split; [exact H|]; intros ? ? ? ? []|tauto].
  - destruct (run_op x f c) as [[f1| |] c1] eqn:E1; try discriminate.
    assert (Wr : wf_ops r) by (intros loc o p n I; apply (W loc o p n); right; exact I).
    destruct x as [loc o p|q0]; cbn [run_op] in E1.
    + apply provide_ret in E1. destruct E1 as (_ & _ & ->).
      cbn [failures] in F. destruct (pv_data p) as [n|e] eqn:Ed; [|discriminate].
      assert (Wn : wf_profiles n) by (eapply W; [left; reflexivity|exact Ed]).
      set (n' := retag_data (tag_new c PTDefault) n).
      assert (Sn : sorted n') by (apply sorted_retag, Wn).
      destruct (IH _ _ _ _ (pcoalesce o m n') E) as (m' & E' & S' & K' & G'); auto.
      { cbn [f_value]. rewrite Em. reflexivity. }
      { apply map_coalesce_sorted. }
      exists m'. split; [exact E'|]. split; [exact S'|]. split.
      * intros q I. destruct (K' q I) as [I'|(loc' & o' & p' & m1 & d & I1 & I2 & I3)].
        -- unfold pcoalesce, map_coalesce in I'. apply mc_loop_keys in I'. destruct I' as [I'|[[]|I']]; [auto|].
           right. unfold n' in I'. rewrite retag_data_keys in I'. apply in_map_iff in I'.
           destruct I' as ([q' d] & <- & I'). exists loc, o, p, n, d. cbn [fst]. split; [left; reflexivity|auto].
        -- right. exists loc', o', p', m1, d. split; [right; exact I1|auto].
      * intros q. rewrite G', pcoalesce_get by auto. split.
        -- intros [G1 G2].
           assert (get q m = None /\ get q n' = None) as [A B].
           { destruct (get q m), (get q n'); cbn in G1; try discriminate; auto. }
           split; [exact A|]. intros loc' o' p' n1 [I|I] E1.
           ++ injection I as <- <- <-. rewrite Ed in E1. injection E1 as <-. apply get_retag_data in B. exact B.
           ++ eapply G2; eauto.
        -- intros [G1 G2]. split; [|intros; eapply G2; eauto; right; eassumption].
           rewrite G1. cbn. apply get_retag_data. eapply G2; [left; reflexivity|exact Ed].
    + injection E1 as <- <-. destruct (IH _ _ _ _ m E) as (m' & E' & S' & K' & G'); auto.
      exists m'. split; [exact E'|]. split; [exact S'|]. split.
      * intros q I. destruct (K' q I) as [I'|(loc' & o' & p' & m1 & d & I1 & I2 & I3)]; [auto|].
        right. exists loc', o', p', m1, d. split; [right; exact I1|auto].
      * intros q. rewrite G'. split; intros [G1 G2]; (split; [exact G1|]).
        -- intros loc' o' p' n1 [I|I] E1; [discriminate I|eapply G2; eauto].
        -- intros loc' o' p' n1 I E1. eapply G2; [right; exact I|exact E1].
Qed.

Lemma get_same (m : bmap profile dict) q :
  get q m <> None <-> exists p, In p (keys m) /\ same_profile p q.
Proof.
  induction m as [|[p d] r IH]; cbn.
  - split; [tauto|intros (? & [] & _)].
  - destruct (cmp q p) eqn:E.
    + split; [|discriminate]. intros _. exists p. split; [auto|]. apply same_profile_cmp in E. symmetry. exact E.
    + rewrite IH. split.
      * intros (p' & I & S). eauto.
      * intros (p' & [<-|I] & S); [|eauto]. exfalso.
        assert (cmp q p = Eq) by (apply same_profile_cmp; symmetry; exact S). congruence.
    + rewrite IH. split.
      * intros (p' & I & S). eauto.
      * intros (p' & [<-|I] & S); [|eauto]. exfalso.
        assert (cmp q p = Eq) by (apply same_profile_cmp; symmetry; exact S). congruence.
Qed.

Lemma sorted_distinct (m : bmap profile dict) : sorted m -> NoDup (map (fun p => lower (pname p)) (keys m)).
Proof.
  induction m as [|[p d] r IH]; cbn; intros S; constructor.
  - destruct S as [L _]. intros I. apply in_map_iff in I. destruct I as (q & E & I).
    apply in_map_iff in I. destruct I as ([q' e] & <- & I). cbn [fst] in E.
    assert (L2 := proj1 (lt_all_In _ _) L _ _ I).
    assert (cmp p q' = Eq) by (apply same_profile_cmp; symmetry; exact E). congruence.
  - apply IH, S.
Qed.

(** ** Single variables *)
Lemma uncased_same_name a b : uncased_eqb a b = true <-> same_name a b.
Proof. unfold uncased_eqb, same_name. apply ueqb_eq. Qed.

Lemma env_var_first name vars : match env_var name vars with
  | Some v => exists x, first_named name vars x /\ v = trim x
  | None => unset name vars
  end.
Proof.
  induction vars as [|[k v] r IH]; cbn [env_var].
  - constructor.
  - destruct (uncased_eqb (trim k) name) eqn:E.
    + exists v. split; [|reflexivity]. exists [], k, r. split; [reflexivity|].
      split; [apply uncased_same_name; exact E|constructor].
    + assert (N : ~ same_name (trim k) name) by (rewrite <- uncased_same_name; congruence).
      destruct (env_var name r).
      * destruct IH as (x & (b & k' & a & -> & S & F) & ->). exists x. split; [|reflexivity].
        exists ((k, v) :: b), k', a. split; [reflexivity|]. split; [exact S|]. constructor; auto.
      * constructor; auto.
Qed.

Lemma profile_from_env_first vars key : match profile_from_env vars key with
  | Some p => exists x, first_named key vars x /\ p = mkProfile x
  | None => unset key vars
  end.
Proof.
  induction vars as [|[k v] r IH]; cbn [profile_from_env].
  - constructor.
  - destruct (uncased_eqb (trim k) key) eqn:E.
    + exists v. split; [|reflexivity]. exists [], k, r. split; [reflexivity|].
      split; [apply uncased_same_name; exact E|constructor].
    + assert (N : ~ same_name (trim k) key) by (rewrite <- uncased_same_name; congruence).
      destruct (profile_from_env r key).
      * destruct IH as (x & (b & k' & a & -> & S & F) & ->). exists x. split; [|reflexivity].
        exists ((k, v) :: b), k', a. split; [reflexivity|]. split; [exact S|]. constructor; auto.
      * constructor; auto.
Qed.

Lemma first_named_fun name vars x y : first_named name vars x -> first_named name vars y -> x = y.
Proof.
  intros (b & k & a & E & S & F) (b' & k' & a' & E' & S' & F'). subst vars.
  revert b' E' F'. induction b as [|kv b IH]; intros [|kv' b'] E' F'; cbn in E'.
  - congruence.
  - injection E' as <- _. inversion F'; subst. cbn in *. contradiction.
  - injection E' as -> _. inversion F; subst. cbn in *. contradiction.
  - injection E' as <- E'. inversion F; inversion F'; subst. eapply IH; eauto.
Qed.

Lemma first_named_set name vars x : first_named name vars x -> ~ unset name vars.
Proof.
  intros (b & k & a & -> & S & F) U. apply Forall_app in U. destruct U as [_ U]. inversion U; subst. auto.
Qed.

(** ** Messages *)
Lemma fmt_error_lines cwd e : fmt_error cwd e = join [10%N] (map (fmt_error cwd) (errors_of e)).
Proof.
  revert e. fix IH 1. intros [t p md path k [e'|]].
  - cbn [errors_of map fmt_error]. rewrite app_nil_r.
    assert (E : exists x l, map (fmt_error cwd) (errors_of e') = x :: l).
    { destruct e'. cbn. eauto. }
    destruct E as (x & l & E). rewrite (IH e'), E. cbn [join]. rewrite <- !app_assoc. reflexivity.
  - cbn [errors_of map join]. reflexivity.
Qed.

Lemma fmt_report cwd e : e_prev e = None ->
  (e_metadata e = None -> fmt_error cwd e = fmt_kind (e_kind e)) /\
  (forall md, e_metadata e = Some md -> e_path e = [] \/ e_profile e = None ->
     fmt_error cwd e = fmt_kind (e_kind e) ++ lit " in " ++ origin cwd md) /\
  (forall md p, e_metadata e = Some md -> e_profile e = Some p -> e_path e <> [] ->
     fmt_error cwd e = fmt_kind (e_kind e) ++ lit " for key " ++
       fmt_debug_str (md_interpolater md p (e_path e)) ++ lit " in " ++ origin cwd md).
Proof.
  destruct e as [t p md path k v]. cbn [e_prev e_metadata e_profile e_kind e_path]. intros ->.
  cbn [fmt_error]. unfold origin. repeat split.
  - intros ->. destruct p; rewrite !app_nil_r; reflexivity.
  - intros md' -> [->| ->].
    + destruct p; cbn [is_nil app]; destruct (md_source md'); rewrite ?app_nil_r; rewrite <- ?app_assoc; reflexivity.
    + cbn [app]. destruct (md_source md'); rewrite ?app_nil_r; rewrite <- ?app_assoc; reflexivity.
  - intros md' p' -> -> N. destruct path as [|x r]; [congruence|]. cbn [is_nil].
    destruct (md_source md'); rewrite ?app_nil_r; rewrite <- ?app_assoc; reflexivity.
Qed.

Lemma fmt_plain_str s : Forall unescaped s -> fmt_debug_str s = lit """" ++ s ++ lit """".
Proof.
  intros F. unfold fmt_debug_str. cbn [app lit]. f_equal. f_equal.
  induction F as [|c r H _ IH]; [reflexivity|]. cbn [flat_map]. rewrite IH. 
  assert (E : escape_debug (ch """") c = [c]); [|rewrite E; reflexivity].
  unfold unescaped in H. unfold escape_debug.
  change (ch """") with 34%N. change (ch "\") with 92%N.
  rewrite (proj2 (N.eqb_neq c 0)), (proj2 (N.eqb_neq c 9)), (proj2 (N.eqb_neq c 13)), (proj2 (N.eqb_neq c 10)),
    (proj2 (N.eqb_neq c 92)), (proj2 (N.eqb_neq c 34)), (proj2 (N.eqb_neq c 173)) by lia.
  destruct (N.ltb_spec c 32); [lia|]. destruct (N.leb_spec 127 c); [lia|]. reflexivity.
Qed.
