(** C78: Figments built in threads that share the tag counter. *)
From Coq Require Import Ascii String ZArith NArith Bool.
From Coq Require Import List.
From Verif Require Import Res BMap Str Profile Tag Num Value Metadata Err Coalesce Figment De Display.
From Verif Require Import SpecTwin TwinProofs.
Import ListNotations.
Local Open Scope N_scope.

(** ** C78 *)

(** However the acts of the threads interleave, each thread ends with the Figments that it would
    have made alone, but for the numbers of their tags; and even these have the same order. *)
Theorem C78_alone : forall l s n i, Forall (fun x => ordinary_act (snd x)) l ->
  together l (fun _ => no_figments) counter_init = (Ret s, n) ->
  exists v m R, alone (acts_of i l) no_figments counter_init = (Ret v, m) /\
    order_keeping R /\ forall r, figment_twin (tag_twin R) (v r) (s i r).
Proof.
  intros l s n i HL E.
  destruct (together_inv i l _ _ _ _ HL E _ _ _ inv_start) as (v & m & R & E1 & HO & _ & _ & HV).
  now exists v, m, R.
Qed.
Print Assumptions C78_alone.

(** Twins answer every question alike. *)
Theorem C78_answers : forall R f g, order_keeping R -> figment_twin (tag_twin R) f g ->
  let T := tag_twin R in
  (forall i t, numberless true t -> res_twin T (dval_twin T) (extract i f t) (extract i g t)) /\
  (forall i t k, numberless true t -> res_twin T (dval_twin T) (extract_inner i f t k) (extract_inner i g t k)) /\
  (forall k, res_twin T (value_twin T) (find_value f k) (find_value g k)) /\
  (forall k, find_metadata f k = find_metadata g k) /\
  (forall k, fig_contains f k = fig_contains g k) /\
  (forall t t', T t t' -> get_metadata f t = get_metadata g t') /\
  fig_metadata f = fig_metadata g /\
  fig_profiles f = fig_profiles g.
Proof.
  intros R f g HR HF T. pose proof (tag_twin_good R HR) as HG. repeat split.
  - intros i t U. now apply extract_twin.
  - intros i t k U. now apply extract_inner_twin.
  - intros k. now apply find_value_twin.
  - intros k. now apply (find_metadata_twin T).
  - intros k. now apply (contains_twin T).
  - intros t t' HT. unfold get_metadata. apply (mdt_get T HG); [exact HT|apply HF].
  - now apply (metadata_twin T).
  - now apply (profiles_twin T).
Qed.
Print Assumptions C78_answers.

(** Twin errors read the same, to people and to programs. *)
Theorem C78_errors : forall T e e', error_twin T e e' ->
  (forall cwd, fmt_error cwd e = fmt_error cwd e') /\
  e_profile e = e_profile e' /\ e_metadata e = e_metadata e' /\ e_path e = e_path e' /\
  e_kind e = e_kind e' /\ e_missing e = e_missing e' /\ e_count e = e_count e'.
Proof.
  intros T e e' H. induction H as [|t t' p m path k e e' HT HE (H1 & _ & _ & _ & _ & _ & H2)].
  - repeat split; reflexivity.
  - repeat split; try reflexivity; [|cbn [e_count]; now rewrite H2].
    intros cwd. cbn [fmt_error]. now rewrite H1.
Qed.
Print Assumptions C78_errors.

(** Tags are all that may differ. *)
Theorem C78_only_tags :
  (forall v v', value_twin eq v v' -> v = v') /\ (forall e e', error_twin eq e e' -> e = e').
Proof. split; [apply value_twin_eq|apply error_twin_eq]. Qed.
Print Assumptions C78_only_tags.

(** End to end: what a thread extracts is the same, or fails with the same words, as if the thread
    had been alone. *)
Theorem C78_end_to_end : forall l s n i r interp t, Forall (fun x => ordinary_act (snd x)) l ->
  numberless true t ->
  together l (fun _ => no_figments) counter_init = (Ret s, n) ->
  exists v m R, alone (acts_of i l) no_figments counter_init = (Ret v, m) /\ order_keeping R /\
    match extract interp (v r) t, extract interp (s i r) t with
    | Ok x, Ok y => dval_twin (tag_twin R) x y
    | Err e, Err e' => (forall cwd, fmt_error cwd e = fmt_error cwd e') /\ e_metadata e = e_metadata e' /\
        e_kind e = e_kind e' /\ e_path e = e_path e' /\ e_profile e = e_profile e'
    | _, _ => False
    end.
Proof.
  intros l s n i r interp t HL U E. destruct (C78_alone l s n i HL E) as (v & m & R & E1 & HR & HV).
  exists v, m, R. split; [exact E1|]. split; [exact HR|].
  destruct (C78_answers R (v r) (s i r) HR (HV r)) as (HX & _).
  destruct (HX interp t U) as [x y H|e e' H]; [exact H|].
  destruct (C78_errors _ _ _ H) as (H1 & H2 & H3 & H4 & H5 & _). repeat split; auto.
Qed.
Print Assumptions C78_end_to_end.

(** *** A case: two threads, the acts of which alternate *)
Definition tw_loc : location := mkLoc (lit "main.rs") 3 5.
Definition tw_file (path : ustr) (d : dict) : provider :=
  mkProvider (md_from (lit "TOML file") (SFile path)) (Ok [(p_default, d)]) None None.
Definition tw_num (n : Z) : value := VNum tag_default (NInt U16 n).
Definition tw_first : act := AProvide 0 tw_loc Merge (tw_file (lit "/a.toml") [(lit "port", tw_num 80)]).
Definition tw_second : act := AProvide 0 tw_loc Join
  (tw_file (lit "/b.toml") [(lit "name", VString tag_default (lit "b")); (lit "port", tw_num 81)]).
Definition tw_run : list (nat * act) :=
  [(1%nat, tw_first); (2%nat, tw_second); (1%nat, ASelect 0 p_global); (2%nat, tw_first);
   (1%nat, tw_second); (2%nat, ACompose 1 tw_loc Merge 0)].
Definition tw_ty (p : ty) : ty :=
  TStruct (lit "Config") (lit "Config") false [(lit "name", TString); (lit "port", TTagged p)].
Definition tw_after (x : out vars * N) : figment := match x with (Ret v, _) => v 0%nat | _ => fig_new end.
Definition tw_both (x : out (nat -> vars) * N) : figment :=
  match x with (Ret s, _) => s 2%nat 0%nat | _ => fig_new end.
Definition tw_one : figment := tw_after (alone (acts_of 2 tw_run) no_figments counter_init).
Definition tw_two : figment := tw_both (together tw_run (fun _ => no_figments) counter_init).
Definition tw_words (x : res error dval) : option ustr :=
  match x with Ok _ => None | Err e => Some (fmt_error None e) end.

Example C78_ex_hyps :
  Forall (fun x => ordinary_act (snd x)) tw_run /\ numberless true (tw_ty (TInt U16)) /\
  numberless true (tw_ty TBool) /\
  exists s n, together tw_run (fun _ => no_figments) counter_init = (Ret s, n).
Proof.
  assert (HN : forall p, numberless true p -> numberless true (tw_ty p)).
  { intros p HP. apply nl_struct; [intros [E|[E|[E|[]]]]; discriminate|].
    intros k t [E|[E|[]]]; injection E as <- <-; [apply nl_basic; cbn; tauto|now apply nl_tagged]. }
  assert (C1 : ~ claims_tag (lit "port")) by (intros [E|E]; discriminate E).
  assert (C2 : ~ claims_tag (lit "name")) by (intros [E|E]; discriminate E).
  split; [|split; [apply HN; apply nl_int|split; [apply HN; apply nl_basic; cbn; tauto|]]].
  - repeat constructor; cbn; auto.
  - assert (E : (match together tw_run (fun _ => no_figments) counter_init with (Ret _, _) => true | _ => false end) = true)
      by (vm_compute; reflexivity).
    destruct (together tw_run (fun _ => no_figments) counter_init) as [[s| |] n]; try discriminate E. now exists s, n.
Qed.

(** The tags differ, the result is the same; and so is the complaint about a value of the wrong
    type, which names the file. *)
Example C78_ex :
  extract Exact tw_one (tw_ty (TInt U16)) =
    Ok (EVStruct [(lit "name", EVStr (lit "b"));
                  (lit "port", EVStruct [(tagged_tag, EVTag (tag_new 2 PTDefault)); (tagged_value, EVInt U16 80)])]) /\
  extract Exact tw_two (tw_ty (TInt U16)) =
    Ok (EVStruct [(lit "name", EVStr (lit "b"));
                  (lit "port", EVStruct [(tagged_tag, EVTag (tag_new 3 PTDefault)); (tagged_value, EVInt U16 80)])]) /\
  option_map md_source (get_metadata tw_one (tag_new 2 PTDefault)) = Some (Some (SFile (lit "/a.toml"))) /\
  option_map md_source (get_metadata tw_two (tag_new 3 PTDefault)) = Some (Some (SFile (lit "/a.toml"))) /\
  tw_words (extract Exact tw_one (tw_ty TBool)) = tw_words (extract Exact tw_two (tw_ty TBool)) /\
  tw_words (extract Exact tw_two (tw_ty TBool)) <> None.
Proof. repeat split; vm_compute; try reflexivity. discriminate. Qed.

(** A configuration that claims a tag is believed: whose value it says it is depends on what other
    threads did before. *)
Definition tw_forged : act := AProvide 0 tw_loc Merge
  (tw_file (lit "/c.toml") [(lit "port", VDict tag_default [(tagged_tag, VNum tag_default (NInt U64 1)); (tagged_value, tw_num 80)])]).
Definition tw_forgery : list (nat * act) := [(1%nat, tw_first); (2%nat, tw_forged)].
Definition tw_origin (f : figment) : option (option source) :=
  match extract_inner Exact f (TTagged (TInt U16)) (lit "port") with
  | Ok (EVStruct [(_, EVTag t); _]) => option_map md_source (get_metadata f t)
  | _ => None
  end.

(** So [untagged] is needed, for without it the answer depends on the other threads: alone, the
    thread is told that the port is from the file; after one act of another, that it is from
    nowhere. *)
Theorem C78_forged_refuted :
  ~ (forall l s n i v m, together l (fun _ => no_figments) counter_init = (Ret s, n) ->
       alone (acts_of i l) no_figments counter_init = (Ret v, m) ->
       forall r, tw_origin (v r) = tw_origin (s i r)).
Proof.
  intros H.
  assert (E1 : tw_origin (tw_after (alone (acts_of 2 tw_forgery) no_figments counter_init)) =
               Some (Some (SFile (lit "/c.toml")))) by (vm_compute; reflexivity).
  assert (E2 : tw_origin (tw_both (together tw_forgery (fun _ => no_figments) counter_init)) = None)
    by (vm_compute; reflexivity).
  destruct (alone (acts_of 2 tw_forgery) no_figments counter_init) as [[v| |] m] eqn:EA;
    [|vm_compute in E1; discriminate E1|vm_compute in E1; discriminate E1].
  assert (E3 : (match together tw_forgery (fun _ => no_figments) counter_init with (Ret _, _) => true | _ => false end) = true)
    by (vm_compute; reflexivity).
  destruct (together tw_forgery (fun _ => no_figments) counter_init) as [[s| |] n] eqn:ET; try discriminate E3.
  specialize (H _ _ _ 2%nat _ _ ET EA 0%nat). 
  change (tw_origin (v 0%nat) = Some (Some (SFile (lit "/c.toml")))) in E1.
  change (tw_origin (s 2%nat 0%nat) = None) in E2. rewrite E1, E2 in H. discriminate H.
Qed.
Print Assumptions C78_forged_refuted.
