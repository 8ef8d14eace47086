(** C74: what text functions do to the bytes, letters and white space of a text; the keys that
    [Env::split] makes.  /repo/src/providers/env.rs:197-207, 428-431, 523-539;
    /repo/src/value/parse.rs:60-75, 158, 188-195. *)
From Coq Require Import Ascii String ZArith NArith Bool Lia.
From Coq Require Import List.
From Verif Require Import Res BMap Str Profile Tag Num Value Env SpecLookup SpecEnv SpecText
  StrProofs LookupProofs EnvProofs TextProofs.
Import ListNotations.
Local Open Scope N_scope.

(** ** Characters and bytes *)

(** Lengths in bytes are those of the encoding. *)
Theorem C74_length : forall s, byte_len s = N.of_nat (length (utf8 s)).
Proof. exact byte_len_utf8. Qed.
Print Assumptions C74_length.

(** A text is cut at a byte exactly if a character of it begins there, and then into the
    characters before and after. *)
Theorem C74_boundary : forall s i,
  (forall a b, split_at_byte s i = Some (a, b) <-> s = a ++ b /\ N.of_nat (length (utf8 a)) = i) /\
  (split_at_byte s i = None <-> forall a b, s = a ++ b -> N.of_nat (length (utf8 a)) <> i).
Proof.
  intros s i.
  assert (K : forall a b, split_at_byte s i = Some (a, b) <-> s = a ++ b /\ N.of_nat (length (utf8 a)) = i).
  { intros a b. rewrite <- byte_len_utf8. apply split_at_byte_spec. }
  split; [exact K|]. split.
  - intros H a b E L. assert (split_at_byte s i = Some (a, b)) by (apply K; auto). congruence.
  - intros H. destruct (split_at_byte s i) as [[a b]|] eqn:E; [|reflexivity].
    destruct (proj1 (K a b) eq_refl) as [E' L]. now destruct (H a b E').
Qed.
Print Assumptions C74_boundary.

(** The order of the keys of a map is the order of their bytes. *)
Theorem C74_order : forall a b, Forall (fun c => scalar c = true) a -> Forall (fun c => scalar c = true) b ->
  (cmp a b = Lt <-> bytes_before (utf8 a) (utf8 b)) /\
  (cmp a b = Gt <-> bytes_before (utf8 b) (utf8 a)) /\
  (cmp a b = Eq <-> utf8 a = utf8 b).
Proof.
  intros a b Fa Fb.
  assert (Ba : Forall (fun c => c < 1114112) a) by (eapply Forall_impl; [|exact Fa]; apply scalar_bound).
  assert (Bb : Forall (fun c => c < 1114112) b) by (eapply Forall_impl; [|exact Fb]; apply scalar_bound).
  assert (S := cmp_sym a b). assert (L1 := ucmp_lt a b Ba Bb). assert (L2 := ucmp_lt b a Bb Ba).
  change (ucmp a b) with (cmp a b) in L1. change (ucmp b a) with (cmp b a) in L2.
  rewrite S in L2.
  destruct (cmp a b) eqn:E; cbn [CompOpp] in *.
  - apply cmp_leibniz in E. subst b.
    assert (N : ~ bytes_before (utf8 a) (utf8 a)) by (intros K; now destruct (before_not _ _ K)).
    split; [|split]; split; intros K; try discriminate; tauto.
  - specialize (L1 eq_refl). destruct (before_not _ _ L1) as [N1 N2].
    split; [|split]; split; intros K; try discriminate; tauto.
  - specialize (L2 eq_refl). destruct (before_not _ _ L2) as [N1 N2].
    split; [|split]; split; intros K; try discriminate; try tauto. symmetry in K. contradiction.
Qed.
Print Assumptions C74_order.

(** One byte, two, three and four: [z], e acute, the euro sign, a smiling face. *)
Example C74_bytes_ex :
  utf8 [122; 233; 8364; 128512] = [122; 195; 169; 226; 130; 172; 240; 159; 152; 128] /\
  byte_len [122; 233; 8364; 128512] = 10 /\
  split_at_byte [122; 233; 8364; 128512] 3 = Some ([122; 233], [8364; 128512]) /\
  split_at_byte [122; 233; 8364; 128512] 2 = None /\
  forallb scalar [122; 233; 8364; 128512] = true /\
  cmp [122; 8364] [122; 128512] = Lt.
Proof. repeat split. Qed.

(** ** White space and case *)
Theorem C74_white : forall c, is_ws c = true <-> In c white_space.
Proof. exact is_ws_spec. Qed.
Print Assumptions C74_white.

Theorem C74_trim : forall s t, trim s = t <->
  exists w1 w2, s = w1 ++ t ++ w2 /\ all_white w1 /\ all_white w2 /\
    (forall c r, t = c :: r -> ~ In c white_space) /\ (forall c r, t = r ++ [c] -> ~ In c white_space).
Proof. exact trim_spec. Qed.
Print Assumptions C74_trim.

Theorem C74_lower : forall a b, lower a = b <-> lowered a b.
Proof. intros a b. symmetry. apply lowered_lower. Qed.
Print Assumptions C74_lower.

(** NEL (0x85) and the ideographic space are white space, the zero width space is not. *)
Example C74_white_ex :
  is_ws 133 = true /\ is_ws 12288 = true /\ is_ws 8203 = false /\
  trim ([133; 32] ++ lit "a b" ++ [12288]) = lit "a b" /\
  lower (lit "App_Z" ++ [201]) = lit "app_z" ++ [201].
Proof. repeat split. Qed.

(** ** Occurrences *)

(** There is exactly one way to cut a text, and [str::replace] puts the replacement at
    every cut. *)
Theorem C74_replace : forall pat to s, pat <> [] ->
  exists segs, cut pat s segs /\ (forall segs', cut pat s segs' -> segs' = segs) /\
    replace pat to s = join to segs.
Proof.
  intros pat to s NP. destruct (replace_cut pat to s NP) as (l & C & E). exists l. split; [exact C|]. split; [|exact E].
  intros l' C'. symmetry. exact (cut_fun _ _ _ C _ C').
Qed.
Print Assumptions C74_replace.

(** The empty text occurs before, between and after the characters. *)
Theorem C74_replace_empty : forall to s,
  replace [] to s = to ++ flat_map (fun c => c :: to) s.
Proof. exact replace_empty. Qed.
Print Assumptions C74_replace_empty.

Example C74_replace_ex :
  replace (lit "aa") (lit ".") (lit "baaaxaa") = lit "b.ax." /\
  cut (lit "aa") (lit "baaaxaa") [lit "b"; lit "ax"; []] /\
  replace [] (lit ".") (lit "ab") = lit ".a.b.".
Proof.
  split; [reflexivity|]. split; [|reflexivity].
  destruct (replace_cut (lit "aa") (lit ".") (lit "baaaxaa") ltac:(discriminate)) as (l & C & E).
  change (lit "baaaxaa") with (lit "b" ++ lit "aa" ++ lit "axaa").
  apply cut_at.
  - intros [|x a'] [b H]; [cbn in H; discriminate|cbn; lia].
  - change (lit "axaa") with (lit "ax" ++ lit "aa" ++ []). apply cut_at.
    + intros [|x [|y a']] [b H]; [cbn in H; discriminate|cbn in H; discriminate|cbn; lia].
    + apply cut_end. intros [|x a] [b H]; cbn in H; try discriminate.
Qed.

(** ** Variables *)

(** [Env::prefixed(prefix).split(pat)]: a variable whose name is the prefix in any case and
    then a key, with white space around, is kept under the segments of the key, with small
    letters and dots between; unless a segment is empty, and then it is not kept. *)
Theorem C74_split : forall prefix pat w1 p key w2 segs lsegs v,
  pat <> [] -> all_white w1 -> all_white w2 -> alike p prefix ->
  Forall (fun c => ~ In c white_space) (p ++ key) ->
  cut pat key segs -> Forall (fun g => ~ In dot g) segs -> Forall2 lowered segs lsegs ->
  (~ In [] segs ->
   env_iter (build_env (FromPrefix prefix) [OpSplit pat]) [(w1 ++ p ++ key ++ w2, v)] = Ret [(join [dot] lsegs, v)]) /\
  (In [] segs ->
   env_iter (build_env (FromPrefix prefix) [OpSplit pat]) [(w1 ++ p ++ key ++ w2, v)] = Ret []).
Proof.
  intros prefix pat w1 p key w2 segs lsegs v NP W1 W2 A NW C ND FL.
  assert (EL : lsegs = map lower segs).
  { clear - FL. induction FL as [|a b l l' H F IH]; [reflexivity|]. cbn. f_equal; [|exact IH].
    symmetry. now apply lowered_lower. }
  assert (NN := cut_nonnil _ _ _ C).
  assert (NC : Forall (fun q => contains_c dot q = false) segs).
  { eapply Forall_impl; [|exact ND]. intros q. apply contains_In. }
  assert (NW' := NW). apply Forall_app in NW'. destruct NW' as [_ NK].
  assert (ET : trim (w1 ++ p ++ key ++ w2) = p ++ key).
  { replace (w1 ++ p ++ key ++ w2) with (w1 ++ (p ++ key) ++ w2) by (now rewrite <- app_assoc).
    now apply trim_around. }
  assert (EK : mapped_key (FromPrefix prefix) [OpSplit pat] (p ++ key) = Some (join [dot] segs)).
  { unfold mapped_key. cbn [fold_left start_key].
    assert (LP := alike_lower _ _ A).
    assert (LN : length p = length prefix) by (rewrite <- (lower_length p), LP; apply lower_length).
    rewrite <- LN, firstn_app, PeanoNat.Nat.sub_diag, firstn_all, app_nil_r, LP, ueqb_refl.
    rewrite skipn_app, skipn_all, PeanoNat.Nat.sub_diag. cbn [op_key app skipn]. f_equal.
    destruct (replace_cut pat [dot] key NP) as (l & C' & ->). f_equal. exact (cut_fun _ _ _ C' _ C). }
  assert (EJ : trim (join [dot] segs) = join [dot] segs).
  { apply trim_none. apply join_forall; [|exact (cut_forall _ _ _ _ C NK)].
    constructor; [|constructor]. intros I. apply is_ws_spec in I. discriminate. }
  assert (EE : env_entry (build_env (FromPrefix prefix) [OpSplit pat]) (w1 ++ p ++ key ++ w2, v) =
    Ret (if existsb is_nil segs then None else Some (join [dot] lsegs, v))).
  { unfold env_entry. cbn [fst snd]. rewrite ET, (build_key (FromPrefix prefix)), EK. cbn [out_map].
    rewrite EJ, (split_join dot segs NN NC). destruct (existsb is_nil segs); [reflexivity|].
    change (ev_lowercase (build_env (FromPrefix prefix) [OpSplit pat])) with true.
    rewrite lower_join, EL. reflexivity. }
  assert (EN : is_nil (w1 ++ p ++ key ++ w2) = true -> In [] segs).
  { intros H. destruct (w1 ++ p ++ key ++ w2) eqn:E; [|discriminate].
    apply app_eq_nil in E. destruct E as [_ E]. apply app_eq_nil in E. destruct E as [_ E].
    apply app_eq_nil in E. destruct E as [-> _]. inversion C as [s H' E1 E2|a b l H' C' E1 E2]; subst; [now left|].
    apply app_eq_nil in E1. destruct E1 as [_ E1]. apply app_eq_nil in E1. destruct E1 as [E1 _]. contradiction. }
  set (e := build_env (FromPrefix prefix) [OpSplit pat]) in *. clearbody e.
  set (name := w1 ++ p ++ key ++ w2) in *. clearbody name.
  cbn [env_iter].
  match type of EE with ?l = _ => match goal with |- context [env_entry e ?x] => change (env_entry e x) with l end end.
  rewrite EE. split; intros I.
  - destruct (is_nil name); [now destruct I; apply EN|]. cbn [out_bind out_map].
    destruct (existsb is_nil segs) eqn:EX; [|reflexivity]. exfalso. apply existsb_exists in EX.
    destruct EX as ([|? ?] & H & K); [contradiction|discriminate].
  - destruct (is_nil name); [reflexivity|]. cbn [out_bind out_map].
    destruct (existsb is_nil segs) eqn:EX; [reflexivity|]. exfalso.
    assert (existsb is_nil segs = true) by (apply existsb_exists; exists []; auto). congruence.
Qed.
Print Assumptions C74_split.

(** [" App_DB__Max_Size"] with prefix [APP_] and separator [__] is [db.max_size]; and
    [APP_DB__] is not kept. *)
Example C74_split_ex :
  cut (lit "__") (lit "DB__Max_Size") [lit "DB"; lit "Max_Size"] /\
  lowered (lit "DB") (lit "db") /\ alike (lit "App_") (lit "APP_") /\
  env_iter (build_env (FromPrefix (lit "APP_")) [OpSplit (lit "__")])
    [(lit " App_DB__Max_Size", lit "3"); (lit "APP_DB__", lit "4")] = Ret [(lit "db.max_size", lit "3")].
Proof.
  split; [|split; [apply lowered_lower; reflexivity|split; [|reflexivity]]].
  - change (lit "DB__Max_Size") with (lit "DB" ++ lit "__" ++ lit "Max_Size"). apply cut_at.
    + intros [|x [|y a']] [b H]; cbn in H; try discriminate. cbn. lia.
    + apply cut_end. intros [|x1 [|x2 [|x3 [|x4 [|x5 [|x6 [|x7 [|x8 a]]]]]]]] [b H]; cbn in H; try discriminate. destruct a; discriminate.
  - repeat (apply Forall2_cons; [first [left; reflexivity | right; left; cbn [letters];
      repeat (first [left; reflexivity | right]); fail | right; right; cbn [letters];
      repeat (first [left; reflexivity | right])]|]). apply Forall2_nil.
Qed.
