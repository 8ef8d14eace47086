(** What messages show of the values they are about (C61). *)
From Coq Require Import Ascii String ZArith QArith Qabs NArith Bool Lia.
From Coq Require Import Floats.SpecFloat.
From Coq Require Import List.
From Verif Require Import Res BMap Str Tag Num Value NumParse Err Fmt FmtProofs SpecNear NearProofs SpecShow ShowProofs SpecParse
  SpecShown FloatShowProofs ShortestProofs ActualProofs
  Profile Metadata Path Env Display SpecDisplay MoreProofs SpecQuote QuoteProofs.
Import ListNotations.

(** A float is shown as a decimal fraction that, rounded, is that float again; it is not merely
    close to it. *)
Theorem C61_float : forall x, valid_binary 53 1024 x = true ->
  match x with S754_finite _ _ _ | S754_zero _ => True | _ => False end ->
  exists neg m e, decimal_text (fmt_f64 x) neg m e /\ rounds_to 53 1024 neg (decimal_value neg m e) x.
Proof. exact float_shown. Qed.
Print Assumptions C61_float.

(** No decimal with fewer digits would do, and none with as many is nearer to the float. *)
Theorem C61_shortest : forall x, valid_binary 53 1024 x = true ->
  match x with S754_finite _ _ _ | S754_zero _ => True | _ => False end ->
  exists neg m e n, decimal_text (fmt_f64 x) neg m e /\ rounds_to 53 1024 neg (decimal_value neg m e) x /\
    in_digits n (decimal_value neg m e) /\
    forall n' w, in_digits n' w -> rounds_to 53 1024 neg w x ->
      (n <= n')%Z /\ (n' = n -> (Qabs (decimal_value neg m e - fvalue x) <= Qabs (w - fvalue x))%Q).
Proof. exact float_shortest. Qed.
Print Assumptions C61_shortest.

(** An integer is shown in full. *)
Theorem C61_integer : forall z, exists ds, numeral ds (Z.abs z) /\
  fmt_int z = (if (z <? 0)%Z then [ch "-"] else []) ++ ds.
Proof.
  intros z. rewrite fmt_int_show. unfold show_int. destruct (Z.ltb_spec z 0) as [L|L].
  - exists (decimal (Z.to_N (- z))). split; [|reflexivity]. assert (N := decimal_numeral (Z.to_N (- z))).
    rewrite Z2N.id in N by lia. rewrite Z.abs_neq by lia. exact N.
  - exists (decimal (Z.to_N z)). split; [|reflexivity]. assert (N := decimal_numeral (Z.to_N z)).
    rewrite Z2N.id in N by lia. rewrite Z.abs_eq by lia. exact N.
Qed.
Print Assumptions C61_integer.

(** Quoted text can be read back, and where the quotation ends can be told. *)
Theorem C61_text : forall s t r r', fmt_debug_str s ++ r = fmt_debug_str t ++ r' -> s = t /\ r = r'.
Proof. exact fmt_debug_str_prefix. Qed.
Print Assumptions C61_text.

(** Two things found that are shown alike are the same. *)
Theorem C61_found : forall a b, identified a -> identified b -> fmt_actual a = fmt_actual b -> a = b.
Proof. exact fmt_actual_inj. Qed.
Print Assumptions C61_found.

(** Scalars are shown alike exactly if they are the same but for tag and integer width; of a
    dictionary or an array only the kind is shown. *)
Theorem C61_value : forall v w, proper v -> proper w ->
  fmt_actual (to_actual v) = fmt_actual (to_actual w) <-> alike v w.
Proof.
  intros v w V W. rewrite <- alike_shown. split; [|congruence].
  apply fmt_actual_inj; apply identified_value; assumption.
Qed.
Print Assumptions C61_value.

(** So is a whole message: with the same expectation, equal messages are about equal things. *)
Theorem C61_message : forall a b exp, identified a -> identified b ->
  (fmt_kind (KInvalidType a exp) = fmt_kind (KInvalidType b exp) -> a = b) /\
  (fmt_kind (KInvalidValue a exp) = fmt_kind (KInvalidValue b exp) -> a = b).
Proof.
  intros a b exp A B. split; cbn [fmt_kind]; intros E; apply app_inv_head in E;
    apply app_inv_tail in E; apply fmt_actual_inj; assumption.
Qed.
Print Assumptions C61_message.

(** What serde has no word for may be described with the words for something else. *)
Theorem C61_other_refuted : ~ forall a b, fmt_actual a = fmt_actual b -> a = b.
Proof. intros H. discriminate (H (AOther (lit "bool true")) (ABool true) eq_refl). Qed.
Print Assumptions C61_other_refuted.

(** The problem itself can be told from the message. *)
Theorem C61_problem : forall a b x y, trouble_of a = Some x -> trouble_of b = Some y ->
  fmt_kind a = fmt_kind b -> x = y.
Proof.
  intros a b x y A B E.
  destruct a; cbn in A; try discriminate A; injection A as <-; destruct b; cbn in B; try discriminate B;
    injection B as <-; try reflexivity; cbn in E; discriminate E.
Qed.
Print Assumptions C61_problem.

(** So can the field, the length or the number. *)
Theorem C61_subject :
  (forall a b, fmt_kind (KMissingField a) = fmt_kind (KMissingField b) -> a = b) /\
  (forall a b, fmt_kind (KDuplicateField a) = fmt_kind (KDuplicateField b) -> a = b) /\
  (forall a b exp, fmt_kind (KInvalidLength a exp) = fmt_kind (KInvalidLength b exp) -> a = b) /\
  (forall a b, fmt_kind (KISizeOutOfRange a) = fmt_kind (KISizeOutOfRange b) -> a = b) /\
  (forall a b, fmt_kind (KUSizeOutOfRange a) = fmt_kind (KUSizeOutOfRange b) -> a = b) /\
  (forall a b exp, fmt_kind (KUnknownField a exp) = fmt_kind (KUnknownField b exp) -> a = b) /\
  (forall a b exp, fmt_kind (KUnknownVariant a exp) = fmt_kind (KUnknownVariant b exp) -> a = b).
Proof.
  repeat split; intros a b; intros; repeat match goal with H : context [fmt_kind] |- _ => cbn [fmt_kind] in H end;
    match goal with H : _ = _ |- _ => apply app_inv_head in H; try apply app_inv_tail in H end; auto;
    match goal with H : _ = _ |- _ => first [apply fmt_int_inj in H|apply fmt_nat_inj in H] end; exact H.
Qed.
Print Assumptions C61_subject.

(** So can the names that would have been accepted: they are what is between backquotes. *)
Theorem C61_expected :
  (forall l, Forall (fun s => ~ In (ch "`") s) l -> quotes None (fmt_one_of l) = l) /\
  (forall a l l', Forall (fun s => ~ In (ch "`") s) l -> Forall (fun s => ~ In (ch "`") s) l' ->
     fmt_kind (KUnknownField a l) = fmt_kind (KUnknownField a l') \/
     fmt_kind (KUnknownVariant a l) = fmt_kind (KUnknownVariant a l') -> l = l').
Proof.
  split; [exact quotes_one_of|]. intros a l l' H H' [E|E]; cbn [fmt_kind] in E;
    do 3 apply app_inv_head in E; apply app_inv_tail in E;
    rewrite <- (quotes_one_of l H), <- (quotes_one_of l' H'); now rewrite E.
Qed.
Print Assumptions C61_expected.

(** The wording of every message, as documented by the messages the project's own tests expect. *)
Theorem C61_words : forall (a : actual) (n : N) (z : Z) (v e : ustr) (l : list ustr),
  fmt_kind (KMessage v) = v /\
  fmt_kind (KInvalidType a e) = lit "invalid type: found " ++ fmt_actual a ++ lit ", expected " ++ e /\
  fmt_kind (KInvalidValue a e) = lit "invalid value " ++ fmt_actual a ++ lit ", expected " ++ e /\
  fmt_kind (KInvalidLength n e) = lit "invalid length " ++ fmt_nat n ++ lit ", expected " ++ e /\
  fmt_kind (KUnknownField v l) = lit "unknown field: found `" ++ v ++ lit "`, expected `" ++ fmt_one_of l ++ lit "`" /\
  fmt_kind (KUnknownVariant v l) = lit "unknown variant: found `" ++ v ++ lit "`, expected `" ++ fmt_one_of l ++ lit "`" /\
  fmt_kind (KMissingField v) = lit "missing field `" ++ v ++ lit "`" /\
  fmt_kind (KDuplicateField v) = lit "duplicate field `" ++ v ++ lit "`" /\
  fmt_kind (KISizeOutOfRange z) = lit "signed integer `" ++ fmt_int z ++ lit "` is out of range" /\
  fmt_kind (KUSizeOutOfRange z) = lit "unsigned integer `" ++ fmt_int z ++ lit "` is out of range" /\
  fmt_kind (KUnsupported a) = lit "unsupported type `" ++ fmt_actual a ++ lit "`" /\
  fmt_kind (KUnsupportedKey a e) = lit "unsupported type `" ++ fmt_actual a ++ lit "` for key: must be `" ++ e ++ lit "`".
Proof. intros. repeat split. Qed.
Print Assumptions C61_words.

(** The words for what was found. *)
Theorem C61_called : forall (b : bool) (z : Z) (f : SpecFloat.spec_float) (c : uchar) (s : ustr) (l : list N),
  Forall (fun x => fmt_actual (fst x) = snd x)
    [(ABool true, lit "bool true"); (ABool false, lit "bool false");
     (AUnsigned z, lit "unsigned int `" ++ fmt_int z ++ lit "`");
     (ASigned z, lit "signed int `" ++ fmt_int z ++ lit "`");
     (AFloat f, lit "float `" ++ fmt_f64 f ++ lit "`");
     (AChar c, lit "char " ++ fmt_debug_char c); (AStr s, lit "string " ++ fmt_debug_str s);
     (ABytes l, lit "bytes [" ++ join (lit ", ") (map fmt_nat l) ++ lit "]");
     (AUnit, lit "unit"); (AOption, lit "option"); (ANewtypeStruct, lit "new-type struct");
     (ASeq, lit "sequence"); (AMap, lit "map"); (AEnum, lit "enum"); (AUnitVariant, lit "unit variant");
     (ANewtypeVariant, lit "new-type variant"); (ATupleVariant, lit "tuple variant");
     (AStructVariant, lit "struct variant"); (AOther s, s)].
Proof. intros. repeat constructor. Qed.
Print Assumptions C61_called.

(** One message of each kind. *)
Example C61_ex_words :
  fmt_kind (KInvalidType (ABool true) (lit "a string")) = lit "invalid type: found bool true, expected a string" /\
  fmt_kind (KInvalidValue (AUnsigned 300) (lit "u8")) = lit "invalid value unsigned int `300`, expected u8" /\
  fmt_kind (KInvalidLength 2 (lit "a tuple of size 3")) = lit "invalid length 2, expected a tuple of size 3" /\
  fmt_kind (KUnknownField (lit "a") []) = lit "unknown field: found `a`, expected `none`" /\
  fmt_kind (KUnknownField (lit "a") [lit "b"]) = lit "unknown field: found `a`, expected ``b``" /\
  fmt_kind (KUnknownVariant (lit "a") [lit "b"; lit "c"]) = lit "unknown variant: found `a`, expected ``b` or `c``" /\
  fmt_kind (KUnknownVariant (lit "a") [lit "b"; lit "c"; lit "d"]) =
    lit "unknown variant: found `a`, expected `one of `b`, `c`, `d``" /\
  fmt_kind (KMissingField (lit "a")) = lit "missing field `a`" /\
  fmt_kind (KDuplicateField (lit "a")) = lit "duplicate field `a`" /\
  fmt_kind (KISizeOutOfRange (-5)) = lit "signed integer `-5` is out of range" /\
  fmt_kind (KUSizeOutOfRange 5) = lit "unsigned integer `5` is out of range" /\
  fmt_kind (KUnsupported AUnit) = lit "unsupported type `unit`" /\
  fmt_kind (KUnsupportedKey ASeq (lit "string")) = lit "unsupported type `sequence` for key: must be `string`".
Proof. vm_compute. auto 20. Qed.

(** A message about an environment variable names the prefix and the keys in capitals. *)
Theorem C54_env : forall cwd e r md p, e_prev e = None -> e_metadata e = Some md -> e_profile e = Some p ->
  e_path e <> [] -> (md = env_metadata r \/ exists l, md = md_with_location (env_metadata r) l) ->
  exists ks prefix,
    Forall2 (Forall2 capital) (e_path e) ks /\
    match ev_prefix r with
    | Some x => exists x', Forall2 capital x x' /\ prefix = lit "`" ++ x' ++ lit "` "
    | None => prefix = []
    end /\
    fmt_error cwd e = fmt_kind (e_kind e) ++ lit " for key " ++ fmt_debug_str (join (lit ".") ks) ++
      lit " in " ++ prefix ++ lit "environment variable(s)".
Proof.
  intros cwd e r md p V M P N X.
  assert (XM : origin cwd md = origin cwd (env_metadata r) /\ md_interpolater md = md_interpolater (env_metadata r))
    by (destruct X as [->|(l & ->)]; split; reflexivity).
  destruct XM as [XO XI]. clear X.
  assert (U : forall s, Forall2 capital s (upper s)).
  { induction s as [|c s IH]; constructor; [|exact IH]. unfold capital, upper_c.
    destruct ((97 <=? c)%N && (c <=? 122)%N) eqn:E.
    - left. apply andb_true_iff in E. destruct E as [E1 E2]. apply N.leb_le in E1, E2. auto.
    - right. split; [|reflexivity]. intros [A B]. apply N.leb_le in A, B. rewrite A, B in E. discriminate. }
  exists (map upper (e_path e)), (match ev_prefix r with Some x => lit "`" ++ upper x ++ lit "` " | None => [] end).
  split; [clear -U; induction (e_path e); constructor; auto|].
  split; [destruct (ev_prefix r); eauto|].
  rewrite (proj2 (proj2 (fmt_report cwd e V)) _ _ M P N), XO, XI.
  unfold env_metadata, origin. destruct (ev_prefix r); cbn [md_interpolater md_with_interpolater md_named md_source md_name];
    rewrite <- ?app_assoc; reflexivity.
Qed.
Print Assumptions C54_env.
(** The place in the code is given as file, line and column, and a custom source as it is; a file
    is C38's. *)
Theorem C54_origin : forall cwd,
  (forall l, fmt_source cwd (SCode l) =
     loc_file l ++ [ch ":"] ++ decimal (loc_line l) ++ [ch ":"] ++ decimal (loc_col l)) /\
  (forall s, fmt_source cwd (SCustom s) = s).
Proof.
  intros cwd. split; [|reflexivity]. intros l. unfold fmt_source, Path.source_str, fmt_location.
  rewrite !fmt_nat_decimal. reflexivity.
Qed.
Print Assumptions C54_origin.
Example C54_ex_origin : fmt_source None (SCode (mkLoc (lit "src/main.rs") 12 5)) = lit "src/main.rs:12:5".
Proof. vm_compute. reflexivity. Qed.

Example C54_ex_env :
  let md := env_metadata (env_prefixed (lit "app_")) in
  fmt_error None (MkError tag_default (Some p_default) (Some md) [lit "db"; lit "port"] (KMissingField (lit "x")) None)
  = lit "missing field `x` for key ""DB.PORT"" in `APP_` environment variable(s)".
Proof. vm_compute. reflexivity. Qed.

Lemma special_not_decimal s neg m e : decimal_text s neg m e -> ~ In s [lit "inf"; lit "-inf"; lit "NaN"].
Proof.
  intros D.
  assert (X : exists c, In c s /\ is_digit c).
  { destruct D as [sgn neg mt m p ex e _ M _].
    assert (Y : exists c, In c mt /\ is_digit c).
    { destruct M as [ip N F|ip fp N F1 F2].
      - destruct ip as [|c ip]; [congruence|]. exists c. inversion F; subst. split; [left; reflexivity|assumption].
      - destruct ip as [|c ip]; [destruct fp as [|c fp]; [cbn in N; congruence|]|].
        + exists c. inversion F2; subst. split; [right; left; reflexivity|assumption].
        + exists c. inversion F1; subst. split; [left; reflexivity|assumption]. }
    destruct Y as (c & Y & Z). exists c. split; [|exact Z]. apply in_or_app. right. apply in_or_app. left. exact Y. }
  destruct X as (c & I & Dc). unfold is_digit in Dc. intros [<-|[<-|[<-|[]]]]; cbn in I, Dc;
    repeat (destruct I as [<-|I]; [cbn in Dc; lia|]); destruct I.
Qed.
(** What is not a number of digits is shown as a word, and only as that. *)
Theorem C61_special :
  fmt_f64 (S754_infinity false) = lit "inf" /\ fmt_f64 (S754_infinity true) = lit "-inf" /\ fmt_f64 S754_nan = lit "NaN" /\
  forall x, valid_binary 53 1024 x = true ->
    match x with S754_finite _ _ _ | S754_zero _ => True | _ => False end ->
    ~ In (fmt_f64 x) [lit "inf"; lit "-inf"; lit "NaN"].
Proof.
  split; [reflexivity|]. split; [reflexivity|]. split; [reflexivity|]. intros x V F.
  destruct (C61_float x V F) as (neg & m & e & D & _). intros I. apply (special_not_decimal _ _ _ _ D). exact I.
Qed.
Print Assumptions C61_special.

(** 0.1, the smallest double, and 2/3 in single precision widened. *)
Example C61_ex_float :
  fmt_f64 (S754_finite false 7205759403792794 (-56)) = lit "0.1"
  /\ valid_binary 53 1024 (S754_finite false 7205759403792794 (-56)) = true
  /\ length (fmt_f64 (S754_finite true 1 (-1074))) = 327%nat
  /\ fmt_f64 (f32_to_f64 (S754_finite false 11184811 (-24))) = lit "0.6666666865348816".
Proof.
  split; [vm_compute; reflexivity|]. split; [vm_compute; reflexivity|]. split; vm_compute; reflexivity.
Qed.
(** Of 1e16 + 2 there are seventeen digits; of the smallest double one, the nearer of 4 and 5 (times
    10^-324) though both would do. *)
Example C61_ex_shortest :
  fmt_f64 (S754_finite false 5000000000000001 1) = lit "10000000000000002" /\
  decimal_to_float 53 1024 false 4 (-324) = S754_finite false 1 (-1074) /\
  decimal_to_float 53 1024 false 5 (-324) = S754_finite false 1 (-1074) /\
  last (fmt_f64 (S754_finite false 1 (-1074))) 0%N = ch "5".
Proof. repeat split; vm_compute; reflexivity. Qed.
Example C61_ex_value :
  proper (VNum tag_default (NF32 (S754_finite false 11184811 (-24)))) /\
  proper (VNum tag_default (NF64 (S754_finite false 6004799503160661 (-53)))) /\
  fmt_actual (to_actual (VNum tag_default (NF64 (S754_finite false 6004799503160661 (-53))))) = lit "float `0.6666666666666666`" /\
  alike (VNum tag_default (NInt U8 7)) (VNum (Tag 3) (NInt U128 7)) /\
  ~ alike (VNum tag_default (NInt U8 7)) (VNum (Tag 3) (NInt I8 7)) /\
  fmt_actual (to_actual (VString tag_default (ch """" :: 7%N :: lit "\"))) = lit "string ""\""\u{7}\\""".
Proof.
  split; [reflexivity|]. split; [reflexivity|]. split; [vm_compute; reflexivity|].
  split; [constructor; reflexivity|]. split; [|vm_compute; reflexivity].
  intros H. apply alike_shown in H. discriminate H.
Qed.
