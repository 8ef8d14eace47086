(** C79: [Debug] output. *)
From Coq Require Import Ascii String ZArith QArith Qabs NArith Bool.
From Coq Require Import Floats.SpecFloat.
From Coq Require Import List.
From Verif Require Import Res BMap Str Profile Tag Num Value NumParse Fmt SpecNear SpecParse SpecShown SpecRt.
From Verif Require Import NearProofs NumParseProofs FloatShowProofs ProfileProofs Debug SpecDebug DebugProofs.
Import ListNotations.
Local Open Scope N_scope.

(** ** C79 *)

(** Values look alike exactly if they are the same but for the tags, whatever is printable. *)
Theorem C79_value : forall u v w, sound v -> sound w ->
  (debug_value u v = debug_value u w <-> untag v = untag w).
Proof.
  intros u v w V W. split; intros E.
  - assert (P := debug_prefix u v w [] [] V W). rewrite !app_nil_r in P. now apply P.
  - rewrite <- (debug_untag u v), <- (debug_untag u w). now rewrite E.
Qed.
Print Assumptions C79_value.

(** Within a longer text it can be told where the value ends. *)
Theorem C79_ends : forall u v w r r', sound v -> sound w ->
  debug_value u v ++ r = debug_value u w ++ r' -> untag v = untag w /\ r = r'.
Proof. exact debug_prefix. Qed.
Print Assumptions C79_ends.

(** What the text is: kinds, widths, escaped texts, shortest floats, commas and brackets. *)
Theorem C79_form : forall u v, sound v -> printed u v (debug_value u v).
Proof. exact debug_means. Qed.
Print Assumptions C79_form.

(** Floats of both formats read back as the same number. *)
Theorem C79_float :
  (forall x, valid_binary 53 1024 x = true ->
    parse_float 53 1024 (debug_float 53 1024 x) =
    match x with S754_finite _ _ _ | S754_zero _ => Some x | _ => None end) /\
  (forall x, valid_binary 24 128 x = true ->
    parse_float 24 128 (debug_float 24 128 x) =
    match x with S754_finite _ _ _ | S754_zero _ => Some x | _ => None end).
Proof.
  split; intros x V; apply parse_debugged; auto using ok_double, ok_single, hits_double, hits_single.
Qed.
Print Assumptions C79_float.

(** If control characters are taken for unprintable, the output is one line without any. *)
Theorem C79_one_line : forall u v, (forall c, c < 32 \/ c = 127 -> u c = true) -> sound v ->
  Forall (fun c => 32 <= c /\ c <> 127) (debug_value u v).
Proof. intros u v U V. exact (debug_visible u U v V). Qed.
Print Assumptions C79_one_line.

(** Values that look alike are equal, unless they hold a NaN and so equal nothing.  Equal values
    need not look alike. *)
Theorem C79_equal : forall u v w, sound v -> sound w -> debug_value u v = debug_value u w ->
  value_eqb v w = value_eqb v v.
Proof.
  intros u v w V W E. apply C79_value in E; [|assumption..].
  now rewrite <- eqb_untag, <- E, eqb_untag.
Qed.
Print Assumptions C79_equal.
Example C79_wider : let v := VNum tag_default (NInt U8 7) in let w := VNum tag_default (NInt U64 7) in
  value_eqb v w = true /\ debug_value (fun _ => false) v <> debug_value (fun _ => false) w.
Proof. split; [reflexivity|discriminate]. Qed.

(** Tags look alike exactly if profile and number are the same. *)
Theorem C79_tag : forall a b p q, a < 2 ^ 62 -> b < 2 ^ 62 ->
  (debug_tag (tag_new a p) = debug_tag (tag_new b q) <-> a = b /\ p = q).
Proof.
  intros a b p q A B. split; [now apply debug_tag_inj|]. now intros [-> ->].
Qed.
Print Assumptions C79_tag.

(** A tag shows its number and kind of profile, except the one that all values start with. *)
Theorem C79_tag_form : forall a p, a < 2 ^ 62 ->
  (a = 0 /\ p = PTDefault /\ debug_tag (tag_new a p) = lit "Tag::Default") \/
  (~ (a = 0 /\ p = PTDefault) /\ exists ds name, numeral ds (Z.of_N a) /\
     In (p, name) [(PTDefault, lit "Default"); (PTGlobal, lit "Global"); (PTCustom, lit "Custom")] /\
     debug_tag (tag_new a p) = lit "Tag(" ++ name ++ lit ", " ++ ds ++ lit ")").
Proof.
  intros a p A. unfold debug_tag, is_default.
  rewrite metadata_id_new, profile_tag_new, N.mod_small by exact A.
  destruct (N.eqb_spec (tag_raw (tag_new a p)) (tag_raw tag_default)) as [E|E].
  - left. assert (T : tag_new a p = tag_default) by (destruct (tag_new a p); cbn in E; now subst).
    assert (M := metadata_id_new a p). assert (P := profile_tag_new a p). rewrite T in M, P.
    rewrite N.mod_small in M by exact A. change (0 = a) in M. change (PTDefault = p) in P. auto.
  - right. split; [intros [-> ->]; now apply E|].
    exists (fmt_nat a), (debug_profile_tag p).
    rewrite FmtProofs.fmt_nat_decimal. assert (N := ShowProofs.decimal_numeral a).
    split; [exact N|]. split; [destruct p; cbn; auto|reflexivity].
Qed.
Print Assumptions C79_tag_form.

(** Some values, as the assertions of a test would show them. *)
Definition ascii_only (c : uchar) : bool := (c <? 32) || (126 <? c).
Definition some_value : value :=
  VDict (tag_new 3 PTCustom)
    [(lit "a", VArray tag_default [VNum tag_default (NInt U8 3); VNum tag_default (NF64 (decimal_to_float 53 1024 true 15 (-6)));
                          VEmpty tag_default EUnit; VBool tag_default true]);
     (lit "b", VString tag_default (lit "it's ""x""" ++ [10; 233]));
     (lit "c", VChar tag_default (ch "'"))].
Example C79_shown : debug_value ascii_only some_value =
  lit "Dict({""a"": Array([Num(U8(3)), Num(F64(-1.5e-5)), Empty(Unit), Bool(true)]), ""b"": String(""it's \""x\""\n\u{e9}""), ""c"": Char('\'')})".
Proof. vm_compute. reflexivity. Qed.
Example C79_sound : sound some_value.
Proof. repeat constructor. Qed.
Example C79_other : untag some_value <> untag (VDict (tag_new 3 PTCustom) []).
Proof. discriminate. Qed.
Example C79_floats :
  map (fun '(neg, d, k) => debug_float 53 1024 (decimal_to_float 53 1024 neg d k))
    [(false, 1%Z, 16%Z); (false, 9999999999999998%Z, 0%Z); (false, 1%Z, (-4)%Z); (true, 99%Z, (-6)%Z); (false, 5%Z, (-1)%Z); (true, 0%Z, 0%Z)] =
  [lit "1e16"; lit "9999999999999998.0"; lit "0.0001"; lit "-9.9e-5"; lit "0.5"; lit "-0.0"] /\
  debug_float 24 128 (decimal_to_float 24 128 false 1 (-1)) = lit "0.1".
Proof. split; vm_compute; reflexivity. Qed.
Example C79_tags : debug_tag (tag_new 5 PTGlobal) = lit "Tag(Global, 5)" /\ debug_tag (tag_new 0 PTDefault) = lit "Tag::Default" /\
  debug_tag (tag_new 0 PTCustom) = lit "Tag(Custom, 0)".
Proof. repeat split; reflexivity. Qed.
Example C79_controls : forall c, c < 32 \/ c = 127 -> ascii_only c = true.
Proof.
  intros c [H| ->]; [|reflexivity]. unfold ascii_only. apply N.ltb_lt in H. now rewrite H.
Qed.
