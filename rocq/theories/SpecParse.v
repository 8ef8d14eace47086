(** What strings mean as values, stated without the parser. *)
From Coq Require Import Ascii String ZArith NArith Bool.
From Coq Require Import List.
From Verif Require Import Res BMap Str Profile Tag Num Value NumParse SpecNear.
Import ListNotations.
Local Open Scope N_scope.

Definition ascii_char (c : uchar) : Prop := c < 128.

(** ** Quoted strings *)

(** Hexadecimal digits and the number a list of them denotes, most significant first. *)
Inductive hex_digit : uchar -> N -> Prop :=
| hd_digit (d : N) : d < 10 -> hex_digit (ch "0" + d) d
| hd_lower (d : N) : d < 6 -> hex_digit (ch "a" + d) (10 + d)
| hd_upper (d : N) : d < 6 -> hex_digit (ch "A" + d) (10 + d).
Inductive hex_number : ustr -> N -> Prop :=
| hn_nil : hex_number [] 0
| hn_snoc s n c d : hex_number s n -> hex_digit c d -> hex_number (s ++ [c]) (16 * n + d).

(** The one-letter escapes. *)
Inductive letter_escape : uchar -> uchar -> Prop :=
| le_quote : letter_escape (ch """") (ch """")
| le_backslash : letter_escape (ch "\") (ch "\")
| le_b : letter_escape (ch "b") 8
| le_f : letter_escape (ch "f") 12
| le_n : letter_escape (ch "n") 10
| le_r : letter_escape (ch "r") 13
| le_t : letter_escape (ch "t") 9.

(** Characters that stand for themselves: everything except the backslash and the control
    characters other than tab. *)
Definition literal (c : uchar) : Prop :=
  c <> ch "\" /\ (c = 9 \/ (32 <= c /\ c <= 0x10FFFF /\ c <> 127)).

(** [decodes q t]: the text [q] between the quotes stands for the string [t]. *)
Inductive decodes : ustr -> ustr -> Prop :=
| dec_nil : decodes [] []
| dec_literal c q t : literal c -> decodes q t -> decodes (c :: q) (c :: t)
| dec_letter c d q t : letter_escape c d -> decodes q t -> decodes (ch "\" :: c :: q) (d :: t)
| dec_u4 h n q t :
    length h = 4%nat -> hex_number h n -> scalar n = true -> decodes q t ->
    decodes (ch "\" :: ch "u" :: h ++ q) (n :: t)
| dec_u8 h n q t :
    length h = 8%nat -> hex_number h n -> scalar n = true -> decodes q t ->
    decodes (ch "\" :: ch "U" :: h ++ q) (n :: t).

(** [quotable q]: no quote of [q] would end the quoted string early: quotes and
    backslashes occur only as the second character of an escape. *)
Inductive quotable : ustr -> Prop :=
| qb_nil : quotable []
| qb_plain c q : c <> ch "\" -> c <> ch """" -> quotable q -> quotable (c :: q)
| qb_pair c q : quotable q -> quotable (ch "\" :: c :: q).

(** ** Unquoted text *)

(** Decimal numerals. *)
Definition is_digit (c : uchar) : Prop := ch "0" <= c /\ c <= ch "9".
Definition numeral_value (ds : ustr) : Z :=
  fold_left (fun acc c => (10 * acc + (Z.of_N c - 48))%Z) ds 0%Z.
Definition numeral (ds : ustr) (z : Z) : Prop :=
  ds <> [] /\ Forall is_digit ds /\ z = numeral_value ds.

(** Decimal fractions: an optional sign; digits with at most one point among or around
    them, but at least one digit; an optional exponent.
    [decimal_text s neg m e]: [s] denotes [m * 10^e], negated if [neg]. *)
Inductive sign_text : ustr -> bool -> Prop :=
| sg_none : sign_text [] false
| sg_plus : sign_text [ch "+"] false
| sg_minus : sign_text [ch "-"] true.
Inductive exponent_text : ustr -> Z -> Prop :=
| ex_none : exponent_text [] 0
| ex_some c sgn neg ds z :
    c = ch "e" \/ c = ch "E" -> sign_text sgn neg -> numeral ds z ->
    exponent_text (c :: sgn ++ ds) (if neg then - z else z)%Z.
Inductive mantissa_text : ustr -> Z -> Z -> Prop :=
| mt_whole ip : ip <> [] -> Forall is_digit ip -> mantissa_text ip (numeral_value ip) 0
| mt_point ip fp :
    ip ++ fp <> [] -> Forall is_digit ip -> Forall is_digit fp ->
    mantissa_text (ip ++ ch "." :: fp) (numeral_value (ip ++ fp)) (Z.of_nat (length fp)).
Inductive decimal_text : ustr -> bool -> Z -> Z -> Prop :=
| dt_intro sgn neg mt m p ex e :
    sign_text sgn neg -> mantissa_text mt m p -> exponent_text ex e ->
    decimal_text (sgn ++ mt ++ ex) neg m (e - p).

(** The numbers unquoted text can denote. *)
Inductive denotes_num : ustr -> num -> Prop :=
| dn_float s neg m e x :
    In (ch ".") s -> decimal_text s neg m e -> rounds_to 53 1024 neg (decimal_value neg m e) x ->
    denotes_num s (NF64 x)
| dn_nat ds z : numeral ds z -> (z < 2 ^ 64)%Z -> denotes_num ds (NInt USize z)
| dn_plus ds z : numeral ds z -> (z < 2 ^ 64)%Z -> denotes_num (ch "+" :: ds) (NInt USize z)
| dn_minus ds z : numeral ds z -> (z <= 2 ^ 63)%Z -> denotes_num (ch "-" :: ds) (NInt ISize (- z)).

(** The value of unquoted text: a boolean, a number, or else the text itself. *)
Inductive bare : ustr -> value -> Prop :=
| bare_true : bare (lit "true") (VBool tag_default true)
| bare_false : bare (lit "false") (VBool tag_default false)
| bare_num s n : denotes_num s n -> bare s (VNum tag_default n)
| bare_text s :
    s <> lit "true" -> s <> lit "false" -> (forall n, ~ denotes_num s n) ->
    bare s (VString tag_default s).

(** ** Values *)

Definition separator (c : uchar) : Prop :=
  c = ch "," \/ c = ch "{" \/ c = ch "}" \/ c = ch "[" \/ c = ch "]".
Definition blank (s : ustr) : Prop := Forall (fun c => is_ws c = true) s.
Definition ident_char (c : uchar) : Prop :=
  is_digit c \/ (ch "a" <= c /\ c <= ch "z") \/ (ch "A" <= c /\ c <= ch "Z")
  \/ c = ch "_" \/ c = ch "-".

Section Grammar.
  (** The meaning of the text between double quotes. *)
  Variable quoted : ustr -> ustr -> Prop.

  Inductive key_form : ustr -> ustr -> Prop :=
  | key_quoted q k : quotable q -> quoted q k -> key_form (ch """" :: q ++ [ch """"]) k
  | key_ident k : Forall ident_char k -> key_form k k.

  (** [form s v]: [s], which may start and end with white space, is a text for [v]. *)
  Inductive form : ustr -> value -> Prop :=
  | form_string w1 w2 q t :
      blank w1 -> blank w2 -> quotable q -> quoted q t ->
      form (w1 ++ (ch """" :: q ++ [ch """"]) ++ w2) (VString tag_default t)
  | form_char w1 w2 c :
      blank w1 -> blank w2 ->
      form (w1 ++ [ch "'"; c; ch "'"] ++ w2) (VChar tag_default c)
  | form_array w1 w2 b l :
      blank w1 -> blank w2 -> items b l ->
      form (w1 ++ (ch "[" :: b ++ [ch "]"]) ++ w2) (VArray tag_default l)
  | form_dict w1 w2 b l :
      blank w1 -> blank w2 -> entries b l ->
      form (w1 ++ (ch "{" :: b ++ [ch "}"]) ++ w2) (VDict tag_default (collect l))
  | form_bare w1 w2 s v :
      blank w1 -> blank w2 -> Forall (fun c => ~ separator c) s -> trim s = s ->
      (forall c r, s = c :: r -> c <> ch """" /\ c <> ch "'") ->
      bare s v ->
      form (w1 ++ s ++ w2) v

  (** The inside of an array: items separated by commas; a final comma (and nothing but
      white space after it) adds no item. *)
  with items : ustr -> list value -> Prop :=
  | items_nil w : blank w -> items w []
  | items_last s v : form s v -> ~ blank s -> items s [v]
  | items_cons s v b l : form s v -> items b l -> items (s ++ ch "," :: b) (v :: l)

  (** The inside of a dictionary, in the order written. *)
  with entries : ustr -> list (ustr * value) -> Prop :=
  | entries_nil w : blank w -> entries w []
  | entries_last w1 w2 ks k s v :
      blank w1 -> blank w2 -> key_form ks k -> form s v ->
      entries (w1 ++ ks ++ w2 ++ ch "=" :: s) [(k, v)]
  | entries_cons w1 w2 ks k s v b l :
      blank w1 -> blank w2 -> key_form ks k -> form s v -> entries b l ->
      entries (w1 ++ ks ++ w2 ++ ch "=" :: s ++ ch "," :: b) ((k, v) :: l).

  (** A complete text: nothing at all stands for the unit value. *)
  Definition complete (s : ustr) (v : value) : Prop :=
    match s with [] => v = VEmpty tag_default EUnit | _ => form s v end.
End Grammar.

(** The documented grammar. *)
Definition denotes : ustr -> value -> Prop := complete decodes.

(** [clean s]: in no place of [s] does a quote open text that has a non-ASCII character
    before its first escape. *)
Definition clean (s : ustr) : Prop :=
  forall a q b, s = a ++ ch """" :: q ++ ch "\" :: b ->
                ~ In (ch """") q -> ~ In (ch "\") q -> Forall ascii_char q.
(** The same for the text between the quotes. *)
Definition ascii_lead (q : ustr) : Prop :=
  forall p b, q = p ++ ch "\" :: b -> ~ In (ch "\") p -> Forall ascii_char p.
