(** Parsing a [Value] from a string: /repo/src/value/parse.rs.

    The parser's cursor is the remaining text.  A parsing step yields [Some (a, rest)]
    or [None] (a parse error: every error ends in the same place, the fallback of
    [from_str], so their kinds are not kept), inside [out] because [escape] can panic.
    Recursion is by fuel; [NoFuel] is proved unreachable. *)
From Coq Require Import Ascii String ZArith NArith Bool.
From Coq Require Import Floats.SpecFloat.
From Coq Require Import List.
From Verif Require Import Res BMap Str Profile Tag Num Value Escape NumParse.
Import ListNotations.

Definition pres (A : Type) : Type := out (option (A * ustr)).

Definition pbind {A B} (x : pres A) (f : A -> ustr -> pres B) : pres B :=
  match x with
  | Ret (Some (a, s)) => f a s
  | Ret None => Ret None
  | Panic => Panic
  | NoFuel => NoFuel
  end.

(** [peek] and [peek_next], parse.rs:26-36. *)
Definition peek_next (s : ustr) : option uchar := match s with c :: _ => Some c | [] => None end.
Definition peek (c : uchar) (s : ustr) : bool :=
  match peek_next s with Some x => N.eqb x c | None => false end.

(** [eat_if], parse.rs:39-49; [eat], 51-54; [eat_any], 56-58.  Slicing by the length of the
    first character is always on a boundary. *)
Definition eat_if (f : uchar -> bool) (s : ustr) : pres uchar :=
  match s with
  | c :: r => if f c then Ret (Some (c, r)) else Ret None
  | [] => Ret None
  end.
Definition eat (c : uchar) : ustr -> pres uchar := eat_if (fun x => N.eqb x c).
Definition eat_any : ustr -> pres uchar := eat_if (fun _ => true).

(** The length in bytes of the characters a stateful predicate accepts, parse.rs:67-70. *)
Fixpoint accepted_len {S} (f : S -> uchar -> bool * S) (st : S) (s : ustr) : N :=
  match s with
  | [] => 0
  | c :: r => let '(b, st') := f st c in
              if b then utf8_len c + accepted_len f st' r else 0
  end.

(** [substr], parse.rs:64-75. *)
Definition substr {S} (f : S -> uchar -> bool * S) (st : S) (s : ustr) : pres ustr :=
  match split_at_byte s (accepted_len f st s) with
  | Some (a, b) => Ret (Some (a, b))
  | None => Panic
  end.
Definition stateless (f : uchar -> bool) (st : unit) (c : uchar) : bool * unit := (f c, tt).

Definition squote : uchar := ch "'".

(** [quoted_char], parse.rs:77-82. *)
Definition quoted_char (s : ustr) : pres uchar :=
  pbind (eat squote s) (fun _ s1 =>
  pbind (eat_any s1) (fun c s2 =>
  pbind (eat squote s2) (fun _ s3 => Ret (Some (c, s3))))).

(** The closure of [quoted_str], parse.rs:87-92; the state is [is_escaped]. *)
Definition quoted_step (is_escaped : bool) (c : uchar) : bool * bool :=
  if is_escaped then (true, false)
  else if N.eqb c backslash then (true, true)
  else (negb (N.eqb c dquote), false).

(** [quoted_str], parse.rs:84-96. *)
Definition quoted_str (s : ustr) : pres ustr :=
  pbind (eat dquote s) (fun _ s1 =>
  pbind (substr quoted_step false s1) (fun inner s2 =>
  pbind (eat dquote s2) (fun _ s3 =>
  match escape inner with
  | Ret (Ok t) => Ret (Some (t, s3))
  | Ret (Err _) => Ret None
  | Panic => Panic
  | NoFuel => NoFuel
  end))).

(** [is_ident_char], parse.rs:99-102. *)
Definition is_ident_char (c : uchar) : bool :=
  ((ch "0" <=? c) && (c <=? ch "9") || (ch "a" <=? c) && (c <=? ch "z")
   || (ch "A" <=? c) && (c <=? ch "Z") || (c =? ch "_") || (c =? ch "-"))%N.

(** [key], parse.rs:98-109. *)
Definition pkey (s : ustr) : pres ustr :=
  if peek dquote s then quoted_str s else substr (stateless is_ident_char) tt s.

(** The loop of [delimited], parse.rs:118-129. *)
Fixpoint delimited_go {V} (fuel : nat) (item : ustr -> pres V) (stop : uchar)
         (acc : list V) (s : ustr) : pres (list V) :=
  match fuel with
  | O => NoFuel
  | S n =>
      if peek stop s then pbind (eat stop s) (fun _ s' => Ret (Some (acc, s')))
      else pbind (item s) (fun v s1 =>
           let acc' := acc ++ [v] in
           match eat (ch ",") (trim_start s1) with
           | Ret (Some (_, s3)) => delimited_go n item stop acc' (trim_start s3)
           | _ => pbind (eat stop (trim_start s1)) (fun _ s' => Ret (Some (acc', s')))
           end)
  end.

(** [delimited], parse.rs:111-131.  The collection is the list of items in the order they
    are passed to [Extend::extend]. *)
Definition delimited {V} (fuel : nat) (start stop : uchar) (item : ustr -> pres V) (s : ustr)
  : pres (list V) :=
  pbind (eat start s) (fun _ s1 => delimited_go fuel item stop [] (trim_start s1)).

(** The closure of [dict], parse.rs:135-138. *)
Definition dict_item (value : ustr -> pres value) (s : ustr) : pres (ustr * Value.value) :=
  pbind (pkey s) (fun k s1 =>
  pbind (eat (ch "=") (trim_start s1)) (fun _ s2 =>
  pbind (value (trim_start s2)) (fun v s3 => Ret (Some ((k, v), s3))))).

(** [is_not_separator], parse.rs:148-150. *)
Definition is_not_separator (c : uchar) : bool :=
  negb (existsb (N.eqb c) [ch ","; ch "{"; ch "}"; ch "["; ch "]"]).

(** The unquoted forms, parse.rs:158-176 ([From] conversions, value.rs:453-502, give the
    default tag). *)
Definition bare_value (s : ustr) : value :=
  if ueqb s (lit "true") then VBool tag_default true
  else if ueqb s (lit "false") then VBool tag_default false
  else if contains_c dot s then
    match parse_f64 s with
    | Some f => VNum tag_default (NF64 f)
    | None => VString tag_default s
    end
  else match parse_int USize s with
       | Some z => VNum tag_default (NInt USize z)
       | None => match parse_int ISize s with
                 | Some z => VNum tag_default (NInt ISize z)
                 | None => VString tag_default s
                 end
       end.

(** [value], parse.rs:146-182; [array], 142-144, and [dict], 133-140, inlined. *)
Fixpoint pvalue (fuel : nat) (s0 : ustr) : pres value :=
  match fuel with
  | O => NoFuel
  | S n =>
      let s := trim_start s0 in
      pbind (match peek_next s with
             | Some c =>
                 if N.eqb c dquote then
                   pbind (quoted_str s) (fun t r => Ret (Some (VString tag_default t, r)))
                 else if N.eqb c squote then
                   pbind (quoted_char s) (fun x r => Ret (Some (VChar tag_default x, r)))
                 else if N.eqb c (ch "[") then
                   pbind (delimited (S (length s)) (ch "[") (ch "]") (pvalue n) s)
                         (fun l r => Ret (Some (VArray tag_default l, r)))
                 else if N.eqb c (ch "{") then
                   pbind (delimited (S (length s)) (ch "{") (ch "}") (dict_item (pvalue n)) s)
                         (fun l r => Ret (Some (VDict tag_default (collect l), r)))
                 else
                   pbind (substr (stateless is_not_separator) tt s)
                         (fun t r => Ret (Some (bare_value (trim t), r)))
             | None => Ret (Some (VEmpty tag_default EUnit, s))
             end)
            (fun v r => Ret (Some (v, trim_start r)))
  end.

(** [FromStr for Value], parse.rs:185-196. *)
Definition value_from_str (s : ustr) : out value :=
  let string := trim s in
  match pvalue (S (length string)) string with
  | Ret (Some (v, [])) => Ret v
  | Ret _ => Ret (VString tag_default string)
  | Panic => Panic
  | NoFuel => NoFuel
  end.
