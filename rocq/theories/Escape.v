(** Escape sequences of quoted strings: /repo/src/value/escape.rs. *)
From Coq Require Import Ascii String NArith Bool List.
From Verif Require Import Res Str.
Import ListNotations.
Local Open Scope N_scope.

(** [enum Error], escape.rs:12-19. *)
Inductive esc_error :=
| InvalidCharInString (i : N) (c : uchar)
| InvalidEscape (i : N) (c : uchar)
| InvalidHexEscape (i : N) (c : uchar)
| InvalidEscapeValue (i : N) (v : N)
| UnterminatedString (i : N).

Definition backslash : uchar := ch "\".
Definition dquote : uchar := ch """".

(** The digit test of escape.rs:67 together with the digit's value
    ([char::is_ascii_hexdigit], [u32::from_str_radix]). *)
Definition hex_value (c : uchar) : option N :=
  if (ch "0" <=? c) && (c <=? ch "9") then Some (c - ch "0")
  else if (ch "a" <=? c) && (c <=? ch "f") then Some (c - ch "a" + 10)
  else if (ch "A" <=? c) && (c <=? ch "F") then Some (c - ch "A" + 10)
  else None.

(** The loop of [hex], escape.rs:64-73: collects [len] digits and folds them into a
    number.  [pos] is the index the enumerating iterator is at.  Up to eight digits fit
    in [u32], so the [unwrap] on line 73 cannot fail. *)
Fixpoint hex_digits (len : nat) (pos : N) (acc : N) (chars : ustr)
  : res esc_error (N * ustr) :=
  match len with
  | O => Ok (acc, chars)
  | S n =>
      match chars with
      | [] => Err (UnterminatedString 0)
      | c :: r =>
          match hex_value c with
          | Some d => hex_digits n (pos + 1) (acc * 16 + d) r
          | None => Err (InvalidHexEscape pos c)
          end
      end
  end.

(** [hex], escape.rs:61-78; [char::from_u32] is [scalar]. *)
Definition hex (i : N) (len : nat) (chars : ustr) : res esc_error (uchar * ustr) :=
  match hex_digits len (i + 1) 0 chars with
  | Err e => Err e
  | Ok (v, r) => if scalar v then Ok (v, r) else Err (InvalidEscapeValue i v)
  end.

(** The character test of escape.rs:48. *)
Definition permitted (c : uchar) : bool :=
  (c =? 0x09) || ((0x20 <=? c) && (c <=? 0x10ffff) && negb (c =? 0x7f)).

(** The loop of [escape], escape.rs:24-56.  [output] is [None] while the [Cow] is
    borrowed.  [string[..i]] on line 28 slices by bytes although [i] counts characters:
    off a character boundary it panics. *)
Fixpoint escape_go (fuel : nat) (string : ustr) (i : N) (chars : ustr) (output : option ustr)
  : out (res esc_error ustr) :=
  match fuel with
  | O => NoFuel
  | S n =>
      match chars with
      | [] => Ret (Ok (match output with None => string | Some o => o end))
      | c :: r =>
          if c =? backslash then
            let owned := match output with
                         | Some o => Some o
                         | None => match split_at_byte string i with
                                   | Some (a, _) => Some a
                                   | None => None
                                   end
                         end in
            match owned with
            | None => Panic
            | Some val =>
                match r with
                | [] => Ret (Err (UnterminatedString 0))
                | e :: r' =>
                    if e =? dquote then escape_go n string (i + 2) r' (Some (val ++ [dquote]))
                    else if e =? backslash then escape_go n string (i + 2) r' (Some (val ++ [backslash]))
                    else if e =? ch "b" then escape_go n string (i + 2) r' (Some (val ++ [0x08]))
                    else if e =? ch "f" then escape_go n string (i + 2) r' (Some (val ++ [0x0c]))
                    else if e =? ch "n" then escape_go n string (i + 2) r' (Some (val ++ [0x0a]))
                    else if e =? ch "r" then escape_go n string (i + 2) r' (Some (val ++ [0x0d]))
                    else if e =? ch "t" then escape_go n string (i + 2) r' (Some (val ++ [0x09]))
                    else if (e =? ch "u") || (e =? ch "U") then
                      let len := if e =? ch "u" then 4%nat else 8%nat in
                      match hex (i + 1) len r' with
                      | Err x => Ret (Err x)
                      | Ok (v, r'') => escape_go n string (i + 2 + N.of_nat len) r'' (Some (val ++ [v]))
                      end
                    else Ret (Err (InvalidEscape (i + 1) e))
                end
            end
          else if permitted c then
            escape_go n string (i + 1) r
                      (match output with Some o => Some (o ++ [c]) | None => None end)
          else Ret (Err (InvalidCharInString i c))
      end
  end.

(** [escape], escape.rs:21-59. *)
Definition escape (string : ustr) : out (res esc_error ustr) :=
  escape_go (S (length string)) string 0 string None.
