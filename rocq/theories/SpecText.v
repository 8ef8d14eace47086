(** What text functions mean: characters, UTF-8, white space, occurrences. *)
From Coq Require Import NArith Bool List.
From Verif Require Import Res BMap Str.
Import ListNotations.
Local Open Scope N_scope.

(** The bytes of a character (RFC 3629, section 3). *)
Definition utf8_of (c : uchar) : list N :=
  if c <? 128 then [c]
  else if c <? 2048 then [192 + c / 64; 128 + c mod 64]
  else if c <? 65536 then [224 + c / 4096; 128 + c / 64 mod 64; 128 + c mod 64]
  else [240 + c / 262144; 128 + c / 4096 mod 64; 128 + c / 64 mod 64; 128 + c mod 64].
Definition utf8 (s : ustr) : list N := flat_map utf8_of s.

(** The order of sequences of bytes. *)
Inductive bytes_before : list N -> list N -> Prop :=
| bb_nil y b : bytes_before [] (y :: b)
| bb_less x y a b : x < y -> bytes_before (x :: a) (y :: b)
| bb_same x a b : bytes_before a b -> bytes_before (x :: a) (x :: b).

(** The characters with the Unicode property White_Space (PropList.txt). *)
Definition white_space : list uchar :=
  [9; 10; 11; 12; 13; 32; 133; 160; 5760;
   8192; 8193; 8194; 8195; 8196; 8197; 8198; 8199; 8200; 8201; 8202;
   8232; 8233; 8239; 8287; 12288].
Definition all_white (s : ustr) : Prop := Forall (fun c => In c white_space) s.

(** The latin letters without accents, in both cases. *)
Definition letters : list (uchar * uchar) :=
  [(65,97);(66,98);(67,99);(68,100);(69,101);(70,102);(71,103);(72,104);(73,105);(74,106);
   (75,107);(76,108);(77,109);(78,110);(79,111);(80,112);(81,113);(82,114);(83,115);(84,116);
   (85,117);(86,118);(87,119);(88,120);(89,121);(90,122)].

(** [pat] occurs in [s] after [a]. *)
Definition occurs_after (pat s a : ustr) : Prop := exists b, s = a ++ pat ++ b.

(** [s] cut at the occurrences of [pat], from the left, each time at the next one. *)
Inductive cut (pat : ustr) : ustr -> list ustr -> Prop :=
| cut_end s : (forall a, ~ occurs_after pat s a) -> cut pat s [s]
| cut_at a b l : (forall a', occurs_after pat (a ++ pat ++ b) a' -> (length a <= length a')%nat) ->
    cut pat b l -> cut pat (a ++ pat ++ b) (a :: l).

(** The same text, up to the case of unaccented latin letters. *)
Definition alike (a b : ustr) : Prop :=
  Forall2 (fun c d => c = d \/ In (c, d) letters \/ In (d, c) letters) a b.

(** [b] is [a] with its capitals (unaccented latin) made small. *)
Definition lowered (a b : ustr) : Prop :=
  Forall2 (fun c d => In (c, d) letters \/ (c = d /\ forall l, ~ In (c, l) letters)) a b.
