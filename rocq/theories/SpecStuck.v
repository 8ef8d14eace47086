(** What the code makes of every text, including the quoted texts in which an escape follows
    a non-ASCII character. *)
From Coq Require Import Ascii String ZArith NArith Bool.
From Coq Require Import List.
From Verif Require Import Res BMap Str Profile Tag Num Value SpecParse.
Import ListNotations.
Local Open Scope N_scope.

(** [cut pre a]: [a] is the beginning of [pre] that takes, in UTF-8, as many bytes as [pre]
    has characters. *)
Definition cut (pre a : ustr) : Prop :=
  exists rest, pre = a ++ rest /\ byte_len a = N.of_nat (length pre).

(** [read_as q t]: [t] is what the code reads for [q] between quotes.  What precedes the
    first escape is cut short if it is not all ASCII. *)
Inductive read_as : ustr -> ustr -> Prop :=
| ra_plain q : Forall literal q -> read_as q q
| ra_escaped pre b a t :
    Forall literal pre -> cut pre a -> decodes (ch "\" :: b) t ->
    read_as (pre ++ ch "\" :: b) (a ++ t).

(** [breaks q]: there is no such beginning; the cut would go through a character.  What
    follows the first backslash does not matter. *)
Definition breaks (q : ustr) : Prop :=
  exists pre b, q = pre ++ ch "\" :: b /\ Forall literal pre /\ forall a, ~ cut pre a.

(** [stuck s]: reading [s] from the left as a value arrives at such a quoted text, be it the
    value itself, an item of an array, or a key or value of a dictionary.  Everything before
    it is well-formed; what follows it does not matter. *)
Inductive stuck : ustr -> Prop :=
| stuck_string w q r :
    blank w -> quotable q -> breaks q -> stuck (w ++ ch """" :: q ++ ch """" :: r)
| stuck_array w b : blank w -> stuck_items b -> stuck (w ++ ch "[" :: b)
| stuck_dict w b : blank w -> stuck_entries b -> stuck (w ++ ch "{" :: b)
with stuck_items : ustr -> Prop :=
| stuck_item s : stuck s -> stuck_items s
| stuck_next s v b : form read_as s v -> stuck_items b -> stuck_items (s ++ ch "," :: b)
with stuck_entries : ustr -> Prop :=
| stuck_key w q r :
    blank w -> quotable q -> breaks q -> stuck_entries (w ++ ch """" :: q ++ ch """" :: r)
| stuck_value w1 w2 ks k s :
    blank w1 -> blank w2 -> key_form read_as ks k -> stuck s ->
    stuck_entries (w1 ++ ks ++ w2 ++ ch "=" :: s)
| stuck_entry w1 w2 ks k s v b :
    blank w1 -> blank w2 -> key_form read_as ks k -> form read_as s v -> stuck_entries b ->
    stuck_entries (w1 ++ ks ++ w2 ++ ch "=" :: s ++ ch "," :: b).
