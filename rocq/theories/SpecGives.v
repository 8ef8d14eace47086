(** What typed extraction gives at every type, the special ones included. *)
From Coq Require Import Ascii String ZArith NArith Bool.
From Coq Require Import Floats.SpecFloat.
From Coq Require Import List.
From Verif Require Import Res BMap Str Profile Tag Num Value Metadata Err Figment De.
From Verif Require Import SpecValue SpecLossy SpecDe SpecMagic SpecExtract SpecDoc SpecTaken.
Import ListNotations.

(** From a Figment, strictly or leniently, or from a [Value] alone. *)
Definition reading (m : mode) : interp := match m with MConf i _ => i | MPlain => Exact end.
Definition tracked (m : mode) : bool := match m with MConf _ _ => true | MPlain => false end.

(** [x] is the entry [k] of [v], or [v] itself if it has no such entry. *)
Inductive entry_or_self (k : ustr) : value -> value -> Prop :=
| es_entry t d x : In (k, x) d -> entry_or_self k (VDict t d) x
| es_self v : (forall t d x, v = VDict t d -> ~ In (k, x) d) -> entry_or_self k v v.

(** The source of [v] as a number, and the file it is. *)
Definition source_number (v : value) : value := VNum tag_default (NInt U64 (Z.of_N (tag_raw (vtag v)))).
Definition from_file (f : figment) (v : value) (p : ustr) : Prop :=
  exists md, get (vtag v) (f_metadata f) = Some md /\ md_source md = Some (SFile p).

(** [v] says by itself where it comes from. *)
Definition says_source (v : value) : Prop :=
  exists t d x t', v = VDict t d /\ In (tagged_tag, x) d /\ id_number x t' /\ t' <> tag_default.
Definition says_file (v : value) : Prop :=
  exists t d x, v = VDict t d /\ In (rel_metadata_path, x) d /\ forall g e, x <> VEmpty g e.

(** [presents m name v w]: a struct of this serde name is read not from [v] but from [w].  Three
    names, those of [Value], [RelativePathBuf] and [Tagged], are special to a Figment. *)
Inductive presents : mode -> ustr -> value -> value -> Prop :=
| pr_alone name v : presents MPlain name v v
| pr_usual i f name v : ~ In name [value_name; rel_name; tagged_name] -> presents (MConf i f) name v v
| pr_value i f v : presents (MConf i f) value_name v
    (VDict tag_default [(value_id, source_number v); (value_value, v)])
| pr_tagged i f v : says_source v -> presents (MConf i f) tagged_name v v
| pr_untagged i f v x : ~ says_source v -> entry_or_self tagged_value v x ->
    presents (MConf i f) tagged_name v
      (VDict tag_default [(tagged_tag, source_number v); (tagged_value, x)])
| pr_relative i f v : says_file v -> presents (MConf i f) rel_name v v
| pr_in_file i f v x p : ~ says_file v -> entry_or_self rel_path v x -> from_file f v p ->
    presents (MConf i f) rel_name v
      (VDict tag_default [(rel_metadata_path, VString tag_default p); (rel_path, x)])
| pr_no_file i f v x : ~ says_file v -> entry_or_self rel_path v x -> (forall p, ~ from_file f v p) ->
    presents (MConf i f) rel_name v (VDict tag_default [(rel_path, x)]).

(** The first of two readings of [u] or, failing that, the second: of [u]'s entry [k] if it has
    one. *)
Definition first_else (k : ustr) (a b : value -> dval -> Prop) (u : value) (y : dval) : Prop :=
  (exists x, a u x /\ y = EVLeft x) \/
  ((forall x, ~ a u x) /\ exists u' x, entry_or_self k u u' /\ b u' x /\ y = EVRight x).

(** The serde name and the last field of a struct. *)
Definition name_of (t : ty) : ustr := match t with TStruct n _ _ _ => n | _ => [] end.
Inductive last_of_fields : ty -> ustr -> Prop :=
| lf_some n i d fs f u : last_of_fields (TStruct n i d (fs ++ [(f, u)])) f
| lf_none t : (forall n i d fs f, t <> TStruct n i d (fs ++ [f])) -> last_of_fields t [].

(** [gives m t v y]: from [v], at type [t], one gets [y]. *)
Fixpoint gives (m : mode) (t : ty) (v : value) (y : dval) {struct t} : Prop :=
  match t with
  | TInt k => narrow k /\ extracts (reading m) t v y
  | TBool | TF32 | TF64 | TChar | TString | TUnit | TUnitStruct _ | TTag | TProfile | TPath | TIgnored | TBoolish =>
      extracts (reading m) t v y
  | TValue =>
      exists u, taken (tracked m) v u /\ y = EVValue (if tracked m then sourced (vtag v) u else u)
  | TOption t =>
      ((exists g e, v = VEmpty g e) /\ y = EVNone) \/
      (~ (exists g e, v = VEmpty g e) /\ exists x, gives m t v x /\ y = EVSome x)
  | TNewtype _ t => exists x, gives m t v x /\ y = EVNewtype x
  | TSeq t => exists g l ys, v = VArray g l /\ Forall2 (gives m t) l ys /\ y = EVSeq ys
  | TTuple ts | TTupleStruct _ ts =>
      exists g l ys, v = VArray g l /\ leading (map (gives m) ts) l ys /\ y = EVTuple ys
  | TMap t =>
      exists g d ys, v = VDict g d /\
        Forall2 (fun kv ky => fst ky = fst kv /\ gives m t (snd kv) (snd ky)) d ys /\ y = EVMap ys
  | TPairs k t =>
      let key s x :=
        match k with
        | TValue => x = EVValue (VString tag_default s)
        | TEither a b => exists f, last_of_fields a f /\
            first_else f (gives MPlain a) (gives MPlain b) (VString tag_default s) x
        | _ => reads_key k s x
        end in
      exists g d ys, v = VDict g d /\
        Forall2 (fun kv ky => key (fst kv) (fst ky) /\ gives m t (snd kv) (snd ky)) d ys /\
        y = EVPairs ys
  | TStruct name _ deny fs =>
      let fields := map (fun f => (fst f, (optional (snd f), gives m (snd f)))) fs in
      exists w, presents m name v w /\
      ((exists g d ys, w = VDict g d /\
          (deny = true -> forall k x, In (k, x) d -> In k (map fst fs)) /\
          by_name fields d ys /\ y = EVStruct ys) \/
       (exists g l ys, w = VArray g l /\ leading (map (fun f => snd (snd f)) fields) l ys /\
          y = EVStruct (combine (map fst fs) ys)))
  | TEnum _ vs =>
      let shapes :=
        map (fun nv => (fst nv,
               match snd nv with
               | ShUnit => ShUnit
               | ShNew t => ShNew (optional t, gives m t)
               | ShTuple ts => ShTuple (map (fun t => (optional t, gives m t)) ts)
               | ShStruct fs => ShStruct (map (fun f => (fst f, (optional (snd f), gives m (snd f)))) fs)
               end)) vs in
      (exists g s, v = VString g s /\ variant shapes s ShUnit /\ y = EVVariant s ShUnit) \/
      (exists g n z s, v = VNum g n /\ unsigned32 n z /\
         nth_error shapes (Z.to_nat z) = Some (s, ShUnit) /\ y = EVVariant s ShUnit) \/
      (exists g k x r s p, v = VDict g ((k, x) :: r) /\ variant shapes k s /\ payload s x p /\
         y = EVVariant k p)
  | TEither a b =>
      (* the value is copied first, and only the copy is read *)
      exists w u f, presents m (name_of a) v w /\ taken (tracked m) w u /\ last_of_fields a f /\
        first_else f (gives MPlain a) (gives MPlain b) u y
  end.
