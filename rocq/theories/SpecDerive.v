(** What types with serde attributes get: [default], [alias], [flatten], [untagged]. *)
From Coq Require Import Ascii String ZArith NArith Bool.
From Coq Require Import List.
From Verif Require Import Res BMap Str Profile Tag Num Value Metadata Err Coalesce Figment De Content Derive.
From Verif Require Import SpecValue SpecLossy SpecDe SpecMagic SpecExtract SpecTaken SpecGives SpecBuffer.
Import ListNotations.

(** ** Fields by name *)

(** How a field is read: may it be absent, and what a value gives. *)
Definition how := (Prop * (value -> dval -> Prop))%type.

(** [x] is the one entry of [d] that has a name of the field; no entry has. *)
Definition under {X} (f : field X) (d : dict) (x : value) : Prop :=
  exists k, In k (f_names f) /\ In (k, x) d /\ forall k' x', In k' (f_names f) -> In (k', x') d -> k' = k.
Definition not_there {X} (f : field X) (d : dict) : Prop :=
  forall k x, In k (f_names f) -> ~ In (k, x) d.

Definition substitute (f : field how) (y : dval) : Prop :=
  match f_default f with Some z => y = z | None => fst (f_type f) /\ y = EVNone end.
Definition filled (f : field how) (d : dict) (y : dval) : Prop :=
  (exists x, under f d x /\ snd (f_type f) x y) \/ (not_there f d /\ substitute f y).
Definition by_names (fs : list (field how)) (d : dict) (ys : list (ustr * dval)) : Prop :=
  Forall2 (fun f ny => fst ny = f_name f /\ filled f d (snd ny)) fs ys.

(** ** Fields by position; nothing may be left over if [all_of_them] *)
Fixpoint by_position (all_of_them : bool) (fs : list (field how)) (l : list value) (ys : list (ustr * dval)) : Prop :=
  match fs, ys with
  | [], [] => all_of_them = true -> l = []
  | f :: fs, (n, y) :: ys =>
      n = f_name f /\
      match l with
      | v :: l => snd (f_type f) v y /\ by_position all_of_them fs l ys
      | [] => f_default f = Some y /\ by_position all_of_them fs [] ys
      end
  | _, _ => False
  end.

(** ** Flattened fields *)

(** The entries of [d] without those called [names]. *)
Definition without (names : list ustr) (d : dict) : dict :=
  filter (fun kv => negb (existsb (ueqb (fst kv)) names)) d.

(** Every entry named by a field can be read, and no two are for the same field. *)
Definition readable (fs : list (field how)) (d : dict) : Prop :=
  forall f k x, In f fs -> In k (f_names f) -> In (k, x) d ->
    (exists y, snd (f_type f) x y) /\ forall k' x', In k' (f_names f) -> In (k', x') d -> k' = k.

(** What a flattened struct leaves of [d]: reading stops at the first entry that cannot be read. *)
Definition leaves (fs : list (field how)) (d d' : dict) : Prop :=
  (readable fs d /\ d' = without (all_names fs) d) \/
  (exists pre k x post, d = pre ++ (k, x) :: post /\ readable fs pre /\ ~ readable fs (pre ++ [(k, x)]) /\
     d' = without (all_names fs) pre ++ post).

(** The flattened fields of a struct from the entries [d], in order of declaration: a struct takes
    its entries, a map sees all that are not taken yet; [rest] remains. *)
Fixpoint from_rest (fls : list (ustr * flat how)) (d : dict) (ys : list (ustr * dval)) (rest : dict) : Prop :=
  match fls, ys with
  | [], [] => rest = d
  | (n, FlStruct opt fs) :: fls, (n', y) :: ys =>
      n' = n /\
      (if opt
       then (exists zs, by_names fs d zs /\ y = EVSome (EVStruct zs)) \/ ((forall zs, ~ by_names fs d zs) /\ y = EVNone)
       else exists zs, by_names fs d zs /\ y = EVStruct zs) /\
      exists d', leaves fs d d' /\ from_rest fls d' ys rest
  | (n, FlMap r) :: fls, (n', y) :: ys =>
      n' = n /\
      (exists zs, Forall2 (fun kv ky => fst ky = fst kv /\ snd r (snd kv) (snd ky)) d zs /\ y = EVMap zs) /\
      from_rest fls d ys rest
  | _, _ => False
  end.

(** A struct from a dictionary. *)
Definition from_dict (deny : bool) (fs : list (field how)) (fls : list (ustr * flat how)) (d : dict) (y : dval) : Prop :=
  exists own others rest,
    by_names fs d own /\ from_rest fls (without (all_names fs) d) others rest /\
    (deny = true -> rest = []) /\ y = EVStruct (own ++ others).

(** ** Types *)
Definition x_optional (x : xty) : Prop :=
  match x with XTy t => optional t | XOption _ => True | _ => False end.

(** The first reading of [v] there is, in order. *)
Definition first_of (rs : list (ustr * (value -> dval -> Prop))) (v : value) (n : ustr) (z : dval) : Prop :=
  exists pre r post, rs = pre ++ (n, r) :: post /\ r v z /\ forall n' r' z', In (n', r') pre -> ~ r' v z'.

(** From a copy. *)
Fixpoint xstrictly (owned : bool) (x : xty) (v : value) (y : dval) {struct x} : Prop :=
  match x with
  | XTy t => strictly owned t v y
  | XOption x =>
      ((exists g e, v = VEmpty g e) /\ y = EVNone) \/
      (~ (exists g e, v = VEmpty g e) /\ exists z, xstrictly owned x v z /\ y = EVSome z)
  | XSeq x => exists g l ys, v = VArray g l /\ Forall2 (xstrictly owned x) l ys /\ y = EVSeq ys
  | XMap x =>
      exists g d ys, v = VDict g d /\
        Forall2 (fun kv ky => fst ky = fst kv /\ xstrictly owned x (snd kv) (snd ky)) d ys /\ y = EVMap ys
  | XStruct _ deny fs fls =>
      let fs' := map (map_field (fun x => (x_optional x, xstrictly owned x))) fs in
      let fls' := map (fun nf => (fst nf, match snd nf with
                                          | FlStruct opt fs => FlStruct opt (map (map_field (fun x => (x_optional x, xstrictly true x))) fs)
                                          | FlMap x => FlMap (x_optional x, xstrictly false x)
                                          end)) fls in
      (exists g d, v = VDict g d /\ from_dict deny fs' fls' d y) \/
      (exists g l ys, v = VArray g l /\ fls = [] /\ by_position true fs' l ys /\ y = EVStruct ys)
  | XUntagged _ vs =>
      exists n z, first_of (map (fun nv => (fst nv, xstrictly false (snd nv))) vs) v n z /\ y = EVVariant n (ShNew z)
  end.

(** From a Figment or a [Value].  What is flattened, and what is untagged, is copied first: there
    must be no 128-bit integer in it, and whether conversion is lossy does not matter. *)
Fixpoint xgives (m : mode) (x : xty) (v : value) (y : dval) {struct x} : Prop :=
  match x with
  | XTy t => gives m t v y
  | XOption x =>
      ((exists g e, v = VEmpty g e) /\ y = EVNone) \/
      (~ (exists g e, v = VEmpty g e) /\ exists z, xgives m x v z /\ y = EVSome z)
  | XSeq x => exists g l ys, v = VArray g l /\ Forall2 (xgives m x) l ys /\ y = EVSeq ys
  | XMap x =>
      exists g d ys, v = VDict g d /\
        Forall2 (fun kv ky => fst ky = fst kv /\ xgives m x (snd kv) (snd ky)) d ys /\ y = EVMap ys
  | XStruct ident deny fs fls =>
      let fs' := map (map_field (fun x => (x_optional x, xgives m x))) fs in
      match fls with
      | [] =>
          exists w, presents m ident v w /\
            ((exists g d, w = VDict g d /\ from_dict deny fs' [] d y) \/
             (exists g l ys, w = VArray g l /\ by_position false fs' l ys /\ y = EVStruct ys))
      | _ =>
          exists g d, v = VDict g d /\
            (forall k x, In (k, x) d -> ~ In k (all_names fs) -> narrow_only x) /\
            from_dict deny fs'
              (map (fun nf => (fst nf, match snd nf with
                                       | FlStruct opt fs => FlStruct opt (map (map_field (fun x => (x_optional x, xstrictly true x))) fs)
                                       | FlMap x => FlMap (x_optional x, xstrictly false x)
                                       end)) fls) d y
      end
  | XUntagged _ vs =>
      narrow_only v /\
      exists n z, first_of (map (fun nv => (fst nv, xstrictly false (snd nv))) vs) v n z /\ y = EVVariant n (ShNew z)
  end.

(** No two fields of a struct share a name. *)
Fixpoint x_apart (x : xty) : Prop :=
  match x with
  | XTy t => named_apart t
  | XOption x | XSeq x | XMap x => x_apart x
  | XStruct _ _ fs fls =>
      NoDup (all_names fs) /\ all (map (fun f => x_apart (f_type f)) fs) /\
      all (map (fun nf => match snd nf with
                          | FlStruct _ fs => NoDup (all_names fs) /\ all (map (fun f => x_apart (f_type f)) fs)
                          | FlMap x => x_apart x
                          end) fls)
  | XUntagged _ vs => all (map (fun nv => x_apart (snd nv)) vs)
  end.

(** The first of these tags that says where something is from. *)
Fixpoint nearest (l : list tag) : tag :=
  match l with
  | [] => tag_default
  | t :: l => if (tag_raw t =? 0)%N then nearest l else t
  end.

(** What is reported when reading the value [x] of the key [k] of a dictionary with the tag [g]
    fails with [e]. *)
Definition reported (fig : figment) (g : tag) (k : ustr) (x : value) (e e' : error) : Prop :=
  e_path e' = k :: e_path e /\ e_kind e' = e_kind e /\
  e_tag e' = nearest [e_tag e; vtag x; g] /\
  e_metadata e' = get_metadata fig (e_tag e').
