(** What a type does not look at. *)
From Coq Require Import Ascii String ZArith NArith Bool.
From Coq Require Import List.
From Verif Require Import Res BMap Str Profile Tag Num Value Metadata Err Coalesce Figment De.
From Verif Require Import SpecValue SpecFigment SpecRt SpecBlind.
Import ListNotations.

(** Both lack it, or both have it, alike. *)
Inductive both {A} (R : A -> A -> Prop) : option A -> option A -> Prop :=
| bo_none : both R None None
| bo_some x y : R x y -> both R (Some x) (Some y).

(** [alike t v w]: [v] and [w] differ only in what the type [t] does not look at: the keys of a
    dictionary that are no fields of the struct, unless the struct refuses them; the elements of an
    array beyond the length of the tuple; the entries of a dictionary after the first, for an enum. *)
Inductive alike : ty -> value -> value -> Prop :=
| al_same t v : alike t v v
| al_option t v w : alike t v w -> alike (TOption t) v w
| al_newtype i t v w : alike t v w -> alike (TNewtype i t) v w
| al_seq t g l l' : Forall2 (alike t) l l' -> alike (TSeq t) (VArray g l) (VArray g l')
| al_map t g d d' : Forall2 (fun x y => fst x = fst y /\ alike t (snd x) (snd y)) d d' ->
    alike (TMap t) (VDict g d) (VDict g d')
| al_pairs k t g d d' : Forall2 (fun x y => fst x = fst y /\ alike t (snd x) (snd y)) d d' ->
    alike (TPairs k t) (VDict g d) (VDict g d')
| al_tuple ts g l l' : (forall n t, nth_error ts n = Some t -> both (alike t) (nth_error l n) (nth_error l' n)) ->
    alike (TTuple ts) (VArray g l) (VArray g l')
| al_tuple_struct i ts g l l' :
    (forall n t, nth_error ts n = Some t -> both (alike t) (nth_error l n) (nth_error l' n)) ->
    alike (TTupleStruct i ts) (VArray g l) (VArray g l')
| al_struct n i deny fs g d d' : ~ In n [value_name; rel_name; tagged_name] -> sorted d -> sorted d' ->
    (forall k t, In (k, t) fs -> both (alike t) (get k d) (get k d')) ->
    (deny = true -> forall k, ~ In k (map fst fs) -> get k d = get k d') ->
    alike (TStruct n i deny fs) (VDict g d) (VDict g d')
| al_struct_seq n i deny fs g l l' : ~ In n [value_name; rel_name; tagged_name] ->
    (forall m k t, nth_error fs m = Some (k, t) -> both (alike t) (nth_error l m) (nth_error l' m)) ->
    alike (TStruct n i deny fs) (VArray g l) (VArray g l')
| al_enum i vs g k x d d' : alike (TEnum i vs) (VDict g ((k, x) :: d)) (VDict g ((k, x) :: d'))
| al_enum_new i vs g k x y d d' : (forall t, In (k, ShNew t) vs -> alike t x y) ->
    (forall s, In (k, s) vs -> exists t, s = ShNew t) -> vtag x = vtag y ->
    alike (TEnum i vs) (VDict g ((k, x) :: d)) (VDict g ((k, y) :: d')).

(** A provider that says nothing about the keys [ks], in any profile, and selects none. *)
Definition silent_on (ks : list ustr) (p : provider) : Prop :=
  pv_profile p = None /\ exists m, pv_data p = Ok m /\ wf_profiles m /\
  forall q d k, In (q, d) m -> In k ks -> get k d = None.

(** Two dictionaries that meet in dictionaries only: whatever is at the same path in both is a
    dictionary in both. *)
Definition apart (a b : dict) : Prop := forall p x y,
  at_path p (VDict tag_default a) = Some x -> at_path p (VDict tag_default b) = Some y ->
  is_dict x = true /\ is_dict y = true.

(** Providers that select no profile and whose data is apart, profile by profile. *)
Definition quiet (p : provider) : Prop :=
  pv_profile p = None /\ exists m, pv_data p = Ok m /\ wf_profiles m.
Definition apart_providers (p q : provider) : Prop := forall m n r d e,
  pv_data p = Ok m -> pv_data q = Ok n -> get r m = Some d -> get r n = Some e -> apart d e.

(** One call of [merge], [join], [adjoin] or [admerge]. *)
Record call := mkCall { call_at : location; call_order : order; call_with : provider }.
Definition calls (l : list call) : list op :=
  map (fun x => OpProvide (call_at x) (call_order x) (call_with x)) l.

(** What a caller can see of a Figment, whichever profile is selected. *)
Definition indistinguishable (f g : figment) : Prop := forall s i t k, unreserved t ->
  seen forget (extract i (fig_select f s) t) = seen forget (extract i (fig_select g s) t) /\
  seen forget (extract_inner i (fig_select f s) t k) = seen forget (extract_inner i (fig_select g s) t k) /\
  seen untag (find_value (fig_select f s) k) = seen untag (find_value (fig_select g s) k) /\
  fig_contains (fig_select f s) k = fig_contains (fig_select g s) k.
