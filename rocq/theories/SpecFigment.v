(** Specification vocabulary for histories of Figments. *)
From Coq Require Import NArith Bool List.
From Verif Require Import Res BMap Str Profile Tag Num Value Metadata Err Coalesce Figment SpecValue.
Import ListNotations.
Local Open Scope N_scope.

(** ** One Figment, a sequence of operations *)
Inductive op :=
| OpProvide (loc : location) (o : order) (p : provider)
| OpSelect (p : profile).

Definition run_op (x : op) (f : figment) (c : N) : out figment * N :=
  match x with
  | OpProvide loc o p => provide loc f p o c
  | OpSelect p => (Ret (fig_select f p), c)
  end.

Fixpoint run (l : list op) (f : figment) (c : N) : out figment * N :=
  match l with
  | [] => (Ret f, c)
  | x :: r => match run_op x f c with
              | (Ret f', c') => run r f' c'
              | (Panic, c') => (Panic, c')
              | (NoFuel, c') => (NoFuel, c')
              end
  end.

(** The errors of the failing providers of a history, in order. *)
Fixpoint failures (l : list op) : list error :=
  match l with
  | [] => []
  | OpProvide _ _ p :: r => match pv_data p with Err e => e :: failures r | Ok _ => failures r end
  | OpSelect _ :: r => failures r
  end.

(** The errors of a chain, newest information first, each without its predecessors. *)
Fixpoint errors_of (e : error) : list error :=
  match e with
  | MkError t p m path k v =>
      MkError t p m path k None :: match v with Some e' => errors_of e' | None => [] end
  end.

(** An error ignoring who is blamed for it: what a provider reported. *)
Definition same_report (a b : error) : Prop := e_kind a = e_kind b /\ e_path a = e_path b.

(** ** Profiles *)
Definition same_profile (p q : profile) : Prop := lower (pname p) = lower (pname q).
Definition data_of (m : bmap profile dict) (p : profile) : dict :=
  match get p m with Some d => d | None => [] end.

(** ** The world: every provide operation of every thread, in the order of the counter.

    The [i]-th entry (from 0) is the provide operation that drew identifier [i + 1].  Figments
    are persistent values; the counter is the only state threads share. *)
Record provision := mkProvision { pn_loc : location; pn_provider : provider }.
Definition pn_metadata (n : provision) : metadata :=
  md_with_location (pv_metadata (pn_provider n)) (pn_loc n).
Definition nth_provision (H : list provision) (id : N) : option provision :=
  if id =? 0 then None else nth_error H (N.to_nat (id - 1)).
Definition next_id (H : list provision) : N := 1 + N.of_nat (length H).

(** A provider that is not a Figment, emits well-formed data without tags and, if it
    fails, fails with a plain error. *)
Definition plain (p : provider) : Prop :=
  pv_metadata_map p = None /\
  match pv_data p with
  | Ok m => wf_profiles m /\
            forall q d, In (q, d) m -> all_tags (fun t => metadata_id t = 0) (VDict tag_default d)
  | Err e => e_tag e = tag_default /\ e_prev e = None
  end.

(** [reachable H f]: after the provide operations [H], some thread can hold the Figment [f]. *)
Inductive reachable : list provision -> figment -> Prop :=
| RC_new H : reachable H fig_new
| RC_other H f n : reachable H f -> reachable (H ++ [n]) f
| RC_select H f p : reachable H f -> reachable H (fig_select f p)
| RC_provide H f loc o p f' c' :
    reachable H f -> plain p -> provide loc f p o (next_id H) = (Ret f', c') ->
    reachable (H ++ [mkProvision loc p]) f'
| RC_figment H f g loc o f' c' :
    reachable H f -> reachable H g ->
    provide loc f (figment_provider g) o (next_id H) = (Ret f', c') ->
    reachable (H ++ [mkProvision loc (figment_provider g)]) f'.

(** [x], found under [path] in profile [q] of [f], is traceable: its tag names a provision by
    a plain provider, registered in [f], that supplied, in that profile and at that very path,
    a value with the same content (up to the contents of dictionaries and arrays). *)
Definition traced (H : list provision) (f : figment) (q : profile) (path : list step)
                  (x : value) : Prop :=
  exists n m d y,
    nth_provision H (metadata_id (vtag x)) = Some n /\
    plain (pn_provider n) /\
    get_metadata f (vtag x) = Some (pn_metadata n) /\
    tag_profile_tag (vtag x) = tag_of_profile q /\
    pv_data (pn_provider n) = Ok m /\ get q m = Some d /\
    reach path (VDict tag_default d) y /\ same_head x y.

(** [e'] is the report of a plain provider of the history, and its tag leads to that
    provider's metadata in [f]. *)
Definition traced_error (H : list provision) (f : figment) (e' : error) : Prop :=
  exists n e0,
    nth_provision H (metadata_id (e_tag e')) = Some n /\
    plain (pn_provider n) /\ pv_data (pn_provider n) = Err e0 /\ same_report e' e0 /\
    get_metadata f (e_tag e') = Some (pn_metadata n).

(** All operations of the history provide plain providers. *)
Definition plain_ops (l : list op) : Prop :=
  Forall (fun x => match x with OpProvide _ _ p => plain p | OpSelect _ => True end) l.

Fixpoint last_opt {A} (l : list A) : option A :=
  match l with [] => None | [x] => Some x | _ :: r => last_opt r end.

(** The profile an operation sets, if any. *)
Definition sets_profile (x : op) : list profile :=
  match x with
  | OpSelect q => [q]
  | OpProvide _ o p => match pv_profile p with
                       | Some q => if keeps_existing o then [] else [q]
                       | None => []
                       end
  end.

(** The metadata of the provided providers, in order, each with its caller's location. *)
Fixpoint provided_metadata (l : list op) : list metadata :=
  match l with
  | [] => []
  | OpProvide loc _ p :: r => md_with_location (pv_metadata p) loc :: provided_metadata r
  | OpSelect _ :: r => provided_metadata r
  end.

(** The three layers of a configuration. *)
Definition default_layer (m : bmap profile dict) : dict := data_of m p_default.
Definition global_layer (m : bmap profile dict) : dict := data_of m p_global.
Definition selected_layer (p : profile) (m : bmap profile dict) : dict :=
  if is_custom p then data_of m p else [].

(** [b] is [a] with every tag changed as [R] says. *)
Inductive retags (R : tag -> tag -> Prop) : value -> value -> Prop :=
| RT_string t t' s : R t t' -> retags R (VString t s) (VString t' s)
| RT_char t t' c : R t t' -> retags R (VChar t c) (VChar t' c)
| RT_bool t t' b : R t t' -> retags R (VBool t b) (VBool t' b)
| RT_num t t' n : R t t' -> retags R (VNum t n) (VNum t' n)
| RT_empty t t' e : R t t' -> retags R (VEmpty t e) (VEmpty t' e)
| RT_dict t t' d d' : R t t' ->
    Forall2 (fun x y => fst x = fst y /\ retags R (snd x) (snd y)) d d' ->
    retags R (VDict t d) (VDict t' d')
| RT_array t t' l l' : R t t' -> Forall2 (retags R) l l' -> retags R (VArray t l) (VArray t' l').

(** Providing under identifier [id] in profile [q]: tags without an identifier become
    ([id], [q]), others stay. *)
Definition stamps (id : N) (q : profile) (t t' : tag) : Prop :=
  if metadata_id t =? 0
  then metadata_id t' = id /\ tag_profile_tag t' = tag_of_profile q
  else t' = t.

(** The same for the data of a provider. *)
Definition stamped (id : N) (m m' : bmap profile dict) : Prop :=
  Forall2 (fun x y => fst x = fst y /\
             Forall2 (fun u v => fst u = fst v /\ retags (stamps id (fst x)) (snd u) (snd v))
                     (snd x) (snd y)) m m'.

(** The first and the last of several things. *)
Definition first_last {A} (l : list A) : list A :=
  match l with
  | [] => []
  | x :: r => x :: match last_opt r with Some y => [y] | None => [] end
  end.

(** The profiles that matter for a Figment. *)
Definition in_play (f : figment) (q : profile) : Prop :=
  same_profile q p_default \/ same_profile q p_global \/ same_profile q (f_profile f).

