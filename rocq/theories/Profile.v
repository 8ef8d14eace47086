(** Profiles: /repo/src/profile.rs. *)
From Coq Require Import Ascii String NArith List.
From Verif Require Import BMap Str.
Import ListNotations.
Local Open Scope N_scope.

(** [struct Profile(Uncased<'static>)], profile.rs:9-10.  The spelling is kept; equality
    and order ignore ASCII case. *)
Record profile := mkProfile { pname : ustr }.

(** Derived [PartialEq] and [Ord] of [Profile] (profile.rs:9) and its comparisons with
    strings (profile.rs:240-274): those of [Uncased]. *)
Definition profile_eqb (a b : profile) : bool := uncased_eqb (pname a) (pname b).
#[export] Instance Cmp_profile : Cmp profile := fun a b => uncased_cmp (pname a) (pname b).

(** [Profile::Default] and [Profile::Global], profile.rs:61-66. *)
Definition p_default : profile := mkProfile (lit "default").
Definition p_global : profile := mkProfile (lit "global").

(** [Profile::new] / [From<T: AsRef<str>>], profile.rs:79-81, 214-218. *)
Definition profile_new (name : ustr) : profile := mkProfile name.

(** [Profile::is_custom], profile.rs:193-195. *)
Definition is_custom (p : profile) : bool :=
  negb (profile_eqb p p_default) && negb (profile_eqb p p_global).

(** [Profile::starts_with], profile.rs:176-178. *)
Definition profile_starts_with (p : profile) (prefix : ustr) : bool :=
  uncased_starts_with (pname p) prefix.

(** [Profile::from_env], profile.rs:117-126.  The environment is the list of variables in
    the order [std::env::vars_os] yields them, already through [to_string_lossy]. *)
Fixpoint profile_from_env (env : list (ustr * ustr)) (key : ustr) : option profile :=
  match env with
  | [] => None
  | (k, v) :: r => if uncased_eqb (trim k) key then Some (profile_new v)
                   else profile_from_env r key
  end.

(** [Profile::from_env_or], profile.rs:146-148. *)
Definition profile_from_env_or (env : list (ustr * ustr)) (key : ustr) (d : profile) : profile :=
  match profile_from_env env key with Some p => p | None => d end.

(** [Profile::collect], profile.rs:207-211. *)
Definition profile_collect {D} (p : profile) (d : D) : bmap profile D := insert p d [].

(** [enum ProfileTag] with its discriminants, profile.rs:19-25. *)
Inductive profile_tag := PTDefault | PTGlobal | PTCustom.
Definition profile_tag_bits (t : profile_tag) : N :=
  match t with PTDefault => 0 | PTGlobal => 1 | PTCustom => 3 end.

(** [From<u8> for ProfileTag], profile.rs:27-37. *)
Definition profile_tag_of_bits (b : N) : profile_tag :=
  if b =? profile_tag_bits PTDefault then PTDefault
  else if b =? profile_tag_bits PTGlobal then PTGlobal
  else PTCustom.

(** [From<ProfileTag> for Option<Profile>], profile.rs:39-47. *)
Definition profile_of_tag (t : profile_tag) : option profile :=
  match t with
  | PTDefault => Some p_default
  | PTGlobal => Some p_global
  | PTCustom => None
  end.

(** [From<&Profile> for ProfileTag], profile.rs:49-57. *)
Definition tag_of_profile (p : profile) : profile_tag :=
  if profile_eqb p p_default then PTDefault
  else if profile_eqb p p_global then PTGlobal
  else PTCustom.
