(** The [Env] provider: /repo/src/providers/env.rs.

    The process environment is the list of variables in the order [std::env::vars_os]
    yields them, with names and values already through [to_string_lossy]. *)
From Coq Require Import Ascii String ZArith NArith Bool.
From Coq Require Import List.
From Verif Require Import Res BMap Str Profile Tag Num Value Metadata Err Coalesce Parse Figment.
Import ListNotations.

Definition environ := list (ustr * ustr).

(** [struct Env], env.rs:103-113.  The boxed closure is a function on key text; [out]
    because [prefixed] slices by bytes. *)
Record env := mkEnv {
  ev_filter_map : ustr -> out (option ustr);
  ev_profile : profile;
  ev_prefix : option ustr;
  ev_lowercase : bool
}.

(** [Env::new], env.rs:122-129, and [Env::raw], 169-172. *)
Definition env_new : env := mkEnv (fun key => Ret (Some key)) p_default None true.
Definition env_raw : env := env_new.

(** [Env::chain], env.rs:131-141.  [lowercase] is set to [true] whatever it was. *)
Definition env_chain (e : env) (f : option ustr -> out (option ustr)) : env :=
  mkEnv (fun key => out_bind (ev_filter_map e key) f) (ev_profile e) (ev_prefix e) true.

(** [Env::filter], env.rs:231-235; [Env::map], 288-292; [Env::filter_map], 333-337. *)
Definition env_filter (e : env) (filter : ustr -> bool) : env :=
  env_chain e (fun prev => Ret match prev with
                               | Some v => if filter v then Some v else None
                               | None => None
                               end).
Definition env_map (e : env) (mapper : ustr -> ustr) : env :=
  env_chain e (fun prev => Ret (option_map mapper prev)).
Definition env_filter_map_out (e : env) (f : ustr -> out (option ustr)) : env :=
  env_chain e (fun prev => match prev with Some v => f v | None => Ret None end).
Definition env_filter_map (e : env) (f : ustr -> option ustr) : env :=
  env_filter_map_out e (fun v => Ret (f v)).

(** [Env::prefixed], env.rs:197-207.  [key[prefix.len()..]] panics off a character
    boundary. *)
Definition env_prefixed (prefix : ustr) : env :=
  let e := env_filter_map_out env_new (fun key =>
             if uncased_starts_with key prefix then
               match split_at_byte key (byte_len prefix) with
               | Some (_, rest) => Ret (Some rest)
               | None => Panic
               end
             else Ret None) in
  mkEnv (ev_filter_map e) (ev_profile e) (Some prefix) (ev_lowercase e).

(** [Env::lowercase], env.rs:370-373. *)
Definition env_lowercase (e : env) (b : bool) : env :=
  mkEnv (ev_filter_map e) (ev_profile e) (ev_prefix e) b.

(** [Env::split], env.rs:428-431. *)
Definition env_split (e : env) (pattern : ustr) : env :=
  env_map e (fun key => replace pattern (lit ".") key).

(** [Env::ignore], env.rs:453-456, and [Env::only], 482-485: [str == UncasedStr] ignores
    case. *)
Definition env_ignore (e : env) (ks : list ustr) : env :=
  env_filter e (fun key => negb (existsb (fun k => uncased_eqb k key) ks)).
Definition env_only (e : env) (ks : list ustr) : env :=
  env_filter e (fun key => existsb (fun k => uncased_eqb k key) ks).

(** [Env::profile], env.rs:552-555, and [Env::global], 568-571. *)
Definition env_profile (e : env) (p : profile) : env :=
  mkEnv (ev_filter_map e) p (ev_prefix e) (ev_lowercase e).
Definition env_global (e : env) : env := env_profile e p_global.

(** The closure of [Env::iter], env.rs:526-538. *)
Definition env_entry (e : env) (kv : ustr * ustr) : out (option (ustr * ustr)) :=
  out_map (fun mapped =>
             match mapped with
             | None => None
             | Some key0 =>
                 let key := trim key0 in
                 if existsb is_nil (split_on dot key) then None
                 else Some ((if ev_lowercase e then lower key else key), snd kv)
             end)
          (ev_filter_map e (trim (fst kv))).

(** [Env::iter], env.rs:523-539, run to the end. *)
Fixpoint env_iter (e : env) (vars : environ) : out (list (ustr * ustr)) :=
  match vars with
  | [] => Ret []
  | (k, v) :: r =>
      if is_nil k then env_iter e r
      else out_bind (env_entry e (k, v)) (fun x =>
           out_map (fun rest => match x with Some y => y :: rest | None => rest end)
                   (env_iter e r))
  end.

(** [Env::var], env.rs:585-594, and [Env::var_or], 610-612. *)
Fixpoint env_var (name : ustr) (vars : environ) : option ustr :=
  match vars with
  | [] => None
  | (k, v) :: r => if uncased_eqb (trim k) name then Some (trim v) else env_var name r
  end.
Definition env_var_or (name default : ustr) (vars : environ) : ustr :=
  match env_var name vars with Some v => v | None => default end.

(** [Env::metadata], env.rs:616-631. *)
Definition env_metadata (e : env) : metadata :=
  let md := md_with_interpolater (md_named (lit "environment variable(s)"))
              (fun _ ks => join (lit ".") (map upper ks)) in
  match ev_prefix e with
  | Some prefix =>
      mkMetadata (lit "`" ++ upper prefix ++ lit "` " ++ md_name md) (md_source md)
                 (md_location md) (md_interpolater md)
  | None => md
  end.

(** [Env::data], env.rs:633-644.  The iterator is lazy in the code; collecting it first
    changes only which of two panics comes first. *)
Fixpoint env_fold (items : list (ustr * ustr)) (d : dict) : out dict :=
  match items with
  | [] => Ret d
  | (k, v) :: r =>
      out_bind (value_from_str v) (fun x =>
      match as_dict (nest k x) with
      | Some nested => env_fold r (dmerge d nested)
      | None => Panic
      end)
  end.
Definition env_data (e : env) (vars : environ) : out (bmap profile dict) :=
  out_bind (env_iter e vars) (fun items =>
  out_map (fun d => profile_collect (ev_profile e) d) (env_fold items [])).

(** [impl Provider for Env], env.rs:615-645: no profile, no metadata map (the defaults of
    provider.rs:94-101). *)
Definition env_provider (e : env) (vars : environ) : out provider :=
  out_map (fun d => mkProvider (env_metadata e) (Ok d) None None) (env_data e vars).
