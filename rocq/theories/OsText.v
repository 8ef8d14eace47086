(** Names and values of environment variables as the operating system has them: bytes, on Unix.
    [std::env::vars_os] and [OsStr::to_string_lossy] as used in env.rs:523-538, env.rs:585-594 and
    profile.rs:117-126.

    On Unix [OsStr::to_string_lossy] is [String::from_utf8_lossy], which goes through the bytes
    with [Utf8Chunks] and writes U+FFFD for every maximal piece that cannot begin or continue a
    character.  Bytes are numbers below 256. *)
From Coq Require Import NArith Bool.
From Coq Require Import List.
From Verif Require Import Res BMap Str Profile Value Env.
Import ListNotations.
Local Open Scope N_scope.

(** [core::str::validations::utf8_char_width]; 0 for bytes that begin no character. *)
Definition char_width (a : N) : N :=
  if a <? 128 then 1 else if a <? 194 then 0 else if a <? 224 then 2 else if a <? 240 then 3
  else if a <? 245 then 4 else 0.
(** A continuation byte. *)
Definition continues (b : N) : bool := (128 <=? b) && (b <? 192).
(** The second byte of three or four: [Utf8Chunks::next]'s table of pairs. *)
Definition second_fits (a b : N) : bool :=
  if a =? 224 then (160 <=? b) && (b <? 192)
  else if a =? 237 then (128 <=? b) && (b <? 160)
  else if a =? 240 then (144 <=? b) && (b <? 192)
  else if a =? 244 then (128 <=? b) && (b <? 144)
  else continues b.

(** The first character, or none if the bytes begin none, and the bytes after it or after the piece. *)
Definition next_char (bs : list N) : option uchar * list N :=
  match bs with
  | [] => (None, [])
  | a :: r =>
      if char_width a =? 1 then (Some a, r)
      else if char_width a =? 2 then
        match r with
        | b :: r1 => if continues b then (Some ((a - 192) * 64 + (b - 128)), r1) else (None, r)
        | [] => (None, r)
        end
      else if char_width a =? 3 then
        match r with
        | b :: r1 =>
            if second_fits a b then
              match r1 with
              | c :: r2 => if continues c then (Some ((a - 224) * 4096 + (b - 128) * 64 + (c - 128)), r2) else (None, r1)
              | [] => (None, r1)
              end
            else (None, r)
        | [] => (None, r)
        end
      else if char_width a =? 4 then
        match r with
        | b :: r1 =>
            if second_fits a b then
              match r1 with
              | c :: r2 =>
                  if continues c then
                    match r2 with
                    | d :: r3 =>
                        if continues d
                        then (Some ((a - 240) * 262144 + (b - 128) * 4096 + (c - 128) * 64 + (d - 128)), r3)
                        else (None, r2)
                    | [] => (None, r2)
                    end
                  else (None, r1)
              | [] => (None, r1)
              end
            else (None, r)
        | [] => (None, r)
        end
      else (None, r)
  end.

Definition replacement : uchar := 0xFFFD.

(** Each round uses up a byte at least, so the number of bytes bounds the number of rounds. *)
Fixpoint lossy_loop (fuel : nat) (bs : list N) : ustr :=
  match fuel, bs with
  | O, _ | _, [] => []
  | S n, _ =>
      let (c, r) := next_char bs in
      match c with Some c => c | None => replacement end :: lossy_loop n r
  end.
Definition to_string_lossy (bs : list N) : ustr := lossy_loop (length bs) bs.

(** The process environment, and what env.rs and profile.rs see of it.  env.rs:525 leaves out empty
    names before the conversion. *)
Definition os_environ := list (list N * list N).
Definition os_seen (vars : os_environ) : environ :=
  map (fun kv => (to_string_lossy (fst kv), to_string_lossy (snd kv))) vars.
Definition os_env_iter (e : env) (vars : os_environ) : out (list (ustr * ustr)) :=
  env_iter e (os_seen (filter (fun kv => match fst kv with [] => false | _ => true end) vars)).
(** [Env::data], env.rs:633-644, [Env::var], 585-594, and [Profile::from_env], profile.rs:117-126. *)
Definition os_env_data (e : env) (vars : os_environ) : out (bmap profile dict) :=
  out_bind (os_env_iter e vars) (fun items =>
  out_map (fun d => profile_collect (ev_profile e) d) (env_fold items [])).
Definition os_env_var (name : ustr) (vars : os_environ) : option ustr := env_var name (os_seen vars).
Definition os_from_env (name : ustr) (vars : os_environ) : option profile := profile_from_env (os_seen vars) name.
