(** The repository's own tests and documented assertions, run on the model: /repo/tests/*.rs, the unit
    tests of /repo/src/value/parse.rs and magic.rs, and the asserts in the doc comments.  Each is an
    [Example]; they are evidence that the model computes what the code computes, not claims.

    How they are written down.  A TOML, JSON or YAML text enters as the document its parser makes of
    it (the parsers are not modelled): [toml table] is a format whose parser knows the texts of
    [table].  TOML integers arrive as [i64], JSON's and YAML's positive ones as [u64].  A test inside
    [Jail::expect_with] runs in the world [jailed_world ops], whose directory is [/tmp/jail]; the
    environment also holds [PATH] and [HOME].  Figments are built with [built], which starts the tag
    counter at 1 as a fresh process does.  [assert_eq!] on paths compares components, as [Path] does.

    Left out: asserts on Rust's own collections. *)
From Coq Require Import Ascii String ZArith NArith Bool.
From Coq Require Import Floats.SpecFloat.
From Coq Require Import List.
From Verif Require Import Res BMap Str Profile Tag Num NumParse Escape Value Parse Metadata Err Coalesce Figment Env
  Fmt De Ser Path Data Jail World Into Magic Doc Yaml Eq Content Derive SpecFigment.
Import ListNotations.
Local Open Scope string_scope.
Local Open Scope list_scope.
Local Open Scope Z_scope.

(** ** Writing tests *)
Definition here : location := mkLoc (lit "test.rs") 1 1.

(** Steps that build a Figment. *)
Definition with_ (o : order) (p : out provider) : out op := out_map (OpProvide here o) p.
Definition select (p : ustr) : out op := Ret (OpSelect (profile_new p)).
Fixpoint steps (l : list (out op)) (f : figment) (c : N) : out figment * N :=
  match l with
  | [] => (Ret f, c)
  | Ret x :: r => match run_op x f c with
                  | (Ret f', c') => steps r f' c'
                  | (_, c') => (Panic, c')
                  end
  | _ :: _ => (Panic, c)
  end.
Definition built (l : list (out op)) : out figment := fst (steps l fig_new 1).
(** One Figment given to another: both take tags from the same counter. *)
Definition combined (o : order) (l l' : list (out op)) : out figment :=
  match steps l fig_new 1 with
  | (Ret f, c) => match steps l' fig_new c with
                  | (Ret f', c') => fst (steps [with_ o (Ret (figment_provider f'))] f c')
                  | _ => Panic
                  end
  | _ => Panic
  end.
Definition ask {A} (f : out figment) (g : figment -> A) : option A :=
  match f with Ret f => Some (g f) | _ => None end.
Definition answer (f : out figment) (t : ty) (path : string) : option dval :=
  match f with Ret f => res_ok (extract_inner Exact f t (lit path)) | _ => None end.
Definition answer_lossy (f : out figment) (t : ty) (path : string) : option dval :=
  match f with Ret f => res_ok (extract_inner Lossy f t (lit path)) | _ => None end.
Definition extracted (f : out figment) (t : ty) : option dval :=
  match f with Ret f => res_ok (extract Exact f t) | _ => None end.
Definition extracted_lossy (f : out figment) (t : ty) : option dval :=
  match f with Ret f => res_ok (extract Lossy f t) | _ => None end.
(** At types with serde attributes. *)
Definition extracted_at (f : out figment) (x : xty) : option dval :=
  match f with Ret f => res_ok (xextract Exact f x) | _ => None end.
Definition refused_x (f : out figment) (x : xty) : bool :=
  match f with Ret f => negb (is_ok (xextract Exact f x)) | _ => false end.
Definition field_ (n : string) (x : xty) : field xty := mkField (lit n) [] None x.
(** The extraction was reached and failed. *)
Definition refused (f : out figment) (t : ty) : bool :=
  match f with Ret f => negb (is_ok (extract Exact f t)) | _ => false end.
Definition refused_at (f : out figment) (t : ty) (path : string) : bool :=
  match f with Ret f => negb (is_ok (extract_inner Exact f t (lit path))) | _ => false end.

(** Rust values and types. *)
Definition s_ (x : string) : dval := EVStr (lit x).
Definition n_ (z : Z) : dval := EVInt I32 z.
Definition u_ (z : Z) : dval := EVInt USize z.
Definition strs (l : list string) : dval := EVSeq (map s_ l).
Definition nums (k : ikind) (l : list Z) : dval := EVSeq (map (EVInt k) l).
Definition rec_ (l : list (string * dval)) : dval := EVStruct (map (fun kv => (lit (fst kv), snd kv)) l).
Definition map_ (l : list (string * dval)) : dval := EVMap (map (fun kv => (lit (fst kv), snd kv)) l).
Definition struct_ (name : string) (fs : list (string * ty)) : ty :=
  TStruct (lit name) (lit name) false (map (fun f => (lit (fst f), snd f)) fs).
Definition usize := TInt USize.
Definition tuple (o : order) (key : string) (v : dval) : out op :=
  with_ o (Ret (tuple_provider (lit "&str") (lit "T") (lit key) v here)).
Definition serial (o : order) (s : serialized) : out op := with_ o (Ret (serialized_provider (lit "T") s)).

(** Documents, formats and worlds. *)
Definition d_ (x : string) : doc := DocStr (lit x).
Definition i_ (z : Z) : doc := DocInt I64 z.
Definition j_ (z : Z) : doc := DocInt U64 z.
Definition table := list (string * doc).
Definition doc_ (l : list (string * doc)) : doc := DocMap (map (fun kv => (lit (fst kv), snd kv)) l).
Fixpoint parse_by (t : table) (text : ustr) : res ustr doc :=
  match t with
  | [] => Err (lit "parse error")
  | (k, d) :: r => if ueqb (lit k) text then Ok d else parse_by r text
  end.
Definition toml (t : table) : format := doc_format (lit "TOML") (parse_by t) (fun _ _ => lit "mistake") (fun s => s).
Definition json (t : table) : format := doc_format (lit "JSON") (parse_by t) (fun _ _ => lit "mistake") (fun s => s).
Definition yaml (t : table) : format := doc_format (lit "YAML") (parse_by t) (fun _ _ => lit "mistake") (fun s => s).
Definition yaml_x (t : table) : format := yaml_extended (parse_by t) (fun _ _ => lit "mistake") (fun s => s).

Definition jail_dir : place := [lit "tmp"; lit "jail"].
Definition dir : ustr := lit "/tmp/jail".
Definition root_disk : disk := fun l =>
  if same_place l [] then Some NDir else if same_place l [lit "tmp"] then Some NDir else None.
Definition outer_env : environment := [(lit "HOME", lit "/root"); (lit "PATH", lit "/bin")].
Definition jailed_world (ops : list world_op) : world :=
  world_run dir ops (mkWorld (temp_dir jail_dir root_disk) (jail_start outer_env dir [])).
Definition file (name text : string) : world_op := WCreate (lit name) (Some (lit text)).
Definition var (k v : string) : world_op := WSetEnv (lit k) (lit v).
Definition clear : world_op := WClearEnv (fun e => e).
Definition vars (w : world) : environ := j_env (w_jail w).
Definition disk_of (w : world) : fsys := fs_of (w_disk w) (w_cwd w).
Definition data (o : order) (fm : format) (w : world) (d : Data.data) : out op :=
  with_ o (data_provider fm (disk_of w) d).
Definition envp (o : order) (w : world) (e : env) : out op := with_ o (env_provider e (vars w)).
Definition count {A} (x : out (list A)) : option nat := match x with Ret l => Some (length l) | _ => None end.

(** Equality of [Value]s and [Num]s is the code's own, value.rs:438-451, 734-738. *)
Definition parses (l : list (ustr * source)) : bool :=
  forallb (fun p => match value_from_str (fst p) with
                    | Ret v => value_eqb v (into_value (snd p))
                    | _ => false
                    end) l.
Definition q (s : ustr) : ustr := dquote :: s ++ [dquote].
Definition bs : uchar := ch "\".
Definition F64 (m e : Z) : spec_float := binary_normalize f64_prec f64_emax m e false.

(** ** /repo/src/value/parse.rs *)

(** parse.rs:219-262. *)
Example check_simple_values_parse : parses
  [(lit "true", FBool true); (lit "false", FBool false);
   (q (lit "false"), FStr (lit "false")); (q (lit "true"), FStr (lit "true"));
   (lit "  false", FBool false); (lit "  false  ", FBool false); (lit "true  ", FBool true);
   (lit "1", FNum (NInt U8 1)); (lit " 0", FNum (NInt U8 0)); (lit " -0", FNum (NInt I8 0));
   (lit " -2", FNum (NInt I32 (-2))); (lit " 123 ", FNum (NInt U8 123));
   (lit "a,b", FStr (lit "a,b")); (lit "   a,b", FStr (lit "a,b"));
   (q (lit "a"), FStr (lit "a")); (lit "a ", FStr (lit "a")); (lit "   a ", FStr (lit "a"));
   (q (lit " a"), FStr (lit " a")); (q (lit "a  "), FStr (lit "a  ")); (q (lit " a  "), FStr (lit " a  "));
   (lit "1.2", FNum (NF64 (F64 5404319552844595 (-52))));
   (lit "[", FStr (lit "[")); (lit "[a", FStr (lit "[a")); (lit "[a b", FStr (lit "[a b")); (lit "]", FStr (lit "]"));
   (lit "  1.2", FNum (NF64 (F64 5404319552844595 (-52))));
   (lit "3.14159", FNum (NF64 (F64 7074231776675438 (-51))));
   (q [bs; ch "t"], FStr [9%N]);
   (q (lit "abc\td"), FStr (lit "abc" ++ [9%N] ++ lit "d"));
   (q (lit "abc\td\n"), FStr (lit "abc" ++ [9%N] ++ lit "d" ++ [10%N]));
   (q (lit "abc\td\n\n"), FStr (lit "abc" ++ [9%N] ++ lit "d" ++ [10%N; 10%N]));
   (q [bs; dquote], FStr [dquote]);
   (q (lit "\n\f\b\\\r\" ++ [dquote]), FStr [10%N; 12%N; 8%N; bs; 13%N; dquote]);
   (q ([bs; dquote] ++ lit "hi" ++ [bs; dquote]), FStr (dquote :: lit "hi" ++ [dquote]));
   (q (lit "hi\u1234there"), FStr (lit "hi" ++ [4660%N] ++ lit "there"));
   (q [bs; bs], FStr [bs]);
   (q [bs], FStr (q [bs]))] = true.
Proof. vm_compute. reflexivity. Qed.

(** parse.rs:264-289. *)
Definition fs (s : string) := FStr (lit s).
Definition u8 (z : Z) := FNum (NInt U8 z).
Definition i32 (z : Z) := FNum (NInt I32 z).
Definition fm (l : list (string * source)) := FMap (map (fun kv => (lit (fst kv), snd kv)) l).
Example check_compund_values_parse : parses
  [(lit "[1,2,3]", FList [u8 1; u8 2; u8 3]);
   (lit "[ 1 , 2   ,3]", FList [u8 1; u8 2; u8 3]);
   (lit " [ 1 , 2   , 3  ] ", FList [u8 1; u8 2; u8 3]);
   (lit " [ a , b   ,, d  ] ", FList [fs "a"; fs "b"; fs ""; fs "d"]);
   (lit " [ a , b   c,] ", FList [fs "a"; fs "b   c"]);
   (lit " [ a , b   c,,] ", FList [fs "a"; fs "b   c"; fs ""]);
   (lit "{a=b}", fm [("a", fs "b")]);
   (lit " { a = b } ", fm [("a", fs "b")]);
   (lit "{" ++ q (lit "a") ++ lit "=b}", fm [("a", fs "b")]);
   (lit "{" ++ q (lit "a.b.c") ++ lit "=b}", fm [("a.b.c", fs "b")]);
   (lit "{a=1,b=3}", fm [("a", u8 1); ("b", u8 3)]);
   (lit "{a=1,b=hi}", fm [("a", u8 1); ("b", fs "hi")]);
   (lit "[1,[2],3]", FList [u8 1; FList [u8 2]; u8 3]);
   (lit "{a=[[-2]]}", fm [("a", FList [FList [i32 (-2)]])]);
   (lit "{a=[[-2]],b=" ++ q (lit " hi") ++ lit "}", fm [("a", FList [FList [i32 (-2)]]); ("b", fs " hi")]);
   (lit "[1,true,hi," ++ q (lit "a ") ++ lit "]", FList [u8 1; FBool true; fs "hi"; fs "a "]);
   (lit "[1,{a=b},hi]", FList [u8 1; fm [("a", fs "b")]; fs "hi"]);
   (lit "[[ -1], {a=[ b ]},  hi ]", FList [FList [i32 (-1)]; fm [("a", FList [fs "b"])]; fs "hi"])] = true.
Proof. vm_compute. reflexivity. Qed.

(** ** /repo/src/value/value.rs and tag.rs *)

(** value.rs:20, 75, 93. *)
Example value_docs :
  as_str (into_value (fs "hello")) = Some (lit "hello") /\
  option_bind (res_ok (serialize (EVInt I8 10))) to_i128 = Some 10 /\
  option_map (fun v => value_eqb v (into_value (FEmpty EUnit))) (res_ok (serialize EVUnit)) = Some true /\
  option_map (fun v => value_eqb v (into_value (FList [i32 4; i32 5; i32 6])))
    (res_ok (serialize (nums I32 [4; 5; 6]))) = Some true /\
  value_deserialize TString (into_value (fs "hello")) = Ok (s_ "hello").
Proof. vm_compute. repeat split. Qed.

(** value.rs:115 and 155. *)
Definition apple : value := into_value (fm
  [("apple", fm [("bat", fm [("pie", FNum (NInt USize 4))]);
                 ("cake", fm [("pumpkin", FNum (NInt USize 10))])])]).
Example find_docs :
  forallb (fun p => match vfind (lit p) apple, vfind_ref (lit p) apple with Some _, Some _ => true | _, _ => false end)
    ["apple"; "apple.bat"; "apple.cake"] = true /\
  option_bind (vfind (lit "apple.bat.pie") apple) to_u128 = Some 4 /\
  option_bind (vfind (lit "apple.cake.pumpkin") apple) to_u128 = Some 10 /\
  vfind (lit "apple.pie") apple = None /\ vfind (lit "pineapple") apple = None /\
  option_bind (vfind_ref (lit "apple.bat.pie") apple) to_u128 = Some 4 /\
  option_bind (vfind_ref (lit "apple.cake.pumpkin") apple) to_u128 = Some 10 /\
  vfind_ref (lit "apple.pie") apple = None /\ vfind_ref (lit "pineapple") apple = None.
Proof. vm_compute. repeat split. Qed.

(** value.rs:192. *)
Definition as_value (x : option dval) : option value := match x with Some (EVValue v) => Some v | _ => None end.
Definition tag_facts (v : value) : bool * option profile := (is_default (vtag v), tag_profile (vtag v)).
Example tag_docs :
  let a := option_bind (as_value (extracted (built [tuple Merge "key" (s_ "value")]) TValue)) (vfind_ref (lit "key")) in
  let b := option_bind (as_value (extracted (built [tuple Merge "key" (map_ [("key2", n_ 123)])]) TValue))
             (vfind_ref (lit "key.key2")) in
  option_bind a as_str = Some (lit "value") /\ option_map tag_facts a = Some (false, Some p_global) /\
  option_bind b to_i128 = Some 123 /\ option_map tag_facts b = Some (false, Some p_global).
Proof. vm_compute. repeat split. Qed.

(** value.rs:235, 251, 270, 295, 349, 379. *)
Definition seven32 : spec_float := binary_normalize f32_prec f32_emax 7 0 false.
Example conversion_docs :
  to_u128 (into_value (u8 123)) = Some 123 /\ to_i128 (into_value (FNum (NInt I8 123))) = Some 123 /\
  to_i128 (into_value (FNum (NInt I64 5000))) = Some 5000 /\
  to_f64 (into_value (FNum (NF32 seven32))) = Some (F64 7 0) /\ to_f64 (into_value (FNum (NF64 (F64 7 0)))) = Some (F64 7 0) /\
  map (fun v => to_bool_lossy (into_value v)) [FBool true; i32 1; fs "YES"; FBool false; i32 0; fs "no"; fs "hello"] =
    [Some true; Some true; Some true; Some false; Some false; Some false; None] /\
  forallb (fun p => match to_num_lossy (into_value (fst p)) with Some n => num_eqb n (snd p) | None => false end)
    [(i32 7, NInt I32 7); (fs "7", NInt U8 7); (fs "-7000", NInt I16 (-7000));
     (fs "7000.5", NF64 (F64 14001 (-1)))] = true /\
  to_actual (into_value (FChar (ch "a"))) = AChar (ch "a") /\
  to_actual (into_value (FList [i32 1; i32 2; i32 3])) = ASeq.
Proof. vm_compute. repeat split. Qed.

(** value.rs:581, 603, 626, 658, 681, 702, 770; tag.rs:72, 86. *)
Example num_docs :
  num_to_u32 (NInt U8 123) = Some 123 /\ num_to_u32 (NInt U64 4294967296) = None /\
  num_to_u128 (NInt U8 123) = Some 123 /\ num_to_u128_lossy (NInt U8 123) = Some 123 /\
  num_to_u128_lossy (NInt I8 123) = Some 123 /\ num_to_i128 (NInt I8 123) = Some 123 /\
  num_to_f64 (NF32 (binary_normalize f32_prec f32_emax 3 0 false)) = Some (F64 3 0) /\
  map num_to_actual [NInt U8 10; NInt U64 2380; NInt I8 127; NInt ISize 23923;
                     NF32 (binary_normalize f32_prec f32_emax 5 (-1) false); NF64 (F64 4735571517108011 (-51))] =
    [AUnsigned 10; AUnsigned 2380; ASigned 127; ASigned 23923; AFloat (F64 5 (-1)); AFloat (F64 4735571517108011 (-51))] /\
  empty_to_actual ENone = AOption /\ empty_to_actual EUnit = AUnit /\
  is_default tag_default = true /\ tag_profile tag_default = Some p_default.
Proof. vm_compute. repeat split. Qed.

(** ** /repo/src/util.rs *)

(** util.rs:40.  [Some("../".into())] is a path, equal to [..]. *)
Definition same_path (a b : option ustr) : bool :=
  match a, b with
  | Some x, Some y => forallb (fun p => component_eqb (fst p) (snd p)) (combine (components x) (components y))
                      && Nat.eqb (length (components x)) (length (components y))
  | None, None => true
  | _, _ => false
  end.
Example diff_docs : forallb
  (fun t => let '(a, b, c) := t in same_path (diff_paths (lit a) (lit b)) (option_map lit c))
  [("/a/b/c", "b/c", None); ("a/b/c", "/b/c", None);
   ("/a/b/c", "/b/c", Some "../../a/b/c"); ("c/a", "b/c/a", Some "../../../c/a");
   ("/foo/bar", "/foo/bar/baz", Some "../"); ("/foo/bar/baz", "/foo/bar", Some "baz");
   ("/foo/bar/quux", "/foo/bar/baz", Some "../quux"); ("/foo/bar/baz", "/foo/bar/quux", Some "../baz");
   ("/foo/bar", "/foo/bar/quux", Some "../"); ("/foo/bar/baz", "/foo/bar", Some "baz")] = true.
Proof. vm_compute. reflexivity. Qed.

(** util.rs:113, 179, 254. *)
Example util_docs :
  let colors v := extracted (built [tuple Merge "cli_colors" v]) (struct_ "Config" [("cli_colors", TBoolish)]) in
  map colors [s_ "true"; s_ "TRUE"; n_ 1] = repeat (Some (rec_ [("cli_colors", EVBool true)])) 3 /\
  map colors [s_ "false"; s_ "fAlSe"; n_ 0] = repeat (Some (rec_ [("cli_colors", EVBool false)])) 3 /\
  extracted (built [tuple Merge "pairs" (map_ [("key", n_ 1); ("value", n_ 100); ("name", n_ 20)])])
    (struct_ "Config" [("pairs", TPairs TString usize)]) =
  Some (rec_ [("pairs", EVPairs [(s_ "key", u_ 1); (s_ "name", u_ 20); (s_ "value", u_ 100)])]).
Proof. vm_compute. repeat split. Qed.

Example nest_docs :
  let leaf := into_value (fs "I'm a leaf!") in
  vfind_ref (lit "tea") (nest (lit "tea") leaf) = Some leaf /\
  option_bind (vfind_ref (lit "tea") (nest (lit "tea.leaf") leaf)) (vfind_ref (lit "leaf")) = Some leaf /\
  vfind_ref (lit "tea.leaf") (nest (lit "tea.leaf") leaf) = Some leaf /\
  nest [] leaf = leaf.
Proof. vm_compute. repeat split. Qed.

(** ** /repo/src/error.rs *)

(** error.rs:176, 190, 210. *)
Fixpoint iterated (fuel : nat) (st : option error) : list error :=
  match fuel with
  | O => []
  | S n => match iter_next st with Some (e, r) => e :: iterated n r | None => [] end
  end.
Example error_docs :
  let e n := err_msg (lit n) in
  let texts x := map (fun e => fmt_kind (e_kind e)) (iterated 9 (Some x)) in
  e_missing (err_of_kind (KMissingField (lit "path"))) = true /\
  e_path (with_path (lit "some_path") (e "an error message")) = [lit "some_path"] /\
  e_path (with_path (lit "some.path") (e "an error message")) = [lit "some"; lit "path"] /\
  e_count (chain (chain (e "1") (e "2")) (e "3")) = 3%nat /\
  texts (chain (chain (e "1") (e "2")) (e "3")) = [lit "3"; lit "2"; lit "1"] /\
  texts (chain (chain (e "3") (e "2")) (e "1")) = [lit "1"; lit "2"; lit "3"].
Proof. vm_compute. repeat split. Qed.

(** error.rs:245: two files that do not parse. *)
Example error_count_docs :
  let w := jailed_world [file "Base.toml" "cat = [1"; file "Release.toml" "cat = """] in
  let f := built [data Merge (toml []) w (data_file (lit "Base.toml")); data Merge (toml []) w (data_file (lit "Release.toml"))] in
  ask f (fun f => match extract_inner Exact f TString (lit "cat") with Err e => Some (e_count e) | Ok _ => None end) =
  Some (Some 2%nat).
Proof. vm_compute. reflexivity. Qed.

(** ** /repo/src/metadata.rs and profile.rs *)

(** metadata.rs:47, 88, 106, 122, 140, 168, 235, 253, 272. *)
Example metadata_docs :
  let env_like := md_with_interpolater (md_named (lit "environment variable(s)")) (fun _ path => join (lit ".") (map upper path)) in
  let url := lit "ftp://config.dev" in
  let md := md_with_interpolater (md_with_source (md_named (lit "Network")) (SCustom url))
    (fun p keys => if is_custom p then url ++ lit "/" ++ pname p ++ lit "/" ++ join (lit "/") keys
                   else url ++ lit "/" ++ join (lit "/") keys) in
  let kp := [lit "key"; lit "path"] in
  md_interpolate env_like p_default kp = lit "KEY.PATH" /\
  md_name (md_from (lit "AWS Config Store") (SCustom (lit "path/to/value"))) = lit "AWS Config Store" /\
  option_bind (md_source (md_from (lit "AWS Config Store") (SCustom (lit "path/to/value")))) source_custom = Some (lit "path/to/value") /\
  md_source (md_named (lit "AWS Config Store")) = None /\
  option_bind (md_source (md_with_source (md_named (lit "AWS Config Store")) (SCustom (lit "config/path")))) source_custom
    = Some (lit "config/path") /\
  md_interpolate md p_default kp = lit "ftp://config.dev/key/path" /\
  md_interpolate md (profile_new (lit "static")) kp = lit "ftp://config.dev/static/key/path" /\
  source_file_path (SFile (lit "a/b/c.txt")) = Some (lit "a/b/c.txt") /\
  source_code_location (SCode here) = Some here /\ source_custom (SCustom (lit "ftp://foo")) = Some (lit "ftp://foo").
Proof. vm_compute. repeat split. Qed.

(** profile.rs:72, 87, 104, 134, 168, 184. *)
Example profile_docs :
  let w := jailed_world [var "MY_PROFILE" "secret"] in
  let named s := profile_new (lit s) in
  let from k := profile_from_env (vars w) (lit k) in
  let from_or k := profile_from_env_or (vars w) (lit k) (named "default") in
  profile_eqb (named "staging") (named "STAGING") = true /\
  from "MY_PROFILE" = Some (named "secret") /\ from "MY_profile" = Some (named "secret") /\
  from "other_profile" = None /\
  from_or "MY_PROFILE" = named "secret" /\ from_or "MY_profile" = named "secret" /\
  from_or "other_prof" = named "default" /\
  map (fun s => profile_starts_with (named "static") (lit s)) ["STAT"; "stat"; "static"] = [true; true; true] /\
  is_custom (named "static") = true /\ is_custom p_default = false /\ is_custom p_global = false.
Proof. vm_compute. repeat split. Qed.

(** ** /repo/src/figment.rs *)

(** figment.rs:110, 128, 340, 643. *)
Example new_docs :
  f_profile fig_new = p_default /\ length (fig_metadata fig_new) = 0%nat /\
  ask (built [envp Merge (jailed_world []) env_raw]) (fun f => (f_profile f, length (fig_metadata f))) =
    Some (p_default, 1%nat) /\
  ask (built [select (lit "staging")]) (fun f => profile_eqb (f_profile f) (profile_new (lit "staging"))) = Some true.
Proof. vm_compute. repeat split. Qed.

(** figment.rs:175, 216, 257, 298: join, adjoin, merge and admerge. *)
Definition originals (m : dval) : list (out op) :=
  [tuple Join "string" (s_ "original"); tuple Join "vec" (strs ["item 1"]); tuple Join "map" m].
Definition replacements (m : dval) : list (out op) :=
  [tuple Join "string" (s_ "replaced"); tuple Join "vec" (strs ["item 2"]); tuple Join "map" m;
   tuple Join "new" (s_ "value")].
Definition answers (f : out figment) (t : ty) : list (option dval) :=
  [answer f TString "string"; answer f (TSeq TString) "vec"; answer f (TMap t) "map"; answer f TString "new"].
Definition m1 := map_ [("string", s_ "inner original")].
Definition m2 := map_ [("string", s_ "inner replaced"); ("new", s_ "value")].
Definition v1 := map_ [("vec", strs ["inner item 1"])].
Definition v2 := map_ [("vec", strs ["inner item 2"]); ("new", strs ["value"])].
Example provide_docs :
  answers (combined Join (originals m1) (replacements m2)) TString =
    [Some (s_ "original"); Some (strs ["item 1"]);
     Some (map_ [("new", s_ "value"); ("string", s_ "inner original")]); Some (s_ "value")] /\
  answers (combined Adjoin (originals v1) (replacements v2)) (TSeq TString) =
    [Some (s_ "original"); Some (strs ["item 1"; "item 2"]);
     Some (map_ [("new", strs ["value"]); ("vec", strs ["inner item 1"; "inner item 2"])]); Some (s_ "value")] /\
  answers (combined Merge (originals m1) (replacements m2)) TString =
    [Some (s_ "replaced"); Some (strs ["item 2"]);
     Some (map_ [("new", s_ "value"); ("string", s_ "inner replaced")]); Some (s_ "value")] /\
  answers (combined Admerge (originals v1) (replacements v2)) (TSeq TString) =
    [Some (s_ "replaced"); Some (strs ["item 1"; "item 2"]);
     Some (map_ [("new", strs ["value"]); ("vec", strs ["inner item 1"; "inner item 2"])]); Some (s_ "value")].
Proof. vm_compute. repeat split. Qed.

(** figment.rs:376: focus. *)
Definition focus_doc : doc := doc_
  [("cat", DocSeq [i_ 1; i_ 2; i_ 3]); ("dog", DocSeq [i_ 4; i_ 5; i_ 6]);
   ("subtree", doc_ [("cat", d_ "meow"); ("dog", d_ "woof!");
                     ("bark", doc_ [("dog", DocBool true); ("cat", DocBool false)])])].
Example focus_docs :
  let w := jailed_world [file "Config.toml" "text"] in
  let root := built [data Merge (toml [("text", focus_doc)]) w (data_file (lit "Config.toml"))] in
  let at_ k f := out_map (fun f => focus f (lit k)) f in
  let subtree := at_ "subtree" root in
  let bark := at_ "bark" subtree in
  let not_a_dict := at_ "cat" root in
  [answer root (TSeq (TInt U8)) "cat"; answer root (TSeq (TInt U8)) "dog"] = [Some (nums U8 [1; 2; 3]); Some (nums U8 [4; 5; 6])] /\
  [answer root TString "subtree.cat"; answer root TString "subtree.dog"] = [Some (s_ "meow"); Some (s_ "woof!")] /\
  [answer subtree TString "cat"; answer subtree TString "dog"] = [Some (s_ "meow"); Some (s_ "woof!")] /\
  [answer subtree TBool "bark.cat"; answer subtree TBool "bark.dog"] = [Some (EVBool false); Some (EVBool true)] /\
  [answer bark TBool "cat"; answer bark TBool "dog"] = [Some (EVBool false); Some (EVBool true)] /\
  [refused_at not_a_dict TBool "cat"; refused_at not_a_dict TBool "dog"] = [true; true].
Proof. vm_compute. repeat split. Qed.

(** figment.rs:441, 497: extract and extract_lossy. *)
Definition figment_config := struct_ "Config" [("name", TString); ("numbers", TOption (TSeq usize)); ("debug", TBool)].
Definition figment_result : dval :=
  rec_ [("name", s_ "env-test"); ("numbers", EVSome (nums USize [1; 2; 3; 10])); ("debug", EVBool true)].
Definition three_sources (t j : doc) : out figment :=
  let w := jailed_world [file "Config.toml" "t"; var "config_name" "env-test"; file "Config.json" "j"] in
  built [data Merge (toml [("t", t)]) w (data_file (lit "Config.toml")); envp Merge w (env_prefixed (lit "CONFIG_"));
         data Join (json [("j", j)]) w (data_file (lit "Config.json"))].
Example extract_docs :
  extracted (three_sources (doc_ [("name", d_ "test"); ("numbers", DocSeq [i_ 1; i_ 2; i_ 3; i_ 10])])
                           (doc_ [("name", d_ "json-test"); ("debug", DocBool true)])) figment_config = Some figment_result /\
  extracted_lossy (three_sources (doc_ [("name", d_ "test"); ("numbers", DocSeq [d_ "1"; d_ "2"; d_ "3"; d_ "10"])])
                                 (doc_ [("name", d_ "json-test"); ("debug", d_ "yes")])) figment_config = Some figment_result.
Proof. vm_compute. repeat split. Qed.

(** figment.rs:549, 583: extract_inner and extract_inner_lossy. *)
Definition two_files (t j : doc) : out figment :=
  let w := jailed_world [file "Config.toml" "t"; file "Config.json" "j"] in
  built [data Merge (toml [("t", t)]) w (data_file (lit "Config.toml"));
         data Join (json [("j", j)]) w (data_file (lit "Config.json"))].
Example extract_inner_docs :
  answer (two_files (doc_ [("numbers", DocSeq [i_ 1; i_ 2; i_ 3; i_ 10])]) (doc_ [("debug", DocBool true)]))
    (TSeq usize) "numbers" = Some (nums USize [1; 2; 3; 10]) /\
  answer_lossy (two_files (doc_ [("numbers", DocSeq [d_ "1"; d_ "2"; d_ "3"; d_ "10"])]) (doc_ [("debug", DocBool true)]))
    (TSeq usize) "numbers" = Some (nums USize [1; 2; 3; 10]).
Proof. vm_compute. repeat split. Qed.

(** figment.rs:614: metadata, of files that do not exist. *)
Definition begins (p : string) (s : ustr) : bool := match strip_prefix (lit p) s with Some _ => true | None => false end.
Example metadata_order_docs :
  let w := jailed_world [] in
  ask (built [data Merge (toml []) w (data_file (lit "Config.toml")); data Join (json []) w (data_file (lit "Config.json"))])
    (fun f => map (fun md => (begins "TOML" (md_name md), begins "JSON" (md_name md))) (fig_metadata f)) =
  Some [(true, false); (false, true)].
Proof. vm_compute. reflexivity. Qed.

(** figment.rs:662: profiles. *)
Definition hi (p : string) : out op := serial Join (sz_with_profile (sz_default (lit "key") (s_ "hi") here) (profile_new (lit p))).
Example profiles_docs :
  fig_profiles fig_new = [] /\
  ask (built [serial Join (sz_default (lit "key") (s_ "hi") here); hi "debug"]) (fun f => map pname (fig_profiles f)) =
    Some [lit "debug"; lit "default"] /\
  ask (built [hi "release"; hi "testing"; hi "staging"; select (lit "debug")]) (fun f => map pname (fig_profiles f)) =
    Some [lit "release"; lit "staging"; lit "testing"].
Proof. vm_compute. repeat split. Qed.

(** figment.rs:706, 754: find_value and contains. *)
Definition packages : out figment :=
  two_files (doc_ [("name", d_ "test"); ("package", doc_ [("name", d_ "my-package")])])
            (doc_ [("author", doc_ [("name", d_ "Bob")])]).
Example find_value_docs :
  ask packages (fun f => map (fun p => option_bind (res_ok (find_value f (lit p))) as_str)
    ["name"; "package.name"; "author.name"]) =
    Some [Some (lit "test"); Some (lit "my-package"); Some (lit "Bob")] /\
  ask packages (fun f => map (fun p => fig_contains f (lit p))
    ["name"; "package"; "package.name"; "author"; "author.name"; "author.title"]) =
    Some [true; true; true; true; true; false].
Proof. vm_compute. repeat split. Qed.

(** figment.rs:795, 827: find_metadata and get_metadata. *)
Fixpoint has (p : string) (s : ustr) : bool :=
  begins p s || match s with [] => false | _ :: r => has p r end.
Example find_metadata_docs :
  let w := jailed_world [file "Config.toml" "t"; var "CONF_AUTHOR" "Bob"] in
  let f := built [data Merge (toml [("t", doc_ [("name", d_ "test")])]) w (data_file (lit "Config.toml"));
                  envp Join w (env_only (env_prefixed (lit "CONF_")) [lit "author"])] in
  ask f (fun f => option_map (fun md => begins "TOML" (md_name md)) (find_metadata f (lit "name"))) = Some (Some true) /\
  ask f (fun f => option_map (fun md => (has "CONF_" (md_name md), has "environment" (md_name md)))
                             (find_metadata f (lit "author"))) = Some (Some (true, true)).
Proof. vm_compute. repeat split. Qed.

Example get_metadata_docs :
  let f := two_files (doc_ [("name", d_ "test")]) (doc_ [("author", d_ "Bob")]) in
  let of p f := option_map (fun md => (begins "TOML" (md_name md), begins "JSON" (md_name md)))
    (option_bind (res_ok (find_value f (lit p))) (fun v => get_metadata f (vtag v))) in
  ask f (of "name") = Some (Some (true, false)) /\ ask f (of "author") = Some (Some (false, true)).
Proof. vm_compute. repeat split. Qed.

(** ** /repo/src/jail.rs *)

(** jail.rs:263: change_dir. *)
Example change_dir_docs :
  let w0 := jailed_world [] in
  let made := world_step dir (WMkdir (lit "subdir")) w0 in
  let w1 := fst (fst made) in
  let sub := match snd (fst made) with Some p => p | None => [] end in
  let w2 := fst (fst (world_step dir (WChdir sub) w1)) in
  let w3 := fst (fst (world_step dir (file "foo.txt" "contents") w2)) in
  let w4 := fst (fst (world_step dir (WChdir dir) w3)) in
  fs_cwd (disk_of w0) = Some dir /\
  same_path (fs_cwd (disk_of w2)) (Some (path_join dir sub)) = true /\
  fs_is_file (disk_of w3) (path_join dir (lit "foo.txt")) = false /\
  fs_is_file (disk_of w3) (path_join (path_join dir (lit "subdir")) (lit "foo.txt")) = true /\
  fs_cwd (disk_of w4) = Some dir.
Proof. vm_compute. repeat split. Qed.

(** jail.rs:294, 332: clear_env and set_env. *)
Example jail_env_docs :
  let seen ops := length (vars (jailed_world ops)) in
  let special := var "FIGMENT_SPECIAL_JAIL_VALUE" "value" in
  let after ops := jail_try jail_dir ops (fun l => l) (mkProcess root_disk outer_env []) in
  [seen [clear]; seen [clear; special]; seen [clear; special; clear]] = [0; 1; 0]%nat /\ seen [] <> 0%nat /\
  out_map p_env (after [clear; special; clear]) = Ret outer_env /\
  env_get (lit "my-very-special-figment-var") (vars (jailed_world [var "my-very-special-figment-var" "value"])) = Some (lit "value") /\
  out_map p_env (after [var "my-very-special-figment-var" "value"]) = Ret outer_env.
Proof. vm_compute. repeat split. discriminate. Qed.

(** ** /repo/src/lib.rs *)

(** lib.rs:119. *)
Example lib_overview :
  let w := jailed_world [file "App.toml" "t"; file "App.json" "j"; var "APP_COUNT" "250"] in
  extracted
    (built [data Merge (toml [("t", doc_ [("name", d_ "Just a TOML App!"); ("count", i_ 100)])]) w (data_file (lit "App.toml"));
            envp Merge w (env_prefixed (lit "APP_"));
            data Join (json [("j", doc_ [("name", d_ "Just a JSON App"); ("authors", DocSeq [d_ "figment"; d_ "developers"])])])
              w (data_file (lit "App.json"))])
    (struct_ "AppConfig" [("name", TString); ("count", usize); ("authors", TSeq TString)]) =
  Some (rec_ [("name", s_ "Just a TOML App!"); ("count", u_ 250); ("authors", strs ["figment"; "developers"])]).
Proof. vm_compute. reflexivity. Qed.

(** lib.rs:214. *)
Definition name_of (p n : string) : string * doc := (p, doc_ [("name", d_ n)]).
Definition texts : table :=
  [("base", doc_ [name_of "default" "Base-Default"; name_of "debug" "Base-Debug"]);
   ("base2", doc_ [name_of "default" "Base-Default"; name_of "debug" "Base-Debug"; name_of "global" "Base-Global"]);
   ("app", doc_ [name_of "debug" "App-Debug"; name_of "global" "App-Global"])].
Definition nested_config (ops : list world_op) (sel : list (out op)) : option dval :=
  let w := jailed_world ops in
  extracted (built ([data Merge (toml texts) w (data_nested (data_file (lit "Base.toml")));
                     data Merge (toml texts) w (data_nested (data_file (lit "App.toml")))] ++ sel))
    (struct_ "Config" [("name", TString)]).
Definition named_ (s : string) : option dval := Some (rec_ [("name", s_ s)]).
Example lib_profiles :
  let base := [file "Base.toml" "base"] in
  let base2 := [file "Base.toml" "base"; file "Base.toml" "base2"] in
  let both := base2 ++ [file "App.toml" "app"] in
  let debug := [select (lit "debug")] in
  [nested_config base []; nested_config base debug; nested_config base [select (lit "undefined")]] =
    [named_ "Base-Default"; named_ "Base-Debug"; named_ "Base-Default"] /\
  [nested_config base2 []; nested_config base2 debug] = [named_ "Base-Global"; named_ "Base-Global"] /\
  [nested_config both []; nested_config both debug] = [named_ "App-Global"; named_ "App-Global"].
Proof. vm_compute. repeat split. Qed.

(** ** /repo/src/providers/data.rs *)

(** data.rs:86, 126. *)
Definition numbers_config := struct_ "Config" [("numbers", TSeq usize); ("untyped", TMap usize)].
Definition numbers_doc := doc_ [("numbers", DocSeq [i_ 1; i_ 2; i_ 3]); ("untyped", doc_ [("key", i_ 1); ("other", i_ 4)])].
Example data_docs :
  let w := jailed_world [file "Config.toml" "t"] in
  let expected := Some (rec_ [("numbers", nums USize [1; 2; 3]); ("untyped", map_ [("key", u_ 1); ("other", u_ 4)])]) in
  extracted (built [data Merge (toml [("t", numbers_doc)]) w (data_file (lit "Config.toml"))]) numbers_config = expected /\
  extracted (built [data Merge (toml [("t", numbers_doc)]) w (data_string (lit "t"))]) numbers_config = expected.
Proof. vm_compute. repeat split. Qed.

(** data.rs:167: nested. *)
Example nested_docs :
  let d := doc_ [("global", doc_ [("untyped", doc_ [("global", i_ 0); ("hi", i_ 7)])]);
                 ("staging", doc_ [("numbers", DocSeq [i_ 1; i_ 2; i_ 3])]);
                 ("release", doc_ [("numbers", DocSeq [i_ 6; i_ 7; i_ 8])])] in
  let w := jailed_world [file "Config.toml" "t"] in
  let p := data Merge (toml [("t", d)]) w (data_nested (data_file (lit "Config.toml"))) in
  let expected l := Some (rec_ [("numbers", nums USize l); ("untyped", map_ [("global", u_ 0); ("hi", u_ 7)])]) in
  extracted (built [p; select (lit "staging")]) numbers_config = expected [1; 2; 3] /\
  extracted (built [p; select (lit "staging"); select (lit "release")]) numbers_config = expected [6; 7; 8].
Proof. vm_compute. repeat split. Qed.

(** data.rs:224: required. *)
Example required_docs :
  let w := jailed_world [file "config.toml" "foo = 123"] in
  let t := toml [("foo = 123", doc_ [("foo", i_ 123)])] in
  let conf := XStruct (lit "Config") false [mkField (lit "foo") [] (Some (u_ 0)) (XTy usize)] [] in
  let missing := data_file (lit "missing.toml") in
  extracted_at (built [data Merge t w missing]) conf = Some (rec_ [("foo", u_ 0)]) /\
  refused_x (built [data Merge t w (data_required missing true)]) conf = true /\
  extracted_at (built [data Merge t w (data_required (data_required missing true) false)]) conf = Some (rec_ [("foo", u_ 0)]) /\
  extracted_at (built [data Merge t w (data_file (lit "config.toml"))]) conf = Some (rec_ [("foo", u_ 123)]).
Proof. vm_compute. repeat split. Qed.

(** data.rs:277: search. *)
Example search_docs :
  let w := jailed_world [file "config.toml" "foo = 123"; WMkdir (lit "subdir"); WChdir (lit "subdir")] in
  let t := toml [("foo = 123", doc_ [("foo", i_ 123)])] in
  let conf := struct_ "Config" [("foo", usize)] in
  extracted (built [data Merge t w (data_file (lit "config.toml"))]) conf = Some (rec_ [("foo", u_ 123)]) /\
  refused (built [data Merge t w (data_search (data_file (lit "config.toml")) false)]) conf = true.
Proof. vm_compute. repeat split. Qed.

(** data.rs:315: profile. *)
Example data_profile_docs :
  extracted (built [data Merge (toml [("value = 123", doc_ [("value", i_ 123)])]) (jailed_world [])
                      (data_with_profile (data_string (lit "value = 123")) (profile_new (lit "debug")));
                    select (lit "debug")]) (struct_ "Config" [("value", TInt U8)]) =
  Some (rec_ [("value", EVInt U8 123)]).
Proof. vm_compute. reflexivity. Qed.

(** data.rs:555: YamlExtended; the anchors are resolved by the parser. *)
Example yaml_extended_docs :
  let point := doc_ [("x", j_ 1); ("y", j_ 2)] in
  let radius := doc_ [("r", j_ 10)] in
  let d := doc_ [("point", point); ("radius", radius);
                 ("circle1", doc_ [("<<", point); ("r", j_ 3)]);
                 ("circle2", doc_ [("<<", DocSeq [point; radius])]);
                 ("circle3", doc_ [("<<", DocSeq [point; radius]); ("y", j_ 14); ("r", j_ 20)])] in
  let circle := struct_ "Circle" [("x", usize); ("y", usize); ("r", usize)] in
  let conf := struct_ "Config" [("circle1", circle); ("circle2", circle); ("circle3", circle)] in
  let c x y r := rec_ [("x", u_ x); ("y", u_ y); ("r", u_ r)] in
  let w := jailed_world [file "Config.yaml" "t"] in
  extracted (built [data Merge (yaml_x [("t", d)]) w (data_file (lit "Config.yaml"))]) conf =
    Some (rec_ [("circle1", c 1 2 3); ("circle2", c 1 2 10); ("circle3", c 1 14 20)]) /\
  refused (built [data Merge (yaml [("t", d)]) w (data_file (lit "Config.yaml"))]) conf = true.
Proof. vm_compute. repeat split. Qed.

(** ** /repo/src/providers/env.rs *)

(** env.rs:146, 177. *)
Example env_docs :
  let w := jailed_world [var "NUMBERS" "[1, 2, 3]"; var "APP_BAR" "hi"] in
  let w' := jailed_world [var "APP_FOO" "100"; var "APP_BAR" "hi"] in
  extracted (built [envp Merge w env_raw]) (struct_ "Config" [("numbers", TSeq usize); ("app_bar", TString)]) =
    Some (rec_ [("numbers", nums USize [1; 2; 3]); ("app_bar", s_ "hi")]) /\
  extracted (built [envp Merge w' (env_prefixed (lit "APP_"))]) (struct_ "Config" [("foo", usize); ("bar", TString)]) =
    Some (rec_ [("foo", u_ 100); ("bar", s_ "hi")]).
Proof. vm_compute. repeat split. Qed.

(** env.rs:212: filter. *)
Example env_filter_docs :
  let w := jailed_world [var "FOO_FOO" "100"; var "BAR_BAR" "hi"; var "foobar" "hi"] in
  let e := env_filter env_raw (fun k => uncased_starts_with k (lit "foo")) in
  count (env_iter e (vars w)) = Some 2%nat /\
  count (env_iter (env_filter e (contains_c (ch "_"))) (vars w)) = Some 1%nat.
Proof. vm_compute. repeat split. Qed.

(** env.rs:240: map.  The documented test keeps the keys that start with [foo] or [bar] and sorts
    them; keys are compared without case, as [Uncased] is. *)
Definition drop_prefix (p : string) (k : ustr) : ustr :=
  if uncased_starts_with k (lit p) then skipn (String.length p) k else k.
Definition kept (e : env) (w : world) : list (ustr * ustr) :=
  match env_iter e (vars w) with
  | Ret l => filter (fun kv => uncased_starts_with (fst kv) (lit "foo") || uncased_starts_with (fst kv) (lit "bar")) l
  | _ => []
  end.
Definition same_pair (a b : ustr * ustr) : bool := uncased_eqb (fst a) (fst b) && ueqb (snd a) (snd b).
Definition same_pairs (l l' : list (ustr * ustr)) : bool :=
  Nat.eqb (length l) (length l') && forallb (fun a => existsb (same_pair a) l') l && forallb (fun a => existsb (same_pair a) l) l'.
Example env_map_docs :
  let w := jailed_world [var "FOO_FOO" "100"; var "BAR_FOO" "hi"; var "foo_bar" "hey"] in
  let e := env_map env_raw (drop_prefix "foo_") in
  same_pairs (kept e w) [(lit "bar", lit "hey"); (lit "BAR_FOO", lit "hi"); (lit "FOO", lit "100")] = true /\
  same_pairs (kept (env_map e (drop_prefix "bar_")) w) [(lit "bar", lit "hey"); (lit "FOO", lit "100"); (lit "FOO", lit "hi")] = true.
Proof. vm_compute. repeat split. Qed.

(** env.rs:299: filter_map. *)
Example env_filter_map_docs :
  let w := jailed_world [clear; var "FOO_FOO" "100"; var "BAR_BAR" "hi"; var "BAZ_BAZ" "200"] in
  let e := env_filter_map env_raw (fun k =>
    if uncased_starts_with k (lit "foo_") then Some (drop_prefix "foo_" k)
    else if uncased_starts_with k (lit "baz_") then Some (drop_prefix "baz_" k) else None) in
  count (env_iter env_raw (vars w)) = Some 3%nat /\
  out_map (fun l => same_pairs l [(lit "foo", lit "100"); (lit "baz", lit "200")]) (env_iter e (vars w)) = Ret true.
Proof. vm_compute. repeat split. Qed.

(** env.rs:343: lowercase. *)
Example env_lowercase_docs :
  let w := jailed_world [clear; var "FOO_BAR_BAZ" "1"; var "FOO_barBaz" "2"] in
  let keys e := out_map (fun m => match get p_default m with Some d => map fst d | None => [] end) (env_data e (vars w)) in
  keys (env_prefixed (lit "FOO_")) = Ret [lit "bar_baz"; lit "barbaz"] /\
  keys (env_lowercase (env_prefixed (lit "FOO_")) false) = Ret [lit "BAR_BAZ"; lit "barBaz"].
Proof. vm_compute. repeat split. Qed.

(** env.rs:385: split. *)
Definition valued (d : option dval) (k : string) : option value :=
  match d with
  | Some (EVStruct [_; (_, EVMap l)]) => match get (lit k) l with Some (EVValue v) => Some v | _ => None end
  | _ => None
  end.
Definition foo_of (d : option dval) : option dval :=
  match d with Some (EVStruct ((_, x) :: _)) => Some x | _ => None end.
Definition is_value (v : option value) (s : source) : bool :=
  match v with Some v => value_eqb v (into_value s) | None => false end.
Example env_split_docs :
  let conf := struct_ "Config" [("foo", struct_ "Foo" [("key", usize)]); ("map", TMap TValue)] in
  let first := [var "APP_FOO" "{key=10}"; var "APP_MAP" "{one=1,two=2.0}"] in
  let w := jailed_world first in
  let w' := jailed_world (first ++ [var "APP_FOO_KEY" "20"; var "APP_MAP_ONE" "1.0"; var "APP_MAP_TWO" "dos"]) in
  let a := extracted (built [envp Merge w (env_prefixed (lit "APP_"))]) conf in
  let b := extracted (built [envp Merge w' (env_split (env_prefixed (lit "APP_")) (lit "_"))]) conf in
  foo_of a = Some (rec_ [("key", u_ 10)]) /\
  is_value (valued a "one") (u8 1) = true /\ is_value (valued a "two") (FNum (NF64 (F64 2 0))) = true /\
  foo_of b = Some (rec_ [("key", u_ 20)]) /\
  is_value (valued b "one") (FNum (NF64 (F64 1 0))) = true /\ is_value (valued b "two") (fs "dos") = true.
Proof. vm_compute. repeat split. Qed.

(** env.rs:435, 460: ignore and only. *)
Example env_only_docs :
  let w := jailed_world [var "FOO_FOO" "1"; var "FOO_BAR" "2"; var "FOO_BAZ" "3"; var "FOO_BAM" "4"] in
  let v := [var "FOO_FOO" "1"; var "FOO_BAR" "2"; var "FOO_BAZ_BOB" "3"; var "FOO_BAM_BOP" "4"] in
  let w1 := jailed_world v in
  let w2 := jailed_world (v ++ [var "FOO_ZOO" "5"]) in
  let foo := env_prefixed (lit "FOO_") in
  let e := env_ignore foo [lit "bar"; lit "baz"] in
  let o := env_only foo [lit "bar"; lit "baz_bob"; lit "zoo"] in
  let s := env_split foo (lit "_") in
  [count (env_iter e (vars w)); count (env_iter (env_ignore e [lit "bam"]) (vars w))] = [Some 2; Some 1]%nat /\
  [count (env_iter o (vars w1)); count (env_iter o (vars w2))] = [Some 2; Some 3]%nat /\
  [count (env_iter (env_only s [lit "bar"; lit "baz.bob"]) (vars w2));
   count (env_iter (env_only s [lit "bar"; lit "bam_bop"]) (vars w2))] = [Some 2; Some 1]%nat.
Proof. vm_compute. repeat split. Qed.

(** env.rs:496, 543, 559, 576, 600. *)
Example env_iter_docs :
  let v := [var "FOO_B" "2"; var "FOO_A" "1"; var "FOO_C" "3"] in
  let abc := [(lit "a", lit "1"); (lit "b", lit "2"); (lit "c", lit "3")] in
  let w := jailed_world [var "TESTING" "123"] in
  env_iter (env_prefixed (lit "FOO_")) (vars (jailed_world v)) = Ret abc /\
  env_iter (env_prefixed (lit "FOO_")) (vars (jailed_world (v ++ [var "FOO_D" "4"]))) = Ret (abc ++ [(lit "d", lit "4")]) /\
  ev_profile env_raw = p_default /\ ev_profile (env_profile env_raw (profile_new (lit "debug"))) = profile_new (lit "debug") /\
  ev_profile (env_global env_raw) = p_global /\
  env_var (lit "testing") (vars w) = Some (lit "123") /\
  env_var_or (lit "testing") (lit "whoops") (vars w) = lit "123" /\ env_var_or (lit "hi") (lit "whoops") (vars w) = lit "whoops".
Proof. vm_compute. repeat split. Qed.

(** ** /repo/src/providers/serialized.rs *)

(** serialized.rs:51, 136, 163. *)
Example serialized_docs :
  let m := map_ [("numbers", nums I32 [1; 2; 3])] in
  let conf := struct_ "Config" [("numbers", TSeq usize)] in
  let expected := Some (rec_ [("numbers", nums USize [1; 2; 3])]) in
  let from p := serial Merge (sz_from m (profile_new (lit p)) here) in
  let key s := sz_default (lit "key") (s_ s) here in
  let f := [serial Join (sz_with_profile (key "hey") (profile_new (lit "debug"))); serial Join (key "hi")] in
  let g := [serial Join (sz_with_key (key "hey") (lit "other")); serial Join (key "hi")] in
  extracted (built [from "default"]) conf = expected /\
  extracted (built [from "debug"; select (lit "debug")]) conf = expected /\
  answer (built f) TString "key" = Some (s_ "hi") /\
  answer (built (f ++ [select (lit "debug")])) TString "key" = Some (s_ "hey") /\
  answer (built g) TString "key" = Some (s_ "hi") /\ answer (built g) TString "other" = Some (s_ "hey").
Proof. vm_compute. repeat split. Qed.

(** ** /repo/src/value/magic.rs *)

Definition path_config := struct_ "Config" [("path", TRelative)].
Definition field (k : string) (d : option dval) : option dval :=
  match d with Some (EVStruct l) => get (lit k) l | _ => None end.
Definition rel (src : option string) (p : string) : dval :=
  EVStruct [(rel_metadata_path, match src with Some s => EVSome (EVPath (lit s)) | None => EVNone end); (rel_path, EVPath (lit p))].
(** [original()], [metadata_path()] and [relative()] of an extracted path. *)
Definition original_of (d : option dval) : option ustr := option_bind d rel_original.
Definition source_of (d : option dval) : option ustr := option_bind d rel_source.
Definition relative_of (w : world) (d : option dval) : option ustr :=
  option_map (relative (disk_of w) (source_of d)) (original_of d).
Definition path_at (text path : string) : table := [(text, doc_ [("path", d_ path)])].

(** magic.rs:35. *)
Example relative_docs :
  let p := Some (lit "a/b/c.html") in
  let here_ := Some (path_join dir (lit "a/b/c.html")) in
  let t := toml (path_at "1" "a/b/c.html" ++ path_at "2" "/var/c.html" ++ path_at "3" "an/override") in
  let conf := data_file (lit "Config.toml") in
  let w := jailed_world [file "Config.toml" "1"] in
  let c := extracted (built [data Merge t w conf]) path_config in
  let c' := extracted (built [serial Merge (sz_defaults (match c with Some x => x | None => EVUnit end) here)]) path_config in
  let w2 := jailed_world [file "Config.toml" "1"; var "PATH" "a/b/c.html"] in
  let c2 := extracted (built [data Merge t w2 conf; envp Merge w2 (env_only env_raw [lit "PATH"])]) path_config in
  let w3 := jailed_world [file "Config.toml" "1"; file "Config.toml" "2"] in
  let c3 := extracted (built [data Merge t w3 conf]) path_config in
  let defaults := serial Merge (sz_defaults (rec_ [("path", rel None "some/default/path")]) here) in
  let c4 := extracted (built [defaults]) path_config in
  let w5 := jailed_world [file "Config.toml" "3"] in
  let c5 := extracted (built [defaults; data Merge t w5 conf]) path_config in
  original_of (field "path" c) = p /\ relative_of w (field "path" c) = here_ /\
  original_of (field "path" c') = p /\ relative_of w (field "path" c') = here_ /\
  original_of (field "path" c2) = p /\ relative_of w2 (field "path" c2) = p /\
  original_of (field "path" c3) = Some (lit "/var/c.html") /\ relative_of w3 (field "path" c3) = Some (lit "/var/c.html") /\
  original_of (field "path" c4) = Some (lit "some/default/path") /\ relative_of w (field "path" c4) = Some (lit "some/default/path") /\
  original_of (field "path" c5) = Some (lit "an/override") /\
  relative_of w5 (field "path" c5) = Some (path_join dir (lit "an/override")).
Proof. vm_compute. repeat split. Qed.

(** magic.rs:107: the field serializers.  The struct is serialized field by field, with the serializer
    each field names. *)
Example serialize_with_docs :
  let w := jailed_world [file "Config.toml" "t"] in
  let t := toml [("t", doc_ [("relative", d_ "relative/path"); ("root", d_ "root/path"); ("temp", d_ "temp/path")])] in
  let c := extracted (built [data Merge t w (data_file (lit "Config.toml"))])
             (struct_ "Config" [("relative", TRelative); ("root", TRelative); ("temp", TRelative)]) in
  let ser f k := match option_bind (field k c) (fun d => res_ok (f d)) with Some v => v | None => VBool tag_default false end in
  let f := built [serial Merge (sz_defaults (rec_
             [("relative", EVValue (ser serialize "relative")); ("root", EVValue (ser serialize_original "root"));
              ("temp", EVValue (ser (serialize_relative (disk_of w)) "temp"))]) here)] in
  refused_at f TPath "relative" = true /\
  answer f TPath "root" = Some (EVPath (lit "root/path")) /\
  answer f TPath "temp" = Some (EVPath (path_join dir (lit "temp/path"))).
Proof. vm_compute. repeat split. Qed.

(** magic.rs:217, 248, 273, 314. *)
Example relative_path_docs :
  let t := toml (path_at "1" "hello.html") in
  let w := jailed_world [file "Config.toml" "1"; var "PATH" "hello.html"] in
  let c := field "path" (extracted (built [data Merge t w (data_file (lit "Config.toml"))]) path_config) in
  let e := field "path" (extracted (built [envp Merge w (env_only env_raw [lit "PATH"])]) path_config) in
  let config_file_path := path_join dir (lit "Config.toml") in
  original_of c = Some (lit "hello.html") /\
  relative_of w c = option_map (fun d => path_join d (lit "hello.html")) (path_parent config_file_path) /\
  relative_of w c = Some (path_join dir (lit "hello.html")) /\ relative_of w e = Some (lit "hello.html") /\
  source_of c = Some config_file_path /\ e <> None /\ source_of e = None.
Proof. vm_compute. repeat split. discriminate. Qed.

(** magic.rs:1375: [test_relative_path_buf]. *)
Example test_relative_path_buf :
  let t := toml [("1", doc_ [("debug", doc_ [("file_path", d_ "hello.js"); ("another", d_ "whoops/hi/there"); ("absolute", d_ "/tmp/foo")])]);
                 ("2", doc_ [("debug", doc_ [("inner", doc_ [("container", doc_ [("inside", d_ "inside_path/a.html")])])])])] in
  let conf := data_nested (data_file (lit "Config.toml")) in
  let w := jailed_world [var "foo" "bar"; file "Config.toml" "1"] in
  let f := built [data Merge t w conf; select (lit "debug")] in
  let facts w d := (original_of d, source_of d, relative_of w d) in
  let config := Some (path_join dir (lit "Config.toml")) in
  let w2 := jailed_world [var "foo" "bar"; file "Config.toml" "1"; file "Config.toml" "2"] in
  let testing := extracted (built [data Merge t w2 conf; select (lit "debug")])
    (struct_ "Testing" [("inner", struct_ "Container" [("container", struct_ "Inside" [("inside", TRelative)])])]) in
  facts w (answer f TRelative "file_path") = (Some (lit "hello.js"), config, Some (path_join dir (lit "hello.js"))) /\
  facts w (answer f TRelative "another") = (Some (lit "whoops/hi/there"), config, Some (path_join dir (lit "whoops/hi/there"))) /\
  facts w (answer f TRelative "absolute") = (Some (lit "/tmp/foo"), config, Some (lit "/tmp/foo")) /\
  facts w2 (field "inside" (field "container" (field "inner" testing))) =
    (Some (lit "inside_path/a.html"), config, Some (path_join dir (lit "inside_path/a.html"))).
Proof. vm_compute. repeat split. Qed.

(** magic.rs:435: Either.  [Tagged] values are equal when their values are (magic.rs:564-568), and
    [RelativePathBuf]s when their relative paths are (magic.rs:160-164), which without a source file are
    the paths themselves; so tags and sources are dropped. *)
Fixpoint bare (d : dval) : dval :=
  match d with
  | EVStruct [(k, x); (k', y)] => if ueqb k tagged_tag then bare y else if ueqb k rel_metadata_path then bare y
                                  else EVStruct [(k, bare x); (k', bare y)]
  | EVLeft d => EVLeft (bare d)
  | EVRight d => EVRight (bare d)
  | _ => d
  end.
Definition either_config := struct_ "Config"
  [("int_or_str", TEither (TTagged usize) TString); ("path_or_bytes", TEither TRelative (TSeq (TInt U8)))].
Definition either_of (a b : dval) : option dval :=
  option_map bare (extracted (built [tuple Merge "int_or_str" a; tuple Merge "path_or_bytes" b]) either_config).
Definition either_round (a b : dval) : option dval :=
  option_map bare (extracted (built [serial Merge (sz_defaults (rec_ [("int_or_str", a); ("path_or_bytes", b)]) here)]) either_config).
Definition either_is (a b : dval) : option dval := Some (rec_ [("int_or_str", a); ("path_or_bytes", b)]).
Definition p_ (x : string) : dval := EVPath (lit x).
Definition tagged (t : tag) (v : dval) : dval := EVStruct [(tagged_tag, EVTag t); (tagged_value, v)].
Example either_docs :
  either_of (n_ 10) (s_ "/a/b") = either_is (EVLeft (u_ 10)) (EVLeft (p_ "/a/b")) /\
  either_of (s_ "hi") (s_ "c/d") = either_is (EVRight (s_ "hi")) (EVLeft (p_ "c/d")) /\
  either_of (n_ 123) (nums I32 [1; 2; 3]) = either_is (EVLeft (u_ 123)) (EVRight (nums U8 [1; 2; 3])) /\
  either_of (s_ "boo!") (nums I32 [4; 5; 6]) = either_is (EVRight (s_ "boo!")) (EVRight (nums U8 [4; 5; 6])) /\
  either_round (EVLeft (tagged tag_default (u_ 10))) (EVLeft (rel None "a/b/c")) =
    either_is (EVLeft (u_ 10)) (EVLeft (p_ "a/b/c")) /\
  either_round (EVRight (s_ "hi")) (EVRight (nums U8 [3; 7; 13])) = either_is (EVRight (s_ "hi")) (EVRight (nums U8 [3; 7; 13])).
Proof. vm_compute. repeat split. Qed.

(** magic.rs:531, 609, 626. *)
Definition tag_in (d : option dval) : option tag :=
  match d with Some (EVStruct [(_, EVTag t); _]) => Some t | _ => None end.
Definition value_in (d : option dval) : option dval :=
  match d with Some (EVStruct [(_, EVTag _); (_, x)]) => Some x | _ => None end.
Example tagged_docs :
  let w := jailed_world [file "Config.toml" "t"] in
  let f := built [data Merge (toml [("t", doc_ [("number", i_ 10)])]) w (data_file (lit "Config.toml"))] in
  let c := field "number" (extracted f (struct_ "Config" [("number", TTagged usize)])) in
  let k := answer (built [tuple Merge "key" (s_ "value")]) (TTagged TString) "key" in
  value_in c = Some (u_ 10) /\ option_map is_default (tag_in c) = Some false /\
  ask f (fun f => option_map md_name (option_bind (tag_in c) (get_metadata f))) = Some (Some (lit "TOML file")) /\
  option_map is_default (tag_in k) = Some false /\ option_map tag_profile (tag_in k) = Some (Some p_global) /\
  value_in k = Some (s_ "value").
Proof. vm_compute. repeat split. Qed.

(** magic.rs:1494: [test_tagged].  The Figments of one process share the tag counter. *)
Definition differ (a b : option tag) : bool :=
  match a, b with Some x, Some y => negb (tag_eqb x y) | _, _ => false end.
Example test_tagged :
  let go l c := steps l fig_new c in
  let '(f1, c1) := go [tuple Merge "foo" (s_ "hello")] 1%N in
  let '(f2, c2) := go [tuple Merge "bar" (s_ "hi")] c1 in
  let '(f3, c3) := go [tuple Merge "foo" (s_ "hey"); tuple Merge "bar" (n_ 10)] c2 in
  let '(f4, c4) := go [tuple Merge "foo" (s_ "hey"); tuple Merge "bar" (n_ 10)] c3 in
  let two_vals := struct_ "TwoVals" [("foo", TTagged TString); ("bar", TTagged (TInt U16))] in
  let first := answer f1 (TTagged TString) "foo" in
  let second := answer f2 (TTagged TString) "bar" in
  let two := extracted f3 two_vals in
  let val := extracted f4 (TTagged two_vals) in
  value_in first = Some (s_ "hello") /\ value_in second = Some (s_ "hi") /\ differ (tag_in second) (tag_in first) = true /\
  value_in (field "foo" two) = Some (s_ "hey") /\ differ (tag_in (field "foo" two)) (tag_in second) = true /\
  value_in (field "bar" two) = Some (EVInt U16 10) /\ differ (tag_in (field "bar" two)) (tag_in (field "foo" two)) = true /\
  option_map is_default (tag_in val) = Some true /\
  value_in (field "foo" (value_in val)) = Some (s_ "hey") /\
  differ (tag_in (field "bar" two)) (tag_in (field "foo" (value_in val))) = true /\
  value_in (field "bar" (value_in val)) = Some (EVInt U16 10) /\
  differ (tag_in (field "bar" (value_in val))) (tag_in (field "foo" (value_in val))) = true.
Proof. vm_compute. repeat split. Qed.

(** ** /repo/tests *)

(** tests/camel-case.rs.  [rename_all = "camelCase"] names the field [topKey1]. *)
Example camel_case :
  let w := jailed_world [var "topKey1" "100"] in
  extracted (built [envp Merge w (env_lowercase env_raw false)]) (struct_ "Config" [("topKey1", TInt I32)]) =
  Some (rec_ [("topKey1", n_ 100)]).
Proof. vm_compute. reflexivity. Qed.

(** tests/cargo.rs. *)
Example mini_cargo :
  let w := jailed_world [file "Cargo.toml" "t"] in
  let t := toml [("t", doc_ [("package", doc_ [("name", d_ "test"); ("authors", DocSeq [d_ "bob"]); ("publish", DocBool false)])])] in
  let package := struct_ "Package" [("name", TString); ("description", TOption TString); ("authors", TSeq TString); ("publish", TOption TBool)] in
  extracted (built [data Merge t w (data_file (lit "Cargo.toml")); envp Merge w (env_prefixed (lit "CARGO_"));
                    envp Merge w (env_only env_raw [lit "RUSTC"; lit "RUSTDOC"]); data Join (json []) w (data_file (lit "Cargo.json"))])
    (struct_ "Config" [("package", package); ("rustc", TOption TString); ("rustdoc", TOption TString)]) =
  Some (rec_ [("package", rec_ [("name", s_ "test"); ("description", EVNone); ("authors", strs ["bob"]); ("publish", EVSome (EVBool false))]);
              ("rustc", EVNone); ("rustdoc", EVNone)]).
Proof. vm_compute. reflexivity. Qed.

(** tests/empty-env-vars.rs.  Environment names are read as they come, so [k == "foo"] compares without
    case. *)
Example empty_env_vars :
  let v := [var "FOO" "bar"; var "BAZ" "put"] in
  let w := jailed_world v in
  let w2 := jailed_world (v ++ [var "___foo" "is here"]) in
  let w3 := jailed_world (v ++ [var "___foo" "is here"; var "foo__" "is here"]) in
  let conf := struct_ "Config" [("foo", TString)] in
  let got w e := extracted (built [envp Merge w e]) conf in
  let foo_or (x : ustr -> ustr) k := if uncased_eqb k (lit "foo") then x k else [] in
  let bar := Some (rec_ [("foo", s_ "bar")]) in
  refused (built [envp Merge w (env_map env_raw (fun _ => []))]) conf = true /\
  refused (built [envp Merge w (env_map env_raw (fun _ => lit "   "))]) conf = true /\
  got w (env_map env_raw (foo_or (fun k => k))) = bar /\
  got w (env_map env_raw (foo_or (fun _ => lit "   foo   "))) = bar /\
  got w2 (env_split env_raw (lit "_")) = bar /\ got w3 (env_split env_raw (lit "_")) = bar.
Proof. vm_compute. repeat split. Qed.

(** tests/enum.rs. *)
Example test_enum_de :
  let foo := TEnum (lit "Foo") [(lit "Mega", ShUnit); (lit "Supa", ShUnit)] in
  let bar := TEnum (lit "Bar") [(lit "None", ShUnit); (lit "Some", ShTuple [usize; TString])] in
  let baz := XUntagged (lit "Baz") [(lit "A", XTy TString); (lit "B", XTy usize)] in
  let conf := XStruct (lit "Config") false
    [field_ "foo" (XTy (TOption foo)); field_ "bar" (XTy (TOption bar)); field_ "baz" (XOption baz)] [] in
  let some n s := EVSome (EVVariant (lit "Some") (ShTuple [u_ n; s_ s])) in
  let unit n := EVSome (EVVariant (lit n) ShUnit) in
  let goobar := EVSome (EVVariant (lit "A") (ShNew (s_ "goobar"))) in
  let t := toml [("t", doc_ [("foo", d_ "Mega"); ("baz", d_ "goobar"); ("bar", doc_ [("Some", DocSeq [i_ 10; d_ "hi"])])])] in
  let figment ops := let w := jailed_world ops in
    extracted_at (built [serial Merge (sz_defaults (rec_ [("foo", EVNone); ("bar", some 9999 "not-the-string"); ("baz", EVNone)]) here);
                         data Merge t w (data_file (lit "Test.toml")); envp Merge w (env_prefixed (lit "TEST_"))]) conf in
  figment [] = Some (rec_ [("foo", EVNone); ("bar", some 9999 "not-the-string"); ("baz", EVNone)]) /\
  figment [file "Test.toml" "t"] = Some (rec_ [("foo", unit "Mega"); ("bar", some 10 "hi"); ("baz", goobar)]) /\
  figment [file "Test.toml" "t"; var "TEST_foo" "Supa"; var "TEST_bar" "None"] =
    Some (rec_ [("foo", unit "Supa"); ("bar", unit "None"); ("baz", goobar)]).
Proof. vm_compute. repeat split. Qed.

(** tests/lossy_values.rs. *)
Example lossy_values :
  let t := doc_ [("u8s", DocSeq [i_ 1; i_ 2; i_ 3; d_ "4"; i_ 5; d_ "6"]);
                 ("i32s", DocSeq [i_ (-1); i_ (-2); i_ 3; d_ "-4"; i_ 5; d_ "6"]);
                 ("f64s", DocSeq [i_ 1; d_ "2"; i_ (-3); DocF64 (F64 (-9) (-1)); d_ "5.0"; d_ "-6.0"]);
                 ("bs", DocSeq [DocBool true; DocBool false; d_ "true"; d_ "false"; d_ "YES"; d_ "no"; d_ "on"; d_ "OFF";
                                d_ "1"; d_ "0"; i_ 1; i_ 0])] in
  extracted_lossy (built [data Merge (toml [("t", t)]) (jailed_world []) (data_string (lit "t"))])
    (struct_ "Config" [("bs", TSeq TBool); ("u8s", TSeq (TInt U8)); ("i32s", TSeq (TInt I32)); ("f64s", TSeq TF64)]) =
  Some (rec_ [("bs", EVSeq (map EVBool [true; false; true; false; true; false; true; false; true; false; true; false]));
              ("u8s", nums U8 [1; 2; 3; 4; 5; 6]); ("i32s", nums I32 [-1; -2; 3; -4; 5; 6]);
              ("f64s", EVSeq (map EVF64 [F64 1 0; F64 2 0; F64 (-3) 0; F64 (-9) (-1); F64 5 0; F64 (-6) 0]))]).
Proof. vm_compute. reflexivity. Qed.

(** tests/tagged.rs. *)
Example check_values_are_tagged_with_profile :
  let l := [serial Merge (sz_default (lit "default") (s_ "default") here); serial Merge (sz_global (lit "global") (s_ "global") here);
            serial Merge (sz_with_profile (sz_default (lit "custom") (s_ "custom") here) (profile_new (lit "custom")))] in
  let facts f k := (option_map tag_profile (tag_in (answer f (TTagged TString) k)),
                    ask f (fun f => option_map (fun v => tag_profile (vtag v)) (res_ok (find_value f (lit k))))) in
  facts (built l) "default" = (Some (Some p_default), Some (Some (Some p_default))) /\
  facts (built l) "global" = (Some (Some p_global), Some (Some (Some p_global))) /\
  facts (built (l ++ [select (lit "custom")])) "custom" = (Some None, Some (Some None)).
Proof. vm_compute. repeat split. Qed.

Example check_errors_are_tagged_with_path :
  let f := built [tuple Merge "foo" (n_ 123); tuple Merge "foo.bar" (n_ 789); tuple Merge "baz" (n_ 789)] in
  let path t p := ask f (fun f => match extract_inner Exact f t (lit p) with Err e => Some (e_path e) | Ok _ => None end) in
  path TString "foo" = Some (Some [lit "foo"]) /\ path TString "foo.bar" = Some (Some [lit "foo"; lit "bar"]) /\
  path usize "foo.bar.baz" = Some (Some []).
Proof. vm_compute. repeat split. Qed.

(** tests/tuple-struct.rs. *)
Example one_value :
  extracted (built [data Merge (toml [("foo = 42", doc_ [("foo", i_ 42)])]) (jailed_world []) (data_string (lit "foo = 42"))])
    (struct_ "Config" [("foo", TNewtype (lit "Foo") (TInt ISize))]) = Some (rec_ [("foo", EVNewtype (EVInt ISize 42))]).
Proof. vm_compute. reflexivity. Qed.

(** tests/yaml-enum.rs. *)
Example figment_yaml_deserize :
  let trigger := TEnum (lit "Trigger") [(lit "Start", ShUnit); (lit "Inter", ShStruct [(lit "sec", TInt U32)]);
                                        (lit "Triple", ShTuple [usize; usize; usize]); (lit "End", ShNew TString)] in
  let script d := extracted (built [data Merge (yaml [("t", d)]) (jailed_world []) (data_string (lit "t"))])
                    (struct_ "Script" [("triggers", TSeq trigger)]) in
  let sec n := doc_ [("sec", j_ n)] in
  let triple := DocSeq [j_ 1; j_ 2; j_ 3] in
  let inter n := EVVariant (lit "Inter") (ShStruct [(lit "sec", EVInt U32 n)]) in
  let expected := Some (rec_ [("triggers", EVSeq [EVVariant (lit "Start") ShUnit; inter 5; inter 7;
                              EVVariant (lit "Triple") (ShTuple [u_ 1; u_ 2; u_ 3]); EVVariant (lit "End") (ShNew (s_ "Now"))])]) in
  script (doc_ [("triggers", DocSeq [DocEnum (lit "Start") DocNull; DocEnum (lit "Inter") (sec 5); DocEnum (lit "Inter") (sec 7);
                                     DocEnum (lit "Triple") triple; DocEnum (lit "End") (d_ "Now")])]) = expected /\
  script (doc_ [("triggers", DocSeq [doc_ [("Start", DocNull)]; doc_ [("Inter", sec 5)]; DocEnum (lit "Inter") (sec 7);
                                     doc_ [("Triple", triple)]; doc_ [("End", d_ "Now")]])]) = expected.
Proof. vm_compute. repeat split. Qed.
