(** [YamlExtended], /repo/src/providers/data.rs:535-616: YAML with merge keys.

    [YamlExtended::from_str] (data.rs:606-610) parses the text to a [serde_yaml::Value], calls its
    [apply_merge] and reads the result as any document is read (Doc.v).  [apply_merge] belongs to
    serde_yaml (0.9, src/value/mod.rs); its source is not in this repository, and what follows
    restates it as a part of the trusted base: nodes are visited from a stack, a parent before its
    children and the last child first; from every mapping the entry [<<] is removed, and the entries
    of the mapping found there, or of the mappings in the sequence found there, are added with
    [entry(k).or_insert(v)].  The added values are visited with the others, but the mapping itself
    is not looked at again.

    Simplifications: keys are text, as in Doc.v; the removed entry leaves the others in their order
    (serde_yaml moves the last one into its place, which can only decide which one of several
    mistakes is reported). *)
From Coq Require Import Ascii String ZArith NArith Bool.
From Coq Require Import List.
From Verif Require Import Res BMap Str Profile Num Value Err Path Data Doc.
Import ListNotations.

(** The merge key of YAML. *)
Definition merge_key : ustr := lit "<<".

(** [mapping.remove("<<")]: what it returns, and what it leaves. *)
Fixpoint lookup {A} (k : ustr) (l : list (ustr * A)) : option A :=
  match l with
  | [] => None
  | (k', x) :: r => if ueqb k k' then Some x else lookup k r
  end.
Definition without {A} (k : ustr) (l : list (ustr * A)) : list (ustr * A) :=
  filter (fun kx => negb (ueqb k (fst kx))) l.

(** [for (k, v) in merge { mapping.entry(k).or_insert(v); }] *)
Fixpoint or_insert_all {A} (own merge : list (ustr * A)) : list (ustr * A) :=
  match merge with
  | [] => own
  | (k, x) :: r => or_insert_all (match lookup k own with Some _ => own | None => own ++ [(k, x)] end) r
  end.

(** The texts of serde_yaml's errors. *)
Definition scalar_in_merge : ustr :=
  lit "expected a mapping or list of mappings for merging, but found scalar".
Definition scalar_in_merge_element : ustr := lit "expected a mapping for merging, but found scalar".
Definition sequence_in_merge_element : ustr := lit "expected a mapping for merging, but found sequence".
Definition tagged_in_merge : ustr := lit "unexpected tagged value in merge".

(** The visits to the children, the last one first; each entry carries the outcome of its visit. *)
Fixpoint visit_entries (l : list (ustr * res ustr doc)) : res ustr (list (ustr * doc)) :=
  match l with
  | [] => Ok []
  | (k, r) :: rest => res_bind (visit_entries rest) (fun xs => res_map (fun x => (k, x) :: xs) r)
  end.
Fixpoint visit_all (l : list (res ustr doc)) : res ustr (list doc) :=
  match l with
  | [] => Ok []
  | r :: rest => res_bind (visit_all rest) (fun xs => res_map (fun x => x :: xs) r)
  end.

(** [serde_yaml::Value::apply_merge]. *)
Fixpoint apply_merge (d : doc) : res ustr doc :=
  match d with
  | DocMap l =>
      let own := without merge_key (map (fun kx => (fst kx, apply_merge (snd kx))) l) in
      let merged :=
        (fix find (l : list (ustr * doc)) : res ustr (list (ustr * res ustr doc)) :=
           match l with
           | [] => Ok own
           | (k, x) :: r =>
               if ueqb merge_key k then
                 match x with
                 | DocMap m => Ok (or_insert_all own (map (fun kx => (fst kx, apply_merge (snd kx))) m))
                 | DocSeq s =>
                     (fix each (s : list doc) (acc : list (ustr * res ustr doc))
                        : res ustr (list (ustr * res ustr doc)) :=
                        match s with
                        | [] => Ok acc
                        | DocMap m :: s =>
                            each s (or_insert_all acc (map (fun kx => (fst kx, apply_merge (snd kx))) m))
                        | DocSeq _ :: _ => Err sequence_in_merge_element
                        | DocEnum _ _ :: _ => Err tagged_in_merge
                        | _ :: _ => Err scalar_in_merge_element
                        end) s own
                 | DocEnum _ _ => Err tagged_in_merge
                 | _ => Err scalar_in_merge
                 end
               else find r
           end) l in
      res_bind merged (fun es => res_map DocMap (visit_entries es))
  | DocSeq l => res_map DocSeq (visit_all (map apply_merge l))
  | DocEnum name x => res_map (DocEnum name) (apply_merge x)
  | DocSome x => res_map DocSome (apply_merge x)
  | _ => Ok d
  end.

(** [impl_format!(YamlExtended ...)], data.rs:616, with [YamlExtended::from_str], data.rs:606-610;
    [parse] is [serde_yaml::from_str::<Value>]. *)
Definition yaml_extended (parse : ustr -> res ustr doc) (mistake : ustr -> kind -> ustr)
    (custom : ustr -> ustr) : format :=
  doc_format (lit "YAML Extended") (fun text => res_bind (parse text) apply_merge) mistake custom.
