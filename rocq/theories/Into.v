(** Conversions into values with [From]: /repo/src/value/value.rs:453-541, 740-754.

    [source] is a Rust value of a type that implements [Into<Value>].  A slice, an array of up to
    8 elements and a [Vec] convert alike, so all three are [FList]; [FMap] is a [Map<K, V>] as
    its iterator yields it, each key already turned to a string by [as_ref]. *)
From Coq Require Import Ascii String ZArith NArith Bool.
From Coq Require Import List.
From Verif Require Import Res BMap Str Profile Tag Num Value.
Import ListNotations.

Inductive source :=
| FStr (s : ustr) | FChar (c : uchar) | FBool (b : bool) | FNum (n : num) | FEmpty (e : empty)
| FList (l : list source) | FMap (l : list (ustr * source)) | FValue (v : value).

(** [impl_from_for_value!], value.rs:496-502, 535-541 with [From<$T> for Num], value.rs:740-754;
    [From<&str>], value.rs:467-471; [impl_from_array!], [From<&[T]>] and [From<Vec<T>>],
    value.rs:453-465, 473-484; [From<Map<K, V>>], value.rs:486-494, which collects into a [Dict];
    a [Value] converts into itself. *)
Fixpoint into_value (s : source) : value :=
  match s with
  | FStr s => VString tag_default s
  | FChar c => VChar tag_default c
  | FBool b => VBool tag_default b
  | FNum n => VNum tag_default n
  | FEmpty e => VEmpty tag_default e
  | FList l => VArray tag_default (map into_value l)
  | FMap l => VDict tag_default (collect (map (fun kv => (fst kv, into_value (snd kv))) l))
  | FValue v => v
  end.
