(* flut/system/version.hpp *)
From Verif Require Import Model.Base Model.StdString Model.Strings Model.Number Model.StringCast.
Local Open Scope Z_scope.

(* None: the member was never initialised (flut/system/version.hpp:35-39) *)
Record version := mkV { major : option Z; minor : option Z; patch : option Z; build : option Z; postfix : str }.

(* version( int, int, int, int, string ) (flut/system/version.hpp:11-12) *)
Definition version_of (maj min bugfix bld : Z) (post : str) : version :=
  mkV (Some maj) (Some min) (Some bugfix) (Some bld) post.

(* version( const string& ) (flut/system/version.hpp:14-20) *)
Definition version_parse (s : str) : version :=
  let rd := is_read_int INT_MIN INT_MAX None in
  let '(ma, s1) := rd (is_make s) in
  let '(_, s2) := is_read_char None s1 in
  let '(mi, s3) := rd s2 in
  let '(_, s4) := is_read_char None s3 in
  let '(pa, s5) := rd s4 in
  let '(_, s6) := is_read_char None s5 in
  let '(bu, s7) := if is_good s6 then rd s6 else (None, s6) in
  let '(po, _) := if is_good s7 then is_read_word [] s7 else ([], s7) in
  mkV ma mi pa bu po.

(* to_str (flut/system/version.hpp:22-27); reading an uninitialised int is undefined *)
Definition version_to_str (v : version) : res str :=
  match major v, minor v, patch v, build v with
  | Some ma, Some mi, Some pa, Some bu =>
    let s := dec ma ++ ["."%char] ++ dec mi ++ ["."%char] ++ dec pa in
    let s1 := if 0 <? bu then s ++ "."%char :: dec bu else s in
    Ok (match postfix v with [] => s1 | p => s1 ++ " "%char :: p end)
  | _, _, _, _ => UB
  end.
