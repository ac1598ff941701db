(* flut/system/path.hpp, flut/system/path.cpp: a path is its text *)
From Verif Require Import Model.Base Model.StdString Model.Strings.
Local Open Scope Z_scope.

(* preferred_separator (flut/system/path.cpp:7-10) *)
Definition preferred_separator : ascii := "/"%char.

(* last_separator_pos (flut/system/path.cpp:85-88) *)
Definition last_separator_pos (d : str) : Z := find_last_of d SEPS.

(* replace_extension (flut/system/path.cpp:12-21) *)
Definition replace_extension (d ext : str) : str :=
  let n := find_last_of d ["."%char] in
  let d1 := if n =? npos then d else firstn (Z.to_nat n) d in
  match ext with [] => d1 | _ => d1 ++ "."%char :: ext end.

(* remove_filename (flut/system/path.cpp:23-29) *)
Definition remove_filename (d : str) : res str :=
  let n := last_separator_pos d in
  if n =? npos then Ok [] else substr d 0 n.

(* make_preferred (flut/system/path.cpp:37-42) *)
Definition make_preferred (d : str) : str :=
  map (fun c => if Ascii.eqb c "/"%char || Ascii.eqb c BSLASH then preferred_separator else c) d.

(* parent_path, extension, filename, stem (flut/system/path.cpp:44-68) *)
Definition parent_path (d : str) : res str :=
  let n := last_separator_pos d in
  if n =? npos then Ok [] else substr d 0 n.
Definition extension (d : str) : res str :=
  let n := find_last_of d ["."%char] in
  if n =? npos then Ok [] else substr d (wadd n 1) npos.
Definition filename (d : str) : res str :=
  let n := last_separator_pos d in
  if n =? npos then Ok [] else substr d (wadd n 1) npos.
Definition stem (d : str) : res str :=
  let n1 := last_separator_pos d in
  let n2 := find_last_of d ["."%char] in
  let n1 := if n1 =? npos then 0 else wadd n1 1 in
  substr d n1 (if n1 <=? n2 then wsub n2 n1 else npos).

(* has_filename, has_parent_path (flut/system/path.cpp:75-83) *)
Definition has_filename (d : str) : bool := negb (last_separator_pos d =? wsub (size_ d) 1).
Definition has_parent_path (d : str) : bool := negb (last_separator_pos d =? npos).

(* operator/ and operator/= (flut/system/path.cpp:90-114) *)
Definition join_path (p1 p2 : str) : str :=
  if has_filename p1 then p1 ++ preferred_separator :: p2 else p1 ++ p2.

(* replace_filename (flut/system/path.cpp:31-35) *)
Definition replace_filename (d f : str) : res str :=
  let* d1 := remove_filename d in Ok (join_path d1 f).
