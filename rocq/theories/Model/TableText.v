(* The text of storages, tables, vectors and samples of a function. *)
From Coq Require Import String.
From Verif Require Import Model.Base Model.StdString Model.Strings Model.DataHeader Model.Storage Model.Table Model.FloatText Model.Math Model.Ieee Model.FloatMath Model.FloatInterp Model.FloatStream.
Local Open Scope list_scope.

Section Text.
Context {T : Type} (cell : T -> str).   (* what std::ostream << writes *)

(* operator<<( std::ostream&, const storage< T, L >& ) (flut/storage.hpp:150-164);
   std::endl writes a newline *)
Definition put_storage (buf : storage T str) : res str :=
  let sep ci := if ci =? channel_size buf - 1 then LF else TAB in
  let* s := for_up (channel_size buf) (fun ci s => let* l := get_label buf ci in Ok (s ++ l ++ [sep ci])) [] in
  for_up (frame_size buf) (fun fi s =>
    for_up (channel_size buf) (fun ci s => let* x := at_unchecked buf fi ci in Ok (s ++ cell x ++ [sep ci])) s) s.

(* operator<<( std::ostream&, const table< T >& ) (flut/table.hpp:70-87) *)
Definition put_table (t : table T str) : res str :=
  let s := lit "Row" ++ concat (map (fun l => TAB :: l) (DataHeader.labels_ (col_labels_ t))) ++ [LF] in
  for_up (row_size t) (fun row s =>
    let* l := DataHeader.get (row_labels_ t) row in
    let* s := for_up (column_size t) (fun col s => let* x := Table.at_ t row col in Ok (s ++ TAB :: cell x)) (s ++ l) in
    Ok (s ++ [LF])) s.

(* operator<<( std::ostream&, const vector< T >& ) (flut/container_tools.hpp:91-98) *)
Definition put_vector (v : list T) : str :=
  match v with
  | [] => []
  | x :: v' => cell x ++ concat (map (fun y => TAB :: cell y) v')
  end ++ [LF].
End Text.

(* constantsf::sentinel() (flut/math/math.hpp:22), the lowest number *)
Definition f_lowest (f : fmt) : fnum := FFin true ((2 ^ fm_prec f - 1) * 2 ^ (fm_top f - fm_prec f + fm_low f))%Z.
(* the destructor of auto_storage_writer (flut/system/debug_storage.cpp:12-15):
   None if there is no file.  That the file can be opened is taken for granted *)
Definition debug_file (s : storage fnum str) : res (option str) :=
  if Storage.empty s then Ok None else let* t := put_storage (put_real float_fmt 6) s in Ok (Some t).

(* output_function (flut/debug_tools.hpp:9-20) for float and double: i and
   samples - 1 are converted to T *)
Definition f_sample (f : fmt) (min max : fnum) (samples i : Z) : fnum :=
  f_add f min (f_div f (f_mul f (f_of_int f i) (f_sub f max min)) (f_of_int f (samples - 1))).
Definition f_output_function (f : fmt) (min max : fnum) (func : fnum -> fnum) (samples : Z) : str :=
  concat (map (fun i =>
    let x := f_sample f min max samples (Z.of_nat i) in
    let y := func x in
    put_real f 6 x ++ TAB :: put_real f 6 y ++ [LF]) (seq 0 (Z.to_nat samples))).
