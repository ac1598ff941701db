(* Files and error codes: flut/system/error_code.hpp, load_string
   (flut/filesystem.cpp:141-154), load_char_stream (flut/char_stream.cpp:102-105)
   and the loading and saving of prop files (flut/prop_node_tools.cpp).  A failed
   write to an open file is not modelled. *)
From Coq Require Import String.
From Verif Require Import Model.Base Model.StdString Model.Strings Model.Number Model.CharStream Model.Path Model.PropTree Model.PropNode
  Model.PropFile Model.Ini Model.FileSystem.
Local Open Scope Z_scope.

(* error_code (flut/system/error_code.hpp:7-19) *)
Record error_code := mkEc { ec_code : Z; ec_message : str }.
Definition ec_error (e : error_code) : bool := negb (ec_code e =? 0).
Definition ec_ok (e : error_code) : bool := ec_code e =? 0.
Definition ec_set (e : error_code) (code : Z) (msg : str) : error_code := let _ := e in mkEc code msg.
(* no_error, error (flut/system/error_code.hpp:21-22) *)
Definition no_error : error_code := mkEc 0 [].
Definition error (msg : str) : error_code := mkEc (-1) msg.
(* try_set_error (flut/system/error_code.hpp:23); None is a null pointer *)
Definition try_set_error (ec : option error_code) (msg : str) : bool * option error_code :=
  match ec with Some e => (true, Some (ec_set e (-1) msg)) | None => (false, None) end.

(* load_string (flut/filesystem.cpp:141-154) *)
Definition load_string_ec (cwd : list str) (s : fs) (p : str) (ec : option error_code) : res str * option error_code :=
  if open_read cwd s p then (Ok (read_all cwd s p), ec)
  else let (set, ec') := try_set_error ec (lit "Could not open " ++ p) in
       (if set then Ok [] else Throw, ec').
(* load_char_stream (flut/char_stream.cpp:102-105) *)
Definition load_char_stream (cwd : list str) (s : fs) (p delim : str) (ec : option error_code) : res char_stream * option error_code :=
  let (r, ec') := load_string_ec cwd s p ec in (let* t := r in Ok (cs_of_string t delim), ec').
(* load_prop (flut/prop_node_tools.cpp:157-163); parse_prop does not use its
   error code (lines 140-155) *)
Definition load_prop_ec (cwd : list str) (s : fs) (p : str) (ec : option error_code) : res pnode * option error_code :=
  let (r, ec') := load_string_ec cwd s p ec in
  match r with
  | Ok t => match ec' with
            | Some e => if ec_error e then (Ok pn_empty, ec') else (parse_prop t, ec')
            | None => (parse_prop t, ec')
            end
  | Throw => (Throw, ec') | UB => (UB, ec') | OutOfFuel => (OutOfFuel, ec')
  end.
(* load_ini (flut/prop_node_tools.cpp:165-196) *)
Definition load_ini_file (grow : nat -> bool) (cwd : list str) (s : fs) (p : str) : res pnode :=
  let* t := fst (load_string_ec cwd s p None) in load_ini grow t.
(* load_file (flut/prop_node_tools.cpp:27-32); load_xml is left to a parameter *)
Definition load_file (xml : str -> res pnode) (cwd : list str) (s : fs) (p : str) : res pnode :=
  let* e := extension p in
  if str_eqb e (lit "xml") then xml p else fst (load_prop_ec cwd s p None).

(* a text written to a new or emptied file *)
Definition write_file (cwd : list str) (s : fs) (p text : str) : bool * fs :=
  match open_write cwd s p with
  | (Some k, s1) => (true, put s1 k (File text))
  | (None, s1) => (false, s1)
  end.
(* save_prop (flut/prop_node_tools.cpp:233-243) *)
Definition save_prop_file (cwd : list str) (s : fs) (pn : pnode) (p : str) (readable : bool) : bool * fs :=
  write_file cwd s p (save_prop pn readable).
(* save_ini (flut/prop_node_tools.cpp:198-212): nothing is returned, and output to
   a stream that is not open is dropped *)
Definition save_ini_file (cwd : list str) (s : fs) (pn : pnode) (p : str) : fs := snd (write_file cwd s p (save_ini pn)).
