(* load_xml and save_xml (flut/prop_node_tools.cpp:34-98) *)
From Coq Require Import String.
From Verif Require Import Model.Base Model.StdString Model.Strings Model.PropTree Model.RapidXml Model.FileSystem Model.Persist.
Local Open Scope list_scope.

(* get_rapid_xml_node (flut/prop_node_tools.cpp:34-51); names and values are read
   as zero-terminated strings *)
Definition x_name (n : xnode) : str := match n with XElement name _ _ _ => name | XData _ | XCdata _ => [] end.
Fixpoint get_rapid_xml_node (n : xnode) : pnode :=
  match n with
  | XElement _ value attrs children =>
    PN false (cstr value)
      (map (fun a => (cstr (fst a), pn_of (cstr (snd a)))) attrs ++
       flat_map (fun c => match x_name c with [] => [] | name => [(cstr name, get_rapid_xml_node c)] end) children)
  | XData value | XCdata value => PN false (cstr value) []
  end.
(* set_rapid_xml_node (flut/prop_node_tools.cpp:53-63) *)
Fixpoint set_rapid_xml_node (name : str) (pn : pnode) : xelement :=
  let 'PN _ v cs := pn in
  XE (cstr name) (cstr v) (map (fun c => set_rapid_xml_node (fst c) (snd c)) cs).

(* the text part of load_xml (flut/prop_node_tools.cpp:73-82) *)
Definition load_xml_text (text : str) : res pnode :=
  let* nodes := parse text in
  match nodes with
  | n :: _ => Ok (PN false [] [(cstr (x_name n), get_rapid_xml_node n)])
  | [] => Ok pn_empty
  end.
(* the text that save_xml writes (flut/prop_node_tools.cpp:92-98); the value of
   the document itself is not printed *)
Definition save_xml_text (pn : pnode) : str :=
  print_document (map (fun c => set_rapid_xml_node (fst c) (snd c)) (pn_children pn)).

(* load_xml (flut/prop_node_tools.cpp:65-90); what says what the exception says *)
Definition load_xml (what : str) (cwd : list str) (s : fs) (p : str) (ec : option error_code) : res pnode * option error_code :=
  let (r, ec') := load_string_ec cwd s p ec in
  match r with
  | Ok t =>
    let parsed :=
      match load_xml_text t with
      | Throw => let (set, ec2) := try_set_error ec' what in (if set then Ok pn_empty else Throw, ec2)
      | x => (x, ec')
      end in
    match ec' with
    | Some e => if ec_error e then (Ok pn_empty, ec') else parsed
    | None => parsed
    end
  | Throw => (Throw, ec') | UB => (UB, ec') | OutOfFuel => (OutOfFuel, ec')
  end.
(* save_xml (flut/prop_node_tools.cpp:92-98) *)
Definition save_xml (cwd : list str) (s : fs) (pn : pnode) (p : str) : fs := snd (write_file cwd s p (save_xml_text pn)).
