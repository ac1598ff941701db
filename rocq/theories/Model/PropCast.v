(* prop_node_cast (flut/prop_node.hpp:219-243) and its specialisations.  The
   conversions read values and children only, so the access marks set on the
   node read from are left out here (see Model/PropNode.v for them). *)
From Verif Require Import Model.Base Model.StdString Model.Strings Model.Number Model.StringCast Model.CharStream Model.PropTree Model.PropNode.

(* prop_node_cast< T >: to and from *)
Record cast (T : Type) := mkCast { cto : T -> pnode; cfrom : pnode -> res T }.
Arguments mkCast {T}. Arguments cto {T}. Arguments cfrom {T}.

(* the generic conversion through the text (flut/prop_node.hpp:240-243) *)
Definition text_cast {T} (to : T -> str) (from : str -> res T) : cast T :=
  mkCast (fun x => pn_of (to x)) (fun p => from (pn_value p)).
Definition int_cast : cast Z := text_cast to_int (fun s => Ok (from_int s)).
Definition bool_cast : cast bool := text_cast to_bool (fun s => Ok (from_bool s)).
Definition string_cast : cast str := text_cast (fun s => s) (fun s => Ok (from_string s)).
(* prop_node_cast< prop_node > (flut/prop_node.hpp:220-223) *)
Definition node_cast : cast pnode := mkCast pn_copy (fun p => Ok (pn_copy p)).

(* the child found by find (flut/prop_node.hpp:181-182) *)
Definition child_of (p : pnode) (key : str) : option pnode :=
  match child_index (pn_children p) key with
  | Some i => option_map snd (nth_error (pn_children p) i)
  | None => None
  end.
(* get< T >( key ), get< T >( key, def ), get_any< T >( keys, def )
   (flut/prop_node.hpp:62-70) *)
Definition cget {T} (c : cast T) (p : pnode) (key : str) : res T :=
  match child_of p key with Some n => cfrom c n | None => Throw end.
Definition cget_or {T} (c : cast T) (p : pnode) (key : str) (def : T) : res T :=
  match child_of p key with Some n => cfrom c n | None => Ok def end.
Fixpoint cget_any {T} (c : cast T) (p : pnode) (keys : list str) (def : T) : res T :=
  match keys with
  | [] => Ok def
  | key :: keys' => match child_of p key with Some n => cfrom c n | None => cget_any c p keys' def end
  end.
(* set( key, v ) (flut/prop_node.hpp:100-107) *)
Definition cset {T} (c : cast T) (grow : nat -> bool) (p : pnode) (key : str) (x : T) : pnode :=
  match pn_find p key with
  | (p1, None) => pn_push_back grow p1 key (cto c x)
  | (p1, Some i) => fst (with_child p1 i (fun n => (pn_assign n (cto c x), Ok tt)))
  end.

(* stringf( "item%d", i ) (flut/prop_node.hpp:229) prints the low 32 bits *)
Definition item_key (i : nat) : str := ["i"; "t"; "e"; "m"]%char ++ dec (wrap32 (Z.of_nat i)).

(* prop_node_cast< vector< T > > (flut/prop_node.hpp:225-230) *)
Fixpoint put_items {T} (c : cast T) (grow : nat -> bool) (p : pnode) (i : nat) (xs : list T) : pnode :=
  match xs with
  | [] => p
  | x :: xs' => put_items c grow (pn_push_back grow p (item_key i) (cto c x)) (S i) xs'
  end.
Fixpoint read_items {T} (c : cast T) (cs : list (str * pnode)) : res (list T) :=
  match cs with
  | [] => Ok []
  | (_, n) :: cs' => let* x := cfrom c n in let* xs := read_items c cs' in Ok (x :: xs)
  end.
Definition vector_cast {T} (grow : nat -> bool) (c : cast T) : cast (list T) :=
  mkCast (put_items c grow pn_empty 0) (fun p => read_items c (pn_children p)).

(* vec3_< T > (flut/math/vec3_type.hpp:19-28, 64-67): zero is T(), rd is
   operator>> of char_stream for T *)
Definition vec3_cast {T} (grow : nat -> bool) (c : cast T) (zero : T) (rd : char_stream -> T * char_stream) : cast (T * T * T) :=
  mkCast
    (fun '(x, y, z) => pn_copy (cset c grow (cset c grow (cset c grow pn_empty ["x"%char] x) ["y"%char] y) ["z"%char] z))
    (fun p =>
      let* x := cget_or c p ["x"%char] zero in
      let* y := cget_or c p ["y"%char] zero in
      let* z := cget_or c p ["z"%char] zero in
      if has_value p then
        let '(x', st1) := rd (cs_of_cstr (pn_value p) default_delimiters) in
        let '(y', st2) := rd st1 in
        let '(z', _) := rd st2 in
        Ok (x', y', z')
      else Ok (x, y, z)).

(* quat_< T > (flut/math/quat_type.hpp:15, 24, 38-41) *)
Definition quat_cast {T} (grow : nat -> bool) (c : cast T) : cast (T * T * T * T) :=
  mkCast
    (fun '(w, x, y, z) => pn_copy (cset c grow (cset c grow (cset c grow (cset c grow pn_empty ["w"%char] w) ["x"%char] x) ["y"%char] y) ["z"%char] z))
    (fun p =>
      let* w := cget c p ["w"%char] in
      let* x := cget c p ["x"%char] in
      let* y := cget c p ["y"%char] in
      let* z := cget c p ["z"%char] in
      Ok (w, x, y, z)).

(* transform_< T > (flut/math/transform.hpp:15, 24, 50-53) *)
Definition transform_cast {T} (grow : nat -> bool) (c : cast T) (zero : T) (rd : char_stream -> T * char_stream) : cast (T * T * T * (T * T * T * T)) :=
  mkCast
    (fun '(p, q) => pn_copy (cset (quat_cast grow c) grow (cset (vec3_cast grow c zero rd) grow pn_empty ["p"%char] p) ["q"%char] q))
    (fun n =>
      let* p := cget (vec3_cast grow c zero rd) n ["p"%char] in
      let* q := cget (quat_cast grow c) n ["q"%char] in
      Ok (p, q)).

(* bounds< T >( prop_node ) (flut/math/bounds.hpp:44-58); from is from_str< T >,
   lowest and highest are constants< T >::lowest() and max() *)
Definition dots : str := ["."; "."]%char.
Definition read_bounds {T} (from : str -> res T) (lowest highest : T) (p : pnode) : res (T * T) :=
  if has_value p then
    let v := pn_value p in
    let* lower := from v in
    let n := find v dots in
    if (n =? npos)%Z then Ok (lower, lower)
    else
      let* t := substr v (wadd n 2) npos in
      let* upper := from t in
      Ok (lower, upper)
  else if negb (pn_size p =? 0) then
    let c := text_cast (fun _ => []) from in
    let* lower := cget_any c p [["m"; "i"; "n"]%char; ["l"; "o"; "w"; "e"; "r"]%char] lowest in
    let* upper := cget_any c p [["m"; "a"; "x"]%char; ["u"; "p"; "p"; "e"; "r"]%char] highest in
    Ok (lower, upper)
  else Throw.
(* operator<<( ostream&, bounds ) (flut/math/bounds.hpp:36-38) *)
Definition print_bounds {T} (to : T -> str) (b : T * T) : str := to (fst b) ++ " "%char :: to (snd b).
