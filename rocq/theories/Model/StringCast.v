(* flut/system/string_cast.hpp *)
From Verif Require Import Model.Base Model.StdString Model.Strings Model.Number.
Local Open Scope Z_scope.

(* string_cast< T > for int, short (flut/system/string_cast.hpp:9-12) *)
Definition from_signed (lo hi : Z) (s : str) : Z :=
  match fst (is_read_int lo hi (Some 0) (is_make s)) with Some v => v | None => 0 end.
Definition INT_MIN : Z := - 2 ^ 31.
Definition INT_MAX : Z := 2 ^ 31 - 1.
Definition from_int : str -> Z := from_signed INT_MIN INT_MAX.
Definition from_short : str -> Z := from_signed (- 2 ^ 15) (2 ^ 15 - 1).
(* string_cast< unsigned int > (flut/system/string_cast.hpp:9-12) *)
Definition from_uint (s : str) : Z :=
  match fst (is_read_uint (2 ^ 32) (Some 0) (is_make s)) with Some v => v | None => 0 end.
(* string_cast< bool > (flut/system/string_cast.hpp:9-12) *)
Definition from_bool (s : str) : bool :=
  match fst (is_read_bool (Some false) (is_make s)) with Some v => v | None => false end.
Definition to_bool (b : bool) : str := if b then dec 1 else dec 0.

(* string_cast< long >, < long long > (flut/system/string_cast.hpp:24-32) *)
Definition from_long (s : str) : res Z := stol s.
(* string_cast< unsigned long >, < unsigned long long > (flut/system/string_cast.hpp:34-42) *)
Definition from_ulong (s : str) : res Z := stoul s.
(* string_cast< string > (flut/system/string_cast.hpp:49-52) *)
Definition from_string (s : str) : str := s.
(* to() for every integer type: operator<< or std::to_string *)
Definition to_int (z : Z) : str := dec z.

(* string_cast< enum > (flut/system/string_cast.hpp:54-57) *)
Definition from_enum {E} (of_int : Z -> E) (s : str) : E := of_int (from_int s).
Definition to_enum {E} (int_of : E -> Z) (e : E) : str := to_int (int_of e).

(* string_is< T > (flut/system/string_cast.hpp:59-62): for the types converted
   by a stringstream nothing throws *)
Definition string_is_int (s : str) : bool := let _ := from_int s in true.
Definition string_is_long (s : str) : bool := match from_long s with Ok _ => true | _ => false end.
Definition string_is_ulong (s : str) : bool := match from_ulong s with Ok _ => true | _ => false end.
