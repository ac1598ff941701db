(* flut/dictionary.hpp *)
From Verif Require Import Model.Base Model.StdString.

Section D.
Context {T : Type} (eqb : T -> T -> bool).
Notation dict := (list (T * str)).

(* operator()( const T& ) (flut/dictionary.hpp:18-22) *)
Definition name_of (d : dict) (e : T) : res str :=
  match List.find (fun p => eqb e (fst p)) d with Some p => Ok (snd p) | None => Throw end.

(* operator()( const string& ) (flut/dictionary.hpp:25-29) *)
Definition element (d : dict) (s : str) : res T :=
  match List.find (fun p => str_eqb s (snd p)) d with Some p => Ok (fst p) | None => Throw end.

(* operator()( const string&, const T& ) (flut/dictionary.hpp:32-35) *)
Definition element_or (d : dict) (s : str) (value_not_found : T) : T :=
  match List.find (fun p => str_eqb s (snd p)) d with Some p => fst p | None => value_not_found end.

(* lookup (flut/dictionary.hpp:44-51) *)
Fixpoint lookup (value : str) (table : list (str * T)) : res T :=
  match table with
  | [] => Throw
  | (k, v) :: t => if str_eqb value k then Ok v else lookup value t
  end.
End D.
