(* sorted_vector<T> (flut/sorted_vector.hpp:6-37) *)
From Verif Require Import Model.Base.

Section SV.
Context {A : Type} (lt : A -> A -> bool).   (* operator< *)

(* std::upper_bound( first, last, e ): the halving loop of the standard
   library; p x tells whether the search must stop at or before x
   ( e < x for upper_bound, !( x < e ) for lower_bound ).  len shrinks at
   every step, so fuel = len suffices. *)
Fixpoint bound_loop (p : A -> bool) (l : list A) (fuel first len : nat) : res nat :=
  match len with
  | 0 => Ok first
  | _ =>
    match fuel with
    | 0 => OutOfFuel
    | S fuel' =>
      let half := len / 2 in
      let mid := first + half in
      let* x := vget l mid in
      if p x then bound_loop p l fuel' first half
      else bound_loop p l fuel' (S mid) (len - half - 1)
    end
  end.
Definition upper_bound (l : list A) (e : A) : res nat :=
  bound_loop (fun x => lt e x) l (length l) 0 (length l).
Definition lower_bound (l : list A) (e : A) : res nat :=
  bound_loop (fun x => negb (lt x e)) l (length l) 0 (length l).

(* insert (lines 24-26): new vector and position of the returned iterator *)
Definition insert (l : list A) (e : A) : res (list A * nat) :=
  let* i := upper_bound l e in
  let* l' := vinsert l i e in
  Ok (l', i).

(* erase( begin() + i ) (line 22) *)
Definition erase (l : list A) (i : nat) : res (list A) :=
  if i <? length l then Ok (firstn i l ++ skipn (S i) l) else UB.

Fixpoint insert_all (l : list A) (es : list A) : res (list A) :=
  match es with
  | [] => Ok l
  | e :: es' => let* r := insert l e in insert_all (fst r) es'
  end.
End SV.
