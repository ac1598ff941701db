(* flut/memory_tools.hpp.  Objects live on a heap, addresses are positions; a
   unique_ptr is an address or null.  copy is the copy constructor of T, which
   may throw; applied to an object of a derived class it copies the T part.
   Freed addresses are not used again. *)
From Coq Require Import List.
From Verif Require Import Model.Base.
Import ListNotations.

Section Clone.
Context {Obj : Type} (copy : Obj -> res Obj).
Local Notation heap := (list Obj).
Local Notation ptr := (option nat).

(* clone of a unique_ptr (flut/memory_tools.hpp:9-11) *)
Definition clone_ptr (h : heap) (p : ptr) : res (ptr * heap) :=
  match p with
  | None => UB
  | Some a => let* o := vget h a in
              let* o' := copy o in
              Ok (Some (length h), h ++ [o'])
  end.
(* clone of a vector of unique_ptr (flut/memory_tools.hpp:14-20) *)
Fixpoint clone_loop (h : heap) (ps r : list ptr) : res (list ptr * heap) :=
  match ps with
  | [] => Ok (r, h)
  | p :: ps' => let* (q, h') := clone_ptr h p in clone_loop h' ps' (r ++ [q])
  end.
Definition clone_vector (h : heap) (ps : list ptr) : res (list ptr * heap) := clone_loop h ps [].
End Clone.

(* copying an object of a class derived from T through the copy constructor of T *)
Record object (B D : Type) := mkObject { base_part : B; derived_part : option D }.
Arguments mkObject {B D}. Arguments base_part {B D}. Arguments derived_part {B D}.
Definition slice {B D} (o : object B D) : res (object B D) := Ok (mkObject (base_part o) None).
