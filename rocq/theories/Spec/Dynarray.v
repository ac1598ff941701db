(* Variables that hold arrays by value. *)
From Coq Require Import List Arith.
From Verif Require Import Model.Base Model.Dynarray.
Import ListNotations.

(* no storage, elements, or what remains when storage was moved away *)
Inductive sarr (T : Type) := SNull | SVec (l : list (option T)) | SGone.
Arguments SNull {T}. Arguments SVec {T}. Arguments SGone {T}.

Section Spec.
Context {T : Type} (dflt : option T).
Definition sput (x : nat -> option (sarr T)) (i : nat) (a : option (sarr T)) : nat -> option (sarr T) := fun j => if j =? i then a else x j.
Definition contents (a : sarr T) : res (list (option T)) := match a with SNull => Ok [] | SVec l => Ok l | SGone => UB end.
Definition slive (x : nat -> option (sarr T)) (i : nat) : res (sarr T) := match x i with Some a => Ok a | None => UB end.
Definition sdead (x : nat -> option (sarr T)) (i : nat) : res unit := match x i with Some _ => UB | None => Ok tt end.
Definition sstep (x : nat -> option (sarr T)) (o : op T) : res ((nat -> option (sarr T)) * out T) :=
  match o with
  | OpNew i => let* _ := sdead x i in Ok (sput x i (Some SNull), ONone)
  | OpNewN i n => let* _ := sdead x i in Ok (sput x i (Some (SVec (repeat dflt n))), ONone)
  | OpNewV i n v => let* _ := sdead x i in Ok (sput x i (Some (SVec (repeat (Some v) n))), ONone)
  | OpCopy i j => let* _ := sdead x i in let* a := slive x j in let* l := contents a in Ok (sput x i (Some (SVec l)), ONone)
  | OpMove i j => let* _ := sdead x i in let* a := slive x j in
      Ok (sput (sput x j (Some (match a with SNull => SNull | _ => SGone end))) i (Some a), ONone)
  | OpAssign i j => let* _ := slive x i in let* a := slive x j in let* l := contents a in
      if i =? j then UB else Ok (sput x i (Some (SVec l)), ONone)
  | OpDrop i => let* _ := slive x i in Ok (sput x i None, ONone)
  | OpSize i => let* a := slive x i in let* l := contents a in Ok (x, OSize (length l))
  | OpAt i k => let* a := slive x i in let* l := contents a in Ok (x, match nth_error l k with Some v => OValue v | None => OError end)
  | OpRead i k => let* a := slive x i in let* l := contents a in match nth_error l k with Some v => Ok (x, OValue v) | None => UB end
  | OpWrite i k v => let* a := slive x i in
      match a with SVec l => if k <? length l then Ok (sput x i (Some (SVec (firstn k l ++ Some v :: skipn (S k) l))), ONone) else UB | _ => UB end
  | OpFill i v => let* a := slive x i in
      match a with SNull => Ok (x, ONone) | SVec l => Ok (sput x i (Some (SVec (map (fun _ => Some v) l))), ONone) | SGone => UB end
  end.
Fixpoint srun (x : nat -> option (sarr T)) (ops : list (op T)) : res ((nat -> option (sarr T)) * list (out T)) :=
  match ops with
  | [] => Ok (x, [])
  | o :: ops' => let* (x, r) := sstep x o in let* (x, rs) := srun x ops' in Ok (x, r :: rs)
  end.
End Spec.
