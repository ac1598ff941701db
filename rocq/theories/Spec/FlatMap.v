(* Ideal insertion-ordered map: a partial function and the key order. *)
From Verif Require Import Model.Base Model.FlatMap.

Section Spec.
Context {K V : Type} (eqb : K -> K -> bool) (v0 : V).

Record imap := mkI { order : list K; val : K -> option V }.

Definition upd (f : K -> option V) (k : K) (v : option V) : K -> option V :=
  fun k' => if eqb k' k then v else f k'.

Definition put (m : imap) (k : K) (v : V) : imap :=
  match val m k with
  | Some _ => mkI (order m) (upd (val m) k (Some v))
  | None => mkI (order m ++ [k]) (upd (val m) k (Some v))
  end.

Definition entries (m : imap) : list (K * V) :=
  flat_map (fun k => match val m k with Some v => [(k, v)] | None => [] end) (order m).

Definition ideal_step (m : imap) (o : op K V) : option (imap * out K V) :=
  match o with
  | Assign k v => Some (put m k v, ONone)
  | Index k =>
    match val m k with
    | Some v => Some (m, OVal v)
    | None => Some (put m k v0, OVal v0)
    end
  | At k => match val m k with Some v => Some (m, OVal v) | None => Some (m, OThrow) end
  | AtAssign k v => match val m k with Some _ => Some (put m k v, ONone) | None => Some (m, OThrow) end
  | HasKey k => Some (m, OBool (match val m k with Some _ => true | None => false end))
  | Count k => Some (m, ONat (match val m k with Some _ => 1 | None => 0 end))
  | EraseKey k =>
    match val m k with
    | None => None                       (* caller must not erase end() *)
    | Some _ => Some (mkI (filter (fun k' => negb (eqb k' k)) (order m)) (upd (val m) k None), ONone)
    end
  | Clear => Some (mkI [] (fun _ => None), ONone)
  | Size => Some (m, ONat (length (order m)))
  | Empty => Some (m, OBool (match order m with [] => true | _ => false end))
  | Iterate => Some (m, OList (entries m))
  end.

Definition empty_map : imap := mkI [] (fun _ => None).
End Spec.
Arguments imap K V : clear implicits.

(* the value registered last under a name *)
Definition last_reg {K F} (eqb : K -> K -> bool) (regs : list (K * F)) (name : K) : option F :=
  match filter (fun kf => eqb (fst kf) name) (rev regs) with
  | [] => None
  | (_, f) :: _ => Some f
  end.
