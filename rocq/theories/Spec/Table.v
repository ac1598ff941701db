(* Ideal table: names of rows and columns (None: unnamed) and a function from
   positions to values. *)
From Verif Require Import Model.Base Model.Table Spec.Storage.

Section Spec.
Context {T L : Type} (eqb : L -> L -> bool) (l0 : L) (t0 : T).

Record sheet := mkSh { rn : list (option L); cn : list (option L); val : nat -> nat -> T }.

Definition new_row (s : sheet) (n : option L) (v : T) : sheet :=
  mkSh (rn s ++ [n]) (cn s) (fun i j => if i =? length (rn s) then v else val s i j).
Definition new_col (s : sheet) (n : option L) : sheet :=
  mkSh (rn s) (cn s ++ [n]) (fun i j => if j =? length (cn s) then t0 else val s i j).
Definition put_at (s : sheet) (r c : nat) (v : T) : sheet :=
  mkSh (rn s) (cn s) (fun i j => if (i =? r) && (j =? c) then v else val s i j).
Definition goa_row (s : sheet) (l : L) (v : T) : sheet * nat :=
  match pos eqb (rn s) l with Some i => (s, i) | None => (new_row s (Some l) v, length (rn s)) end.
Definition goa_col (s : sheet) (l : L) : sheet * nat :=
  match pos eqb (cn s) l with Some i => (s, i) | None => (new_col s (Some l), length (cn s)) end.
Definition in_range (s : sheet) (r c : nat) : bool := (r <? length (rn s)) && (c <? length (cn s)).
Definition label_of (ns : list (option L)) (i : nat) : option L :=
  match nth_error ns i with Some (Some l) => Some l | Some None => Some l0 | None => None end.

Definition ideal_step (s : sheet) (o : op T L) : option (sheet * out T L) :=
  match o with
  | AddRow l v =>
    match pos eqb (rn s) l with
    | Some _ => Some (s, OThrow)
    | None => Some (new_row s (Some l) v, ONat (length (rn s)))
    end
  | AddColumn l _ =>
    match pos eqb (cn s) l with
    | Some _ => Some (new_col s None, OThrow)          (* grows, then throws *)
    | None => Some (new_col s (Some l), ONat (length (cn s)))
    end
  | GetOrAddRow l v => let (s', i) := goa_row s l v in Some (s', ONat i)
  | GetOrAddColumn l _ => let (s', i) := goa_col s l in Some (s', ONat i)
  | Resize r c =>
    if (r <? length (rn s)) || (c <? length (cn s)) then Some (s, OThrow)
    else if (length (rn s) <? r) && (0 <? c) then None
    else Some (mkSh (rn s ++ repeat None (r - length (rn s))) (cn s ++ repeat None (c - length (cn s)))
                    (fun i j => if j <? length (cn s) then val s i j else t0), ONone)
  | RowSize => Some (s, ONat (length (rn s)))
  | ColumnSize => Some (s, ONat (length (cn s)))
  | FindRow l => Some (s, OIndex (pos eqb (rn s) l))
  | FindColumn l => Some (s, OIndex (pos eqb (cn s) l))
  | RowLabel i => option_map (fun l => (s, OLabel l)) (label_of (rn s) i)
  | ColumnLabel i => option_map (fun l => (s, OLabel l)) (label_of (cn s) i)
  | At r c => Some (s, if in_range s r c then OVal (val s r c) else OThrow)
  | AtSet r c v => if in_range s r c then Some (put_at s r c v, ONone) else Some (s, OThrow)
  | Get r c =>
    let (s1, i) := goa_row s r t0 in
    let (s2, j) := goa_col s1 c in Some (s2, OVal (val s2 i j))
  | Put r c v =>
    let (s1, i) := goa_row s r t0 in
    let (s2, j) := goa_col s1 c in Some (put_at s2 i j v, ONone)
  end.
End Spec.
Arguments sheet T L : clear implicits.
