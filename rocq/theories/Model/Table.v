(* table<T,L> (flut/table.hpp:11-68) *)
From Verif Require Import Model.Base Model.DataHeader.

Section Table.
Context {T L : Type} (eqb : L -> L -> bool) (l0 : L) (t0 : T).  (* t0 is T() *)

Record table := mkT { row_labels_ : header L; col_labels_ : header L; data_ : list T }.

(* table( rows, cols ) (line 15) *)
Definition create (rows cols : nat) : table :=
  mkT (DataHeader.create l0 rows) (DataHeader.create l0 cols) (repeat t0 (rows * cols)).

(* lines 50-51 *)
Definition row_size (t : table) : nat := size (row_labels_ t).
Definition column_size (t : table) : nat := size (col_labels_ t).

(* add_row (lines 18-22) *)
Definition add_row (t : table) (l : L) (default_value : T) : table * res nat :=
  match DataHeader.add eqb (row_labels_ t) l with
  | Ok (h, _) =>
    let t1 := mkT h (col_labels_ t) (data_ t) in
    let t2 := mkT h (col_labels_ t) (vresize (data_ t1) (row_size t1 * column_size t1) default_value) in
    (t2, Ok (row_size t2 - 1))
  | Throw => (t, Throw)
  | UB => (t, UB)
  | OutOfFuel => (t, OutOfFuel)
  end.

(* resize (lines 39-48); the exception is thrown before any change *)
Definition resize (t : table) (rows cols : nat) : res table :=
  if (rows <? row_size t) || (cols <? column_size t) then Throw
  else
    let* d :=
      for_down rows (fun ri d =>
        for_down cols (fun ci d =>
          let* x := if (ri <? row_size t) && (ci <? column_size t)
                    then vget d (column_size t * ri + ci) else Ok t0 in
          vset d (cols * ri + ci) x) d)
        (vresize (data_ t) (row_size t * cols) t0) in
    let* ch := DataHeader.resize l0 (col_labels_ t) cols in
    let* rh := DataHeader.resize l0 (row_labels_ t) rows in
    Ok (mkT rh ch d).

(* add_column (lines 24-27): default_value is not used. The state after an
   exception from set is the resized table *)
Definition add_column (t : table) (l : L) (default_value : T) : table * res nat :=
  match resize t (row_size t) (column_size t + 1) with
  | Ok t1 =>
    match DataHeader.set eqb (col_labels_ t1) (column_size t1 - 1) l with
    | Ok (h, i) => (mkT (row_labels_ t1) h (data_ t1), Ok i)
    | Throw => (t1, Throw)
    | UB => (t1, UB)
    | OutOfFuel => (t1, OutOfFuel)
    end
  | Throw => (t, Throw)
  | UB => (t, UB)
  | OutOfFuel => (t, OutOfFuel)
  end.

(* get_or_add_row (lines 29-32), get_or_add_column (lines 34-37) *)
Definition get_or_add_row (t : table) (l : L) (v : T) : table * res nat :=
  match DataHeader.find eqb (row_labels_ t) l with
  | None => add_row t l v
  | Some i => (t, Ok i)
  end.
Definition get_or_add_column (t : table) (l : L) (v : T) : table * res nat :=
  match DataHeader.find eqb (col_labels_ t) l with
  | None => add_column t l v
  | Some i => (t, Ok i)
  end.

(* operator()( row, col ) by index (lines 56-57) *)
Definition at_ (t : table) (r c : nat) : res T :=
  let* _ := assert_ ((r <? row_size t) && (c <? column_size t)) in
  vget (data_ t) (r * column_size t + c).
Definition at_set (t : table) (r c : nat) (x : T) : res table :=
  let* _ := assert_ ((r <? row_size t) && (c <? column_size t)) in
  let* d := vset (data_ t) (r * column_size t + c) x in
  Ok (mkT (row_labels_ t) (col_labels_ t) d).

(* operator()( row, col ) by label (line 60): the two arguments are evaluated
   in an unspecified order *)
Definition locate (row_first : bool) (t : table) (r c : L) : table * res (nat * nat) :=
  if row_first then
    match get_or_add_row t r t0 with
    | (t1, Ok i) =>
      match get_or_add_column t1 c t0 with
      | (t2, Ok j) => (t2, Ok (i, j))
      | (t2, Throw) => (t2, Throw)
      | (t2, UB) => (t2, UB)
      | (t2, OutOfFuel) => (t2, OutOfFuel)
      end
    | (t1, Throw) => (t1, Throw)
    | (t1, UB) => (t1, UB)
    | (t1, OutOfFuel) => (t1, OutOfFuel)
    end
  else
    match get_or_add_column t c t0 with
    | (t1, Ok j) =>
      match get_or_add_row t1 r t0 with
      | (t2, Ok i) => (t2, Ok (i, j))
      | (t2, Throw) => (t2, Throw)
      | (t2, UB) => (t2, UB)
      | (t2, OutOfFuel) => (t2, OutOfFuel)
      end
    | (t1, Throw) => (t1, Throw)
    | (t1, UB) => (t1, UB)
    | (t1, OutOfFuel) => (t1, OutOfFuel)
    end.

Inductive op :=
| AddRow (l : L) (v : T) | AddColumn (l : L) (v : T)
| GetOrAddRow (l : L) (v : T) | GetOrAddColumn (l : L) (v : T)
| Resize (r c : nat) | RowSize | ColumnSize
| FindRow (l : L) | FindColumn (l : L) | RowLabel (i : nat) | ColumnLabel (i : nat)
| At (r c : nat) | AtSet (r c : nat) (v : T)
| Get (r c : L) | Put (r c : L) (v : T).                  (* t( row, col ), t( row, col ) = v *)

Inductive out := ONone | OThrow | OVal (x : T) | ONat (n : nat) | OIndex (i : option nat) | OLabel (l : L).

Definition fin {X : Type} (o : X -> out) (r : table * res X) : option (table * out) :=
  match r with
  | (s, Ok x) => Some (s, o x)
  | (s, Throw) => Some (s, OThrow)
  | (_, UB) | (_, OutOfFuel) => None
  end.
Definition upd_ (s : table) (r : res table) : option (table * out) :=
  match r with
  | Ok s' => Some (s', ONone)
  | Throw => Some (s, OThrow)
  | UB | OutOfFuel => None
  end.

(* order n: the evaluation order chosen for the n-th call of the history *)
Definition step (row_first : bool) (t : table) (o : op) : option (table * out) :=
  match o with
  | AddRow l v => fin ONat (add_row t l v)
  | AddColumn l v => fin ONat (add_column t l v)
  | GetOrAddRow l v => fin ONat (get_or_add_row t l v)
  | GetOrAddColumn l v => fin ONat (get_or_add_column t l v)
  | Resize r c => upd_ t (resize t r c)
  | RowSize => Some (t, ONat (row_size t))
  | ColumnSize => Some (t, ONat (column_size t))
  | FindRow l => Some (t, OIndex (DataHeader.find eqb (row_labels_ t) l))
  | FindColumn l => Some (t, OIndex (DataHeader.find eqb (col_labels_ t) l))
  | RowLabel i => fin OLabel (t, DataHeader.get (row_labels_ t) i)
  | ColumnLabel i => fin OLabel (t, DataHeader.get (col_labels_ t) i)
  | At r c => fin OVal (t, at_ t r c)
  | AtSet r c v => upd_ t (at_set t r c v)
  | Get r c =>
    match locate row_first t r c with
    | (t1, Ok (i, j)) => fin OVal (t1, at_ t1 i j)
    | (t1, Throw) => Some (t1, OThrow)
    | _ => None
    end
  | Put r c v =>
    match locate row_first t r c with
    | (t1, Ok (i, j)) => upd_ t1 (at_set t1 i j v)
    | (t1, Throw) => Some (t1, OThrow)
    | _ => None
    end
  end.

(* a history in which every call carries the order the compiler chose *)
Definition step_any (t : table) (bo : bool * op) : option (table * out) := step (fst bo) t (snd bo).
End Table.
Arguments table T L : clear implicits.
Arguments op T L : clear implicits.
Arguments out T L : clear implicits.
