(* flut/dynarray.hpp, with the heap made explicit.  An allocation never fails.
   The move assignment (line 24) does not compile for any T and is not
   modelled. *)
From Coq Require Import List Arith.
From Verif Require Import Model.Base.

Section Dynarray.
(* the value of an element made by new T[ n ]: None if it is indeterminate (as
   for numbers), T() for a class *)
Context {T : Type} (dflt : option T).

(* blocks made by new T[ n ], None when deleted; a pointer is a block and an
   offset *)
Definition heap := list (option (list (option T))).
Definition cells (h : heap) (b : nat) : res (list (option T)) :=
  match nth_error h b with Some (Some l) => Ok l | _ => UB end.
Definition new_block (h : heap) (n : nat) : heap * nat := (h ++ [Some (repeat dflt n)], length h).
Definition set_block (h : heap) (b : nat) (c : option (list (option T))) : heap := firstn b h ++ c :: skipn (S b) h.
Definition delete_block (h : heap) (p : option nat) : heap := match p with Some b => set_block h b None | None => h end.

(* data_ and end_ (flut/dynarray.hpp:54-55): data_ owns its block *)
Record arr := mkArr { a_data : option nat; a_end : option (nat * nat) }.

(* end() - begin() (flut/dynarray.hpp:45); undefined unless both are null or
   point into the same block *)
Definition size (a : arr) : res nat :=
  match a_data a, a_end a with
  | None, None => Ok 0
  | Some b, Some (b', k) => if b =? b' then Ok k else UB
  | _, _ => UB
  end.
(* data_[ i ] (lines 28-29) *)
Definition read (h : heap) (a : arr) (i : nat) : res (option T) :=
  match a_data a with
  | None => UB
  | Some b => let* l := cells h b in vget l i
  end.
Definition write (h : heap) (a : arr) (i : nat) (v : option T) : res heap :=
  match a_data a with
  | None => UB
  | Some b => let* l := cells h b in let* l := vset l i v in Ok (set_block h b (Some l))
  end.
(* std::fill( begin(), end(), v ) and std::copy( o.begin(), o.end(), begin() ):
   n elements from element i on.  Copying elements that are indeterminate is
   allowed: std::copy moves memory for such types *)
Fixpoint fill (h : heap) (a : arr) (v : T) (i n : nat) : res heap :=
  match n with
  | O => Ok h
  | S n' => let* h := write h a i (Some v) in fill h a v (S i) n'
  end.
Fixpoint copy (h : heap) (src dst : arr) (i n : nat) : res heap :=
  match n with
  | O => Ok h
  | S n' =>
    let* x := read h src i in
    let* h := write h dst i x in
    copy h src dst (S i) n'
  end.

(* constructors (flut/dynarray.hpp:17-22) and assign (line 47) *)
Definition arr_default : arr := mkArr None None.
Definition arr_n (h : heap) (n : nat) : heap * arr := let (h, b) := new_block h n in (h, mkArr (Some b) (Some (b, n))).
Definition assign (h : heap) (a : arr) (v : T) : res heap := let* n := size a in fill h a v 0 n.
Definition arr_nv (h : heap) (n : nat) (v : T) : res (heap * arr) :=
  let (h, a) := arr_n h n in
  let* h := assign h a v in Ok (h, a).
Definition arr_copy (h : heap) (o : arr) : res (heap * arr) :=
  let* n := size o in
  let (h, b) := new_block h n in
  let* n' := size o in
  let a := mkArr (Some b) (Some (b, n')) in
  let* m := size o in
  let* h := copy h o a 0 m in Ok (h, a).
(* the new object and what is left of o *)
Definition arr_move (o : arr) : arr * arr := (o, mkArr None (a_end o)).
(* operator=( const dynarray& ) (line 23): o is *this if self *)
Definition arr_assign (h : heap) (a o : arr) (self : bool) : res (heap * arr) :=
  let* n := size o in
  let (h, b) := new_block h n in
  let h := delete_block h (a_data a) in
  let a := mkArr (Some b) (a_end a) in
  let o' := if self then a else o in
  let* n' := size o' in
  let a := mkArr (Some b) (Some (b, n')) in
  let o' := if self then a else o in
  let* m := size o' in
  let* h := copy h o' a 0 m in Ok (h, a).
(* at (lines 31-32) *)
Definition at_ (h : heap) (a : arr) (i : nat) : res (option T) :=
  let* n := size a in
  if n <=? i then Throw else read h a i.

(* a client with variables; None is a variable that is not alive *)
Record mem := mkMem { m_heap : heap; m_vars : nat -> option arr }.
Inductive op :=
| OpNew (i : nat) | OpNewN (i n : nat) | OpNewV (i n : nat) (v : T)
| OpCopy (i j : nat)      (* construct i as a copy of j *)
| OpMove (i j : nat)      (* construct i by moving from j *)
| OpAssign (i j : nat)    (* i = j *)
| OpDrop (i : nat)        (* destroy i *)
| OpSize (i : nat) | OpAt (i k : nat) | OpRead (i k : nat) | OpWrite (i k : nat) (v : T) | OpFill (i : nat) (v : T).
Inductive out := ONone | OSize (n : nat) | OValue (v : option T) | OError.

Definition set_var (x : nat -> option arr) (i : nat) (a : option arr) : nat -> option arr := fun j => if j =? i then a else x j.
Definition live (m : mem) (i : nat) : res arr := match m_vars m i with Some a => Ok a | None => UB end.
Definition dead (m : mem) (i : nat) : res unit := match m_vars m i with Some _ => UB | None => Ok tt end.
Definition step (m : mem) (o : op) : res (mem * out) :=
  let x := m_vars m in
  let h := m_heap m in
  match o with
  | OpNew i => let* _ := dead m i in Ok (mkMem h (set_var x i (Some arr_default)), ONone)
  | OpNewN i n => let* _ := dead m i in let (h, a) := arr_n h n in Ok (mkMem h (set_var x i (Some a)), ONone)
  | OpNewV i n v => let* _ := dead m i in let* (h, a) := arr_nv h n v in Ok (mkMem h (set_var x i (Some a)), ONone)
  | OpCopy i j => let* _ := dead m i in let* o := live m j in let* (h, a) := arr_copy h o in Ok (mkMem h (set_var x i (Some a)), ONone)
  | OpMove i j => let* _ := dead m i in let* o := live m j in let (a, o) := arr_move o in Ok (mkMem h (set_var (set_var x j (Some o)) i (Some a)), ONone)
  | OpAssign i j => let* a := live m i in let* o := live m j in let* (h, a) := arr_assign h a o (i =? j) in Ok (mkMem h (set_var x i (Some a)), ONone)
  | OpDrop i => let* a := live m i in Ok (mkMem (delete_block h (a_data a)) (set_var x i None), ONone)
  | OpSize i => let* a := live m i in let* n := size a in Ok (m, OSize n)
  | OpAt i k => let* a := live m i in match at_ h a k with Ok v => Ok (m, OValue v) | Throw => Ok (m, OError) | UB => UB | OutOfFuel => OutOfFuel end
  | OpRead i k => let* a := live m i in let* v := read h a k in Ok (m, OValue v)
  | OpWrite i k v => let* a := live m i in let* h := write h a k (Some v) in Ok (mkMem h x, ONone)
  | OpFill i v => let* a := live m i in let* h := assign h a v in Ok (mkMem h x, ONone)
  end.
Fixpoint run (m : mem) (ops : list op) : res (mem * list out) :=
  match ops with
  | nil => Ok (m, nil)
  | o :: ops' => let* (m, r) := step m o in let* (m, rs) := run m ops' in Ok (m, r :: rs)
  end.
Definition start : mem := mkMem nil (fun _ => None).
End Dynarray.
Arguments heap : clear implicits. Arguments mem : clear implicits. Arguments op : clear implicits. Arguments out : clear implicits.
