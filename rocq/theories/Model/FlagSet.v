(* flut/flag_set.hpp with an unsigned storage type of w bits.  clear with a
   list of flags does not compile and is not modelled. *)
From Verif Require Import Model.Base.
Local Open Scope Z_scope.

(* an operand of << is promoted to int, of 32 bits, when it is smaller *)
Definition shift_width (w : Z) : Z := Z.max w 32.
(* storage_bit (flut/flag_set.hpp:42-43); the result is cut to the storage
   type.  A negative shift, or one by the width or more, is undefined. *)
Definition storage_bit_value (w i : Z) (value : bool) : res Z :=
  if (0 <=? i) && (i <? shift_width w) then Ok (Z.shiftl (if value then 1 else 0) i mod 2 ^ w) else UB.
Definition storage_bit (w i : Z) : res Z := storage_bit_value w i true.
(* ~ on the promoted value, cut again by & with data *)
Definition and_not (data bit : Z) : Z := Z.land data (Z.lnot bit).

(* flag_set (flut/flag_set.hpp:13-15) *)
Definition no_flags : Z := 0.
(* get, operator() (flut/flag_set.hpp:19-21) *)
Definition get (w data i : Z) : res bool := bind (storage_bit w i) (fun b => Ok (negb (Z.land data b =? 0))).
(* set( index, value ) (flut/flag_set.hpp:23-24) *)
Definition set_value (w data i : Z) (value : bool) : res Z :=
  bind (storage_bit w i) (fun b => bind (storage_bit_value w i value) (fun v => Ok (Z.lor (and_not data b) v))).
(* set( index ) (flut/flag_set.hpp:26-27) *)
Definition set (w data i : Z) : res Z := bind (storage_bit w i) (fun b => Ok (Z.lor data b)).
(* clear< index >() (flut/flag_set.hpp:28) *)
Definition clear_flag (w data i : Z) : res Z := bind (storage_bit w i) (fun b => Ok (and_not data b)).
(* set( flags ) (flut/flag_set.hpp:30) *)
Fixpoint set_list (w data : Z) (flags : list Z) : res Z :=
  match flags with [] => Ok data | f :: fs => bind (set w data f) (fun d => set_list w d fs) end.
(* any (flut/flag_set.hpp:34) *)
Definition any (data : Z) : bool := negb (data =? 0).

Inductive flag_op := SetValue (i : Z) (value : bool) | SetFlag (i : Z) | ClearFlag (i : Z) | SetList (l : list Z) | ClearAll.
Definition flag_step (w data : Z) (o : flag_op) : res Z :=
  match o with
  | SetValue i b => set_value w data i b
  | SetFlag i => set w data i
  | ClearFlag i => clear_flag w data i
  | SetList l => set_list w data l
  | ClearAll => Ok 0   (* flut/flag_set.hpp:33 *)
  end.
Fixpoint flag_run (w data : Z) (ops : list flag_op) : res Z :=
  match ops with [] => Ok data | o :: ops' => bind (flag_step w data o) (fun d => flag_run w d ops') end.
