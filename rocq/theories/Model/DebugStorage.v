(* auto_storage_writer<T,L>::write (flut/system/debug_storage.cpp:18-23), used
   by write_debug (lines 35-38). The destructor's file output is in Model/TableText.v. *)
From Verif Require Import Model.Base Model.DataHeader Model.Storage.

Section Writer.
Context {T L : Type} (eqb : L -> L -> bool) (l0 : L) (t0 : T).
Context (teqb : T -> T -> bool) (sentinel : T).   (* constantsf::sentinel() *)

Definition write (s : storage T L) (label : L) (value : T) : res (storage T L) :=
  match find_or_add_channel eqb l0 s label sentinel with
  | (s1, Ok idx) =>
    let* need := if empty s1 then Ok true
                 else let* x := last_get s1 idx in Ok (negb (teqb x sentinel)) in
    let s2 := if need then add_frame s1 sentinel else s1 in
    last_set s2 idx value
  | (_, Throw) => Throw
  | (_, UB) => UB
  | (_, OutOfFuel) => OutOfFuel
  end.

Fixpoint write_all (s : storage T L) (ws : list (L * T)) : res (storage T L) :=
  match ws with
  | [] => Ok s
  | (l, v) :: ws' => let* s' := write s l v in write_all s' ws'
  end.

(* reading a channel from the first to the last frame *)
Definition read_channel (s : storage T L) (i : nat) : list (res T) :=
  map (fun f => at_ s f i) (seq 0 (frame_size s)).
End Writer.
