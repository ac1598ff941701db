(* C01-C03: circular_deque.  Theorems only; proofs in Proofs/DequeProofs.v *)
From Verif Require Import Model.Base Model.Deque Spec.Deque Proofs.DequeProofs.

(* C01: any history (whose indexed accesses are in range) shows exactly the
   observations of the ideal queue, unless it contains a push_back on a full
   deque whose first element is not in slot 0; that call is undefined. *)
Theorem C01_deque_refines_queue : forall (A : Type) (z : A) c ops q rs,
  ideal_run ([], c) ops = Some (q, rs) ->
  (run (create z c) ops = None <->
   exists pre x post d rs1,
     ops = pre ++ PushBack x :: post /\ run (create z c) pre = Some (d, rs1) /\
     full d = true /\ front_ d <> 0) /\
  (forall d rs', run (create z c) ops = Some (d, rs') -> rs' = rs /\ iterate d = Ok (fst q)).
Proof. exact @C01_main. Qed.
Print Assumptions C01_deque_refines_queue.

(* wraps around (front_ <> 0), then grows with push_front *)
Example C01_nonvacuous :
  let ops := [PushBack 1; PushBack 2; PopFront; PushBack 3; PushFront 4; Back; Front; Get 1; Iterate; PopBack; PopFront; PopFront; PopFront] in
  exists q rs d, ideal_run ([], 2) ops = Some (q, rs) /\ run (create 0 2) ops = Some (d, rs) /\
    In (OList [4; 2; 3]) rs /\ In OThrow rs.
Proof.
  exists ([], 3), [ONone; ONone; ONone; ONone; ONone; OVal 3; OVal 4; OVal 2; OList [4; 2; 3]; ONone; ONone; ONone; OThrow], (mkDeque 0 0 [3; 4; 2]).
  split; [vm_compute; reflexivity|split; [vm_compute; reflexivity|]]. cbn [In]; tauto.
Qed.

(* The unrestricted claim is false: a queue that grows after a pop. *)
Theorem C01_deque_unbounded_queue_refuted :
  exists (ops : list (op nat)) q rs,
    ideal_run ([], 0) ops = Some (q, rs) /\ run (create 0 0) ops = None.
Proof. exact C01_refuted. Qed.
Print Assumptions C01_deque_unbounded_queue_refuted.

(* C02: within the initial capacity nothing is undefined, observations are
   ideal and the buffer never reallocates. *)
Theorem C02_deque_within_capacity : forall (A : Type) (z : A) c ops q rs,
  ideal_run ([], c) ops = Some (q, rs) -> stays_within c ([], c) ops ->
  exists d, run (create z c) ops = Some (d, rs) /\ capacity d = c.
Proof. exact @run_within. Qed.
Print Assumptions C02_deque_within_capacity.

Example C02_nonvacuous :
  let ops := [PushBack 1; PushBack 2; PopFront; PushBack 3; PopFront; PushBack 4; PopFront; PushFront 5] in
  stays_within 2 ([], 2) ops /\ exists q rs, ideal_run ([], 2) ops = Some (q, rs).
Proof. cbn. repeat split; try lia. eauto. Qed.

Theorem C02_deque_grow_at_front : forall (A : Type) (z : A) c ops q rs,
  ideal_run ([], c) ops = Some (q, rs) ->
  forallb (fun o => negb (is_push_back o)) ops = true ->
  exists d, run (create z c) ops = Some (d, rs).
Proof. exact @run_no_push_back. Qed.
Print Assumptions C02_deque_grow_at_front.

Theorem C02_deque_stack_use : forall (A : Type) (z : A) c ops q rs,
  ideal_run ([], c) ops = Some (q, rs) ->
  forallb (fun o => negb (moves_front o)) ops = true ->
  exists d, run (create z c) ops = Some (d, rs).
Proof. exact @run_stack. Qed.
Print Assumptions C02_deque_stack_use.

(* after clear the deque may grow at the back again, whatever happened before *)
Theorem C02_deque_clear : forall (A : Type) (z : A) c ops ops2 d rs1 q rs,
  run (create z c) ops = Some (d, rs1) -> ideal_run ([], c) (ops ++ Clear :: ops2) = Some (q, rs) ->
  forallb (fun o => negb (moves_front o)) ops2 = true ->
  exists d', run (create z c) (ops ++ Clear :: ops2) = Some (d', rs).
Proof. exact @run_after_clear. Qed.
Print Assumptions C02_deque_clear.

(* the same pushes without the clear are undefined *)
Example C02_clear_nonvacuous :
  let ops := [PushBack 1; PushBack 2; PopFront; PushBack 3; PopFront; PopFront; PushBack 0; PopFront] in
  let ops2 := [PushBack 4; PushBack 5; PushBack 6; Iterate] in
  match run (create 0 3) (ops ++ Clear :: ops2 ++ ops2), run (create 0 3) (ops ++ ops2 ++ ops2) with
  | Some (_, rs), None => last rs ONone = OList [4; 5; 6; 4; 5; 6]
  | _, _ => False
  end.
Proof. vm_compute. reflexivity. Qed.

Example C02_grow_nonvacuous :
  let ops1 := [PushFront 1; PushFront 2; PopBack; PopFront; PushFront 3; PushFront 4] in
  let ops2 := [PushBack 1; PushBack 2; PopBack; PushBack 3; PushBack 4; Iterate] in
  (forallb (fun o => negb (is_push_back o)) ops1 = true /\ exists q rs, ideal_run ([], 0) ops1 = Some (q, rs)) /\
  (forallb (fun o => negb (moves_front o)) ops2 = true /\ exists q rs, ideal_run ([], 0) ops2 = Some (q, rs)).
Proof. cbn. repeat split; eauto. Qed.

(* C03: the const overload of back() on a full deque returns the first
   element; on a non-full deque it reads the slot the next push_back writes. *)
Theorem C03_const_back_full : forall (A : Type) (z : A) c ops d rs q rs' x t,
  run (create z c) ops = Some (d, rs) -> ideal_run ([], c) ops = Some (q, rs') ->
  fst q = x :: t -> full d = true -> back_const d = Ok x /\ back d = Ok (last t x).
Proof. exact @C03_const_back. Qed.
Print Assumptions C03_const_back_full.

Example C03_nonvacuous :
  let ops := [PushBack 1; PushBack 2; PopFront; PushBack 3] in
  exists d rs q rs', run (create 0 2) ops = Some (d, rs) /\ ideal_run ([], 2) ops = Some (q, rs') /\
    fst q = [2; 3] /\ full d = true /\ back_const d = Ok 2 /\ back d = Ok 3.
Proof. do 4 eexists. cbn. repeat split. Qed.

Theorem C03_const_back_stale : forall (A : Type) (z : A) c ops d rs q rs',
  run (create z c) ops = Some (d, rs) -> ideal_run ([], c) ops = Some (q, rs') ->
  fst q <> [] -> full d = false ->
  exists v, back_const d = Ok v /\
    forall y d', push_back d y = Ok d' -> back_const d = Ok v /\
      nth_error (buffer_ d) ((front_ d + size d) mod capacity d) = Some v /\
      nth_error (buffer_ d') ((front_ d + size d) mod capacity d) = Some y.
Proof. exact @C03_const_back_stale_slot. Qed.
Print Assumptions C03_const_back_stale.

Theorem C03_const_back_refuted :
  exists (ops : list (op nat)) d rs, run (create 0 3) ops = Some (d, rs) /\ back_const d <> back d.
Proof. exact C03_refuted. Qed.
Print Assumptions C03_const_back_refuted.

(* reserve on an unwrapped deque that fits keeps contents, and the deque goes
   on behaving as the ideal queue of the new capacity *)
Theorem C03_reserve_unwrapped : forall (A : Type) (z : A) c ops d rs q rs' n ops2 q2 rs2,
  run (create z c) ops = Some (d, rs) -> ideal_run ([], c) ops = Some (q, rs') ->
  front_ d + size d <= capacity d -> front_ d + size d <= n -> (front_ d < n \/ front_ d = 0) ->
  ideal_run (fst q, n) ops2 = Some (q2, rs2) ->
  iterate (reserve z d n) = Ok (fst q) /\
  (forall d2 rs3, run (reserve z d n) ops2 = Some (d2, rs3) -> rs3 = rs2) /\
  (stays_within n (fst q, n) ops2 -> exists d2, run (reserve z d n) ops2 = Some (d2, rs2)).
Proof. exact @C03_reserve. Qed.
Print Assumptions C03_reserve_unwrapped.

Example C03_reserve_nonvacuous :
  let ops := [PushBack 1; PushBack 2; PopFront] in
  exists d rs q rs', run (create 0 2) ops = Some (d, rs) /\ ideal_run ([], 2) ops = Some (q, rs') /\
    front_ d + size d <= capacity d /\ front_ d + size d <= 5 /\ front_ d < 5 /\
    stays_within 5 (fst q, 5) [PushBack 3; PushBack 4; PushFront 0; Iterate].
Proof. do 4 eexists. split; [reflexivity|split; [reflexivity|]]. cbn. repeat split; lia. Qed.

(* reserving more space on a wrapped deque changes its contents *)
Theorem C03_reserve_wrapped_refuted :
  exists (ops : list (op nat)) d rs n, run (create 0 2) ops = Some (d, rs) /\
    capacity d <= n /\ iterate (reserve 0 d n) <> iterate d.
Proof. exact C03_reserve_refuted. Qed.
Print Assumptions C03_reserve_wrapped_refuted.
