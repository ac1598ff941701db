(* C04, C05: flat_map and factory *)
From Verif Require Import Model.Base Model.FlatMap Spec.FlatMap Proofs.FlatMapProofs.

(* C04: every history shows the observations of the ideal insertion-ordered
   map, its iteration order is the ideal order, and keys stay unique. *)
Theorem C04_flat_map_refines : forall (K V : Type) (eqb : K -> K -> bool) (v0 : V),
  (forall a b, eqb a b = true <-> a = b) ->
  forall ops i rs, exec (ideal_step eqb v0) empty_map ops = Some (i, rs) ->
  exists m, exec (step eqb v0) [] ops = Some (m, rs) /\ m = entries i /\ NoDup (map fst m).
Proof. exact @flat_map_refines. Qed.
Print Assumptions C04_flat_map_refines.

Example C04_nonvacuous :
  exists i, exec (ideal_step Nat.eqb 0) empty_map
    [Assign 5 50; Index 7; Assign 5 51; At 9; EraseKey 5; Assign 5 52; Count 5; Iterate]
    = Some (i, [ONone; OVal 0; ONone; OThrow; ONone; ONone; ONat 1; OList [(7, 0); (5, 52)]]).
Proof. eexists; reflexivity. Qed.

(* C05 *)
Theorem C05_factory_last_registration : forall (K F U : Type) (eqb : K -> K -> bool) (f0 : F) (apply : F -> U),
  (forall a b, eqb a b = true <-> a = b) ->
  forall regs : list (K * F),
  exists m, register_all eqb f0 [] regs = Ok m /\
  forall name,
    match last_reg eqb regs name with
    | Some f => create eqb apply m name = Ok (apply f) /\
                try_create eqb apply m name = Ok (Some (apply f)) /\ has_type eqb m name = true
    | None => create eqb apply m name = Throw /\
              try_create eqb apply m name = Ok None /\ has_type eqb m name = false
    end.
Proof. exact @factory_main. Qed.
Print Assumptions C05_factory_last_registration.

Example C05_nonvacuous :
  last_reg Nat.eqb [(1, 10); (2, 20); (1, 11)] 1 = Some 11 /\
  last_reg Nat.eqb [(1, 10); (2, 20); (1, 11)] 3 = None /\
  (let* m := register_all Nat.eqb 0 [] [(1, 10); (2, 20); (1, 11)] in create Nat.eqb (fun f => f + 1) m 1) = Ok 12.
Proof. repeat split. Qed.
