(* C14: auto_storage_writer *)
From Verif Require Import Model.Base Model.DataHeader Model.Storage Model.DebugStorage Proofs.DebugStorageProofs.

(* Every sequence of writes of non-sentinel values succeeds; a label has a
   channel iff it was written, and its channel without sentinels is the
   sequence of values written to it. *)
Theorem C14_writer_history : forall (T L : Type) (eqb : L -> L -> bool) (l0 : L) (t0 : T),
  (forall a b, eqb a b = true <-> a = b) ->
  forall (teqb : T -> T -> bool) (sentinel : T), (forall a b, teqb a b = true <-> a = b) ->
  forall ws : list (L * T), Forall (fun w => snd w <> sentinel) ws ->
  exists s, write_all eqb l0 teqb sentinel (Storage.create l0 0 0 t0) ws = Ok s /\
  forall l,
    match find_channel eqb s l with
    | None => map snd (filter (fun w => eqb (fst w) l) ws) = []
    | Some i => exists vals, read_channel s i = map Ok vals /\
        filter (fun x => negb (teqb x sentinel)) vals = map snd (filter (fun w => eqb (fst w) l) ws) /\
        map snd (filter (fun w => eqb (fst w) l) ws) <> []
    end.
Proof. exact @writer_main. Qed.
Print Assumptions C14_writer_history.

Example C14_nonvacuous :
  exists s, write_all Nat.eqb 0 Nat.eqb 99 (Storage.create 0 0 0 0) [(1, 10); (2, 20); (1, 11); (1, 12); (3, 30); (2, 21)] = Ok s /\
    read_channel s 0 = [Ok 10; Ok 11; Ok 12] /\ read_channel s 1 = [Ok 20; Ok 99; Ok 21] /\
    read_channel s 2 = [Ok 99; Ok 99; Ok 30].
Proof. eexists. split; [vm_compute; reflexivity|]. split; [|split]; vm_compute; reflexivity. Qed.
