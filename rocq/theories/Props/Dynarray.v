(* C73: dynarray *)
From Coq Require Import List Arith Lia.
From Verif Require Import Model.Base Model.Dynarray Spec.Dynarray Proofs.BaseFacts Proofs.DynarrayProofs.
Import ListNotations.

(* every history gives what arrays held by value give, and is undefined exactly
   if theirs is: the use of an array whose storage was moved away, a
   self-assignment, an index out of range *)
Theorem C73_values : forall T (dflt : option T) ops,
  match run dflt start ops, srun dflt (fun _ => None) ops with
  | Ok (_, outs), Ok (_, outs') => outs = outs'
  | UB, UB => True
  | _, _ => False
  end.
Proof.
  intros T dflt ops. pose proof (run_agree dflt ops start (fun _ => None) rel_start) as A. unfold AgreeRun in A.
  destruct (run dflt start ops) as [[m r]| | |], (srun dflt (fun _ => None) ops) as [[s r']| | |]; try exact A; try contradiction. apply A.
Qed.
Print Assumptions C73_values.

(* memory: at any time every block that is not deleted belongs to exactly one
   array, so nothing is deleted twice or lost, and nothing is left when the
   arrays are gone *)
Theorem C73_memory : forall T (dflt : option T) ops m outs, run dflt start ops = Ok (m, outs) ->
  (forall b l, nth_error (m_heap m) b = Some (Some l) -> exists i a, m_vars m i = Some a /\ a_data a = Some b /\ forall j a', m_vars m j = Some a' -> a_data a' = Some b -> j = i) /\
  (forall i a b, m_vars m i = Some a -> a_data a = Some b -> exists l, nth_error (m_heap m) b = Some (Some l)) /\
  ((forall i, m_vars m i = None) -> forall b c, nth_error (m_heap m) b = Some c -> c = None).
Proof.
  intros T dflt ops m outs E. pose proof (run_agree dflt ops start (fun _ => None) rel_start) as A. unfold AgreeRun in A. rewrite E in A.
  destruct (srun dflt (fun _ => None) ops) as [[s r']| | |]; try contradiction. destruct A as [_ R]. split; [|split].
  - intros b l B. destruct (r_leak _ _ _ R b l B) as (i & a & A & D). exists i, a. split; [exact A|]. split; [exact D|]. intros j a' A' D'. apply (r_one _ _ _ R j i b); [exists a'|exists a]; auto.
  - intros i a b A D. apply (owns_live _ _ _ i b R). exists a. auto.
  - intros N b c B. destruct c as [l|]; [|reflexivity]. destruct (r_leak _ _ _ R b l B) as (i & a & A & _). rewrite N in A. discriminate.
Qed.
Print Assumptions C73_memory.

(* copies are equal and independent: whatever is done with other variables, the
   elements of variable i stay *)
Definition touches {T} (o : op T) (i : nat) : Prop :=
  match o with
  | OpNew k | OpNewN k _ | OpNewV k _ _ | OpCopy k _ | OpAssign k _ | OpDrop k | OpWrite k _ _ | OpFill k _ => k = i
  | OpMove k j => k = i \/ j = i
  | _ => False
  end.
Theorem C73_independent : forall T (dflt : option T) ops1 ops2 ops i, (forall o, In o ops2 -> ~ touches o i) -> (forall o, In o ops -> exists k, o = OpRead i k) ->
  forall m1 o1 m2 o2 m3 outs, run dflt start ops1 = Ok (m1, o1) -> run dflt m1 ops = Ok (m3, outs) -> run dflt m1 ops2 = Ok (m2, o2) -> exists m4, run dflt m2 ops = Ok (m4, outs).
Proof.
  intros T dflt ops1 ops2 ops i N Q m1 o1 m2 o2 m3 outs E1 E3 E2.
  pose proof (run_agree dflt ops1 start (fun _ => None) rel_start) as A1. unfold AgreeRun in A1. rewrite E1 in A1. destruct (srun dflt (fun _ => None) ops1) as [[s1 r1]| | |]; try contradiction. destruct A1 as [_ R1].
  pose proof (run_agree dflt ops2 m1 s1 R1) as A2. unfold AgreeRun in A2. rewrite E2 in A2. destruct (srun dflt s1 ops2) as [[s2 r2]| | |] eqn:S2; try contradiction. destruct A2 as [_ R2].
  assert (K : s2 i = s1 i).
  { clear - N S2. revert s1 r2 S2. induction ops2 as [|o ops2 IH]; intros s1 r2 S2; cbn [srun] in S2; [congruence|]. destruct (sstep dflt s1 o) as [[s r]| | |] eqn:ST; try discriminate. cbn [bind] in S2. destruct (srun dflt s ops2) as [[s' rs]| | |] eqn:SR; try discriminate. cbn [bind] in S2. assert (s' = s2) by congruence. subst s'.
    rewrite (IH (fun o I => N o (or_intror I)) s rs SR). pose proof (N o (or_introl eq_refl)) as NT. clear - ST NT.
    assert (P : forall (x : nat -> option (sarr T)) k v, k <> i -> sput x k v i = x i) by (intros x k v H; apply sput_other; congruence).
    destruct o as [k|k n|k n v|k j|k j|k j|k|k|k n|k n|k n v|k v]; cbn [sstep touches] in *; unfold sdead, slive in ST;
      repeat (match type of ST with context [contents ?v] => destruct v | context [match ?e with _ => _ end] => destruct e end; cbn [bind contents] in ST; try discriminate);
      try (assert (X : s = s1) by congruence; rewrite X; reflexivity);
      match type of ST with Ok (?e, _) = _ => assert (X : s = e) by congruence end; rewrite X; rewrite ?P by tauto; reflexivity. }
  pose proof (run_agree dflt ops m1 s1 R1) as A3. unfold AgreeRun in A3. rewrite E3 in A3. destruct (srun dflt s1 ops) as [[s3 r3]| | |] eqn:S3; try contradiction. destruct A3 as [-> _].
  assert (S4 : srun dflt s2 ops = Ok (s2, r3)).
  { clear - Q S3 K. revert s3 r3 S3. induction ops as [|o ops IH]; intros s3 r3 S3; cbn [srun] in *; [congruence|]. destruct (Q o (or_introl eq_refl)) as (k & ->). cbn [sstep] in *. unfold slive in *. rewrite K.
    destruct (s1 i) as [v|]; cbn [bind] in *; [|discriminate]. destruct (contents v) as [l| | |]; cbn [bind] in *; try discriminate. destruct (nth_error l k) as [y|]; cbn [bind] in *; [|discriminate].
    destruct (srun dflt s1 ops) as [[s' rs]| | |] eqn:SR; try discriminate. cbn [bind] in S3. rewrite (IH (fun o I => Q o (or_intror I)) s' rs eq_refl). cbn [bind]. congruence. }
  pose proof (run_agree dflt ops m2 s2 R2) as A4. unfold AgreeRun in A4. rewrite S4 in A4. destruct (run dflt m2 ops) as [[m4 r4]| | |]; try contradiction. destruct A4 as [-> _]. exists m4. reflexivity.
Qed.
Print Assumptions C73_independent.

(* a moved-from array can be destroyed and assigned to, but not asked for its
   size, read or copied; and no array can be assigned to itself *)
Theorem C73_moved_from_refuted : forall T (dflt : option T) n k v,
  run dflt start [OpNewV 0 n v; OpMove 1 0; OpSize 0] = UB /\
  run dflt start [OpNewV 0 n v; OpMove 1 0; OpAt 0 k] = UB /\
  run dflt start [OpNewV 0 n v; OpMove 1 0; OpFill 0 v] = UB /\
  run dflt start [OpNewV 0 n v; OpMove 1 0; OpCopy 2 0] = UB /\
  exists m, run dflt start [OpNewV 0 n v; OpMove 1 0; OpSize 1; OpAssign 0 1; OpSize 0; OpDrop 1; OpDrop 0] = Ok (m, [ONone; ONone; OSize n; ONone; OSize n; ONone; ONone]).
Proof.
  intros T dflt n k v.
  assert (B : forall ops, srun dflt (fun _ => None) ops = UB -> run dflt start ops = UB).
  { intros ops E. pose proof (C73_values T dflt ops) as A. rewrite E in A. destruct (run dflt start ops) as [[m r]| | |]; try contradiction. reflexivity. }
  split; [apply B; reflexivity|]. split; [apply B; reflexivity|]. split; [apply B; reflexivity|]. split; [apply B; reflexivity|].
  set (ops := [OpNewV 0 n v; OpMove 1 0; OpSize 1; OpAssign 0 1; OpSize 0; OpDrop 1; OpDrop 0]). pose proof (C73_values T dflt ops) as A.
  assert (E : exists s, srun dflt (fun _ => None) ops = Ok (s, [ONone; ONone; OSize n; ONone; OSize n; ONone; ONone])). { eexists. cbn. rewrite !repeat_length. reflexivity. }
  destruct E as (s & E). rewrite E in A. destruct (run dflt start ops) as [[m r]| | |]; try contradiction. exists m. rewrite A. reflexivity.
Qed.
Print Assumptions C73_moved_from_refuted.

Theorem C73_self_assignment_refuted : forall T (dflt : option T) ops m outs i a, run dflt start ops = Ok (m, outs) -> m_vars m i = Some a -> run dflt m [OpAssign i i] = UB.
Proof.
  intros T dflt ops m outs i a E A. pose proof (run_agree dflt ops start (fun _ => None) rel_start) as AG. unfold AgreeRun in AG. rewrite E in AG. destruct (srun dflt (fun _ => None) ops) as [[s r']| | |]; try contradiction. destruct AG as [_ R].
  pose proof (run_agree dflt [OpAssign i i] m s R) as B. unfold AgreeRun in B. assert (S : srun dflt s [OpAssign i i] = UB).
  { cbn. unfold slive. destruct (s i) as [v|]; [|reflexivity]. cbn. destruct v; cbn; rewrite ?Nat.eqb_refl; reflexivity. }
  rewrite S in B. destruct (run dflt m [OpAssign i i]) as [[m2 r2]| | |]; try contradiction. reflexivity.
Qed.
Print Assumptions C73_self_assignment_refuted.

(* dynarray( n ) leaves numbers uninitialized *)
Theorem C73_uninitialized_refuted : forall T n k, k < n -> exists m, run (@None T) start [OpNewN 0 n; OpAt 0 k] = Ok (m, [ONone; OValue None]).
Proof.
  intros T n k K. pose proof (C73_values T None [OpNewN 0 n; OpAt 0 k]) as A. assert (E : exists s, srun (@None T) (fun _ => None) [OpNewN 0 n; OpAt 0 k] = Ok (s, [ONone; OValue None])).
  { eexists. cbn. rewrite nth_error_repeat_lt by exact K. reflexivity. }
  destruct E as (s & E). rewrite E in A. destruct (run None start [OpNewN 0 n; OpAt 0 k]) as [[m r]| | |]; try contradiction. exists m. rewrite A. reflexivity.
Qed.
Print Assumptions C73_uninitialized_refuted.

Example C73_nonvacuous : exists m, run (Some 0) start [OpNewN 0 3; OpWrite 0 1 7; OpCopy 1 0; OpWrite 1 2 9; OpRead 0 2; OpRead 1 1; OpAt 1 3; OpAssign 0 1; OpRead 0 2; OpDrop 1; OpDrop 0] =
    Ok (m, [ONone; ONone; ONone; ONone; OValue (Some 0); OValue (Some 7); OError; ONone; OValue (Some 9); ONone; ONone]) /\ m_heap m = [None; None; None].
Proof. eexists. split; vm_compute; reflexivity. Qed.
