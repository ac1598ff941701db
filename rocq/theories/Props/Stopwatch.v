(* C46: the stopwatch loses no time *)
From Coq Require Import String.
From Verif Require Import Model.Base Model.StdString Model.Stopwatch Spec.Stopwatch Proofs.StopwatchProofs.
Local Open Scope list_scope.
Local Open Scope Z_scope.

(* Each label is reported once, in order of first use, with the sum of the
   intervals that ended in it; the stopwatch's own time comes last. *)
Theorem C46_report : forall t0 h, get_report (fold_left sw_step (rev h) (new_stopwatch t0)) =
  map (fun n => (n, measured t0 h n)) (labels h) ++ [(lit "internal", own h)] /\ NoDup (labels h).
Proof.
  intros t0 h. fold (after t0 h). destruct (after_spec t0 h) as (_ & B & C). split; [|apply labels_nodup]. unfold get_report. rewrite B, C. reflexivity.
Qed.
(* The report adds up to the time since the stopwatch was made, except for the
   intervals that were given up by starting anew. *)
Theorem C46_total : forall t0 h, total (get_report (fold_left sw_step (rev h) (new_stopwatch t0))) + skipped t0 h = began t0 h - t0.
Proof.
  intros t0 h. fold (after t0 h). pose proof (total_after t0 h) as T. destruct (after_spec t0 h) as (A & _ & _). unfold get_report. rewrite total_app. cbn. fold (total (measures (after t0 h))). lia.
Qed.
(* A measure labelled "internal" cannot be told from the stopwatch's own time. *)
Theorem C46_internal_refuted : exists t0 h, ~ NoDup (map fst (get_report (fold_left sw_step (rev h) (new_stopwatch t0)))).
Proof. exists 0, [Measure (lit "internal") 1 2]. vm_compute. intros N. inversion N as [|x l NI N' E]; subst. apply NI. left. reflexivity. Qed.

Example C46_nonvacuous :
  let h := [Measure (lit "a") 20 21; First 17; Measure (lit "b") 9 10; Measure (lit "a") 4 5] in
  get_report (fold_left sw_step (rev h) (new_stopwatch 1)) = [(lit "a", 6); (lit "b", 4); (lit "internal", 3)] /\ skipped 1 h = 7 /\ began 1 h = 21 /\ labels h = [lit "a"; lit "b"].
Proof. vm_compute. auto. Qed.
