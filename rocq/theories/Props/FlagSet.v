(* C49: flag_set is a set of flags *)
From Verif Require Import Model.Base Model.FlagSet Spec.FlagSet Proofs.FlagSetProofs.
Local Open Scope Z_scope.

(* For every width w of the storage and every history whose flags can be
   shifted to, each flag below w holds what the last call on it said, any tells
   whether one is set, and the data fits the storage. *)
Theorem C49_flags : forall w h, 0 <= w -> Forall (fun o => Forall (fun i => 0 <= i < Z.max w 32) (named o)) h ->
  exists d, flag_run w no_flags (rev h) = Ok d /\ 0 <= d < 2 ^ w /\
  (forall i, 0 <= i < w -> get w d i = Ok (holds h i)) /\
  (any d = true <-> exists i, 0 <= i < w /\ holds h i = true).
Proof.
  intros w h W F. destruct (run_bits w h W F) as (d & E & B). exists d. split; [exact E|]. split; [eapply bits_range; eassumption|]. split.
  - intros i I. rewrite (get_bits w d (holds h) i W B) by (unfold shiftable, shift_width; lia). destruct (Z.ltb_spec i w); [reflexivity|lia].
  - eapply any_bits; eassumption.
Qed.
(* A flag that cannot be shifted to is undefined behaviour, in every call. *)
Theorem C49_undefined : forall w h, 0 <= w -> ~ Forall (fun o => Forall (fun i => 0 <= i < Z.max w 32) (named o)) h -> flag_run w no_flags (rev h) = UB.
Proof. intros w h W N. apply run_ub; assumption. Qed.
Theorem C49_get_undefined : forall w d i, ~ (0 <= i < Z.max w 32) -> get w d i = UB.
Proof. intros w d i N. unfold get, storage_bit. rewrite bit_ub by exact N. reflexivity. Qed.
(* With storage of less than 32 bits the flags between the width and 32 are
   silently lost. *)
Theorem C49_narrow : forall w h d i, 0 <= w -> flag_run w no_flags (rev h) = Ok d -> w <= i < 32 -> get w d i = Ok false.
Proof.
  intros w h d i W E I. assert (F : Forall (fun o => Forall (shiftable w) (named o)) h).
  { assert (D : forall x, {shiftable w x} + {~ shiftable w x}) by (intros x; unfold shiftable; destruct (Z_le_dec 0 x); destruct (Z_lt_dec x (shift_width w)); [left; lia|right; lia|right; lia|right; lia]).
    destruct (Forall_dec _ (fun o => Forall_dec _ D (named o)) h) as [F|F]; [exact F|]. rewrite (run_ub w h W F) in E. discriminate. }
  destruct (run_bits w h W F) as (d' & E' & B). rewrite E in E'. injection E' as <-. rewrite (get_bits w d _ i W B) by (unfold shiftable, shift_width; lia). destruct (Z.ltb_spec i w); [lia|reflexivity].
Qed.
Theorem C49_narrow_refuted : exists w h d i, flag_run w no_flags (rev h) = Ok d /\ holds h i = true /\ get w d i = Ok false.
Proof. exists 8, [SetFlag 9], 0, 9. split; [vm_compute; reflexivity|]. split; vm_compute; reflexivity. Qed.

Example C49_nonvacuous :
  let h := [ClearFlag 3; SetValue 31 true; SetList [3; 5]; SetFlag 0; ClearAll; SetFlag 7] in
  Forall (fun o => Forall (fun i => 0 <= i < Z.max 32 32) (named o)) h /\ flag_run 32 no_flags (rev h) = Ok (2 ^ 31 + 32 + 1) /\ map (holds h) [0; 3; 5; 7; 31] = [true; false; true; false; true].
Proof. cbv zeta. split; [repeat constructor; cbn; lia|]. split; vm_compute; reflexivity. Qed.
