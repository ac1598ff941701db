(* C15: circular_frame_buffer *)
From Coq Require Import ZArith.
From Verif Require Import Model.Base Model.DataHeader Model.FrameBuffer Spec.Storage Spec.FrameBuffer Proofs.FrameBufferProofs.

Theorem C15_frame_buffer_refines : forall (T L : Type) (eqb : L -> L -> bool) (l0 : L) (t0 : T),
  (forall a b, eqb a b = true <-> a = b) ->
  forall nc n ops h rs, fits n = true ->
  exec (ideal_step eqb t0) (mkHist 0 n (repeat None nc) t0 (fun _ _ => t0)) ops = Some (h, rs) ->
  exists b, exec (step eqb l0 t0) (create l0 t0 nc n) ops = Some (b, rs).
Proof. exact @buffer_refines. Qed.
Print Assumptions C15_frame_buffer_refines.

(* two slots, five frames; at() rejects frame 0 while only one frame exists *)
Example C15_nonvacuous :
  fits 2 = true /\
  exists h, exec (ideal_step Nat.eqb 0) (mkHist 0 2 (repeat None 1) 0 (fun _ _ => 0))
    [AddFrame; LastSet 0 10; At 0 0; AddFrame; LastSet 0 11; At 0 0; AddFrame; Last 0; LastSet 0 12; At 0 0; At 1 0;
     Reverse 1 0; Get 2 0; AddChannel 7; At 2 1; AddChannel 7; ChannelSize]
    = Some (h, [ONat 1; ONone; OThrow; ONat 2; ONone; OVal 10; ONat 3; OVal 10; ONone; OThrow; OVal 11;
                OVal 11; OVal 12; ONat 1; OVal 0; OThrow; ONat 3]).
Proof. split; [reflexivity|]. eexists; reflexivity. Qed.

(* "at() accepts every frame added so far that is still in the ring" is false
   while the ring is not full *)
Theorem C15_at_accepts_present_frames_refuted :
  exists b, exec (step Nat.eqb 0 0) (create 0 0 1 2) [AddFrame; LastSet 0 5] = Some (b, [ONat 1; ONone]) /\
    get b 0 0 = Ok 5 /\ at_ b 0 0 = Throw.
Proof. eexists. split; [vm_compute; reflexivity|]. split; vm_compute; reflexivity. Qed.
Print Assumptions C15_at_accepts_present_frames_refuted.

(* "the last N frames survive add_channel" is false: it even leaves no slot at
   all when no frame was added before *)
Theorem C15_add_channel_ring_refuted :
  exists b, exec (step Nat.eqb 0 0) (create 0 0 1 4) [AddChannel 9; AddFrame] = Some (b, [ONat 1; ONat 1]) /\
    get b 0 0 = UB /\ at_ b 0 0 = Throw.
Proof. eexists. split; [vm_compute; reflexivity|]. split; vm_compute; reflexivity. Qed.
Print Assumptions C15_add_channel_ring_refuted.
