(* C11, C16: interpolation, means and covariance over storage<real> *)
From Coq Require Import Reals Lra.
From Verif Require Import Model.Base Model.DataHeader Model.Table Model.Storage Model.StorageReal Spec.Stats
  Proofs.StorageRealProofs.

(* C11: k is the integer part of the frame position t *)
Theorem C11_interpolated_value : forall (L : Type) (s : storage R L) t c k,
  length (data_ s) = frame_size s * channel_size s ->
  c < channel_size s -> (INR k <= t < INR k + 1)%R ->
  (get_interpolated_value s t c = Throw <-> frame_size s <= k + 1) /\
  (k + 1 < frame_size s -> exists a b r,
     at_ s k c = Ok a /\ at_ s (k + 1) c = Ok b /\ get_interpolated_value s t c = Ok r /\
     r = (a + (t - INR k) * (b - a))%R /\ (Rmin a b <= r <= Rmax a b)%R /\ (t = INR k -> r = a)).
Proof. exact @interpolated. Qed.
Print Assumptions C11_interpolated_value.

Theorem C11_negative_position : forall (L : Type) (s : storage R L) t c,
  (t < 0)%R -> get_interpolated_value s t c = UB.
Proof. exact @interpolated_negative. Qed.
Print Assumptions C11_negative_position.

Example C11_nonvacuous :
  let s := mkS 2 (DataHeader.create 0 1) [3%R; 5%R] in
  length (data_ s) = frame_size s * channel_size s /\ 0 < channel_size s /\ (INR 0 <= / 2 < INR 0 + 1)%R /\ 0 + 1 < frame_size s.
Proof. repeat split; cbn; try lra; lia. Qed.

(* "the value at the last frame can be read" is false *)
Theorem C11_last_frame_refuted :
  exists (s : storage R nat), length (data_ s) = frame_size s * channel_size s /\
    at_ s 1 0 = Ok 5%R /\ get_interpolated_value s (INR 1) 0 = Throw.
Proof.
  exists (mkS 2 (DataHeader.create 0 1) [3%R; 5%R]). split; [reflexivity|]. split; [reflexivity|].
  apply (C11_interpolated_value _ _ _ _ 1); [reflexivity|cbn; lia|lra|cbn; lia].
Qed.
Print Assumptions C11_last_frame_refuted.

(* C16 *)
Theorem C16_channel_means : forall (L : Type) (s : storage R L) (X : nat -> nat -> R),
  length (data_ s) = frame_size s * channel_size s -> 0 < frame_size s ->
  (forall f c, f < frame_size s -> c < channel_size s -> at_ s f c = Ok (X f c)) ->
  exists ms, compute_channel_means s = Ok ms /\ length ms = channel_size s /\
    forall c, c < channel_size s -> nth_error ms c = Some (mean (frame_size s) (fun f => X f c)).
Proof. exact @means_main. Qed.
Print Assumptions C16_channel_means.

Theorem C16_covariance_values : forall (L : Type) (l0 : L) (s : storage R L) (X : nat -> nat -> R),
  length (data_ s) = frame_size s * channel_size s -> 0 < frame_size s ->
  (forall f c, f < frame_size s -> c < channel_size s -> at_ s f c = Ok (X f c)) ->
  exists cv, compute_covariance l0 s = Ok cv /\ row_size cv = channel_size s /\ column_size cv = channel_size s /\
    forall i j, i < channel_size s -> j < channel_size s ->
      Table.at_ cv i j = Ok (cov (frame_size s) (fun f => X f i) (fun f => X f j)).
Proof. exact @covariance_main. Qed.
Print Assumptions C16_covariance_values.

(* symmetric, non-negative diagonal, positive semidefinite, and unchanged when
   each channel c is shifted by a constant k c *)
Theorem C16_covariance_laws : forall (L : Type) (l0 : L) (s : storage R L),
  length (data_ s) = frame_size s * channel_size s -> 0 < frame_size s ->
  exists cv, compute_covariance l0 s = Ok cv /\
    (forall i j, i < channel_size s -> j < channel_size s -> exists v, Table.at_ cv i j = Ok v /\ Table.at_ cv j i = Ok v) /\
    (forall i, i < channel_size s -> exists v, Table.at_ cv i i = Ok v /\ (0 <= v)%R) /\
    (forall V : nat -> nat -> R, (forall i j, i < channel_size s -> j < channel_size s -> Table.at_ cv i j = Ok (V i j)) ->
       forall w, (0 <= sumR (channel_size s) (fun i => sumR (channel_size s) (fun j => w i * w j * V i j)))%R) /\
    (forall (s' : storage R L) (k : nat -> R), length (data_ s') = frame_size s' * channel_size s' ->
       frame_size s' = frame_size s -> channel_size s' = channel_size s ->
       (forall f c x, f < frame_size s -> c < channel_size s -> at_ s f c = Ok x -> at_ s' f c = Ok (x + k c)%R) ->
       exists cv', compute_covariance l0 s' = Ok cv' /\
         forall i j, i < channel_size s -> j < channel_size s -> Table.at_ cv' i j = Table.at_ cv i j).
Proof. exact @covariance_laws. Qed.
Print Assumptions C16_covariance_laws.

Example C16_nonvacuous :
  let s := mkS 2 (DataHeader.create 0 2) [1%R; 5%R; 3%R; 4%R] in
  length (data_ s) = frame_size s * channel_size s /\ 0 < frame_size s /\
  (forall f c, f < frame_size s -> c < channel_size s -> at_ s f c = Ok (nth c (nth f [[1%R; 5%R]; [3%R; 4%R]] []) 0%R)).
Proof.
  cbn zeta. split; [reflexivity|]. split; [cbn; lia|]. intros f c Hf Hc. cbn in Hf, Hc.
  destruct f as [|[|f]]; [| |lia]; destruct c as [|[|c]]; [| |lia| | |lia]; reflexivity.
Qed.
