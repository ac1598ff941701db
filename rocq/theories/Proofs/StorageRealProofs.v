From Coq Require Import Reals Lra.
From Verif Require Import Model.Base Proofs.BaseFacts Proofs.MatrixFacts.
From Verif Require Import Model.DataHeader Model.Table Model.Storage Model.StorageReal Spec.Stats.

Lemma Int_part_unique t k : (INR k <= t < INR k + 1)%R -> Int_part t = Z.of_nat k.
Proof.
  intros [H1 H2]. rewrite INR_IZR_INZ in H1, H2.
  destruct (base_Int_part t) as [B1 B2].
  assert (IZR (Int_part t) < IZR (Z.of_nat k) + 1)%R by lra.
  assert (IZR (Z.of_nat k) < IZR (Int_part t) + 1)%R by lra.
  rewrite <- plus_IZR in *. apply lt_IZR in H, H0. lia.
Qed.

Section P.
Context {L : Type} (l0 : L).
Implicit Types s : storage R L.

Lemma at_cell s f c x : length (data_ s) = frame_size s * channel_size s ->
  at_ s f c = Ok x -> at_unchecked s f c = Ok x.
Proof. unfold at_. destruct (_ && _); cbn; [auto|discriminate]. Qed.

Lemma at_ok s f c : length (data_ s) = frame_size s * channel_size s ->
  f < frame_size s -> c < channel_size s -> exists x, at_ s f c = Ok x.
Proof.
  intros Hr Hf Hc. unfold at_. apply Nat.ltb_lt in Hf as Hf'. apply Nat.ltb_lt in Hc as Hc'. rewrite Hf', Hc'. cbn [andb assert_ bind].
  unfold at_unchecked, vget. destruct (nth_error_ex (data_ s) (f * channel_size s + c)) as [x Hx].
  - rewrite Hr. apply idx_bound; assumption.
  - rewrite Hx. eauto.
Qed.

Lemma interpolated s t c k : length (data_ s) = frame_size s * channel_size s ->
  c < channel_size s -> (INR k <= t < INR k + 1)%R ->
  (get_interpolated_value s t c = Throw <-> frame_size s <= k + 1) /\
  (k + 1 < frame_size s -> exists a b r,
     at_ s k c = Ok a /\ at_ s (k + 1) c = Ok b /\ get_interpolated_value s t c = Ok r /\
     r = (a + (t - INR k) * (b - a))%R /\ (Rmin a b <= r <= Rmax a b)%R /\ (t = INR k -> r = a)).
Proof.
  intros Hr Hc Ht. unfold get_interpolated_value. rewrite (Int_part_unique t k Ht).
  destruct (Z.ltb_spec (Z.of_nat k) 0); [lia|]. rewrite Nat2Z.id. rewrite <- INR_IZR_INZ.
  destruct (Nat.ltb_spec (k + 1) (frame_size s)) as [Hk|Hk]; cbn [assert_ bind].
  - destruct (at_ok s k c Hr) as [a Ha]; [lia|assumption|].
    destruct (at_ok s (k + 1) c Hr) as [b Hb]; [lia|assumption|].
    pose proof (at_cell _ _ _ _ Hr Ha) as Ha'. pose proof (at_cell _ _ _ _ Hr Hb) as Hb'.
    unfold at_unchecked in Ha', Hb'. rewrite Ha'; cbn [bind].
    replace (k * channel_size s + c + channel_size s) with ((k + 1) * channel_size s + c) by lia.
    rewrite Hb'; cbn [bind]. split; [split; [discriminate|lia]|].
    intros _. exists a, b. eexists. split; [exact Ha|]. split; [exact Hb|]. split; [reflexivity|].
    set (w := (t - INR k)%R) in *. assert (Hw : (0 <= w < 1)%R) by (unfold w; lra).
    split; [ring|]. split.
    + unfold Rmin, Rmax. destruct (Rle_dec a b); split; nra.
    + intros E. assert (E0 : w = 0%R) by (unfold w; lra). rewrite E0. ring.
  - split; [split; [intros _; lia|reflexivity]|lia].
Qed.

Lemma interpolated_negative s t c : (t < 0)%R -> get_interpolated_value s t c = UB.
Proof.
  intros Ht. unfold get_interpolated_value. destruct (base_Int_part t) as [B1 B2].
  assert (IZR (Int_part t) < 0)%R by lra. apply (lt_IZR _ 0) in H. destruct (Z.ltb_spec (Int_part t) 0); [reflexivity|lia].
Qed.

(* sums *)
Lemma sumR_ext n f g : (forall i, i < n -> f i = g i) -> sumR n f = sumR n g.
Proof. induction n as [|n IH]; intros H; cbn [sumR]; [reflexivity|]. rewrite IH by (intros; apply H; lia). rewrite H by lia. reflexivity. Qed.
Lemma sumR_plus n f g : sumR n (fun i => f i + g i)%R = (sumR n f + sumR n g)%R.
Proof. induction n; cbn [sumR]; [ring|]. rewrite IHn. ring. Qed.
Lemma sumR_scal n k f : sumR n (fun i => k * f i)%R = (k * sumR n f)%R.
Proof. induction n; cbn [sumR]; [ring|]. rewrite IHn. ring. Qed.
Lemma sumR_const n k : sumR n (fun _ => k) = (INR n * k)%R.
Proof. induction n; cbn [sumR]; [cbn; ring|]. rewrite IHn, S_INR. ring. Qed.
Lemma sumR_nonneg n f : (forall i, i < n -> (0 <= f i)%R) -> (0 <= sumR n f)%R.
Proof. induction n; intros H; cbn [sumR]; [lra|]. pose proof (H n ltac:(lia)). assert (0 <= sumR n f)%R by (apply IHn; intros; apply H; lia). lra. Qed.
Lemma sumR_swap n m f : sumR n (fun i => sumR m (fun j => f i j)) = sumR m (fun j => sumR n (fun i => f i j)).
Proof.
  induction n; cbn [sumR].
  - induction m; cbn [sumR]; [reflexivity|]. rewrite <- IHm. ring.
  - rewrite IHn. rewrite <- sumR_plus. reflexivity.
Qed.
Lemma sumR_square n f : (sumR n f * sumR n f)%R = sumR n (fun i => sumR n (fun j => f i * f j))%R.
Proof.
  rewrite <- sumR_scal. apply sumR_ext. intros i Hi. rewrite sumR_scal. ring.
Qed.

Lemma means_main s (X : nat -> nat -> R) :
  length (data_ s) = frame_size s * channel_size s -> 0 < frame_size s ->
  (forall f c, f < frame_size s -> c < channel_size s -> at_ s f c = Ok (X f c)) ->
  exists ms, compute_channel_means s = Ok ms /\ length ms = channel_size s /\
    forall c, c < channel_size s -> nth_error ms c = Some (mean (frame_size s) (fun f => X f c)).
Proof.
  intros Hr Hn HX. unfold compute_channel_means.
  set (I := fun row col (m : list R) => length m = channel_size s /\
     forall c, c < channel_size s ->
       nth_error m c = Some (sumR (if c <? col then S row else row) (fun f => X f c))).
  destruct (for_up_inv (fun row means =>
      for_up (channel_size s) (fun col means =>
        let* m := vget means col in
        let* x := at_unchecked s row col in
        vset means col (m + x)%R) means) (fun row m => I row 0 m) (frame_size s) (repeat 0%R (channel_size s)))
    as (sums & E & HI).
  - split; [apply repeat_length|]. intros c Hc. cbn [Nat.ltb Nat.leb sumR]. apply nth_error_repeat_lt; assumption.
  - intros row m Hrow HI.
    destruct (for_up_inv (fun col means =>
        let* m := vget means col in
        let* x := at_unchecked s row col in
        vset means col (m + x)%R) (fun col m => I row col m) (channel_size s) m HI) as (m' & E' & HI').
    + intros col m1 Hcol (Hl & Hc1). unfold vget at 1. rewrite Hc1 by assumption. cbn [bind].
      rewrite (at_cell _ _ _ _ Hr (HX row col Hrow Hcol)). cbn [bind].
      rewrite vset_ok by lia. eexists; split; [reflexivity|]. split; [rewrite upd_length; lia|].
      intros c Hc. rewrite nth_error_upd by lia. destruct (Nat.eqb_spec c col) as [->|Hne].
      * destruct (Nat.ltb_spec col col); [lia|]. destruct (Nat.ltb_spec col (S col)); [|lia]. reflexivity.
      * rewrite Hc1 by assumption. destruct (Nat.ltb_spec c col), (Nat.ltb_spec c (S col)); try lia; reflexivity.
    + exists m'; split; [exact E'|]. destruct HI' as (Hl & Hc1). split; [exact Hl|]. intros c Hc. rewrite Hc1 by assumption.
      destruct (Nat.ltb_spec c (channel_size s)); [|lia]. reflexivity.
  - rewrite E. cbn [bind]. destruct (Nat.eqb_spec (frame_size s) 0); [lia|]. cbn [andb].
    destruct HI as (Hl & Hc1). eexists; split; [reflexivity|]. split; [rewrite map_length; exact Hl|].
    intros c Hc. rewrite nth_error_map, Hc1 by assumption. reflexivity.
Qed.

Lemma table_at_set (cv : table R L) (C : nat) (r c : nat) (v : R) :
  row_size cv = C -> column_size cv = C -> length (Table.data_ cv) = C * C -> r < C -> c < C ->
  exists cv', Table.at_set cv r c v = Ok cv' /\ row_size cv' = C /\ column_size cv' = C /\
    length (Table.data_ cv') = C * C /\
    forall i j, i < C -> j < C ->
      Table.at_ cv' i j = if (i =? r) && (j =? c) then Ok v else Table.at_ cv i j.
Proof.
  intros H1 H2 H3 Hr Hc. unfold Table.at_set. rewrite H1, H2.
  apply Nat.ltb_lt in Hr as Hr'. apply Nat.ltb_lt in Hc as Hc'. rewrite Hr', Hc'. cbn [andb assert_ bind].
  assert (Hlt : r * C + c < length (Table.data_ cv)) by (rewrite H3; apply idx_bound; assumption).
  rewrite vset_ok by assumption. cbn [bind]. eexists; split; [reflexivity|].
  split; [exact H1|]. split; [exact H2|]. cbn [Table.data_]. split; [rewrite upd_length; assumption|].
  intros i j Hi Hj. unfold Table.at_. unfold row_size, column_size in *. cbn [row_labels_ col_labels_ Table.data_].
  rewrite H1, H2. apply Nat.ltb_lt in Hi as Hi'. apply Nat.ltb_lt in Hj as Hj'. rewrite Hi', Hj'. cbn [andb assert_ bind].
  unfold vget. rewrite nth_error_upd by assumption.
  destruct (Nat.eqb_spec (i * C + j) (r * C + c)) as [Ei|Ni].
  - apply idx_inj in Ei; [|assumption..]. destruct Ei as [-> ->]. rewrite !Nat.eqb_refl. reflexivity.
  - destruct (Nat.eqb_spec i r) as [->|]; [|reflexivity]. destruct (Nat.eqb_spec j c) as [->|]; [contradiction|reflexivity].
Qed.

Lemma covariance_main s (X : nat -> nat -> R) :
  length (data_ s) = frame_size s * channel_size s -> 0 < frame_size s ->
  (forall f c, f < frame_size s -> c < channel_size s -> at_ s f c = Ok (X f c)) ->
  exists cv, compute_covariance l0 s = Ok cv /\ row_size cv = channel_size s /\ column_size cv = channel_size s /\
    forall i j, i < channel_size s -> j < channel_size s ->
      Table.at_ cv i j = Ok (cov (frame_size s) (fun f => X f i) (fun f => X f j)).
Proof.
  intros Hr Hn HX. destruct (means_main s X Hr Hn HX) as (ms & Em & Hml & Hm).
  unfold compute_covariance. rewrite Em. cbn [bind].
  set (C := channel_size s) in *. set (n := frame_size s) in *.
  set (I := fun row col (cv : table R L) => row_size cv = C /\ column_size cv = C /\ length (Table.data_ cv) = C * C /\
     forall i j, i < C -> j < C -> (i < row \/ (i = row /\ j < col)) ->
        Table.at_ cv i j = Ok (cov n (fun f => X f i) (fun f => X f j))).
  match goal with |- exists _, for_up _ ?b ?c = _ /\ _ =>
    destruct (for_up_inv b (fun row cv => I row 0 cv) C c) as (cv & E & HI) end.
  - unfold I, Table.create, row_size, column_size, DataHeader.create, size; cbn [row_labels_ col_labels_ Table.data_ DataHeader.labels_].
    rewrite !repeat_length. repeat (split; [reflexivity|]). intros; lia.
  - intros row cv Hrow HI.
    match goal with |- exists _, for_up _ ?b ?c = _ /\ _ =>
      destruct (for_up_inv b (fun col cv => I row col cv) C c HI) as (cv' & E' & HI') end.
    + intros col cv1 Hcol (G1 & G2 & G3 & G4).
      match goal with |- context [for_up n ?b 0%R] =>
        destruct (for_up_inv b (fun k v => v = sumR k (fun f => (X f row - mean n (fun f => X f row)) * (X f col - mean n (fun f => X f col)))%R) n 0%R)
          as (v & Ev & Hv) end.
      * reflexivity.
      * intros k v Hk Hv. rewrite (at_cell _ _ _ _ Hr (HX k row Hk Hrow)); cbn [bind].
        unfold vget at 1. rewrite Hm by assumption. cbn [bind].
        rewrite (at_cell _ _ _ _ Hr (HX k col Hk Hcol)); cbn [bind].
        unfold vget. rewrite Hm by assumption. cbn [bind]. eexists; split; [reflexivity|]. rewrite Hv. reflexivity.
      * rewrite Ev; cbn [bind]. destruct (table_at_set cv1 C row col (v / INR n)%R G1 G2 G3 Hrow Hcol) as (cv2 & E2 & K1 & K2 & K3 & K4).
        exists cv2. split; [exact E2|]. split; [exact K1|]. split; [exact K2|]. split; [exact K3|].
        intros i j Hi Hj Hor. rewrite K4 by assumption.
        destruct (Nat.eqb_spec i row) as [->|Hne]; cbn [andb].
        { destruct (Nat.eqb_spec j col) as [->|Hne2]; [rewrite Hv; reflexivity|]. apply G4; [assumption..|]. lia. }
        apply G4; [assumption..|lia].
    + exists cv'. split; [exact E'|]. destruct HI' as (G1 & G2 & G3 & G4). repeat (split; [assumption|]).
      intros i j Hi Hj Hor. apply G4; [assumption..|lia].
  - exists cv. split; [exact E|]. destruct HI as (G1 & G2 & G3 & G4). split; [exact G1|]. split; [exact G2|].
    intros i j Hi Hj. apply G4; [assumption..|lia].
Qed.

(* algebra of covariance *)
Lemma cov_sym n x y : cov n x y = cov n y x.
Proof. unfold cov. f_equal. apply sumR_ext. intros; ring. Qed.

Lemma mean_shift n x k : 0 < n -> mean n (fun i => x i + k)%R = (mean n x + k)%R.
Proof.
  intros Hn. unfold mean. rewrite sumR_plus, sumR_const. field. apply not_0_INR. lia.
Qed.

Lemma cov_shift n x y k l : 0 < n -> cov n (fun i => x i + k)%R (fun i => y i + l)%R = cov n x y.
Proof. intros Hn. unfold cov. f_equal. apply sumR_ext. intros. rewrite !mean_shift by assumption. ring. Qed.

Lemma cov_psd n C (X : nat -> nat -> R) w : 0 < n ->
  (0 <= sumR C (fun i => sumR C (fun j => w i * w j * cov n (fun f => X f i) (fun f => X f j))))%R.
Proof.
  intros Hn. set (d := fun f i => (X f i - mean n (fun g => X g i))%R).
  assert (E : sumR C (fun i => sumR C (fun j => w i * w j * cov n (fun f => X f i) (fun f => X f j)))%R =
    (sumR n (fun f => sumR C (fun i => w i * d f i) * sumR C (fun i => w i * d f i)) / INR n)%R).
  { transitivity (/ INR n * sumR n (fun f => sumR C (fun i => sumR C (fun j => (w i * d f i) * (w j * d f j)))))%R.
    - rewrite (sumR_swap n C). rewrite <- sumR_scal. apply sumR_ext. intros i Hi.
      rewrite (sumR_swap n C). rewrite <- sumR_scal. apply sumR_ext. intros j Hj.
      unfold cov. unfold Rdiv. rewrite (Rmult_comm (sumR n _) (/ INR n)). rewrite <- !sumR_scal. apply sumR_ext.
      intros f Hf. unfold d. ring.
    - unfold Rdiv. rewrite Rmult_comm. f_equal. apply sumR_ext. intros f Hf. symmetry. apply sumR_square. }
  rewrite E. apply Rmult_le_pos; [apply sumR_nonneg; intros; apply Rle_0_sqr|].
  left. apply Rinv_0_lt_compat. apply lt_0_INR. assumption.
Qed.

Lemma cov_diag n x : 0 < n -> cov n x x = mean n (fun i => (x i - mean n x) * (x i - mean n x))%R /\ (0 <= cov n x x)%R.
Proof.
  intros Hn. split; [reflexivity|]. unfold cov. apply Rmult_le_pos; [apply sumR_nonneg; intros; apply Rle_0_sqr|].
  left. apply Rinv_0_lt_compat. apply lt_0_INR. assumption.
Qed.
End P.

(* the laws, stated of the computed table *)
Lemma covariance_laws {L : Type} (l0 : L) (s : storage R L) :
  length (data_ s) = frame_size s * channel_size s -> 0 < frame_size s ->
  exists cv, compute_covariance l0 s = Ok cv /\
    (forall i j, i < channel_size s -> j < channel_size s -> exists v, Table.at_ cv i j = Ok v /\ Table.at_ cv j i = Ok v) /\
    (forall i, i < channel_size s -> exists v, Table.at_ cv i i = Ok v /\ (0 <= v)%R) /\
    (forall V : nat -> nat -> R, (forall i j, i < channel_size s -> j < channel_size s -> Table.at_ cv i j = Ok (V i j)) ->
       forall w, (0 <= sumR (channel_size s) (fun i => sumR (channel_size s) (fun j => w i * w j * V i j)))%R) /\
    (forall (s' : storage R L) (k : nat -> R), length (data_ s') = frame_size s' * channel_size s' ->
       frame_size s' = frame_size s -> channel_size s' = channel_size s ->
       (forall f c x, f < frame_size s -> c < channel_size s -> at_ s f c = Ok x -> at_ s' f c = Ok (x + k c)%R) ->
       exists cv', compute_covariance l0 s' = Ok cv' /\
         forall i j, i < channel_size s -> j < channel_size s -> Table.at_ cv' i j = Table.at_ cv i j).
Proof.
  intros Hr Hn. set (X := fun f c => nth (f * channel_size s + c) (data_ s) 0%R).
  assert (HX : forall f c, f < frame_size s -> c < channel_size s -> at_ s f c = Ok (X f c)).
  { intros f c Hf Hc. unfold at_. apply Nat.ltb_lt in Hf as Hf'. apply Nat.ltb_lt in Hc as Hc'. rewrite Hf', Hc'. cbn [andb assert_ bind].
    unfold at_unchecked, vget, X. rewrite (nth_error_nth' _ 0%R) by (rewrite Hr; apply idx_bound; assumption). reflexivity. }
  destruct (covariance_main l0 s X Hr Hn HX) as (cv & E & _ & _ & Hcv).
  exists cv. split; [exact E|]. split; [|split; [|split]].
  - intros i j Hi Hj. eexists. split; [apply Hcv; assumption|]. rewrite Hcv by assumption. f_equal. apply cov_sym.
  - intros i Hi. eexists. split; [apply Hcv; assumption|]. apply cov_diag; assumption.
  - intros V HV w.
    rewrite (sumR_ext _ _ (fun i => sumR (channel_size s) (fun j => w i * w j * cov (frame_size s) (fun f => X f i) (fun f => X f j)))%R).
    + apply cov_psd. assumption.
    + intros i Hi. apply sumR_ext. intros j Hj. specialize (HV i j Hi Hj). rewrite Hcv in HV by assumption. inversion HV. reflexivity.
  - intros s' k Hr' Ef Ec Hs.
    destruct (covariance_main l0 s' (fun f c => X f c + k c)%R Hr') as (cv' & E' & _ & _ & Hcv').
    + lia.
    + intros f c Hf Hc. rewrite Ef in Hf. rewrite Ec in Hc. apply Hs; auto.
    + exists cv'. split; [exact E'|]. intros i j Hi Hj. rewrite Hcv', Hcv by lia. f_equal. rewrite Ef. apply cov_shift. assumption.
Qed.
