(* Proofs about means, covariances and regression on floating point numbers. *)
From Coq Require Import Reals ZArith List Lra Lia.
From Verif Require Import Model.Base Model.DataHeader Model.Table Model.Storage Model.FloatText Model.Ieee Model.FloatInterp Model.FloatContainers Model.FloatStats Spec.FloatText Spec.Ieee.
From Verif Require Import Proofs.BaseFacts Proofs.MatrixFacts Proofs.FloatTextProofs Proofs.IeeeProofs Proofs.IeeeErrorProofs Proofs.FloatOpsProofs Props.FloatAverage Proofs.RoundingProofs Proofs.ReportProofs Proofs.FloatStopwatchProofs Spec.FloatStats.
Import ListNotations.
Local Open Scope R_scope.

(* ---------- the loops ---------- *)
Section P.
Local Open Scope nat_scope.
Context {L : Type} (l0 : L) (f : fmt).
Implicit Types s : storage fnum L.
Definition column (s : storage fnum L) (c : nat) : list fnum := map (fun r => nth (r * channel_size s + c) (data_ s) FNan) (seq 0 (frame_size s)).
Lemma column_length s c : length (column s c) = frame_size s.
Proof. unfold column. rewrite map_length, seq_length. reflexivity. Qed.
Lemma cell_ok s r c : length (data_ s) = frame_size s * channel_size s -> r < frame_size s -> c < channel_size s -> at_unchecked s r c = Ok (nth (r * channel_size s + c) (data_ s) FNan).
Proof. intros H R C. unfold at_unchecked, vget. rewrite (nth_error_nth' _ FNan); [reflexivity|]. rewrite H. apply idx_bound; assumption. Qed.
Definition partial s c n : fnum := fold_left (f_add f) (map (fun r => nth (r * channel_size s + c) (data_ s) FNan) (seq 0 n)) f_zero.
Lemma partial_next s c n : partial s c (S n) = f_add f (partial s c n) (nth (n * channel_size s + c) (data_ s) FNan).
Proof. unfold partial. rewrite seq_S, map_app, fold_left_app. reflexivity. Qed.
Lemma means_loop s : length (data_ s) = frame_size s * channel_size s ->
  exists ms, f_channel_means f s = Ok ms /\ length ms = channel_size s /\ forall c, c < channel_size s -> nth_error ms c = Some (f_average_of f (column s c)).
Proof.
  intros Hr. unfold f_channel_means.
  set (I := fun row col (m : list fnum) => length m = channel_size s /\ forall c, c < channel_size s -> nth_error m c = Some (partial s c (if c <? col then S row else row))).
  match goal with |- context [for_up (frame_size s) ?b ?c] => destruct (for_up_inv b (fun row m => I row 0 m) (frame_size s) c) as (sums & E & HI) end.
  - split; [apply repeat_length|]. intros c Hc. cbn [Nat.ltb Nat.leb]. apply nth_error_repeat_lt; assumption.
  - intros row m Hrow HI. match goal with |- exists _, for_up _ ?b ?c = _ /\ _ => destruct (for_up_inv b (fun col m => I row col m) (channel_size s) c HI) as (m' & E' & HI') end.
    + intros col m1 Hcol (Hl & Hc1). unfold vget at 1. rewrite Hc1 by assumption. cbn [bind]. rewrite (cell_ok s row col Hr Hrow Hcol). cbn [bind].
      rewrite vset_ok by lia. eexists; split; [reflexivity|]. split; [rewrite upd_length; lia|].
      intros c Hc. rewrite nth_error_upd by lia. destruct (Nat.eqb_spec c col) as [->|Hne].
      * destruct (Nat.ltb_spec col col); [lia|]. destruct (Nat.ltb_spec col (S col)); [|lia]. rewrite partial_next. reflexivity.
      * rewrite Hc1 by assumption. destruct (Nat.ltb_spec c col), (Nat.ltb_spec c (S col)); try lia; reflexivity.
    + exists m'; split; [exact E'|]. destruct HI' as (Hl & Hc1). split; [exact Hl|]. intros c Hc. rewrite Hc1 by assumption.
      destruct (Nat.ltb_spec c (channel_size s)); [|lia]. reflexivity.
  - rewrite E. cbn [bind]. destruct HI as (Hl & Hc1). eexists; split; [reflexivity|]. split; [rewrite map_length; exact Hl|].
    intros c Hc. rewrite nth_error_map, Hc1 by assumption. cbn [option_map]. unfold f_average_of. rewrite column_length. reflexivity.
Qed.
Definition covariance_of (xs ys : list fnum) : fnum :=
  f_div f (rounded_sum f (products f (f_average_of f xs) (f_average_of f ys) xs ys)) (f_of_int f (Z.of_nat (length xs))).
Lemma table_set (cv : table fnum L) (C : nat) (r c : nat) (v : fnum) :
  row_size cv = C -> column_size cv = C -> length (Table.data_ cv) = C * C -> r < C -> c < C ->
  exists cv', Table.at_set cv r c v = Ok cv' /\ row_size cv' = C /\ column_size cv' = C /\
    length (Table.data_ cv') = C * C /\
    forall i j, i < C -> j < C ->
      Table.at_ cv' i j = if (i =? r) && (j =? c) then Ok v else Table.at_ cv i j.
Proof.
  intros H1 H2 H3 Hr Hc. unfold Table.at_set. rewrite H1, H2.
  apply Nat.ltb_lt in Hr as Hr'. apply Nat.ltb_lt in Hc as Hc'. rewrite Hr', Hc'. cbn [andb assert_ bind].
  assert (Hlt : r * C + c < length (Table.data_ cv)) by (rewrite H3; apply idx_bound; assumption).
  rewrite vset_ok by assumption. cbn [bind]. eexists; split; [reflexivity|].
  split; [exact H1|]. split; [exact H2|]. cbn [Table.data_]. split; [rewrite upd_length; assumption|].
  intros i j Hi Hj. unfold Table.at_. unfold row_size, column_size in *. cbn [row_labels_ col_labels_ Table.data_].
  rewrite H1, H2. apply Nat.ltb_lt in Hi as Hi'. apply Nat.ltb_lt in Hj as Hj'. rewrite Hi', Hj'. cbn [andb assert_ bind].
  unfold vget. rewrite nth_error_upd by assumption.
  destruct (Nat.eqb_spec (i * C + j) (r * C + c)) as [Ei|Ni].
  - apply idx_inj in Ei; [|assumption..]. destruct Ei as [-> ->]. rewrite !Nat.eqb_refl. reflexivity.
  - destruct (Nat.eqb_spec i r) as [->|]; [|reflexivity]. destruct (Nat.eqb_spec j c) as [->|]; [contradiction|reflexivity].
Qed.
Definition part s i j mx my n : fnum := rounded_sum f (map (fun r => f_mul f (f_sub f (nth (r * channel_size s + i) (data_ s) FNan) mx) (f_sub f (nth (r * channel_size s + j) (data_ s) FNan) my)) (seq 0 n)).
Lemma part_next s i j mx my n : part s i j mx my (S n) = f_add f (part s i j mx my n) (f_mul f (f_sub f (nth (n * channel_size s + i) (data_ s) FNan) mx) (f_sub f (nth (n * channel_size s + j) (data_ s) FNan) my)).
Proof. unfold part, rounded_sum. rewrite seq_S, map_app, fold_left_app. reflexivity. Qed.
Lemma combine_map {A B C} (g : A -> B) (h : A -> C) l : combine (map g l) (map h l) = map (fun x => (g x, h x)) l.
Proof. induction l as [|x l IH]; cbn; [reflexivity|]. rewrite IH. reflexivity. Qed.
Lemma part_full s i j mx my : part s i j mx my (frame_size s) = rounded_sum f (products f mx my (column s i) (column s j)).
Proof. unfold part, products, column. rewrite combine_map, map_map. reflexivity. Qed.
Lemma covariance_loop s : length (data_ s) = frame_size s * channel_size s ->
  exists cv, f_covariance l0 f s = Ok cv /\ row_size cv = channel_size s /\ column_size cv = channel_size s /\
    forall i j, i < channel_size s -> j < channel_size s -> Table.at_ cv i j = Ok (covariance_of (column s i) (column s j)).
Proof.
  intros Hr. destruct (means_loop s Hr) as (ms & Em & Hml & Hm). unfold f_covariance. rewrite Em. cbn [bind].
  set (C := channel_size s) in *.
  set (I := fun row col (cv : table fnum L) => row_size cv = C /\ column_size cv = C /\ length (Table.data_ cv) = C * C /\
     forall i j, i < C -> j < C -> (i < row \/ (i = row /\ j < col)) -> Table.at_ cv i j = Ok (covariance_of (column s i) (column s j))).
  match goal with |- exists _, for_up _ ?b ?c = _ /\ _ => destruct (for_up_inv b (fun row cv => I row 0 cv) C c) as (cv & E & HI) end.
  - unfold I, Table.create, row_size, column_size, DataHeader.create, DataHeader.size; cbn [row_labels_ col_labels_ Table.data_ DataHeader.labels_].
    rewrite !repeat_length. repeat (split; [reflexivity|]). intros; lia.
  - intros row cv Hrow HI.
    match goal with |- exists _, for_up _ ?b ?c = _ /\ _ => destruct (for_up_inv b (fun col cv => I row col cv) C c HI) as (cv' & E' & HI') end.
    + intros col cv1 Hcol (G1 & G2 & G3 & G4). set (ma := f_average_of f (column s row)). set (mb := f_average_of f (column s col)).
      match goal with |- context [for_up (frame_size s) ?b f_zero] => destruct (for_up_inv b (fun k v => v = part s row col ma mb k) (frame_size s) f_zero) as (v & Ev & Hv) end.
      * reflexivity.
      * intros k v Hk Hv. rewrite (cell_ok s k row Hr Hk Hrow); cbn [bind]. unfold vget at 1. rewrite Hm by assumption. cbn [bind]. rewrite (cell_ok s k col Hr Hk Hcol); cbn [bind].
        unfold vget. rewrite Hm by assumption. cbn [bind]. eexists; split; [reflexivity|]. rewrite Hv, part_next. reflexivity.
      * rewrite Ev; cbn [bind]. match goal with |- context [Table.at_set cv1 row col ?w] => destruct (table_set cv1 C row col w G1 G2 G3 Hrow Hcol) as (cv2 & E2 & K1 & K2 & K3 & K4) end.
        exists cv2. split; [exact E2|]. split; [exact K1|]. split; [exact K2|]. split; [exact K3|].
        intros i j Hi Hj Hor. rewrite K4 by assumption.
        destruct (Nat.eqb_spec i row) as [->|Hne]; cbn [andb].
        { destruct (Nat.eqb_spec j col) as [->|Hne2]; [rewrite Hv; unfold covariance_of; rewrite part_full, column_length; reflexivity|]. apply G4; [assumption..|]. lia. }
        apply G4; [assumption..|lia].
    + exists cv'. split; [exact E'|]. destruct HI' as (G1 & G2 & G3 & G4). repeat (split; [assumption|]).
      intros i j Hi Hj Hor. apply G4; [assumption..|lia].
  - exists cv. split; [exact E|]. destruct HI as (G1 & G2 & G3 & G4). split; [exact G1|]. split; [exact G2|].
    intros i j Hi Hj. apply G4; [assumption..|lia].
Qed.
End P.

(* ---------- errors ---------- *)
Lemma rounded_snoc f l x : rounded_sum f (l ++ [x]) = f_add f (rounded_sum f l) x.
Proof. unfold rounded_sum. rewrite fold_left_app. reflexivity. Qed.
Lemma total_bound f l B : Forall (fun x => Rabs (number f x) <= B) l -> Rabs (total f l) <= INR (length l) * B.
Proof.
  induction 1 as [|x l H _ IH]; [cbn; rewrite Rabs_R0; lra|]. cbn [length]. rewrite S_INR. change (total f (x :: l)) with (number f x + total f l). eapply Rle_trans; [apply Rabs_triang|]. lra.
Qed.
Lemma sum_fin f l B : IEEE f -> Forall (fun x => Fin f x /\ Rabs (number f x) <= B) l -> 0 <= B -> INR (length l) * ulp f <= / 100 -> INR (length l) * B <= room f / 2 ->
  Fin f (rounded_sum f l) /\ Rabs (number f (rounded_sum f l) - total f l) <= ((1 + ulp f) ^ length l - 1) * (INR (length l) * B).
Proof.
  intros I. destruct (ulp_small f I) as [[U0 U1] _]. pose proof (ieee_sane f I) as W. induction l as [|x l IH] using rev_ind; intros F B0 K R.
  - cbn [length INR pow]. change (rounded_sum f []) with f_zero. change (total f []) with 0. destruct (zero_plus f I) as [P Z]. split; [apply plus_fin, P|]. rewrite Z, Rminus_0_r, Rabs_R0. lra.
  - apply Forall_app in F. destruct F as [FL FX]. inversion FX as [|? ? [FX1 FX2] _]; subst. rewrite app_length in *. cbn [length] in *. replace (length l + 1)%nat with (S (length l)) in * by lia. rewrite S_INR in *. pose proof (pos_INR (length l)) as PI.
    assert (KU : 0 <= INR (length l) * ulp f) by (apply Rmult_le_pos; lra). assert (NB : 0 <= INR (length l) * B) by (apply Rmult_le_pos; lra). destruct (IH FL B0 ltac:(lra) ltac:(lra)) as [FS ES]. rewrite rounded_snoc, total_snoc.
    assert (TB : Rabs (total f l) <= INR (length l) * B) by (apply total_bound; eapply Forall_impl; [|exact FL]; intros y H; apply H). pose proof (pow_linear (ulp f) (length l) ltac:(lra) ltac:(lra)) as PL. pose proof (pow_ge1 (ulp f) (length l) ltac:(lra)) as PG. set (w := (1 + ulp f) ^ length l) in *.
    assert (SB : Rabs (number f (rounded_sum f l) + number f x) <= w * (INR (length l) * B) + B). { apply abs_inv in ES. apply abs_inv in TB. apply abs_inv in FX2. apply Rabs_le. lra. }
    assert (WN : w * (INR (length l) * B) <= 2 * (INR (length l) * B)) by (apply Rmult_le_compat_r; lra).
    destruct (add_fin f _ _ I FS FX1 ltac:(lra)) as (FA & _ & EA). split; [exact FA|]. cbn [pow]. fold w. assert (WB : B <= w * B) by (assert (1 * B <= w * B) by (apply Rmult_le_compat_r; lra); lra).
    assert (UE : ulp f * Rabs (number f (rounded_sum f l) + number f x) <= ulp f * (w * (INR (length l) * B) + w * B)) by (apply Rmult_le_compat_l; lra). apply abs_inv in EA. apply abs_inv in ES. apply Rabs_le. lra.
Qed.
Lemma inr_one (l : list fnum) : l <> [] -> 1 <= INR (length l).
Proof. destruct l; [congruence|]. intros _. cbn [length]. rewrite S_INR. pose proof (pos_INR (length l)). lra. Qed.
Lemma few_frames f n : IEEE f -> INR n * ulp f <= / 100 -> (Z.of_nat n <= 2 ^ fm_prec f)%Z.
Proof.
  intros I K. apply le_IZR. rewrite <- INR_IZR_INZ. unfold ulp in K. assert (P : 0 < IZR (2 ^ fm_prec f)) by (apply IZR_lt, Z.pow_pos_nonneg; [lia|destruct I as [-> | ->]; cbn; lia]). apply Rmult_le_reg_r with (/ IZR (2 ^ fm_prec f)); [apply Rinv_0_lt_compat, P|]. rewrite Rinv_r by lra. lra.
Qed.
(* quotients by the number of frames *)
Lemma frames_div f x n B E T : IEEE f -> Fin f x -> 1 <= INR n -> INR n * ulp f <= / 100 -> 0 <= B -> unit_of f <= ulp f * B -> B <= room f -> Rabs (number f x - T) <= E * INR n -> Rabs (number f x) <= B * INR n ->
  Fin f (f_div f x (f_of_int f (Z.of_nat n))) /\ Rabs (number f (f_div f x (f_of_int f (Z.of_nat n))) - T / INR n) <= E + 3 / 2 * ulp f * B.
Proof.
  intros I FX N K B0 UB RB EX BX. destruct (ulp_small f I) as [[U0 U1] _]. destruct (int_fin f (Z.of_nat n) I) as [FN VN]; [rewrite Z.abs_eq by lia; apply few_frames; assumption|]. rewrite <- INR_IZR_INZ in VN. set (k := INR n) in *. assert (IK : 0 < / k) by (apply Rinv_0_lt_compat; lra).
  assert (QB : Rabs (number f x / k) <= B). { unfold Rdiv. rewrite Rabs_mult, (Rabs_right (/ k)) by lra. apply Rmult_le_reg_r with k; [lra|]. rewrite Rmult_assoc, Rinv_l by lra. lra. }
  destruct (div_fin f x _ I FX FN) as (F & _ & E1); rewrite VN in *; [lra|lra|]. split; [exact F|]. assert (E2 : Rabs (number f x / k - T / k) <= E). { replace (number f x / k - T / k) with ((number f x - T) * / k) by (field; lra). rewrite Rabs_mult, (Rabs_right (/ k)) by lra. apply Rmult_le_reg_r with k; [lra|]. rewrite Rmult_assoc, Rinv_l by lra. lra. }
  assert (ulp f * Rabs (number f x / k) <= ulp f * B) by (apply Rmult_le_compat_l; lra). apply abs_inv in E1. apply abs_inv in E2. apply Rabs_le. lra.
Qed.
Section Errors.
Variables (f : fmt) (I : IEEE f).
Definition Bounded (X : R) (l : list fnum) : Prop := Forall (fun x => Fin f x /\ Rabs (number f x) <= X) l /\ 0 <= X /\ unit_of f <= ulp f * X /\ INR (length l) * X <= room f / 4.
Lemma mean_error l X : l <> [] -> INR (length l) * ulp f <= / 100 -> Bounded X l -> Fin f (f_average_of f l) /\ Rabs (number f (f_average_of f l) - mean_of f l) <= 4 * (INR (length l) * ulp f) * X /\ Rabs (mean_of f l) <= X.
Proof.
  intros NE K (F & X0 & UX & R). destruct (ulp_small f I) as [[U0 U1] _]. pose proof (room_huge f I) as RH. pose proof (inr_one l NE) as N1. destruct (sum_fin f l X I F X0 K ltac:(lra)) as [FS ES]. pose proof (pow_linear (ulp f) (length l) ltac:(lra) ltac:(lra)) as PL. assert (TB : Rabs (total f l) <= INR (length l) * X) by (apply total_bound; eapply Forall_impl; [|exact F]; intros y H; apply H).
  set (k := INR (length l)) in *. assert (NX : X <= k * X) by (assert (1 * X <= k * X) by (apply Rmult_le_compat_r; lra); lra). assert (KX : 0 <= k * X) by lra.
  assert (ES2 : Rabs (number f (rounded_sum f l) - total f l) <= 2 * (k * ulp f) * X * k). { eapply Rle_trans; [exact ES|]. apply Rle_trans with (2 * k * ulp f * (k * X)); [apply Rmult_le_compat_r; lra|right; ring]. }
  assert (SB : Rabs (number f (rounded_sum f l)) <= 102 / 100 * X * k). { assert (2 * (k * ulp f) * (k * X) <= 2 * / 100 * (k * X)) by (apply Rmult_le_compat_r; lra). apply abs_inv in ES2. apply abs_inv in TB. apply Rabs_le. lra. }
  assert (UX0 : 0 <= ulp f * X) by (apply Rmult_le_pos; lra).
  destruct (frames_div f _ (length l) (102 / 100 * X) _ _ I FS N1 K ltac:(lra) ltac:(lra) ltac:(lra) ES2 SB) as [FD ED]. split; [exact FD|]. split.
  - fold k in ED. unfold mean_of. fold k. change (f_div f (rounded_sum f l) (f_of_int f (Z.of_nat (length l)))) with (f_average_of f l) in ED. assert (UK : ulp f * X <= k * ulp f * X) by (apply Rmult_le_compat_r; [lra|]; assert (1 * ulp f <= k * ulp f) by (apply Rmult_le_compat_r; lra); lra). assert (0 <= k * ulp f * X) by (apply Rmult_le_pos; [apply Rmult_le_pos|]; lra). lra.
  - unfold mean_of. fold k. unfold Rdiv. assert (IK : 0 < / k) by (apply Rinv_0_lt_compat; lra). rewrite Rabs_mult, (Rabs_right (/ k)) by lra. apply Rmult_le_reg_r with k; [lra|]. rewrite Rmult_assoc, Rinv_l by lra. lra.
Qed.
Lemma deviation_error m mu x k X : Fin f m -> Fin f x -> 1 <= k -> k * ulp f <= / 100 -> 0 <= X -> 4 * X <= room f -> Rabs (number f m - mu) <= 4 * (k * ulp f) * X -> Rabs mu <= X -> Rabs (number f x) <= X ->
  Fin f (f_sub f x m) /\ Rabs (number f (f_sub f x m) - (number f x - mu)) <= 7 * (k * ulp f) * X /\ Rabs (number f x - mu) <= 2 * X /\ Rabs (number f (f_sub f x m)) <= 207 / 100 * X.
Proof.
  intros FM FX N1 K X0 R EM BM BX. destruct (ulp_small f I) as [[U0 U1] _]. pose proof (room_huge f I) as RH. assert (UK : ulp f <= k * ulp f) by (assert (1 * ulp f <= k * ulp f) by (apply Rmult_le_compat_r; lra); lra). set (ku := k * ulp f) in *. assert (KX : ku * X <= / 100 * X) by (apply Rmult_le_compat_r; lra). assert (KX0 : 0 <= ku * X) by (apply Rmult_le_pos; lra). assert (UX : ulp f * X <= ku * X) by (apply Rmult_le_compat_r; lra).
  assert (D : Rabs (number f x - mu) <= 2 * X) by (apply abs_inv in BM; apply abs_inv in BX; apply Rabs_le; lra). assert (D2 : Rabs (number f x - number f m) <= 204 / 100 * X) by (apply abs_inv in D; apply abs_inv in EM; apply Rabs_le; lra).
  destruct (sub_fin f x m I FX FM ltac:(lra)) as (F & _ & E). assert (E2 : ulp f * Rabs (number f x - number f m) <= ulp f * (204 / 100 * X)) by (apply Rmult_le_compat_l; lra). assert (ED : Rabs (number f (f_sub f x m) - (number f x - mu)) <= 7 * ku * X) by (apply abs_inv in E; apply abs_inv in EM; apply Rabs_le; lra).
  split; [exact F|]. split; [exact ED|]. split; [exact D|]. apply abs_inv in ED. apply abs_inv in D. apply Rabs_le. lra.
Qed.
Lemma product_error a b da db k X Y : Fin f a -> Fin f b -> 1 <= k -> k * ulp f <= / 100 -> 0 <= X -> 0 <= Y -> unit_of f <= ulp f * (X * Y) -> 5 * (X * Y) <= room f ->
  Rabs (number f a - da) <= 7 * (k * ulp f) * X -> Rabs da <= 2 * X -> Rabs (number f a) <= 207 / 100 * X -> Rabs (number f b - db) <= 7 * (k * ulp f) * Y -> Rabs db <= 2 * Y -> Rabs (number f b) <= 207 / 100 * Y ->
  Fin f (f_mul f a b) /\ Rabs (number f (f_mul f a b) - da * db) <= 34 * (k * ulp f) * (X * Y) /\ Rabs (da * db) <= 4 * (X * Y) /\ Rabs (number f (f_mul f a b)) <= 434 / 100 * (X * Y).
Proof.
  intros FA FB N1 K X0 Y0 UXY R EA BA NA EB BB NB. destruct (ulp_small f I) as [[U0 U1] _]. pose proof (room_huge f I) as RH. assert (UK : ulp f <= k * ulp f) by (assert (1 * ulp f <= k * ulp f) by (apply Rmult_le_compat_r; lra); lra). set (ku := k * ulp f) in *. assert (XY : 0 <= X * Y) by (apply Rmult_le_pos; assumption).
  assert (KX : ku * (X * Y) <= / 100 * (X * Y)) by (apply Rmult_le_compat_r; lra). assert (KX0 : 0 <= ku * (X * Y)) by (apply Rmult_le_pos; lra). assert (UX : ulp f * (X * Y) <= ku * (X * Y)) by (apply Rmult_le_compat_r; lra).
  assert (P1 : Rabs (number f a * number f b) <= 429 / 100 * (X * Y)). { rewrite Rabs_mult. apply Rle_trans with (207 / 100 * X * (207 / 100 * Y)); [apply Rmult_le_compat; try apply Rabs_pos; assumption|lra]. }
  destruct (mul_fin f a b I FA FB ltac:(lra)) as (F & _ & E). assert (E2 : ulp f * Rabs (number f a * number f b) <= ulp f * (429 / 100 * (X * Y))) by (apply Rmult_le_compat_l; lra).
  assert (P2 : Rabs ((number f a - da) * number f b) <= 7 * ku * X * (207 / 100 * Y)) by (rewrite Rabs_mult; apply Rmult_le_compat; try apply Rabs_pos; assumption). assert (P3 : Rabs (da * (number f b - db)) <= 2 * X * (7 * ku * Y)) by (rewrite Rabs_mult; apply Rmult_le_compat; try apply Rabs_pos; assumption).
  assert (P4 : Rabs (da * db) <= 4 * (X * Y)). { rewrite Rabs_mult. apply Rle_trans with (2 * X * (2 * Y)); [apply Rmult_le_compat; try apply Rabs_pos; assumption|lra]. }
  assert (ED : Rabs (number f (f_mul f a b) - da * db) <= 34 * ku * (X * Y)). { apply abs_inv in E. apply abs_inv in P2. apply abs_inv in P3. replace (7 * ku * X * (207 / 100 * Y)) with (1449 / 100 * (ku * (X * Y))) in P2 by field. replace (2 * X * (7 * ku * Y)) with (14 * (ku * (X * Y))) in P3 by ring. apply Rabs_le. lra. }
  split; [exact F|]. split; [exact ED|]. split; [exact P4|]. apply abs_inv in ED. apply abs_inv in P4. apply Rabs_le. lra.
Qed.
Lemma products_error mx my mux muy k X Y l : Fin f mx -> Fin f my -> 1 <= k -> k * ulp f <= / 100 -> 0 <= X -> 0 <= Y -> unit_of f <= ulp f * (X * Y) -> 5 * (X * Y) <= room f -> 4 * X <= room f -> 4 * Y <= room f ->
  Rabs (number f mx - mux) <= 4 * (k * ulp f) * X -> Rabs mux <= X -> Rabs (number f my - muy) <= 4 * (k * ulp f) * Y -> Rabs muy <= Y ->
  Forall (fun p => (Fin f (fst p) /\ Rabs (number f (fst p)) <= X) /\ Fin f (snd p) /\ Rabs (number f (snd p)) <= Y) l ->
  let ps := map (fun p => f_mul f (f_sub f (fst p) mx) (f_sub f (snd p) my)) l in
  let S := fold_right (fun p a => (number f (fst p) - mux) * (number f (snd p) - muy) + a) 0 l in
  Forall (fun x => Fin f x /\ Rabs (number f x) <= 434 / 100 * (X * Y)) ps /\ Rabs (total f ps - S) <= INR (length l) * (34 * (k * ulp f) * (X * Y)) /\ Rabs S <= INR (length l) * (4 * (X * Y)).
Proof.
  intros FX FY N1 K X0 Y0 UXY R RX RY EX BX EY BY. induction l as [|[x y] l IH]; intros F; cbn zeta.
  - cbn [map fold_right length INR]. split; [constructor|]. change (total f []) with 0. rewrite Rminus_0_r, Rabs_R0. split; lra.
  - inversion F as [|? ? [[F1 B1] [F2 B2]] FL]; subst. cbn [fst snd] in *. specialize (IH FL). cbn zeta in IH. destruct IH as (IH1 & IH2 & IH3). cbn [map fold_right fst snd length]. rewrite S_INR.
    destruct (deviation_error mx mux x k X FX F1 N1 K X0 RX EX BX B1) as (A1 & A2 & A3 & A4). destruct (deviation_error my muy y k Y FY F2 N1 K Y0 RY EY BY B2) as (C1 & C2 & C3 & C4).
    destruct (product_error _ _ _ _ k X Y A1 C1 N1 K X0 Y0 UXY R A2 A3 A4 C2 C3 C4) as (P1 & P2 & P3 & P4). split; [constructor; [split; assumption|exact IH1]|].
    match goal with |- context [total f (?a :: ?b)] => change (total f (a :: b)) with (number f a + total f b) end. apply abs_inv in P2. apply abs_inv in P3. apply abs_inv in IH2. apply abs_inv in IH3. split; apply Rabs_le; lra.
Qed.
Lemma in_combine_forall (P Q : fnum -> Prop) xs : forall ys, Forall P xs -> Forall Q ys -> Forall (fun p => P (fst p) /\ Q (snd p)) (combine xs ys).
Proof. induction xs as [|x xs IH]; intros ys FX FY; [constructor|]. destruct ys as [|y ys]; [constructor|]. inversion FX; inversion FY; subst. cbn. constructor; [cbn; auto|apply IH; assumption]. Qed.
Lemma scatter_error xs ys X Y : xs <> [] -> length xs = length ys -> INR (length xs) * ulp f <= / 100 -> Bounded X xs -> Bounded Y ys -> unit_of f <= ulp f * (X * Y) -> INR (length xs) * (X * Y) <= room f / 10 ->
  let n := INR (length xs) in let v := rounded_sum f (products f (f_average_of f xs) (f_average_of f ys) xs ys) in
  Fin f v /\ Rabs (number f v - scatter f xs ys) <= 43 * (n * ulp f) * (X * Y) * n /\ Rabs (scatter f xs ys) <= 4 * (X * Y) * n.
Proof.
  intros NE LE K BX BY UXY R n v. destruct (ulp_small f I) as [[U0 U1] _]. pose proof (room_huge f I) as RH. pose proof (inr_one xs NE) as N1. fold n in N1, K, R. assert (NEY : ys <> []) by (intros ->; destruct xs; [congruence|discriminate]).
  destruct (mean_error xs X NE K BX) as (FMX & EMX & BMX). destruct (mean_error ys Y NEY ltac:(rewrite <- LE; exact K) BY) as (FMY & EMY & BMY). rewrite <- LE in EMY. fold n in EMX, EMY. destruct BX as (FX & X0 & UX & RX). destruct BY as (FY & Y0 & UY & RY). rewrite <- LE in RY. fold n in RX, RY.
  assert (XY : 0 <= X * Y) by (apply Rmult_le_pos; assumption). assert (G : forall z, 0 <= z -> z <= n * z) by (intros z Z; assert (1 * z <= n * z) by (apply Rmult_le_compat_r; lra); lra). pose proof (G X X0). pose proof (G Y Y0). pose proof (G _ XY) as GXY.
  destruct (products_error (f_average_of f xs) (f_average_of f ys) (mean_of f xs) (mean_of f ys) n X Y (combine xs ys) FMX FMY N1 K X0 Y0 UXY ltac:(lra) ltac:(lra) ltac:(lra) EMX BMX EMY BMY (in_combine_forall _ _ xs ys FX FY)) as (P1 & P2 & P3).
  change (map (fun p : fnum * fnum => f_mul f (f_sub f (fst p) (f_average_of f xs)) (f_sub f (snd p) (f_average_of f ys))) (combine xs ys)) with (products f (f_average_of f xs) (f_average_of f ys) xs ys) in *. fold (scatter f xs ys) in P2, P3.
  assert (LC : length (combine xs ys) = length xs) by (rewrite combine_length; lia). assert (LP : length (products f (f_average_of f xs) (f_average_of f ys) xs ys) = length xs) by (unfold products; rewrite map_length; exact LC). rewrite LC in P2, P3. fold n in P2, P3.
  destruct (sum_fin f _ (434 / 100 * (X * Y)) I P1 ltac:(lra) ltac:(rewrite LP; exact K) ltac:(rewrite LP; fold n; lra)) as [FS ES]. rewrite LP in ES. fold n in ES. fold v in FS, ES. split; [exact FS|]. split; [|lra].
  pose proof (pow_linear (ulp f) (length xs) ltac:(lra) ltac:(fold n; lra)) as PL. fold n in PL. assert (ES2 : ((1 + ulp f) ^ length xs - 1) * (n * (434 / 100 * (X * Y))) <= 2 * n * ulp f * (n * (434 / 100 * (X * Y)))) by (apply Rmult_le_compat_r; [apply Rmult_le_pos|]; lra).
  apply abs_inv in ES. apply abs_inv in P2. assert (NN : 0 <= n * ulp f * (X * Y) * n) by (apply Rmult_le_pos; [apply Rmult_le_pos; [apply Rmult_le_pos|]|]; lra). apply Rabs_le. lra.
Qed.
End Errors.
