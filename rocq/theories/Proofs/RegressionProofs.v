From Coq Require Import Reals List Lra Lia.
From Verif Require Import Model.Base Model.Regression Spec.Regression.
Import ListNotations.
Local Open Scope R_scope.

Lemma rdiv_ok x y : y <> 0 -> rdiv x y = Ok (x / y).
Proof. intros H. unfold rdiv. destruct (Req_EM_T y 0); [contradiction|reflexivity]. Qed.
Lemma rdiv_zero x y : y = 0 -> rdiv x y = UB.
Proof. intros H. unfold rdiv. destruct (Req_EM_T y 0); [reflexivity|contradiction]. Qed.
Lemma rdiv_inv x y z : rdiv x y = Ok z -> y <> 0 /\ z = x / y.
Proof. unfold rdiv. destruct (Req_EM_T y 0); intros H; inversion H; auto. Qed.

(* polynomials *)
Lemma powers_shift cs x k : powers cs x (S k) = x * powers cs x k.
Proof. revert k. induction cs as [|c cs IH]; intros k; cbn [powers]; [ring|]. rewrite IH. cbn [pow]. ring. Qed.
Lemma poly_fold cs v : forall k r,
  fst (fold_left (fun '(result, factor) c => (result + factor * c, factor * v)) cs (r, v ^ k)) = r + powers cs v k.
Proof.
  induction cs as [|c cs IH]; intros k r; cbn [fold_left powers fst]; [ring|].
  replace (v ^ k * v) with (v ^ S k) by (cbn; ring). rewrite IH. ring.
Qed.
Lemma poly_eval_ok c cs v : poly_eval (c :: cs) v = Ok (polynomial (c :: cs) v).
Proof.
  unfold poly_eval. cbn [vget bind nth_error tl]. f_equal. pose proof (poly_fold cs v 1 c) as H. rewrite pow_1 in H.
  rewrite H. unfold polynomial. cbn [powers pow]. ring.
Qed.
Lemma linear_eval_ok f v : linear_eval f v = Ok (offset f + slope f * v).
Proof. unfold linear_eval. rewrite poly_eval_ok. unfold polynomial. cbn [powers pow]. f_equal. ring. Qed.

(* sums *)
Lemma total_ext {A} (f g : A -> R) l : (forall a, In a l -> f a = g a) -> total f l = total g l.
Proof.
  induction l as [|a l IH]; intros H; cbn [total]; [reflexivity|].
  rewrite (H a (or_introl eq_refl)), IH; [reflexivity|]. intros b B. apply H. right. exact B.
Qed.
Lemma total_plus {A} (f g : A -> R) l : total (fun a => f a + g a) l = total f l + total g l.
Proof. induction l as [|a l IH]; cbn [total]; [ring|rewrite IH; ring]. Qed.
Lemma total_scale {A} k (f : A -> R) l : total (fun a => k * f a) l = k * total f l.
Proof. induction l as [|a l IH]; cbn [total]; [ring|rewrite IH; ring]. Qed.
Lemma total_const {A} k (l : list A) : total (fun _ => k) l = INR (length l) * k.
Proof. induction l as [|a l IH]; cbn [total length]; [cbn; ring|rewrite IH, S_INR; ring]. Qed.
Lemma total_map {A B} (f : B -> R) (g : A -> B) l : total f (map g l) = total (fun a => f (g a)) l.
Proof. induction l as [|a l IH]; cbn [total map]; [reflexivity|rewrite IH; reflexivity]. Qed.
Lemma total_app {A} (f : A -> R) l m : total f (l ++ m) = total f l + total f m.
Proof. induction l as [|a l IH]; cbn [total app]; [ring|rewrite IH; ring]. Qed.
Lemma total_nonneg {A} (f : A -> R) l : (forall a, In a l -> 0 <= f a) -> 0 <= total f l.
Proof.
  induction l as [|a l IH]; intros H; cbn [total]; [lra|].
  pose proof (H a (or_introl eq_refl)). assert (0 <= total f l) by (apply IH; intros b B; apply H; right; exact B). lra.
Qed.
Lemma total_zero {A} (f : A -> R) l : (forall a, In a l -> 0 <= f a) -> total f l = 0 -> forall a, In a l -> f a = 0.
Proof.
  induction l as [|b l IH]; intros H Z a I; [destruct I|]. cbn [total] in Z.
  pose proof (H b (or_introl eq_refl)) as P. assert (Q : 0 <= total f l) by (apply total_nonneg; intros c C; apply H; right; exact C).
  destruct I as [->|I]; [lra|]. apply IH; [intros c C; apply H; right; exact C|lra|exact I].
Qed.
Lemma fold_plus l : forall a, fold_left Rplus l a = a + total (fun x => x) l.
Proof. induction l as [|x l IH]; intros a; cbn [fold_left total]; [ring|rewrite IH; ring]. Qed.
Lemma total_combine_fst xs : forall ys : list R, length xs = length ys -> total fst (combine xs ys) = total (fun x : R => x) xs.
Proof.
  induction xs as [|x xs IH]; intros [|y ys] E; try discriminate; cbn [combine total fst]; [reflexivity|].
  rewrite IH; [reflexivity|]. cbn in E. lia.
Qed.
Lemma total_combine_snd (xs : list R) : forall ys, length xs = length ys -> total snd (combine xs ys) = total (fun x : R => x) ys.
Proof.
  induction xs as [|x xs IH]; intros [|y ys] E; try discriminate; cbn [combine total snd]; [reflexivity|].
  rewrite IH; [reflexivity|]. cbn in E. lia.
Qed.

(* the loop of linear_regression *)
Lemma regression_fold mx my pts : forall a b,
  fold_left (fun '(num, den) '(x, y) => (num + (x - mx) * (y - my), den + (x - mx) * (x - mx))) pts (a, b) =
  (a + total (fun p => (fst p - mx) * (snd p - my)) pts, b + total (fun p => (fst p - mx) * (fst p - mx)) pts).
Proof.
  induction pts as [|[x y] pts IH]; intros a b; cbn [fold_left total fst snd]; [f_equal; ring|].
  rewrite IH. f_equal; ring.
Qed.

Definition mean {A} (f : A -> R) (l : list A) : R := total f l / INR (length l).
Definition sxx (pts : list (R * R)) : R := total (fun p => (fst p - mean fst pts) * (fst p - mean fst pts)) pts.
Definition sxy (pts : list (R * R)) : R := total (fun p => (fst p - mean fst pts) * (snd p - mean snd pts)) pts.

Lemma average_ok l : l <> [] -> average l = Ok (mean (fun x => x) l).
Proof.
  intros N. unfold average. rewrite fold_plus, rdiv_ok; [f_equal; unfold mean; f_equal; ring|].
  apply not_0_INR. destruct l; [contradiction|discriminate].
Qed.
Lemma average_nil : average [] = UB.
Proof. unfold average. apply rdiv_zero. reflexivity. Qed.

Lemma regression_value xs ys : length xs = length ys -> xs <> [] ->
  linear_regression xs ys =
  let* s := rdiv (sxy (combine xs ys)) (sxx (combine xs ys)) in
  Ok (mkLinear (mean snd (combine xs ys) - s * mean fst (combine xs ys)) s).
Proof.
  intros E N. unfold linear_regression, assert_. rewrite E, Nat.eqb_refl. cbn [bind].
  assert (L : length (combine xs ys) = length ys) by (rewrite combine_length; lia).
  assert (M1 : mean (fun x => x) xs = mean fst (combine xs ys)).
  { unfold mean. rewrite total_combine_fst, L, E by exact E. reflexivity. }
  assert (M2 : mean (fun x => x) ys = mean snd (combine xs ys)).
  { unfold mean. rewrite total_combine_snd, L by exact E. reflexivity. }
  rewrite (average_ok xs N). cbn [bind]. rewrite (average_ok ys) by (destruct xs, ys; discriminate || congruence).
  cbn [bind]. rewrite M1, M2, regression_fold, !Rplus_0_l. reflexivity.
Qed.

(* the residuals of any line, against those of the best one *)
Lemma residuals_expand pts a b : residuals pts a b =
  total (fun p => snd p * snd p) pts + INR (length pts) * (a * a) + b * b * total (fun p => fst p * fst p) pts
  - 2 * a * total snd pts - 2 * b * total (fun p => fst p * snd p) pts + 2 * a * b * total fst pts.
Proof.
  unfold residuals. induction pts as [|[x y] pts IH]; cbn [total length fst snd]; [cbn; ring|]. rewrite IH, S_INR. unfold Rsqr. ring.
Qed.
Lemma sxx_expand pts : pts <> [] -> total (fun p : R * R => fst p * fst p) pts = sxx pts + INR (length pts) * (mean fst pts * mean fst pts).
Proof.
  intros N. unfold sxx. set (m := mean fst pts).
  rewrite (total_ext (fun p => (fst p - m) * (fst p - m)) (fun p => fst p * fst p + ((- (2 * m)) * fst p + m * m))) by (intros; ring).
  rewrite total_plus, total_plus, total_scale, total_const.
  replace (total fst pts) with (INR (length pts) * m); [ring|].
  unfold m, mean. field. apply not_0_INR. destruct pts; [contradiction|discriminate].
Qed.
Lemma sxy_expand pts : pts <> [] -> total (fun p : R * R => fst p * snd p) pts = sxy pts + INR (length pts) * (mean fst pts * mean snd pts).
Proof.
  intros N. unfold sxy. set (m := mean fst pts). set (k := mean snd pts).
  rewrite (total_ext (fun p => (fst p - m) * (snd p - k)) (fun p => fst p * snd p + ((- k) * fst p + ((- m) * snd p + m * k)))) by (intros; ring).
  rewrite !total_plus, !total_scale, total_const.
  replace (total fst pts) with (INR (length pts) * m);
  [replace (total snd pts) with (INR (length pts) * k)|]; [ring| |]; unfold m, k, mean; field; apply not_0_INR; destruct pts; congruence || discriminate.
Qed.
Lemma residuals_best pts a b : pts <> [] -> sxx pts <> 0 ->
  let s := sxy pts / sxx pts in let o := mean snd pts - s * mean fst pts in
  residuals pts a b = residuals pts o s + sxx pts * ((b - s) * (b - s)) +
    INR (length pts) * ((a + b * mean fst pts - mean snd pts) * (a + b * mean fst pts - mean snd pts)).
Proof.
  intros N D s o. rewrite !residuals_expand, (sxx_expand pts N), (sxy_expand pts N).
  assert (I : INR (length pts) <> 0) by (apply not_0_INR; destruct pts; [contradiction|discriminate]).
  replace (total fst pts) with (INR (length pts) * mean fst pts) by (unfold mean; field; exact I).
  replace (total snd pts) with (INR (length pts) * mean snd pts) by (unfold mean; field; exact I).
  assert (Q : sxy pts = s * sxx pts) by (unfold s; field; exact D). rewrite Q. clearbody s. unfold o. ring.
Qed.

Lemma sxx_nonneg pts : 0 <= sxx pts.
Proof. apply total_nonneg. intros p _. apply Rle_0_sqr. Qed.
Lemma sxx_zero pts : sxx pts = 0 -> forall p q, In p pts -> In q pts -> fst p = fst q.
Proof.
  intros Z p q P Q. assert (X : forall r, In r pts -> fst r = mean fst pts).
  { intros r I. assert (Y := total_zero _ pts (fun a _ => Rle_0_sqr (fst a - mean fst pts)) Z r I). apply Rsqr_0_uniq in Y. lra. }
  rewrite (X p P), (X q Q). reflexivity.
Qed.
Lemma sxx_zero_conv pts : pts <> [] -> (forall p q, In p pts -> In q pts -> fst p = fst q) -> sxx pts = 0.
Proof.
  intros N E. destruct pts as [|p0 l]; [contradiction|]. set (pts := p0 :: l) in *.
  assert (M : mean fst pts = fst p0).
  { unfold mean. rewrite (total_ext fst (fun _ => fst p0)) by (intros a A; apply E; [exact A|left; reflexivity]).
    rewrite total_const. field. apply not_0_INR. discriminate. }
  unfold sxx. rewrite M. rewrite (total_ext _ (fun _ => 0)); [rewrite total_const; ring|].
  intros a A. rewrite (E a p0 A (or_introl eq_refl)). ring.
Qed.

Lemma combine_in_fst (xs : list R) : forall (ys : list R) x, length xs = length ys -> In x xs -> exists y, In (x, y) (combine xs ys).
Proof.
  induction xs as [|a xs IH]; intros [|b ys] x E I; try discriminate; [destruct I|].
  destruct I as [->|I]; [exists b; left; reflexivity|]. destruct (IH ys x) as [y Y]; [cbn in E; lia|exact I|].
  exists y. right. exact Y.
Qed.

(* the loop with fixed steps *)
Lemma step_fold mx my h ys : forall a x,
  fold_left (fun '(num, xval) y => (num + (xval - mx) * (y - my), xval + h)) ys (a, x) =
  (a + total (fun p => (fst p - mx) * (snd p - my)) (combine (grid x h (length ys)) ys), x + INR (length ys) * h).
Proof.
  induction ys as [|y ys IH]; intros a x; cbn [fold_left length]; [f_equal; cbn; ring|].
  rewrite IH. unfold grid. cbn [seq map combine total fst snd].
  rewrite <- seq_shift, map_map. f_equal.
  - rewrite (map_ext (fun i => x + INR (S i) * h) (fun i => x + h + INR i * h)) by (intros i; rewrite S_INR; ring).
    replace (INR 0) with 0 by reflexivity. replace (x + 0 * h) with x by ring. ring.
  - rewrite S_INR. ring.
Qed.
Lemma grid_length x h n : length (grid x h n) = n.
Proof. unfold grid. rewrite map_length, seq_length. reflexivity. Qed.
Lemma total_seq n : total INR (seq 0 n) = INR n * (INR n - 1) / 2.
Proof.
  induction n as [|n IH]; [cbn; field|]. rewrite seq_S, total_app, IH. cbn [total]. rewrite S_INR, Nat.add_0_l. field.
Qed.
Lemma total_seq2 n : total (fun i => INR i * INR i) (seq 0 n) = INR n * (INR n - 1) * (2 * INR n - 1) / 6.
Proof.
  induction n as [|n IH]; [cbn; field|]. rewrite seq_S, total_app, IH. cbn [total]. rewrite S_INR, Nat.add_0_l. field.
Qed.
Lemma grid_total x h n : total (fun a => a) (grid x h n) = INR n * x + h * (INR n * (INR n - 1) / 2).
Proof.
  unfold grid. rewrite total_map, total_plus, total_const, seq_length.
  rewrite (total_ext (fun a => INR a * h) (fun a => h * INR a)) by (intros; ring). rewrite total_scale, total_seq. ring.
Qed.
Lemma grid_total2 x h m n : total (fun a => (a - m) * (a - m)) (grid x h n) =
  INR n * ((x - m) * (x - m)) + 2 * (x - m) * h * (INR n * (INR n - 1) / 2) + h * h * (INR n * (INR n - 1) * (2 * INR n - 1) / 6).
Proof.
  unfold grid. rewrite total_map.
  rewrite (total_ext _ (fun a => (x - m) * (x - m) + (2 * (x - m) * h * INR a + h * h * (INR a * INR a)))) by (intros; ring).
  rewrite !total_plus, total_const, !total_scale, seq_length, total_seq, total_seq2. ring.
Qed.
Lemma total_combine_f (f : R -> R) xs : forall ys : list R, length xs = length ys -> total (fun p => f (fst p)) (combine xs ys) = total f xs.
Proof.
  induction xs as [|x xs IH]; intros [|y ys] E; try discriminate; cbn [combine total fst]; [reflexivity|].
  rewrite IH; [reflexivity|]. cbn in E. lia.
Qed.

Lemma step_is_general x h ys : (2 <= length ys)%nat -> h <> 0 ->
  linear_regression_step x h ys = linear_regression (grid x h (length ys)) ys.
Proof.
  intros N H. assert (NY : ys <> []) by (intros ->; cbn in N; lia).
  assert (LE : length (grid x h (length ys)) = length ys) by apply grid_length.
  assert (NG : grid x h (length ys) <> []) by (intros X; rewrite X in LE; cbn in LE; lia).
  rewrite (regression_value _ ys LE NG). unfold linear_regression_step. rewrite (average_ok ys NY). cbn [bind].
  set (n := length ys) in *. set (pts := combine (grid x h n) ys).
  assert (LP : length pts = n) by (unfold pts; rewrite combine_length, LE; unfold n; lia).
  assert (I : INR n <> 0) by (apply not_0_INR; lia).
  assert (I1 : INR (n - 1) = INR n - 1) by (rewrite minus_INR by lia; reflexivity).
  assert (M1 : mean fst pts = x + INR (n - 1) * h / 2).
  { unfold mean. unfold pts at 1. rewrite total_combine_fst, LP by exact LE. rewrite grid_total, I1. field. exact I. }
  assert (M2 : mean snd pts = mean (fun y => y) ys).
  { unfold mean. unfold pts at 1. rewrite total_combine_snd, LP by exact LE. reflexivity. }
  rewrite step_fold, <- M1, <- M2. fold n. fold pts. cbn zeta. rewrite Rplus_0_l.
  change (total (fun p => (fst p - mean fst pts) * (snd p - mean snd pts)) pts) with (sxy pts).
  rewrite rdiv_ok by lra. cbn [bind].
  replace (INR (n - 1) * h / 2 * (INR (n - 1) * h / 2 + h) * (2 * (INR (n - 1) * h / 2) + h) / (3 * h)) with (sxx pts); [reflexivity|].
  pose proof (total_combine_f (fun a => (a - mean fst pts) * (a - mean fst pts)) (grid x h n) ys LE) as T.
  unfold sxx. cbn beta in T. fold pts in T. rewrite T.
  rewrite grid_total2, M1, I1. field. exact H.
Qed.
Lemma grid_sxx x h ys : (2 <= length ys)%nat -> h <> 0 -> sxx (combine (grid x h (length ys)) ys) <> 0.
Proof.
  intros N H Z. assert (LE : length (grid x h (length ys)) = length ys) by apply grid_length.
  destruct ys as [|y0 [|y1 ys]]; cbn [length] in N; try lia.
  assert (E := sxx_zero _ Z (x + INR 0 * h, y0) (x + INR 1 * h, y1)). cbn [fst] in E. cbn [INR] in E.
  assert (x + 0 * h = x + 1 * h); [apply E|lra]; unfold grid; cbn; [left|right; left]; f_equal; ring.
Qed.
