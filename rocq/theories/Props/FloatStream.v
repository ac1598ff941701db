(* C102: floating point numbers in streams *)
From Coq Require Import String Reals Lra.
From Verif Require Import Model.Base Model.StdString Model.Strings Model.Number Model.CharStream Model.FloatText Model.Ieee Model.FloatStream
  Spec.Strings Spec.Decimal Spec.FloatText Spec.Ieee Spec.FloatStream Proofs.NumberProofs Proofs.ScanProofs Proofs.PropCastProofs Proofs.FloatScanProofs Proofs.FloatTextProofs Proofs.IeeeProofs Proofs.FloatStreamProofs.
Local Open Scope list_scope.
Local Open Scope R_scope.

(* A number is written as the closest one with as many digits as the precision
   of the stream, without zeros at the end, with an exponent if it is small or
   large. *)
Theorem C102_text : forall f p neg n, IEEE f -> Finite f n ->
  (n = 0%Z /\ put_real f p (FFin neg n) = minus neg ++ lit "0") \/
  (0 < n)%Z /\ exists d X s, put_real f p (FFin neg n) = minus neg ++ s /\ NearDecimal (Nat.max 1 p) (val f false n) d X /\ General (Nat.max 1 p) d X s.
Proof.
  intros f p neg n I F. pose proof (rep_nonneg f n (proj1 F)) as N0. destruct (Z.eq_dec n 0) as [->|NZ]; [left; split; reflexivity|right]. split; [lia|]. destruct (put_spec f (Nat.max 1 p) n I ltac:(lia) F ltac:(lia)) as (d & X & PK & G & _). exists d, X, (general (Nat.max 1 p) n (2 ^ fm_low f)). split; [reflexivity|]. split; [apply picks_near; [lia|exact PK]|exact G].
Qed.
(* These digits and this text are determined. *)
Theorem C102_text_unique : forall P r d X d' X', (1 <= P)%nat -> NearDecimal P r d X -> NearDecimal P r d' X' -> d = d' /\ X = X'.
Proof. intros P r d X d' X' P1 A B. apply (scaled10_inj P); [exact P1|apply A|apply B|apply (nd_fun P r); assumption]. Qed.
Lemma decimals_fun fp s s' : Decimals fp s -> Decimals fp s' -> s = s'.
Proof.
  assert (K : forall a c z, c <> "0"%char -> ~ Zeros (a ++ c :: z)) by (intros a c z N Z1; apply Forall_app in Z1 as [_ Z1]; inversion Z1; congruence).
  intros A B. inversion A as [z Z1|a c z N Z1]; inversion B as [z' Z2 E|a' c' z' N' Z2 E]; subst; [reflexivity|exfalso; eapply K; eassumption|exfalso; eapply K; eassumption|].
  assert (Q : rev z' ++ c' :: rev a' = rev z ++ c :: rev a) by (apply (f_equal (@rev ascii)) in E; rewrite !rev_app_distr in E; cbn [rev] in E; rewrite <- !app_assoc in E; exact E).
  assert (ZR : Zeros (rev z)) by (apply Forall_rev; exact Z1). assert (ZR' : Zeros (rev z')) by (apply Forall_rev; exact Z2). clear - Q ZR ZR' N N'. assert (X : c' :: rev a' = c :: rev a).
  { revert Q ZR'. generalize (rev z'). generalize (rev z), ZR. clear ZR. intros y. induction y as [|b y IH]; intros Y y' E Y'; destruct y' as [|b' y']; cbn [app] in E; [exact E|injection E as E _; inversion Y'; congruence|injection E as E _; inversion Y; congruence|]. injection E as _ E. inversion Y; inversion Y'; subst. apply (IH H2 y'); assumption. }
  injection X as -> X. apply (f_equal (@rev ascii)) in X. rewrite !rev_involutive in X. subst. reflexivity.
Qed.
Lemma digits_fun a : forall b, Forall IsDigit a -> Forall IsDigit b -> List.length a = List.length b -> digits_value a = digits_value b -> a = b.
Proof.
  induction a as [|x a IH]; intros [|y b] A B L V; cbn in L; try lia; [reflexivity|]. inversion A as [|? ? X A']; inversion B as [|? ? Y B']; subst. cbn [digits_value] in V. injection L as L. rewrite L in V. pose proof (digits_value_bound a A') as BA. pose proof (digits_value_bound b B') as BB. pose proof (digits_value_nonneg a A'). pose proof (digits_value_nonneg b B'). rewrite L in BA. unfold IsDigit in X, Y.
  set (q := (10 ^ Z.of_nat (List.length b))%Z) in *. assert (E : dval x = dval y) by nia. f_equal; [|apply IH; auto; nia]. unfold dval in E. rewrite <- (ascii_nat_embedding x), <- (ascii_nat_embedding y). f_equal. lia.
Qed.
Lemma exponent_text_fun X x x' : Exponent X x -> Exponent X x' -> x = x'.
Proof.
  intros A B. inversion A as [X1 a FA VA LA]; inversion B as [X2 b FB VB LB]; subst. f_equal. f_equal. apply digits_fun; try assumption; [|congruence].
  assert (K : forall ds, Forall IsDigit ds -> digits_value ds = Z.abs X -> List.length ds = 2%nat \/ (2 < List.length ds)%nat /\ nth 0 ds "0"%char <> "0"%char -> (Z.abs X < 10 ^ Z.of_nat (List.length ds))%Z /\ ((2 < List.length ds)%nat -> (10 ^ (Z.of_nat (List.length ds) - 1) <= Z.abs X)%Z) /\ (2 <= List.length ds)%nat).
  { intros ds F V L. rewrite <- V. split; [apply digits_value_bound, F|]. split; [|lia]. intros G. destruct L as [L|[_ N]]; [lia|]. destruct ds as [|c ds]; [cbn in G; lia|]. inversion F; subst. pose proof (digits_value_lower c ds H1 N H2). cbn [List.length]. replace (Z.of_nat (S (List.length ds)) - 1)%Z with (Z.of_nat (List.length ds)) by lia. exact H. }
  destruct (K a FA VA LA) as (A1 & A2 & A3). destruct (K b FB VB LB) as (B1 & B2 & B3). destruct (Nat.lt_trichotomy (List.length a) (List.length b)) as [Q|[Q|Q]]; [exfalso|exact Q|exfalso].
  - specialize (B2 ltac:(lia)). assert (10 ^ Z.of_nat (List.length a) <= 10 ^ (Z.of_nat (List.length b) - 1))%Z by (apply Z.pow_le_mono_r; lia). lia.
  - specialize (A2 ltac:(lia)). assert (10 ^ Z.of_nat (List.length b) <= 10 ^ (Z.of_nat (List.length a) - 1))%Z by (apply Z.pow_le_mono_r; lia). lia.
Qed.
Lemma zeros_fun a b : Zeros a -> Zeros b -> List.length a = List.length b -> a = b.
Proof. intros A. revert b. induction A as [|x a <- A IH]; intros [|y b] B L; cbn in L; try lia; [reflexivity|]. inversion B; subst. f_equal. apply IH; [assumption|lia]. Qed.
Theorem C102_shape_unique : forall P d X s s', General P d X s -> General P d X s' -> s = s'.
Proof.
  intros P d X s s' A B. inversion A as [ip fp t XB F L V LI D|ds z t XB F L V Z1 LZ D|c fp t x XB F L V D E]; inversion B as [ip' fp' t' XB' F' L' V' LI' D'|ds' z' t' XB' F' L' V' Z1' LZ' D'|c' fp' t' x' XB' F' L' V' D' E']; subst; try lia.
  - assert (Q : ip' ++ fp' = ip ++ fp) by (apply digits_fun; congruence). assert (LQ : List.length ip' = List.length ip) by lia. assert (Q2 : ip' = ip /\ fp' = fp).
    { clear - Q LQ. revert ip Q LQ. induction ip' as [|a ip' IH]; intros [|b ip] Q LQ; cbn in LQ; try lia; [auto|]. cbn in Q. injection Q as -> Q. destruct (IH ip Q ltac:(lia)) as [-> ->]. auto. }
    destruct Q2 as [-> ->]. f_equal. apply (decimals_fun fp); assumption.
  - assert (Q : ds' = ds) by (apply digits_fun; congruence). subst ds'. assert (Q : z' = z) by (apply zeros_fun; try assumption; lia). subst z'. f_equal. apply (decimals_fun (z ++ ds)); assumption.
  - assert (Q : c' :: fp' = c :: fp) by (apply digits_fun; congruence). injection Q as -> ->. f_equal. f_equal; [apply (decimals_fun fp); assumption|apply (exponent_text_fun X); assumption].
Qed.
Theorem C102_digits_unique : forall P d X d' X' s, (1 <= P)%nat -> digits P d -> digits P d' -> General P d X s -> General P d' X' s -> d = d' /\ X = X'.
Proof. exact general_unique. Qed.
(* The relative error of the text is at most half a unit of its last digit. *)
Theorem C102_error : forall f P n d X, (1 <= P)%nat -> IEEE f -> Finite f n -> (0 < n)%Z -> NearDecimal P (val f false n) d X ->
  Rabs (scaled10 P d X - val f false n) * IZR (2 * 10 ^ (Z.of_nat P - 1)) <= val f false n.
Proof.
  intros f P n d X P1 I F N ND. destruct (put_spec f P n I P1 F N) as (d0 & X0 & PK & _). destruct (near_picks P _ d0 X0 d X P1 PK ND) as [-> ->]. apply (picks_error P _ d0 X0 P1 PK).
Qed.
Theorem C102_names : forall f p neg, put_real f p FNan = lit "nan" /\ put_real f p (FInf neg) = minus neg ++ lit "inf".
Proof. auto. Qed.
Example C102_example : map (put_real float_fmt 6) [FFin false 0; FFin true 0; FFin false (2 ^ 149); FFin true (3 * 2 ^ 147); FFin false (16777215 * 2 ^ 149); FFin false (13421773 * 2 ^ 122); FFin false (13743895 * 2 ^ 112); FFin false (10995116 * 2 ^ 109); FFin false 1; FFin false ((2 ^ 24 - 1) * 2 ^ 253); FFin false (1999999 * 2 ^ 148)]
  = [lit "0"; lit "-0"; lit "1"; lit "-0.75"; lit "1.67772e+07"; lit "0.1"; lit "0.0001"; lit "1e-05"; lit "1.4013e-45"; lit "3.40282e+38"; lit "1e+06"] /\
  put_real float_fmt 9 (FFin false (13421773 * 2 ^ 122)) = lit "0.100000001" /\ put_real float_fmt 0 (FFin false (19 * 2 ^ 148)) = lit "1e+01".
Proof. vm_compute. repeat split; reflexivity. Qed.

(* Reading the text gives the value of the type closest to it. *)
Theorem C102_read : forall f under p neg n t, IEEE f -> Finite f n -> Apart t -> exists x' e,
  strtod f under (put_real f p (FFin neg n) ++ t) = Some (x', e, t) /\ Rewritten f (Nat.max 1 p) (FFin neg n) x' /\
  (e = true -> x' = FInf neg \/ (n < 2 ^ fm_prec f)%Z /\ exists a b, under a b = true) /\ (x' = FInf neg -> e = true).
Proof. exact put_read. Qed.
(* That value is determined, *)
Theorem C102_read_unique : forall f P x x' x'', IEEE f -> (1 <= P)%nat -> Rewritten f P x x' -> Rewritten f P x x'' -> x' = x''.
Proof.
  intros f P [|neg|neg n] x' x'' I P1; [contradiction|contradiction|]. pose proof (ieee_sane f I) as W. intros [[N ->]|(N & d & X & ND & C)] [[N' ->]|(N' & d' & X' & ND' & C')]; try lia; [reflexivity|]. destruct (C102_text_unique P _ d X d' X' P1 ND ND') as [<- <-].
  pose proof (scaled10_pos P d X P1 (proj1 ND)) as DP. pose proof (correct_same f _ _ _ W C C') as (q & Q & Q').
  destruct (correct_side f neg _ x' W DP C) as [-> | (a & -> & FA & NA)]; destruct (correct_side f neg _ x'' W DP C') as [-> | (b & -> & FB & NB)]; try reflexivity; cbn in Q, Q'; try (destruct neg; congruence).
  pose proof (near_fun f _ _ _ NA NB) as E. apply (val_eq f false a false b W) in E. cbn in E. congruence.
Qed.
(* it is the number itself if there are enough digits, *)
Theorem C102_exact : forall f p neg n x', IEEE f -> (2 ^ fm_prec f < 10 ^ (Z.of_nat (Nat.max 1 p) - 1))%Z -> Finite f n -> Rewritten f (Nat.max 1 p) (FFin neg n) x' -> x' = FFin neg n.
Proof. exact rewritten_exact. Qed.
(* 9 for float and 17 for double, *)
Theorem C102_exact_digits : forall p, ((9 <= p)%nat -> (2 ^ fm_prec float_fmt < 10 ^ (Z.of_nat (Nat.max 1 p) - 1))%Z) /\ ((17 <= p)%nat -> (2 ^ fm_prec double_fmt < 10 ^ (Z.of_nat (Nat.max 1 p) - 1))%Z).
Proof.
  intros p. split; intros H.
  - apply Z.lt_le_trans with (10 ^ 8)%Z; [reflexivity|apply Z.pow_le_mono_r; lia].
  - apply Z.lt_le_trans with (10 ^ 16)%Z; [reflexivity|apply Z.pow_le_mono_r; lia].
Qed.
(* and otherwise a number with the same text: writing and reading lose nothing
   the second time. *)
Theorem C102_stable : forall f p neg n x', IEEE f -> (10 ^ Z.of_nat (Nat.max 1 p) + 5 < 2 ^ (fm_prec f - 1))%Z -> Finite f n -> (n = 0 \/ 2 ^ (fm_prec f - 1) <= n)%Z ->
  Rewritten f (Nat.max 1 p) (FFin neg n) x' -> x' <> FInf neg -> put_real f p x' = put_real f p (FFin neg n).
Proof. intros f p neg n x' I PB F NB R NI. apply (rewritten_stable f p neg n x' I PB F NB NI R). Qed.
Theorem C102_stable_digits : forall p, ((p <= 6)%nat -> (10 ^ Z.of_nat (Nat.max 1 p) + 5 < 2 ^ (fm_prec float_fmt - 1))%Z) /\ ((p <= 15)%nat -> (10 ^ Z.of_nat (Nat.max 1 p) + 5 < 2 ^ (fm_prec double_fmt - 1))%Z).
Proof.
  intros p. split; intros H.
  - assert (10 ^ Z.of_nat (Nat.max 1 p) <= 10 ^ 6)%Z by (apply Z.pow_le_mono_r; lia). change (2 ^ (fm_prec float_fmt - 1))%Z with 8388608%Z. lia.
  - assert (10 ^ Z.of_nat (Nat.max 1 p) <= 10 ^ 15)%Z by (apply Z.pow_le_mono_r; lia). change (2 ^ (fm_prec double_fmt - 1))%Z with 4503599627370496%Z. lia.
Qed.
(* With the usual six digits no number is read as infinite. *)
Theorem C102_finite : forall f neg n x', IEEE f -> Finite f n -> Rewritten f 6 (FFin neg n) x' -> x' <> FInf neg /\ Valid f x'.
Proof.
  intros f neg n x' I F R. split; [apply (rewritten_finite f neg n x' I F R)|]. destruct R as [[_ ->]|(_ & d & X & _ & C)]; [exact F|apply (correct_valid f _ _ C)].
Qed.
(* The order is kept, by the text and by what is read. *)
Lemma rewritten_value f P neg n x' : (1 <= P)%nat -> Rewritten f P (FFin neg n) x' -> IEEE f -> Finite f n -> exists D, Correct f (sided neg D) x' /\ (n = 0%Z /\ D = 0 \/ 0 < D /\ (0 < n)%Z /\ exists d X, NearDecimal P (val f false n) d X /\ D = scaled10 P d X).
Proof.
  intros P1 [[-> ->]|(N & d & X & ND & C)] I F.
  - exists 0. split; [|left; auto]. pose proof (correct_fin f neg 0 (ieee_sane f I) F) as C. rewrite val_zero in C. replace (sided neg 0) with 0 by (destruct neg; cbn; ring). exact C.
  - exists (scaled10 P d X). split; [exact C|right]. split; [apply scaled10_pos; [exact P1|apply ND]|]. split; [exact N|]. exists d, X. auto.
Qed.
Theorem C102_order : forall f P x y x' y', IEEE f -> (1 <= P)%nat -> Valid f x -> Valid f y -> Rewritten f P x x' -> Rewritten f P y y' -> LessEq f x y -> LessEq f x' y'.
Proof.
  intros f P [|a|a n] [|b|b m] x' y' I P1 FX FY RX RY L; try contradiction. pose proof (ieee_sane f I) as W. cbn in FX, FY. pose proof (rep_nonneg f n (proj1 FX)) as N0. pose proof (rep_nonneg f m (proj1 FY)) as M0. destruct (rewritten_value f P a n x' P1 RX I FX) as (D & CD & KD). destruct (rewritten_value f P b m y' P1 RY I FY) as (E & CE & KE).
  apply (correct_mono f _ _ _ _ W CD CE). assert (V : val f a n <= val f b m) by (destruct L as [(p & q & -> & -> & H)|(p & -> & H)]; [cbn in H; lra|injection H as H; lra]).
  pose proof (unit_pos f W) as U. assert (VN : forall s k, (0 <= k)%Z -> val f s k = sided s (val f false k) /\ 0 <= val f false k /\ (val f false k = 0 -> k = 0%Z)).
  { intros s k K. unfold val, sided. apply IZR_le in K. split; [destruct s; ring|]. split; [apply Rmult_le_pos; lra|]. intros Z0. apply Rmult_integral in Z0 as [Z0|Z0]; [apply eq_IZR, Z0|lra]. }
  destruct (VN a n N0) as (-> & N1 & N2) in V. destruct (VN b m M0) as (VB & M1 & M2). destruct (VN a n N0) as (VA & _ & _). rewrite VB in V. clear VA VB.
  assert (MON : val f false n <= val f false m -> D <= E).
  { intros LE. destruct KD as [[-> ->]|(DP & NP & d & X & ND & ->)]; destruct KE as [[-> ->]|(EP & MP & d' & X' & ND' & ->)]; try lra.
    - rewrite (val_zero f false) in LE. assert (n = 0)%Z by (apply N2; lra). lia.
    - apply (nd_mono P _ _ _ _ _ _ ND ND' LE). }
  assert (MON' : val f false m <= val f false n -> E <= D).
  { intros LE. destruct KD as [[-> ->]|(DP & NP & d & X & ND & ->)]; destruct KE as [[-> ->]|(EP & MP & d' & X' & ND' & ->)]; try lra.
    - rewrite (val_zero f false) in LE. assert (m = 0)%Z by (apply M2; lra). lia.
    - apply (nd_mono P _ _ _ _ _ _ ND' ND LE). }
  assert (D0 : 0 <= D) by (destruct KD as [[_ ->]|[]]; lra). assert (E0 : 0 <= E) by (destruct KE as [[_ ->]|[]]; lra). destruct a, b; cbn [sided] in *; try lra; try (specialize (MON' ltac:(lra)); lra).
  - assert (val f false n = 0) by lra. assert (val f false m = 0) by lra. specialize (MON ltac:(lra)). specialize (MON' ltac:(lra)). pose proof (N2 H) as ->. pose proof (M2 H0) as ->. destruct KD as [[_ ->]|(? & ? & _)]; [|lia]. destruct KE as [[_ ->]|(? & ? & _)]; [|lia]. lra.
Qed.

(* std::istream reads the number behind whitespace and stops behind it; it fails
   only out of range. *)
Theorem C102_get : forall f under bad p neg n w t old, IEEE f -> Finite f n -> Forall White w -> Apart t -> exists (x' : fnum) (e : bool),
  is_get f under bad (mkIs false (w ++ put_real f p (FFin neg n) ++ t)) old = (if e then bad x' else x', mkIs e t) /\ Rewritten f (Nat.max 1 p) (FFin neg n) x' /\
  (e = true -> x' = FInf neg \/ (n < 2 ^ fm_prec f)%Z /\ exists a b, under a b = true) /\ (x' = FInf neg -> e = true).
Proof. exact get_put. Qed.
(* zero, or not close to the numbers that lose digits *)
Definition Regular (f : fmt) (under : Z -> Z -> bool) (x : fnum) : Prop :=
  match x with FFin _ n => Finite f n /\ (n = 0 \/ 2 ^ fm_prec f <= n \/ 2 ^ (fm_prec f - 1) <= n /\ forall a b, under a b = false)%Z | _ => False end.
Lemma regular_get f under bad p x w t old : IEEE f -> Regular f under x -> Forall White w -> Apart t -> Nat.max 1 p = 6%nat \/ (2 ^ fm_prec f < 10 ^ (Z.of_nat (Nat.max 1 p) - 1))%Z ->
  exists x', is_get f under bad (mkIs false (w ++ put_real f p x ++ t)) old = (x', mkIs false t) /\ Rewritten f (Nat.max 1 p) x x'.
Proof.
  intros I R W A PB. destruct x as [|neg|neg n]; try contradiction. destruct R as [F NB]. destruct (get_put f under bad p neg n w t old I F W A) as (x' & e & G & RW & E1 & E2). exists x'. split; [|exact RW]. destruct e; [exfalso|exact G]. destruct (E1 eq_refl) as [Q|[Q (a & b & U)]].
  - destruct PB as [PB|PB]; [rewrite PB in RW; apply (rewritten_finite f neg n x' I F RW Q)|rewrite (rewritten_exact f p neg n x' I PB F RW) in Q; discriminate].
  - destruct NB as [->|[NB|[_ NB]]]; [|lia|rewrite NB in U; discriminate]. destruct RW as [[_ ->]|[? _]]; [|lia]. cbn [put_real] in G. pose proof (zero_read f under neg [] I Logic.I) as ZR.
    destruct (put_read f under p neg 0 [] I F Logic.I) as (x2 & e2 & R2 & _). clear - G ZR I W A. 
    assert (T : is_get f under bad (mkIs false (w ++ (minus neg ++ general (Nat.max 1 p) 0 (2 ^ fm_low f)) ++ t)) old = (FFin neg 0, mkIs false t)); [|rewrite T in G; discriminate].
    clear G. change (general (Nat.max 1 p) 0 (2 ^ fm_low f)) with (lit "0"). unfold is_get. cbn [is_fail is_rest]. rewrite skip_ws_app by exact W. rewrite app_nil_r in ZR.
    assert (SK : skip_ws ((minus neg ++ lit "0") ++ t) = (minus neg ++ lit "0") ++ t) by (destruct neg; reflexivity). rewrite SK.
    assert (TK : take is_atom ((minus neg ++ lit "0") ++ t) = (minus neg ++ lit "0", t)).
    { rewrite take_app by (destruct neg; repeat constructor). destruct t as [|b t]; [cbn [take fst snd]; rewrite app_nil_r; reflexivity|]. rewrite (take_stop _ b t (white_atom b A)). cbn [fst snd]. rewrite app_nil_r. reflexivity. }
    destruct neg; cbn [minus lit String.list_ascii_of_string app] in *; rewrite TK, ZR; reflexivity.
Qed.
(* A vec3 is written as three numbers and read back, with no more loss the next
   time, *)
Lemma get_vec3_put f under bad p x y z t ox oy oz : IEEE f -> Forall (Regular f under) [x; y; z] -> Apart t -> Nat.max 1 p = 6%nat \/ (2 ^ fm_prec f < 10 ^ (Z.of_nat (Nat.max 1 p) - 1))%Z -> exists x' y' z',
  get_vec3 f under bad (mkIs false (put_vec3 f p (x, y, z) ++ t)) (ox, oy, oz) = ((x', y', z'), mkIs false t) /\ Rewritten f (Nat.max 1 p) x x' /\ Rewritten f (Nat.max 1 p) y y' /\ Rewritten f (Nat.max 1 p) z z'.
Proof.
  intros I F A PB. inversion F as [|? ? RX F1]; subst. inversion F1 as [|? ? RY F2]; subst. inversion F2 as [|? ? RZ _]; subst. cbn [put_vec3]. unfold get_vec3. assert (SP : forall u, Apart (" "%char :: u)) by (intros u; left; reflexivity). assert (SW : Forall White [" "%char]) by (constructor; [left; reflexivity|constructor]).
  repeat (rewrite <- app_assoc; cbn [app]). destruct (regular_get f under bad p x [] (" "%char :: put_real f p y ++ " "%char :: put_real f p z ++ t) ox I RX (Forall_nil _) (SP _) PB) as (x' & GX & WX).
  destruct (regular_get f under bad p y [" "%char] (" "%char :: put_real f p z ++ t) oy I RY SW (SP _) PB) as (y' & GY & WY). destruct (regular_get f under bad p z [" "%char] t oz I RZ SW A PB) as (z' & GZ & WZ). cbn [app] in GX, GY, GZ.
  exists x', y', z'. rewrite GX, GY, GZ. auto.
Qed.
Theorem C102_vec3 : forall f under bad x y z, IEEE f -> Forall (Regular f under) [x; y; z] -> exists x' y' z',
  vec3_from_string f under bad (vec3_to_string f (x, y, z)) = (x', y', z') /\ Rewritten f 6 x x' /\ Rewritten f 6 y y' /\ Rewritten f 6 z z' /\ vec3_to_string f (x', y', z') = vec3_to_string f (x, y, z).
Proof.
  intros f under bad x y z I F. destruct (get_vec3_put f under bad 6 x y z [] (FFin false 0) (FFin false 0) (FFin false 0) I F Logic.I (or_introl eq_refl)) as (x' & y' & z' & G & WX & WY & WZ). exists x', y', z'. unfold vec3_from_string, vec3_to_string. rewrite app_nil_r in G. rewrite G. split; [reflexivity|]. split; [exact WX|]. split; [exact WY|]. split; [exact WZ|].
  assert (PB : (10 ^ Z.of_nat (Nat.max 1 6) + 5 < 2 ^ (fm_prec f - 1))%Z) by (destruct I as [->| ->]; reflexivity).
  assert (K : forall a a', Regular f under a -> Rewritten f 6 a a' -> put_real f 6 a' = put_real f 6 a).
  { intros [|s|s n] a' R W; try contradiction. destruct R as [FN NB]. assert (2 ^ (fm_prec f - 1) <= 2 ^ fm_prec f)%Z by (apply Z.pow_le_mono_r; lia). apply (C102_stable f 6 s n a' I PB FN); [lia|exact W|]. apply (rewritten_finite f s n a' I FN W). }
  inversion F as [|? ? RX F1]; subst. inversion F1 as [|? ? RY F2]; subst. inversion F2 as [|? ? RZ _]; subst. cbn [put_vec3]. rewrite (K x x' RX WX), (K y y' RY WY), (K z z' RZ WZ). reflexivity.
Qed.
(* and without loss if the stream has enough digits. *)
Theorem C102_vec3_exact : forall f under bad p x y z t old, IEEE f -> Forall (Regular f under) [x; y; z] -> Apart t -> (2 ^ fm_prec f < 10 ^ (Z.of_nat (Nat.max 1 p) - 1))%Z ->
  get_vec3 f under bad (mkIs false (put_vec3 f p (x, y, z) ++ t)) old = ((x, y, z), mkIs false t).
Proof.
  intros f under bad p x y z t [[ox oy] oz] I F A PB. destruct (get_vec3_put f under bad p x y z t ox oy oz I F A (or_intror PB)) as (x' & y' & z' & G & WX & WY & WZ). assert (K : forall a a', Regular f under a -> Rewritten f (Nat.max 1 p) a a' -> a' = a) by (intros [|s|s n] a' R W; try contradiction; apply (rewritten_exact f p s n a' I PB (proj1 R) W)).
  inversion F as [|? ? RX F1]; subst. inversion F1 as [|? ? RY F2]; subst. inversion F2 as [|? ? RZ _]; subst. rewrite G, (K x x' RX WX), (K y y' RY WY), (K z z' RZ WZ). reflexivity.
Qed.
(* A quaternion is written as w, x, y and z, in that order, and can be read back
   as a number and a vec3. *)
Theorem C102_quat : forall f under bad p w x y z t ow old, IEEE f -> Forall (Regular f under) [w; x; y; z] -> Apart t -> Nat.max 1 p = 6%nat \/ (2 ^ fm_prec f < 10 ^ (Z.of_nat (Nat.max 1 p) - 1))%Z -> exists w' x' y' z' st,
  is_get f under bad (mkIs false (put_quat f p w x y z ++ t)) ow = (w', st) /\ get_vec3 f under bad st old = ((x', y', z'), mkIs false t) /\
  Rewritten f (Nat.max 1 p) w w' /\ Rewritten f (Nat.max 1 p) x x' /\ Rewritten f (Nat.max 1 p) y y' /\ Rewritten f (Nat.max 1 p) z z'.
Proof.
  intros f under bad p w x y z t ow [[ox oy] oz] I F A PB. inversion F as [|? ? RW F1]; subst. unfold put_quat. rewrite <- app_assoc. cbn [app]. destruct (regular_get f under bad p w [] (" "%char :: put_vec3 f p (x, y, z) ++ t) ow I RW (Forall_nil _) (or_introl eq_refl) PB) as (w' & GW & WW). cbn [app] in GW.
  destruct (get_vec3_put f under bad p x y z t ox oy oz I F1 A PB) as (x' & y' & z' & G & WX & WY & WZ). exists w', x', y', z', (mkIs false (" "%char :: put_vec3 f p (x, y, z) ++ t)). split; [exact GW|]. split; [exact G|]. auto.
Qed.
(* Nothing is read from a stream that has failed, *)
Theorem C102_failed : forall f under bad st old, is_fail st = true -> (forall a, is_get f under bad st a = (a, st)) /\ get_vec3 f under bad st old = (old, st).
Proof. intros f under bad [[] r] [[x y] z] E; [|discriminate]. split; reflexivity. Qed.
(* and reading at the end fails. *)
Theorem C102_end : forall f under bad w old a, Forall White w -> is_get f under bad (mkIs false w) a = (a, mkIs true []) /\ get_vec3 f under bad (mkIs false w) old = (old, mkIs true []).
Proof.
  intros f under bad w [[x y] z] a W. assert (G : forall v, is_get f under bad (mkIs false w) v = (v, mkIs true [])) by (intros v; unfold is_get; cbn [is_fail is_rest]; pose proof (skip_ws_app w [] W) as E; rewrite app_nil_r in E; rewrite E; reflexivity). split; [apply G|]. unfold get_vec3. rewrite G. reflexivity.
Qed.
(* A char_stream reads what a std::ostream wrote, bounds for example, without
   regard to the range. *)
Theorem C102_char_stream : forall f under p neg n st t, IEEE f -> Finite f n -> Apart t -> cs_rest st = put_real f p (FFin neg n) ++ t -> exists x',
  read_real f under st = (x', skip_delimiters (with_rest st t)) /\ Rewritten f (Nat.max 1 p) (FFin neg n) x'.
Proof.
  intros f under p neg n st t I F A E. destruct (put_read f under p neg n t I F A) as (x' & e & R & W & _). exists x'. split; [|exact W]. unfold read_real. rewrite E, R. rewrite (process_split st _ _ E (proj2 (put_chars f p neg n I F))). reflexivity.
Qed.
Lemma atom_start c : is_atom c = true -> c <> NUL /\ ~ In c default_delimiters.
Proof.
  intros A. split; [intros ->; discriminate|]. intros Q. apply (atom_black c A). unfold White. cbn in Q. decompose [or] Q; subst; try contradiction; try (left; reflexivity); right; cbn; lia.
Qed.
Theorem C102_bounds : forall f under p a n b m, IEEE f -> Finite f n -> Finite f m -> exists x y st st',
  read_real f under (cs_of_cstr (put_bounds f p (FFin a n) (FFin b m)) default_delimiters) = (x, st) /\ read_real f under st = (y, st') /\ cs_rest st' = [] /\
  Rewritten f (Nat.max 1 p) (FFin a n) x /\ Rewritten f (Nat.max 1 p) (FFin b m) y.
Proof.
  intros f under p a n b m I FN FM. destruct (put_chars f p a n I FN) as [CA NA]. destruct (put_chars f p b m I FM) as [CB NB]. unfold put_bounds. set (sa := put_real f p (FFin a n)) in *. set (sb := put_real f p (FFin b m)) in *.
  assert (HD : forall s t c r, Forall (fun c => is_atom c = true) s -> s <> [] -> s ++ t = c :: r -> c <> NUL /\ ~ In c default_delimiters) by (intros [|d s] t c r F N E; [congruence|]; injection E as <- _; inversion F; apply atom_start; assumption).
  assert (CS : cstr (sa ++ " "%char :: sb) = sa ++ " "%char :: sb) by (apply cstr_id; apply Forall_app; split; [eapply Forall_impl; [|exact CA]; intros c C; apply (atom_start c C)|constructor; [discriminate|]; eapply Forall_impl; [|exact CB]; intros c C; apply (atom_start c C)]).
  unfold cs_of_cstr. rewrite CS. set (st0 := skip_delimiters _). assert (S0 : cs_rest st0 = sa ++ " "%char :: sb /\ cs_delim st0 = default_delimiters).
  { subst st0. unfold skip_delimiters, test_eof, with_rest. cbn [cs_rest cs_delim]. pose proof (drop_delims_app default_delimiters [] (sa ++ " "%char :: sb) (Forall_nil _) (fun c r E => HD sa _ c r CA NA E)) as DD. cbn [app] in DD. rewrite DD. destruct (sa ++ " "%char :: sb); split; reflexivity. }
  destruct S0 as [R0 D0]. destruct (C102_char_stream f under p a n st0 (" "%char :: sb) I FN (or_introl eq_refl) R0) as (x & E1 & W1). set (st1 := skip_delimiters (with_rest st0 (" "%char :: sb))) in *.
  assert (R1 : cs_rest st1 = sb ++ []).
  { rewrite app_nil_r. subst st1. unfold skip_delimiters, test_eof, with_rest. cbn [cs_rest cs_delim]. rewrite D0. assert (DD : drop_delims default_delimiters ([" "%char] ++ sb) = sb) by (apply drop_delims_app; [constructor; [left; reflexivity|constructor]|intros c r E; apply (HD sb [] c r CB NB); rewrite app_nil_r; exact E]). cbn [app] in DD. rewrite DD. destruct sb; reflexivity. }
  destruct (C102_char_stream f under p b m st1 [] I FM Logic.I R1) as (y & E2 & W2). exists x, y, st1, (skip_delimiters (with_rest st1 [])). repeat split; auto.
Qed.
Example C102_nonvacuous : vec3_from_string float_fmt (fun _ _ => true) (fun x => x) (lit "  1 -0.75 1.67772e+07") = (FFin false (2 ^ 149), FFin true (3 * 2 ^ 147), FFin false (16777200 * 2 ^ 149)) /\
  vec3_to_string float_fmt (FFin false (2 ^ 149), FFin true (3 * 2 ^ 147), FFin false (16777215 * 2 ^ 149)) = lit "1 -0.75 1.67772e+07" /\
  get_vec3 float_fmt (fun _ _ => true) (fun x => x) (mkIs false (lit "16777215 1.40129846e-45 0.100000001 x")) (FNan, FNan, FNan) = ((FFin false (16777215 * 2 ^ 149), FFin false 1, FNan), mkIs true (lit " 0.100000001 x")) /\
  put_quat float_fmt 6 (FFin false (2 ^ 149)) (FFin false 0) (FFin true 0) (FFin false (2 ^ 148)) = lit "1 0 -0 0.5".
Proof. vm_compute. repeat split; reflexivity. Qed.

(* C102: infinities and nan are written but not read by std::istream *)
Theorem C102_infinite_refuted : forall f under bad p neg t old y z, 
  (is_get f under bad (mkIs false (put_real f p (FInf neg) ++ t)) old = (FFin false 0, mkIs true (lit "inf" ++ t)) /\
   is_get f under bad (mkIs false (put_real f p FNan ++ t)) old = (FFin false 0, mkIs true (lit "nan" ++ t))) /\
  vec3_from_string f under bad (vec3_to_string f (FInf neg, y, z)) = (FFin false 0, FFin false 0, FFin false 0).
Proof.
  intros f under bad p neg t old y z.
  assert (K : forall q u o, is_get f under bad (mkIs false (put_real f q (FInf neg) ++ u)) o = (FFin false 0, mkIs true (lit "inf" ++ u))) by (intros q u o; destruct neg; reflexivity).
  split; [split; [apply K|reflexivity]|]. unfold vec3_from_string, vec3_to_string, get_vec3. cbn [put_vec3]. rewrite K. reflexivity.
Qed.
(* C102: six digits are not enough to tell numbers apart *)
Theorem C102_lossy_refuted : exists x y, Valid float_fmt x /\ Valid float_fmt y /\ x <> y /\ put_real float_fmt 6 x = put_real float_fmt 6 y.
Proof.
  exists (FFin false (2 ^ 149)), (FFin false (2 ^ 149 + 2 ^ 126)). split; [|split; [|split; [discriminate|vm_compute; reflexivity]]]; (split; [|reflexivity]).
  - exists 1%Z, 149%Z. repeat split; lia.
  - exists 8388609%Z, 126%Z. repeat split; lia.
Qed.
(* C102: numbers that lose digits may change their text again *)
Theorem C102_stable_refuted : exists n n', Finite float_fmt n /\ Rewritten float_fmt 5 (FFin false n) (FFin false n') /\ put_real float_fmt 5 (FFin false n) = lit "1e-40" /\ put_real float_fmt 5 (FFin false n') = lit "9.9999e-41".
Proof.
  exists 71363%Z, 71362%Z. assert (F : Finite float_fmt 71363) by (split; [exists 71363%Z, 0%Z; repeat split; reflexivity || lia|reflexivity]). split; [exact F|]. split; [|vm_compute; split; reflexivity].
  destruct (put_read float_fmt (fun _ _ => false) 5 false 71363 [] (or_intror eq_refl) F Logic.I) as (x' & e & R & W & _). assert (Q : strtod float_fmt (fun _ _ => false) (put_real float_fmt 5 (FFin false 71363) ++ []) = Some (FFin false 71362, false, [])) by (vm_compute; reflexivity). rewrite Q in R. injection R as <- _. exact W.
Qed.
(* C102: fewer digits may round the largest numbers up out of range, *)
Theorem C102_overflow_refuted : forall under, put_real float_fmt 4 (FFin false ((2 ^ 24 - 1) * 2 ^ 253)) = lit "3.403e+38" /\ stod float_fmt under (lit "3.403e+38") = Throw.
Proof. intros under. split; [vm_compute; reflexivity|]. unfold stod. assert (E : strtod float_fmt under (cstr (lit "3.403e+38")) = Some (FInf false, true, [])); [|rewrite E; reflexivity]. vm_compute. reflexivity. Qed.
(* C102: and the smallest normal number down *)
Theorem C102_underflow_refuted : put_real float_fmt 6 (FFin false (2 ^ 23)) = lit "1.17549e-38" /\ stod float_fmt (fun _ _ => true) (lit "1.17549e-38") = Throw /\ exists x, stod float_fmt (fun _ _ => false) (lit "1.17549e-38") = Ok x.
Proof. split; [vm_compute; reflexivity|]. split; [vm_compute; reflexivity|]. eexists. vm_compute. reflexivity. Qed.
