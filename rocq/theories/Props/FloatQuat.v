(* C104: quaternions, transforms and vec4 on float and double *)
From Coq Require Import Reals ZArith List Bool Lia Lra.
From Verif Require Import Model.Base Model.Vec3 Model.FloatText Model.Math Model.Ieee Model.FloatMath Model.FloatVec Model.FloatQuat Spec.FloatText Spec.Ieee Spec.Rounding Spec.FloatQuat.
From Verif Require Proofs.FloatContainersProofs.
From Verif Require Import Proofs.FloatTextProofs Proofs.IeeeProofs Proofs.IeeeErrorProofs Proofs.IeeeSqrtProofs Proofs.FloatOpsProofs Props.FloatEquals Props.FloatWrap Props.FloatAverage Props.FloatSqrt Props.FloatInterp Props.FloatPoly Props.FloatVec Proofs.RoundingProofs.
Local Open Scope R_scope.

(* the parts of a quaternion, and the real quaternion it stands for *)
Definition Each4 (P : fnum -> Prop) (q : f_quat) : Prop := P (fq_w q) /\ P (fq_x q) /\ P (fq_y q) /\ P (fq_z q).
Definition real_q (f : fmt) (q : f_quat) : quat := Q4 (number f (fq_w q)) (number f (fq_x q)) (number f (fq_y q)) (number f (fq_z q)).
Definition real_v (f : fmt) (v : f_vec) : vec3 := V3 (number f (fv_x v)) (number f (fv_y v)) (number f (fv_z v)).
Definition len (q : quat) : R := sqrt (size2 q).

(* n roundings *)
Lemma grow_R u k : 0 <= u -> (1 + u) ^ k * (1 - INR k * u) <= 1.
Proof.
  intros U. induction k as [|k IH]; [cbn; lra|]. rewrite S_INR. cbn [pow]. assert (P : 0 <= (1 + u) ^ k) by (apply pow_le; lra). pose proof (pos_INR k) as K. assert (0 <= (1 + u) ^ k * (INR k * (u * u) + u * u)) by (apply Rmult_le_pos; [exact P|]; assert (0 <= u * u) by nra; nra). nra.
Qed.
Lemma grow_linear u k : 0 < u -> INR k * (INR k + 1) * u <= 1 -> (1 + u) ^ k <= 1 + (INR k + 1) * u.
Proof.
  intros U H. pose proof (grow_R u k (Rlt_le _ _ U)) as G. pose proof (pos_INR k) as K. assert (D : 0 < 1 - INR k * u) by nra. apply (Rmult_le_reg_r (1 - INR k * u)); [exact D|]. apply Rle_trans with (1 := G). nra.
Qed.
Ltac growth k H := let G := fresh in match goal with U : 0 < ?u <= / 1000 |- _ => assert (G := grow_linear u k (proj1 U)); cbn [INR] in G; assert (H := G ltac:(lra)); clear G end.

(* the product *)
Definition sum4_expr (a b c d e g h i : fnum) : expr := Sub (Add (Add (Mul (Lit a) (Lit b)) (Mul (Lit c) (Lit d))) (Mul (Lit e) (Lit g))) (Mul (Lit h) (Lit i)).
Definition diff4_expr (a b c d e g h i : fnum) : expr := Sub (Sub (Sub (Mul (Lit a) (Lit b)) (Mul (Lit c) (Lit d))) (Mul (Lit e) (Lit g))) (Mul (Lit h) (Lit i)).
Lemma lost4 f : IEEE f -> let u := / IZR (2 ^ fm_prec f) in let h := unit_of f / 2 in
  (1 + u) * ((1 + u) * ((1 + u) * (h + h) + h) + h) <= 3 * unit_of f.
Proof.
  intros I u h. destruct (prec_small f I) as (UB & _ & _). fold u in UB. pose proof (unit_pos f (ieee_sane f I)) as U. replace (3 * unit_of f) with (6 * h) by (unfold h; field). assert (H : 0 < h) by (unfold h; lra). assert ((1 + u) * (h + h) <= 21 / 10 * h) by nra. assert ((1 + u) * ((1 + u) * (h + h) + h) <= 33 / 10 * h) by nra. nra.
Qed.
Lemma lost_sum4 f a b c d e g h i : IEEE f -> lost f (sum4_expr a b c d e g h i) <= 3 * unit_of f /\ lost f (diff4_expr a b c d e g h i) <= 3 * unit_of f.
Proof.
  intros I. pose proof (lost4 f I) as L. cbv zeta in L. unfold sum4_expr, diff4_expr. cbn [lost roundings extent pow]. set (u := / IZR (2 ^ fm_prec f)) in *.
  assert (M : forall p q, (1 + u) * (1 * p * 0 + 1 * q * 0 + 0 * 0) + unit_of f / 2 = unit_of f / 2) by (intros; ring). rewrite !M. split; exact L.
Qed.
Lemma cauchy4 a b c d e g h i : Rabs (a * b) + Rabs (c * d) + Rabs (e * g) + Rabs (h * i) <= sqrt (a * a + c * c + e * e + h * h) * sqrt (b * b + d * d + g * g + i * i).
Proof.
  rewrite !Rabs_mult. assert (SQ : forall x, x * x = Rabs x * Rabs x) by (intros x; rewrite <- Rabs_mult, Rabs_right by nra; reflexivity). rewrite (SQ a), (SQ b), (SQ c), (SQ d), (SQ e), (SQ g), (SQ h), (SQ i). pose proof (Rabs_pos a) as A. pose proof (Rabs_pos b) as B. pose proof (Rabs_pos c) as C. pose proof (Rabs_pos d) as D. pose proof (Rabs_pos e) as E. pose proof (Rabs_pos g) as G. pose proof (Rabs_pos h) as H. pose proof (Rabs_pos i) as J.
  generalize dependent (Rabs i). generalize dependent (Rabs h). generalize dependent (Rabs g). generalize dependent (Rabs e). generalize dependent (Rabs d). generalize dependent (Rabs c). generalize dependent (Rabs b). generalize dependent (Rabs a). clear. intros a A b B c C d D e E g G h H i J.
  rewrite <- sqrt_mult by nra. rewrite <- (sqrt_square (a * b + c * d + e * g + h * i)) by nra. apply sqrt_le_1_alt.
  assert (T : (a * a + c * c + e * e + h * h) * (b * b + d * d + g * g + i * i) - (a * b + c * d + e * g + h * i) * (a * b + c * d + e * g + h * i) = (a * d - c * b) * (a * d - c * b) + (a * g - e * b) * (a * g - e * b) + (a * i - h * b) * (a * i - h * b) + (c * g - e * d) * (c * g - e * d) + (c * i - h * d) * (c * i - h * d) + (e * i - h * g) * (e * i - h * g)) by ring.
  pose proof (Rle_0_sqr (a * d - c * b)) as P1. pose proof (Rle_0_sqr (a * g - e * b)) as P2. pose proof (Rle_0_sqr (a * i - h * b)) as P3. pose proof (Rle_0_sqr (c * g - e * d)) as P4. pose proof (Rle_0_sqr (c * i - h * d)) as P5. pose proof (Rle_0_sqr (e * i - h * g)) as P6. unfold Rsqr in *. lra.
Qed.
Lemma size2_eq f q : size2 (real_q f q) = number f (fq_w q) * number f (fq_w q) + number f (fq_x q) * number f (fq_x q) + number f (fq_y q) * number f (fq_y q) + number f (fq_z q) * number f (fq_z q).
Proof. unfold size2, dot, vector_part, real_q. cbn. ring. Qed.
(* a sum of four products *)
Lemma term4 f (s : bool) a b c d e g h i L : IEEE f -> Valid f a -> Valid f b -> Valid f c -> Valid f d -> Valid f e -> Valid f g -> Valid f h -> Valid f i ->
  Rabs (number f a * number f b) + Rabs (number f c * number f d) + Rabs (number f e * number f g) + Rabs (number f h * number f i) <= L ->
  let x := if s then f_sum4 f a b c d e g h i else f_diff4 f a b c d e g h i in let sg r := if s then r else - r in
  Fin f x -> Rabs (number f x - (number f a * number f b + sg (number f c * number f d) + sg (number f e * number f g) - number f h * number f i)) <= 5 / IZR (2 ^ fm_prec f) * L + 3 * unit_of f.
Proof.
  intros I A B C D E G H J LE x sg F. destruct (prec_small f I) as (UB & _ & _). destruct (lost_sum4 f a b c d e g h i I) as [L1 L2]. growth 4%nat G4. rewrite !Rabs_mult in LE.
  pose (ex := if s then sum4_expr a b c d e g h i else diff4_expr a b c d e g h i). assert (CX : computed f ex = x) by (unfold ex, x; destruct s; reflexivity). assert (OV : Over (Valid f) ex) by (unfold ex; destruct s; cbn; tauto). rewrite <- CX in F. pose proof (computed_error f ex I OV F) as Z. rewrite CX in Z. fold (ulp f) in *.
  assert (RX : roundings ex = 4%nat) by (unfold ex; destruct s; reflexivity). assert (LX : lost f ex <= 3 * unit_of f) by (unfold ex; destruct s; assumption). assert (EE : extent f ex <= L) by (unfold ex; destruct s; exact LE). pose proof (extent_nonneg f ex) as EP. rewrite RX in Z.
  assert (XX : exact f ex = number f a * number f b + sg (number f c * number f d) + sg (number f e * number f g) - number f h * number f i) by (unfold ex, sg; destruct s; reflexivity). rewrite XX in Z. apply Rle_trans with (1 := Z). apply Rplus_le_compat; [|exact LX]. replace (5 / IZR (2 ^ fm_prec f)) with (5 * ulp f) by (unfold ulp, Rdiv; ring). apply Rmult_le_compat; [pose proof (grow_pos f 4 I); lra|exact EP|lra|exact EE].
Qed.
Theorem C104_product : forall f a b, IEEE f -> Each4 (Valid f) a -> Each4 (Valid f) b ->
  let c := fq_mul f a b in let e := hamilton (real_q f a) (real_q f b) in
  let near x r := Fin f x -> Rabs (number f x - r) <= 5 / IZR (2 ^ fm_prec f) * (len (real_q f a) * len (real_q f b)) + 3 * unit_of f in
  near (fq_w c) (qw e) /\ near (fq_x c) (qx e) /\ near (fq_y c) (qy e) /\ near (fq_z c) (qz e).
Proof.
  intros f a b I (AW & AX & AY & AZ) (BW & BX & BY & BZ) c e near. unfold near, len. rewrite !size2_eq.
  assert (PW : qw e = number f (fq_w a) * number f (fq_w b) + - (number f (fq_x a) * number f (fq_x b)) + - (number f (fq_y a) * number f (fq_y b)) - number f (fq_z a) * number f (fq_z b)) by (unfold e, hamilton, dot; cbn; ring).
  assert (PX : qx e = number f (fq_w a) * number f (fq_x b) + number f (fq_x a) * number f (fq_w b) + number f (fq_y a) * number f (fq_z b) - number f (fq_z a) * number f (fq_y b)) by (unfold e, hamilton; cbn; ring).
  assert (PY : qy e = number f (fq_w a) * number f (fq_y b) + number f (fq_y a) * number f (fq_w b) + number f (fq_z a) * number f (fq_x b) - number f (fq_x a) * number f (fq_z b)) by (unfold e, hamilton; cbn; ring).
  assert (PZ : qz e = number f (fq_w a) * number f (fq_z b) + number f (fq_z a) * number f (fq_w b) + number f (fq_x a) * number f (fq_y b) - number f (fq_y a) * number f (fq_x b)) by (unfold e, hamilton; cbn; ring).
  rewrite PW, PX, PY, PZ. repeat split; intros F.
  - apply (term4 f false); try assumption. apply cauchy4.
  - apply (term4 f true); try assumption. eapply Rle_trans; [apply cauchy4|]. right. f_equal; f_equal; ring.
  - apply (term4 f true); try assumption. eapply Rle_trans; [apply cauchy4|]. right. f_equal; f_equal; ring.
  - apply (term4 f true); try assumption. eapply Rle_trans; [apply cauchy4|]. right. f_equal; f_equal; ring.
Qed.
(* when it is finite *)
Lemma fin4 f (s : bool) a b c d e g h i A B : IEEE f -> Fin f a -> Fin f b -> Fin f c -> Fin f d -> Fin f e -> Fin f g -> Fin f h -> Fin f i -> 0 <= A * B ->
  Rabs (number f a * number f b) <= A * B -> Rabs (number f c * number f d) <= A * B -> Rabs (number f e * number f g) <= A * B -> Rabs (number f h * number f i) <= A * B -> 10 * (A * B) <= IZR (2 ^ fm_top f) ->
  Fin f (if s then f_sum4 f a b c d e g h i else f_diff4 f a b c d e g h i).
Proof.
  intros I F1 F2 F3 F4 F5 F6 F7 F8 AB H1 H2 H3 H4 L. destruct (prec_small f I) as (UB & UU & _). pose proof (unit_pos f (ieee_sane f I)) as UP. pose proof (room_large f I) as RL. unfold room in RL. assert (R1 : 1000 <= IZR (2 ^ fm_top f) / 2) by (eapply Rle_trans; [|exact RL]; apply IZR_le; vm_compute; discriminate). growth 4%nat G4.
  pose (ex := if s then sum4_expr a b c d e g h i else diff4_expr a b c d e g h i). replace (if s then f_sum4 f a b c d e g h i else f_diff4 f a b c d e g h i) with (computed f ex) by (unfold ex; destruct s; reflexivity).
  rewrite !Rabs_mult in *. assert (EX : extent f ex <= 4 * (A * B)). { assert (extent f ex = Rabs (number f a) * Rabs (number f b) + Rabs (number f c) * Rabs (number f d) + Rabs (number f e) * Rabs (number f g) + Rabs (number f h) * Rabs (number f i)) by (unfold ex; destruct s; reflexivity). lra. }
  destruct (lost_sum4 f a b c d e g h i I) as [L1 L2]. assert (LX : lost f ex <= 3 * unit_of f) by (unfold ex; destruct s; assumption). assert (RX : roundings ex = 4%nat) by (unfold ex; destruct s; reflexivity). apply computed_roomy; [exact I|unfold ex; destruct s; cbn; tauto|]. apply roomy_terms; [exact I| |].
  - unfold reach. rewrite RX. fold (ulp f) in *. pose proof (grow_pos f 4 I). pose proof (extent_nonneg f ex). assert ((1 + ulp f) ^ 4 * extent f ex <= (101 / 100) * (4 * (A * B))) by (apply Rmult_le_compat; lra). destruct (Rle_lt_dec (A * B) 1); lra.
  - unfold ex, sum4_expr, diff4_expr. destruct s; cbn [Terms Roomy]; tauto.
Qed.
Theorem C104_product_finite : forall f a b A B, IEEE f -> Each4 (fun x => Fin f x /\ Rabs (number f x) <= A) a -> Each4 (fun x => Fin f x /\ Rabs (number f x) <= B) b -> 10 * (A * B) <= IZR (2 ^ fm_top f) -> Each4 (Fin f) (fq_mul f a b).
Proof.
  intros f a b A B I ((AW & aw) & (AX & ax) & (AY & ay) & (AZ & az)) ((BW & bw) & (BX & bx) & (BY & by_) & (BZ & bz)) L.
  assert (M : forall x y, Rabs x <= A -> Rabs y <= B -> Rabs (x * y) <= A * B) by (intros x y H1 H2; rewrite Rabs_mult; apply Rmult_le_compat; try apply Rabs_pos; assumption). assert (AB : 0 <= A * B) by (pose proof (Rabs_pos (number f (fq_w a))); pose proof (Rabs_pos (number f (fq_w b))); apply Rmult_le_pos; lra).
  repeat split; [apply (fin4 f false) with A B|apply (fin4 f true) with A B|apply (fin4 f true) with A B|apply (fin4 f true) with A B]; auto.
Qed.
(* numbers that are not finite *)
Theorem C104_product_bad : forall f a b, IEEE f -> Each4 (Valid f) a -> Each4 (Valid f) b ->
  (~ Each4 Num a \/ ~ Each4 Num b -> Each4 NaN (fq_mul f a b)) /\ (~ Each4 (Fin f) a \/ ~ Each4 (Fin f) b -> Each4 (fun x => ~ Fin f x) (fq_mul f a b)).
Proof.
  intros f a b I (AW & AX & AY & AZ) (BW & BX & BY & BZ). set (c := fq_mul f a b).
  pose (ew := diff4_expr (fq_w a) (fq_w b) (fq_x a) (fq_x b) (fq_y a) (fq_y b) (fq_z a) (fq_z b)). pose (ex := sum4_expr (fq_w a) (fq_x b) (fq_x a) (fq_w b) (fq_y a) (fq_z b) (fq_z a) (fq_y b)). pose (ey := sum4_expr (fq_w a) (fq_y b) (fq_y a) (fq_w b) (fq_z a) (fq_x b) (fq_x a) (fq_z b)). pose (ez := sum4_expr (fq_w a) (fq_z b) (fq_z a) (fq_w b) (fq_x a) (fq_y b) (fq_y a) (fq_x b)).
  change c with (mkFq (computed f ew) (computed f ex) (computed f ey) (computed f ez)). unfold Each4. cbn [fq_w fq_x fq_y fq_z]. unfold NaN. split.
  - intros N. assert (Q : exists x, x = FNan /\ (x = fq_w a \/ x = fq_x a \/ x = fq_y a \/ x = fq_z a \/ x = fq_w b \/ x = fq_x b \/ x = fq_y b \/ x = fq_z b)).
    { assert (K : forall x, x = FNan \/ Num x) by (intros []; [left; reflexivity|right; discriminate|right; discriminate]). unfold Each4 in N. destruct (K (fq_w a)) as [E|]; [exists (fq_w a); split; [exact E|tauto]|]. destruct (K (fq_x a)) as [E|]; [exists (fq_x a); split; [exact E|tauto]|]. destruct (K (fq_y a)) as [E|]; [exists (fq_y a); split; [exact E|tauto]|]. destruct (K (fq_z a)) as [E|]; [exists (fq_z a); split; [exact E|tauto]|]. destruct (K (fq_w b)) as [E|]; [exists (fq_w b); split; [exact E|tauto]|]. destruct (K (fq_x b)) as [E|]; [exists (fq_x b); split; [exact E|tauto]|]. destruct (K (fq_y b)) as [E|]; [exists (fq_y b); split; [exact E|tauto]|]. destruct (K (fq_z b)) as [E|]; [exists (fq_z b); split; [exact E|tauto]|]. exfalso. tauto. }
    destruct Q as (x & -> & Q). repeat split; apply computed_nan; cbn; tauto.
  - intros N. assert (Q : forall e, In e [ew; ex; ey; ez] -> Fin f (computed f e) -> False).
    { intros e IE F. assert (OV : Over (Valid f) e) by (cbn in IE; destruct IE as [<-|[<-|[<-|[<-|[]]]]]; cbn; tauto). assert (IN : forall x, x = fq_w a \/ x = fq_x a \/ x = fq_y a \/ x = fq_z a \/ x = fq_w b \/ x = fq_x b \/ x = fq_y b \/ x = fq_z b -> Fin f x) by (intros x X; apply (computed_inside f e x I OV F); cbn in IE; destruct IE as [<-|[<-|[<-|[<-|[]]]]]; cbn; tauto). destruct N as [N|N]; apply N; repeat split; apply IN; tauto. }
    repeat split; intros F; eapply Q; try exact F; cbn; tauto.
Qed.
(* products that need no rounding: whole numbers, and the identity *)
Lemma exact4 f (s : bool) a b c d e g h i : IEEE f -> Fin f a -> Fin f b -> Fin f c -> Fin f d -> Fin f e -> Fin f g -> Fin f h -> Fin f i ->
  let x := if s then f_sum4 f a b c d e g h i else f_diff4 f a b c d e g h i in let sg r := if s then r else - r in let r := number f a * number f b + sg (number f c * number f d) + sg (number f e * number f g) - number f h * number f i in
  Fits f (if s then sum4_expr a b c d e g h i else diff4_expr a b c d e g h i) -> Fin f x /\ number f x = r.
Proof.
  intros I F1 F2 F3 F4 F5 F6 F7 F8 x sg r FT. destruct s; apply (computed_exact f _ I) in FT; try (cbn; tauto); exact FT.
Qed.
Theorem C104_product_whole : forall f a b A B, IEEE f -> Each4 (fun x => Whole f x /\ Rabs (number f x) <= A) a -> Each4 (fun x => Whole f x /\ Rabs (number f x) <= B) b -> 4 * (A * B) <= IZR (2 ^ fm_prec f) ->
  Each4 (Fin f) (fq_mul f a b) /\ real_q f (fq_mul f a b) = hamilton (real_q f a) (real_q f b).
Proof.
  intros f a b A B I ((AW & aw) & (AX & ax) & (AY & ay) & (AZ & az)) ((BW & bw) & (BX & bx) & (BY & by_) & (BZ & bz)) L.
  assert (T : forall (s : bool) p1 q1 p2 q2 p3 q3 p4 q4, Whole f p1 -> Whole f q1 -> Whole f p2 -> Whole f q2 -> Whole f p3 -> Whole f q3 -> Whole f p4 -> Whole f q4 -> Rabs (number f p1) * Rabs (number f q1) <= A * B -> Rabs (number f p2) * Rabs (number f q2) <= A * B -> Rabs (number f p3) * Rabs (number f q3) <= A * B -> Rabs (number f p4) * Rabs (number f q4) <= A * B -> Fits f (if s then sum4_expr p1 q1 p2 q2 p3 q3 p4 q4 else diff4_expr p1 q1 p2 q2 p3 q3 p4 q4)).
  { intros s p1 q1 p2 q2 p3 q3 p4 q4 W1 V1 W2 V2 W3 V3 W4 V4 L1 L2 L3 L4. apply (fits_small f _ I); [destruct s; cbn; tauto|]. apply small_terms; [apply Rle_trans with (4 * (A * B)); [destruct s; cbn [sum4_expr diff4_expr extent]; fold (number f p1) (number f q1) (number f p2) (number f q2) (number f p3) (number f q3) (number f p4) (number f q4); unfold fin_val; fold (number f p1) (number f q1) (number f p2) (number f q2) (number f p3) (number f q3) (number f p4) (number f q4); lra|exact L]|]. unfold sum4_expr, diff4_expr. destruct s; cbn [Terms Small]; tauto. }
  assert (M : forall x y, Rabs x <= A -> Rabs y <= B -> Rabs x * Rabs y <= A * B) by (intros x y H1 H2; apply Rmult_le_compat; try apply Rabs_pos; assumption).
  assert (M' : forall x y, Rabs x <= A -> Rabs y <= B -> Rabs y * Rabs x <= A * B) by (intros x y H1 H2; rewrite Rmult_comm; apply M; assumption).
  assert (FW := fun x (H : Whole f x) => proj1 H).
  destruct (exact4 f false (fq_w a) (fq_w b) (fq_x a) (fq_x b) (fq_y a) (fq_y b) (fq_z a) (fq_z b) I) as [QW NW]; auto; [apply (T false); auto|].
  destruct (exact4 f true (fq_w a) (fq_x b) (fq_x a) (fq_w b) (fq_y a) (fq_z b) (fq_z a) (fq_y b) I) as [QX NX]; auto; [apply (T true); auto|].
  destruct (exact4 f true (fq_w a) (fq_y b) (fq_y a) (fq_w b) (fq_z a) (fq_x b) (fq_x a) (fq_z b) I) as [QY NY]; auto; [apply (T true); auto|].
  destruct (exact4 f true (fq_w a) (fq_z b) (fq_z a) (fq_w b) (fq_x a) (fq_y b) (fq_y a) (fq_x b) I) as [QZ NZ]; auto; [apply (T true); auto|].
  split; [repeat split; assumption|]. unfold real_q at 1, fq_mul. cbn [fq_w fq_x fq_y fq_z]. rewrite NW, NX, NY, NZ. unfold hamilton, with_scalar, vadd, vscale, cross, dot, real_q, vector_part. cbn. f_equal; ring.
Qed.
Lemma one_fin_ f : IEEE f -> Fin f (f_one f) /\ number f (f_one f) = 1.
Proof. intros I. split; [exists false, (2 ^ fm_low f)%Z; split; [reflexivity|apply one_finite, ieee_sane, I]|apply one_val, ieee_sane, I]. Qed.
Lemma zero_fin_ f : IEEE f -> Fin f f_zero /\ number f f_zero = 0.
Proof. intros I. split; [exists false, 0%Z; split; [reflexivity|apply zero_finite, ieee_sane, I]|cbn; apply val_zero]. Qed.
Ltac fit I := match goal with |- Grid ?f ?r /\ _ => first
  [ replace r with 0 by ring; exact (zero_fits f I)
  | match goal with H : Fin f ?x |- _ => replace r with (number f x) by ring; exact (number_fits f x I H) end
  | match goal with H : Fin f ?x |- _ => replace r with (- number f x) by ring; exact (neg_fits f x I H) end ] end.
Theorem C104_identity : forall f q, IEEE f -> Each4 (Fin f) q ->
  Each4 (Fin f) (fq_mul f (fq_identity f) q) /\ real_q f (fq_mul f (fq_identity f) q) = real_q f q /\
  Each4 (Fin f) (fq_mul f q (fq_identity f)) /\ real_q f (fq_mul f q (fq_identity f)) = real_q f q.
Proof.
  intros f q I (W & X & Y & Z). destruct (one_fin_ f I) as [F1 N1], (zero_fin_ f I) as [F0 N0].
  assert (T : forall (s : bool) a b c d e g h i r, Fin f a -> Fin f b -> Fin f c -> Fin f d -> Fin f e -> Fin f g -> Fin f h -> Fin f i -> let sg x := if s then x else - x in let A := number f a * number f b in let B := number f c * number f d in let C := number f e * number f g in let D := number f h * number f i in
    (exists y, Fin f y /\ number f y = r) -> (A = r /\ B = 0 \/ A = 0 /\ B = r /\ s = true) -> C = 0 -> D = 0 ->
    Fin f (if s then f_sum4 f a b c d e g h i else f_diff4 f a b c d e g h i) /\ number f (if s then f_sum4 f a b c d e g h i else f_diff4 f a b c d e g h i) = r).
  { intros s a b c d e g h i r H1 H2 H3 H4 H5 H6 H7 H8 sg A B C D (y & FY & <-) AB CC DD. destruct (exact4 f s a b c d e g h i I H1 H2 H3 H4 H5 H6 H7 H8) as [FF NN].
    - destruct AB as [[AA BB]|(AA & BB & ->)]; [destruct s|]; cbn [sum4_expr diff4_expr Fits exact]; unfold fin_val; fold (number f a) (number f b) (number f c) (number f d) (number f e) (number f g) (number f h) (number f i); unfold A, B, C, D in *; rewrite AA, BB, CC, DD; repeat (match goal with |- Grid _ _ /\ _ => fail 1 | |- _ /\ _ => split end); try exact Logic.I; fit I.
    - split; [exact FF|]. rewrite NN. unfold A, B, C, D in *. rewrite CC, DD. destruct AB as [[AA BB]|(AA & BB & ->)]; rewrite AA, BB; [destruct s; ring|ring]. }
  unfold Each4, real_q, fq_mul, fq_identity. cbn [fq_w fq_x fq_y fq_z].
  destruct (T false (f_one f) (fq_w q) f_zero (fq_x q) f_zero (fq_y q) f_zero (fq_z q) (number f (fq_w q))) as [A1 B1]; auto; [eauto|left; rewrite N1, N0; split; ring|rewrite N0; ring|rewrite N0; ring|].
  destruct (T true (f_one f) (fq_x q) f_zero (fq_w q) f_zero (fq_z q) f_zero (fq_y q) (number f (fq_x q))) as [A2 B2]; auto; [eauto|left; rewrite N1, N0; split; ring|rewrite N0; ring|rewrite N0; ring|].
  destruct (T true (f_one f) (fq_y q) f_zero (fq_w q) f_zero (fq_x q) f_zero (fq_z q) (number f (fq_y q))) as [A3 B3]; auto; [eauto|left; rewrite N1, N0; split; ring|rewrite N0; ring|rewrite N0; ring|].
  destruct (T true (f_one f) (fq_z q) f_zero (fq_w q) f_zero (fq_y q) f_zero (fq_x q) (number f (fq_z q))) as [A4 B4]; auto; [eauto|left; rewrite N1, N0; split; ring|rewrite N0; ring|rewrite N0; ring|].
  destruct (T false (fq_w q) (f_one f) (fq_x q) f_zero (fq_y q) f_zero (fq_z q) f_zero (number f (fq_w q))) as [A5 B5]; auto; [eauto|left; rewrite N1, N0; split; ring|rewrite N0; ring|rewrite N0; ring|].
  destruct (T true (fq_w q) f_zero (fq_x q) (f_one f) (fq_y q) f_zero (fq_z q) f_zero (number f (fq_x q))) as [A6 B6]; auto; [eauto|right; rewrite N1, N0; split; [ring|split; [ring|reflexivity]]|rewrite N0; ring|rewrite N0; ring|].
  destruct (T true (fq_w q) f_zero (fq_y q) (f_one f) (fq_z q) f_zero (fq_x q) f_zero (number f (fq_y q))) as [A7 B7]; auto; [eauto|right; rewrite N1, N0; split; [ring|split; [ring|reflexivity]]|rewrite N0; ring|rewrite N0; ring|].
  destruct (T true (fq_w q) f_zero (fq_z q) (f_one f) (fq_x q) f_zero (fq_y q) f_zero (number f (fq_z q))) as [A8 B8]; auto; [eauto|right; rewrite N1, N0; split; [ring|split; [ring|reflexivity]]|rewrite N0; ring|rewrite N0; ring|].
  rewrite B1, B2, B3, B4, B5, B6, B7, B8. auto 10.
Qed.
(* the conjugate *)
Lemma bound_fin f a b A : IEEE f -> Fin f a -> Fin f b -> Rabs (number f a) <= A -> Rabs (number f b) <= A -> 10 * (A * A) <= IZR (2 ^ fm_top f) -> Fin f (f_mul f a b).
Proof.
  intros I FA FB LA LB L. apply (mul_fin f _ _ I FA FB). rewrite Rabs_mult. unfold room. pose proof (Rabs_pos (number f a)). pose proof (Rabs_pos (number f b)). pose proof (top_pos f (ieee_sane f I)). apply Rle_trans with (A * A); [apply Rmult_le_compat; assumption|lra].
Qed.
Lemma cancel f p q : IEEE f -> Fin f p -> Fin f q -> let e := Sub (Add (Add (Lit p) (Neg (Lit p))) (Neg (Lit q))) (Neg (Lit q)) in let e' := Sub (Add (Add (Neg (Lit p)) (Lit p)) (Neg (Lit q))) (Neg (Lit q)) in
  (Fin f (computed f e) /\ number f (computed f e) = 0) /\ (Fin f (computed f e') /\ number f (computed f e') = 0).
Proof.
  intros I P Q e e'. assert (Z : exact f e = 0 /\ exact f e' = 0) by (split; cbn; ring). destruct Z as [Z1 Z2]. rewrite <- Z1 at 1. rewrite <- Z2 at 1. split; apply (computed_exact f _ I); try (cbn; tauto); cbn [e e' Fits exact]; unfold fin_val; fold (number f p) (number f q); repeat (match goal with |- Grid _ _ /\ _ => fail 1 | |- _ /\ _ => split end); try exact Logic.I; fit I.
Qed.
Theorem C104_conjugate : forall f q, IEEE f -> let q2 := f_squares f (fq_w q) (fq_x q) (fq_y q) (fq_z q) in
  real_q f (fq_conj q) = star (real_q f q) /\ fq_conj (fq_conj q) = q /\ (Each4 (Fin f) q -> Each4 (Fin f) (fq_conj q)) /\
  fq_w (fq_mul f (fq_conj q) q) = q2 /\ fq_w (fq_mul f q (fq_conj q)) = q2 /\
  forall A, Each4 (fun x => Fin f x /\ Rabs (number f x) <= A) q -> 10 * (A * A) <= IZR (2 ^ fm_top f) ->
    Each4 (Fin f) (fq_mul f (fq_conj q) q) /\ Each4 (Fin f) (fq_mul f q (fq_conj q)) /\ vector_part (real_q f (fq_mul f (fq_conj q) q)) = v_zero /\ vector_part (real_q f (fq_mul f q (fq_conj q))) = v_zero.
Proof.
  intros f [w x y z] I q2. assert (NN : forall a, number f (f_neg a) = - number f a) by (intros [|s|s n]; cbn; try ring; rewrite val_neg; reflexivity).
  split; [unfold real_q, fq_conj, star, with_scalar, vneg; cbn [fq_w fq_x fq_y fq_z vector_part qw qx qy qz vx vy vz]; rewrite !NN; reflexivity|]. split; [unfold fq_conj; cbn [fq_w fq_x fq_y fq_z]; rewrite !neg_neg; reflexivity|].
  assert (NF : forall a, Fin f a -> Fin f (f_neg a)) by (intros a F; apply (neg_fin f a F)). split; [unfold Each4, fq_conj; cbn [fq_w fq_x fq_y fq_z]; intuition auto|].
  assert (SN : forall a b, f_sub f a (f_neg b) = f_add f a b) by (intros a b; unfold f_sub; rewrite neg_neg; reflexivity).
  split; [unfold fq_mul, fq_conj, f_diff4, q2, f_squares; cbn [fq_w fq_x fq_y fq_z]; rewrite !mul_neg_l, !SN; reflexivity|]. split; [unfold fq_mul, fq_conj, f_diff4, q2, f_squares; cbn [fq_w fq_x fq_y fq_z]; rewrite !mul_neg_r, !SN; reflexivity|].
  intros A B L. pose proof B as ((FW & LW) & (FX & LX) & (FY & LY) & (FZ & LZ)). cbn [fq_w fq_x fq_y fq_z] in *. assert (B' : Each4 (fun a => Fin f a /\ Rabs (number f a) <= A) (fq_conj (mkFq w x y z))) by (unfold Each4, fq_conj; cbn [fq_w fq_x fq_y fq_z]; rewrite !NN, !Rabs_Ropp; auto 10).
  split; [apply (C104_product_finite f _ _ A A I B' B L)|]. split; [apply (C104_product_finite f _ _ A A I B B' L)|].
  assert (K : forall a b c d, Fin f (f_mul f a b) -> Fin f (f_mul f c d) -> number f (f_sum4 f a b (f_neg b) a (f_neg c) d (f_neg d) c) = 0 /\ number f (f_sum4 f a (f_neg b) b a c (f_neg d) d (f_neg c)) = 0).
  { intros a b c d P Q. destruct (cancel f _ _ I P Q) as [(_ & C1) (_ & C2)]. unfold f_sum4. rewrite !mul_neg_l, !mul_neg_r, (mul_comm_ f b a), (mul_comm_ f d c). cbn [computed] in C1, C2. split; assumption. }
  unfold vector_part, real_q, fq_mul, fq_conj, v_zero. cbn [fq_w fq_x fq_y fq_z qx qy qz]. split; f_equal; apply K; eapply bound_fin; eassumption.
Qed.
(* the rotation: one direction, of three numbers that may be computed *)
Definition minor_expr (a c : fnum) (eb ed : expr) : expr := Sub (Mul (Lit a) ed) (Mul (Lit c) eb).
Definition rot_expr (x y z w2 two : fnum) (ex ey ez : expr) : expr :=
  Add (Add ex (Mul (minor_expr y z ey ez) (Lit w2))) (Mul (minor_expr y z (minor_expr z x ez ex) (minor_expr x y ex ey)) (Lit two)).
Lemma two_fin_ f : IEEE f -> Fin f (f_two f) /\ number f (f_two f) = 2.
Proof.
  intros I. pose proof (ieee_sane f I) as W. pose proof W as [W1 W2]. split; [exists false, (2 * 2 ^ fm_low f)%Z; split; [reflexivity|]; apply count_fin; [exact W|lia|split; [lia|apply (Z.pow_le_mono_r 2 1); lia]]|]. cbn [f_two number]. rewrite (count_val f 2 W). reflexivity.
Qed.
Lemma double_fin f w : IEEE f -> Fin f w -> Rabs (number f w) <= 2 -> Fin f (f_mul f (f_two f) w) /\ number f (f_mul f (f_two f) w) = 2 * number f w.
Proof.
  intros I FW L. destruct (two_fin_ f I) as [F2 N2]. pose proof (mul_correct' f _ _ I F2 FW) as C. rewrite N2 in C. apply (correct_exact f _ _ I C); [apply FloatContainersProofs.grid_double; [apply ieee_sane, I|apply fin_grid, FW]|].
  rewrite Rabs_mult, (Rabs_right 2) by lra. pose proof (room_large f I) as RL. unfold room in RL. assert (1000 <= IZR (2 ^ 60)) by (apply IZR_le; vm_compute; discriminate). lra.
Qed.
Lemma hamilton_eq a b c d p q r s : hamilton (Q4 a b c d) (Q4 p q r s) = Q4 (a * p - (b * q + c * r + d * s)) (q * a + b * p + (c * s - d * r)) (r * a + c * p + (d * q - b * s)) (s * a + d * p + (b * r - c * q)).
Proof. reflexivity. Qed.
Lemma sandwich_x w a b c v : vx (sandwich (Q4 w a b c) v) = (w * w + a * a + b * b + c * c) * vx v + 2 * w * (b * vz v - c * vy v) + 2 * (b * (a * vy v - b * vx v) - c * (c * vx v - a * vz v)).
Proof. unfold sandwich. change (star (Q4 w a b c)) with (Q4 w (- a) (- b) (- c)). unfold with_scalar. rewrite !hamilton_eq. unfold vector_part. cbn [vx qx]. ring. Qed.
Lemma minor_reach f a c eb ed j B L : IEEE f -> Rabs (number f a) <= 2 -> Rabs (number f c) <= 2 -> roundings eb = j -> roundings ed = j -> (1 + ulp f) ^ (j + 2) <= 101 / 100 -> extent f eb <= B -> extent f ed <= B -> lost f eb <= L -> lost f ed <= L ->
  extent f (minor_expr a c eb ed) <= 4 * B /\ lost f (minor_expr a c eb ed) <= 5 * L + 2 * unit_of f /\ roundings (minor_expr a c eb ed) = (j + 2)%nat /\ reach f (minor_expr a c eb ed) <= 101 / 100 * (4 * B) + 5 * L + 2 * unit_of f.
Proof.
  intros I BA BC RB RD G EB ED LB LD. destruct (ulp_small f I) as [U _]. pose proof (unit_pos f (ieee_sane f I)) as UP. pose proof (extent_nonneg f eb) as P1. pose proof (extent_nonneg f ed) as P2. pose proof (lost_nonneg f eb I) as Q1. pose proof (lost_nonneg f ed I) as Q2. pose proof (Rabs_pos (number f a)) as A0. pose proof (Rabs_pos (number f c)) as C0.
  assert (R : roundings (minor_expr a c eb ed) = (j + 2)%nat) by (unfold minor_expr; cbn [roundings]; rewrite RB, RD; lia). assert (E : extent f (minor_expr a c eb ed) <= 4 * B). { unfold minor_expr. cbn [extent]. unfold fin_val. fold (number f a) (number f c). assert (Rabs (number f a) * extent f ed <= 2 * B) by (apply Rmult_le_compat; lra). assert (Rabs (number f c) * extent f eb <= 2 * B) by (apply Rmult_le_compat; lra). lra. }
  assert (LL : lost f (minor_expr a c eb ed) <= 5 * L + 2 * unit_of f). { unfold minor_expr. cbn [lost roundings extent pow]. fold (ulp f). unfold fin_val. fold (number f a) (number f c). assert (T : forall r l b, 0 <= r <= 2 -> 0 <= l <= L -> (1 + ulp f) * (1 * r * l + b * 0 + 0 * l) + unit_of f / 2 <= 202 / 100 * L + unit_of f / 2). { intros r l b R0 L0. replace ((1 + ulp f) * (1 * r * l + b * 0 + 0 * l)) with ((1 + ulp f) * (r * l)) by ring. assert (0 <= r * l <= 2 * L) by (split; [apply Rmult_le_pos; lra|apply Rmult_le_compat; lra]). assert ((1 + ulp f) * (r * l) <= 101 / 100 * (2 * L)) by (apply Rmult_le_compat; lra). lra. }
    match goal with |- (1 + ulp f) * (?p + ?q) <= _ => assert (PL : p <= 202 / 100 * L + unit_of f / 2) by (apply T; lra); assert (QL : q <= 202 / 100 * L + unit_of f / 2) by (apply T; lra); apply Rle_trans with ((1 + ulp f) * ((202 / 100 * L + unit_of f / 2) + (202 / 100 * L + unit_of f / 2))); [apply Rmult_le_compat_l; lra|] end. assert (L0 : 0 <= L) by lra. assert ((1 + ulp f) * (404 / 100 * L + unit_of f) <= 101 / 100 * (404 / 100 * L + unit_of f)) by (apply Rmult_le_compat_r; lra). lra. }
  split; [exact E|]. split; [exact LL|]. split; [exact R|]. unfold reach. rewrite R. fold (ulp f). pose proof (grow_pos f (j + 2) I). pose proof (extent_nonneg f (minor_expr a c eb ed)). assert ((1 + ulp f) ^ (j + 2) * extent f (minor_expr a c eb ed) <= 101 / 100 * (4 * B)) by (apply Rmult_le_compat; lra). lra.
Qed.
Section rotation.
  Variables (f : fmt) (I : IEEE f) (x y z w2 two : fnum) (w V : R) (ex ey ez : expr) (k : nat).
  Let u := / IZR (2 ^ fm_prec f).
  Let X := number f x. Let Y := number f y. Let Z := number f z.
  Hypotheses (BX : Rabs X <= 2) (BY : Rabs Y <= 2) (BZ : Rabs Z <= 2) (BW : Rabs w <= 2) (NW : number f w2 = 2 * w) (N2 : number f two = 2).
  Hypotheses (KX : roundings ex = k) (KY : roundings ey = k) (KZ : roundings ez = k) (LX : lost f ex = 0) (LY : lost f ey = 0) (LZ : lost f ez = 0).
  Hypotheses (EX : extent f ex <= V) (EY : extent f ey <= V) (EZ : extent f ez <= V).
  Lemma rot_roundings : roundings (rot_expr x y z w2 two ex ey ez) = (k + 6)%nat.
  Proof. unfold rot_expr, minor_expr. cbn [roundings]. rewrite KX, KY, KZ. lia. Qed.
  Lemma rot_lost : lost f (rot_expr x y z w2 two ex ey ez) <= 16 * unit_of f.
  Proof.
    destruct (prec_small f I) as (UB & _ & _). fold u in UB. pose proof (unit_pos f (ieee_sane f I)) as UP. unfold rot_expr, minor_expr. cbn [lost roundings extent pow]. fold u. rewrite LX, LY, LZ. unfold fin_val. fold (number f x) (number f y) (number f z) (number f w2) (number f two). rewrite NW, N2. fold X Y Z. rewrite Rabs_mult, (Rabs_right 2) by lra. set (h := unit_of f / 2). replace (16 * unit_of f) with (32 * h) by (unfold h; field). assert (H : 0 < h) by (unfold h; lra). clearbody h.
    pose proof (Rabs_pos X) as PX. pose proof (Rabs_pos Y) as PY. pose proof (Rabs_pos Z) as PZ. pose proof (Rabs_pos w) as PW. set (aX := Rabs X) in *. set (aY := Rabs Y) in *. set (aZ := Rabs Z) in *. set (aw := Rabs w) in *.
    assert (M : forall a b, (1 + u) * (1 * a * 0 + b * 0 + 0 * 0) + h = h) by (intros; ring). rewrite !M. set (U1 := (1 + u) * (h + h)). assert (B1 : 0 <= U1 <= 201 / 100 * h) by (unfold U1; nra). clearbody U1.
    assert (T : forall a b, 0 <= a <= 2 -> 0 <= (1 + u) * (1 * a * U1 + b * 0 + 0 * U1) + h <= 505 / 100 * h). { intros a b A. replace ((1 + u) * (1 * a * U1 + b * 0 + 0 * U1)) with ((1 + u) * (a * U1)) by ring. assert (0 <= a * U1 <= 402 / 100 * h) by nra. nra. }
    set (tY := (1 + u) * (1 * aY * U1 + _ * 0 + 0 * U1) + h). set (tZ := (1 + u) * (1 * aZ * U1 + _ * 0 + 0 * U1) + h). pose proof (T aY (((1 + u) * 1) * 1) ltac:(lra)) as _.
    match goal with tY := (1 + u) * (1 * aY * U1 + ?b * 0 + 0 * U1) + h |- _ => pose proof (T aY b ltac:(lra)) as TY end. match goal with tZ := (1 + u) * (1 * aZ * U1 + ?b * 0 + 0 * U1) + h |- _ => pose proof (T aZ b ltac:(lra)) as TZ end. fold tY in TY. fold tZ in TZ. clearbody tY tZ.
    set (U2 := (1 + u) * (tY + tZ)). assert (B2 : 0 <= U2 <= 1012 / 100 * h) by (unfold U2; nra). clearbody U2.
    set (M1 := (1 + u) * (_ * 0 + 1 * (2 * aw) * U1 + U1 * 0) + h). set (M2 := (1 + u) * (_ * 0 + 1 * 2 * U2 + U2 * 0) + h).
    assert (C1 : 0 <= M1 <= 907 / 100 * h) by (unfold M1; match goal with |- context [(1 + u) * (?b * 0 + 1 * (2 * aw) * U1 + U1 * 0)] => replace ((1 + u) * (b * 0 + 1 * (2 * aw) * U1 + U1 * 0)) with ((1 + u) * (2 * (aw * U1))) by ring end; assert (0 <= aw * U1 <= 402 / 100 * h) by nra; nra).
    assert (C2 : 0 <= M2 <= 2130 / 100 * h) by (unfold M2; match goal with |- context [(1 + u) * (?b * 0 + 1 * 2 * U2 + U2 * 0)] => replace ((1 + u) * (b * 0 + 1 * 2 * U2 + U2 * 0)) with ((1 + u) * (2 * U2)) by ring end; nra).
    clearbody M1 M2. assert ((1 + u) * (0 + M1) <= 910 / 100 * h) by nra. nra.
  Qed.
  Let n := w * w + X * X + Y * Y + Z * Z.
  Lemma rot_extent : extent f (rot_expr x y z w2 two ex ey ez) <= (1 + 4 * n) * V.
  Proof.
    unfold rot_expr, minor_expr. cbn [extent]. unfold fin_val. fold (number f x) (number f y) (number f z) (number f w2) (number f two). rewrite NW, N2. fold X Y Z. rewrite Rabs_mult, (Rabs_right 2) by lra.
    pose proof (extent_nonneg f ex) as P1. pose proof (extent_nonneg f ey) as P2. pose proof (extent_nonneg f ez) as P3. assert (SQ : forall r, r * r = Rabs r * Rabs r) by (intros r; rewrite <- Rabs_mult, Rabs_right by nra; reflexivity). unfold n. rewrite (SQ w), (SQ X), (SQ Y), (SQ Z).
    pose proof (Rabs_pos X) as PX. pose proof (Rabs_pos Y) as PY. pose proof (Rabs_pos Z) as PZ. pose proof (Rabs_pos w) as PW. set (a := Rabs X) in *. set (b := Rabs Y) in *. set (c := Rabs Z) in *. set (d := Rabs w) in *. clearbody a b c d. set (p := extent f ex) in *. set (q := extent f ey) in *. set (r := extent f ez) in *. clearbody p q r.
    assert (M : forall s t, 0 <= s -> 0 <= t <= V -> s * t <= s * V) by (intros s t S0 T0; apply Rmult_le_compat_l; lra).
    apply Rle_trans with (V + (b * V + c * V) * (2 * d) + (b * (a * V + b * V) + c * (c * V + a * V)) * 2).
    - pose proof (M b r PY (conj P3 EZ)). pose proof (M c q PZ (conj P2 EY)). pose proof (M a q PX (conj P2 EY)). pose proof (M b p PY (conj P1 EX)). pose proof (M c p PZ (conj P1 EX)). pose proof (M a r PX (conj P3 EZ)).
      assert ((b * r + c * q) * (2 * d) <= (b * V + c * V) * (2 * d)) by (apply Rmult_le_compat_r; lra). assert (b * (a * q + b * p) <= b * (a * V + b * V)) by (apply Rmult_le_compat_l; lra). assert (c * (c * p + a * r) <= c * (c * V + a * V)) by (apply Rmult_le_compat_l; lra). lra.
    - assert (Q : 1 + (b + c) * (2 * d) + (b * (a + b) + c * (c + a)) * 2 <= 1 + 4 * (d * d + a * a + b * b + c * c)). { pose proof (Rle_0_sqr (b - d)). pose proof (Rle_0_sqr (c - d)). pose proof (Rle_0_sqr (b - a)). pose proof (Rle_0_sqr (c - a)). pose proof (Rle_0_sqr a). pose proof (Rle_0_sqr d). unfold Rsqr in *. lra. }
      assert (V0 : 0 <= V) by lra. apply (Rmult_le_compat_r V _ _ V0) in Q. lra.
  Qed.
  Lemma rot_exact : exact f (rot_expr x y z w2 two ex ey ez) = vx (sandwich (Q4 w X Y Z) (V3 (exact f ex) (exact f ey) (exact f ez))) - (n - 1) * exact f ex.
  Proof.
    unfold rot_expr, minor_expr. cbn [exact]. unfold fin_val. fold (number f x) (number f y) (number f z) (number f w2) (number f two). rewrite NW, N2. fold X Y Z. rewrite sandwich_x. cbn [vx vy vz]. unfold n. ring.
  Qed.
  Lemma rot_error E : (1 + u) ^ (k + 6) <= 1 + E -> Over (Valid f) (rot_expr x y z w2 two ex ey ez) -> Fin f (computed f (rot_expr x y z w2 two ex ey ez)) ->
    Rabs (number f (computed f (rot_expr x y z w2 two ex ey ez)) - vx (sandwich (Q4 w X Y Z) (V3 (exact f ex) (exact f ey) (exact f ez)))) <= (E * (1 + 4 * n) + Rabs (n - 1)) * V + 16 * unit_of f.
  Proof.
    intros HE OV F. pose proof (computed_error f _ I OV F) as CE. rewrite rot_roundings, rot_exact in CE. fold (ulp f) in *. change (ulp f) with u in CE. pose proof rot_lost as RL. pose proof rot_extent as RE. pose proof (extent_nonneg f (rot_expr x y z w2 two ex ey ez)) as EP. pose proof (grow_pos f (k + 6) I) as GP. change (ulp f) with u in GP.
    assert (M : ((1 + u) ^ (k + 6) - 1) * extent f (rot_expr x y z w2 two ex ey ez) <= E * ((1 + 4 * n) * V)) by (apply Rmult_le_compat; lra). pose proof (exact_extent f ex) as XE. assert (M2 : Rabs ((n - 1) * exact f ex) <= Rabs (n - 1) * V) by (rewrite Rabs_mult; apply Rmult_le_compat_l; [apply Rabs_pos|lra]).
    set (r := number f (computed f _)) in *. set (s := vx _) in *. replace (r - s) with ((r - (s - (n - 1) * exact f ex)) + - ((n - 1) * exact f ex)) by ring. eapply Rle_trans; [apply Rabs_triang|]. rewrite Rabs_Ropp. lra.
  Qed.
  Lemma moved_error p P E : Rabs (number f p) <= P -> (1 + u) ^ (k + 7) <= 1 + E -> Valid f p -> Over (Valid f) (rot_expr x y z w2 two ex ey ez) -> Fin f (f_add f p (computed f (rot_expr x y z w2 two ex ey ez))) ->
    Rabs (number f (f_add f p (computed f (rot_expr x y z w2 two ex ey ez))) - (number f p + vx (sandwich (Q4 w X Y Z) (V3 (exact f ex) (exact f ey) (exact f ez))))) <= E * P + (E * (1 + 4 * n) + Rabs (n - 1)) * V + 17 * unit_of f.
  Proof.
    intros BP HE VP OV F. destruct (prec_small f I) as (UB & _ & _). fold u in UB. pose proof (unit_pos f (ieee_sane f I)) as UP. pose proof (computed_error f (Add (Lit p) (rot_expr x y z w2 two ex ey ez)) I (conj VP OV) F) as CE. cbn [computed exact extent lost roundings] in CE. rewrite rot_roundings, rot_exact in CE. change (fin_val f p) with (number f p) in CE. fold (ulp f) in *. change (ulp f) with u in CE. pose proof rot_lost as RL. pose proof rot_extent as RE. pose proof (extent_nonneg f (rot_expr x y z w2 two ex ey ez)) as EP. replace (S (Nat.max 0 (k + 6))) with (k + 7)%nat in CE by lia. pose proof (grow_pos f (k + 7) I) as GP. change (ulp f) with u in GP.
    pose proof (Rabs_pos (number f p)) as PP. pose proof (lost_nonneg f (rot_expr x y z w2 two ex ey ez) I) as LP. assert (M : ((1 + u) ^ (k + 7) - 1) * (Rabs (number f p) + extent f (rot_expr x y z w2 two ex ey ez)) <= E * (P + (1 + 4 * n) * V)) by (apply Rmult_le_compat; lra). pose proof (exact_extent f ex) as XE. assert (M2 : Rabs ((n - 1) * exact f ex) <= Rabs (n - 1) * V) by (rewrite Rabs_mult; apply Rmult_le_compat_l; [apply Rabs_pos|lra]).
    assert (M3 : (1 + u) * (0 + lost f (rot_expr x y z w2 two ex ey ez)) <= 17 * unit_of f) by nra.
    set (r := number f (f_add f p _)) in *. set (s := vx _) in *. replace (r - (number f p + s)) with ((r - (number f p + (s - (n - 1) * exact f ex))) + - ((n - 1) * exact f ex)) by ring. eapply Rle_trans; [apply Rabs_triang|]. rewrite Rabs_Ropp. lra.
  Qed.
  Hypotheses (RX : Roomy f ex) (RY : Roomy f ey) (RZ : Roomy f ez).
  Lemma rot_roomy : (1 + u) ^ (k + 6) <= 101 / 100 -> 200 * V <= IZR (2 ^ fm_top f) -> Roomy f (rot_expr x y z w2 two ex ey ez).
  Proof.
    intros G B. destruct (prec_small f I) as (UB & UU & _). fold u in UB, UU. pose proof (unit_pos f (ieee_sane f I)) as UP. pose proof (room_large f I) as RL. unfold room in RL. assert (R1 : 1000 <= IZR (2 ^ fm_top f) / 2) by (eapply Rle_trans; [|exact RL]; apply IZR_le; vm_compute; discriminate). pose proof (extent_nonneg f ex) as V0.
    assert (SM : forall j, (j <= k + 6)%nat -> (1 + ulp f) ^ j <= 101 / 100) by (intros j J; eapply Rle_trans; [apply (grow_le f j (k + 6) I J)|exact G]).
    destruct (minor_reach f y z ey ez k V 0 I BY BZ KY KZ ltac:(apply SM; lia) EY EZ ltac:(lra) ltac:(lra)) as (A1 & A2 & A3 & A4). destruct (minor_reach f z x ez ex k V 0 I BZ BX KZ KX ltac:(apply SM; lia) EZ EX ltac:(lra) ltac:(lra)) as (B1 & B2 & B3 & B4). destruct (minor_reach f x y ex ey k V 0 I BX BY KX KY ltac:(apply SM; lia) EX EY ltac:(lra) ltac:(lra)) as (C1 & C2 & C3 & C4).
    destruct (minor_reach f y z (minor_expr z x ez ex) (minor_expr x y ex ey) (k + 2) (4 * V) (2 * unit_of f) I BY BZ B3 C3 ltac:(apply SM; lia) B1 C1 ltac:(lra) ltac:(lra)) as (D1 & D2 & D3 & D4).
    assert (MR : forall a c eb ed, reach f (minor_expr a c eb ed) <= IZR (2 ^ fm_top f) / 2 -> Roomy f eb -> Roomy f ed -> Roomy f (minor_expr a c eb ed)) by (intros a c eb ed H HB HD; apply roomy_terms; [exact I|exact H|unfold minor_expr; cbn [Terms Roomy]; tauto]).
    assert (VS : 17 * V <= IZR (2 ^ fm_top f) / 2 - 100) by (destruct (Rle_lt_dec V 1); lra). apply roomy_terms; [exact I| |].
    - unfold reach. rewrite rot_roundings. fold (ulp f). change (ulp f) with u. pose proof rot_lost as LL. pose proof rot_extent as EE. assert (N16 : n <= 16). { assert (SQ : forall r, Rabs r <= 2 -> r * r <= 4) by (intros r H; apply abs_inv in H; nra). pose proof (SQ _ BX). pose proof (SQ _ BY). pose proof (SQ _ BZ). pose proof (SQ _ BW). unfold n. lra. } assert (E65 : extent f (rot_expr x y z w2 two ex ey ez) <= 65 * V) by (eapply Rle_trans; [exact EE|apply Rmult_le_compat_r; lra]). pose proof (extent_nonneg f (rot_expr x y z w2 two ex ey ez)) as P0. pose proof (grow_pos f (k + 6) I) as GP. change (ulp f) with u in GP. assert ((1 + u) ^ (k + 6) * extent f (rot_expr x y z w2 two ex ey ez) <= 101 / 100 * (65 * V)) by (apply Rmult_le_compat; lra). destruct (Rle_lt_dec V 1); lra.
    - unfold rot_expr. cbn [Terms]. split; [split|].
      + apply roomy_in, RX.
      + intros H. cbn [Roomy]. split; [apply MR; [lra|exact RY|exact RZ]|]. split; [exact Logic.I|exact H].
      + intros H. cbn [Roomy]. split; [apply MR; [lra| |]; apply MR; try assumption; lra|]. split; [exact Logic.I|exact H].
  Qed.
  Lemma moved_roomy p P : Rabs (number f p) <= P -> (1 + u) ^ (k + 7) <= 101 / 100 -> 200 * (V + P) <= IZR (2 ^ fm_top f) -> Roomy f (Add (Lit p) (rot_expr x y z w2 two ex ey ez)).
  Proof.
    intros BP G B. destruct (prec_small f I) as (UB & UU & _). fold u in UB, UU. pose proof (unit_pos f (ieee_sane f I)) as UP. pose proof (room_large f I) as RL. unfold room in RL. assert (R1 : 1000 <= IZR (2 ^ fm_top f) / 2) by (eapply Rle_trans; [|exact RL]; apply IZR_le; vm_compute; discriminate). pose proof (extent_nonneg f ex) as V0. pose proof (Rabs_pos (number f p)) as P0.
    cbn [Roomy]. split; [exact Logic.I|]. split; [apply rot_roomy; [eapply Rle_trans; [apply (grow_le f (k + 6) (k + 7) I); lia|exact G]|lra]|]. unfold reach. cbn [roundings extent lost]. rewrite rot_roundings. replace (S (Nat.max 0 (k + 6))) with (k + 7)%nat by lia. change (fin_val f p) with (number f p). fold u. pose proof rot_lost as LL. pose proof rot_extent as EE. assert (N16 : n <= 16). { assert (SQ : forall r, Rabs r <= 2 -> r * r <= 4) by (intros r H; apply abs_inv in H; nra). pose proof (SQ _ BX). pose proof (SQ _ BY). pose proof (SQ _ BZ). pose proof (SQ _ BW). unfold n. lra. } assert (E65 : extent f (rot_expr x y z w2 two ex ey ez) <= 65 * V) by (eapply Rle_trans; [exact EE|apply Rmult_le_compat_r; lra]).
    pose proof (extent_nonneg f (rot_expr x y z w2 two ex ey ez)) as E0. pose proof (lost_nonneg f (rot_expr x y z w2 two ex ey ez) I) as L0. pose proof (grow_pos f (k + 7) I) as GP. change (ulp f) with u in GP. assert ((1 + u) ^ (k + 7) * (Rabs (number f p) + extent f (rot_expr x y z w2 two ex ey ez)) <= 101 / 100 * (P + 65 * V)) by (apply Rmult_le_compat; lra). assert ((1 + u) * (0 + lost f (rot_expr x y z w2 two ex ey ez)) <= 2 * (16 * unit_of f)) by (apply Rmult_le_compat; lra). destruct (Rle_lt_dec (V + P) 1); lra.
  Qed.
End rotation.
Lemma sandwich_turn w a b c v : vy (sandwich (Q4 w a b c) v) = vx (sandwich (Q4 w b c a) (V3 (vy v) (vz v) (vx v))) /\ vz (sandwich (Q4 w a b c) v) = vx (sandwich (Q4 w c a b) (V3 (vz v) (vx v) (vy v))).
Proof. rewrite !sandwich_x. unfold sandwich. change (star (Q4 w a b c)) with (Q4 w (- a) (- b) (- c)). unfold with_scalar. rewrite !hamilton_eq. unfold vector_part. cbn [vx vy vz qx qy qz]. split; ring. Qed.
Definition Bounded4 (f : fmt) (q : f_quat) : Prop := Each4 (fun x => Fin f x /\ Rabs (number f x) <= 2) q.
Lemma rotate_near f q ex ey ez V k E : IEEE f -> Bounded4 f q -> roundings ex = k -> roundings ey = k -> roundings ez = k -> lost f ex = 0 -> lost f ey = 0 -> lost f ez = 0 -> extent f ex <= V -> extent f ey <= V -> extent f ez <= V ->
  Over (Valid f) ex -> Over (Valid f) ey -> Over (Valid f) ez -> (1 + / IZR (2 ^ fm_prec f)) ^ (k + 6) <= 1 + E ->
  let r := fq_rotate f q (mkFv (computed f ex) (computed f ey) (computed f ez)) in let n := size2 (real_q f q) in let s := sandwich (real_q f q) (V3 (exact f ex) (exact f ey) (exact f ez)) in
  let near x r := Fin f x -> Rabs (number f x - r) <= (E * (1 + 4 * n) + Rabs (n - 1)) * V + 16 * unit_of f in near (fv_x r) (vx s) /\ near (fv_y r) (vy s) /\ near (fv_z r) (vz s).
Proof.
  intros I ((FW & BW) & (FX & BX) & (FY & BY) & (FZ & BZ)) KX KY KZ LX LY LZ EX EY EZ OX OY OZ HE r n s near. destruct (two_fin_ f I) as [F2 N2], (double_fin f _ I FW BW) as [FW2 NW2]. unfold near, s. clear near s. change (real_q f q) with (Q4 (number f (fq_w q)) (number f (fq_x q)) (number f (fq_y q)) (number f (fq_z q))). destruct (sandwich_turn (number f (fq_w q)) (number f (fq_x q)) (number f (fq_y q)) (number f (fq_z q)) (V3 (exact f ex) (exact f ey) (exact f ez))) as [-> ->]. cbn [vx vy vz]. unfold n. rewrite size2_eq.
  pose proof (fin_valid f _ FX) as VX. pose proof (fin_valid f _ FY) as VY. pose proof (fin_valid f _ FZ) as VZ. pose proof (fin_valid f _ FW2) as VW2. pose proof (fin_valid f _ F2) as V2. set (w2 := f_mul f (f_two f) (fq_w q)) in *.
  assert (OV : forall x y z e1 e2 e3, Valid f x -> Valid f y -> Valid f z -> Over (Valid f) e1 -> Over (Valid f) e2 -> Over (Valid f) e3 -> Over (Valid f) (rot_expr x y z w2 (f_two f) e1 e2 e3)) by (intros; cbn; tauto).
  split; [|split]; intros F.
  - exact (rot_error f I (fq_x q) (fq_y q) (fq_z q) w2 (f_two f) (number f (fq_w q)) V ex ey ez k BY BZ BW NW2 N2 KX KY KZ LX LY LZ EX EY EZ E HE (OV _ _ _ _ _ _ VX VY VZ OX OY OZ) F).
  - replace (number f (fq_w q) * number f (fq_w q) + number f (fq_x q) * number f (fq_x q) + number f (fq_y q) * number f (fq_y q) + number f (fq_z q) * number f (fq_z q)) with (number f (fq_w q) * number f (fq_w q) + number f (fq_y q) * number f (fq_y q) + number f (fq_z q) * number f (fq_z q) + number f (fq_x q) * number f (fq_x q)) by ring.
    exact (rot_error f I (fq_y q) (fq_z q) (fq_x q) w2 (f_two f) (number f (fq_w q)) V ey ez ex k BZ BX BW NW2 N2 KY KZ KX LY LZ LX EY EZ EX E HE (OV _ _ _ _ _ _ VY VZ VX OY OZ OX) F).
  - replace (number f (fq_w q) * number f (fq_w q) + number f (fq_x q) * number f (fq_x q) + number f (fq_y q) * number f (fq_y q) + number f (fq_z q) * number f (fq_z q)) with (number f (fq_w q) * number f (fq_w q) + number f (fq_z q) * number f (fq_z q) + number f (fq_x q) * number f (fq_x q) + number f (fq_y q) * number f (fq_y q)) by ring.
    exact (rot_error f I (fq_z q) (fq_x q) (fq_y q) w2 (f_two f) (number f (fq_w q)) V ez ex ey k BX BY BW NW2 N2 KZ KX KY LZ LX LY EZ EX EY E HE (OV _ _ _ _ _ _ VZ VX VY OZ OX OY) F).
Qed.
Lemma moved_near f q p ex ey ez P V k E : IEEE f -> Bounded4 f q -> Each (Valid f) p -> Upto P (real_v f p) -> roundings ex = k -> roundings ey = k -> roundings ez = k -> lost f ex = 0 -> lost f ey = 0 -> lost f ez = 0 -> extent f ex <= V -> extent f ey <= V -> extent f ez <= V ->
  Over (Valid f) ex -> Over (Valid f) ey -> Over (Valid f) ez -> (1 + / IZR (2 ^ fm_prec f)) ^ (k + 7) <= 1 + E ->
  let r := fv_add f p (fq_rotate f q (mkFv (computed f ex) (computed f ey) (computed f ez))) in let n := size2 (real_q f q) in let s := vadd (real_v f p) (sandwich (real_q f q) (V3 (exact f ex) (exact f ey) (exact f ez))) in
  let near x r := Fin f x -> Rabs (number f x - r) <= E * P + (E * (1 + 4 * n) + Rabs (n - 1)) * V + 17 * unit_of f in near (fv_x r) (vx s) /\ near (fv_y r) (vy s) /\ near (fv_z r) (vz s).
Proof.
  intros I ((FW & BW) & (FX & BX) & (FY & BY) & (FZ & BZ)) VP (PX & PY & PZ) KX KY KZ LX LY LZ EX EY EZ OX OY OZ HE r n s near. destruct (two_fin_ f I) as [F2 N2], (double_fin f _ I FW BW) as [FW2 NW2]. unfold near, s. clear near s. unfold vadd. cbn [vx vy vz real_v] in *. change (real_q f q) with (Q4 (number f (fq_w q)) (number f (fq_x q)) (number f (fq_y q)) (number f (fq_z q))). destruct (sandwich_turn (number f (fq_w q)) (number f (fq_x q)) (number f (fq_y q)) (number f (fq_z q)) (V3 (exact f ex) (exact f ey) (exact f ez))) as [-> ->]. cbn [vx vy vz]. unfold n. rewrite size2_eq. apply each_xyz in VP. destruct VP as (VP1 & VP2 & VP3).
  pose proof (fin_valid f _ FX) as VX. pose proof (fin_valid f _ FY) as VY. pose proof (fin_valid f _ FZ) as VZ. pose proof (fin_valid f _ FW2) as VW2. pose proof (fin_valid f _ F2) as V2. set (w2 := f_mul f (f_two f) (fq_w q)) in *.
  assert (OV : forall x y z e1 e2 e3, Valid f x -> Valid f y -> Valid f z -> Over (Valid f) e1 -> Over (Valid f) e2 -> Over (Valid f) e3 -> Over (Valid f) (rot_expr x y z w2 (f_two f) e1 e2 e3)) by (intros; cbn; tauto).
  split; [|split]; intros F.
  - exact (moved_error f I (fq_x q) (fq_y q) (fq_z q) w2 (f_two f) (number f (fq_w q)) V ex ey ez k BY BZ BW NW2 N2 KX KY KZ LX LY LZ EX EY EZ _ P E PX HE VP1 (OV _ _ _ _ _ _ VX VY VZ OX OY OZ) F).
  - replace (number f (fq_w q) * number f (fq_w q) + number f (fq_x q) * number f (fq_x q) + number f (fq_y q) * number f (fq_y q) + number f (fq_z q) * number f (fq_z q)) with (number f (fq_w q) * number f (fq_w q) + number f (fq_y q) * number f (fq_y q) + number f (fq_z q) * number f (fq_z q) + number f (fq_x q) * number f (fq_x q)) by ring.
    exact (moved_error f I (fq_y q) (fq_z q) (fq_x q) w2 (f_two f) (number f (fq_w q)) V ey ez ex k BZ BX BW NW2 N2 KY KZ KX LY LZ LX EY EZ EX _ P E PY HE VP2 (OV _ _ _ _ _ _ VY VZ VX OY OZ OX) F).
  - replace (number f (fq_w q) * number f (fq_w q) + number f (fq_x q) * number f (fq_x q) + number f (fq_y q) * number f (fq_y q) + number f (fq_z q) * number f (fq_z q)) with (number f (fq_w q) * number f (fq_w q) + number f (fq_z q) * number f (fq_z q) + number f (fq_x q) * number f (fq_x q) + number f (fq_y q) * number f (fq_y q)) by ring.
    exact (moved_error f I (fq_z q) (fq_x q) (fq_y q) w2 (f_two f) (number f (fq_w q)) V ez ex ey k BX BY BW NW2 N2 KZ KX KY LZ LX LY EZ EX EY _ P E PZ HE VP3 (OV _ _ _ _ _ _ VZ VX VY OZ OX OY) F).
Qed.
Lemma rotate_roomy f q ex ey ez V k : IEEE f -> Bounded4 f q -> roundings ex = k -> roundings ey = k -> roundings ez = k -> lost f ex = 0 -> lost f ey = 0 -> lost f ez = 0 -> extent f ex <= V -> extent f ey <= V -> extent f ez <= V ->
  Over (Fin f) ex -> Over (Fin f) ey -> Over (Fin f) ez -> Roomy f ex -> Roomy f ey -> Roomy f ez -> (1 + / IZR (2 ^ fm_prec f)) ^ (k + 6) <= 101 / 100 -> 200 * V <= IZR (2 ^ fm_top f) ->
  Each (Fin f) (fq_rotate f q (mkFv (computed f ex) (computed f ey) (computed f ez))).
Proof.
  intros I ((FW & BW) & (FX & BX) & (FY & BY) & (FZ & BZ)) KX KY KZ LX LY LZ EX EY EZ OX OY OZ RX RY RZ G B. destruct (two_fin_ f I) as [F2 N2], (double_fin f _ I FW BW) as [FW2 NW2]. set (w2 := f_mul f (f_two f) (fq_w q)) in *. apply each_xyz. split; [|split].
  - change (Fin f (computed f (rot_expr (fq_x q) (fq_y q) (fq_z q) w2 (f_two f) ex ey ez))). apply (computed_roomy f _ I); [cbn; tauto|]. apply (rot_roomy f I (fq_x q) (fq_y q) (fq_z q) w2 (f_two f) (number f (fq_w q)) V ex ey ez k); assumption.
  - change (Fin f (computed f (rot_expr (fq_y q) (fq_z q) (fq_x q) w2 (f_two f) ey ez ex))). apply (computed_roomy f _ I); [cbn; tauto|]. apply (rot_roomy f I (fq_y q) (fq_z q) (fq_x q) w2 (f_two f) (number f (fq_w q)) V ey ez ex k); assumption.
  - change (Fin f (computed f (rot_expr (fq_z q) (fq_x q) (fq_y q) w2 (f_two f) ez ex ey))). apply (computed_roomy f _ I); [cbn; tauto|]. apply (rot_roomy f I (fq_z q) (fq_x q) (fq_y q) w2 (f_two f) (number f (fq_w q)) V ez ex ey k); assumption.
Qed.
(* a rotated vector *)
Theorem C104_rotate : forall f q v V, IEEE f -> Bounded4 f q -> Each (Valid f) v -> Upto V (real_v f v) -> let u := / IZR (2 ^ fm_prec f) in let n := size2 (real_q f q) in let r := fq_rotate f q v in let s := sandwich (real_q f q) (real_v f v) in
  (let near x r := Fin f x -> Rabs (number f x - r) <= (7 * u * (1 + 4 * n) + Rabs (n - 1)) * V + 16 * unit_of f in near (fv_x r) (vx s) /\ near (fv_y r) (vy s) /\ near (fv_z r) (vz s)) /\
  (Each (Fin f) v -> 200 * V <= IZR (2 ^ fm_top f) -> Each (Fin f) r).
Proof.
  intros f q v V I B VV (UX & UY & UZ) u n r s. destruct (prec_small f I) as (UB & _ & _). pose proof VV as VE. apply each_xyz in VE. destruct VE as (V1 & V2 & V3). growth 6%nat G6. split.
  - destruct v as [a b c]. apply (rotate_near f q (Lit a) (Lit b) (Lit c) V 0 (7 * u) I B); try reflexivity; try assumption. unfold u. cbn [Nat.add]. lra.
  - intros FV L. apply each_xyz in FV. destruct FV as (F1 & F2 & F3). destruct v as [a b c]. apply (rotate_roomy f q (Lit a) (Lit b) (Lit c) V 0 I B); try reflexivity; try assumption; try exact Logic.I. cbn [Nat.add]. lra.
Qed.
(* transforms *)
Definition real_t (f : fmt) (t : f_transform) : transform := T3 (real_v f (ft_p t)) (real_q f (ft_q t)).
Theorem C104_transform : forall f t v P V, IEEE f -> Bounded4 f (ft_q t) -> Each (Valid f) (ft_p t) -> Each (Valid f) v -> Upto P (real_v f (ft_p t)) -> Upto V (real_v f v) ->
  let u := / IZR (2 ^ fm_prec f) in let n := size2 (real_q f (ft_q t)) in let p := real_v f (ft_p t) in let q := real_q f (ft_q t) in
  (let r := ft_apply f t v in let s := vadd p (sandwich q (real_v f v)) in let near x y := Fin f x -> Rabs (number f x - y) <= 8 * u * P + (8 * u * (1 + 4 * n) + Rabs (n - 1)) * V + 17 * unit_of f in near (fv_x r) (vx s) /\ near (fv_y r) (vy s) /\ near (fv_z r) (vz s)) /\
  (let r := ft_inv_apply f t v in let s := sandwich (star q) (vsub (real_v f v) p) in let near x y := Fin f x -> Rabs (number f x - y) <= (8 * u * (1 + 4 * n) + Rabs (n - 1)) * (V + P) + 16 * unit_of f in near (fv_x r) (vx s) /\ near (fv_y r) (vy s) /\ near (fv_z r) (vz s)) /\
  (Each (Fin f) (ft_p t) -> Each (Fin f) v -> 200 * (V + P) <= IZR (2 ^ fm_top f) -> Each (Fin f) (ft_apply f t v) /\ Each (Fin f) (ft_inv_apply f t v)).
Proof.
  intros f t v P V I B VP VV UP UV u n p q. destruct (prec_small f I) as (UB & _ & _). fold u in UB. pose proof VV as VE. apply each_xyz in VE. destruct VE as (V1 & V2 & V3_). pose proof VP as PE. apply each_xyz in PE. destruct PE as (P1 & P2 & P3). growth 7%nat G7. pose proof UV as (UX & UY & UZ). pose proof UP as (PX & PY & PZ). cbn [vx vy vz real_v] in UX, UY, UZ, PX, PY, PZ.
  assert (BC : Bounded4 f (fq_conj (ft_q t))). { destruct B as ((FW & BW) & (FX & BX) & (FY & BY) & (FZ & BZ)). unfold Bounded4, Each4, fq_conj. cbn [fq_w fq_x fq_y fq_z]. destruct (neg_fin f _ FX) as [NX ->], (neg_fin f _ FY) as [NY ->], (neg_fin f _ FZ) as [NZ ->]. rewrite !Rabs_Ropp. auto 10. }
  destruct (C104_conjugate f (ft_q t) I) as (CQ & _). assert (NC : size2 (star q) = n) by (unfold n, q; unfold size2, dot, vector_part, star, with_scalar, vneg; cbn; ring).
  assert (TR : forall a b, Rabs a <= V -> Rabs b <= P -> Rabs a + Rabs b <= V + P) by (intros; lra). destruct v as [v1 v2 v3]. destruct t as [[p1 p2 p3] qq]. cbn [ft_p ft_q fv_x fv_y fv_z] in *. split; [|split].
  - apply (moved_near f qq (mkFv p1 p2 p3) (Lit v1) (Lit v2) (Lit v3) P V 0 (8 * u) I B VP UP); try reflexivity; try assumption. cbn [Nat.add]. change (/ IZR (2 ^ fm_prec f)) with u. lra.
  - rewrite <- NC. unfold q. rewrite <- CQ. apply (rotate_near f (fq_conj qq) (Sub (Lit v1) (Lit p1)) (Sub (Lit v2) (Lit p2)) (Sub (Lit v3) (Lit p3)) (V + P) 1 (8 * u) I BC); try reflexivity; try (cbn [Over]; tauto); try (cbn [lost]; ring); try (cbn [extent]; apply TR; assumption). cbn [Nat.add]. change (/ IZR (2 ^ fm_prec f)) with u. lra.
  - intros FP FV L. apply each_xyz in FP, FV. destruct FP as (F1 & F2 & F3), FV as (H1 & H2 & H3). cbn [fv_x fv_y fv_z] in *. pose proof (Rabs_pos (number f p1)) as P0. pose proof (Rabs_pos (number f v1)) as V0. pose proof (top_pos f (ieee_sane f I)) as TP. pose proof (room_large f I) as RL. assert (R1 : 1000 <= room f) by (eapply Rle_trans; [|exact RL]; apply IZR_le; vm_compute; discriminate). pose proof (unit_pos f (ieee_sane f I)) as U0. destruct (ulp_small f I) as [_ UU]. fold (ulp f) in *. change (ulp f) with u in UU.
    destruct B as ((FW & BW) & (FX & BX) & (FY & BY) & (FZ & BZ)). destruct (two_fin_ f I) as [FT NT], (double_fin f _ I FW BW) as [FW2 NW2]. set (w2 := f_mul f (f_two f) (fq_w qq)) in *. change (/ IZR (2 ^ fm_prec f)) with u in *. split.
    + apply each_xyz. split; [|split].
      * change (Fin f (computed f (Add (Lit p1) (rot_expr (fq_x qq) (fq_y qq) (fq_z qq) w2 (f_two f) (Lit v1) (Lit v2) (Lit v3))))). apply (computed_roomy f _ I); [cbn; tauto|]. apply (moved_roomy f I (fq_x qq) (fq_y qq) (fq_z qq) w2 (f_two f) (number f (fq_w qq)) V (Lit v1) (Lit v2) (Lit v3) 0) with P; try reflexivity; try assumption; try exact Logic.I. cbn [Nat.add]. change (/ IZR (2 ^ fm_prec f)) with u. lra.
      * change (Fin f (computed f (Add (Lit p2) (rot_expr (fq_y qq) (fq_z qq) (fq_x qq) w2 (f_two f) (Lit v2) (Lit v3) (Lit v1))))). apply (computed_roomy f _ I); [cbn; tauto|]. apply (moved_roomy f I (fq_y qq) (fq_z qq) (fq_x qq) w2 (f_two f) (number f (fq_w qq)) V (Lit v2) (Lit v3) (Lit v1) 0) with P; try reflexivity; try assumption; try exact Logic.I. cbn [Nat.add]. change (/ IZR (2 ^ fm_prec f)) with u. lra.
      * change (Fin f (computed f (Add (Lit p3) (rot_expr (fq_z qq) (fq_x qq) (fq_y qq) w2 (f_two f) (Lit v3) (Lit v1) (Lit v2))))). apply (computed_roomy f _ I); [cbn; tauto|]. apply (moved_roomy f I (fq_z qq) (fq_x qq) (fq_y qq) w2 (f_two f) (number f (fq_w qq)) V (Lit v3) (Lit v1) (Lit v2) 0) with P; try reflexivity; try assumption; try exact Logic.I. cbn [Nat.add]. change (/ IZR (2 ^ fm_prec f)) with u. lra.
    + assert (RS : forall a b, Rabs (number f a) <= V -> Rabs (number f b) <= P -> Roomy f (Sub (Lit a) (Lit b))). { intros a b LA LB. cbn [Roomy]. split; [exact Logic.I|]. split; [exact Logic.I|]. unfold reach. cbn [roundings extent lost Nat.max pow]. change (fin_val f a) with (number f a). change (fin_val f b) with (number f b). change (/ IZR (2 ^ fm_prec f)) with u. pose proof (Rabs_pos (number f a)). pose proof (Rabs_pos (number f b)). assert ((1 + u) * 1 * (Rabs (number f a) + Rabs (number f b)) <= 101 / 100 * (V + P)) by (rewrite Rmult_1_r; apply Rmult_le_compat; lra). unfold room in *. lra. }
      apply (rotate_roomy f (fq_conj qq) (Sub (Lit v1) (Lit p1)) (Sub (Lit v2) (Lit p2)) (Sub (Lit v3) (Lit p3)) (V + P) 1 I BC); try reflexivity; try (cbn [Over]; tauto); try (cbn [lost]; ring); try (cbn [extent]; apply TR; assumption); try (apply RS; assumption); try assumption. cbn [Nat.add]. change (/ IZR (2 ^ fm_prec f)) with u. lra.
Qed.
(* lengths of rotated vectors and of products *)
Lemma near_len a b c d p q r s D : Rabs (a - p) <= D -> Rabs (b - q) <= D -> Rabs (c - r) <= D -> Rabs (d - s) <= D -> sqrt (a * a + b * b + c * c + d * d) <= sqrt (p * p + q * q + r * r + s * s) + 2 * D.
Proof.
  intros HA HB HC HD. set (L := sqrt (p * p + q * q + r * r + s * s)). assert (L0 : 0 <= L) by apply sqrt_pos. assert (LL : L * L = p * p + q * q + r * r + s * s) by (apply sqrt_sqrt; nra). assert (D0 : 0 <= D) by (pose proof (Rabs_pos (a - p)); lra).
  assert (ONE : Rabs (1 * p) + Rabs (1 * q) + Rabs (1 * r) + Rabs (1 * s) <= 2 * L). { eapply Rle_trans; [apply cauchy4|]. fold L. right. f_equal. replace (1 * 1 + 1 * 1 + 1 * 1 + 1 * 1) with (2 * 2) by ring. apply sqrt_square. lra. } rewrite !Rmult_1_l in ONE.
  rewrite <- (sqrt_square (L + 2 * D)) by lra. apply sqrt_le_1_alt. assert (T : forall x y, Rabs (x - y) <= D -> x * x <= y * y + 2 * (Rabs y * D) + D * D). { intros x y H. replace (x * x) with (y * y + 2 * (y * (x - y)) + (x - y) * (x - y)) by ring. assert (y * (x - y) <= Rabs y * D) by (eapply Rle_trans; [apply Rle_abs|]; rewrite Rabs_mult; apply Rmult_le_compat_l; [apply Rabs_pos|exact H]). assert ((x - y) * (x - y) <= D * D) by (apply abs_inv in H; nra). lra. }
  pose proof (T _ _ HA). pose proof (T _ _ HB). pose proof (T _ _ HC). pose proof (T _ _ HD). assert (Rabs p * D + Rabs q * D + Rabs r * D + Rabs s * D <= 2 * L * D) by (replace (Rabs p * D + Rabs q * D + Rabs r * D + Rabs s * D) with ((Rabs p + Rabs q + Rabs r + Rabs s) * D) by ring; apply Rmult_le_compat_r; assumption). nra.
Qed.
Lemma near_len' a b c d p q r s D : Rabs (a - p) <= D -> Rabs (b - q) <= D -> Rabs (c - r) <= D -> Rabs (d - s) <= D -> Rabs (sqrt (a * a + b * b + c * c + d * d) - sqrt (p * p + q * q + r * r + s * s)) <= 2 * D.
Proof.
  intros HA HB HC HD. pose proof (near_len a b c d p q r s D HA HB HC HD). rewrite Rabs_minus_sym in HA, HB, HC, HD. pose proof (near_len p q r s a b c d D HA HB HC HD). apply Rabs_le. lra.
Qed.
Lemma hamilton_size a b : size2 (hamilton a b) = size2 a * size2 b.
Proof. destruct a as [a b' c d], b as [p q r s]. rewrite hamilton_eq. unfold size2, dot, vector_part. cbn [qw qx qy qz vx vy vz]. ring. Qed.
Lemma size2_nonneg q : 0 <= size2 q.
Proof. unfold size2, dot, vector_part. cbn. nra. Qed.
Lemma hamilton_len a b : len (hamilton a b) = len a * len b.
Proof. unfold len. rewrite hamilton_size. apply sqrt_mult; apply size2_nonneg. Qed.
Lemma len_eq q : len q = sqrt (qw q * qw q + qx q * qx q + qy q * qy q + qz q * qz q).
Proof. unfold len, size2, dot, vector_part. cbn. f_equal. ring. Qed.
Lemma part_len q : Rabs (qw q) <= len q /\ Rabs (qx q) <= len q /\ Rabs (qy q) <= len q /\ Rabs (qz q) <= len q.
Proof.
  rewrite len_eq. destruct q as [w x y z]. cbn [qw qx qy qz]. assert (T : forall a s, a * a <= s -> Rabs a <= sqrt s) by (intros a s H; rewrite <- (sqrt_Rsqr_abs a); apply sqrt_le_1_alt; exact H). repeat split; apply T; nra.
Qed.
Lemma sandwich_len q v : dot (sandwich q v) (sandwich q v) = size2 q * size2 q * dot v v.
Proof.
  destruct q as [w a b c], v as [x y z]. pose proof (sandwich_turn w a b c (V3 x y z)) as [TY TZ]. unfold dot at 1. rewrite TY, TZ, !sandwich_x. unfold size2, dot, vector_part. cbn [vx vy vz qw qx qy qz]. ring.
Qed.
Theorem C104_rotate_length : forall f q v, IEEE f -> Bounded4 f q -> Each (Fin f) v -> let u := / IZR (2 ^ fm_prec f) in let n := size2 (real_q f q) in let r := fq_rotate f q v in
  Each (Fin f) r -> Rabs (sqrt (norm2 f r) - sqrt (norm2 f v)) <= (14 * u * (1 + 4 * n) + 3 * Rabs (n - 1)) * sqrt (norm2 f v) + 32 * unit_of f.
Proof.
  intros f q v I B FV u n r FR. assert (VV : Each (Valid f) v) by (intros x P; apply fin_valid, FV, P). set (L := sqrt (norm2 f v)). assert (UV : Upto L (real_v f v)). { assert (T : forall a s, a * a <= s -> Rabs a <= sqrt s) by (intros a s H; rewrite <- (sqrt_Rsqr_abs a); apply sqrt_le_1_alt; exact H). unfold L. repeat split; apply T; cbn [real_v vx vy vz]; unfold norm2; nra. }
  destruct (C104_rotate f q v L I B VV UV) as [(NX & NY & NZ) _]. apply each_xyz in FR. destruct FR as (RX & RY & RZ). fold r in NX, NY, NZ. specialize (NX RX). specialize (NY RY). specialize (NZ RZ). fold u n in NX, NY, NZ. set (D := (7 * u * (1 + 4 * n) + Rabs (n - 1)) * L + 16 * unit_of f) in *. set (s := sandwich (real_q f q) (real_v f v)) in *.
  assert (D0 : 0 <= D) by (eapply Rle_trans; [apply Rabs_pos|exact NX]). pose proof (near_len' (number f (fv_x r)) (number f (fv_y r)) (number f (fv_z r)) 0 (vx s) (vy s) (vz s) 0 D NX NY NZ ltac:(rewrite Rminus_0_r, Rabs_R0; exact D0)) as NL. rewrite !Rmult_0_l, !Rplus_0_r in NL. fold (norm2 f r) in NL. change (vx s * vx s + vy s * vy s + vz s * vz s) with (dot s s) in NL. unfold s in NL. rewrite sandwich_len in NL. fold n in NL.
  pose proof (size2_nonneg (real_q f q)) as N0. fold n in N0. change (dot (real_v f v) (real_v f v)) with (norm2 f v) in NL. rewrite sqrt_mult in NL by (try apply norm2_nonneg; apply Rmult_le_pos; assumption). rewrite sqrt_square in NL by exact N0. fold L in NL. assert (L0 : 0 <= L) by apply sqrt_pos. replace (sqrt (norm2 f r) - L) with ((sqrt (norm2 f r) - n * L) + (n - 1) * L) by ring. eapply Rle_trans; [apply Rabs_triang|]. rewrite (Rabs_mult (n - 1)), (Rabs_right L) by lra. unfold D in NL. lra.
Qed.
Lemma product_len f a b : IEEE f -> Each4 (Valid f) a -> Each4 (Valid f) b -> Each4 (Fin f) (fq_mul f a b) -> Rabs (len (real_q f (fq_mul f a b)) - len (real_q f a) * len (real_q f b)) <= 10 / IZR (2 ^ fm_prec f) * (len (real_q f a) * len (real_q f b)) + 6 * unit_of f.
Proof.
  intros I VA VB (FW & FX & FY & FZ). destruct (C104_product f a b I VA VB) as (NW & NX & NY & NZ). specialize (NW FW). specialize (NX FX). specialize (NY FY). specialize (NZ FZ). pose proof (near_len' _ _ _ _ _ _ _ _ _ NW NX NY NZ) as NL. rewrite <- (len_eq (hamilton (real_q f a) (real_q f b))), hamilton_len in NL. rewrite (len_eq (real_q f (fq_mul f a b))). eapply Rle_trans; [exact NL|]. right. unfold Rdiv. ring.
Qed.
Theorem C104_chain : forall f l q0 d, IEEE f -> 0 <= d < 1 -> (forall q, In q (q0 :: l) -> Each4 (Fin f) q /\ 1 - d <= len (real_q f q) <= 1 + d) ->
  let u := / IZR (2 ^ fm_prec f) in let lo := (1 - d) * (1 - 11 * u) in let hi := (1 + d) * (1 + 11 * u) in let N := List.length (q0 :: l) in let r := fold_left (fq_mul f) l q0 in
  / 2 <= lo ^ N -> hi ^ N <= 2 -> Each4 (Fin f) r /\ lo ^ N <= len (real_q f r) <= hi ^ N.
Proof.
  intros f l q0 d I HD HQ u lo hi. destruct (prec_small f I) as (UB & UU & _). fold u in UB, UU. pose proof (unit_pos f (ieee_sane f I)) as UP. assert (LO : 0 <= lo <= 1) by (unfold lo; split; [apply Rmult_le_pos; lra|]; assert ((1 - d) * (1 - 11 * u) <= 1 * 1) by (apply Rmult_le_compat; lra); lra). assert (HI : 1 <= hi) by (unfold hi; assert (1 * 1 <= (1 + d) * (1 + 11 * u)) by (apply Rmult_le_compat; lra); lra).
  induction l as [|q l IH] using rev_ind; cbv zeta in *.
  - cbn [List.length fold_left pow]. rewrite !Rmult_1_r. intros _ _. destruct (HQ q0 (or_introl eq_refl)) as [F0 L0]. split; [exact F0|]. unfold lo, hi. assert ((1 - d) * (1 - 11 * u) <= (1 - d) * 1) by (apply Rmult_le_compat_l; lra). assert ((1 + d) * 1 <= (1 + d) * (1 + 11 * u)) by (apply Rmult_le_compat_l; lra). lra.
  - rewrite fold_left_app. cbn [fold_left]. replace (List.length (q0 :: l ++ [q])) with (S (List.length (q0 :: l))) by (cbn [List.length]; rewrite app_length; cbn; lia). set (N := List.length (q0 :: l)) in *. cbn [pow]. intros HL HH.
    assert (PL : 0 <= lo ^ N) by (apply pow_le; lra). assert (PH : 1 <= hi ^ N) by (apply pow_R1_Rle; exact HI). assert (HL' : / 2 <= lo ^ N) by (apply Rle_trans with (1 := HL); assert (lo * lo ^ N <= 1 * lo ^ N) by (apply Rmult_le_compat_r; lra); lra). assert (HH' : hi ^ N <= 2) by (assert (1 * hi ^ N <= hi * hi ^ N) by (apply Rmult_le_compat_r; lra); lra).
    destruct IH as [FA LA]; [intros p HP; apply HQ; cbn in *; rewrite in_app_iff; tauto|exact HL'|exact HH'|]. destruct (HQ q) as [FQ LQ]; [cbn; rewrite in_app_iff; cbn; tauto|]. set (a := fold_left (fq_mul f) l q0) in *. destruct (part_len (real_q f a)) as (A1 & A2 & A3 & A4). destruct (part_len (real_q f q)) as (Q1 & Q2 & Q3 & Q4). cbn [real_q qw qx qy qz] in A1, A2, A3, A4, Q1, Q2, Q3, Q4. pose proof FA as (a1 & a2 & a3 & a4). pose proof FQ as (q1 & q2 & q3 & q4).
    pose proof (room_large f I) as RL. unfold room in RL. assert (R1 : 1000 <= IZR (2 ^ fm_top f) / 2) by (eapply Rle_trans; [|exact RL]; apply IZR_le; vm_compute; discriminate).
    assert (FR : Each4 (Fin f) (fq_mul f a q)) by (apply (C104_product_finite f a q 2 2 I); [repeat split; try assumption; lra|repeat split; try assumption; lra|lra]). split; [exact FR|].
    assert (V4 : forall p, Each4 (Fin f) p -> Each4 (Valid f) p) by (intros p (p1 & p2 & p3 & p4); repeat split; apply fin_valid; assumption). pose proof (product_len f a q I (V4 _ FA) (V4 _ FQ) FR) as PR. unfold Rdiv in PR. fold u in PR. apply abs_inv in PR. set (X := len (real_q f a)) in *. set (Y := len (real_q f q)) in *. set (Z := len (real_q f (fq_mul f a q))) in *.
    assert (XY : lo ^ N * (1 - d) <= X * Y <= hi ^ N * (1 + d)) by (split; apply Rmult_le_compat; lra). assert (XH : / 2 <= X * Y). { apply Rle_trans with (1 := HL). eapply Rle_trans; [|apply XY]. unfold lo at 1. replace ((1 - d) * (1 - 11 * u) * lo ^ N) with (lo ^ N * (1 - d) * (1 - 11 * u)) by ring. assert (lo ^ N * (1 - d) * (1 - 11 * u) <= lo ^ N * (1 - d) * 1) by (apply Rmult_le_compat_l; [apply Rmult_le_pos; lra|lra]). lra. }
    assert (UX : 6 * unit_of f <= u * (X * Y)) by (assert (u * / 2 <= u * (X * Y)) by (apply Rmult_le_compat_l; lra); lra). split.
    + apply Rle_trans with (X * Y * (1 - 11 * u)); [|lra]. unfold lo at 1. replace ((1 - d) * (1 - 11 * u) * lo ^ N) with (lo ^ N * (1 - d) * (1 - 11 * u)) by ring. apply Rmult_le_compat_r; lra.
    + apply Rle_trans with (X * Y * (1 + 11 * u)); [lra|]. unfold hi at 1. replace ((1 + d) * (1 + 11 * u) * hi ^ N) with (hi ^ N * (1 + d) * (1 + 11 * u)) by ring. apply Rmult_le_compat_r; lra.
Qed.
(* normalized *)
Lemma normal_R4 u h x L l s n : 0 < u <= / 1000 -> 0 <= h -> 0 < L -> Rabs x <= L -> Rabs (l - L) <= 4 * u * L -> 0 < l -> Rabs (s - / l) <= u * / l -> Rabs (n - x * s) <= u * Rabs (x * s) + h -> Rabs (n - x / L) <= 7 * u * Rabs (x / L) + h.
Proof.
  intros U H LP XL HL lP HS HN. apply abs_inv in HL, HS. set (y := x / L). assert (XY : x = y * L) by (unfold y; field; lra). set (t := s * L). assert (XT : x * s = y * t) by (unfold t; rewrite XY; ring).
  pose proof (Rinv_0_lt_compat _ lP) as IP. assert (IL : / l * l = 1) by (apply Rinv_l; lra). assert (A1 : (1 - u) * L <= t * l <= (1 + u) * L). { unfold t. replace (s * L * l) with (s * l * L) by ring. assert (1 - u <= s * l <= 1 + u) by nra. nra. }
  assert (T1 : t <= 1 + 55 / 10 * u). { apply (Rmult_le_reg_r l); [exact lP|]. apply Rle_trans with ((1 + u) * L); [lra|]. apply Rle_trans with ((1 + 55 / 10 * u) * ((1 - 4 * u) * L)); [rewrite <- Rmult_assoc; apply Rmult_le_compat_r; [lra|nra]|apply Rmult_le_compat_l; lra]. }
  assert (T2 : 1 - 55 / 10 * u <= t). { apply (Rmult_le_reg_r l); [exact lP|]. apply Rle_trans with ((1 - u) * L); [|lra]. apply Rle_trans with ((1 - 55 / 10 * u) * ((1 + 4 * u) * L)); [apply Rmult_le_compat_l; lra|rewrite <- Rmult_assoc; apply Rmult_le_compat_r; [lra|nra]]. }
  rewrite XT in *. assert (YT : Rabs (y * t) = Rabs y * t) by (rewrite Rabs_mult, (Rabs_right t) by lra; reflexivity). rewrite YT in *. pose proof (Rabs_pos y) as YP.
  replace (n - y) with ((n - y * t) + y * (t - 1)) by ring. eapply Rle_trans; [apply Rabs_triang|]. rewrite (Rabs_mult y). assert (T3 : Rabs (t - 1) <= 55 / 10 * u) by (apply Rabs_le; lra). assert (Rabs y * Rabs (t - 1) <= Rabs y * (55 / 10 * u)) by (apply Rmult_le_compat_l; assumption). assert (u * (Rabs y * t) <= Rabs y * (u * (15 / 10))) by (replace (u * (Rabs y * t)) with (Rabs y * (u * t)) by ring; apply Rmult_le_compat_l; [exact YP|apply Rmult_le_compat_l; lra]). lra.
Qed.
Definition squares_expr (a b c d : fnum) : expr := Add (Add (Add (Mul (Lit a) (Lit a)) (Mul (Lit b) (Lit b))) (Mul (Lit c) (Lit c))) (Mul (Lit d) (Lit d)).
Lemma squares_error f a b c d : IEEE f -> Valid f a -> Valid f b -> Valid f c -> Valid f d -> Fin f (f_squares f a b c d) -> let N := number f a * number f a + number f b * number f b + number f c * number f c + number f d * number f d in
  Rabs (number f (f_squares f a b c d) - N) <= 41 / 10 / IZR (2 ^ fm_prec f) * N + 3 * unit_of f.
Proof.
  intros I VA VB VC VD F N. destruct (prec_small f I) as (UB & _ & _). pose proof (computed_error f (squares_expr a b c d) I ltac:(cbn; tauto) F) as E. change (computed f (squares_expr a b c d)) with (f_squares f a b c d) in E. change (exact f (squares_expr a b c d)) with N in E. change (roundings (squares_expr a b c d)) with 4%nat in E.
  assert (EX : extent f (squares_expr a b c d) = N). { unfold squares_expr, N. cbn [extent]. unfold fin_val. fold (number f a) (number f b) (number f c) (number f d). assert (SQ : forall x, Rabs x * Rabs x = x * x) by (intros x; rewrite <- Rabs_mult; apply Rabs_right; nra). rewrite !SQ. reflexivity. } rewrite EX in E.
  assert (LL : lost f (squares_expr a b c d) <= 3 * unit_of f). { pose proof (lost4 f I) as L. cbv zeta in L. unfold squares_expr. cbn [lost roundings extent pow]. set (u := / IZR (2 ^ fm_prec f)) in *. assert (M : forall p q, (1 + u) * (1 * p * 0 + 1 * q * 0 + 0 * 0) + unit_of f / 2 = unit_of f / 2) by (intros; ring). rewrite !M. exact L. }
  assert (N0 : 0 <= N) by (unfold N; nra). unfold ulp in E. set (u := / IZR (2 ^ fm_prec f)) in *. replace (41 / 10 / IZR (2 ^ fm_prec f)) with (41 / 10 * u) by (unfold u, Rdiv; ring). assert (G : (1 + u) ^ 4 - 1 <= 41 / 10 * u). { cbn [pow]. assert (u * u <= / 1000 * u) by (apply Rmult_le_compat_r; lra). assert (0 <= u * u) by nra. assert (u * (u * u) <= / 1000 * (u * u)) by (apply Rmult_le_compat_r; lra). assert (u * (u * (u * u)) <= / 1000 * (u * (u * u))) by (apply Rmult_le_compat_r; [nra|lra]). nra. }
  assert (((1 + u) ^ 4 - 1) * N <= 41 / 10 * u * N) by (apply Rmult_le_compat_r; assumption). lra.
Qed.
Lemma cube_units f : IEEE f -> let u := / IZR (2 ^ fm_prec f) in 32 * unit_of f <= u * u * u.
Proof.
  intros I u. pose proof (ieee_deep f I) as D. pose proof D as [W (D1 & D2 & D3)]. pose proof W as [W1 W2]. destruct (prec_small f I) as (UB & UU & QQ). fold u in QQ. assert (EQ : (32 * (2 ^ fm_prec f * 2 ^ fm_prec f * 2 ^ fm_prec f) <= 2 ^ fm_low f)%Z) by (change 32%Z with (2 ^ 5)%Z; rewrite <- !Z.pow_add_r by lia; apply Z.pow_le_mono_r; lia). apply IZR_le in EQ. rewrite !mult_IZR in EQ. pose proof (unit_scale f W) as US. set (q := IZR (2 ^ fm_prec f)) in *. assert (QP : 0 < q) by (unfold q; apply pow_scale, W). apply (Rmult_le_reg_r (IZR (2 ^ fm_low f) * (q * q * q))); [repeat apply Rmult_lt_0_compat; assumption|]. unfold unit_of. replace (32 * / IZR (2 ^ fm_low f) * (IZR (2 ^ fm_low f) * (q * q * q))) with (32 * (q * q * q)) by (field; lra). replace (u * u * u * (IZR (2 ^ fm_low f) * (q * q * q))) with ((q * u) * (q * u) * (q * u) * IZR (2 ^ fm_low f)) by ring. rewrite QQ. lra.
Qed.
(* the root of a sum of four squares that is above 2u *)
Lemma root_R u unit N k l : 0 < u <= / 1000 -> 0 < unit -> 32 * unit <= u * u * u -> 0 <= N -> 0 < k -> Rabs (k - N) <= 41 / 10 * u * N + 3 * unit -> Rabs (l - sqrt k) <= u * sqrt k -> 2 * u < l -> 0 < N /\ Rabs (l - sqrt N) <= 4 * u * sqrt N.
Proof.
  intros U H0 H N0 K0 HK HL L2. apply abs_inv in HK, HL. pose proof (sqrt_pos k) as S0. pose proof (sqrt_sqrt k ltac:(lra)) as SS. set (r := sqrt k) in *. assert (R1 : u <= r) by nra. assert (K1 : u * u <= k) by nra.
  assert (N1 : u * u <= 2 * N). { assert (41 / 10 * u * N <= 41 / 10 * / 1000 * N) by (apply Rmult_le_compat_r; lra). assert (u * u * u <= / 1000 * (u * u)) by nra. nra. }
  assert (HU : 3 * unit <= 2 / 10 * u * N). { assert (u * (u * u) <= u * (2 * N)) by (apply Rmult_le_compat_l; lra). lra. }
  assert (NP : 0 < N) by nra. split; [exact NP|]. pose proof (sqrt_lt_R0 N NP) as LP. pose proof (sqrt_sqrt N N0) as LL. set (L := sqrt N) in *.
  assert (U1 : r <= (1 + 22 / 10 * u) * L). { apply Rsqr_incr_0; [|lra|apply Rmult_le_pos; lra]. unfold Rsqr. rewrite SS. replace ((1 + 22 / 10 * u) * L * ((1 + 22 / 10 * u) * L)) with ((1 + 22 / 10 * u) * (1 + 22 / 10 * u) * (L * L)) by ring. rewrite LL. apply Rle_trans with ((1 + 43 / 10 * u) * N); [lra|]. apply Rmult_le_compat_r; [lra|nra]. }
  assert (U2 : (1 - 22 / 10 * u) * L <= r). { apply Rsqr_incr_0; [|apply Rmult_le_pos; lra|lra]. unfold Rsqr. rewrite SS. replace ((1 - 22 / 10 * u) * L * ((1 - 22 / 10 * u) * L)) with ((1 - 22 / 10 * u) * (1 - 22 / 10 * u) * (L * L)) by ring. rewrite LL. apply Rle_trans with ((1 - 43 / 10 * u) * N); [|lra]. apply Rmult_le_compat_r; [lra|nra]. }
  apply Rabs_le. assert (u * r <= u * ((1 + 22 / 10 * u) * L)) by (apply Rmult_le_compat_l; lra). assert (u * ((1 + 22 / 10 * u) * L) <= 11 / 10 * u * L) by (replace (u * ((1 + 22 / 10 * u) * L)) with ((u * (1 + 22 / 10 * u)) * L) by ring; apply Rmult_le_compat_r; [lra|nra]). lra.
Qed.
Theorem C104_normalized : forall f q b l, IEEE f -> Each4 (Fin f) q -> f_sqrt f (f_squares f (fq_x q) (fq_y q) (fq_z q) (fq_w q)) = FFin b l ->
  let w := fq_normalized f q in let u := / IZR (2 ^ fm_prec f) in let L := len (real_q f q) in let near x y := Rabs (number f x - number f y / L) <= 7 * u * Rabs (number f y / L) + unit_of f / 2 in
  (Less f (f_eps f) (FFin b l) -> Each4 (Fin f) w /\ Rabs (size2 (real_q f w) - 1) <= 16 * u /\ near (fq_w w) (fq_w q) /\ near (fq_x w) (fq_x q) /\ near (fq_y w) (fq_y q) /\ near (fq_z w) (fq_z q)) /\
  (~ Less f (f_eps f) (FFin b l) -> w = q).
Proof.
  intros f q b l I (FW & FX & FY & FZ) E w u L near. pose proof (ieee_deep f I) as D. pose proof D as [W _]. pose proof W as [W1 W2]. pose proof (unit_pos f W) as UP. split; [|intros N; unfold w, fq_normalized; cbv zeta; rewrite E; unfold f_gt; destruct (lt_reflect f (f_eps f) (FFin b l) W) as [G|G]; [contradiction|reflexivity]].
  intros G. assert (WE : w = let s := f_inv f (FFin b l) in mkFq (f_mul f (fq_w q) s) (f_mul f (fq_x q) s) (f_mul f (fq_y q) s) (f_mul f (fq_z q) s)) by (unfold w, fq_normalized; cbv zeta; rewrite E; unfold f_gt; rewrite (proj2 (lt_less f _ _ W) G); reflexivity). destruct (eps_unit f I) as [EV EF].
  assert (VL : 2 * u < val f b l). { destruct G as (p & r & GP & GQ & G). unfold f_eps in GP. cbn in GP, GQ. subst p r. cbn in G. rewrite EV in G. exact G. } destruct (prec_small f I) as (UB & UU & QQ). fold u in UB, UU, QQ. pose proof (cube_units f I) as CU. cbv zeta in CU. fold u in CU.
  set (s2 := f_squares f (fq_x q) (fq_y q) (fq_z q) (fq_w q)) in *. assert (VS : Valid f s2) by (apply (computed_valid f (squares_expr (fq_x q) (fq_y q) (fq_z q) (fq_w q)) I); cbn; repeat split; apply fin_valid; assumption).
  assert (KS : forall t, f_sqrt f t = FFin b l -> Valid f t -> exists k, t = FFin false k /\ Finite f k /\ (0 < k)%Z). { intros t T V. destruct t as [|c|c k]; [discriminate|destruct c; discriminate|]. cbn [f_sqrt] in T. cbn in V. pose proof (rep_nonneg f k (proj1 V)). destruct (Z.eqb_spec k 0) as [KZ|NZ]; [injection T as T1 T2; rewrite <- T2, val_zero in VL; lra|]. destruct c; [discriminate|]. exists k. split; [reflexivity|]. split; [exact V|lia]. }
  destruct (KS s2 E VS) as (k & ES & FK & KP). rewrite ES in E. assert (SF : Fin f s2) by (exists false, k; auto). pose proof (squares_error f _ _ _ _ I (fin_valid f _ FX) (fin_valid f _ FY) (fin_valid f _ FZ) (fin_valid f _ FW) SF) as SE. fold s2 in SE. rewrite ES in SE. cbn [number] in SE. fold (number f (fq_x q)) (number f (fq_y q)) (number f (fq_z q)) (number f (fq_w q)) in SE. cbv zeta in SE. unfold Rdiv at 1 in SE. fold u in SE.
  assert (NE : number f (fq_x q) * number f (fq_x q) + number f (fq_y q) * number f (fq_y q) + number f (fq_z q) * number f (fq_z q) + number f (fq_w q) * number f (fq_w q) = size2 (real_q f q)) by (rewrite size2_eq; ring). rewrite NE in SE. pose proof (size2_nonneg (real_q f q)) as N0. set (N := size2 (real_q f q)) in *.
  destruct (sqrt_fin f k D FK KP) as (m & EM & FM & MP). rewrite E in EM. injection EM as -> ->. pose proof (sqrt_correct f k D KP) as CK. rewrite E in CK. apply correct_parts in CK. destruct CK as [_ NL]. assert (DIV : forall a, a / IZR (2 ^ fm_prec f) = u * a) by (intros a; unfold Rdiv, u; ring). pose proof (near_rel f _ _ W NL (sqrt_full f k D KP)) as LE. rewrite (Rabs_right (sqrt (val f false k))) in LE by (apply Rle_ge, sqrt_pos). rewrite DIV in LE.
  assert (KV : 0 < val f false k) by (rewrite <- (val_zero f false); apply val_lt; [exact W|exact KP]). destruct (root_R u (unit_of f) N (val f false k) (val f false m) UB UP CU N0 KV SE LE VL) as [NP LB]. change (sqrt N) with L in LB. assert (LP : 0 < L) by (apply sqrt_lt_R0, NP). assert (LL : L * L = N) by (apply sqrt_sqrt, N0). assert (lP : 0 < val f false m) by lra.
  pose proof (div_correct f false (2 ^ fm_low f) false m W (Z.pow_nonneg 2 _ ltac:(lia)) MP) as CI. rewrite (one_val f W) in CI. unfold Rdiv in CI. rewrite Rmult_1_l in CI. fold (f_one f) in CI. change (f_div f (f_one f) (FFin false m)) with (f_inv f (FFin false m)) in CI.
  pose proof (Rinv_0_lt_compat _ lP) as IP. assert (IB : / val f false m <= IZR (2 ^ fm_prec f)). { assert (UI : / u = IZR (2 ^ fm_prec f)) by (unfold u; apply Rinv_inv). rewrite <- UI. apply Rinv_le_contravar; lra. }
  destruct (correct_le_fin f _ _ false (2 ^ fm_prec f * 2 ^ fm_low f) W CI) as (sg & s & EI); [apply count_fin; [exact W|lia|pose proof (pow_pos_ (fm_prec f) ltac:(lia)); lia]|split; [lra|]; rewrite (count_val f _ W); exact IB|].
  rewrite EI in CI, WE. cbv zeta in WE. pose proof (correct_parts f _ _ _ CI) as [FS NI]. pose proof (near_rel f _ _ W NI (inv_full f k m D FK lP LE)) as IE. rewrite (Rabs_right (/ val f false m)) in IE by lra. rewrite DIV in IE. set (S := FFin sg s) in *. change (val f sg s) with (number f S) in IE. assert (FSS : Fin f S) by (exists sg, s; auto).
  destruct (part_len (real_q f q)) as (A1 & A2 & A3 & A4). cbn [real_q qw qx qy qz] in A1, A2, A3, A4. fold L in A1, A2, A3, A4.
  assert (PARTS : forall x, Fin f x -> Rabs (number f x) <= L -> let n := f_mul f x S in Fin f n /\ near n x).
  { intros x F X n. assert (PS : Rabs (number f x * number f S) <= 2). { rewrite Rabs_mult. assert (B1 : Rabs (number f S) <= (1 + u) * / val f false m) by (apply abs_inv in IE; apply Rabs_le; lra). assert (Rabs (number f x) * Rabs (number f S) <= L * ((1 + u) * / val f false m)) by (apply Rmult_le_compat; try apply Rabs_pos; assumption). apply abs_inv in LB. assert (L * / val f false m <= 11 / 10). { apply (Rmult_le_reg_r (val f false m)); [exact lP|]. rewrite Rmult_assoc, Rinv_l by lra. nra. } nra. }
    assert (FN : Fin f n). { apply (mul_fin f _ _ I F FSS). unfold room. pose proof (room_large f I) as RL. unfold room in RL. assert (1000 <= IZR (2 ^ 60)) by (apply IZR_le; vm_compute; discriminate). lra. } split; [exact FN|].
    destruct (mul_step f x S I (fin_valid f _ F) (fin_valid f _ FSS) FN) as (_ & _ & HN). change (ulp f) with u in HN. apply (normal_R4 u (unit_of f / 2) (number f x) L (val f false m) (number f S) _ UB ltac:(lra) LP X LB lP IE HN). }
  destruct (PARTS _ FW A1) as [PW NW]. destruct (PARTS _ FX A2) as [PX NX]. destruct (PARTS _ FY A3) as [PY NY]. destruct (PARTS _ FZ A4) as [PZ NZ]. rewrite WE. unfold Each4. rewrite size2_eq. cbn [fq_w fq_x fq_y fq_z]. split; [auto|]. split; [|auto].
  set (cw := number f (fq_w q) / L) in *. set (cx := number f (fq_x q) / L) in *. set (cy := number f (fq_y q) / L) in *. set (cz := number f (fq_z q) / L) in *. unfold near in NW, NX, NY, NZ. fold cw cx cy cz in NW, NX, NY, NZ.
  assert (N1 : cw * cw + cx * cx + cy * cy + cz * cz = 1) by (transitivity (N / (L * L)); [unfold cw, cx, cy, cz, N; rewrite size2_eq; field; lra|rewrite LL; field; lra]).
  assert (CB : forall c, c * c <= 1 -> Rabs c <= 1) by (intros c H; apply Rabs_le; nra). pose proof (CB cw ltac:(nra)) as BW. pose proof (CB cx ltac:(nra)) as BX. pose proof (CB cy ltac:(nra)) as BY. pose proof (CB cz ltac:(nra)) as BZ.
  assert (SQD : forall n c, Rabs (n - c) <= 7 * u * Rabs c + unit_of f / 2 -> Rabs c <= 1 -> Rabs (n * n - c * c) <= 1405 / 100 * u * (c * c) + 2 * unit_of f).
  { intros n c NC C1. replace (n * n - c * c) with ((n - c) * (2 * c + (n - c))) by ring. rewrite Rabs_mult. pose proof (Rabs_pos c) as CP. pose proof (Rabs_pos (n - c)) as DP. assert (T : Rabs (2 * c + (n - c)) <= 2 * Rabs c + Rabs (n - c)) by (eapply Rle_trans; [apply Rabs_triang|rewrite Rabs_mult, (Rabs_right 2) by lra; lra]). assert (CC : c * c = Rabs c * Rabs c) by (rewrite <- Rabs_mult, Rabs_right by nra; reflexivity). rewrite CC. set (a := Rabs c) in *. set (e := Rabs (n - c)) in *. apply Rle_trans with (e * (2 * a + e)); [apply Rmult_le_compat_l; assumption|]. set (h := unit_of f / 2) in *. assert (HB : 0 < h <= / 2000 * u) by (unfold h; lra). replace (2 * unit_of f) with (4 * h) by (unfold h; field).
    apply Rle_trans with ((7 * u * a + h) * (2 * a + (7 * u * a + h))); [apply Rmult_le_compat; lra|]. assert (X1 : 49 * (u * u) * (a * a) <= 5 / 100 * u * (a * a)) by (apply Rmult_le_compat_r; nra). assert (X2 : h * (2 * a + 14 * u * a + h) <= 4 * h) by (rewrite (Rmult_comm 4); apply Rmult_le_compat_l; nra). nra. }
  pose proof (SQD _ _ NW BW) as QW. pose proof (SQD _ _ NX BX) as QX. pose proof (SQD _ _ NY BY) as QY. pose proof (SQD _ _ NZ BZ) as QZ. apply abs_inv in QW, QX, QY, QZ. set (sw := cw * cw) in *. set (sx := cx * cx) in *. set (sy := cy * cy) in *. set (sz := cz * cz) in *. apply Rabs_le. assert (TT : 1405 / 100 * u * sw + 1405 / 100 * u * sx + 1405 / 100 * u * sy + 1405 / 100 * u * sz = 1405 / 100 * u) by (transitivity (1405 / 100 * u * (sw + sx + sy + sz)); [ring|rewrite N1; ring]). lra.
Qed.
(* infinities and nan *)
Definition turn_expr (x y z w two : fnum) (ex ey ez : expr) : expr :=
  Add (Add ex (Mul (minor_expr y z ey ez) (Mul (Lit two) (Lit w)))) (Mul (minor_expr y z (minor_expr z x ez ex) (minor_expr x y ex ey)) (Lit two)).
Theorem C104_rotate_bad : forall f q v, IEEE f -> Each4 (Valid f) q -> Each (Valid f) v ->
  (~ Each4 Num q \/ ~ Each Num v -> Each NaN (fq_rotate f q v)) /\ (~ Each4 (Fin f) q \/ ~ Each (Fin f) v -> Each (fun x => ~ Fin f x) (fq_rotate f q v)).
Proof.
  intros f q v I (QW & QX & QY & QZ) VV. apply each_xyz in VV. destruct VV as (V1 & V2 & V3). assert (T2 : Valid f (f_two f)) by (apply fin_valid, two_fin_, I).
  pose (e1 := turn_expr (fq_x q) (fq_y q) (fq_z q) (fq_w q) (f_two f) (Lit (fv_x v)) (Lit (fv_y v)) (Lit (fv_z v))). pose (e2 := turn_expr (fq_y q) (fq_z q) (fq_x q) (fq_w q) (f_two f) (Lit (fv_y v)) (Lit (fv_z v)) (Lit (fv_x v))). pose (e3 := turn_expr (fq_z q) (fq_x q) (fq_y q) (fq_w q) (f_two f) (Lit (fv_z v)) (Lit (fv_x v)) (Lit (fv_y v))).
  change (fq_rotate f q v) with (mkFv (computed f e1) (computed f e2) (computed f e3)). split.
  - intros N. assert (Q : exists x, x = FNan /\ (x = fq_w q \/ x = fq_x q \/ x = fq_y q \/ x = fq_z q \/ x = fv_x v \/ x = fv_y v \/ x = fv_z v)).
    { assert (K : forall x, x = FNan \/ Num x) by (intros []; [left; reflexivity|right; discriminate|right; discriminate]). unfold Each4 in N. rewrite each_xyz in N. destruct (K (fq_w q)) as [E|]; [exists (fq_w q); split; [exact E|tauto]|]. destruct (K (fq_x q)) as [E|]; [exists (fq_x q); split; [exact E|tauto]|]. destruct (K (fq_y q)) as [E|]; [exists (fq_y q); split; [exact E|tauto]|]. destruct (K (fq_z q)) as [E|]; [exists (fq_z q); split; [exact E|tauto]|]. destruct (K (fv_x v)) as [E|]; [exists (fv_x v); split; [exact E|tauto]|]. destruct (K (fv_y v)) as [E|]; [exists (fv_y v); split; [exact E|tauto]|]. destruct (K (fv_z v)) as [E|]; [exists (fv_z v); split; [exact E|tauto]|]. exfalso. tauto. }
    destruct Q as (x & -> & Q). apply each_xyz. cbn [fv_x fv_y fv_z]. unfold NaN. repeat split; apply computed_nan; unfold e1, e2, e3, turn_expr, minor_expr; cbn [Inside]; tauto.
  - intros N. assert (Q : forall e, In e [e1; e2; e3] -> Fin f (computed f e) -> False).
    { intros e IE F. assert (OV : Over (Valid f) e) by (cbn in IE; destruct IE as [<-|[<-|[<-|[]]]]; unfold e1, e2, e3, turn_expr, minor_expr; cbn [Over]; tauto). assert (IN : forall x, x = fq_w q \/ x = fq_x q \/ x = fq_y q \/ x = fq_z q \/ x = fv_x v \/ x = fv_y v \/ x = fv_z v -> Fin f x) by (intros x X; apply (computed_inside f e x I OV F); cbn in IE; destruct IE as [<-|[<-|[<-|[]]]]; unfold e1, e2, e3, turn_expr, minor_expr; cbn [Inside]; tauto). destruct N as [N|N]; apply N; [repeat split|apply each_xyz; repeat split]; apply IN; tauto. }
    apply each_xyz. cbn [fv_x fv_y fv_z]. repeat split; intros F; eapply Q; try exact F; cbn; tauto.
Qed.
(* the identity leaves vectors as they are *)
Theorem C104_rotate_identity : forall f v, IEEE f -> Each (Fin f) v ->
  (let r := fq_rotate f (fq_identity f) v in Each (Fin f) r /\ real_v f r = real_v f v) /\
  (let r := ft_apply f (ft_identity f) v in Each (Fin f) r /\ real_v f r = real_v f v) /\ (let r := ft_inv_apply f (ft_identity f) v in Each (Fin f) r /\ real_v f r = real_v f v).
Proof.
  intros f v I FV. apply each_xyz in FV. destruct v as [a b c]. cbn [fv_x fv_y fv_z] in FV. destruct FV as (FA & FB & FC). destruct (zero_fin_ f I) as [F0 N0].
  assert (ROT : forall o o' o'' x y z, (o = f_zero \/ o = f_neg f_zero) -> (o' = f_zero \/ o' = f_neg f_zero) -> (o'' = f_zero \/ o'' = f_neg f_zero) -> Fin f x -> Fin f y -> Fin f z -> let e := turn_expr o o' o'' (f_one f) (f_two f) (Lit x) (Lit y) (Lit z) in Fin f (computed f e) /\ number f (computed f e) = number f x).
  { intros o o' o'' x y z HO HO' HO'' FX FY FZ e. assert (ZZ : forall o, o = f_zero \/ o = f_neg f_zero -> Fin f o /\ number f o = 0) by (intros t [-> | ->]; [auto|destruct (neg_fin f _ F0) as [G ->]; rewrite N0; split; [exact G|ring]]). destruct (ZZ o HO) as [G1 M1], (ZZ o' HO') as [G2 M2], (ZZ o'' HO'') as [G3 M3]. destruct (one_fin_ f I) as [F1 N1], (two_fin_ f I) as [F2 N2]. destruct (computed_exact f e I) as [F E].
    - unfold e, turn_expr, minor_expr. cbn [Over]. tauto.
    - unfold e, turn_expr, minor_expr. cbn [Fits exact]. change (fin_val f) with (number f). rewrite M1, M2, M3, N1, N2. assert (X2 : Grid f (2 * 1) /\ Rabs (2 * 1) < IZR (2 ^ fm_top f)) by (replace (2 * 1) with (number f (f_two f)) by (rewrite N2; ring); apply (number_fits f _ I F2)). clear ZZ HO HO' HO'' G1 G2 G3 M1 M2 M3.
      repeat (match goal with |- Grid _ _ /\ _ => fail 1 | |- _ /\ _ => split end); try exact Logic.I; try exact X2; fit I.
    - split; [exact F|]. rewrite E. unfold e, turn_expr, minor_expr. cbn [exact]. change (fin_val f) with (number f). rewrite M1, M2, M3, N1, N2. ring. }
  assert (L : f_zero = f_zero \/ f_zero = f_neg f_zero) by auto. assert (L' : f_neg f_zero = f_zero \/ f_neg f_zero = f_neg f_zero) by auto.
  assert (R : forall o x y z, (o = f_zero \/ o = f_neg f_zero) -> Fin f x -> Fin f y -> Fin f z -> let r := fq_rotate f (mkFq (f_one f) o o o) (mkFv x y z) in Each (Fin f) r /\ real_v f r = V3 (number f x) (number f y) (number f z)).
  { intros o x y z HO FX FY FZ r. destruct (ROT o o o x y z HO HO HO FX FY FZ) as [A1 B1], (ROT o o o y z x HO HO HO FY FZ FX) as [A2 B2], (ROT o o o z x y HO HO HO FZ FX FY) as [A3 B3]. change r with (mkFv (computed f (turn_expr o o o (f_one f) (f_two f) (Lit x) (Lit y) (Lit z))) (computed f (turn_expr o o o (f_one f) (f_two f) (Lit y) (Lit z) (Lit x))) (computed f (turn_expr o o o (f_one f) (f_two f) (Lit z) (Lit x) (Lit y)))). split; [apply each_xyz; cbn [fv_x fv_y fv_z]; auto|]. unfold real_v. cbn [fv_x fv_y fv_z]. rewrite B1, B2, B3. reflexivity. }
  assert (SUM : forall x, Fin f x -> (Fin f (f_add f f_zero x) /\ number f (f_add f f_zero x) = number f x) /\ (Fin f (f_sub f x f_zero) /\ number f (f_sub f x f_zero) = number f x)).
  { intros x FX. split.
    - destruct (computed_exact f (Add (Lit f_zero) (Lit x)) I) as [A B]; [cbn; auto|cbn [Fits exact]; change (fin_val f) with (number f); rewrite N0; split; [exact Logic.I|]; split; [exact Logic.I|fit I]|]. split; [exact A|]. transitivity (0 + number f x); [rewrite <- N0; exact B|ring].
    - destruct (computed_exact f (Sub (Lit x) (Lit f_zero)) I) as [A B]; [cbn; auto|cbn [Fits exact]; change (fin_val f) with (number f); rewrite N0; split; [exact Logic.I|]; split; [exact Logic.I|fit I]|]. split; [exact A|]. transitivity (number f x - 0); [rewrite <- N0; exact B|ring]. }
  split; [apply (R f_zero a b c L FA FB FC)|]. split.
  - destruct (R f_zero a b c L FA FB FC) as [A B]. intros r. unfold r, ft_apply, ft_identity. cbn [ft_p ft_q]. fold (fq_identity f) in *. change (mkFq (f_one f) f_zero f_zero f_zero) with (fq_identity f) in A, B. set (t := fq_rotate f (fq_identity f) (mkFv a b c)) in *. apply each_xyz in A. destruct A as (A1 & A2 & A3). destruct (SUM _ A1) as [[S1 E1] _], (SUM _ A2) as [[S2 E2] _], (SUM _ A3) as [[S3 E3] _]. unfold fv_add. cbn [fv_x fv_y fv_z]. split; [apply each_xyz; cbn [fv_x fv_y fv_z]; auto|]. unfold real_v in *. cbn [fv_x fv_y fv_z]. rewrite E1, E2, E3. exact B.
  - destruct (SUM _ FA) as [_ [S1 E1]], (SUM _ FB) as [_ [S2 E2]], (SUM _ FC) as [_ [S3 E3]]. destruct (R (f_neg f_zero) _ _ _ L' S1 S2 S3) as [A B]. intros r. split; [exact A|]. transitivity (V3 (number f (f_sub f a f_zero)) (number f (f_sub f b f_zero)) (number f (f_sub f c f_zero))); [exact B|]. rewrite E1, E2, E3. reflexivity.
Qed.
(* how transforms are put together *)
Theorem C104_compose : forall f t t' a b,
  ft_p (ft_mul f t t') = ft_apply f t (ft_p t') /\ ft_q (ft_mul f t t') = fq_mul f (ft_q t) (ft_q t') /\
  ft_p (ft_inv_mul f t t') = ft_inv_apply f t (ft_p t') /\ ft_q (ft_inv_mul f t t') = fq_from_quats f (ft_q t) (ft_q t') /\
  ft_p (ft_inverse f t) = fq_rotate f (fq_conj (ft_q t)) (fv_neg (ft_p t)) /\ ft_q (ft_inverse f t) = fq_conj (ft_q t) /\ ft_q (ft_inverse f (ft_inverse f t)) = ft_q t /\
  fq_from_quats f a b = fq_mul f (fq_conj a) b /\ fq_conj (fq_conj a) = a.
Proof.
  intros f t t' a b. assert (CC : forall q, fq_conj (fq_conj q) = q) by (intros [w x y z]; unfold fq_conj; cbn [fq_w fq_x fq_y fq_z]; rewrite !neg_neg; reflexivity). repeat split; try reflexivity; apply CC.
Qed.
(* there and back *)
Lemma sandwich_add q a b : sandwich q (vadd a b) = vadd (sandwich q a) (sandwich q b).
Proof.
  destruct q as [w x y z]. assert (E : forall p r, vx p = vx r -> vy p = vy r -> vz p = vz r -> p = r) by (intros [] [] ? ? ?; cbn in *; subst; reflexivity). assert (X : forall w x y z v t, vx (sandwich (Q4 w x y z) (vadd v t)) = vx (sandwich (Q4 w x y z) v) + vx (sandwich (Q4 w x y z) t)) by (intros; rewrite !sandwich_x; cbn [vadd vx vy vz]; ring).
  apply E; [apply X| |]; cbn [vadd vx vy vz]; [rewrite !(proj1 (sandwich_turn w x y z _))|rewrite !(proj2 (sandwich_turn w x y z _))]; rewrite <- X; reflexivity.
Qed.
Lemma sandwich_back q v : sandwich (star q) (sandwich q v) = vscale (size2 q * size2 q) v.
Proof.
  destruct q as [w x y z]. change (star (Q4 w x y z)) with (Q4 w (- x) (- y) (- z)). assert (E : forall p r, vx p = vx r -> vy p = vy r -> vz p = vz r -> p = r) by (intros [] [] ? ? ?; cbn in *; subst; reflexivity).
  assert (N : size2 (Q4 w x y z) = w * w + x * x + y * y + z * z) by (unfold size2, dot, vector_part; cbn; ring). rewrite N. destruct v as [a b c].
  assert (X : forall w x y z a b c, vx (sandwich (Q4 w x y z) (V3 a b c)) = (w * w + x * x + y * y + z * z) * a + 2 * w * (y * c - z * b) + 2 * (y * (x * b - y * a) - z * (z * a - x * c))) by (intros; rewrite sandwich_x; reflexivity).
  assert (Y : forall w x y z a b c, vy (sandwich (Q4 w x y z) (V3 a b c)) = (w * w + y * y + z * z + x * x) * b + 2 * w * (z * a - x * c) + 2 * (z * (y * c - z * b) - x * (x * b - y * a))) by (intros; rewrite (proj1 (sandwich_turn _ _ _ _ _)), sandwich_x; reflexivity).
  assert (Z : forall w x y z a b c, vz (sandwich (Q4 w x y z) (V3 a b c)) = (w * w + z * z + x * x + y * y) * c + 2 * w * (x * b - y * a) + 2 * (x * (z * a - x * c) - y * (y * c - z * b))) by (intros; rewrite (proj2 (sandwich_turn _ _ _ _ _)), sandwich_x; reflexivity).
  assert (S : sandwich (Q4 w x y z) (V3 a b c) = V3 (vx (sandwich (Q4 w x y z) (V3 a b c))) (vy (sandwich (Q4 w x y z) (V3 a b c))) (vz (sandwich (Q4 w x y z) (V3 a b c)))) by (apply E; reflexivity).
  rewrite S, X, Y, Z. apply E; [rewrite X|rewrite Y|rewrite Z]; unfold vscale; cbn [vx vy vz]; ring.
Qed.
Lemma sandwich_part q v e : 0 <= e -> Upto e v -> Upto (2 * size2 q * e) (sandwich q v).
Proof.
  intros E0 (EX & EY & EZ). pose proof (sandwich_len q v) as L. pose proof (size2_nonneg q) as N. set (s := sandwich q v) in *. set (n := size2 q) in *. assert (SQ : forall x, Rabs x <= e -> x * x <= e * e) by (intros x H; apply abs_inv in H; nra). assert (DV : dot v v <= 3 * (e * e)) by (unfold dot; pose proof (SQ _ EX); pose proof (SQ _ EY); pose proof (SQ _ EZ); lra). assert (NN : 0 <= n * n) by nra. assert (DS : dot s s <= n * n * (3 * (e * e))) by (rewrite L; apply Rmult_le_compat_l; assumption). assert (D0 : 0 <= dot v v) by (unfold dot; nra).
  assert (P : forall x, x * x <= dot s s -> Rabs x <= 2 * n * e). { intros x H. assert (0 <= 2 * n * e) by (apply Rmult_le_pos; lra). apply Rsqr_incr_0_var; [|assumption]. rewrite <- Rsqr_abs. unfold Rsqr. assert (0 <= n * n * (e * e)) by (apply Rmult_le_pos; [exact NN|nra]). replace (2 * n * e * (2 * n * e)) with (4 * (n * n * (e * e))) by ring. lra. }
  unfold dot in P. repeat split; apply P; nra.
Qed.
Theorem C104_round_trip : forall f t v P V, IEEE f -> Bounded4 f (ft_q t) -> Each (Fin f) (ft_p t) -> Each (Fin f) v -> Upto P (real_v f (ft_p t)) -> Upto V (real_v f v) -> let m := ft_apply f t v in let r := ft_inv_apply f t m in Each (Fin f) m -> Each (Fin f) r ->
  let u := / IZR (2 ^ fm_prec f) in let n := size2 (real_q f (ft_q t)) in let k := 8 * u * (1 + 4 * n) + Rabs (n - 1) in let e := 8 * u * P + k * V + 17 * unit_of f in
  Upto (Rabs (n * n - 1) * V + 2 * n * e + k * (2 * P + 2 * n * V + e) + 16 * unit_of f) (vsub (real_v f r) (real_v f v)).
Proof.
  intros f t v P V I B FP FV UP UV m r FM FR u n k e. assert (VA : forall w, Each (Fin f) w -> Each (Valid f) w) by (intros w H x X; apply fin_valid, H, X). destruct (C104_transform f t v P V I B (VA _ FP) (VA _ FV) UP UV) as [NA _]. cbv zeta in NA. fold u n in NA. fold k in NA. fold e in NA. fold m in NA. pose proof FM as FM'. pose proof FR as FR'. apply each_xyz in FM', FR'. destruct FM' as (M1 & M2 & M3), FR' as (R1 & R2 & R3). destruct NA as (A1 & A2 & A3). specialize (A1 M1). specialize (A2 M2). specialize (A3 M3).
  set (p := real_v f (ft_p t)) in *. set (q := real_q f (ft_q t)) in *. set (s := sandwich q (real_v f v)) in *. assert (E0 : 0 <= e) by (eapply Rle_trans; [apply Rabs_pos|exact A1]). set (d := V3 (number f (fv_x m) - vx (vadd p s)) (number f (fv_y m) - vy (vadd p s)) (number f (fv_z m) - vz (vadd p s))). assert (UD : Upto e d) by (repeat split; assumption). assert (MD : vsub (real_v f m) p = vadd s d) by (unfold vsub, vadd, d, real_v; cbn [vx vy vz]; f_equal; cbn [vadd vx vy vz]; ring).
  assert (V0 : 0 <= V) by (eapply Rle_trans; [apply Rabs_pos|apply UV]). pose proof (sandwich_part q (real_v f v) V V0 UV) as US. fold s n in US. assert (UM : Upto (P + 2 * n * V + e) (real_v f m)). { assert (T : forall a b c M, Rabs b <= P -> Rabs c <= M -> Rabs (a - (b + c)) <= e -> Rabs a <= P + M + e) by (intros a b c M H1 H2 H3; apply abs_inv in H1, H2, H3; apply Rabs_le; lra). destruct UP as (P1 & P2 & P3), US as (S1 & S2 & S3). split; [|split]; [apply (T _ (vx p) (vx s)); assumption|apply (T _ (vy p) (vy s)); assumption|apply (T _ (vz p) (vz s)); assumption]. }
  destruct (C104_transform f t m P (P + 2 * n * V + e) I B (VA _ FP) (VA _ FM) UP UM) as (_ & NB & _). cbv zeta in NB. fold u n in NB. fold k in NB. fold p q in NB. fold r in NB. rewrite MD, sandwich_add in NB. unfold s in NB. rewrite sandwich_back in NB. fold n in NB. destruct NB as (B1 & B2 & B3). specialize (B1 R1). specialize (B2 R2). specialize (B3 R3).
  pose proof (sandwich_part (star q) d e E0 UD) as SD. assert (NC : size2 (star q) = n) by (unfold n, q; unfold size2, dot, vector_part, star, with_scalar, vneg; cbn; ring). rewrite NC in SD. set (sd := sandwich (star q) d) in *. set (K := k * (P + 2 * n * V + e + P) + 16 * unit_of f) in *.
  assert (T : forall r x y, Rabs (r - (x * (n * n) + y)) <= K -> Rabs y <= 2 * n * e -> Rabs x <= V -> Rabs (r - x) <= Rabs (n * n - 1) * V + 2 * n * e + k * (2 * P + 2 * n * V + e) + 16 * unit_of f).
  { intros a x y H1 H2 H3. replace (a - x) with ((a - (x * (n * n) + y)) + y + (n * n - 1) * x) by ring. eapply Rle_trans; [apply Rabs_triang|]. eapply Rle_trans; [apply Rplus_le_compat_r, Rabs_triang|]. rewrite (Rabs_mult (n * n - 1)). assert (Rabs (n * n - 1) * Rabs x <= Rabs (n * n - 1) * V) by (apply Rmult_le_compat_l; [apply Rabs_pos|exact H3]). unfold K in H1. lra. }
  destruct SD as (D1 & D2 & D3), UV as (U1 & U2 & U3). split; [|split]; [apply (T _ _ (vx sd)); [exact B1|exact D1|exact U1]|apply (T _ _ (vy sd)); [exact B2|exact D2|exact U2]|apply (T _ _ (vz sd)); [exact B3|exact D3|exact U3]].
Qed.
(* is_normalized *)
Lemma squares_roomy f a b c d : IEEE f -> Fin f a -> Fin f b -> Fin f c -> Fin f d -> number f a * number f a + number f b * number f b + number f c * number f c + number f d * number f d <= 2 -> Fin f (f_squares f a b c d).
Proof.
  intros I FA FB FC FD L. pose proof (room_large f I) as RL. unfold room in RL. assert (R1 : 1000 <= IZR (2 ^ fm_top f) / 2) by (eapply Rle_trans; [|exact RL]; apply IZR_le; vm_compute; discriminate).
  assert (SQ : forall x, Rabs x * Rabs x = x * x) by (intros x; rewrite <- Rabs_mult; apply Rabs_right; nra). destruct (prec_small f I) as (UB & UU & _). pose proof (lost4 f I) as L4. cbv zeta in L4. pose proof (unit_pos f (ieee_sane f I)) as U0.
  apply (computed_roomy f (squares_expr a b c d) I); [cbn; tauto|]. apply (roomy_terms f _ I).
  - unfold reach, squares_expr. cbn [extent roundings lost pow Nat.max Nat.add]. change (fin_val f) with (number f). rewrite !SQ. set (u := / IZR (2 ^ fm_prec f)) in *. assert (M : forall p q, (1 + u) * (1 * p * 0 + 1 * q * 0 + 0 * 0) + unit_of f / 2 = unit_of f / 2) by (intros; ring). rewrite !M. set (N := number f a * number f a + number f b * number f b + number f c * number f c + number f d * number f d) in *. assert (0 <= N) by (unfold N; nra). assert (G : (1 + u) * ((1 + u) * ((1 + u) * ((1 + u) * 1))) <= 2). { assert (A : 1 <= 1 + u <= 1 + / 1000) by lra. assert ((1 + u) * (1 + u) <= (1 + / 1000) * (1 + / 1000)) by (apply Rmult_le_compat; lra). assert (0 <= (1 + u) * (1 + u)) by nra. replace ((1 + u) * ((1 + u) * ((1 + u) * ((1 + u) * 1)))) with ((1 + u) * (1 + u) * ((1 + u) * (1 + u))) by ring. assert ((1 + u) * (1 + u) * ((1 + u) * (1 + u)) <= (1 + / 1000) * (1 + / 1000) * ((1 + / 1000) * (1 + / 1000))) by (apply Rmult_le_compat; lra). lra. }
    assert ((1 + u) * ((1 + u) * ((1 + u) * ((1 + u) * 1))) * N <= 2 * 2) by (apply Rmult_le_compat; try lra; repeat apply Rmult_le_pos; lra). lra.
  - unfold squares_expr. cbn [Terms Roomy]. tauto.
Qed.
(* The square of a finite length is the sum of the squares, but for seven
   roundings and four smallest numbers. *)
Theorem C104_length : forall f q b l, IEEE f -> Each4 (Fin f) q -> fq_length f q = FFin b l ->
  let u := / IZR (2 ^ fm_prec f) in let N := size2 (real_q f q) in let r := val f b l in 0 <= r /\ Rabs (r * r - N) <= 7 * u * N + 4 * unit_of f.
Proof.
  intros f q b l I (FW & FX & FY & FZ) E u N r. pose proof (ieee_deep f I) as D. pose proof D as [W _]. pose proof (unit_pos f W) as UP. destruct (prec_small f I) as (UB & _). fold u in UB. unfold fq_length in E.
  set (s2 := f_squares f (fq_w q) (fq_x q) (fq_y q) (fq_z q)) in *. assert (VS : Valid f s2) by (apply (computed_valid f (squares_expr (fq_w q) (fq_x q) (fq_y q) (fq_z q)) I); cbn; repeat split; apply fin_valid; assumption).
  assert (NE : number f (fq_w q) * number f (fq_w q) + number f (fq_x q) * number f (fq_x q) + number f (fq_y q) * number f (fq_y q) + number f (fq_z q) * number f (fq_z q) = N) by (unfold N; rewrite size2_eq; ring). assert (N0 : 0 <= N) by apply size2_nonneg.
  assert (SE : forall c k, s2 = FFin c k -> Rabs (val f c k - N) <= 41 / 10 * u * N + 3 * unit_of f).
  { intros c k ES. assert (SF : Fin f s2) by (exists c, k; split; [exact ES|]; rewrite ES in VS; exact VS). pose proof (squares_error f _ _ _ _ I (fin_valid f _ FW) (fin_valid f _ FX) (fin_valid f _ FY) (fin_valid f _ FZ) SF) as SE. fold s2 in SE. rewrite ES in SE. cbv zeta in SE. rewrite NE in SE. unfold Rdiv at 1 in SE. fold u in SE. exact SE. }
  assert (UN : 0 <= u * N) by (apply Rmult_le_pos; lra).
  destruct s2 as [|c|c k] eqn:ES; [discriminate|destruct c; discriminate|]. cbn [f_sqrt] in E. cbn in VS. pose proof (rep_nonneg f k (proj1 VS)) as KN. destruct (Z.eqb_spec k 0) as [KZ|NZ].
  - injection E as E1 E2. specialize (SE c k eq_refl). unfold r. rewrite <- E2, val_zero. rewrite KZ, val_zero in SE. split; [lra|]. replace (0 * 0 - N) with (0 - N) by ring. lra.
  - destruct c; [discriminate|]. specialize (SE false k eq_refl). assert (KP : (0 < k)%Z) by lia. assert (E' : f_sqrt f (FFin false k) = FFin b l) by (cbn [f_sqrt]; destruct (Z.eqb_spec k 0); [contradiction|exact E]).
    pose proof (sqrt_correct f k D KP) as CK. rewrite E' in CK. destruct (sqrt_fin f k D VS KP) as (m & EM & FM & MP). rewrite E' in EM. injection EM as EB EL. apply correct_parts in CK. destruct CK as [_ NL]. pose proof (near_rel f _ _ W NL (sqrt_full f k D KP)) as LE. rewrite (Rabs_right (sqrt (val f false k))) in LE by (apply Rle_ge, sqrt_pos). fold r in LE. unfold Rdiv in LE. fold u in LE.
    assert (KV : 0 < val f false k) by (rewrite <- (val_zero f false); apply val_lt; [exact W|exact KP]). pose proof (sqrt_sqrt (val f false k) ltac:(lra)) as SS. set (g := sqrt (val f false k)) in *. assert (G0 : 0 <= g) by apply sqrt_pos. set (K := val f false k) in *.
    assert (R0 : 0 <= r) by (unfold r; rewrite EB, EL; left; rewrite <- (val_zero f false); apply val_lt; assumption). split; [exact R0|]. apply abs_inv in LE.
    assert (Q : Rabs (r * r - K) <= 201 / 100 * u * K). { rewrite <- SS. replace (r * r - g * g) with ((r - g) * (r + g)) by ring. rewrite Rabs_mult, (Rabs_right (r + g)) by lra. assert (A1 : Rabs (r - g) <= u * g) by (apply Rabs_le; lra). assert (A2 : r + g <= 201 / 100 * g). { assert (u * g <= / 1000 * g) by (apply Rmult_le_compat_r; lra). lra. } replace (201 / 100 * u * (g * g)) with ((u * g) * (201 / 100 * g)) by ring. apply Rmult_le_compat; try lra. apply Rabs_pos. }
    apply abs_inv in Q. apply abs_inv in SE. set (un := unit_of f) in *. assert (T : u * K <= u * (N + 41 / 10 * u * N + 3 * un)) by (apply Rmult_le_compat_l; lra). assert (T2 : u * (u * N) <= / 1000 * (u * N)) by (apply Rmult_le_compat_r; lra). assert (T3 : u * un <= / 1000 * un) by (apply Rmult_le_compat_r; lra). apply Rabs_le. lra.
Qed.
Theorem C104_is_normalized : forall f q, IEEE f -> Each4 (Fin f) q -> let u := / IZR (2 ^ fm_prec f) in let N := size2 (real_q f q) in
  (fq_is_normalized f q = true -> f_squares f (fq_w q) (fq_x q) (fq_y q) (fq_z q) = FInf false \/ Rabs (N - 1) <= 13 * u) /\ (Rabs (N - 1) <= 3 * u -> fq_is_normalized f q = true).
Proof.
  intros f q I (FW & FX & FY & FZ) u N. pose proof (ieee_sane f I) as W. destruct (prec_small f I) as (UB & UU & _). fold u in UB, UU. pose proof (unit_pos f W) as U0. pose proof (cube_units f I) as CU. cbv zeta in CU. fold u in CU. assert (HU : unit_of f <= / 1000 * u) by lra.
  destruct (eps_val f I) as (k & EK & FK & KP & KV & K4). assert (KU : val f false k = 8 * u) by (rewrite KV; unfold u, Rdiv; ring). destruct (one_fin_ f I) as [F1 N1]. set (s := f_squares f (fq_w q) (fq_x q) (fq_y q) (fq_z q)).
  assert (NE : number f (fq_w q) * number f (fq_w q) + number f (fq_x q) * number f (fq_x q) + number f (fq_y q) * number f (fq_y q) + number f (fq_z q) * number f (fq_z q) = N) by (unfold N; rewrite size2_eq; ring). assert (N0 : 0 <= N) by (unfold N; apply size2_nonneg).
  assert (SE : Fin f s -> Rabs (number f s - N) <= 41 / 10 * u * N + 3 * unit_of f). { intros F. pose proof (squares_error f _ _ _ _ I (fin_valid f _ FW) (fin_valid f _ FX) (fin_valid f _ FY) (fin_valid f _ FZ) F) as E. cbv zeta in E. rewrite NE in E. unfold Rdiv at 1 in E. fold u in E. exact E. }
  unfold fq_is_normalized. fold s. rewrite EK. split.
  - intros H. assert (NN : NonNeg f s). { assert (Q : forall x, Fin f x -> NonNeg f (f_mul f x x)) by (intros x F; apply square_nonneg; [exact W|apply fin_valid, F|destruct F as (a & n & -> & _); discriminate]). unfold s, f_squares. repeat apply add_nonneg; auto. }
    destruct NN as [E|(m & E & FM)]; [left; exact E|right]. assert (FS : Fin f s) by (exists false, m; auto). specialize (SE FS). rewrite E in H, SE. cbn [number] in SE. destruct (one_fin_ f I) as [(b & n & EO & FO) _]. rewrite EO in H. rewrite EO in N1. cbn [number] in N1. pose proof (C93_sound f false m b n k I FM FO FK ltac:(lra) H) as C. rewrite N1, KU in C. fold u in C. pose proof (val_nonneg f m W FM) as M0. set (x := val f false m) in *. rewrite (Rabs_right x) in C by lra.
    assert (X1 : Rabs (x - 1) <= 82 / 10 * u * x + unit_of f). { apply (Rmult_le_reg_r (1 - u)); [lra|]. eapply Rle_trans; [exact C|]. assert (0 <= u * x) by nra. assert ((8 * u * (1 + u)) <= 82 / 10 * u * (1 - u)) by nra. assert (8 * u * (1 + u) * x <= 82 / 10 * u * (1 - u) * x) by (apply Rmult_le_compat_r; lra). assert (unit_of f / 2 <= unit_of f * (1 - u)) by nra. lra. }
    assert (X2 : x <= 101 / 100). { apply abs_inv in X1. assert (u * x <= / 1000 * x) by (apply Rmult_le_compat_r; lra). lra. }
    assert (X3 : Rabs (x - 1) <= 83 / 10 * u). { assert (u * x <= u * (101 / 100)) by (apply Rmult_le_compat_l; lra). lra. }
    assert (X4 : N <= 102 / 100). { apply abs_inv in SE. assert (u * N <= / 1000 * N) by (apply Rmult_le_compat_r; lra). lra. }
    assert (u * N <= u * (102 / 100)) by (apply Rmult_le_compat_l; lra). replace (N - 1) with ((x - 1) - (x - N)) by ring. unfold Rminus at 1. eapply Rle_trans; [apply Rabs_triang|]. rewrite Rabs_Ropp. lra.
  - intros H. apply abs_inv in H. assert (FS : Fin f s) by (apply squares_roomy; try assumption; rewrite NE; lra). specialize (SE FS). destruct FS as (b & m & E & FM). rewrite E in *. cbn [number] in SE. destruct F1 as (b1 & n & EO & FO). rewrite EO in *. cbn [number] in N1. apply (C93_complete f b m b1 n k I FM FO FK). rewrite N1, KU. set (x := val f b m) in *. assert (u * N <= u * (1 + 3 * u)) by (apply Rmult_le_compat_l; lra). assert (u * (3 * u) <= / 1000 * (3 * u)) by (apply Rmult_le_compat_r; lra). assert (X1 : Rabs (x - 1) <= 72 / 10 * u) by (apply abs_inv in SE; apply Rabs_le; lra). apply Rle_trans with (1 := X1). apply abs_inv in X1. assert (992 / 1000 <= x) by lra. rewrite (Rabs_right x) by lra. nra.
Qed.
(* vectors of four parts *)
Definition parts4 (v : f_vec4) : list fnum := [f4_x v; f4_y v; f4_z v; f4_w v].
Theorem C104_vec4 : forall f a b c, IEEE f -> Forall (Fin f) (parts4 a) -> Forall (Fin f) (parts4 b) -> Fin f c ->
  Forall2 (fun p r => Correct f (number f (fst p) + number f (snd p)) r) (combine (parts4 a) (parts4 b)) (parts4 (f4_add f a b)) /\
  (forall dir, In dir [f4_x; f4_y; f4_z] -> Correct f (number f (dir a) - number f (dir b)) (dir (f4_sub f a b)) /\ Correct f (number f (dir a) * number f c) (dir (f4_scale f a c)) /\ Correct f (- number f (dir a)) (dir (f4_neg a))) /\
  f4_w (f4_sub f a b) = f4_w a /\ f4_w (f4_scale f a c) = f4_w a /\ f4_w (f4_neg a) = f4_w a /\ f4_div f a c = f4_scale f a (f_div f (f_one f) c) /\
  (f4_is_null a = true <-> Forall (fun x => number f x = 0) (parts4 a)) /\
  let N := number f (f4_x a) * number f (f4_x a) + number f (f4_y a) * number f (f4_y a) + number f (f4_z a) * number f (f4_z a) + number f (f4_w a) * number f (f4_w a) in
  (Fin f (f4_squared_length f a) -> Rabs (number f (f4_squared_length f a) - N) <= 41 / 10 / IZR (2 ^ fm_prec f) * N + 3 * unit_of f) /\ f4_length f a = f_sqrt f (f4_squared_length f a).
Proof.
  intros f a b c I FA FB FC. pose proof (ieee_sane f I) as W. unfold parts4 in FA, FB. repeat match goal with H : Forall _ (_ :: _) |- _ => apply Forall_cons_iff in H; destruct H end.
  assert (K : forall x y, Fin f x -> Fin f y -> Correct f (number f x - number f y) (f_sub f x y) /\ Correct f (number f x * number f c) (f_mul f x c) /\ Correct f (- number f x) (f_neg x)).
  { intros x y FX FY. split; [unfold f_sub, Rminus; rewrite <- (proj2 (neg_fin f y FY)); apply add_correct'; [exact I|exact FX|apply neg_fin, FY]|]. split; [apply mul_correct'; assumption|]. destruct FX as (s1 & n1 & -> & F1). cbn [number f_neg]. rewrite <- val_neg. apply (correct_fin f _ _ W F1). }
  split; [unfold parts4, f4_add; cbn [combine f4_x f4_y f4_z f4_w]; repeat constructor; apply add_correct'; assumption|]. split; [intros dir D; destruct D as [<-|[<-|[<-|[]]]]; unfold f4_sub, f4_scale, f4_neg; cbn [f4_x f4_y f4_z]; apply K; assumption|]. do 3 (split; [reflexivity|]). split; [reflexivity|]. split.
  - assert (Z : forall x, Fin f x -> (f_eq x f_zero = true <-> number f x = 0)). { intros x (s & n & -> & F). cbn [number]. rewrite (eq_same f _ _ W). unfold Ieee.Same. cbn [Place f_zero]. split.
      - intros (p & P & Q). rewrite P in Q. injection Q as Q. rewrite val_zero in Q. exact Q.
      - intros E. exists (Real 0). rewrite E. rewrite val_zero. split; reflexivity. }
    unfold f4_is_null, parts4. rewrite !andb_true_iff, !Z by assumption. split; [intros [[[? ?] ?] ?]; repeat constructor; assumption|intros F; repeat match goal with H : Forall _ (_ :: _) |- _ => apply Forall_cons_iff in H; destruct H end; auto].
  - split; [|reflexivity]. intros F. apply (squares_error f _ _ _ _ I); try (apply fin_valid; assumption). exact F.
Qed.
(* where floats differ from real quaternions *)
Definition fq_eqb (a b : f_quat) : bool := f_eq (fq_w a) (fq_w b) && f_eq (fq_x a) (fq_x b) && f_eq (fq_y a) (fq_y b) && f_eq (fq_z a) (fq_z b).
Definition quat_a : f_quat := fq_normalized float_fmt (mkFq (flt 1 0) (flt 2 0) (flt 3 0) (flt 4 0)).
Definition quat_b : f_quat := fq_normalized float_fmt (mkFq (flt 5 0) (flt 3 0) (flt (-2) 0) (flt 1 0)).
Definition quat_c : f_quat := fq_normalized float_fmt (mkFq (flt 7 0) (flt (-1) 0) (flt 2 0) (flt 9 0)).
(* products are not associative, conj(q) q is not the identity though q counts as
   normalized, and seven factors that count as normalized have a product that does not *)
Theorem C104_product_refuted : let d := float_fmt in fq_is_normalized d quat_a = true /\ fq_is_normalized d quat_b = true /\ fq_is_normalized d quat_c = true /\
  fq_eqb (fq_mul d (fq_mul d quat_a quat_b) quat_c) (fq_mul d quat_a (fq_mul d quat_b quat_c)) = false /\
  fq_eqb (fq_from_quats d quat_b quat_b) (fq_identity d) = false /\ fq_is_normalized d (fold_left (fq_mul d) (repeat quat_b 6) quat_b) = false.
Proof. cbv zeta. repeat match goal with |- _ /\ _ => split end; vm_compute; reflexivity. Qed.
(* going there and back with a normalized transform misses the point *)
Theorem C104_round_trip_refuted : let d := float_fmt in let t := mkFt (mkFv (flt 1 (-3)) (flt 5 0) (flt 7 0)) quat_a in let v := mkFv (flt 1 0) (flt 2 0) (flt 3 0) in
  fq_is_normalized d (ft_q t) = true /\ fv_eq (ft_inv_apply d t (ft_apply d t v)) v = false.
Proof. cbv zeta. split; vm_compute; reflexivity. Qed.
(* 2^70 counts as normalized, since its square is infinite; normalized turns it into
   zero, and leaves what is too small as it is; the identity times an infinity is not the infinity *)
Theorem C104_size_refuted : let d := float_fmt in let large := mkFq (flt 1 70) f_zero f_zero f_zero in let small := mkFq (flt 1 (-80)) f_zero f_zero f_zero in
  fq_is_normalized d large = true /\ fq_normalized d large = mkFq f_zero f_zero f_zero f_zero /\ fq_normalized d small = small /\ fq_is_normalized d small = false /\
  fq_mul d (fq_identity d) (mkFq (FInf false) f_zero f_zero f_zero) = mkFq (FInf false) FNan FNan FNan.
Proof. cbv zeta. repeat match goal with |- _ /\ _ => split end; vm_compute; reflexivity. Qed.
(* vec4_: what -= and negation do to w, and a + (-a) *)
Theorem C104_vec4_refuted : let d := float_fmt in let a := mkF4 (flt 1 0) (flt 2 0) (flt 3 0) (flt 4 0) in
  f4_add d a (f4_neg a) = mkF4 f_zero f_zero f_zero (flt 8 0) /\ f4_is_null (f4_sub d a a) = false /\ f4_w (f4_scale d a (flt 2 0)) = flt 4 0.
Proof. cbv zeta. repeat match goal with |- _ /\ _ => split end; vm_compute; reflexivity. Qed.
(* i j = k, j i = -k; (1/2, 1/2, 1/2, 1/2) turns x to y to z; 0.6, 0.8 i *)
Example C104_example : let d := float_fmt in let o := f_zero in let e := f_one d in let h := flt 1 (-1) in let turn := mkFq h h h h in
  fq_mul d (mkFq o e o o) (mkFq o o e o) = mkFq o o o e /\ fq_mul d (mkFq o o e o) (mkFq o e o o) = mkFq o o o (f_neg e) /\
  fq_rotate d turn (mkFv (flt 3 0) (flt 5 0) (flt 7 0)) = mkFv (flt 7 0) (flt 3 0) (flt 5 0) /\ fq_is_normalized d turn = true /\ fq_eqb (fq_mul d turn (fq_conj turn)) (fq_identity d) = true /\
  ft_apply d (mkFt (mkFv e e e) turn) (mkFv (flt 3 0) (flt 5 0) (flt 7 0)) = mkFv (flt 8 0) (flt 4 0) (flt 6 0) /\ ft_inv_apply d (mkFt (mkFv e e e) turn) (mkFv (flt 8 0) (flt 4 0) (flt 6 0)) = mkFv (flt 3 0) (flt 5 0) (flt 7 0) /\
  fq_length d (mkFq (flt 2 0) (flt 4 0) (flt 5 0) (flt 6 0)) = flt 9 0 /\ fq_is_normalized d (fq_normalized d (mkFq (flt 3 0) (flt 4 0) o o)) = true /\ f4_length d (mkF4 (flt 2 0) (flt 4 0) (flt 5 0) (flt 6 0)) = flt 9 0.
Proof. cbv zeta. repeat match goal with |- _ /\ _ => split end; vm_compute; reflexivity. Qed.
