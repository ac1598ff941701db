(* C43: values in property nodes *)
From Coq Require Import String.
From Verif Require Import Model.Base Proofs.BaseFacts Model.StdString Model.Strings Model.Number Model.StringCast Model.CharStream Model.PropTree Model.PropNode Model.PropFile Model.PropCast
  Spec.Strings Spec.Decimal Spec.PropNode Spec.PropText Spec.PropCast Proofs.StringFacts Proofs.NumberProofs Proofs.ScanProofs Proofs.PropNodeProofs Proofs.PropCastProofs Proofs.PropFileProofs Props.PropFile Props.StringCast.
Local Open Scope list_scope.
Local Open Scope Z_scope.

(* grow, here and below: when the vector of children reallocates *)
Theorem C43_basic : RoundTrip int_cast (fun z => - 2 ^ 31 <= z < 2 ^ 31) /\ RoundTrip bool_cast (fun _ => True) /\
  RoundTrip string_cast (fun _ => True) /\ RoundTrip node_cast (fun p => pn_copy p = p).
Proof.
  split; [|split; [|split; [|apply node_roundtrip]]]; apply text_roundtrip; intros x H.
  - f_equal. apply C26_roundtrip. exact H.
  - f_equal. apply C26_roundtrip.
  - reflexivity.
Qed.
Print Assumptions C43_basic.

(* vectors of any length and nesting, in order *)
Theorem C43_vector : forall (T : Type) grow (c : cast T) P, RoundTrip c P -> RoundTrip (vector_cast grow c) (Forall P).
Proof. intros T grow c P. apply vector_roundtrip. Qed.
Print Assumptions C43_vector.

Theorem C43_vec3_quat_transform : forall (T : Type) grow (c : cast T) zero rd P, RoundTrip c P ->
  RoundTrip (vec3_cast grow c zero rd) (fun '(x, y, z) => P x /\ P y /\ P z) /\
  RoundTrip (quat_cast grow c) (fun '(w, x, y, z) => P w /\ P x /\ P y /\ P z) /\
  RoundTrip (transform_cast grow c zero rd) (fun '((x, y, z), (w, x', y', z')) => (P x /\ P y /\ P z) /\ (P w /\ P x' /\ P y' /\ P z')).
Proof. intros T grow c zero rd P R. split; [apply vec3_roundtrip; exact R|]. split; [apply quat_roundtrip; exact R|apply transform_roundtrip; exact R]. Qed.
Print Assumptions C43_vec3_quat_transform.

(* stored under a key: read back, and what is stored under other keys stays *)
Theorem C43_set_get : forall (T U : Type) grow (c : cast T) P (c2 : cast U) p k x, RoundTrip c P -> P x ->
  cget c (cset c grow p k x) k = Ok x /\
  (forall k2, k2 <> k -> (forall n n', Same n n' -> cfrom c2 n = cfrom c2 n') -> cget c2 (cset c grow p k x) k2 = cget c2 p k2).
Proof.
  intros T U grow c P c2 p k x R PX. destruct (cset_spec c grow p k x) as [(n & F & S) O]. split.
  - unfold cget. rewrite (child_of_First _ _ _ F). apply R; assumption.
  - intros k2 N I. destruct (O k2 N) as [OA OF]. unfold cget. destruct (First_or_Absent k2 (pn_children p)) as [[m FM]|A].
    + destruct (OF m FM) as (m' & FM' & SM). rewrite (child_of_First _ _ _ FM), (child_of_First _ _ _ FM'). symmetry. apply I. exact SM.
    + rewrite (child_of_Absent _ _ A), (child_of_Absent _ _ (OA A)). reflexivity.
Qed.
Print Assumptions C43_set_get.

(* the items of a vector have different labels, up to 2^32 items *)
Theorem C43_labels : forall (T : Type) grow (c : cast T) xs, Z.of_nat (List.length xs) <= 2 ^ 32 ->
  NoDup (map fst (pn_children (cto (vector_cast grow c) xs))).
Proof.
  intros T grow c xs L. cbn [vector_cast cto]. destruct (put_items_spec c grow xs pn_empty 0) as [_ S]. cbn [pn_empty pn_children app] in S. rewrite <- (SameChildren_keys _ _ S), items_keys.
  assert (X : forall i j, (i < List.length xs)%nat -> (j < List.length xs)%nat -> item_key i = item_key j -> i = j).
  { intros i j I J E. unfold item_key in E. apply app_inv_head in E. destruct (wrap32_ex (Z.of_nat i)) as [B1 [k1 E1]]. destruct (wrap32_ex (Z.of_nat j)) as [B2 [k2 E2]].
    assert (EW : wrap32 (Z.of_nat i) = wrap32 (Z.of_nat j)).
    { pose proof (dec_leads' (wrap32 (Z.of_nat i))) as L1. pose proof (dec_leads' (wrap32 (Z.of_nat j))) as L2. rewrite E in L1. unfold printable in *. destruct (Leads_fun _ _ _ _ _ (L1 ltac:(lia)) (L2 ltac:(lia))) as [X _]. exact X. }
    lia. }
  assert (Y : forall n, (n <= List.length xs)%nat -> NoDup (map item_key (seq 0 n))).
  { induction n as [|n IH]; intros LN; [constructor|]. rewrite seq_S, map_app. cbn [map]. apply NoDup_snoc; [apply IH; lia|]. cbn [Nat.add].
    intros I. apply in_map_iff in I as (m & E & M). apply in_seq in M. apply X in E; lia. }
  apply Y. lia.
Qed.
Print Assumptions C43_labels.

(* saved in a file under a label and loaded again *)
Theorem C43_file : forall (T : Type) grow (c : cast T) P k x, RoundTrip c P -> Carries c P -> P x -> SafeLabel k -> IsTrim white k k ->
  let text := save_prop (cset c grow pn_empty k x) true in fits text ->
  exists t, load_prop text = Ok t /\ cget c t k = Ok x.
Proof.
  intros T grow c P k x R C PX SL TK text F. pose proof (Built_cset c grow pn_empty [] k x Built_empty ltac:(intros [])) as B. cbn [app] in B.
  destruct (C x PX) as [S N]. subst text. destruct (cset c grow pn_empty k x) as [a v cs] eqn:EC. destruct B as [V SC]. cbn [pn_value pn_children] in V, SC. subst v.
  assert (SAME : Same (PN a [] [(k, cto c x)]) (PN a [] cs)) by (apply Same_intro; exact SC).
  assert (SAFE : SafeTree (PN a [] [(k, cto c x)])) by (apply Safe_group; [discriminate|constructor; [split; assumption|constructor]]).
  assert (NEAT : Neat (PN a [] [(k, cto c x)])).
  { constructor; [|constructor; [split; assumption|constructor]]. exists [], []. split; [reflexivity|]. split; [constructor|]. split; [constructor|]. split; [discriminate|]. intros ? [|? ?]; discriminate. }
  apply (SafeTree_Same _ _ SAME) in SAFE. apply (Neat_Same _ _ SAME) in NEAT.
  assert (SCH : SafeChildren cs) by (inversion SAFE; subst; [constructor|assumption]).
  destruct (C33_roundtrip a [] cs SCH NEAT F) as (t & U & L). exists t. split; [exact L|].
  assert (ST : forall p q, Unmarked p q -> Same p q).
  { clear. induction p as [a v c IH] using pnode_rect'. intros q H. inversion H as [? ? ? c' F]; subst. constructor. clear H. revert IH. induction F as [|[k1 x1] [k2 x2] c c' [E S] F IHF]; intros IH; [constructor|].
    inversion IH; subst. constructor; [split; [exact E|auto]|auto]. }
  pose proof (Same_trans _ _ _ SAME (ST _ _ U)) as S2. apply Same_children in S2. cbn [pn_children] in S2.
  assert (FK : First k (cto c x) [(k, cto c x)]) by (exists [], []; split; [reflexivity|intros []]).
  destruct (SameChildren_First _ _ _ _ S2 FK) as (n & FN & SN). unfold cget. rewrite (child_of_First _ _ _ FN). apply R; assumption.
Qed.
Print Assumptions C43_file.

(* which types the file format carries: numbers, and vectors, vec3, quat and
   transform of what it carries *)
Theorem C43_carries : Carries int_cast (fun z => - 2 ^ 31 <= z < 2 ^ 31) /\ Carries bool_cast (fun _ => True) /\ Carries string_cast (fun s => Safe s /\ IsTrim white s s) /\
  forall (T : Type) grow (c : cast T) zero rd P, Carries c P ->
    Carries (vector_cast grow c) (Forall P) /\
    Carries (vec3_cast grow c zero rd) (fun '(x, y, z) => P x /\ P y /\ P z) /\
    Carries (quat_cast grow c) (fun '(w, x, y, z) => P w /\ P x /\ P y /\ P z) /\
    Carries (transform_cast grow c zero rd) (fun '((x, y, z), (w, x', y', z')) => (P x /\ P y /\ P z) /\ (P w /\ P x' /\ P y' /\ P z')).
Proof.
  split; [|split; [|split]].
  - apply text_carries. intros z H. apply word_safe, dec_word. unfold printable. lia.
  - apply text_carries. intros b _. apply word_safe. destruct b; apply dec_word; unfold printable; lia.
  - apply text_carries. intros s H. exact H.
  - intros T grow c zero rd P C. split; [apply vector_carries; exact C|]. split; [apply vec3_carries; exact C|]. split; [apply quat_carries; exact C|apply transform_carries; exact C].
Qed.
Print Assumptions C43_carries.

(* a vec3 may also be written as three numbers *)
Theorem C43_vec3_text : forall grow p x y z, Forall (fun z => - 2 ^ 31 <= z < 2 ^ 31) [x; y; z] -> pn_value p = dec x ++ " "%char :: dec y ++ " "%char :: dec z ->
  cfrom (vec3_cast grow int_cast 0 read_int) p = Ok (x, y, z).
Proof.
  intros grow p x y z F V. assert (LS : Forall (fun z => - 2 ^ 63 <= z < 2 ^ 63) [x; y; z]) by (eapply Forall_impl; [|exact F]; cbn; intros; lia).
  pose proof (numbers_scan [x; y; z] LS ltac:(discriminate)) as S. inversion F as [|? ? HX F1]; subst. inversion F1 as [|? ? HY F2]; subst. inversion F2 as [|? ? HZ _]; subst.
  assert (W : forall v, - 2 ^ 31 <= v < 2 ^ 31 -> wrap32 v = v) by (intros v Hv; apply wrap32_spec; [exact Hv|exists 0; lia]).
  cbn [numbers_text map length] in S. rewrite <- V in S. cbn [vec3_cast cfrom].
  assert (G : forall k, exists v, cget_or int_cast p k 0 = Ok v) by (intros k; unfold cget_or; destruct (child_of p k); eexists; reflexivity).
  destruct (G ["x"%char]) as [gx ->]. destruct (G ["y"%char]) as [gy ->]. destruct (G ["z"%char]) as [gz ->]. cbn [bind].
  assert (HV : has_value p = true) by (unfold has_value; rewrite V; destruct (dec_head x) as (c & r & -> & _); [unfold printable; lia|reflexivity]). rewrite HV.
  unfold scan_str in S. cbn [scan_str_impl read_target] in S. unfold read_int.
  destruct (read_long (cs_of_cstr (pn_value p) default_delimiters)) as [v1 s1]. destruct (good s1); [|discriminate].
  destruct (read_long s1) as [v2 s2]. destruct (good s2); [|discriminate]. destruct (read_long s2) as [v3 s3]. destruct (good s3); injection S as -> -> ->; rewrite !W by assumption; reflexivity.
Qed.
Print Assumptions C43_vec3_text.

(* a text value takes precedence over the parts *)
Theorem C43_vec3_text_refuted : exists grow p, cget int_cast p ["x"%char] = Ok 7 /\ cfrom (vec3_cast grow int_cast 0 read_int) p = Ok (1, 0, 0).
Proof. exists (fun _ => false), (PN false (lit "1") [(lit "x", pn_of (lit "7"))]). split; vm_compute; reflexivity. Qed.
Print Assumptions C43_vec3_text_refuted.

(* reading bounds: a single value, a pair, named limits, or nothing *)
Theorem C43_bounds : forall (T : Type) (from : str -> res T) lowest highest p,
  (pn_value p <> [] -> (forall n, ~ OccursAt (lit "..") (pn_value p) n) -> read_bounds from lowest highest p = let* x := from (pn_value p) in Ok (x, x)) /\
  (forall l r, fits (pn_value p) -> pn_value p = l ++ lit ".." ++ r -> (forall n, OccursAt (lit "..") (pn_value p) n -> (List.length l <= n)%nat) ->
     read_bounds from lowest highest p = let* x := from (pn_value p) in let* y := from r in Ok (x, y)) /\
  (pn_value p = [] -> pn_children p <> [] -> exists lower upper, read_bounds from lowest highest p = (let* x := lower in let* y := upper in Ok (x, y)) /\
     (forall n, First (lit "min") n (pn_children p) -> lower = from (pn_value n)) /\
     (Absent (lit "min") (pn_children p) -> forall n, First (lit "lower") n (pn_children p) -> lower = from (pn_value n)) /\
     (Absent (lit "min") (pn_children p) -> Absent (lit "lower") (pn_children p) -> lower = Ok lowest) /\
     (forall n, First (lit "max") n (pn_children p) -> upper = from (pn_value n)) /\
     (Absent (lit "max") (pn_children p) -> forall n, First (lit "upper") n (pn_children p) -> upper = from (pn_value n)) /\
     (Absent (lit "max") (pn_children p) -> Absent (lit "upper") (pn_children p) -> upper = Ok highest)) /\
  (pn_value p = [] -> pn_children p = [] -> read_bounds from lowest highest p = Throw).
Proof.
  intros T from lowest highest p. split; [apply read_bounds_single|]. split; [apply read_bounds_pair|]. split; [apply read_bounds_children|].
  intros V C. unfold read_bounds, has_value, pn_size. rewrite V, C. reflexivity.
Qed.
Print Assumptions C43_bounds.

(* a..b for integers *)
Theorem C43_bounds_int : forall p a b, - 2 ^ 31 <= a < 2 ^ 31 -> - 2 ^ 31 <= b < 2 ^ 31 -> pn_value p = dec a ++ lit ".." ++ dec b ->
  read_bounds (fun s => Ok (from_int s)) INT_MIN INT_MAX p = Ok (a, b).
Proof.
  intros p a b A B V.
  assert (ND : forall z, - 2 ^ 31 <= z < 2 ^ 31 -> ~ In "."%char (dec z)).
  { intros z Hz I. pose proof (dec_word z ltac:(unfold printable; lia)) as W. rewrite Forall_forall in W. destruct (W _ I) as [X|[X|X]]; [unfold IsDigit in X; vm_compute in X; destruct X as [X _]; apply X; reflexivity|discriminate|]. cbn in X. intuition discriminate. }
  assert (SH : forall z, (List.length (dec z) <= 21)%nat).
  { assert (D : forall f n, (List.length (dec_digits f n) <= f)%nat).
    { induction f as [|f IH]; intros n; [cbn; lia|]. cbn [dec_digits]. rewrite app_length. cbn [List.length]. destruct (n <? 10); [cbn; lia|]. specialize (IH (n / 10)). lia. }
    intros z. unfold dec. pose proof (D 20%nat z). pose proof (D 20%nat (- z)). destruct (z <? 0); cbn [List.length]; lia. }
  rewrite (read_bounds_pair _ _ _ p (dec a) (dec b)).
  - cbn [bind]. rewrite V. unfold from_int. rewrite (from_signed_leads _ _ _ a (lit ".." ++ dec b)).
    + rewrite (from_signed_leads _ _ _ b []) by (apply dec_leads'; unfold printable; lia). unfold INT_MIN, INT_MAX. rewrite !clamp_in by lia. reflexivity.
    + apply dec_leads; [unfold printable; lia|]. cbn. unfold IsDigit. vm_compute. intros [X _]. apply X. reflexivity.
  - rewrite V. unfold fits. rewrite !app_length. pose proof (SH a). pose proof (SH b). cbn [List.length lit list_ascii_of_string]. lia.
  - exact V.
  - intros n (l & r & E & <-). rewrite V in E. apply Nat.nlt_ge. intros LT. apply (ND a A).
    assert (EA : firstn (S (List.length l)) (dec a) = l ++ ["."%char]).
    { apply (f_equal (firstn (S (List.length l)))) in E. rewrite firstn_app in E. replace (S (List.length l) - List.length (dec a))%nat with 0%nat in E by lia. rewrite firstn_O, app_nil_r in E. rewrite E.
      rewrite firstn_app, firstn_all2 by lia. replace (S (List.length l) - List.length l)%nat with 1%nat by lia. reflexivity. }
    rewrite <- (firstn_skipn (S (List.length l)) (dec a)), EA. apply in_or_app. left. apply in_or_app. right. left. reflexivity.
Qed.
Print Assumptions C43_bounds_int.

(* "bounds written with operator<< are read back": the upper bound is lost *)
Theorem C43_bounds_printed_refuted : forall p a b, - 2 ^ 31 <= a < 2 ^ 31 -> - 2 ^ 31 <= b < 2 ^ 31 -> pn_value p = print_bounds to_int (a, b) ->
  read_bounds (fun s => Ok (from_int s)) INT_MIN INT_MAX p = Ok (a, a).
Proof.
  intros p a b A B V. unfold print_bounds in V. cbn [fst snd] in V.
  assert (ND : forall z, - 2 ^ 31 <= z < 2 ^ 31 -> ~ In "."%char (dec z)).
  { intros z Hz I. pose proof (dec_word z ltac:(unfold printable; lia)) as W. rewrite Forall_forall in W. destruct (W _ I) as [X|[X|X]]; [unfold IsDigit in X; vm_compute in X; destruct X as [X _]; apply X; reflexivity|discriminate|]. cbn in X. intuition discriminate. }
  rewrite read_bounds_single.
  - cbn [bind]. rewrite V. unfold from_int. rewrite (from_signed_leads _ _ _ a (" "%char :: dec b)).
    + unfold INT_MIN, INT_MAX. rewrite !clamp_in by lia. reflexivity.
    + apply dec_leads; [unfold printable; lia|]. cbn. unfold IsDigit. vm_compute. intros [X _]. apply X. reflexivity.
  - rewrite V. destruct (to_int a); discriminate.
  - intros n (l & r & E & _). assert (I : In "."%char (pn_value p)) by (rewrite E; apply in_or_app; right; left; reflexivity).
    rewrite V in I. apply in_app_or in I as [I|[I|I]]; [exact (ND a A I)|discriminate|exact (ND b B I)].
Qed.
Print Assumptions C43_bounds_printed_refuted.

Example C43_nonvacuous :
  let c := vector_cast (fun n => Nat.eqb n 1) (vector_cast (fun _ => false) int_cast) in
  cto c [[1; -2]; []] = PN false [] [(lit "item0", PN false [] [(lit "item0", pn_of (lit "1")); (lit "item1", pn_of (lit "-2"))]); (lit "item1", pn_empty)] /\
  cfrom c (cto c [[1; -2]; []; [3]]) = Ok [[1; -2]; []; [3]] /\
  (let text := save_prop (cset c (fun _ => false) pn_empty (lit "rows") [[1; -2]; []; [3]]) true in
   fits text /\ exists t, load_prop text = Ok t /\ cget c t (lit "rows") = Ok [[1; -2]; []; [3]]) /\
  cfrom (transform_cast (fun _ => true) int_cast 0 read_int) (cto (transform_cast (fun _ => true) int_cast 0 read_int) ((1, 2, 3), (4, 5, 6, 7))) = Ok ((1, 2, 3), (4, 5, 6, 7)) /\
  read_bounds (fun s => Ok (from_int s)) INT_MIN INT_MAX (pn_of (lit "-3..12")) = Ok (-3, 12) /\
  read_bounds (fun s => Ok (from_int s)) INT_MIN INT_MAX (PN false [] [(lit "upper", pn_of (lit "5"))]) = Ok (INT_MIN, 5) /\
  read_bounds (fun s => Ok (from_int s)) INT_MIN INT_MAX (pn_of (lit "-3 12")) = Ok (-3, -3).
Proof.
  intros c. split; [vm_compute; reflexivity|]. split; [vm_compute; reflexivity|]. split; [|split; [vm_compute; reflexivity|split; [vm_compute; reflexivity|split; vm_compute; reflexivity]]].
  intros text. split; [vm_compute; reflexivity|]. exists (match load_prop text with Ok t => t | _ => pn_empty end). split; vm_compute; reflexivity.
Qed.
