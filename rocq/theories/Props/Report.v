(* C106: the report of a profiler as a tree of properties. *)
From Coq Require Import String Sorted Permutation Reals Lra.
From Verif Require Import Model.Base Model.StdString Model.PropTree Model.PropNode Model.FloatText Model.Profiler Model.Report.
From Verif Require Import Spec.Strings Spec.FloatText Spec.PropNode Spec.Profiler Proofs.BaseFacts Proofs.FloatTextProofs Proofs.PropNodeProofs Proofs.ProfilerProofs Proofs.ReportProofs Proofs.ReportTreeProofs Props.Profiler Spec.Report.
Local Open Scope list_scope.
Local Open Scope Z_scope.

Definition Rooted (p : profiler) : Prop := exists s, nth_error (sections p) 0 = Some s /\ sname s = root_name.
Lemma rooted_set ss i s s' c : Rooted (mkProfiler ss c) -> nth_error ss i = Some s -> sname s' = sname s -> forall d, Rooted (mkProfiler (set_nth ss i s') d).
Proof.
  intros (r & E & N) S S' d. cbn [sections] in E. unfold Rooted. cbn [sections]. destruct ss as [|x ss]; [discriminate|]. destruct i as [|i]; cbn in *.
  - exists s'. split; [reflexivity|]. congruence.
  - exists r. auto.
Qed.
Lemma rooted_step p o p' : Rooted p -> prof_step p o = Ok p' -> Rooted p'.
Proof.
  intros R E. destruct p as [ss c]. destruct o as [t|n t t'|t|t]; cbn [prof_step] in E.
  - injection E as <-. exists (mkSection root_name None 0 0 t). auto.
  - unfold start_section, acquire_section in E. cbn [sections current] in E. destruct (find_section ss n c) as [i|].
    + destruct (nth_error ss i) as [s|] eqn:S; [|discriminate]. injection E as <-. eapply rooted_set; [exact R|exact S|reflexivity].
    + unfold add_section in E. destruct (nth_error (ss ++ _) (List.length ss)) as [s|] eqn:S; [|discriminate]. injection E as <-. eapply (rooted_set _ _ s _ c); [|exact S|reflexivity].
      destruct R as (r & E & N). exists r. split; [|exact N]. cbn [sections] in *. rewrite nth_error_app1; [exact E|]. eapply nth_error_Some_lt. exact E.
  - unfold end_section in E. cbn [sections current] in E. destruct (nth_error ss c) as [s|] eqn:S; [|discriminate]. destruct (sparent s); [|discriminate] || idtac. injection E as <-. eapply rooted_set; [exact R|exact S|reflexivity].
  - unfold report in E. cbn [sections current] in E. destruct ss as [|s ss]; [discriminate|]. injection E as <-. destruct R as (r & E & N). cbn in E. injection E as <-. eexists. split; [reflexivity|exact N].
Qed.
Lemma rooted_run ops : forall p p', Rooted p -> prof_run p ops = Ok p' -> Rooted p'.
Proof.
  induction ops as [|o ops IH]; intros p p' R E; cbn in E; [congruence|]. destruct (prof_step p o) as [q| | |] eqn:S; try discriminate. eapply IH; [eapply rooted_step; eassumption|exact E].
Qed.

(* After any history of matched calls the report has one node for the whole run
   and within each node one for each section entered in it: total, percentages
   and overhead are those of the history. *)
Theorem C106_report : forall nan f text srt grow t0 h t, IEEE f -> Sorts srt -> Forall (fun c => c <> NUL) nan -> (List.length nan <= 25)%nat ->
  Balanced t0 h -> Clock t0 (OpReport t :: h) t -> t - since t0 h < 2 ^ fm_prec f ->
  exists p p' c, prof_run (reset t0) (rev h) = Ok p /\ prof_run (reset t0) (rev (OpReport t :: h)) = Ok p' /\
  report_tree nan f text srt grow p t = (p', Ok (PN true [] [(text root_name, c)])) /\ Shows nan f text t0 h t [] c.
Proof.
  intros nan f text srt grow t0 h t I SO CN LN B C L. destruct (run_sim t0 (rev h) [] (reset t0) [[]]) as (p & paths & E & S).
  { rewrite rev_involutive, app_nil_r. exact B. }
  { apply (sim_reset t0 [] t0); auto. }
  rewrite rev_involutive, app_nil_r in S. destruct (sim_report t0 h p paths t B S) as (p' & E' & S').
  assert (ER : prof_run (reset t0) (rev (OpReport t :: h)) = Ok p').
  { cbn [rev]. clear - E E'. revert E. generalize (reset t0). induction (rev h) as [|o l IH]; intros q E; cbn [app prof_run] in *; [injection E as ->; cbn [prof_step]; rewrite E'; reflexivity|]. destruct (prof_step q o); try discriminate. exact (IH _ E). }
  destruct (report_root nan f text srt grow t0 h t (sections p') paths B (sim_agrees _ _ _ _ S') SO I C L CN LN) as (c & X & SH).
  exists p, p', c. split; [exact E|]. split; [exact ER|]. split; [|exact SH]. unfold report_tree. rewrite E', X. cbn [bind]. do 5 f_equal.
  destruct (rooted_run _ _ _ (ex_intro _ (mkSection root_name None 0 0 t0) (conj eq_refl eq_refl) : Rooted (reset t0)) ER) as (s & N & R). unfold name_of. rewrite N, R. reflexivity.
Qed.

Lemma keys_forall2 {A} (text : A -> str) (P : A -> pnode -> Prop) : forall ns cs, map fst cs = map text ns ->
  (forall k c, In (k, c) cs -> forall n, In n ns -> text n = k -> P n c) -> Forall2 (fun n kc => fst kc = text n /\ P n (snd kc)) ns cs.
Proof.
  induction ns as [|n ns IH]; intros [|[k c] cs] E H; try discriminate; constructor; cbn in E; injection E as E1 E2.
  - split; [exact E1|]. cbn. eapply H; [left; reflexivity|left; reflexivity|auto].
  - apply IH; [exact E2|]. intros k' c' I m M T. eapply H; [right; exact I|right; exact M|exact T].
Qed.
(* Sections whose names have different texts are all there, the greatest total
   first. *)
Theorem C106_distinct : forall nan f text t0 h t q c, Shows nan f text t0 h t q c ->
  (forall n m, visited t0 h (n :: q) -> visited t0 h (m :: q) -> text n = text m -> n = m) ->
  exists ns, Within t0 h q ns /\ StronglySorted (fun a b => time t0 h t (b :: q) <= time t0 h t (a :: q)) ns /\
  Forall2 (fun n kc => fst kc = text n /\ Shows nan f text t0 h t (n :: q) (snd kc)) ns (pn_children c) /\
  Told nan f (time t0 h t q) (time t0 h t []) (own t0 h t q ns) (lost_within t0 h q) (pn_value c).
Proof.
  intros nan f text t0 h t q c S D. inversion S as [q' m v cs ns W SO T K H]; subst. exists ns. split; [exact W|]. split; [exact SO|]. split; [|exact T]. destruct W as [ND V]. cbn [pn_children].
  assert (NT : NoDup (map text ns)) by (apply nodup_map_in; [exact ND|]; intros x y X Y; apply D; apply V; assumption).
  rewrite nodup_fixed_point, rev_involutive in K by (apply NoDup_rev, NT). apply (keys_forall2 text (fun n c => Shows nan f text t0 h t (n :: q) c)); [exact K|]. intros k d IC n IN TN. destruct (H k d IC) as (l & n' & r & -> & TN' & _ & SH).
  assert (n = n') as -> by (apply D; [apply V; exact IN|apply V; apply in_or_app; right; left; reflexivity|congruence]). exact SH.
Qed.
Lemma reach_snoc ks c d : Reach ks c d -> forall k e, First k e (pn_children d) -> Reach (ks ++ [k]) c e.
Proof. induction 1; intros k' e' F; cbn; econstructor; eauto; constructor. Qed.
(* Then the node of any section is found under the names of its path. *)
Theorem C106_reachable : forall nan f text t0 h t c, Balanced t0 h -> Shows nan f text t0 h t [] c ->
  (forall q n m, visited t0 h (n :: q) -> visited t0 h (m :: q) -> text n = text m -> n = m) ->
  forall q, visited t0 h q -> exists d, Reach (rev (map text q)) c d /\ Shows nan f text t0 h t q d.
Proof.
  intros nan f text t0 h t c B S D. induction q as [|n q IH]; intros V; [exists c; split; [constructor|exact S]|].
  destruct (IH (visited_tail t0 h B n q V)) as (d & R & SD). destruct (C106_distinct nan f text t0 h t q d SD (D q)) as (ns & [ND W] & _ & F & _).
  assert (IN : In n ns) by (apply W, V). assert (NT : NoDup (map text ns)) by (apply nodup_map_in; [exact ND|]; intros x y X Y; apply (D q); apply W; assumption).
  assert (X : exists e, First (text n) e (pn_children d) /\ Shows nan f text t0 h t (n :: q) e).
  { clear - F IN NT. induction F as [|m [k e] ns cs [E S] F IHF]; [destruct IN|]. cbn in E, S. subst k. cbn in NT. inversion NT as [|x l N1 N2]; subst. destruct IN as [-> |IN]; [exists e; split; [exists [], cs; split; [reflexivity|intros []]|exact S]|].
    destruct (IHF IN N2) as (e' & (l & r & -> & NI) & S'). exists e'. split; [|exact S']. exists ((text m, e) :: l), r. split; [reflexivity|]. cbn. intros [EQ|I]; [|contradiction]. apply N1. rewrite EQ. apply in_map, IN. }
  destruct X as (e & FE & SE). exists e. split; [|exact SE]. cbn [map rev]. exact (reach_snoc _ _ _ R _ _ FE).
Qed.

Local Open Scope R_scope.
Lemma scale_range f : IEEE f -> 0 < 5 / IZR (2 ^ fm_prec f) <= 1 / 3000000.
Proof.
  intros I. assert (P : 16777216 <= IZR (2 ^ fm_prec f)) by (destruct I as [->| ->]; apply IZR_le; vm_compute; discriminate). unfold Rdiv. assert (0 < / IZR (2 ^ fm_prec f) <= / 16777216) by (split; [apply Rinv_0_lt_compat; lra|apply Rinv_le_contravar; lra]). lra.
Qed.
Lemma share_range a b : (0 <= a <= b)%Z -> (0 < b)%Z -> 0 <= 10000 * IZR a / IZR b <= 10000.
Proof.
  intros A B. apply IZR_lt in B. destruct A as [A1 A2]. apply IZR_le in A1, A2. split; [unfold Rdiv; apply Rmult_le_pos; [lra|left; apply Rinv_0_lt_compat; exact B]|]. apply (Rmult_le_reg_r (IZR b)); [exact B|]. unfold Rdiv. rewrite Rmult_assoc, Rinv_l by lra. lra.
Qed.
(* A part of a whole shows between 0.00% and 100.00%, the whole 100.00%. *)
Theorem C106_percent : forall nan f W a b v, IEEE f -> (0 <= a <= b)%Z -> (0 < b)%Z -> Percent nan f W a b v ->
  exists k s, (0 <= k <= 10000)%Z /\ Fixed 2 false k s /\ Field W s v /\ Hundredths f a b k /\ (a = b -> k = 10000%Z) /\ (a = 0%Z -> k = 0%Z).
Proof.
  intros nan f W a b v I A B [(_ & neg & k & s & X & F & H & SG)|[(E & _)|[(E & _)|(E & _)]]]; try lia.
  replace (a <? 0)%Z with false in SG by (symmetry; apply Z.ltb_ge; lia). replace (b <? 0)%Z with false in SG by (symmetry; apply Z.ltb_ge; lia). cbn in SG. subst neg. exists k, s. pose proof (share_range a b A B) as SR. pose proof (scale_range f I) as SC.
  assert (HH := H). unfold Hundredths in HH. set (x := 10000 * IZR a / IZR b) in *. rewrite (Rabs_right x) in HH by lra. set (e := 5 / IZR (2 ^ fm_prec f)) in *.
  assert (EX : 0 <= e * x <= 1 / 3000000 * 10000) by (split; [apply Rmult_le_pos; lra|apply Rmult_le_compat; lra]). assert (D : x - 1 < IZR k < x + 1 /\ IZR k < 10001) by (unfold Rabs in HH; destruct (Rcase_abs (IZR k - x)); lra).
  assert (K : (0 <= k <= 10000)%Z) by (destruct D as [[D1 D2] D3]; apply lt_IZR in D3; assert (-1 < k)%Z by (apply lt_IZR; lra); lia).
  split; [exact K|]. split; [exact X|]. split; [exact F|]. split; [exact H|]. split.
  - intros ->. assert (X1 : x = 10000) by (unfold x; field; apply IZR_lt in B; lra). assert (9999 < k)%Z by (apply lt_IZR; lra). lia.
  - intros ->. assert (X0 : x = 0) by (unfold x, Rdiv; ring). assert (k < 1)%Z by (apply lt_IZR; lra). lia.
Qed.
Local Notation zsum := (fold_right Z.add 0%Z).
Lemma parts_error f b l : IEEE f -> (0 < b)%Z -> Forall (fun ak => (0 <= fst ak)%Z /\ Hundredths f (fst ak) b (snd ak)) l ->
  Rabs (IZR (zsum (map snd l)) - 10000 * IZR (zsum (map fst l)) / IZR b) <= INR (List.length l) / 2 + 5 / IZR (2 ^ fm_prec f) * (10000 * IZR (zsum (map fst l)) / IZR b).
Proof.
  intros I B F. apply IZR_lt in B. induction F as [|[a k] l [A H] F IH]; cbn [map fold_right List.length fst snd] in *.
  - unfold Rdiv. rewrite !Rmult_0_r, !Rmult_0_l, !Rmult_0_r, Rminus_0_r, Rabs_R0. cbn. lra.
  - rewrite !plus_IZR, S_INR. unfold Hundredths in H. apply IZR_le in A. set (K := IZR (zsum (map snd l))) in *. set (s := IZR (zsum (map fst l))) in *. set (e := 5 / IZR (2 ^ fm_prec f)) in *.
    assert (XA : 0 <= 10000 * IZR a / IZR b) by (unfold Rdiv; apply Rmult_le_pos; [lra|left; apply Rinv_0_lt_compat; exact B]). rewrite (Rabs_right (10000 * IZR a / IZR b)) in H by lra.
    replace (10000 * (IZR a + s) / IZR b) with (10000 * IZR a / IZR b + 10000 * s / IZR b) by (unfold Rdiv; ring). set (x := 10000 * IZR a / IZR b) in *. set (y := 10000 * s / IZR b) in *.
    replace (IZR k + K - (x + y)) with ((IZR k - x) + (K - y)) by ring. eapply Rle_trans; [apply Rabs_triang|]. lra.
Qed.
(* The percentages of the parts add up to that of the whole, but for half a
   hundredth each. *)
Theorem C106_sum : forall f b l k, IEEE f -> (0 < b)%Z -> Forall (fun ak => (0 <= fst ak)%Z /\ Hundredths f (fst ak) b (snd ak)) l ->
  (zsum (map fst l) <= b)%Z -> Hundredths f (zsum (map fst l)) b k -> (2 * Z.abs (k - zsum (map snd l)) <= Z.of_nat (List.length l) + 1)%Z.
Proof.
  intros f b l k I B F A H. pose proof (parts_error f b l I B F) as P. pose proof (scale_range f I) as SC.
  assert (A0 : (0 <= zsum (map fst l))%Z). { clear - F. induction F as [|[a j] l [X _] F IH]; cbn in *; lia. }
  pose proof (share_range _ b (conj A0 A) B) as SR. unfold Hundredths in H. set (x := 10000 * IZR (zsum (map fst l)) / IZR b) in *. rewrite (Rabs_right x) in H by lra. set (e := 5 / IZR (2 ^ fm_prec f)) in *. set (K := zsum (map snd l)) in *.
  assert (EX : 0 <= e * x <= 1 / 3000000 * 10000) by (split; [apply Rmult_le_pos; lra|apply Rmult_le_compat; lra]).
  assert (D : Rabs (IZR k - IZR K) < (INR (List.length l) + 2) / 2). { replace (IZR k - IZR K) with ((IZR k - x) + - (IZR K - x)) by ring. eapply Rle_lt_trans; [apply Rabs_triang|]. rewrite Rabs_Ropp. lra. }
  rewrite <- minus_IZR, <- abs_IZR, INR_IZR_INZ in D. assert (2 * Z.abs (k - K) < Z.of_nat (List.length l) + 2)%Z by (apply lt_IZR; rewrite mult_IZR, plus_IZR; lra). lia.
Qed.
Local Open Scope Z_scope.
(* A section that was never left has no total: its overhead shows as inf, or
   as whatever NaN shows as. *)
Theorem C106_open : forall nan f text t0 h t q c, Shows nan f text t0 h t q c -> Balanced t0 h -> Clock t0 h t -> time t0 h t q = 0 ->
  exists pre w, pn_value c = pre ++ lit "% exclusive " ++ w ++ lit "% overhead)" /\
  (0 < lost_within t0 h q /\ Field 5 (lit "inf") w \/ lost_within t0 h q = 0 /\ Field 5 nan w).
Proof.
  intros nan f text t0 h t q c S B C Z. destruct (lost_bound t0 h t C B q) as [LB _]. inversion S as [q' m v cs ns W SO (v1 & v2 & v3 & v4 & _ & _ & _ & P & ->) K H]; subst. rewrite Z in P. exists (v1 ++ lit "ms " ++ v2 ++ lit "% (" ++ v3), v4. split; [cbn [pn_value]; rewrite <- !app_assoc; reflexivity|].
  destruct P as [(N & _)|[(_ & L & F)|[(_ & L & _)|(_ & L & F)]]]; [congruence|left; auto|lia|right; auto].
Qed.

(* sorting by insertion *)
Fixpoint insert_desc (key : nat -> Z) (x : nat) (l : list nat) : list nat :=
  match l with [] => [x] | y :: l' => if key y <? key x then x :: l else y :: insert_desc key x l' end.
Definition sort_desc (key : nat -> Z) (l : list nat) : list nat := fold_right (insert_desc key) [] l.
Lemma insert_perm key x l : Permutation (x :: l) (insert_desc key x l).
Proof. induction l as [|y l IH]; cbn; [reflexivity|]. destruct (_ <? _); [reflexivity|]. rewrite perm_swap. constructor. exact IH. Qed.
Lemma insert_sorted key x l : StronglySorted (fun a b => key b <= key a) l -> StronglySorted (fun a b => key b <= key a) (insert_desc key x l).
Proof.
  induction 1 as [|y l S IH F]; cbn; [repeat constructor|]. destruct (Z.ltb_spec (key y) (key x)) as [L|L].
  - constructor; [constructor; assumption|]. constructor; [lia|]. rewrite Forall_forall in *. intros z Z. specialize (F z Z). lia.
  - constructor; [exact IH|]. rewrite Forall_forall in *. intros z Z. apply (Permutation_in _ (Permutation_sym (insert_perm key x l))) in Z as [<-|Z]; [lia|auto].
Qed.
Lemma sort_desc_sorts : Sorts sort_desc.
Proof.
  intros key l. split.
  - induction l as [|x l IH]; cbn; [reflexivity|]. rewrite <- insert_perm. constructor. exact IH.
  - induction l as [|x l IH]; cbn; [constructor|]. apply insert_sorted, IH.
Qed.
Definition sample_text (n : nat) : str := nth n [lit "TOTAL"; lit "a"; lit "b"; lit "c"; lit "a"] [].
Definition no_grow (n : nat) : bool := false.
(* a is entered twice, with b in it the second time *)
Definition sample_calls : list prof_op :=
  [OpEnd 7500000; OpEnd 7000000; OpStart 2 5000000 5000000; OpStart 1 4000000 4000000; OpEnd 2000000; OpStart 1 0 1000].
Definition report_of (h : list prof_op) (t : Z) : res pnode :=
  match prof_run (reset 0) (rev h) with Ok p => snd (report_tree (lit "nan") float_fmt sample_text sort_desc no_grow p t) | _ => UB end.
Example C106_example :
  Balanced 0 sample_calls /\ Clock 0 (OpReport 10000000 :: sample_calls) 10000000 /\ 10000000 - since 0 sample_calls < 2 ^ fm_prec float_fmt /\
  report_of sample_calls 10000000 = Ok (PN true [] [(lit "TOTAL", PN true (lit "    10ms 100.00% (45.00% exclusive  0.01% overhead)")
    [(lit "a", PN true (lit "     6ms  55.00% (35.00% exclusive  0.02% overhead)") [(lit "b", PN false (lit "     2ms  20.00% (20.00% exclusive  0.00% overhead)") [])])])]).
Proof.
  split; [cbn; repeat split; lia|]. split.
  - apply (Clock_report 0 _ 7500000); [|lia]. apply (Clock_end 0 _ 7000000); [|lia]. apply (Clock_end 0 _ 5000000); [|lia]. apply (Clock_section 0 _ 4000000); [|lia|lia]. apply (Clock_section 0 _ 2000000); [|lia|lia]. apply (Clock_end 0 _ 1000); [|lia]. apply (Clock_section 0 _ 0); [|lia|lia]. constructor.
  - split; [vm_compute; reflexivity|vm_compute; reflexivity].
Qed.
(* Two names of the same text at different addresses: one section is lost, the
   one with the greatest total. *)
Theorem C106_lost_refuted : exists h t n m v, Balanced 0 h /\ Clock 0 (OpReport t :: h) t /\ visited 0 h [n] /\ visited 0 h [m] /\ n <> m /\ spent 0 h [n] > spent 0 h [m] /\
  report_of h t = Ok (PN true [] [(lit "TOTAL", PN true v [(lit "a", PN true (lit "     1ms  10.00% (10.00% exclusive  0.00% overhead)") [])])]).
Proof.
  exists [OpEnd 9000000; OpStart 4 8000000 8000000; OpEnd 7000000; OpStart 1 0 0], 10000000, 1%nat, 4%nat, (lit "    10ms 100.00% (20.00% exclusive  0.00% overhead)").
  split; [cbn; repeat split; lia|]. split; [|split; [cbn; auto|split; [cbn; auto|split; [discriminate|split; [vm_compute; reflexivity|vm_compute; reflexivity]]]]].
  apply (Clock_report 0 _ 9000000); [|lia]. apply (Clock_end 0 _ 8000000); [|lia]. apply (Clock_section 0 _ 7000000); [|lia|lia]. apply (Clock_end 0 _ 0); [|lia]. apply (Clock_section 0 _ 0); [|lia|lia]. constructor.
Qed.
(* The percentages shown need not add up: three thirds show as 99.99. *)
Theorem C106_sum_refuted : exists h t, Balanced 0 h /\ Clock 0 (OpReport t :: h) t /\
  report_of h t = Ok (PN true [] [(lit "TOTAL", PN true (lit "     9ms 100.00% ( 0.00% exclusive  0.00% overhead)")
    [(lit "c", PN false (lit "     3ms  33.33% (33.33% exclusive  0.00% overhead)") []); (lit "b", PN false (lit "     3ms  33.33% (33.33% exclusive  0.00% overhead)") []); (lit "a", PN false (lit "     3ms  33.33% (33.33% exclusive  0.00% overhead)") [])])]).
Proof.
  exists [OpEnd 9000000; OpStart 3 6000000 6000000; OpEnd 6000000; OpStart 2 3000000 3000000; OpEnd 3000000; OpStart 1 0 0], 9000000.
  split; [cbn; repeat split; lia|]. split; [|vm_compute; reflexivity].
  apply (Clock_report 0 _ 9000000); [|lia]. apply (Clock_end 0 _ 6000000); [|lia]. apply (Clock_section 0 _ 6000000); [|lia|lia]. apply (Clock_end 0 _ 3000000); [|lia]. apply (Clock_section 0 _ 3000000); [|lia|lia]. apply (Clock_end 0 _ 0); [|lia]. apply (Clock_section 0 _ 0); [|lia|lia]. constructor.
Qed.
(* A section still open when the report is made shows no time, and less than
   none of its own. *)
Theorem C106_open_refuted : exists h t v, Balanced 0 h /\ Clock 0 (OpReport t :: h) t /\
  report_of h t = Ok (PN true [] [(lit "TOTAL", PN true v [(lit "a", PN true (lit "     0ms   0.00% (-50.00% exclusive   inf% overhead)") [(lit "b", PN false (lit "     5ms  50.00% (50.00% exclusive  0.02% overhead)") [])])])]).
Proof.
  exists [OpEnd 7000000; OpStart 2 2000000 2001000; OpStart 1 0 0], 10000000, (lit "    10ms 100.00% (100.00% exclusive  0.01% overhead)").
  split; [cbn; repeat split; lia|]. split; [|vm_compute; reflexivity].
  apply (Clock_report 0 _ 7000000); [|lia]. apply (Clock_end 0 _ 2001000); [|lia]. apply (Clock_section 0 _ 0); [|lia|lia]. apply (Clock_section 0 _ 0); [|lia|lia]. constructor.
Qed.
