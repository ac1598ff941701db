(* Proofs about dynarray: the heap implements arrays by value. *)
From Coq Require Import List Arith Lia.
From Verif Require Import Model.Base Model.Dynarray Spec.Dynarray Proofs.BaseFacts.
Import ListNotations.

Section Dynarray.
Context {T : Type} (dflt : option T).
Implicit Types (h : heap T) (a : arr).

Lemma set_block_nth h b c j : b < length h -> nth_error (set_block h b c) j = if j =? b then Some c else nth_error h j.
Proof. intros H. unfold set_block. apply nth_error_upd. exact H. Qed.
Lemma set_block_length h b c : b < length h -> length (set_block h b c) = length h.
Proof. intros H. unfold set_block. apply upd_length. exact H. Qed.
Lemma cells_ok h b l : nth_error h b = Some (Some l) -> cells h b = Ok l.
Proof. intros H. unfold cells. rewrite H. reflexivity. Qed.
Lemma block_lt h b c : nth_error h b = Some c -> b < length h.
Proof. apply nth_error_Some_lt. Qed.

(* the heap h' is h with the contents l in block b *)
Definition Changed h b l h' : Prop := length h' = length h /\ forall j, nth_error h' j = if j =? b then Some (Some l) else nth_error h j.
Lemma write_ok h a b l i v : a_data a = Some b -> nth_error h b = Some (Some l) -> i < length l ->
  exists h', write h a i v = Ok h' /\ Changed h b (firstn i l ++ v :: skipn (S i) l) h'.
Proof.
  intros A B L. unfold write. rewrite A, (cells_ok h b l B). cbn [bind]. rewrite vset_ok by exact L. cbn [bind]. eexists. split; [reflexivity|]. split; [apply set_block_length; eapply block_lt; eauto|].
  intros j. apply set_block_nth. eapply block_lt; eauto.
Qed.
Lemma write_ub h a b l i v : a_data a = Some b -> nth_error h b = Some (Some l) -> length l <= i -> write h a i v = UB.
Proof. intros A B L. unfold write. rewrite A, (cells_ok h b l B). cbn [bind]. rewrite vset_ub by exact L. reflexivity. Qed.
Lemma read_ok h a b l i : a_data a = Some b -> nth_error h b = Some (Some l) -> read h a i = match nth_error l i with Some v => Ok v | None => UB end.
Proof. intros A B. unfold read. rewrite A, (cells_ok h b l B). reflexivity. Qed.

Lemma fill_ok a b v : a_data a = Some b -> forall n h l i, nth_error h b = Some (Some l) -> length l = i + n ->
  exists h', fill h a v i n = Ok h' /\ Changed h b (firstn i l ++ repeat (Some v) n) h'.
Proof.
  intros A. induction n as [|n IH]; intros h l i B L; cbn [fill].
  - exists h. split; [reflexivity|]. split; [reflexivity|]. intros j. cbn [repeat]. rewrite app_nil_r, firstn_all2 by lia. destruct (Nat.eqb_spec j b) as [->|N]; [exact B|reflexivity].
  - destruct (write_ok h a b l i (Some v) A B ltac:(lia)) as (h1 & -> & L1 & N1). cbn [bind]. set (l1 := firstn i l ++ Some v :: skipn (S i) l) in *.
    assert (LL : length l1 = length l) by (apply upd_length; lia).
    destruct (IH h1 l1 (S i)) as (h2 & -> & L2 & N2); [rewrite N1, Nat.eqb_refl; reflexivity|lia|]. exists h2. split; [reflexivity|]. split; [lia|]. intros j. rewrite N2, N1.
    destruct (Nat.eqb_spec j b); [|reflexivity]. do 2 f_equal. unfold l1. rewrite firstn_app, firstn_length. replace (Nat.min i (length l)) with i by lia. replace (S i - i) with 1 by lia. rewrite firstn_firstn. replace (Nat.min (S i) i) with i by lia. cbn [firstn]. rewrite <- app_assoc. reflexivity.
Qed.
Lemma copy_ok src dst b1 b2 l1 : a_data src = Some b1 -> a_data dst = Some b2 -> b1 <> b2 -> forall n h l2 i, nth_error h b1 = Some (Some l1) -> nth_error h b2 = Some (Some l2) -> length l1 = i + n -> length l2 = i + n ->
  exists h', copy h src dst i n = Ok h' /\ Changed h b2 (firstn i l2 ++ skipn i l1) h'.
Proof.
  intros A1 A2 NE. induction n as [|n IH]; intros h l2 i B1 B2 L1 L2; cbn [copy].
  - exists h. split; [reflexivity|]. split; [reflexivity|]. intros j. rewrite skipn_all2, app_nil_r, firstn_all2 by lia. destruct (Nat.eqb_spec j b2) as [->|N]; [exact B2|reflexivity].
  - destruct (nth_error_ex l1 i ltac:(lia)) as (x & X). rewrite (read_ok h src b1 l1 i A1 B1), X. cbn [bind]. destruct (write_ok h dst b2 l2 i x A2 B2 ltac:(lia)) as (h1 & -> & LH & N1). cbn [bind].
    set (m := firstn i l2 ++ x :: skipn (S i) l2) in *. assert (LL : length m = length l2) by (apply upd_length; lia).
    destruct (IH h1 m (S i)) as (h2 & -> & LH2 & N2); [rewrite N1, (proj2 (Nat.eqb_neq _ _) NE); exact B1|rewrite N1, Nat.eqb_refl; reflexivity|lia|lia|]. exists h2. split; [reflexivity|]. split; [lia|]. intros j. rewrite N2, N1.
    destruct (Nat.eqb_spec j b2); [|reflexivity]. do 2 f_equal. unfold m. rewrite firstn_app, firstn_length. replace (Nat.min i (length l2)) with i by lia. replace (S i - i) with 1 by lia. rewrite firstn_firstn. replace (Nat.min (S i) i) with i by lia. cbn [firstn]. rewrite <- app_assoc. cbn [app]. f_equal.
    clear -X. revert l1 X. induction i as [|i IH]; intros [|y l1] X; try discriminate; cbn in *; [inversion X; reflexivity|]. apply IH. exact X.
Qed.

(* what an array object means *)
Definition Holds h a (s : sarr T) : Prop :=
  match s with
  | SNull => a = mkArr None None
  | SVec l => exists b, a = mkArr (Some b) (Some (b, length l)) /\ nth_error h b = Some (Some l)
  | SGone => exists p, a = mkArr None (Some p)
  end.
Definition oHolds h (oa : option arr) (os : option (sarr T)) : Prop := match oa, os with None, None => True | Some a, Some s => Holds h a s | _, _ => False end.
Definition Owns (x : nat -> option arr) (i b : nat) : Prop := exists a, x i = Some a /\ a_data a = Some b.
Record Rel h (x : nat -> option arr) (s : nat -> option (sarr T)) : Prop := {
  r_holds : forall i, oHolds h (x i) (s i);
  r_one : forall i j b, Owns x i b -> Owns x j b -> i = j;
  r_leak : forall b l, nth_error h b = Some (Some l) -> exists i, Owns x i b }.

Lemma owns_live h x s i b : Rel h x s -> Owns x i b -> exists l, nth_error h b = Some (Some l).
Proof.
  intros R (a & A & D). pose proof (r_holds _ _ _ R i) as H. rewrite A in H. cbn in H. destruct (s i) as [[|l|]|]; cbn in H; try contradiction.
  - subst a. discriminate.
  - destruct H as (b' & -> & N). cbn in D. inversion D; subst. exists l. exact N.
  - destruct H as (p & ->). discriminate.
Qed.
Lemma set_var_same (x : nat -> option arr) i v : set_var x i v i = v.
Proof. unfold set_var. rewrite Nat.eqb_refl. reflexivity. Qed.
Lemma set_var_other (x : nat -> option arr) i j v : j <> i -> set_var x i v j = x j.
Proof. intros N. unfold set_var. rewrite (proj2 (Nat.eqb_neq _ _) N). reflexivity. Qed.
Lemma sput_same (x : nat -> option (sarr T)) i v : sput x i v i = v.
Proof. unfold sput. rewrite Nat.eqb_refl. reflexivity. Qed.
Lemma sput_other (x : nat -> option (sarr T)) i j v : j <> i -> sput x i v j = x j.
Proof. intros N. unfold sput. rewrite (proj2 (Nat.eqb_neq _ _) N). reflexivity. Qed.

(* changing variable i and blocks that no other variable owns *)
Lemma rel_put h h' x s i oa os : Rel h x s ->
  (forall j b l, j <> i -> Owns x j b -> nth_error h b = Some (Some l) -> nth_error h' b = Some (Some l)) ->
  oHolds h' oa os ->
  (forall a j b, oa = Some a -> j <> i -> Owns x j b -> a_data a <> Some b) ->
  (forall b l, nth_error h' b = Some (Some l) -> (exists a, oa = Some a /\ a_data a = Some b) \/ exists j, j <> i /\ Owns x j b) ->
  Rel h' (set_var x i oa) (sput s i os).
Proof.
  intros R F H D L. split.
  - intros j. destruct (Nat.eq_dec j i) as [->|N]; [rewrite set_var_same, sput_same; exact H|]. rewrite set_var_other, sput_other by exact N. pose proof (r_holds _ _ _ R j) as Q.
    destruct (x j) as [a|] eqn:X; destruct (s j) as [[|l|]|] eqn:S; cbn in Q |- *; try exact Q; try contradiction.
    destruct Q as (b & -> & B). exists b. split; [reflexivity|]. apply (F j); [exact N|exists (mkArr (Some b) (Some (b, length l))); split; [exact X|reflexivity]|exact B].
  - assert (O : forall j b, Owns (set_var x i oa) j b -> (j = i /\ exists a, oa = Some a /\ a_data a = Some b) \/ (j <> i /\ Owns x j b)).
    { intros j b (a & A & B). destruct (Nat.eq_dec j i) as [->|N]; [left; rewrite set_var_same in A; split; [reflexivity|exists a; auto]|]. right. rewrite set_var_other in A by exact N. split; [exact N|exists a; auto]. }
    intros j k b J K. apply O in J, K. destruct J as [[-> (a & A & B)]|[N J]], K as [[-> (a' & A' & B')]|[N' K]]; try reflexivity.
    + exfalso. exact (D a k b A N' K B).
    + exfalso. exact (D a' j b A' N J B').
    + apply (r_one _ _ _ R j k b); assumption.
  - intros b l B. destruct (L b l B) as [(a & A & E)|(j & N & (a & A & E))]; [exists i; exists a; rewrite set_var_same; auto|]. exists j. exists a. rewrite set_var_other by exact N. auto.
Qed.
Lemma new_nth h n j : nth_error (fst (new_block dflt h n)) j = if j =? length h then Some (Some (repeat dflt n)) else nth_error h j.
Proof.
  unfold new_block. cbn [fst]. destruct (Nat.eqb_spec j (length h)) as [->|N]; [rewrite nth_error_app2, Nat.sub_diag by lia; reflexivity|].
  destruct (Nat.lt_ge_cases j (length h)) as [L|L]; [apply nth_error_app1; exact L|]. rewrite (proj2 (nth_error_None h j)) by lia. apply nth_error_None. rewrite app_length. cbn. lia.
Qed.

(* variable i gets the new block, holding l; its old block is deleted *)
Lemma rel_new h x s i h' l : Rel h x s -> (forall j, nth_error h' j = if j =? length h then Some (Some l) else match x i with Some a => if match a_data a with Some b => j =? b | None => false end then Some None else nth_error h j | None => nth_error h j end) ->
  Rel h' (set_var x i (Some (mkArr (Some (length h)) (Some (length h, length l))))) (sput s i (Some (SVec l))).
Proof.
  intros R H. apply (rel_put h h' x s i _ _ R).
  - intros j b k N O B. rewrite H. pose proof (block_lt _ _ _ B) as BL. rewrite (proj2 (Nat.eqb_neq b (length h))) by lia. destruct (x i) as [a|] eqn:X; [|exact B].
    destruct (a_data a) as [b'|] eqn:D; [|exact B]. destruct (Nat.eqb_spec b b') as [->|]; [|exact B]. exfalso. apply N. apply (r_one _ _ _ R j i b'); [exact O|exists a; auto].
  - cbn. exists (length h). split; [reflexivity|]. rewrite H, Nat.eqb_refl. reflexivity.
  - intros a j b A N O C. inversion A; subst a. cbn in C. inversion C; subst b. destruct (owns_live h x s j _ R O) as (k & K). apply block_lt in K. lia.
  - intros b k B. rewrite H in B. destruct (Nat.eqb_spec b (length h)) as [->|N]; [left; eexists; split; reflexivity|]. right.
    assert (B' : nth_error h b = Some (Some k) /\ ~ Owns x i b).
    { destruct (x i) as [a|] eqn:X; [|split; [exact B|intros (a & A & _); congruence]]. destruct (a_data a) as [b'|] eqn:D.
      - destruct (Nat.eqb_spec b b'); [discriminate|]. split; [exact B|]. intros (a' & A & E). rewrite X in A. inversion A; subst. congruence.
      - split; [exact B|]. intros (a' & A & E). rewrite X in A. inversion A; subst. congruence. }
    destruct B' as [B' NO]. destruct (r_leak _ _ _ R b k B') as (j & O). exists j. split; [intros ->; contradiction|exact O].
Qed.
(* the contents of block b of variable i change *)
Lemma rel_change h x s i b l l' h' : Rel h x s -> x i = Some (mkArr (Some b) (Some (b, length l))) -> nth_error h b = Some (Some l) -> length l' = length l -> Changed h b l' h' ->
  Rel h' x (sput s i (Some (SVec l'))).
Proof.
  intros R X B L [_ C]. assert (Q : Rel h' (set_var x i (x i)) (sput s i (Some (SVec l')))).
  { apply (rel_put h h' x s i _ _ R).
    - intros j b' k N O K. rewrite C. destruct (Nat.eqb_spec b' b) as [->|]; [|exact K]. exfalso. apply N. apply (r_one _ _ _ R j i b O). eexists. split; [exact X|reflexivity].
    - rewrite X. cbn. exists b. rewrite L. split; [reflexivity|]. rewrite C, Nat.eqb_refl. reflexivity.
    - intros a j b' A N O D. rewrite X in A. inversion A; subst a. cbn in D. inversion D; subst b'. apply N. apply (r_one _ _ _ R j i b O). eexists. split; [exact X|reflexivity].
    - intros b' k K. rewrite C in K. destruct (Nat.eqb_spec b' b) as [->|N]; [left; eexists; split; [exact X|reflexivity]|]. destruct (r_leak _ _ _ R b' k K) as (j & O). right. exists j. split; [|exact O].
      intros ->. destruct O as (a & A & D). rewrite X in A. inversion A; subst a. cbn in D. congruence. }
  destruct Q as [Q1 Q2 Q3]. assert (E : forall j, set_var x i (x i) j = x j) by (intros j; unfold set_var; destruct (Nat.eqb_spec j i) as [->|]; reflexivity).
  split.
  - intros j. rewrite <- E. apply Q1.
  - intros j k b' (a & A & D) (a' & A' & D'). apply (Q2 j k b'); [exists a|exists a']; rewrite E; auto.
  - intros b' k K. destruct (Q3 b' k K) as (j & a & A & D). exists j, a. rewrite <- E. auto.
Qed.

Definition Agree (p : res (mem T * out T)) (q : res ((nat -> option (sarr T)) * out T)) : Prop :=
  match p, q with
  | Ok (m, r), Ok (s, r') => r = r' /\ Rel (m_heap m) (m_vars m) s
  | UB, UB => True
  | _, _ => False
  end.
Lemma size_holds h a v : Holds h a v -> match contents v with Ok l => size a = Ok (length l) | _ => size a = UB end.
Proof.
  destruct v as [|l|]; cbn.
  - intros ->. reflexivity.
  - intros (b & -> & _). cbn. rewrite Nat.eqb_refl. reflexivity.
  - intros (p & ->). reflexivity.
Qed.
Lemma copy_holds h h1 a v l b : Holds h a v -> contents v = Ok l -> (forall j, nth_error h1 j = if j =? b then Some (Some (repeat dflt (length l))) else nth_error h j) -> length h <= b ->
  forall e, exists h', copy h1 a (mkArr (Some b) e) 0 (length l) = Ok h' /\ Changed h1 b l h'.
Proof.
  intros H C N B e. destruct v as [|l'|]; cbn in H, C; [| |discriminate].
  - inversion C; subst l. cbn [length copy]. exists h1. split; [reflexivity|]. split; [reflexivity|]. intros j. rewrite N. destruct (j =? b); reflexivity.
  - inversion C; subst l'. destruct H as (b' & -> & B'). pose proof (block_lt _ _ _ B') as L. assert (NE : b' <> b) by lia.
    destruct (copy_ok (mkArr (Some b') (Some (b', length l))) (mkArr (Some b) e) b' b l eq_refl eq_refl NE (length l) h1 (repeat dflt (length l)) 0) as (h' & E & K).
    + rewrite N, (proj2 (Nat.eqb_neq _ _) NE). exact B'.
    + rewrite N, Nat.eqb_refl. reflexivity.
    + reflexivity.
    + apply repeat_length.
    + exists h'. split; [exact E|exact K].
Qed.
Lemma delete_nth h a v j : Holds h a v -> nth_error (delete_block h (a_data a)) j = if match a_data a with Some b => j =? b | None => false end then Some None else nth_error h j.
Proof.
  intros H. destruct v as [|l|]; cbn in H.
  - subst a. reflexivity.
  - destruct H as (b & -> & B). cbn. apply set_block_nth. eapply block_lt; eauto.
  - destruct H as (p & ->). reflexivity.
Qed.
Lemma delete_length h a v : Holds h a v -> length (delete_block h (a_data a)) = length h.
Proof.
  intros H. destruct v as [|l|]; cbn in H.
  - subst a. reflexivity.
  - destruct H as (b & -> & B). cbn. apply set_block_length. eapply block_lt; eauto.
  - destruct H as (p & ->). reflexivity.
Qed.

Lemma step_agree m s o : Rel (m_heap m) (m_vars m) s -> Agree (step dflt m o) (sstep dflt s o).
Proof.
  intros R. destruct m as [h x]. cbn [m_heap m_vars] in R.
  assert (DEAD : forall i, match dead {| m_heap := h; m_vars := x |} i with Ok _ => sdead s i = Ok tt /\ x i = None | _ => dead {| m_heap := h; m_vars := x |} i = UB /\ sdead s i = UB end).
  { intros i. unfold dead, sdead. cbn [m_vars]. pose proof (r_holds _ _ _ R i) as H. destruct (x i), (s i); cbn in H; try contradiction; auto. }
  assert (LIVE : forall i, match live {| m_heap := h; m_vars := x |} i with Ok a => x i = Some a /\ exists v, s i = Some v /\ slive s i = Ok v /\ Holds h a v | _ => live {| m_heap := h; m_vars := x |} i = UB /\ slive s i = UB end).
  { intros i. unfold live, slive. cbn [m_vars]. pose proof (r_holds _ _ _ R i) as H. destruct (x i) as [a|], (s i) as [v|]; cbn in H; try contradiction; auto. split; [reflexivity|]. exists v. auto. }
  destruct o as [i|i n|i n v|i j|i j|i j|i|i|i k|i k|i k v|i v]; cbn [step sstep m_heap m_vars].
  - (* default *) specialize (DEAD i). destruct (dead _ i) as [u| | |] eqn:D; try (destruct DEAD as [E1 E2]; rewrite E2; try discriminate E1; exact I). destruct DEAD as [-> X]. cbn [bind]. split; [reflexivity|]. cbn [m_heap m_vars].
    apply (rel_put h h x s i _ _ R); [auto|reflexivity|intros a j b A; inversion A; subst; discriminate|]. intros b l B. right. destruct (r_leak _ _ _ R b l B) as (j & O). exists j. split; [|exact O]. intros ->. destruct O as (a & A & _). congruence.
  - (* n *) specialize (DEAD i). destruct (dead _ i) as [u| | |] eqn:D; try (destruct DEAD as [E1 E2]; rewrite E2; try discriminate E1; exact I). destruct DEAD as [-> X]. cbn [bind]. unfold arr_n. destruct (new_block dflt h n) as [h1 b] eqn:NB. cbn [Agree]. split; [reflexivity|]. cbn [m_heap m_vars].
    assert (H1 : h1 = fst (new_block dflt h n)) by (rewrite NB; reflexivity). assert (B1 : b = length h) by (unfold new_block in NB; congruence). subst b. rewrite <- (repeat_length dflt n) at 1. apply (rel_new h x s i h1 _ R). intros j. rewrite X, H1. apply new_nth.
  - (* n, v *) specialize (DEAD i). destruct (dead _ i) as [u| | |] eqn:D; try (destruct DEAD as [E1 E2]; rewrite E2; try discriminate E1; exact I). destruct DEAD as [-> X]. cbn [bind]. unfold arr_nv, arr_n. destruct (new_block dflt h n) as [h1 b] eqn:NB.
    assert (H1 : h1 = fst (new_block dflt h n)) by (rewrite NB; reflexivity). assert (B1 : b = length h) by (unfold new_block in NB; congruence). subst b.
    unfold assign, size. cbn [a_data a_end]. rewrite Nat.eqb_refl. cbn [bind]. destruct (fill_ok (mkArr (Some (length h)) (Some (length h, n))) (length h) v eq_refl n h1 (repeat dflt n) 0) as (h2 & -> & L2 & N2).
    { rewrite H1, new_nth, Nat.eqb_refl. reflexivity. } { apply repeat_length. }
    cbn [bind Agree]. split; [reflexivity|]. cbn [m_heap m_vars]. rewrite <- (repeat_length (Some v) n) at 1. apply (rel_new h x s i h2 _ R). intros j. rewrite N2, X. cbn [firstn app]. destruct (Nat.eqb_spec j (length h)) as [E|E]; [reflexivity|]. rewrite H1, new_nth. rewrite (proj2 (Nat.eqb_neq _ _) E). reflexivity.
  - (* copy *) specialize (DEAD i). destruct (dead _ i) as [u| | |] eqn:D; try (destruct DEAD as [E1 E2]; rewrite E2; try discriminate E1; exact I). destruct DEAD as [-> X]. cbn [bind].
    specialize (LIVE j). destruct (live _ j) as [o| | |] eqn:L; try (destruct LIVE as [E1 E2]; rewrite E2; try discriminate E1; exact I). destruct LIVE as (XJ & v & SV & -> & H). cbn [bind]. unfold arr_copy.
    pose proof (size_holds h o v H) as SZ. destruct (contents v) as [l| | |] eqn:C; cbn [bind]; try (rewrite SZ; cbn [bind]; destruct v; discriminate C || exact I).
    rewrite SZ. cbn [bind]. destruct (new_block dflt h (length l)) as [h1 b] eqn:NB. assert (H1 : h1 = fst (new_block dflt h (length l))) by (rewrite NB; reflexivity). assert (B1 : b = length h) by (unfold new_block in NB; congruence). subst b.
    destruct (copy_holds h h1 o v l (length h) H C) with (e := Some (length h, length l)) as (h2 & -> & L2 & N2); [intros k; rewrite H1; apply new_nth|lia|].
    cbn [bind Agree]. split; [reflexivity|]. cbn [m_heap m_vars]. apply (rel_new h x s i h2 _ R). intros k. rewrite N2, X. destruct (Nat.eqb_spec k (length h)) as [E|E]; [reflexivity|]. rewrite H1, new_nth. rewrite (proj2 (Nat.eqb_neq _ _) E). reflexivity.
  - (* move *) specialize (DEAD i). destruct (dead _ i) as [u| | |] eqn:D; try (destruct DEAD as [E1 E2]; rewrite E2; try discriminate E1; exact I). destruct DEAD as [-> X]. cbn [bind].
    specialize (LIVE j). destruct (live _ j) as [o| | |] eqn:L; try (destruct LIVE as [E1 E2]; rewrite E2; try discriminate E1; exact I). destruct LIVE as (XJ & v & SV & -> & H). cbn [bind arr_move Agree]. split; [reflexivity|]. cbn [m_heap m_vars].
    assert (NE : j <> i) by congruence. split.
    + intros k. destruct (Nat.eq_dec k i) as [->|NI]; [rewrite set_var_same, sput_same; exact H|]. rewrite set_var_other, sput_other by exact NI.
      destruct (Nat.eq_dec k j) as [->|NJ]; [rewrite set_var_same, sput_same|rewrite set_var_other, sput_other by exact NJ; apply (r_holds _ _ _ R)].
      cbn. destruct v as [|l|]; cbn in H |- *; [subst o; reflexivity|destruct H as (b & -> & _)|destruct H as (p & ->)]; eexists; reflexivity.
    + assert (O : forall k b, Owns (set_var (set_var x j (Some {| a_data := None; a_end := a_end o |})) i (Some o)) k b -> exists k', Owns x k' b /\ (k = i /\ k' = j \/ k = k' /\ k <> j)).
      { intros k b (a & A & E). destruct (Nat.eq_dec k i) as [->|NI]; [rewrite set_var_same in A; exists j; split; [exists o; split; [exact XJ|congruence]|auto]|]. rewrite set_var_other in A by exact NI.
        destruct (Nat.eq_dec k j) as [->|NJ]; [rewrite set_var_same in A; inversion A; subst a; discriminate|]. rewrite set_var_other in A by exact NJ. exists k. split; [exists a; auto|]. right. auto. }
      intros k1 k2 b O1 O2. apply O in O1, O2. destruct O1 as (a1 & P1 & Q1), O2 as (a2 & P2 & Q2). pose proof (r_one _ _ _ R a1 a2 b P1 P2). subst a2.
      destruct Q1 as [[-> ->]|[-> Z1]], Q2 as [[-> Q2]|[-> Z2]]; congruence.
    + intros b l B. destruct (r_leak _ _ _ R b l B) as (k & a & A & E). destruct (Nat.eq_dec k j) as [->|NJ].
      * exists i, o. rewrite set_var_same. split; [reflexivity|]. congruence.
      * assert (k <> i) by congruence. exists k, a. rewrite set_var_other, set_var_other by assumption. auto.
  - (* assign *) pose proof (LIVE i) as LI. destruct (live _ i) as [a| | |] eqn:LA; try (destruct LI as [E1 E2]; rewrite E2; try discriminate E1; exact I). destruct LI as (XI & w & SW & -> & HA). cbn [bind].
    specialize (LIVE j). destruct (live _ j) as [o| | |] eqn:L; try (destruct LIVE as [E1 E2]; rewrite E2; try discriminate E1; exact I). destruct LIVE as (XJ & v & SV & -> & H). cbn [bind]. unfold arr_assign.
    pose proof (size_holds h o v H) as SZ. destruct (contents v) as [l| | |] eqn:C; cbn [bind]; try (rewrite SZ; cbn [bind]; destruct v; discriminate C || exact I).
    rewrite SZ. cbn [bind]. destruct (new_block dflt h (length l)) as [h1 b] eqn:NB. assert (H1 : h1 = fst (new_block dflt h (length l))) by (rewrite NB; reflexivity). assert (B1 : b = length h) by (unfold new_block in NB; congruence). subst b.
    destruct (Nat.eqb_spec i j) as [->|NE].
    + assert (a = o) by congruence. subst o. assert (w = v) by congruence. subst w. cbn [a_end]. destruct v as [|l'|]; cbn in H, C; [| |discriminate].
      * subst a. cbn. exact I.
      * destruct H as (b' & -> & B'). apply block_lt in B'. unfold size. cbn [a_data a_end]. rewrite (proj2 (Nat.eqb_neq (length h) b')) by lia. cbn. exact I.
    + rewrite SZ. cbn [bind].
      assert (HA1 : Holds h1 a w). { destruct w as [|lw|]; cbn in HA |- *; try exact HA. destruct HA as (bw & -> & BW). exists bw. split; [reflexivity|]. apply block_lt in BW as BL. rewrite H1, new_nth, (proj2 (Nat.eqb_neq _ _)) by lia. exact BW. }
      assert (DN : forall k, nth_error (delete_block h1 (a_data a)) k = if k =? length h then Some (Some (repeat dflt (length l))) else if match a_data a with Some b => k =? b | None => false end then Some None else nth_error h k).
      { intros k. rewrite (delete_nth h1 a w k HA1), H1, new_nth. destruct (Nat.eqb_spec k (length h)) as [->|]; [|reflexivity]. destruct (a_data a) as [bw|] eqn:DA; [|reflexivity]. destruct w as [|lw|]; cbn in HA; [subst a; discriminate| |destruct HA as (p & ->); discriminate].
        destruct HA as (b' & -> & B'). cbn in DA. inversion DA; subst. apply block_lt in B'. rewrite (proj2 (Nat.eqb_neq _ _)) by lia. reflexivity. }
      assert (HO : Holds (delete_block h (a_data a)) o v).
      { destruct v as [|lv|]; cbn in H |- *; try exact H. destruct H as (bo & -> & BO). exists bo. split; [reflexivity|]. rewrite (delete_nth h a w bo HA). destruct (a_data a) as [bw|] eqn:DA; [|exact BO]. destruct (Nat.eqb_spec bo bw) as [->|]; [|exact BO].
        exfalso. apply NE. apply (r_one _ _ _ R i j bw); eexists; split; eauto. }
      destruct (copy_holds (delete_block h (a_data a)) (delete_block h1 (a_data a)) o v l (length h) HO C) with (e := Some (length h, length l)) as (h2 & -> & L2 & N2).
      { intros k. rewrite DN, (delete_nth h a w k HA). reflexivity. } { rewrite (delete_length h a w HA). lia. }
      cbn [bind Agree]. split; [reflexivity|]. cbn [m_heap m_vars]. apply (rel_new h x s i h2 _ R). intros k. rewrite N2, XI. destruct (Nat.eqb_spec k (length h)) as [E|E]; [reflexivity|]. rewrite DN, (proj2 (Nat.eqb_neq _ _) E). reflexivity.
  - (* drop *) specialize (LIVE i). destruct (live _ i) as [a| | |] eqn:L; try (destruct LIVE as [E1 E2]; rewrite E2; try discriminate E1; exact I). destruct LIVE as (XI & v & SV & -> & H). cbn [bind Agree]. split; [reflexivity|]. cbn [m_heap m_vars].
    apply (rel_put h _ x s i _ _ R); [|exact I|intros; discriminate|].
    + intros j b l N O B. rewrite (delete_nth h a v b H). destruct (a_data a) as [b'|] eqn:D; [|exact B]. destruct (Nat.eqb_spec b b') as [->|]; [|exact B]. exfalso. apply N. apply (r_one _ _ _ R j i b' O). exists a. auto.
    + intros b l B. right. rewrite (delete_nth h a v b H) in B. assert (K : nth_error h b = Some (Some l) /\ a_data a <> Some b). { destruct (a_data a) as [b'|]; [|split; [exact B|discriminate]]. destruct (Nat.eqb_spec b b'); [discriminate|split; [exact B|congruence]]. }
      destruct K as [K N]. destruct (r_leak _ _ _ R b l K) as (j & O). exists j. split; [|exact O]. intros ->. destruct O as (a' & A & E). congruence.
  - (* size *) specialize (LIVE i). destruct (live _ i) as [a| | |] eqn:L; try (destruct LIVE as [E1 E2]; rewrite E2; try discriminate E1; exact I). destruct LIVE as (XI & v & SV & -> & H). cbn [bind]. pose proof (size_holds h a v H) as SZ.
    destruct (contents v) as [l| | |] eqn:C; cbn [bind]; try (rewrite SZ; cbn [bind]; destruct v; discriminate C || exact I). rewrite SZ. cbn. split; [reflexivity|exact R].
  - (* at *) specialize (LIVE i). destruct (live _ i) as [a| | |] eqn:L; try (destruct LIVE as [E1 E2]; rewrite E2; try discriminate E1; exact I). destruct LIVE as (XI & v & SV & -> & H). cbn [bind]. unfold at_. pose proof (size_holds h a v H) as SZ.
    destruct (contents v) as [l| | |] eqn:C; cbn [bind]; try (rewrite SZ; cbn [bind]; destruct v; discriminate C || exact I). rewrite SZ. cbn [bind]. destruct (Nat.leb_spec (length l) k) as [K|K].
    + rewrite (proj2 (nth_error_None l k) K). split; [reflexivity|exact R].
    + destruct v as [|l'|]; cbn in H, C; [inversion C; subst l; cbn in K; lia| |discriminate]. inversion C; subst l'. destruct H as (b & -> & B). rewrite (read_ok h (mkArr (Some b) (Some (b, length l))) b l k eq_refl B). destruct (nth_error_ex l k K) as (y & Y). rewrite Y. split; [reflexivity|exact R].
  - (* read *) specialize (LIVE i). destruct (live _ i) as [a| | |] eqn:L; try (destruct LIVE as [E1 E2]; rewrite E2; try discriminate E1; exact I). destruct LIVE as (XI & v & SV & -> & H). cbn [bind].
    destruct v as [|l|]; cbn in H |- *.
    + subst a. cbn. destruct k; exact I.
    + destruct H as (b & -> & B). rewrite (read_ok h (mkArr (Some b) (Some (b, length l))) b l k eq_refl B). destruct (nth_error l k) as [y|]; cbn; [split; [reflexivity|exact R]|exact I].
    + destruct H as (p & ->). exact I.
  - (* write *) specialize (LIVE i). destruct (live _ i) as [a| | |] eqn:L; try (destruct LIVE as [E1 E2]; rewrite E2; try discriminate E1; exact I). destruct LIVE as (XI & w & SV & -> & H). cbn [bind].
    destruct w as [|l|]; cbn in H.
    + subst a. exact I.
    + destruct H as (b & -> & B). destruct (Nat.ltb_spec k (length l)) as [K|K].
      * destruct (write_ok h (mkArr (Some b) (Some (b, length l))) b l k (Some v) eq_refl B K) as (h' & -> & CH). cbn [bind Agree]. split; [reflexivity|]. cbn [m_heap m_vars]. apply (rel_change h x s i b l _ h' R XI B); [apply upd_length; exact K|exact CH].
      * rewrite (write_ub h (mkArr (Some b) (Some (b, length l))) b l k (Some v) eq_refl B K). exact I.
    + destruct H as (p & ->). exact I.
  - (* fill *) specialize (LIVE i). destruct (live _ i) as [a| | |] eqn:L; try (destruct LIVE as [E1 E2]; rewrite E2; try discriminate E1; exact I). destruct LIVE as (XI & w & SV & -> & H). cbn [bind]. unfold assign.
    destruct w as [|l|]; cbn in H.
    + subst a. cbn. split; [reflexivity|exact R].
    + destruct H as (b & -> & B). unfold size. cbn [a_data a_end]. rewrite Nat.eqb_refl. cbn [bind]. destruct (fill_ok (mkArr (Some b) (Some (b, length l))) b v eq_refl (length l) h l 0 B eq_refl) as (h' & -> & CH). cbn [bind Agree]. split; [reflexivity|]. cbn [m_heap m_vars].
      assert (E : map (fun _ => Some v) l = repeat (Some v) (length l)) by (clear; induction l as [|y l IH]; cbn; [reflexivity|rewrite IH; reflexivity]). rewrite E. apply (rel_change h x s i b l _ h' R XI B); [apply repeat_length|]. exact CH.
    + destruct H as (p & ->). exact I.
Qed.
Definition AgreeRun (p : res (mem T * list (out T))) (q : res ((nat -> option (sarr T)) * list (out T))) : Prop :=
  match p, q with
  | Ok (m, r), Ok (s, r') => r = r' /\ Rel (m_heap m) (m_vars m) s
  | UB, UB => True
  | _, _ => False
  end.
Lemma run_agree ops : forall m s, Rel (m_heap m) (m_vars m) s -> AgreeRun (run dflt m ops) (srun dflt s ops).
Proof.
  induction ops as [|o ops IH]; intros m s R; cbn [run srun]; [split; [reflexivity|exact R]|]. pose proof (step_agree m s o R) as A. unfold Agree in A.
  destruct (step dflt m o) as [[m1 r]| | |], (sstep dflt s o) as [[s1 r']| | |]; try contradiction; try exact I. destruct A as [-> R1]. cbn [bind]. specialize (IH m1 s1 R1). unfold AgreeRun in IH.
  destruct (run dflt m1 ops) as [[m2 rs]| | |], (srun dflt s1 ops) as [[s2 rs']| | |]; cbn [bind]; try contradiction; try exact I. destruct IH as [-> R2]. split; [reflexivity|exact R2].
Qed.
Lemma rel_start : Rel (m_heap (@start T)) (m_vars (@start T)) (fun _ => None).
Proof.
  split; cbn.
  - intros i. exact I.
  - intros i j b (a & A & _). discriminate.
  - intros b l B. destruct b; discriminate.
Qed.
End Dynarray.
