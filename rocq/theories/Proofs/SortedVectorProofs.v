From Coq Require Import Permutation Sorted.
From Verif Require Import Model.Base Proofs.BaseFacts Model.SortedVector.

(* p is false on a prefix and true on the rest *)
Definition partitioned {A} (p : A -> bool) (l : list A) (k : nat) : Prop :=
  k <= length l /\
  (forall i x, nth_error l i = Some x -> i < k -> p x = false) /\
  (forall i x, nth_error l i = Some x -> k <= i -> p x = true).

Lemma bound_loop_spec {A} (p : A -> bool) (l : list A) k : partitioned p l k ->
  forall fuel first len, len <= fuel -> first <= k -> k <= first + len -> first + len <= length l ->
  bound_loop p l fuel first len = Ok k.
Proof.
  intros (Hk & Hlo & Hhi). induction fuel as [|fuel IH]; intros first len Hf H1 H2 H3.
  - assert (len = 0) by lia; subst; cbn. f_equal; lia.
  - cbn [bound_loop]. destruct len as [|len']; [f_equal; lia|].
    set (len := S len') in *.
    assert (Hh : len / 2 < len) by (apply Nat.div_lt; unfold len; lia).
    destruct (nth_error_ex l (first + len / 2)) as [x Hx]; [lia|].
    unfold vget; rewrite Hx; cbn [bind].
    destruct (p x) eqn:E.
    + assert (k <= first + len / 2).
      { destruct (Nat.le_gt_cases k (first + len / 2)); [assumption|].
        rewrite (Hlo _ _ Hx) in E by lia; discriminate. }
      apply IH; lia.
    + assert (first + len / 2 < k).
      { destruct (Nat.lt_ge_cases (first + len / 2) k); [assumption|].
        rewrite (Hhi _ _ Hx) in E by lia; discriminate. }
      apply IH; lia.
Qed.

Section SV.
Context {A : Type} (lt : A -> A -> bool).
(* strict weak order *)
Definition strict_weak_order : Prop :=
  (forall x, lt x x = false) /\
  (forall x y z, lt x y = true -> lt y z = true -> lt x z = true) /\
  (forall x y z, lt x y = false -> lt y z = false -> lt x z = false).

Definition sorted (l : list A) : Prop :=
  forall i j x y, i < j -> nth_error l i = Some x -> nth_error l j = Some y -> lt y x = false.

Context (SWO : strict_weak_order).

Lemma lt_asym x y : lt x y = true -> lt y x = false.
Proof.
  destruct SWO as (Hi & Ht & _). intros H. destruct (lt y x) eqn:E; [|reflexivity].
  specialize (Hi x). rewrite (Ht x y x H E) in Hi. discriminate.
Qed.

(* partition point of a sorted list *)
Fixpoint ub (l : list A) (e : A) : nat :=
  match l with [] => 0 | x :: l' => if lt e x then 0 else S (ub l' e) end.

Lemma sorted_cons x l : sorted (x :: l) -> sorted l /\ forall y, In y l -> lt y x = false.
Proof.
  intros H; split.
  - intros i j a b Hij Ha Hb. exact (H (S i) (S j) a b ltac:(lia) Ha Hb).
  - intros y Hy. apply In_nth_error in Hy as [j Hj]. exact (H 0 (S j) x y ltac:(lia) eq_refl Hj).
Qed.

Lemma ub_partitioned l e : sorted l -> partitioned (fun x => lt e x) l (ub l e).
Proof.
  induction l as [|x l IH]; intros Hs.
  - repeat split; cbn; try lia; intros i y; destruct i; discriminate.
  - destruct (sorted_cons _ _ Hs) as [Hs' Hx]. cbn [ub].
    destruct (lt e x) eqn:E.
    + repeat split; cbn [length]; try lia. intros i y Hy _.
      destruct i as [|i]; cbn in Hy; [congruence|].
      apply nth_error_In in Hy. specialize (Hx _ Hy).
      destruct SWO as (_ & _ & Hn). destruct (lt e y) eqn:E2; [reflexivity|].
      rewrite (Hn e y x E2 Hx) in E; discriminate.
    + destruct (IH Hs') as (Hl & Hlo & Hhi). repeat split; cbn [length]; try lia.
      * intros i y Hy Hi. destruct i as [|i]; cbn in Hy; [congruence|]. eapply Hlo; [eassumption|lia].
      * intros i y Hy Hi. destruct i as [|i]; [lia|]. cbn in Hy. eapply Hhi; [eassumption|lia].
Qed.

Lemma insert_ok l e : sorted l ->
  insert lt l e = Ok (firstn (ub l e) l ++ e :: skipn (ub l e) l, ub l e).
Proof.
  intros Hs. pose proof (ub_partitioned l e Hs) as Hp.
  unfold insert, upper_bound.
  rewrite (bound_loop_spec _ _ _ Hp); try lia; try (destruct Hp; lia).
  cbn [bind]. rewrite vinsert_ok by apply Hp. reflexivity.
Qed.

Lemma insert_sorted l e : sorted l -> sorted (firstn (ub l e) l ++ e :: skipn (ub l e) l).
Proof.
  intros Hs. destruct (ub_partitioned l e Hs) as (Hl & Hlo & Hhi).
  intros i j x y Hij Hx Hy. rewrite nth_error_ins in Hx, Hy by assumption.
  destruct (Nat.ltb_spec i (ub l e)).
  - destruct (Nat.ltb_spec j (ub l e)); [eapply Hs; [|eassumption..]; lia|].
    destruct (Nat.eqb_spec j (ub l e)).
    + inversion Hy; subst. eapply Hlo; eassumption.
    + refine (Hs i (j - 1) x y _ Hx Hy); lia.
  - destruct (Nat.eqb_spec i (ub l e)).
    + inversion Hx; subst.
      destruct (Nat.ltb_spec j (ub l x)); [lia|]. destruct (Nat.eqb_spec j (ub l x)); [lia|].
      apply lt_asym. eapply (Hhi (j - 1)); [eassumption|lia].
    + destruct (Nat.ltb_spec j (ub l e)); [lia|]. destruct (Nat.eqb_spec j (ub l e)); [lia|].
      refine (Hs (i - 1) (j - 1) x y _ Hx Hy); lia.
Qed.

Lemma insert_perm (l : list A) e n : Permutation (firstn n l ++ e :: skipn n l) (e :: l).
Proof.
  rewrite <- Permutation_middle. constructor. rewrite firstn_skipn. reflexivity.
Qed.

Definition equiv (x y : A) : bool := negb (lt x y) && negb (lt y x).

Lemma insert_stable l e x : sorted l ->
  filter (equiv x) (firstn (ub l e) l ++ e :: skipn (ub l e) l) =
  filter (equiv x) l ++ filter (equiv x) [e].
Proof.
  intros Hs. destruct (ub_partitioned l e Hs) as (Hl & Hlo & Hhi).
  assert (Hsp : filter (equiv x) l = filter (equiv x) (firstn (ub l e) l) ++ filter (equiv x) (skipn (ub l e) l))
    by (rewrite <- filter_app, firstn_skipn; reflexivity).
  rewrite Hsp. change (e :: skipn (ub l e) l) with ([e] ++ skipn (ub l e) l).
  rewrite !filter_app, <- app_assoc. f_equal.
  (* if e ~ x, nothing after the insertion point is ~ x *)
  cbn [filter]. destruct (equiv x e) eqn:E; [|rewrite app_nil_r; reflexivity].
  assert (Hnil : filter (equiv x) (skipn (ub l e) l) = []).
  { destruct (filter (equiv x) (skipn (ub l e) l)) as [|y t] eqn:F; [reflexivity|].
    assert (Hy : In y (filter (equiv x) (skipn (ub l e) l))) by (rewrite F; left; reflexivity).
    apply filter_In in Hy as [Hy Exy]. apply In_nth_error in Hy as [i Hi].
    rewrite nth_error_skipn in Hi. pose proof (Hhi _ _ Hi ltac:(lia)) as Hey.
    unfold equiv in E, Exy. apply andb_true_iff in E as [E1 E2]. apply andb_true_iff in Exy as [E3 E4].
    apply negb_true_iff in E1, E2, E3, E4.
    destruct SWO as (_ & _ & Hn). rewrite (Hn e x y E2 E3) in Hey. discriminate. }
  rewrite Hnil. reflexivity.
Qed.

Lemma insert_all_spec es : forall l, sorted l ->
  exists l', insert_all lt l es = Ok l' /\ sorted l' /\ Permutation l' (l ++ es) /\
    forall x, filter (equiv x) l' = filter (equiv x) (l ++ es).
Proof.
  induction es as [|e es IH]; intros l Hs; cbn [insert_all].
  - exists l; rewrite app_nil_r. repeat split; auto.
  - rewrite insert_ok by assumption. cbn [bind fst].
    destruct (IH _ (insert_sorted l e Hs)) as (l' & E & Hs' & Hp & Hf).
    exists l'; split; [exact E|split; [exact Hs'|split]].
    + rewrite Hp. rewrite insert_perm. cbn [app]. apply Permutation_middle.
    + intros x. rewrite Hf, filter_app, insert_stable by assumption.
      rewrite filter_app, <- app_assoc. f_equal. cbn [filter]. destruct (equiv x e); reflexivity.
Qed.

Lemma sorted_nil : sorted [].
Proof. intros i j x y _ H; destruct i; discriminate. Qed.

Lemma insert_position l e : sorted l ->
  exists l' i, insert lt l e = Ok (l', i) /\ nth_error l' i = Some e /\
    l' = firstn i l ++ e :: skipn i l /\ sorted l'.
Proof.
  intros Hs. rewrite insert_ok by assumption. do 2 eexists; split; [reflexivity|].
  split; [|split; [reflexivity | apply insert_sorted; assumption]].
  destruct (ub_partitioned l e Hs) as (Hl & _).
  rewrite nth_error_ins by assumption. destruct (Nat.ltb_spec (ub l e) (ub l e)); [lia|].
  rewrite Nat.eqb_refl. reflexivity.
Qed.

Lemma erase_sorted l i : sorted l -> i < length l ->
  exists l', erase l i = Ok l' /\ sorted l' /\ (forall x, nth_error l i = Some x -> Permutation l (x :: l')).
Proof.
  intros Hs Hi. unfold erase. destruct (Nat.ltb_spec i (length l)); [|lia].
  eexists; split; [reflexivity|split].
  - intros a b x y Hab Hx Hy.
    assert (G : forall k, nth_error (firstn i l ++ skipn (S i) l) k = nth_error l (if k <? i then k else S k)).
    { intros k. destruct (Nat.ltb_spec k i).
      - rewrite nth_error_app1 by (rewrite firstn_length; lia). rewrite nth_error_firstn.
        destruct (Nat.ltb_spec k i); [reflexivity|lia].
      - rewrite nth_error_app2; rewrite firstn_length; [|lia]. rewrite nth_error_skipn. f_equal; lia. }
    rewrite G in Hx, Hy. refine (Hs _ _ x y _ Hx Hy).
    destruct (Nat.ltb_spec a i), (Nat.ltb_spec b i); lia.
  - intros x Hx. assert (Hsp : l = firstn i l ++ x :: skipn (S i) l).
    { clear -Hx. revert l Hx; induction i as [|i IH]; intros [|y l] H; cbn in *; try congruence.
      f_equal; apply IH; assumption. }
    rewrite Hsp at 1. symmetry. apply Permutation_middle.
Qed.
End SV.
