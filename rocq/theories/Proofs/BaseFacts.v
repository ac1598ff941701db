(* Facts about the shared primitives. *)
From Verif Require Import Model.Base.

Lemma vset_ok {A} (l : list A) i x :
  i < length l -> vset l i x = Ok (firstn i l ++ x :: skipn (S i) l).
Proof. intros H; unfold vset; destruct (Nat.ltb_spec i (length l)); [reflexivity | lia]. Qed.

Lemma vset_ub {A} (l : list A) i x : length l <= i -> vset l i x = UB.
Proof. intros H; unfold vset; destruct (Nat.ltb_spec i (length l)); [lia | reflexivity]. Qed.

Lemma vset_inv {A} (l l' : list A) i x :
  vset l i x = Ok l' -> i < length l /\ l' = firstn i l ++ x :: skipn (S i) l.
Proof. unfold vset; destruct (Nat.ltb_spec i (length l)); intros E; inversion E; auto. Qed.

Lemma upd_length {A} (l : list A) i x :
  i < length l -> length (firstn i l ++ x :: skipn (S i) l) = length l.
Proof. intros H; rewrite app_length, firstn_length; cbn [length]; rewrite skipn_length; lia. Qed.

Lemma nth_error_firstn {A} (l : list A) n i :
  nth_error (firstn n l) i = if i <? n then nth_error l i else None.
Proof.
  revert n i; induction l as [|a l IH]; intros n i.
  - rewrite firstn_nil; destruct i; cbn [nth_error]; destruct (Nat.ltb _ n); reflexivity.
  - destruct n as [|n].
    + cbn; destruct i; reflexivity.
    + destruct i as [|i]; cbn [firstn nth_error]; [reflexivity|].
      rewrite IH. destruct (Nat.ltb_spec i n), (Nat.ltb_spec (S i) (S n)); try reflexivity; lia.
Qed.

Lemma nth_error_skipn {A} (l : list A) n i :
  nth_error (skipn n l) i = nth_error l (n + i).
Proof.
  revert l; induction n as [|n IH]; intros l; [reflexivity|].
  destruct l as [|a l]; cbn [skipn Nat.add nth_error]; [destruct i; reflexivity | apply IH].
Qed.

Lemma nth_error_upd {A} (l : list A) i j x :
  i < length l ->
  nth_error (firstn i l ++ x :: skipn (S i) l) j = if j =? i then Some x else nth_error l j.
Proof.
  intros H.
  destruct (Nat.eqb_spec j i) as [->|Hne].
  - rewrite nth_error_app2; rewrite firstn_length; [|lia].
    replace (i - Nat.min i (length l)) with 0 by lia; reflexivity.
  - destruct (Nat.lt_ge_cases j i).
    + rewrite nth_error_app1; [|rewrite firstn_length; lia].
      rewrite nth_error_firstn; destruct (Nat.ltb_spec j i); [reflexivity | lia].
    + rewrite nth_error_app2; rewrite firstn_length; [|lia].
      replace (j - Nat.min i (length l)) with (S (j - S i)) by lia.
      cbn [nth_error]; rewrite nth_error_skipn; f_equal; lia.
Qed.

Lemma vinsert_ok {A} (l : list A) i x :
  i <= length l -> vinsert l i x = Ok (firstn i l ++ x :: skipn i l).
Proof. intros H; unfold vinsert; destruct (Nat.leb_spec i (length l)); [reflexivity | lia]. Qed.

Lemma vinsert_ub {A} (l : list A) i x : length l < i -> vinsert l i x = UB.
Proof. intros H; unfold vinsert; destruct (Nat.leb_spec i (length l)); [lia | reflexivity]. Qed.

Lemma ins_length {A} (l : list A) i x :
  i <= length l -> length (firstn i l ++ x :: skipn i l) = S (length l).
Proof. intros H; rewrite app_length, firstn_length; cbn [length]; rewrite skipn_length; lia. Qed.

Lemma nth_error_ins {A} (l : list A) i j x :
  i <= length l ->
  nth_error (firstn i l ++ x :: skipn i l) j =
  if j <? i then nth_error l j else if j =? i then Some x else nth_error l (j - 1).
Proof.
  intros H.
  destruct (Nat.ltb_spec j i).
  - rewrite nth_error_app1; [|rewrite firstn_length; lia].
    rewrite nth_error_firstn; destruct (Nat.ltb_spec j i); [reflexivity | lia].
  - rewrite nth_error_app2; rewrite firstn_length; [|lia].
    replace (Nat.min i (length l)) with i by lia.
    destruct (Nat.eqb_spec j i) as [->|Hne].
    + rewrite Nat.sub_diag; reflexivity.
    + replace (j - i) with (S (j - 1 - i)) by lia; cbn [nth_error].
      rewrite nth_error_skipn; f_equal; lia.
Qed.

Lemma vresize_length {A} (l : list A) n d : length (vresize l n d) = n.
Proof. unfold vresize; rewrite app_length, firstn_length, repeat_length; lia. Qed.

Lemma nth_error_repeat_lt {A} (d : A) n i : i < n -> nth_error (repeat d n) i = Some d.
Proof. revert i; induction n; intros [|i] H; cbn; try lia; [reflexivity | apply IHn; lia]. Qed.

Lemma nth_error_vresize {A} (l : list A) n d i :
  nth_error (vresize l n d) i =
  if i <? n then (if i <? length l then nth_error l i else Some d) else None.
Proof.
  unfold vresize.
  destruct (Nat.ltb_spec i n) as [Hn|Hn].
  - destruct (Nat.ltb_spec i (length l)).
    + rewrite nth_error_app1; [|rewrite firstn_length; lia].
      rewrite nth_error_firstn; destruct (Nat.ltb_spec i n); [reflexivity | lia].
    + rewrite nth_error_app2; rewrite firstn_length; [|lia].
      apply nth_error_repeat_lt; lia.
  - apply nth_error_None; rewrite app_length, firstn_length, repeat_length; lia.
Qed.

Lemma list_ext {A} (l1 l2 : list A) :
  (forall i, nth_error l1 i = nth_error l2 i) -> l1 = l2.
Proof.
  revert l2; induction l1 as [|a l1 IH]; intros [|b l2] H.
  - reflexivity.
  - specialize (H 0); discriminate.
  - specialize (H 0); discriminate.
  - pose proof (H 0) as H0; cbn in H0; inversion H0; f_equal.
    apply IH; intros i; exact (H (S i)).
Qed.

Lemma modulo_ok a b : b <> 0 -> modulo_ a b = Ok (a mod b).
Proof. intros H; unfold modulo_; destruct (Nat.eqb_spec b 0); [contradiction | reflexivity]. Qed.

(* cyclic index *)
Lemma mod_cyclic f i c : f < c -> i <= c ->
  (f + i) mod c = if f + i <? c then f + i else f + i - c.
Proof.
  intros Hf Hi; destruct (Nat.ltb_spec (f + i) c).
  - apply Nat.mod_small; assumption.
  - replace (f + i) with (f + i - c + 1 * c) at 1 by lia.
    rewrite Nat.mod_add by lia. apply Nat.mod_small; lia.
Qed.

Lemma nth_error_Some_lt {A} (l : list A) i x : nth_error l i = Some x -> i < length l.
Proof. intros H; apply nth_error_Some; congruence. Qed.

Lemma nth_error_ex {A} (l : list A) i : i < length l -> exists x, nth_error l i = Some x.
Proof. intros H; destruct (nth_error l i) eqn:E; [eauto|]. apply nth_error_None in E; lia. Qed.

(* forward simulation for client histories *)
Lemma exec_sim {S T O R : Type} (step : S -> O -> option (S * R)) (spec : T -> O -> option (T * R))
  (Rel : S -> T -> Prop) :
  (forall s t o t' r, Rel s t -> spec t o = Some (t', r) ->
     exists s', step s o = Some (s', r) /\ Rel s' t') ->
  forall ops s t t' rs, Rel s t -> exec spec t ops = Some (t', rs) ->
    exists s', exec step s ops = Some (s', rs) /\ Rel s' t'.
Proof.
  intros Hstep; induction ops as [|o ops IH]; intros s t t' rs HR H; cbn [exec] in *.
  - inversion H; subst; eauto.
  - destruct (spec t o) as [[t1 r]|] eqn:E1; [|discriminate].
    destruct (exec spec t1 ops) as [[t2 rs2]|] eqn:E2; [|discriminate].
    inversion H; subst. destruct (Hstep _ _ _ _ _ HR E1) as (s1 & Es & HR1).
    destruct (IH _ _ _ _ HR1 E2) as (s2 & Es2 & HR2). exists s2; rewrite Es, Es2; auto.
Qed.

Lemma exec_app {S O R : Type} (step : S -> O -> option (S * R)) s o1 o2 :
  exec step s (o1 ++ o2) =
  match exec step s o1 with
  | None => None
  | Some (s1, r1) => match exec step s1 o2 with None => None | Some (s2, r2) => Some (s2, r1 ++ r2) end
  end.
Proof.
  revert s; induction o1 as [|o o1 IH]; intros s; cbn [app exec].
  - destruct (exec step s o2) as [[? ?]|]; reflexivity.
  - destruct (step s o) as [[s1 r]|]; [|reflexivity]. rewrite IH.
    destruct (exec step s1 o1) as [[s2 r2]|]; [|reflexivity].
    destruct (exec step s2 o2) as [[? ?]|]; reflexivity.
Qed.

(* invariant of a history *)
Lemma exec_inv {S O R : Type} (step : S -> O -> option (S * R)) (I : S -> Prop) :
  (forall s o s' r, I s -> step s o = Some (s', r) -> I s') ->
  forall ops s s' rs, I s -> exec step s ops = Some (s', rs) -> I s'.
Proof.
  intros Hs; induction ops as [|o ops IH]; intros s s' rs HI H; cbn [exec] in H.
  - inversion H; subst; assumption.
  - destruct (step s o) as [[s1 r]|] eqn:E; [|discriminate].
    destruct (exec step s1 ops) as [[s2 rs2]|] eqn:E2; [|discriminate].
    inversion H; subst. eapply IH; [|eassumption]. eapply Hs; eassumption.
Qed.

Lemma for_up_from_S {X : Type} i n (body : nat -> X -> res X) s :
  for_up_from i (n + 1) body s =
  let* s' := for_up_from i n body s in body (i + n) s'.
Proof.
  revert i s; induction n as [|n IH]; intros i s; cbn [Nat.add for_up_from].
  - cbn. rewrite Nat.add_0_r. destruct (body i s); reflexivity.
  - destruct (body i s) as [s'| | |]; cbn [bind]; try reflexivity.
    rewrite IH. replace (S i + n) with (i + S n) by lia. reflexivity.
Qed.

(* invariant rule for upward loops *)
Lemma for_up_inv {X : Type} (body : nat -> X -> res X) (I : nat -> X -> Prop) n s :
  I 0 s ->
  (forall i s', i < n -> I i s' -> exists s'', body i s' = Ok s'' /\ I (S i) s'') ->
  exists s', for_up n body s = Ok s' /\ I n s'.
Proof.
  intros H0 Hs. unfold for_up.
  assert (G : forall k i s0, i + k = n -> I i s0 -> exists s', for_up_from i k body s0 = Ok s' /\ I n s').
  { induction k as [|k IH]; intros i s0 Hk HI; cbn [for_up_from].
    - exists s0; split; [reflexivity|]. replace n with i by lia; assumption.
    - destruct (Hs i s0) as (s1 & E & H1); [lia | assumption|]. rewrite E; cbn [bind].
      apply IH; [lia | assumption]. }
  apply G; [lia | assumption].
Qed.

(* invariant rule for downward loops *)
Lemma for_down_inv {X : Type} (body : nat -> X -> res X) (I : nat -> X -> Prop) n s :
  I n s ->
  (forall i s', i < n -> I (S i) s' -> exists s'', body i s' = Ok s'' /\ I i s'') ->
  exists s', for_down n body s = Ok s' /\ I 0 s'.
Proof.
  revert s; induction n as [|n IH]; intros s H0 Hs; cbn [for_down].
  - eauto.
  - destruct (Hs n s) as (s1 & E & H1); [lia | assumption|]. rewrite E; cbn [bind].
    apply IH; [assumption|]. intros i s' Hi. apply Hs; lia.
Qed.

Lemma NoDup_snoc {A} (l : list A) x : NoDup l -> ~ In x l -> NoDup (l ++ [x]).
Proof.
  induction l as [|a l IH]; intros Hd Hn; cbn [app].
  - constructor; [intros [] | constructor].
  - inversion Hd; subst. constructor.
    + rewrite in_app_iff; cbn. intros [H|[->|[]]]; [contradiction|]. apply Hn; left; reflexivity.
    + apply IH; [assumption|]. intros H; apply Hn; right; exact H.
Qed.
