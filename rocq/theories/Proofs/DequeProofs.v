From Verif Require Import Model.Base Proofs.BaseFacts Model.Deque Spec.Deque.

Section P.
Context {A : Type}.
Implicit Types (d : deque A) (l : list A).

(* abstraction relation *)
Definition R d (q : queue A) : Prop :=
  let (l, c) := q in
  length (buffer_ d) = c /\ length l = size_ d /\ size_ d <= c /\
  (front_ d < c \/ (front_ d = 0 /\ c = 0)) /\
  (forall i, i < size_ d -> nth_error (buffer_ d) ((front_ d + i) mod c) = nth_error l i).

Lemma mod_lt f i c : c <> 0 -> (f + i) mod c < c.
Proof. intros; apply Nat.mod_upper_bound; assumption. Qed.

Ltac cyc := rewrite ?mod_cyclic by lia;
  repeat match goal with |- context[?a <? ?b] => destruct (Nat.ltb_spec a b) end;
  repeat match goal with |- context[?a =? ?b] => destruct (Nat.eqb_spec a b) end; try lia.

Lemma R_create z c : R (create z c) ([], c).
Proof. unfold R, create; cbn; rewrite repeat_length; repeat split; lia. Qed.

(* the one undefined call *)
Definition hazard d (o : op A) : Prop :=
  is_push_back o = true /\ size_ d = length (buffer_ d) /\ front_ d <> 0.

Lemma push_back_sim d l c x : R d (l, c) -> ~ (size_ d = c /\ front_ d <> 0) ->
  exists d', push_back d x = Ok d' /\ R d' (l ++ [x], grow (l, c)).
Proof.
  intros (Hc & Hl & Hs & Hf & Hn) Hh; subst c.
  unfold push_back, capacity, grow; cbn [fst snd]; rewrite Hl.
  destruct (Nat.ltb_spec (length (buffer_ d)) (S (size_ d))) as [Hfull|Hfull];
  destruct (Nat.ltb_spec (size_ d) (length (buffer_ d))) as [Hf2|Hf2]; try lia.
  - assert (front_ d = 0) as F0 by lia. rewrite F0.
    rewrite vinsert_ok by lia. cbn [bind]. eexists; split; [reflexivity|].
    unfold R; cbn [buffer_ size_ front_].
    rewrite ins_length by lia. rewrite app_length; cbn [length].
    repeat split; try lia.
    intros i Hi. rewrite Nat.mod_small by lia.
    rewrite nth_error_ins by lia.
    destruct (Nat.ltb_spec (0 + i) (0 + S (size_ d) - 1)).
    + rewrite nth_error_app1 by lia. rewrite <- Hn by lia.
      rewrite F0. rewrite Nat.mod_small by lia; reflexivity.
    + destruct (Nat.eqb_spec (0 + i) (0 + S (size_ d) - 1)); [|lia].
      rewrite nth_error_app2 by lia. replace (i - length l) with 0 by lia; reflexivity.
  - assert (Hfr : front_ d < length (buffer_ d)) by lia.
    rewrite modulo_ok by lia. cbn [bind].
    replace (front_ d + S (size_ d) - 1) with (front_ d + size_ d) by lia.
    rewrite vset_ok by (apply mod_lt; lia). cbn [bind].
    eexists; split; [reflexivity|].
    unfold R; cbn [buffer_ size_ front_].
    rewrite upd_length by (apply mod_lt; lia).
    rewrite app_length; cbn [length].
    repeat split; try lia.
    intros i Hi. rewrite nth_error_upd by (apply mod_lt; lia).
    destruct (Nat.eq_dec i (size_ d)) as [->|Hne].
    + rewrite Nat.eqb_refl. rewrite nth_error_app2 by lia.
      replace (size_ d - length l) with 0 by lia; reflexivity.
    + rewrite nth_error_app1 by lia. rewrite <- Hn by lia.
      cyc; reflexivity.
Qed.

Lemma push_back_hazard d l c x : R d (l, c) -> size_ d = c -> front_ d <> 0 ->
  push_back d x = UB.
Proof.
  intros (Hc & Hl & Hs & Hf & Hn) H1 H2; subst c.
  unfold push_back, capacity.
  destruct (Nat.ltb_spec (length (buffer_ d)) (S (size_ d))); [|lia].
  rewrite vinsert_ub by lia; reflexivity.
Qed.

Lemma push_front_sim d l c x : R d (l, c) ->
  exists d', push_front d x = Ok d' /\ R d' (x :: l, grow (l, c)).
Proof.
  intros (Hc & Hl & Hs & Hf & Hn); subst c.
  unfold push_front, capacity, grow; cbn [fst snd]; rewrite Hl.
  destruct (Nat.ltb_spec (length (buffer_ d)) (S (size_ d))) as [Hfull|Hfull];
  destruct (Nat.ltb_spec (size_ d) (length (buffer_ d))) as [Hf2|Hf2]; try lia.
  - rewrite vinsert_ok by lia. cbn [bind]. eexists; split; [reflexivity|].
    unfold R; cbn [buffer_ size_ front_].
    rewrite ins_length by lia. cbn [length].
    repeat split; try lia.
    intros i Hi. rewrite nth_error_ins by lia.
    destruct i as [|i].
    + cyc; reflexivity.
    + cbn [nth_error]. rewrite <- Hn by lia.
      destruct (Nat.eq_dec (length (buffer_ d)) 0); [lia|].
      cyc; f_equal; lia.
  - assert (Hfr : front_ d < length (buffer_ d)) by lia.
    rewrite modulo_ok by lia. cbn [bind].
    assert (E : (front_ d + length (buffer_ d) - 1) mod length (buffer_ d) =
            if front_ d =? 0 then length (buffer_ d) - 1 else front_ d - 1).
    { destruct (Nat.eqb_spec (front_ d) 0) as [e|e].
      - rewrite e; apply Nat.mod_small; lia.
      - replace (front_ d + length (buffer_ d) - 1) with (front_ d - 1 + 1 * length (buffer_ d)) by lia.
        rewrite Nat.mod_add by lia; apply Nat.mod_small; lia. }
    rewrite E. set (f' := if front_ d =? 0 then _ else _) in *.
    assert (Hf' : f' < length (buffer_ d)) by (unfold f'; destruct (front_ d =? 0); lia).
    rewrite vset_ok by assumption. cbn [bind]. eexists; split; [reflexivity|].
    unfold R; cbn [buffer_ size_ front_].
    rewrite upd_length by assumption. cbn [length].
    repeat split; try lia.
    intros i Hi. rewrite nth_error_upd by assumption.
    destruct i as [|i].
    + rewrite Nat.add_0_r, Nat.mod_small, Nat.eqb_refl by lia; reflexivity.
    + cbn [nth_error]. rewrite <- Hn by lia.
      unfold f' in *. destruct (Nat.eqb_spec (front_ d) 0); cyc; f_equal; lia.
Qed.

Lemma pop_back_sim d l c : R d (l, c) ->
  match l with
  | [] => pop_back d = Throw
  | _ => exists d', pop_back d = Ok d' /\ R d' (removelast l, c)
  end.
Proof.
  intros (Hc & Hl & Hs & Hf & Hn). unfold pop_back, assert_.
  destruct l as [|a l].
  - cbn in Hl; rewrite <- Hl; reflexivity.
  - destruct (Nat.ltb_spec 0 (size_ d)); cbn [length] in Hl; [|lia].
    cbn [bind]. eexists; split; [reflexivity|]. unfold R; cbn [buffer_ size_ front_].
    assert (Hr : removelast (a :: l) = firstn (size_ d - 1) (a :: l)).
    { rewrite removelast_firstn_len. f_equal. cbn [length]; lia. }
    rewrite Hr. rewrite firstn_length; cbn [length]. repeat split; try lia.
    intros i Hi. rewrite Hn by lia. rewrite nth_error_firstn.
    destruct (Nat.ltb_spec i (size_ d - 1)); [reflexivity | lia].
Qed.

Lemma pop_front_sim d l c : R d (l, c) ->
  match l with
  | [] => pop_front d = Throw
  | _ :: t => exists d', pop_front d = Ok d' /\ R d' (t, c)
  end.
Proof.
  intros (Hc & Hl & Hs & Hf & Hn); subst c. unfold pop_front, assert_, capacity.
  destruct l as [|a l].
  - cbn in Hl; rewrite <- Hl; reflexivity.
  - destruct (Nat.ltb_spec 0 (size_ d)); cbn [length] in Hl; [|lia].
    cbn [bind]. rewrite modulo_ok by lia. cbn [bind].
    eexists; split; [reflexivity|]. unfold R; cbn [buffer_ size_ front_].
    repeat split; try lia.
    + left; apply mod_lt; lia.
    + intros i Hi. specialize (Hn (S i)). cbn [nth_error] in Hn. rewrite <- Hn by lia.
      f_equal. rewrite Nat.add_mod_idemp_l by lia. f_equal; lia.
Qed.

Lemma R_read d l c i : R d (l, c) -> i < size_ d ->
  exists x, nth_error l i = Some x /\ vget (buffer_ d) ((front_ d + i) mod c) = Ok x.
Proof.
  intros (Hc & Hl & Hs & Hf & Hn) Hi.
  destruct (nth_error_ex l i) as [x Hx]; [lia|].
  exists x; split; [assumption|]. unfold vget; rewrite Hn by lia; rewrite Hx; reflexivity.
Qed.

Lemma R_write d l c i x : R d (l, c) -> i < size_ d ->
  exists b, vset (buffer_ d) ((front_ d + i) mod c) x = Ok b /\
    R (mkDeque (front_ d) (size_ d) b) (firstn i l ++ x :: skipn (S i) l, c).
Proof.
  intros (Hc & Hl & Hs & Hf & Hn) Hi; subst c.
  rewrite vset_ok by (apply mod_lt; lia).
  eexists; split; [reflexivity|]. unfold R; cbn [buffer_ size_ front_].
  rewrite upd_length by (apply mod_lt; lia).
  rewrite upd_length by lia. repeat split; try lia.
  intros j Hj. rewrite nth_error_upd by (apply mod_lt; lia).
  rewrite nth_error_upd by lia.
  rewrite <- Hn by lia. destruct (Nat.eqb_spec j i) as [->|Hne].
  - rewrite Nat.eqb_refl; reflexivity.
  - cyc; f_equal; lia.
Qed.

Lemma get_sim d l c i x : R d (l, c) -> nth_error l i = Some x -> get d i = Ok x.
Proof.
  intros HR Hx. pose proof HR as (Hc & Hl & Hs & Hf & Hn).
  pose proof (nth_error_Some_lt _ _ _ Hx).
  unfold get, capacity. rewrite Hc, modulo_ok by lia. cbn [bind].
  destruct (R_read d l c i HR) as (y & Hy & E); [lia|]. congruence.
Qed.

Lemma set_sim d l c i x y : R d (l, c) -> nth_error l i = Some y ->
  exists d', set d i x = Ok d' /\ R d' (firstn i l ++ x :: skipn (S i) l, c).
Proof.
  intros HR Hx. pose proof HR as (Hc & Hl & Hs & Hf & Hn).
  pose proof (nth_error_Some_lt _ _ _ Hx).
  unfold set, capacity. rewrite Hc, modulo_ok by lia. cbn [bind].
  destruct (R_write d l c i x HR) as (b & Hb & Hr); [lia|].
  rewrite Hb; cbn [bind]. eauto.
Qed.

Lemma last_default (a b : A) l : l <> [] -> last l a = last l b.
Proof. induction l as [|x l IH]; [congruence|]; intros _. destruct l; [reflexivity|]. apply IH; discriminate. Qed.

Lemma nth_error_last (a : A) l : nth_error (a :: l) (length l) = Some (last l a).
Proof.
  revert a; induction l as [|b l IH]; intros a; [reflexivity|].
  cbn [length nth_error]. rewrite IH. f_equal. destruct l; [reflexivity|]. change (last (b :: a0 :: l) a) with (last (a0 :: l) a). apply last_default; discriminate.
Qed.

Lemma back_sim d l c : R d (l, c) ->
  back d = match l with [] => Throw | x :: t => Ok (last t x) end.
Proof.
  intros HR. pose proof HR as (Hc & Hl & Hs & Hf & Hn).
  unfold back, assert_, capacity. destruct l as [|a l]; cbn [length] in Hl.
  - rewrite <- Hl; reflexivity.
  - destruct (Nat.ltb_spec 0 (size_ d)); [|lia]. cbn [bind].
    rewrite Hc, modulo_ok by lia. cbn [bind].
    replace (front_ d + size_ d - 1) with (front_ d + length l) by lia.
    destruct (R_read d (a :: l) c (length l) HR) as (y & Hy & E); [lia|].
    rewrite nth_error_last in Hy. congruence.
Qed.

Lemma set_back_sim d l c x : R d (l, c) ->
  match l with
  | [] => set_back d x = Throw
  | _ => exists d', set_back d x = Ok d' /\ R d' (removelast l ++ [x], c)
  end.
Proof.
  intros HR. pose proof HR as (Hc & Hl & Hs & Hf & Hn).
  unfold set_back, assert_, capacity. destruct l as [|a l]; cbn [length] in Hl.
  - rewrite <- Hl; reflexivity.
  - destruct (Nat.ltb_spec 0 (size_ d)); [|lia]. cbn [bind].
    rewrite Hc, modulo_ok by lia. cbn [bind].
    replace (front_ d + size_ d - 1) with (front_ d + length l) by lia.
    destruct (R_write d (a :: l) c (length l) x HR) as (b & Hb & Hr); [lia|].
    rewrite Hb; cbn [bind]. eexists; split; [reflexivity|].
    rewrite removelast_firstn_len. cbn [length Nat.pred].
    rewrite (skipn_all2 (n:=S (length l))) in Hr by (cbn; lia). assumption.
Qed.

Lemma front_sim d l c : R d (l, c) ->
  front d = match l with [] => Throw | x :: _ => Ok x end.
Proof.
  intros HR. pose proof HR as (Hc & Hl & Hs & Hf & Hn).
  unfold front, assert_. destruct l as [|a l]; cbn [length] in Hl.
  - rewrite <- Hl; reflexivity.
  - destruct (Nat.ltb_spec 0 (size_ d)); [|lia]. cbn [bind].
    destruct (R_read d (a :: l) c 0 HR) as (y & Hy & E); [lia|].
    rewrite Nat.add_0_r, Nat.mod_small in E by lia. cbn in Hy. congruence.
Qed.

Lemma set_front_sim d l c x : R d (l, c) ->
  match l with
  | [] => set_front d x = Throw
  | _ :: t => exists d', set_front d x = Ok d' /\ R d' (x :: t, c)
  end.
Proof.
  intros HR. pose proof HR as (Hc & Hl & Hs & Hf & Hn).
  unfold set_front, assert_. destruct l as [|a l]; cbn [length] in Hl.
  - rewrite <- Hl; reflexivity.
  - destruct (Nat.ltb_spec 0 (size_ d)); [|lia]. cbn [bind].
    destruct (R_write d (a :: l) c 0 x HR) as (b & Hb & Hr); [lia|].
    rewrite Nat.add_0_r, Nat.mod_small in Hb by lia.
    rewrite Hb; cbn [bind]. eexists; split; [reflexivity|]. assumption.
Qed.

Lemma iterate_from_sim d l c n k : R d (l, c) -> k + n = size_ d ->
  iterate_from (buffer_ d) (front_ d + k) n = Ok (skipn k l).
Proof.
  intros HR; pose proof HR as (Hc & Hl & Hs & Hf & Hn).
  revert k; induction n as [|n IH]; intros k Hk; cbn [iterate_from].
  - rewrite skipn_all2 by lia; reflexivity.
  - rewrite Hc, modulo_ok by lia; cbn [bind].
    destruct (R_read d l c k HR) as (y & Hy & E); [lia|]. rewrite E; cbn [bind].
    replace (S (front_ d + k)) with (front_ d + S k) by lia.
    rewrite IH by lia. cbn [bind].
    f_equal. clear -Hy. revert k Hy; induction l as [|a l IH]; intros [|k] H; cbn in *; try congruence.
    apply IH; assumption.
Qed.

Lemma iterate_sim d l c : R d (l, c) -> iterate d = Ok l.
Proof.
  intros HR; unfold iterate. rewrite <- (Nat.add_0_r (front_ d)).
  erewrite iterate_from_sim; [reflexivity | eassumption | lia].
Qed.

Lemma step_sim d q o q' r : R d q -> ideal_step q o = Some (q', r) -> ~ hazard d o ->
  exists d', step d o = Some (d', r) /\ R d' q'.
Proof.
  destruct q as [l c]; intros HR Hi Hh.
  destruct o as [x|x| | | |i|i x| |x| |x| | | | | ]; cbn [ideal_step] in Hi; cbn [step].
  - inversion Hi; subst; clear Hi.
    destruct (push_back_sim d l c x HR) as (d' & E & H').
    { pose proof HR as (Hc & _). intros [H1 H2]; apply Hh; split; [reflexivity|split; [congruence|assumption]]. }
    rewrite E; cbn; eauto.
  - inversion Hi; subst; clear Hi.
    destruct (push_front_sim d l c x HR) as (d' & E & H'). rewrite E; cbn; eauto.
  - pose proof (pop_back_sim d l c HR) as H. destruct l.
    + inversion Hi; subst. rewrite H; cbn; eauto.
    + destruct H as (d' & E & H'). inversion Hi; subst. rewrite E; cbn; eauto.
  - pose proof (pop_front_sim d l c HR) as H. destruct l.
    + inversion Hi; subst. rewrite H; cbn; eauto.
    + destruct H as (d' & E & H'). inversion Hi; subst. rewrite E; cbn; eauto.
  - inversion Hi; subst. eexists; split; [reflexivity|].
    destruct HR as (Hc & Hl & Hs & Hf & Hn). unfold R; cbn. repeat split; lia.
  - destruct (nth_error l i) eqn:E; [|discriminate]. inversion Hi; subst.
    rewrite (get_sim d l c i a HR E); cbn; eauto.
  - destruct (nth_error l i) eqn:E; [|discriminate]. inversion Hi; subst.
    destruct (set_sim d l c i x a HR E) as (d' & E' & H'). rewrite E'; cbn; eauto.
  - rewrite (front_sim d l c HR). destruct l; inversion Hi; subst; cbn; eauto.
  - pose proof (set_front_sim d l c x HR) as H. destruct l.
    + inversion Hi; subst. rewrite H; cbn; eauto.
    + destruct H as (d' & E & H'). inversion Hi; subst. rewrite E; cbn; eauto.
  - rewrite (back_sim d l c HR). destruct l; inversion Hi; subst; cbn; eauto.
  - pose proof (set_back_sim d l c x HR) as H. destruct l.
    + inversion Hi; subst. rewrite H; cbn; eauto.
    + destruct H as (d' & E & H'). inversion Hi; subst. rewrite E; cbn [upd_]; eauto.
  - inversion Hi; subst. eexists; split; [|eassumption].
    destruct HR as (Hc & Hl & _). unfold size; congruence.
  - inversion Hi; subst. eexists; split; [|eassumption].
    destruct HR as (Hc & Hl & _). unfold empty; rewrite <- Hl; destruct l; reflexivity.
  - inversion Hi; subst. eexists; split; [|eassumption].
    destruct HR as (Hc & Hl & _). unfold full, size, capacity; congruence.
  - inversion Hi; subst. eexists; split; [|eassumption].
    destruct HR as (Hc & Hl & _). unfold capacity; congruence.
  - inversion Hi; subst. rewrite (iterate_sim d l c HR). eauto.
Qed.

Lemma step_hazard d q o : R d q -> hazard d o -> step d o = None.
Proof.
  destruct q as [l c]; intros HR (H1 & H2 & H3).
  destruct o; try discriminate. cbn [step].
  erewrite push_back_hazard; [reflexivity | eassumption | | assumption].
  destruct HR as (Hc & _); congruence.
Qed.

(* Either the whole history matches the ideal queue, or it matches up to a
   hazardous push_back, which is undefined. *)
Lemma run_sim d q ops q' rs : R d q -> ideal_run q ops = Some (q', rs) ->
  (exists d', run d ops = Some (d', rs) /\ R d' q') \/
  (exists pre o post d1 q1 rs1,
      ops = pre ++ o :: post /\
      run d pre = Some (d1, rs1) /\ ideal_run q pre = Some (q1, rs1) /\ R d1 q1 /\
      hazard d1 o /\ step d1 o = None).
Proof.
  revert d q q' rs; induction ops as [|o ops IH]; intros d q q' rs HR H; cbn [ideal_run] in H.
  - inversion H; subst. left; exists d; split; [reflexivity | assumption].
  - destruct (ideal_step q o) as [[q1 r]|] eqn:E1; [|discriminate].
    destruct (ideal_run q1 ops) as [[q2 rs']|] eqn:E2; [|discriminate].
    inversion H; subst; clear H.
    assert (Hdec : hazard d o \/ ~ hazard d o).
    { unfold hazard. destruct (is_push_back o), (Nat.eq_dec (size_ d) (length (buffer_ d))),
        (Nat.eq_dec (front_ d) 0); intuition congruence. }
    destruct Hdec as [Hz|Hz].
    + right. exists [], o, ops, d, q, []. repeat split; try assumption; try apply Hz.
      eapply step_hazard; eassumption.
    + destruct (step_sim d q o q1 r HR E1 Hz) as (d1 & Es & HR1).
      destruct (IH d1 q1 q' rs' HR1 E2) as [(d' & Er & HR')|
        (pre & o' & post & d2 & q2 & rs1 & Ho & Hr & Hi & HR2 & Hz2 & Hs2)].
      * left. exists d'. cbn [run]. rewrite Es, Er. auto.
      * right. exists (o :: pre), o', post, d2, q2, (r :: rs1).
        cbn [app run ideal_run]. rewrite Es, Hr, E1, Hi, Ho. repeat split; try assumption; apply Hz2.
Qed.

Lemma run_app d o1 o2 : run d (o1 ++ o2) =
  match run d o1 with
  | None => None
  | Some (d1, r1) =>
    match run d1 o2 with None => None | Some (d2, r2) => Some (d2, r1 ++ r2) end
  end.
Proof.
  revert d; induction o1 as [|o o1 IH]; intros d; cbn [app run].
  - destruct (run d o2) as [[? ?]|]; reflexivity.
  - destruct (step d o) as [[d1 r]|]; [|reflexivity].
    rewrite IH. destruct (run d1 o1) as [[d2 r2]|]; [|reflexivity].
    destruct (run d2 o2) as [[? ?]|]; reflexivity.
Qed.

Lemma ideal_run_app (q : queue A) o1 o2 q2 rs : ideal_run q (o1 ++ o2) = Some (q2, rs) ->
  exists q1 r1 r2, ideal_run q o1 = Some (q1, r1) /\ ideal_run q1 o2 = Some (q2, r2) /\ rs = r1 ++ r2.
Proof.
  revert q rs; induction o1 as [|o o1 IH]; intros q rs H; cbn [app ideal_run] in *.
  - exists q, [], rs; auto.
  - destruct (ideal_step q o) as [[q1 r]|]; [|discriminate].
    destruct (ideal_run q1 (o1 ++ o2)) as [[q3 r3]|] eqn:E; [|discriminate].
    inversion H; subst. destruct (IH _ _ E) as (a & b & c & E1 & E2 & E3).
    rewrite E1. exists a, (r :: b), c; subst; auto.
Qed.

(* the history theorem in iff form *)
Lemma run_exact d q ops q' rs : R d q -> ideal_run q ops = Some (q', rs) ->
  (run d ops = None <->
   exists pre x post d1 rs1,
      ops = pre ++ PushBack x :: post /\ run d pre = Some (d1, rs1) /\
      full d1 = true /\ front_ d1 <> 0) /\
  (forall d' rs', run d ops = Some (d', rs') -> rs' = rs /\ R d' q').
Proof.
  intros HR H. destruct (run_sim d q ops q' rs HR H) as
    [(d' & Er & HR')|(pre & o & post & d1 & q1 & rs1 & Ho & Hr & Hi & HR1 & Hz & Hs)].
  - split.
    + split; [congruence|].
      intros (pre & x & post & d1 & rs1 & Ho & Hr & Hfu & Hfr).
      exfalso. subst ops. rewrite run_app, Hr in Er.
      cbn [run] in Er.
      assert (exists q1 rs2, ideal_run q pre = Some (q1, rs2)) as (q1 & rs2 & Hi).
      { destruct (ideal_run_app _ _ _ _ _ H) as (a & b & c & E1 & _ & _); eauto. }
      destruct (run_sim d q pre q1 rs2 HR Hi) as [(d2 & Er2 & HR2)|
         (pre' & o & post' & d2 & q2 & rs3 & Ho & Hr3 & Hi3 & HR3 & Hz & Hs)].
      * rewrite Er2 in Hr; inversion Hr; subst.
        erewrite step_hazard in Er; [discriminate | eassumption|].
        unfold full in Hfu. apply Nat.eqb_eq in Hfu. repeat split; assumption.
      * subst pre. rewrite run_app, Hr3 in Hr. cbn [run] in Hr. rewrite Hs in Hr. discriminate.
    + intros d2 rs2 E2. rewrite Er in E2; inversion E2; subst; auto.
  - assert (En : run d ops = None).
    { subst ops. rewrite run_app, Hr. cbn [run]. rewrite Hs. reflexivity. }
    split; [split; [intros _|intros _; assumption]|intros; congruence].
    destruct Hz as (Hp & Hsz & Hfr). destruct o; try discriminate.
    exists pre, x, post, d1, rs1. repeat split; try assumption.
    unfold full; apply Nat.eqb_eq; assumption.
Qed.

(* C02 *)
Lemma ideal_cap_within c (q : queue A) ops q' rs : snd q = c -> stays_within c q ops ->
  ideal_run q ops = Some (q', rs) -> snd q' = c.
Proof.
  revert q rs; induction ops as [|o ops IH]; intros [l k] rs Hc Hw H; cbn [ideal_run] in H.
  - inversion H; subst; reflexivity.
  - cbn [snd] in Hc; subst k.
    cbn [stays_within fst] in Hw. destruct Hw as [Hlen Hw].
    destruct (ideal_step (l, c) o) as [[q1 r]|] eqn:E1; [|discriminate].
    destruct (ideal_run q1 ops) as [[q2 rs2]|] eqn:E2; [|discriminate].
    inversion H; subst; clear H.
    eapply IH; [|eassumption|eassumption].
    assert (Hq1 : length (fst q1) <= c) by (destruct ops; cbn [stays_within] in Hw; apply Hw).
    destruct o; cbn [ideal_step] in E1;
      try (inversion E1; subst; reflexivity);
      try (destruct l; inversion E1; subst; reflexivity);
      try (destruct (nth_error l i); inversion E1; subst; reflexivity).
    + inversion E1; subst. cbn [fst snd] in *. rewrite app_length in Hq1; cbn [length] in Hq1.
      unfold grow; cbn [fst snd]. destruct (Nat.ltb_spec (length l) c); [reflexivity | lia].
    + inversion E1; subst. cbn [fst snd length] in *.
      unfold grow; cbn [fst snd]. destruct (Nat.ltb_spec (length l) c); [reflexivity | lia].
Qed.

Lemma stays_within_app c (q : queue A) o1 o2 q1 r1 : stays_within c q (o1 ++ o2) ->
  ideal_run q o1 = Some (q1, r1) -> stays_within c q o1 /\ stays_within c q1 o2.
Proof.
  revert q r1; induction o1 as [|o o1 IH]; intros q r1 Hw H; cbn [app ideal_run] in *.
  - inversion H; subst. split; [|assumption]. destruct o2; cbn in *; intuition.
  - cbn [stays_within] in *. destruct (ideal_step q o) as [[q2 r2]|]; [|discriminate].
    destruct Hw as [Hl Hw].
    destruct (ideal_run q2 o1) as [[q3 r3]|] eqn:E; [|discriminate].
    inversion H; subst. destruct (IH _ _ Hw E). auto.
Qed.

Lemma run_within z c ops q' rs : ideal_run ([], c) ops = Some (q', rs) ->
  stays_within c ([], c) ops ->
  exists d', run (create z c) ops = Some (d', rs) /\ capacity d' = c.
Proof.
  intros Hi Hw. destruct (run_sim _ _ ops q' rs (R_create z c) Hi) as
    [(d' & Er & HR')|(pre & o & post & d1 & q1 & rs1 & Ho & Hr & Hii & HR1 & Hz & Hs)].
  - exists d'; split; [assumption|].
    pose proof (ideal_cap_within c ([], c) ops q' rs eq_refl Hw Hi) as Hc.
    destruct q' as [l c']; destruct HR' as (Hb & _). cbn in Hc; unfold capacity; congruence.
  - exfalso. subst ops. destruct (stays_within_app _ _ _ _ _ _ Hw Hii) as [Hw1 Hw2].
    pose proof (ideal_cap_within c ([], c) pre q1 rs1 eq_refl Hw1 Hii) as Hc.
    destruct q1 as [l c']. cbn in Hc; subst c'.
    destruct Hz as (Hp & Hsz & Hfr). destruct o; try discriminate.
    destruct HR1 as (Hb & Hl & _).
    cbn [stays_within ideal_step] in Hw2. destruct Hw2 as [_ Hw2].
    assert (length (l ++ [x]) <= c) by (destruct post; cbn [stays_within] in Hw2; apply Hw2).
    rewrite app_length in H; cbn in H. lia.
Qed.

(* Growth with push_front only, pops anywhere: never undefined. *)
Lemma run_no_push_back z c ops q' rs : ideal_run ([], c) ops = Some (q', rs) ->
  forallb (fun o => negb (is_push_back o)) ops = true ->
  exists d', run (create z c) ops = Some (d', rs).
Proof.
  intros Hi Hw. destruct (run_sim _ _ ops q' rs (R_create z c) Hi) as
    [(d' & Er & HR')|(pre & o & post & d1 & q1 & rs1 & Ho & Hr & Hii & HR1 & Hz & Hs)]; [eauto|].
  exfalso. subst ops. rewrite forallb_app in Hw. apply andb_true_iff in Hw as [_ Hw].
  cbn in Hw. apply andb_true_iff in Hw as [Hw _]. destruct Hz as [Hz _]. rewrite Hz in Hw; discriminate.
Qed.

(* Stack use (nothing touches the front): never undefined, growth included. *)
Lemma step_front0 d o d' r : step d o = Some (d', r) -> moves_front o = false ->
  front_ d = 0 -> front_ d' = 0.
Proof.
  intros H Hm H0. destruct o; cbn [step moves_front] in *; try discriminate;
    unfold upd_, ret_ in H;
    repeat match goal with H : context[match ?r with Ok _ => _ | _ => _ end] |- _ => destruct r eqn:? end;
    inversion H; subst; try assumption; try reflexivity.
  - unfold push_back in Heqr0. destruct (_ <? _); unfold bind in *;
    repeat match goal with H : context[match ?r with Ok _ => _ | _ => _ end] |- _ => destruct r eqn:? end; inversion Heqr0; subst; assumption.
  - unfold pop_back, bind in Heqr0. destruct (assert_ _); inversion Heqr0; assumption.
  - unfold set, bind in Heqr0. destruct (modulo_ _ _); try discriminate.
    destruct (vset _ _ _); inversion Heqr0; assumption.
  - unfold set_front, bind in Heqr0. destruct (assert_ _); try discriminate.
    destruct (vset _ _ _); inversion Heqr0; assumption.
  - unfold set_back, bind in Heqr0. destruct (assert_ _); try discriminate.
    destruct (modulo_ _ _); try discriminate.
    destruct (vset _ _ _); inversion Heqr0; assumption.
Qed.

Lemma run_front0 ops : forall d d' r, run d ops = Some (d', r) ->
  forallb (fun o => negb (moves_front o)) ops = true -> front_ d = 0 -> front_ d' = 0.
Proof.
  induction ops as [|o ops IH]; intros d d' r H Hm H0; cbn [run forallb] in *.
  - inversion H; subst; assumption.
  - apply andb_true_iff in Hm as [Hm1 Hm2]. apply negb_true_iff in Hm1.
    destruct (step d o) as [[d1 r1]|] eqn:E; [|discriminate].
    destruct (run d1 ops) as [[d2 r2]|] eqn:E2; [|discriminate]. inversion H; subst.
    eapply IH; [eassumption|assumption|]. eapply step_front0; eassumption.
Qed.

Lemma run_stack z c ops q' rs : ideal_run ([], c) ops = Some (q', rs) ->
  forallb (fun o => negb (moves_front o)) ops = true ->
  exists d', run (create z c) ops = Some (d', rs).
Proof.
  intros Hi Hw. destruct (run_sim _ _ ops q' rs (R_create z c) Hi) as
    [(d' & Er & HR')|(pre & o & post & d1 & q1 & rs1 & Ho & Hr & Hii & HR1 & Hz & Hs)]; [eauto|].
  exfalso. subst ops. rewrite forallb_app in Hw. apply andb_true_iff in Hw as [Hw _].
  destruct Hz as (_ & _ & Hz). apply Hz.
  eapply run_front0; [eassumption | assumption | reflexivity].
Qed.

(* C03 *)
Lemma back_const_full d l c x t : R d (l, c) -> l = x :: t -> length l = c ->
  back_const d = Ok x.
Proof.
  intros HR -> Hlen. pose proof HR as (Hc & Hl & Hs & Hf & Hn).
  unfold back_const, assert_, capacity. cbn [length] in *.
  destruct (Nat.ltb_spec 0 (size_ d)); [|lia]. cbn [bind].
  rewrite Hc, modulo_ok by lia. cbn [bind].
  destruct (R_read d (x :: t) c 0 HR) as (y & Hy & E); [lia|].
  rewrite Nat.add_0_r in E.
  replace ((front_ d + size_ d) mod c) with (front_ d mod c); [cbn in Hy; congruence|].
  replace (size_ d) with (1 * c) by lia. rewrite Nat.mod_add by lia. reflexivity.
Qed.

(* on a deque that is not full, it reads the slot that the next push_back
   will overwrite *)
Lemma back_const_not_full d l c y : R d (l, c) -> l <> [] -> length l < c ->
  exists v, back_const d = Ok v /\
  (forall d', push_back d y = Ok d' ->
     nth_error (buffer_ d) ((front_ d + size_ d) mod c) = Some v /\
     nth_error (buffer_ d') ((front_ d + size_ d) mod c) = Some y).
Proof.
  intros HR Hne Hlen. pose proof HR as (Hc & Hl & Hs & Hf & Hn).
  assert (0 < length l) by (destruct l; [contradiction | cbn; lia]).
  unfold back_const, assert_, capacity.
  destruct (Nat.ltb_spec 0 (size_ d)); [|lia]. cbn [bind].
  rewrite Hc, modulo_ok by lia. cbn [bind].
  destruct (nth_error_ex (buffer_ d) ((front_ d + size_ d) mod c)) as [v Hv]; [rewrite Hc; apply mod_lt; lia|].
  exists v. unfold vget. rewrite Hv. split; [reflexivity|].
  intros d' Hp. split; [reflexivity|].
  unfold push_back, capacity in Hp. rewrite Hc in Hp.
  destruct (Nat.ltb_spec c (S (size_ d))); [lia|].
  rewrite modulo_ok in Hp by lia. cbn [bind] in Hp.
  replace (front_ d + S (size_ d) - 1) with (front_ d + size_ d) in Hp by lia.
  assert (Hlt : (front_ d + size_ d) mod c < length (buffer_ d)) by (rewrite Hc; apply mod_lt; lia).
  rewrite vset_ok in Hp by assumption. cbn [bind] in Hp. apply (f_equal (fun r => match r with Ok a => a | _ => d end)) in Hp. rewrite <- Hp; cbn [buffer_].
  rewrite nth_error_upd by assumption. rewrite Nat.eqb_refl; reflexivity.
Qed.

(* reserve *)
Lemma reserve_keeps z d l c n : R d (l, c) -> front_ d + size_ d <= c -> front_ d + size_ d <= n ->
  (front_ d < n \/ (front_ d = 0 /\ n = 0)) ->
  R (reserve z d n) (l, n).
Proof.
  intros (Hc & Hl & Hs & Hf & Hn) H1 H2 H3.
  unfold R, reserve; cbn [buffer_ size_ front_]. rewrite vresize_length.
  repeat split; try lia.
  intros i Hi. rewrite <- Hn by assumption.
  rewrite !Nat.mod_small by lia. rewrite nth_error_vresize.
  destruct (Nat.ltb_spec (front_ d + i) n); [|lia].
  destruct (Nat.ltb_spec (front_ d + i) (length (buffer_ d))); [reflexivity|lia].
Qed.
Lemma reserve_after_clear z d q n : R d q -> R (reserve z (clear d) n) ([], n).
Proof.
  intros _. unfold R, reserve, clear; cbn [buffer_ size_ front_]. rewrite vresize_length.
  repeat split; try (cbn; lia).
Qed.
End P.

Section Main.
Context {A : Type}.

Lemma reach_R (z : A) c ops d rs q rs' :
  run (create z c) ops = Some (d, rs) -> ideal_run ([], c) ops = Some (q, rs') -> R d q /\ rs = rs'.
Proof.
  intros Hr Hi. destruct (run_exact _ _ ops q rs' (R_create z c) Hi) as [_ H].
  destruct (H _ _ Hr); auto.
Qed.

Lemma C01_main (z : A) c ops q rs :
  ideal_run ([], c) ops = Some (q, rs) ->
  (run (create z c) ops = None <->
   exists pre x post d rs1,
     ops = pre ++ PushBack x :: post /\ run (create z c) pre = Some (d, rs1) /\
     full d = true /\ front_ d <> 0) /\
  (forall d rs', run (create z c) ops = Some (d, rs') -> rs' = rs /\ iterate d = Ok (fst q)).
Proof.
  intros Hi. destruct (run_exact _ _ ops q rs (R_create z c) Hi) as [H1 H2].
  split; [exact H1|]. intros d rs' Hr. destruct (H2 _ _ Hr) as [E HR]. split; [exact E|].
  destruct q as [l k]. eapply iterate_sim; eassumption.
Qed.

Lemma C03_const_back (z : A) c ops d rs q rs' x t :
  run (create z c) ops = Some (d, rs) -> ideal_run ([], c) ops = Some (q, rs') ->
  fst q = x :: t -> full d = true -> back_const d = Ok x /\ back d = Ok (last t x).
Proof.
  intros Hr Hi Hq Hf. destruct (reach_R _ _ _ _ _ _ _ Hr Hi) as [HR _].
  destruct q as [l k]; cbn [fst] in Hq.
  pose proof HR as (Hc & Hl & _). unfold full, size, capacity in Hf. apply Nat.eqb_eq in Hf.
  split.
  - eapply back_const_full; [eassumption..|]. congruence.
  - rewrite (back_sim _ _ _ HR), Hq. reflexivity.
Qed.

Lemma C03_const_back_stale_slot (z : A) c ops d rs q rs' :
  run (create z c) ops = Some (d, rs) -> ideal_run ([], c) ops = Some (q, rs') ->
  fst q <> [] -> full d = false ->
  exists v, back_const d = Ok v /\
    forall y d', push_back d y = Ok d' -> back_const d = Ok v /\
      nth_error (buffer_ d) ((front_ d + size d) mod capacity d) = Some v /\
      nth_error (buffer_ d') ((front_ d + size d) mod capacity d) = Some y.
Proof.
  intros Hr Hi Hq Hf. destruct (reach_R _ _ _ _ _ _ _ Hr Hi) as [HR _].
  destruct q as [l k]; cbn [fst] in Hq.
  pose proof HR as (Hc & Hl & Hs & _). unfold full, size, capacity in *. apply Nat.eqb_neq in Hf.
  assert (exists x, nth_error l 0 = Some x) as [x0 _] by (destruct l; [contradiction | eexists; reflexivity]).
  destruct (back_const_not_full d l k x0 HR Hq) as (v & Hv & _); [lia|].
  exists v; split; [assumption|]. intros y d' Hp. split; [assumption|].
  destruct (back_const_not_full d l k y HR Hq) as (v' & Hv' & H); [lia|].
  rewrite Hc. rewrite Hv in Hv'; inversion Hv'; subst. apply H; assumption.
Qed.

Lemma run_within_R (d : deque A) c q ops q' rs : R d q -> snd q = c -> ideal_run q ops = Some (q', rs) ->
  stays_within c q ops -> exists d', run d ops = Some (d', rs) /\ capacity d' = c.
Proof.
  intros HR Hq Hi Hw. destruct (run_sim _ _ ops q' rs HR Hi) as
    [(d' & Er & HR')|(pre & o & post & d1 & q1 & rs1 & Ho & Hr & Hii & HR1 & Hz & Hs)].
  - exists d'; split; [assumption|].
    pose proof (ideal_cap_within c q ops q' rs Hq Hw Hi) as Hc.
    destruct q' as [l c']; destruct HR' as (Hb & _). cbn in Hc; unfold capacity; congruence.
  - exfalso. subst ops. destruct (stays_within_app _ _ _ _ _ _ Hw Hii) as [Hw1 Hw2].
    pose proof (ideal_cap_within c q pre q1 rs1 Hq Hw1 Hii) as Hc.
    destruct q1 as [l c']. cbn in Hc; subst c'.
    destruct Hz as (Hp & Hsz & Hfr). destruct o; try discriminate.
    destruct HR1 as (Hb & Hl & _).
    cbn [stays_within ideal_step] in Hw2. destruct Hw2 as [_ Hw2].
    assert (length (l ++ [x]) <= c) as Hlen by (destruct post; cbn [stays_within] in Hw2; apply Hw2).
    rewrite app_length in Hlen; cbn in Hlen. lia.
Qed.

Lemma C03_reserve (z : A) c ops d rs q rs' n ops2 q2 rs2 :
  run (create z c) ops = Some (d, rs) -> ideal_run ([], c) ops = Some (q, rs') ->
  front_ d + size d <= capacity d -> front_ d + size d <= n -> (front_ d < n \/ front_ d = 0) ->
  ideal_run (fst q, n) ops2 = Some (q2, rs2) ->
  iterate (reserve z d n) = Ok (fst q) /\
  (forall d2 rs3, run (reserve z d n) ops2 = Some (d2, rs3) -> rs3 = rs2) /\
  (stays_within n (fst q, n) ops2 -> exists d2, run (reserve z d n) ops2 = Some (d2, rs2)).
Proof.
  intros Hr Hi H1 H2 H3 Hi2. destruct (reach_R _ _ _ _ _ _ _ Hr Hi) as [HR _].
  destruct q as [l k]; cbn [fst] in *. unfold size, capacity in *.
  assert (HR' : R (reserve z d n) (l, n)).
  { eapply reserve_keeps; [eassumption| |assumption|lia].
    destruct HR as (Hc & _); lia. }
  split; [eapply iterate_sim; eassumption|split].
  - intros d2 rs3 E. destruct (run_exact _ _ _ _ _ HR' Hi2) as [_ H]. destruct (H _ _ E); assumption.
  - intros Hw. destruct (run_within_R _ n _ _ _ _ HR' eq_refl Hi2 Hw) as (d2 & E & _); eauto.
Qed.
End Main.

Lemma C01_refuted : exists (ops : list (op nat)) q rs,
    ideal_run ([], 0) ops = Some (q, rs) /\ run (create 0 0) ops = None.
Proof.
  exists [PushBack 1; PushBack 2; PopFront; PushBack 3; PushBack 4].
  do 2 eexists; split; reflexivity.
Qed.

Lemma C03_refuted :
  exists (ops : list (op nat)) d rs, run (create 0 3) ops = Some (d, rs) /\ back_const d <> back d.
Proof. exists [PushBack 1; PushBack 2]. do 2 eexists; split; [reflexivity | discriminate]. Qed.

Lemma C03_reserve_refuted :
  exists (ops : list (op nat)) d rs n, run (create 0 2) ops = Some (d, rs) /\
    capacity d <= n /\ iterate (reserve 0 d n) <> iterate d.
Proof.
  exists [PushBack 1; PushBack 2; PopFront; PushBack 3]. do 2 eexists; exists 3.
  split; [reflexivity|]. split; [cbn; lia | discriminate].
Qed.

(* clear makes the deque as good as new *)
Lemma run_after_clear {A : Type} (z : A) c ops ops2 d rs1 q rs :
  run (create z c) ops = Some (d, rs1) -> ideal_run ([], c) (ops ++ Clear :: ops2) = Some (q, rs) ->
  forallb (fun o => negb (moves_front o)) ops2 = true ->
  exists d', run (create z c) (ops ++ Clear :: ops2) = Some (d', rs).
Proof.
  intros Hr Hi Hm. destruct (ideal_run_app _ _ _ _ _ Hi) as (q1 & r1 & r2 & E1 & E2 & ->).
  destruct (reach_R z c ops d rs1 q1 r1 Hr E1) as [HR ->]. rewrite run_app, Hr.
  cbn [run step]. cbn [ideal_run] in E2. destruct q1 as [l k]. cbn [ideal_step] in E2.
  destruct (ideal_run ([], k) ops2) as [[q2 r3]|] eqn:E3; [|discriminate]. inversion E2; subst.
  assert (HC : R (clear d) ([], k)).
  { pose proof HR as (H1 & _). unfold R, clear in *. cbn [buffer_ size_ front_ fst snd] in *. repeat split; cbn; try lia; try exact H1. }
  destruct (run_sim _ _ ops2 q r3 HC E3) as
    [(d' & Er & HR')|(pre & o & post & d1 & q1 & rs1 & Ho & Hr1 & Hii & HR1 & Hz & Hs)].
  - rewrite Er. eauto.
  - exfalso. subst ops2. rewrite forallb_app in Hm. apply andb_true_iff in Hm as [Hm _].
    destruct Hz as (_ & _ & Hz). apply Hz. eapply run_front0; [eassumption | assumption | reflexivity].
Qed.
