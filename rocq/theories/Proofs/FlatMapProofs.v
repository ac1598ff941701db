From Verif Require Import Model.Base Proofs.BaseFacts Model.FlatMap Spec.FlatMap.

Section P.
Context {K V : Type} (eqb : K -> K -> bool) (v0 : V).
Implicit Type m : flat_map_t K V.
Context (eqb_eq : forall a b, eqb a b = true <-> a = b).

Local Lemma eqb_refl a : eqb a a = true.
Proof. apply eqb_eq; reflexivity. Qed.
Local Lemma eqb_neq a b : eqb a b = false <-> a <> b.
Proof.
  destruct (eqb a b) eqn:E.
  - apply eqb_eq in E. split; [discriminate | contradiction].
  - split; [|reflexivity]. intros _ H; subst. rewrite eqb_refl in E; discriminate.
Qed.

Definition Rel (m : flat_map_t K V) (i : imap K V) : Prop :=
  order i = map fst m /\ NoDup (map fst m) /\
  (forall k v, val i k = Some v <-> In (k, v) m).

Lemma find_Some m k i : find eqb m k = Some i ->
  exists v, nth_error m i = Some (k, v) /\ ~ In k (map fst (firstn i m)).
Proof.
  revert i; induction m as [|[k' v'] m IH]; intros i H; cbn [find] in H; [discriminate|].
  destruct (eqb k' k) eqn:E.
  - inversion H; subst. apply eqb_eq in E; subst. exists v'; cbn; auto.
  - destruct (find eqb m k) as [j|]; [|discriminate]. inversion H; subst.
    destruct (IH j eq_refl) as (v & Hn & Hni). exists v; split; [exact Hn|].
    cbn. intros [->|Hin]; [rewrite eqb_refl in E; discriminate | contradiction].
Qed.

Lemma find_None m k : find eqb m k = None <-> ~ In k (map fst m).
Proof.
  induction m as [|[k' v'] m IH]; cbn [find map fst In]; [tauto|].
  destruct (eqb k' k) eqn:E.
  - apply eqb_eq in E. split; [discriminate | tauto].
  - apply eqb_neq in E. destruct (find eqb m k); cbn; [|tauto].
    split; [discriminate|]. intros H. exfalso. assert (~ In k (map fst m)) by tauto.
    apply IH in H0; discriminate.
Qed.

Lemma nodup_fst_inj m k v v' : NoDup (map fst m) -> In (k, v) m -> In (k, v') m -> v = v'.
Proof.
  induction m as [|[k1 v1] m IH]; cbn [map fst]; intros Hd H1 H2; [destruct H1|].
  inversion Hd; subst.
  assert (forall w, In (k, w) m -> In k (map fst m)) by (intros w Hw; apply (in_map fst) in Hw; exact Hw).
  destruct H1 as [E1|H1], H2 as [E2|H2]; try congruence.
  - inversion E1; subst. exfalso; eauto.
  - inversion E2; subst. exfalso; eauto.
  - eauto.
Qed.

Lemma rel_find m i k : Rel m i ->
  match val i k with
  | Some v => exists j, find eqb m k = Some j /\ nth_error m j = Some (k, v)
  | None => find eqb m k = None
  end.
Proof.
  intros (Ho & Hd & Hv).
  destruct (val i k) as [v|] eqn:E.
  - apply Hv in E. destruct (find eqb m k) as [j|] eqn:F.
    + exists j; split; [reflexivity|]. destruct (find_Some _ _ _ F) as (w & Hw & _).
      rewrite Hw. do 2 f_equal. eapply nodup_fst_inj; [eassumption| |eassumption].
      eapply nth_error_In; eassumption.
    + apply find_None in F. exfalso; apply F. apply (in_map fst) in E; exact E.
  - apply find_None. intros Hin. apply in_map_iff in Hin as ([k' v] & Hk & Hin).
    cbn in Hk; subst. apply Hv in Hin. congruence.
Qed.

Lemma map_fst_upd (m : flat_map_t K V) j k v v' : nth_error m j = Some (k, v) ->
  map fst (firstn j m ++ (k, v') :: skipn (S j) m) = map fst m.
Proof.
  intros H. rewrite <- (firstn_skipn j m) at 3. rewrite !map_app. f_equal.
  cbn [map fst]. revert m H; induction j as [|j IH]; intros [|[k1 v1] m] H; cbn in *; try congruence.
  apply IH; assumption.
Qed.

Lemma split_at (m : flat_map_t K V) j x : nth_error m j = Some x ->
  m = firstn j m ++ x :: skipn (S j) m.
Proof.
  revert m; induction j as [|j IH]; intros [|y m] H; cbn in *; try congruence.
  f_equal. apply IH; assumption.
Qed.

Lemma write_rel m i j k v w : Rel m i -> nth_error m j = Some (k, w) ->
  exists m', write m j v = Ok m' /\ Rel m' (mkI (order i) (upd eqb (val i) k (Some v))).
Proof.
  intros (Ho & Hd & Hv) Hj. unfold write, vget. rewrite Hj; cbn [bind fst].
  rewrite vset_ok by (eapply nth_error_Some_lt; eassumption).
  eexists; split; [reflexivity|].
  unfold Rel; cbn [order val]. rewrite (map_fst_upd _ _ _ _ _ Hj). repeat split; try assumption.
  - intros Hk. unfold upd in Hk. destruct (eqb k0 k) eqn:E.
    + apply eqb_eq in E; subst. inversion Hk; subst. apply in_or_app; right; left; reflexivity.
    + apply eqb_neq in E. apply Hv in Hk. rewrite (split_at _ _ _ Hj) in Hk.
      apply in_app_or in Hk as [H|[H|H]].
      * apply in_or_app; left; exact H.
      * congruence.
      * apply in_or_app; right; right; exact H.
  - intros Hin. unfold upd. destruct (eqb k0 k) eqn:E.
    + apply eqb_eq in E; subst. f_equal.
      eapply (nodup_fst_inj (firstn j m ++ (k, v) :: skipn (S j) m)); [|apply in_or_app; right; left; reflexivity|exact Hin].
      rewrite (map_fst_upd _ _ _ _ _ Hj); assumption.
    + apply eqb_neq in E. apply Hv. rewrite (split_at _ _ _ Hj).
      apply in_app_or in Hin as [H|[H|H]].
      * apply in_or_app; left; exact H.
      * congruence.
      * apply in_or_app; right; right; exact H.
Qed.

Lemma push_rel m i k v : Rel m i -> val i k = None ->
  Rel (m ++ [(k, v)]) (mkI (order i ++ [k]) (upd eqb (val i) k (Some v))).
Proof.
  intros HR E. pose proof (rel_find m i k HR) as F; rewrite E in F. apply find_None in F.
  destruct HR as (Ho & Hd & Hv). unfold Rel; cbn [order val].
  rewrite map_app; cbn [map fst]. rewrite Ho. split; [reflexivity|]. split.
  - apply NoDup_snoc; assumption.
  - intros k0 w; unfold upd. rewrite in_app_iff; cbn [In].
    destruct (eqb k0 k) eqn:Ek.
    + apply eqb_eq in Ek; subst. split.
      * intros H; inversion H; subst; auto.
      * intros [H|[H|[]]]; [|congruence]. exfalso; apply F. apply (in_map fst) in H; exact H.
    + apply eqb_neq in Ek. rewrite Hv. split; [auto|]. intros [H|[H|[]]]; [assumption|congruence].
Qed.

Lemma erase_rel m i j k v : Rel m i -> nth_error m j = Some (k, v) ->
  exists m', erase m j = Ok m' /\
    Rel m' (mkI (filter (fun k' => negb (eqb k' k)) (order i)) (upd eqb (val i) k None)).
Proof.
  intros (Ho & Hd & Hv) Hj. unfold erase.
  destruct (Nat.ltb_spec j (length m)); [|apply nth_error_Some_lt in Hj; lia].
  eexists; split; [reflexivity|].
  pose proof (split_at _ _ _ Hj) as Hs. set (a := firstn j m) in *. set (b := skipn (S j) m) in *.
  rewrite Hs in Hd. rewrite map_app in Hd; cbn [map fst] in Hd.
  assert (Hna : ~ In k (map fst a)).
  { apply NoDup_remove_2 in Hd. rewrite in_app_iff in Hd; tauto. }
  assert (Hnb : ~ In k (map fst b)).
  { apply NoDup_remove_2 in Hd. rewrite in_app_iff in Hd; tauto. }
  assert (Hfil : forall l : list (K * V), ~ In k (map fst l) ->
            filter (fun k' => negb (eqb k' k)) (map fst l) = map fst l).
  { induction l as [|[k1 v1] l IHl]; cbn [map fst filter]; intros Hn; [reflexivity|].
    assert (E : eqb k1 k = false) by (apply eqb_neq; intros ->; apply Hn; left; reflexivity).
    rewrite E; cbn [negb]. f_equal. apply IHl. intros Hi; apply Hn; right; exact Hi. }
  unfold Rel; cbn [order val]. repeat split.
  - rewrite Ho, Hs, !map_app; cbn [map fst]. rewrite filter_app; cbn [filter].
    rewrite eqb_refl; cbn [negb]. rewrite !Hfil by assumption. reflexivity.
  - rewrite map_app. apply NoDup_remove_1 in Hd; exact Hd.
  - unfold upd. destruct (eqb k0 k) eqn:E; [discriminate|]. apply eqb_neq in E.
    intros Hk; apply Hv in Hk. rewrite Hs in Hk. rewrite in_app_iff in *. cbn [In] in Hk.
    destruct Hk as [Hk|[Hk|Hk]]; auto; congruence.
  - intros Hin. unfold upd. assert (E : k0 <> k).
    { intros ->. rewrite in_app_iff in Hin. destruct Hin as [Hin|Hin]; apply (in_map fst) in Hin; contradiction. }
    apply eqb_neq in E; rewrite E. apply Hv. rewrite Hs. rewrite in_app_iff in *; cbn [In]; tauto.
Qed.

Lemma assign_rel m i k v : Rel m i ->
  exists m', assign eqb v0 m k v = Ok m' /\ Rel m' (put eqb i k v).
Proof.
  intros HR. unfold assign, index, put. pose proof (rel_find m i k HR) as F.
  destruct (val i k) as [w|] eqn:E.
  - destruct F as (j & Fj & Hj). rewrite Fj. eapply write_rel; eassumption.
  - rewrite F. pose proof (push_rel m i k v0 HR E) as HR'.
    assert (Hj : nth_error (m ++ [(k, v0)]) (length m) = Some (k, v0)).
    { rewrite nth_error_app2, Nat.sub_diag by lia; reflexivity. }
    destruct (write_rel _ _ _ _ v _ HR' Hj) as (m' & Ew & HR2). exists m'; split; [exact Ew|].
    destruct HR2 as (H1 & H2 & H3). cbn [order val] in *. split; [exact H1|split; [exact H2|]].
    intros k0 w. cbn [val]. rewrite <- H3. unfold upd. destruct (eqb k0 k); reflexivity.
Qed.

Lemma filter_in_1 (m : flat_map_t K V) k v : NoDup (map fst m) -> In (k, v) m ->
  length (filter (fun kv => eqb (fst kv) k) m) = 1.
Proof.
  induction m as [|[k1 v1] m IH]; cbn [map fst filter In]; intros Hd Hin; [destruct Hin|].
  inversion Hd as [|? ? Hn Hd']; subst.
  destruct (eqb k1 k) eqn:E.
  - apply eqb_eq in E; subst. cbn [length]. f_equal.
    clear IH Hd Hd' Hin. induction m as [|[k2 v2] m IH]; [reflexivity|].
    cbn [map fst filter In] in *. assert (E : eqb k2 k = false) by (apply eqb_neq; tauto).
    rewrite E. apply IH. tauto.
  - apply eqb_neq in E. destruct Hin as [Hin|Hin]; [congruence|]. auto.
Qed.

Lemma filter_notin_0 (m : flat_map_t K V) k : ~ In k (map fst m) ->
  filter (fun kv => eqb (fst kv) k) m = [].
Proof.
  induction m as [|[k1 v1] m IH]; cbn [map fst filter In]; intros Hn; [reflexivity|].
  assert (E : eqb k1 k = false) by (apply eqb_neq; tauto). rewrite E. apply IH; tauto.
Qed.

Lemma entries_rel m i : Rel m i -> entries i = m.
Proof.
  intros (Ho & Hd & Hv). unfold entries. rewrite Ho. clear Ho.
  assert (G : forall l, (forall k v, In (k, v) l -> val i k = Some v) ->
     flat_map (fun k => match val i k with Some v => [(k, v)] | None => [] end) (map fst l) = l).
  { induction l as [|[k v] l IH]; intros H; [reflexivity|]. cbn [map fst flat_map].
    rewrite (H k v) by (left; reflexivity). cbn [app]. f_equal. apply IH.
    intros k' v' Hin; apply H; right; exact Hin. }
  apply G. intros k v Hin. apply Hv; exact Hin.
Qed.

Lemma step_sim m i o i' r : Rel m i -> ideal_step eqb v0 i o = Some (i', r) ->
  exists m', step eqb v0 m o = Some (m', r) /\ Rel m' i'.
Proof.
  intros HR H. destruct o as [k v|k|k|k v|k|k|k| | | | ]; cbn [ideal_step] in H; cbn [step].
  - inversion H; subst. destruct (assign_rel m i k v HR) as (m' & E & HR'). rewrite E; cbn; eauto.
  - unfold index. pose proof (rel_find m i k HR) as F.
    destruct (val i k) as [w|] eqn:E.
    + inversion H; subst. destruct F as (j & Fj & Hj). rewrite Fj. unfold read, vget.
      rewrite Hj; cbn. eauto.
    + inversion H; subst. rewrite F. unfold read, vget.
      rewrite nth_error_app2, Nat.sub_diag by lia; cbn.
      eexists; split; [reflexivity|]. unfold put; rewrite E. apply push_rel; assumption.
  - unfold at_. pose proof (rel_find m i k HR) as F.
    destruct (val i k) as [w|] eqn:E; inversion H; subst.
    + destruct F as (j & Fj & Hj). rewrite Fj. unfold read, vget. rewrite Hj; cbn; eauto.
    + rewrite F; cbn; eauto.
  - unfold at_assign. pose proof (rel_find m i k HR) as F.
    destruct (val i k) as [w|] eqn:E; inversion H; subst.
    + destruct F as (j & Fj & Hj). rewrite Fj. unfold put; rewrite E.
      destruct (write_rel _ _ _ _ v _ HR Hj) as (m' & Ew & HR2). rewrite Ew; cbn; eauto.
    + rewrite F; cbn; eauto.
  - inversion H; subst. exists m; split; [|assumption]. unfold has_key.
    pose proof (rel_find m i' k HR) as F. destruct (val i' k); [destruct F as (j & Fj & _); rewrite Fj | rewrite F]; reflexivity.
  - inversion H; subst. exists m; split; [|assumption]. unfold count.
    pose proof (rel_find m i' k HR) as F. destruct (val i' k) as [v|] eqn:E.
    + destruct HR as (Ho & Hd & Hv). rewrite (filter_in_1 m k v); [reflexivity|assumption|apply Hv; assumption].
    + apply find_None in F. rewrite filter_notin_0 by assumption. reflexivity.
  - pose proof (rel_find m i k HR) as F. destruct (val i k) as [w|] eqn:E; [|discriminate].
    inversion H; subst. destruct F as (j & Fj & Hj). rewrite Fj.
    destruct (erase_rel _ _ _ _ _ HR Hj) as (m' & Ee & HR'). rewrite Ee; cbn; eauto.
  - inversion H; subst. eexists; split; [reflexivity|].
    repeat split; cbn; try constructor; try discriminate; contradiction.
  - inversion H; subst. exists m; split; [|assumption]. destruct HR as (Ho & _). rewrite Ho, map_length; reflexivity.
  - inversion H; subst. exists m; split; [|assumption]. destruct HR as (Ho & _). rewrite Ho. destruct m; reflexivity.
  - inversion H; subst. exists m; split; [|assumption]. rewrite (entries_rel _ _ HR). reflexivity.
Qed.

Lemma Rel_empty : Rel [] empty_map.
Proof. repeat split; cbn; try constructor; try discriminate; contradiction. Qed.

Lemma flat_map_refines ops i rs :
  exec (ideal_step eqb v0) empty_map ops = Some (i, rs) ->
  exists m, exec (step eqb v0) [] ops = Some (m, rs) /\ m = entries i /\ NoDup (map fst m).
Proof.
  intros H. destruct (exec_sim _ _ Rel step_sim ops [] empty_map i rs Rel_empty H) as (m & E & HR).
  exists m; split; [exact E|]. split; [symmetry; apply entries_rel; assumption | apply HR].
Qed.
End P.

Section F.
Context {K F U : Type} (eqb : K -> K -> bool) (f0 : F) (apply : F -> U).
Context (eqb_eq : forall a b, eqb a b = true <-> a = b).

Lemma last_reg_cons k f (regs : list (K * F)) n : last_reg eqb ((k, f) :: regs) n =
  match last_reg eqb regs n with Some g => Some g | None => if eqb k n then Some f else None end.
Proof.
  unfold last_reg. cbn [rev]. rewrite filter_app. cbn [filter fst].
  destruct (filter _ (rev regs)) as [|[k1 f1] l]; cbn [app]; [destruct (eqb k n); reflexivity | reflexivity].
Qed.

Lemma register_all_rel regs : forall m i, Rel m i ->
  exists m' i', register_all eqb f0 m regs = Ok m' /\ Rel m' i' /\
    forall n, val i' n = match last_reg eqb regs n with Some f => Some f | None => val i n end.
Proof.
  induction regs as [|[k f] regs IH]; intros m i HR; cbn [register_all].
  - exists m, i; split; [reflexivity|split; [exact HR|reflexivity]].
  - unfold register. destruct (assign_rel eqb f0 eqb_eq m i k f HR) as (m1 & E1 & HR1).
    rewrite E1; cbn [bind]. destruct (IH m1 _ HR1) as (m2 & i2 & E2 & HR2 & Hv).
    exists m2, i2; split; [exact E2|split; [exact HR2|]].
    intros n. rewrite Hv, last_reg_cons. destruct (last_reg eqb regs n); [reflexivity|].
    assert (Hp : val (put eqb i k f) n = if eqb n k then Some f else val i n)
      by (unfold put, upd; destruct (val i k); reflexivity).
    rewrite Hp. destruct (eqb n k) eqn:E, (eqb k n) eqn:E'; try reflexivity.
    + apply eqb_eq in E; subst. assert (eqb k k = true) by (apply eqb_eq; reflexivity). congruence.
    + apply eqb_eq in E'; subst. assert (eqb n n = true) by (apply eqb_eq; reflexivity). congruence.
Qed.

Lemma factory_main regs :
  exists m, register_all eqb f0 [] regs = Ok m /\
  forall name,
    match last_reg eqb regs name with
    | Some f => create eqb apply m name = Ok (apply f) /\
                try_create eqb apply m name = Ok (Some (apply f)) /\ has_type eqb m name = true
    | None => create eqb apply m name = Throw /\
              try_create eqb apply m name = Ok None /\ has_type eqb m name = false
    end.
Proof.
  destruct (register_all_rel regs [] empty_map) as (m & i & E & HR & Hv).
  { apply Rel_empty. }
  exists m; split; [exact E|]. intros name.
  pose proof (rel_find eqb eqb_eq m i name HR) as Fd. specialize (Hv name). cbn [empty_map val] in Hv.
  unfold create, try_create, has_type.
  destruct (last_reg eqb regs name) as [f|] eqn:L; rewrite Hv in Fd.
  - destruct Fd as (j & Fj & Hj). rewrite Fj. unfold read, vget. rewrite Hj. cbn. auto.
  - rewrite Fd. auto.
Qed.
End F.
