From Verif Require Import Model.Base Proofs.BaseFacts Proofs.MatrixFacts.
From Verif Require Import Model.DataHeader Model.Storage Spec.Storage Spec.DataHeader.

Section P.
Context {T L : Type} (eqb : L -> L -> bool) (l0 : L) (t0 : T).
Context (eqb_eq : forall a b, eqb a b = true <-> a = b).
Implicit Types (s : storage T L) (m : matrix T L) (h : header L).

(* header versus channel names *)
Definition HRel h (ns : list (option L)) : Prop :=
  length (DataHeader.labels_ h) = length ns /\
  (forall i l, nth_error ns i = Some (Some l) -> nth_error (DataHeader.labels_ h) i = Some l) /\
  (forall i, nth_error ns i = Some None -> nth_error (DataHeader.labels_ h) i = Some l0) /\
  (forall l i, DataHeader.find eqb h l = Some i <-> nth_error ns i = Some (Some l)).

Definition Rel s m : Prop :=
  frame_size_ s = nfr m /\ HRel (labels_ s) (names m) /\
  uniform (nch m) (rows m) /\ data_ s = concat (rows m).

Local Lemma eqb_refl a : eqb a a = true.
Proof. apply eqb_eq; reflexivity. Qed.

Lemma pos_Some ns l i : pos eqb ns l = Some i -> nth_error ns i = Some (Some l).
Proof.
  revert i; induction ns as [|n ns IH]; intros i H; cbn [pos] in H; [discriminate|].
  destruct n as [l'|].
  - destruct (eqb l' l) eqn:E.
    + inversion H; subst. apply eqb_eq in E; subst; reflexivity.
    + destruct (pos eqb ns l); inversion H; subst. apply IH; reflexivity.
  - destruct (pos eqb ns l); inversion H; subst. apply IH; reflexivity.
Qed.

Lemma pos_None ns l : pos eqb ns l = None <-> ~ In (Some l) ns.
Proof.
  induction ns as [|n ns IH]; cbn [pos In]; [tauto|].
  destruct n as [l'|].
  - destruct (eqb l' l) eqn:E.
    + apply eqb_eq in E; subst. split; [discriminate|tauto].
    + assert (l' <> l) by (intros ->; rewrite eqb_refl in E; discriminate).
      destruct (pos eqb ns l); cbn.
      * split; [discriminate|]. intros Hn. exfalso. assert (X : ~ In (Some l) ns) by tauto. apply IH in X; discriminate.
      * split; [|reflexivity]. intros _ [Hc|Hc]; [congruence|]. apply IH in Hc; [exact Hc|reflexivity].
  - destruct (pos eqb ns l); cbn.
    + split; [discriminate|]. intros Hn. exfalso. assert (X : ~ In (Some l) ns) by tauto. apply IH in X; discriminate.
    + split; [|reflexivity]. intros _ [Hc|Hc]; [discriminate|]. apply IH in Hc; [exact Hc|reflexivity].
Qed.

Lemma HRel_find h ns l : HRel h ns -> DataHeader.find eqb h l = pos eqb ns l.
Proof.
  intros (_ & _ & _ & Hf).
  destruct (DataHeader.find eqb h l) as [i|] eqn:E.
  - apply Hf in E. destruct (pos eqb ns l) as [j|] eqn:Ej.
    + apply pos_Some, Hf in Ej. apply Hf in E. congruence.
    + apply pos_None in Ej. exfalso; apply Ej. eapply nth_error_In; eassumption.
  - destruct (pos eqb ns l) as [j|] eqn:Ej; [|reflexivity]. apply pos_Some, Hf in Ej. congruence.
Qed.

Lemma HRel_absent h ns l : HRel h ns ->
  absent eqb h l = match pos eqb ns l with None => true | Some _ => false end.
Proof. intros H. unfold absent. rewrite (HRel_find h ns l H). reflexivity. Qed.

Lemma HRel_nil : HRel (mkH [] []) [].
Proof.
  repeat split; try (intros; destruct i; discriminate); cbn; intros; try discriminate; destruct i; discriminate.
Qed.

Lemma HRel_resize h ns c : HRel h ns -> length ns <= c ->
  exists h', DataHeader.resize l0 h c = Ok h' /\ HRel h' (ns ++ repeat None (c - length ns)).
Proof.
  intros (Hl & H1 & H2 & H3) Hc. unfold DataHeader.resize, size, assert_.
  destruct (Nat.leb_spec (length (DataHeader.labels_ h)) c); [|lia]. cbn [bind].
  eexists; split; [reflexivity|]. unfold HRel, DataHeader.find; cbn [DataHeader.labels_ label_indices_].
  rewrite vresize_length, app_length, repeat_length.
  assert (Hnone : forall i l, nth_error (ns ++ repeat None (c - length ns)) i = Some (Some l) -> nth_error ns i = Some (Some l)).
  { intros i l Hi. destruct (Nat.lt_ge_cases i (length ns)).
    - rewrite nth_error_app1 in Hi by assumption. assumption.
    - rewrite nth_error_app2 in Hi by assumption. exfalso.
      apply nth_error_In, repeat_spec in Hi. discriminate. }
  split; [lia|]. split; [|split].
  - intros i l Hi. apply Hnone in Hi. pose proof (nth_error_Some_lt _ _ _ Hi).
    rewrite nth_error_vresize. destruct (Nat.ltb_spec i c); [|lia].
    destruct (Nat.ltb_spec i (length (DataHeader.labels_ h))); [|lia]. auto.
  - intros i Hi. pose proof (nth_error_Some_lt _ _ _ Hi) as Hlt. rewrite app_length, repeat_length in Hlt.
    rewrite nth_error_vresize. destruct (Nat.ltb_spec i c); [|lia].
    destruct (Nat.ltb_spec i (length (DataHeader.labels_ h))); [|reflexivity].
    apply H2. rewrite nth_error_app1 in Hi by lia. assumption.
  - intros l i. specialize (H3 l i). unfold DataHeader.find in H3. rewrite H3. split; [|apply Hnone].
    intros Hi. rewrite nth_error_app1; [assumption|]. eapply nth_error_Some_lt; eassumption.
Qed.

(* naming the last, still unnamed, channel *)
Lemma HRel_set_last h ns l i : HRel h ns -> S i = length ns -> nth_error ns i = Some None ->
  pos eqb ns l = None ->
  exists h', DataHeader.set eqb h i l = Ok (h', i) /\ HRel h' (firstn i ns ++ Some l :: skipn (S i) ns).
Proof.
  intros HR Hi Hnone Hpos. pose proof HR as (Hl & H1 & H2 & H3).
  unfold DataHeader.set, size. rewrite (HRel_absent h ns l HR), Hpos.
  destruct (Nat.ltb_spec i (length (DataHeader.labels_ h))) as [Hlt|]; [|lia]. cbn [andb assert_ bind].
  rewrite vset_ok by assumption. cbn [bind]. eexists; split; [reflexivity|].
  unfold HRel, DataHeader.find; cbn [DataHeader.labels_ label_indices_].
  rewrite !upd_length by lia.
  split; [assumption|]. split; [|split].
  - intros j k Hj. rewrite nth_error_upd in Hj by lia. rewrite nth_error_upd by lia.
    destruct (j =? i); [inversion Hj; reflexivity | auto].
  - intros j Hj. rewrite nth_error_upd in Hj by lia. rewrite nth_error_upd by lia.
    destruct (j =? i); [discriminate | auto].
  - intros k j. cbn [lookup]. rewrite nth_error_upd by lia.
    destruct (eqb l k) eqn:E.
    + apply eqb_eq in E; subst k. split.
      * intros Hj; inversion Hj; subst. replace (length (DataHeader.labels_ h) - 1) with i by lia.
        rewrite Nat.eqb_refl. reflexivity.
      * destruct (Nat.eqb_spec j i) as [->|Hne].
        { intros _. f_equal; lia. }
        intros Hj. exfalso. apply pos_None in Hpos. apply Hpos. eapply nth_error_In; eassumption.
    + specialize (H3 k j). unfold DataHeader.find in H3. rewrite H3.
      destruct (Nat.eqb_spec j i) as [->|Hne]; [|reflexivity].
      rewrite Hnone. split; [discriminate|]. intros Hj; inversion Hj; subst. rewrite eqb_refl in E; discriminate.
Qed.

Lemma set_present h ns l i : HRel h ns -> pos eqb ns l <> None -> DataHeader.set eqb h i l = Throw.
Proof.
  intros HR Hp. unfold DataHeader.set. rewrite (HRel_absent h ns l HR).
  destruct (pos eqb ns l); [|congruence]. rewrite andb_false_r. reflexivity.
Qed.

Lemma Rel_nch s m : Rel s m -> channel_size s = nch m.
Proof. intros (_ & (Hl & _) & _). exact Hl. Qed.

(* C08 core: resize = grow *)
Lemma grow_uniform m f c (v : T) : uniform (nch m) (rows m) -> nch m <= c -> uniform c (rows (grow m f c v)).
Proof.
  intros H Hc. unfold grow; cbn [rows]. apply uniform_app. split.
  - eapply uniform_map; [exact H|]. intros r Hr. rewrite app_length, repeat_length. lia.
  - apply uniform_repeat, repeat_length.
Qed.

Lemma grow_length m f c (v : T) : nfr m <= f -> length (rows (grow m f c v)) = f.
Proof.
  intros H. unfold grow; cbn [rows]. rewrite app_length, map_length, repeat_length. unfold nfr in *. lia.
Qed.

Lemma grow_cell m f c (v : T) i j : uniform (nch m) (rows m) -> nfr m <= f -> nch m <= c -> i < f -> j < c ->
  cellr (rows (grow m f c v)) i j =
  if (i <? nfr m) && (j <? nch m) then cellr (rows m) i j else Some v.
Proof.
  intros H Hf Hc Hi Hj. unfold grow; cbn [rows]. rewrite cellr_app, map_length. fold (nfr m).
  destruct (Nat.ltb_spec i (nfr m)); cbn [andb].
  - rewrite cellr_map. unfold cellr. destruct (nth_error_ex (rows m) i ltac:(assumption)) as [r Hr].
    rewrite Hr. pose proof (uniform_nth _ _ _ _ H Hr) as Hlen.
    destruct (Nat.ltb_spec j (nch m)).
    + apply nth_error_app1; lia.
    + rewrite nth_error_app2 by lia. apply nth_error_repeat_lt. lia.
  - apply cellr_repeat; lia.
Qed.

Lemma vresize_cell w n n' (d : list T) rs v : uniform w rs -> length rs = n -> d = concat rs -> n <= n' ->
  vresize d (n' * w) v = concat (rs ++ repeat (repeat v w) (n' - n)).
Proof.
  intros H Hn -> Hle. unfold vresize. rewrite concat_app.
  rewrite (concat_length_uniform w) by assumption. rewrite Hn.
  rewrite firstn_all2 by (rewrite (concat_length_uniform w) by assumption; nia).
  f_equal. replace (n' * w - n * w) with ((n' - n) * w) by nia.
  induction (n' - n) as [|k IH]; [reflexivity|]. cbn [repeat concat Nat.mul]. rewrite <- IH.
  apply repeat_app.
Qed.

Lemma resize_loop (data : list T) (rs : list (list T)) w n w' n' v :
  uniform w rs -> length rs = n -> data = concat rs -> n <= n' -> w < w' ->
  exists nd,
    for_up n (fun fi nd => for_up w (fun ci nd =>
       let* x := vget data (w * fi + ci) in vset nd (w' * fi + ci) x) nd) (repeat v (w' * n')) = Ok nd /\
    length nd = w' * n' /\
    forall f c, f < n' -> c < w' ->
      nth_error nd (f * w' + c) = if (f <? n) && (c <? w) then cellr rs f c else Some v.
Proof.
  intros HU Hn -> Hle Hw.
  set (I := fun fi ci (nd : list T) => length nd = w' * n' /\
     forall f c, f < n' -> c < w' ->
       nth_error nd (f * w' + c) =
       if ((f <? fi) || ((f =? fi) && (c <? ci))) && (c <? w) then cellr rs f c else Some v).
  destruct (for_up_inv
    (fun fi nd => for_up w (fun ci nd =>
       let* x := vget (concat rs) (w * fi + ci) in vset nd (w' * fi + ci) x) nd)
    (fun fi nd => I fi 0 nd) n (repeat v (w' * n'))) as (nd & E & HI).
  - split; [apply repeat_length|]. intros f c Hf Hc.
    destruct (Nat.ltb_spec f 0); [lia|]. destruct (Nat.ltb_spec c 0); [lia|].
    rewrite andb_false_r. cbn [orb andb]. apply nth_error_repeat_lt. nia.
  - intros fi nd Hfi HI.
    destruct (for_up_inv (fun ci nd =>
       let* x := vget (concat rs) (w * fi + ci) in vset nd (w' * fi + ci) x)
       (fun ci nd => I fi ci nd) w nd HI) as (nd' & E' & HI').
    + intros ci nd0 Hci (Hlen & Hc0).
      destruct (cellr_Some w rs fi ci HU) as [x Hx]; [lia|assumption|].
      unfold vget. replace (w * fi + ci) with (fi * w + ci) by lia.
      rewrite (nth_concat w) by assumption. rewrite Hx. cbn [bind].
      assert (Hlt : w' * fi + ci < length nd0) by (rewrite Hlen; nia).
      rewrite vset_ok by assumption. eexists; split; [reflexivity|].
      split; [rewrite upd_length; assumption|].
      intros f c Hf Hc. rewrite nth_error_upd by assumption.
      destruct (Nat.eqb_spec (f * w' + c) (w' * fi + ci)) as [Eidx|Nidx].
      * replace (w' * fi + ci) with (fi * w' + ci) in Eidx by lia.
        apply idx_inj in Eidx; [|lia..]. destruct Eidx as [-> ->].
        destruct (Nat.ltb_spec fi fi); [lia|]. rewrite Nat.eqb_refl.
        destruct (Nat.ltb_spec ci (S ci)); [|lia]. destruct (Nat.ltb_spec ci w); [|lia].
        cbn [orb andb]. symmetry; exact Hx.
      * rewrite Hc0 by assumption.
        destruct (Nat.ltb_spec f fi); cbn [orb]; [reflexivity|].
        destruct (Nat.eqb_spec f fi) as [->|]; cbn [andb]; [|reflexivity].
        assert (c <> ci) by (intros ->; apply Nidx; lia).
        destruct (Nat.ltb_spec c ci), (Nat.ltb_spec c (S ci)); try reflexivity; lia.
    + exists nd'; split; [exact E'|]. destruct HI' as (Hlen & Hc). split; [exact Hlen|].
      intros f c Hf Hcc. rewrite Hc by assumption.
      destruct (Nat.ltb_spec f fi), (Nat.ltb_spec f (S fi)), (Nat.eqb_spec f fi), (Nat.ltb_spec c w), (Nat.ltb_spec c 0);
        cbn [orb andb]; try reflexivity; try lia.
      all: destruct (Nat.eqb_spec f (S fi)); cbn [andb]; try reflexivity; lia.
  - exists nd; split; [exact E|]. destruct HI as (Hlen & Hc). split; [exact Hlen|].
    intros f c Hf Hcc. rewrite Hc by assumption.
    destruct (Nat.ltb_spec f n), (Nat.ltb_spec c 0); cbn [orb andb]; try lia; try reflexivity.
    all: destruct (f =? n); reflexivity.
Qed.

Lemma resize_sim s m f c v : Rel s m ->
  if (f <? nfr m) || (c <? nch m) then resize l0 s f c v = Throw
  else exists s', resize l0 s f c v = Ok s' /\ Rel s' (grow m f c v).
Proof.
  intros HR. pose proof HR as (Hf & HH & HU & Hd). pose proof (Rel_nch _ _ HR) as Hc.
  unfold resize, frame_size. rewrite Hf, Hc.
  destruct (Nat.ltb_spec f (nfr m)) as [H1|H1]; cbn [orb]; [reflexivity|].
  destruct (Nat.ltb_spec c (nch m)) as [H2|H2]; cbn [orb]; [reflexivity|].
  assert (Hgn : nch (grow m f c v) = c).
  { unfold nch, grow; cbn [names]. rewrite app_length, repeat_length. unfold nch in *; lia. }
  assert (Hgf : nfr (grow m f c v) = f) by (unfold nfr at 1; apply grow_length; assumption).
  destruct (Nat.ltb_spec (nch m) c) as [H3|H3].
  - destruct (HRel_resize _ _ c HH) as (h' & Eh & HH'); [exact H2|].
    fold (nch m) in HH'.
    assert (Hdata : exists nd,
      (if 1 <? nfr m
       then for_up (nfr m) (fun fi nd => for_up (nch m) (fun ci nd =>
          let* x := vget (data_ s) (nch m * fi + ci) in vset nd (c * fi + ci) x) nd) (repeat v (c * f))
       else Ok (vresize (data_ s) (f * c) v)) = Ok nd /\ nd = concat (rows (grow m f c v))).
    { destruct (Nat.ltb_spec 1 (nfr m)) as [H4|H4].
      - destruct (resize_loop (data_ s) (rows m) (nch m) (nfr m) c f v) as (nd & E & Hlen & Hcell);
          try assumption; try reflexivity.
        exists nd; split; [exact E|].
        apply (concat_ext c f); [apply grow_uniform; assumption | apply grow_length; assumption | lia |].
        intros i j Hi Hj. rewrite Hcell by assumption. symmetry. apply grow_cell; assumption.
      - eexists; split; [reflexivity|].
        apply (concat_ext c f); [apply grow_uniform; assumption | apply grow_length; assumption | apply vresize_length |].
        intros i j Hi Hj. rewrite grow_cell by assumption. rewrite nth_error_vresize.
        pose proof (idx_bound c f i j Hi Hj).
        destruct (Nat.ltb_spec (i * c + j) (f * c)); [|lia].
        rewrite Hd. rewrite (concat_length_uniform (nch m)) by assumption. fold (nfr m).
        destruct (Nat.ltb_spec i (nfr m)) as [Hi'|Hi']; cbn [andb].
        + assert (i = 0 /\ nfr m = 1) as [-> ->] by lia.
          destruct (Nat.ltb_spec (0 * c + j) (1 * nch m)), (Nat.ltb_spec j (nch m)); try lia; [|reflexivity].
          replace (0 * c + j) with (0 * nch m + j) by lia. apply nth_concat; assumption.
        + destruct (Nat.ltb_spec (i * c + j) (nfr m * nch m)); [nia|reflexivity]. }
    destruct Hdata as (nd & End & Hnd). rewrite End. cbn [bind]. rewrite Eh. cbn [bind].
    eexists; split; [reflexivity|]. unfold Rel; cbn [frame_size_ labels_ data_].
    rewrite Hgf, Hgn. repeat split; try apply HH'; try assumption. apply grow_uniform; assumption.
  - assert (c = nch m) by lia; subst c.
    eexists; split; [reflexivity|]. unfold Rel; cbn [frame_size_ labels_ data_].
    rewrite Hgf, Hgn. split; [reflexivity|]. split; [|split; [apply grow_uniform; assumption|]].
    + unfold grow; cbn [names]. rewrite Nat.sub_diag; cbn [repeat]. rewrite app_nil_r. exact HH.
    + unfold grow; cbn [rows]. rewrite Nat.sub_diag; cbn [repeat].
      rewrite (map_ext _ (fun r => r)) by (intros; apply app_nil_r). rewrite map_id.
      apply vresize_cell; try assumption; reflexivity.
Qed.

Lemma grow_add_col m v : grow m (nfr m) (nch m + 1) v = add_col m None v.
Proof.
  unfold grow, add_col. rewrite Nat.sub_diag. replace (nch m + 1 - nch m) with 1 by lia.
  cbn [repeat]. rewrite app_nil_r. reflexivity.
Qed.

Lemma set_label_last s m l x : Rel s (mkM x (names m ++ [None])) -> pos eqb (names m) l = None ->
  exists s', set_label eqb s (channel_size s - 1) l = Ok (s', nch m) /\
    Rel s' (mkM x (names m ++ [Some l])) /\ data_ s' = data_ s.
Proof.
  intros HR Hp. pose proof HR as (Hf & HH & HU & Hd). pose proof (Rel_nch _ _ HR) as Hc.
  unfold nch in Hc; cbn [names] in Hc. rewrite app_length in Hc; cbn [length] in Hc.
  fold (nch m) in Hc. rewrite Hc. replace (nch m + 1 - 1) with (nch m) by lia.
  unfold set_label.
  destruct (HRel_set_last _ _ l (nch m) HH) as (h' & E & HH').
  - cbn [names]. rewrite app_length; cbn [length]. unfold nch; lia.
  - cbn [names]. unfold nch. rewrite nth_error_app2, Nat.sub_diag by lia. reflexivity.
  - cbn [names]. apply pos_None. apply pos_None in Hp. rewrite in_app_iff; cbn. intros [H|[H|[]]]; [tauto|discriminate].
  - rewrite E; cbn [bind fst snd]. eexists; split; [reflexivity|]. split; [|reflexivity].
    cbn [names] in HH'. unfold nch in HH'.
    rewrite firstn_app, Nat.sub_diag, firstn_all in HH'; cbn [firstn] in HH'.
    rewrite skipn_all2 in HH' by (rewrite app_length; cbn; lia).
    rewrite app_nil_r in HH'.
    unfold Rel; cbn [frame_size_ labels_ data_ names rows]. repeat split; try assumption; try apply HH'.
    unfold nch in *; cbn [names rows] in *. rewrite app_length in *; cbn [length] in *. assumption.
Qed.

Lemma add_channel_sim s m l v : Rel s m ->
  match pos eqb (names m) l with
  | Some _ => exists s', add_channel eqb l0 s l v = (s', Throw) /\ Rel s' (add_col m None v)
  | None => exists s', add_channel eqb l0 s l v = (s', Ok (nch m)) /\ Rel s' (add_col m (Some l) v)
  end.
Proof.
  intros HR. pose proof HR as (Hf & HH & HU & Hd). pose proof (Rel_nch _ _ HR) as Hc.
  pose proof (resize_sim s m (nfr m) (nch m + 1) v HR) as Hr.
  destruct (Nat.ltb_spec (nfr m) (nfr m)); [lia|]. destruct (Nat.ltb_spec (nch m + 1) (nch m)); [lia|].
  cbn [orb] in Hr. destruct Hr as (s1 & E1 & HR1). rewrite grow_add_col in HR1.
  unfold add_channel, frame_size. rewrite Hf, Hc, E1.
  destruct (pos eqb (names m) l) as [i|] eqn:Ep.
  - unfold set_label. pose proof HR1 as (_ & HH1 & _).
    rewrite (set_present _ _ _ _ HH1); [cbn; eauto|].
    intros Hn. apply pos_None in Hn. apply Hn. unfold add_col; cbn [names]. rewrite in_app_iff. left.
    apply pos_Some in Ep. eapply nth_error_In; eassumption.
  - destruct (set_label_last s1 m l _ HR1 Ep) as (s2 & E2 & HR2 & _). rewrite E2. eauto.
Qed.

Lemma find_or_add_sim s m l v m' i : Rel s m -> find_or_add_i eqb m l v = (m', i) ->
  exists s', find_or_add_channel eqb l0 s l v = (s', Ok i) /\ Rel s' m' /\ i < nch m' /\ nfr m' = nfr m.
Proof.
  intros HR H. unfold find_or_add_i in H. unfold find_or_add_channel, find_channel.
  pose proof HR as (_ & HH & _). rewrite (HRel_find _ _ l HH).
  pose proof (add_channel_sim s m l v HR) as Ha.
  destruct (pos eqb (names m) l) as [j|] eqn:E; inversion H; subst.
  - exists s; split; [reflexivity|]. split; [assumption|]. split; [|reflexivity].
    apply pos_Some in E. eapply nth_error_Some_lt; eassumption.
  - destruct Ha as (s' & Es & HR'). exists s'; split; [exact Es|]. split; [exact HR'|].
    split; [unfold add_col, nch; cbn [names]; rewrite app_length; cbn; lia|].
    unfold nfr, add_col; cbn [rows]. apply map_length.
Qed.

Lemma at_sim s m f c : Rel s m -> c < nch m ->
  at_unchecked s f c = match cell m f c with Some x => Ok x | None => UB end.
Proof.
  intros HR Hc. pose proof HR as (_ & _ & HU & Hd). unfold at_unchecked, vget.
  rewrite (Rel_nch _ _ HR), Hd, (nth_concat (nch m)) by assumption. reflexivity.
Qed.

Lemma put_putr m f c (v : T) : put m f c v = mkM (putr (rows m) f c v) (names m).
Proof. unfold put, putr. destruct (nth_error (rows m) f); [reflexivity|destruct m; reflexivity]. Qed.

Lemma set_sim s m f c v : Rel s m -> f < nfr m -> c < nch m ->
  exists s', set_unchecked s f c v = Ok s' /\ Rel s' (put m f c v).
Proof.
  intros HR Hf Hc. pose proof HR as (Hf' & HH & HU & Hd). unfold set_unchecked.
  rewrite (Rel_nch _ _ HR), Hd, vset_concat by assumption. cbn [bind].
  eexists; split; [reflexivity|]. rewrite put_putr.
  unfold Rel, nfr, nch; cbn [frame_size_ labels_ data_ rows names]. rewrite putr_length.
  repeat split; try assumption; try apply HH. apply putr_uniform; assumption.
Qed.

Lemma in_range_cell m f c : uniform (nch m) (rows m) -> in_range m f c = true -> exists x, cell m f c = Some x.
Proof.
  intros HU H. unfold in_range in H. apply andb_true_iff in H as [H1 H2].
  apply Nat.ltb_lt in H1, H2. exact (cellr_Some (nch m) (rows m) f c HU H1 H2).
Qed.

Lemma in_range_spec m f c : in_range m f c = true <-> f < nfr m /\ c < nch m.
Proof. unfold in_range. rewrite andb_true_iff, !Nat.ltb_lt. reflexivity. Qed.

Lemma empty_sim s m : Rel s m -> empty s = no_cells m.
Proof.
  intros (_ & _ & HU & Hd). unfold empty, no_cells. rewrite Hd.
  pose proof (concat_length_uniform (nch m) (rows m) HU) as Hl. fold (nfr m) in Hl.
  destruct (concat (rows m)) as [|x d]; cbn [length] in Hl.
  - destruct (Nat.eqb_spec (nfr m) 0); [reflexivity|]. destruct (Nat.eqb_spec (nch m) 0); [reflexivity|]. nia.
  - destruct (Nat.eqb_spec (nfr m) 0) as [e|]; [rewrite e in Hl; cbn in Hl; lia|].
    destruct (Nat.eqb_spec (nch m) 0) as [e|]; [rewrite e in Hl; lia|]. reflexivity.
Qed.

(* column with data *)
Lemma zip_col_length w (rs : list (list T)) ds : length (zip_col t0 w rs ds) = Nat.max (length rs) (length ds).
Proof.
  revert ds; induction rs as [|r rs IH]; intros ds; cbn [zip_col].
  - rewrite map_length. cbn. reflexivity.
  - destruct ds as [|d ds]; cbn [length]; rewrite IH; cbn [length]; lia.
Qed.

Lemma zip_col_uniform w (rs : list (list T)) ds : uniform w rs -> uniform (S w) (zip_col t0 w rs ds).
Proof.
  intros H. revert ds; induction H as [|r rs Hr Hrs IH]; intros ds; cbn [zip_col].
  - apply Forall_forall. intros x Hx. apply in_map_iff in Hx as (d & <- & _).
    rewrite app_length, repeat_length; cbn; lia.
  - destruct ds as [|d ds]; constructor; try (rewrite app_length; cbn; lia); apply IH.
Qed.

Lemma zip_col_cell w (rs : list (list T)) ds f c : uniform w rs -> f < Nat.max (length rs) (length ds) -> c < S w ->
  cellr (zip_col t0 w rs ds) f c =
  if c =? w then Some (nth f ds t0)
  else if f <? length rs then cellr rs f c else Some t0.
Proof.
  intros H. revert ds f; induction H as [|r rs Hr Hrs IH]; intros ds f Hf Hc; cbn [zip_col].
  - unfold cellr. rewrite nth_error_map. cbn [length] in *. destruct (nth_error_ex ds f) as [d Hd]; [lia|].
    rewrite Hd. cbn [option_map]. rewrite (nth_error_nth ds f t0 Hd).
    destruct (Nat.eqb_spec c w) as [->|].
    + rewrite nth_error_app2, repeat_length, Nat.sub_diag by (rewrite repeat_length; lia). reflexivity.
    + rewrite nth_error_app1 by (rewrite repeat_length; lia). destruct (Nat.ltb_spec f 0); [lia|].
      apply nth_error_repeat_lt; lia.
  - destruct f as [|f].
    + destruct ds as [|d ds]; unfold cellr; cbn [nth_error nth length].
      * destruct (Nat.eqb_spec c w) as [->|].
        { rewrite nth_error_app2, Hr, Nat.sub_diag by lia. reflexivity. }
        rewrite nth_error_app1 by lia. reflexivity.
      * destruct (Nat.eqb_spec c w) as [->|].
        { rewrite nth_error_app2, Hr, Nat.sub_diag by lia. reflexivity. }
        rewrite nth_error_app1 by lia. reflexivity.
    + destruct ds as [|d ds]; cbn [length] in Hf; cbn [nth length];
        [change (cellr ((r ++ [t0]) :: zip_col t0 w rs []) (S f) c) with (cellr (zip_col t0 w rs []) f c)
        |change (cellr ((r ++ [d]) :: zip_col t0 w rs ds) (S f) c) with (cellr (zip_col t0 w rs ds) f c)];
        rewrite IH by (cbn [length]; lia);
        change (cellr (r :: rs) (S f) c) with (cellr rs f c);
        (destruct (c =? w); [destruct f; reflexivity|]);
        destruct (Nat.ltb_spec f (length rs)), (Nat.ltb_spec (S f) (S (length rs))); try reflexivity; lia.
Qed.

Lemma add_channel_data_sim s m l d : Rel s m ->
  match pos eqb (names m) l with
  | Some _ => exists s', add_channel_data eqb l0 t0 s l d = (s', Throw) /\
                Rel s' (grow m (Nat.max (nfr m) (length d)) (S (nch m)) t0)
  | None => exists s', add_channel_data eqb l0 t0 s l d = (s', Ok (nch m)) /\
                Rel s' (mkM (zip_col t0 (nch m) (rows m) d) (names m ++ [Some l]))
  end.
Proof.
  intros HR. pose proof HR as (Hf & HH & HU & Hd). pose proof (Rel_nch _ _ HR) as Hc.
  set (F := Nat.max (nfr m) (length d)).
  pose proof (resize_sim s m F (nch m + 1) t0 HR) as Hr.
  destruct (Nat.ltb_spec F (nfr m)); [lia|]. destruct (Nat.ltb_spec (nch m + 1) (nch m)); [lia|].
  cbn [orb] in Hr. destruct Hr as (s1 & E1 & HR1).
  unfold add_channel_data, frame_size. rewrite Hf, Hc. fold F. rewrite E1.
  replace (S (nch m)) with (nch m + 1) by lia.
  assert (Hg : grow m F (nch m + 1) t0 = mkM (rows (grow m F (nch m + 1) t0)) (names m ++ [None])).
  { unfold grow at 1. replace (nch m + 1 - nch m) with 1 by lia. cbn [repeat]. unfold grow; cbn [rows].
    replace (nch m + 1 - nch m) with 1 by lia. reflexivity. }
  destruct (pos eqb (names m) l) as [i|] eqn:Ep.
  - unfold set_label. pose proof HR1 as (_ & HH1 & _).
    rewrite (set_present _ _ _ _ HH1); [cbn; eauto|].
    intros Hn. apply pos_None in Hn. apply Hn. rewrite Hg; cbn [names]. rewrite in_app_iff. left.
    apply pos_Some in Ep. eapply nth_error_In; eassumption.
  - rewrite Hg in HR1. destruct (set_label_last s1 m l _ HR1 Ep) as (s2 & E2 & HR2 & _). rewrite E2.
    pose proof (Rel_nch _ _ HR2) as Hc2. unfold nch in Hc2; cbn [names] in Hc2.
    rewrite app_length in Hc2; cbn [length] in Hc2. fold (nch m) in Hc2.
    rewrite Hc2. replace (nch m + 1 - 1) with (nch m) by lia.
    set (I := fun k st => exists rs, Rel st (mkM rs (names m ++ [Some l])) /\ length rs = F /\
      forall f c, f < F -> c < nch m + 1 ->
        cellr rs f c = if (c =? nch m) && (f <? k) then Some (nth f d t0)
                       else cellr (rows (grow m F (nch m + 1) t0)) f c).
    destruct (for_up_inv (fun fidx st => let* x := vget d fidx in set_unchecked st fidx (nch m) x) I (length d) s2)
      as (s3 & E3 & rs & HR3 & Hl3 & Hc3).
    + eexists; split; [exact HR2|]. split; [apply grow_length; lia|].
      intros f c Hf' Hc'. destruct (Nat.ltb_spec f 0); [lia|]. rewrite andb_false_r. reflexivity.
    + intros k st Hk (rs & HRk & Hlk & Hck).
      destruct (nth_error_ex d k Hk) as [x Hx]. unfold vget. rewrite Hx. cbn [bind].
      destruct (set_sim st _ k (nch m) x HRk) as (st' & Es & HRs').
      { unfold nfr; cbn [rows]; lia. }
      { unfold nch at 2; cbn [names]. rewrite app_length; cbn [length]. unfold nch; lia. }
      exists st'; split; [exact Es|]. rewrite put_putr in HRs'. cbn [rows names] in HRs'.
      eexists; split; [exact HRs'|]. split; [rewrite putr_length; assumption|].
      pose proof HRk as (_ & _ & HUk & _). unfold nch at 1 in HUk; cbn [names rows] in HUk.
      rewrite app_length in HUk; cbn [length] in HUk. fold (nch m) in HUk.
      intros f c Hf' Hc'. rewrite (cellr_putr (nch m + 1)) by (try assumption; lia).
      destruct (Nat.eqb_spec f k) as [->|Hne]; destruct (Nat.eqb_spec c (nch m)) as [->|Hne2]; cbn [andb].
      * destruct (Nat.ltb_spec k (S k)); [|lia]. rewrite (nth_error_nth d k t0 Hx). reflexivity.
      * rewrite Hck by assumption. destruct (Nat.eqb_spec c (nch m)); [lia|]. reflexivity.
      * rewrite Hck by assumption. rewrite Nat.eqb_refl; cbn [andb].
        destruct (Nat.ltb_spec f k), (Nat.ltb_spec f (S k)); try reflexivity; lia.
      * rewrite Hck by assumption. destruct (Nat.eqb_spec c (nch m)); [lia|]. reflexivity.
    + rewrite E3. exists s3; split; [reflexivity|].
      pose proof HR3 as (Hf3 & HH3 & HU3 & Hd3). unfold nch at 1 in HU3; cbn [names rows] in HU3.
      rewrite app_length in HU3; cbn [length] in HU3. fold (nch m) in HU3.
      cbn [rows names] in *. unfold nfr in Hf3; cbn [rows] in Hf3.
      assert (Hnn : nch (mkM (zip_col t0 (nch m) (rows m) d) (names m ++ [Some l])) = nch m + 1)
        by (unfold nch; cbn [names]; rewrite app_length; reflexivity).
      unfold Rel. rewrite Hnn. unfold nfr at 1; cbn [rows names].
      rewrite zip_col_length. fold (nfr m). fold F.
      split; [congruence|]. split; [exact HH3|].
      replace (nch m + 1) with (S (nch m)) in * by lia.
      split; [apply zip_col_uniform; assumption|].
      rewrite Hd3. apply (concat_ext (S (nch m)) F).
      * apply zip_col_uniform; assumption.
      * rewrite zip_col_length. reflexivity.
      * rewrite (concat_length_uniform _ _ HU3). lia.
      * intros f c Hf' Hc'. rewrite (nth_concat _ _ _ _ HU3) by assumption. rewrite Hc3 by assumption.
        rewrite zip_col_cell by assumption. rewrite grow_cell by (try assumption; lia).
        unfold nfr. destruct (Nat.eqb_spec c (nch m)) as [->|Hne]; cbn [andb].
        { destruct (Nat.ltb_spec f (length d)); [reflexivity|].
          destruct (Nat.ltb_spec (nch m) (nch m)); [lia|]. rewrite andb_false_r.
          rewrite nth_overflow by assumption. reflexivity. }
        destruct (Nat.ltb_spec c (nch m)); [|lia]. rewrite andb_true_r. reflexivity.
Qed.

Lemma add_frame_sim s m v : Rel s m ->
  Rel (add_frame s v) (mkM (rows m ++ [repeat v (nch m)]) (names m)).
Proof.
  intros HR. pose proof HR as (Hf & HH & HU & Hd). pose proof (Rel_nch _ _ HR) as Hc.
  unfold add_frame. rewrite Hc. unfold Rel, nfr, nch; cbn [frame_size_ labels_ data_ rows names].
  rewrite app_length; cbn [length]. fold (nch m). fold (nfr m).
  split; [lia|]. split; [exact HH|]. split.
  - apply uniform_app; split; [assumption|]. constructor; [apply repeat_length|constructor].
  - unfold vresize. rewrite firstn_all2 by lia. rewrite concat_app; cbn [concat]. rewrite app_nil_r, Hd.
    f_equal. f_equal. lia.
Qed.

Lemma add_frame_data_sim s m d : Rel s m ->
  if length d =? nch m
  then exists s', add_frame_data t0 s d = Ok s' /\ Rel s' (mkM (rows m ++ [d]) (names m))
  else add_frame_data t0 s d = Throw.
Proof.
  intros HR. pose proof HR as (Hf & HH & HU & Hd). pose proof (Rel_nch _ _ HR) as Hc.
  unfold add_frame_data. rewrite Hc. destruct (Nat.eqb_spec (length d) (nch m)); [|reflexivity].
  cbn [assert_ bind]. eexists; split; [reflexivity|].
  unfold Rel, nfr, nch; cbn [frame_size_ labels_ data_ rows names].
  rewrite app_length; cbn [length]. fold (nch m). fold (nfr m).
  split; [lia|]. split; [exact HH|]. split.
  - apply uniform_app; split; [assumption|]. constructor; [assumption|constructor].
  - rewrite vresize_length. replace (length (data_ s) + nch m - nch m) with (length (data_ s)) by lia.
    unfold vresize. rewrite (firstn_all2 (data_ s)) by lia.
    rewrite firstn_app, Nat.sub_diag, firstn_all; cbn [firstn]. rewrite app_nil_r.
    rewrite concat_app; cbn [concat]. rewrite app_nil_r, Hd. reflexivity.
Qed.

Lemma last_get_sim s m c : Rel s m ->
  if no_cells m then last_get s c = Throw
  else c < nch m -> exists x, cell m (nfr m - 1) c = Some x /\ last_get s c = Ok x.
Proof.
  intros HR. pose proof HR as (Hf & HH & HU & Hd). unfold last_get. rewrite (empty_sim _ _ HR).
  destruct (no_cells m) eqn:E; cbn [negb assert_ bind]; [reflexivity|].
  intros Hc. unfold no_cells in E. apply orb_false_iff in E as [E1 E2]. apply Nat.eqb_neq in E1, E2.
  unfold frame_size. rewrite Hf, (at_sim _ _ _ _ HR Hc).
  destruct (in_range_cell m (nfr m - 1) c HU) as [x Hx]; [apply in_range_spec; lia|].
  rewrite Hx. eauto.
Qed.

Lemma last_set_sim s m c v : Rel s m ->
  if no_cells m then last_set s c v = Throw
  else c < nch m -> exists s', last_set s c v = Ok s' /\ Rel s' (put m (nfr m - 1) c v).
Proof.
  intros HR. pose proof HR as (Hf & HH & HU & Hd). unfold last_set. rewrite (empty_sim _ _ HR).
  destruct (no_cells m) eqn:E; cbn [negb assert_ bind]; [reflexivity|].
  intros Hc. unfold no_cells in E. apply orb_false_iff in E as [E1 E2]. apply Nat.eqb_neq in E1, E2.
  unfold frame_size. rewrite Hf. apply set_sim; [assumption|lia|assumption].
Qed.

Lemma step_sim s m o m' r : Rel s m -> ideal_step eqb l0 t0 m o = Some (m', r) ->
  exists s', step eqb l0 t0 s o = Some (s', r) /\ Rel s' m'.
Proof.
  intros HR H. pose proof HR as (Hf & HH & HU & Hd). pose proof (Rel_nch _ _ HR) as Hc.
  destruct o; cbn [ideal_step step] in *.
  - pose proof (add_channel_sim s m l v HR) as Ha. unfold add_channel_i in H.
    destruct (pos eqb (names m) l); destruct Ha as (s' & E & HR'); inversion H; subst; rewrite E; cbn [fin]; eauto.
  - pose proof (add_channel_data_sim s m l d HR) as Ha.
    destruct (pos eqb (names m) l); destruct Ha as (s' & E & HR'); inversion H; subst; rewrite E; cbn [fin]; eauto.
  - inversion H; subst. unfold find_channel. rewrite (HRel_find _ _ l HH). eauto.
  - destruct (find_or_add_i eqb m l v) as [m1 i] eqn:E. inversion H; subst.
    destruct (find_or_add_sim _ _ _ _ _ _ HR E) as (s' & Es & HR' & _). rewrite Es. cbn [fin]. eauto.
  - unfold set_label. destruct (Nat.ltb_spec i (nch m)) as [Hi|Hi]; cbn [negb] in H.
    + destruct (pos eqb (names m) l) as [j|] eqn:Ep.
      { inversion H; subst. rewrite (set_present _ _ _ _ HH) by congruence. cbn. eauto. }
      destruct (nth_error (names m) i) as [[]|] eqn:En; try discriminate.
      destruct (Nat.eqb_spec (S i) (nch m)) as [Ei|]; [|discriminate]. inversion H; subst.
      destruct (HRel_set_last _ _ l i HH Ei En Ep) as (h' & E & HH'). rewrite E; cbn [bind fst snd].
      eexists; split; [reflexivity|]. unfold Rel, set_name, nfr, nch; cbn [frame_size_ labels_ data_ rows names].
      rewrite upd_length by (unfold nch in *; lia). auto.
    + inversion H; subst. unfold DataHeader.set. unfold channel_size in Hc.
      destruct (Nat.ltb_spec i (size (labels_ s))); [lia|]. cbn. eauto.
  - unfold get_label, DataHeader.get, vget. destruct HH as (Hl & H1 & H2 & H3).
    destruct (nth_error (names m) i) as [[k|]|] eqn:En; try discriminate; inversion H; subst.
    + rewrite (H1 _ _ En). cbn. eauto.
    + rewrite (H2 _ En). cbn. eauto.
  - inversion H; subst. eexists; split; [reflexivity|]. apply add_frame_sim; assumption.
  - pose proof (add_frame_data_sim s m d HR) as Ha. destruct (length d =? nch m).
    + destruct Ha as (s' & E & HR'). inversion H; subst. rewrite E; cbn; eauto.
    + inversion H; subst. rewrite Ha; cbn; eauto.
  - unfold at_, frame_size. rewrite Hf, Hc. unfold in_range in H.
    destruct ((f <? nfr m) && (c <? nch m)) eqn:E; cbn [assert_ bind].
    + apply andb_true_iff in E as [E1 E2]. apply Nat.ltb_lt in E1, E2.
      rewrite (at_sim _ _ _ _ HR E2). destruct (cell m f c); inversion H; subst; cbn; eauto.
    + inversion H; subst; cbn; eauto.
  - unfold at_set, frame_size. rewrite Hf, Hc. unfold in_range in H.
    destruct ((f <? nfr m) && (c <? nch m)) eqn:E; cbn [assert_ bind].
    + apply andb_true_iff in E as [E1 E2]. apply Nat.ltb_lt in E1, E2.
      destruct (set_sim _ _ _ _ v HR E1 E2) as (s' & Es & HR'). inversion H; subst. rewrite Es; cbn; eauto.
    + inversion H; subst; cbn; eauto.
  - destruct (in_range m f c) eqn:E; [|discriminate]. apply in_range_spec in E as [E1 E2].
    rewrite (at_sim _ _ _ _ HR E2). destruct (cell m f c); inversion H; subst; cbn; eauto.
  - destruct (in_range m f c) eqn:E; [|discriminate]. apply in_range_spec in E as [E1 E2].
    destruct (set_sim _ _ _ _ v HR E1 E2) as (s' & Es & HR'). inversion H; subst. rewrite Es; cbn; eauto.
  - pose proof (last_get_sim s m c HR) as Ha. destruct (no_cells m).
    + inversion H; subst. rewrite Ha; cbn; eauto.
    + destruct (Nat.ltb_spec c (nch m)); [|discriminate]. destruct Ha as (x & Hx & Ex); [assumption|].
      rewrite Hx in H. inversion H; subst. rewrite Ex; cbn; eauto.
  - pose proof (last_set_sim s m c v HR) as Ha. destruct (no_cells m).
    + inversion H; subst. rewrite Ha; cbn; eauto.
    + destruct (Nat.ltb_spec c (nch m)); [|discriminate]. destruct Ha as (s' & Ex & HR'); [assumption|].
      inversion H; subst. rewrite Ex; cbn; eauto.
  - destruct (find_or_add_i eqb m l t0) as [m1 i] eqn:E.
    destruct (find_or_add_sim _ _ _ _ _ _ HR E) as (s' & Es & HR' & Hi & Hn).
    unfold label_get. rewrite Es. pose proof (last_get_sim s' m1 i HR') as Ha.
    assert (Hno : no_cells m1 = (nfr m =? 0)).
    { unfold no_cells. rewrite Hn. destruct (Nat.eqb_spec (nch m1) 0); [lia|]. apply orb_false_r. }
    rewrite Hno in Ha. destruct (nfr m =? 0).
    + inversion H; subst. rewrite Ha; cbn; eauto.
    + destruct (Ha Hi) as (x & Hx & Ex). rewrite Hn in Hx. rewrite Hx in H. inversion H; subst. rewrite Ex; cbn; eauto.
  - destruct (find_or_add_i eqb m l t0) as [m1 i] eqn:E.
    destruct (find_or_add_sim _ _ _ _ _ _ HR E) as (s' & Es & HR' & Hi & Hn).
    unfold label_set. rewrite Es. pose proof (last_set_sim s' m1 i v HR') as Ha.
    assert (Hno : no_cells m1 = (nfr m =? 0)).
    { unfold no_cells. rewrite Hn. destruct (Nat.eqb_spec (nch m1) 0); [lia|]. apply orb_false_r. }
    rewrite Hno in Ha. destruct (nfr m =? 0).
    + inversion H; subst. rewrite Ha; cbn; eauto.
    + destruct (Ha Hi) as (s'' & Ex & HR''). rewrite Hn in HR''. inversion H; subst. rewrite Ex; cbn; eauto.
  - pose proof (resize_sim s m f c v HR) as Ha. destruct ((f <? nfr m) || (c <? nch m)).
    + inversion H; subst. rewrite Ha; cbn; eauto.
    + destruct Ha as (s' & E & HR'). inversion H; subst. rewrite E; cbn; eauto.
  - inversion H; subst. eexists; split; [reflexivity|]. unfold clear, DataHeader.clear, Rel; cbn.
    split; [reflexivity|]. split; [apply HRel_nil|]. split; [constructor|reflexivity].
  - inversion H; subst. unfold frame_size. rewrite Hf. eauto.
  - inversion H; subst. rewrite Hc. eauto.
  - inversion H; subst. rewrite (empty_sim _ _ HR). eauto.
Qed.

(* a fresh storage: nf frames, nc unnamed channels, filled with v *)
Lemma create_rel nf nc v : Rel (create l0 nf nc v) (mkM (repeat (repeat v nc) nf) (repeat None nc)).
Proof.
  assert (Hn : nch (@mkM T L (repeat (repeat v nc) nf) (repeat None nc)) = nc) by apply repeat_length.
  unfold Rel. rewrite Hn. unfold nfr; cbn [rows names]. rewrite repeat_length.
  split; [reflexivity|]. split; [|split].
  - unfold HRel, create, DataHeader.create, DataHeader.find; cbn [labels_ DataHeader.labels_ label_indices_ lookup].
    rewrite !repeat_length. split; [reflexivity|]. split; [|split].
    + intros i l Hi. apply nth_error_In, repeat_spec in Hi. discriminate.
    + intros i Hi. pose proof (nth_error_Some_lt _ _ _ Hi) as Hlt. rewrite repeat_length in Hlt.
      apply nth_error_repeat_lt; assumption.
    + intros l i. split; [discriminate|]. intros Hi. apply nth_error_In, repeat_spec in Hi. discriminate.
  - apply uniform_repeat, repeat_length.
  - unfold create; cbn [data_]. rewrite Nat.mul_comm. clear Hn. induction nf as [|k IH]; [reflexivity|].
    cbn [repeat concat Nat.mul]. rewrite <- IH. apply repeat_app.
Qed.

Lemma storage_refines nf nc v ops m rs :
  exec (ideal_step eqb l0 t0) (mkM (repeat (repeat v nc) nf) (repeat None nc)) ops = Some (m, rs) ->
  exists s, exec (step eqb l0 t0) (create l0 nf nc v) ops = Some (s, rs) /\
    Rel s m.
Proof.
  apply exec_sim with (Rel := Rel); [intros; eapply step_sim; eassumption|]. apply create_rel.
Qed.

(* C08, for every storage whose vector has the size of its shape *)
Lemma chunks w n (d : list T) : length d = n * w ->
  exists rs, uniform w rs /\ length rs = n /\ d = concat rs.
Proof.
  revert d; induction n as [|n IH]; intros d H; cbn [Nat.mul] in H.
  - exists []. destruct d; [|discriminate]. repeat split. constructor.
  - destruct (IH (skipn w d)) as (rs & HU & Hl & E); [rewrite skipn_length; lia|].
    exists (firstn w d :: rs). split; [constructor; [rewrite firstn_length; lia|assumption]|].
    split; [cbn; lia|]. cbn [concat]. rewrite <- E. symmetry. apply firstn_skipn.
Qed.

Lemma resize_cells s f c v : length (data_ s) = frame_size s * channel_size s ->
  (resize l0 s f c v = Throw <-> f < frame_size s \/ c < channel_size s) /\
  (frame_size s <= f -> channel_size s <= c ->
   exists s', resize l0 s f c v = Ok s' /\ frame_size s' = f /\ channel_size s' = c /\
     length (data_ s') = f * c /\
     (forall i j, i < f -> j < c ->
        at_unchecked s' i j =
        if (i <? frame_size s) && (j <? channel_size s) then at_unchecked s i j else Ok v) /\
     (forall i, i < channel_size s -> get_label s' i = get_label s i) /\
     (forall l, find_channel eqb s' l = find_channel eqb s l)).
Proof.
  intros Hlen.
  assert (HC : frame_size s <= f -> channel_size s <= c ->
   exists s', resize l0 s f c v = Ok s' /\ frame_size s' = f /\ channel_size s' = c /\
     length (data_ s') = f * c /\
     (forall i j, i < f -> j < c ->
        at_unchecked s' i j =
        if (i <? frame_size s) && (j <? channel_size s) then at_unchecked s i j else Ok v) /\
     (forall i, i < channel_size s -> get_label s' i = get_label s i) /\
     (forall l, find_channel eqb s' l = find_channel eqb s l)).
  { intros H1 H2. destruct (chunks _ _ _ Hlen) as (rs & HU & Hn & Hd).
    assert (Hold : forall i j, i < frame_size s -> j < channel_size s ->
              at_unchecked s i j = match cellr rs i j with Some x => Ok x | None => UB end).
    { intros i j Hi Hj. unfold at_unchecked, vget. rewrite Hd, (nth_concat _ _ _ _ HU Hj). reflexivity. }
    unfold resize. destruct (Nat.ltb_spec f (frame_size s)); [lia|].
    destruct (Nat.ltb_spec c (channel_size s)); [lia|]. cbn [orb].
    assert (Hone : forall i j, i < f -> j < c -> (channel_size s = c \/ frame_size s <= 1) ->
        nth_error (vresize (data_ s) (f * c) v) (i * c + j) =
        if (i <? frame_size s) && (j <? channel_size s) then cellr rs i j else Some v).
    { intros i j Hi Hj Hor. rewrite nth_error_vresize.
      pose proof (idx_bound c f i j Hi Hj).
      destruct (Nat.ltb_spec (i * c + j) (f * c)); [|lia]. rewrite Hlen.
      destruct (Nat.ltb_spec i (frame_size s)) as [Hi'|Hi']; cbn [andb].
      - destruct (Nat.ltb_spec j (channel_size s)) as [Hj'|Hj'].
        + destruct (Nat.ltb_spec (i * c + j) (frame_size s * channel_size s)); [|nia].
          replace (i * c + j) with (i * channel_size s + j) by (destruct Hor; [nia|]; replace i with 0 by lia; lia).
          rewrite Hd. apply nth_concat; assumption.
        + destruct (Nat.ltb_spec (i * c + j) (frame_size s * channel_size s)); [nia|reflexivity].
      - destruct (Nat.ltb_spec (i * c + j) (frame_size s * channel_size s)); [nia|reflexivity]. }
    destruct (Nat.ltb_spec (channel_size s) c) as [H3|H3].
    - assert (Hdata : exists nd,
        (if 1 <? frame_size s
         then for_up (frame_size s) (fun fi nd => for_up (channel_size s) (fun ci nd =>
            let* x := vget (data_ s) (channel_size s * fi + ci) in vset nd (c * fi + ci) x) nd) (repeat v (c * f))
         else Ok (vresize (data_ s) (f * c) v)) = Ok nd /\ length nd = f * c /\
         forall i j, i < f -> j < c -> nth_error nd (i * c + j) =
           if (i <? frame_size s) && (j <? channel_size s) then cellr rs i j else Some v).
      { destruct (Nat.ltb_spec 1 (frame_size s)) as [H4|H4].
        - destruct (resize_loop (data_ s) rs (channel_size s) (frame_size s) c f v) as (nd & E & Hl & Hcell);
            try assumption. exists nd; split; [exact E|]. split; [lia|]. exact Hcell.
        - eexists; split; [reflexivity|]. split; [apply vresize_length|].
          intros i j Hi Hj. apply Hone; [assumption..|]. right; lia. }
      destruct Hdata as (nd & End & Hnl & Hnd). rewrite End. cbn [bind].
      unfold DataHeader.resize, assert_. fold (channel_size s).
      destruct (Nat.leb_spec (channel_size s) c); [|lia]. cbn [bind].
      eexists; split; [reflexivity|]. unfold channel_size at 1, size, frame_size at 1, get_label, DataHeader.get, find_channel, DataHeader.find.
      cbn [frame_size_ labels_ data_ DataHeader.labels_ label_indices_].
      rewrite vresize_length. split; [reflexivity|]. split; [reflexivity|]. split; [exact Hnl|].
      split; [|split; [|reflexivity]].
      + intros i j Hi Hj. unfold at_unchecked at 1, vget, channel_size at 1, size; cbn [data_ labels_ DataHeader.labels_].
        rewrite vresize_length, Hnd by assumption.
        destruct (Nat.ltb_spec i (frame_size s)), (Nat.ltb_spec j (channel_size s)); cbn [andb]; try reflexivity.
        symmetry; apply Hold; assumption.
      + intros i Hi. unfold vget. rewrite nth_error_vresize. unfold channel_size, size in *.
        destruct (Nat.ltb_spec i c); [|lia]. destruct (Nat.ltb_spec i (length (DataHeader.labels_ (labels_ s)))); [reflexivity|lia].
    - assert (Hcc : channel_size s = c) by lia.
      eexists; split; [reflexivity|]. cbn [frame_size_ data_].
      split; [reflexivity|]. split; [exact Hcc|]. split; [apply vresize_length|].
      split; [|split; [reflexivity|reflexivity]].
      intros i j Hi Hj. unfold at_unchecked at 1, vget.
      change (channel_size (mkS f (labels_ s) (vresize (data_ s) (f * c) v))) with (channel_size s).
      cbn [data_]. rewrite Hcc. rewrite Hone by (try assumption; left; assumption).
      rewrite Hcc. destruct (Nat.ltb_spec i (frame_size s)), (Nat.ltb_spec j c); cbn [andb]; try reflexivity.
      symmetry; apply Hold; lia. }
  split; [|exact HC].
  split.
  - intros E. destruct (Nat.lt_ge_cases f (frame_size s)) as [|G1]; [auto|].
    destruct (Nat.lt_ge_cases c (channel_size s)) as [|G2]; [auto|].
    destruct (HC G1 G2) as (s' & E' & _). congruence.
  - intros Hor. unfold resize.
    destruct (Nat.ltb_spec f (frame_size s)), (Nat.ltb_spec c (channel_size s)); cbn [orb]; try reflexivity; lia.
Qed.

(* the storage vector always has the size of its shape, whatever is called *)
Definition rect s : Prop := length (data_ s) = frame_size s * channel_size s.

Lemma Rel_rect s m : Rel s m -> rect s.
Proof.
  intros HR. pose proof HR as (Hf & _ & HU & Hd). unfold rect, frame_size.
  rewrite Hf, (Rel_nch _ _ HR), Hd. apply concat_length_uniform; assumption.
Qed.

(* C07 *)
Lemma HRel_add h ns l : HRel h ns ->
  match pos eqb ns l with
  | Some _ => DataHeader.add eqb h l = Throw
  | None => exists h', DataHeader.add eqb h l = Ok (h', length ns) /\ HRel h' (ns ++ [Some l])
  end.
Proof.
  intros HR. pose proof HR as (Hl & H1 & H2 & H3). unfold DataHeader.add.
  rewrite (HRel_absent h ns l HR). destruct (pos eqb ns l) as [i|] eqn:E; [reflexivity|].
  cbn [assert_ bind]. rewrite app_length; cbn [length].
  replace (length (DataHeader.labels_ h) + 1 - 1) with (length ns) by lia.
  eexists; split; [reflexivity|]. unfold HRel, DataHeader.find; cbn [DataHeader.labels_ label_indices_ lookup].
  rewrite !app_length; cbn [length]. split; [lia|]. split; [|split].
  - intros i k Hi. destruct (Nat.lt_ge_cases i (length ns)).
    + rewrite nth_error_app1 in Hi by assumption. rewrite nth_error_app1 by lia. auto.
    + rewrite nth_error_app2 in Hi by assumption. rewrite nth_error_app2 by lia. rewrite Hl.
      destruct (i - length ns) as [|[|]]; cbn in *; congruence.
  - intros i Hi. destruct (Nat.lt_ge_cases i (length ns)).
    + rewrite nth_error_app1 in Hi by assumption. rewrite nth_error_app1 by lia. auto.
    + rewrite nth_error_app2 in Hi by assumption.
      destruct (i - length ns) as [|[|]]; cbn in *; congruence.
  - intros k i. specialize (H3 k i). unfold DataHeader.find in H3.
    destruct (eqb l k) eqn:Ek.
    + apply eqb_eq in Ek; subst k. split.
      * intros Hi. assert (i = length ns) by congruence; subst i.
        rewrite nth_error_app2, Nat.sub_diag by lia. reflexivity.
      * intros Hi. destruct (Nat.lt_ge_cases i (length ns)).
        { rewrite nth_error_app1 in Hi by assumption. exfalso. apply pos_None in E. apply E.
          eapply nth_error_In; eassumption. }
        pose proof (nth_error_Some_lt _ _ _ Hi) as Hlt. rewrite app_length in Hlt; cbn [length] in Hlt. f_equal; lia.
    + rewrite H3. split.
      * intros Hi. rewrite nth_error_app1; [assumption|]. eapply nth_error_Some_lt; eassumption.
      * intros Hi. destruct (Nat.lt_ge_cases i (length ns)).
        { rewrite nth_error_app1 in Hi by assumption. assumption. }
        rewrite nth_error_app2 in Hi by assumption. destruct (i - length ns) as [|[|]]; cbn in Hi; try discriminate.
        inversion Hi; subst. rewrite eqb_refl in Ek; discriminate.
Qed.

Lemma hstep_sim h ns o ns' r : HRel h ns -> ideal_hstep eqb l0 ns o = Some (ns', r) ->
  exists h', hstep eqb l0 h o = Some (h', r) /\ HRel h' ns'.
Proof.
  intros HR H. destruct o; cbn [ideal_hstep hstep] in *.
  - pose proof (HRel_add h ns l HR) as Ha. destruct (pos eqb ns l).
    + inversion H; subst. rewrite Ha. eauto.
    + destruct Ha as (h' & E & HR'). inversion H; subst. rewrite E. eauto.
  - destruct (Nat.ltb_spec n (length ns)) as [Hn|Hn]; inversion H; subst.
    + unfold DataHeader.resize, assert_, size. destruct HR as (Hl & HR). rewrite Hl.
      destruct (Nat.leb_spec (length ns') n); [lia|]. cbn. exists h. split; [reflexivity|]. split; assumption.
    + destruct (HRel_resize _ _ n HR Hn) as (h' & E & HR'). rewrite E. eauto.
  - destruct (Nat.ltb_spec i (length ns)) as [Hi|Hi]; cbn [negb] in H.
    + destruct (pos eqb ns l) eqn:Ep.
      { inversion H; subst. rewrite (set_present _ _ _ _ HR) by congruence. eauto. }
      destruct (nth_error ns i) as [[]|] eqn:En; try discriminate.
      destruct (Nat.eqb_spec (S i) (length ns)); [|discriminate]. inversion H; subst.
      destruct (HRel_set_last _ _ l i HR) as (h' & E & HR'); try assumption. rewrite E. eauto.
    + inversion H; subst. unfold DataHeader.set, size. pose proof HR as (Hl & _). rewrite Hl.
      destruct (Nat.ltb_spec i (length ns')); [lia|]. cbn. eauto.
  - inversion H; subst. rewrite (HRel_find _ _ l HR). eauto.
  - unfold DataHeader.get, vget. pose proof HR as (Hl & H1 & H2 & H3).
    destruct (nth_error ns i) as [[k|]|] eqn:En; try discriminate; inversion H; subst.
    + rewrite (H1 _ _ En). eauto.
    + rewrite (H2 _ En). eauto.
  - inversion H; subst. unfold size. pose proof HR as (Hl & _). rewrite Hl. eauto.
  - inversion H; subst. eexists; split; [reflexivity|]. apply HRel_nil.
Qed.

Lemma header_refines n ops ns rs :
  exec (ideal_hstep eqb l0) (repeat None n) ops = Some (ns, rs) ->
  exists h, exec (hstep eqb l0) (DataHeader.create l0 n) ops = Some (h, rs) /\
    (forall l i, DataHeader.find eqb h l = Some i <-> nth_error ns i = Some (Some l)) /\
    (forall l i, DataHeader.find eqb h l = Some i -> DataHeader.get h i = Ok l).
Proof.
  intros H. destruct (exec_sim _ _ HRel hstep_sim ops (DataHeader.create l0 n) (repeat None n) ns rs) as (h & E & HR).
  - apply (create_rel 0 n t0).
  - exact H.
  - exists h; split; [exact E|]. destruct HR as (Hl & H1 & H2 & H3). split; [exact H3|].
    intros l i Hi. apply H3, H1 in Hi. unfold DataHeader.get, vget. rewrite Hi. reflexivity.
Qed.

Lemma header_set_law h i l : i < size h -> DataHeader.find eqb h l = None ->
  exists h', DataHeader.set eqb h i l = Ok (h', i) /\ DataHeader.get h' i = Ok l /\
    DataHeader.find eqb h' l = Some (size h - 1) /\
    (forall j, j <> i -> DataHeader.get h' j = DataHeader.get h j) /\
    (forall l', l' <> l -> DataHeader.find eqb h' l' = DataHeader.find eqb h l').
Proof.
  intros Hi Hf. unfold DataHeader.set, absent. rewrite Hf. apply Nat.ltb_lt in Hi as Hi'. rewrite Hi'.
  cbn [andb assert_ bind]. rewrite vset_ok by assumption. cbn [bind]. eexists; split; [reflexivity|].
  unfold DataHeader.get, DataHeader.find, vget, size in *; cbn [DataHeader.labels_ label_indices_ lookup].
  rewrite upd_length by assumption. rewrite eqb_refl.
  split; [rewrite nth_error_upd, Nat.eqb_refl by assumption; reflexivity|]. split; [reflexivity|]. split.
  - intros j Hj. rewrite nth_error_upd by assumption. destruct (Nat.eqb_spec j i); [contradiction|reflexivity].
  - intros l' Hl. destruct (eqb l l') eqn:E; [apply eqb_eq in E; subst; contradiction|reflexivity].
Qed.

Lemma header_set_throws h i l : DataHeader.set eqb h i l = Throw <->
  (size h <= i \/ DataHeader.find eqb h l <> None).
Proof.
  destruct (Nat.lt_ge_cases i (size h)) as [Hi|Hi].
  - destruct (DataHeader.find eqb h l) eqn:E.
    + split; [right; discriminate|]. intros _. unfold DataHeader.set, absent. rewrite E, andb_false_r. reflexivity.
    + destruct (header_set_law h i l Hi E) as (h' & E' & _). rewrite E'. split; [discriminate|]. intros [|X]; [lia|congruence].
  - split; [auto|]. intros _. unfold DataHeader.set. destruct (Nat.ltb_spec i (size h)); [lia|]. reflexivity.
Qed.

Lemma resize_labels s f c v s' : resize l0 s f c v = Ok s' ->
  forall i, channel_size s <= i -> i < c -> get_label s' i = Ok l0.
Proof.
  intros E i H1 H2. unfold resize in E.
  destruct ((f <? frame_size s) || (c <? channel_size s)); [discriminate|].
  destruct (Nat.ltb_spec (channel_size s) c); [|lia].
  destruct (if 1 <? frame_size s then _ else _) as [nd| | |]; try discriminate. cbn [bind] in E.
  unfold DataHeader.resize, assert_ in E. destruct (size (labels_ s) <=? c); [|discriminate]. cbn [bind] in E.
  inversion E; subst. unfold get_label, DataHeader.get, vget; cbn [labels_ DataHeader.labels_].
  rewrite nth_error_vresize. destruct (Nat.ltb_spec i c); [|lia]. unfold channel_size, size in *.
  destruct (Nat.ltb_spec i (length (DataHeader.labels_ (labels_ s)))); [lia|reflexivity].
Qed.

Lemma add_channel_duplicate s l v j : rect s -> find_channel eqb s l = Some j ->
  exists s', add_channel eqb l0 s l v = (s', Throw) /\ rect s' /\
    frame_size s' = frame_size s /\ channel_size s' = S (channel_size s) /\
    (forall f c, f < frame_size s -> c < channel_size s -> at_unchecked s' f c = at_unchecked s f c) /\
    (forall f, f < frame_size s -> at_unchecked s' f (channel_size s) = Ok v) /\
    (forall c, c < channel_size s -> get_label s' c = get_label s c) /\
    get_label s' (channel_size s) = Ok l0 /\
    (forall l', find_channel eqb s' l' = find_channel eqb s l').
Proof.
  intros Hr Hf.
  destruct (resize_cells s (frame_size s) (channel_size s + 1) v Hr) as (_ & HC).
  destruct (HC ltac:(lia) ltac:(lia)) as (s' & E & Hfs & Hcs & Hlen & Hcell & Hlab & Hfind).
  exists s'. unfold add_channel. rewrite E.
  assert (Es : set_label eqb s' (channel_size s' - 1) l = Throw).
  { unfold set_label, DataHeader.set, absent.
    replace (DataHeader.find eqb (labels_ s') l) with (Some j)
      by (symmetry; fold (find_channel eqb s' l); rewrite Hfind; exact Hf).
    rewrite andb_false_r. reflexivity. }
  rewrite Es. split; [reflexivity|].
  split; [unfold rect; rewrite Hlen, Hfs, Hcs; reflexivity|].
  split; [exact Hfs|]. split; [lia|]. split; [|split; [|split; [exact Hlab|split; [|exact Hfind]]]].
  - intros f c H1 H2. rewrite Hcell by lia. apply Nat.ltb_lt in H1, H2. rewrite H1, H2. reflexivity.
  - intros f H1. rewrite Hcell by lia. destruct (Nat.ltb_spec (channel_size s) (channel_size s)); [lia|].
    rewrite andb_false_r. reflexivity.
  - eapply resize_labels; [exact E|lia|lia].
Qed.

Lemma storage_refines' nf nc v ops m rs :
  exec (ideal_step eqb l0 t0) (mkM (repeat (repeat v nc) nf) (repeat None nc)) ops = Some (m, rs) ->
  exists s, exec (step eqb l0 t0) (create l0 nf nc v) ops = Some (s, rs) /\
    frame_size s = nfr m /\ channel_size s = nch m /\
    length (data_ s) = frame_size s * channel_size s /\
    Forall (fun r => length r = nch m) (rows m) /\
    (forall f c, f < nfr m -> c < nch m -> exists x, cell m f c = Some x /\ at_ s f c = Ok x).
Proof.
  intros H. destruct (storage_refines nf nc v ops m rs H) as (s & E & HR). exists s.
  pose proof HR as (Hf & HH & HU & Hd). pose proof (Rel_nch _ _ HR) as Hc.
  split; [exact E|]. split; [exact Hf|]. split; [exact Hc|]. split; [apply (Rel_rect _ _ HR)|].
  split; [exact HU|]. intros f c H1 H2.
  destruct (in_range_cell m f c HU) as [x Hx]; [apply in_range_spec; auto|].
  exists x; split; [exact Hx|]. unfold at_, frame_size. rewrite Hf, Hc.
  apply Nat.ltb_lt in H1 as H1'. apply Nat.ltb_lt in H2 as H2'. rewrite H1', H2'; cbn [andb assert_ bind].
  rewrite (at_sim _ _ _ _ HR H2), Hx. reflexivity.
Qed.
End P.
