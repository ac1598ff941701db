From Coq Require Import ZArith.
From Verif Require Import Model.Base Proofs.BaseFacts Proofs.MatrixFacts.
From Verif Require Import Model.DataHeader Model.FrameBuffer Spec.Storage Spec.FrameBuffer Proofs.StorageProofs.

Lemma mod_window a b n : n <> 0 -> a mod n = b mod n -> a < b + n -> b < a + n -> a = b.
Proof.
  intros Hn E H1 H2. pose proof (Nat.div_mod a n Hn). pose proof (Nat.div_mod b n Hn).
  assert (a / n = b / n) by nia. nia.
Qed.

Section P.
Context {T L : Type} (eqb : L -> L -> bool) (l0 : L) (t0 : T).
Context (eqb_eq : forall a b, eqb a b = true <-> a = b).
Implicit Types (b : buffer T L) (h : history T L).

Definition Rel b h : Prop :=
  HRel eqb l0 (labels_ b) (chans h) /\
  frame_size_ b = nframes h /\ frame_buf_size_ b = ring h /\
  length (data_ b) = ring h * length (chans h) /\
  fits (nframes h) = true /\ fits (ring h) = true /\
  (forall f c, live h f = true -> c < length (chans h) ->
     nth_error (data_ b) (f mod ring h * length (chans h) + c) = Some (val h f c)) /\
  (forall f c, nframes h <= f -> f < ring h -> c < length (chans h) ->
     nth_error (data_ b) (f * length (chans h) + c) = Some (fill h)).

Lemma rel_ch b h : Rel b h -> channel_size b = length (chans h).
Proof. intros ((H & _) & _). exact H. Qed.

Lemma live_spec h f : live h f = true <-> f < nframes h /\ nframes h <= f + ring h.
Proof. unfold live. rewrite andb_true_iff, Nat.ltb_lt, Nat.leb_le. reflexivity. Qed.

Lemma fits_spec n : fits n = true <-> (Z.of_nat n < 2 ^ 64)%Z.
Proof. apply Z.ltb_lt. Qed.

Lemma slot_index b h f c : Rel b h -> live h f = true ->
  index b (Z.of_nat f) c = Ok (f mod ring h * length (chans h) + c).
Proof.
  intros HR Hl. pose proof HR as (_ & _ & Hb & _). apply live_spec in Hl.
  unfold index. rewrite Hb, (rel_ch _ _ HR). destruct (Nat.eqb_spec (ring h) 0); [lia|].
  rewrite <- Nat2Z.inj_mod, Nat2Z.id. reflexivity.
Qed.

Lemma slot_sim b h f c : Rel b h -> live h f = true -> c < length (chans h) ->
  slot b (Z.of_nat f) c = Ok (val h f c).
Proof.
  intros HR Hl Hc. unfold slot. rewrite (slot_index _ _ _ _ HR Hl). cbn [bind]. unfold vget.
  destruct HR as (_ & _ & _ & _ & _ & _ & Hv & _). rewrite Hv by assumption. reflexivity.
Qed.

Lemma slot_set_sim b h f c v : Rel b h -> live h f = true -> c < length (chans h) ->
  exists b', slot_set b (Z.of_nat f) c v = Ok b' /\ Rel b' (put h f c v).
Proof.
  intros HR Hl Hc. unfold slot_set. rewrite (slot_index _ _ _ _ HR Hl). cbn [bind].
  destruct HR as (HH & Hf & Hb & Hlen & F1 & F2 & Hv & Hd). apply live_spec in Hl as Hl'.
  pose proof (Nat.mod_upper_bound f (ring h) ltac:(lia)) as Hm.
  assert (Hlt : f mod ring h * length (chans h) + c < length (data_ b)) by (rewrite Hlen; apply idx_bound; assumption).
  rewrite vset_ok by assumption. cbn [bind]. eexists; split; [reflexivity|].
  unfold Rel, put; cbn [labels_ data_ frame_buf_size_ frame_size_ chans nframes ring fill val].
  repeat (split; [first [assumption | rewrite upd_length; assumption]|]).
  split.
  - intros f' c' Hl2 Hc'. assert (Hl3 : live h f' = true) by exact Hl2. apply live_spec in Hl3.
    pose proof (Nat.mod_upper_bound f' (ring h) ltac:(lia)) as Hm'.
    rewrite nth_error_upd by assumption.
    destruct (Nat.eqb_spec (f' mod ring h * length (chans h) + c') (f mod ring h * length (chans h) + c)) as [E|E].
    + apply idx_inj in E; [|assumption..]. destruct E as [E ->].
      apply mod_window in E; [|lia..]. subst f'. rewrite !Nat.eqb_refl. reflexivity.
    + rewrite Hv by assumption.
      destruct (Nat.eqb_spec f' f) as [->|]; cbn [andb]; [|reflexivity].
      destruct (Nat.eqb_spec c' c) as [->|]; [contradiction|reflexivity].
  - intros f' c' H1 H2 Hc'. rewrite nth_error_upd by assumption.
    destruct (Nat.eqb_spec (f' * length (chans h) + c') (f mod ring h * length (chans h) + c)) as [E|E].
    + apply idx_inj in E; [|assumption..]. destruct E as [E _]. rewrite Nat.mod_small in E by lia. lia.
    + apply Hd; assumption.
Qed.

Lemma push_sim b h : Rel b h -> fits (S (nframes h)) = true -> Rel (fst (add_frame b)) (push_frame h).
Proof.
  intros (HH & Hf & Hb & Hlen & F1 & F2 & Hv & Hd) HF.
  unfold Rel, push_frame, add_frame; cbn [fst labels_ data_ frame_buf_size_ frame_size_ chans nframes ring fill val].
  repeat (split; [first [assumption | congruence]|]). split.
  - intros f c Hl Hc. apply live_spec in Hl; cbn [nframes ring] in Hl.
    destruct (Nat.eqb_spec f (nframes h)) as [->|Hne].
    + destruct (Nat.ltb_spec (nframes h) (ring h)) as [Hr|Hr].
      * rewrite Nat.mod_small by assumption. apply Hd; lia.
      * replace (nframes h mod ring h) with ((nframes h - ring h) mod ring h).
        { apply Hv; [apply live_spec; lia|assumption]. }
        replace (nframes h) with (nframes h - ring h + 1 * ring h) at 2 by lia. symmetry. apply Nat.mod_add. lia.
    + apply Hv; [apply live_spec; lia|assumption].
  - intros f c H1 H2 Hc. apply Hd; lia.
Qed.

Lemma reset_rel (lab : header L) h n cs v : HRel eqb l0 lab cs -> fits (nframes h) = true -> fits n = true ->
  Rel (mkB lab (repeat v (n * length cs)) n (nframes h)) (reset h n cs v).
Proof.
  intros HH F1 F2. unfold Rel, reset; cbn [labels_ data_ frame_buf_size_ frame_size_ chans nframes ring fill val].
  rewrite repeat_length. repeat (split; [assumption || reflexivity|]). split.
  - intros f c Hl Hc. apply live_spec in Hl; cbn [nframes ring] in Hl.
    apply nth_error_repeat_lt. apply idx_bound; [apply Nat.mod_upper_bound; lia|assumption].
  - intros f c H1 H2 Hc. apply nth_error_repeat_lt. apply idx_bound; assumption.
Qed.

Lemma add_channel_sim b h l : Rel b h ->
  match pos eqb (chans h) l with
  | Some _ => exists b', add_channel eqb l0 t0 b l = (b', Throw) /\ Rel b' (reset h (nframes h) (chans h ++ [None]) t0)
  | None => exists b', add_channel eqb l0 t0 b l = (b', Ok (length (chans h))) /\
              Rel b' (reset h (nframes h) (chans h ++ [Some l]) t0)
  end.
Proof.
  intros HR. pose proof HR as (HH & Hf & Hb & Hlen & F1 & F2 & Hv & Hd).
  unfold add_channel, resize_buffer, frame_size. rewrite Hf, (rel_ch _ _ HR). cbn [labels_].
  destruct (HRel_resize eqb l0 _ _ (length (chans h) + 1) HH) as (h1 & E1 & HH1); [lia|]. rewrite E1.
  replace (length (chans h) + 1 - length (chans h)) with 1 in HH1 by lia. cbn [repeat] in HH1.
  assert (Hsz : size h1 = length (chans h) + 1) by (destruct HH1 as (X & _); rewrite app_length in X; exact X).
  unfold channel_size; cbn [labels_ data_]. rewrite Hsz.
  replace (length (chans h) + 1 - 1) with (length (chans h)) by lia. cbn [labels_].
  assert (Lc : forall o, length (chans h) + 1 = length (chans h ++ [o])) by (intros; rewrite app_length; reflexivity).
  destruct (pos eqb (chans h) l) as [i|] eqn:Ep.
  - rewrite (set_present eqb l0 eqb_eq _ _ l _ HH1).
    + eexists; split; [reflexivity|]. rewrite (Lc None). apply reset_rel; assumption.
    + intros Hn. apply (pos_None eqb eqb_eq) in Hn. apply Hn. rewrite in_app_iff. left.
      apply (pos_Some eqb eqb_eq) in Ep. eapply nth_error_In; eassumption.
  - destruct (HRel_set_last eqb l0 eqb_eq _ _ l (length (chans h)) HH1) as (h' & E & Hh).
    + rewrite app_length; cbn; lia.
    + rewrite nth_error_app2, Nat.sub_diag by lia. reflexivity.
    + apply (pos_None eqb eqb_eq). apply (pos_None eqb eqb_eq) in Ep. rewrite in_app_iff; cbn. intros [X|[X|[]]]; [tauto|discriminate].
    + rewrite E. eexists; split; [reflexivity|]. cbn [data_ frame_buf_size_ frame_size_].
      rewrite firstn_app, Nat.sub_diag, firstn_all in Hh; cbn [firstn] in Hh.
      rewrite skipn_all2 in Hh by (rewrite app_length; cbn; lia). rewrite app_nil_r in Hh.
      rewrite (Lc (Some l)). apply reset_rel; assumption.
Qed.

Lemma back_sim b h k : Rel b h -> k < nframes h -> back_index b k = Z.of_nat (nframes h - 1 - k).
Proof.
  intros (_ & Hf & _ & _ & F1 & _) Hk. unfold back_index, wrap64. rewrite Hf. apply fits_spec in F1.
  rewrite Z.mod_small by lia. lia.
Qed.

Lemma at_check_sim b h f c : Rel b h ->
  at_check b f c = (ring h <=? nframes h) && (live h f && has_chan h c).
Proof.
  intros HR. pose proof HR as (_ & Hf & Hb & _ & F1 & F2 & _). unfold at_check, frame_size, has_chan, live, sub64, wrap64.
  rewrite Hf, Hb, (rel_ch _ _ HR). apply fits_spec in F1, F2.
  destruct (Nat.leb_spec (ring h) (nframes h)) as [H|H]; cbn [andb].
  - rewrite Z.mod_small by lia.
    destruct (Z.leb_spec (Z.of_nat (nframes h) - Z.of_nat (ring h)) (Z.of_nat f)), (Nat.leb_spec (nframes h) (f + ring h)); try lia; cbn [andb];
      rewrite ?andb_true_r, ?andb_false_r; reflexivity.
  - replace ((Z.of_nat (nframes h) - Z.of_nat (ring h)) mod 2 ^ 64)%Z
      with (2 ^ 64 - (Z.of_nat (ring h) - Z.of_nat (nframes h)))%Z.
    + destruct (Nat.ltb_spec f (nframes h)); [|rewrite !andb_false_r; reflexivity].
      destruct (Z.leb_spec (2 ^ 64 - (Z.of_nat (ring h) - Z.of_nat (nframes h))) (Z.of_nat f)); [lia|reflexivity].
    + apply (Z.mod_unique _ _ (-1)); lia.
Qed.

Lemma step_sim b h o h' r : Rel b h -> ideal_step eqb t0 h o = Some (h', r) ->
  exists b', step eqb l0 t0 b o = Some (b', r) /\ Rel b' h'.
Proof.
  intros HR H. pose proof HR as (HH & Hf & Hb & Hlen & F1 & F2 & Hv & Hd).
  assert (Hrd : forall f c, rd_i h (live h f && has_chan h c) f c = Some (h', r) ->
            exists b', rd b (slot b (Z.of_nat f) c) = Some (b', r) /\ Rel b' h').
  { intros f c E. unfold rd_i in E. destruct (live h f) eqn:E1; [|discriminate]. destruct (has_chan h c) eqn:E2; [|discriminate].
    cbn [andb] in E. inversion E; subst. apply Nat.ltb_lt in E2. rewrite (slot_sim _ _ _ _ HR E1 E2). cbn. eauto. }
  assert (Hwr : forall f c v, wr_i h (live h f && has_chan h c) f c v = Some (h', r) ->
            exists b', wr b (slot_set b (Z.of_nat f) c v) = Some (b', r) /\ Rel b' h').
  { intros f c v E. unfold wr_i in E. destruct (live h f) eqn:E1; [|discriminate]. destruct (has_chan h c) eqn:E2; [|discriminate].
    cbn [andb] in E. inversion E; subst. apply Nat.ltb_lt in E2.
    destruct (slot_set_sim _ _ _ _ v HR E1 E2) as (b' & Eb & HR'). rewrite Eb. cbn. eauto. }
  assert (Hlast : 0 < nframes h -> wrap64 (Z.of_nat (frame_size_ b) - 1) = Z.of_nat (nframes h - 1)).
  { intros Hn. pose proof (back_sim b h 0 HR Hn) as X. unfold back_index in X. cbn [Z.of_nat] in X.
    rewrite Z.sub_0_r in X. rewrite X. f_equal; lia. }
  destruct o; cbn [ideal_step step] in *.
  - destruct (fits (S (nframes h))) eqn:E; [|discriminate]. inversion H; subst.
    pose proof (push_sim b h HR E) as HP. unfold add_frame in *. cbn [fst] in HP. rewrite Hf in *. eauto.
  - apply Hrd; assumption.
  - apply Hwr; assumption.
  - destruct (Nat.ltb_spec 0 (nframes h)) as [Hn|Hn]; [|discriminate]. cbn [andb] in H. unfold last. rewrite Hlast by assumption. auto.
  - destruct (Nat.ltb_spec 0 (nframes h)) as [Hn|Hn]; [|discriminate]. cbn [andb] in H. unfold last_set. rewrite Hlast by assumption. auto.
  - destruct (Nat.ltb_spec k (nframes h)) as [Hn|Hn]; [|discriminate]. cbn [andb] in H. unfold reverse. rewrite (back_sim b h) by assumption. auto.
  - destruct (Nat.ltb_spec k (nframes h)) as [Hn|Hn]; [|discriminate]. cbn [andb] in H. unfold reverse_set. rewrite (back_sim b h) by assumption. auto.
  - unfold at_. rewrite (at_check_sim b h f c HR). destruct ((ring h <=? nframes h) && (live h f && has_chan h c)) eqn:E; cbn [assert_ bind].
    + apply andb_true_iff in E as [_ E]. apply Hrd. unfold rd_i. rewrite E. exact H.
    + inversion H; subst. cbn. eauto.
  - unfold at_set. rewrite (at_check_sim b h f c HR). destruct ((ring h <=? nframes h) && (live h f && has_chan h c)) eqn:E; cbn [assert_ bind].
    + apply andb_true_iff in E as [_ E]. apply Hwr. unfold wr_i. rewrite E. exact H.
    + inversion H; subst. cbn. eauto.
  - destruct (fits n) eqn:E; [|discriminate]. inversion H; subst. eexists; split; [reflexivity|].
    unfold resize_frames. rewrite (rel_ch _ _ HR), Hf. apply reset_rel; assumption.
  - pose proof (add_channel_sim b h l HR) as Ha. destruct (pos eqb (chans h) l);
      destruct Ha as (b' & E & HR'); inversion H; subst; rewrite E; cbn [ix]; eauto.
  - pose proof (add_channel_sim b h l HR) as Ha. unfold find_or_add_channel, find_channel.
    rewrite (HRel_find eqb l0 eqb_eq _ _ l HH). destruct (pos eqb (chans h) l).
    + inversion H; subst. cbn [ix]. eauto.
    + destruct Ha as (b' & E & HR'). inversion H; subst. rewrite E. cbn [ix]. eauto.
  - inversion H; subst. unfold find_channel. rewrite (HRel_find eqb l0 eqb_eq _ _ l HH). eauto.
  - inversion H; subst. unfold frame_size. rewrite Hf. eauto.
  - inversion H; subst. rewrite (rel_ch _ _ HR). eauto.
Qed.

Lemma buffer_refines nc n ops h rs : fits n = true ->
  exec (ideal_step eqb t0) (mkHist 0 n (repeat None nc) t0 (fun _ _ => t0)) ops = Some (h, rs) ->
  exists b, exec (step eqb l0 t0) (create l0 t0 nc n) ops = Some (b, rs).
Proof.
  intros HF H.
  cut (Rel (create l0 t0 nc n) (mkHist 0 n (repeat None nc) t0 (fun _ _ => t0))).
  { intros X. destruct (exec_sim _ _ Rel step_sim ops _ _ h rs X H) as (b & E & _). eauto. }
  pose proof (reset_rel (DataHeader.create l0 nc) (mkHist 0 0 [] t0 (fun _ _ => t0)) n (repeat None nc) t0) as X.
  cbn [nframes reset] in X. rewrite repeat_length in X. apply X; [|reflexivity|exact HF].
  apply (StorageProofs.create_rel eqb l0 0 nc t0).
Qed.

(* after add_channel on a buffer without frames every later access divides by zero *)
Lemma empty_ring_ub b f c : frame_buf_size_ b = 0 -> get b f c = UB /\ last b c = UB.
Proof. intros H. unfold get, last, slot, index. rewrite H. split; reflexivity. Qed.
End P.
