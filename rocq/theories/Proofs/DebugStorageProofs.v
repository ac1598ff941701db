From Verif Require Import Model.Base Proofs.BaseFacts Proofs.MatrixFacts.
From Verif Require Import Model.DataHeader Model.Storage Model.DebugStorage Spec.Storage Proofs.StorageProofs.

Section P.
Context {T L : Type} (eqb : L -> L -> bool) (l0 : L) (t0 : T).
Context (eqb_eq : forall a b, eqb a b = true <-> a = b).
Context (teqb : T -> T -> bool) (sen : T).
Context (teqb_eq : forall a b, teqb a b = true <-> a = b).
Implicit Types (s : storage T L) (m : matrix T L).

Definition keep (x : T) : bool := negb (teqb x sen).
Definition col m (i : nat) : list T := map (fun r => nth i r t0) (rows m).
Definition written (ws : list (L * T)) (l : L) : list T := map snd (filter (fun w => eqb (fst w) l) ws).

Definition Inv (ls : list L) s m (ws : list (L * T)) : Prop :=
  Rel eqb l0 s m /\ (forall l, In (Some l) (names m) -> In l ls) /\
  forall l, match pos eqb (names m) l with
            | Some i => filter keep (col m i) = written ws l
            | None => written ws l = []
            end.

Lemma keep_sen : keep sen = false.
Proof. unfold keep. rewrite (proj2 (teqb_eq sen sen) eq_refl). reflexivity. Qed.

Lemma keep_true x : x <> sen -> keep x = true.
Proof. intros H. unfold keep. destruct (teqb x sen) eqn:E; [apply teqb_eq in E; contradiction|reflexivity]. Qed.

Lemma pos_snoc_same ns l : pos eqb ns l = None -> pos eqb (ns ++ [Some l]) l = Some (length ns).
Proof.
  induction ns as [|n ns IH]; cbn [pos app length].
  - rewrite (proj2 (eqb_eq l l) eq_refl). reflexivity.
  - destruct n as [k|].
    + destruct (eqb k l); [discriminate|]. destruct (pos eqb ns l); [discriminate|]. intros _. rewrite IH by reflexivity. reflexivity.
    + destruct (pos eqb ns l); [discriminate|]. intros _. rewrite IH by reflexivity. reflexivity.
Qed.

Lemma pos_snoc_other ns l k : l <> k -> pos eqb (ns ++ [Some k]) l = pos eqb ns l.
Proof.
  intros Hne. induction ns as [|n ns IH]; cbn [pos app].
  - destruct (eqb k l) eqn:E; [apply eqb_eq in E; congruence|reflexivity].
  - destruct n as [k'|]; [destruct (eqb k' l)|]; rewrite ?IH; reflexivity.
Qed.

Lemma filter_sen_repeat {A} (ls : list A) : filter keep (map (fun _ => sen) ls) = [].
Proof. induction ls; [reflexivity|]. cbn [map filter]. rewrite keep_sen. assumption. Qed.

Lemma written_snoc ws l k v : written (ws ++ [(k, v)]) l = written ws l ++ (if eqb k l then [v] else []).
Proof. unfold written. rewrite filter_app, map_app. cbn [filter fst]. destruct (eqb k l); reflexivity. Qed.

Lemma pos_lt ns l i : pos eqb ns l = Some i -> i < length ns.
Proof. intros H. apply (pos_Some eqb eqb_eq) in H. eapply nth_error_Some_lt; eassumption. Qed.

Lemma pos_inj ns l k i : pos eqb ns l = Some i -> pos eqb ns k = Some i -> l = k.
Proof. intros H1 H2. apply (pos_Some eqb eqb_eq) in H1, H2. congruence. Qed.

(* adding the channel keeps the invariant *)
Lemma add_inv ls s m ws l : Inv ls s m ws ->
  exists s1 m1 i, find_or_add_channel eqb l0 s l sen = (s1, Ok i) /\ Inv (l :: ls) s1 m1 ws /\
    pos eqb (names m1) l = Some i /\ nfr m1 = nfr m.
Proof.
  intros (HR & Hls & Hw). destruct (find_or_add_i eqb m l sen) as [m1 i] eqn:E.
  destruct (find_or_add_sim eqb l0 eqb_eq s m l sen m1 i HR E) as (s1 & Es & HR1 & Hi & Hn).
  exists s1, m1, i. split; [exact Es|]. unfold find_or_add_i in E.
  destruct (pos eqb (names m) l) as [j|] eqn:Ep; inversion E; subst; clear E.
  - split; [split; [assumption|]; split; [intros k Hk; right; auto|assumption]|]. split; [exact Ep|reflexivity].
  - split; [|split; [apply pos_snoc_same; assumption|exact Hn]]. split; [exact HR1|]. split.
    { intros k Hk. unfold add_col in Hk; cbn [names] in Hk. rewrite in_app_iff in Hk.
      destruct Hk as [Hk|[Hk|[]]]; [right; auto|left; congruence]. }
    intros k. unfold add_col; cbn [names]. pose proof HR as (_ & _ & HU & _).
    assert (Hold : forall j, j < nch m -> col (mkM (map (fun r => r ++ [sen]) (rows m)) (names m ++ [Some l])) j = col m j).
    { intros j Hj. unfold col; cbn [rows]. rewrite map_map. apply map_ext_in. intros r Hr.
      apply app_nth1. unfold uniform in HU. rewrite Forall_forall in HU. rewrite (HU r Hr). assumption. }
    destruct (eqb l k) eqn:Ek.
    + apply eqb_eq in Ek; subst k. rewrite (pos_snoc_same _ _ Ep).
      unfold col; cbn [rows]. rewrite map_map.
      rewrite (map_ext_in _ (fun _ => sen)).
      * rewrite filter_sen_repeat. specialize (Hw l). rewrite Ep in Hw. symmetry; exact Hw.
      * intros r Hr. unfold uniform in HU. rewrite Forall_forall in HU. fold (nch m). rewrite <- (HU r Hr).
        rewrite app_nth2, Nat.sub_diag by lia. reflexivity.
    + assert (k <> l) by (intros ->; rewrite (proj2 (eqb_eq l l) eq_refl) in Ek; discriminate).
      rewrite pos_snoc_other by assumption. specialize (Hw k). destruct (pos eqb (names m) k) as [j|] eqn:Ej; [|exact Hw].
      rewrite Hold by (eapply pos_lt; eassumption). exact Hw.
Qed.

Lemma frame_inv ls s m ws : Inv ls s m ws -> Inv ls (add_frame s sen) (mkM (rows m ++ [repeat sen (nch m)]) (names m)) ws.
Proof.
  intros (HR & Hls & Hw). split; [apply add_frame_sim; assumption|]. split; [exact Hls|]. intros l. specialize (Hw l). cbn [names].
  destruct (pos eqb (names m) l) as [i|] eqn:E; [|exact Hw].
  unfold col; cbn [rows]. rewrite map_app, filter_app; cbn [map filter].
  rewrite (nth_indep _ t0 sen) by (rewrite repeat_length; eapply pos_lt; eassumption).
  rewrite nth_repeat, keep_sen, app_nil_r. exact Hw.
Qed.

Lemma nth_upd_gen {A} (r : list A) i v j d : i < length r ->
  nth j (firstn i r ++ v :: skipn (S i) r) d = if j =? i then v else nth j r d.
Proof.
  intros Hi.
  destruct (Nat.lt_ge_cases j (length r)) as [Hj|Hj].
  - pose proof (nth_error_upd r i j v Hi) as H. destruct (Nat.eqb_spec j i) as [->|Hne].
    + apply nth_error_nth; exact H.
    + destruct (nth_error_ex r j Hj) as [x Hx]. rewrite Hx in H.
      rewrite (nth_error_nth _ _ d H). symmetry; apply nth_error_nth; exact Hx.
  - destruct (Nat.eqb_spec j i); [lia|]. rewrite !nth_overflow; [reflexivity|lia|]. rewrite upd_length; lia.
Qed.

(* storing the value in the last frame, whose cell is free *)
Lemma put_inv ls s m ws l i v : Inv ls s m ws -> pos eqb (names m) l = Some i -> v <> sen ->
  nfr m <> 0 -> cell m (nfr m - 1) i = Some sen ->
  exists s' m', last_set s i v = Ok s' /\ Inv ls s' m' (ws ++ [(l, v)]).
Proof.
  intros (HR & Hls & Hw) Hp Hv Hn Hc. pose proof (pos_lt _ _ _ Hp) as Hi. fold (nch m) in Hi.
  pose proof HR as (_ & _ & HU & _).
  pose proof (last_set_sim eqb l0 s m i v HR) as Hs.
  assert (Hno : no_cells m = false).
  { unfold no_cells. destruct (Nat.eqb_spec (nfr m) 0); [contradiction|]. destruct (Nat.eqb_spec (nch m) 0); [lia|reflexivity]. }
  rewrite Hno in Hs. destruct (Hs Hi) as (s' & Es & HR').
  exists s', (put m (nfr m - 1) i v). split; [exact Es|]. split; [exact HR'|].
  rewrite put_putr. cbn [names]. split; [exact Hls|].
  destruct (exists_last (l := rows m)) as (rs & r & Er); [intros X; apply Hn; unfold nfr; rewrite X; reflexivity|].
  assert (Hlast : nfr m - 1 = length rs) by (unfold nfr; rewrite Er, app_length; cbn; lia).
  assert (Hrl : length r = nch m).
  { unfold uniform in HU. rewrite Forall_forall in HU. apply HU. rewrite Er. apply in_or_app; right; left; reflexivity. }
  assert (Hnth : nth_error (rows m) (length rs) = Some r) by (rewrite Er, nth_error_app2, Nat.sub_diag by lia; reflexivity).
  assert (Hput : putr (rows m) (nfr m - 1) i v = rs ++ [firstn i r ++ v :: skipn (S i) r]).
  { unfold putr. rewrite Hlast, Hnth. rewrite Er. rewrite firstn_app, Nat.sub_diag, firstn_all; cbn [firstn].
    rewrite app_nil_r, (skipn_all2 (rs ++ [r])) by (rewrite app_length; cbn; lia). reflexivity. }
  unfold cell in Hc. rewrite Hlast, Hnth in Hc. rewrite Hput.
  intros k. specialize (Hw k). rewrite written_snoc.
  destruct (pos eqb (names m) k) as [j|] eqn:Ej.
  - unfold col in *; cbn [rows]. rewrite Er in Hw. rewrite map_app, filter_app in *; cbn [map filter] in *.
    rewrite nth_upd_gen by lia.
    destruct (eqb l k) eqn:Ek.
    + apply eqb_eq in Ek; subst k. assert (j = i) by congruence; subst j. rewrite Nat.eqb_refl.
      rewrite (keep_true v Hv). rewrite (nth_error_nth _ _ t0 Hc), keep_sen in Hw. rewrite app_nil_r in Hw. rewrite Hw. reflexivity.
    + destruct (Nat.eqb_spec j i) as [->|Hne].
      * rewrite (pos_inj _ _ _ _ Ej Hp) in Ek. rewrite (proj2 (eqb_eq l l) eq_refl) in Ek. discriminate.
      * rewrite Hw, app_nil_r. reflexivity.
  - destruct (eqb l k) eqn:Ek; [apply eqb_eq in Ek; subst; congruence|]. rewrite app_nil_r. exact Hw.
Qed.

Lemma write_inv ls s m ws l v : Inv ls s m ws -> v <> sen ->
  exists s' m', write eqb l0 teqb sen s l v = Ok s' /\ Inv (l :: ls) s' m' (ws ++ [(l, v)]).
Proof.
  intros HI Hv. destruct (add_inv ls s m ws l HI) as (s1 & m1 & i & E1 & HI1 & Hp & Hn).
  unfold write. rewrite E1. pose proof HI1 as (HR1 & _). pose proof (pos_lt _ _ _ Hp) as Hi. fold (nch m1) in Hi.
  assert (Hadd : exists s' m', last_set (add_frame s1 sen) i v = Ok s' /\ Inv (l :: ls) s' m' (ws ++ [(l, v)])).
  { pose proof (frame_inv _ s1 m1 ws HI1) as HI2. eapply put_inv; [exact HI2|exact Hp|exact Hv| |].
    - unfold nfr; cbn [rows]. rewrite app_length; cbn; lia.
    - unfold cell, nfr; cbn [rows]. rewrite app_length; cbn [length].
      rewrite nth_error_app2 by lia. replace (length (rows m1) + 1 - 1 - length (rows m1)) with 0 by lia. cbn [nth_error].
      apply nth_error_repeat_lt; assumption. }
  rewrite (empty_sim eqb l0 _ _ HR1). pose proof (last_get_sim eqb l0 s1 m1 i HR1) as Hg.
  destruct (no_cells m1) eqn:Eno; cbn [bind]; [exact Hadd|].
  destruct (Hg Hi) as (x & Hx & Ex). rewrite Ex; cbn [bind].
  destruct (teqb x sen) eqn:Et; cbn [negb]; [|exact Hadd].
  apply teqb_eq in Et; subst x. eapply put_inv; try eassumption.
  unfold no_cells in Eno. apply orb_false_iff in Eno as [Eno _]. apply Nat.eqb_neq in Eno. exact Eno.
Qed.

Lemma write_all_inv ws' ls s m ws : Inv ls s m ws -> Forall (fun w => snd w <> sen) ws' ->
  exists s' m', write_all eqb l0 teqb sen s ws' = Ok s' /\ Inv (rev (map fst ws') ++ ls) s' m' (ws ++ ws').
Proof.
  revert ls s m ws; induction ws' as [|[l v] ws' IH]; intros ls s m ws HI HF; cbn [write_all].
  - exists s, m. rewrite app_nil_r. split; [reflexivity|exact HI].
  - inversion HF as [|? ? Hv HF']; subst. cbn [snd] in Hv.
    destruct (write_inv ls s m ws l v HI Hv) as (s1 & m1 & E1 & HI1). rewrite E1; cbn [bind].
    destruct (IH _ s1 m1 _ HI1 HF') as (s2 & m2 & E2 & HI2). exists s2, m2. split; [exact E2|].
    rewrite <- app_assoc in HI2. cbn [map fst rev]. rewrite <- app_assoc. exact HI2.
Qed.

Lemma read_channel_col s m i : Rel eqb l0 s m -> i < nch m -> read_channel s i = map Ok (col m i).
Proof.
  intros HR Hi. pose proof HR as (Hf & _ & HU & Hd). pose proof (Rel_nch eqb l0 _ _ HR) as Hc.
  apply list_ext. intros k. unfold read_channel, col. rewrite map_map, !nth_error_map.
  unfold frame_size. rewrite Hf.
  destruct (Nat.lt_ge_cases k (nfr m)) as [Hk|Hk].
  - assert (Hs : nth_error (seq 0 (nfr m)) k = Some k).
    { rewrite (nth_error_nth' _ 0) by (rewrite seq_length; assumption). rewrite seq_nth by assumption. reflexivity. }
    rewrite Hs. destruct (nth_error_ex (rows m) k Hk) as [r Hr]. rewrite Hr. cbn [option_map]. f_equal.
    unfold at_, frame_size. rewrite Hf, Hc. apply Nat.ltb_lt in Hk. apply Nat.ltb_lt in Hi as Hi'. rewrite Hk, Hi'. cbn [andb assert_ bind].
    rewrite (at_sim eqb l0 _ _ _ _ HR Hi). unfold cell. rewrite Hr.
    destruct (nth_error_ex r i) as [x Hx]; [rewrite (uniform_nth _ _ _ _ HU Hr); assumption|].
    rewrite Hx. rewrite (nth_error_nth _ _ t0 Hx). reflexivity.
  - rewrite (proj2 (nth_error_None (seq 0 (nfr m)) k)) by (rewrite seq_length; assumption).
    rewrite (proj2 (nth_error_None (rows m) k)) by assumption. reflexivity.
Qed.

Lemma writer_main ws : Forall (fun w => snd w <> sen) ws ->
  exists s, write_all eqb l0 teqb sen (create l0 0 0 t0) ws = Ok s /\
  forall l,
    match find_channel eqb s l with
    | None => written ws l = []
    | Some i => exists vals, read_channel s i = map Ok vals /\
        filter (fun x => negb (teqb x sen)) vals = written ws l /\ written ws l <> []
    end.
Proof.
  intros HF. destruct (write_all_inv ws [] (create l0 0 0 t0) (mkM [] []) []) as (s & m & E & HR & Hls & Hw).
  - split; [apply (create_rel eqb l0 0 0 t0)|]. split; [intros l []|]. intros l. reflexivity.
  - exact HF.
  - exists s; split; [exact E|]. intros l. specialize (Hw l). cbn [app] in Hw.
    unfold find_channel. pose proof HR as (_ & HH & _). rewrite (HRel_find eqb l0 eqb_eq _ _ l HH).
    destruct (pos eqb (names m) l) as [i|] eqn:Ep; [|exact Hw].
    exists (col m i). split; [apply read_channel_col; [assumption|eapply pos_lt; eassumption]|]. split; [exact Hw|].
    apply (pos_Some eqb eqb_eq), nth_error_In, Hls in Ep. rewrite app_nil_r in Ep. apply in_rev, in_map_iff in Ep as ((k & v) & Ek & Hin).
    cbn [fst] in Ek; subst k. intros Hnil. assert (Hf : In (l, v) (filter (fun w => eqb (fst w) l) ws)) by (apply filter_In; split; [exact Hin|apply eqb_eq; reflexivity]).
    apply (in_map snd) in Hf. fold (written ws l) in Hf. rewrite Hnil in Hf. destruct Hf.
Qed.
End P.
