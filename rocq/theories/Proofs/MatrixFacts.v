(* Row-major storage of a list of equally long rows. *)
From Verif Require Import Model.Base Proofs.BaseFacts.

Section M.
Context {T : Type}.
Implicit Types rs : list (list T).

Definition uniform (w : nat) rs : Prop := Forall (fun r => length r = w) rs.
Definition cellr rs (f c : nat) : option T :=
  match nth_error rs f with Some r => nth_error r c | None => None end.

Lemma uniform_nth w rs f r : uniform w rs -> nth_error rs f = Some r -> length r = w.
Proof. intros H Hr. apply nth_error_In in Hr. eapply Forall_forall in H; eassumption. Qed.

Lemma uniform_iff w rs : uniform w rs <-> forall f r, nth_error rs f = Some r -> length r = w.
Proof.
  split; [intros; eapply uniform_nth; eassumption|]. intros H. apply Forall_forall.
  intros r Hr. apply In_nth_error in Hr as [f Hf]. eauto.
Qed.

Lemma uniform_app w r1 r2 : uniform w (r1 ++ r2) <-> uniform w r1 /\ uniform w r2.
Proof. apply Forall_app. Qed.

Lemma uniform_repeat w r n : length r = w -> uniform w (repeat r n).
Proof. intros H. apply Forall_forall. intros x Hx. apply repeat_spec in Hx. rewrite Hx. exact H. Qed.

Lemma uniform_map w w' rs f : uniform w rs -> (forall r, length r = w -> length (f r) = w') ->
  uniform w' (map f rs).
Proof.
  intros H Hf. unfold uniform in *. rewrite Forall_map. eapply Forall_impl; [|exact H]. exact Hf.
Qed.

Lemma concat_length_uniform w rs : uniform w rs -> length (concat rs) = length rs * w.
Proof.
  induction 1 as [|r rs Hr Hrs IH]; [reflexivity|]. cbn [concat length]. rewrite app_length, Hr, IH. lia.
Qed.

Lemma nth_concat w rs f c : uniform w rs -> c < w ->
  nth_error (concat rs) (f * w + c) = cellr rs f c.
Proof.
  intros H Hc. revert f; induction H as [|r rs Hr Hrs IH]; intros f.
  - cbn. unfold cellr. destruct f; destruct (_ * _ + c); reflexivity.
  - cbn [concat]. destruct f as [|f].
    + rewrite nth_error_app1 by lia. reflexivity.
    + rewrite nth_error_app2 by lia. replace (S f * w + c - length r) with (f * w + c) by lia.
      rewrite IH. reflexivity.
Qed.

Lemma cellr_Some w rs f c : uniform w rs -> f < length rs -> c < w -> exists x, cellr rs f c = Some x.
Proof.
  intros H Hf Hc. unfold cellr. destruct (nth_error_ex rs f Hf) as [r Hr]. rewrite Hr.
  apply nth_error_ex. rewrite (uniform_nth _ _ _ _ H Hr). assumption.
Qed.

Lemma cellr_None w rs f c : uniform w rs -> (length rs <= f \/ w <= c) -> cellr rs f c = None.
Proof.
  intros H Hd. unfold cellr. destruct (nth_error rs f) as [r|] eqn:E; [|reflexivity].
  destruct Hd as [Hd|Hd].
  - apply nth_error_Some_lt in E; lia.
  - apply nth_error_None. rewrite (uniform_nth _ _ _ _ H E). assumption.
Qed.

Lemma idx_inj w f c f' c' : c < w -> c' < w -> f * w + c = f' * w + c' -> f = f' /\ c = c'.
Proof.
  intros Hc Hc' E. assert (f = f').
  { destruct (Nat.lt_trichotomy f f') as [H|[H|H]]; [|assumption|]; nia. }
  subst; split; [reflexivity|lia].
Qed.

Lemma idx_bound w n f c : f < n -> c < w -> f * w + c < n * w.
Proof. intros. nia. Qed.

Lemma concat_ext w n (d : list T) rs : uniform w rs -> length rs = n -> length d = n * w ->
  (forall f c, f < n -> c < w -> nth_error d (f * w + c) = cellr rs f c) -> d = concat rs.
Proof.
  intros H Hn Hl He. apply list_ext. intros k.
  destruct (Nat.lt_ge_cases k (n * w)) as [Hk|Hk].
  - assert (w <> 0) by (intros ->; lia).
    pose proof (Nat.div_mod k w ltac:(assumption)) as Hdm.
    pose proof (Nat.mod_upper_bound k w ltac:(assumption)).
    assert (k / w < n) by (apply Nat.div_lt_upper_bound; lia).
    replace k with (k / w * w + k mod w) by lia.
    rewrite He by assumption. rewrite (nth_concat w) by assumption. reflexivity.
  - rewrite (proj2 (nth_error_None d k)) by lia.
    symmetry. apply nth_error_None. rewrite (concat_length_uniform w) by assumption. lia.
Qed.

(* writing one cell *)
Definition putr rs (f c : nat) (v : T) : list (list T) :=
  match nth_error rs f with
  | Some r => firstn f rs ++ (firstn c r ++ v :: skipn (S c) r) :: skipn (S f) rs
  | None => rs
  end.

Lemma putr_length rs f c v : length (putr rs f c v) = length rs.
Proof.
  unfold putr. destruct (nth_error rs f) eqn:E; [|reflexivity]. apply upd_length.
  eapply nth_error_Some_lt; eassumption.
Qed.

Lemma cellr_putr w rs f c v f' c' : uniform w rs -> f < length rs -> c < w ->
  cellr (putr rs f c v) f' c' = if (f' =? f) && (c' =? c) then Some v else cellr rs f' c'.
Proof.
  intros H Hf Hc. unfold putr, cellr. destruct (nth_error_ex rs f Hf) as [r Hr]. rewrite Hr.
  rewrite nth_error_upd by assumption. destruct (Nat.eqb_spec f' f) as [->|Hne]; cbn [andb]; [|reflexivity].
  rewrite Hr. rewrite nth_error_upd by (rewrite (uniform_nth _ _ _ _ H Hr); assumption). reflexivity.
Qed.

Lemma putr_uniform w rs f c v : uniform w rs -> c < w -> uniform w (putr rs f c v).
Proof.
  intros H Hc. unfold putr. destruct (nth_error rs f) as [r|] eqn:E; [|assumption].
  apply uniform_iff. intros k r' Hr'. rewrite nth_error_upd in Hr' by (eapply nth_error_Some_lt; eassumption).
  destruct (k =? f).
  - pose proof (uniform_nth _ _ _ _ H E) as Hw. assert (Er : r' = firstn c r ++ v :: skipn (S c) r) by congruence.
    rewrite Er, upd_length; lia.
  - eapply uniform_nth; eassumption.
Qed.

Lemma vset_concat w rs f c v : uniform w rs -> f < length rs -> c < w ->
  vset (concat rs) (f * w + c) v = Ok (concat (putr rs f c v)).
Proof.
  intros H Hf Hc.
  assert (Hlt : f * w + c < length (concat rs))
    by (rewrite (concat_length_uniform w) by assumption; apply idx_bound; assumption).
  rewrite vset_ok by assumption. f_equal.
  apply (concat_ext w (length rs)).
  - apply putr_uniform; assumption.
  - apply putr_length.
  - rewrite upd_length by assumption. apply concat_length_uniform; assumption.
  - intros f' c' Hf' Hc'. rewrite nth_error_upd by assumption.
    rewrite (cellr_putr w) by assumption.
    destruct (Nat.eqb_spec (f' * w + c') (f * w + c)) as [E|E].
    + apply idx_inj in E; [|assumption..]. destruct E as [-> ->]. rewrite !Nat.eqb_refl. reflexivity.
    + destruct (Nat.eqb_spec f' f) as [->|]; cbn [andb].
      * destruct (Nat.eqb_spec c' c) as [->|]; [contradiction|]. apply nth_concat; assumption.
      * apply nth_concat; assumption.
Qed.

Lemma cellr_app rs1 rs2 f c :
  cellr (rs1 ++ rs2) f c = if f <? length rs1 then cellr rs1 f c else cellr rs2 (f - length rs1) c.
Proof.
  unfold cellr. destruct (Nat.ltb_spec f (length rs1)).
  - rewrite nth_error_app1 by assumption. reflexivity.
  - rewrite nth_error_app2 by assumption. reflexivity.
Qed.

Lemma cellr_repeat (v : T) w n f c : f < n -> c < w -> cellr (repeat (repeat v w) n) f c = Some v.
Proof.
  intros Hf Hc. unfold cellr. rewrite nth_error_repeat_lt by assumption. apply nth_error_repeat_lt; assumption.
Qed.

Lemma cellr_map (g : list T -> list T) rs f c :
  cellr (map g rs) f c = match nth_error rs f with Some r => nth_error (g r) c | None => None end.
Proof. unfold cellr. rewrite nth_error_map. destruct (nth_error rs f); reflexivity. Qed.
End M.
