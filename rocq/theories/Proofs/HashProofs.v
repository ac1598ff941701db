From Verif Require Import Model.Base Proofs.BaseFacts Model.StdString Model.Hash Spec.Strings Spec.Hash Proofs.StringFacts.
Local Open Scope Z_scope.

Lemma constexpr_eq s : forall h, hash_constexpr_from s h = hash_loop s h.
Proof.
  induction s as [|c s IH]; intros h; cbn [hash_constexpr_from hash_loop]; [reflexivity|].
  destruct (Ascii.eqb c NUL); [reflexivity|]. rewrite IH, Z.lxor_comm. reflexivity.
Qed.

Lemma loop_cstr s : forall h, hash_loop (cstr s) h = hash_loop s h.
Proof.
  induction s as [|c s IH]; intros h; cbn [cstr hash_loop]; [reflexivity|].
  destruct (Ascii.eqb c NUL) eqn:E; [reflexivity|]. cbn [hash_loop]. rewrite E. apply IH.
Qed.

Definition step (h : Z) (c : ascii) : Z := (Z.lxor h (char64 c) * fnv1a_64_prime) mod two64.

Definition nonul (s : str) : Prop := ~ In NUL s.

Lemma loop_fold s : nonul s -> forall h, hash_loop s h = fold_left step s h.
Proof.
  induction s as [|c s IH]; intros Hn h; cbn [hash_loop fold_left]; [reflexivity|].
  destruct (Ascii.eqb c NUL) eqn:E; [apply Ascii.eqb_eq in E; subst; exfalso; apply Hn; left; reflexivity|].
  apply IH. intros H. apply Hn. right. exact H.
Qed.

Definition u64 (x : Z) : Prop := 0 <= x < two64.

Lemma lxor_u64 a b : u64 a -> u64 b -> u64 (Z.lxor a b).
Proof.
  unfold u64, two64. intros [A1 A2] [B1 B2]. assert (0 <= Z.lxor a b) by (apply Z.lxor_nonneg; lia). split; [assumption|].
  destruct (Z.eq_dec (Z.lxor a b) 0) as [->|N]; [lia|].
  apply Z.log2_lt_pow2; [lia|]. pose proof (Z.log2_lxor a b A1 B1) as L.
  assert (K : forall x, 0 <= x < 2 ^ 64 -> Z.log2 x < 64).
  { intros x [X1 X2]. destruct (Z.eq_dec x 0) as [->|Nx]; [reflexivity|]. apply Z.log2_lt_pow2; lia. }
  pose proof (K a (conj A1 A2)). pose proof (K b (conj B1 B2)). lia.
Qed.

Definition prime_inv : Z := 14886173955864302971.
Lemma prime_inv_ok : (fnv1a_64_prime * prime_inv) mod two64 = 1.
Proof. vm_compute. reflexivity. Qed.

Lemma mul_inj a b : u64 a -> u64 b -> (a * fnv1a_64_prime) mod two64 = (b * fnv1a_64_prime) mod two64 -> a = b.
Proof.
  intros Ha Hb E.
  assert (K : forall x, u64 x -> ((x * fnv1a_64_prime) mod two64 * prime_inv) mod two64 = x).
  { intros x Hx. rewrite Z.mul_mod_idemp_l by (unfold two64; lia). rewrite <- Z.mul_assoc.
    rewrite <- Z.mul_mod_idemp_r by (unfold two64; lia). rewrite prime_inv_ok, Z.mul_1_r. apply Z.mod_small. exact Hx. }
  rewrite <- (K a Ha), <- (K b Hb), E. reflexivity.
Qed.

Lemma char64_u64 c : u64 (char64 c).
Proof. unfold u64, char64. apply Z.mod_pos_bound. reflexivity. Qed.

Lemma char64_inj c d : char64 c = char64 d -> c = d.
Proof.
  unfold char64, scode, code, two64. intros H.
  pose proof (nat_ascii_bounded c) as Hc. pose proof (nat_ascii_bounded d) as Hd.
  rewrite <- (ascii_nat_embedding c), <- (ascii_nat_embedding d). f_equal.
  assert (M : forall z, 0 < z <= 2 ^ 64 -> (z - 2 ^ 64) mod 2 ^ 64 = z mod 2 ^ 64).
  { intros z Hz. replace (z - 2 ^ 64) with (z + (-1) * 2 ^ 64) by lia. apply Z.mod_add. lia. }
  destruct (Nat.ltb_spec (nat_of_ascii c) 128), (Nat.ltb_spec (nat_of_ascii d) 128).
  - rewrite !Z.mod_small in H by lia. lia.
  - rewrite (Z.mod_small (Z.of_nat (nat_of_ascii c))) in H by lia.
    replace (Z.of_nat (nat_of_ascii d) - 256) with ((Z.of_nat (nat_of_ascii d) - 256 + 2 ^ 64) - 2 ^ 64) in H by lia.
    rewrite M, Z.mod_small in H by lia. lia.
  - rewrite (Z.mod_small (Z.of_nat (nat_of_ascii d))) in H by lia.
    replace (Z.of_nat (nat_of_ascii c) - 256) with ((Z.of_nat (nat_of_ascii c) - 256 + 2 ^ 64) - 2 ^ 64) in H by lia.
    rewrite M, Z.mod_small in H by lia. lia.
  - replace (Z.of_nat (nat_of_ascii c) - 256) with ((Z.of_nat (nat_of_ascii c) - 256 + 2 ^ 64) - 2 ^ 64) in H by lia.
    replace (Z.of_nat (nat_of_ascii d) - 256) with ((Z.of_nat (nat_of_ascii d) - 256 + 2 ^ 64) - 2 ^ 64) in H by lia.
    rewrite !M, !Z.mod_small in H by lia. lia.
Qed.

Lemma step_u64 h c : u64 (step h c).
Proof. unfold u64, step. apply Z.mod_pos_bound. reflexivity. Qed.

Lemma lxor_cancel a b c : Z.lxor a b = Z.lxor a c -> b = c.
Proof.
  intros H. rewrite <- (Z.lxor_0_l b), <- (Z.lxor_0_l c), <- (Z.lxor_nilpotent a), !Z.lxor_assoc, H. reflexivity.
Qed.

Lemma step_inj_h h1 h2 c : u64 h1 -> u64 h2 -> step h1 c = step h2 c -> h1 = h2.
Proof.
  intros U1 U2 H. apply mul_inj in H; [|apply lxor_u64; [assumption|apply char64_u64]..].
  rewrite (Z.lxor_comm h1), (Z.lxor_comm h2) in H. eapply lxor_cancel; eauto.
Qed.
Lemma step_inj_c h c d : u64 h -> step h c = step h d -> c = d.
Proof.
  intros U H. apply mul_inj in H; [|apply lxor_u64; [assumption|apply char64_u64]..].
  apply lxor_cancel in H. apply char64_inj. exact H.
Qed.

Lemma fold_inj s : forall h1 h2, u64 h1 -> u64 h2 -> fold_left step s h1 = fold_left step s h2 -> h1 = h2.
Proof.
  induction s as [|c s IH]; intros h1 h2 U1 U2 H; cbn [fold_left] in H; [exact H|].
  apply IH in H; [|apply step_u64..]. eapply step_inj_h; eauto.
Qed.

Lemma nonul_app a b : nonul (a ++ b) <-> nonul a /\ nonul b.
Proof. unfold nonul. rewrite in_app_iff. tauto. Qed.

Lemma basis_u64 : u64 fnv1a_64_basis.
Proof. unfold u64. vm_compute. split; [discriminate|reflexivity]. Qed.
Lemma fold_u64 s : forall h, u64 h -> u64 (fold_left step s h).
Proof. induction s; intros h U; cbn [fold_left]; [exact U|]. apply IHs. apply step_u64. Qed.

Lemma no_single_collision a c d b : nonul (a ++ c :: b) -> nonul (a ++ d :: b) -> c <> d ->
  hash (a ++ c :: b) <> hash (a ++ d :: b).
Proof.
  intros N1 N2 Hcd H. unfold hash in H. rewrite !loop_fold in H by assumption. rewrite !fold_left_app in H. cbn [fold_left] in H.
  apply fold_inj in H; [|apply step_u64..]. apply step_inj_c in H; [contradiction|]. apply fold_u64, basis_u64.
Qed.

Lemma same_length_prefix_collision a b : nonul a -> nonul b -> forall t, nonul t ->
  hash a = hash b <-> hash (a ++ t) = hash (b ++ t).
Proof.
  intros Na Nb t Nt. unfold hash. rewrite !loop_fold by (try apply nonul_app; auto). rewrite !fold_left_app. split.
  - intros ->. reflexivity.
  - intros H. apply fold_inj in H; [exact H|apply fold_u64, basis_u64..].
Qed.

Lemma standard s : Forall (fun c => (1 <= nat_of_ascii c < 128)%nat) s -> hash s = FNV1a (map byte s).
Proof.
  intros H. unfold hash, FNV1a. rewrite loop_fold.
  2: { intros X. rewrite Forall_forall in H. apply H in X. cbn in X. lia. }
  change fnv1a_64_basis with 0xCBF29CE484222325. generalize 0xCBF29CE484222325. induction H as [|c s Hc Hs IH]; intros h; cbn [fold_left map]; [reflexivity|].
  rewrite IH. f_equal. unfold step. change fnv1a_64_prime with 0x100000001B3. change two64 with (2 ^ 64).
  replace (char64 c) with (byte c); [reflexivity|]. unfold char64, scode, code, byte. destruct (Nat.ltb_spec (nat_of_ascii c) 128); [|lia].
  symmetry. apply Z.mod_small. unfold two64. lia.
Qed.
