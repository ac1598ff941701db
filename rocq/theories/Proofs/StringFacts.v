(* Facts about the modelled std::string functions. *)
From Verif Require Import Model.Base Proofs.BaseFacts Model.StdString.
From Verif Require Import Spec.Strings.
Local Open Scope Z_scope.

Lemma mem_In set c : mem set c = true <-> In c set.
Proof.
  unfold mem. rewrite existsb_exists. split.
  - intros (x & Hx & E). apply Ascii.eqb_eq in E. subst. exact Hx.
  - intros H. exists c. split; [exact H|apply Ascii.eqb_refl].
Qed.
Lemma mem_false set c : mem set c = false <-> ~ In c set.
Proof. rewrite <- mem_In. destruct (mem set c); split; congruence. Qed.
Lemma nmem_true set c : negb (mem set c) = true <-> ~ In c set.
Proof. rewrite negb_true_iff. apply mem_false. Qed.
Lemma nmem_false set c : negb (mem set c) = false <-> In c set.
Proof. rewrite negb_false_iff. apply mem_In. Qed.

Lemma wadd_small a b : 0 <= a + b < 2 ^ 64 -> wadd a b = a + b.
Proof. apply Z.mod_small. Qed.
Lemma wsub_small a b : 0 <= a - b < 2 ^ 64 -> wsub a b = a - b.
Proof. apply Z.mod_small. Qed.

Lemma size_app a b : size_ (a ++ b) = size_ a + size_ b.
Proof. unfold size_. rewrite app_length. lia. Qed.
Lemma size_cons c s : size_ (c :: s) = 1 + size_ s.
Proof. unfold size_. cbn [length]. lia. Qed.
Lemma size_nonneg s : 0 <= size_ s.
Proof. unfold size_. lia. Qed.
Lemma to_nat_size s : Z.to_nat (size_ s) = length s.
Proof. apply Nat2Z.id. Qed.
Lemma size_nil : size_ [] = 0.
Proof. reflexivity. Qed.
Lemma npos_val : npos = 2 ^ 64 - 1. Proof. reflexivity. Qed.

Lemma fits_lt s : fits s -> size_ s < 2 ^ 63.
Proof. exact (fun H => H). Qed.
Lemma fits_intro s : size_ s < 2 ^ 63 -> fits s.
Proof. exact (fun H => H). Qed.

Lemma first_pos_None p s : first_pos p s = None <-> Forall (fun c => p c = false) s.
Proof.
  induction s as [|c s IH]; cbn [first_pos]; [split; auto|].
  destruct (p c) eqn:E.
  - split; [discriminate|]. intros H. inversion H; congruence.
  - destruct (first_pos p s) as [n|]; cbn [option_map].
    + split; [discriminate|]. intros H. inversion H; subst. apply IH in H3. discriminate.
    + split; [|reflexivity]. intros _. constructor; [exact E|apply IH; reflexivity].
Qed.

Lemma first_pos_Some p s n : first_pos p s = Some n <->
  exists a c b, s = a ++ c :: b /\ length a = n /\ p c = true /\ Forall (fun x => p x = false) a.
Proof.
  revert n. induction s as [|d s IH]; intros n; cbn [first_pos].
  - split; [discriminate|]. intros ([|? ?] & ? & ? & E & _); discriminate.
  - destruct (p d) eqn:E.
    + split.
      * intros H; inversion H; subst. exists [], d, s. auto.
      * intros ([|x a] & c & b & E1 & E2 & E3 & E4); cbn in E1, E2; [subst; reflexivity|].
        inversion E1; subst. inversion E4; congruence.
    + destruct (first_pos p s) as [m|] eqn:F; cbn [option_map].
      * destruct (proj1 (IH m) eq_refl) as (a & c & b & E1 & E2 & E3 & E4). split.
        -- intros H; inversion H; subst. exists (d :: a), c, b. cbn. auto.
        -- intros ([|x a'] & c' & b' & F1 & F2 & F3 & F4); cbn in F1, F2; inversion F1; subst; [congruence|].
           inversion F4; subst. assert (Some (length a) = Some (length a')) as H5
             by (apply IH; exists a', c', b'; auto). inversion H5. reflexivity.
      * split; [discriminate|]. intros ([|x a'] & c' & b' & F1 & F2 & F3 & F4); cbn in F1, F2; inversion F1; subst; [congruence|].
        inversion F4; subst. apply first_pos_None in F. apply Forall_app in F. destruct F as [_ F]. inversion F; congruence.
Qed.

Lemma last_pos_None p s : last_pos p s = None <-> Forall (fun c => p c = false) s.
Proof.
  induction s as [|c s IH]; cbn [last_pos]; [split; auto|].
  destruct (last_pos p s) as [n|] eqn:F.
  - split; [discriminate|]. intros H. inversion H; subst. apply IH in H3. discriminate.
  - destruct (p c) eqn:E.
    + split; [discriminate|]. intros H. inversion H; congruence.
    + split; [|reflexivity]. intros _. constructor; [exact E|apply IH; reflexivity].
Qed.

Lemma last_pos_Some p s n : last_pos p s = Some n <->
  exists a c b, s = a ++ c :: b /\ length a = n /\ p c = true /\ Forall (fun x => p x = false) b.
Proof.
  revert n. induction s as [|d s IH]; intros n; cbn [last_pos].
  - split; [discriminate|]. intros ([|? ?] & ? & ? & E & _); discriminate.
  - destruct (last_pos p s) as [m|] eqn:F.
    + destruct (proj1 (IH m) eq_refl) as (a & c & b & E1 & E2 & E3 & E4). split.
      * intros H; inversion H; subst. exists (d :: a), c, b. cbn. auto.
      * intros ([|x a'] & c' & b' & F1 & F2 & F3 & F4); cbn in F1, F2.
        -- inversion F1. subst c' b'. clear F1. rewrite E1 in F4. apply Forall_app in F4. destruct F4 as [_ F4]. inversion F4; congruence.
        -- inversion F1. rewrite <- F2. f_equal. assert (Some m = Some (length a')) as H5 by (apply IH; exists a', c', b'; auto). inversion H5. reflexivity.
    + apply last_pos_None in F. destruct (p d) eqn:E.
      * split.
        -- intros H; inversion H; subst. exists [], d, s. auto.
        -- intros ([|x a'] & c' & b' & F1 & F2 & F3 & F4); cbn in F1, F2; [subst; reflexivity|].
           inversion F1; subst. apply Forall_app in F. destruct F as [_ F]. inversion F; congruence.
      * split; [discriminate|]. intros ([|x a'] & c' & b' & F1 & F2 & F3 & F4); cbn in F1, F2; inversion F1; subst; [congruence|].
        apply Forall_app in F. destruct F as [_ F]. inversion F; congruence.
Qed.

(* searches in terms of a decomposition of the string *)
Lemma find_first_hit p a w c b : fits (a ++ w ++ c :: b) -> Forall (fun x => p x = false) w -> p c = true ->
  find_first p (a ++ w ++ c :: b) (size_ a) = size_ a + size_ w.
Proof.
  intros Hf Hw Hc. unfold find_first. apply fits_lt in Hf.
  destruct (Z.leb_spec (size_ (a ++ w ++ c :: b)) (size_ a)) as [H|H].
  - rewrite !size_app, size_cons in H. pose proof (size_nonneg w). pose proof (size_nonneg b). lia.
  - rewrite to_nat_size, skipn_app, skipn_all, Nat.sub_diag. cbn [app skipn].
    replace (first_pos p (w ++ c :: b)) with (Some (length w)).
    + cbn [option_map ret_pos]. unfold size_. lia.
    + symmetry. apply first_pos_Some. exists w, c, b. auto.
Qed.

Lemma find_first_miss p a w : Forall (fun x => p x = false) w ->
  find_first p (a ++ w) (size_ a) = npos.
Proof.
  intros Hw. unfold find_first. destruct (Z.leb_spec (size_ (a ++ w)) (size_ a)); [reflexivity|].
  rewrite to_nat_size, skipn_app, skipn_all, Nat.sub_diag. cbn [app skipn].
  apply first_pos_None in Hw. rewrite Hw. reflexivity.
Qed.

Lemma find_first_npos p s : fits s -> find_first p s npos = npos.
Proof.
  intros H. apply fits_lt in H. unfold find_first. destruct (Z.leb_spec (size_ s) npos) as [|H1]; [reflexivity|].
  rewrite npos_val in H1. lia.
Qed.

Lemma find_last_hit p a c b : p c = true -> Forall (fun x => p x = false) b ->
  ret_pos (last_pos p (a ++ c :: b)) = size_ a.
Proof.
  intros Hc Hb. replace (last_pos p (a ++ c :: b)) with (Some (length a)); [reflexivity|].
  symmetry. apply last_pos_Some. exists a, c, b. auto.
Qed.

Lemma find_last_miss p s : Forall (fun x => p x = false) s -> ret_pos (last_pos p s) = npos.
Proof. intros H. apply last_pos_None in H. rewrite H. reflexivity. Qed.

(* case analysis on a search *)
Lemma split_first (p : ascii -> bool) (s : str) :
  (Forall (fun x => p x = false) s) \/
  (exists a c b, s = a ++ c :: b /\ p c = true /\ Forall (fun x => p x = false) a).
Proof.
  destruct (first_pos p s) as [n|] eqn:E; [right|left; apply first_pos_None; exact E].
  apply first_pos_Some in E. destruct E as (a & c & b & E1 & E2 & E3 & E4). exists a, c, b. auto.
Qed.
Lemma split_last (p : ascii -> bool) (s : str) :
  (Forall (fun x => p x = false) s) \/
  (exists a c b, s = a ++ c :: b /\ p c = true /\ Forall (fun x => p x = false) b).
Proof.
  destruct (last_pos p s) as [n|] eqn:E; [right|left; apply last_pos_None; exact E].
  apply last_pos_Some in E. destruct E as (a & c & b & E1 & E2 & E3 & E4). exists a, c, b. auto.
Qed.

Lemma Forall_mem_free set s : Forall (fun c => mem set c = false) s <-> free set s.
Proof. split; apply Forall_impl; intros c; apply mem_false. Qed.
Lemma Forall_nmem_only set s : Forall (fun c => negb (mem set c) = false) s <-> only set s.
Proof. split; apply Forall_impl; intros c; apply nmem_false. Qed.

(* substr *)
Lemma substr_mid a b c n : n = size_ b -> substr (a ++ b ++ c) (size_ a) n = Ok b.
Proof.
  intros ->. unfold substr. rewrite !size_app. pose proof (size_nonneg a). pose proof (size_nonneg b). pose proof (size_nonneg c).
  destruct (Z.ltb_spec (size_ a + (size_ b + size_ c)) (size_ a)); [lia|].
  rewrite Z.min_l by lia. unfold size_. rewrite !Nat2Z.id.
  rewrite skipn_app, skipn_all, Nat.sub_diag. cbn [app skipn]. rewrite firstn_app, firstn_all, Nat.sub_diag. cbn [firstn]. rewrite app_nil_r. reflexivity.
Qed.
Lemma substr_tail a b n : size_ b <= n -> substr (a ++ b) (size_ a) n = Ok b.
Proof.
  intros Hn. unfold substr. rewrite !size_app. pose proof (size_nonneg a). pose proof (size_nonneg b).
  destruct (Z.ltb_spec (size_ a + size_ b) (size_ a)); [lia|].
  rewrite Z.min_r by lia. replace (size_ a + size_ b - size_ a) with (size_ b) by lia. unfold size_. rewrite !Nat2Z.id.
  rewrite skipn_app, skipn_all, Nat.sub_diag. cbn [app skipn]. rewrite firstn_all. reflexivity.
Qed.
Lemma substr_head b c n : n = size_ b -> substr (b ++ c) 0 n = Ok b.
Proof. intros H. exact (substr_mid [] b c n H). Qed.
Lemma substr_all s n : size_ s <= n -> substr s 0 n = Ok s.
Proof. intros H. exact (substr_tail [] s n H). Qed.

(* prefix / find *)
Lemma prefixb_spec t s : prefixb t s = true <-> Prefix t s.
Proof.
  revert s. induction t as [|a t IH]; intros s; cbn [prefixb].
  - split; [exists s; reflexivity|reflexivity].
  - destruct s as [|b s].
    + split; [discriminate|]. intros [r E]; discriminate.
    + rewrite andb_true_iff, IH, Ascii.eqb_eq. split.
      * intros [-> [r ->]]. exists r. reflexivity.
      * intros [r E]. inversion E. split; [reflexivity|exists r; reflexivity].
Qed.

Lemma find_sub_Some t s n : find_sub t s = Some n <->
  OccursAt t s n /\ forall m, OccursAt t s m -> (n <= m)%nat.
Proof.
  revert n. induction s as [|c s IH]; intros n; cbn [find_sub]; destruct (prefixb t _) eqn:E.
  - apply prefixb_spec in E. split.
    + intros H; inversion H; subst. split; [|intros; lia]. destruct E as [r E]. exists [], r. auto.
    + intros [_ H]. assert (n <= 0)%nat by (apply H; destruct E as [r E]; exists [], r; auto). f_equal; lia.
  - split; [discriminate|]. intros [(l & r & F & _) _]. exfalso. destruct l; [|discriminate].
    assert (prefixb t [] = true) by (apply prefixb_spec; exists r; exact F). congruence.
  - apply prefixb_spec in E. split.
    + intros H; inversion H; subst. split; [|intros; lia]. destruct E as [r E]. exists [], r. auto.
    + intros [_ H]. assert (n <= 0)%nat by (apply H; destruct E as [r E]; exists [], r; auto). f_equal; lia.
  - assert (K : forall m, OccursAt t (c :: s) m <-> exists k, m = S k /\ OccursAt t s k).
    { intros m. split.
      - intros (l & r & F & Hl). destruct l as [|x l].
        + exfalso. assert (prefixb t (c :: s) = true) by (apply prefixb_spec; exists r; exact F). congruence.
        + cbn in F, Hl. inversion F; subst. exists (length l). split; [reflexivity|]. exists l, r. auto.
      - intros (k & -> & l & r & -> & Hl). exists (c :: l), r. cbn. auto. }
    destruct (find_sub t s) as [k|] eqn:G; cbn [option_map].
    + destruct (proj1 (IH k) eq_refl) as [Hk Hmin]. split.
      * intros H; inversion H; subst. split; [apply K; eauto|]. intros m Hm. apply K in Hm. destruct Hm as (k' & -> & Hk'). apply Hmin in Hk'. lia.
      * intros [H1 H2]. apply K in H1. destruct H1 as (k' & -> & H1). assert (S k' <= S k)%nat by (apply H2; apply K; eauto).
        apply Hmin in H1. f_equal. lia.
    + split; [discriminate|]. intros [H1 H2]. exfalso. apply K in H1. destruct H1 as (k' & -> & H1).
      assert (None = Some k') as X; [|discriminate]. apply IH. split; [exact H1|]. intros m Hm.
      assert (S k' <= S m)%nat by (apply H2; apply K; eauto). lia.
Qed.

Lemma find_sub_None t s : find_sub t s = None <-> forall n, ~ OccursAt t s n.
Proof.
  induction s as [|c s IH]; cbn [find_sub]; destruct (prefixb t _) eqn:E.
  - split; [discriminate|]. intros H. apply prefixb_spec in E. destruct E as [r E]. exfalso. apply (H 0%nat). exists [], r. auto.
  - split; [|reflexivity]. intros _ n (l & r & F & _). destruct l; [|discriminate].
    assert (prefixb t [] = true) by (apply prefixb_spec; exists r; exact F). congruence.
  - split; [discriminate|]. intros H. apply prefixb_spec in E. destruct E as [r E]. exfalso. apply (H 0%nat). exists [], r. auto.
  - destruct (find_sub t s) as [k|] eqn:G; cbn [option_map].
    + split; [discriminate|]. intros H. exfalso. assert (Some k = None) as X; [|discriminate]. apply IH.
      intros n (l & r & -> & Hl). apply (H (S n)). exists (c :: l), r. cbn. auto.
    + split; [|reflexivity]. intros _ n (l & r & F & Hl). destruct l as [|x l].
      * assert (prefixb t (c :: s) = true) by (apply prefixb_spec; exists r; exact F). congruence.
      * inversion F; subst. apply (proj1 IH eq_refl (length l)). exists l, r. auto.
Qed.

Lemma OccursAt_bound t s n : OccursAt t s n -> (n + length t <= length s)%nat.
Proof. intros (l & r & -> & <-). rewrite !app_length. lia. Qed.
Lemma OccursAt_0 t s : OccursAt t s 0 <-> Prefix t s.
Proof.
  split.
  - intros (l & r & -> & H). destruct l; [|discriminate]. exists r. reflexivity.
  - intros [r ->]. exists [], r. auto.
Qed.
Lemma OccursAt_end t s n : OccursAt t s n -> (n + length t = length s)%nat -> Suffix t s.
Proof.
  intros (l & r & -> & <-) H. rewrite !app_length in H. destruct r; [|cbn in H; lia]. exists l. rewrite app_nil_r. reflexivity.
Qed.

Lemma fits_app_l a b : fits (a ++ b) -> fits a.
Proof. intros H; apply fits_lt in H; apply fits_intro; revert H; rewrite size_app. pose proof (size_nonneg b). lia. Qed.
Lemma fits_app_r a b : fits (a ++ b) -> fits b.
Proof. intros H; apply fits_lt in H; apply fits_intro; revert H; rewrite size_app. pose proof (size_nonneg a). lia. Qed.
