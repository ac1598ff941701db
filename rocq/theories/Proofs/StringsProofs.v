From Verif Require Import Model.Base Proofs.BaseFacts Model.StdString Model.Strings.
From Verif Require Import Spec.Strings Proofs.StringFacts.
Local Open Scope Z_scope.

(* ---------- trim ---------- *)
Lemma trim_spec s set : fits s -> exists m, trim_str s set = Ok m /\ IsTrim set s m.
Proof.
  intros Hf. unfold trim_str, find_first_not_of.
  destruct (split_first (fun c => negb (mem set c)) s) as [Hall|(a & c & b & -> & Hc & Ha)].
  - pose proof (find_first_miss (fun c => negb (mem set c)) [] s Hall) as E. cbn in E. rewrite E.
    exists []. split; [reflexivity|]. exists s, []. apply Forall_nmem_only in Hall.
    split; [rewrite app_nil_r; reflexivity|]. split; [exact Hall|]. split; [constructor|].
    split; intros ? m' E'; [discriminate|destruct m'; discriminate].
  - pose proof (find_first_hit (fun c => negb (mem set c)) [] a c b Hf Ha Hc) as E. cbn [app] in E.
    rewrite size_nil in E. rewrite E, Z.add_0_l. clear E.
    assert (Hs : size_ (a ++ c :: b) < 2 ^ 63) by exact Hf. rewrite size_app, size_cons in Hs.
    pose proof (size_nonneg a). pose proof (size_nonneg b).
    destruct (Z.eqb_spec (size_ a) npos) as [E|_]; [rewrite npos_val in E; lia|].
    destruct (split_last (fun c => negb (mem set c)) (c :: b)) as [Hall|(a' & d & b' & Eb & Hd & Hb)].
    { inversion Hall; congruence. }
    unfold find_last_not_of. rewrite Eb.
    replace (a ++ a' ++ d :: b') with ((a ++ a') ++ d :: b') by (rewrite app_assoc; reflexivity).
    rewrite (find_last_hit _ (a ++ a') d b' Hd Hb).
    assert (Hsz : size_ (c :: b) = size_ (a' ++ d :: b')) by (rewrite Eb; reflexivity).
    rewrite size_app, !size_cons in Hsz.
    pose proof (size_nonneg a'). pose proof (size_nonneg b').
    rewrite size_app. rewrite wadd_small by lia. rewrite wsub_small by lia.
    replace (1 + (size_ a + size_ a') - size_ a) with (size_ (a' ++ [d])) by (rewrite size_app, size_cons, size_nil; lia).
    replace ((a ++ a') ++ d :: b') with (a ++ (a' ++ [d]) ++ b') by (rewrite <- !app_assoc; reflexivity).
    rewrite substr_mid by reflexivity. eexists. split; [reflexivity|].
    exists a, b'. split; [reflexivity|]. apply Forall_nmem_only in Ha. apply Forall_nmem_only in Hb.
    split; [exact Ha|]. split; [exact Hb|]. split.
    + intros x m' Ex. destruct a' as [|y a'].
      * cbn in Eb, Ex. inversion Ex; subst. inversion Eb; subst. apply nmem_true. exact Hc.
      * cbn in Eb, Ex. inversion Ex; inversion Eb; subst. apply nmem_true. exact Hc.
    + intros x m' Ex. apply app_inj_tail in Ex. destruct Ex as [_ <-]. apply nmem_true. exact Hd.
Qed.

(* the trimmed middle is unique *)
Lemma prefix_only_unique set l1 l2 m1 m2 : l1 ++ m1 = l2 ++ m2 -> only set l1 -> only set l2 ->
  (forall c m', m1 = c :: m' -> ~ In c set) -> (forall c m', m2 = c :: m' -> ~ In c set) -> m1 = m2.
Proof.
  revert l2. induction l1 as [|x l1 IH]; intros [|y l2] E H1 H2 Hm1 Hm2; cbn in E.
  - exact E.
  - subst m1. exfalso. inversion H2; subst. eapply Hm1; eauto.
  - subst m2. exfalso. inversion H1; subst. eapply Hm2; eauto.
  - inversion E; subst. inversion H1; inversion H2; subst. eapply IH; eauto.
Qed.

Lemma suffix_only_unique set r1 r2 m1 m2 : m1 ++ r1 = m2 ++ r2 -> only set r1 -> only set r2 ->
  (forall c m', m1 = m' ++ [c] -> ~ In c set) -> (forall c m', m2 = m' ++ [c] -> ~ In c set) -> m1 = m2.
Proof.
  intros E H1 H2 Hm1 Hm2.
  assert (K : rev m1 = rev m2).
  { apply (prefix_only_unique set (rev r1) (rev r2)).
    - rewrite <- !rev_app_distr, E. reflexivity.
    - apply Forall_rev. exact H1.
    - apply Forall_rev. exact H2.
    - intros c m' Er. apply (Hm1 c (rev m')). rewrite <- (rev_involutive m1), Er. reflexivity.
    - intros c m' Er. apply (Hm2 c (rev m')). rewrite <- (rev_involutive m2), Er. reflexivity. }
  rewrite <- (rev_involutive m1), K, rev_involutive. reflexivity.
Qed.

Lemma IsTrim_unique set s m1 m2 : IsTrim set s m1 -> IsTrim set s m2 -> m1 = m2.
Proof.
  intros (l1 & r1 & E1 & L1 & R1 & F1 & B1) (l2 & r2 & E2 & L2 & R2 & F2 & B2).
  assert (Nil : forall l m r, s = l ++ m ++ r -> only set l -> only set r -> m <> [] ->
     (forall c m', m = c :: m' -> ~ In c set) -> ~ only set s).
  { intros l m r -> _ _ Hn Hf Ho. apply Forall_app in Ho. destruct Ho as [_ Ho]. apply Forall_app in Ho. destruct Ho as [Ho _].
    destruct m as [|c m]; [congruence|]. inversion Ho; subst. eapply Hf; eauto. }
  destruct m1 as [|c1 m1].
  - destruct m2 as [|c2 m2]; [reflexivity|]. exfalso. apply (Nil l2 (c2 :: m2) r2 E2 L2 R2 ltac:(discriminate) F2).
    rewrite E1. cbn. apply Forall_app. auto.
  - destruct m2 as [|c2 m2].
    + exfalso. apply (Nil l1 (c1 :: m1) r1 E1 L1 R1 ltac:(discriminate) F1). rewrite E2. cbn. apply Forall_app. auto.
    + assert (E : (c1 :: m1) ++ r1 = (c2 :: m2) ++ r2).
      { apply (prefix_only_unique set l1 l2); [congruence|assumption|assumption| |].
        - intros c m' E. cbn in E. inversion E; subst. eapply F1; reflexivity.
        - intros c m' E. cbn in E. inversion E; subst. eapply F2; reflexivity. }
      eapply suffix_only_unique; eauto.
Qed.

Lemma trim_iff s set m : fits s -> (trim_str s set = Ok m <-> IsTrim set s m).
Proof.
  intros Hf. destruct (trim_spec s set Hf) as (m0 & E & H). split.
  - intros E'. rewrite E in E'. inversion E'; subst. exact H.
  - intros H'. rewrite E. f_equal. eapply IsTrim_unique; eauto.
Qed.

Lemma IsTrim_idem set s m : IsTrim set s m -> IsTrim set m m.
Proof.
  intros (l & r & _ & _ & _ & F & B). exists [], []. cbn. rewrite app_nil_r. repeat split; auto; constructor.
Qed.
Lemma IsTrim_fits set s m : fits s -> IsTrim set s m -> fits m.
Proof. intros Hf (l & r & -> & _). apply fits_app_r in Hf. apply fits_app_l in Hf. exact Hf. Qed.

Lemma trim_right_iff s set m : fits s -> (trim_right_str s set = Ok m <-> IsTrimRight set s m).
Proof.
  intros Hf. assert (K : exists m0, trim_right_str s set = Ok m0 /\ IsTrimRight set s m0).
  { unfold trim_right_str, find_last_not_of.
    destruct (split_last (fun c => negb (mem set c)) s) as [Hall|(a & d & b & -> & Hd & Hb)].
    - rewrite find_last_miss by exact Hall. exists []. split.
      + change (wadd 1 npos) with 0. apply (substr_head [] s). reflexivity.
      + exists s. apply Forall_nmem_only in Hall. split; [reflexivity|]. split; [exact Hall|]. intros ? [|? ?]; discriminate.
    - rewrite find_last_hit by assumption. apply fits_lt in Hf. rewrite size_app, size_cons in Hf.
      pose proof (size_nonneg a). pose proof (size_nonneg b). rewrite wadd_small by lia.
      replace (a ++ d :: b) with ((a ++ [d]) ++ b) by (rewrite <- app_assoc; reflexivity).
      rewrite substr_head by (rewrite size_app, size_cons, size_nil; lia).
      eexists; split; [reflexivity|]. exists b. apply Forall_nmem_only in Hb. split; [reflexivity|]. split; [exact Hb|].
      intros c m' E. apply app_inj_tail in E. destruct E as [_ <-]. apply nmem_true. exact Hd. }
  destruct K as (m0 & E & r0 & E0 & R0 & B0). split.
  - intros E'. rewrite E in E'. inversion E'; subst. exists r0. auto.
  - intros (r & E1 & R1 & B1). rewrite E. f_equal. apply (suffix_only_unique set r0 r); [congruence|assumption..].
Qed.

(* ---------- split ---------- *)
Lemma free_not_nil_only set w : w <> [] -> free set w -> ~ only set w.
Proof. destruct w as [|c w]; [congruence|]. intros _ F O. inversion F; inversion O; subst; auto. Qed.

Lemma split_loop_spec sep pre : forall fuel l,
  (length l < fuel)%nat -> fits (pre ++ l) ->
  exists ws, split_loop fuel (pre ++ l) sep (find_first_not_of (pre ++ l) sep (size_ pre)) = Ok ws /\ Split sep l ws.
Proof.
  intros fuel. revert pre. induction fuel as [|fuel IH]; intros pre l Hlen Hf; [lia|].
  unfold find_first_not_of.
  destruct (split_first (fun c => negb (mem sep c)) l) as [Hall|(a & c & b & -> & Hc & Ha)].
  - rewrite find_first_miss by exact Hall. cbn [split_loop]. rewrite Z.eqb_refl. exists []. split; [reflexivity|].
    constructor. apply Forall_nmem_only. exact Hall.
  - rewrite find_first_hit by assumption.
    assert (Hs := Hf). apply fits_lt in Hs. rewrite !size_app, size_cons in Hs.
    pose proof (size_nonneg pre). pose proof (size_nonneg a). pose proof (size_nonneg b).
    cbn [split_loop]. destruct (Z.eqb_spec (size_ pre + size_ a) npos) as [E|_]; [rewrite npos_val in E; lia|].
    rewrite <- size_app. unfold find_first_of. apply Forall_nmem_only in Ha. apply nmem_true in Hc.
    destruct (split_first (mem sep) (c :: b)) as [Hall|(w & d & r & Ew & Hd & Hw)].
    + rewrite (app_assoc pre a (c :: b)). rewrite find_first_miss by exact Hall.
      rewrite substr_tail.
      2: { rewrite wsub_small by (rewrite npos_val, size_app; lia). rewrite npos_val, size_app, size_cons. lia. }
      cbn [bind]. unfold find_first_not_of. rewrite find_first_npos by (rewrite <- app_assoc; exact Hf).
      destruct fuel; cbn [split_loop]; [rewrite app_length in Hlen; cbn in Hlen; lia|].
      rewrite Z.eqb_refl. cbn [bind]. exists [c :: b]. split; [reflexivity|].
      rewrite <- (app_nil_r (c :: b)) at 1. apply Split_word; [exact Ha|discriminate|apply Forall_mem_free; exact Hall|left; reflexivity|constructor; constructor].
    + rewrite Ew in *. rewrite (app_assoc pre a). rewrite find_first_hit; [|rewrite <- app_assoc; exact Hf|exact Hw|exact Hd].
      assert (Hsz : size_ (c :: b) = size_ (w ++ d :: r)) by (rewrite Ew; reflexivity).
      rewrite size_app, !size_cons in Hsz.
      pose proof (size_nonneg w). pose proof (size_nonneg r).
      rewrite wsub_small by (rewrite size_app; lia).
      replace (size_ (pre ++ a) + size_ w - size_ (pre ++ a)) with (size_ w) by lia.
      rewrite substr_mid by reflexivity. cbn [bind].
      rewrite <- (size_app (pre ++ a) w). rewrite (app_assoc (pre ++ a) w (d :: r)).
      assert (Hwn : w <> []).
      { intros ->. cbn in Ew. inversion Ew; subst. apply mem_In in Hd. contradiction. }
      destruct (IH ((pre ++ a) ++ w) (d :: r)) as (ws & E & Hsp).
      * rewrite !app_length in Hlen. destruct w; [congruence|]. cbn in *. lia.
      * rewrite <- !app_assoc. exact Hf.
      * rewrite E. cbn [bind]. exists (w :: ws). split; [reflexivity|].
        apply Split_word; [exact Ha|exact Hwn|apply Forall_mem_free; exact Hw| |exact Hsp].
        right. exists d, r. split; [reflexivity|apply mem_In; exact Hd].
Qed.

Lemma split_main s seps : fits s -> exists ws, split_str s seps = Ok ws /\ Split (cstr seps) s ws.
Proof. intros Hf. apply (split_loop_spec (cstr seps) [] (S (length s)) s); [lia|exact Hf]. Qed.

Lemma word_unique set w1 r1 w2 r2 : w1 ++ r1 = w2 ++ r2 -> free set w1 -> free set w2 ->
  (r1 = [] \/ exists c r', r1 = c :: r' /\ In c set) -> (r2 = [] \/ exists c r', r2 = c :: r' /\ In c set) ->
  w1 = w2 /\ r1 = r2.
Proof.
  revert w2. induction w1 as [|x w1 IH]; intros [|y w2] E F1 F2 R1 R2; cbn in E.
  - auto.
  - exfalso. subst r1. inversion F2; subst. destruct R1 as [R|(c & r' & R & Hc)]; [discriminate|]. inversion R; subst. auto.
  - exfalso. subst r2. inversion F1; subst. destruct R2 as [R|(c & r' & R & Hc)]; [discriminate|]. inversion R; subst. auto.
  - inversion E; subst. inversion F1; inversion F2; subst. destruct (IH w2) as [-> ->]; auto.
Qed.

Lemma Split_unique seps s ws1 : Split seps s ws1 -> forall ws2, Split seps s ws2 -> ws1 = ws2.
Proof.
  induction 1 as [s Ho|l w r ws Hl Hn Hw Hr Hsp IH]; intros ws2 H2.
  - inversion H2 as [|l w r ws Hl Hn Hw Hr Hsp]; subst; [reflexivity|]. exfalso.
    apply Forall_app in Ho. destruct Ho as [_ Ho]. apply Forall_app in Ho. destruct Ho as [Ho _]. eapply free_not_nil_only; eauto.
  - inversion H2 as [s' Ho E|l' w' r' ws' Hl' Hn' Hw' Hr' Hsp' E]; subst.
    + exfalso. apply Forall_app in Ho. destruct Ho as [_ Ho]. apply Forall_app in Ho. destruct Ho as [Ho _]. eapply free_not_nil_only; eauto.
    + assert (E2 : w ++ r = w' ++ r').
      { symmetry. apply (prefix_only_unique seps l' l); [exact E|assumption|assumption| |].
        - intros c m' Em. destruct w' as [|x w']; [congruence|]. cbn in Em. inversion Em; subst. inversion Hw'; auto.
        - intros c m' Em. destruct w as [|x w]; [congruence|]. cbn in Em. inversion Em; subst. inversion Hw; auto. }
      destruct (word_unique seps w r w' r' E2 Hw Hw' Hr Hr') as [-> ->]. f_equal. apply IH. exact Hsp'.
Qed.

Lemma split_iff s seps ws : fits s -> (split_str s seps = Ok ws <-> Split (cstr seps) s ws).
Proof.
  intros Hf. destruct (split_main s seps Hf) as (ws0 & E & H). split.
  - intros E'. rewrite E in E'. inversion E'; subst. exact H.
  - intros H'. rewrite E. f_equal. eapply Split_unique; eauto.
Qed.

Lemma Split_join seps : forall rest w lead trail,
  only seps lead -> only seps trail -> w <> [] -> free seps w ->
  Forall (fun sw => fst sw <> [] /\ only seps (fst sw) /\ snd sw <> [] /\ free seps (snd sw)) rest ->
  Split seps (lead ++ join w rest ++ trail) (w :: map snd rest).
Proof.
  induction rest as [|[sep w'] rest IH]; intros w lead trail Hl Ht Hn Hw Hr; cbn [join map snd].
  - apply Split_word; [assumption..| |constructor; assumption].
    destruct trail as [|c t]; [left; reflexivity|right]. inversion Ht; subst. eauto.
  - inversion Hr as [|? ? (H1 & H2 & H3 & H4) Hr']; subst. cbn in H1, H2, H3, H4.
    rewrite <- !app_assoc. apply Split_word; [assumption..| |].
    + right. destruct sep as [|c sep]; [congruence|]. inversion H2; subst. cbn. eauto.
    + apply IH; assumption.
Qed.

(* ---------- begins / ends ---------- *)
Lemma begins_iff s t : fits s -> (str_begins_with s t = true <-> Prefix t s).
Proof.
  intros Hf. unfold str_begins_with, find, ret_pos. rewrite Z.eqb_eq. destruct (find_sub t s) as [n|] eqn:E.
  - apply find_sub_Some in E. destruct E as [H1 H2]. split.
    + intros H. apply OccursAt_0. replace 0%nat with n by lia. exact H1.
    + intros H. apply OccursAt_0 in H. apply H2 in H. lia.
  - rewrite npos_val. split; [lia|]. intros H. exfalso. apply OccursAt_0 in H. eapply find_sub_None; eauto.
Qed.

Lemma ends_iff s t : fits s ->
  (str_ends_with s t = true <-> Suffix t s /\ forall n, OccursAt t s n -> (n + length t = length s)%nat).
Proof.
  intros Hf. unfold str_ends_with. rewrite andb_true_iff, Z.leb_le, Z.eqb_eq. apply fits_lt in Hf.
  unfold find, ret_pos. destruct (find_sub t s) as [n|] eqn:E.
  - apply find_sub_Some in E. destruct E as [H1 H2]. pose proof (OccursAt_bound _ _ _ H1). split.
    + intros [Hs He]. rewrite wsub_small in He by (unfold size_ in *; lia). unfold size_ in *.
      split; [eapply OccursAt_end; [exact H1|lia]|]. intros m Hm. pose proof (OccursAt_bound _ _ _ Hm). apply H2 in Hm. lia.
    + intros [_ H3]. specialize (H3 n H1). unfold size_ in *. split; [lia|]. rewrite wsub_small by lia. lia.
  - split.
    + intros [Hs He]. rewrite wsub_small in He by (unfold size_ in *; lia). rewrite npos_val in He. unfold size_ in *. lia.
    + intros [[l ->] _]. exfalso. apply (proj1 (find_sub_None t (l ++ t)) E (length l)). exists l, []. rewrite app_nil_r. auto.
Qed.

(* ---------- left / right / mid ---------- *)
Lemma left_str_nonneg s n : 0 <= n -> left_str s n = Ok (firstn (Z.to_nat n) s).
Proof.
  intros Hn. unfold left_str. destruct (Z.leb_spec 0 n); [|lia]. unfold substr.
  pose proof (size_nonneg s). destruct (Z.ltb_spec (size_ s) 0); [lia|]. cbn [skipn Z.to_nat]. f_equal.
  rewrite Z.sub_0_r. unfold size_. destruct (Z.le_gt_cases n (Z.of_nat (length s))).
  - rewrite Z.min_l by lia. reflexivity.
  - rewrite Z.min_r by lia. rewrite Nat2Z.id, firstn_all. symmetry. apply firstn_all2. lia.
Qed.
Lemma left_str_neg s n : n < 0 -> left_str s n = Ok (firstn (length s - Z.to_nat (- n)) s).
Proof.
  intros Hn. unfold left_str. destruct (Z.leb_spec 0 n); [lia|]. unfold substr.
  pose proof (size_nonneg s). destruct (Z.ltb_spec (size_ s) 0); [lia|]. cbn [skipn Z.to_nat]. f_equal. f_equal.
  unfold size_ in *. lia.
Qed.
Lemma right_str_nonneg s n : 0 <= n < 2 ^ 31 -> fits s ->
  (n <= size_ s -> right_str s n = Ok (skipn (length s - Z.to_nat n) s)) /\ (size_ s < n -> right_str s n = Throw).
Proof.
  intros Hn Hf. apply fits_lt in Hf. pose proof (size_nonneg s). unfold right_str. destruct (Z.leb_spec 0 n); [|lia]. split; intros H1.
  - rewrite wsub_small by lia. unfold substr. destruct (Z.ltb_spec (size_ s) (size_ s - n)); [lia|].
    rewrite npos_val. rewrite Z.min_r by lia. f_equal. rewrite firstn_all2.
    + f_equal. unfold size_. lia.
    + rewrite skipn_length. unfold size_ in *. lia.
  - unfold wsub, two64. replace ((size_ s - n) mod 2 ^ 64) with (size_ s - n + 2 ^ 64).
    + unfold substr. destruct (Z.ltb_spec (size_ s) (size_ s - n + 2 ^ 64)); [reflexivity|lia].
    + replace (size_ s - n) with ((size_ s - n + 2 ^ 64) + (-1) * 2 ^ 64) at 2 by lia. rewrite Z.mod_add by lia. rewrite Z.mod_small by lia. reflexivity.
Qed.
Lemma right_str_neg s n : - 2 ^ 31 < n < 0 -> fits s ->
  (- n <= size_ s -> right_str s n = Ok (skipn (Z.to_nat (- n)) s)) /\ (size_ s < - n -> right_str s n = Throw).
Proof.
  intros Hn Hf. apply fits_lt in Hf. unfold right_str. destruct (Z.leb_spec 0 n); [lia|].
  destruct (Z.eqb_spec n (- 2 ^ 31)); [lia|]. unfold substr. split; intros H1; destruct (Z.ltb_spec (size_ s) (- n)); try lia; [|reflexivity].
  f_equal. apply firstn_all2. rewrite skipn_length. rewrite npos_val. unfold size_ in *. lia.
Qed.
Lemma right_str_min s : right_str s (- 2 ^ 31) = UB.
Proof. reflexivity. Qed.
Lemma mid_str_iff s pos n : 0 <= pos -> 0 <= n ->
  (pos <= size_ s -> mid_str s pos n = Ok (firstn (Z.to_nat n) (skipn (Z.to_nat pos) s))) /\ (size_ s < pos -> mid_str s pos n = Throw).
Proof.
  intros Hp Hn. unfold mid_str, substr. split; intros H; destruct (Z.ltb_spec (size_ s) pos); try lia; [|reflexivity]. f_equal.
  destruct (Z.le_gt_cases n (size_ s - pos)).
  - rewrite Z.min_l by lia. reflexivity.
  - rewrite Z.min_r by lia. rewrite !firstn_all2; [reflexivity| |]; rewrite skipn_length; unfold size_ in *; lia.
Qed.

(* text before the first / after the last separator *)
Lemma left_of_spec s seps : fits s ->
  (free (cstr seps) s -> left_of_str s seps = Ok s) /\
  (forall a c b, s = a ++ c :: b -> free (cstr seps) a -> In c (cstr seps) -> left_of_str s seps = Ok a).
Proof.
  intros Hf. unfold left_of_str, find_first_of. split.
  - intros H. apply Forall_mem_free in H. pose proof (find_first_miss (mem (cstr seps)) [] s H) as E. cbn [app] in E. rewrite size_nil in E. rewrite E.
    apply substr_all. apply fits_lt in Hf. rewrite npos_val. lia.
  - intros a c b -> Ha Hc. apply Forall_mem_free in Ha. apply mem_In in Hc.
    pose proof (find_first_hit (mem (cstr seps)) [] a c b Hf Ha Hc) as E. cbn [app] in E. rewrite size_nil in E. rewrite E.
    apply substr_head. lia.
Qed.
Lemma right_of_spec s seps : fits s ->
  (free (cstr seps) s -> right_of_str s seps = Ok s) /\
  (forall a c b, s = a ++ c :: b -> In c (cstr seps) -> free (cstr seps) b -> right_of_str s seps = Ok b).
Proof.
  intros Hf. unfold right_of_str, find_last_of. split.
  - intros H. apply Forall_mem_free in H. rewrite (find_last_miss _ _ H). reflexivity.
  - intros a c b -> Hc Hb. apply Forall_mem_free in Hb. apply mem_In in Hc. rewrite (find_last_hit _ a c b Hc Hb).
    apply fits_lt in Hf. rewrite size_app, size_cons in Hf. pose proof (size_nonneg a). pose proof (size_nonneg b).
    destruct (Z.eqb_spec (size_ a) npos) as [E|_]; [rewrite npos_val in E; lia|]. rewrite wadd_small by lia.
    replace (a ++ c :: b) with ((a ++ [c]) ++ b) by (rewrite <- app_assoc; reflexivity).
    replace (size_ a + 1) with (size_ (a ++ [c])) by (rewrite size_app, size_cons, size_nil; lia).
    apply substr_tail. rewrite npos_val. lia.
Qed.

(* ---------- key / value ---------- *)
Lemma key_value_spec s seps : fits s ->
  (free (cstr seps) s -> make_key_value_str s seps = Ok (s, [])) /\
  (forall a c b, s = a ++ c :: b -> free (cstr seps) a -> In c (cstr seps) ->
     exists k v, make_key_value_str s seps = Ok (k, v) /\ IsTrim default_delimiters a k /\ IsTrim default_delimiters b v).
Proof.
  intros Hf. unfold make_key_value_str, find_first_of. split.
  - intros H. apply Forall_mem_free in H. pose proof (find_first_miss (mem (cstr seps)) [] s H) as E. cbn [app] in E. rewrite size_nil in E. rewrite E. reflexivity.
  - intros a c b -> Ha Hc. apply Forall_mem_free in Ha. apply mem_In in Hc.
    pose proof (find_first_hit (mem (cstr seps)) [] a c b Hf Ha Hc) as E. cbn [app] in E. rewrite size_nil in E. rewrite E.
    assert (Hs := Hf). apply fits_lt in Hs. rewrite size_app, size_cons in Hs. pose proof (size_nonneg a). pose proof (size_nonneg b).
    rewrite Z.add_0_l. destruct (Z.eqb_spec (size_ a) npos) as [E'|_]; [rewrite npos_val in E'; lia|].
    rewrite substr_head by reflexivity. cbn [bind].
    destruct (trim_spec a default_delimiters (fits_app_l _ _ Hf)) as (k & -> & Hk). cbn [bind].
    rewrite wadd_small by lia. unfold mid_str.
    assert (E2 : substr (a ++ c :: b) (size_ a + 1) npos = Ok b).
    { replace (a ++ c :: b) with ((a ++ [c]) ++ b) by (rewrite <- app_assoc; reflexivity).
      replace (size_ a + 1) with (size_ (a ++ [c])) by (rewrite size_app, size_cons, size_nil; lia).
      apply substr_tail. rewrite npos_val. lia. }
    rewrite E2. cbn [bind].
    assert (Hfb : fits b) by (apply fits_intro; lia).
    destruct (trim_spec b default_delimiters Hfb) as (v & -> & Hv). cbn [bind]. eauto.
Qed.

(* ---------- file names ---------- *)
Lemma ext_spec s : fits s -> exists e, get_filename_ext s = Ok e /\ free SEPS e /\ free ["."%char] e /\
  (e <> [] -> exists b, s = b ++ "."%char :: e /\ get_filename_without_ext s = Ok b) /\
  (e = [] -> get_filename_without_ext s = Ok s) /\
  (forall b e', s = b ++ "."%char :: e' -> free SEPS e' -> free ["."%char] e' -> e = e').
Proof.
  intros Hf. unfold get_filename_without_ext. unfold get_filename_ext, find_last_of.
  assert (Hs := Hf). apply fits_lt in Hs. pose proof (size_nonneg s).
  assert (Hall : substr s 0 (wsub (size_ s) 0) = Ok s).
  { rewrite wsub_small by lia. apply substr_all. lia. }
  destruct (split_last (mem ["."%char]) s) as [Hd|(a & c & b & -> & Hc & Hb)].
  - rewrite (find_last_miss _ _ Hd). cbn [bind Z.eqb]. change (npos =? npos) with true. cbn [bind].
    exists []. split; [reflexivity|]. split; [constructor|]. split; [constructor|]. split; [congruence|]. split; [intros _; exact Hall|].
    intros b e' -> _ _. exfalso. apply Forall_mem_free, Forall_app in Hd. destruct Hd as [_ Hd]. inversion Hd; subst. apply H2. left. reflexivity.
  - apply mem_In in Hc as Hc'. destruct Hc' as [<-|[]]. rewrite (find_last_hit _ a _ b Hc Hb).
    rewrite size_app, size_cons in Hs. pose proof (size_nonneg a). pose proof (size_nonneg b).
    destruct (Z.eqb_spec (size_ a) npos) as [E|_]; [rewrite npos_val in E; lia|]. rewrite wadd_small by lia.
    assert (E2 : substr (a ++ "."%char :: b) (size_ a + 1) npos = Ok b).
    { replace (a ++ "."%char :: b) with ((a ++ ["."%char]) ++ b) by (rewrite <- app_assoc; reflexivity).
      replace (size_ a + 1) with (size_ (a ++ ["."%char])) by (rewrite size_app, size_cons, size_nil; lia).
      apply substr_tail. rewrite npos_val. lia. }
    rewrite E2. cbn [bind]. apply Forall_mem_free in Hb.
    assert (Huniq : forall b0 e', a ++ "."%char :: b = b0 ++ "."%char :: e' -> free ["."%char] e' -> b = e').
    { intros b0 e' E Fe.
      assert (K : rev b ++ "."%char :: rev a = rev e' ++ "."%char :: rev b0).
      { rewrite <- (rev_involutive (rev b ++ _)), <- (rev_involutive (rev e' ++ _)). f_equal. rewrite !rev_app_distr. cbn [rev]. rewrite !rev_involutive, <- !app_assoc. exact E. }
      apply (word_unique ["."%char]) in K; [|apply Forall_rev; assumption|apply Forall_rev; assumption|right; eexists _, _; split; [reflexivity|left; reflexivity]|right; eexists _, _; split; [reflexivity|left; reflexivity]].
      destruct K as [K _]. rewrite <- (rev_involutive b), K, rev_involutive. reflexivity. }
    destruct (split_last (mem SEPS) b) as [Hsep|(x & d & y & E & Hd & Hy)].
    + rewrite (find_last_miss _ _ Hsep). change (npos =? npos) with true. cbn [bind].
      exists b. split; [reflexivity|]. apply Forall_mem_free in Hsep. split; [exact Hsep|]. split; [exact Hb|]. split; [|split].
      * intros Hn. exists a. split; [reflexivity|]. destruct (Z.ltb_spec 0 (size_ b)) as [Hlt|Hge].
        -- rewrite wadd_small by lia. rewrite size_app, size_cons. rewrite wsub_small by lia.
           replace (size_ a + (1 + size_ b) - (size_ b + 1)) with (size_ a) by lia. apply substr_head. reflexivity.
        -- destruct b; [congruence|]. rewrite size_cons in Hge. pose proof (size_nonneg b). lia.
      * intros ->. cbn [size_ length Z.ltb]. exact Hall.
      * intros b0 e' E Hsp Hdot. apply (Huniq b0 e' E Hdot).
    + subst b. rewrite (find_last_hit _ x d y Hd Hy).
      destruct (Z.eqb_spec (size_ x) npos) as [E|_].
      { rewrite size_app in *. rewrite npos_val in E. pose proof (size_nonneg (d :: y)). lia. }
      cbn [bind]. exists []. split; [reflexivity|]. split; [constructor|]. split; [constructor|]. split; [congruence|]. split; [intros _; exact Hall|].
      intros b0 e' E Hsp Hdot. exfalso. pose proof (Huniq b0 e' E Hdot) as X. rewrite <- X in Hsp. apply Forall_app in Hsp. destruct Hsp as [_ Hsp].
      inversion Hsp; subst. apply mem_In in Hd. contradiction.
Qed.

Lemma folder_spec s : fits s ->
  (free SEPS s -> get_filename_folder s = Ok s /\ get_filename_without_folder s = Ok s) /\
  (forall a c b, s = a ++ c :: b -> In c SEPS -> free SEPS b ->
     get_filename_folder s = Ok (a ++ [c]) /\ get_filename_without_folder s = Ok b).
Proof.
  intros Hf. unfold get_filename_folder, get_filename_without_folder, find_last_of. split.
  - intros H. apply Forall_mem_free in H. rewrite (find_last_miss _ _ H). split; reflexivity.
  - intros a c b -> Hc Hb. apply Forall_mem_free in Hb. apply mem_In in Hc. rewrite (find_last_hit _ a c b Hc Hb).
    apply fits_lt in Hf. rewrite size_app, size_cons in Hf. pose proof (size_nonneg a). pose proof (size_nonneg b).
    destruct (Z.eqb_spec (size_ a) npos) as [E|_]; [rewrite npos_val in E; lia|]. rewrite wadd_small by lia.
    replace (a ++ c :: b) with ((a ++ [c]) ++ b) by (rewrite <- app_assoc; reflexivity).
    replace (size_ a + 1) with (size_ (a ++ [c])) by (rewrite size_app, size_cons, size_nil; lia). split.
    + apply substr_head. reflexivity.
    + apply substr_tail. rewrite npos_val. lia.
Qed.
