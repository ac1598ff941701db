(* tidy_identifier and clean_type_name against their descriptions. *)
From Coq Require Import String.
From Verif Require Import Model.Base Model.StdString Model.Strings Model.PropTree Model.PropNode Model.Identifier
  Spec.Strings Spec.PropNode Spec.Identifier Proofs.StringFacts Proofs.StringsProofs.
Local Open Scope Z_scope.
Local Open Scope list_scope.

Lemma last_part_spec s seps : fits s ->
  (free seps s /\ find_last_of s seps = npos) \/
  (exists l c t, s = l ++ c :: t /\ In c seps /\ free seps t /\ (find_last_of s seps =? npos) = false /\
     substr s (wadd (find_last_of s seps) 1) npos = Ok t).
Proof.
  intros Hf. unfold find_last_of.
  destruct (split_last (mem seps) s) as [Hall|(a & d & b & -> & Hd & Hb)].
  - left. split; [apply Forall_mem_free; exact Hall|apply find_last_miss; exact Hall].
  - right. exists a, d, b. split; [reflexivity|]. split; [apply mem_In; exact Hd|]. split; [apply Forall_mem_free; exact Hb|].
    rewrite find_last_hit by assumption. apply fits_lt in Hf. rewrite size_app, size_cons in Hf.
    pose proof (size_nonneg a). pose proof (size_nonneg b). split.
    + apply Z.eqb_neq. rewrite npos_val. lia.
    + rewrite wadd_small by lia. replace (a ++ d :: b) with ((a ++ [d]) ++ b) by (rewrite <- app_assoc; reflexivity).
      replace (size_ a + 1) with (size_ (a ++ [d])) by (rewrite size_app, size_cons, size_nil; lia).
      apply substr_tail. rewrite npos_val. lia.
Qed.

Lemma free_app set a b : free set (a ++ b) <-> free set a /\ free set b.
Proof. apply Forall_app. Qed.
Lemma last_part_unique seps l1 c1 t1 l2 c2 t2 : l1 ++ c1 :: t1 = l2 ++ c2 :: t2 ->
  In c1 seps -> In c2 seps -> free seps t1 -> free seps t2 -> t1 = t2.
Proof.
  intros E I1 I2 F1 F2. revert l2 E. induction l1 as [|x l1 IH]; intros [|y l2] E; cbn in E; inversion E; subst.
  - reflexivity.
  - apply free_app in F1. destruct F1 as [_ F1]. inversion F1; subst. contradiction.
  - apply free_app in F2. destruct F2 as [_ F2]. inversion F2; subst. contradiction.
  - eapply IH; eauto.
Qed.
Lemma LastPart_unique seps s t1 t2 : LastPart seps s t1 -> LastPart seps s t2 -> t1 = t2.
Proof.
  intros [F1 [->|(l1 & c1 & I1 & E1)]] [F2 [E2|(l2 & c2 & I2 & E2)]].
  - congruence.
  - rewrite E2 in F1. apply free_app in F1. destruct F1 as [_ F1]. inversion F1; subst. contradiction.
  - rewrite <- E2, E1 in F2. apply free_app in F2. destruct F2 as [_ F2]. inversion F2; subst. contradiction.
  - rewrite E1 in E2. eapply last_part_unique; eauto.
Qed.
Lemma clean_spec s : fits s -> exists t, clean_type_name s = Ok t /\ LastPart (lit ": ") s t.
Proof.
  intros Hf. unfold clean_type_name. destruct (last_part_spec s (lit ": ") Hf) as [[F E]|(l & c & t & E & I & F & N & S)].
  - rewrite E. exists s. split; [reflexivity|]. split; auto.
  - rewrite N. cbn [negb]. exists t. split; [exact S|]. split; [exact F|]. right. exists l, c. auto.
Qed.

Lemma not_free_colon l t : ~ free [":"%char] (l ++ ":"%char :: t).
Proof. intros H. apply free_app in H. destruct H as [_ H]. inversion H as [|? ? N _]; subst. apply N. left. reflexivity. Qed.
Lemma trim_right_total s set : fits s -> exists m, trim_right_str s set = Ok m /\ IsTrimRight set s m.
Proof.
  intros Hf. assert (K : exists m, IsTrimRight set s m).
  { destruct (split_last (fun c => negb (mem set c)) s) as [Hall|(a & d & b & -> & Hd & Hb)].
    - exists [], s. split; [reflexivity|]. split; [apply Forall_nmem_only; exact Hall|]. intros ? [|? ?]; discriminate.
    - exists (a ++ [d]), b. split; [rewrite <- app_assoc; reflexivity|]. split; [apply Forall_nmem_only; exact Hb|].
      intros c m' E. apply app_inj_tail in E. destruct E as [_ <-]. apply nmem_true. exact Hd. }
  destruct K as [m H]. exists m. split; [apply trim_right_iff; assumption|exact H].
Qed.
Lemma tidy_spec id : fits id -> exists n, tidy_identifier id = Ok n /\ Tidy id n.
Proof.
  intros Hf. unfold tidy_identifier. destruct (last_part_spec id (lit ":") Hf) as [[F E]|(l & c & t & E & I & F & N & S)].
  - rewrite E. cbn [negb Z.eqb]. rewrite Z.eqb_refl. cbn [negb]. destruct (str_begins_with id (lit "m_")) eqn:B.
    + apply begins_iff in B; [|exact Hf]. destruct B as [t ->].
      change (lit "m_" ++ t) with (lit "m_" ++ t) in *. replace 2 with (size_ (lit "m_")) by reflexivity.
      rewrite substr_tail by (pose proof (fits_lt _ (fits_app_r _ _ Hf)); rewrite npos_val; lia). cbn [bind].
      destruct (trim_right_total t (lit "_") (fits_app_r _ _ Hf)) as (m & -> & H). exists m. split; [reflexivity|].
      apply free_app in F. apply (Tidy_member t m); [apply F|exact H].
    + destruct (trim_spec id (lit "_") Hf) as (m & -> & H). exists m. split; [reflexivity|].
      apply Tidy_plain; [exact F| |exact H]. intros P. apply (begins_iff id (lit "m_") Hf) in P. congruence.
  - rewrite N. cbn [negb]. rewrite S. cbn [bind]. destruct I as [<-|[]]. subst id.
    assert (Ht : fits t) by (apply fits_app_r in Hf; apply (fits_app_r [":"%char]); exact Hf).
    destruct (trim_spec t (lit "_") Ht) as (m & -> & H). exists m. split; [reflexivity|]. apply Tidy_qualified; assumption.
Qed.
Lemma IsTrimRight_unique set s m1 m2 : IsTrimRight set s m1 -> IsTrimRight set s m2 -> m1 = m2.
Proof.
  intros (r1 & E1 & O1 & B1) (r2 & E2 & O2 & B2). apply (suffix_only_unique set r1 r2); [congruence|assumption..].
Qed.
Lemma Tidy_unique id n1 n2 : Tidy id n1 -> Tidy id n2 -> n1 = n2.
Proof.
  intros H1 H2. destruct H1 as [l1 t1 n1 F1 T1|t1 n1 F1 T1|t1 n1 F1 P1 T1]; inversion H2 as [l2 t2 n F2 T2 E|t2 n F2 T2 E|t2 n F2 P2 T2 E]; subst.
  - assert (t2 = t1) by (eapply (last_part_unique [":"%char]); eauto; left; reflexivity). subst. eapply IsTrim_unique; eauto.
  - exfalso. assert (X : free [":"%char] ("m"%char :: "_"%char :: t2)).
    { constructor; [intros [X|[]]; discriminate|]. constructor; [intros [X|[]]; discriminate|exact F2]. }
    rewrite E in X. apply not_free_colon in X. exact X.
  - exfalso. apply not_free_colon in F2. exact F2.
  - exfalso. assert (X : free [":"%char] ("m"%char :: "_"%char :: t1)).
    { constructor; [intros [X|[]]; discriminate|]. constructor; [intros [X|[]]; discriminate|exact F1]. }
    rewrite <- E in X. apply not_free_colon in X. exact X.
  - eapply IsTrimRight_unique; eauto.
  - exfalso. apply P2. exists t1. reflexivity.
  - exfalso. apply not_free_colon in F1. exact F1.
  - exfalso. apply P1. exists t2. reflexivity.
  - eapply IsTrim_unique; eauto.
Qed.
Lemma tidy_iff id n : fits id -> (tidy_identifier id = Ok n <-> Tidy id n).
Proof.
  intros Hf. destruct (tidy_spec id Hf) as (m & E & H). split; [intros X; rewrite E in X; inversion X; subst; exact H|].
  intros X. rewrite E. f_equal. eapply Tidy_unique; eauto.
Qed.
Lemma Tidy_free id n : Tidy id n -> free [":"%char] n /\ (forall c r, n = r ++ [c] -> c <> "_"%char).
Proof.
  intros [l t m F (a & b & E & _ & _ & _ & B)|t m F (b & E & _ & B)|t m F _ (a & b & E & _ & _ & _ & B)]; subst.
  - rewrite !free_app in F. split; [apply F|]. intros c r E ->. apply (B _ _ E). left. reflexivity.
  - rewrite free_app in F. split; [apply F|]. intros c r E ->. apply (B _ _ E). left. reflexivity.
  - rewrite !free_app in F. split; [apply F|]. intros c r E ->. apply (B _ _ E). left. reflexivity.
Qed.
(* decorations of a bare name *)
Lemma Bare_IsTrim n l r : Bare n -> only ["_"%char] l -> only ["_"%char] r -> IsTrim ["_"%char] (l ++ n ++ r) n.
Proof.
  intros (_ & _ & _ & A & B) L R. exists l, r. split; [reflexivity|]. split; [exact L|]. split; [exact R|].
  split; [intros c m E [X|[]]; apply (A _ _ E); auto|intros c m E [X|[]]; apply (B _ _ E); auto].
Qed.
Lemma only_free l : only ["_"%char] l -> free [":"%char] l.
Proof. intros H. eapply Forall_impl; [|exact H]. intros c [<-|[]] [X|[]]. discriminate. Qed.
Lemma Bare_plain n l r : Bare n -> n <> ["m"%char] -> only ["_"%char] l -> only ["_"%char] r -> Tidy (l ++ n ++ r) n.
Proof.
  intros H NM L R. apply Tidy_plain.
  - rewrite !free_app. split; [apply only_free; exact L|]. split; [apply H|apply only_free; exact R].
  - intros [t E]. destruct L as [|c l [<-|[]] L]; cbn in E; [|discriminate].
    destruct H as (NE & _ & P & A & B). destruct n as [|x [|y n]]; [congruence| |].
    + cbn in E. inversion E; subst. congruence.
    + inversion E; subst. apply P. exists n. reflexivity.
  - apply Bare_IsTrim; assumption.
Qed.
Lemma Bare_member n r : Bare n -> only ["_"%char] r -> Tidy ("m"%char :: "_"%char :: n ++ r) n.
Proof.
  intros H R. apply Tidy_member.
  - rewrite free_app. split; [apply H|apply only_free; exact R].
  - exists r. split; [reflexivity|]. split; [exact R|]. intros c m E [X|[]]. apply (proj2 (proj2 (proj2 (proj2 H))) _ _ E). auto.
Qed.
Lemma Bare_qualified n q l r : Bare n -> only ["_"%char] l -> only ["_"%char] r -> Tidy (q ++ ":"%char :: l ++ n ++ r) n.
Proof.
  intros H L R. apply Tidy_qualified; [|apply Bare_IsTrim; assumption].
  rewrite !free_app. split; [apply only_free; exact L|]. split; [apply H|apply only_free; exact R].
Qed.
