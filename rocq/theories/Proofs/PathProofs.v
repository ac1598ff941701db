From Verif Require Import Model.Base Proofs.BaseFacts Model.StdString Model.Strings Model.Path.
From Verif Require Import Spec.Strings Proofs.StringFacts Proofs.StringsProofs.
Local Open Scope Z_scope.

Definition ends_sep (p : str) : Prop := exists a c, p = a ++ [c] /\ In c SEPS.

Lemma sep_cases d : free SEPS d \/ exists a c b, d = a ++ c :: b /\ In c SEPS /\ free SEPS b.
Proof.
  destruct (split_last (mem SEPS) d) as [H|(a & c & b & -> & Hc & Hb)].
  - left. apply Forall_mem_free. exact H.
  - right. exists a, c, b. apply mem_In in Hc. apply Forall_mem_free in Hb. auto.
Qed.

Lemma last_sep_none d : free SEPS d -> last_separator_pos d = npos.
Proof. intros H. apply Forall_mem_free in H. apply find_last_miss. exact H. Qed.
Lemma last_sep_some a c b : In c SEPS -> free SEPS b -> last_separator_pos (a ++ c :: b) = size_ a.
Proof. intros Hc Hb. apply mem_In in Hc. apply Forall_mem_free in Hb. apply find_last_hit; assumption. Qed.

Lemma pos_neq a b : fits (a ++ b) -> (size_ a =? npos) = false.
Proof.
  intros H. apply fits_app_l, fits_lt in H. apply Z.eqb_neq. rewrite npos_val. lia.
Qed.

Lemma tail_after a c b : fits (a ++ c :: b) -> substr (a ++ c :: b) (wadd (size_ a) 1) npos = Ok b.
Proof.
  intros Hf. apply fits_lt in Hf. rewrite size_app, size_cons in Hf. pose proof (size_nonneg a). pose proof (size_nonneg b).
  rewrite wadd_small by lia. replace (a ++ c :: b) with ((a ++ [c]) ++ b) by (rewrite <- app_assoc; reflexivity).
  replace (size_ a + 1) with (size_ (a ++ [c])) by (rewrite size_app, size_cons, size_nil; lia).
  apply substr_tail. rewrite npos_val. lia.
Qed.

Lemma parent_filename d : fits d ->
  (free SEPS d -> parent_path d = Ok [] /\ filename d = Ok [] /\ has_parent_path d = false) /\
  (forall a c b, d = a ++ c :: b -> In c SEPS -> free SEPS b ->
     parent_path d = Ok a /\ filename d = Ok b /\ has_parent_path d = true).
Proof.
  intros Hf. unfold parent_path, filename, has_parent_path. split.
  - intros H. rewrite last_sep_none by assumption. split; [reflexivity|split; reflexivity].
  - intros a c b -> Hc Hb. rewrite last_sep_some by assumption. rewrite (pos_neq _ _ Hf). split; [|split].
    + apply substr_head. reflexivity.
    + apply tail_after. exact Hf.
    + reflexivity.
Qed.

Lemma has_filename_iff d : fits d -> (has_filename d = false <-> d = [] \/ ends_sep d).
Proof.
  intros Hf. unfold has_filename. rewrite negb_false_iff, Z.eqb_eq.
  destruct (sep_cases d) as [H|(a & c & b & -> & Hc & Hb)].
  - rewrite last_sep_none by assumption. destruct d as [|x d].
    + split; [auto|reflexivity].
    + apply fits_lt in Hf. rewrite size_cons in *. pose proof (size_nonneg d). rewrite wsub_small by lia. rewrite npos_val. split; [lia|].
      intros [E|(a & c & E & Hc)]; [discriminate|]. rewrite E in H. apply Forall_app in H. destruct H as [_ H]. inversion H; contradiction.
  - rewrite last_sep_some by assumption. apply fits_lt in Hf. rewrite size_app, size_cons in *. pose proof (size_nonneg a). pose proof (size_nonneg b). rewrite wsub_small by lia.
    split.
    + intros E. right. destruct b as [|x b]; [|rewrite size_cons in E; pose proof (size_nonneg b); lia]. exists a, c. auto.
    + intros [E|(a' & c' & E & Hc')]; [destruct a; discriminate|].
      destruct b as [|x b]; [rewrite size_nil; lia|]. exfalso.
      assert (Hlast : In (last (x :: b) x) SEPS).
      { assert (E2 : a ++ c :: x :: b = (a ++ c :: removelast (x :: b)) ++ [last (x :: b) x]).
        { rewrite <- app_assoc. cbn [app]. rewrite <- app_removelast_last by discriminate. reflexivity. }
        rewrite E2 in E. apply app_inj_tail in E. destruct E as [_ ->]. exact Hc'. }
      assert (Hl2 : In (last (x :: b) x) (x :: b)).
      { rewrite (app_removelast_last x (l := x :: b)) at 2 by discriminate. apply in_or_app. right. left. reflexivity. }
      pose proof (proj1 (Forall_forall _ _) Hb _ Hl2) as N. contradiction.
Qed.

Lemma join_file p f : fits (p ++ preferred_separator :: f) -> p <> [] -> free SEPS f ->
  (~ ends_sep p -> join_path p f = p ++ preferred_separator :: f /\
     filename (join_path p f) = Ok f /\ parent_path (join_path p f) = Ok p) /\
  (forall q c, p = q ++ [c] -> In c SEPS -> join_path p f = p ++ f /\
     filename (join_path p f) = Ok f /\ parent_path (join_path p f) = Ok q).
Proof.
  intros Hf Hn Hfree. assert (Hp : fits p) by (apply fits_app_l in Hf; exact Hf). split.
  - intros He. assert (E : join_path p f = p ++ preferred_separator :: f).
    { unfold join_path. destruct (has_filename p) eqn:E; [reflexivity|]. apply has_filename_iff in E; [|exact Hp]. destruct E; contradiction. }
    rewrite E. split; [reflexivity|]. destruct (parent_filename _ Hf) as [_ K].
    destruct (K p preferred_separator f eq_refl) as (K1 & K2 & _); [left; reflexivity|assumption|]. auto.
  - intros q c -> Hc. assert (E : join_path (q ++ [c]) f = (q ++ [c]) ++ f).
    { unfold join_path. destruct (has_filename (q ++ [c])) eqn:E; [|reflexivity].
      assert (has_filename (q ++ [c]) = false) by (apply has_filename_iff; [exact Hp|right; exists q, c; auto]). congruence. }
    rewrite E. split; [reflexivity|]. rewrite <- app_assoc. cbn [app].
    assert (Hf2 : fits (q ++ c :: f)).
    { apply fits_intro. apply fits_lt in Hf. rewrite !size_app in *. rewrite !size_cons in *. rewrite size_nil in *. lia. }
    destruct (parent_filename _ Hf2) as [_ K]. destruct (K q c f eq_refl Hc Hfree) as (K1 & K2 & _). auto.
Qed.

Lemma recompose a c b : fits (a ++ c :: b) -> In c SEPS -> free SEPS b ->
  exists p f, parent_path (a ++ c :: b) = Ok p /\ filename (a ++ c :: b) = Ok f /\
    ((a <> [] /\ ~ ends_sep a) -> join_path p f = a ++ preferred_separator :: b) /\
    ((a = [] \/ ends_sep a) -> join_path p f = a ++ b).
Proof.
  intros Hf Hc Hb. destruct (parent_filename _ Hf) as [_ K]. destruct (K a c b eq_refl Hc Hb) as (K1 & K2 & _).
  exists a, b. split; [exact K1|]. split; [exact K2|]. apply fits_app_l in Hf. pose proof (has_filename_iff a Hf) as H. unfold join_path. split.
  - intros [Hn He]. destruct (has_filename a) eqn:E; [reflexivity|]. destruct (proj1 H eq_refl); contradiction.
  - intros E. apply H in E. rewrite E. reflexivity.
Qed.

Lemma replace_filename_spec d f : fits d ->
  (free SEPS d -> replace_filename d f = Ok f) /\
  (forall a c b, d = a ++ c :: b -> In c SEPS -> free SEPS b -> replace_filename d f = Ok (join_path a f)).
Proof.
  intros Hf. destruct (parent_filename d Hf) as [K1 K2]. unfold replace_filename. change (remove_filename d) with (parent_path d). split.
  - intros H. destruct (K1 H) as (-> & _). reflexivity.
  - intros a c b E Hc Hb. destruct (K2 a c b E Hc Hb) as (-> & _). reflexivity.
Qed.

Lemma dot_cases d : free ["."%char] d \/ exists a b, d = a ++ "."%char :: b /\ free ["."%char] b.
Proof.
  destruct (split_last (mem ["."%char]) d) as [H|(a & c & b & -> & Hc & Hb)].
  - left. apply Forall_mem_free. exact H.
  - right. apply mem_In in Hc. destruct Hc as [<-|[]]. exists a, b. apply Forall_mem_free in Hb. auto.
Qed.
Lemma last_dot_none d : free ["."%char] d -> find_last_of d ["."%char] = npos.
Proof. intros H. apply Forall_mem_free in H. apply find_last_miss. exact H. Qed.
Lemma last_dot_some a b : free ["."%char] b -> find_last_of (a ++ "."%char :: b) ["."%char] = size_ a.
Proof. intros Hb. apply Forall_mem_free in Hb. apply find_last_hit; [reflexivity|assumption]. Qed.

Lemma extension_spec d ext : fits d ->
  (free ["."%char] d -> extension d = Ok [] /\
     replace_extension d ext = d ++ match ext with [] => [] | _ => "."%char :: ext end) /\
  (forall a b, d = a ++ "."%char :: b -> free ["."%char] b -> extension d = Ok b /\
     replace_extension d ext = a ++ match ext with [] => [] | _ => "."%char :: ext end).
Proof.
  intros Hf. unfold extension, replace_extension. split.
  - intros H. rewrite last_dot_none by assumption. change (npos =? npos) with true. split; [reflexivity|].
    destruct ext; [rewrite app_nil_r|]; reflexivity.
  - intros a b -> Hb. rewrite last_dot_some by assumption. rewrite (pos_neq _ _ Hf). rewrite tail_after by exact Hf. split; [reflexivity|].
    rewrite to_nat_size, firstn_app, firstn_all, Nat.sub_diag. cbn [firstn]. rewrite app_nil_r. destruct ext; [rewrite app_nil_r|]; reflexivity.
Qed.

(* the file part of a path is what follows the last separator *)
Definition FilePart (d f : str) : Prop :=
  free SEPS f /\ (d = f \/ exists a c, d = a ++ c :: f /\ In c SEPS).

Lemma stem_spec d f : fits d -> FilePart d f ->
  (free ["."%char] f -> stem d = Ok f) /\
  (forall a b, f = a ++ "."%char :: b -> free ["."%char] b -> stem d = Ok a).
Proof.
  intros Hf [Hs Hd]. unfold stem.
  assert (K : exists pre, d = pre ++ f /\ (if last_separator_pos d =? npos then 0 else wadd (last_separator_pos d) 1) = size_ pre).
  { destruct Hd as [->|(a & c & -> & Hc)].
    - exists []. rewrite last_sep_none by assumption. auto.
    - exists (a ++ [c]). rewrite <- app_assoc. split; [reflexivity|]. rewrite last_sep_some by assumption. rewrite (pos_neq _ _ Hf).
      apply fits_lt in Hf. rewrite size_app, size_cons in Hf. pose proof (size_nonneg a). pose proof (size_nonneg f).
      rewrite wadd_small by lia. rewrite size_app, size_cons, size_nil. lia. }
  destruct K as (pre & -> & ->). assert (Hl := Hf). apply fits_lt in Hl. rewrite size_app in Hl. pose proof (size_nonneg pre). pose proof (size_nonneg f). split.
  - intros Hdot. destruct (dot_cases pre) as [Hp|(a & b & -> & Hb)].
    + rewrite last_dot_none by (apply Forall_app; auto). destruct (Z.leb_spec (size_ pre) npos) as [_|L]; [|rewrite npos_val in L; lia].
      apply substr_tail. rewrite wsub_small by (rewrite npos_val; lia). rewrite npos_val. lia.
    + rewrite <- app_assoc. cbn [app]. rewrite last_dot_some by (apply Forall_app; auto).
      rewrite size_app, size_cons in *. pose proof (size_nonneg a). pose proof (size_nonneg b).
      destruct (Z.leb_spec (size_ a + (1 + size_ b)) (size_ a)); [lia|].
      replace (a ++ "."%char :: b ++ f) with ((a ++ "."%char :: b) ++ f) by (rewrite <- app_assoc; reflexivity).
      replace (size_ a + (1 + size_ b)) with (size_ (a ++ "."%char :: b)) by (rewrite size_app, size_cons; lia).
      apply substr_tail. rewrite npos_val. lia.
  - intros a b -> Hb. rewrite (app_assoc pre a). rewrite last_dot_some by assumption. rewrite !size_app, size_cons in *.
    pose proof (size_nonneg a). pose proof (size_nonneg b). destruct (Z.leb_spec (size_ pre) (size_ pre + size_ a)); [|lia].
    rewrite wsub_small by lia. rewrite <- app_assoc. apply substr_mid. lia.
Qed.

Lemma make_preferred_spec d : length (make_preferred d) = length d /\ make_preferred (make_preferred d) = make_preferred d /\
  free [BSLASH] (make_preferred d) /\
  (forall i c, nth_error d i = Some c -> nth_error (make_preferred d) i = Some (if mem SEPS c then "/"%char else c)).
Proof.
  unfold make_preferred. split; [apply map_length|]. split; [|split].
  - rewrite map_map. apply map_ext. intros c. destruct ((c =? "/")%char || (c =? BSLASH)%char) eqn:E; [reflexivity|rewrite E; reflexivity].
  - apply Forall_forall. intros x Hx. apply in_map_iff in Hx. destruct Hx as (c & <- & _). destruct (_ || _) eqn:E.
    + intros [X|[]]; discriminate.
    + apply orb_false_iff in E. destruct E as [_ E]. apply Ascii.eqb_neq in E. intros [X|[]]; congruence.
  - intros i c H. rewrite nth_error_map, H. cbn [option_map mem existsb SEPS]. rewrite orb_false_r. reflexivity.
Qed.
