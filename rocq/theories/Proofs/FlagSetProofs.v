From Verif Require Import Model.Base Proofs.BaseFacts Model.FlagSet Spec.FlagSet.
Local Open Scope Z_scope.

Definition shiftable (w i : Z) : Prop := 0 <= i < shift_width w.
Lemma bit_ok w i b : shiftable w i -> storage_bit_value w i b = Ok (Z.shiftl (if b then 1 else 0) i mod 2 ^ w).
Proof. intros [A B]. unfold storage_bit_value. destruct (Z.leb_spec 0 i); [|lia]. destruct (Z.ltb_spec i (shift_width w)); [reflexivity|lia]. Qed.
Lemma bit_ub w i b : ~ shiftable w i -> storage_bit_value w i b = UB.
Proof. intros N. unfold storage_bit_value, shiftable in *. destruct (Z.leb_spec 0 i); destruct (Z.ltb_spec i (shift_width w)); try reflexivity. lia. Qed.
Lemma bit_testbit w i (b : bool) k : 0 <= w -> 0 <= i -> 0 <= k -> Z.testbit (Z.shiftl (if b then 1 else 0) i mod 2 ^ w) k = (k <? w) && (k =? i) && b.
Proof.
  intros W I K. destruct (Z.ltb_spec k w) as [L|L].
  - rewrite Z.mod_pow2_bits_low by lia. rewrite Z.shiftl_spec by lia. destruct b; cbn [andb]; rewrite ?andb_true_r, ?andb_false_r, ?Z.bits_0; [|reflexivity].
    destruct (Z.eqb_spec k i) as [->|N]; [rewrite Z.sub_diag; reflexivity|]. destruct (Z.ltb_spec (k - i) 0); [apply Z.testbit_neg_r; lia|]. rewrite Z.bits_above_log2; [reflexivity|lia|]. change (Z.log2 1) with 0. lia.
  - rewrite Z.mod_pow2_bits_high by lia. reflexivity.
Qed.
(* data with the bits f below w *)
Definition Bits (w data : Z) (f : Z -> bool) : Prop := forall k, 0 <= k -> Z.testbit data k = (k <? w) && f k.
Lemma bits_zero w : Bits w 0 (fun _ => false).
Proof. intros k _. rewrite Z.bits_0, andb_false_r. reflexivity. Qed.
Ltac bit_solve := repeat match goal with |- context [?a <? ?b] => destruct (Z.ltb_spec a b) | |- context [?a =? ?b] => destruct (Z.eqb_spec a b) | |- context [Z.eq_dec ?a ?b] => destruct (Z.eq_dec a b) end; subst; cbn; try congruence; try lia; rewrite ?orb_true_r, ?orb_false_r, ?andb_true_r, ?andb_false_r; try reflexivity.
Lemma set_bits w d f i : 0 <= w -> Bits w d f -> shiftable w i -> exists d', set w d i = Ok d' /\ Bits w d' (fun k => if Z.eq_dec k i then true else f k).
Proof.
  intros W B S. unfold set, storage_bit. rewrite bit_ok by exact S. cbn [bind]. eexists. split; [reflexivity|]. destruct S as [S _]. intros k K. rewrite Z.lor_spec, (bit_testbit w i true k W S K), (B k K). bit_solve.
Qed.
Lemma clear_bits w d f i : 0 <= w -> Bits w d f -> shiftable w i -> exists d', clear_flag w d i = Ok d' /\ Bits w d' (fun k => if Z.eq_dec k i then false else f k).
Proof.
  intros W B S. unfold clear_flag, storage_bit. rewrite bit_ok by exact S. cbn [bind]. eexists. split; [reflexivity|]. destruct S as [S _]. intros k K. unfold and_not. rewrite Z.land_spec, Z.lnot_spec, (bit_testbit w i true k W S K), (B k K) by exact K. bit_solve.
Qed.
Lemma set_value_bits w d f i b : 0 <= w -> Bits w d f -> shiftable w i -> exists d', set_value w d i b = Ok d' /\ Bits w d' (fun k => if Z.eq_dec k i then b else f k).
Proof.
  intros W B S. unfold set_value, storage_bit. rewrite !bit_ok by exact S. cbn [bind]. eexists. split; [reflexivity|]. destruct S as [S _]. intros k K. unfold and_not. rewrite Z.lor_spec, Z.land_spec, Z.lnot_spec, (bit_testbit w i true k W S K), (bit_testbit w i b k W S K), (B k K) by exact K. bit_solve.
Qed.
Lemma set_list_bits w l : 0 <= w -> forall d f, Bits w d f -> Forall (shiftable w) l -> exists d', set_list w d l = Ok d' /\ Bits w d' (fun k => if in_dec Z.eq_dec k l then true else f k).
Proof.
  intros W. induction l as [|i l IH]; intros d f B F; cbn [set_list]; [exists d; split; [reflexivity|exact B]|]. inversion F as [|? ? S F']; subst. destruct (set_bits w d f i W B S) as (d1 & -> & B1). cbn [bind].
  destruct (IH d1 _ B1 F') as (d2 & E & B2). exists d2. split; [exact E|]. intros k K. rewrite (B2 k K). f_equal. destruct (in_dec Z.eq_dec k l) as [I|I]; destruct (in_dec Z.eq_dec k (i :: l)) as [J|J]; try reflexivity.
  - exfalso. apply J. right. exact I.
  - destruct J as [->|J]; [|contradiction]. destruct (Z.eq_dec k k); [reflexivity|congruence].
  - destruct (Z.eq_dec k i) as [->|_]; [exfalso; apply J; left; reflexivity|reflexivity].
Qed.
Lemma set_list_ub w l : forall d, ~ Forall (shiftable w) l -> set_list w d l = UB.
Proof.
  induction l as [|i l IH]; intros d N; [exfalso; apply N; constructor|]. cbn [set_list]. unfold set at 1, storage_bit. assert (D : {shiftable w i} + {~ shiftable w i}) by (unfold shiftable; destruct (Z_le_dec 0 i); destruct (Z_lt_dec i (shift_width w)); [left; lia|right; lia|right; lia|right; lia]).
  destruct D as [S|S]; [rewrite bit_ok by exact S; cbn [bind]; apply IH; intros F; apply N; constructor; assumption|rewrite bit_ub by exact S; reflexivity].
Qed.
Lemma bits_ext w d f g : (forall k, f k = g k) -> Bits w d f -> Bits w d g.
Proof. intros E B k K. rewrite (B k K), E. reflexivity. Qed.
Lemma step_bits w d h o : 0 <= w -> Bits w d (holds h) -> Forall (shiftable w) (named o) -> exists d', flag_step w d o = Ok d' /\ Bits w d' (holds (o :: h)).
Proof.
  intros W B F. destruct o as [i b|i|i|l|]; cbn [flag_step named] in *; [inversion F; subst; apply set_value_bits; assumption|inversion F; subst; apply set_bits; assumption|inversion F; subst; apply clear_bits; assumption|apply set_list_bits; assumption|].
  exists 0. split; [reflexivity|apply bits_zero].
Qed.
Lemma step_ub w d o : ~ Forall (shiftable w) (named o) -> flag_step w d o = UB.
Proof.
  intros N. destruct o as [i b|i|i|l|]; cbn [flag_step named] in *; [| | |apply set_list_ub; exact N|exfalso; apply N; constructor];
  (assert (S : ~ shiftable w i) by (intros S; apply N; constructor; [exact S|constructor])); unfold set_value, set, clear_flag, storage_bit; rewrite bit_ub by exact S; reflexivity.
Qed.
Lemma flag_run_app a : forall w d b, flag_run w d (a ++ b) = bind (flag_run w d a) (fun d' => flag_run w d' b).
Proof. induction a as [|o a IH]; intros w d b; [reflexivity|]. cbn [app flag_run]. destruct (flag_step w d o); cbn [bind]; auto. Qed.
Lemma flag_run_step w d o : flag_run w d [o] = flag_step w d o.
Proof. cbn. destruct (flag_step w d o); reflexivity. Qed.
Lemma run_bits w h : 0 <= w -> Forall (fun o => Forall (shiftable w) (named o)) h -> exists d, flag_run w no_flags (rev h) = Ok d /\ Bits w d (holds h).
Proof.
  intros W. induction h as [|o h IH]; intros F; [exists 0; split; [reflexivity|apply bits_zero]|]. inversion F as [|? ? FO F']; subst. destruct (IH F') as (d & E & B). destruct (step_bits w d h o W B FO) as (d' & E' & B').
  exists d'. split; [|exact B']. cbn [rev]. rewrite flag_run_app, E. cbn [bind]. rewrite flag_run_step. exact E'.
Qed.
Lemma run_ub w h : 0 <= w -> ~ Forall (fun o => Forall (shiftable w) (named o)) h -> flag_run w no_flags (rev h) = UB.
Proof.
  intros W. induction h as [|o h IH]; intros N; [exfalso; apply N; constructor|]. cbn [rev]. rewrite flag_run_app.
  assert (D : forall x, {shiftable w x} + {~ shiftable w x}) by (intros x; unfold shiftable; destruct (Z_le_dec 0 x); destruct (Z_lt_dec x (shift_width w)); [left; lia|right; lia|right; lia|right; lia]).
  destruct (Forall_dec (fun o => Forall (shiftable w) (named o)) (fun o => Forall_dec _ D (named o)) h) as [F|F]; [|rewrite (IH F); reflexivity].
  destruct (run_bits w h W F) as (d & E & _). rewrite E. cbn [bind]. rewrite flag_run_step. apply step_ub. intros FO. apply N. constructor; assumption.
Qed.
Lemma get_bits w d f i : 0 <= w -> Bits w d f -> shiftable w i -> get w d i = Ok ((i <? w) && f i).
Proof.
  intros W B S. unfold get, storage_bit. rewrite bit_ok by exact S. cbn [bind]. destruct S as [S _]. f_equal.
  assert (T : forall k, 0 <= k -> Z.testbit (Z.land d (Z.shiftl 1 i mod 2 ^ w)) k = (k =? i) && ((i <? w) && f i)).
  { intros k K. rewrite Z.land_spec, (B k K), (bit_testbit w i true k W S K). destruct (Z.eqb_spec k i) as [->|N]; destruct (_ <? w); cbn; rewrite ?andb_true_r, ?andb_false_r; reflexivity. }
  destruct ((i <? w) && f i) eqn:E.
  - destruct (Z.eqb_spec (Z.land d (Z.shiftl 1 i mod 2 ^ w)) 0) as [Z0|]; [|reflexivity]. specialize (T i S). rewrite Z0, Z.bits_0, Z.eqb_refl in T. discriminate.
  - replace (Z.land d (Z.shiftl 1 i mod 2 ^ w)) with 0; [reflexivity|]. symmetry. apply Z.bits_inj'. intros k K. rewrite Z.bits_0, (T k K). apply andb_false_r.
Qed.
Lemma any_bits w d f : 0 <= w -> Bits w d f -> any d = true <-> exists i, 0 <= i < w /\ f i = true.
Proof.
  intros W B. unfold any. destruct (Z.eqb_spec d 0) as [->|N]; cbn [negb]; split; try discriminate.
  - intros (i & I & F). specialize (B i ltac:(lia)). rewrite Z.bits_0, F in B. destruct (Z.ltb_spec i w); [discriminate|lia].
  - intros _. destruct (Z.eqb_spec (Z.land d (Z.ones w)) d) as [E|E].
    + assert (L : 0 <= d < 2 ^ w) by (rewrite <- E, Z.land_ones by exact W; apply Z.mod_pos_bound; lia).
      assert (P : 0 < d) by lia. pose proof (Z.bit_log2 d P) as BL. pose proof (Z.log2_nonneg d) as NN. specialize (B (Z.log2 d) NN). rewrite BL in B. symmetry in B. apply andb_prop in B as [B1 B2]. apply Z.ltb_lt in B1. exists (Z.log2 d). auto.
    + exfalso. apply E. apply Z.bits_inj'. intros k K. rewrite Z.land_spec. rewrite (B k K). destruct (Z.ltb_spec k w); [rewrite Z.ones_spec_low by lia; apply andb_true_r|reflexivity].
  - intros _. reflexivity.
Qed.
Lemma bits_range w d f : 0 <= w -> Bits w d f -> 0 <= d < 2 ^ w.
Proof.
  intros W B. assert (E : Z.land d (Z.ones w) = d).
  { apply Z.bits_inj'. intros k K. rewrite Z.land_spec, (B k K). destruct (Z.ltb_spec k w); [rewrite Z.ones_spec_low by lia; apply andb_true_r|reflexivity]. }
  rewrite <- E, Z.land_ones by exact W. apply Z.mod_pos_bound. lia.
Qed.
