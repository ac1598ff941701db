(* Proofs about optionals. *)
From Coq Require Import Reals ZArith List Lia Bool Ascii.
From Verif Require Import Model.Base Model.StdString Model.CharStream Model.Range Model.Optional Spec.Strings Spec.Decimal Spec.Scan Spec.Optional Proofs.ScanProofs Proofs.RangeProofs.
Import ListNotations.
Local Open Scope Z_scope.

(* an optional shows a value v or none; absent values are those that cannot be told from none *)
Record Class (C : opt_class) (absent : o_type C -> Prop) : Prop := {
  c_default : o_bool C (o_default C) = false;
  c_of : forall o v, o_assign C o v = o_of C v;
  c_star : forall v, o_star C (o_of C v) = Ok v;
  c_bool : forall v, ~ absent v -> o_bool C (o_of C v) = true;
  c_absent : forall v, absent v -> o_bool C (o_of C v) = false }.

Lemma holds_total {T} (ops : list (opt_op T)) : forall i, exists v, Holds ops i v.
Proof.
  induction ops as [|o ops IH] using rev_ind; intros i; [exists None; constructor|].
  destruct o as [k|k v|k j].
  - destruct (Nat.eq_dec k i) as [->|N]; [exists None; constructor|]. destruct (IH i) as (v & H). exists v. apply HOther; assumption.
  - destruct (Nat.eq_dec k i) as [->|N]; [exists (Some v); constructor|]. destruct (IH i) as (w & H). exists w. apply HOther; assumption.
  - destruct (Nat.eq_dec k i) as [->|N]; [destruct (IH j) as (v & H); exists v; constructor; exact H|]. destruct (IH i) as (w & H). exists w. apply HOther; assumption.
Qed.
Lemma holds_state C absent : Class C absent -> forall ops i v, Holds ops i v ->
  opt_run C ops i = match v with None => o_default C | Some a => o_of C a end.
Proof.
  intros K ops i v H. induction H as [i|ops i|ops i v|ops i j v H IH|ops o i v H IH D]; [reflexivity| | | |]; unfold opt_run in *; rewrite fold_left_app; cbn [fold_left].
  - cbn [opt_step]. unfold put. rewrite Nat.eqb_refl. reflexivity.
  - cbn [opt_step]. unfold put. rewrite Nat.eqb_refl. apply (c_of C absent K).
  - cbn [opt_step]. unfold put. rewrite Nat.eqb_refl. exact IH.
  - destruct o as [k|k w|k j]; cbn [opt_step]; unfold put; rewrite (proj2 (Nat.eqb_neq i k)) by congruence; exact IH.
Qed.
Lemma general_class T init : Class (general T init) (fun _ => False).
Proof. split; cbn; try reflexivity; tauto. Qed.
Lemma integral_class t : Class (integral t) (fun v => v = sentinel t).
Proof.
  split; cbn; try reflexivity.
  - rewrite Z.eqb_refl. reflexivity.
  - intros v N. rewrite (proj2 (Z.eqb_neq _ _) N). reflexivity.
  - intros v ->. rewrite Z.eqb_refl. reflexivity.
Qed.
Lemma fp_eqb_refl v : fp_eqb v v = true <-> v <> NotANumber.
Proof. destruct v as [r|b|]; cbn; [destruct (Req_EM_T r r); split; congruence|rewrite eqb_reflx; split; congruence|split; congruence]. Qed.
Lemma floating_class : Class floating (fun v => v = NotANumber).
Proof.
  split; cbn; try reflexivity.
  - intros v N. apply fp_eqb_refl. exact N.
  - intros v ->. reflexivity.
Qed.

(* reading *)
Lemma failed_stays C reader : (forall st, cs_fail st = true -> cs_fail (snd (reader st)) = true) -> forall os st, cs_fail st = true ->
  cs_fail (fst (read_opts C reader st os)) = true /\ snd (read_opts C reader st os) = os.
Proof.
  intros R os. induction os as [|o os IH]; intros st F; [split; [exact F|reflexivity]|]. cbn [read_opts]. unfold read_opt. specialize (R st F). destruct (reader st) as [tmp s]. cbn [snd] in R. rewrite R.
  destruct (IH s R) as [A B]. destruct (read_opts C reader s os) as [s' os']. cbn [fst snd] in *. rewrite B. split; [exact A|reflexivity].
Qed.
Lemma skip_fail st : cs_fail (skip_delimiters st) = cs_fail st.
Proof. unfold skip_delimiters, test_eof. destruct st as [r f e d]. cbn. destruct (drop_delims d r); reflexivity. Qed.
Lemma process_fail st n : cs_fail st = true -> cs_fail (process_end_pos st n) = true.
Proof. intros F. unfold process_end_pos. destruct (Nat.eqb n 0); [reflexivity|]. rewrite skip_fail. exact F. Qed.
Lemma read_target_fail t st : cs_fail st = true -> cs_fail (snd (read_target t st)) = true.
Proof.
  intros F. assert (L : cs_fail (snd (read_long st)) = true). { unfold read_long. destruct (Number.strtol _) as [[[v b] r]|]; cbn [snd]; apply process_fail; exact F. }
  destruct t; cbn [read_target]; unfold read_int.
  - destruct (read_long st) as [v s]. exact L.
  - destruct (read_long st) as [v s]. exact L.
  - unfold read_string. cbn [snd]. apply process_fail. exact F.
Qed.
(* the reader of a kind of variable, and the value as a value of the specification *)
Lemma read_opts_elements (C : opt_class) (t : target) (inj : o_type C -> value) (reader : char_stream -> o_type C * char_stream) :
  (forall st, read_target t st = (inj (fst (reader st)), snd (reader st))) ->
  forall vs d st os, Elements d (tk t) (cs_rest st) vs -> cs_delim st = d -> cs_fail st = false -> nonul (cs_rest st) ->
  exists xs, map (fun x => tv (inj x)) xs = vs /\
    (let k := length vs in
     length (snd (read_opts C reader st os)) = length os /\
     forall i o, nth_error os i = Some o ->
       nth_error (snd (read_opts C reader st os)) i = Some (match nth_error xs i with Some x => o_assign C o x | None => o end)).
Proof.
  intros RD vs d st os E. revert st os E. 
  assert (G : forall s vs, Elements d (tk t) s vs -> forall st os, cs_rest st = s -> cs_delim st = d -> cs_fail st = false -> nonul s ->
    exists xs, map (fun x => tv (inj x)) xs = vs /\ length (snd (read_opts C reader st os)) = length os /\
     forall i o, nth_error os i = Some o -> nth_error (snd (read_opts C reader st os)) i = Some (match nth_error xs i with Some x => o_assign C o x | None => o end)).
  2:{ intros st os E D F N. cbv zeta. destruct (G _ _ E st os eq_refl D F N) as (xs & X). exists xs. exact X. }
  clear vs. induction 1 as [s NE|s v r l rest vs EL -> O ND E IH]; intros st os S D F N.
  - exists []. split; [reflexivity|]. subst s. pose proof (read_none t st N NE) as RN. destruct os as [|o os]; [split; [reflexivity|]; intros i o0 H; destruct i; discriminate|].
    cbn [read_opts]. unfold read_opt. rewrite RD in RN. destruct (reader st) as [tmp s1]. cbn [fst snd] in RN. assert (s1 = set_fail st) by congruence. subst s1.
    cbn [cs_fail set_fail]. assert (R : forall st, cs_fail st = true -> cs_fail (snd (reader st)) = true).
    { intros s1 F1. pose proof (read_target_fail t s1 F1) as Q. rewrite RD in Q. exact Q. }
    destruct (failed_stays C reader R os (set_fail st) eq_refl) as [_ B]. destruct (read_opts C reader (set_fail st) os) as [s' os']. cbn [snd] in *. subst os'. split; [reflexivity|].
    intros i o0 H. rewrite H. destruct i; reflexivity.
  - subst s. destruct (read_some t st v (l ++ rest) N EL) as (v' & RS & TV & p & P & PN).
    rewrite RD in RS. destruct (reader st) as [tmp s1] eqn:Q. cbn [fst snd] in RS. assert (V : inj tmp = v') by congruence. assert (S1 : s1 = skip_delimiters (with_rest st (l ++ rest))) by congruence.
    assert (NR : nonul (l ++ rest)). { rewrite P in N. unfold nonul in *. apply Forall_app in N. apply N. }
    assert (NR' : nonul rest) by (unfold nonul in *; apply Forall_app in NR; apply NR).
    assert (DR : drop_delims d (l ++ rest) = rest).
    { apply drop_delims_app; [exact O|]. intros c r' ->. split; [inversion NR'; assumption|eapply ND; reflexivity]. }
    assert (R1 : cs_rest s1 = rest). { rewrite S1. unfold skip_delimiters, test_eof, with_rest. cbn [cs_rest cs_delim cs_fail cs_eof]. rewrite D, DR. destruct rest; reflexivity. }
    assert (D1 : cs_delim s1 = d). { rewrite S1. unfold skip_delimiters, test_eof, with_rest. cbn [cs_rest cs_delim cs_fail cs_eof]. destruct (drop_delims (cs_delim st) (l ++ rest)); exact D. }
    assert (F1 : cs_fail s1 = false). { rewrite S1, skip_fail. exact F. }
    destruct os as [|o os].
    + destruct (IH s1 [] R1 D1 F1 NR') as (xs & X & _). exists (tmp :: xs). split; [cbn; rewrite X; congruence|]. split; [reflexivity|]. intros i o0 H. destruct i; discriminate.
    + destruct (IH s1 os R1 D1 F1 NR') as (xs & X & LE & A). exists (tmp :: xs). split; [cbn; rewrite X; congruence|].
      cbn [read_opts]. unfold read_opt. rewrite Q, F1. destruct (read_opts C reader s1 os) as [s' os']. cbn [snd] in *. split; [cbn; rewrite LE; reflexivity|].
      intros [|i] o0 H; cbn in *; [congruence|]. apply A. exact H.
Qed.
