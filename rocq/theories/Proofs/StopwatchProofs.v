From Verif Require Import Model.Base Proofs.BaseFacts Model.StdString Proofs.DictionaryProofs Model.Stopwatch Spec.Stopwatch.
Local Open Scope Z_scope.

Definition after (t0 : Z) (h : list sw_op) : stopwatch := fold_left sw_step (rev h) (new_stopwatch t0).
Lemma after_cons t0 o h : after t0 (o :: h) = sw_step (after t0 h) o.
Proof. unfold after. cbn [rev]. rewrite fold_left_app. reflexivity. Qed.

Lemma add_to_map f s d : forall ls, NoDup ls ->
  add_to (map (fun n => (n, f n)) ls) s d =
  map (fun n => (n, f n + (if list_eq_dec ascii_dec s n then d else 0))) (if in_dec (list_eq_dec ascii_dec) s ls then ls else []) ++
  (if in_dec (list_eq_dec ascii_dec) s ls then [] else map (fun n => (n, f n)) ls ++ [(s, d)]).
Proof.
  intros ls N. destruct (in_dec (list_eq_dec ascii_dec) s ls) as [I|I].
  - rewrite app_nil_r. induction ls as [|n ls IH]; [destruct I|]. inversion N as [|? ? NI N']; subst. cbn [map add_to]. destruct (str_eqb n s) eqn:E.
    + apply str_eqb_eq in E. subst n. destruct (list_eq_dec ascii_dec s s) as [_|C]; [|congruence]. f_equal. apply map_ext_in. intros x X. destruct (list_eq_dec ascii_dec s x) as [->|_]; [contradiction|]. rewrite Z.add_0_r. reflexivity.
    + assert (NE : s <> n) by (intros ->; rewrite (proj2 (str_eqb_eq n n) eq_refl) in E; discriminate). destruct (list_eq_dec ascii_dec s n) as [|_]; [contradiction|]. rewrite Z.add_0_r. f_equal. apply IH; [exact N'|]. destruct I; [congruence|assumption].
  - cbn [map app]. induction ls as [|n ls IH]; [reflexivity|]. inversion N as [|? ? NI N']; subst. cbn [map add_to app]. destruct (str_eqb n s) eqn:E; [apply str_eqb_eq in E; subst n; exfalso; apply I; left; reflexivity|]. f_equal. apply IH; [exact N'|]. intros X. apply I. right. exact X.
Qed.
Lemma labels_nodup h : NoDup (labels h).
Proof. induction h as [|[t|n t t'] h IH]; cbn [labels]; [constructor|exact IH|]. destruct (in_dec _ n (labels h)); [exact IH|]. apply NoDup_snoc; assumption. Qed.
Lemma measured_unlabelled t0 h s : ~ In s (labels h) -> measured t0 h s = 0.
Proof.
  induction h as [|[t|n t t'] h IH]; cbn [labels measured]; [reflexivity|exact IH|]. intros N. destruct (in_dec _ n (labels h)) as [I|I].
  - rewrite IH by exact N. destruct (list_eq_dec ascii_dec n s) as [->|_]; [contradiction|reflexivity].
  - rewrite IH by (intros X; apply N, in_or_app; left; exact X). destruct (list_eq_dec ascii_dec n s) as [->|_]; [|reflexivity]. exfalso. apply N, in_or_app. right. left. reflexivity.
Qed.
Lemma after_spec t0 h : epoch (after t0 h) = began t0 h /\ measures (after t0 h) = map (fun n => (n, measured t0 h n)) (labels h) /\ internal_measure (after t0 h) = own h.
Proof.
  induction h as [|o h (A & B & C)]; [auto|]. rewrite after_cons. destruct o as [t|n t t']; cbn [sw_step start_first_measure add_measure epoch measures internal_measure began measured labels own]; [auto|].
  split; [reflexivity|]. split; [|rewrite C; lia]. rewrite A, B, (add_to_map (measured t0 h)) by apply labels_nodup. destruct (in_dec _ n (labels h)) as [I|I].
  - rewrite app_nil_r. reflexivity.
  - rewrite map_app. cbn [map app]. f_equal.
    + apply map_ext_in. intros x X. destruct (list_eq_dec ascii_dec n x) as [->|_]; [contradiction|]. rewrite Z.add_0_r. reflexivity.
    + rewrite measured_unlabelled by exact I. destruct (list_eq_dec ascii_dec n n); [reflexivity|congruence].
Qed.
Lemma total_app a b : total (a ++ b) = total a + total b.
Proof. induction a as [|x a IH]; cbn; [reflexivity|]. fold (total (a ++ b)) (total a). lia. Qed.
Lemma total_add_to ms s d : total (add_to ms s d) = total ms + d.
Proof. induction ms as [|[n v] ms IH]; cbn [add_to]; [cbn; lia|]. destruct (str_eqb n s); cbn; fold (total ms); [|fold (total (add_to ms s d))]; lia. Qed.
Lemma total_after t0 h : total (measures (after t0 h)) + internal_measure (after t0 h) + skipped t0 h = epoch (after t0 h) - t0.
Proof.
  induction h as [|o h IH]; [cbn; lia|]. rewrite after_cons. destruct (after_spec t0 h) as (A & _ & _). destruct o as [t|n t t']; cbn [sw_step start_first_measure add_measure epoch measures internal_measure skipped]; [lia|]. rewrite total_add_to. lia.
Qed.
