(* C70: optionals *)
From Coq Require Import Reals ZArith List Lia Bool Ascii String.
From Verif Require Import Model.Base Model.StdString Model.Strings Model.Number Model.CharStream Model.Range Model.Optional Spec.Strings Spec.Decimal Spec.Scan Spec.Optional Proofs.ScanProofs Proofs.RangeProofs Proofs.OptionalProofs.
Import ListNotations.
Local Open Scope Z_scope.
Local Open Scope list_scope.

(* after any history every variable of the general kind is engaged exactly if
   it holds a value, and gives that value *)
Theorem C70_general : forall T init ops i, exists v, Holds ops i v /\
  o_bool (general T init) (opt_run (general T init) ops i) = (match v with Some _ => true | None => false end) /\
  (forall a, v = Some a -> o_star (general T init) (opt_run (general T init) ops i) = Ok a).
Proof.
  intros T init ops i. destruct (holds_total ops i) as (v & H). exists v. split; [exact H|]. rewrite (holds_state _ _ (general_class T init) ops i v H). destruct v as [a|].
  - split; [reflexivity|]. intros b E. cbn. congruence.
  - split; [reflexivity|]. discriminate.
Qed.
Print Assumptions C70_general.

(* integers: the same but the sentinel counts as no value *)
Theorem C70_integral : forall t ops i, exists v, Holds ops i v /\
  (o_bool (integral t) (opt_run (integral t) ops i) = true <-> exists a, v = Some a /\ a <> sentinel t) /\
  (forall a, v = Some a -> o_star (integral t) (opt_run (integral t) ops i) = Ok a).
Proof.
  intros t ops i. destruct (holds_total ops i) as (v & H). exists v. split; [exact H|]. rewrite (holds_state _ _ (integral_class t) ops i v H). destruct v as [a|].
  - split; [|intros b E; cbn; congruence]. cbn. rewrite negb_true_iff, Z.eqb_neq. split; [intros N; exists a; split; [reflexivity|exact N]|intros (b & E & N); congruence].
  - split; [|discriminate]. cbn. rewrite Z.eqb_refl. split; [discriminate|intros (a & E & _); discriminate].
Qed.
Print Assumptions C70_integral.

(* floating point: the same but a NaN counts as no value *)
Theorem C70_floating : forall ops i, exists v, Holds ops i v /\
  (o_bool floating (opt_run floating ops i) = true <-> exists a, v = Some a /\ a <> NotANumber) /\
  (forall a, v = Some a -> o_star floating (opt_run floating ops i) = Ok a).
Proof.
  intros ops i. destruct (holds_total ops i) as (v & H). exists v. split; [exact H|]. rewrite (holds_state _ _ floating_class ops i v H). destruct v as [a|].
  - split; [|intros b E; cbn; congruence]. cbn. rewrite fp_eqb_refl. split; [intros N; exists a; split; [reflexivity|exact N]|intros (b & E & N); congruence].
  - split; [|discriminate]. cbn. split; [discriminate|intros (a & E & _); discriminate].
Qed.
Print Assumptions C70_floating.

Theorem C70_holds_unique : forall T (ops : list (opt_op T)) i v w, Holds ops i v -> Holds ops i w -> v = w.
Proof.
  intros T ops i v w A B. pose proof (holds_state _ _ (general_class T None) ops i v A) as P. pose proof (holds_state _ _ (general_class T None) ops i w B) as Q. rewrite P in Q. destruct v, w; cbn in Q; congruence.
Qed.
Print Assumptions C70_holds_unique.

(* in every integer type exactly one value cannot be stored; a bool cannot be true *)
Theorem C70_sentinel_refuted : forall t, (match t with Signed b => 1 <= b | Unsigned b => 0 <= b end) ->
  Model.Range.fits t (sentinel t) = true /\ o_bool (integral t) (o_of (integral t) (sentinel t)) = false /\ o_of (integral t) (sentinel t) = o_default (integral t).
Proof.
  intros t B. split; [|split; [cbn; rewrite Z.eqb_refl; reflexivity|reflexivity]]. apply fits_spec. unfold sentinel. destruct t as [b|b]; cbn [type_min type_max].
  - pose proof (Z.pow_pos_nonneg 2 (b - 1)). lia.
  - pose proof (Z.pow_pos_nonneg 2 b). lia.
Qed.
Print Assumptions C70_sentinel_refuted.

(* an empty general optional may not be read, an empty integral one gives the
   sentinel: nothing throws *)
Theorem C70_empty_star_refuted : forall T t, o_star (general T None) (o_default (general T None)) = UB /\
  o_star (integral t) (o_default (integral t)) = Ok (sentinel t) /\ o_star floating (o_default floating) = Ok NotANumber.
Proof. intros T t. repeat split. Qed.
Print Assumptions C70_empty_star_refuted.

(* == only compares whether there are values, and converting to int gives 0 or 1 *)
Theorem C70_equality_refuted : forall t a b, a <> sentinel t -> b <> sentinel t ->
  opt_eq (integral t) (o_of (integral t) a) (o_of (integral t) b) = true /\ opt_to_int (integral t) (o_of (integral t) a) = 1.
Proof.
  intros t a b A B. unfold opt_eq, opt_to_int. cbn. rewrite (proj2 (Z.eqb_neq _ _) A), (proj2 (Z.eqb_neq _ _) B). split; reflexivity.
Qed.
Print Assumptions C70_equality_refuted.

Theorem C70_equality_general : forall T init ops i j, exists v w, Holds ops i v /\ Holds ops j w /\
  (opt_eq (general T init) (opt_run (general T init) ops i) (opt_run (general T init) ops j) = true <-> (v = None <-> w = None)).
Proof.
  intros T init ops i j. destruct (holds_total ops i) as (v & V), (holds_total ops j) as (w & W). exists v, w. split; [exact V|]. split; [exact W|].
  rewrite (holds_state _ _ (general_class T init) ops i v V), (holds_state _ _ (general_class T init) ops j w W). unfold opt_eq. destruct v, w; cbn; split; intros H; try reflexivity; try discriminate; try (split; intros; congruence);
  destruct H as [H1 H2]; try (specialize (H1 eq_refl); discriminate); try (specialize (H2 eq_refl); discriminate).
Qed.
Print Assumptions C70_equality_general.

(* moving leaves the source engaged *)
Theorem C70_moved_from_refuted : forall T init (left : T -> T) v,
  let '(a, b) := general_move left (o_of (general T init) v) in
  o_star (general T init) a = Ok v /\ o_bool (general T init) b = true /\ o_star (general T init) b = Ok (left v).
Proof. intros. cbn. repeat split. Qed.
Print Assumptions C70_moved_from_refuted.

(* reading optionals one after the other sets as many as there are elements at
   the front of the text and leaves the others alone: long, int and string *)
Theorem C70_read_long : forall vs d st os, Elements d Long (cs_rest st) vs -> cs_delim st = d -> cs_fail st = false -> nonul (cs_rest st) ->
  exists zs, map Num zs = vs /\ forall i o, nth_error os i = Some o ->
    nth_error (snd (read_opts (integral (Signed 64)) read_long st os)) i = Some (match nth_error zs i with Some z => z | None => o end).
Proof.
  intros vs d st os E D F N. destruct (read_opts_elements (integral (Signed 64)) Tlong Vnum read_long) with (vs := vs) (d := d) (st := st) (os := os) as (xs & X & _ & A); try assumption.
  - intros s. cbn [read_target]. destruct (read_long s). reflexivity.
  - exists xs. split; [exact X|]. exact A.
Qed.
Print Assumptions C70_read_long.

Theorem C70_read_int : forall vs d st os, Elements d Int (cs_rest st) vs -> cs_delim st = d -> cs_fail st = false -> nonul (cs_rest st) ->
  exists zs, map Num zs = vs /\ forall i o, nth_error os i = Some o ->
    nth_error (snd (read_opts (integral (Signed 32)) read_int st os)) i = Some (match nth_error zs i with Some z => z | None => o end).
Proof.
  intros vs d st os E D F N. destruct (read_opts_elements (integral (Signed 32)) Tint Vnum read_int) with (vs := vs) (d := d) (st := st) (os := os) as (xs & X & _ & A); try assumption.
  - intros s. cbn [read_target]. destruct (read_int s). reflexivity.
  - exists xs. split; [exact X|]. exact A.
Qed.
Print Assumptions C70_read_int.

Theorem C70_read_string : forall vs d st os, Elements d Text (cs_rest st) vs -> cs_delim st = d -> cs_fail st = false -> nonul (cs_rest st) ->
  exists ws, map Str ws = vs /\ forall i o, nth_error os i = Some o ->
    nth_error (snd (read_opts (general str (Some [])) read_string st os)) i = Some (match nth_error ws i with Some w => mkGopt (Some w) true | None => o end).
Proof.
  intros vs d st os E D F N. destruct (read_opts_elements (general str (Some [])) Tstring Vstr read_string) with (vs := vs) (d := d) (st := st) (os := os) as (xs & X & _ & A); try assumption.
  - intros s. cbn [read_target]. destruct (read_string s). reflexivity.
  - exists xs. split; [exact X|]. exact A.
Qed.
Print Assumptions C70_read_string.

(* after a failure no read sets anything *)
Theorem C70_failed_stream : forall st os, cs_fail st = true -> snd (read_opts (integral (Signed 32)) read_int st os) = os.
Proof.
  intros st os F. apply failed_stays; [|exact F]. intros s H. pose proof (read_target_fail Tint s H) as Q. cbn [read_target] in Q. destruct (read_int s). exact Q.
Qed.
Print Assumptions C70_failed_stream.

Example C70_nonvacuous :
  snd (read_opts (integral (Signed 32)) read_int (cs_of_cstr (lit "4 -7 x 9") default_delimiters) [100; 200; 300; 400]) = [4; -7; 300; 400] /\
  o_bool (integral (Unsigned 1)) (o_of (integral (Unsigned 1)) 1) = false /\
  o_star (general Z None) (opt_run (general Z None) [OpValue 0 5; OpCopy 1 0; OpEmpty 0] 1%nat) = Ok 5.
Proof. split; [vm_compute; reflexivity|]. split; reflexivity. Qed.
