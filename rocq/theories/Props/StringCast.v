(* C26: integers and text *)
From Coq Require Import String.
From Verif Require Import Model.Base Model.StdString Model.Strings Model.Number Model.StringCast Spec.Strings Spec.Decimal Proofs.NumberProofs.
Local Open Scope Z_scope.
Local Open Scope list_scope.

(* to_str of an integer is its canonical numeral (there is only one) *)
Theorem C26_to_int : forall z, - 10 ^ 20 < z < 10 ^ 20 -> forall s, to_int z = s <-> Canonical s z.
Proof.
  intros z H s. split; [intros <-; apply dec_canonical; exact H|]. intros C. eapply Canonical_unique; [apply dec_canonical; exact H|exact C].
Qed.
Print Assumptions C26_to_int.

(* from_str< int > on every string *)
Theorem C26_from_int : forall s,
  (forall z t, Leads s z t -> Nearest (- 2 ^ 31) (2 ^ 31 - 1) z (from_int s)) /\
  ((forall z t, ~ Leads s z t) -> from_int s = 0).
Proof.
  intros s. split.
  - intros z t L. unfold from_int. rewrite (from_signed_leads _ _ _ _ _ L). apply clamp_nearest. unfold INT_MIN, INT_MAX. lia.
  - apply from_signed_none.
Qed.
Print Assumptions C26_from_int.

Theorem C26_from_long : forall s,
  (forall z t, Leads (cstr s) z t -> - 2 ^ 63 <= z < 2 ^ 63 -> from_long s = Ok z) /\
  (forall z t, Leads (cstr s) z t -> ~ (- 2 ^ 63 <= z < 2 ^ 63) -> from_long s = Throw) /\
  ((forall z t, ~ Leads (cstr s) z t) -> from_long s = Throw).
Proof.
  intros s. split; [|split; [|apply from_long_none]]; intros z t L R; rewrite (from_long_leads _ _ _ L); unfold LONG_MIN, LONG_MAX;
    destruct (Z.leb_spec (- 2 ^ 63) z), (Z.leb_spec z (2 ^ 63 - 1)); cbn [andb]; try reflexivity; lia.
Qed.
Print Assumptions C26_from_long.

(* unsigned: a minus sign is accepted and wraps around *)
Theorem C26_from_unsigned : forall s,
  (forall z t, Leads (cstr s) z t -> from_ulong s = if Z.abs z <? 2 ^ 64 then Ok (z mod 2 ^ 64) else Throw) /\
  ((forall z t, ~ Leads (cstr s) z t) -> from_ulong s = Throw) /\
  (forall z t, Leads s z t -> from_uint s = if Z.abs z <? 2 ^ 32 then z mod 2 ^ 32 else 2 ^ 32 - 1) /\
  ((forall z t, ~ Leads s z t) -> from_uint s = 0).
Proof.
  intros s. split; [apply from_ulong_leads|]. split; [apply from_ulong_none|]. split; [apply from_uint_leads|apply from_uint_none].
Qed.
Print Assumptions C26_from_unsigned.

Theorem C26_roundtrip :
  (forall z, - 2 ^ 31 <= z < 2 ^ 31 -> from_int (to_int z) = z) /\
  (forall z, - 2 ^ 15 <= z < 2 ^ 15 -> from_short (to_int z) = z) /\
  (forall z, 0 <= z < 2 ^ 32 -> from_uint (to_int z) = z) /\
  (forall z, - 2 ^ 63 <= z < 2 ^ 63 -> from_long (to_int z) = Ok z) /\
  (forall z, 0 <= z < 2 ^ 64 -> from_ulong (to_int z) = Ok z) /\
  (forall b, from_bool (to_bool b) = b) /\
  (forall s, from_string s = s).
Proof.
  assert (P : forall z, - 2 ^ 64 <= z <= 2 ^ 64 -> printable z) by (unfold printable; intros; lia).
  repeat split.
  - intros z H. unfold from_int, to_int. rewrite (from_signed_leads _ _ _ _ _ (dec_leads' z ltac:(apply P; lia))). apply clamp_in. unfold INT_MIN, INT_MAX. lia.
  - intros z H. unfold from_short, to_int. rewrite (from_signed_leads _ _ _ _ _ (dec_leads' z ltac:(apply P; lia))). apply clamp_in. lia.
  - intros z H. unfold to_int. rewrite (from_uint_leads _ _ _ (dec_leads' z ltac:(apply P; lia))). destruct (Z.ltb_spec (Z.abs z) (2 ^ 32)); [apply Z.mod_small; lia|lia].
  - intros z H. unfold to_int. pose proof (dec_leads' z ltac:(apply P; lia)) as L. rewrite <- dec_nonul in L by (apply P; lia).
    apply (proj1 (C26_from_long _) _ _ L H).
  - intros z H. unfold to_int. pose proof (dec_leads' z ltac:(apply P; lia)) as L. rewrite <- dec_nonul in L by (apply P; lia).
    rewrite (from_ulong_leads _ _ _ L). destruct (Z.ltb_spec (Z.abs z) (2 ^ 64)); [rewrite Z.mod_small by lia; reflexivity|lia].
  - intros [|]; reflexivity.
Qed.
Print Assumptions C26_roundtrip.

(* enums go through int *)
Theorem C26_enum_roundtrip : forall (E : Type) (int_of : E -> Z) (of_int : Z -> E),
  (forall e, - 2 ^ 31 <= int_of e < 2 ^ 31) -> (forall e, of_int (int_of e) = e) ->
  forall e, from_enum of_int (to_enum int_of e) = e.
Proof.
  intros E i o R I e. unfold from_enum, to_enum. rewrite (proj1 C26_roundtrip) by apply R. apply I.
Qed.
Print Assumptions C26_enum_roundtrip.

(* a bool is read as a number: words give false *)
Theorem C26_from_bool : forall s,
  (forall z t, Leads s z t -> from_bool s = negb (z =? 0)) /\ ((forall z t, ~ Leads s z t) -> from_bool s = false).
Proof. intros s. split; [apply from_bool_leads|apply from_bool_none]. Qed.
Print Assumptions C26_from_bool.
Theorem C26_bool_word_refuted : from_bool (lit "true") = false.
Proof. reflexivity. Qed.
Print Assumptions C26_bool_word_refuted.

(* string_is< long > recognises numeral prefixes; string_is< int > accepts every string *)
Theorem C26_string_is : forall s,
  (string_is_long s = true <-> exists z t, Leads (cstr s) z t /\ - 2 ^ 63 <= z < 2 ^ 63) /\
  (string_is_ulong s = true <-> exists z t, Leads (cstr s) z t /\ Z.abs z < 2 ^ 64) /\
  string_is_int s = true.
Proof.
  intros s. split; [|split; [|reflexivity]].
  - unfold string_is_long. split.
    + intros H. destruct (scan (cstr s)) as [[neg ds] t] eqn:E. destruct ds as [|d ds].
      * unfold from_long, stol in H. rewrite strtol_scan, E in H. discriminate.
      * pose proof (scan_inv _ _ _ _ E ltac:(discriminate)) as L. eexists _, _. split; [exact L|]. rewrite (from_long_leads _ _ _ L) in H.
        unfold LONG_MIN, LONG_MAX in H. destruct (Z.leb_spec (- 2 ^ 63) (signed neg (digits_value (d :: ds)))), (Z.leb_spec (signed neg (digits_value (d :: ds))) (2 ^ 63 - 1)); cbn [andb] in H; try discriminate; lia.
    + intros (z & t & L & R). rewrite (proj1 (C26_from_long s) _ _ L R). reflexivity.
  - unfold string_is_ulong. split.
    + intros H. destruct (scan (cstr s)) as [[neg ds] t] eqn:E. destruct ds as [|d ds].
      * unfold from_ulong, stoul in H. rewrite strtoul_scan, E in H. discriminate.
      * pose proof (scan_inv _ _ _ _ E ltac:(discriminate)) as L. eexists _, _. split; [exact L|]. rewrite (from_ulong_leads _ _ _ L) in H.
        destruct (Z.ltb_spec (Z.abs (signed neg (digits_value (d :: ds)))) (2 ^ 64)); [assumption|discriminate].
    + intros (z & t & L & R). rewrite (from_ulong_leads _ _ _ L). destruct (Z.ltb_spec (Z.abs z) (2 ^ 64)); [reflexivity|lia].
Qed.
Print Assumptions C26_string_is.

Example C26_nonvacuous :
  to_int (-2147483648) = lit "-2147483648" /\ from_int (lit " -2147483648x") = -2147483648 /\
  from_int (lit "99999999999") = 2147483647 /\ from_long (lit "12abc") = Ok 12 /\ from_long (lit "abc") = Throw /\
  from_ulong (lit "-1") = Ok 18446744073709551615 /\ from_bool (lit "7") = true.
Proof. repeat split; vm_compute; reflexivity. Qed.
