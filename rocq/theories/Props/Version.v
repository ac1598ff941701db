(* C27: versions and text *)
From Coq Require Import String.
From Verif Require Import Model.Base Model.StdString Model.Strings Model.Number Model.StringCast Model.Version Spec.Strings Spec.Decimal Spec.Version Proofs.VersionProofs.
Local Open Scope Z_scope.
Local Open Scope list_scope.

Theorem C27_roundtrip : forall ma mi pa bu po, int32 ma -> int32 mi -> int32 pa -> 0 < bu < 2 ^ 31 -> Word po ->
  exists s, version_to_str (version_of ma mi pa bu po) = Ok s /\ version_parse s = version_of ma mi pa bu po.
Proof. exact version_roundtrip. Qed.
Print Assumptions C27_roundtrip.

(* without build number the parsed build number is uninitialised (printing the
   parsed version again is undefined) *)
Theorem C27_no_build_refuted : forall ma mi pa bu, int32 ma -> int32 mi -> int32 pa -> bu <= 0 ->
  exists s, version_to_str (version_of ma mi pa bu []) = Ok s /\
    version_parse s = mkV (Some ma) (Some mi) (Some pa) None [] /\ version_to_str (version_parse s) = UB.
Proof.
  intros ma mi pa bu A B C D. destruct (version_no_build ma mi pa bu A B C D) as (s & E & F). exists s. rewrite F. auto.
Qed.
Print Assumptions C27_no_build_refuted.

(* without build number a postfix is lost *)
Theorem C27_postfix_refuted : forall ma mi pa bu c po, int32 ma -> int32 mi -> int32 pa -> bu <= 0 -> ~ White c ->
  (forall z t, ~ Leads po z t) ->
  exists s b, version_to_str (version_of ma mi pa bu (c :: po)) = Ok s /\
    version_parse s = mkV (Some ma) (Some mi) (Some pa) b [] /\ (b = None \/ b = Some 0).
Proof. exact version_no_build_postfix. Qed.
Print Assumptions C27_postfix_refuted.

(* a postfix of two words is cut *)
Theorem C27_two_words_refuted : exists s, version_to_str (version_of 1 2 3 4 (lit "rc 1")) = Ok s /\
  version_parse s = version_of 1 2 3 4 (lit "rc").
Proof. eexists. split; [vm_compute; reflexivity|vm_compute; reflexivity]. Qed.
Print Assumptions C27_two_words_refuted.

Example C27_nonvacuous :
  version_to_str (version_of 1 (-2) 30 4 (lit "beta")) = Ok (lit "1.-2.30.4 beta") /\
  version_parse (lit "1.-2.30.4 beta") = version_of 1 (-2) 30 4 (lit "beta") /\
  version_parse (lit "1.2.3 beta") = mkV (Some 1) (Some 2) (Some 3) (Some 0) [] /\
  version_parse (lit "1.2.3 r7") = version_of 1 2 3 7 [].
Proof. repeat split; vm_compute; reflexivity. Qed.
