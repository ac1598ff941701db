(* C28: hashes *)
From Coq Require Import String.
From Verif Require Import Model.Base Model.StdString Model.Hash Spec.Strings Spec.Hash Proofs.HashProofs.
Local Open Scope Z_scope.
Local Open Scope list_scope.

Theorem C28_constexpr_agrees : forall s, hash s = hash_constexpr s.
Proof. intros s. symmetry. apply constexpr_eq. Qed.
Print Assumptions C28_constexpr_agrees.

(* only the characters before the first NUL matter *)
Theorem C28_hash_string : forall s, hash_string s = hash s /\ hash_string (cstr s) = hash_string s.
Proof.
  intros s. unfold hash_string, hash. split; [apply loop_cstr|]. rewrite !loop_cstr. reflexivity.
Qed.
Print Assumptions C28_hash_string.

Theorem C28_standard_fnv1a : forall s, Forall (fun c => (1 <= nat_of_ascii c < 128)%nat) s -> hash s = FNV1a (map byte s).
Proof. exact standard. Qed.
Print Assumptions C28_standard_fnv1a.

(* "hash is FNV-1a of the bytes" is false for characters above 127 *)
Theorem C28_standard_fnv1a_refuted : exists s, ~ In NUL s /\ hash s <> FNV1a (map byte s).
Proof. exists ["200"%char]. split; [intros [X|[]]; discriminate|vm_compute; discriminate]. Qed.
Print Assumptions C28_standard_fnv1a_refuted.

Theorem C28_one_character : forall a c d b, ~ In NUL (a ++ c :: b) -> ~ In NUL (a ++ d :: b) -> c <> d ->
  hash (a ++ c :: b) <> hash (a ++ d :: b).
Proof. exact no_single_collision. Qed.
Print Assumptions C28_one_character.

(* a common ending neither creates nor hides a collision *)
Theorem C28_common_ending : forall a b, ~ In NUL a -> ~ In NUL b -> forall t, ~ In NUL t ->
  hash a = hash b <-> hash (a ++ t) = hash (b ++ t).
Proof. exact same_length_prefix_collision. Qed.
Print Assumptions C28_common_ending.

Example C28_nonvacuous : hash (lit "a") = 0xaf63dc4c8601ec8c /\ hash (lit "foobar") = 0x85944171f73967e8.
Proof. split; vm_compute; reflexivity. Qed.
