(* flut/hash.hpp *)
From Verif Require Import Model.Base Model.StdString.
Local Open Scope Z_scope.

(* fnv1a_64_prime, fnv1a_64_basis (flut/hash.hpp:15-16) *)
Definition fnv1a_64_prime : Z := 1099511628211.
Definition fnv1a_64_basis : Z := 14695981039346656037.

(* a char operand is converted to uint64_t by sign extension *)
Definition char64 (c : ascii) : Z := scode c mod two64.

(* hash_constexpr (flut/hash.hpp:18-21) on a zero-terminated string *)
Fixpoint hash_constexpr_from (s : str) (last_value : Z) : Z :=
  match s with
  | [] => last_value
  | c :: s' =>
    if Ascii.eqb c NUL then last_value
    else hash_constexpr_from s' ((Z.lxor (char64 c) last_value * fnv1a_64_prime) mod two64)
  end.
Definition hash_constexpr (s : str) : Z := hash_constexpr_from s fnv1a_64_basis.

(* hash( const char* ) (flut/hash.hpp:23-28), the while loop *)
Fixpoint hash_loop (s : str) (ret : Z) : Z :=
  match s with
  | [] => ret
  | c :: s' =>
    if Ascii.eqb c NUL then ret
    else
      let ret1 := Z.lxor ret (char64 c) in
      let ret2 := (ret1 * fnv1a_64_prime) mod two64 in
      hash_loop s' ret2
  end.
Definition hash (s : str) : Z := hash_loop s fnv1a_64_basis.

(* hash( const std::string& ) (flut/hash.hpp:30) *)
Definition hash_string (s : str) : Z := hash (cstr s).
