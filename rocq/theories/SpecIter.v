(** * Vocabulary for iterated Möbius transformations: modulus and powers of complex numbers. *)

From Coq Require Import Reals.
From Verif Require Import Base.
Local Open Scope R_scope.

Definition cnorm (z : C) : R := sqrt (fst z * fst z + snd z * snd z).
Fixpoint cpow_nat (z : C) (n : nat) : C := match n with 0%nat => C1 | S n => (z * cpow_nat z n)%C end.
