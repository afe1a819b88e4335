(** * Properties of [unimodular_matrices] and of the Farey sequences: C66.
    Every proof is one line; the work is in PFarey.v. *)

From Coq Require Import List Bool ZArith Sorting.Sorted.
From Verif Require Import Base ModelFarey PFarey.
Import ListNotations.
Local Open Scope Z_scope.

(** ** C66, the list of unimodular matrices; [mkZM p r q s] is [[p, r], [q, s]] *)
Theorem C66_unimodular_matrices n : 2 <= n -> exists L, unimodular_matrices n = Ok (mkZM 1 0 0 1 :: L) /\ NoDup (mkZM 1 0 0 1 :: L) /\
  (forall p r q s, In (mkZM p r q s) L <-> p * s - r * q = 1 /\ 1 <= p <= n /\ 1 <= r <= n /\ 0 <= q <= p /\ 0 <= s <= r) /\
  StronglySorted (fun M N => row_compare [m11 M; m21 M; m12 M; m22 M] [m11 N; m21 N; m12 N; m22 N] = Lt) L.
Proof. exact (unimodular_spec n). Qed.
Print Assumptions C66_unimodular_matrices.

Theorem C66_unimodular_one : unimodular_matrices 1 = Ok [mkZM 1 0 0 1].
Proof. exact unimodular_one. Qed.
Print Assumptions C66_unimodular_one.

Theorem C66_unimodular_raise n e : unimodular_matrices n = Raise e <-> n < 1 /\ e = ValueError.
Proof. exact (unimodular_raise n e). Qed.
Print Assumptions C66_unimodular_raise.

Theorem C66_unimodular_sound n ms M : unimodular_matrices n = Ok ms -> In M ms ->
  m11 M * m22 M - m12 M * m21 M = 1 /\ 0 <= m11 M <= n /\ 0 <= m12 M <= n /\ 0 <= m21 M <= n /\ 0 <= m22 M <= n.
Proof. exact (unimodular_sound n ms M). Qed.
Print Assumptions C66_unimodular_sound.

Theorem C66_unimodular_monotone n n' ms ms' M : 1 <= n <= n' -> unimodular_matrices n = Ok ms -> unimodular_matrices n' = Ok ms' ->
  In M ms -> In M ms'.
Proof. exact (unimodular_mono n n' ms ms' M). Qed.
Print Assumptions C66_unimodular_monotone.

(** the list is not that of all unimodular matrices with entries between 0 and n: whatever n,
    [[1, 0], [1, 1]] is missing *)
Theorem C66_all_unimodular_matrices_refuted : exists M, m11 M * m22 M - m12 M * m21 M = 1 /\
  0 <= m11 M <= 1 /\ 0 <= m12 M <= 1 /\ 0 <= m21 M <= 1 /\ 0 <= m22 M <= 1 /\
  forall n ms, unimodular_matrices n = Ok ms -> ~ In M ms.
Proof.
  exact (ex_intro _ (mkZM 1 0 1 1) (conj eq_refl (conj (conj Z.le_0_1 (Z.le_refl 1)) (conj (conj (Z.le_refl 0) Z.le_0_1)
    (conj (conj Z.le_0_1 (Z.le_refl 1)) (conj (conj Z.le_0_1 (Z.le_refl 1)) unimodular_missing)))))).
Qed.
Print Assumptions C66_all_unimodular_matrices_refuted.

(** the Farey sequence of order n is increasing and consists of the reduced fractions a / b of [0, 1]
    with b <= n; consecutive fractions have determinant one *)
Theorem C66_farey_sequence n : 1 <= n ->
  StronglySorted (fun x y => fst x * snd y < fst y * snd x) (farey_ n) /\
  (forall a b, In (a, b) (farey_ n) <-> 0 <= a <= b /\ 1 <= b <= n /\ Z.gcd a b = 1).
Proof. exact (farey_sequence n). Qed.
Print Assumptions C66_farey_sequence.

Theorem C66_farey_neighbours n p q r s : 1 <= n ->
  (In ((q, p), (s, r)) (combine (farey_ n) (tl (farey_ n))) <->
   p * s - r * q = 1 /\ 1 <= p <= n /\ 1 <= r <= n /\ 0 <= q <= p /\ 0 <= s <= r /\ n < p + r).
Proof. exact (neighbours n p q r s). Qed.
Print Assumptions C66_farey_neighbours.

Example C66_example : unimodular_matrices 3 = Ok [mkZM 1 0 0 1; mkZM 1 1 0 1; mkZM 1 2 0 1; mkZM 1 3 0 1;
  mkZM 2 1 1 1; mkZM 2 3 1 2; mkZM 3 2 1 1; mkZM 3 1 2 1].
Proof. reflexivity. Qed.

Example C66_example_farey : farey_ 4 = [(0, 1); (1, 4); (1, 3); (1, 2); (2, 3); (3, 4); (1, 1)].
Proof. reflexivity. Qed.

Example C66_example_raise : unimodular_matrices (-2) = Raise ValueError.
Proof. reflexivity. Qed.
