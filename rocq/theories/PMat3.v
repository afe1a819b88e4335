(** * Proofs about the augmented matrices. *)

From Coq Require Import Reals List Lra.
From Verif Require Import Base BaseLemmas Spec ModelInternal ModelLine ModelCircle ModelAffine ModelTransfo.
Local Open Scope R_scope.

Definition augmented (M : mat3) : Prop :=
  (exists f, affine_mat3 f = M) \/ (exists l, reflection_mat3 l = Ok M) \/ (exists s, shear_mat3 s = Ok M) \/ (exists S, scaling_mat3 S = Ok M).

Lemma augmented_row M : augmented M -> n31 M = 0 /\ n32 M = 0 /\ n33 M = 1.
Proof.
  intros [(f & <-)|[(l & E)|[(s & E)|(S & E)]]]; [cbn; auto| | |];
    apply bind_Ok in E; destruct E as (J & _ & E); injection E as <-; cbn [move_row n31 n32 n33]; auto.
Qed.

Lemma augmented_product M N P : augmented M -> augmented N -> mat3_apply (mm3 M N) P = mat3_apply M (mat3_apply N P).
Proof.
  intros HM HN. destruct (augmented_row N HN) as (E1 & E2 & E3). unfold mat3_apply, mm3. cbn [n11 n12 n13 n21 n22 n23 fst snd]. rewrite E1, E2, E3. f_equal; ring.
Qed.
