(** * Proofs about Ellipse: five points, shape matrices, three boundary points,
    equality. *)

From Coq Require Import Reals Lra Lia Psatz List Bool ZArith.
From Verif Require Import Base BaseLemmas Spec SpecLemmas ModelInternal ModelLine ModelCircle ModelAffine ModelEllipse ModelTransfo
  PLine PCircle PInvBase PCircle2 PAffine PTransfo PEllipse PEllipse2 PEllipse3 PEllipse4.
Import ListNotations.
Local Open Scope R_scope.

(** ** C28 *)

(** Cramer identities for the kernel of a 5x6 matrix *)
Lemma cramer_1 a1 b1 c1 d1 e1 f1 a2 b2 c2 d2 e2 f2 a3 b3 c3 d3 e3 f3 a4 b4 c4 d4 e4 f4 a5 b5 c5 d5 e5 f5 v0 v1 v2 v3 v4 v5 :
  v0 * (- det5 (a1, c1, d1, e1, f1) (a2, c2, d2, e2, f2) (a3, c3, d3, e3, f3) (a4, c4, d4, e4, f4) (a5, c5, d5, e5, f5)) - v1 * (det5 (b1, c1, d1, e1, f1) (b2, c2, d2, e2, f2) (b3, c3, d3, e3, f3) (b4, c4, d4, e4, f4) (b5, c5, d5, e5, f5)) = 0 - det4 (c2, d2, e2, f2) (c3, d3, e3, f3) (c4, d4, e4, f4) (c5, d5, e5, f5) * (a1 * v0 + b1 * v1 + c1 * v2 + d1 * v3 + e1 * v4 + f1 * v5) + det4 (c1, d1, e1, f1) (c3, d3, e3, f3) (c4, d4, e4, f4) (c5, d5, e5, f5) * (a2 * v0 + b2 * v1 + c2 * v2 + d2 * v3 + e2 * v4 + f2 * v5) - det4 (c1, d1, e1, f1) (c2, d2, e2, f2) (c4, d4, e4, f4) (c5, d5, e5, f5) * (a3 * v0 + b3 * v1 + c3 * v2 + d3 * v3 + e3 * v4 + f3 * v5) + det4 (c1, d1, e1, f1) (c2, d2, e2, f2) (c3, d3, e3, f3) (c5, d5, e5, f5) * (a4 * v0 + b4 * v1 + c4 * v2 + d4 * v3 + e4 * v4 + f4 * v5) - det4 (c1, d1, e1, f1) (c2, d2, e2, f2) (c3, d3, e3, f3) (c4, d4, e4, f4) * (a5 * v0 + b5 * v1 + c5 * v2 + d5 * v3 + e5 * v4 + f5 * v5).
Proof. unfold det5, det4, det3; cbn [n11 n12 n13 n21 n22 n23 n31 n32 n33]. ring. Qed.

Lemma cramer_1_0 a1 b1 c1 d1 e1 f1 a2 b2 c2 d2 e2 f2 a3 b3 c3 d3 e3 f3 a4 b4 c4 d4 e4 f4 a5 b5 c5 d5 e5 f5 v0 v1 v2 v3 v4 v5 : a1 * v0 + b1 * v1 + c1 * v2 + d1 * v3 + e1 * v4 + f1 * v5 = 0 -> a2 * v0 + b2 * v1 + c2 * v2 + d2 * v3 + e2 * v4 + f2 * v5 = 0 -> a3 * v0 + b3 * v1 + c3 * v2 + d3 * v3 + e3 * v4 + f3 * v5 = 0 -> a4 * v0 + b4 * v1 + c4 * v2 + d4 * v3 + e4 * v4 + f4 * v5 = 0 -> a5 * v0 + b5 * v1 + c5 * v2 + d5 * v3 + e5 * v4 + f5 * v5 = 0 ->
  v0 * (- det5 (a1, c1, d1, e1, f1) (a2, c2, d2, e2, f2) (a3, c3, d3, e3, f3) (a4, c4, d4, e4, f4) (a5, c5, d5, e5, f5)) = (det5 (b1, c1, d1, e1, f1) (b2, c2, d2, e2, f2) (b3, c3, d3, e3, f3) (b4, c4, d4, e4, f4) (b5, c5, d5, e5, f5)) * v1.
Proof. intros R1 R2 R3 R4 R5. apply Rminus_diag_uniq. rewrite (Rmult_comm (det5 _ _ _ _ _)). rewrite (cramer_1 a1 b1 c1 d1 e1 f1 a2 b2 c2 d2 e2 f2 a3 b3 c3 d3 e3 f3 a4 b4 c4 d4 e4 f4 a5 b5 c5 d5 e5 f5 v0 v1 v2 v3 v4 v5). rewrite R1, R2, R3, R4, R5. ring. Qed.

Lemma cramer_2 a1 b1 c1 d1 e1 f1 a2 b2 c2 d2 e2 f2 a3 b3 c3 d3 e3 f3 a4 b4 c4 d4 e4 f4 a5 b5 c5 d5 e5 f5 v0 v1 v2 v3 v4 v5 :
  v0 * (det5 (a1, b1, d1, e1, f1) (a2, b2, d2, e2, f2) (a3, b3, d3, e3, f3) (a4, b4, d4, e4, f4) (a5, b5, d5, e5, f5)) - v2 * (det5 (b1, c1, d1, e1, f1) (b2, c2, d2, e2, f2) (b3, c3, d3, e3, f3) (b4, c4, d4, e4, f4) (b5, c5, d5, e5, f5)) = 0 + det4 (b2, d2, e2, f2) (b3, d3, e3, f3) (b4, d4, e4, f4) (b5, d5, e5, f5) * (a1 * v0 + b1 * v1 + c1 * v2 + d1 * v3 + e1 * v4 + f1 * v5) - det4 (b1, d1, e1, f1) (b3, d3, e3, f3) (b4, d4, e4, f4) (b5, d5, e5, f5) * (a2 * v0 + b2 * v1 + c2 * v2 + d2 * v3 + e2 * v4 + f2 * v5) + det4 (b1, d1, e1, f1) (b2, d2, e2, f2) (b4, d4, e4, f4) (b5, d5, e5, f5) * (a3 * v0 + b3 * v1 + c3 * v2 + d3 * v3 + e3 * v4 + f3 * v5) - det4 (b1, d1, e1, f1) (b2, d2, e2, f2) (b3, d3, e3, f3) (b5, d5, e5, f5) * (a4 * v0 + b4 * v1 + c4 * v2 + d4 * v3 + e4 * v4 + f4 * v5) + det4 (b1, d1, e1, f1) (b2, d2, e2, f2) (b3, d3, e3, f3) (b4, d4, e4, f4) * (a5 * v0 + b5 * v1 + c5 * v2 + d5 * v3 + e5 * v4 + f5 * v5).
Proof. unfold det5, det4, det3; cbn [n11 n12 n13 n21 n22 n23 n31 n32 n33]. ring. Qed.

Lemma cramer_2_0 a1 b1 c1 d1 e1 f1 a2 b2 c2 d2 e2 f2 a3 b3 c3 d3 e3 f3 a4 b4 c4 d4 e4 f4 a5 b5 c5 d5 e5 f5 v0 v1 v2 v3 v4 v5 : a1 * v0 + b1 * v1 + c1 * v2 + d1 * v3 + e1 * v4 + f1 * v5 = 0 -> a2 * v0 + b2 * v1 + c2 * v2 + d2 * v3 + e2 * v4 + f2 * v5 = 0 -> a3 * v0 + b3 * v1 + c3 * v2 + d3 * v3 + e3 * v4 + f3 * v5 = 0 -> a4 * v0 + b4 * v1 + c4 * v2 + d4 * v3 + e4 * v4 + f4 * v5 = 0 -> a5 * v0 + b5 * v1 + c5 * v2 + d5 * v3 + e5 * v4 + f5 * v5 = 0 ->
  v0 * (det5 (a1, b1, d1, e1, f1) (a2, b2, d2, e2, f2) (a3, b3, d3, e3, f3) (a4, b4, d4, e4, f4) (a5, b5, d5, e5, f5)) = (det5 (b1, c1, d1, e1, f1) (b2, c2, d2, e2, f2) (b3, c3, d3, e3, f3) (b4, c4, d4, e4, f4) (b5, c5, d5, e5, f5)) * v2.
Proof. intros R1 R2 R3 R4 R5. apply Rminus_diag_uniq. rewrite (Rmult_comm (det5 _ _ _ _ _)). rewrite (cramer_2 a1 b1 c1 d1 e1 f1 a2 b2 c2 d2 e2 f2 a3 b3 c3 d3 e3 f3 a4 b4 c4 d4 e4 f4 a5 b5 c5 d5 e5 f5 v0 v1 v2 v3 v4 v5). rewrite R1, R2, R3, R4, R5. ring. Qed.

Lemma cramer_3 a1 b1 c1 d1 e1 f1 a2 b2 c2 d2 e2 f2 a3 b3 c3 d3 e3 f3 a4 b4 c4 d4 e4 f4 a5 b5 c5 d5 e5 f5 v0 v1 v2 v3 v4 v5 :
  v0 * (- det5 (a1, b1, c1, e1, f1) (a2, b2, c2, e2, f2) (a3, b3, c3, e3, f3) (a4, b4, c4, e4, f4) (a5, b5, c5, e5, f5)) - v3 * (det5 (b1, c1, d1, e1, f1) (b2, c2, d2, e2, f2) (b3, c3, d3, e3, f3) (b4, c4, d4, e4, f4) (b5, c5, d5, e5, f5)) = 0 - det4 (b2, c2, e2, f2) (b3, c3, e3, f3) (b4, c4, e4, f4) (b5, c5, e5, f5) * (a1 * v0 + b1 * v1 + c1 * v2 + d1 * v3 + e1 * v4 + f1 * v5) + det4 (b1, c1, e1, f1) (b3, c3, e3, f3) (b4, c4, e4, f4) (b5, c5, e5, f5) * (a2 * v0 + b2 * v1 + c2 * v2 + d2 * v3 + e2 * v4 + f2 * v5) - det4 (b1, c1, e1, f1) (b2, c2, e2, f2) (b4, c4, e4, f4) (b5, c5, e5, f5) * (a3 * v0 + b3 * v1 + c3 * v2 + d3 * v3 + e3 * v4 + f3 * v5) + det4 (b1, c1, e1, f1) (b2, c2, e2, f2) (b3, c3, e3, f3) (b5, c5, e5, f5) * (a4 * v0 + b4 * v1 + c4 * v2 + d4 * v3 + e4 * v4 + f4 * v5) - det4 (b1, c1, e1, f1) (b2, c2, e2, f2) (b3, c3, e3, f3) (b4, c4, e4, f4) * (a5 * v0 + b5 * v1 + c5 * v2 + d5 * v3 + e5 * v4 + f5 * v5).
Proof. unfold det5, det4, det3; cbn [n11 n12 n13 n21 n22 n23 n31 n32 n33]. ring. Qed.

Lemma cramer_3_0 a1 b1 c1 d1 e1 f1 a2 b2 c2 d2 e2 f2 a3 b3 c3 d3 e3 f3 a4 b4 c4 d4 e4 f4 a5 b5 c5 d5 e5 f5 v0 v1 v2 v3 v4 v5 : a1 * v0 + b1 * v1 + c1 * v2 + d1 * v3 + e1 * v4 + f1 * v5 = 0 -> a2 * v0 + b2 * v1 + c2 * v2 + d2 * v3 + e2 * v4 + f2 * v5 = 0 -> a3 * v0 + b3 * v1 + c3 * v2 + d3 * v3 + e3 * v4 + f3 * v5 = 0 -> a4 * v0 + b4 * v1 + c4 * v2 + d4 * v3 + e4 * v4 + f4 * v5 = 0 -> a5 * v0 + b5 * v1 + c5 * v2 + d5 * v3 + e5 * v4 + f5 * v5 = 0 ->
  v0 * (- det5 (a1, b1, c1, e1, f1) (a2, b2, c2, e2, f2) (a3, b3, c3, e3, f3) (a4, b4, c4, e4, f4) (a5, b5, c5, e5, f5)) = (det5 (b1, c1, d1, e1, f1) (b2, c2, d2, e2, f2) (b3, c3, d3, e3, f3) (b4, c4, d4, e4, f4) (b5, c5, d5, e5, f5)) * v3.
Proof. intros R1 R2 R3 R4 R5. apply Rminus_diag_uniq. rewrite (Rmult_comm (det5 _ _ _ _ _)). rewrite (cramer_3 a1 b1 c1 d1 e1 f1 a2 b2 c2 d2 e2 f2 a3 b3 c3 d3 e3 f3 a4 b4 c4 d4 e4 f4 a5 b5 c5 d5 e5 f5 v0 v1 v2 v3 v4 v5). rewrite R1, R2, R3, R4, R5. ring. Qed.

Lemma cramer_4 a1 b1 c1 d1 e1 f1 a2 b2 c2 d2 e2 f2 a3 b3 c3 d3 e3 f3 a4 b4 c4 d4 e4 f4 a5 b5 c5 d5 e5 f5 v0 v1 v2 v3 v4 v5 :
  v0 * (det5 (a1, b1, c1, d1, f1) (a2, b2, c2, d2, f2) (a3, b3, c3, d3, f3) (a4, b4, c4, d4, f4) (a5, b5, c5, d5, f5)) - v4 * (det5 (b1, c1, d1, e1, f1) (b2, c2, d2, e2, f2) (b3, c3, d3, e3, f3) (b4, c4, d4, e4, f4) (b5, c5, d5, e5, f5)) = 0 + det4 (b2, c2, d2, f2) (b3, c3, d3, f3) (b4, c4, d4, f4) (b5, c5, d5, f5) * (a1 * v0 + b1 * v1 + c1 * v2 + d1 * v3 + e1 * v4 + f1 * v5) - det4 (b1, c1, d1, f1) (b3, c3, d3, f3) (b4, c4, d4, f4) (b5, c5, d5, f5) * (a2 * v0 + b2 * v1 + c2 * v2 + d2 * v3 + e2 * v4 + f2 * v5) + det4 (b1, c1, d1, f1) (b2, c2, d2, f2) (b4, c4, d4, f4) (b5, c5, d5, f5) * (a3 * v0 + b3 * v1 + c3 * v2 + d3 * v3 + e3 * v4 + f3 * v5) - det4 (b1, c1, d1, f1) (b2, c2, d2, f2) (b3, c3, d3, f3) (b5, c5, d5, f5) * (a4 * v0 + b4 * v1 + c4 * v2 + d4 * v3 + e4 * v4 + f4 * v5) + det4 (b1, c1, d1, f1) (b2, c2, d2, f2) (b3, c3, d3, f3) (b4, c4, d4, f4) * (a5 * v0 + b5 * v1 + c5 * v2 + d5 * v3 + e5 * v4 + f5 * v5).
Proof. unfold det5, det4, det3; cbn [n11 n12 n13 n21 n22 n23 n31 n32 n33]. ring. Qed.

Lemma cramer_4_0 a1 b1 c1 d1 e1 f1 a2 b2 c2 d2 e2 f2 a3 b3 c3 d3 e3 f3 a4 b4 c4 d4 e4 f4 a5 b5 c5 d5 e5 f5 v0 v1 v2 v3 v4 v5 : a1 * v0 + b1 * v1 + c1 * v2 + d1 * v3 + e1 * v4 + f1 * v5 = 0 -> a2 * v0 + b2 * v1 + c2 * v2 + d2 * v3 + e2 * v4 + f2 * v5 = 0 -> a3 * v0 + b3 * v1 + c3 * v2 + d3 * v3 + e3 * v4 + f3 * v5 = 0 -> a4 * v0 + b4 * v1 + c4 * v2 + d4 * v3 + e4 * v4 + f4 * v5 = 0 -> a5 * v0 + b5 * v1 + c5 * v2 + d5 * v3 + e5 * v4 + f5 * v5 = 0 ->
  v0 * (det5 (a1, b1, c1, d1, f1) (a2, b2, c2, d2, f2) (a3, b3, c3, d3, f3) (a4, b4, c4, d4, f4) (a5, b5, c5, d5, f5)) = (det5 (b1, c1, d1, e1, f1) (b2, c2, d2, e2, f2) (b3, c3, d3, e3, f3) (b4, c4, d4, e4, f4) (b5, c5, d5, e5, f5)) * v4.
Proof. intros R1 R2 R3 R4 R5. apply Rminus_diag_uniq. rewrite (Rmult_comm (det5 _ _ _ _ _)). rewrite (cramer_4 a1 b1 c1 d1 e1 f1 a2 b2 c2 d2 e2 f2 a3 b3 c3 d3 e3 f3 a4 b4 c4 d4 e4 f4 a5 b5 c5 d5 e5 f5 v0 v1 v2 v3 v4 v5). rewrite R1, R2, R3, R4, R5. ring. Qed.

Lemma cramer_5 a1 b1 c1 d1 e1 f1 a2 b2 c2 d2 e2 f2 a3 b3 c3 d3 e3 f3 a4 b4 c4 d4 e4 f4 a5 b5 c5 d5 e5 f5 v0 v1 v2 v3 v4 v5 :
  v0 * (- det5 (a1, b1, c1, d1, e1) (a2, b2, c2, d2, e2) (a3, b3, c3, d3, e3) (a4, b4, c4, d4, e4) (a5, b5, c5, d5, e5)) - v5 * (det5 (b1, c1, d1, e1, f1) (b2, c2, d2, e2, f2) (b3, c3, d3, e3, f3) (b4, c4, d4, e4, f4) (b5, c5, d5, e5, f5)) = 0 - det4 (b2, c2, d2, e2) (b3, c3, d3, e3) (b4, c4, d4, e4) (b5, c5, d5, e5) * (a1 * v0 + b1 * v1 + c1 * v2 + d1 * v3 + e1 * v4 + f1 * v5) + det4 (b1, c1, d1, e1) (b3, c3, d3, e3) (b4, c4, d4, e4) (b5, c5, d5, e5) * (a2 * v0 + b2 * v1 + c2 * v2 + d2 * v3 + e2 * v4 + f2 * v5) - det4 (b1, c1, d1, e1) (b2, c2, d2, e2) (b4, c4, d4, e4) (b5, c5, d5, e5) * (a3 * v0 + b3 * v1 + c3 * v2 + d3 * v3 + e3 * v4 + f3 * v5) + det4 (b1, c1, d1, e1) (b2, c2, d2, e2) (b3, c3, d3, e3) (b5, c5, d5, e5) * (a4 * v0 + b4 * v1 + c4 * v2 + d4 * v3 + e4 * v4 + f4 * v5) - det4 (b1, c1, d1, e1) (b2, c2, d2, e2) (b3, c3, d3, e3) (b4, c4, d4, e4) * (a5 * v0 + b5 * v1 + c5 * v2 + d5 * v3 + e5 * v4 + f5 * v5).
Proof. unfold det5, det4, det3; cbn [n11 n12 n13 n21 n22 n23 n31 n32 n33]. ring. Qed.

Lemma cramer_5_0 a1 b1 c1 d1 e1 f1 a2 b2 c2 d2 e2 f2 a3 b3 c3 d3 e3 f3 a4 b4 c4 d4 e4 f4 a5 b5 c5 d5 e5 f5 v0 v1 v2 v3 v4 v5 : a1 * v0 + b1 * v1 + c1 * v2 + d1 * v3 + e1 * v4 + f1 * v5 = 0 -> a2 * v0 + b2 * v1 + c2 * v2 + d2 * v3 + e2 * v4 + f2 * v5 = 0 -> a3 * v0 + b3 * v1 + c3 * v2 + d3 * v3 + e3 * v4 + f3 * v5 = 0 -> a4 * v0 + b4 * v1 + c4 * v2 + d4 * v3 + e4 * v4 + f4 * v5 = 0 -> a5 * v0 + b5 * v1 + c5 * v2 + d5 * v3 + e5 * v4 + f5 * v5 = 0 ->
  v0 * (- det5 (a1, b1, c1, d1, e1) (a2, b2, c2, d2, e2) (a3, b3, c3, d3, e3) (a4, b4, c4, d4, e4) (a5, b5, c5, d5, e5)) = (det5 (b1, c1, d1, e1, f1) (b2, c2, d2, e2, f2) (b3, c3, d3, e3, f3) (b4, c4, d4, e4, f4) (b5, c5, d5, e5, f5)) * v5.
Proof. intros R1 R2 R3 R4 R5. apply Rminus_diag_uniq. rewrite (Rmult_comm (det5 _ _ _ _ _)). rewrite (cramer_5 a1 b1 c1 d1 e1 f1 a2 b2 c2 d2 e2 f2 a3 b3 c3 d3 e3 f3 a4 b4 c4 d4 e4 f4 a5 b5 c5 d5 e5 f5 v0 v1 v2 v3 v4 v5). rewrite R1, R2, R3, R4, R5. ring. Qed.


Definition br (P Q S : pt) : R := scross (vsub Q P) (vsub S P).

Definition five_conic (P1 P2 P3 P4 P5 : pt) : conic :=
  let d i := det5 (crow i P1) (crow i P2) (crow i P3) (crow i P4) (crow i P5) in
  (d 0%nat, - d 1%nat, d 2%nat, - d 3%nat, d 4%nat, - d 5%nat).

(** the 6x6 determinant as brackets of the points *)
Lemma five_bracket P1 P2 P3 P4 P5 P : conic_eval (five_conic P1 P2 P3 P4 P5) P =
   br P1 P2 P3 * br P1 P4 P5 * br P2 P4 P * br P3 P5 P - br P1 P2 P4 * br P1 P3 P5 * br P2 P3 P * br P4 P5 P.
Proof.
  destruct P1, P2, P3, P4, P5, P. unfold five_conic, crow, br, scross, vsub, conic_eval, det5, det4, det3; cbn [n11 n12 n13 n21 n22 n23 n31 n32 n33 fst snd]. ring.
Qed.

Lemma five_conic_through P1 P2 P3 P4 P5 P : In P [P1; P2; P3; P4; P5] -> conic_eval (five_conic P1 P2 P3 P4 P5) P = 0.
Proof.
  intros H. rewrite five_bracket. unfold br, scross, vsub.
  destruct H as [<-|[<-|[<-|[<-|[<-|[]]]]]]; cbn [fst snd]; ring.
Qed.

Lemma all_distinct_spec l : all_distinct l = true <-> NoDup l.
Proof.
  assert (E : forall P Q, pt_eqb P Q = true <-> P = Q).
  { intros [a b] [c d]. unfold pt_eqb; cbn [fst snd]. rewrite andb_true_iff, !eqb_true. split; [intros [-> ->]; auto|intros K; injection K; auto]. }
  induction l as [|P l IH]; cbn [all_distinct]; [split; [constructor|auto]|].
  rewrite andb_true_iff, negb_true_iff, IH. split.
  - intros [H1 H2]. constructor; auto. intros K. assert (existsb (pt_eqb P) l = true) by (apply existsb_exists; exists P; split; auto; apply E; auto). congruence.
  - intros H. inversion H as [|? ? H1 H2]; subst. split; auto. destruct (existsb (pt_eqb P) l) eqn:K; auto. apply existsb_exists in K. destruct K as (Q & K1 & K2). apply E in K2. subst. contradiction.
Qed.

Lemma equation_five_cases P1 P2 P3 P4 P5 :
  (NoDup [P1; P2; P3; P4; P5] /\ c_disc (five_conic P1 P2 P3 P4 P5) < 0 /\ equation_from_five_points P1 P2 P3 P4 P5 = Ok (five_conic P1 P2 P3 P4 P5)) \/
  (~ (NoDup [P1; P2; P3; P4; P5] /\ c_disc (five_conic P1 P2 P3 P4 P5) < 0) /\ equation_from_five_points P1 P2 P3 P4 P5 = Raise ValueError).
Proof.
  unfold equation_from_five_points. destruct (all_distinct [P1; P2; P3; P4; P5]) eqn:Ed; cbn [negb].
  - apply all_distinct_spec in Ed. match goal with |- context [leb 0 ?x] => change x with (c_disc (five_conic P1 P2 P3 P4 P5)); destruct (leb 0 (c_disc (five_conic P1 P2 P3 P4 P5))) eqn:L end.
    + apply leb_true in L. right. split; auto. intros [_ K]. lra.
    + apply leb_false in L. left. auto.
  - right. split; auto. intros [K _]. apply all_distinct_spec in K. congruence.
Qed.

(** coefficientwise multiple *)
Definition conic_scale (k : R) (c : conic) : conic := let '(A, B, C, D, E, F) := c in (k * A, k * B, k * C, k * D, k * E, k * F).

Lemma conic_eval_scale k c M : conic_eval (conic_scale k c) M = k * conic_eval c M.
Proof. destruct c as [[[[[A B] C] D] E] F], M. unfold conic_eval, conic_scale. ring. Qed.

Definition c_A (c : conic) : R := let '(A, B, C, D, E, F) := c in A.

(** every conic through the five points is proportional *)
Lemma five_proportional P1 P2 P3 P4 P5 A B C D E F : (forall P, In P [P1; P2; P3; P4; P5] -> conic_eval (A, B, C, D, E, F) P = 0) ->
  conic_scale A (five_conic P1 P2 P3 P4 P5) = conic_scale (c_A (five_conic P1 P2 P3 P4 P5)) (A, B, C, D, E, F).
Proof.
  intros H. pose proof (H P1 ltac:(cbn; auto)) as H1. pose proof (H P2 ltac:(cbn; auto)) as H2. pose proof (H P3 ltac:(cbn; auto)) as H3.
  pose proof (H P4 ltac:(cbn; auto 6)) as H4. pose proof (H P5 ltac:(cbn; auto 7)) as H5. clear H.
  destruct P1 as [x1 y1], P2 as [x2 y2], P3 as [x3 y3], P4 as [x4 y4], P5 as [x5 y5].
  assert (R1 : x1 * x1 * A + x1 * y1 * B + y1 * y1 * C + x1 * D + y1 * E + 1 * F = 0) by (rewrite <- H1; unfold conic_eval; ring).
  assert (R2 : x2 * x2 * A + x2 * y2 * B + y2 * y2 * C + x2 * D + y2 * E + 1 * F = 0) by (rewrite <- H2; unfold conic_eval; ring).
  assert (R3 : x3 * x3 * A + x3 * y3 * B + y3 * y3 * C + x3 * D + y3 * E + 1 * F = 0) by (rewrite <- H3; unfold conic_eval; ring).
  assert (R4 : x4 * x4 * A + x4 * y4 * B + y4 * y4 * C + x4 * D + y4 * E + 1 * F = 0) by (rewrite <- H4; unfold conic_eval; ring).
  assert (R5 : x5 * x5 * A + x5 * y5 * B + y5 * y5 * C + x5 * D + y5 * E + 1 * F = 0) by (rewrite <- H5; unfold conic_eval; ring).
  unfold five_conic, crow, conic_scale, c_A. cbv zeta.
  match goal with |- (?a, ?b, ?c, ?d, ?e, ?f) = (?a', ?b', ?c', ?d', ?e', ?f') =>
    assert (Ea : a = a'); [ring|]; assert (Eb : b = b'); [|assert (Ec : c = c'); [|assert (Ed : d = d'); [|assert (Ee : e = e'); [|assert (Ef : f = f'); [|rewrite Ea, Eb, Ec, Ed, Ee, Ef; reflexivity]]]]] end;
  [apply (cramer_1_0 _ _ _ _ _ _ _ _ _ _ _ _ _ _ _ _ _ _ _ _ _ _ _ _ _ _ _ _ _ _ _ _ _ _ _ _ R1 R2 R3 R4 R5)|apply (cramer_2_0 _ _ _ _ _ _ _ _ _ _ _ _ _ _ _ _ _ _ _ _ _ _ _ _ _ _ _ _ _ _ _ _ _ _ _ _ R1 R2 R3 R4 R5)|apply (cramer_3_0 _ _ _ _ _ _ _ _ _ _ _ _ _ _ _ _ _ _ _ _ _ _ _ _ _ _ _ _ _ _ _ _ _ _ _ _ R1 R2 R3 R4 R5)|apply (cramer_4_0 _ _ _ _ _ _ _ _ _ _ _ _ _ _ _ _ _ _ _ _ _ _ _ _ _ _ _ _ _ _ _ _ _ _ _ _ R1 R2 R3 R4 R5)|apply (cramer_5_0 _ _ _ _ _ _ _ _ _ _ _ _ _ _ _ _ _ _ _ _ _ _ _ _ _ _ _ _ _ _ _ _ _ _ _ _ R1 R2 R3 R4 R5)].
Qed.

Lemma five_nonzero P1 P2 P3 P4 P5 : br P1 P2 P4 <> 0 -> br P1 P3 P5 <> 0 -> br P2 P3 P4 <> 0 -> br P4 P5 P2 <> 0 ->
  exists P, conic_eval (five_conic P1 P2 P3 P4 P5) P <> 0.
Proof.
  intros H1 H2 H3 H4. exists (midpoint P2 P4). rewrite five_bracket.
  assert (E1 : br P2 P4 (midpoint P2 P4) = 0) by (destruct P2, P4; unfold br, midpoint; unspec; field).
  assert (E2 : br P2 P3 (midpoint P2 P4) = br P2 P3 P4 / 2) by (destruct P2, P3, P4; unfold br, midpoint; unspec; field).
  assert (E3 : br P4 P5 (midpoint P2 P4) = br P4 P5 P2 / 2) by (destruct P2, P5, P4; unfold br, midpoint; unspec; field).
  rewrite E1, E2, E3. intros K. assert (Z : br P1 P2 P4 * br P1 P3 P5 * br P2 P3 P4 * br P4 P5 P2 = 0) by lra.
  apply Rmult_integral in Z. destruct Z as [Z|Z]; auto. apply Rmult_integral in Z. destruct Z as [Z|Z]; auto. apply Rmult_integral in Z. tauto.
Qed.

(** three distinct points of an ellipse are not collinear *)
Lemma ellipse_no_three O a b th P Q S : 0 < a -> 0 < b -> on_ellipse O a b th P -> on_ellipse O a b th Q -> on_ellipse O a b th S ->
  P <> Q -> P <> S -> Q <> S -> br P Q S <> 0.
Proof.
  intros Ha Hb HP HQ HS N1 N2 N3 K.
  apply on_ellipse_poly in HP; auto. apply on_ellipse_poly in HQ; auto. apply on_ellipse_poly in HS; auto.
  assert (K2 : (fx O th Q - fx O th P) * (fy O th S - fy O th P) - (fy O th Q - fy O th P) * (fx O th S - fx O th P) = 0).
  { rewrite <- K. unfold br, fx, fy. pose proof (cs1 th) as H. set (c := cos th) in *. set (s := sin th) in *. unspec.
    transitivity ((c * c + s * s) * ((fst Q - fst P) * (snd S - snd P) - (snd Q - snd P) * (fst S - fst P))); [ring|rewrite H; ring]. }
  set (x1 := fx O th P) in *. set (y1 := fy O th P) in *.
  set (u := fx O th Q - x1) in *. set (v := fy O th Q - y1) in *. set (u' := fx O th S - x1) in *. set (v' := fy O th S - y1) in *.
  assert (EQ : b * b * (u * u) + a * a * (v * v) + 2 * (b * b * (x1 * u) + a * a * (y1 * v)) = 0) by (unfold u, v; nra).
  assert (ES : b * b * (u' * u') + a * a * (v' * v') + 2 * (b * b * (x1 * u') + a * a * (y1 * v')) = 0) by (unfold u', v'; nra).
  assert (Nuv : u <> 0 \/ v <> 0).
  { destruct (Req_dec u 0) as [U|]; auto. destruct (Req_dec v 0) as [V|]; auto. exfalso. apply N1. apply (frame_inj O th); unfold u, v, x1, y1 in *; lra. }
  assert (Nuv' : u' <> 0 \/ v' <> 0).
  { destruct (Req_dec u' 0) as [U|]; auto. destruct (Req_dec v' 0) as [V|]; auto. exfalso. apply N2. apply (frame_inj O th); unfold u', v', x1, y1 in *; lra. }
  assert (Hk : exists k, u' = k * u /\ v' = k * v).
  { destruct (Req_dec u 0) as [U|U].
    - destruct Nuv as [|V]; [contradiction|]. rewrite U in K2. exists (v' / v). split; [|field; auto]. rewrite U, Rmult_0_r.
      assert (Z : v * u' = 0) by lra. apply Rmult_integral in Z. tauto.
    - exists (u' / u). split; [field; auto|]. apply Rmult_eq_reg_l with u; auto. transitivity (v * u'); [lra|field; auto]. }
  destruct Hk as (k & E1 & E2).
  assert (Hq : 0 < b * b * (u * u) + a * a * (v * v)).
  { assert (0 < a * a) by nra. assert (0 < b * b) by nra. pose proof (sqnn u). pose proof (sqnn v). destruct Nuv as [N|N]; apply sqpos in N; nra. }
  rewrite E1, E2 in ES. set (q := b * b * (u * u) + a * a * (v * v)) in *. set (l := b * b * (x1 * u) + a * a * (y1 * v)) in *.
  assert (ES' : k * (k * q + 2 * l) = 0) by (unfold q, l; lra).
  apply Rmult_integral in ES'. destruct ES' as [Z|Z].
  - subst k. rewrite !Rmult_0_l in *. tauto.
  - assert (E : (k - 1) * q = 0) by lra. apply Rmult_integral in E. destruct E as [E|E]; [|lra]. assert (k = 1) by lra. subst k.
    apply N3. apply (frame_inj O th); unfold u, v, u', v' in *; lra.
Qed.

(** five distinct points of an ellipse: the equation is that of the ellipse *)
Lemma five_points_of_ellipse e P1 P2 P3 P4 P5 : 0 < ea e -> 0 < eb e -> NoDup [P1; P2; P3; P4; P5] ->
  Forall (on_ellipse (eO e) (ea e) (eb e) (ell_th e)) [P1; P2; P3; P4; P5] ->
  exists k, k <> 0 /\ equation_from_five_points P1 P2 P3 P4 P5 = Ok (conic_scale k (ellipse_equation e)).
Proof.
  intros Ha Hb Hnd Hon. rewrite Forall_forall in Hon.
  destruct (equation_coeffs e Ha Hb) as (A & B & C & D & E & F & HE & HA & HC & Hd & _).
  assert (Hev : forall P, In P [P1; P2; P3; P4; P5] -> conic_eval (A, B, C, D, E, F) P = 0).
  { intros P HP. rewrite <- HE. apply equation_on; auto. }
  pose proof (five_proportional _ _ _ _ _ _ _ _ _ _ _ Hev) as Hpr.
  assert (Hbr : forall P Q S, In P [P1; P2; P3; P4; P5] -> In Q [P1; P2; P3; P4; P5] -> In S [P1; P2; P3; P4; P5] -> P <> Q -> P <> S -> Q <> S -> br P Q S <> 0).
  { intros P Q S ? ? ? ? ? ?. apply (ellipse_no_three (eO e) (ea e) (eb e) (ell_th e)); auto. }
  inversion Hnd as [|? ? N1 Hnd1]; subst. inversion Hnd1 as [|? ? N2 Hnd2]; subst. inversion Hnd2 as [|? ? N3 Hnd3]; subst. inversion Hnd3 as [|? ? N4 Hnd4]; subst.
  destruct (five_nonzero P1 P2 P3 P4 P5) as (P & HP); try (apply Hbr; cbn; auto 7; intros ->; cbn in *; tauto).
  set (w := five_conic P1 P2 P3 P4 P5) in *.
  assert (Hw : w = conic_scale (c_A w / A) (A, B, C, D, E, F)).
  { revert Hpr. destruct w as [[[[[w0 w1] w2] w3] w4] w5]. unfold conic_scale, c_A. intros Z. injection Z as Z0 Z1 Z2 Z3 Z4 Z5.
    assert (Z' : forall x y, A * x = w0 * y -> x = w0 / A * y) by (intros x y Zxy; apply Rmult_eq_reg_l with A; [rewrite Zxy; field; lra|lra]).
    rewrite <- (Z' w0 A), <- (Z' w1 B), <- (Z' w2 C), <- (Z' w3 D), <- (Z' w4 E), <- (Z' w5 F) by (auto; ring). auto. }
  set (k := c_A w / A) in *. assert (Hk : k <> 0). { intros Z. apply HP. rewrite Hw, conic_eval_scale, Z. ring. }
  exists k. split; auto. rewrite HE, <- Hw. destruct (equation_five_cases P1 P2 P3 P4 P5) as [(_ & _ & K)|(K & _)]; auto.
  exfalso. apply K. split; auto. fold w. rewrite Hw. unfold c_disc, conic_scale.
  assert (0 < (ea e * eb e) ^ 2) by (apply pow_lt; nra). assert (0 < k * k) by (apply sqpos; auto).
  replace (k * B * (k * B) - 4 * (k * A) * (k * C)) with (- 4 * (k * k) * (A * C - B * B / 4)) by field. rewrite Hd. nra.
Qed.

Lemma from_five_spec ev P1 P2 P3 P4 P5 e : (forall M, is_eigvals M (ev M)) ->
  ellipse_from_five_points ev P1 P2 P3 P4 P5 = Ok e ->
  exists A B C D E F, equation_from_five_points P1 P2 P3 P4 P5 = Ok (A, B, C, D, E, F) /\
   (A <> C \/ B = 0 -> 0 < eb e <= ea e /\ Forall (on_ellipse (eO e) (ea e) (eb e) (ell_th e)) [P1; P2; P3; P4; P5]).
Proof.
  intros Hev H. unfold ellipse_from_five_points in H. apply bind_Ok in H. destruct H as (k & Hk & H).
  destruct (equation_five_cases P1 P2 P3 P4 P5) as [(_ & _ & K)|(_ & K)]; [|congruence]. rewrite K in Hk. injection Hk as Hk.
  destruct k as [[[[[A B] C] D] E] F]. exists A, B, C, D, E, F. rewrite K, Hk. split; auto. intros HAC.
  destruct (from_equation_spec ev A B C D E F e Hev H HAC) as (S1 & _ & _ & q & Hq & S2). split; auto.
  apply Forall_forall. intros P HP. unfold on_ellipse. pose proof (five_conic_through P1 P2 P3 P4 P5 P HP) as Z. rewrite Hk, S2 in Z.
  apply Rmult_integral in Z. lra.
Qed.

(** from_five_points on points of an ellipse *)
Lemma from_five_of_ellipse ev e P1 P2 P3 P4 P5 : (forall M, is_eigvals M (ev M)) -> 0 < ea e -> 0 < eb e -> NoDup [P1; P2; P3; P4; P5] ->
  Forall (on_ellipse (eO e) (ea e) (eb e) (ell_th e)) [P1; P2; P3; P4; P5] ->
  ellipse_from_five_points ev P1 P2 P3 P4 P5 = feq ev (ellipse_equation e).
Proof.
  intros Hev Ha Hb Hnd Hon. destruct (five_points_of_ellipse e P1 P2 P3 P4 P5 Ha Hb Hnd Hon) as (k & Hk & E).
  unfold ellipse_from_five_points. rewrite E. cbn [bind]. destruct (ellipse_equation e) as [[[[[A B] C] D] E'] F]. cbn [conic_scale feq].
  apply from_equation_scale; auto.
Qed.
