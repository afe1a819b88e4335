(** * Specification vocabulary for Möbius transformations, independent of the model:
    the action of a matrix on the projective line, in homogeneous coordinates. *)

From Coq Require Import Reals List Bool.
From Verif Require Import Base.
Local Open Scope R_scope.

(** homogeneous coordinates of a point of the extended plane *)
Definition hom (P : ept) : C * C := match P with Pt z => (z, C1) | Inf => (C1, C0) end.

(** the matrix [[a, b], [c, d]] sends P to Q: it multiplies the coordinates of P to a
    non-zero multiple of those of Q *)
Definition mob_image (a b c d : C) (P Q : ept) : Prop :=
  exists k, k <> C0 /\
    (a * fst (hom P) + b * snd (hom P) = k * fst (hom Q))%C /\
    (c * fst (hom P) + d * snd (hom P) = k * snd (hom Q))%C.

(** n-fold iteration of a partial function *)
Fixpoint iterM {A} (f : A -> res A) (n : nat) (x : A) : res A :=
  match n with 0%nat => Ok x | S n => let! y := f x in iterM f n y end.

(** applying the functions of a list one after the other *)
Fixpoint chainM {A B} (f : B -> A -> res A) (l : list B) (x : A) : res A :=
  match l with nil => Ok x | cons b l => let! y := f b x in chainM f l y end.

(** an argument function for complex numbers *)
Definition is_arg (arg : C -> R) : Prop :=
  forall z, z <> C0 -> z = (sqrt (fst z * fst z + snd z * snd z) * cos (arg z), sqrt (fst z * fst z + snd z * snd z) * sin (arg z)).

(** eigenvalues and eigenvectors (columns) of [[a, b], [c, d]] *)
Definition is_eigen (a b c d l1 l2 v11 v12 v21 v22 : C) : Prop :=
  (a * v11 + b * v21 = l1 * v11)%C /\ (c * v11 + d * v21 = l1 * v21)%C /\
  (a * v12 + b * v22 = l2 * v12)%C /\ (c * v12 + d * v22 = l2 * v22)%C /\
  (v11, v21) <> (C0, C0) /\ (v12, v22) <> (C0, C0) /\
  (l1 + l2 = a + d)%C /\ (l1 * l2 = a * d - b * c)%C.

(** the two complex numbers are within the tolerances of [np.allclose] *)
Definition Cnear (z w : C) : Prop :=
  sqrt (fst (z - w)%C * fst (z - w)%C + snd (z - w)%C * snd (z - w)%C) <= / 100000000 + / 100000 * sqrt (fst w * fst w + snd w * snd w).
