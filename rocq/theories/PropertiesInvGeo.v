(** * C121: inversions: distances, angles, fixed and coaxial circles, cross ratios *)

From Coq Require Import Reals List Bool.
From Verif Require Import Base Spec ModelInternal ModelLine ModelCircle ModelInversion ModelMobius PInvGeo.
Local Open Scope R_scope.

Theorem C121_distance iota M N M' N' : invert iota (Pt M) = Pt M' -> invert iota (Pt N) = Pt N' ->
  dist M' N' * (dist (ipole iota) M * dist (ipole iota) N) = Rabs (ipower iota) * dist M N.
Proof. exact (invert_dist iota M N M' N'). Qed.
Print Assumptions C121_distance.

Theorem C121_power iota c c' : 0 < cr c -> invert_circle iota c = Ok (GC c') ->
  pow_circle (cO c) (cr c) (ipole iota) * pow_circle (cO c') (cr c') (ipole iota) = ipower iota * ipower iota /\
  cr c' * Rabs (pow_circle (cO c) (cr c) (ipole iota)) = Rabs (ipower iota) * cr c.
Proof. exact (invert_circle_pow iota c c'). Qed.
Print Assumptions C121_power.

(** The centre of the image is the image of the inverse of the pole in the circle (not of its
    centre). *)
Theorem C121_centre iota c c' Q Z : 0 < cr c -> invert_circle iota c = Ok (GC c') ->
  invert (inversion_on_circle c) (Pt (ipole iota)) = Pt Q -> invert iota (Pt Q) = Pt Z -> cO c' = Z.
Proof. exact (invert_circle_centre iota c c' Q Z). Qed.
Print Assumptions C121_centre.

(** H: foot of the perpendicular from the pole *)
Theorem C121_line_centre iota l c H Z : invert_line iota l = Ok (Some (GC c)) -> on_line (lA l) (lB l) H -> orthogonal (vsub H (ipole iota)) (vsub (lB l) (lA l)) -> invert iota (Pt H) = Pt Z ->
  cO c = at_line (ipole iota) Z (1 / 2) /\ cr c = dist (ipole iota) Z / 2.
Proof. exact (invert_line_centre iota l c H Z). Qed.
Print Assumptions C121_line_centre.

Theorem C121_fixed iota c c' : 0 < cr c -> invert_circle iota c = Ok (GC c') ->
  (c' = c <-> pow_circle (cO c) (cr c) (ipole iota) = ipower iota \/ (cO c = ipole iota /\ cr c * cr c = ipower iota)).
Proof. exact (invert_circle_fixed iota c c'). Qed.
Print Assumptions C121_fixed.

Theorem C121_fixed_on_circle c0 c c' : 0 < cr c0 -> 0 < cr c -> invert_circle (inversion_on_circle c0) c = Ok (GC c') ->
  (c' = c <-> circ_orthogonal (cO c0) (cr c0) (cO c) (cr c) \/ c = c0).
Proof. exact (on_circle_fixed_iff c0 c c'). Qed.
Print Assumptions C121_fixed_on_circle.

Theorem C121_through_inverse c0 c M N : 0 < cr c0 -> 0 < cr c -> invert (inversion_on_circle c0) (Pt M) = Pt N -> M <> N ->
  on_circle (cO c) (cr c) M -> (on_circle (cO c) (cr c) N <-> circ_orthogonal (cO c0) (cr c0) (cO c) (cr c)).
Proof. exact (orthogonal_through_inverse c0 c M N). Qed.
Print Assumptions C121_through_inverse.

Theorem C121_coaxial c0 c c' : 0 < cr c0 -> 0 < cr c -> invert_circle (inversion_on_circle c0) c = Ok (GC c') ->
  (forall X, pow_circle (cO c) (cr c) X = pow_circle (cO c0) (cr c0) X <-> pow_circle (cO c') (cr c') X = pow_circle (cO c0) (cr c0) X) /\
  (forall l l', radical_axis c c0 = Ok (Some l) -> radical_axis c' c0 = Ok (Some l') -> same_line (lA l) (lB l) (lA l') (lB l')).
Proof. exact (fun H0 H E => conj (coaxial c0 c c' H0 H E) (fun l l' => coaxial_axis c0 c c' l l' H0 H E)). Qed.
Print Assumptions C121_coaxial.

(** Circle.angle of two circles that meet is kept, or becomes its supplement when the pole is
    inside exactly one of them. *)
Theorem C121_angle iota c1 c2 c1' c2' : 0 < cr c1 -> 0 < cr c2 -> (cr c1 - cr c2) ^ 2 <= dist2 (cO c1) (cO c2) <= (cr c1 + cr c2) ^ 2 ->
  invert_circle iota c1 = Ok (GC c1') -> invert_circle iota c2 = Ok (GC c2') ->
  exists t t', circle_angle c1 c2 = Ok (Some t) /\ circle_angle c1' c2' = Ok (Some t') /\
    ((cr c1 < dist (cO c1) (ipole iota) <-> cr c2 < dist (cO c2) (ipole iota)) -> t' = t) /\
    ((cr c1 < dist (cO c1) (ipole iota) <-> dist (cO c2) (ipole iota) < cr c2) -> t' = PI - t).
Proof. exact (invert_angle iota c1 c2 c1' c2'). Qed.
Print Assumptions C121_angle.

Theorem C121_commute c1 c2 M N1 N2 Q1 Q2 : circ_orthogonal (cO c1) (cr c1) (cO c2) (cr c2) ->
  invert (inversion_on_circle c1) (Pt M) = Pt N1 -> invert (inversion_on_circle c2) (Pt N1) = Pt Q1 ->
  invert (inversion_on_circle c2) (Pt M) = Pt N2 -> invert (inversion_on_circle c1) (Pt N2) = Pt Q2 -> Q1 = Q2.
Proof. exact (orthogonal_commute c1 c2 M N1 N2 Q1 Q2). Qed.
Print Assumptions C121_commute.

Theorem C121_cross_ratio iota A B C' D A1 B1 C1 D1 r : ipower iota <> 0 -> invert iota (Pt A) = Pt A1 -> invert iota (Pt B) = Pt B1 -> invert iota (Pt C') = Pt C1 -> invert iota (Pt D) = Pt D1 ->
  cross_ratio A B C' D = Ok r -> cross_ratio A1 B1 C1 D1 = Ok (fst r, - snd r).
Proof. exact (invert_cross iota A B C' D A1 B1 C1 D1 r). Qed.
Print Assumptions C121_cross_ratio.

(** The modulus of the cross ratio, and Ptolemy's inequality with its case of equality. *)
Theorem C121_ptolemy A B C' D r : cross_ratio A B C' D = Ok r ->
  sqrt (fst r ^ 2 + snd r ^ 2) * (dist A B * dist C' D) = dist A D * dist B C' /\
  dist A C' * dist B D <= dist A B * dist C' D + dist A D * dist B C' /\
  (dist A C' * dist B D = dist A B * dist C' D + dist A D * dist B C' <-> snd r = 0 /\ fst r < 0).
Proof. exact (ptolemy A B C' D r). Qed.
Print Assumptions C121_ptolemy.

Example C121_example : let c0 := mkCircle (0, 0) 4 in let c := mkCircle (5, 0) 3 in let c2 := mkCircle (1, 0) 3 in
  invert (inversion_on_circle c0) (Pt (2, 0)) = Pt (8, 0) /\ invert (inversion_on_circle c0) (Pt (0, 1)) = Pt (0, 16) /\
  invert_circle (inversion_on_circle c0) c = Ok (GC c) /\ circ_orthogonal (cO c0) (cr c0) (cO c) (cr c) /\ on_circle (cO c) (cr c) (2, 0) /\
  invert_circle (inversion_on_circle c0) c2 = Ok (GC (mkCircle (-2, 0) 6)) /\ (cr c - cr c2) ^ 2 <= dist2 (cO c) (cO c2) <= (cr c + cr c2) ^ 2 /\
  invert (inversion_on_circle c) (Pt (0, 0)) = Pt (16 / 5, 0) /\ cross_ratio (0, 0) (1, 0) (2, 0) (5, 0) = Ok (-5 / 3, 0).
Proof. exact ex_C121. Qed.
