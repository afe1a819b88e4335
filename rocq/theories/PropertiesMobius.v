(** * Properties of Möbius transformations, cross ratios and compositions of
    inversions: C35, C56-C65.  Every proof is one line; the work is in the P*.v files. *)

From Coq Require Import Reals List Bool ZArith.
From Verif Require Import Base BaseLemmas Spec SpecMobius ModelInternal ModelLine ModelCircle ModelInversion ModelMobius
  PMobius PMobius2 PMobius3 PMobius4 PMobius5 PMobiusEx.
Import ListNotations.
Local Open Scope R_scope.

(** ** C56, action of the matrices on the extended plane *)
Theorem C56_transform M P Q : mdet M <> C0 -> (transform M P = Ok Q <-> mob_image (ma M) (mb M) (mc M) (md M) P Q).
Proof. exact (transform_Ok M P Q). Qed.
Print Assumptions C56_transform.

Theorem C56_transform_total M P : mdet M <> C0 -> exists Q, transform M P = Ok Q.
Proof. exact (transform_total M P). Qed.
Print Assumptions C56_transform_total.

Theorem C56_compose M0 M1 (left : bool) P : mdet M0 <> C0 -> mdet M1 <> C0 ->
  transform (compose M0 M1 left) P =
  if left then let! Q := transform M0 P in transform M1 Q else let! Q := transform M1 P in transform M0 Q.
Proof. exact (transform_compose M0 M1 left P). Qed.
Print Assumptions C56_compose.

Theorem C56_compose_list Ms P : Forall (fun M => mdet M <> C0) Ms ->
  transform (fold_left (fun acc M => compose acc M true) Ms (mkMob C1 C0 C0 C1)) P = chainM transform Ms P.
Proof. exact (transform_list Ms P). Qed.
Print Assumptions C56_compose_list.

Theorem C56_inverse M P Q : mdet M <> C0 -> (transform M P = Ok Q <-> transform (inverse M) Q = Ok P).
Proof. exact (transform_inverse M P Q). Qed.
Print Assumptions C56_inverse.

Theorem C56_inverse_round M P : mdet M <> C0 ->
  (let! Q := transform M P in transform (inverse M) Q) = Ok P /\ (let! Q := transform (inverse M) P in transform M Q) = Ok P.
Proof. exact (transform_inverse_round M P). Qed.
Print Assumptions C56_inverse_round.

Example C56_example : mdet exM <> C0 /\ transform exM (Pt (1, 0)) = Ok (Pt (1, 1)) /\ transform exM (Pt (/ 2, 0)) = Ok Inf /\
  transform exM Inf = Ok (Pt (/ 2, 0)) /\ transform exT Inf = Ok Inf.
Proof. exact (conj exM_det ex_transform). Qed.

(** ** C57, powers *)
Theorem C57_power M (k : Z) : exists M', power M (IZR k) = Ok M' /\
  (mdet M <> C0 -> mdet M' <> C0 /\
    forall P, transform M' P = if (k <? 0)%Z then iterM (transform (inverse M)) (Z.to_nat (- k)) P else iterM (transform M) (Z.to_nat k) P).
Proof. exact (power_integer M k). Qed.
Print Assumptions C57_power.

Theorem C57_power_raise M k : (power M k = Raise ValueError <-> ~ exists n, k = IZR n) /\ (forall e, power M k = Raise e -> e = ValueError).
Proof. exact (power_raise M k). Qed.
Print Assumptions C57_power_raise.

Theorem C57_power_add M j k Mj Mk Mjk P : mdet M <> C0 ->
  power M (IZR j) = Ok Mj -> power M (IZR k) = Ok Mk -> power M (IZR (j + k)) = Ok Mjk ->
  transform Mjk P = let! Q := transform Mj P in transform Mk Q.
Proof. exact (power_add M j k Mj Mk Mjk P). Qed.
Print Assumptions C57_power_add.

Example C57_example : mdet exT <> C0 /\ exists G, power exT (IZR (-3)) = Ok G /\ transform G (Pt (5, 7)) = Ok (Pt (2, 7)).
Proof. exact (conj exT_det ex_power). Qed.

(** ** C58, generalised powers: for every argument function and every
    eigendecomposition *)
Theorem C58_gpower arg eig M : is_arg arg ->
  (let '(l1, l2, V) := eig M in is_eigen (ma M) (mb M) (mc M) (md M) l1 l2 (ma V) (mb V) (mc V) (md V)) ->
  mdet M <> C0 ->
  (let disc := ((ma M + md M) * (ma M + md M) - RtoC 4 * mdet M)%C in
   let alpha := ((ma M + md M) / RtoC 2)%C in
   sepsilon_ <= cabs disc \/
   (disc = C0 /\ (M = mkMob alpha C0 C0 alpha \/ ~ (Cnear (ma M) alpha /\ Cnear (mb M) C0 /\ Cnear (mc M) C0 /\ Cnear (md M) alpha)) /\
    ((mb M = C0 /\ (md M - alpha)%C = C0) \/ ~ (Cnear (mb M) C0 /\ Cnear (md M - alpha)%C C0)))) ->
  exists F, (forall t, gpower arg eig M t = Ok (F t)) /\
    (forall s t, matmul (F s) (F t) = F (s + t)) /\ F 0 = mkMob C1 C0 C0 C1 /\ F 1 = M.
Proof. exact (gpower_group arg eig M). Qed.
Print Assumptions C58_gpower.

Theorem C58_gpower_power arg eig M (k : Z) G M' P : is_arg arg ->
  (let '(l1, l2, V) := eig M in is_eigen (ma M) (mb M) (mc M) (md M) l1 l2 (ma V) (mb V) (mc V) (md V)) ->
  mdet M <> C0 ->
  (let disc := ((ma M + md M) * (ma M + md M) - RtoC 4 * mdet M)%C in
   let alpha := ((ma M + md M) / RtoC 2)%C in
   sepsilon_ <= cabs disc \/
   (disc = C0 /\ (M = mkMob alpha C0 C0 alpha \/ ~ (Cnear (ma M) alpha /\ Cnear (mb M) C0 /\ Cnear (mc M) C0 /\ Cnear (md M) alpha)) /\
    ((mb M = C0 /\ (md M - alpha)%C = C0) \/ ~ (Cnear (mb M) C0 /\ Cnear (md M - alpha)%C C0)))) ->
  gpower arg eig M (IZR k) = Ok G -> power M (IZR k) = Ok M' -> transform G P = transform M' P.
Proof. exact (gpower_power arg eig M k G M' P). Qed.
Print Assumptions C58_gpower_power.

(** the argument function and the eigendecomposition exist for every matrix *)
Theorem C58_oracles_exist M : (exists arg, is_arg arg) /\
  exists eig : mobius -> C * C * mobius, let '(l1, l2, V) := eig M in is_eigen (ma M) (mb M) (mc M) (md M) l1 l2 (ma V) (mb V) (mc V) (md V).
Proof. exact (conj (ex_intro _ _ arg_exists) (eig_ok_exists M)). Qed.
Print Assumptions C58_oracles_exist.

(** the tests on the discriminant are not invariant under scaling of the matrix *)
Theorem C58_small_matrix_refuted : exists M, mdet M <> C0 /\ transform M (Pt (1, 0)) = Ok (Pt (2, 0)) /\
  forall arg eig, is_arg arg -> exists G, gpower arg eig M 1 = Ok G /\ transform G (Pt (1, 0)) = Ok (Pt (1, 0)).
Proof.
  exact (ex_intro _ _ (let k arg eig H := gpower_small_refuted arg eig H in
    conj (proj1 (k _ (fun M => (C0, C0, M)) arg_exists))
   (conj (proj1 (proj2 (k _ (fun M => (C0, C0, M)) arg_exists)))
         (fun arg eig H => proj2 (proj2 (k arg eig H)))))).
Qed.
Print Assumptions C58_small_matrix_refuted.

Theorem C58_small_matrix_raise : exists M, mdet M <> C0 /\ forall arg eig t, gpower arg eig M t = Raise LinAlgError.
Proof.
  exact (ex_intro _ _ (let k arg eig t := gpower_raise_refuted arg eig t in
    conj (proj1 (k (fun _ => 0) (fun M => (C0, C0, M)) 0)) (fun arg eig t => proj2 (k arg eig t)))).
Qed.
Print Assumptions C58_small_matrix_raise.

Example C58_example : mdet exT <> C0 /\ gpower_domain exT /\ mdet exJ <> C0 /\ gpower_domain exJ.
Proof. exact ex_gpower. Qed.

(** ** C59, fixed points *)
Theorem C59_identity M : mdet M <> C0 -> (fixed_points M = Ok FPAll <-> forall P, transform M P = Ok P).
Proof. exact (fixed_points_identity M). Qed.
Print Assumptions C59_identity.

Theorem C59_fixed_points M : mdet M <> C0 -> ~ (forall P, transform M P = Ok P) ->
  let Delta := ((ma M - md M) * (ma M - md M) + RtoC 4 * mb M * mc M)%C in
  mc M = C0 \/ (0 <= fst Delta /\ snd Delta = 0) ->
  exists f, fixed_points M = Ok f /\ f <> FPAll /\
    let l := match f with FPAll => [] | FPInf => [Inf] | FPOne P => [Pt P] | FPTwo P Q => [Pt P; Pt Q] end in
    (forall z, In (Pt z) l <-> transform M (Pt z) = Ok (Pt z)) /\
    (In Inf l -> transform M Inf = Ok Inf) /\ NoDup l.
Proof. exact (fixed_points_good M). Qed.
Print Assumptions C59_fixed_points.

(** z -> a z + b: infinity is fixed too but not returned *)
Theorem C59_infinity_missing M : mdet M <> C0 -> mc M = C0 -> ma M <> md M ->
  exists P, fixed_points M = Ok (FPOne P) /\ transform M (Pt P) = Ok (Pt P) /\ transform M Inf = Ok Inf.
Proof. exact (fixed_points_affine M). Qed.
Print Assumptions C59_infinity_missing.

Theorem C59_raise M e : mdet M <> C0 ->
  (fixed_points M = Raise e <-> e = ValueError /\ mc M <> C0 /\ fst ((ma M - md M) * (ma M - md M) + RtoC 4 * mb M * mc M)%C < 0).
Proof.
  exact (fun _ => conj (fixed_points_raise_only M e)
    (fun H => match H with conj E (conj H1 H2) => eq_ind_r (fun e => fixed_points M = Raise e) (fixed_points_raise M H1 H2) E end)).
Qed.
Print Assumptions C59_raise.

Theorem C59_not_fixed M f : mdet M <> C0 -> mc M <> C0 -> snd ((ma M - md M) * (ma M - md M) + RtoC 4 * mb M * mc M)%C <> 0 ->
  fixed_points M = Ok f -> exists P Q, f = FPTwo P Q /\ transform M (Pt P) <> Ok (Pt P) /\ transform M (Pt Q) <> Ok (Pt Q).
Proof. exact (fixed_points_wrong M f). Qed.
Print Assumptions C59_not_fixed.

Theorem C59_two_exist M : mdet M <> C0 -> mc M <> C0 ->
  ((ma M - md M) * (ma M - md M) + RtoC 4 * mb M * mc M)%C <> C0 ->
  exists z w, z <> w /\ transform M (Pt z) = Ok (Pt z) /\ transform M (Pt w) = Ok (Pt w).
Proof. exact (fixed_points_exist M). Qed.
Print Assumptions C59_two_exist.

Example C59_example : (fixed_points exJ = Ok (FPTwo (1, 0) (-1, 0)) /\ transform exJ (Pt (1, 0)) = Ok (Pt (1, 0)) /\ transform exJ (Pt (-1, 0)) = Ok (Pt (-1, 0))) /\
  (fixed_points exK = Raise ValueError /\ transform exK (Pt (0, 1)) = Ok (Pt (0, 1)) /\ transform exK (Pt (0, -1)) = Ok (Pt (0, -1))) /\
  (fixed_points exL = Ok (FPTwo (0, 0) (0, 0)) /\ transform exL (Pt (0, 0)) = Ok Inf).
Proof. exact (conj ex_fixed (conj ex_fixed_raise ex_fixed_wrong)). Qed.

(** ** C60, image of a circle *)
Theorem C60_circle fuel M c : mdet M <> C0 -> 0 < cr c ->
  (forall p, transform M (Pt p) = Ok Inf -> ~ on_circle (cO c) (cr c) p) ->
  exists c', transform_circle fuel M c = Some (Ok (GC c')) /\ 0 < cr c' /\
  forall e f, transform M e = Ok f ->
    ((exists z, e = Pt z /\ on_circle (cO c) (cr c) z) <-> (exists w, f = Pt w /\ on_circle (cO c') (cr c') w)).
Proof. exact (transform_circle_circle fuel M c). Qed.
Print Assumptions C60_circle.

Theorem C60_circle_only fuel M c c' : mdet M <> C0 -> 0 < cr c -> transform_circle fuel M c = Some (Ok (GC c')) ->
  0 < cr c' /\ (forall p, transform M (Pt p) = Ok Inf -> ~ on_circle (cO c) (cr c) p) /\
  forall e f, transform M e = Ok f ->
    ((exists z, e = Pt z /\ on_circle (cO c) (cr c) z) <-> (exists w, f = Pt w /\ on_circle (cO c') (cr c') w)).
Proof. exact (transform_circle_GC fuel M c c'). Qed.
Print Assumptions C60_circle_only.

Theorem C60_line fuel M c l : mdet M <> C0 -> 0 < cr c -> transform_circle fuel M c = Some (Ok (GL l)) ->
  (exists p, transform M (Pt p) = Ok Inf /\ on_circle (cO c) (cr c) p) /\
  lA l <> lB l /\ lextA l = true /\ lextB l = true /\
  forall e f, transform M e = Ok f ->
    ((exists z, e = Pt z /\ on_circle (cO c) (cr c) z) <-> match f with Inf => True | Pt w => on_line (lA l) (lB l) w end).
Proof. exact (transform_circle_GL fuel M c l). Qed.
Print Assumptions C60_line.

Example C60_example : mdet exJ <> C0 /\ (forall p, transform exJ (Pt p) = Ok Inf -> ~ on_circle (2, 0) 1 p).
Proof. exact (conj exJ_det ex_circle). Qed.

(** ** C61, the search for two points of the circle *)

(** it never ends on a small circle through the pole *)
Theorem C61_loops M c p : mdet M <> C0 -> 0 < cr c <= 5 / 1000000000 ->
  transform M (Pt p) = Ok Inf -> on_circle (cO c) (cr c) p ->
  forall fuel, transform_circle fuel M c = None.
Proof. exact (transform_circle_loops M c p). Qed.
Print Assumptions C61_loops.

(** it ends after at most 21 tests in each loop if the radius is large compared to the
    tolerance at the pole, with two different points *)
Theorem C61_ends fuel M c p : (21 <= fuel)%nat -> mdet M <> C0 -> 0 < cr c ->
  transform M (Pt p) = Ok Inf -> on_circle (cO c) (cr c) p ->
  2 * ((/ 100000000 + / 100000 * Rabs (fst p)) ^ 2 + (/ 100000000 + / 100000 * Rabs (snd p)) ^ 2) < cr c ^ 2 ->
  exists A B, A <> B /\ (forall w, (w = A \/ w = B) -> exists z, on_circle (cO c) (cr c) z /\ transform M (Pt z) = Ok (Pt w)) /\
  transform_circle fuel M c = Some (if allclose A B then Raise ValueError else Ok (GL (mkLine A B true true))).
Proof. exact (transform_circle_ends fuel M c p). Qed.
Print Assumptions C61_ends.

Example C61_example : mdet exJ <> C0 /\ transform exJ (Pt (0, 0)) = Ok Inf /\ on_circle (1, 0) 1 (0, 0) /\
  2 * ((/ 100000000 + / 100000 * Rabs 0) ^ 2 + (/ 100000000 + / 100000 * Rabs 0) ^ 2) < 1 ^ 2 /\
  on_circle (/ 1000000000, 0) (/ 1000000000) (0, 0).
Proof. exact (conj exJ_det ex_circle_pole). Qed.

(** ** C62, image of a line *)
Theorem C62_circle M l c : mdet M <> C0 -> lA l <> lB l -> transform_line M l = Ok (GC c) ->
  0 < cr c /\ (forall p, transform M (Pt p) = Ok Inf -> ~ on_line (lA l) (lB l) p) /\
  forall e f, transform M e = Ok f ->
    (match e with Pt z => on_line (lA l) (lB l) z | Inf => True end <-> exists w, f = Pt w /\ on_circle (cO c) (cr c) w).
Proof. exact (transform_line_GC M l c). Qed.
Print Assumptions C62_circle.

(** a circle is returned iff twice the distance of the pole to the line, times |c|^2,
    exceeds the threshold *)
Theorem C62_when_circle M l : mdet M <> C0 -> lA l <> lB l ->
  ((exists c, transform_line M l = Ok (GC c)) <->
   exists p q, transform M (Pt p) = Ok Inf /\ on_line (lA l) (lB l) q /\ orthogonal (vsub p q) (vsub (lB l) (lA l)) /\
     sepsilon_ < 2 * (fst (mc M) * fst (mc M) + snd (mc M) * snd (mc M)) * dist p q).
Proof. exact (transform_line_circle_iff M l). Qed.
Print Assumptions C62_when_circle.

Theorem C62_line M l l' : mdet M <> C0 -> lA l <> lB l -> transform_line M l = Ok (GL l') ->
  transform M (Pt (lA l)) = Ok (Pt (lA l')) /\ transform M (Pt (lB l)) = Ok (Pt (lB l')) /\ lA l' <> lB l' /\ lextA l' = true /\ lextB l' = true.
Proof. exact (transform_line_GL M l l'). Qed.
Print Assumptions C62_line.

(** the line passes through the pole, or there is no finite pole *)
Theorem C62_line_exact M l l' : mdet M <> C0 -> lA l <> lB l -> transform_line M l = Ok (GL l') ->
  (forall p, transform M (Pt p) = Ok Inf -> on_line (lA l) (lB l) p) ->
  forall e f, transform M e = Ok f ->
    (match e with Pt z => on_line (lA l) (lB l) z | Inf => True end <-> match f with Pt w => on_line (lA l') (lB l') w | Inf => True end).
Proof. exact (transform_line_GL_exact M l l'). Qed.
Print Assumptions C62_line_exact.

Theorem C62_pole_raise M l : mdet M <> C0 -> lA l <> lB l -> transform M (Pt (lA l)) = Ok Inf \/ transform M (Pt (lB l)) = Ok Inf ->
  transform_line M l = Raise ValueError.
Proof. exact (transform_line_raise M l). Qed.
Print Assumptions C62_pole_raise.

Theorem C62_errors M l e : mdet M <> C0 -> lA l <> lB l -> transform_line M l = Raise e ->
  e = ValueError /\ (transform M (Pt (lA l)) = Ok Inf \/ transform M (Pt (lB l)) = Ok Inf \/
    exists P Q, transform M (Pt (lA l)) = Ok (Pt P) /\ transform M (Pt (lB l)) = Ok (Pt Q) /\ allclose P Q = true).
Proof. exact (transform_line_errors M l e). Qed.
Print Assumptions C62_errors.

(** two matrices of the same transformation: a circle, resp. a line that is not the image *)
Theorem C62_scale_refuted : exists M M' l c l' z w, mdet M <> C0 /\ mdet M' <> C0 /\ lA l <> lB l /\ (forall e, transform M' e = transform M e) /\
  transform_line M l = Ok (GC c) /\ transform_line M' l = Ok (GL l') /\
  on_line (lA l) (lB l) z /\ transform M' (Pt z) = Ok (Pt w) /\ ~ on_line (lA l') (lB l') w.
Proof. exact line_scale_refuted. Qed.
Print Assumptions C62_scale_refuted.

Example C62_example : (exists c, transform_line exJ exl = Ok (GC c)) /\
  lA exl0 <> lB exl0 /\ (forall p, transform exJ (Pt p) = Ok Inf -> on_line (lA exl0) (lB exl0) p) /\
  transform_line exJ exl0 = Ok (GL (mkLine (1, 0) (/ 2, 0) true true)) /\
  transform_line exJ (mkLine (0, 0) (2, 0) true true) = Raise ValueError.
Proof. exact (conj ex_line_circle ex_line_through). Qed.

(** ** C63, transformation through three points *)
Theorem C63_maps P1 P2 P3 Q1 Q2 Q3 M : from_mapping_three_points P1 P2 P3 Q1 Q2 Q3 = Ok (Some M) ->
  mdet M <> C0 /\ transform M P1 = Ok Q1 /\ transform M P2 = Ok Q2 /\ transform M P3 = Ok Q3.
Proof. exact (mapping_three_spec P1 P2 P3 Q1 Q2 Q3 M). Qed.
Print Assumptions C63_maps.

Theorem C63_unique P1 P2 P3 Q1 Q2 Q3 M M' : from_mapping_three_points P1 P2 P3 Q1 Q2 Q3 = Ok (Some M) ->
  mdet M' <> C0 -> transform M' P1 = Ok Q1 -> transform M' P2 = Ok Q2 -> transform M' P3 = Ok Q3 ->
  forall P, transform M P = transform M' P.
Proof. exact (mapping_three_unique P1 P2 P3 Q1 Q2 Q3 M M'). Qed.
Print Assumptions C63_unique.

Theorem C63_total z1 z2 z3 w1 w2 w3 : z1 <> z2 -> z1 <> z3 -> z2 <> z3 -> w1 <> w2 -> w1 <> w3 -> w2 <> w3 ->
  exists M, from_mapping_three_points (Pt z1) (Pt z2) (Pt z3) (Pt w1) (Pt w2) (Pt w3) = Ok (Some M).
Proof. exact (mapping_three_total z1 z2 z3 w1 w2 w3). Qed.
Print Assumptions C63_total.

Theorem C63_none P1 P2 P3 Q1 Q2 Q3 : from_mapping_three_points P1 P2 P3 Q1 Q2 Q3 = Ok None <->
  (P1 = P2 \/ P1 = P3 \/ P2 = P3) \/ (Q1 = Q2 \/ Q1 = Q3 \/ Q2 = Q3).
Proof. exact (mapping_three_None P1 P2 P3 Q1 Q2 Q3). Qed.
Print Assumptions C63_none.

Theorem C63_infinite P1 P2 P3 Q1 Q2 Q3 : In Inf [P1; P2; P3; Q1; Q2; Q3] ->
  from_mapping_three_points P1 P2 P3 Q1 Q2 Q3 = Ok None \/ from_mapping_three_points P1 P2 P3 Q1 Q2 Q3 = Raise NonFinite.
Proof. exact (mapping_three_inf P1 P2 P3 Q1 Q2 Q3). Qed.
Print Assumptions C63_infinite.

Theorem C63_infinite_refuted : exists M, mdet M <> C0 /\
  transform M Inf = Ok (Pt (0, 0)) /\ transform M (Pt (1, 0)) = Ok (Pt (1, 0)) /\ transform M (Pt (2, 0)) = Ok (Pt (1 / 2, 0)) /\
  from_mapping_three_points Inf (Pt (1, 0)) (Pt (2, 0)) (Pt (0, 0)) (Pt (1, 0)) (Pt (1 / 2, 0)) = Raise NonFinite.
Proof. exact mapping_three_inf_refuted. Qed.
Print Assumptions C63_infinite_refuted.

Example C63_example : exists M, from_mapping_three_points (Pt (0, 0)) (Pt (1, 0)) (Pt (0, 1)) (Pt (2, 2)) (Pt (3, 0)) (Pt (-1, 5)) = Ok (Some M).
Proof. exact ex_three. Qed.

(** ** C64, transformation of a circle to a circle *)
Theorem C64_on_circle c1 c2 z w : 0 < cr c1 -> 0 < cr c2 -> transform (from_mapping_one_circle c1 c2) (Pt z) = Ok (Pt w) ->
  (on_circle (cO c1) (cr c1) z <-> on_circle (cO c2) (cr c2) w) /\ (dist (cO c1) z < cr c1 <-> cr c2 < dist (cO c2) w).
Proof. exact (one_circle_spec c1 c2 z w). Qed.
Print Assumptions C64_on_circle.

Theorem C64_invertible c1 c2 : 0 < cr c1 -> 0 < cr c2 -> mdet (from_mapping_one_circle c1 c2) <> C0.
Proof. exact (one_circle_det c1 c2). Qed.
Print Assumptions C64_invertible.

(** the pole is the centre of the first circle, and the image of infinity the centre of
    the second: the interior is exchanged with the exterior *)
Theorem C64_centres c1 c2 : 0 < cr c1 -> 0 < cr c2 ->
  transform (from_mapping_one_circle c1 c2) (Pt (cO c1)) = Ok Inf /\ transform (from_mapping_one_circle c1 c2) Inf = Ok (Pt (cO c2)).
Proof. exact (one_circle_centre c1 c2). Qed.
Print Assumptions C64_centres.

Theorem C64_distances c1 c2 z w : 0 < cr c1 -> 0 < cr c2 -> transform (from_mapping_one_circle c1 c2) (Pt z) = Ok (Pt w) ->
  dist (cO c1) z * dist (cO c2) w = cr c1 * cr c2.
Proof. exact (one_circle_dist c1 c2 z w). Qed.
Print Assumptions C64_distances.

Example C64_example : transform (from_mapping_one_circle (mkCircle (0, 0) 2) (mkCircle (3, 1) 5)) (Pt (1, 0)) = Ok (Pt (-7, 1)).
Proof. exact ex_one_circle. Qed.

(** ** C65, cross ratio *)
Theorem C65_real A B C' D r : cross_ratio A B C' D = Ok r ->
  (snd r = 0 <->
    (exists O rho, 0 < rho /\ on_circle O rho A /\ on_circle O rho B /\ on_circle O rho C' /\ on_circle O rho D) \/
    (exists P Q, P <> Q /\ on_line P Q A /\ on_line P Q B /\ on_line P Q C' /\ on_line P Q D)).
Proof. exact (concyclic_iff A B C' D r). Qed.
Print Assumptions C65_real.

Theorem C65_invariant M A B C' D A' B' D' E' r : mdet M <> C0 ->
  transform M (Pt A) = Ok (Pt A') -> transform M (Pt B) = Ok (Pt B') -> transform M (Pt C') = Ok (Pt D') -> transform M (Pt D) = Ok (Pt E') ->
  cross_ratio A B C' D = Ok r -> cross_ratio A' B' D' E' = Ok r.
Proof. exact (cross_ratio_invariant M A B C' D A' B' D' E' r). Qed.
Print Assumptions C65_invariant.

Theorem C65_value A B C' D : A <> B -> A <> C' -> A <> D -> B <> C' -> B <> D -> C' <> D ->
  exists r, cross_ratio A B C' D = Ok r /\ (r * ((A - B) * (C' - D)))%C = ((A - D) * (C' - B))%C.
Proof. exact (cross_ratio_value A B C' D). Qed.
Print Assumptions C65_value.

Theorem C65_raise A B C' D : cross_ratio A B C' D = Raise ValueError <-> (A = B \/ A = C' \/ A = D \/ B = C' \/ B = D \/ C' = D).
Proof. exact (cross_ratio_raise A B C' D). Qed.
Print Assumptions C65_raise.

Example C65_example : cross_ratio (0, 0) (1, 0) (2, 0) (5, 0) = Ok (-5 / 3, 0) /\ cross_ratio (1, 0) (0, 1) (-1, 0) (2, 0) = Ok (0, - / 3).
Proof. exact ex_cross. Qed.

(** ** C35, composition of two inversions *)
Theorem C35_compose iota1 iota2 (left : bool) e : ipower iota1 <> 0 -> ipower iota2 <> 0 ->
  let first := if left then iota1 else iota2 in let second := if left then iota2 else iota1 in
  (forall P, e = Pt P -> allclose (ipole first) P = true -> P = ipole first) ->
  (forall P, invert first e = Pt P -> allclose (ipole second) P = true -> P = ipole second) ->
  mdet (inversion_compose iota1 iota2 left) <> C0 /\
  transform (inversion_compose iota1 iota2 left) e = Ok (invert second (invert first e)).
Proof. exact (inversion_compose_spec iota1 iota2 left e). Qed.
Print Assumptions C35_compose.

Theorem C35_compose_near_pole_refuted : exists iota1 iota2 P, ipower iota1 <> 0 /\ ipower iota2 <> 0 /\
  transform (inversion_compose iota1 iota2 true) (Pt P) <> Ok (invert iota2 (invert iota1 (Pt P))).
Proof. exact inversion_compose_near_refuted. Qed.
Print Assumptions C35_compose_near_pole_refuted.

Example C35_example : let iota1 := mkInv (0, 0) 4 in let iota2 := mkInv (5, 0) (-1) in
  invert iota1 (Pt (1, 0)) = Pt (4, 0) /\ invert iota2 (Pt (4, 0)) = Pt (6, 0) /\
  (forall P, Pt (1, 0) = Pt P -> allclose (ipole iota1) P = true -> P = ipole iota1) /\
  (forall P, invert iota1 (Pt (1, 0)) = Pt P -> allclose (ipole iota2) P = true -> P = ipole iota2).
Proof. exact ex_compose. Qed.
