(** * Properties of inversions, Steiner chains and orthogonal circles: C19,
    C32-C34, C36-C41.  Every proof is one line; the work is in the P*.v files. *)

From Coq Require Import Reals List Bool ZArith.
From Verif Require Import Base Spec SpecTriangle ModelInternal ModelLine ModelCircle ModelEllipse ModelTriangle ModelInversion
  PInversion PInversion2 PSteiner PSteiner2 POrtho PInversionEx.
Import ListNotations.
Local Open Scope R_scope.

(** ** C19, Circle.orthogonal_through_two_points_in_circle *)
Theorem C19_circle c P1 P2 arc c' : 0 < cr c -> orthogonal_through_two_points_in_circle c P1 P2 arc = Ok (OCircle c') ->
  arc = false /\ 0 < cr c' /\ on_circle (cO c') (cr c') P1 /\ on_circle (cO c') (cr c') P2 /\
  circ_orthogonal (cO c) (cr c) (cO c') (cr c').
Proof. exact (ortho_in_circle c P1 P2 arc c'). Qed.
Print Assumptions C19_circle.

Theorem C19_line c P1 P2 arc l : 0 < cr c -> orthogonal_through_two_points_in_circle c P1 P2 arc = Ok (OLine l) ->
  l = mkLine P1 P2 (negb arc) (negb arc) /\
  (on_line P1 P2 (cO c) \/ allclose (cO c) P1 = true \/ allclose (cO c) P2 = true).
Proof. exact (ortho_in_line c P1 P2 arc l). Qed.
Print Assumptions C19_line.

Theorem C19_arc c P1 P2 arc A : 0 < cr c -> orthogonal_through_two_points_in_circle c P1 P2 arc = Ok (OArc A) ->
  arc = true /\ 0 < ar A /\ adeg A = false /\ circ_orthogonal (cO c) (cr c) (aO A) (ar A) /\
  0 <= aalpha1 A < aalpha2 A /\ aalpha2 A < 2 * PI /\
  ((starting_point A = P1 /\ ending_point A = P2) \/ (starting_point A = P2 /\ ending_point A = P1)).
Proof. exact (ortho_in_arc c P1 P2 arc A). Qed.
Print Assumptions C19_arc.

Theorem C19_total c P1 P2 (arc : bool) : 0 < cr c ->
  let Q1 := inv_pt (cO c) (cr c * cr c) P1 in
  let Q2 := inv_pt (cO c) (cr c * cr c) P2 in
  allclose P1 P2 = false -> dist P1 (cO c) < cr c * cr c -> dist P2 (cO c) < cr c * cr c ->
  ~ collinear (cO c) P1 P2 -> allclose (cO c) P1 = false -> allclose (cO c) P2 = false ->
  allclose P1 Q1 = false -> allclose P2 Q2 = false ->
  allclose (midpoint P1 Q1) (vadd (midpoint P1 Q1) (- (snd Q1 - snd P1), fst Q1 - fst P1)) = false ->
  allclose (midpoint P2 Q2) (vadd (midpoint P2 Q2) (- (snd Q2 - snd P2), fst Q2 - fst P2)) = false ->
  if arc then exists A : ModelCircle.arc, orthogonal_through_two_points_in_circle c P1 P2 arc = Ok (OArc A)
  else exists c' : circle, orthogonal_through_two_points_in_circle c P1 P2 arc = Ok (OCircle c').
Proof. exact (ortho_in_total c P1 P2 arc). Qed.
Print Assumptions C19_total.

Theorem C19_raise c P1 P2 arc : 0 < cr c ->
  (forall e, orthogonal_through_two_points_in_circle c P1 P2 arc = Raise e -> e = ValueError) /\
  (allclose P1 P2 = true \/ cr c * cr c <= dist P1 (cO c) \/ cr c * cr c <= dist P2 (cO c) ->
   orthogonal_through_two_points_in_circle c P1 P2 arc = Raise ValueError).
Proof. exact (fun Hr => conj (fun e => ortho_in_raise c P1 P2 arc e Hr) (ortho_in_checks c P1 P2 arc Hr)). Qed.
Print Assumptions C19_raise.

(** the interior test uses r^2: for every r < 1 an interior point is rejected *)
Theorem C19_interior_rejected c : 0 < cr c < 1 -> exists P1, dist (cO c) P1 < cr c /\
  forall P2 arc, orthogonal_through_two_points_in_circle c P1 P2 arc = Raise ValueError.
Proof. exact (ortho_in_small c). Qed.
Print Assumptions C19_interior_rejected.

(** and for every r > 1 two exterior points are accepted *)
Theorem C19_exterior_accepted r arc : 1 < r -> exists P1 P2 res, r < dist (0, 0) P1 /\ r < dist (0, 0) P2 /\
  orthogonal_through_two_points_in_circle (mkCircle (0, 0) r) P1 P2 arc = Ok res.
Proof. exact (ortho_in_large r arc). Qed.
Print Assumptions C19_exterior_accepted.

(** the arc between two interior points may be the one that leaves the circle *)
Theorem C19_arc_inside_refuted : exists c P1 P2 A, 0 < cr c /\ in_disk (cO c) (cr c) P1 /\ in_disk (cO c) (cr c) P2 /\
  orthogonal_through_two_points_in_circle c P1 P2 true = Ok (OArc A) /\ PI < aalpha2 A - aalpha1 A.
Proof. exact long_arc_refuted. Qed.
Print Assumptions C19_arc_inside_refuted.

Example C19_example :
  (exists c', orthogonal_through_two_points_in_circle (mkCircle (0, 0) 2) (1, 0) (0, 1) false = Ok (OCircle c')) /\
  exists l, orthogonal_through_two_points_in_circle (mkCircle (0, 0) 2) (1, 0) (-1, 0) false = Ok (OLine l).
Proof. exact ex_C19. Qed.

(** ** C32, Inversion.invert *)
Theorem C32_invert_spec iota M N : invert iota (Pt M) = Pt N ->
  on_line (ipole iota) M N /\ sdot (vsub M (ipole iota)) (vsub N (ipole iota)) = ipower iota.
Proof. exact (invert_spec iota M N). Qed.
Print Assumptions C32_invert_spec.

Theorem C32_invert_infinite iota M : invert iota (Pt M) = Inf <-> allclose (ipole iota) M = true.
Proof. exact (invert_Inf_iff iota M). Qed.
Print Assumptions C32_invert_infinite.

Theorem C32_invert_pole iota : invert iota (Pt (ipole iota)) = Inf /\ invert iota Inf = Pt (ipole iota).
Proof. exact (invert_pole iota). Qed.
Print Assumptions C32_invert_pole.

Theorem C32_invert_involutive iota M : ipower iota <> 0 ->
  (forall P, M = Pt P -> P = ipole iota \/ (exists N Q, invert iota M = Pt N /\ invert iota (Pt N) = Pt Q)) ->
  invert iota (invert iota M) = M.
Proof. exact (invert_invol_ext iota M). Qed.
Print Assumptions C32_invert_involutive.

(** for every inversion some point is not recovered *)
Theorem C32_invert_involutive_refuted iota : exists M N, invert iota (Pt M) = Pt N /\ invert iota (Pt N) = Inf.
Proof. exact (invert_invol_fails iota). Qed.
Print Assumptions C32_invert_involutive_refuted.

Theorem C32_on_circle_fixes c M N : 0 < cr c -> invert (inversion_on_circle c) (Pt M) = Pt N ->
  (on_circle (cO c) (cr c) M <-> N = M).
Proof. exact (on_circle_fixed c M N). Qed.
Print Assumptions C32_on_circle_fixes.

Example C32_example : invert (mkInv (1, 0) 4) (Pt (5, 0)) = Pt (2, 0) /\ invert (mkInv (1, 0) 4) (Pt (2, 0)) = Pt (5, 0).
Proof. exact ex_C32. Qed.

(** ** C33, Inversion.invert_circle *)
Theorem C33_invert_circle_circle iota c c' : 0 < cr c -> invert_circle iota c = Ok (GC c') ->
  0 < cr c' /\ inv_maps (ipole iota) (ipower iota) (cO c) (cr c) (cO c') (cr c').
Proof. exact (invert_circle_spec iota c c'). Qed.
Print Assumptions C33_invert_circle_circle.

Theorem C33_invert_circle_points iota c c' M N : 0 < cr c -> invert_circle iota c = Ok (GC c') ->
  invert iota (Pt M) = Pt N -> (on_circle (cO c) (cr c) M <-> on_circle (cO c') (cr c') N).
Proof. exact (invert_circle_points iota c c' M N). Qed.
Print Assumptions C33_invert_circle_points.

Theorem C33_invert_circle_total iota c : 0 < cr c -> ipower iota <> 0 ->
  sepsilon_ < Rabs (pow_circle (cO c) (cr c) (ipole iota)) ->
  let s := ipower iota / pow_circle (cO c) (cr c) (ipole iota) in
  invert_circle iota c = Ok (GC (mkCircle (vadd (ipole iota) (vscal s (vsub (cO c) (ipole iota)))) (Rabs s * cr c))).
Proof. exact (invert_circle_far iota c). Qed.
Print Assumptions C33_invert_circle_total.

(** a line is returned only in the tolerance band around the circles through the pole *)
Theorem C33_invert_circle_band iota c l : invert_circle iota c = Ok (GL l) ->
  Rabs (pow_circle (cO c) (cr c) (ipole iota)) <= sepsilon_.
Proof. exact (fun E => proj1 (invert_circle_GL iota c l E)). Qed.
Print Assumptions C33_invert_circle_band.

Theorem C33_invert_circle_line iota c l M N : 0 < cr c -> on_circle (cO c) (cr c) (ipole iota) ->
  invert_circle iota c = Ok (GL l) -> invert iota (Pt M) = Pt N ->
  (on_circle (cO c) (cr c) M <-> on_line (lA l) (lB l) N).
Proof. exact (invert_circle_line_points iota c l M N). Qed.
Print Assumptions C33_invert_circle_line.

(** the returned line is perpendicular to the segment from the pole to the centre,
    at half the distance that the inverse of the antipode prescribes *)
Theorem C33_invert_circle_line_position iota c l : 0 < cr c -> on_circle (cO c) (cr c) (ipole iota) ->
  invert_circle iota c = Ok (GL l) ->
  ipower iota <> 0 /\ lA l <> lB l /\
  (forall N, on_line (lA l) (lB l) N <-> sdot (vsub N (ipole iota)) (vsub (cO c) (ipole iota)) = ipower iota / 2) /\
  (forall M, M <> ipole iota -> (on_circle (cO c) (cr c) M <-> on_line (lA l) (lB l) (inv_pt (ipole iota) (ipower iota) M))).
Proof. exact (invert_circle_line iota c l). Qed.
Print Assumptions C33_invert_circle_line_position.

Theorem C33_invert_circle_twice iota c c' c'' : 0 < cr c -> invert_circle iota c = Ok (GC c') ->
  invert_circle iota c' = Ok (GC c'') -> c'' = c.
Proof. exact (invert_circle_twice iota c c' c''). Qed.
Print Assumptions C33_invert_circle_twice.

Theorem C33_invert_circle_line_circle iota c l c' : 0 < cr c -> on_circle (cO c) (cr c) (ipole iota) ->
  invert_circle iota c = Ok (GL l) -> invert_line iota l = Ok (Some (GC c')) -> c' = c.
Proof. exact (circle_line_circle iota c l c'). Qed.
Print Assumptions C33_invert_circle_line_circle.

Theorem C33_invert_circle_raise iota c :
  (forall e, invert_circle iota c = Raise e -> e = ValueError) /\
  (0 < cr c -> ipower iota = 0 -> invert_circle iota c = Raise ValueError) /\
  (0 < cr c <= / 8192 -> cO c = ipole iota -> invert_circle iota c = Raise ValueError).
Proof. exact (invert_circle_raises iota c). Qed.
Print Assumptions C33_invert_circle_raise.

(** in the tolerance band the line is not the image *)
Theorem C33_invert_circle_band_refuted : exists iota c l M N, 0 < cr c /\ ~ on_circle (cO c) (cr c) (ipole iota) /\
  invert_circle iota c = Ok (GL l) /\ on_circle (cO c) (cr c) M /\ invert iota (Pt M) = Pt N /\ ~ on_line (lA l) (lB l) N.
Proof. exact ex_C33_refuted. Qed.
Print Assumptions C33_invert_circle_band_refuted.

Example C33_example : invert_circle (mkInv (0, 0) 4) (mkCircle (3, 0) 1) = Ok (GC (mkCircle (3 / 2, 0) (1 / 2))) /\
  invert_circle (mkInv (0, 0) 4) (mkCircle (1, 0) 1) = Ok (GL (mkLine (2, 0) (2, -2) true true)).
Proof. exact (conj ex_C33_circle ex_C33_line). Qed.

(** ** C34, Inversion.invert_line *)
Theorem C34_invert_line_circle iota l c : invert_line iota l = Ok (Some (GC c)) ->
  ipower iota <> 0 /\ 0 < cr c /\ ~ on_line (lA l) (lB l) (ipole iota) /\ on_circle (cO c) (cr c) (ipole iota) /\
  (forall M, M <> ipole iota -> (on_line (lA l) (lB l) M <-> on_circle (cO c) (cr c) (inv_pt (ipole iota) (ipower iota) M))).
Proof. exact (invert_line_spec iota l c). Qed.
Print Assumptions C34_invert_line_circle.

Theorem C34_invert_line_points iota l c M N : invert_line iota l = Ok (Some (GC c)) -> invert iota (Pt M) = Pt N ->
  (on_line (lA l) (lB l) M <-> on_circle (cO c) (cr c) N).
Proof. exact (invert_line_points iota l c M N). Qed.
Print Assumptions C34_invert_line_points.

Theorem C34_invert_line_total iota l : ipower iota <> 0 -> lA l <> lB l -> ~ on_line (lA l) (lB l) (ipole iota) ->
  allclose (lA l) (lB l) = false -> allclose (lA l) (ipole iota) = false -> allclose (lB l) (ipole iota) = false ->
  allclose (ipole iota) (lA l) = false -> allclose (ipole iota) (lB l) = false ->
  exists c, invert_line iota l = Ok (Some (GC c)).
Proof. exact (invert_line_total iota l). Qed.
Print Assumptions C34_invert_line_total.

Theorem C34_invert_line_through iota l : lA l <> lB l -> on_line (lA l) (lB l) (ipole iota) ->
  invert_line iota l = Ok (Some (GL l)) /\
  (ipower iota <> 0 -> forall M N, invert iota (Pt M) = Pt N -> (on_line (lA l) (lB l) M <-> on_line (lA l) (lB l) N)).
Proof. exact (fun H1 H2 => conj (invert_line_through iota l H1 H2) (fun Hk M N => invert_line_through_points iota l M N H2 Hk)). Qed.
Print Assumptions C34_invert_line_through.

(** a line is only ever returned unchanged, and only if the pole is on it or one of the closeness tests holds *)
Theorem C34_invert_line_line iota l l' : invert_line iota l = Ok (Some (GL l')) -> l' = l /\
  (on_line (lA l) (lB l) (ipole iota) \/ allclose (lA l) (ipole iota) = true \/ allclose (lB l) (ipole iota) = true \/ allclose (lA l) (lB l) = true).
Proof. exact (invert_line_GL iota l l'). Qed.
Print Assumptions C34_invert_line_line.

Theorem C34_invert_line_not_None iota l : invert_line iota l <> Ok None.
Proof. exact (invert_line_None iota l). Qed.
Print Assumptions C34_invert_line_not_None.

Theorem C34_invert_line_twice iota l c l' : invert_line iota l = Ok (Some (GC c)) -> invert_circle iota c = Ok (GL l') ->
  same_line (lA l) (lB l) (lA l') (lB l').
Proof. exact (line_circle_line iota l c l'). Qed.
Print Assumptions C34_invert_line_twice.

(** a line that misses the pole by less than the tolerance is returned although it is not its image *)
Theorem C34_invert_line_close_refuted : exists iota l M N, ipower iota <> 0 /\ ~ on_line (lA l) (lB l) (ipole iota) /\ lA l <> lB l /\
  invert_line iota l = Ok (Some (GL l)) /\ on_line (lA l) (lB l) M /\ invert iota (Pt M) = Pt N /\ ~ on_line (lA l) (lB l) N.
Proof. exact ex_C34_refuted. Qed.
Print Assumptions C34_invert_line_close_refuted.

Example C34_example : exists c, invert_line (mkInv (0, 0) 4) (mkLine (2, 0) (2, -2) true true) = Ok (Some (GC c)).
Proof. exact ex_C34. Qed.

(** ** C36, Inversion.from_swapping_two_circles *)
Theorem C36_swapping c1 c2 positive out iota : 0 < cr c1 -> 0 < cr c2 ->
  from_swapping_two_circles c1 c2 positive = (out, Some iota) ->
  ipower iota <> 0 /\ inv_maps (ipole iota) (ipower iota) (cO c1) (cr c1) (cO c2) (cr c2) /\
  inv_maps (ipole iota) (ipower iota) (cO c2) (cr c2) (cO c1) (cr c1) /\
  ((out = [] /\ (positive = true <-> 0 < ipower iota)) \/
   (out = [SwitchToTrue] /\ positive = false /\ 0 < ipower iota) \/
   (out = [SwitchToFalse] /\ positive = true /\ ipower iota < 0)).
Proof. exact (swapping_Some c1 c2 positive out iota). Qed.
Print Assumptions C36_swapping.

(** the circles computed by invert_circle are the other circle, outside the tolerance band *)
Theorem C36_swapping_invert_circle c1 c2 positive out iota : 0 < cr c1 -> 0 < cr c2 ->
  from_swapping_two_circles c1 c2 positive = (out, Some iota) ->
  (sepsilon_ < Rabs (pow_circle (cO c1) (cr c1) (ipole iota)) -> invert_circle iota c1 = Ok (GC c2)) /\
  (sepsilon_ < Rabs (pow_circle (cO c2) (cr c2) (ipole iota)) -> invert_circle iota c2 = Ok (GC c1)) /\
  (forall c, invert_circle iota c1 = Ok (GC c) -> c = c2) /\ (forall c, invert_circle iota c2 = Ok (GC c) -> c = c1).
Proof. exact (swapping_invert_circle c1 c2 positive out iota). Qed.
Print Assumptions C36_swapping_invert_circle.

Theorem C36_swapping_total c1 c2 positive : 0 < cr c1 -> 0 < cr c2 ->
  (snd (from_swapping_two_circles c1 c2 positive) = None <-> cr c1 = cr c2 /\ dist (cO c1) (cO c2) = cr c1 + cr c2).
Proof. exact (swapping_None c1 c2 positive). Qed.
Print Assumptions C36_swapping_total.

(** exactly when the requested sign is not honoured *)
Theorem C36_swapping_messages c1 c2 positive : 0 < cr c1 -> 0 < cr c2 ->
  let d := dist (cO c1) (cO c2) in
  let out := fst (from_swapping_two_circles c1 c2 positive) in
  (In SwitchToTrue out <-> positive = false /\ (cr c1 = cr c2 -> d < cr c1 + cr c2) /\
     (cr c1 <> cr c2 -> Rabs (cr c2 - cr c1) <= d <= cr c1 + cr c2)) /\
  (In SwitchToFalse out <-> positive = true /\ cr c1 = cr c2 /\ cr c1 + cr c2 < d) /\
  (In NoInversion out <-> cr c1 = cr c2 /\ d = cr c1 + cr c2).
Proof. exact (swapping_messages c1 c2 positive). Qed.
Print Assumptions C36_swapping_messages.

(** for different circles what the messages say is true *)
Theorem C36_swapping_switch_justified c1 c2 positive out o : 0 < cr c1 -> 0 < cr c2 -> c1 <> c2 ->
  from_swapping_two_circles c1 c2 positive = (out, o) ->
  (In SwitchToTrue out -> positive = false /\ forall I k, k < 0 -> ~ inv_maps I k (cO c1) (cr c1) (cO c2) (cr c2)) /\
  (In SwitchToFalse out -> positive = true /\ forall I k, 0 < k -> ~ inv_maps I k (cO c1) (cr c1) (cO c2) (cr c2)) /\
  (In NoInversion out -> o = None /\ forall I k, k <> 0 -> ~ inv_maps I k (cO c1) (cr c1) (cO c2) (cr c2)).
Proof. exact (swapping_switch_justified c1 c2 positive out o). Qed.
Print Assumptions C36_swapping_switch_justified.

(** for one and the same circle it is not: a negative inversion exists *)
Theorem C36_swapping_same_circle_refuted c : 0 < cr c -> exists o,
  from_swapping_two_circles c c false = ([SwitchToTrue], o) /\
  - (cr c ^ 2) < 0 /\ inv_maps (cO c) (- (cr c ^ 2)) (cO c) (cr c) (cO c) (cr c).
Proof. exact (swapping_same_refuted c). Qed.
Print Assumptions C36_swapping_same_circle_refuted.

Example C36_example :
  (exists iota, from_swapping_two_circles (mkCircle (0, 0) 1) (mkCircle (5, 0) 2) false = ([], Some iota)) /\
  (exists iota, from_swapping_two_circles (mkCircle (0, 0) 1) (mkCircle (2, 0) 2) false = ([SwitchToTrue], Some iota)) /\
  from_swapping_two_circles (mkCircle (0, 0) 1) (mkCircle (2, 0) 1) true = ([NoInversion], None).
Proof. exact ex_C36. Qed.

(** ** C37, Inversion.from_fixing_two_circles and from_fixing_three_circles *)
Theorem C37_fixing_two c1 c2 iota : 0 < cr c1 -> 0 < cr c2 -> from_fixing_two_circles c1 c2 = Ok iota ->
  cO c1 <> cO c2 /\ on_line (cO c1) (cO c2) (ipole iota) /\
  (ipower iota <> 0 -> inv_maps (ipole iota) (ipower iota) (cO c1) (cr c1) (cO c1) (cr c1) /\
                       inv_maps (ipole iota) (ipower iota) (cO c2) (cr c2) (cO c2) (cr c2)) /\
  (sepsilon_ < Rabs (ipower iota) -> invert_circle iota c1 = Ok (GC c1) /\ invert_circle iota c2 = Ok (GC c2)) /\
  (Rabs (ipower iota) <= sepsilon_ -> forall c', invert_circle iota c1 <> Ok (GC c') /\ invert_circle iota c2 <> Ok (GC c')).
Proof. exact (fixing_two_fixes c1 c2 iota). Qed.
Print Assumptions C37_fixing_two.

Theorem C37_fixing_two_total c1 c2 :
  (cO c1 <> cO c2 -> exists iota, from_fixing_two_circles c1 c2 = Ok iota) /\
  (cO c1 = cO c2 -> from_fixing_two_circles c1 c2 = Raise NonFinite).
Proof. exact (fixing_two_total c1 c2). Qed.
Print Assumptions C37_fixing_two_total.

Theorem C37_fixing_three c1 c2 c3 iota : from_fixing_three_circles c1 c2 c3 = Ok iota ->
  forall c, In c [c1; c2; c3] -> 0 < cr c ->
  (ipower iota <> 0 -> inv_maps (ipole iota) (ipower iota) (cO c) (cr c) (cO c) (cr c)) /\
  (sepsilon_ < Rabs (ipower iota) -> invert_circle iota c = Ok (GC c)) /\
  (Rabs (ipower iota) <= sepsilon_ -> forall c', invert_circle iota c <> Ok (GC c')) /\
  (0 < ipower iota -> circ_orthogonal (ipole iota) (sqrt (ipower iota)) (cO c) (cr c)).
Proof. exact (fixing_three_fixes c1 c2 c3 iota). Qed.
Print Assumptions C37_fixing_three.

Theorem C37_fixing_three_total c1 c2 c3 l1 l2 :
  radical_axis c1 c2 = Ok (Some l1) -> radical_axis c1 c3 = Ok (Some l2) ->
  ~ collinear (cO c1) (cO c2) (cO c3) -> exists iota, from_fixing_three_circles c1 c2 c3 = Ok iota.
Proof. exact (fixing_three_total c1 c2 c3 l1 l2). Qed.
Print Assumptions C37_fixing_three_total.

Example C37_example : exists iota, from_fixing_two_circles (mkCircle (0, 0) 1) (mkCircle (4, 0) 2) = Ok iota /\ sepsilon_ < Rabs (ipower iota).
Proof. exact ex_C37. Qed.

(** ** C38, tangency under any finite sequence of inversions *)
Theorem C38_tangency_preserved w c1 c2 c1' c2' : 0 < cr c1 -> 0 < cr c2 ->
  invert_circle_word w (GC c1) = Ok (GC c1') -> invert_circle_word w (GC c2) = Ok (GC c2') ->
  (ext_tangent (cO c1) (cr c1) (cO c2) (cr c2) \/ int_tangent (cO c1) (cr c1) (cO c2) (cr c2) <->
   ext_tangent (cO c1') (cr c1') (cO c2') (cr c2') \/ int_tangent (cO c1') (cr c1') (cO c2') (cr c2')).
Proof. exact (word_tangent w c1 c2 c1' c2'). Qed.
Print Assumptions C38_tangency_preserved.

Theorem C38_common_point_preserved w c1 c2 c1' c2' : 0 < cr c1 -> 0 < cr c2 ->
  invert_circle_word w (GC c1) = Ok (GC c1') -> invert_circle_word w (GC c2) = Ok (GC c2') ->
  (exists M, unique (fun M => on_circle (cO c1) (cr c1) M /\ on_circle (cO c2) (cr c2) M) M) ->
  (exists M, unique (fun M => on_circle (cO c1') (cr c1') M /\ on_circle (cO c2') (cr c2') M) M).
Proof. exact (word_touch w c1 c2 c1' c2'). Qed.
Print Assumptions C38_common_point_preserved.

Theorem C38_orthogonality_preserved w c1 c2 c1' c2' : 0 < cr c1 -> 0 < cr c2 ->
  invert_circle_word w (GC c1) = Ok (GC c1') -> invert_circle_word w (GC c2) = Ok (GC c2') ->
  (circ_orthogonal (cO c1) (cr c1) (cO c2) (cr c2) <-> circ_orthogonal (cO c1') (cr c1') (cO c2') (cr c2')).
Proof. exact (word_orthogonal w c1 c2 c1' c2'). Qed.
Print Assumptions C38_orthogonality_preserved.

(** the absolute inversive distance, hence the angle of intersecting circles up to its supplement, is invariant *)
Theorem C38_inversive_distance w c1 c2 c1' c2' : 0 < cr c1 -> 0 < cr c2 ->
  invert_circle_word w (GC c1) = Ok (GC c1') -> invert_circle_word w (GC c2) = Ok (GC c2') ->
  0 < cr c1' /\ 0 < cr c2' /\
  Rabs (dist2 (cO c1') (cO c2') - cr c1' ^ 2 - cr c2' ^ 2) / (cr c1' * cr c2') =
  Rabs (dist2 (cO c1) (cO c2) - cr c1 ^ 2 - cr c2 ^ 2) / (cr c1 * cr c2).
Proof. exact (word_dist w c1 c2 c1' c2'). Qed.
Print Assumptions C38_inversive_distance.

Example C38_example : exists c1' c2', let w := [mkInv (10, 0) 1; mkInv (0, 0) (-3)] in
  invert_circle_word w (GC (mkCircle (0, 0) 1)) = Ok (GC c1') /\ invert_circle_word w (GC (mkCircle (3, 0) 2)) = Ok (GC c2') /\
  ext_tangent (0, 0) 1 (3, 0) 2.
Proof. exact ex_C38. Qed.

(** ** C39, Inversion.invert_gcircle *)
Theorem C39_invert_gcircle_raise iota g : invert_gcircle iota g = Raise TypeError.
Proof. exact (invert_gcircle_raise iota g). Qed.
Print Assumptions C39_invert_gcircle_raise.

(** ** C40, SteinerChain *)
Theorem C40_steiner_chain c0 n phi shift cs ell : (3 <= n)%Z -> 0 < cr c0 -> Rabs phi < 1 ->
  SteinerChain c0 n phi shift = Ok (map GC cs, ell) ->
  let m := Z.to_nat n in
  exists chain inner, cs = chain ++ [inner] /\ length chain = m /\
    0 < cr inner /\ dist (cO c0) (cO inner) <= cr c0 - cr inner /\
    (forall c, In c chain -> 0 < cr c /\ dist (cO c0) (cO c) = cr c0 - cr c /\ ext_tangent (cO c) (cr c) (cO inner) (cr inner)) /\
    (forall i, (i < m)%nat -> ext_tangent (cO (nth i chain c0)) (cr (nth i chain c0)) (cO (nth (S i mod m) chain c0)) (cr (nth (S i mod m) chain c0))) /\
    (forall i j, (i < m)%nat -> (j < m)%nat -> i <> j ->
       cr (nth i chain c0) + cr (nth j chain c0) <= dist (cO (nth i chain c0)) (cO (nth j chain c0))).
Proof. exact (steiner_spec c0 n phi shift cs ell). Qed.
Print Assumptions C40_steiner_chain.

Theorem C40_steiner_total c0 n phi shift : (3 <= n)%Z -> 0 < cr c0 -> Rabs phi < 1 ->
  (phi = 0 \/ sepsilon_ <= (cr c0 / Rabs phi - cr c0) * (cr c0 / Rabs phi - cr c0)) ->
  exists cs ell, SteinerChain c0 n phi shift = Ok (map GC cs, ell).
Proof. exact (steiner_total c0 n phi shift). Qed.
Print Assumptions C40_steiner_total.

Theorem C40_steiner_inner c0 n phi shift cs ell : (3 <= n)%Z -> 0 < cr c0 -> Rabs phi < 1 ->
  SteinerChain c0 n phi shift = Ok (map GC cs, ell) ->
  let s := sin (PI / IZR n) in
  let rho := (1 - s) / (1 + s) in
  last cs c0 = mkCircle (fst (cO c0) + cr c0 * phi * (1 - rho ^ 2) / (1 - phi ^ 2 * rho ^ 2), snd (cO c0))
      (cr c0 * rho * (1 - phi ^ 2) / (1 - phi ^ 2 * rho ^ 2)).
Proof. exact (steiner_inner c0 n phi shift cs ell). Qed.
Print Assumptions C40_steiner_inner.

(** shifting by one step moves every circle to the next one *)
Theorem C40_steiner_shift c0 n phi shift cs ell cs' ell' : (3 <= n)%Z -> 0 < cr c0 -> Rabs phi < 1 ->
  SteinerChain c0 n phi shift = Ok (map GC cs, ell) -> SteinerChain c0 n phi (shift + 1) = Ok (map GC cs', ell') ->
  ell' = ell /\ last cs' c0 = last cs c0 /\ forall i, (i < Z.to_nat n)%nat -> nth i cs' c0 = nth (S i mod Z.to_nat n) cs c0.
Proof. exact (steiner_shift c0 n phi shift cs ell cs' ell'). Qed.
Print Assumptions C40_steiner_shift.

Theorem C40_steiner_raise c0 n phi shift :
  ((n <= 0)%Z \/ n = 2%Z -> SteinerChain c0 n phi shift = Raise ValueError) /\
  ((3 <= n)%Z -> 0 < cr c0 -> Rabs phi = 1 -> SteinerChain c0 n phi shift = Raise ValueError).
Proof. exact (conj (steiner_raise c0 n phi shift) (steiner_phi_one c0 n phi shift)). Qed.
Print Assumptions C40_steiner_raise.

Example C40_example : exists cs ell, SteinerChain (mkCircle (1, 2) 2) 6 (1 / 2) (1 / 4) = Ok (map GC cs, ell).
Proof. exact ex_C40. Qed.

(** ** C41, the ellipse of the centres *)
Theorem C41_steiner_ellipse c0 n phi shift cs ell : (3 <= n)%Z -> 0 < cr c0 -> Rabs phi < 1 ->
  SteinerChain c0 n phi shift = Ok (map GC cs, ell) ->
  0 < ea ell /\ 0 < eb ell /\
  forall i, (i < Z.to_nat n)%nat -> on_ellipse (eO ell) (ea ell) (eb ell) (radians (edeg ell) (ealpha ell)) (cO (nth i cs c0)).
Proof. exact (steiner_ellipse c0 n phi shift cs ell). Qed.
Print Assumptions C41_steiner_ellipse.

Example C41_example : exists cs ell, SteinerChain (mkCircle (1, 2) 2) 6 (1 / 2) (1 / 4) = Ok (map GC cs, ell).
Proof. exact ex_C40. Qed.
