(** * Properties of sharing and in-place modification: C75, C76.
    Every proof is one line; the work is in PHeap.v. *)

From Coq Require Import Reals List Bool Arith.
From Verif Require Import Base ModelLine ModelCircle ModelEllipse ModelInversion ModelAffine ModelTransfo ModelHeap Spec PHeap.
Import ListNotations.
Local Open Scope R_scope.

(** ** C75, what the objects are when they are made: the pure constructors of the other chapters *)
Theorem C75_circle_value h center radius h' c : Circle_h h center radius = Ok (h', c) ->
  Circle_init (as_pt (values h center)) radius = Ok (circle_of h' c).
Proof. exact (Circle_h_value h center radius h' c). Qed.
Print Assumptions C75_circle_value.

Theorem C75_line_value h A B extendA extendB h' ln :
  (forall l, A = AFloat l -> (l < next h)%nat) -> (forall l, B = AFloat l -> (l < next h)%nat) ->
  Line_h h A B extendA extendB = Ok (h', ln) ->
  Line_init (as_pt (values h A)) (as_pt (values h B)) extendA extendB = Ok (line_of h' ln).
Proof. exact (Line_h_value h A B extendA extendB h' ln). Qed.
Print Assumptions C75_line_value.

(** ** C75, a float64 array is kept by reference: writing to it changes the object *)
Theorem C75_circle_shares_array h l radius h' c xs : Circle_h h (AFloat l) radius = Ok (h', c) ->
  circle_of (write h' l xs) c = mkCircle (as_pt xs) radius.
Proof. exact (Circle_h_shares h l radius h' c xs). Qed.
Print Assumptions C75_circle_shares_array.

Theorem C75_line_shares_arrays h a b extendA extendB h' ln xs : a <> b -> Line_h h (AFloat a) (AFloat b) extendA extendB = Ok (h', ln) ->
  line_of (write h' a xs) ln = mkLine (as_pt xs) (as_pt (cell h b)) extendA extendB /\
  line_of (write h' b xs) ln = mkLine (as_pt (cell h a)) (as_pt xs) extendA extendB.
Proof. exact (Line_h_shares h a b extendA extendB h' ln xs). Qed.
Print Assumptions C75_line_shares_arrays.

(** ** C75, anything else is copied: no write to an array of the caller changes the object *)
Theorem C75_circle_copies_sequence h center radius h' c l xs : (l < next h)%nat -> Circle_h h (ASeq center) radius = Ok (h', c) ->
  circle_of (write h' l xs) c = circle_of h' c.
Proof. exact (Circle_h_copies h center radius h' c l xs). Qed.
Print Assumptions C75_circle_copies_sequence.

Theorem C75_line_copies_sequences h xs ys extendA extendB h' ln l zs : (l < next h)%nat -> Line_h h (ASeq xs) (ASeq ys) extendA extendB = Ok (h', ln) ->
  line_of (write h' l zs) ln = line_of h' ln.
Proof. exact (Line_h_copies h xs ys extendA extendB h' ln l zs). Qed.
Print Assumptions C75_line_copies_sequences.

(** ** C75, objects made from objects share their arrays *)
Theorem C75_on_circle_shares h c h' i xs : on_circle_h h c = Ok (h', i) ->
  h' = h /\ inversion_of h' i = inversion_on_circle (circle_of h c) /\
  circle_of (write h' (hcO c) xs) c = mkCircle (as_pt xs) (hcr c) /\
  inversion_of (write h' (hcO c) xs) i = mkInv (as_pt xs) (hcr c ^ 2).
Proof. exact (on_circle_h_shares h c h' i xs). Qed.
Print Assumptions C75_on_circle_shares.

Theorem C75_reflection_shares h l h' l' xs : hlA l <> hlB l -> Reflection_h h l = Ok (h', l') ->
  h' = h /\ line_of (write h' (hlA l) xs) l' = mkLine (as_pt xs) (as_pt (cell h (hlB l))) true true.
Proof. exact (Reflection_h_shares h l h' l' xs). Qed.
Print Assumptions C75_reflection_shares.

(** inverting infinity gives the pole itself: writing to the result moves the pole *)
Theorem C75_invert_inf_is_the_pole h i xs :
  Pt (as_pt (cell h (invert_inf_h i))) = invert (inversion_of h i) Inf /\
  inversion_of (write h (invert_inf_h i) xs) i = mkInv (as_pt xs) (hik i).
Proof. exact (conj (invert_inf_h_value h i) (invert_inf_h_shares h i xs)). Qed.
Print Assumptions C75_invert_inf_is_the_pole.

(** ** C75, reflections: the image of a point of the line is the array itself, the image of any other point is a new array *)
Theorem C75_reflect_value h l p h' q : reflection_transform_h h l (AFloat p) = Ok (h', q) ->
  reflection_transform_pt (line_of h l) (as_pt (cell h p)) = Ok (as_pt (cell h' q)).
Proof. exact (reflection_h_value h l p h' q). Qed.
Print Assumptions C75_reflect_value.

Theorem C75_reflect_point_of_the_line h l p x y : lA (line_of h l) <> lB (line_of h l) -> cell h p = [x; y] ->
  on_line (lA (line_of h l)) (lB (line_of h l)) (x, y) -> reflection_transform_h h l (AFloat p) = Ok (h, p).
Proof. exact (reflection_h_on_line h l p x y). Qed.
Print Assumptions C75_reflect_point_of_the_line.

Theorem C75_reflect_shares_or_allocates h l p h' q : (p < next h)%nat -> (hlA l < next h)%nat -> (hlB l < next h)%nat ->
  reflection_transform_h h l (AFloat p) = Ok (h', q) ->
  let P := as_pt (cell h p) in
  (h' = h /\ q = p /\ line_includes (line_of h l) P false true = Ok true) \/
  (q = next h /\ next h' = S (next h) /\ (forall i, (i < next h)%nat -> cell h' i = cell h i) /\ line_includes (line_of h l) P false true = Ok false).
Proof. exact (reflection_h_cases h l p h' q). Qed.
Print Assumptions C75_reflect_shares_or_allocates.

(** a circle centred on the line and its image have the same centre array: moving one moves the other *)
Theorem C75_reflect_circle_shares h l c x y : lA (line_of h l) <> lB (line_of h l) -> cell h (hcO c) = [x; y] -> 0 < hcr c ->
  on_line (lA (line_of h l)) (lB (line_of h l)) (x, y) -> reflect_circle_h h l c = Ok (h, c).
Proof. exact (reflect_circle_h_shares h l c x y). Qed.
Print Assumptions C75_reflect_circle_shares.

Example C75_example_reflection : let h := mkHeap 3 (fun l => match l with 0%nat => [1; 2] | 1%nat => [5; 7] | _ => [9; 12] end) in let l := mkHL 0 1 true true in
  lA (line_of h l) <> lB (line_of h l) /\ cell h 2 = [9; 12] /\ on_line (lA (line_of h l)) (lB (line_of h l)) (9, 12).
Proof. exact ex_C75_reflection. Qed.

(** ** C75, the constructor's check that A and B are distinct does not last *)
Theorem C75_distinct_points_refuted h a b extendA extendB h' ln : a <> b -> Line_h h (AFloat a) (AFloat b) extendA extendB = Ok (h', ln) ->
  let ln' := line_of (write h' a (cell h' b)) ln in lA ln' = lB ln'.
Proof. exact (Line_h_degenerate h a b extendA extendB h' ln). Qed.
Print Assumptions C75_distinct_points_refuted.

Example C75_example : let h := mkHeap 2 (fun l => if (l =? 0)%nat then [1; 2] else [5; 7]) in
  (exists h' c, Circle_h h (AFloat 0) 3 = Ok (h', c)) /\ (exists h' c, Circle_h h (ASeq [1; 2]) 3 = Ok (h', c)) /\
  (exists h' ln, Line_h h (AFloat 0) (AFloat 1) true true = Ok (h', ln)) /\ (exists h' ln, Line_h h (ASeq [1; 2]) (ASeq [5; 7]) true true = Ok (h', ln)) /\
  (exists h' i, on_circle_h h (mkHC 0 3) = Ok (h', i)) /\ (exists h' l', Reflection_h h (mkHL 0 1 false false) = Ok (h', l')).
Proof. exact ex_C75. Qed.

(** ** C76, the points: those of [ellipse_point_from_angle], one per angle; a single one is not in a matrix *)
Theorem C76_points h e theta degrees : length (values h theta) <> 1%nat ->
  snd (point_from_angle_h h e theta degrees) = Points (map (fun x => ellipse_point_from_angle e x degrees) (values h theta)).
Proof. exact (pfa_many h e theta degrees). Qed.
Print Assumptions C76_points.

Theorem C76_one_point h e theta degrees x : values h theta = [x] ->
  snd (point_from_angle_h h e theta degrees) = OnePoint (ellipse_point_from_angle e x degrees).
Proof. exact (pfa_array_of_one h e theta degrees x). Qed.
Print Assumptions C76_one_point.

(** ** C76, the effect: a float64 array of angles in degrees is overwritten by the angles in radians; nothing else is written *)
Theorem C76_overwrites_float_array h e l l' degrees : cell (fst (point_from_angle_h h e (AFloat l) degrees)) l' =
  if degrees && (l' =? l)%nat then map (fun x => x * (PI / 180)) (cell h l) else cell h l'.
Proof. exact (pfa_writes h e l l' degrees). Qed.
Print Assumptions C76_overwrites_float_array.

Theorem C76_other_arguments_unchanged h e xs degrees l : (l < next h)%nat ->
  cell (fst (point_from_angle_h h e (ASeq xs) degrees)) l = cell h l.
Proof. exact (pfa_pure h e xs degrees l). Qed.
Print Assumptions C76_other_arguments_unchanged.

Theorem C76_repeated_calls k h e l :
  cell (Nat.iter k (fun h => fst (point_from_angle_h h e (AFloat l) true)) h) l = map (fun x => x * (PI / 180) ^ k) (cell h l).
Proof. exact (pfa_calls k h e l). Qed.
Print Assumptions C76_repeated_calls.

(** two identical calls do not return the same point *)
Theorem C76_same_call_same_point_refuted h e l : 0 < ea e -> 0 < eb e -> cell h l = [90] ->
  snd (point_from_angle_h (fst (point_from_angle_h h e (AFloat l) true)) e (AFloat l) true) <> snd (point_from_angle_h h e (AFloat l) true).
Proof. exact (pfa_twice h e l). Qed.
Print Assumptions C76_same_call_same_point_refuted.

Example C76_example : let h := mkHeap 1 (fun _ => [90]) in let e := mkEllipse (1, 2) 3 2 30 true in
  cell h 0 = [90] /\ 0 < ea e /\ 0 < eb e /\ (0 < next h)%nat /\ length (values h (ASeq [10; 20])) <> 1%nat.
Proof. exact ex_C76. Qed.
