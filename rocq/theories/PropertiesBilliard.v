(** * Property C91: the elliptical billiard of examples/EllipticalBilliard.py. *)

From Coq Require Import Reals List Bool ZArith.
From Verif Require Import Base Spec ModelLine ModelEllipse ModelBilliard PBilliard PBilliardEx.
Import ListNotations.
Local Open Scope R_scope.

(** For every number of segments: the segments are chords of the ellipse, each one
    starting where the previous one ends; at each bounce the unit vectors of the
    incoming and outgoing directions have the same component along the tangent and
    opposite components across it. *)
Theorem C91_chords_and_reflections e k P0 v0 segs :
  eO e = (0, 0) /\ ealpha e = 0 /\ 0 < ea e /\ 0 < eb e ->
  billiard_trajectory e k P0 v0 = Ok segs ->
  exists q : nat -> pt, length segs = S k /\
    on_line P0 (vadd P0 v0) (q 0%nat) /\ on_line P0 (vadd P0 v0) (q 1%nat) /\
    (forall i, (i <= k)%nat ->
       let l := nth i segs (mkLine (0, 0) (0, 0) true true) in
       ((lA l = q i /\ lB l = q (S i)) \/ (lA l = q (S i) /\ lB l = q i)) /\ q i <> q (S i) /\
       on_ellipse (0, 0) (ea e) (eb e) 0 (q i) /\ on_ellipse (0, 0) (ea e) (eb e) 0 (q (S i))) /\
    (forall i tau, (i < k)%nat -> ell_tangent (0, 0) (ea e) (eb e) 0 (q (S i)) tau ->
       let uin := vscal (/ dist (q i) (q (S i))) (vsub (q (S i)) (q i)) in
       let uout := vscal (/ dist (q (S i)) (q (S (S i)))) (vsub (q (S (S i))) (q (S i))) in
       sdot uin tau = sdot uout tau /\ scross uin tau = - scross uout tau).
Proof. exact (billiard_chords e k P0 v0 segs). Qed.
Print Assumptions C91_chords_and_reflections.

(** the product of the signed distances from the two foci to the line of a segment
    is the same for all the segments *)
Theorem C91_foci e k P0 v0 segs l1 l2 :
  eO e = (0, 0) /\ ealpha e = 0 /\ 0 < ea e /\ 0 < eb e -> eb e <= ea e ->
  billiard_trajectory e k P0 v0 = Ok segs -> In l1 segs -> In l2 segs ->
  let f := sqrt (ea e ^ 2 - eb e ^ 2) in
  let prod l := scross (vsub (lB l) (lA l)) (vsub (f, 0) (lA l)) * scross (vsub (lB l) (lA l)) (vsub (- f, 0) (lA l))
                / dist2 (lA l) (lB l) in
  prod l1 = prod l2.
Proof. exact (billiard_foci e k P0 v0 segs l1 l2). Qed.
Print Assumptions C91_foci.

(** if one segment is on a line through a focus, then all are *)
Theorem C91_through_focus e k P0 v0 segs l1 l2 :
  eO e = (0, 0) /\ ealpha e = 0 /\ 0 < ea e /\ 0 < eb e -> eb e <= ea e ->
  billiard_trajectory e k P0 v0 = Ok segs -> In l1 segs -> In l2 segs ->
  let f := sqrt (ea e ^ 2 - eb e ^ 2) in
  on_line (lA l1) (lB l1) (f, 0) \/ on_line (lA l1) (lB l1) (- f, 0) ->
  on_line (lA l2) (lB l2) (f, 0) \/ on_line (lA l2) (lB l2) (- f, 0).
Proof. exact (billiard_focus e k P0 v0 segs l1 l2). Qed.
Print Assumptions C91_through_focus.

(** if one segment leaves the two foci on the same side, then all the segments are
    tangent to one smaller ellipse with the same foci *)
Theorem C91_caustic e k P0 v0 segs l0 :
  eO e = (0, 0) /\ ealpha e = 0 /\ 0 < ea e /\ 0 < eb e -> eb e <= ea e ->
  billiard_trajectory e k P0 v0 = Ok segs -> In l0 segs ->
  let f := sqrt (ea e ^ 2 - eb e ^ 2) in
  0 < scross (vsub (lB l0) (lA l0)) (vsub (f, 0) (lA l0)) * scross (vsub (lB l0) (lA l0)) (vsub (- f, 0) (lA l0)) ->
  exists a' b', 0 < a' < ea e /\ 0 < b' < eb e /\ a' ^ 2 - b' ^ 2 = ea e ^ 2 - eb e ^ 2 /\
    forall l, In l segs -> exists T, on_line (lA l) (lB l) T /\ ell_tangent (0, 0) a' b' 0 T (vsub (lB l) (lA l)).
Proof. exact (billiard_caustic e k P0 v0 segs l0). Qed.
Print Assumptions C91_caustic.

(** a trajectory of two or more segments cannot be started upwards from a point of
    the ellipse: the call raises *)
Theorem C91_upward_refuted e k P0 v0 s :
  eO e = (0, 0) /\ ealpha e = 0 /\ 0 < ea e /\ 0 < eb e ->
  on_ellipse (0, 0) (ea e) (eb e) 0 P0 -> 0 < snd v0 ->
  0 < s -> on_ellipse (0, 0) (ea e) (eb e) 0 (vadd P0 (vscal s v0)) ->
  exists x, billiard_trajectory e (S k) P0 v0 = Raise x.
Proof. exact (billiard_upward e k P0 v0 s). Qed.
Print Assumptions C91_upward_refuted.

Example C91_example d : let e := mkEllipse (0, 0) 4 3 0 d in
  billiard_trajectory e 2 (16 / 5, 9 / 5) (1, 0) =
    Ok [mkLine (16 / 5, 9 / 5) (- (16 / 5), 9 / 5) true true; mkLine (- (16 / 5), 9 / 5) (- (16 / 5), - (9 / 5)) true true;
        mkLine (16 / 5, - (9 / 5)) (- (16 / 5), - (9 / 5)) true true].
Proof. exact (ex_billiard d). Qed.
