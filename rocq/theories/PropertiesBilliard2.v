(** * Property C115: the elliptical billiard between and through the foci; the pictures of the animation. *)

From Coq Require Import Reals List Bool ZArith.
From Verif Require Import Base Spec SpecBilliard ModelLine ModelEllipse ModelBilliard ModelBilliardAnim PBilliard PBilliard2 PBilliard3 PBilliard3Ex.
Import ListNotations.
Local Open Scope R_scope.

(** if one segment, not on the minor axis, passes between the two foci, then all the segments touch one hyperbola with the same foci *)
Theorem C115_hyperbola e k P0 v0 segs l0 :
  eO e = (0, 0) /\ ealpha e = 0 /\ 0 < ea e /\ 0 < eb e -> eb e <= ea e ->
  billiard_trajectory e k P0 v0 = Ok segs -> In l0 segs ->
  let f := sqrt (ea e ^ 2 - eb e ^ 2) in
  scross (vsub (lB l0) (lA l0)) (vsub (f, 0) (lA l0)) * scross (vsub (lB l0) (lA l0)) (vsub (- f, 0) (lA l0)) < 0 ->
  fst (lA l0) <> 0 \/ fst (lB l0) <> 0 ->
  exists a' b', 0 < a' /\ 0 < b' /\ a' ^ 2 + b' ^ 2 = ea e ^ 2 - eb e ^ 2 /\
    forall l, In l segs -> touches_hyperbola a' b' (lA l) (lB l).
Proof. exact (billiard_hyperbola e k P0 v0 segs l0). Qed.
Print Assumptions C115_hyperbola.

(** if the starting line passes through a focus (c, 0), the segments pass alternately through the two foci, and (unless the starting line is the major
    axis) the bounce points tend to the ends of the major axis geometrically: with rho = (a+c)/(a-c), the tangent of half the eccentric angle is
    multiplied by rho² every two bounces, so the distance to the major axis after 2j bounces is at most both 2b·h and 2b/h for h = h0·rho^(2j) *)
Theorem C115_foci e k P0 v0 segs c :
  eO e = (0, 0) /\ ealpha e = 0 /\ 0 < ea e /\ 0 < eb e -> c * c = ea e * ea e - eb e * eb e ->
  billiard_trajectory e k P0 v0 = Ok segs -> on_line P0 (vadd P0 v0) (c, 0) ->
  exists q : nat -> pt, on_line P0 (vadd P0 v0) (q 0%nat) /\ on_line P0 (vadd P0 v0) (q 1%nat) /\
    (forall i, (i <= k)%nat ->
       let l := nth i segs (mkLine (0, 0) (0, 0) true true) in
       ((lA l = q i /\ lB l = q (S i)) \/ (lA l = q (S i) /\ lB l = q i)) /\ q i <> q (S i) /\
       on_line (q i) (q (S i)) (if Nat.even i then c else - c, 0)) /\
    (snd P0 <> 0 \/ snd v0 <> 0 -> forall j, (2 * j <= S k)%nat ->
       half_tan (ea e) (eb e) (q (2 * j)%nat) = ((ea e + c) / (ea e - c)) ^ (2 * j) * half_tan (ea e) (eb e) (q 0%nat) /\
       half_tan (ea e) (eb e) (q 0%nat) <> 0 /\
       let h := Rabs (half_tan (ea e) (eb e) (q 0%nat)) * ((ea e + c) / (ea e - c)) ^ (2 * j) in
       Rabs (snd (q (2 * j)%nat)) <= 2 * eb e * h /\ Rabs (snd (q (2 * j)%nat)) <= 2 * eb e / h).
Proof. exact (billiard_focal e k P0 v0 segs c). Qed.
Print Assumptions C115_foci.

(** the trajectory with fewer segments is the beginning of the trajectory with more segments *)
Theorem C115_prefix e k j P0 v0 segs : (j <= k)%nat -> billiard_trajectory e k P0 v0 = Ok segs ->
  billiard_trajectory e j P0 v0 = Ok (firstn (S j) segs) /\ length segs = S k.
Proof. exact (trajectory_prefix e k j P0 v0 segs). Qed.
Print Assumptions C115_prefix.

(** the pictures of the animation are the trajectories with 1, 2, ..., m segments; the last segment that has been computed is in none of them *)
Theorem C115_frames e m P0 v0 :
  (forall frames, billiard_frames e m P0 v0 = Ok frames -> length frames = m /\
     (forall j, (j < m)%nat -> billiard_trajectory e j P0 v0 = Ok (nth j frames [])) /\
     forall traj, billiard_trajectory e m P0 v0 = Ok traj -> forall F, In F frames -> (length F < length traj)%nat) /\
  (forall x, billiard_frames e m P0 v0 = Raise x <-> billiard_trajectory e m P0 v0 = Raise x).
Proof. exact (frames_spec e m P0 v0). Qed.
Print Assumptions C115_frames.

Example C115_example d : let e := mkEllipse (0, 0) 5 3 0 d in
  billiard_trajectory e 1 (4, 9 / 5) (0, -1) = Ok [mkLine (4, 9 / 5) (4, - (9 / 5)) true true; mkLine (- (364 / 73), 81 / 365) (4, - (9 / 5)) true true] /\
  on_line (4, 9 / 5) (vadd (4, 9 / 5) (0, -1)) (4, 0) /\ on_line (4, - (9 / 5)) (- (364 / 73), 81 / 365) (-4, 0) /\
  billiard_frames e 1 (4, 9 / 5) (0, -1) = Ok [[mkLine (4, 9 / 5) (4, - (9 / 5)) true true]] /\
  billiard_trajectory e 1 (3, 12 / 5) (0, -1) = Ok [mkLine (3, 12 / 5) (3, - (12 / 5)) true true; mkLine (- (385917 / 148417), 1901532 / 742085) (3, - (12 / 5)) true true].
Proof. exact (ex_billiard2 d). Qed.
