(** * Model of examples/EllipticalBilliard_animation.py (the functions are those of EllipticalBilliard.py, see [ModelBilliard.v]). *)

From Coq Require Import Reals List.
From Verif Require Import Base ModelInternal ModelLine ModelCircle ModelAffine ModelEllipse ModelBilliard.
Import ListNotations.
Local Open Scope R_scope.

(** EllipticalBilliard_animation.py:40, 42 and 51-52: [traj = trajectory(n, P0, v0)] and, for k in range(1, n), the segments
    [traj[:k]] drawn in the picture number k; n = m + 1 (the script has 150 for the two numbers) *)
Definition billiard_frames (e : ellipse) (m : nat) (P0 v0 : pt) : res (list (list line)) :=
  let! traj := billiard_trajectory e m P0 v0 in
  Ok (map (fun k => firstn k traj) (seq 1 m)).
