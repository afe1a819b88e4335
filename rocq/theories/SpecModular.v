(** * Specification of the modular tessellation of the unit disc. *)

From Coq Require Import Reals List ZArith.
From Verif Require Import Base Spec SpecMobius ModelCircle.
Local Open Scope R_scope.

(** The integer matrix [[a, b], [c, d]], then [[ra, rb], [rc, rd]], then [[i, 1], [1, i]]. *)
Definition tile_map (ra rb rc rd : C) (a b c d : Z) (z w : pt) : Prop :=
  exists v v', mob_image (RtoC (IZR a)) (RtoC (IZR b)) (RtoC (IZR c)) (RtoC (IZR d)) (Pt z) (Pt v) /\
    mob_image ra rb rc rd (Pt v) (Pt v') /\ mob_image Ci C1 C1 Ci (Pt v') (Pt w).

(** [k] bounds the image of the disc of centre (0, 3/2) and radius 1/2 *)
Definition is_tile (ra rb rc rd : C) (a b c d : Z) (k : circle) : Prop :=
  0 < cr k /\ forall w, dist (cO k) w < cr k <-> exists z, dist (0, 3 / 2) z < 1 / 2 /\ tile_map ra rb rc rd a b c d z w.

(** a matrix of the modular group with entries at most n in absolute value *)
Definition modular_matrix (n a b c d : Z) : Prop :=
  (a * d - b * c = 1 /\ Z.abs a <= n /\ Z.abs b <= n /\ Z.abs c <= n /\ Z.abs d <= n)%Z.
