(** * What each transformation does to a point. *)

From Coq Require Import Reals.
From Verif Require Import Base Spec ModelInternal ModelLine ModelAffine ModelTransfo.
Local Open Scope R_scope.

(** the transformation maps [P] to [Q] *)
Definition maps_to (T : transfo) (P Q : pt) : Prop :=
  match T with
  | TAffine f => Q = (m11 (afA f) * fst P + m12 (afA f) * snd P + fst (afb f), m21 (afA f) * fst P + m22 (afA f) * snd P + snd (afb f))
  | TReflection l => mirror (lA l) (lB l) P Q
  | TProjection p => on_line (lA (pD p)) (lB (pD p)) Q /\ parallel (vsub (lB (pDelta p)) (lA (pDelta p))) (vsub Q P)
  | TRotation r => Q = rot (radians (rdeg r) (rtheta r)) (rO r) P
  | TShear s =>
      let t := tan (radians (sdeg s) (sangle s)) in
      let w := sw s in
      let n := vscal (/ (sratio s * sdot w w)) (- snd w, fst w) in
      Q = vsub (vadd P (vscal (t * sdot w P) n)) (vscal (t * sdot (sQ s) n) w)
  | TScalingXY s => Q = (fst (xyO s) + xysx s * (fst P - fst (xyO s)), snd (xyO s) + xysy s * (snd P - snd (xyO s)))
  | THomothety h => Q = vadd (hO h) (vscal (hscale h) (vsub P (hO h)))
  | TScaling sc => sdot (vsub Q (scO sc)) (scw sc) = scs sc * sdot (vsub P (scO sc)) (scw sc) /\ scross (scw sc) (vsub Q (scO sc)) = scross (scw sc) (vsub P (scO sc))
  end.

(** the transformations for which the matrix exists; for a projection, the three points from which it is made are on the line
    or recognised as outside *)
Definition on_or_seen_off (l : line) (P : pt) : Prop := on_line (lA l) (lB l) P \/ collinear_ (lA l) (lB l) P = Ok false.
Definition proper (T : transfo) : Prop :=
  match T with
  | TAffine _ | TRotation _ | TScalingXY _ | THomothety _ => True
  | TReflection l => lA l <> lB l
  | TProjection p => lA (pD p) <> lB (pD p) /\ ~ parallel (vsub (lB (pDelta p)) (lA (pDelta p))) (vsub (lB (pD p)) (lA (pD p))) /\
      on_or_seen_off (pD p) (0, 0) /\ on_or_seen_off (pD p) (1, 0) /\ on_or_seen_off (pD p) (0, 1)
  | TShear s => sw s <> (0, 0) /\ 0 < sratio s
  | TScaling sc => scw sc <> (0, 0)
  end.
