(** * Specification: discs in the plane of a triangle of the space, flattened balls around them,
    convex polyhedra *)

From Coq Require Import Reals List.
From Verif Require Import Base Spec SpecSteinerEx.
Import ListNotations.
Local Open Scope R_scope.

(** vectors of the space, as ((x, y), z) *)
Definition v3 := (pt * R)%type.
Definition add3 (u v : v3) : v3 := (vadd (fst u) (fst v), snd u + snd v).
Definition mul3 (k : R) (u : v3) : v3 := (vscal k (fst u), k * snd u).
Definition vec3 (A B : v3) : v3 := add3 B (mul3 (-1) A).
Definition inner3 (u v : v3) : R := fst (fst u) * fst (fst v) + snd (fst u) * snd (fst v) + snd u * snd v.
(** the volume of the box on three vectors, with its sign *)
Definition det3 (u v w : v3) : R :=
  fst (fst u) * (snd (fst v) * snd w - snd v * snd (fst w)) - snd (fst u) * (fst (fst v) * snd w - snd v * fst (fst w))
  + snd u * (fst (fst v) * snd (fst w) - snd (fst v) * fst (fst w)).
Definition dist3 (A B : v3) : R := sqrt (inner3 (vec3 A B) (vec3 A B)).

(** A, B, C are on a line *)
Definition collinear3 (A B C : v3) : Prop := exists u v, (u <> 0 \/ v <> 0) /\ add3 (mul3 u (vec3 A B)) (mul3 v (vec3 A C)) = ((0, 0), 0).

Definition bary3 (a b c : R) (A B C : v3) : v3 := add3 (add3 (mul3 a A) (mul3 b B)) (mul3 c C).
Definition in_plane3 (A B C M : v3) : Prop := exists a b c, a + b + c = 1 /\ M = bary3 a b c A B C.
Definition in_triangle3 (A B C M : v3) : Prop := exists a b c, 0 <= a /\ 0 <= b /\ 0 <= c /\ a + b + c = 1 /\ M = bary3 a b c A B C.
Definition unit_normal (A B C n : v3) : Prop := inner3 n n = 1 /\ inner3 n (vec3 A B) = 0 /\ inner3 n (vec3 A C) = 0.

(** a disc in the plane of ABC: its centre and its radius *)
Definition disc3 := (v3 * R)%type.
Definition disc3_in_triangle (A B C : v3) (d : disc3) : Prop :=
  in_plane3 A B C (fst d) /\ forall M, in_plane3 A B C M -> dist3 (fst d) M <= snd d -> in_triangle3 A B C M.
Definition discs3_touch (d d' : disc3) : Prop := dist3 (fst d) (fst d') = snd d + snd d'.
(** the line PQ touches the disc: it has a point at the distance r of the centre, and the other ones are farther *)
Definition side3_touched (d : disc3) (P Q : v3) : Prop :=
  exists t, dist3 (fst d) (add3 P (mul3 t (vec3 P Q))) = snd d /\
    forall t', t' <> t -> snd d < dist3 (fst d) (add3 P (mul3 t' (vec3 P Q))).
Definition vertices3_of (A B C P Q V : v3) : Prop :=
  (P = A /\ Q = B /\ V = C) \/ (P = A /\ Q = C /\ V = B) \/ (P = B /\ Q = A /\ V = C) \/
  (P = B /\ Q = C /\ V = A) \/ (P = C /\ Q = A /\ V = B) \/ (P = C /\ Q = B /\ V = A).
Definition touches_three3 (A B C : v3) (l : list disc3) (d : disc3) : Prop :=
  (exists d1 d2 d3, incl [d1; d2; d3] l /\ NoDup [d1; d2; d3] /\ discs3_touch d d1 /\ discs3_touch d d2 /\ discs3_touch d d3) \/
  (exists d1 d2 P Q V, incl [d1; d2] l /\ d1 <> d2 /\ vertices3_of A B C P Q V /\ discs3_touch d d1 /\ discs3_touch d d2 /\ side3_touched d P Q) \/
  (exists d1 P Q V, In d1 l /\ vertices3_of A B C P Q V /\ discs3_touch d d1 /\ side3_touched d P Q /\ side3_touched d P V).

(** the ball with the great disc d, flattened by the factor k along n: less than 1 inside, 1 on the surface *)
Definition flat_ball (n : v3) (k : R) (d : disc3) : region v3 := fun M =>
  let u := vec3 (fst d) M in let h := inner3 u n in
  (inner3 u u - h ^ 2) / (snd d) ^ 2 + h ^ 2 / (k * snd d) ^ 2.

(** an isometry of the space which keeps the orientation *)
Definition motion3 (T : v3 -> v3) : Prop :=
  (forall M N, dist3 (T M) (T N) = dist3 M N) /\ (forall Q, exists M, T M = Q) /\
  (forall A B C D, det3 (vec3 (T A) (T B)) (vec3 (T A) (T C)) (vec3 (T A) (T D)) = det3 (vec3 A B) (vec3 A C) (vec3 A D)).

(** the triangle ABC of the list of points is a face of their convex hull, turning counterclockwise
    when it is looked at from outside: the other points are strictly behind *)
Definition outward_face (points : list v3) (A B C : v3) : Prop :=
  forall M, In M points -> M = A \/ M = B \/ M = C \/ det3 (vec3 A B) (vec3 A C) (vec3 A M) < 0.

(** the directed edges of the faces given by the numbers of their vertices *)
Definition edges_of (f : nat * nat * nat) : list (nat * nat) := let '(i, j, k) := f in [(i, j); (j, k); (k, i)].
(** a closed surface: every edge is in exactly two faces, which have opposite directions on it *)
Definition closed_surface (fs : list (nat * nat * nat)) : Prop :=
  NoDup (flat_map edges_of fs) /\ forall i j, In (i, j) (flat_map edges_of fs) -> In (j, i) (flat_map edges_of fs).
Definition has_vertex (v : nat) (f : nat * nat * nat) : bool := let '(i, j, k) := f in (Nat.eqb i v || Nat.eqb j v || Nat.eqb k v)%bool.
