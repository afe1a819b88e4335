(** * Model of examples/HyperbolicTesselation.py (lines 6-70) and of the points and arcs of
    examples/HyperbolicTesselation2.py (lines 9-66).  The figure and the polygons made from the
    paths of the arcs are not modelled: what is modelled is the list of the arcs drawn for each
    generation.  The radius 3 of the circle is the parameter [r]; both scripts take the starting points
    on the unit circle. *)

From Coq Require Import Reals List Bool Arith.
From Verif Require Import Base ModelInternal ModelLine ModelCircle ModelInversion.
Import ListNotations.
Local Open Scope R_scope.

(** [list.sort] and [np.sort] of numbers *)
Fixpoint insert_r (x : R) (l : list R) : list R :=
  match l with [] => [x] | y :: l' => if leb x y then x :: l else y :: insert_r x l' end.
Definition sort_r (l : list R) : list R := fold_right insert_r [] l.

(** attributes [center], [radius] and [path] of an arc: a line has none *)
Definition the_arc (o : ocirc) : res arc := match o with OArc a => Ok a | _ => Raise AttributeError end.

(** HyperbolicTesselation.py:13-17: the inversions in the three sides *)
Definition hyp_sides (circ : circle) (t0 t1 t2 : R) : res (list arc) :=
  let! arcs := mapM (fun ab => orthogonal_through_two_points_on_circle circ (fst ab) (snd ab) true) [(t0, t1); (t1, t2); (t2, t0)] in
  mapM the_arc arcs.
Definition side_inversion (a : arc) : inversion := mkInv (aO a) (ar a ^ 2).

(** HyperbolicTesselation.py:23-27: a point and the number of the side of its inversion *)
Definition generation1 (invs : list inversion) (pts : list pt) : list (ept * nat) :=
  map (fun i => (invert (nth i invs (mkInv (0, 0) 0)) (Pt (nth ((i + 2) mod 3) pts (0, 0))), i)) [0%nat; 1%nat; 2%nat].

(** HyperbolicTesselation.py:29-41 *)
Definition next_generation (invs : list inversion) (g : list (ept * nat)) : list (ept * nat) :=
  flat_map (fun Mi => map (fun i => (invert (nth i invs (mkInv (0, 0) 0)) (fst Mi), i))
    (filter (fun i => negb (Nat.eqb i (snd Mi))) [0%nat; 1%nat; 2%nat])) g.
Fixpoint generations (invs : list inversion) (g : list (ept * nat)) (n : nat) : list (list (ept * nat)) :=
  match n with 0%nat => [] | Datatypes.S n => g :: generations invs (next_generation invs g) n end.

(** HyperbolicTesselation.py:19-41: [Ms[1:]].  [Ms[1] = ...] fails (IndexError) for a
    depth less than 2; this is not modelled, the theorems are for larger depths. *)
Definition hyp_points (circ : circle) (t0 t1 t2 : R) (depth : nat) : res (list arc * list (list (ept * nat))) :=
  let! arcs := hyp_sides circ t0 t1 t2 in
  let invs := map side_inversion arcs in
  Ok (arcs, generations invs (generation1 invs [unit_vector_ t0; unit_vector_ t1; unit_vector_ t2]) (depth - 1)).

(** HyperbolicTesselation.py:53-60: [x, y = a] fails if [a] is [inf] *)
Definition angle_of (M : ept) : res R := match M with Pt (x, y) => Ok (atan2 y x) | Inf => Raise TypeError end.

(** HyperbolicTesselation.py:66-70 *)
Definition hyp_arcs (circ : circle) (thetas : list R) : res (list arc) :=
  let n := length thetas in
  mapM (fun i => let! o := orthogonal_through_two_points_on_circle circ (nth i thetas 0) (nth ((i + 1) mod n) thetas 0) true in the_arc o) (seq 0 n).

(** HyperbolicTesselation.py:53-70: the angles of the generations *)
Definition hyp_angles (t0 t1 t2 : R) (gens : list (list (ept * nat))) : res (list (list R)) :=
  let! rest := mapM (mapM (fun Mi => angle_of (fst Mi))) gens in
  Ok (map (fun t => atan2 (snd (unit_vector_ t)) (fst (unit_vector_ t))) [t0; t1; t2] :: rest).

(** HyperbolicTesselation.py: the sides, then the arcs of the generations 1, 2, ... *)
Definition hyperbolic_tessellation (r t0 t1 t2 : R) (depth : nat) : res (list (list arc)) :=
  let circ := mkCircle (0, 0) r in
  let! pts := hyp_points circ t0 t1 t2 depth in
  let! Thetas := hyp_angles t0 t1 t2 (snd pts) in
  let! levels := mapM (fun d => hyp_arcs circ (sort_r (concat (firstn (d + 1) Thetas)))) (seq 1 (depth - 1)) in
  Ok (fst pts :: levels).

(** HyperbolicTesselation2.py:36-65: the arcs of the paths, with their numbers (the path numbered 0 is made
    of the three sides) *)
Definition hyperbolic_tessellation2 (r t0 t1 t2 : R) (depth : nat) : res (list (arc * nat)) :=
  let circ := mkCircle (0, 0) r in
  let! pts := hyp_points circ t0 t1 t2 depth in
  let! Thetas := hyp_angles t0 t1 t2 (snd pts) in
  let! levels := mapM (fun d => let! arcs := hyp_arcs circ (sort_r (concat (firstn d Thetas))) in Ok (map (fun a => (a, d)) arcs)) (seq 2 (depth - 2)) in
  Ok (map (fun a => (a, 1%nat)) (fst pts) ++ concat levels)%list.
