(** * Specification of the circles and lines of Inversions.py. *)

From Coq Require Import Reals List.
From Verif Require Import Base Spec ModelLine ModelCircle.
Import ListNotations.
Local Open Scope R_scope.

(** the points of a circle or line *)
Definition gpts (g : gcircle) (M : pt) : Prop :=
  match g with
  | GC c => on_circle (cO c) (cr c) M
  | GL l => on_line (lA l) (lB l) M
  end.

Definition same_set (g g' : gcircle) : Prop := forall M, gpts g M <-> gpts g' M.
(** both are lines, and each one is the image of the other by the half-turn about the origin *)
Definition opposite_lines (g g' : gcircle) : Prop :=
  match g, g' with
  | GL _, GL _ => forall M, gpts g M <-> gpts g' (- fst M, - snd M)
  | _, _ => False
  end.
Definition one_common (g g' : gcircle) : Prop :=
  forall M M', gpts g M -> gpts g' M -> gpts g M' -> gpts g' M' -> M = M'.
Definition right_angle (g g' : gcircle) : Prop :=
  match g, g' with
  | GC c, GC c' => circ_orthogonal (cO c) (cr c) (cO c') (cr c')
  | GC c, GL l | GL l, GC c => on_line (lA l) (lB l) (cO c)
  | GL l, GL l' => orthogonal (vsub (lB l) (lA l)) (vsub (lB l') (lA l'))
  end.

(** the inversion on the circle [c] maps [g] onto [g'], except for the centre of [c] *)
Definition inv_image (c : circle) (g g' : gcircle) : Prop :=
  forall M, M <> cO c -> (gpts g M <-> gpts g' (inv_pt (cO c) (cr c ^ 2) M)).

(** the circles of the first generation *)
Definition five_circles : list circle :=
  [mkCircle (1, 0) 1; mkCircle (0, 1) 1; mkCircle (-1, 0) 1; mkCircle (0, -1) 1; mkCircle (0, 0) 2].

Definition is_circle (g : gcircle) : bool := match g with GC _ => true | GL _ => false end.

(** what is to be inverted in a generation: an object and the index of a circle other than the last one *)
Definition moves (L : list (gcircle * nat)) : list (gcircle * nat) :=
  flat_map (fun p => map (fun i => (fst p, i)) (filter (fun i => negb (Nat.eqb (snd p) i)) [0; 1; 2; 3; 4]%nat)) L.
(** [q] is the image of the object of [p] by the inversion on the circle of the index of [p] *)
Definition moved (p q : gcircle * nat) : Prop :=
  snd q = snd p /\ exists c, nth_error five_circles (snd p) = Some c /\ inv_image c (fst p) (fst q).

(** the line x = e or y = e *)
Definition axis_line (vertical : bool) (e : R) (g : gcircle) : Prop :=
  is_circle g = false /\ forall M, gpts g M <-> (if vertical then fst M else snd M) = e.
