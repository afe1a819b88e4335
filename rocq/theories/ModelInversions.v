(** * Model of examples/Inversions.py: the images of five circles by the inversions on them.
    The colours and the figure are not modelled: the picture is the list of the circles and lines
    drawn.  The number of generations after the first one (3 in the program) is a parameter. *)

From Coq Require Import Reals List Bool.
From Verif Require Import Base ModelInternal ModelLine ModelCircle ModelTriangle ModelInversion ModelSchottky.
Import ListNotations.
Local Open Scope R_scope.

(** Inversions.py:39-40 *)
Definition inv_start : res (list circle) :=
  let! l := mapM (fun beta => Circle_init (cos beta, sin beta) 1) [0; PI / 2; PI; 3 * PI / 2] in
  let! c := Circle_init (0, 0) 2 in
  Ok (l ++ [c]).

(** Inversions.py:50-51, 65-70: inversion on a circle of the first generation.  [invert_line] never
    returns [None] (C34); what would come next is not modelled. *)
Definition invert_on (circ : circle) (G : gcircle) : res gcircle :=
  let iota := mkInv (cO circ) (cr circ ^ 2) in
  match G with
  | GC c => invert_circle iota c
  | GL l =>
      let! o := invert_line iota l in
      match o with
      | Some g => Ok g
      | None => Raise AttributeError
      end
  end.

(** Inversions.py:47-52, 61-71, 80-90: the loops of a generation; an object comes with the index of
    the last inversion.  In generation 0 this index is that of the circle itself (the test [i != j]
    of line 49). *)
Definition next_generation (start : list circle) (prev : list (gcircle * nat)) : res (list (gcircle * nat)) :=
  let! l := mapM (fun G => mapM (fun ci => let! g := invert_on (fst ci) (fst G) in Ok (g, snd ci))
                                (filter (fun ci => negb (Nat.eqb (snd G) (snd ci))) (combine start (seq 0 (length start))))) prev in
  Ok (concat l).

Fixpoint later_generations (start : list circle) (m : nat) (prev : list (gcircle * nat)) : res (list (list (gcircle * nat))) :=
  match m with
  | O => Ok []
  | S m =>
      let! g := next_generation start prev in
      let! rest := later_generations start m g in
      Ok (g :: rest)
  end.

Definition inv_generations (m : nat) : res (list (list (gcircle * nat))) :=
  let! start := inv_start in
  let gen0 := combine (map GC start) (seq 0 (length start)) in
  let! rest := later_generations start m gen0 in
  Ok (gen0 :: rest).

(** Inversions.py:93 *)
Definition gcircle_is_equal (g1 g2 : gcircle) : bool :=
  match g1, g2 with
  | GC c1, GC c2 => circle_is_equal c1 c2
  | GL l1, GL l2 => line_is_equal l1 l2
  | _, _ => false
  end.

(** Inversions.py:92-93, 7-17 *)
Definition inv_picture (m : nat) : res (list gcircle) :=
  let! gens := inv_generations m in
  Ok (unique_with gcircle_is_equal (map fst (concat gens))).
