(** * Model of class [Line] and [intersection_line_line] (geometry.py:54-353). *)

From Coq Require Import Reals List Bool.
From Verif Require Import Base ModelInternal.
Local Open Scope R_scope.

(** geometry.py:54-68, attributes of a Line *)
Record line := mkLine { lA : pt; lB : pt; lextA : bool; lextB : bool }.

(** geometry.py:60-68 [Line.__init__] on two points (argument validation is
    modelled in ModelPy.v) *)
Definition Line_init (A B : pt) (extendA extendB : bool) : res line :=
  if allclose A B then Raise ValueError
  else Ok (mkLine A B extendA extendB).

(** geometry.py:88-116 [direction_offset]: (direction, offset) *)
Definition direction_offset (l : line) : R * R :=
  let A := lA l in
  let B := lB l in
  if eqb (fst A) (fst B) then
    if ltb 0 (fst A) then (0, fst A) else (PI, - fst A)
  else
    let x := fst B - fst A in
    let y := snd B - snd A in
    let theta := - atan2 x y in
    let offset := fst A * cos theta + snd A * sin theta in
    if ltb offset 0 then (pymod (theta + PI) (2 * PI), - offset)
    else (pymod theta (2 * PI), offset).

(** geometry.py:118-133 [is_equal] *)
Definition line_is_equal (l1 l2 : line) : bool :=
  let do1 := direction_offset l1 in
  let do2 := direction_offset l2 in
  if approx_equal_ (snd do1) (snd do2)
  then approx_equal_ (pymod (fst do1) PI) (pymod (fst do2) PI)
  else allclose do1 do2.

(** geometry.py:135-153 [is_parallel] *)
Definition is_parallel (l1 l2 : line) : bool :=
  let dx1 := fst (lA l1) - fst (lB l1) in
  let dx2 := fst (lA l2) - fst (lB l2) in
  let dy1 := snd (lA l1) - snd (lB l1) in
  let dy2 := snd (lA l2) - snd (lB l2) in
  let D := det2x2_ (dx1, dy1) (dx2, dy2) in
  ltb (Rabs D) sepsilon_.

(** geometry.py:155-166 [is_perpendicular] *)
Definition is_perpendicular (l1 l2 : line) : bool :=
  approx_equal_ (dot_ (vsub (lB l1) (lA l1)) (vsub (lB l2) (lA l2))) 0.

(** geometry.py:169-205 [includes] (the printed messages are not modelled) *)
Definition line_includes (l : line) (M : pt) (strict checkCollinear : bool) : res bool :=
  let A := lA l in
  let B := lB l in
  let rest (_ : unit) : res bool :=
    if negb strict || (lextA l && lextB l) then collinear_ A B M
    else if negb (lextA l) && negb (lextB l) then
      Ok (leb (dot_ (vsub A M) (vsub B M)) 0)
    else if lextA l then
      Ok (ltb 0 ((fst M - fst B) * (fst A - fst B)) || ltb 0 ((snd M - snd B) * (snd A - snd B)))
    else
      Ok (ltb 0 ((fst M - fst A) * (fst B - fst A)) || ltb 0 ((snd M - snd A) * (snd B - snd A))) in
  if checkCollinear then
    let! c := collinear_ A B M in
    if negb c then Ok false else rest tt
  else rest tt.

(** geometry.py:207-227 [perpendicular].  A [None] foot (parallel lines, which
    cannot happen) would be rejected by the Line constructor. *)
Definition perpendicular (l : line) (M : pt) (extendH extendM : bool) : res line :=
  let A := lA l in
  let B := lB l in
  let A_B := vsub B A in
  let v := (- snd A_B, fst A_B) in
  let! inc := line_includes l M false true in
  if inc then Line_init M (vadd M v) true true
  else match line_line_intersection_ A B (vsub M v) (vadd M v) with
       | Some H => Line_init H M extendH extendM
       | None => Raise ValueError
       end.

(** geometry.py:229-241 [projection] *)
Definition line_projection (l : line) (M : pt) : option pt :=
  let A := lA l in
  let B := lB l in
  let x := fst B - fst A in
  let y := snd B - snd A in
  let v := (- y, x) in
  line_line_intersection_ A B M (vadd M v).

(** geometry.py:243-252 [distance]; [None - M] is a TypeError *)
Definition line_distance (l : line) (M : pt) : res R :=
  match line_projection l M with
  | Some P => Ok (distance_ M P)
  | None => Raise TypeError
  end.

(** geometry.py:265-289 [rotate] *)
Definition line_rotate (l : line) (alpha : R) (O : pt) (degrees : bool) : res line :=
  let alpha := if degrees then alpha * (PI / 180) else alpha in
  let (cosalpha, sinalpha) := unit_vector_ alpha in
  let (x, y) := vsub (lA l) O in
  let RAt := (cosalpha * x - sinalpha * y, sinalpha * x + cosalpha * y) in
  let (x', y') := vsub (lB l) O in
  let RBt := (cosalpha * x' - sinalpha * y', sinalpha * x' + cosalpha * y') in
  Line_init (vadd RAt O) (vadd RBt O) (lextA l) (lextB l).

(** geometry.py:291-300 [translate] *)
Definition line_translate (l : line) (v : pt) : res line :=
  Line_init (vadd (lA l) v) (vadd (lB l) v) (lextA l) (lextB l).

(** geometry.py:342-353 [intersection_line_line]: [None] for equal or parallel
    lines, and always with [strict=True] ("TO DO") *)
Definition intersection_line_line (l1 l2 : line) (strict : bool) : option pt :=
  if line_is_equal l1 l2 then None
  else if is_parallel l1 l2 then None
  else
    let I := line_line_intersection_ (lA l1) (lB l1) (lA l2) (lB l2) in
    if negb strict then I else None.
