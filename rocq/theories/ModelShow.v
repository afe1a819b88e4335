(** * Model of the [show] methods.

    A call of [show] prints some lines and then returns or raises.  A printed line is the list of the arguments of
    [print]; how numbers are converted to characters is not modelled, and the newlines inside the literals are dropped. *)

From Coq Require Import Reals List Bool String.
From Verif Require Import Base ModelInternal ModelLine ModelCircle ModelEllipse ModelInversion ModelTriangle ModelAffine ModelTransfo ModelMobius.
Import ListNotations.
Local Open Scope R_scope.
Local Open Scope string_scope.

Inductive item :=
  | Str (s : string)
  | Num (x : R)
  | Boo (b : bool)
  | Tup (p : pt)        (* a tuple of two numbers *)
  | Arr (p : pt)        (* an array of two numbers *)
  | Mat (M : mat2)
  | MatC (M : mobius).

Record shown := mkShown { printed : list (list item); outcome : res unit }.

(** attribute lookup on a [Line] object (geometry.py:60-68); any other name raises *)
Definition line_attr (l : line) (name : string) : res item :=
  if String.eqb name "A" then Ok (Arr (lA l))
  else if String.eqb name "B" then Ok (Arr (lB l))
  else if String.eqb name "extendA" then Ok (Boo (lextA l))
  else if String.eqb name "extendB" then Ok (Boo (lextB l))
  else Raise AttributeError.

(** geometry.py:73-86 *)
Definition line_show (l : line) : shown :=
  mkShown [[Str "Line:"]; [Str "A: "; Tup (lA l)]; [Str "B: "; Tup (lB l)]; [Str "extendA: "; Boo (lextA l)]; [Str "extendB: "; Boo (lextB l)];
           [Str (if lextA l && lextB l then "Infinite line passing through A and B."
                 else if lextA l then "Half-line with origin B and passing through A."
                 else if lextB l then "Half-line with origin A and passing through B."
                 else "Segment joining A and B.")]] (Ok tt).

(** geometry.py:371-374 *)
Definition circle_show (c : circle) : shown :=
  mkShown [[Str "Circle:"]; [Str "center: "; Tup (cO c)]; [Str "radius: "; Num (cr c)]] (Ok tt).

(** geometry.py:964-971 *)
Definition ellipse_show (e : ellipse) : shown :=
  let unit := if edeg e then "degree" else "radian" in
  let s := if eqb (ealpha e) 1 then "" else "s" in
  mkShown [[Str "Ellipse:"]; [Str "center: "; Tup (eO e)]; [Str "major radius: "; Num (ea e)]; [Str "minor radius: "; Num (eb e)];
           [Str "angle: "; Num (ealpha e); Str (unit ++ s)]] (Ok tt).

(** geometry.py:1503-1506 *)
Definition inversion_show (i : inversion) : shown :=
  mkShown [[Str "Inversion:"]; [Str "pole: "; Tup (ipole i)]; [Str "power: "; Num (ipower i)]] (Ok tt).

(** geometry.py:1753-1762; [flatness] is computed after the vertices are printed *)
Definition triangle_show (T : triangle) : shown :=
  let head := [[Str "Triangle:"]; [Str "A: "; Tup (tA T)]; [Str "B: "; Tup (tB T)]; [Str "C: "; Tup (tC T)]] in
  match flatness T with
  | Raise e => mkShown head (Raise e)
  | Ok f =>
      if eqb f 1 then mkShown (head ++ [[Str "The triangle is flat."]])%list (Ok tt)
      else if ltb (99 / 100) f then mkShown (head ++ [[Str "The triangle is almost flat (flatness: "; Num f; Str ")."]])%list (Ok tt)
      else mkShown head (Ok tt)
  end.

(** geometry.py:2137-2140 *)
Definition affine_show (f : affine) : shown :=
  mkShown [[Str "Affine map Ax + b:"]; [Str "A: "; Mat (afA f)]; [Str "b: "; Arr (afb f)]] (Ok tt).

(** geometry.py:2327-2329 *)
Definition mobius_show (m : mobius) : shown :=
  mkShown [[Str "Mobius transformation:"]; [Str "M: "; MatC m]] (Ok tt).

(** print a list of labelled attributes, stopping at the first exception *)
Fixpoint print_all (done : list (list item)) (todo : list (string * res item)) : shown :=
  match todo with
  | [] => mkShown done (Ok tt)
  | (label, Ok x) :: todo => print_all (done ++ [[Str label; x]])%list todo
  | (_, Raise e) :: _ => mkShown done (Raise e)
  end.

(** geometry.py:2672-2675, the line of the reflection *)
Definition reflection_show (l : line) : shown :=
  print_all [[Str "Reflection with respect to the line passing through A and B."]] [("A: ", line_attr l "A"); ("B: ", line_attr l "B")].

(** geometry.py:2792-2799 *)
Definition projection_show (p : projection) : shown :=
  let s := print_all [[Str "Projection onto the line `D` passing through `A` and `B` parallel to the line `Delta` passing through `P` and `Q`."]]
             [("A: ", line_attr (pD p) "A"); ("B: ", line_attr (pD p) "B"); ("P: ", line_attr (pDelta p) "P"); ("Q: ", line_attr (pDelta p) "Q")] in
  match outcome s with
  | Raise _ => s
  | Ok _ => if porth p then mkShown (printed s ++ [[Str "This is an orthogonal projection."]])%list (Ok tt) else s
  end.

(** geometry.py:2869-2874 *)
Definition rotation_show (r : rotation) : shown :=
  let unit := if rdeg r then "degree" else "radian" in
  let s := if eqb (rtheta r) 1 then "" else "s" in
  mkShown [[Str "Rotation:"]; [Str "center: "; Tup (rO r)]; [Str "angle: "; Num (rtheta r); Str (unit ++ s)]] (Ok tt).

(** geometry.py:3068-3078 *)
Definition shear_show (s : shear) : shown :=
  let unit := if sdeg s then "degree" else "radian" in
  let pl := if eqb (sangle s) 1 || eqb (sangle s) 0 then "" else "s" in
  let r := sratio s in
  let (v1x, v1y) := sw s in
  let v2 := (- r * v1y, r * v1x) in
  mkShown [[Str "Shear:"]; [Str "vertex: "; Tup (sQ s)]; [Str "first vector: "; Tup (sw s)]; [Str "second vector: "; Tup v2];
           [Str "angle: "; Num (sangle s); Str (unit ++ pl)]] (Ok tt).

(** geometry.py:3154-3158 *)
Definition scalingxy_show (s : scalingxy) : shown :=
  mkShown [[Str "Axis scaling:"]; [Str "center: "; Tup (xyO s)]; [Str "scale factor x-axis: "; Num (xysx s)]; [Str "scale factor y-axis: "; Num (xysy s)]] (Ok tt).

(** geometry.py:3220-3223 *)
Definition homothety_show (h : homothety) : shown :=
  mkShown [[Str "Homothety:"]; [Str "center: "; Tup (hO h)]; [Str "scale: "; Num (hscale h)]] (Ok tt).

(** geometry.py:3312-3316 *)
Definition scaling_show (s : scaling) : shown :=
  mkShown [[Str "Scaling:"]; [Str "center: "; Tup (scO s)]; [Str "direction: "; Tup (scw s)]; [Str "scale: "; Num (scs s)]] (Ok tt).
