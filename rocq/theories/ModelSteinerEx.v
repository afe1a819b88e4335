(** * Model of the examples on Steiner chains: NestedSteinerChains.py,
    NestedSteinerChains_animation.py, EllipticalSteinerChain.py, EllipticalSteinerChain_animation.py,
    EllipticalSteinerChain3D.py, EllipticalSteinerChain3D_animation.py,
    EllipticalNestedSteinerChains.py, EllipticalNestedSteinerChains_animation.py,
    EllipticalNestedSteinerChains3D_animation.py, ..._animation2.py, ..._animation3.py and
    SteinerChainWithEllipse.py.
    The circles, the ellipses and the spheres given to the plotting libraries are modelled, with the
    matrix applied to the spheres; windows, colours, cameras and image files are not. *)

From Coq Require Import Reals List Bool ZArith.
From Verif Require Import Base ModelInternal ModelLine ModelCircle ModelTriangle ModelAffine ModelEllipse ModelTransfo ModelInversion ModelApollonian.
Import ListNotations.
Local Open Scope R_scope.

(** NestedSteinerChains.py:7-9, NestedSteinerChains_animation.py:15-17: [circles] and [chains], the
    chain of every circle of [circles[:n]].  A line has no attribute [radius] (as [drawn]). *)
Definition nested_chains (c0 : circle) (n : Z) (phi shift : R) (n' : Z) (phi' shift' : R) : res (list gcircle * list (list gcircle)) :=
  let! (circles, _) := SteinerChain c0 n phi shift in
  let! chains := mapM (fun g => let! c := drawn g in
                                let! (cs, _) := SteinerChain c n' phi' shift' in Ok cs) (firstn (Z.to_nat n) circles) in
  Ok (circles, chains).

(** lines 13-18, [draw_circle]: the centre and the radius of everything drawn: [circles], [c0],
    then the nested chains.  A line has no attribute [center]. *)
Definition nested_drawn (c0 : circle) (n : Z) (phi shift : R) (n' : Z) (phi' shift' : R) : res (list circle * circle * list (list circle)) :=
  let! (circles, chains) := nested_chains c0 n phi shift n' phi' shift' in
  let! blue := mapM drawn circles in
  let! red := mapM (mapM drawn) chains in
  Ok (blue, c0, red).

(** [f.transform_ellipse(c)], then [.path()] or [.center]: None has no such attribute, a line has
    no attribute [equation] *)
Definition image_ellipse (f : affine) (g : gcircle) : res ellipse :=
  let! c := drawn g in
  let! e := affine_transform_ellipse f (ACircle c) in
  match e with
  | None => Raise AttributeError
  | Some e => Ok e
  end.

(** EllipticalSteinerChain.py:8-12, EllipticalSteinerChain_animation.py:9-16 *)
Definition elliptical_chain (c0 : circle) (ell0 : ellipse) (n : Z) (phi shift : R) : res (list ellipse) :=
  let! f := from_ellipse_to_ellipse (ACircle c0) (AEllipse ell0) in
  let! (circles, _) := SteinerChain c0 n phi shift in
  mapM (image_ellipse f) circles.

(** EllipticalNestedSteinerChains.py:8-12, 26 and 29, EllipticalNestedSteinerChains_animation.py:18-26,
    30 and 33-35 *)
Definition elliptical_nested (c0 : circle) (ell0 : ellipse) (n : Z) (phi shift : R) (n' : Z) (phi' shift' : R) :
    res (list ellipse * list (list ellipse)) :=
  let! f := from_ellipse_to_ellipse (ACircle c0) (AEllipse ell0) in
  let! (circles, chains) := nested_chains c0 n phi shift n' phi' shift' in
  let! blue := mapM (image_ellipse f) circles in
  let! red := mapM (mapM (image_ellipse f)) chains in
  Ok (blue, red).

(** ** Matrices and spheres in dimension 3 *)

(** [np.vstack], [np.hstack] of matrices given by their rows, [np.column_stack] of two vectors *)
Definition vstack (a b : list (list R)) : list (list R) := a ++ b.
Definition hstack (a b : list (list R)) : list (list R) := map (fun rr => fst rr ++ snd rr) (combine a b).
Definition column_stack (u v : list R) : list (list R) := map (fun xy => [fst xy; snd xy]) (combine u v).

(** EllipticalSteinerChain3D.py:10-20 with h = 1/3, EllipticalSteinerChain3D_animation.py:12-22 with
    h = 0.5, EllipticalNestedSteinerChains3D_animation.py:12-22 with h = 0.75 *)
Definition mat_Tr (f : affine) (h : R) : list (list R) :=
  hstack (vstack [[m11 (afA f); m12 (afA f)]; [m21 (afA f); m22 (afA f)]] [[0; 0]; [0; 0]])
         (column_stack [0; 0; h; 0] [fst (afb f); snd (afb f); 0; 1]).

(** a point of the space: a point of the horizontal plane and a height *)
Definition pt3 := (pt * R)%type.

(** pyvista's [mesh.transform(Tr)]: the first three coordinates of Tr (x, y, z, 1) *)
Definition row_dot (row v : list R) : R := fold_right Rplus 0 (map (fun xy => fst xy * snd xy) (combine row v)).
Definition transform3 (Tr : list (list R)) (P : pt3) : pt3 :=
  let v := [fst (fst P); snd (fst P); snd P; 1] in
  ((row_dot (nth 0 Tr []) v, row_dot (nth 1 Tr []) v), row_dot (nth 2 Tr []) v).

(** [pv.Sphere(radius, center)] *)
Record sphere := mkSphere { sO : pt3; sr : R }.

(** EllipticalSteinerChain3D.py:26-38, EllipticalSteinerChain3D_animation.py:26-40: [Center], the
    spheres and the matrix of their transformation *)
Definition sphere_of (g : gcircle) : res sphere := let! c := drawn g in Ok (mkSphere (cO c, 0) (cr c)).
Definition scene3 (c0 : circle) (ell0 : ellipse) (h : R) (n : Z) (phi shift : R) : res (pt3 * list sphere * list (list R)) :=
  let! f := from_ellipse_to_ellipse (ACircle c0) (AEllipse ell0) in
  let! (circles, _) := SteinerChain c0 n phi shift in
  let! e := image_ellipse f (last circles (GC c0)) in
  let! spheres := mapM sphere_of circles in
  Ok ((eO e, 0), spheres, mat_Tr f h).

(** EllipticalNestedSteinerChains3D_animation.py:36-51 (and _animation2, _animation3): the spheres of
    the nested chains only *)
Definition nested_scene3 (c0 : circle) (ell0 : ellipse) (h : R) (n : Z) (phi shift : R) (n' : Z) (phi' shift' : R) :
    res (pt3 * list (list sphere) * list (list R)) :=
  let! f := from_ellipse_to_ellipse (ACircle c0) (AEllipse ell0) in
  let! (circles, chains) := nested_chains c0 n phi shift n' phi' shift' in
  let! e := image_ellipse f (last circles (GC c0)) in
  let! spheres := mapM (mapM sphere_of) chains in
  Ok ((eO e, 0), spheres, mat_Tr f h).

(** SteinerChainWithEllipse.py:7-10 and 16-20: the circles drawn, the path of the ellipse (100 points) *)
Definition chain_with_ellipse (c0 : circle) (n : Z) (phi shift : R) : res (list circle * list pt) :=
  let! (circles, ellipse) := SteinerChain c0 n phi shift in
  let! path := ellipse_path ellipse 100 in
  let! cs := mapM drawn circles in
  Ok (cs, path).
