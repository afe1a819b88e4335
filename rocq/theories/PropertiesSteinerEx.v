(** * C105: nested, elliptical and 3D Steiner chains of the examples *)

From Coq Require Import Reals Lra Lia List Bool ZArith.
From Verif Require Import Base Spec SpecTriangle SpecGasket SpecApollonian SpecSteinerEx ModelInternal ModelCircle ModelAffine ModelEllipse ModelInversion ModelApollonian ModelSteinerEx
  PSteinerEx1 PSteinerEx2 PSteinerEx3 PSteinerEx4 PSteinerEx5.
Import ListNotations.
Local Open Scope R_scope.

(** whatever is drawn is a closed chain in c0 and a closed chain in each of its circles *)
Theorem C105_nested c0 n phi shift n' phi' shift' blue c red :
  (3 <= n)%Z -> 0 < cr c0 -> Rabs phi < 1 -> (3 <= n')%Z -> Rabs phi' < 1 ->
  nested_drawn c0 n phi shift n' phi' shift' = Ok (blue, c, red) ->
  c = c0 /\ circle_nested c0 (Z.to_nat n) (Z.to_nat n') blue red.
Proof. intros Hn H0 H1 Hn' H1' H. exact (nested_ok _ _ _ _ _ _ _ _ _ _ Hn H0 H1 Hn' H1' H). Qed.
Print Assumptions C105_nested.

Theorem C105_total c0 n phi shift n' phi' shift' :
  (3 <= n)%Z -> 0 < cr c0 -> Rabs phi < 1 -> (3 <= n')%Z -> Rabs phi' < 1 ->
  steiner_safe (cr c0) phi -> steiner_safe (least_radius (cr c0) n phi) phi' ->
  exists blue red, nested_drawn c0 n phi shift n' phi' shift' = Ok (blue, c0, red) /\
    nested_chains c0 n phi shift n' phi' shift' = Ok (map GC blue, map (map GC) red).
Proof. exact (nested_total c0 n phi shift n' phi' shift'). Qed.
Print Assumptions C105_total.

(** the radii of a chain are between two bounds, which do not depend on the shift and which are
    reached by the first circle when the shift is 0 *)
Theorem C105_radii c0 n phi shift cs ell : (3 <= n)%Z -> 0 < cr c0 -> Rabs phi < 1 ->
  SteinerChain c0 n phi shift = Ok (map GC cs, ell) ->
  (forall i, (i < Z.to_nat n)%nat -> least_radius (cr c0) n phi <= cr (nth i cs c0) <= largest_radius (cr c0) n phi) /\
  (shift = 0 -> cr (nth 0 cs c0) = if Rle_dec 0 phi then largest_radius (cr c0) n phi else least_radius (cr c0) n phi).
Proof. exact (steiner_radii c0 n phi shift cs ell). Qed.
Print Assumptions C105_radii.

(** the animations are closed: the same frame after n steps of the first shift and n' of the second *)
Theorem C105_period c0 ell0 h n phi shift n' phi' shift' :
  nested_drawn c0 n phi (shift + IZR n) n' phi' (shift' - IZR n') = nested_drawn c0 n phi shift n' phi' shift' /\
  elliptical_chain c0 ell0 n phi (shift + IZR n) = elliptical_chain c0 ell0 n phi shift /\
  elliptical_nested c0 ell0 n phi (shift + IZR n) n' phi' (shift' - IZR n') = elliptical_nested c0 ell0 n phi shift n' phi' shift' /\
  scene3 c0 ell0 h n phi (shift + IZR n) = scene3 c0 ell0 h n phi shift /\
  nested_scene3 c0 ell0 h n phi (shift + IZR n) n' phi' (shift' - IZR n') = nested_scene3 c0 ell0 h n phi shift n' phi' shift'.
Proof. exact (all_period c0 ell0 h n phi shift n' phi' shift'). Qed.
Print Assumptions C105_period.

(** an integer more in the shifts gives the same circles in another order *)
Theorem C105_same_picture c0 n phi shift n' phi' shift' (k k' : Z) blue red :
  (3 <= n)%Z -> 0 < cr c0 -> Rabs phi < 1 -> (3 <= n')%Z -> Rabs phi' < 1 ->
  nested_drawn c0 n phi shift n' phi' shift' = Ok (blue, c0, red) ->
  exists blue' red', nested_drawn c0 n phi (shift + IZR k) n' phi' (shift' + IZR k') = Ok (blue', c0, red') /\
    (forall c, In c blue' <-> In c blue) /\ (forall c, In c (concat red') <-> In c (concat red)).
Proof. exact (nested_same c0 n phi shift n' phi' shift' k k' blue red). Qed.
Print Assumptions C105_same_picture.

(** the ellipses drawn are ell0 scaled by the radii of the circles, and they are a closed chain in ell0 *)
Theorem C105_elliptical c0 ell0 n phi shift es : (3 <= n)%Z -> 0 < cr c0 -> Rabs phi < 1 -> 0 < ea ell0 /\ 0 < eb ell0 ->
  elliptical_chain c0 ell0 n phi shift = Ok es ->
  exists cs ell, SteinerChain c0 n phi shift = Ok (map GC cs, ell) /\
    Forall2 (fun c e => scaled_copy (cr c / cr c0) ell0 e) cs es /\
    exists chain inner, es = chain ++ [inner] /\ ell_chain ell0 (Z.to_nat n) chain inner.
Proof. intros Hn H0 H1 He H. exact (elliptical_ok c0 ell0 n phi Hn H0 H1 He shift es H). Qed.
Print Assumptions C105_elliptical.

Theorem C105_elliptical_total c0 ell0 n phi shift : (3 <= n)%Z -> 0 < cr c0 -> Rabs phi < 1 -> 0 < ea ell0 /\ 0 < eb ell0 ->
  steiner_safe (cr c0) phi -> exists es, elliptical_chain c0 ell0 n phi shift = Ok es.
Proof. intros Hn H0 H1 He S. exact (elliptical_total c0 ell0 n phi Hn H0 H1 He shift S). Qed.
Print Assumptions C105_elliptical_total.

Theorem C105_elliptical_nested c0 ell0 n phi shift n' phi' shift' blue red :
  (3 <= n)%Z -> 0 < cr c0 -> Rabs phi < 1 -> 0 < ea ell0 /\ 0 < eb ell0 -> (3 <= n')%Z -> Rabs phi' < 1 ->
  elliptical_nested c0 ell0 n phi shift n' phi' shift' = Ok (blue, red) ->
  exists cblue cred, nested_drawn c0 n phi shift n' phi' shift' = Ok (cblue, c0, cred) /\
    Forall2 (fun c e => scaled_copy (cr c / cr c0) ell0 e) cblue blue /\
    Forall2 (Forall2 (fun c e => scaled_copy (cr c / cr c0) ell0 e)) cred red /\
    ell_nested ell0 (Z.to_nat n) (Z.to_nat n') blue red.
Proof. intros Hn H0 H1 He Hn' H1' H. exact (elliptical_nested_ok c0 ell0 n phi Hn H0 H1 He n' phi' Hn' H1' shift shift' blue red H). Qed.
Print Assumptions C105_elliptical_nested.

Theorem C105_elliptical_nested_total c0 ell0 h n phi shift n' phi' shift' :
  (3 <= n)%Z -> 0 < cr c0 -> Rabs phi < 1 -> 0 < ea ell0 /\ 0 < eb ell0 -> (3 <= n')%Z -> Rabs phi' < 1 ->
  steiner_safe (cr c0) phi -> steiner_safe (least_radius (cr c0) n phi) phi' ->
  (exists r, elliptical_nested c0 ell0 n phi shift n' phi' shift' = Ok r) /\ (exists r, nested_scene3 c0 ell0 h n phi shift n' phi' shift' = Ok r) /\
  (exists r, scene3 c0 ell0 h n phi shift = Ok r).
Proof.
  intros Hn H0 H1 He Hn' H1' S S'.
  exact (conj (elliptical_nested_total c0 ell0 n phi Hn H0 H1 He n' phi' Hn' H1' shift shift' S S')
        (conj (nested_scene3_total c0 ell0 n phi Hn H0 H1 He n' phi' Hn' H1' h shift shift' S S') (scene3_total c0 ell0 n phi Hn H0 H1 He h shift S))).
Qed.
Print Assumptions C105_elliptical_nested_total.

(** in 3D the transformed spheres are ellipsoids over the ellipses of the plane chain, in a closed
    chain in the ellipsoid over ell0; the camera looks at the centre of the middle one *)
Theorem C105_solids c0 ell0 h n phi shift Center spheres Tr :
  (3 <= n)%Z -> 0 < cr c0 -> Rabs phi < 1 -> 0 < ea ell0 /\ 0 < eb ell0 -> 0 < h ->
  scene3 c0 ell0 h n phi shift = Ok (Center, spheres, Tr) ->
  exists sols, elliptical_chain c0 ell0 n phi shift = Ok (map fst sols) /\
    Forall2 (fun s so => sphere_image (transform3 Tr) (sO s) (sr s) so) spheres sols /\
    exists chain inner, sols = chain ++ [inner] /\ sol_chain (ell0, h * cr c0) (Z.to_nat n) chain inner /\ Center = (eO (fst inner), 0).
Proof. intros Hn H0 H1 He Hh H. exact (scene3_ok c0 ell0 n phi Hn H0 H1 He h shift Center spheres Tr Hh H). Qed.
Print Assumptions C105_solids.

Theorem C105_homogeneous c0 ell0 h n phi shift n' phi' shift' :
  (forall Center spheres Tr, scene3 c0 ell0 h n phi shift = Ok (Center, spheres, Tr) -> homogeneous Tr) /\
  (forall Center spheres Tr, nested_scene3 c0 ell0 h n phi shift n' phi' shift' = Ok (Center, spheres, Tr) -> homogeneous Tr).
Proof. exact (homogeneous_ok c0 ell0 h n phi shift n' phi' shift'). Qed.
Print Assumptions C105_homogeneous.

Theorem C105_nested_solids c0 ell0 h n phi shift n' phi' shift' Center spheres Tr :
  (3 <= n)%Z -> 0 < cr c0 -> Rabs phi < 1 -> 0 < ea ell0 /\ 0 < eb ell0 -> (3 <= n')%Z -> Rabs phi' < 1 -> 0 < h ->
  nested_scene3 c0 ell0 h n phi shift n' phi' shift' = Ok (Center, spheres, Tr) ->
  exists big small, elliptical_nested c0 ell0 n phi shift n' phi' shift' = Ok (map fst big, map (map fst) small) /\
    Forall2 (Forall2 (fun s so => sphere_image (transform3 Tr) (sO s) (sr s) so)) spheres small /\
    sol_nested (ell0, h * cr c0) (Z.to_nat n) (Z.to_nat n') big small /\ Center = (eO (last (map fst big) ell0), 0).
Proof. intros Hn H0 H1 He Hn' H1' Hh H. exact (nested_scene3_ok c0 ell0 n phi Hn H0 H1 He n' phi' Hn' H1' h shift shift' Center spheres Tr Hh H). Qed.
Print Assumptions C105_nested_solids.

(** the point the camera looks at is the same in every frame of the animations *)
Theorem C105_center c0 ell0 h n phi n' phi' s1 s1' s2 s2' C1 C2 T1 T2 : (3 <= n)%Z -> 0 < cr c0 -> Rabs phi < 1 -> 0 < ea ell0 /\ 0 < eb ell0 ->
  (forall p1 p2, scene3 c0 ell0 h n phi s1 = Ok (C1, p1, T1) -> scene3 c0 ell0 h n phi s2 = Ok (C2, p2, T2) -> C1 = C2 /\ T1 = T2) /\
  (forall p1 p2, nested_scene3 c0 ell0 h n phi s1 n' phi' s1' = Ok (C1, p1, T1) -> nested_scene3 c0 ell0 h n phi s2 n' phi' s2' = Ok (C2, p2, T2) -> C1 = C2 /\ T1 = T2).
Proof.
  intros Hn H0 H1 He.
  exact (conj (fun p1 p2 => scene3_center c0 ell0 n phi Hn H0 H1 He h s1 s2 C1 C2 p1 p2 T1 T2)
              (fun p1 p2 => nested_scene3_center c0 ell0 n phi Hn H0 H1 He n' phi' h s1 s1' s2 s2' C1 C2 p1 p2 T1 T2)).
Qed.
Print Assumptions C105_center.

(** the ellipse drawn over the chain: a hundred points at which, as at the centres of the circles, the
    sum of the distances to the centres of c0 and of the circle in the middle is the sum of their radii *)
Theorem C105_with_ellipse c0 n phi shift cs path : (3 <= n)%Z -> 0 < cr c0 -> Rabs phi < 1 ->
  chain_with_ellipse c0 n phi shift = Ok (cs, path) ->
  exists chain inner, cs = chain ++ [inner] /\ circle_chain c0 (Z.to_nat n) chain inner /\ length path = 100%nat /\ NoDup path /\
    (forall M, In M path -> dist (cO c0) M + dist (cO inner) M = cr c0 + cr inner) /\
    (forall c, In c chain -> dist (cO c0) (cO c) + dist (cO inner) (cO c) = cr c0 + cr inner).
Proof. exact (with_ellipse_ok c0 n phi shift cs path). Qed.
Print Assumptions C105_with_ellipse.

(** the values of the programs: every frame is drawn *)
Theorem C105_scripts : let c0 := mkCircle (3, 0) 3 in let c1 := mkCircle (7, 0) 3 in let e0 := mkEllipse (-4, 0) 4 (5 / 2) 140 true in let e1 := mkEllipse (0, 0) 4 (5 / 2) 140 true in
  forall shift shift',
  (exists blue red, nested_drawn c0 3 (- (1 / 2)) shift 3 (- (2 / 5)) shift' = Ok (blue, c0, red)) /\
  (exists es, elliptical_chain c0 e0 3 (- (1 / 5)) shift = Ok es) /\
  (forall h, exists s, scene3 c0 e0 h 3 (- (1 / 5)) shift = Ok s) /\
  (exists es, elliptical_nested c1 e1 3 (- (3 / 20)) shift 3 (- (2 / 5)) shift' = Ok es) /\
  (exists s, nested_scene3 c1 e1 (3 / 4) 3 (- (3 / 20)) shift 3 (- (2 / 5)) shift' = Ok s) /\
  (exists s, nested_scene3 c1 e1 (3 / 4) 5 (- (3 / 20)) shift 3 (- (2 / 5)) shift' = Ok s) /\
  (exists s, nested_scene3 c1 e1 (3 / 4) 5 (- (3 / 20)) shift 3 (- (1 / 5)) shift' = Ok s) /\
  (exists s, chain_with_ellipse c0 3 (3 / 5) shift = Ok s).
Proof. exact scripts_ok. Qed.
Print Assumptions C105_scripts.

(** EllipticalNestedSteinerChains.py meets the hypotheses *)
Example C105_example : let c1 := mkCircle (7, 0) 3 in let e1 := mkEllipse (0, 0) 4 (5 / 2) 140 true in
  (3 <= 3)%Z /\ 0 < cr c1 /\ Rabs (- (3 / 20)) < 1 /\ (0 < ea e1 /\ 0 < eb e1) /\ Rabs (- (2 / 5)) < 1 /\
  exists es, elliptical_nested c1 e1 3 (- (3 / 20)) (1 / 5) 3 (- (2 / 5)) (- (1 / 5)) = Ok es.
Proof.
  destruct (C105_scripts (1 / 5) (- (1 / 5))) as (_ & _ & _ & H & _). cbn [cr ea eb] in *.
  split; [lia|]. split; [lra|]. split; [small|]. split; [lra|]. split; [small|]. exact H.
Qed.
