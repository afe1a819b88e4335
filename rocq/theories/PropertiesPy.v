(** * Validation of arguments: C73.  Every proof is one line; the work is in PPy.v. *)

From Coq Require Import Reals List Bool ZArith Lra.
From Verif Require Import Base BaseLemmas ModelLine ModelCircle ModelEllipse ModelTransfo ModelPy SpecPy PPy.
Import ListNotations.
Local Open Scope R_scope.

(** ** C73, what the constructors accept *)
Theorem C73_circle center radius :
  outcome (Circle_py center radius) ((exists p, point_arg center p) /\ pos_arg radius) (huge center)
    (fun o => point_arg center (pcO o) /\ pcr o = radius).
Proof. exact (Circle_py_spec center radius). Qed.
Print Assumptions C73_circle.

Theorem C73_line A B extendA extendB :
  (forall o, Line_py A B extendA extendB = Ok o <->
     exists p q, point_arg A p /\ point_arg B q /\ ~ huge A /\ ~ huge B /\ ~ (xclose_spec (fst p) (fst q) /\ xclose_spec (snd p) (snd q)) /\
       o = mkPLine p q extendA extendB) /\
  (forall e, Line_py A B extendA extendB = Raise e <->
     (~ ((exists p, point_arg A p) /\ (exists q, point_arg B q)) /\ e = ValueError) \/
     (exists p q, point_arg A p /\ point_arg B q /\ ~ huge A /\ ~ huge B /\ xclose_spec (fst p) (fst q) /\ xclose_spec (snd p) (snd q) /\ e = ValueError) \/
     (exists p q, point_arg A p /\ point_arg B q /\ (huge A \/ huge B) /\ e = OverflowError)).
Proof. exact (Line_py_spec A B extendA extendB). Qed.
Print Assumptions C73_line.

Theorem C73_arc center radius alpha1 alpha2 degrees :
  outcome (Arc_py center radius alpha1 alpha2 degrees)
    ((exists p, point_arg center p) /\ pos_arg radius /\ num_arg alpha1 /\ num_arg alpha2 /\ bool_arg degrees) (huge center)
    (fun o => point_arg center (paO o) /\ par o = radius /\ pa1 o = alpha1 /\ pa2 o = alpha2 /\ padeg o = degrees).
Proof. exact (Arc_py_spec center radius alpha1 alpha2 degrees). Qed.
Print Assumptions C73_arc.

Theorem C73_ellipse center rmajor rminor alpha degrees :
  outcome (Ellipse_py center rmajor rminor alpha degrees)
    ((exists p, point_arg center p) /\ pos_arg rmajor /\ pos_arg rminor /\ num_arg alpha /\ bool_arg degrees) (huge center)
    (fun o => point_arg center (peO o) /\ pea o = rmajor /\ peb o = rminor /\ pealpha o = alpha /\ pedeg o = degrees).
Proof. exact (Ellipse_py_spec center rmajor rminor alpha degrees). Qed.
Print Assumptions C73_ellipse.

Theorem C73_inversion pole power :
  outcome (Inversion_py pole power) ((exists p, point_arg pole p) /\ num_arg power) (huge pole)
    (fun o => point_arg pole (ppP o) /\ ppn1 o = power).
Proof. exact (Inversion_py_spec pole power). Qed.
Print Assumptions C73_inversion.

Theorem C73_homothety center scale :
  outcome (Homothety_py center scale) ((exists p, point_arg center p) /\ num_arg scale) (huge center)
    (fun o => point_arg center (ppP o) /\ ppn1 o = scale).
Proof. exact (Homothety_py_spec center scale). Qed.
Print Assumptions C73_homothety.

Theorem C73_triangle A B C :
  outcome (Triangle_py A B C) ((exists p, point_arg A p) /\ (exists p, point_arg B p) /\ (exists p, point_arg C p)) (huge A \/ huge B \/ huge C)
    (fun o => point_arg A (ptA o) /\ point_arg B (ptB o) /\ point_arg C (ptC o)).
Proof. exact (Triangle_py_spec A B C). Qed.
Print Assumptions C73_triangle.

Theorem C73_rotation center theta degrees :
  outcome (Rotation_py center theta degrees) ((exists p, point_arg center p) /\ num_arg theta /\ bool_arg degrees) (huge center)
    (fun o => point_arg center (prO o) /\ prtheta o = theta /\ prdeg o = degrees).
Proof. exact (Rotation_py_spec center theta degrees). Qed.
Print Assumptions C73_rotation.

Theorem C73_shear vertex vector ratio angle degrees :
  outcome (Shear_py vertex vector ratio angle degrees)
    ((exists p, point_arg vertex p) /\ (exists p, point_arg vector p) /\ pos_arg ratio /\ bool_arg degrees /\
     (degrees = VBool true -> angle_arg angle 90) /\ (degrees = VBool false -> angle_arg angle (PI / 2)))
    (huge vertex \/ huge vector)
    (fun o => point_arg vertex (psQ o) /\ point_arg vector (psw o) /\ psratio o = ratio /\ psangle o = angle /\ psdeg o = degrees).
Proof. exact (Shear_py_spec vertex vector ratio angle degrees). Qed.
Print Assumptions C73_shear.

Theorem C73_scalingxy center sx sy :
  outcome (ScalingXY_py center sx sy) ((exists p, point_arg center p) /\ num_arg sx /\ num_arg sy) (huge center)
    (fun o => point_arg center (pxyO o) /\ pxysx o = sx /\ pxysy o = sy).
Proof. exact (ScalingXY_py_spec center sx sy). Qed.
Print Assumptions C73_scalingxy.

Theorem C73_scaling center direction scale :
  outcome (Scaling_py center direction scale) ((exists p, point_arg center p) /\ (exists p, point_arg direction p) /\ num_arg scale)
    (huge center \/ huge direction)
    (fun o => point_arg center (pscO o) /\ point_arg direction (pscw o) /\ pscs o = scale).
Proof. exact (Scaling_py_spec center direction scale). Qed.
Print Assumptions C73_scaling.

(** an accepted radius need not be positive: nan *)
Theorem C73_accepted_radius_positive_refuted : exists center radius c, Circle_py center radius = Ok c /\
  ~ (exists x, real_number radius x /\ (x = PInf \/ exists r, x = Fin r /\ 0 < r)).
Proof. exact nan_radius. Qed.
Print Assumptions C73_accepted_radius_positive_refuted.

(** on finite numbers the constructors are those of the models over the real numbers *)
Theorem C73_circle_agrees center radius x y r : point_arg center (Fin x, Fin y) -> ~ huge center -> real_number radius (Fin r) ->
  Circle_py center radius = match Circle_init (x, y) r with Ok _ => Ok (mkPCircle (Fin x, Fin y) radius) | Raise e => Raise e end.
Proof. exact (Circle_py_agrees center radius x y r). Qed.
Print Assumptions C73_circle_agrees.

Theorem C73_line_agrees A B eA eB x y x' y' (b c : bool) : point_arg A (Fin x, Fin y) -> point_arg B (Fin x', Fin y') -> ~ huge A -> ~ huge B ->
  Line_py A B eA eB = match Line_init (x, y) (x', y') b c with Ok _ => Ok (mkPLine (Fin x, Fin y) (Fin x', Fin y') eA eB) | Raise e => Raise e end.
Proof. exact (Line_py_agrees A B eA eB x y x' y' b c). Qed.
Print Assumptions C73_line_agrees.

Theorem C73_ellipse_agrees center rmajor rminor alpha (d : bool) x y a b t : point_arg center (Fin x, Fin y) -> ~ huge center ->
  real_number rmajor (Fin a) -> real_number rminor (Fin b) -> real_number alpha (Fin t) ->
  Ellipse_py center rmajor rminor alpha (VBool d) =
  match Ellipse_init (x, y) a b t d with Ok _ => Ok (mkPEllipse (Fin x, Fin y) rmajor rminor alpha (VBool d)) | Raise e => Raise e end.
Proof. exact (Ellipse_py_agrees center rmajor rminor alpha d x y a b t). Qed.
Print Assumptions C73_ellipse_agrees.

Theorem C73_arc_agrees center radius alpha1 alpha2 (d : bool) x y r t1 t2 : point_arg center (Fin x, Fin y) -> ~ huge center ->
  real_number radius (Fin r) -> real_number alpha1 (Fin t1) -> real_number alpha2 (Fin t2) ->
  Arc_py center radius alpha1 alpha2 (VBool d) =
  match Arc_init (x, y) r t1 t2 d with Ok _ => Ok (mkPArc (Fin x, Fin y) radius alpha1 alpha2 (VBool d)) | Raise e => Raise e end.
Proof. exact (Arc_py_agrees center radius alpha1 alpha2 d x y r t1 t2). Qed.
Print Assumptions C73_arc_agrees.

Theorem C73_shear_agrees vertex vector ratio angle (d : bool) x y x' y' r t : point_arg vertex (Fin x, Fin y) -> point_arg vector (Fin x', Fin y') ->
  ~ huge vertex -> ~ huge vector -> real_number ratio (Fin r) -> real_number angle (Fin t) ->
  Shear_py vertex vector ratio angle (VBool d) =
  match Shear_init (x, y) (x', y') r t d with Ok _ => Ok (mkPShear (Fin x, Fin y) (Fin x', Fin y') ratio angle (VBool d)) | Raise e => Raise e end.
Proof. exact (Shear_py_agrees vertex vector ratio angle d x y x' y' r t). Qed.
Print Assumptions C73_shear_agrees.

(** arguments which are a point or infinity ([None] stands for infinity): both infinities are accepted *)
Theorem C73_point_or_infinity M r : ept_arg M = Ok r <->
  (r = None /\ (M = VFloat PInf \/ M = VFloat NInf)) \/
  (exists a b p, r = Some [a; b] /\ pair_of M a b /\ real_number a (fst p) /\ real_number b (snd p)).
Proof. exact (ept_arg_spec M r). Qed.
Print Assumptions C73_point_or_infinity.

Theorem C73_point_or_infinity_raise M e : ept_arg M = Raise e <->
  e = ValueError /\ ~ (exists p, point_arg M p) /\ M <> VFloat PInf /\ M <> VFloat NInf.
Proof. exact (ept_arg_raise M e). Qed.
Print Assumptions C73_point_or_infinity_raise.

(** numbers of points: positive Python integers, and True *)
Theorem C73_number_of_points v n : int_arg v = Ok n <-> (0 < n)%Z /\ (v = VInt n \/ (v = VBool true /\ n = 1%Z)).
Proof. exact (int_arg_Ok v n). Qed.
Print Assumptions C73_number_of_points.

Theorem C73_number_of_points_raise v e : int_arg v = Raise e -> e = ValueError.
Proof. exact (int_arg_raise v e). Qed.
Print Assumptions C73_number_of_points_raise.

Example C73_example_circle : Circle_py (VList [VInt 3; VFloat (Fin (1 / 2))]) (VInt 2) = Ok (mkPCircle (Fin 3, Fin (1 / 2)) (VInt 2)).
Proof. exact ex_circle_ok. Qed.

Example C73_example_circle_bool : Circle_py (VTuple [VInt 3; VBool true]) (VBool true) = Ok (mkPCircle (Fin 3, Fin 1) (VBool true)).
Proof. exact ex_circle_bool. Qed.

Example C73_example_circle_complex : Circle_py (VTuple [VInt 3; VComplex (Fin 1) (Fin 0)]) (VInt 1) = Raise ValueError.
Proof. reflexivity. Qed.

Example C73_example_circle_three : Circle_py (VTuple [VInt 3; VInt 1; VInt 2]) (VInt 1) = Raise ValueError.
Proof. reflexivity. Qed.

Example C73_example_circle_radius : Circle_py (VTuple [VInt 3; VInt 1]) (VInt 0) = Raise ValueError.
Proof. reflexivity. Qed.

Example C73_example_line_huge : Line_py (VTuple [VInt (10 ^ 400); VInt 0]) (VTuple [VInt 0; VInt 0]) VNone (VStr 0) = Raise OverflowError.
Proof. reflexivity. Qed.

Example C73_example_line : Line_py (VArray1 [VFloat NaN; VFloat (Fin 0)]) (VTuple [VInt 0; VInt 0]) VNone (VStr 0) =
  Ok (mkPLine (NaN, Fin 0) (Fin 0, Fin 0) VNone (VStr 0)).
Proof. reflexivity. Qed.

Example C73_example_degrees : Rotation_py (VTuple [VInt 0; VInt 0]) (VInt 45) (VNpBool true) = Raise ValueError.
Proof. reflexivity. Qed.

Example C73_example_infinity : ept_arg (VFloat NInf) = Ok None /\ ept_arg (VNpReal PInf) = Raise ValueError.
Proof. split; reflexivity. Qed.
