(** * Model of class [Ellipse] (geometry.py:939-1480) and of
    [intersection_ellipse_line] (geometry.py:823-854). *)

From Coq Require Import Reals List Bool ZArith.
From Verif Require Import Base ModelInternal ModelLine ModelCircle ModelAffine.
Import ListNotations.
Local Open Scope R_scope.

(** geometry.py:947-960: attributes; [rmajor >= rminor] is not enforced *)
Record ellipse := mkEllipse { eO : pt; ea : R; eb : R; ealpha : R; edeg : bool }.

(** geometry.py:947-960 on a point and numbers *)
Definition Ellipse_init (center : pt) (rmajor rminor alpha : R) (degrees : bool) : res ellipse :=
  if leb rmajor 0 then Raise ValueError
  else if leb rminor 0 then Raise ValueError
  else Ok (mkEllipse center rmajor rminor alpha degrees).

(** geometry.py:580-587 [Circle.as_ellipse] *)
Definition circle_as_ellipse (c : circle) : res ellipse := Ellipse_init (cO c) (cr c) (cr c) 0 true.

(** [alpha *= pi/180] if [degrees] *)
Definition ell_angle (e : ellipse) : R := if edeg e then ealpha e * (PI / 180) else ealpha e.

(** geometry.py:973-994 [is_equal] *)
Definition ellipse_is_equal (e1 e2 : ellipse) : bool :=
  let alpha1 := if edeg e1 then ealpha e1 else ealpha e1 * (180 / PI) in
  let alpha2 := if edeg e2 then ealpha e2 else ealpha e2 * (180 / PI) in
  allclose (eO e1) (eO e2) && allclose1 (ea e1) (ea e2) && allclose1 (eb e1) (eb e2)
  && allclose1 (pymod alpha1 180) (pymod alpha2 180).

(** geometry.py:996-1016 [path] *)
Definition ellipse_path (e : ellipse) (n_points : Z) : res (list pt) :=
  if (n_points <=? 0)%Z then Raise ValueError
  else
    let alpha := if edeg e then ealpha e * PI / 180 else ealpha e in
    Ok (map (fun t => ellipse_point_ t (eO e) (ea e) (eb e) alpha)
            (firstn (Z.to_nat n_points) (linspace 0 (2 * PI) (Z.to_nat n_points + 1)))).

(** geometry.py:1095-1122 [equation] *)
Definition conic := (R * R * R * R * R * R)%type.
Definition ellipse_equation (e : ellipse) : conic :=
  let a2 := ea e ^ 2 in
  let b2 := eb e ^ 2 in
  let alpha := ell_angle e in
  let x := fst (eO e) in
  let y := snd (eO e) in
  let sine := sin alpha in
  let cosine := cos alpha in
  let sine2 := sine * sine in
  let cosine2 := 1 - sine2 in
  let A := a2 * sine2 + b2 * cosine2 in
  let B := 2 * (b2 - a2) * sine * cosine in
  let C := a2 * cosine2 + b2 * sine2 in
  (A, B, C, - 2 * A * x - B * y, - B * x - 2 * C * y, A * x * x + B * x * y + C * y * y - a2 * b2).

(** the expression of geometry.py:1134 and 1147 *)
Definition conic_eval (k : conic) (P : pt) : R :=
  let '(A, B, C, D, E, F) := k in
  let (x, y) := P in
  A * x * x + B * x * y + C * y * y + D * x + E * y + F.

(** geometry.py:1124-1135 [includes] *)
Definition ellipse_includes (e : ellipse) (P : pt) : bool :=
  isclose 1 (conic_eval (ellipse_equation e) P + 1).

(** geometry.py:1137-1147 [contains] *)
Definition ellipse_contains (e : ellipse) (P : pt) : bool :=
  leb (conic_eval (ellipse_equation e) P) 0.

(** geometry.py:1149-1161 [shape_matrix]; numpy divisions *)
Definition shape_matrix (e : ellipse) : res mat2 :=
  let '(A, B, C, D, E, F) := ellipse_equation e in
  let X := mkM3 A (B / 2) (D / 2) (B / 2) C (E / 2) (D / 2) (E / 2) F in
  let! K := np_div (- det3 X) (A * C - B * B / 4) in
  if eqb K 0 then Raise NonFinite
  else Ok (mkM2 (A / K) (B / 2 / K) (B / 2 / K) (C / K)).

(** [1/tan(x)], idealised as cos x / sin x: no floating-point number is a pole of tan *)
Definition cot (x : R) : R := cos x / sin x.

(** geometry.py:1037-1069 [point_from_angle] on one angle.  For
    [theta_mod_2pi = 0] numpy computes [1/tan(0) = inf], [arctan2(a/b, inf) = 0]. *)
Definition ellipse_point_from_angle (e : ellipse) (theta : R) (degrees : bool) : pt :=
  let theta := if degrees then theta * (PI / 180) else theta in
  let theta_mod_2pi := pymod theta (2 * PI) in
  let sgn := if leb theta_mod_2pi sepsilon_ then 1 else -1 in
  let theta_eps := theta + sepsilon_ * sgn in
  let at2 := if eqb (sin theta_mod_2pi) 0 then 0 else atan2 (ea e / eb e) (cot theta_mod_2pi) in
  let t := at2 + theta_eps - pymod theta_eps PI in
  ellipse_point_ t (eO e) (ea e) (eb e) (ell_angle e).

(** geometry.py:1163-1178 [theta2t]; here [1/tan] is a Python division *)
Definition theta2t (e : ellipse) (theta : R) (degrees : bool) : res R :=
  let theta := if degrees then theta * (PI / 180) else theta in
  let theta_mod_2pi := pymod theta (2 * PI) in
  let sgn := if ltb theta_mod_2pi sepsilon_ then 1 else -1 in
  let theta_eps := theta + sgn * sepsilon_ in
  if eqb (sin theta_mod_2pi) 0 then Raise ZeroDivisionError
  else Ok (atan2 (ea e / eb e) (cot theta_mod_2pi) + theta_eps - pymod theta_eps PI).

(** geometry.py:1071-1093 [normal] *)
Definition ellipse_normal (e : ellipse) (t : R) : pt :=
  let cosalpha := cos (ell_angle e) in
  let sinalpha := sin (ell_angle e) in
  let x := - ea e * sin t in
  let y := eb e * cos t in
  let v := (sinalpha * x + cosalpha * y, - cosalpha * x + sinalpha * y) in
  vscal (/ vlength_ v) v.

(** geometry.py:1180-1203 [diameter]: one line, or two if [conjugate] *)
Definition ellipse_diameter (e : ellipse) (t : R) (conjugate : bool) : res (list line) :=
  let p (s : R) := ellipse_point_ s (eO e) (ea e) (eb e) (ell_angle e) in
  let! l := Line_init (p t) (p (t + PI)) false false in
  if conjugate then
    let! l' := Line_init (p (t + PI / 2)) (p (t - PI / 2)) false false in
    Ok [l; l']
  else Ok [l].

(** geometry.py:1214-1241 [from_equation].  [eigvals M] returns the two
    eigenvalues of the symmetric matrix in an unspecified order: it is an
    argument here; any function meeting [is_eigvals] may be used. *)
Definition is_eigvals (M : mat2) (l : R * R) : Prop :=
  m12 M = m21 M -> fst l + snd l = m11 M + m22 M /\ fst l * snd l = det2 M.

Definition ellipse_from_equation (eigvals : mat2 -> R * R) (A B C D E F : R) : res ellipse :=
  if leb (A * C) 0 || leb 0 (B * B - 4 * A * C) || leb (D * D + E * E) (4 * (A + C) * F)
  then Raise ValueError
  else
    let Q := mkM3 (2 * A) B D B (2 * C) E D E (2 * F) in
    if eqb (det3 Q) 0 then Raise ValueError
    else
      let M0 := mkM3 F (D / 2) (E / 2) (D / 2) A (B / 2) (E / 2) (B / 2) C in
      let M := mkM2 A (B / 2) (B / 2) C in
      let ev := eigvals M in
      let detM0 := det3 M0 in
      let detM := det2 M in
      let! qa := np_div (- detM0) (detM * fst ev) in
      let! a := py_sqrt qa in
      let! qb := np_div (- detM0) (detM * snd ev) in
      let! b := py_sqrt qb in
      let phi := if eqb A C then 0
                 else if ltb (Rabs A) (Rabs C) then atan (B / (A - C)) / 2
                 else PI / 2 - atan (- B / (A - C)) / 2 in
      Ellipse_init ((B * E - 2 * C * D) / (4 * A * C - B * B), (B * D - 2 * A * E) / (4 * A * C - B * B))
                   (Rmax a b) (Rmin a b) (pymod (phi * 180 / PI) 180) true.

(** 5x5 determinants, by expansion along the first row ([np.linalg.det]) *)
Definition det4 (r1 r2 r3 r4 : R * R * R * R) : R :=
  let '(a1, b1, c1, d1) := r1 in
  let '(a2, b2, c2, d2) := r2 in
  let '(a3, b3, c3, d3) := r3 in
  let '(a4, b4, c4, d4) := r4 in
  a1 * det3 (mkM3 b2 c2 d2 b3 c3 d3 b4 c4 d4)
  - b1 * det3 (mkM3 a2 c2 d2 a3 c3 d3 a4 c4 d4)
  + c1 * det3 (mkM3 a2 b2 d2 a3 b3 d3 a4 b4 d4)
  - d1 * det3 (mkM3 a2 b2 c2 a3 b3 c3 a4 b4 c4).
Definition row5 := (R * R * R * R * R)%type.
Definition det5 (r1 r2 r3 r4 r5 : row5) : R :=
  let '(a1, b1, c1, d1, e1) := r1 in
  let '(a2, b2, c2, d2, e2) := r2 in
  let '(a3, b3, c3, d3, e3) := r3 in
  let '(a4, b4, c4, d4, e4) := r4 in
  let '(a5, b5, c5, d5, e5) := r5 in
  a1 * det4 (b2, c2, d2, e2) (b3, c3, d3, e3) (b4, c4, d4, e4) (b5, c5, d5, e5)
  - b1 * det4 (a2, c2, d2, e2) (a3, c3, d3, e3) (a4, c4, d4, e4) (a5, c5, d5, e5)
  + c1 * det4 (a2, b2, d2, e2) (a3, b3, d3, e3) (a4, b4, d4, e4) (a5, b5, d5, e5)
  - d1 * det4 (a2, b2, c2, e2) (a3, b3, c3, e3) (a4, b4, c4, e4) (a5, b5, c5, e5)
  + e1 * det4 (a2, b2, c2, d2) (a3, b3, c3, d3) (a4, b4, c4, d4) (a5, b5, c5, d5).

(** the row of [M] (geometry.py:1272) of the point P, without column i *)
Definition crow (i : nat) (P : pt) : row5 :=
  let (x, y) := P in
  match i with
  | 0%nat => (x * y, y * y, x, y, 1)
  | 1%nat => (x * x, y * y, x, y, 1)
  | 2%nat => (x * x, x * y, x, y, 1)
  | 3%nat => (x * x, x * y, y * y, y, 1)
  | 4%nat => (x * x, x * y, y * y, x, 1)
  | _ => (x * x, x * y, y * y, x, y)
  end.

Definition pt_eqb (P Q : pt) : bool := eqb (fst P) (fst Q) && eqb (snd P) (snd Q).
Fixpoint all_distinct (l : list pt) : bool :=
  match l with
  | [] => true
  | P :: l' => negb (existsb (pt_eqb P) l') && all_distinct l'
  end.

(** geometry.py:1243-1289 [equation_from_five_points] *)
Definition equation_from_five_points (P1 P2 P3 P4 P5 : pt) : res conic :=
  if negb (all_distinct [P1; P2; P3; P4; P5]) then Raise ValueError
  else
    let d i := det5 (crow i P1) (crow i P2) (crow i P3) (crow i P4) (crow i P5) in
    let A := d 0%nat in
    let B := - d 1%nat in
    let C := d 2%nat in
    if leb 0 (B * B - 4 * A * C) then Raise ValueError
    else Ok (A, B, C, - d 3%nat, d 4%nat, - d 5%nat).

(** geometry.py:1291-1305 [from_five_points] *)
Definition ellipse_from_five_points (eigvals : mat2 -> R * R) (P1 P2 P3 P4 P5 : pt) : res ellipse :=
  let! k := equation_from_five_points P1 P2 P3 P4 P5 in
  let '(A, B, C, D, E, F) := k in
  ellipse_from_equation eigvals A B C D E F.

(** [np.linalg.eigh S]: eigenvalues in ascending order and an orthonormal basis
    of eigenvectors of the symmetric matrix; only the lower triangle of [S] is
    read.  Any function meeting [is_eigh] may be used. *)
Record eigh_res := mkEigh { ev0 : R; ev1 : R; evec0 : pt; evec1 : pt }.
Definition is_eigh (S : mat2) (e : eigh_res) : Prop :=
  let L := mkM2 (m11 S) (m21 S) (m21 S) (m22 S) in
  ev0 e <= ev1 e /\
  mv2 L (evec0 e) = vscal (ev0 e) (evec0 e) /\ mv2 L (evec1 e) = vscal (ev1 e) (evec1 e) /\
  dot_ (evec0 e) (evec0 e) = 1 /\ dot_ (evec1 e) (evec1 e) = 1 /\ dot_ (evec0 e) (evec1 e) = 0.

(** internal.py:234-247 and geometry.py:1307-1322 [from_center_and_matrix] *)
Definition from_center_and_matrix (eigh : mat2 -> eigh_res) (center : pt) (S : mat2) : res ellipse :=
  let e := eigh S in
  if leb (ev0 e) 0 || leb (ev1 e) 0 then Raise ValueError
  else
    let v := evec0 e in
    let alpha := pymod (atan2 (snd v) (fst v) * 180 / PI) 180 in
    Ellipse_init center (1 / sqrt (ev0 e)) (1 / sqrt (ev1 e)) alpha true.

(** geometry.py:1409-1427 [from_boundary3] *)
Definition from_boundary3 (eigh : mat2 -> eigh_res) (P1 P2 P3 : pt) : res ellipse :=
  let c := ((fst P1 + fst P2 + fst P3) / 3, (snd P1 + snd P2 + snd P3) / 3) in
  let s1 := vsub P1 c in
  let s2 := vsub P2 c in
  let s3 := vsub P3 c in
  let xx := fst s1 * fst s1 + fst s2 * fst s2 + fst s3 * fst s3 in
  let xy := fst s1 * snd s1 + fst s2 * snd s2 + fst s3 * snd s3 in
  let yy := snd s1 * snd s1 + snd s2 * snd s2 + snd s3 * snd s3 in
  let! J := inv2 (mkM2 xx xy xy yy) in
  from_center_and_matrix eigh c
    (mkM2 (3 / 2 * m11 J) (3 / 2 * m12 J) (3 / 2 * m21 J) (3 / 2 * m22 J)).

(** geometry.py:1429-1480 [LownerJohnEllipse].  [ch path] is the index drawn by
    [np.random.randint] at the recursive call reached by [path] (reduced modulo
    the number of points; every index can be drawn).  geometry.py:1324-1406
    [from_boundary4] is modelled by the exception it ends with: with numpy >= 1.24
    [np.float] (geometry.py:1361) does not exist, so the call raises AttributeError
    unless [np.linalg.solve] (geometry.py:1346) has raised LinAlgError before;
    [b4 points] is which of the two.  [from_five_points] is not reached (a call
    with five boundary points is preceded by one with four).
    Recursion is on the number of interior points. *)
Inductive b4_exn := B4Lin | B4Attr.
Definition b4_raise (x : b4_exn) : exn := match x with B4Lin => LinAlgError | B4Attr => AttributeError end.

Definition delete_nth {A} (i : nat) (l : list A) : list A := firstn i l ++ skipn (S i) l.

Fixpoint lowner_john (eigh : mat2 -> eigh_res) (eigvals : mat2 -> R * R) (b4 : list pt -> b4_exn)
    (ch : list bool -> nat) (n : nat) (path : list bool) (ipoints bpoints : list pt)
    : res (option ellipse) :=
  let stop (_ : unit) : res (option ellipse) :=
    match bpoints with
    | [] | [_] | [_; _] => Ok None
    | [P1; P2; P3] => let! e := from_boundary3 eigh P1 P2 P3 in Ok (Some e)
    | [_; _; _; _] => Raise (b4_raise (b4 bpoints))
    | [P1; P2; P3; P4; P5] => let! e := ellipse_from_five_points eigvals P1 P2 P3 P4 P5 in Ok (Some e)
    | _ => Raise TypeError (* from_five_points( *bpoints ) with too many arguments *)
    end in
  match n with
  | O => stop tt
  | S n' =>
      if (5 <=? length bpoints)%nat then stop tt
      else
        let i := Nat.modulo (ch path) (length ipoints) in
        let p := nth i ipoints (0, 0) in
        let ip := delete_nth i ipoints in
        let! r := lowner_john eigh eigvals b4 ch n' (true :: path) ip bpoints in
        match r with
        | Some e => if ellipse_contains e p then Ok (Some e)
                    else lowner_john eigh eigvals b4 ch n' (false :: path) ip (bpoints ++ [p])
        | None => lowner_john eigh eigvals b4 ch n' (false :: path) ip (bpoints ++ [p])
        end
  end.

Definition LownerJohnEllipse eigh eigvals b4 ch (points : list pt) : res (option ellipse) :=
  lowner_john eigh eigvals b4 ch (length points) [] points [].

(** [np.linalg.cholesky] of a symmetric matrix (lower triangle read), lower factor *)
Definition cholesky (S : mat2) : res mat2 :=
  if leb (m11 S) 0 then Raise LinAlgError
  else
    let l11 := sqrt (m11 S) in
    let l21 := m21 S / l11 in
    let d := m22 S - l21 * l21 in
    if leb d 0 then Raise LinAlgError
    else Ok (mkM2 l11 0 l21 (sqrt d)).

(** internal.py:189-197, one point: [np.linalg.solve(U, x)] with [U] the
    transpose of the Cholesky factor *)
Definition solve_ut (L : mat2) (x : pt) : res pt :=
  let! U := inv2 (mkM2 (m11 L) (m21 L) (m12 L) (m22 L)) in Ok (mv2 U x).

(** geometry.py:1018-1035 [random_points]; the draws are the uniform numbers and
    the pairs of normal numbers (as for circles) *)
Definition ellipse_random_points (e : ellipse) (n_points : Z) (w : where_arg)
    (draws : list (R * pt)) : res (list pt) :=
  if (n_points <=? 0)%Z then Raise ValueError
  else
    let! A := shape_matrix e in
    let one (x : res pt) : res pt :=
      let! x := x in let! L := cholesky A in let! y := solve_ut L x in Ok (vadd y (eO e)) in
    match w with
    | WhereIn => mapM (fun d => one (runif_in_circle1_ 1 (fst d) (snd d))) draws
    | WhereOn => mapM (fun d => one (runif_on_circle1_ 1 (snd d))) draws
    | WhereOther => Raise ValueError
    end.

(** geometry.py:823-854 [intersection_ellipse_line] on an Ellipse (a Circle is
    passed to [intersection_circle_line]).  [invf] cannot be [None]; a [None]
    result of [transform_line] would be rejected as an argument of
    [intersection_circle_line]. *)
Definition intersection_ellipse_line (e : ellipse) (l : line) : res inter :=
  let v := unit_vector_ (ell_angle e) in
  let w := (- snd v, fst v) in
  let f := mkAffine (cols (vscal (ea e) v) (vscal (eb e) w)) (eO e) in
  let! i := affine_inverse f in
  match i with
  | None => Raise AttributeError
  | Some invf =>
      let! l2 := affine_transform_line invf l in
      match l2 with
      | None => Raise ValueError
      | Some l2 =>
          let! c := Circle_init (0, 0) 1 in
          let! Is := intersection_circle_line c l2 in
          match Is with
          | INone => Ok INone
          | IOne P => Ok (IOne (affine_transform f P))
          | ITwo P Q => Ok (ITwo (affine_transform f P) (affine_transform f Q))
          end
      end
  end.
