(** * Products of reflections, rotations, homotheties, inversions. *)

From Coq Require Import Reals Lra Psatz.
From Verif Require Import Base BaseLemmas Spec SpecLemmas SpecCompose ModelInternal ModelLine ModelAffine ModelTransfo ModelInversion PAffine PReflect PTransfo PCompose PInversion.
Local Open Scope R_scope.

Definition refl (a b : R) (O P : pt) : pt :=
  (fst O + (a * (fst P - fst O) + b * (snd P - snd O)), snd O + (b * (fst P - fst O) - a * (snd P - snd O))).

Lemma mirror_refl A B O P : A <> B -> on_line A B O ->
  let dx := fst B - fst A in let dy := snd B - snd A in let D := dx * dx + dy * dy in
  mirror A B P (refl ((dx * dx - dy * dy) / D) (2 * dx * dy / D) O P).
Proof.
  intros H [t ->] dx dy D. pose proof (pt_neq _ _ H) as HD. fold dx dy in HD. fold D in HD.
  apply mirror_cross; auto. destruct A as [ax ay], B as [bx b_y], P as [x y].
  unfold refl, at_line, midpoint, orthogonal, scross, sdot. unpt.
  assert (D0 : (bx - ax) * (bx - ax) + (b_y - ay) * (b_y - ay) <> 0) by (subst D dx dy; lra).
  unfold D, dx, dy in *. split; field; auto.
Qed.

Lemma mirror_value A B O P Q : A <> B -> on_line A B O -> mirror A B P Q ->
  let dx := fst B - fst A in let dy := snd B - snd A in let D := dx * dx + dy * dy in
  Q = refl ((dx * dx - dy * dy) / D) (2 * dx * dy / D) O P.
Proof. intros H HO HQ dx dy D. apply (mirror_unique A B P Q _ H HQ). apply mirror_refl; auto. Qed.

Lemma unit_dir x y : 0 < x * x + y * y -> (x * x - y * y) / (x * x + y * y) * ((x * x - y * y) / (x * x + y * y)) + 2 * x * y / (x * x + y * y) * (2 * x * y / (x * x + y * y)) = 1.
Proof. intros H. field. lra. Qed.

Lemma refl_refl th a b O P : a * a + b * b = 1 ->
  refl (cos (2 * th) * a - sin (2 * th) * b) (sin (2 * th) * a + cos (2 * th) * b) O (refl a b O P) = rot (2 * th) O P.
Proof.
  intros H. destruct O as [ox oy], P as [x y]. unfold refl, rot. cbn [fst snd]. set (c := cos (2 * th)). set (s := sin (2 * th)). clearbody c s. set (u := x - ox). set (v := y - oy).
  f_equal; f_equal.
  - transitivity ((a * a + b * b) * (c * u - s * v)); [ring|rewrite H; ring].
  - transitivity ((a * a + b * b) * (s * u + c * v)); [ring|rewrite H; ring].
Qed.

(** the direction turned by [th] *)
Lemma turned_dir th k x y : k <> 0 -> 0 < x * x + y * y ->
  let x' := k * (cos th * x - sin th * y) in let y' := k * (sin th * x + cos th * y) in
  (x' * x' - y' * y') / (x' * x' + y' * y') = cos (2 * th) * ((x * x - y * y) / (x * x + y * y)) - sin (2 * th) * (2 * x * y / (x * x + y * y)) /\
  2 * x' * y' / (x' * x' + y' * y') = sin (2 * th) * ((x * x - y * y) / (x * x + y * y)) + cos (2 * th) * (2 * x * y / (x * x + y * y)).
Proof.
  intros Hk HD x' y'. pose proof (sin2_cos2 th) as E. unfold Rsqr in E. rewrite cos_2a, sin_2a. unfold x', y'. clear x' y'. set (c := cos th) in *. set (s := sin th) in *. clearbody c s.
  assert (E2 : k * (c * x - s * y) * (k * (c * x - s * y)) + k * (s * x + c * y) * (k * (s * x + c * y)) = k * k * (x * x + y * y)).
  { transitivity ((s * s + c * c) * (k * k * (x * x + y * y))); [ring|rewrite E; ring]. }
  rewrite E2. split; field; split; lra || auto.
Qed.

Lemma reflections_meet l1 l2 O k th : lA l1 <> lB l1 -> lA l2 <> lB l2 -> on_line (lA l1) (lB l1) O -> on_line (lA l2) (lB l2) O ->
  vsub (lB l2) (lA l2) = vscal k (rot th (0, 0) (vsub (lB l1) (lA l1))) ->
  exists f g, reflection_as_affine l1 = Ok f /\ affine_compose_any f (TReflection l2) true = Ok g /\ forall P, affine_transform g P = rot (2 * th) O P.
Proof.
  intros H1 H2 O1 O2 HD. destruct (reflection_affine_spec l1 H1) as (f & Ef & Hf). destruct (proj1 (compose_spec f (TReflection l2) H2)) as (g & Eg & Hg). exists f, g. split; [auto|]. split; [auto|].
  intros P. specialize (Hf P). specialize (Hg P). cbn [maps_to] in Hg. apply (mirror_value _ _ O) in Hf; auto. apply (mirror_value _ _ O) in Hg; auto. cbv zeta in *.
  rewrite Hg, Hf. pose proof (pt_neq _ _ H1) as D1. pose proof (pt_neq _ _ H2) as D2.
  set (x := fst (lB l1) - fst (lA l1)) in *. set (y := snd (lB l1) - snd (lA l1)) in *.
  assert (Ex : fst (lB l2) - fst (lA l2) = k * (cos th * x - sin th * y)). { apply (f_equal fst) in HD. unfold rot in HD. unpt. rewrite HD. fold x y. ring. }
  assert (Ey : snd (lB l2) - snd (lA l2) = k * (sin th * x + cos th * y)). { apply (f_equal snd) in HD. unfold rot in HD. unpt. rewrite HD. fold x y. ring. }
  rewrite Ex, Ey in *. assert (Hk : k <> 0) by (intros ->; lra). destruct (turned_dir th k x y Hk D1) as [T1 T2]. cbv zeta in T1, T2. rewrite T1, T2. apply refl_refl. apply unit_dir; auto.
Qed.

Lemma reflections_parallel l1 l2 k v : lA l1 <> lB l1 -> lA l2 <> lB l2 -> vsub (lB l2) (lA l2) = vscal k (vsub (lB l1) (lA l1)) ->
  orthogonal v (vsub (lB l1) (lA l1)) -> on_line (lA l2) (lB l2) (vadd (lA l1) v) ->
  exists f g, reflection_as_affine l1 = Ok f /\ affine_compose_any f (TReflection l2) true = Ok g /\ forall P, affine_transform g P = vadd P (vscal 2 v).
Proof.
  intros H1 H2 HD HV HO. destruct (reflection_affine_spec l1 H1) as (f & Ef & Hf). destruct (proj1 (compose_spec f (TReflection l2) H2)) as (g & Eg & Hg). exists f, g. split; [auto|]. split; [auto|].
  intros P. specialize (Hf P). specialize (Hg P). cbn [maps_to] in Hg. assert (O1 : on_line (lA l1) (lB l1) (lA l1)). { exists 0. unfold at_line. destruct (lA l1). unpt. f_equal; ring. }
  apply (mirror_value _ _ (lA l1)) in Hf; auto. apply (mirror_value _ _ (vadd (lA l1) v)) in Hg; auto. cbv zeta in *.
  rewrite Hg, Hf. pose proof (pt_neq _ _ H1) as D1. pose proof (pt_neq _ _ H2) as D2. unfold orthogonal, sdot in HV. unpt.
  set (x := fst (lB l1) - fst (lA l1)) in *. set (y := snd (lB l1) - snd (lA l1)) in *.
  assert (Ex : fst (lB l2) - fst (lA l2) = k * x) by (apply (f_equal fst) in HD; cbn [fst] in HD; exact HD).
  assert (Ey : snd (lB l2) - snd (lA l2) = k * y) by (apply (f_equal snd) in HD; cbn [snd] in HD; exact HD).
  rewrite Ex, Ey in *. assert (Hk : k <> 0) by (intros ->; lra).
  assert (EK : k * x * (k * x) + k * y * (k * y) = k * k * (x * x + y * y)) by ring.
  replace ((k * x * (k * x) - k * y * (k * y)) / (k * x * (k * x) + k * y * (k * y))) with ((x * x - y * y) / (x * x + y * y)) by (rewrite EK; field; split; lra || auto).
  replace (2 * (k * x) * (k * y) / (k * x * (k * x) + k * y * (k * y))) with (2 * x * y / (x * x + y * y)) by (rewrite EK; field; split; lra || auto).
  pose proof (unit_dir x y D1) as U. set (a := (x * x - y * y) / (x * x + y * y)) in *. set (b := 2 * x * y / (x * x + y * y)) in *.
  assert (A1 : a * fst v + b * snd v = - fst v). { apply Rmult_eq_reg_r with (x * x + y * y); [|lra]. transitivity ((x * x - y * y) * fst v + 2 * x * y * snd v); [unfold a, b; field; lra|]. transitivity (- fst v * (x * x + y * y) + 2 * x * (fst v * x + snd v * y)); [ring|rewrite HV; ring]. }
  assert (A2 : b * fst v - a * snd v = - snd v). { apply Rmult_eq_reg_r with (x * x + y * y); [|lra]. transitivity (2 * x * y * fst v - (x * x - y * y) * snd v); [unfold a, b; field; lra|]. transitivity (- snd v * (x * x + y * y) + 2 * y * (fst v * x + snd v * y)); [ring|rewrite HV; ring]. }
  clearbody a b. clear - U A1 A2. destruct (lA l1) as [ox oy], v as [vx vy], P as [px py]. unfold refl. cbn [fst snd] in *. apply pair_eq.
  - transitivity (ox + vx - (a * vx + b * vy) + (a * a + b * b) * (px - ox)); [ring|rewrite U, A1; ring].
  - transitivity (oy + vy - (b * vx - a * vy) + (a * a + b * b) * (py - oy)); [ring|rewrite U, A2; ring].
Qed.

(** a reflection followed by a rotation about a point of the line *)
Lemma reflection_rotation l r : lA l <> lB l -> on_line (lA l) (lB l) (rO r) ->
  let h := radians (rdeg r) (rtheta r) / 2 in
  exists f g, reflection_as_affine l = Ok f /\ affine_compose_any f (TRotation r) true = Ok g /\
    rot h (rO r) (lA l) <> rot h (rO r) (lB l) /\ forall P, mirror (rot h (rO r) (lA l)) (rot h (rO r) (lB l)) P (affine_transform g P).
Proof.
  intros H1 O1 h. destruct (reflection_affine_spec l H1) as (f & Ef & Hf). destruct (proj1 (compose_spec f (TRotation r) I)) as (g & Eg & Hg). exists f, g. split; [auto|]. split; [auto|].
  pose proof (pt_neq _ _ H1) as D1. pose proof (sin2_cos2 h) as E. unfold Rsqr in E.
  assert (N : rot h (rO r) (lA l) <> rot h (rO r) (lB l)).
  { intros K. injection K as K1 K2. set (x := fst (lB l) - fst (lA l)) in *. set (y := snd (lB l) - snd (lA l)) in *. set (c := cos h) in *. set (s := sin h) in *.
    assert (Z1 : c * x - s * y = 0) by (unfold x, y; lra). assert (Z2 : s * x + c * y = 0) by (unfold x, y; lra).
    assert (x = 0) by (transitivity ((s * s + c * c) * x); [rewrite E; ring|]; transitivity (c * (c * x - s * y) + s * (s * x + c * y)); [ring|rewrite Z1, Z2; ring]).
    assert (y = 0) by (transitivity ((s * s + c * c) * y); [rewrite E; ring|]; transitivity (c * (s * x + c * y) - s * (c * x - s * y)); [ring|rewrite Z1, Z2; ring]). nra. }
  split; [exact N|]. intros P. specialize (Hf P). specialize (Hg P). cbn [maps_to] in Hg. apply (mirror_value _ _ (rO r)) in Hf; auto. cbv zeta in Hf.
  replace (radians (rdeg r) (rtheta r)) with (2 * h) in Hg by (unfold h; field).
  assert (O2 : on_line (rot h (rO r) (lA l)) (rot h (rO r) (lB l)) (rO r)).
  { destruct O1 as [t O1]. exists t. rewrite O1. unfold rot, at_line. destruct (lA l), (lB l). unpt. f_equal; ring. }
  pose proof (mirror_refl _ _ _ P N O2) as M. cbv zeta in M.
  set (x := fst (lB l) - fst (lA l)) in *. set (y := snd (lB l) - snd (lA l)) in *.
  assert (Ex : fst (rot h (rO r) (lB l)) - fst (rot h (rO r) (lA l)) = 1 * (cos h * x - sin h * y)) by (unfold rot, x, y; cbn [fst snd]; ring).
  assert (Ey : snd (rot h (rO r) (lB l)) - snd (rot h (rO r) (lA l)) = 1 * (sin h * x + cos h * y)) by (unfold rot, x, y; cbn [fst snd]; ring).
  rewrite Ex, Ey in M. destruct (turned_dir h 1 x y R1_neq_R0 D1) as [T1 T2]. cbv zeta in T1, T2. rewrite T1, T2 in M.
  rewrite Hg, Hf. eapply eq_rect; [exact M|]. unfold refl, rot. cbn [fst snd]. f_equal; ring.
Qed.

(** *** rotations *)
Lemma rotations r1 r2 : let t := radians (rdeg r1) (rtheta r1) + radians (rdeg r2) (rtheta r2) in
  exists g, affine_compose_any (rotation_as_affine r1) (TRotation r2) true = Ok g /\
    (cos t <> 1 -> exists C, (forall P, affine_transform g P = rot t C P) /\ forall P, affine_transform g P = P <-> P = C) /\
    (cos t = 1 -> exists v, forall P, affine_transform g P = vadd P v).
Proof.
  destruct (proj1 (compose_spec (rotation_as_affine r1) (TRotation r2) I)) as (g & Eg & Hg). intros t. exists g. split; [auto|]. cbn [maps_to] in Hg.
  set (t1 := radians (rdeg r1) (rtheta r1)) in *. set (t2 := radians (rdeg r2) (rtheta r2)) in *.
  assert (G : forall P, affine_transform g P = rot t2 (rO r2) (rot t1 (rO r1) P)) by (intros P; rewrite Hg, rotate_affine; auto).
  set (w := rot t2 (rO r2) (rot t1 (rO r1) (0, 0))).
  assert (W : forall P, affine_transform g P = (fst w + (cos t * fst P - sin t * snd P), snd w + (sin t * fst P + cos t * snd P))).
  { intros P. rewrite G. unfold t, w. rewrite cos_plus, sin_plus. unfold rot. cbn [fst snd]. f_equal; ring. }
  pose proof (sin2_cos2 t) as E. unfold Rsqr in E. clearbody w. split; intros Ht.
  - set (c := cos t) in *. set (s := sin t) in *. assert (Dt : 2 - 2 * c <> 0) by lra.
    set (C := (((1 - c) * fst w - s * snd w) / (2 - 2 * c), (s * fst w + (1 - c) * snd w) / (2 - 2 * c))).
    assert (C1 : fst C - (c * fst C - s * snd C) = fst w). { unfold C. cbn [fst snd]. transitivity ((((1 - c) * (1 - c) + s * s) * fst w) / (2 - 2 * c)); [field; auto|]. replace ((1 - c) * (1 - c) + s * s) with (1 - 2 * c + (s * s + c * c)) by ring. rewrite E. field. lra. }
    assert (C2 : snd C - (s * fst C + c * snd C) = snd w). { unfold C. cbn [fst snd]. transitivity ((((1 - c) * (1 - c) + s * s) * snd w) / (2 - 2 * c)); [field; auto|]. replace ((1 - c) * (1 - c) + s * s) with (1 - 2 * c + (s * s + c * c)) by ring. rewrite E. field. lra. }
    clearbody C. exists C. split.
    + intros P. rewrite W. unfold rot. fold c s. rewrite <- C1, <- C2. f_equal; ring.
    + intros P. rewrite W. split.
      * intros K. destruct P as [x y], C as [cx cy]. injection K as K1 K2. cbn [fst snd] in *.
        set (u := x - cx). set (v := y - cy). assert (U : (1 - c) * u + s * v = 0) by (unfold u, v; lra). assert (V : (1 - c) * v - s * u = 0) by (unfold u, v; lra).
        assert (Z1 : (2 - 2 * c) * u = 0). { transitivity ((1 - c) * ((1 - c) * u + s * v) - s * ((1 - c) * v - s * u) + (1 - (s * s + c * c)) * u); [ring|]. rewrite U, V, E. ring. }
        assert (Z2 : (2 - 2 * c) * v = 0). { transitivity ((1 - c) * ((1 - c) * v - s * u) + s * ((1 - c) * u + s * v) + (1 - (s * s + c * c)) * v); [ring|]. rewrite U, V, E. ring. }
        apply Rmult_integral in Z1. apply Rmult_integral in Z2. unfold u, v in *. f_equal; lra.
      * intros ->. rewrite <- C1, <- C2. destruct C. cbn [fst snd]. f_equal; ring.
  - assert (sin t = 0) by nra. exists w. intros [x y]. rewrite W, H, Ht. unpt. f_equal; ring.
Qed.

(** *** homotheties *)
Lemma homotheties h1 h2 : let s := hscale h1 * hscale h2 in
  exists g, affine_compose_any (homothety_as_affine h1) (THomothety h2) true = Ok g /\
    (s <> 1 -> exists C, on_line (hO h1) (hO h2) C /\ forall P, affine_transform g P = vadd C (vscal s (vsub P C))) /\
    (s = 1 -> forall P, affine_transform g P = vadd P (vscal (1 - hscale h2) (vsub (hO h2) (hO h1)))).
Proof.
  destruct (proj1 (compose_spec (homothety_as_affine h1) (THomothety h2) I)) as (g & Eg & Hg). intros s. exists g. split; [auto|]. cbn [maps_to] in Hg.
  assert (G : forall P, affine_transform g P = vadd (hO h2) (vscal (hscale h2) (vsub (vadd (hO h1) (vscal (hscale h1) (vsub P (hO h1)))) (hO h2)))).
  { intros P. rewrite Hg. f_equal. f_equal. f_equal. destruct h1 as [[x y] k], P. unfold homothety_as_affine, homothety_mat3. cbn [hO hscale]. unaff. cbn [n11 n12 n13 n21 n22 n23]. f_equal; ring. }
  clear Hg Eg. destruct h1 as [[x1 y1] s1], h2 as [[x2 y2] s2]. cbn [hO hscale] in *. unfold s. split; intros Hs.
  - exists (at_line (x1, y1) (x2, y2) ((1 - s2) / (1 - s1 * s2))). split; [eexists; reflexivity|]. intros [x y]. rewrite G. unfold at_line. unpt. f_equal; field; lra.
  - intros [x y]. rewrite G. unpt. f_equal.
    + transitivity (x2 + s2 * x1 - s2 * x2 + s1 * s2 * (x - x1)); [ring|rewrite Hs; ring].
    + transitivity (y2 + s2 * y1 - s2 * y2 + s1 * s2 * (y - y1)); [ring|rewrite Hs; ring].
Qed.

(** *** inversions of the same pole *)
Lemma inversions i1 i2 P N Q : ipole i1 = ipole i2 -> ipower i1 <> 0 -> invert i1 (Pt P) = Pt N -> invert i2 (Pt N) = Pt Q ->
  Q = homothety_transform (mkHom (ipole i1) (ipower i2 / ipower i1)) P.
Proof.
  intros EI Hk H1 H2. apply invert_Pt in H1. apply invert_Pt in H2. destruct H1 as (_ & N1 & ->). destruct H2 as (_ & _ & ->). rewrite <- EI.
  destruct i1 as [[ix iy] k1], i2 as [J k2]. cbn [ipole ipower] in *. subst J. destruct P as [x y]. unfold homothety_transform, inv_pt. cbn [hO hscale].
  assert (D : 0 < dist2 (ix, iy) (x, y)) by (apply dist2_pos; intros E; apply N1; auto).
  assert (D2 : dist2 (ix, iy) (vadd (ix, iy) (vscal (k1 / dist2 (ix, iy) (x, y)) (vsub (x, y) (ix, iy)))) = k1 * k1 / dist2 (ix, iy) (x, y)).
  { set (d := dist2 (ix, iy) (x, y)) in *. transitivity (k1 * k1 / (d * d) * d); [|field; lra]. assert (Ed : d = (x - ix) * (x - ix) + (y - iy) * (y - iy)) by (unfold d, dist2, sdot; unpt; ring). unfold dist2, sdot. unpt. transitivity (k1 * k1 / (d * d) * ((x - ix) * (x - ix) + (y - iy) * (y - iy))); [field; lra|rewrite <- Ed; auto]. }
  rewrite D2. set (d := dist2 (ix, iy) (x, y)) in *. clearbody d. unpt. f_equal; field; split; lra || auto.
Qed.

Lemma kinds_ex : exists f g g' h,
  reflection_as_affine (mkLine (0, 0) (1, 0) true true) = Ok f /\ affine_compose_any f (TReflection (mkLine (0, 0) (2, 2) true true)) true = Ok g /\ affine_transform g (1, 2) = (-2, 1) /\
  affine_compose_any (rotation_as_affine (mkRot (0, 0) 90 true)) (TRotation (mkRot (2, 0) 90 true)) true = Ok g' /\ affine_transform g' (1, 2) = (1, -4) /\
  affine_compose_any (homothety_as_affine (mkHom (0, 0) 2)) (THomothety (mkHom (2, 0) (1 / 2))) true = Ok h /\ affine_transform h (1, 2) = (2, 2).
Proof.
  set (l1 := mkLine (0, 0) (1, 0) true true). set (l2 := mkLine (0, 0) (2, 2) true true).
  assert (S2 : sqrt 2 * sqrt 2 = 2) by (apply sqrt_sqrt; lra). assert (P2 : 0 < sqrt 2) by (apply sqrt_lt_R0; lra).
  destruct (reflections_meet l1 l2 (0, 0) (2 * sqrt 2) (PI / 4)) as (f & g & Ef & Eg & Hg).
  { unfold l1; cbn [lA lB]. intros E. injection E as E. lra. } { unfold l2; cbn [lA lB]. intros E. injection E as E. lra. }
  { exists 0. unfold at_line, l1; cbn [lA lB]. unpt. f_equal; ring. } { exists 0. unfold at_line, l2; cbn [lA lB]. unpt. f_equal; ring. }
  { unfold l1, l2, rot; cbn [lA lB]. unpt. rewrite cos_PI4, sin_PI4. apply pair_eq; field_simplify; lra. }
  assert (R90 : radians true 90 = PI / 2) by (unfold radians, deg; field).
  destruct (proj1 (compose_spec (rotation_as_affine (mkRot (0, 0) 90 true)) (TRotation (mkRot (2, 0) 90 true)) I)) as (g' & Eg' & Hg').
  destruct (homotheties (mkHom (0, 0) 2) (mkHom (2, 0) (1 / 2))) as (h & Eh & _ & Hh). cbv zeta in Hh. cbn [hO hscale] in Hh.
  exists f, g, g', h. split; [auto|]. split; [auto|]. split.
  { rewrite Hg. replace (2 * (PI / 4)) with (PI / 2) by field. unfold rot. rewrite cos_PI2, sin_PI2. cbn [fst snd]. apply pair_eq; ring. }
  split; [auto|]. split.
  { specialize (Hg' (1, 2)). cbn [maps_to] in Hg'. rewrite Hg', rotate_affine. cbn [rdeg rtheta rO]. rewrite R90. unfold rot. rewrite cos_PI2, sin_PI2. cbn [fst snd]. apply pair_eq; ring. }
  split; [auto|]. rewrite Hh by lra. unpt. apply pair_eq; lra.
Qed.
