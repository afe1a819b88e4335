(** * The Steiner ellipses, continued: the results of the two calls. *)

From Coq Require Import Reals Lra Psatz List Bool.
From Verif Require Import Base BaseLemmas Spec SpecLemmas SpecTriangle ModelInternal ModelLine ModelCircle ModelAffine ModelEllipse ModelTransfo ModelTriangle
  PLine PCircle PAffine PEllipse PEllipse2 PEllipse3 PTriangle PTriangle6 PEllUnique PSteiner PTriangleEx PSteinerEll.
Import ListNotations.
Local Open Scope R_scope.

(** ** Three points in the unit disc *)
Lemma three_in_disc p q r : sdot p p <= 1 -> sdot q q <= 1 -> sdot r r <= 1 -> dbl p q r * dbl p q r <= 27 / 4 /\ (dbl p q r * dbl p q r = 27 / 4 -> regular 1 p q r).
Proof.
  intros Hp Hq Hr. set (D := dbl p q r). set (x := (fst r - fst q) * (fst r - fst q) + (snd r - snd q) * (snd r - snd q)). set (y := (fst p - fst r) * (fst p - fst r) + (snd p - snd r) * (snd p - snd r)). set (z := (fst q - fst p) * (fst q - fst p) + (snd q - snd p) * (snd q - snd p)).
  set (S2 := (fst p + fst q + fst r) * (fst p + fst q + fst r) + (snd p + snd q + snd r) * (snd p + snd q + snd r)).
  assert (E : x + y + z = 3 * (sdot p p + sdot q q + sdot r r) - S2) by (unfold x, y, z, S2, sdot; ring).
  assert (H : 4 * (D * D) = 2 * x * y + 2 * y * z + 2 * z * x - x * x - y * y - z * z) by (unfold D, dbl, scross, vsub, x, y, z; cbn [fst snd]; ring).
  assert (Wz : 12 * (D * D) <= (x + y + z) * (x + y + z)).
  { pose proof (Rle_0_sqr (x - y)) as Q1. pose proof (Rle_0_sqr (y - z)) as Q2. pose proof (Rle_0_sqr (z - x)) as Q3. unfold Rsqr in Q1, Q2, Q3. lra. }
  assert (S0 : 0 <= S2) by (unfold S2; pose proof (Rle_0_sqr (fst p + fst q + fst r)) as Q1; pose proof (Rle_0_sqr (snd p + snd q + snd r)) as Q2; unfold Rsqr in Q1, Q2; lra).
  assert (P0 : 0 <= x + y + z). { unfold x, y, z. pose proof (Rle_0_sqr (fst r - fst q)); pose proof (Rle_0_sqr (snd r - snd q)); pose proof (Rle_0_sqr (fst p - fst r)); pose proof (Rle_0_sqr (snd p - snd r)); pose proof (Rle_0_sqr (fst q - fst p)); pose proof (Rle_0_sqr (snd q - snd p)); unfold Rsqr in *; lra. }
  assert (T : x + y + z <= 9) by lra. assert (TT : (x + y + z) * (x + y + z) <= 81) by (replace 81 with (9 * 9) by lra; apply Rmult_le_compat; lra). split; [lra|]. intros ED.
  assert (T9 : x + y + z = 9) by nra. assert (SZ : S2 = 0) by lra. unfold S2 in SZ. destruct (Rplus_sqr_eq_0 _ _ SZ) as [Z1 Z2]. assert (S2 = 0) by exact SZ. unfold regular. repeat split; lra.
Qed.

(** ** The two calls *)
Definition ell_of (e : ellipse) := nrm (eO e) (ea e) (eb e) (ell_th e).

Lemma steiner_regular A B C : ~ collinear A B C -> allclose A B = false -> allclose A C = false -> allclose B C = false ->
  exists e e', steiner_ellipse (mkTri A B C) = Ok (Some e) /\ steiner_inellipse (mkTri A B C) = Ok (Some e') /\ 0 < eb e <= ea e /\ 0 < eb e' <= ea e' /\
    eO e = centroid A B C /\ eO e' = centroid A B C /\ regular 1 (ell_of e A) (ell_of e B) (ell_of e C) /\ regular 4 (ell_of e' A) (ell_of e' B) (ell_of e' C).
Proof.
  intros N E1 E2 E3. destruct (steiner_affine A B C N E1 E2 E3) as (f & Hf & Hd & F1 & F2 & F3 & FO). pose proof sqrt3 as [Q [Q1 Q2]].
  assert (K : forall r, 0 < r -> forall e, (forall M, on_circle steiner_O r M <-> on_ellipse (eO e) (ea e) (eb e) (ell_th e) (affine_transform f M)) -> 0 < eb e <= ea e ->
     eO e = centroid A B C /\ regular (100 / 3 / (r * r)) (ell_of e A) (ell_of e B) (ell_of e C)).
  { intros r Hr e Hon Hab. destruct (affine_circle_form f steiner_O r (eO e) (ea e) (eb e) (ell_th e) Hr ltac:(lra) ltac:(lra) Hon) as [EO EF]. rewrite FO in EO.
    assert (N0 : nrm (eO e) (ea e) (eb e) (ell_th e) (bary (1/3) (1/3) (1/3) A B C) = (0, 0)). { replace (bary (1/3) (1/3) (1/3) A B C) with (eO e); [apply nrm_centre|]. rewrite <- EO. unfold bary, centroid. f_equal; field. }
    rewrite nrm_bary in N0 by lra. fold (ell_of e) in N0. unfold bary in N0. injection N0 as N1 N2. split; [auto|]. unfold regular, ell_of in *. rewrite <- !nrm_form. rewrite <- F1 at 1. rewrite <- F2 at 1. rewrite <- F3 at 1. rewrite !EF. 
    split; [|split; [|split; [|unfold nrm; cbn [fst snd]; split; lra]]]; unfold Rdiv at 1; unfold Rdiv at 2; apply Rmult_eq_compat_r; unfold steiner_O, steiner_P, steiner_Q, steiner_R; unspec; try nra. }
  set (c := mkCircle steiner_O (10 * sqrt 3 / 3)). assert (Hr : 0 < cr c) by (cbn; lra). set (c' := mkCircle steiner_O (5 * sqrt 3 / 3)). assert (Hr' : 0 < cr c') by (cbn; lra).
  destruct (transform_ellipse_spec f (ACircle c) Hr Hd) as (e & He & Hab & _ & _ & Hon). destruct (transform_ellipse_spec f (ACircle c') Hr' Hd) as (e' & He' & Hab' & _ & _ & Hon'). cbn [on_ce] in Hon, Hon'.
  destruct (K _ Hr e Hon Hab) as (O1 & R1). destruct (K _ Hr' e' Hon' Hab') as (O2 & R2). cbn [cr c c'] in R1, R2.
  replace (100 / 3 / (10 * sqrt 3 / 3 * (10 * sqrt 3 / 3))) with 1 in R1 by (replace (10 * sqrt 3 / 3 * (10 * sqrt 3 / 3)) with (100 * (sqrt 3 * sqrt 3) / 9) by field; rewrite Q; field).
  replace (100 / 3 / (5 * sqrt 3 / 3 * (5 * sqrt 3 / 3))) with 4 in R2 by (replace (5 * sqrt 3 / 3 * (5 * sqrt 3 / 3)) with (25 * (sqrt 3 * sqrt 3) / 9) by field; rewrite Q; field).
  exists e, e'. split; [|split].
  - unfold steiner_ellipse. rewrite nonflat_branch by auto. rewrite steiner_circ. cbn [bind]. unfold steiner_map. cbn [tA tB tC]. rewrite Hf. cbn [bind]. exact He.
  - unfold steiner_inellipse. rewrite nonflat_branch by auto. rewrite steiner_inc. cbn [bind]. unfold steiner_map. cbn [tA tB tC]. rewrite Hf. cbn [bind]. exact He'.
  - repeat (split; auto).
Qed.

Lemma areas O a b th rho A B C : 0 < a -> 0 < b -> 0 < rho -> regular rho (nrm O a b th A) (nrm O a b th B) (nrm O a b th C) -> a * b * (3 * sqrt 3 * rho) = 2 * Rabs (dbl A B C).
Proof.
  intros Ha Hb Hr H. pose proof (regular_dbl _ _ _ _ H) as E. pose proof (nrm_dbl O a b th A B C Ha Hb) as D. pose proof sqrt3 as [Q [Q1 Q2]]. rewrite <- D. rewrite Rabs_mult, (Rabs_pos_eq (a * b)) by nra.
  set (t := Rabs _). assert (T : t * t = 27 / 4 * (rho * rho)) by (unfold t; rewrite <- Rabs_mult, E; apply Rabs_pos_eq; nra). assert (T0 : 0 <= t) by apply Rabs_pos.
  assert (ET : t = 3 * sqrt 3 * rho / 2). { apply Rsqr_inj; [auto|apply Rmult_le_pos; [|lra]; repeat apply Rmult_le_pos; lra|]. unfold Rsqr. rewrite T. transitivity (9 * (sqrt 3 * sqrt 3) * (rho * rho) / 4); [rewrite Q; field|field]. } rewrite ET. field.
Qed.

Lemma nrm_in_triangle O a b th A B C : 0 < a -> 0 < b -> dbl A B C <> 0 -> (forall M, in_ellipse O a b th M -> in_closed_triangle A B C M) ->
  forall m, sdot m m <= 1 -> in_closed_triangle (nrm O a b th A) (nrm O a b th B) (nrm O a b th C) m.
Proof.
  intros Ha Hb D H m Hm. destruct (nrm_onto O a b th m Ha Hb) as (M & <-). destruct (H M) as (u & v & w & Hu & Hv & Hw & S & ->). { unfold in_ellipse. rewrite nrm_form. exact Hm. }
  exists u, v, w. repeat (split; [assumption|]). apply nrm_bary; auto.
Qed.

Lemma sq_le_abs x y : 0 <= y -> x * x <= y * y -> Rabs x <= y.
Proof. intros Hy H. rewrite <- (Rabs_pos_eq y) by auto. apply Rsqr_le_abs_0. exact H. Qed.

Lemma steiner_extremal A B C : ~ collinear A B C -> allclose A B = false -> allclose A C = false -> allclose B C = false ->
  exists e e', steiner_ellipse (mkTri A B C) = Ok (Some e) /\ steiner_inellipse (mkTri A B C) = Ok (Some e') /\
    (* the inellipse is in the triangle, and is the largest one there *)
    (forall M, in_ellipse (eO e') (ea e') (eb e') (ell_th e') M -> in_closed_triangle A B C M) /\
    (forall O a b th, 0 < a -> 0 < b -> (forall M, in_ellipse O a b th M -> in_closed_triangle A B C M) ->
       PI * a * b <= PI * ea e' * eb e' /\ (PI * a * b = PI * ea e' * eb e' -> forall M, ell_form O a b th M = ell_form (eO e') (ea e') (eb e') (ell_th e') M)) /\
    (* the circumellipse is the smallest one *)
    (forall O a b th, 0 < a -> 0 < b -> Forall (in_ellipse O a b th) [A; B; C] ->
       PI * ea e * eb e <= PI * a * b /\ (PI * a * b = PI * ea e * eb e -> forall M, ell_form O a b th M = ell_form (eO e) (ea e) (eb e) (ell_th e) M)) /\
    (* areas *)
    PI * ea e' * eb e' = PI / (3 * sqrt 3) * (Rabs (scross (vsub B A) (vsub C A)) / 2) /\ PI * ea e * eb e = 4 * (PI * ea e' * eb e') /\
    (* one is twice the other *)
    eO e = eO e' /\ ea e = 2 * ea e' /\ eb e = 2 * eb e' /\ (forall M, ell_form (eO e') (ea e') (eb e') (ell_th e') M = 4 * ell_form (eO e) (ea e) (eb e) (ell_th e) M).
Proof.
  intros N E1 E2 E3. destruct (steiner_regular A B C N E1 E2 E3) as (e & e' & He & He' & Hab & Hab' & HO & HO' & R1 & R4). exists e, e'. split; [exact He|]. split; [exact He'|]. unfold ell_of in R1, R4.
  assert (D : dbl A B C <> 0) by (apply not_collinear_dbl; auto). pose proof sqrt3 as [Q [Q1 Q2]]. pose proof PI_RGT_0 as HPI.
  pose proof (areas (eO e) (ea e) (eb e) (ell_th e) 1 A B C ltac:(lra) ltac:(lra) ltac:(lra) R1) as AR1. pose proof (areas (eO e') (ea e') (eb e') (ell_th e') 4 A B C ltac:(lra) ltac:(lra) ltac:(lra) R4) as AR4.
  assert (AA : ea e * eb e = 4 * (ea e' * eb e')) by (apply Rmult_eq_reg_r with (3 * sqrt 3 * 1); nra).
  assert (FF : forall M, ell_form (eO e') (ea e') (eb e') (ell_th e') M = 4 * ell_form (eO e) (ea e) (eb e) (ell_th e) M). { intros M. pose proof (regular_forms _ _ _ _ _ _ _ _ _ _ A B C D R1 R4 M). lra. }
  split; [|split; [|split; [|split; [|split; [|split; [|split; [|split]]]]]]].
  - intros M HM. destruct (bary_all A B C M D) as (u & v & w & S & ->). unfold in_ellipse in HM. rewrite nrm_form, nrm_bary in HM by auto. rewrite (regular_bary _ _ _ _ u v w R4) in HM.
    assert (K : forall u v w, u + v + w = 1 -> 4 * (u * u + v * v + w * w - u * v - v * w - w * u) <= 1 -> 0 <= u). { clear. intros u v w S H. pose proof (Rle_0_sqr (v - w)) as Z. unfold Rsqr in Z. assert (4 * (u * u + v * v + w * w - u * v - v * w - w * u) = (3 * u - 1) * (3 * u - 1) + 3 * ((v - w) * (v - w))) by (replace w with (1 - u - v) by lra; ring). nra. }
    exists u, v, w. split; [apply (K u v w); lra|]. split; [apply (K v w u); lra|]. split; [apply (K w u v); lra|]. auto.
  - intros O a b th Ha Hb H. assert (Dn : dbl (nrm O a b th A) (nrm O a b th B) (nrm O a b th C) <> 0) by (intros K; apply D; rewrite <- (nrm_dbl O a b th) by auto; rewrite K; ring).
    destruct (disc_in_triangle_area _ _ _ Dn (nrm_in_triangle O a b th A B C Ha Hb D H)) as (L1 & L2). pose proof (nrm_dbl O a b th A B C Ha Hb) as ND. set (d := dbl (nrm _ _ _ _ _) _ _) in *.
    assert (AE : ea e' * eb e' * (6 * sqrt 3) = Rabs (dbl A B C)) by lra. rewrite <- ND, Rabs_mult, (Rabs_pos_eq (a * b)) in AE by nra.
    assert (DA : Rabs d * Rabs d = d * d) by (rewrite <- Rabs_mult; apply Rabs_pos_eq; nra). assert (GE : 6 * sqrt 3 <= Rabs d). { apply Rsqr_incr_0; [unfold Rsqr; rewrite DA; replace (6 * sqrt 3 * (6 * sqrt 3)) with (36 * (sqrt 3 * sqrt 3)) by ring; lra|lra|apply Rabs_pos]. }
    assert (Pab : 0 < a * b) by (apply Rmult_lt_0_compat; auto). assert (LE : a * b <= ea e' * eb e') by (apply Rmult_le_reg_r with (6 * sqrt 3); [lra|]; rewrite AE, Rmult_comm; rewrite (Rmult_comm (Rabs d)); rewrite (Rmult_comm (6 * sqrt 3)); apply Rmult_le_compat_l; lra).
    split; [rewrite !Rmult_assoc; apply Rmult_le_compat_l; lra|]. intros EQ M. rewrite !Rmult_assoc in EQ. apply Rmult_eq_reg_l in EQ; [|lra]. rewrite <- EQ in AE. rewrite (Rmult_comm (Rabs d)) in AE. apply Rmult_eq_reg_l in AE; [|lra].
    assert (D108 : d * d = 108) by (rewrite <- DA, <- AE; replace (6 * sqrt 3 * (6 * sqrt 3)) with (36 * (sqrt 3 * sqrt 3)) by ring; lra). pose proof (regular_forms _ _ _ _ _ _ _ _ _ _ A B C D (L2 D108) R4 M). lra.
  - intros O a b th Ha Hb F. inversion F as [|? ? F1 F']; subst. inversion F' as [|? ? F2 F'']; subst. inversion F'' as [|? ? F3 _]; subst. unfold in_ellipse in F1, F2, F3. rewrite nrm_form in F1, F2, F3. 
    destruct (three_in_disc _ _ _ F1 F2 F3) as (L1 & L2). pose proof (nrm_dbl O a b th A B C Ha Hb) as ND. set (d := dbl (nrm _ _ _ _ _) _ _) in *.
    assert (AE : ea e * eb e * (3 * sqrt 3 / 2) = Rabs (dbl A B C)) by lra. rewrite <- ND, Rabs_mult, (Rabs_pos_eq (a * b)) in AE by nra.
    assert (DA : Rabs d * Rabs d = d * d) by (rewrite <- Rabs_mult; apply Rabs_pos_eq; nra). assert (GE : Rabs d <= 3 * sqrt 3 / 2). { apply Rsqr_incr_0; [unfold Rsqr; rewrite DA; replace (3 * sqrt 3 / 2 * (3 * sqrt 3 / 2)) with (9 * (sqrt 3 * sqrt 3) / 4) by field; lra|apply Rabs_pos|lra]. }
    assert (Pab : 0 < a * b) by (apply Rmult_lt_0_compat; auto). assert (LE : ea e * eb e <= a * b) by (apply Rmult_le_reg_r with (3 * sqrt 3 / 2); [lra|]; rewrite AE; rewrite (Rmult_comm (Rabs d)); apply Rmult_le_compat_l; lra).
    split; [rewrite !Rmult_assoc; apply Rmult_le_compat_l; lra|]. intros EQ M. rewrite !Rmult_assoc in EQ. apply Rmult_eq_reg_l in EQ; [|lra]. rewrite <- EQ in AE. rewrite (Rmult_comm (Rabs d)) in AE. apply Rmult_eq_reg_l in AE; [|lra].
    assert (D108 : d * d = 27 / 4) by (rewrite <- DA, <- AE; replace (3 * sqrt 3 / 2 * (3 * sqrt 3 / 2)) with (9 * (sqrt 3 * sqrt 3) / 4) by field; lra). pose proof (regular_forms _ _ _ _ _ _ _ _ _ _ A B C D (L2 D108) R1 M). lra.
  - fold (dbl A B C). rewrite Rmult_assoc. replace (ea e' * eb e') with (Rabs (dbl A B C) / (6 * sqrt 3)). { field. lra. } replace (Rabs (dbl A B C)) with (ea e' * eb e' * (6 * sqrt 3)) by lra. field. lra.
  - rewrite !Rmult_assoc, AA. ring.
  - congruence.
  - assert (EU : eO e = eO e' /\ ea e = 2 * ea e' /\ eb e = 2 * eb e' /\ (forall M, ell_form (eO e) (ea e) (eb e) (ell_th e) M = ell_form (eO e') (2 * ea e') (2 * eb e') (ell_th e') M) /\ (eb e < ea e -> cos (2 * ell_th e) = cos (2 * ell_th e') /\ sin (2 * ell_th e) = sin (2 * ell_th e'))); [|tauto].
    apply ellipse_unique; [lra|lra|]. intros M HM. unfold on_ellipse in *. transitivity (ell_form (eO e') (ea e') (eb e') (ell_th e') M / 4); [unfold ell_form; field; lra|]. rewrite FF, HM. field.
  - assert (EU : eO e = eO e' /\ ea e = 2 * ea e' /\ eb e = 2 * eb e' /\ (forall M, ell_form (eO e) (ea e) (eb e) (ell_th e) M = ell_form (eO e') (2 * ea e') (2 * eb e') (ell_th e') M) /\ (eb e < ea e -> cos (2 * ell_th e) = cos (2 * ell_th e') /\ sin (2 * ell_th e) = sin (2 * ell_th e'))); [|tauto].
    apply ellipse_unique; [lra|lra|]. intros M HM. unfold on_ellipse in *. transitivity (ell_form (eO e') (ea e') (eb e') (ell_th e') M / 4); [unfold ell_form; field; lra|]. rewrite FF, HM. field.
  - exact FF.
Qed.

(** ** Tangents of the circumellipse at the vertices *)
Lemma steiner_tangents A B C : ~ collinear A B C -> allclose A B = false -> allclose A C = false -> allclose B C = false ->
  exists e, steiner_ellipse (mkTri A B C) = Ok (Some e) /\ let tg := ell_tangent (eO e) (ea e) (eb e) (ell_th e) in tg A (vsub C B) /\ tg B (vsub A C) /\ tg C (vsub B A).
Proof.
  intros N E1 E2 E3. destruct (steiner_regular A B C N E1 E2 E3) as (e & e' & He & _ & Hab & _ & _ & _ & R1 & _). exists e. split; [exact He|]. intros tg.
  assert (D : dbl A B C <> 0) by (apply not_collinear_dbl; auto).
  assert (K : forall A B C, dbl A B C <> 0 -> regular 1 (ell_of e A) (ell_of e B) (ell_of e C) -> tg A (vsub C B)).
  { clear - Hab. intros A B C D R1. unfold tg, ell_tangent. split; [|split].
    - unfold on_ellipse. rewrite nrm_form. apply R1.
    - intros Z. apply D. destruct B as [b1 b2], C as [c1 c2]. unfold vsub in Z. cbn in Z. injection Z as Z1 Z2. unfold dbl, scross, vsub. cbn [fst snd]. replace c1 with b1 by lra. replace c2 with b2 by lra. ring.
    - intros k Hk. unfold on_ellipse in Hk. replace (vadd A (vscal k (vsub C B))) with (bary 1 (- k) k A B C) in Hk by (unfold bary; unpt; f_equal; ring). rewrite nrm_form, nrm_bary in Hk by ring. unfold ell_of in R1. rewrite (regular_bary _ _ _ _ _ _ _ R1) in Hk. nra. }
  assert (D2 : dbl B C A <> 0) by (intros Z; apply D; rewrite <- Z; unfold dbl, scross, vsub; cbn [fst snd]; ring). assert (D3 : dbl C A B <> 0) by (intros Z; apply D; rewrite <- Z; unfold dbl, scross, vsub; cbn [fst snd]; ring).
  split; [|split]; apply K; auto; unfold regular in *; intuition lra.
Qed.

(** ** Foci *)
Lemma foci O a b th : 0 < b <= a -> let c := sqrt (a * a - b * b) in let F1 := vadd O (vscal c (cos th, sin th)) in let F2 := vsub O (vscal c (cos th, sin th)) in
  forall M, on_ellipse O a b th M <-> dist M F1 + dist M F2 = 2 * a.
Proof.
  intros Hab c F1 F2 M. assert (Hc : c * c = a * a - b * b) by (apply sqrt_sqrt; nra). assert (C0 : 0 <= c) by apply sqrt_pos. assert (Ca : c < a) by nra.
  set (X := fx O th M). set (Y := fy O th M). pose proof (sin2_cos2 th) as T. unfold Rsqr in T.
  assert (XY : X * X + Y * Y = (fst M - fst O) * (fst M - fst O) + (snd M - snd O) * (snd M - snd O)). { unfold X, Y, fx, fy. set (p := fst M - fst O). set (q := snd M - snd O). transitivity ((p * p + q * q) * (sin th * sin th + cos th * cos th)); [ring|rewrite T; ring]. }
  assert (D1 : dist M F1 * dist M F1 = (X - c) * (X - c) + Y * Y).
  { rewrite dist_sq. unfold F1. unspec. replace ((X - c) * (X - c) + Y * Y) with (X * X + Y * Y - 2 * c * X + c * c * 1) by ring. rewrite <- T, XY. unfold X, fx. ring. }
  assert (D2 : dist M F2 * dist M F2 = (X + c) * (X + c) + Y * Y).
  { rewrite dist_sq. unfold F2. unspec. replace ((X + c) * (X + c) + Y * Y) with (X * X + Y * Y + 2 * c * X + c * c * 1) by ring. rewrite <- T, XY. unfold X, fx. ring. }
  pose proof (dist_nonneg M F1) as P1. pose proof (dist_nonneg M F2) as P2. set (d1 := dist M F1) in *. set (d2 := dist M F2) in *. clearbody d1 d2.
  assert (EQ : on_ellipse O a b th M <-> X * X * (b * b) + Y * Y * (a * a) = a * a * (b * b)).
  { unfold on_ellipse, ell_form. fold X Y. split; intros E.
    - transitivity (a * a * (b * b) * ((X / a) ^ 2 + (Y / b) ^ 2)); [field; lra|rewrite E; ring].
    - apply Rmult_eq_reg_l with (a * a * (b * b)); [|assert (0 < a * a * (b * b)) by (repeat apply Rmult_lt_0_compat; lra); lra]. rewrite <- E at 2. field. lra. }
  rewrite EQ. assert (Ha2 : 0 < a * a) by nra. split; intros E.
  - assert (XA : - a <= X <= a) by (assert (X * X * (b * b) <= a * a * (b * b)) by nra; assert (X * X <= a * a) by (apply Rmult_le_reg_r with (b * b); nra); split; nra).
    set (t := c * X / a). assert (AT : a * t = c * X) by (unfold t; field; lra). assert (TA : - a <= t <= a) by (split; nra).
    assert (S1 : d1 * d1 = (a - t) * (a - t)). { rewrite D1. apply Rmult_eq_reg_l with (a * a); [|lra]. replace (a * a * ((a - t) * (a - t))) with ((a * a - a * t) * (a * a - a * t)) by ring. rewrite AT. nra. }
    assert (S2 : d2 * d2 = (a + t) * (a + t)). { rewrite D2. apply Rmult_eq_reg_l with (a * a); [|lra]. replace (a * a * ((a + t) * (a + t))) with ((a * a + a * t) * (a * a + a * t)) by ring. rewrite AT. nra. }
    assert (d1 = a - t) by (apply Rsqr_inj; [lra|lra|exact S1]). assert (d2 = a + t) by (apply Rsqr_inj; [lra|lra|exact S2]). lra.
  - assert (DD : a * (d2 - d1) = 2 * (c * X)) by nra. assert (DE : a * d1 = a * a - c * X) by nra. assert (SQ : (a * d1) * (a * d1) = (a * a - c * X) * (a * a - c * X)) by (rewrite DE; ring). replace (a * d1 * (a * d1)) with (a * a * (d1 * d1)) in SQ by ring. rewrite D1 in SQ. nra.
Qed.

(** ** Marden's theorem *)
Lemma regular_moments p q r : regular 4 p q r -> fst p * fst p + fst q * fst q + fst r * fst r = 6 /\ snd p * snd p + snd q * snd q + snd r * snd r = 6 /\ fst p * snd p + fst q * snd q + fst r * snd r = 0.
Proof.
  intros H. destruct (regular_dots _ _ _ _ H) as (Dt & _ & _). pose proof (regular_dbl _ _ _ _ H) as DB. destruct H as (H1 & H2 & _ & E1 & E2). assert (F1 : fst r = - (fst p + fst q)) by lra. assert (F2 : snd r = - (snd p + snd q)) by lra. unfold sdot, dbl, scross, vsub in *. cbn [fst snd] in *. rewrite F1, F2 in *. clear F1 F2 E1 E2.
  destruct p as [p1 p2], q as [q1 q2]. cbn [fst snd] in *. set (w := p1 * q2 - p2 * q1). assert (W : w * w = 12) by (unfold w; nra).
  assert (I1 : (p1 * p1 + p2 * p2) * (q1 * q1) - 2 * (p1 * q1 + p2 * q2) * (p1 * q1) + (q1 * q1 + q2 * q2) * (p1 * p1) = w * w) by (unfold w; ring).
  assert (I2 : (p1 * p1 + p2 * p2) * (q2 * q2) - 2 * (p1 * q1 + p2 * q2) * (p2 * q2) + (q1 * q1 + q2 * q2) * (p2 * p2) = w * w) by (unfold w; ring).
  assert (I3 : (p1 * p1 + p2 * p2) * (q1 * q2) - (p1 * q1 + p2 * q2) * (p1 * q2 + p2 * q1) + (q1 * q1 + q2 * q2) * (p1 * p2) = 0) by ring.
  rewrite H1, H2, Dt in I1, I2, I3. rewrite W in I1, I2. repeat split; lra.
Qed.

Lemma marden A B C : ~ collinear A B C -> allclose A B = false -> allclose A C = false -> allclose B C = false ->
  exists e' F1 F2, steiner_inellipse (mkTri A B C) = Ok (Some e') /\
    (forall M, on_ellipse (eO e') (ea e') (eb e') (ell_th e') M <-> dist M F1 + dist M F2 = 2 * ea e') /\
    forall z, (RtoC 3 * (z - F1) * (z - F2) = (z - A) * (z - B) + (z - B) * (z - C) + (z - C) * (z - A))%C.
Proof.
  intros N E1 E2 E3. destruct (steiner_regular A B C N E1 E2 E3) as (e & e' & _ & He' & _ & Hab & _ & HO & _ & R4). set (a := ea e') in *. set (b := eb e') in *. set (th := ell_th e') in *. set (O := eO e') in *. set (c := sqrt (a * a - b * b)).
  exists e', (vadd O (vscal c (cos th, sin th))), (vsub O (vscal c (cos th, sin th))). split; [exact He'|]. split; [apply foci; exact Hab|]. intros z.
  assert (Hc : c * c = a * a - b * b) by (apply sqrt_sqrt; nra). destruct (regular_moments _ _ _ R4) as (M1 & M2 & M3). pose proof (sin2_cos2 th) as T. unfold Rsqr in T.
  (* the vertices *)
  assert (V : forall P, fst P = fst O + a * fst (ell_of e' P) * cos th - b * snd (ell_of e' P) * sin th /\ snd P = snd O + a * fst (ell_of e' P) * sin th + b * snd (ell_of e' P) * cos th).
  { intros P. unfold ell_of, nrm. cbn [fst snd]. fold O a b th. unfold fx, fy. set (p := fst P - fst O). set (q := snd P - snd O). split.
    - transitivity (fst O + p * (sin th * sin th + cos th * cos th)); [rewrite T; unfold p; ring|]. field. lra.
    - transitivity (snd O + q * (sin th * sin th + cos th * cos th)); [rewrite T; unfold q; ring|]. field. lra. }
  destruct (V A) as (A1 & A2). destruct (V B) as (B1 & B2). destruct (V C) as (C1 & C2). destruct R4 as (_ & _ & _ & Z1 & Z2).
  destruct (ell_of e' A) as [p1 p2], (ell_of e' B) as [q1 q2], (ell_of e' C) as [r1 r2]. cbn [fst snd] in *. assert (Er1 : r1 = - (p1 + q1)) by lra. assert (Er2 : r2 = - (p2 + q2)) by lra. subst r1 r2.
  destruct A as [x1 y1], B as [x2 y2], C as [x3 y3]. cbn [fst snd] in *. subst x1 y1 x2 y2 x3 y3. destruct O as [o1 o2], z as [z1 z2]. unfold vadd, vsub, vscal, Cmul, Cadd, Csub, RtoC. cbn [fst snd]. set (k := cos th) in *. set (s := sin th) in *. clearbody k s c. clear He' HO V N E1 E2 E3.
  assert (N1 : p1 * p1 + p1 * q1 + q1 * q1 = 3) by lra. assert (N2 : p2 * p2 + p2 * q2 + q2 * q2 = 3) by lra. assert (N3 : 2 * (p1 * p2) + p1 * q2 + p2 * q1 + 2 * (q1 * q2) = 0) by lra.
  f_equal.
  - transitivity (3 * ((z1 - o1) * (z1 - o1) - (z2 - o2) * (z2 - o2)) - 3 * (c * c) * (k * k - s * s)); [ring|]. rewrite Hc.
    transitivity (3 * ((z1 - o1) * (z1 - o1) - (z2 - o2) * (z2 - o2)) - (k * k - s * s) * (a * a * (p1 * p1 + p1 * q1 + q1 * q1) - b * b * (p2 * p2 + p2 * q2 + q2 * q2)) + 2 * a * b * k * s * (2 * (p1 * p2) + p1 * q2 + p2 * q1 + 2 * (q1 * q2))); [rewrite N1, N2, N3; ring|ring].
  - transitivity (6 * ((z1 - o1) * (z2 - o2)) - 3 * (c * c) * (2 * k * s)); [ring|]. rewrite Hc.
    transitivity (6 * ((z1 - o1) * (z2 - o2)) - 2 * k * s * (a * a * (p1 * p1 + p1 * q1 + q1 * q1) - b * b * (p2 * p2 + p2 * q2 + q2 * q2)) - a * b * (k * k - s * s) * (2 * (p1 * p2) + p1 * q2 + p2 * q1 + 2 * (q1 * q2))); [rewrite N1, N2, N3; ring|ring].
Qed.

(** ** The triangle of vertices (0,0), (4,0), (0,3) *)
Lemma T345_disc : forall M, in_ellipse (1, 1) (1 / 2) (1 / 2) 0 M -> in_closed_triangle (0, 0) (4, 0) (0, 3) M.
Proof.
  intros [x y] H. unfold in_ellipse, ell_form, fx, fy in H. cbn [fst snd] in H. rewrite cos_0, sin_0 in H. exists (1 - x / 4 - y / 3), (x / 4), (y / 3).
  assert (H' : (x - 1) * (x - 1) + (y - 1) * (y - 1) <= 1 / 4) by lra. pose proof (Rle_0_sqr (x - 1)) as S1. pose proof (Rle_0_sqr (y - 1)) as S2. unfold Rsqr in S1, S2. assert (1 / 2 <= x <= 3 / 2) by (split; nra). assert (1 / 2 <= y <= 3 / 2) by (split; nra). split; [lra|]. split; [lra|]. split; [lra|]. split; [lra|]. unfold bary. f_equal; cbn [fst snd]; field.
Qed.
Lemma T345_box : Forall (in_ellipse (2, 1) 3 3 0) [(0, 0); (4, 0); (0, 3)].
Proof. repeat constructor; unfold in_ellipse, ell_form, fx, fy; cbn [fst snd]; rewrite cos_0, sin_0; lra. Qed.
Lemma T345_marden : exists e' F1 F2, steiner_inellipse (mkTri (0, 0) (4, 0) (0, 3)) = Ok (Some e') /\
  (forall M, on_ellipse (eO e') (ea e') (eb e') (ell_th e') M <-> dist M F1 + dist M F2 = 2 * ea e') /\ forall z, (RtoC 3 * (z - F1) * (z - F2) = RtoC 3 * z * z - (8, 6) * z + (0, 12))%C.
Proof.
  destruct (T345_close) as (K1 & K2 & K3). destruct (marden _ _ _ T345_nc K1 K2 K3) as (e & F1 & F2 & H1 & H2 & H3). exists e, F1, F2. split; [exact H1|]. split; [exact H2|]. intros z. rewrite H3. destruct z as [x y]. unfold Cmul, Cadd, Csub, RtoC. cbn [fst snd]. f_equal; ring.
Qed.
