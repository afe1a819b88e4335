(** * Elliptical billiard: a starting direction for which the script raises, and a
    concrete trajectory. *)

From Coq Require Import Reals List Bool ZArith Lra Lia Field.
From Verif Require Import Base BaseLemmas Spec SpecLemmas ModelInternal ModelLine ModelCircle ModelAffine ModelEllipse
  ModelBilliard PLine PCircle PEllipse PEllipse2 PEllipseEx PBilliard.
Import ListNotations.
Local Open Scope R_scope.

Lemma std_frame e P : std_ell e -> affine_transform (frame_map (eO e) (ea e) (eb e) (ell_th e)) P = (ea e * fst P, eb e * snd P).
Proof.
  intros Hs. rewrite (std_th e Hs). destruct Hs as (-> & _). unfold frame_map, affine_transform, mv2, cols. cbn [afA afb m11 m12 m21 m22 vscal fst snd].
  rewrite cos_0, sin_0. unpt. f_equal; ring.
Qed.

Lemma vsub_00 A : vsub A (0, 0) = A.
Proof. destruct A; unfold vsub; cbn; f_equal; ring. Qed.
Lemma vadd_00 A : vadd A (0, 0) = A.
Proof. destruct A; unfold vadd; cbn; f_equal; ring. Qed.

Lemma std_iel e l I : std_ell e ->
  let A := (fst (lA l) / ea e, snd (lA l) / eb e) in
  let B := (fst (lB l) / ea e, snd (lB l) / eb e) in
  intersection_ellipse_line e l = Ok I -> allclose A B = false /\
   exists J, circle_line_intersection_ A B 1 = Ok J /\
     I = match J with INone => INone | IOne P => IOne (ea e * fst P, eb e * snd P)
         | ITwo P Q => ITwo (ea e * fst P, eb e * snd P) (ea e * fst Q, eb e * snd Q) end.
Proof.
  intros Hs A B. pose proof Hs as (HO & Hal & Ha & Hb).
  destruct (iel_unfold e l Ha Hb) as (g & Hgf & Hfg & K).
  assert (G : forall P, affine_transform g P = (fst P / ea e, snd P / eb e)).
  { intros P. rewrite <- (Hgf (fst P / ea e, snd P / eb e)). f_equal. rewrite (std_frame e _ Hs). destruct P; cbn [fst snd]. f_equal; field; lra. }
  destruct K as [[_ ->]|(l' & EA & EB & Hne & Hcl & _ & ->)]; [discriminate|]. rewrite G in EA, EB. fold A in EA. fold B in EB.
  unfold intersection_circle_line. cbn [cO cr]. rewrite EA, EB in *.
  rewrite (vsub_00 A), (vsub_00 B).
  destruct (circle_line_intersection_ A B 1) as [J|]; [|discriminate]. cbn [bind].
  intros E. split; auto. exists J. split; auto. destruct J as [|P|P Q]; cbn [bind] in E; rewrite ?vadd_00, ?(std_frame e _ Hs) in E; injection E as <-; auto.
Qed.

Lemma std_iel_fwd e l J : std_ell e ->
  let A := (fst (lA l) / ea e, snd (lA l) / eb e) in
  let B := (fst (lB l) / ea e, snd (lB l) / eb e) in
  allclose A B = false -> circle_line_intersection_ A B 1 = Ok J ->
  intersection_ellipse_line e l = Ok (match J with INone => INone | IOne P => IOne (ea e * fst P, eb e * snd P)
         | ITwo P Q => ITwo (ea e * fst P, eb e * snd P) (ea e * fst Q, eb e * snd Q) end).
Proof.
  intros Hs A B Hcl HJ. pose proof Hs as (HO & Hal & Ha & Hb).
  destruct (iel_unfold e l Ha Hb) as (g & Hgf & Hfg & K).
  assert (G : forall P, affine_transform g P = (fst P / ea e, snd P / eb e)).
  { intros P. rewrite <- (Hgf (fst P / ea e, snd P / eb e)). f_equal. rewrite (std_frame e _ Hs). destruct P; cbn [fst snd]. f_equal; field; lra. }
  destruct K as [[K _]|(l' & EA & EB & Hne & _ & _ & ->)]. { rewrite !G in K. fold A B in K. congruence. }
  rewrite G in EA, EB. fold A in EA. fold B in EB.
  unfold intersection_circle_line. cbn [cO cr]. rewrite EA, EB in *.
  rewrite (vsub_00 A), (vsub_00 B).
  rewrite HJ. cbn [bind]. destruct J as [|P|P Q]; cbn [bind]; rewrite ?vadd_00, ?(std_frame e _ Hs); auto.
Qed.

(** the second of the two points is the lower one *)
Lemma iel_order e l I0 I1 : std_ell e -> snd (lA l) <> snd (lB l) -> intersection_ellipse_line e l = Ok (ITwo I0 I1) -> snd I1 < snd I0.
Proof.
  intros Hs Hy E. pose proof Hs as (HO & Hal & Ha & Hb). destruct (std_iel e l _ Hs E) as (_ & J & HJ & EI).
  destruct J as [|P|P Q]; try discriminate. injection EI as -> ->. cbn [snd].
  apply Rmult_lt_compat_l; auto. revert HJ. unfold circle_line_intersection_. cbn [fst snd].
  destruct (ltb _ 0); [discriminate|]. destruct (eqb _ 0) eqn:E0; [discriminate|]. apply eqb_false in E0.
  set (dx := fst (lB l) / ea e - fst (lA l) / ea e) in *. set (dy := snd (lB l) / eb e - snd (lA l) / eb e) in *.
  set (D := det2x2_ _ _). destruct (ltb _ sepsilon_) eqn:E1; [discriminate|]. apply ltb_false in E1. intros K. injection K as <- <-. cbn [snd].
  assert (Hdy : dy <> 0). { unfold dy. intros K. apply Hy. apply Rmult_eq_reg_r with (/ eb e); [|apply Rinv_neq_0_compat; lra]. unfold Rdiv in K. lra. }
  set (S := sqrt _). assert (HS : 0 < S). { apply sqrt_lt_R0. unfold sepsilon_ in E1. lra. }
  pose proof (Rabs_pos_lt _ Hdy). pose proof (sqnn dx). pose proof (sqpos _ Hdy).
  unfold Rdiv. apply Rmult_lt_compat_r; [apply Rinv_0_lt_compat; lra|]. nra.
Qed.

(** from a point of the ellipse, in a direction going up into the ellipse, the
    script raises as soon as two segments are asked for *)
Lemma billiard_upward e k P0 v0 s : std_ell e -> on_ellipse (0, 0) (ea e) (eb e) 0 P0 -> 0 < snd v0 ->
  0 < s -> on_ellipse (0, 0) (ea e) (eb e) 0 (vadd P0 (vscal s v0)) ->
  exists x, billiard_trajectory e (S k) P0 v0 = Raise x.
Proof.
  intros Hs HP Hv Hpos HN. destruct (billiard_trajectory e (S k) P0 v0) as [segs|x] eqn:E; [exfalso|eauto].
  unfold billiard_trajectory in E. destruct (Line_init_cases P0 (vadd P0 v0) true true) as [[Hl El]|[_ El]]; rewrite El in E; [|discriminate]. cbn [bind] in E.
  set (l := mkLine P0 (vadd P0 v0) true true) in *.
  destruct (intersection_ellipse_line e l) as [[|I|I0 I1]|] eqn:Ei; try discriminate. cbn [bind two_points] in E.
  assert (Hy : snd (lA l) <> snd (lB l)) by (unfold l; cbn [lA lB vadd snd]; lra).
  assert (Ord := iel_order e l I0 I1 Hs Hy Ei).
  destruct (two_chord e l I0 I1 Hs Ei) as (Hne & E0 & E1 & L0 & L1 & All). cbn [l lA lB] in All.
  assert (P0 = I1) as <-.
  { assert (A0 : on_line P0 (vadd P0 v0) P0) by (exists 0; unfold at_line; destruct P0; unpt; f_equal; ring).
    assert (A1 : on_line P0 (vadd P0 v0) (vadd P0 (vscal s v0))) by (exists s; unfold at_line; destruct P0, v0; unpt; f_equal; ring).
    destruct (All _ A0 HP) as [K|K]; auto. destruct (All _ A1 HN) as [K'|K'].
    - exfalso. rewrite <- K in K'. apply (f_equal snd) in K'. cbn [vadd vscal snd] in K'. nra.
    - exfalso. rewrite <- K, <- K' in Ord. cbn [vadd vscal snd] in Ord. nra. }
  destruct (Line_init_cases I0 P0 true true) as [[_ El2]|[_ El2]]; rewrite El2 in E; [|discriminate]. cbn [bind billiard_loop] in E.
  destruct (billiard_step e P0 P0) as [[seg Q1]|] eqn:Est; [|discriminate].
  destruct (billiard_step_spec e P0 P0 seg Q1 Hs HP Est) as (K & _). apply K; auto.
Qed.

(** ** A concrete trajectory *)
Lemma theta2t_total e Q : 0 < ea e -> 0 < eb e -> snd Q <> 0 -> exists t, theta2t e (atan2 (snd Q) (fst Q)) false = Ok t.
Proof.
  intros Ha Hb HQ. destruct Q as [x y]; cbn [fst snd] in *. assert (HQ0 : (x, y) <> (0, 0)) by (intros K; injection K; auto).
  destruct (cos_sin_atan2 y x HQ0) as [C S]. set (theta := atan2 y x) in *. pose proof (atan2_range y x) as Hr. fold theta in Hr. pose proof PI_RGT_0.
  assert (Hn : sin theta <> 0).
  { rewrite S. assert (0 < x * x + y * y) by (pose proof (sqpos _ HQ); pose proof (sqnn x); lra). pose proof (sqrt_lt_R0 _ H0).
    unfold Rdiv. apply Rmult_integral_contrapositive_currified; auto. apply Rinv_neq_0_compat. lra. }
  assert (Hne : theta <> 0) by (intros K; apply Hn; rewrite K; apply sin_0).
  assert (HneP : theta <> PI) by (intros K; apply Hn; rewrite K; apply sin_PI).
  assert (exists tau m, radians false theta = tau + IZR m * (2 * PI) /\ 0 < tau < 2 * PI /\ tau <> PI) as (tau & m & H1 & H2 & H3).
  { unfold radians. destruct (Rlt_le_dec 0 theta); [exists theta, 0%Z; repeat split; try lra|].
    exists (theta + 2 * PI), (-1)%Z. repeat split; try lra. }
  destruct (theta2t_frame e theta false tau m Ha Hb H1 H2 H3) as (t & E & _). eauto.
Qed.

Lemma billiard_step_eval e P Q v I0 I1 : std_ell e -> on_ellipse (0, 0) (ea e) (eb e) 0 Q -> snd Q <> 0 ->
  (let N := (eb e * eb e * fst Q, ea e * ea e * snd Q) in
   v = vsub (vsub Q P) (vscal (2 * sdot N (vsub Q P) / sdot N N) N)) ->
  allclose Q (vadd Q v) = false ->
  intersection_ellipse_line e (mkLine Q (vadd Q v) true true) = Ok (ITwo I0 I1) -> allclose I0 I1 = false ->
  billiard_step e P Q = Ok (mkLine I0 I1 true true, if allclose Q I0 then I1 else I0).
Proof.
  intros Hs HQ Hy Ev Hc1 Ei Hc2. pose proof Hs as (HO & Hal & Ha & Hb). unfold billiard_step.
  destruct (theta2t_total e Q Ha Hb Hy) as (t & Et). rewrite Et. cbn [bind].
  destruct (billiard_normal e Q t Hs HQ Et) as (c & Hc & En & Hn).
  assert (EV : billiard_reflect (vsub Q P) (ellipse_normal e t) = v).
  { rewrite Ev. cbv zeta. set (N := (eb e * eb e * fst Q, ea e * ea e * snd Q)) in *. set (w := vsub Q P).
    assert (En' : ellipse_normal e t = vscal c N) by (rewrite En; unfold N; unpt; auto).
    rewrite En' in Hn |- *. assert (HN : c * c * sdot N N = 1) by (rewrite <- Hn; unfold sdot; unpt; ring).
    assert (sdot N N <> 0) by (intros K; rewrite K in HN; lra).
    unfold billiard_reflect. f_equal. unfold dot_. 
    assert (X : 2 * sdot N w / sdot N N = 2 * sdot N w * (c * c)).
    { transitivity (2 * sdot N w / sdot N N * (c * c * sdot N N)); [rewrite HN; ring|field; auto]. }
    rewrite X. unfold sdot. unpt. f_equal; ring. }
  rewrite EV. destruct (Line_init_cases Q (vadd Q v) true true) as [[_ ->]|[K _]]; [|congruence]. cbn [bind]. rewrite Ei. cbn [bind two_points].
  destruct (Line_init_cases I0 I1 true true) as [[_ ->]|[K _]]; [|congruence]. cbn [bind]. auto.
Qed.

Lemma ITwo_eq a b c d a' b' c' d' : a = a' -> b = b' -> c = c' -> d = d' ->
  Ok (ITwo (a, b) (c, d)) = Ok (ITwo (a', b') (c', d')).
Proof. intros; subst; auto. Qed.

Lemma circ_two A B S : let dx := fst B - fst A in let dy := snd B - snd A in
  let D := fst A * snd B - fst B * snd A in let Delta := dx * dx + dy * dy - D * D in
  sepsilon_ <= Delta -> dx * dx + dy * dy <> 0 -> 0 <= S -> S * S = Delta ->
  circle_line_intersection_ A B 1 = let sgn := if ltb dy 0 then -1 else 1 in
    Ok (ITwo ((D * dy + sgn * dx * S) / (dx * dx + dy * dy), (- D * dx + Rabs dy * S) / (dx * dx + dy * dy))
             ((D * dy - sgn * dx * S) / (dx * dx + dy * dy), (- D * dx - Rabs dy * S) / (dx * dx + dy * dy))).
Proof.
  intros dx dy D Delta H1 H2 HS0 HS. unfold circle_line_intersection_, det2x2_. fold dx dy D. replace (1 * 1 * (dx * dx + dy * dy) - D * D) with Delta by (unfold Delta; ring).
  unfold sepsilon_ in *. rewrite (proj2 (ltb_false Delta 0)) by lra. rewrite (proj2 (eqb_false _ 0)) by auto. rewrite (proj2 (ltb_false Delta _)) by lra.
  replace (sqrt Delta) with S; auto. rewrite <- HS. rewrite sqrt_square; auto.
Qed.

Lemma ex_billiard d : let e := mkEllipse (0, 0) 4 3 0 d in
  billiard_trajectory e 2 (16 / 5, 9 / 5) (1, 0) =
    Ok [mkLine (16 / 5, 9 / 5) (- (16 / 5), 9 / 5) true true; mkLine (- (16 / 5), 9 / 5) (- (16 / 5), - (9 / 5)) true true;
        mkLine (16 / 5, - (9 / 5)) (- (16 / 5), - (9 / 5)) true true].
Proof.
  intros e. assert (Hs : std_ell e) by (unfold std_ell, e; cbn; repeat split; lra).
  assert (F : forall P Q, Rabs (fst P - fst Q) > / 100000000 + / 100000 * Rabs (fst Q) \/ Rabs (snd P - snd Q) > / 100000000 + / 100000 * Rabs (snd Q) -> allclose P Q = false).
  { intros P Q [H|H]; unfold allclose, allclose1; [rewrite (proj2 (leb_false _ _)) by lra; auto|rewrite andb_comm, (proj2 (leb_false _ _)) by lra; auto]. }
  assert (HQ1 : on_ellipse (0, 0) (ea e) (eb e) 0 (- (16 / 5), 9 / 5)) by (apply std_on; cbn; lra).
  assert (HQ2 : on_ellipse (0, 0) (ea e) (eb e) 0 (- (16 / 5), - (9 / 5))) by (apply std_on; cbn; lra).
  (* the three intersections *)
  assert (I1 : intersection_ellipse_line e (mkLine (16 / 5, 9 / 5) (vadd (16 / 5, 9 / 5) (1, 0)) true true) = Ok (ITwo (16 / 5, 9 / 5) (- (16 / 5), 9 / 5))).
  { erewrite (std_iel_fwd e _ (ITwo (4 / 5, 3 / 5) (- (4 / 5), 3 / 5))); auto.
    - cbn [e ea eb fst snd]. apply ITwo_eq; field.
    - apply F. left. cbn [lA lB e ea eb vadd fst snd]. rewrite Rabs_left, Rabs_right; lra.
    - cbn [lA lB e ea eb vadd fst snd]. rewrite (circ_two _ _ (1 / 5)); cbn [fst snd]; unfold sepsilon_; try lra.
      cbv zeta. rewrite (proj2 (ltb_false _ 0)) by lra. rewrite Rabs_right by lra. apply ITwo_eq; field. }
  assert (I2 : intersection_ellipse_line e (mkLine (- (16 / 5), 9 / 5) (vadd (- (16 / 5), 9 / 5) (0, - (32 / 5))) true true) = Ok (ITwo (- (16 / 5), 9 / 5) (- (16 / 5), - (9 / 5)))).
  { erewrite (std_iel_fwd e _ (ITwo (- (4 / 5), 3 / 5) (- (4 / 5), - (3 / 5)))); auto.
    - cbn [e ea eb fst snd]. apply ITwo_eq; field.
    - apply F. right. cbn [lA lB e ea eb vadd fst snd]. rewrite Rabs_right, Rabs_left; lra.
    - cbn [lA lB e ea eb vadd fst snd]. rewrite (circ_two _ _ (32 / 25)); cbn [fst snd]; unfold sepsilon_; try lra.
      cbv zeta. rewrite (proj2 (ltb_true _ 0)) by lra. rewrite Rabs_left by lra. apply ITwo_eq; field. }
  assert (I3 : intersection_ellipse_line e (mkLine (- (16 / 5), - (9 / 5)) (vadd (- (16 / 5), - (9 / 5)) (18 / 5, 0)) true true) = Ok (ITwo (16 / 5, - (9 / 5)) (- (16 / 5), - (9 / 5)))).
  { erewrite (std_iel_fwd e _ (ITwo (4 / 5, - (3 / 5)) (- (4 / 5), - (3 / 5)))); auto.
    - cbn [e ea eb fst snd]. apply ITwo_eq; field.
    - apply F. left. cbn [lA lB e ea eb vadd fst snd]. rewrite Rabs_left, Rabs_right; lra.
    - cbn [lA lB e ea eb vadd fst snd]. rewrite (circ_two _ _ (36 / 50)); cbn [fst snd]; unfold sepsilon_; try lra.
      cbv zeta. rewrite (proj2 (ltb_false _ 0)) by lra. rewrite Rabs_right by lra. apply ITwo_eq; field. }
  unfold billiard_trajectory. unfold Line_init at 1. rewrite F. 2:{ left. cbn [vadd fst]. rewrite Rabs_left, Rabs_right; lra. }
  cbn [bind]. rewrite I1. cbn [bind two_points]. unfold Line_init at 1. rewrite F. 2:{ left. cbn [fst]. rewrite Rabs_right, Rabs_left; lra. }
  cbn [bind billiard_loop].
  rewrite (billiard_step_eval e (16 / 5, 9 / 5) (- (16 / 5), 9 / 5) (0, - (32 / 5)) (- (16 / 5), 9 / 5) (- (16 / 5), - (9 / 5)) Hs HQ1 ltac:(cbn; lra)); [|idtac|idtac|exact I2|idtac].
  2:{ cbv zeta. unfold vsub, vscal, sdot. cbn [e ea eb fst snd]. f_equal; field. }
  2:{ apply F. right. cbn [vadd snd]. rewrite Rabs_right, Rabs_left; lra. }
  2:{ apply F. right. cbn [vadd snd]. rewrite Rabs_right, Rabs_left; lra. }
  cbn [bind]. rewrite allclose_refl.
  rewrite (billiard_step_eval e (- (16 / 5), 9 / 5) (- (16 / 5), - (9 / 5)) (18 / 5, 0) (16 / 5, - (9 / 5)) (- (16 / 5), - (9 / 5)) Hs HQ2 ltac:(cbn; lra)); [|idtac|idtac|exact I3|idtac].
  2:{ cbv zeta. unfold vsub, vscal, sdot. cbn [e ea eb fst snd]. f_equal; field. }
  2:{ apply F. left. cbn [vadd fst]. rewrite Rabs_left, Rabs_right; lra. }
  2:{ apply F. left. cbn [vadd fst]. rewrite Rabs_right, Rabs_left; lra. }
  cbn [bind]. reflexivity.
Qed.
