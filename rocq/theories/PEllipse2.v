(** * Proofs about Ellipse: polar angles, intersection with a line, affine maps
    between ellipses. *)

From Coq Require Import Reals Lra Lia Psatz List Bool ZArith.
From Verif Require Import Base BaseLemmas Spec SpecLemmas ModelInternal ModelLine ModelCircle ModelAffine ModelEllipse ModelTransfo
  PLine PCircle PInvBase PCircle2 PAffine PTransfo PEllipse.
Import ListNotations.
Local Open Scope R_scope.

(** ** C25 *)

Lemma cs_PI_even x (n : Z) : cos (x + IZR (2 * n) * PI) = cos x /\ sin (x + IZR (2 * n) * PI) = sin x.
Proof.
  replace (x + IZR (2 * n) * PI) with (x + IZR n * (2 * PI)) by (rewrite mult_IZR; ring). rewrite cos_period_Z, sin_period_Z. auto.
Qed.
Lemma cs_PI_odd x (n : Z) : cos (x + IZR (2 * n + 1) * PI) = - cos x /\ sin (x + IZR (2 * n + 1) * PI) = - sin x.
Proof.
  replace (x + IZR (2 * n + 1) * PI) with (x + PI + IZR n * (2 * PI)) by (rewrite plus_IZR, mult_IZR; ring).
  rewrite cos_period_Z, sin_period_Z, neg_cos, neg_sin. auto.
Qed.

Lemma sub_pymod_PI x (n : Z) : IZR n * PI <= x < IZR n * PI + PI -> x - pymod x PI = IZR n * PI.
Proof.
  intros H. rewrite (pymod_unique x PI (x - IZR n * PI) n); [ring|apply PI_RGT_0|lra|ring].
Qed.

(** the eccentric angle for a polar angle, up to a half turn *)
Lemma cot_atan2 a b s c : 0 < a -> 0 < b -> s <> 0 -> exists k, 0 < k /\
  a * cos (atan2 (a / b) (c / s)) = k * (c / s) /\ b * sin (atan2 (a / b) (c / s)) = k * 1.
Proof.
  intros Ha Hb Hs. assert (Hab : 0 < a / b) by (apply Rdiv_lt_0_compat; auto).
  destruct (cos_sin_atan2 (a / b) (c / s)) as [H1 H2]; [intros K; injection K; lra|]. rewrite H1, H2.
  set (q := sqrt _). assert (Hq : 0 < q). { unfold q. apply sqrt_lt_R0. pose proof (sqnn (c / s)). nra. }
  exists (a / q). split; [apply Rdiv_lt_0_compat; auto|]. split; field; lra.
Qed.

Definition dir_of (theta : R) : pt := (cos theta, sin theta).

Lemma sep_PI : 0 < sepsilon_ /\ sepsilon_ + sepsilon_ < PI.
Proof. unfold sepsilon_. pose proof PI_4. pose proof PI2_1. lra. Qed.

Lemma pfa_point O a b th (theta tau at2 te : R) (m n : Z) sg :
  0 < a -> 0 < b -> theta = tau + IZR m * (2 * PI) -> sin theta <> 0 ->
  at2 = atan2 (a / b) (cot theta) ->
  te - pymod te PI = IZR n * PI ->
  (exists j, n = 2 * j)%Z /\ sg = 1 \/ (exists j, n = 2 * j + 1)%Z /\ sg = -1 ->
  0 < sg * sin theta ->
  exists k, 0 < k /\ fx O th (ellipse_point_ (at2 + te - pymod te PI) O a b th) = k * cos theta /\
                    fy O th (ellipse_point_ (at2 + te - pymod te PI) O a b th) = k * sin theta.
Proof.
  intros Ha Hb Ht Hs -> Hte Hn Hsg. replace (atan2 (a / b) (cot theta) + te - pymod te PI) with (atan2 (a / b) (cot theta) + IZR n * PI) by lra.
  rewrite fx_ell, fy_ell. unfold cot. destruct (cot_atan2 a b (sin theta) (cos theta) Ha Hb Hs) as (k & Hk & E1 & E2).
  set (t := atan2 _ _) in *. assert (E : cos (t + IZR n * PI) = sg * cos t /\ sin (t + IZR n * PI) = sg * sin t).
  { destruct Hn as [[[j ->] ->]|[[j ->] ->]]; [destruct (cs_PI_even t j) as [-> ->]|destruct (cs_PI_odd t j) as [-> ->]]; split; ring. }
  destruct E as [-> ->]. exists (k * sg / sin theta). split; [|split].
  - replace (k * sg / sin theta) with (k * (sg * sin theta) / (sin theta * sin theta)) by (field; auto). apply Rdiv_lt_0_compat; [nra|apply sqpos; auto].
  - transitivity (sg * (a * cos t)); [ring|rewrite E1; field; auto].
  - transitivity (sg * (b * sin t)); [ring|rewrite E2; field; auto].
Qed.

(** sign of the sine in the two half-turns *)
Lemma sin_halves tau m : 0 < tau < PI \/ PI < tau < 2 * PI ->
  (tau < PI -> 0 < sin (tau + IZR m * (2 * PI))) /\ (PI < tau -> sin (tau + IZR m * (2 * PI)) < 0).
Proof.
  intros H. rewrite sin_period_Z. split; intros K.
  - apply sin_gt_0; lra.
  - apply sin_lt_0; lra.
Qed.

Lemma half_turn tau sgn m : 0 < tau < 2 * PI -> tau <> PI ->
  (sgn = 1 /\ tau <= sepsilon_ \/ sgn = -1 /\ sepsilon_ <= tau) ->
  (tau < PI + sepsilon_ -> (tau + IZR m * (2 * PI) + sepsilon_ * sgn) - pymod (tau + IZR m * (2 * PI) + sepsilon_ * sgn) PI = IZR (2 * m) * PI) /\
  (PI + sepsilon_ <= tau -> (tau + IZR m * (2 * PI) + sepsilon_ * sgn) - pymod (tau + IZR m * (2 * PI) + sepsilon_ * sgn) PI = IZR (2 * m + 1) * PI).
Proof.
  intros Ht HtP H. pose proof sep_PI. split; intros K; apply sub_pymod_PI; rewrite ?plus_IZR, mult_IZR; destruct H as [[-> H1]|[-> H1]]; lra.
Qed.

Lemma point_from_angle_spec e theta d tau m : 0 < ea e -> 0 < eb e ->
  radians d theta = tau + IZR m * (2 * PI) -> 0 <= tau < 2 * PI -> tau <> PI ->
  on_ellipse (eO e) (ea e) (eb e) (ell_th e) (ellipse_point_from_angle e theta d) /\
  exists k, 0 < k /\
    let sg := if ltb PI tau && ltb tau (PI + sepsilon_) then -1 else 1 in
    fx (eO e) (ell_th e) (ellipse_point_from_angle e theta d) = sg * k * cos (radians d theta) /\
    fy (eO e) (ell_th e) (ellipse_point_from_angle e theta d) = sg * k * sin (radians d theta).
Proof.
  intros Ha Hb Hth Ht HtP. unfold ellipse_point_from_angle. rewrite ell_angle_eq.
  replace (if d then theta * (PI / 180) else theta) with (radians d theta) by (unfold radians, deg; destruct d; field).
  set (th := radians d theta) in *. clearbody th. pose proof PI_RGT_0 as HPI. pose proof sep_PI as [He1 He2].
  rewrite (pymod_unique th (2 * PI) tau m) by lra. split; [apply ellipse_point_on; auto|]. cbv zeta.
  destruct (eqb (sin tau) 0) eqn:Es.
  - apply eqb_true in Es. assert (tau = 0).
    { destruct (Req_dec tau 0); auto. destruct (Rlt_le_dec tau PI); [assert (0 < sin tau) by (apply sin_gt_0; lra); lra|].
      assert (sin tau < 0) by (apply sin_lt_0; lra). lra. }
    subst tau. rewrite (proj2 (leb_true 0 sepsilon_)) by lra. rewrite (proj2 (ltb_false PI 0)) by lra. cbn [andb].
    exists (ea e). split; auto. 
    assert (E : 0 + (th + sepsilon_ * 1) - pymod (th + sepsilon_ * 1) PI = IZR (2 * m) * PI).
    { transitivity ((th + sepsilon_ * 1) - pymod (th + sepsilon_ * 1) PI); [ring|]. apply sub_pymod_PI. rewrite mult_IZR. lra. }
    rewrite E, fx_ell, fy_ell, Hth. destruct (cs_PI_even 0 m) as [E1 E2]. rewrite Rplus_0_l in E1, E2. rewrite E1, E2.
    replace (0 + IZR m * (2 * PI)) with (0 + IZR (2 * m) * PI) by (rewrite mult_IZR; ring). rewrite Rplus_0_l, E1, E2, cos_0, sin_0. split; ring.
  - apply eqb_false in Es. assert (H0 : tau <> 0) by (intros ->; apply Es, sin_0).
    assert (Hcot : cot tau = cot th) by (unfold cot; rewrite Hth, cos_period_Z, sin_period_Z; auto). rewrite Hcot.
    assert (Hsn : sin th <> 0) by (rewrite Hth, sin_period_Z; auto).
    destruct (sin_halves tau m) as [S1 S2]; [lra|]. rewrite <- Hth in S1, S2.
    destruct (half_turn tau (if leb tau sepsilon_ then 1 else -1) m) as [T1 T2]; [lra|auto| |].
    { destruct (leb tau sepsilon_) eqn:L; [apply leb_true in L; auto|apply leb_false in L; right; split; auto; lra]. }
    rewrite <- Hth in T1, T2. set (te := th + sepsilon_ * _) in *.
    destruct (Rlt_le_dec tau PI) as [C|C]; [|destruct (Rlt_le_dec tau (PI + sepsilon_)) as [C2|C2]].
    + rewrite (proj2 (ltb_false PI tau)) by lra. cbn [andb].
      destruct (pfa_point (eO e) (ea e) (eb e) (ell_th e) th tau _ te m (2 * m) 1 Ha Hb Hth Hsn eq_refl) as (k & Hk & E1 & E2).
      { apply T1; lra. } { left; split; eauto. } { rewrite Rmult_1_l. apply S1; auto. }
      exists k. split; auto. rewrite E1, E2. split; ring.
    + rewrite (proj2 (ltb_true PI tau)), (proj2 (ltb_true tau _)) by lra. cbn [andb].
      assert (Hth' : sin th < 0) by (apply S2; lra).
      assert (E := T1 C2). replace (atan2 (ea e / eb e) (cot th) + te - pymod te PI) with (atan2 (ea e / eb e) (cot th) + IZR (2 * m) * PI) by lra.
      rewrite fx_ell, fy_ell. destruct (cs_PI_even (atan2 (ea e / eb e) (cot th)) m) as [-> ->]. unfold cot.
      destruct (cot_atan2 (ea e) (eb e) (sin th) (cos th) Ha Hb Hsn) as (k & Hk & -> & ->). exists (k / - sin th). split; [apply Rdiv_lt_0_compat; lra|].
      split; field; auto.
    + rewrite (proj2 (ltb_false tau (PI + sepsilon_))), andb_false_r by lra.
      destruct (pfa_point (eO e) (ea e) (eb e) (ell_th e) th tau _ te m (2 * m + 1) (-1) Ha Hb Hth Hsn eq_refl) as (k & Hk & E1 & E2).
      { apply T2; lra. } { right; split; eauto. } { assert (sin th < 0) by (apply S2; lra). lra. }
      exists k. split; auto. rewrite E1, E2. split; ring.
Qed.

Lemma theta2t_spec e theta d tau m : 0 < ea e -> 0 < eb e ->
  radians d theta = tau + IZR m * (2 * PI) -> 0 < tau < 2 * PI -> tau <> PI ->
  exists t, theta2t e theta d = Ok t /\ ellipse_point_from_angle e theta d = ellipse_point_ t (eO e) (ea e) (eb e) (ell_th e).
Proof.
  intros Ha Hb Hth Ht HtP. unfold theta2t, ellipse_point_from_angle. rewrite ell_angle_eq.
  replace (if d then theta * (PI / 180) else theta) with (radians d theta) by (unfold radians, deg; destruct d; field).
  set (th := radians d theta) in *. clearbody th. pose proof PI_RGT_0 as HPI. pose proof sep_PI as [He1 He2].
  rewrite (pymod_unique th (2 * PI) tau m) by lra. cbv zeta.
  destruct (eqb (sin tau) 0) eqn:Es.
  { exfalso. apply eqb_true in Es. destruct (Rlt_le_dec tau PI); [assert (0 < sin tau) by (apply sin_gt_0; lra); lra|].
    assert (sin tau < 0) by (apply sin_lt_0; lra). lra. }
  eexists. split; [reflexivity|]. f_equal. rewrite (Rmult_comm (if ltb tau sepsilon_ then 1 else -1)).
  destruct (half_turn tau (if leb tau sepsilon_ then 1 else -1) m) as [T1 T2]; [lra|auto| |].
  { destruct (leb tau sepsilon_) eqn:L; [apply leb_true in L; auto|apply leb_false in L; right; split; auto; lra]. }
  destruct (half_turn tau (if ltb tau sepsilon_ then 1 else -1) m) as [U1 U2]; [lra|auto| |].
  { destruct (ltb tau sepsilon_) eqn:L; [apply ltb_true in L; left; split; auto; lra|apply ltb_false in L; right; split; auto]. }
  rewrite <- Hth in *. unfold Rminus in *. rewrite !Rplus_assoc in *. f_equal.
  destruct (Rlt_le_dec tau (PI + sepsilon_)) as [C|C]; [rewrite (T1 C), (U1 C)|rewrite (T2 C), (U2 C)]; auto.
Qed.

Lemma theta2t_zero e (d : bool) (m : Z) : theta2t e (if d then IZR m * 360 else IZR m * (2 * PI)) d = Raise ZeroDivisionError.
Proof.
  unfold theta2t. pose proof PI_RGT_0. rewrite (pymod_unique _ (2 * PI) 0 m).
  - rewrite sin_0, (proj2 (eqb_true 0 0)) by auto. auto.
  - lra.
  - lra.
  - destruct d; field.
Qed.

(** ** C16, C55: the affine map sending the unit circle to the ellipse *)

Definition frame_map (O : pt) (a b th : R) : affine :=
  mkAffine (cols (vscal a (cos th, sin th)) (vscal b (- sin th, cos th))) O.

Lemma frame_map_det O a b th : det2 (afA (frame_map O a b th)) = a * b.
Proof.
  unfold frame_map, det2, cols; cbn [afA m11 m12 m21 m22 fst snd vscal]. pose proof (cs1 th) as H.
  transitivity (a * b * (cos th * cos th + sin th * sin th)); [ring|rewrite H; ring].
Qed.

Lemma frame_map_fx O a b th P : fx O th (affine_transform (frame_map O a b th) P) = a * fst P /\
  fy O th (affine_transform (frame_map O a b th) P) = b * snd P.
Proof.
  destruct P as [x y], O as [p q]. unfold frame_map, affine_transform, mv2, cols, fx, fy; cbn [afA afb m11 m12 m21 m22 fst snd vscal vadd]. pose proof (cs1 th) as H.
  split; [transitivity (a * x * (cos th * cos th + sin th * sin th)); [ring|rewrite H; ring]|
          transitivity (b * y * (cos th * cos th + sin th * sin th)); [ring|rewrite H; ring]].
Qed.

Lemma frame_map_form O a b th P : 0 < a -> 0 < b -> ell_form O a b th (affine_transform (frame_map O a b th) P) = dist2 (0, 0) P.
Proof.
  intros. unfold ell_form. destruct (frame_map_fx O a b th P) as [-> ->]. unspec. field. lra.
Qed.

Lemma frame_map_on O a b th P : 0 < a -> 0 < b ->
  (on_ellipse O a b th (affine_transform (frame_map O a b th) P) <-> on_circle (0, 0) 1 P).
Proof.
  intros. unfold on_ellipse. rewrite frame_map_form by auto. rewrite on_circle_sq by lra. rewrite Rmult_1_r. tauto.
Qed.
Lemma frame_map_in O a b th P : 0 < a -> 0 < b ->
  (in_ellipse O a b th (affine_transform (frame_map O a b th) P) <-> in_disk (0, 0) 1 P).
Proof.
  intros. unfold in_ellipse. rewrite frame_map_form by auto. rewrite in_disk_sq by lra. rewrite Rmult_1_r. tauto.
Qed.

Lemma iel_unfold e l : 0 < ea e -> 0 < eb e -> exists g,
  (forall P, affine_transform g (affine_transform (frame_map (eO e) (ea e) (eb e) (ell_th e)) P) = P) /\
  (forall P, affine_transform (frame_map (eO e) (ea e) (eb e) (ell_th e)) (affine_transform g P) = P) /\
  ((allclose (affine_transform g (lA l)) (affine_transform g (lB l)) = true /\ intersection_ellipse_line e l = Raise ValueError) \/
   exists l', lA l' = affine_transform g (lA l) /\ lB l' = affine_transform g (lB l) /\ lA l' <> lB l' /\ allclose (lA l') (lB l') = false /\
     (forall M, on_line (lA l) (lB l) M <-> on_line (lA l') (lB l') (affine_transform g M)) /\
     intersection_ellipse_line e l = let! Is := intersection_circle_line (mkCircle (0, 0) 1) l' in
        match Is with
        | INone => Ok INone
        | IOne P => Ok (IOne (affine_transform (frame_map (eO e) (ea e) (eb e) (ell_th e)) P))
        | ITwo P Q => Ok (ITwo (affine_transform (frame_map (eO e) (ea e) (eb e) (ell_th e)) P) (affine_transform (frame_map (eO e) (ea e) (eb e) (ell_th e)) Q))
        end).
Proof.
  intros Ha Hb. unfold intersection_ellipse_line. rewrite ell_angle_eq. unfold unit_vector_; cbn [fst snd].
  change (mkAffine (cols (vscal (ea e) (cos (ell_th e), sin (ell_th e))) (vscal (eb e) (- sin (ell_th e), cos (ell_th e)))) (eO e)) with (frame_map (eO e) (ea e) (eb e) (ell_th e)).
  set (f := frame_map _ _ _ _). assert (Hd : det2 (afA f) <> 0) by (unfold f; rewrite frame_map_det; nra).
  destruct (proj2 (inverse_spec f) Hd) as (g & Hg & Hdg & Hgf & Hfg). rewrite Hg. cbn [bind].
  exists g. split; auto. split; auto.
  destruct (proj2 (transform_line_spec g l) Hdg) as [[Hc Hr]|(l' & Hl' & _ & _ & HA & HB & Hcl & _ & Hon)].
  - left. rewrite Hr. auto.
  - right. exists l'. rewrite Hl'. cbn [bind]. assert (Circle_init (0, 0) 1 = Ok (mkCircle (0, 0) 1)) as ->.
    { unfold Circle_init. rewrite (proj2 (leb_false 1 0)) by lra. auto. }
    do 2 (split; auto). split; [apply allclose_false_neq; auto|]. split; auto.
Qed.

Lemma iel_spec e l : 0 < ea e -> 0 < eb e ->
  match intersection_ellipse_line e l with
  | Raise x => x = ValueError
  | Ok INone => forall M, on_line (lA l) (lB l) M -> ~ on_ellipse (eO e) (ea e) (eb e) (ell_th e) M
  | Ok (IOne P) => on_line (lA l) (lB l) P /\ in_ellipse (eO e) (ea e) (eb e) (ell_th e) P /\
       (on_ellipse (eO e) (ea e) (eb e) (ell_th e) P <->
        exists M, on_line (lA l) (lB l) M /\ on_ellipse (eO e) (ea e) (eb e) (ell_th e) M /\
          forall N, on_line (lA l) (lB l) N -> on_ellipse (eO e) (ea e) (eb e) (ell_th e) N -> N = M)
  | Ok (ITwo P Q) => P <> Q /\ on_line (lA l) (lB l) P /\ on_line (lA l) (lB l) Q /\
       on_ellipse (eO e) (ea e) (eb e) (ell_th e) P /\ on_ellipse (eO e) (ea e) (eb e) (ell_th e) Q /\
       forall M, on_line (lA l) (lB l) M -> on_ellipse (eO e) (ea e) (eb e) (ell_th e) M -> M = P \/ M = Q
  end.
Proof.
  intros Ha Hb. destruct (iel_unfold e l Ha Hb) as (g & Hgf & Hfg & [[_ ->]|(l' & HA & HB & Hne & _ & Hon & ->)]); auto.
  pose proof (frame_map_on (eO e) (ea e) (eb e) (ell_th e)) as Fon. pose proof (frame_map_in (eO e) (ea e) (eb e) (ell_th e)) as Fin.
  set (f := frame_map (eO e) (ea e) (eb e) (ell_th e)) in *.
  assert (Hon' : forall M, on_line (lA l) (lB l) (affine_transform f M) <-> on_line (lA l') (lB l') M) by (intros M; rewrite Hon, Hgf; tauto).
  assert (Fon' : forall M, on_ellipse (eO e) (ea e) (eb e) (ell_th e) M <-> on_circle (0, 0) 1 (affine_transform g M)) by (intros M; rewrite <- (Fon _ Ha Hb), Hfg; tauto).
  assert (Finj : forall P Q, affine_transform f P = affine_transform f Q -> P = Q) by (intros P Q E; rewrite <- (Hgf P), <- (Hgf Q), E; auto).
  assert (Hpos : 0 < cr (mkCircle (0, 0) 1)) by (cbn; lra).
  pose proof (icl_spec (mkCircle (0, 0) 1) l' Hne Hpos) as K. cbn [cO cr] in K.
  destruct (intersection_circle_line _ l') as [[|P|P Q]|x]; [| | |contradiction]; cbn [bind].
  - intros M HM. rewrite Fon'. apply K. apply Hon; auto.
  - destruct K as (K1 & _ & K3 & K4). rewrite Hon'. split; auto. split; [apply Fin; auto|]. rewrite Fon by auto. rewrite K4. split.
    + intros (M & M1 & M2 & M3). exists (affine_transform f M). split; [apply Hon'; auto|]. split; [apply Fon; auto|].
      intros N N1 N2. rewrite <- (Hfg N). f_equal. apply M3; [apply Hon; auto|apply Fon'; auto].
    + intros (M & M1 & M2 & M3). exists (affine_transform g M). split; [apply Hon; auto|]. split; [apply Fon'; auto|].
      intros N N1 N2. rewrite <- (Hgf N). f_equal. apply M3; [apply Hon'; auto|apply Fon; auto].
  - destruct K as (K0 & K1 & K2 & K3 & K4 & K5). split; [intros E; apply K0; auto|]. rewrite !Hon'. do 2 (split; auto). rewrite !Fon by auto.
    do 2 (split; auto). intros M M1 M2. rewrite <- (Hfg M). destruct (K5 (affine_transform g M)) as [->| ->]; auto; [apply Hon; auto|apply Fon'; auto].
Qed.

(** which of the three answers, in the coordinates where the ellipse is the unit circle *)
Lemma iel_which e l : 0 < ea e -> 0 < eb e ->
  let A := (fx (eO e) (ell_th e) (lA l) / ea e, fy (eO e) (ell_th e) (lA l) / eb e) in
  let B := (fx (eO e) (ell_th e) (lB l) / ea e, fy (eO e) (ell_th e) (lB l) / eb e) in
  let Delta := dist2 A B - scross A B ^ 2 in
  (intersection_ellipse_line e l = Raise ValueError <-> allclose A B = true) /\
  (allclose A B = false ->
   (intersection_ellipse_line e l = Ok INone <-> Delta < 0) /\
   ((exists P, intersection_ellipse_line e l = Ok (IOne P)) <-> 0 <= Delta < / 67108864) /\
   ((exists P Q, intersection_ellipse_line e l = Ok (ITwo P Q)) <-> / 67108864 <= Delta)).
Proof.
  intros Ha Hb. destruct (iel_unfold e l Ha Hb) as (g & Hgf & Hfg & H).
  assert (Hg : forall X, affine_transform g X = (fx (eO e) (ell_th e) X / ea e, fy (eO e) (ell_th e) X / eb e)).
  { intros X. destruct (frame_map_fx (eO e) (ea e) (eb e) (ell_th e) (affine_transform g X)) as [E1 E2]. rewrite Hfg in E1, E2.
    rewrite E1, E2. destruct (affine_transform g X). cbn [fst snd]. f_equal; field; lra. }
  rewrite <- !Hg. intros A B Delta. fold A B in H. destruct H as [[Hc ->]|(l' & HA & HB & Hne & Hcl & Hon & ->)].
  { split; [tauto|]. rewrite Hc. discriminate. }
  rewrite HA, HB in *. fold A B. clearbody A B. clear - Hne Hcl HA HB. rewrite Hcl. unfold intersection_circle_line, circle_line_intersection_. rewrite HA, HB. cbn [cO cr].
  assert (ED : 1 * 1 * ((fst (vsub B (0, 0)) - fst (vsub A (0, 0))) * (fst (vsub B (0, 0)) - fst (vsub A (0, 0))) + (snd (vsub B (0, 0)) - snd (vsub A (0, 0))) * (snd (vsub B (0, 0)) - snd (vsub A (0, 0)))) -
     det2x2_ (vsub A (0, 0)) (vsub B (0, 0)) * det2x2_ (vsub A (0, 0)) (vsub B (0, 0)) = Delta).
  { unfold Delta. unspec. unfold det2x2_. unpt. ring. }
  cbv zeta. rewrite ED. clearbody Delta.
  set (dr2 := _ + _). assert (Hdr : 0 < dr2).
  { unfold dr2. pose proof (dist2_pos A B Hne) as K. eapply Rlt_le_trans; [exact K|right; unspec; ring]. }
  rewrite (proj2 (eqb_false dr2 0)) by lra. unfold sepsilon_.
  destruct (ltb Delta 0) eqn:E1; [apply ltb_true in E1|apply ltb_false in E1]; cbn [bind];
   [|destruct (ltb Delta (/ 67108864)) eqn:E2; [apply ltb_true in E2|apply ltb_false in E2]; cbn [bind]];
   (split; [split; discriminate|]); intros _;
   (split; [split; [intros K; try discriminate K; lra|intros; try reflexivity; lra]|]);
   (split; [split; [intros (P & K); try discriminate K; lra|intros; try (eexists; reflexivity); lra]|]);
   (split; [intros (P & Q & K); try discriminate K; lra|intros; try (eexists _, _; reflexivity); lra]).
Qed.

(** ** C55 *)

(** ellipse denoted by a circle or an ellipse *)
Definition on_ce (arg : circ_or_ell) (M : pt) : Prop :=
  match arg with
  | ACircle c => on_circle (cO c) (cr c) M
  | AEllipse e => on_ellipse (eO e) (ea e) (eb e) (ell_th e) M
  end.
Definition pos_ce (arg : circ_or_ell) : Prop :=
  match arg with ACircle c => 0 < cr c | AEllipse e => 0 < ea e /\ 0 < eb e end.

Lemma frame_of_spec arg : pos_ce arg -> det2 (afA (frame_of arg)) <> 0 /\
  forall P, on_ce arg (affine_transform (frame_of arg) P) <-> on_circle (0, 0) 1 P.
Proof.
  destruct arg as [c|e]; cbn [pos_ce frame_of on_ce].
  - intros Hr. split.
    + unfold det2, cols; cbn [afA m11 m12 m21 m22 fst snd vscal]. nra.
    + intros P. rewrite !on_circle_sq by lra. 
      assert (E : dist2 (cO c) (affine_transform (mkAffine (cols (vscal (cr c) (1, 0)) (vscal (cr c) (- 0, 1))) (cO c)) P) = cr c * cr c * dist2 (0, 0) P).
      { destruct P as [x y], (cO c) as [p q]. unspec. unfold affine_transform, mv2, cols; cbn [afA afb m11 m12 m21 m22 fst snd vscal vadd]. ring. }
      rewrite E. assert (0 < cr c * cr c) by nra. split; intros K; [|rewrite K; ring].
      apply Rmult_eq_reg_l with (cr c * cr c); lra.
  - intros [Ha Hb]. rewrite ell_angle_eq. fold (frame_map (eO e) (ea e) (eb e) (ell_th e)). split; [rewrite frame_map_det; nra|]. intros P. apply frame_map_on; auto.
Qed.

Lemma affine_compose_left f g P : affine_transform (affine_compose f g true) P = affine_transform g (affine_transform f P).
Proof.
  destruct f as [[a b c d] [x y]], g as [[a' b' c' d'] [x' y']], P as [u v].
  unfold affine_compose, affine_mat3, affine_of_mat3, mm3, affine_transform, mv2, vadd; cbn. f_equal; ring.
Qed.

Lemma ellipse_to_ellipse_spec e1 e2 : pos_ce e1 -> pos_ce e2 ->
  exists f, from_ellipse_to_ellipse e1 e2 = Ok f /\ det2 (afA f) <> 0 /\
    forall M, on_ce e1 M <-> on_ce e2 (affine_transform f M).
Proof.
  intros H1 H2. unfold from_ellipse_to_ellipse. destruct (frame_of_spec e1 H1) as [D1 F1]. destruct (frame_of_spec e2 H2) as [D2 F2].
  destruct (proj2 (inverse_spec (frame_of e1)) D1) as (g & Hg & Hdg & Hgf & Hfg). rewrite Hg. cbn [bind]. eexists. split; [reflexivity|]. split.
  - assert (E : det2 (afA (affine_compose g (frame_of e2) true)) = det2 (afA (frame_of e2)) * det2 (afA g)).
    { clear. destruct g as [[a b c d] [x y]], (frame_of e2) as [[a' b' c' d'] [x' y']]. unfold affine_compose, affine_mat3, affine_of_mat3, mm3, det2; cbn. ring. }
    rewrite E. intros K. apply Rmult_integral in K. tauto.
  - intros M. rewrite affine_compose_left, F2, <- F1, Hfg. tauto.
Qed.
