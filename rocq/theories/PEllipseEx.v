(** * Equality of circles and ellipses (C74), and concrete cases for the
    properties of ellipses. *)

From Coq Require Import Reals Lra Lia Psatz List Bool ZArith Permutation.
From Verif Require Import Base BaseLemmas Spec SpecLemmas ModelInternal ModelLine ModelCircle ModelAffine ModelEllipse ModelTransfo
  PLine PCircle PInvBase PCircle2 PAffine PTransfo PEllipse PEllipse2 PEllipse3 PEllipse4 PEllipse5 PEllipse6.
Import ListNotations.
Local Open Scope R_scope.

(** ** C74 *)

Lemma circle_is_equal_refl c : circle_is_equal c c = true.
Proof. unfold circle_is_equal. rewrite approx_equal_refl, allclose_refl. reflexivity. Qed.

Lemma circle_is_equal_asym : exists c1 c2, 0 < cr c1 /\ 0 < cr c2 /\ circle_is_equal c1 c2 = true /\ circle_is_equal c2 c1 = false.
Proof.
  exists (mkCircle (1 - (/ 100000000 + / 100000), 0) 1), (mkCircle (1, 0) 1). cbn [cr]. split; [lra|]. split; [lra|].
  unfold circle_is_equal; cbn [cr cO]. rewrite approx_equal_refl. split; evalclose.
Qed.

Lemma circle_is_equal_not_trans : exists c1 c2 c3, 0 < cr c1 /\ 0 < cr c2 /\ 0 < cr c3 /\
  circle_is_equal c1 c2 = true /\ circle_is_equal c2 c3 = true /\ circle_is_equal c1 c3 = false.
Proof.
  exists (mkCircle (0, 0) 1), (mkCircle (/ 100000000, 0) 1), (mkCircle (2 * / 100000000, 0) 1). cbn [cr]. split; [lra|]. split; [lra|]. split; [lra|].
  unfold circle_is_equal; cbn [cr cO]. rewrite approx_equal_refl. repeat split; evalclose.
Qed.

(** same centre and axes, angles equal modulo a half turn (any units) *)
Lemma ellipse_is_equal_complete e1 e2 (m : Z) : eO e1 = eO e2 -> ea e1 = ea e2 -> eb e1 = eb e2 ->
  radians (edeg e1) (ealpha e1) = radians (edeg e2) (ealpha e2) + IZR m * PI -> ellipse_is_equal e1 e2 = true.
Proof.
  intros H1 H2 H3 H4. unfold ellipse_is_equal. rewrite H1, H2, H3, allclose_refl, !allclose1_refl. cbn [andb].
  assert (Hc : forall e : ellipse, (if edeg e then ealpha e else ealpha e * (180 / PI)) = radians (edeg e) (ealpha e) * (180 / PI)).
  { intros e. unfold radians, deg. destruct (edeg e); [|reflexivity]. field. apply PI_neq0. }
  rewrite !Hc, H4. replace ((radians (edeg e2) (ealpha e2) + IZR m * PI) * (180 / PI)) with (radians (edeg e2) (ealpha e2) * (180 / PI) + IZR m * 180) by (field; apply PI_neq0).
  rewrite pymod_add_period by lra. apply allclose1_refl.
Qed.

(** what a positive answer means *)
Lemma ellipse_is_equal_sound e1 e2 : ellipse_is_equal e1 e2 = true ->
  Rabs (fst (eO e1) - fst (eO e2)) <= / 100000000 + / 100000 * Rabs (fst (eO e2)) /\
  Rabs (snd (eO e1) - snd (eO e2)) <= / 100000000 + / 100000 * Rabs (snd (eO e2)) /\
  Rabs (ea e1 - ea e2) <= / 100000000 + / 100000 * Rabs (ea e2) /\
  Rabs (eb e1 - eb e2) <= / 100000000 + / 100000 * Rabs (eb e2) /\
  exists m, Rabs (radians (edeg e1) (ealpha e1) - radians (edeg e2) (ealpha e2) - IZR m * PI) <= PI / 180 * (/ 100000000 + / 100000 * 180).
Proof.
  unfold ellipse_is_equal, allclose. rewrite !andb_true_iff. unfold allclose1. rewrite !leb_true. intros ((([H1 H2] & H3) & H4) & H5).
  split; [lra|]. split; [lra|]. split; [lra|]. split; [lra|].
  assert (Hc : forall e : ellipse, (if edeg e then ealpha e else ealpha e * (180 / PI)) = radians (edeg e) (ealpha e) * (180 / PI)).
  { intros e. unfold radians, deg. destruct (edeg e); [|reflexivity]. field. apply PI_neq0. }
  rewrite !Hc in H5. set (t1 := radians _ (ealpha e1)) in *. set (t2 := radians _ (ealpha e2)) in *. clearbody t1 t2. clear Hc.
  pose proof (pymod_range (t2 * (180 / PI)) 180 ltac:(lra)) as R2. rewrite (Rabs_right (pymod (t2 * (180 / PI)) 180)) in H5 by lra.
  destruct (pymod_eq (t1 * (180 / PI)) 180) as [m1 E1]. destruct (pymod_eq (t2 * (180 / PI)) 180) as [m2 E2].
  exists (m1 - m2)%Z. rewrite minus_IZR. pose proof PI_RGT_0 as HPI.
  replace (t1 - t2 - (IZR m1 - IZR m2) * PI) with (PI / 180 * (pymod (t1 * (180 / PI)) 180 - pymod (t2 * (180 / PI)) 180)) by (rewrite E1, E2; field; lra).
  rewrite Rabs_mult, (Rabs_right (PI / 180)) by lra. apply Rmult_le_compat_l; lra.
Qed.

Lemma ellipse_is_equal_refl e : ellipse_is_equal e e = true.
Proof. apply (ellipse_is_equal_complete e e 0); auto. rewrite Rmult_0_l. ring. Qed.

Lemma ellipse_is_equal_round O r : 0 < r ->
  let e1 := mkEllipse O r r 0 true in let e2 := mkEllipse O r r 90 true in
  ellipse_is_equal e1 e2 = false /\
  forall M, on_ellipse O r r (radians true 0) M <-> on_ellipse O r r (radians true 90) M.
Proof.
  intros Hr e1 e2. split.
  - unfold ellipse_is_equal, e1, e2; cbn [eO ea eb ealpha edeg]. rewrite allclose_refl, !allclose1_refl. cbn [andb].
    rewrite (pymod_unique 0 180 0 0) by lra. rewrite (pymod_unique 90 180 90 0) by lra. evalclose.
  - intros M. unfold on_ellipse, ell_form.
    assert (H : forall th, (fx O th M / r) ^ 2 + (fy O th M / r) ^ 2 = dist2 O M / (r * r)).
    { intros th. unfold fx, fy. pose proof (cs1 th) as H. set (c := cos th) in *. set (s := sin th) in *. unspec.
      transitivity ((c * c + s * s) * ((fst M - fst O) * (fst M - fst O) + (snd M - snd O) * (snd M - snd O)) / (r * r)); [field; lra|rewrite H; field; lra]. }
    rewrite !H. reflexivity.
Qed.

Lemma ellipse_is_equal_wrap O a b d : 0 < d <= / 100000000 ->
  ellipse_is_equal (mkEllipse O a b d true) (mkEllipse O a b 0 true) = true /\
  ellipse_is_equal (mkEllipse O a b (- d) true) (mkEllipse O a b 0 true) = false.
Proof.
  intros Hd. unfold ellipse_is_equal; cbn [eO ea eb ealpha edeg]. rewrite allclose_refl, !allclose1_refl. cbn [andb].
  rewrite (pymod_unique 0 180 0 0) by lra. rewrite (pymod_unique d 180 d 0) by lra. rewrite (pymod_unique (- d) 180 (180 - d) (-1)) by lra.
  split; evalclose.
Qed.

(** ** the oracle of from_equation exists *)
Lemma eigvals_exists : exists ev : mat2 -> R * R, forall M, is_eigvals M (ev M).
Proof.
  exists (fun M => let d := sqrt ((m11 M - m22 M) * (m11 M - m22 M) + 4 * (m21 M * m21 M)) in ((m11 M + m22 M - d) / 2, (m11 M + m22 M + d) / 2)).
  intros M Hs. cbn [fst snd]. split; [field|]. set (x := (m11 M - m22 M) * (m11 M - m22 M) + 4 * (m21 M * m21 M)).
  assert (Hx : sqrt x * sqrt x = x) by (apply sqrt_sqrt; unfold x; pose proof (sqnn (m11 M - m22 M)); pose proof (sqnn (m21 M)); lra).
  unfold det2. rewrite Hs. transitivity (((m11 M + m22 M) * (m11 M + m22 M) - sqrt x * sqrt x) / 4); [field|]. rewrite Hx. unfold x. field.
Qed.

(** ** transform_ellipse for singular maps *)
Lemma transform_ellipse_singular f arg : det2 (afA f) = 0 -> affine_transform_ellipse f arg = Ok None.
Proof. intros H. unfold affine_transform_ellipse. rewrite (proj2 (eqb_true _ _)); auto. Qed.

(** ** concrete cases *)
Lemma rad0 : radians true 0 = 0. Proof. unfold radians, deg. field. Qed.

Lemma form0 a b M : 0 < a -> 0 < b -> ell_form (0, 0) a b (radians true 0) M = (fst M / a) ^ 2 + (snd M / b) ^ 2.
Proof. intros. unfold ell_form, fx, fy. rewrite rad0, cos_0, sin_0. cbn [fst snd]. field. lra. Qed.

Ltac form0 := unfold on_ellipse, in_ellipse; cbn [eO ea eb edeg ealpha]; rewrite form0 by lra; cbn [fst snd]; try lra.

Lemma ex_C16 : let e := mkEllipse (0, 0) 2 1 0 true in
  (exists P Q, intersection_ellipse_line e (mkLine (0, 0) (1, 0) true true) = Ok (ITwo P Q)) /\
  (exists P, intersection_ellipse_line e (mkLine (0, 1) (1, 1) true true) = Ok (IOne P)) /\
  intersection_ellipse_line e (mkLine (0, 2) (1, 2) true true) = Ok INone.
Proof.
  intros e.
  assert (F : forall l, let A := (fst (lA l) / 2, snd (lA l) / 1) in let B := (fst (lB l) / 2, snd (lB l) / 1) in
     (fx (eO e) (ell_th e) (lA l) / ea e, fy (eO e) (ell_th e) (lA l) / eb e) = A /\ (fx (eO e) (ell_th e) (lB l) / ea e, fy (eO e) (ell_th e) (lB l) / eb e) = B).
  { intros l. unfold e, ell_th, fx, fy; cbn [eO ea eb edeg ealpha fst snd]. rewrite rad0, cos_0, sin_0. split; f_equal; field. }
  assert (K : forall l, _) by exact (fun l => iel_which e l ltac:(cbn; lra) ltac:(cbn; lra)). cbv zeta in K.
  split; [|split].
  - specialize (K (mkLine (0, 0) (1, 0) true true)). destruct (F (mkLine (0, 0) (1, 0) true true)) as [FA FB]. rewrite FA, FB in K. cbn [lA lB fst snd] in K. apply K; [evalclose|]. unspec. lra.
  - specialize (K (mkLine (0, 1) (1, 1) true true)). destruct (F (mkLine (0, 1) (1, 1) true true)) as [FA FB]. rewrite FA, FB in K. cbn [lA lB fst snd] in K. apply K; [evalclose|]. unspec. lra.
  - specialize (K (mkLine (0, 2) (1, 2) true true)). destruct (F (mkLine (0, 2) (1, 2) true true)) as [FA FB]. rewrite FA, FB in K. cbn [lA lB fst snd] in K. apply K; [evalclose|]. unspec. lra.
Qed.

Lemma ex_C16_raises : exists e l, Ellipse_init (0, 0) 1000000000 1000000000 0 true = Ok e /\ Line_init (0, 0) (1, 0) true true = Ok l /\
  intersection_ellipse_line e l = Raise ValueError.
Proof.
  exists (mkEllipse (0, 0) 1000000000 1000000000 0 true), (mkLine (0, 0) (1, 0) true true).
  split; [apply Ellipse_init_pos; lra|]. split; [apply Line_init_Ok; split; auto; evalclose|].
  apply (proj1 (iel_which (mkEllipse (0, 0) 1000000000 1000000000 0 true) (mkLine (0, 0) (1, 0) true true) ltac:(cbn; lra) ltac:(cbn; lra))). unfold ell_th, fx, fy; cbn [eO ea eb edeg ealpha fst snd lA lB]. rewrite rad0, cos_0, sin_0. evalclose.
Qed.

Lemma ex_C16_near : exists e l P, Ellipse_init (0, 0) 1 1 0 true = Ok e /\ Line_init (0, 0) (/ 10000, 0) true true = Ok l /\
  intersection_ellipse_line e l = Ok (IOne P) /\ ~ on_ellipse (0, 0) 1 1 (radians true 0) P.
Proof.
  set (e := mkEllipse (0, 0) 1 1 0 true). set (l := mkLine (0, 0) (/ 10000, 0) true true).
  assert (HP : exists P, intersection_ellipse_line e l = Ok (IOne P)).
  { apply (proj2 (iel_which e l ltac:(cbn; lra) ltac:(cbn; lra))).
    - unfold e, l, ell_th, fx, fy; cbn [eO ea eb edeg ealpha fst snd lA lB]. rewrite rad0, cos_0, sin_0. evalclose.
    - unfold e, l, ell_th, fx, fy; cbn [eO ea eb edeg ealpha fst snd lA lB]. rewrite rad0, cos_0, sin_0. unspec. lra. }
  destruct HP as [P HP]. exists e, l, P. split; [apply Ellipse_init_pos; lra|]. split; [apply Line_init_Ok; split; auto; evalclose|]. split; auto.
  pose proof (iel_spec e l ltac:(cbn; lra) ltac:(cbn; lra)) as K. rewrite HP in K. destruct K as (_ & _ & K). intros Hon. apply K in Hon. destruct Hon as (M & _ & _ & U).
  assert (E1 : (1, 0) = M). { apply U; [exists 10000; unfold l; cbn [lA lB]; unspec; f_equal; field|]. unfold e, ell_th. form0. }
  assert (E2 : (-1, 0) = M). { apply U; [exists (-10000); unfold l; cbn [lA lB]; unspec; f_equal; field|]. unfold e, ell_th. form0. }
  rewrite <- E1 in E2. injection E2. lra.
Qed.

Lemma ex_C20 : let e := mkEllipse (1, 2) 2 1 30 true in
  (exists ps, ellipse_random_points e 1 WhereIn [(1 / 2, (1, 0))] = Ok ps) /\ (exists ps, ellipse_random_points e 1 WhereOn [(0, (3, -1))] = Ok ps).
Proof.
  intros e. split; apply ellipse_random_total; cbn; try lra; try lia; try discriminate; (constructor; [cbn; intros K; injection K; lra|constructor]).
Qed.

Lemma ex_C22 : let e := mkEllipse (0, 0) 2 1 0 true in
  conic_eval (ellipse_equation e) (2, 0) = 0 /\ conic_eval (ellipse_equation e) (1, 0) < 0 /\ 0 < conic_eval (ellipse_equation e) (0, 2) /\
  ellipse_contains e (1, 0) = true /\ ellipse_contains e (0, 2) = false.
Proof.
  intros e. assert (K : forall M, conic_eval (ellipse_equation e) M = 4 * ((fst M / 2) ^ 2 + (snd M / 1) ^ 2 - 1)).
  { intros M. rewrite equation_spec by (cbn; lra). unfold ell_th. cbn [e eO ea eb edeg ealpha]. rewrite form0 by lra. ring. }
  unfold ellipse_contains. rewrite !K; cbn [fst snd]. repeat split; try lra; evalb; reflexivity.
Qed.

Lemma ex_C23 : let e := mkEllipse (0, 0) 2 1 0 true in
  (exists ps, ellipse_path e 4 = Ok ps /\ nth 1 ps (0, 0) = (0, 1)) /\ (exists l l', ellipse_diameter e 0 true = Ok [l; l']).
Proof.
  intros e. split.
  - destruct (ellipse_path_spec e 4 ltac:(cbn; lra) ltac:(cbn; lra) ltac:(lia)) as (ps & Hps & _ & _ & Hk). exists ps. split; auto.
    destruct (Hk 1%nat ltac:(cbn; lia)) as [H1 H2]. unfold ell_th in *. cbn [e eO ea eb edeg ealpha] in *. unfold fx, fy in *. rewrite rad0, cos_0, sin_0 in *.
    replace (2 * PI * INR 1 / IZR 4) with (PI / 2) in * by (cbn [INR]; field). rewrite cos_PI2 in H1. rewrite sin_PI2 in H2. cbn [fst snd] in *.
    destruct (nth 1 ps (0, 0)) as [x y]. cbn [fst snd] in *. f_equal; lra.
  - unfold ellipse_diameter. rewrite ell_angle_eq. unfold ell_th. cbn [e eO ea eb edeg ealpha]. rewrite rad0.
    unfold ellipse_point_. rewrite !Rplus_0_l, Rminus_0_l, cos_neg, sin_neg, cos_PI, sin_PI, cos_PI2, sin_PI2, cos_0, sin_0. unpt.
    unfold Line_init. match goal with |- context [allclose ?p ?q] => replace (allclose p q) with false by (symmetry; evalclose) end. cbn [bind].
    match goal with |- context [allclose ?p ?q] => replace (allclose p q) with false by (symmetry; evalclose) end. cbn [bind]. eauto.
Qed.

Lemma ex_C23_raises : exists e, Ellipse_init (0, 0) (/ 1000000000) (/ 1000000000) 0 true = Ok e /\ ellipse_diameter e 0 false = Raise ValueError.
Proof.
  exists (mkEllipse (0, 0) (/ 1000000000) (/ 1000000000) 0 true). split; [apply Ellipse_init_pos; lra|]. apply ellipse_diameter_raises.
  unfold ellipse_point_, ell_th; cbn [eO ea eb edeg ealpha]. rewrite rad0, !Rplus_0_l, cos_PI, sin_PI, cos_0, sin_0. unpt. evalclose.
Qed.

Lemma ex_C24 : exists S, shape_matrix (mkEllipse (0, 0) 2 1 0 true) = Ok S /\ m11 S = 1 / 4 /\ m12 S = 0 /\ m21 S = 0 /\ m22 S = 1.
Proof.
  destruct (shape_matrix_spec (mkEllipse (0, 0) 2 1 0 true) ltac:(cbn; lra) ltac:(cbn; lra)) as (S & HS & Hsym & HF). exists S. split; auto.
  unfold ell_th in HF. cbn [eO ea eb edeg ealpha] in HF.
  pose proof (HF (1, 0)) as F1. pose proof (HF (0, 1)) as F2. pose proof (HF (1, 1)) as F3. rewrite form0 in F1, F2, F3 by lra. unfold quad2 in *. unpt. lra.
Qed.

Lemma ex_C25 : let e := mkEllipse (0, 0) 2 1 0 true in 
  radians true 90 = PI / 2 + IZR 0 * (2 * PI) /\ 0 < PI / 2 < 2 * PI /\ PI / 2 <> PI /\
  (exists t, theta2t e 90 true = Ok t).
Proof.
  intros e. pose proof PI_RGT_0. assert (H1 : radians true 90 = PI / 2 + IZR 0 * (2 * PI)) by (unfold radians, deg; field). split; auto. split; [lra|]. split; [lra|].
  destruct (theta2t_spec e 90 true (PI / 2) 0 ltac:(cbn; lra) ltac:(cbn; lra) H1 ltac:(lra) ltac:(lra)) as (t & Ht & _). eauto.
Qed.

(** just above a half turn the opposite point is returned *)
Lemma ex_C25_opposite e : 0 < ea e -> 0 < eb e -> exists k, k < 0 /\
  let theta := PI + / 134217728 in
  fx (eO e) (ell_th e) (ellipse_point_from_angle e theta false) = k * cos theta /\
  fy (eO e) (ell_th e) (ellipse_point_from_angle e theta false) = k * sin theta.
Proof.
  intros Ha Hb. pose proof PI_RGT_0. pose proof PI2_1. assert (HE : sepsilon_ = / 67108864) by reflexivity.
  destruct (point_from_angle_spec e (PI + / 134217728) false (PI + / 134217728) 0 Ha Hb ltac:(unfold radians; lra) ltac:(lra) ltac:(lra)) as (_ & k & Hk & K).
  cbv zeta in K. rewrite (proj2 (ltb_true PI _)), (proj2 (ltb_true (PI + / 134217728) _)) in K by (rewrite ?HE; lra). cbn [andb] in K. exists (-1 * k). split; [lra|exact K].
Qed.

Lemma ex_C26_far ev : (forall M, is_eigvals M (ev M)) ->
  let '(A, B, C, D, E, F) := ellipse_equation (mkEllipse (3, 0) 1 1 0 true) in ellipse_from_equation ev A B C D E F = Raise ValueError.
Proof.
  intros Hev. pose proof (own_equation_ok ev (mkEllipse (3, 0) 1 1 0 true) Hev ltac:(cbn; lra) ltac:(cbn; lra)) as [_ K]. unfold feq in K.
  destruct (ellipse_equation _) as [[[[[A B] C] D] E] F]. apply K. cbn [ea eb eO]. unspec. lra.
Qed.

Lemma cos_2_45 : cos (2 * radians true 45) = 0.
Proof. unfold radians, deg. replace (2 * (45 * PI / 180)) with (PI / 2) by field. apply cos_PI2. Qed.

Lemma ex_C26_diagonal ev : (forall M, is_eigvals M (ev M)) -> let e := mkEllipse (0, 0) 2 1 45 true in
  exists e', (let '(A, B, C, D, E, F) := ellipse_equation e in ellipse_from_equation ev A B C D E F = Ok e') /\
   exists M, on_ellipse (eO e') (ea e') (eb e') (radians (edeg e') (ealpha e')) M /\ ~ on_ellipse (0, 0) 2 1 (radians true 45) M.
Proof.
  intros Hev e. pose proof (own_equation_ok ev e Hev ltac:(cbn; lra) ltac:(cbn; lra)) as [K _]. destruct (proj2 K) as (e' & He').
  { cbn [e ea eb eO]. unspec. lra. }
  exists e'. split. { unfold feq in He'. destruct (ellipse_equation e) as [[[[[A B] C] D] E] F]. auto. }
  destruct (own_equation_diagonal ev e e' Hev ltac:(cbn; lra) ltac:(cbn; lra) He' ltac:(cbn; lra) cos_2_45) as (_ & _ & _ & _ & X). exact X.
Qed.

Lemma ex_C26 ev : (forall M, is_eigvals M (ev M)) -> let e := mkEllipse (1, 1) 2 1 0 true in
  exists e', (let '(A, B, C, D, E, F) := ellipse_equation e in ellipse_from_equation ev A B C D E F = Ok e') /\ cos (2 * radians true 0) <> 0.
Proof.
  intros Hev e. pose proof (own_equation_ok ev e Hev ltac:(cbn; lra) ltac:(cbn; lra)) as [K _]. destruct (proj2 K) as (e' & He').
  { cbn [e ea eb eO]. unspec. lra. }
  exists e'. split. { unfold feq in He'. destruct (ellipse_equation e) as [[[[[A B] C] D] E] F]. auto. }
  rewrite rad0, Rmult_0_r, cos_0. lra.
Qed.

Lemma ex_C27 ev : (forall M, is_eigvals M (ev M)) -> exists e, ellipse_from_equation ev 1 1 2 0 0 (-1) = Ok e.
Proof. intros Hev. apply from_equation_total; auto; lra. Qed.

Lemma ex_C28_points : NoDup [(2, 0); (-2, 0); (0, 1); (0, -1); (8 / 5, 3 / 5)] /\
  Forall (on_ellipse (0, 0) 2 1 (radians true 0)) [(2, 0); (-2, 0); (0, 1); (0, -1); (8 / 5, 3 / 5)].
Proof.
  split.
  - repeat (constructor; [cbn [In]; intros H; repeat (destruct H as [H|H]; [injection H; intros; lra|]); exact H|]). constructor.
  - repeat (constructor; [form0|]). constructor.
Qed.

Lemma ex_C28_far ev : (forall M, is_eigvals M (ev M)) ->
  let e := mkEllipse (3, 0) 1 1 0 true in let pts := [(4, 0); (2, 0); (3, 1); (3, -1); (18 / 5, 4 / 5)] in
  NoDup pts /\ Forall (on_ellipse (3, 0) 1 1 (radians true 0)) pts /\
  ellipse_from_five_points ev (4, 0) (2, 0) (3, 1) (3, -1) (18 / 5, 4 / 5) = Raise ValueError.
Proof.
  intros Hev e pts.
  assert (N : NoDup pts). { unfold pts. repeat (constructor; [cbn [In]; intros H; repeat (destruct H as [H|H]; [injection H; intros; lra|]); exact H|]). constructor. }
  assert (O : Forall (on_ellipse (3, 0) 1 1 (radians true 0)) pts).
  { unfold pts. repeat (constructor; [unfold on_ellipse, ell_form, fx, fy; rewrite rad0, cos_0, sin_0; cbn [fst snd]; field|]). constructor. }
  split; auto. split; auto. rewrite (from_five_of_ellipse ev e) by (auto; cbn; lra).
  pose proof (ex_C26_far ev Hev) as K. unfold feq. fold e in K. destruct (ellipse_equation e) as [[[[[A B] C] D] E] F]. exact K.
Qed.

Lemma ex_C29 eigh : (forall S, is_eigh S (eigh S)) ->
  (exists e, from_center_and_matrix eigh (1, 2) (mkM2 2 1 1 2) = Ok e) /\ from_center_and_matrix eigh (1, 2) (mkM2 1 2 2 1) = Raise ValueError.
Proof.
  intros Hs. split.
  - apply (from_cm_iff eigh (1, 2) (mkM2 2 1 1 2) (Hs _)). intros [x y] H. unfold lowq; cbn [m11 m21 m22 fst snd].
    pose proof (sum_sq_pos x y H). pose proof (sqnn (x + y)). lra.
  - apply (from_cm_iff eigh (1, 2) (mkM2 1 2 2 1) (Hs _)). intros K. specialize (K (1, -1)). unfold lowq in K; cbn [m11 m21 m22 fst snd] in K.
    assert ((1, -1) <> (0, 0)) by (intros Q; injection Q; lra). specialize (K H). lra.
Qed.

Lemma ex_C30 eigh : (forall S, is_eigh S (eigh S)) -> exists e, from_boundary3 eigh (0, 0) (3, 0) (0, 3) = Ok e.
Proof.
  intros Hs. destruct (from_boundary3_cases eigh (0, 0) (3, 0) (0, 3) Hs) as [[Z _]|(_ & e & E & _)]; eauto. exfalso. unfold br in Z. unspec. lra.
Qed.

Lemma perm_sum (f : pt -> R) l l' : Permutation l l' -> fold_right (fun P acc => f P + acc) 0 l = fold_right (fun P acc => f P + acc) 0 l'.
Proof. induction 1 as [| | |? ? ? ? IH1 ? IH2]; cbn [fold_right]; [reflexivity|rewrite IHPermutation; ring|ring|rewrite IH1; auto]. Qed.

(** three points *)
Lemma ex_C31 eigh eigvals b4 ch : (forall S, is_eigh S (eigh S)) -> exists e,
  LownerJohnEllipse eigh eigvals b4 ch [(0, 0); (3, 0); (0, 3)] = Ok (Some e).
Proof.
  intros Hs. pose proof (lowner_john_inv eigh eigvals b4 ch 3 Hs [] [(0, 0); (3, 0); (0, 3)] [] eq_refl ltac:(cbn; lia)) as I.
  assert (D : forall n path ip bp, length ip = n -> (length ip + length bp <= 3)%nat ->
    match lowner_john eigh eigvals b4 ch n path ip bp with Ok None => True | Ok (Some _) => True
     | Raise x => exists P Q S, Permutation (ip ++ bp) [P; Q; S] /\ br P Q S = 0 end).
  { induction n as [|n IH]; intros path ip bp Hi Hl.
    - destruct ip; [|discriminate]. destruct bp as [|P [|Q [|S [|? ?]]]]; cbn [length] in Hl; try (cbn; auto; lia).
      cbn. destruct (from_boundary3_cases eigh P Q S Hs) as [[Z ->]|(_ & e & -> & _)]; cbn [bind]; auto. exists P, Q, S. auto.
    - cbn [lowner_john]. replace (5 <=? length bp)%nat with false by (symmetry; apply Nat.leb_gt; lia).
      set (i := Nat.modulo (ch path) (length ip)). assert (Hii : (i < length ip)%nat) by (apply Nat.mod_upper_bound; lia).
      pose proof (delete_nth_perm (0, 0) ip i Hii) as HP. pose proof (delete_nth_length ip i Hii) as HL. rewrite Hi in HL; cbn [pred] in HL.
      set (p := nth i ip (0, 0)) in *. set (ip' := delete_nth i ip) in *.
      assert (HP' : Permutation (ip' ++ bp ++ [p]) (ip ++ bp)).
      { rewrite app_assoc. eapply perm_trans; [apply Permutation_app_comm|]. cbn [app]. apply (Permutation_app_tail bp) in HP. cbn [app] in HP. apply Permutation_sym, HP. }
      pose proof (lowner_john_inv eigh eigvals b4 ch n Hs (true :: path) ip' bp HL ltac:(lia)) as I1.
      pose proof (IH (false :: path) ip' (bp ++ [p]) HL ltac:(rewrite app_length; cbn; lia)) as I2.
      assert (J2 : match lowner_john eigh eigvals b4 ch n (false :: path) ip' (bp ++ [p]) with Ok None => True | Ok (Some _) => True
         | Raise x => exists P Q S, Permutation (ip ++ bp) [P; Q; S] /\ br P Q S = 0 end).
      { destruct (lowner_john eigh eigvals b4 ch n (false :: path) ip' (bp ++ [p])) as [[?|]|?]; auto. destruct I2 as (P & Q & S & I3 & I4). exists P, Q, S. split; auto.
        eapply perm_trans; [apply Permutation_sym, HP'|auto]. }
      destruct (lowner_john eigh eigvals b4 ch n (true :: path) ip' bp) as [[e|]|x]; cbn [bind].
      + destruct (ellipse_contains e p); auto.
      + exact J2.
      + destruct I1. lia. }
  specialize (D 3%nat [] [(0, 0); (3, 0); (0, 3)] [] eq_refl ltac:(cbn; lia)).
  unfold LownerJohnEllipse. change (length [(0, 0); (3, 0); (0, 3)]) with 3%nat. destruct (lowner_john eigh eigvals b4 ch 3 [] [(0, 0); (3, 0); (0, 3)] []) as [[e|]|x]; eauto.
  - cbn in I. lia.
  - exfalso. destruct D as (P & Q & S & D1 & D2). cbn [app] in D1.
    assert (X : br P Q S * br P Q S = 81).
    { assert (sumf : forall f : pt -> R, f (0, 0) + (f (3, 0) + (f (0, 3) + 0)) = f P + (f Q + (f S + 0))).
      { intros f. change (fold_right (fun P acc => f P + acc) 0 [(0, 0); (3, 0); (0, 3)] = fold_right (fun P acc => f P + acc) 0 [P; Q; S]). apply perm_sum, D1. }
      pose proof (sumf fst) as G1. pose proof (sumf snd) as G2. pose proof (sumf (fun M => fst M * fst M)) as G3. pose proof (sumf (fun M => snd M * snd M)) as G4. pose proof (sumf (fun M => fst M * snd M)) as G5.
      cbn [fst snd] in *. rewrite <- (scatter_det P Q S).
      assert (Hc : centroid P Q S = (1, 1)) by (unfold centroid; f_equal; lra). rewrite Hc.
      assert (E11 : m11 (scatter P Q S (1, 1)) = 6) by (cbn; lra). assert (E22 : m22 (scatter P Q S (1, 1)) = 6) by (cbn; lra).
      assert (E12 : m12 (scatter P Q S (1, 1)) = -3) by (cbn; lra). unfold det2. rewrite E11, E22. change (m21 (scatter P Q S (1, 1))) with (m12 (scatter P Q S (1, 1))). rewrite E12. ring. }
    rewrite D2 in X. lra.
Qed.

Lemma ex_C54 : exists e, affine_transform_ellipse (mkAffine (mkM2 2 1 0 1) (3, 4)) (ACircle (mkCircle (1, 0) 2)) = Ok (Some e).
Proof. destruct (transform_ellipse_spec (mkAffine (mkM2 2 1 0 1) (3, 4)) (ACircle (mkCircle (1, 0) 2))) as (e & E & _); [cbn; lra|unfold det2; cbn; lra|eauto]. Qed.

(** ** statements used by PropertiesEllipse.v *)

Lemma five_vanish P1 P2 P3 P4 P5 k : equation_from_five_points P1 P2 P3 P4 P5 = Ok k ->
  NoDup [P1; P2; P3; P4; P5] /\ Forall (fun P => conic_eval k P = 0) [P1; P2; P3; P4; P5] /\
  (let '(A, B, C, D, E, F) := k in B * B - 4 * A * C < 0) /\
  forall A B C D E F, Forall (fun P => conic_eval (A, B, C, D, E, F) P = 0) [P1; P2; P3; P4; P5] ->
    exists t, forall M, conic_eval (A, B, C, D, E, F) M = t * conic_eval k M.
Proof.
  intros H. destruct (equation_five_cases P1 P2 P3 P4 P5) as [(N & D & K)|(_ & K)]; [|congruence]. rewrite K in H. injection H as <-.
  split; auto. split; [apply Forall_forall; intros P HP; apply five_conic_through; auto|]. split; [exact D|].
  intros A B C D' E F HF. rewrite Forall_forall in HF. pose proof (five_proportional _ _ _ _ _ _ _ _ _ _ _ HF) as Hpr.
  set (w := five_conic P1 P2 P3 P4 P5) in *. assert (Hw : c_A w <> 0).
  { revert D. destruct w as [[[[[w0 w1] w2] w3] w4] w5]. unfold c_disc, c_A. intros D Z. subst w0. pose proof (sqnn w1). lra. }
  exists (A / c_A w). intros M. apply Rmult_eq_reg_l with (c_A w); auto. rewrite <- conic_eval_scale, <- Hpr, conic_eval_scale. field. auto.
Qed.

Lemma five_cases P1 P2 P3 P4 P5 : (exists k, equation_from_five_points P1 P2 P3 P4 P5 = Ok k) \/ equation_from_five_points P1 P2 P3 P4 P5 = Raise ValueError.
Proof. destruct (equation_five_cases P1 P2 P3 P4 P5) as [(_ & _ & ->)|(_ & ->)]; eauto. Qed.

Lemma five_complete e P1 P2 P3 P4 P5 : 0 < ea e -> 0 < eb e -> NoDup [P1; P2; P3; P4; P5] ->
  Forall (on_ellipse (eO e) (ea e) (eb e) (ell_th e)) [P1; P2; P3; P4; P5] ->
  exists k, equation_from_five_points P1 P2 P3 P4 P5 = Ok k /\ forall M, conic_eval k M = 0 <-> on_ellipse (eO e) (ea e) (eb e) (ell_th e) M.
Proof.
  intros Ha Hb N O. destruct (five_points_of_ellipse e P1 P2 P3 P4 P5 Ha Hb N O) as (t & Ht & E). eexists. split; [exact E|].
  intros M. rewrite conic_eval_scale, <- (equation_on e M) by auto. split; intros K; [apply Rmult_integral in K; tauto|rewrite K; ring].
Qed.

Lemma from_five_complete ev e P1 P2 P3 P4 P5 : (forall M, is_eigvals M (ev M)) -> 0 < ea e -> 0 < eb e -> NoDup [P1; P2; P3; P4; P5] ->
  Forall (on_ellipse (eO e) (ea e) (eb e) (ell_th e)) [P1; P2; P3; P4; P5] ->
  ((exists e', ellipse_from_five_points ev P1 P2 P3 P4 P5 = Ok e') <-> dist2 (0, 0) (eO e) < ea e ^ 2 + eb e ^ 2) /\
  (forall e', ea e = eb e \/ cos (2 * ell_th e) <> 0 -> ellipse_from_five_points ev P1 P2 P3 P4 P5 = Ok e' ->
     forall M, on_ellipse (eO e') (ea e') (eb e') (ell_th e') M <-> on_ellipse (eO e) (ea e) (eb e) (ell_th e) M).
Proof.
  intros Hev Ha Hb N O. rewrite (from_five_of_ellipse ev e) by auto. split; [apply own_equation_ok; auto|].
  intros e' Hc He' M. destruct (own_equation_same ev e e' Hev Ha Hb He' Hc) as [_ K]. unfold on_ellipse. rewrite K. reflexivity.
Qed.

Lemma boundary3_spec eigh P1 P2 P3 e : (forall S, is_eigh S (eigh S)) -> from_boundary3 eigh P1 P2 P3 = Ok e ->
  eO e = centroid P1 P2 P3 /\ 0 < eb e <= ea e /\ Forall (on_ellipse (eO e) (ea e) (eb e) (ell_th e)) [P1; P2; P3].
Proof. intros Hs H. destruct (from_boundary3_on eigh P1 P2 P3 e Hs H); auto. Qed.

Lemma boundary3_total eigh P1 P2 P3 : (forall S, is_eigh S (eigh S)) ->
  (scross (vsub P2 P1) (vsub P3 P1) <> 0 -> exists e, from_boundary3 eigh P1 P2 P3 = Ok e) /\
  (scross (vsub P2 P1) (vsub P3 P1) = 0 -> from_boundary3 eigh P1 P2 P3 = Raise LinAlgError).
Proof.
  intros Hs. destruct (from_boundary3_cases eigh P1 P2 P3 Hs) as [[Z E]|(Z & e & E & _)]; unfold br in Z; split; intros K; try contradiction; eauto.
Qed.

Lemma from_equation_guard ev A B C D E F : (forall M, is_eigvals M (ev M)) ->
  ((exists e, ellipse_from_equation ev A B C D E F = Ok e) <-> 0 < A * C /\ B * B - 4 * A * C < 0 /\ 4 * (A + C) * F < D * D + E * E) /\
  ((exists e, ellipse_from_equation ev A B C D E F = Ok e) \/ ellipse_from_equation ev A B C D E F = Raise ValueError).
Proof.
  intros Hev. destruct (Rlt_dec 0 (A * C)) as [G1|G1]; [destruct (Rlt_dec (B * B - 4 * A * C) 0) as [G2|G2]; [destruct (Rlt_dec (4 * (A + C) * F) (D * D + E * E)) as [G3|G3]|]|];
   try (pose proof (from_equation_raises ev A B C D E F Hev) as K; rewrite K by lra; split; auto; split; [intros [? ?]; discriminate|lra]).
  destruct (from_equation_total ev A B C D E F Hev G1 G2 G3) as (e & He). split; eauto. split; eauto.
Qed.

Lemma ellipse_normal_at e t P : 0 < ea e -> 0 < eb e ->
  fx (eO e) (ell_th e) P = ea e * cos t -> fy (eO e) (ell_th e) P = eb e * sin t ->
  let n := ellipse_normal e t in
  sdot n n = 1 /\
  (forall v, ell_tangent (eO e) (ea e) (eb e) (ell_th e) P v -> sdot n v = 0) /\
  forall k, 0 < k -> 1 < ell_form (eO e) (ea e) (eb e) (ell_th e) (vadd P (vscal k n)).
Proof.
  intros Ha Hb H1 H2. replace P with (ellipse_point_ t (eO e) (ea e) (eb e) (ell_th e)); [apply ellipse_normal_spec; auto|].
  apply (frame_inj (eO e) (ell_th e)); rewrite ?fx_ell, ?fy_ell; auto.
Qed.

Lemma theta2t_frame e theta d tau m : 0 < ea e -> 0 < eb e ->
  radians d theta = tau + IZR m * (2 * PI) -> 0 < tau < 2 * PI -> tau <> PI ->
  let P := ellipse_point_from_angle e theta d in
  exists t, theta2t e theta d = Ok t /\ fx (eO e) (ell_th e) P = ea e * cos t /\ fy (eO e) (ell_th e) P = eb e * sin t.
Proof.
  intros Ha Hb H1 H2 H3 P. destruct (theta2t_spec e theta d tau m Ha Hb H1 H2 H3) as (t & E & K). exists t. split; auto. unfold P. rewrite K, fx_ell, fy_ell. auto.
Qed.
