(** * Angles, Steiner ellipses, and what does depend on the order of the vertices. *)

From Coq Require Import Reals Lra Lia Psatz List Bool ZArith Permutation.
From Verif Require Import Base BaseLemmas Spec SpecLemmas SpecTriangle SpecSym ModelInternal ModelLine ModelCircle ModelAffine ModelEllipse ModelTransfo ModelTriangle PLine PEllipse PTriangle PTriangle2 PTriangle3 PTriangle4 PTriangle5 PTriangle6 PTriangleEx PSym PSym2 PSym3.
Import ListNotations.
Local Open Scope R_scope.

Lemma angle_at_div x y l m : angle_at x y l m = angle_at x y m l.
Proof.
  unfold angle_at, np_div. destruct (Req_EM_T l 0), (Req_EM_T m 0); cbn [bind]; try destruct (Req_EM_T _ 0); try contradiction; auto. f_equal. field; auto.
Qed.
Lemma angle_at_dot x y l m : angle_at x y l m = angle_at y x l m.
Proof. unfold angle_at. replace (dot_ y x) with (dot_ x y) by (unfold dot_; ring). reflexivity. Qed.
Lemma angle_at_swap x y l m : angle_at x y l m = angle_at y x m l.
Proof. rewrite angle_at_div. apply angle_at_dot. Qed.

Lemma angles_perm A B C A' B' C' : Permutation [A; B; C] [A'; B'; C'] -> let T := mkTri A B C in let T' := mkTri A' B' C' in
  Permutation [(A, angleA T); (B, angleB T); (C, angleC T)] [(A', angleA T'); (B', angleB T'); (C', angleC T')].
Proof.
  intros P T T'. destruct (attached (fun A B C x y z => let T := mkTri A B C in angleA T = x /\ angleB T = y /\ angleC T = z)) with (A := A) (B := B) (C := C) (A' := A') (B' := B') (C' := C') (x := angleA T) (y := angleB T) (z := angleC T)
    as (x' & y' & z' & (E1 & E2 & E3) & Q); auto; [| |subst; exact Q];
  clear; intros A B C x y z; unfold angleA, angleB, angleC; cbn [tA tB tC]; intros (<- & <- & <-); repeat split; first [reflexivity|apply angle_at_swap|apply angle_at_div|apply angle_at_dot].
Qed.

Lemma acute_perm A B C A' B' C' : Permutation [A; B; C] [A'; B'; C'] -> is_acute (mkTri A' B' C') = is_acute (mkTri A B C).
Proof.
  intros P. apply (invariant (fun A B C => is_acute (mkTri A B C)) (fun _ _ _ => True)); auto; clear; intros A B C _;
  apply eq_true_iff_eq; rewrite !is_acute_spec; cbn [tA tB tC]; unfold sdot; cbn; split; intros (?&?&?); repeat split; lra.
Qed.

Lemma orient_perm A B C : orientation (mkTri B C A) = orientation (mkTri A B C) /\ orientation (mkTri C A B) = orientation (mkTri A B C) /\
  orientation (mkTri B A C) = (- orientation (mkTri A B C))%Z /\ orientation (mkTri A C B) = (- orientation (mkTri A B C))%Z /\ orientation (mkTri C B A) = (- orientation (mkTri A B C))%Z.
Proof.
  unfold orientation. cbn [tA tB tC]. rewrite !orientation_val.
  replace (dbl B C A) with (dbl A B C) by (unfold dbl; unspec; ring). replace (dbl C A B) with (dbl A B C) by (unfold dbl; unspec; ring).
  replace (dbl B A C) with (- dbl A B C) by (unfold dbl; unspec; ring). replace (dbl A C B) with (- dbl A B C) by (unfold dbl; unspec; ring).
  replace (dbl C B A) with (- dbl A B C) by (unfold dbl; unspec; ring). set (x := dbl A B C).
  unfold eqb, ltb. destruct (Req_EM_T (- x) 0), (Req_EM_T (- - x) 0); try (exfalso; lra); [auto|]. destruct (Rlt_dec 0 (- x)), (Rlt_dec 0 (- - x)); try (exfalso; lra); auto.
Qed.

(** ** Steiner ellipses *)

(** e' centred at f(G) through f(A), f(B), f(C) is the image of e centred at G through A, B, C *)
Lemma ellipse_sim s f A B C a b th a' b' th' : similarity s f -> dbl A B C <> 0 -> let G := centroid A B C in
  on_ellipse G a b th A -> on_ellipse G a b th B -> on_ellipse G a b th C ->
  on_ellipse (f G) a' b' th' (f A) -> on_ellipse (f G) a' b' th' (f B) -> on_ellipse (f G) a' b' th' (f C) ->
  forall M, ell_form (f G) a' b' th' (f M) = ell_form G a b th M.
Proof.
  intros Sf K G HA HB HC HA' HB' HC'. unfold on_ellipse in *.
  destruct (similarity_form s f Sf) as (c & d & e & t & E & He & F).
  assert (X : exists p' q' r', forall M, ell_form (f G) a' b' th' (f M) = p' * (fst M - fst G) * (fst M - fst G) + q' * (fst M - fst G) * (snd M - snd G) + r' * (snd M - snd G) * (snd M - snd G)).
  { destruct (form_quadratic (f G) a' b' th') as (p & q & r & F0).
    exists (s * s * (p * c * c + q * c * d + r * d * d)), (s * s * e * (2 * d * c * (r - p) + q * (c * c - d * d))), (s * s * (e * e) * (p * d * d - q * c * d + r * c * c)).
    intros M. rewrite F0, !F. cbn [fst snd]. ring. }
  destruct X as (p' & q' & r' & F'). destruct (form_quadratic G a b th) as (p & q & r & F0).
  rewrite F0 in HA, HB, HC. rewrite F' in HA', HB', HC'. intros M. rewrite F0, F'.
  set (u1 := fst A - fst G) in *. set (u2 := snd A - snd G) in *. set (v1 := fst B - fst G) in *. set (v2 := snd B - snd G) in *.
  assert (W1 : fst C - fst G = - (u1 + v1)) by (unfold u1, v1, G, centroid; cbn; field). assert (W2 : snd C - snd G = - (u2 + v2)) by (unfold u2, v2, G, centroid; cbn; field).
  rewrite W1, W2 in *.
  destruct (quad_unique p q r p' q' r' u1 u2 v1 v2) as (-> & -> & ->); [|lra|lra|lra|reflexivity].
  intros Z. apply K. transitivity (3 * (u1 * v2 - u2 * v1)); [|rewrite Z; ring]. unfold dbl, u1, u2, v1, v2, G, centroid. unspec. cbn. field.
Qed.

Lemma form_bounds O a b th M : 0 < b <= a -> dist2 O M <= a * a * ell_form O a b th M /\ b * b * ell_form O a b th M <= dist2 O M.
Proof.
  intros H. assert (E : dist2 O M = fx O th M * fx O th M + fy O th M * fy O th M).
  { pose proof (sin2_cos2 th) as T. unfold Rsqr in T. unfold fx, fy. unspec. set (x := fst M - fst O). set (y := snd M - snd O).
    transitivity ((sin th * sin th + cos th * cos th) * (x * x + y * y)); [rewrite T; ring|ring]. }
  rewrite E. unfold ell_form. set (x := fx O th M). set (y := fy O th M).
  assert (K : forall u v, 0 < v -> 0 < u -> u <= v -> forall z, z * z <= v * v * (z / u) ^ 2 /\ u * u * (z / v) ^ 2 <= z * z).
  { intros u v Hv Hu L z. assert (Q : 1 <= v / u) by (apply (Rmult_le_reg_r u); [lra|]; unfold Rdiv; rewrite Rmult_assoc, Rinv_l by lra; lra).
    replace (v * v * (z / u) ^ 2) with (z * z * ((v / u) * (v / u))) by (field; lra). 
    assert (Q' : u / v <= 1) by (apply (Rmult_le_reg_r v); [lra|]; unfold Rdiv; rewrite Rmult_assoc, Rinv_l by lra; lra). assert (0 < u / v) by (apply Rdiv_lt_0_compat; lra).
    replace (u * u * (z / v) ^ 2) with (z * z * ((u / v) * (u / v))) by (field; lra).
    pose proof (Rle_0_sqr z) as Z. unfold Rsqr in Z. split; [assert (1 <= v / u * (v / u)) by nra|assert (u / v * (u / v) <= 1) by nra]; nra. }
  destruct (K a a ltac:(lra) ltac:(lra) ltac:(lra) x). destruct (K b a ltac:(lra) ltac:(lra) ltac:(lra) x). destruct (K b a ltac:(lra) ltac:(lra) ltac:(lra) y). destruct (K b b ltac:(lra) ltac:(lra) ltac:(lra) y).
  lra.
Qed.

Lemma form_axes O a b th : 0 < a -> 0 < b ->
  (exists M, ell_form O a b th M = 1 /\ dist2 O M = a * a) /\ (exists M, ell_form O a b th M = 1 /\ dist2 O M = b * b).
Proof.
  intros Ha Hb. pose proof (sin2_cos2 th) as T. unfold Rsqr in T. split.
  - exists (fst O + a * cos th, snd O + a * sin th). unfold ell_form, fx, fy. unspec. cbn [fst snd]. split.
    + replace (fst O + a * cos th - fst O) with (a * cos th) by ring. replace (snd O + a * sin th - snd O) with (a * sin th) by ring.
      replace (- sin th * (a * cos th) + cos th * (a * sin th)) with 0 by ring. replace (cos th * (a * cos th) + sin th * (a * sin th)) with (a * (sin th * sin th + cos th * cos th)) by ring. rewrite T. field; lra.
    + transitivity (a * a * (sin th * sin th + cos th * cos th)); [ring|rewrite T; ring].
  - exists (fst O - b * sin th, snd O + b * cos th). unfold ell_form, fx, fy. unspec. cbn [fst snd]. split.
    + replace (fst O - b * sin th - fst O) with (- b * sin th) by ring. replace (snd O + b * cos th - snd O) with (b * cos th) by ring.
      replace (cos th * (- b * sin th) + sin th * (b * cos th)) with 0 by ring. replace (- sin th * (- b * sin th) + cos th * (b * cos th)) with (b * (sin th * sin th + cos th * cos th)) by ring. rewrite T. field; lra.
    + transitivity (b * b * (sin th * sin th + cos th * cos th)); [ring|rewrite T; ring].
Qed.

Lemma sim_onto s f : similarity s f -> forall N, exists M, f M = N.
Proof.
  intros Sf [x y]. destruct (similarity_form s f Sf) as (c & d & e & [t1 t2] & E & He & F). destruct Sf as [Hs _].
  exists ((c * (x - t1) + d * (y - t2)) / s, e * (c * (y - t2) - d * (x - t1)) / s). rewrite F. cbn [fst snd].
  assert (Ee : e * e = 1) by (destruct He; subst; ring).
  f_equal.
  - transitivity (c * (c * (x - t1) + d * (y - t2)) - (e * e) * d * (c * (y - t2) - d * (x - t1)) + t1); [field; lra|]. rewrite Ee. transitivity ((c * c + d * d) * (x - t1) + t1); [ring|rewrite E; ring].
  - transitivity (d * (c * (x - t1) + d * (y - t2)) + (e * e) * c * (c * (y - t2) - d * (x - t1)) + t2); [field; lra|]. rewrite Ee. transitivity ((c * c + d * d) * (y - t2) + t2); [ring|rewrite E; ring].
Qed.

Lemma sq_le_le x y : 0 < x -> 0 < y -> x * x <= y * y -> x <= y.
Proof. intros. apply Rnot_lt_le. intros L. nra. Qed.

Lemma axes_sim s f G a b th a' b' th' : similarity s f -> 0 < b <= a -> 0 < b' <= a' ->
  (forall M, ell_form (f G) a' b' th' (f M) = ell_form G a b th M) -> a' = s * a /\ b' = s * b.
Proof.
  intros Sf H H' E. assert (Hs : 0 < s) by apply Sf.
  assert (D : forall M, dist2 (f G) (f M) = s * s * dist2 G M) by (intros M; rewrite <- !dist_sq; destruct Sf as [_ Sf]; rewrite Sf; ring).
  destruct (form_axes G a b th ltac:(lra) ltac:(lra)) as [(M1 & F1 & D1) (M2 & F2 & D2)].
  destruct (form_axes (f G) a' b' th' ltac:(lra) ltac:(lra)) as [(N1 & F1' & D1') (N2 & F2' & D2')].
  destruct (sim_onto s f Sf N1) as [M1' <-]. destruct (sim_onto s f Sf N2) as [M2' <-]. rewrite E in F1', F2'. rewrite D in D1', D2'.
  pose proof (form_bounds (f G) a' b' th' (f M1) H') as B1. pose proof (form_bounds (f G) a' b' th' (f M2) H') as B2.
  pose proof (form_bounds G a b th M1' H) as B1'. pose proof (form_bounds G a b th M2' H) as B2'.
  rewrite E, D, F1, D1 in B1. rewrite E, D, F2, D2 in B2. rewrite F1' in B1'. rewrite F2' in B2'.
  assert (S2 : 0 < s * s) by nra.
  split; apply Rle_antisym; apply sq_le_le; try lra; try nra.
Qed.

Lemma centroid_sim s f A B C : similarity s f -> f (centroid A B C) = centroid (f A) (f B) (f C).
Proof.
  intros H. assert (X : forall U V W, centroid U V W = bary (/ 3) (/ 3) (/ 3) U V W) by (intros; unfold centroid, bary; f_equal; field).
  rewrite !X. apply (f_bary s f H). lra.
Qed.
Lemma midpoint_sim s f A B : similarity s f -> f (midpoint A B) = midpoint (f A) (f B).
Proof.
  intros H. assert (X : forall U V, midpoint U V = bary (/ 2) (/ 2) 0 U V V) by (intros; unfold midpoint, bary; f_equal; field).
  rewrite !X. apply (f_bary s f H). lra.
Qed.

Lemma close_false A B C e : ~ collinear A B C -> steiner_ellipse (mkTri A B C) = Ok e -> allclose A B = false /\ allclose A C = false /\ allclose B C = false.
Proof.
  intros K E. destruct (allclose A B) eqn:E1, (allclose A C) eqn:E2, (allclose B C) eqn:E3; auto;
    destruct (steiner_close A B C K) as [X _]; auto; rewrite X in E; discriminate.
Qed.
Lemma close_false' A B C e : ~ collinear A B C -> steiner_inellipse (mkTri A B C) = Ok e -> allclose A B = false /\ allclose A C = false /\ allclose B C = false.
Proof.
  intros K E. destruct (allclose A B) eqn:E1, (allclose A C) eqn:E2, (allclose B C) eqn:E3; auto;
    destruct (steiner_close A B C K) as [_ X]; auto; rewrite X in E; discriminate.
Qed.

Lemma dbl_sim0 s f A B C : similarity s f -> ~ collinear A B C -> ~ collinear (f A) (f B) (f C).
Proof. intros H K Z. apply K. apply (collinear_sim s f H). exact Z. Qed.

Lemma perm_nc A B C A' B' C' : Permutation [A; B; C] [A'; B'; C'] -> ~ collinear A B C -> ~ collinear A' B' C'.
Proof.
  intros P K. apply ndeg_iff in K. apply ndeg_iff. destruct (perm3 _ _ _ _ _ _ P) as [(->&->&->)|[(->&->&->)|[(->&->&->)|[(->&->&->)|[(->&->&->)|(->&->&->)]]]]]; auto using ndeg12, ndeg23.
Qed.

Lemma perm_centroid A B C A' B' C' : Permutation [A; B; C] [A'; B'; C'] -> centroid A' B' C' = centroid A B C.
Proof.
  intros P. destruct (perm3 _ _ _ _ _ _ P) as [(->&->&->)|[(->&->&->)|[(->&->&->)|[(->&->&->)|[(->&->&->)|(->&->&->)]]]]]; unfold centroid; f_equal; field.
Qed.

Lemma steiner_ellipse_sim s f A B C A' B' C' e e' : similarity s f -> ~ collinear A B C -> Permutation [f A; f B; f C] [A'; B'; C'] ->
  steiner_ellipse (mkTri A B C) = Ok (Some e) -> steiner_ellipse (mkTri A' B' C') = Ok (Some e') ->
  eO e' = f (eO e) /\ ea e' = s * ea e /\ eb e' = s * eb e /\
  forall M, ell_form (eO e') (ea e') (eb e') (radians (edeg e') (ealpha e')) (f M) = ell_form (eO e) (ea e) (eb e) (radians (edeg e) (ealpha e)) M.
Proof.
  intros Sf K P E E'. pose proof (dbl_sim0 _ _ _ _ _ Sf K) as K0. pose proof (perm_nc _ _ _ _ _ _ P K0) as K'.
  destruct (close_false _ _ _ _ K E) as (C1 & C2 & C3). destruct (close_false _ _ _ _ K' E') as (C1' & C2' & C3').
  destruct (steiner_ellipse_spec A B C K C1 C2 C3) as (e0 & E0 & H & HO & HA & HB & HC & _). rewrite E in E0. injection E0 as <-.
  destruct (steiner_ellipse_spec A' B' C' K' C1' C2' C3') as (e0 & E0 & H' & HO' & HA' & HB' & HC' & _). rewrite E' in E0. injection E0 as <-.
  assert (Q : eO e' = f (eO e)) by (rewrite HO, HO', (perm_centroid _ _ _ _ _ _ P); symmetry; apply (centroid_sim s f _ _ _ Sf)).
  split; [exact Q|].
  assert (F : forall M, ell_form (f (eO e)) (ea e') (eb e') (ell_th e') (f M) = ell_form (eO e) (ea e) (eb e) (ell_th e) M).
  { rewrite Q in HA', HB', HC'. rewrite HO in *. apply not_collinear_dbl in K.
    assert (X : on_ellipse (f (centroid A B C)) (ea e') (eb e') (ell_th e') (f A) /\ on_ellipse (f (centroid A B C)) (ea e') (eb e') (ell_th e') (f B) /\ on_ellipse (f (centroid A B C)) (ea e') (eb e') (ell_th e') (f C)).
    { destruct (perm3 _ _ _ _ _ _ P) as [(->&->&->)|[(->&->&->)|[(->&->&->)|[(->&->&->)|[(->&->&->)|(->&->&->)]]]]]; auto. }
    apply (ellipse_sim s f A B C); tauto. }
  destruct (axes_sim s f (eO e) (ea e) (eb e) (ell_th e) (ea e') (eb e') (ell_th e') Sf H H' F) as [X1 X2].
  split; [exact X1|split; [exact X2|]]. rewrite Q. exact F.
Qed.

Lemma mid_dbl A B C : dbl (midpoint A B) (midpoint B C) (midpoint A C) = dbl A B C / 4.
Proof. unfold dbl, midpoint. unspec. cbn. field. Qed.
Lemma mid_centroid A B C : centroid (midpoint A B) (midpoint B C) (midpoint A C) = centroid A B C.
Proof. unfold centroid, midpoint. cbn. f_equal; field. Qed.
Lemma mid_comm A B : midpoint B A = midpoint A B.
Proof. unfold midpoint. f_equal; field. Qed.

Lemma steiner_inellipse_sim s f A B C A' B' C' e e' : similarity s f -> ~ collinear A B C -> Permutation [f A; f B; f C] [A'; B'; C'] ->
  steiner_inellipse (mkTri A B C) = Ok (Some e) -> steiner_inellipse (mkTri A' B' C') = Ok (Some e') ->
  eO e' = f (eO e) /\ ea e' = s * ea e /\ eb e' = s * eb e /\
  forall M, ell_form (eO e') (ea e') (eb e') (radians (edeg e') (ealpha e')) (f M) = ell_form (eO e) (ea e) (eb e) (radians (edeg e) (ealpha e)) M.
Proof.
  intros Sf K P E E'. pose proof (dbl_sim0 _ _ _ _ _ Sf K) as K0. pose proof (perm_nc _ _ _ _ _ _ P K0) as K'.
  destruct (close_false' _ _ _ _ K E) as (C1 & C2 & C3). destruct (close_false' _ _ _ _ K' E') as (C1' & C2' & C3').
  destruct (steiner_inellipse_spec A B C K C1 C2 C3) as (e0 & E0 & H & HO & (HA & _) & (HB & _) & (HC & _)). rewrite E in E0. injection E0 as <-.
  destruct (steiner_inellipse_spec A' B' C' K' C1' C2' C3') as (e0 & E0 & H' & HO' & (HA' & _) & (HB' & _) & (HC' & _)). rewrite E' in E0. injection E0 as <-.
  assert (Q : eO e' = f (eO e)) by (rewrite HO, HO', (perm_centroid _ _ _ _ _ _ P); symmetry; apply (centroid_sim s f _ _ _ Sf)).
  split; [exact Q|].
  assert (F : forall M, ell_form (f (eO e)) (ea e') (eb e') (ell_th e') (f M) = ell_form (eO e) (ea e) (eb e) (ell_th e) M).
  { rewrite Q in HA', HB', HC'. rewrite HO in *. rewrite <- mid_centroid in *. apply not_collinear_dbl in K.
    assert (K2 : dbl (midpoint A B) (midpoint B C) (midpoint A C) <> 0) by (rewrite mid_dbl; lra).
    set (G := centroid (midpoint A B) (midpoint B C) (midpoint A C)) in *.
    assert (X : on_ellipse (f G) (ea e') (eb e') (ell_th e') (f (midpoint A B)) /\ on_ellipse (f G) (ea e') (eb e') (ell_th e') (f (midpoint B C)) /\ on_ellipse (f G) (ea e') (eb e') (ell_th e') (f (midpoint A C))).
    { rewrite !(midpoint_sim s f _ _ Sf). clear - P HA' HB' HC'.
      destruct (perm3 _ _ _ _ _ _ P) as [(->&->&->)|[(->&->&->)|[(->&->&->)|[(->&->&->)|[(->&->&->)|(->&->&->)]]]]];
        rewrite ?(mid_comm (f A) (f B)), ?(mid_comm (f A) (f C)), ?(mid_comm (f B) (f C)) in *; auto. }
    apply (ellipse_sim s f (midpoint A B) (midpoint B C) (midpoint A C)); tauto. }
  destruct (axes_sim s f (eO e) (ea e) (eb e) (ell_th e) (ea e') (eb e') (ell_th e') Sf H H' F) as [X1 X2].
  split; [exact X1|split; [exact X2|]]. rewrite Q. exact F.
Qed.

(** ** What does depend on the order, or on the scale *)

Lemma flatness_order : flatness (mkTri (0, 0) (4, 0) (0, 3)) = Ok 0 /\ exists x, flatness (mkTri (4, 0) (0, 0) (0, 3)) = Ok x /\ x = 16 / 25.
Proof.
  unfold flatness, py_div. cbn [tA tB tC]. unfold vsub, Cmul, Cconj. cbn [fst snd]. split.
  - destruct (Req_EM_T _ 0); [exfalso; lra|]. f_equal. field.
  - destruct (Req_EM_T _ 0); [exfalso; lra|]. eexists. split; [reflexivity|]. field.
Qed.

Lemma circum_order : circumcircle (mkTri (0, 0) (1, 0) (1, 0)) = Ok None /\ circumcircle (mkTri (1, 0) (0, 0) (1, 0)) = Raise ZeroDivisionError.
Proof.
  unfold circumcircle, flatness, py_div. cbn [tA tB tC]. unfold vsub, Cmul, Cconj. cbn [fst snd]. split.
  - destruct (Req_EM_T _ 0); [exfalso; lra|]. cbn [bind]. unfold eqb. destruct (Req_EM_T _ 1); [reflexivity|]. exfalso. apply n0. field.
  - destruct (Req_EM_T _ 0); [reflexivity|exfalso; lra].
Qed.

Lemma scale_sim s t : 0 < s -> similarity s (fun P => vadd (vscal s P) t).
Proof.
  intros H. split; [exact H|]. intros P Q. 
  assert (E : dist2 (vadd (vscal s P) t) (vadd (vscal s Q) t) = s * s * dist2 P Q) by (unspec; ring).
  pose proof (dist_nonneg P Q). pose proof (dist_nonneg (vadd (vscal s P) t) (vadd (vscal s Q) t)).
  apply Rsqr_inj; [assumption|nra|]. unfold Rsqr. rewrite dist_sq, E, <- dist_sq. ring.
Qed.

Lemma steiner_scale : exists s f A B C, similarity s f /\ ~ collinear A B C /\ (exists e, steiner_ellipse (mkTri A B C) = Ok (Some e)) /\
  steiner_ellipse (mkTri (f A) (f B) (f C)) = Raise AttributeError.
Proof.
  exists (/ 4000000000), (fun P => vadd (vscal (/ 4000000000) P) (0, 0)), (0, 0), (4, 0), (0, 3).
  assert (Hs : 0 < / 4000000000) by lra.
  split; [apply scale_sim; exact Hs|]. split; [exact T345_nc|]. split; [apply ex_C51|].
  apply steiner_close; [apply (dbl_sim0 _ _ _ _ _ (scale_sim _ (0, 0) Hs)), T345_nc|].
  left. unfold vadd, vscal. cbn [fst snd]. evalclose.
Qed.

(** a quarter turn followed by a homothety of ratio 2 and a translation *)
Lemma ex_sim : similarity 2 (fun P => (3 - 2 * snd P, 1 + 2 * fst P)).
Proof.
  split; [lra|]. intros P Q. pose proof (dist_nonneg P Q) as H1. match goal with |- dist ?X ?Y = _ => pose proof (dist_nonneg X Y) as H2; assert (E : dist2 X Y = 4 * dist2 P Q) by (unspec; ring) end.
  apply Rsqr_inj; [assumption|lra|]. unfold Rsqr. rewrite dist_sq, E, <- dist_sq. ring.
Qed.
Lemma ex_C87 : incircle (mkTri (3, 1) (3, 9) (-3, 1)) = Ok (mkCircle (1, 3) 2).
Proof.
  pose proof (incircle_sim _ _ ex_sim (0, 0) (4, 0) (0, 3)) as E. pose proof ex_C46 as E2. unfold T345 in E2. rewrite E2 in E. cbn [fst snd rmap cO cr] in E.
  replace (3 - 2 * 0) with 3 in E by lra. replace (1 + 2 * 0) with 1 in E by lra. replace (1 + 2 * 4) with 9 in E by lra. replace (3 - 2 * 3) with (-3) in E by lra.
  replace (3 - 2 * 1) with 1 in E by lra. replace (1 + 2 * 1) with 3 in E by lra. replace (2 * 1) with 2 in E by lra. exact E.
Qed.
