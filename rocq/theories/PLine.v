(** * Proofs about [Line] (C01-C05, C07, C08). *)

From Coq Require Import Reals Lra Psatz Nsatz List Bool ZArith.
From Verif Require Import Base BaseLemmas Spec SpecLemmas ModelInternal ModelLine.
Local Open Scope R_scope.

(** ** Constructor *)

Lemma Line_init_Ok A B eA eB l :
  Line_init A B eA eB = Ok l <-> allclose A B = false /\ l = mkLine A B eA eB.
Proof.
  unfold Line_init. destruct (allclose A B); split; try discriminate.
  - intros [H _]; discriminate.
  - intros H; inversion H; auto.
  - intros [_ ->]; auto.
Qed.

Lemma Line_init_cases A B eA eB :
  (allclose A B = false /\ Line_init A B eA eB = Ok (mkLine A B eA eB)) \/
  (allclose A B = true /\ Line_init A B eA eB = Raise ValueError).
Proof. unfold Line_init. destruct (allclose A B); auto. Qed.

(** ** C01 *)

Lemma direction_offset_spec l : lA l <> lB l ->
  let d := fst (direction_offset l) in
  let o := snd (direction_offset l) in
  0 <= d < 2 * PI /\ 0 <= o /\
  cos d * cos d + sin d * sin d = 1 /\
  (exists k, k <> 0 /\ cos d = k * (snd (lB l) - snd (lA l)) /\ sin d = - k * (fst (lB l) - fst (lA l))) /\
  o = cos d * fst (lA l) + sin d * snd (lA l).
Proof.
  intros Hne. destruct l as [A B eA eB]. cbn [lA lB] in *.
  unfold direction_offset. cbn [lA lB].
  destruct A as [a1 a2], B as [b1 b2]. cbn [fst snd].
  pose proof PI_RGT_0 as HPI.
  destruct (eqb a1 b1) eqn:E.
  - apply eqb_true in E. subst b1.
    assert (Hab : b2 - a2 <> 0) by (intros Eq; apply Hne; f_equal; lra).
    destruct (ltb 0 a1) eqn:E1; cbn [fst snd].
    + apply ltb_true in E1. rewrite cos_0, sin_0. repeat split; try lra.
      exists (/ (b2 - a2)). split; [apply Rinv_neq_0_compat; auto|]. split; field; auto.
    + apply ltb_false in E1. rewrite cos_PI, sin_PI. repeat split; try lra.
      exists (- / (b2 - a2)). split; [|split; field; auto].
      pose proof (Rinv_neq_0_compat _ Hab); lra.
  - apply eqb_false in E.
    set (x := b1 - a1). set (y := b2 - a2).
    assert (Hn : (y, x) <> (0, 0)) by (unfold x; intros Eq; inversion Eq; lra).
    pose proof (sum_sq_pos y x Hn) as Hp.
    destruct (cos_sin_atan2 x y Hn) as [Hc Hs].
    set (n := sqrt (y * y + x * x)) in *.
    assert (Hn0 : 0 < n) by (apply sqrt_lt_R0; auto).
    assert (Hni : / n <> 0) by (apply Rinv_neq_0_compat; lra).
    assert (Hc' : cos (- atan2 x y) = y / n) by (rewrite cos_neg; auto).
    assert (Hs' : sin (- atan2 x y) = - (x / n)) by (rewrite sin_neg, Hs; auto).
    set (theta := - atan2 x y) in *.
    destruct (ltb (a1 * cos theta + a2 * sin theta) 0) eqn:E2; cbn [fst snd].
    + apply ltb_true in E2.
      pose proof (pymod_range (theta + PI) (2 * PI) ltac:(lra)) as Hr.
      rewrite cos_pymod, sin_pymod, neg_cos, neg_sin.
      repeat split; try lra.
      * pose proof (cs1 theta); lra.
      * exists (- / n). split; [lra|]. split; [rewrite Hc'|rewrite Hs']; field; lra.
    + apply ltb_false in E2.
      pose proof (pymod_range theta (2 * PI) ltac:(lra)) as Hr.
      rewrite cos_pymod, sin_pymod.
      repeat split; try lra.
      * apply cs1.
      * exists (/ n). split; [lra|]. split; [rewrite Hc'|rewrite Hs']; field; lra.
Qed.

Lemma direction_offset_equation l : lA l <> lB l ->
  let d := fst (direction_offset l) in
  let o := snd (direction_offset l) in
  0 <= d < 2 * PI /\ 0 <= o /\
  forall x y, on_line (lA l) (lB l) (x, y) <-> cos d * x + sin d * y = o.
Proof.
  intros H. destruct (direction_offset_spec l H) as (Hd & Ho & _ & (k & Hk & Hc & Hs) & Hoff).
  cbv zeta in *. repeat split; try lra.
  - intros Hl. apply on_line_cross in Hl; auto. unspec.
    rewrite Hoff, Hc, Hs. nra.
  - intros Hl. apply on_line_cross; auto. unspec.
    rewrite Hoff, Hc, Hs in Hl. apply (Rmult_eq_reg_l k); auto. lra.
Qed.

(** ** C02 *)

Lemma approx_equal_refl x : approx_equal_ x x = true.
Proof. unfold approx_equal_. rewrite isclose_refl. reflexivity. Qed.

Lemma approx_equal_sym x y : approx_equal_ x y = approx_equal_ y x.
Proof. unfold approx_equal_. rewrite (isclose_sym x y), (isclose_sym (x + 1)). reflexivity. Qed.

Lemma pymod_PI_eq d1 d2 : cos d1 * sin d2 = sin d1 * cos d2 -> pymod d1 PI = pymod d2 PI.
Proof.
  intros H. pose proof PI_RGT_0 as HPI.
  assert (Hs : sin (d1 - d2) = 0) by (rewrite sin_minus; lra).
  apply sin_eq_0_0 in Hs. destruct Hs as [k Hk].
  replace d1 with (d2 + IZR k * PI) by lra.
  apply pymod_add_period; auto.
Qed.

(** parallel direction vectors give parallel normals *)
Lemma directions_parallel l1 l2 : lA l1 <> lB l1 -> lA l2 <> lB l2 ->
  scross (vsub (lB l1) (lA l1)) (vsub (lB l2) (lA l2)) = 0 ->
  cos (fst (direction_offset l1)) * sin (fst (direction_offset l2)) =
  sin (fst (direction_offset l1)) * cos (fst (direction_offset l2)).
Proof.
  intros H1 H2 H.
  destruct (direction_offset_spec l1 H1) as (_ & _ & _ & (k1 & Hk1 & Hc1 & Hs1) & _).
  destruct (direction_offset_spec l2 H2) as (_ & _ & _ & (k2 & Hk2 & Hc2 & Hs2) & _).
  rewrite Hc1, Hs1, Hc2, Hs2. unspec. nsatz.
Qed.

Lemma parallel_normals c1 s1 c2 s2 : c1 * c1 + s1 * s1 = 1 -> c2 * c2 + s2 * s2 = 1 ->
  c1 * s2 = s1 * c2 -> (c1 = c2 /\ s1 = s2) \/ (c1 = - c2 /\ s1 = - s2).
Proof.
  intros H1 H2 H.
  assert (E : (c1 - c2) * (c1 + c2) = 0 ).
  { assert (c1 * c1 * (s2 * s2) = s1 * s1 * (c2 * c2)) by (transitivity ((c1 * s2) * (c1 * s2)); [ring|rewrite H; ring]).
    nra. }
  assert (F : (s1 - s2) * (s1 + s2) = 0 ) by nra.
  apply Rmult_integral in E. apply Rmult_integral in F.
  destruct E as [E|E]; destruct F as [F|F]; [left; lra| | |right; lra].
  - assert (c1 = c2) by lra. assert (s1 = - s2) by lra. subst. assert (c2 * s2 = 0) by lra.
    apply Rmult_integral in H0. destruct H0; subst; [right|left]; lra.
  - assert (c1 = - c2) by lra. assert (s1 = s2) by lra. subst. assert (c2 * s2 = 0) by lra.
    apply Rmult_integral in H0. destruct H0; subst; [left|right]; lra.
Qed.

Lemma is_equal_of_offsets l1 l2 : lA l1 <> lB l1 -> lA l2 <> lB l2 ->
  scross (vsub (lB l1) (lA l1)) (vsub (lB l2) (lA l2)) = 0 ->
  snd (direction_offset l1) = snd (direction_offset l2) ->
  line_is_equal l1 l2 = true.
Proof.
  intros H1 H2 H Ho. unfold line_is_equal.
  rewrite Ho, approx_equal_refl.
  rewrite (pymod_PI_eq _ _ (directions_parallel l1 l2 H1 H2 H)).
  apply approx_equal_refl.
Qed.

Lemma is_equal_complete l1 l2 : lA l1 <> lB l1 -> lA l2 <> lB l2 ->
  same_line (lA l1) (lB l1) (lA l2) (lB l2) -> line_is_equal l1 l2 = true.
Proof.
  intros H1 H2 H. apply same_line_cross in H; auto. destruct H as [HC HD].
  assert (HX : scross (vsub (lB l1) (lA l1)) (vsub (lB l2) (lA l2)) = 0) by (unspec; lra).
  apply is_equal_of_offsets; auto.
  pose proof (directions_parallel l1 l2 H1 H2 HX) as Hp.
  destruct (direction_offset_spec l1 H1) as (_ & Ho1 & Hu1 & (k1 & Hk1 & Hc1 & Hs1) & E1).
  destruct (direction_offset_spec l2 H2) as (_ & Ho2 & Hu2 & _ & E2).
  cbv zeta in *.
  assert (E1' : snd (direction_offset l1) = cos (fst (direction_offset l1)) * fst (lA l2) + sin (fst (direction_offset l1)) * snd (lA l2)).
  { rewrite E1. unspec. rewrite Hc1, Hs1. nra. }
  destruct (parallel_normals _ _ _ _ Hu1 Hu2 Hp) as [[Ec Es]|[Ec Es]]; rewrite Ec, Es in E1'; lra.
Qed.

Lemma is_equal_mirror l1 l2 : lA l1 <> lB l1 ->
  lA l2 = vopp (lA l1) -> lB l2 = vopp (lB l1) -> line_is_equal l1 l2 = true.
Proof.
  intros H1 HA HB.
  assert (H2 : lA l2 <> lB l2).
  { rewrite HA, HB. intros E. apply H1. unfold vopp in E; inversion E.
    destruct (lA l1), (lB l1); simpl in *; f_equal; lra. }
  assert (HX : scross (vsub (lB l1) (lA l1)) (vsub (lB l2) (lA l2)) = 0) by (rewrite HA, HB; unspec; lra).
  apply is_equal_of_offsets; auto.
  pose proof (directions_parallel l1 l2 H1 H2 HX) as Hp.
  destruct (direction_offset_spec l1 H1) as (_ & Ho1 & Hu1 & _ & E1).
  destruct (direction_offset_spec l2 H2) as (_ & Ho2 & Hu2 & _ & E2).
  cbv zeta in *. rewrite HA in E2. unfold vopp in E2; cbn [fst snd] in E2.
  destruct (parallel_normals _ _ _ _ Hu1 Hu2 Hp) as [[Ec Es]|[Ec Es]]; rewrite Ec, Es in E1; lra.
Qed.

Lemma mirror_line_disjoint A B : A <> B -> ~ on_line A B (0, 0) ->
  forall M, on_line A B M -> ~ on_line (vopp A) (vopp B) M.
Proof.
  intros H H0 M HM HM'.
  assert (Hopp : vopp A <> vopp B).
  { intros E. apply H. unfold vopp in E; inversion E. destruct A, B; simpl in *; f_equal; lra. }
  rewrite on_line_cross in H0, HM, HM' by auto. unspec. apply H0. lra.
Qed.

(** ** C03 *)

Lemma is_parallel_complete l1 l2 :
  parallel (vsub (lB l1) (lA l1)) (vsub (lB l2) (lA l2)) -> is_parallel l1 l2 = true.
Proof.
  intros H. apply parallel_cross in H. unfold is_parallel. apply ltb_true.
  replace (det2x2_ _ _) with 0.
  - rewrite Rabs_R0. apply sepsilon_pos.
  - unfold det2x2_; unspec. nra.
Qed.

Lemma is_perpendicular_complete l1 l2 :
  orthogonal (vsub (lB l1) (lA l1)) (vsub (lB l2) (lA l2)) -> is_perpendicular l1 l2 = true.
Proof.
  intros H. unfold is_perpendicular. unfold orthogonal, sdot in H. unfold dot_.
  rewrite H. apply approx_equal_refl.
Qed.

(** is_parallel decides parallelism of lines whose direction vectors have a
    cross product that is either 0 or not small *)
Lemma is_parallel_iff l1 l2 :
  is_parallel l1 l2 = true <-> Rabs (scross (vsub (lB l1) (lA l1)) (vsub (lB l2) (lA l2))) < sepsilon_.
Proof.
  unfold is_parallel. rewrite ltb_true.
  replace (det2x2_ _ _) with (scross (vsub (lB l1) (lA l1)) (vsub (lB l2) (lA l2))); [tauto|].
  unfold det2x2_; unspec. ring.
Qed.

(** a tiny segment on the line through the origin with direction u *)
Definition tiny (u : pt) : line := mkLine (0, 0) (vscal (/ 100000) u) true true.

Lemma tiny_valid u : sdot u u = 1 -> Line_init (0, 0) (vscal (/ 100000) u) true true = Ok (tiny u).
Proof.
  intros H. apply Line_init_Ok. split; auto.
  unfold allclose, allclose1. destruct u as [x y]. unspec.
  apply not_true_is_false. intros E. apply andb_true_iff in E. destruct E as [E1 E2].
  apply leb_true in E1. apply leb_true in E2.
  replace (0 - / 100000 * x) with (- (/ 100000 * x)) in E1 by ring.
  replace (0 - / 100000 * y) with (- (/ 100000 * y)) in E2 by ring.
  rewrite Rabs_Ropp, Rabs_mult, (Rabs_right (/ 100000)) in E1, E2 by lra.
  pose proof (Rabs_pos x). pose proof (Rabs_pos y).
  pose proof (Rabs_sq x). pose proof (Rabs_sq y).
  assert (Rabs x <= / 100) by lra.
  assert (Rabs y <= / 100) by lra.
  nra.
Qed.

Lemma unit_cross_bound u v : sdot u u = 1 -> sdot v v = 1 -> -1 <= scross u v <= 1.
Proof.
  intros Hu Hv.
  assert (scross u v * scross u v + sdot u v * sdot u v = 1).
  { transitivity (sdot u u * sdot v v); [unspec; ring|rewrite Hu, Hv; ring]. }
  nra.
Qed.
Lemma unit_dot_bound u v : sdot u u = 1 -> sdot v v = 1 -> -1 <= sdot u v <= 1.
Proof.
  intros Hu Hv.
  assert (scross u v * scross u v + sdot u v * sdot u v = 1).
  { transitivity (sdot u u * sdot v v); [unspec; ring|rewrite Hu, Hv; ring]. }
  nra.
Qed.

Lemma tiny_parallel u v : sdot u u = 1 -> sdot v v = 1 -> is_parallel (tiny u) (tiny v) = true.
Proof.
  intros Hu Hv. apply is_parallel_iff. unfold tiny; cbn [lA lB].
  pose proof (unit_cross_bound u v Hu Hv).
  replace (scross _ _) with (/ 100000 * / 100000 * scross u v) by (unspec; ring).
  unfold sepsilon_. apply Rabs_def1; lra.
Qed.

Lemma tiny_perpendicular u v : sdot u u = 1 -> sdot v v = 1 -> is_perpendicular (tiny u) (tiny v) = true.
Proof.
  intros Hu Hv. unfold is_perpendicular, tiny; cbn [lA lB].
  pose proof (unit_dot_bound u v Hu Hv).
  replace (dot_ _ _) with (/ 100000 * / 100000 * sdot u v) by (unfold dot_; unspec; ring).
  unfold approx_equal_. apply orb_true_iff. right. unfold isclose. apply leb_true.
  set (e := / 100000 * / 100000 * sdot u v).
  assert (- / 10000000000 <= e <= / 10000000000) by (unfold e; lra).
  replace (e + 1 - (0 + 1)) with e by ring.
  rewrite (Rabs_right (0 + 1)) by lra.
  pose proof (Rmax_r (Rabs (e + 1)) (0 + 1)).
  assert (Rabs e <= / 10000000000) by (apply Rabs_le; lra). lra.
Qed.

(** ** C04 *)

Lemma collinear_not_close A B M : allclose A B = false -> allclose A M = false -> allclose B M = false ->
  exists b, collinear_ A B M = Ok b /\ (b = true <-> on_line A B M).
Proof.
  intros HAB HAM HBM. unfold collinear_, collinear_tol_. rewrite HAB, HAM, HBM. cbn [orb].
  pose proof (allclose_false_neq _ _ HAB) as NAB.
  pose proof (allclose_false_neq _ _ HAM) as NAM.
  pose proof (pt_neq A B NAB) as P1. pose proof (pt_neq A M NAM) as P2.
  set (re := fst (Cmul (Cconj (vsub B A)) (vsub M A))).
  set (im := snd (Cmul (Cconj (vsub B A)) (vsub M A))).
  assert (Hid : re * re + im * im =
     ((fst B - fst A) * (fst B - fst A) + (snd B - snd A) * (snd B - snd A)) *
     ((fst M - fst A) * (fst M - fst A) + (snd M - snd A) * (snd M - snd A))).
  { unfold re, im, Cmul, Cconj. unpt. ring. }
  assert (Hpos : 0 < re * re + im * im) by (rewrite Hid; apply Rmult_lt_0_compat; auto).
  unfold py_div. destruct (Req_EM_T (re * re + im * im) 0) as [E|E]; [lra|]. cbn [bind].
  eexists. split; [reflexivity|].
  rewrite on_line_cross by auto.
  replace (scross (vsub B A) (vsub M A)) with im.
  2:{ unfold im, Cmul, Cconj. unspec. ring. }
  rewrite leb_true, Rminus_0_r. split; intros H.
  - apply (Rmult_le_compat_r (re * re + im * im)) in H; [|lra].
    replace (re * re / (re * re + im * im) * (re * re + im * im)) with (re * re) in H by (field; auto).
    assert (im * im <= 0) by lra. nra.
  - rewrite H. replace (re * re + 0 * 0) with (re * re) by ring.
    rewrite H in E. right. field. intros E'; rewrite E' in E; apply E; ring.
Qed.

Lemma collinear_on_line A B M : A <> B -> on_line A B M -> collinear_ A B M = Ok true.
Proof.
  intros HAB H.
  destruct (allclose A B) eqn:E1.
  { unfold collinear_, collinear_tol_. rewrite E1. reflexivity. }
  destruct (allclose A M) eqn:E2.
  { unfold collinear_, collinear_tol_. rewrite E1, E2. reflexivity. }
  destruct (allclose B M) eqn:E3.
  { unfold collinear_, collinear_tol_. rewrite E1, E2, E3. reflexivity. }
  destruct (collinear_not_close A B M E1 E2 E3) as (b & Hb & Hiff).
  rewrite Hb. f_equal. apply Hiff; auto.
Qed.

Lemma collinear_total A B M : exists b, collinear_ A B M = Ok b.
Proof.
  destruct (allclose A B) eqn:E1.
  { unfold collinear_, collinear_tol_. rewrite E1. eexists; reflexivity. }
  destruct (allclose A M) eqn:E2.
  { unfold collinear_, collinear_tol_. rewrite E1, E2. eexists; reflexivity. }
  destruct (allclose B M) eqn:E3.
  { unfold collinear_, collinear_tol_. rewrite E1, E2, E3. eexists; reflexivity. }
  destruct (collinear_not_close A B M E1 E2 E3) as (b & Hb & Hiff). eauto.
Qed.

Lemma collinear_close A B M : allclose A M = true \/ allclose B M = true -> collinear_ A B M = Ok true.
Proof.
  intros H. unfold collinear_, collinear_tol_.
  destruct (allclose A B), (allclose A M), (allclose B M); cbn [orb]; auto; destruct H; discriminate.
Qed.

Lemma includes_nonstrict l M cc :
  line_includes l M false cc = collinear_ (lA l) (lB l) M.
Proof.
  unfold line_includes. cbn [negb orb].
  destruct (collinear_total (lA l) (lB l) M) as [b Hb]. rewrite Hb. cbn [bind].
  destruct cc, b; reflexivity.
Qed.

Lemma includes_decides l M cc :
  allclose (lA l) (lB l) = false -> allclose (lA l) M = false -> allclose (lB l) M = false ->
  exists b, line_includes l M false cc = Ok b /\ (b = true <-> on_line (lA l) (lB l) M).
Proof. intros. rewrite includes_nonstrict. apply collinear_not_close; auto. Qed.

Lemma includes_close l M cc : allclose (lA l) M = true \/ allclose (lB l) M = true ->
  line_includes l M false cc = Ok true.
Proof. intros. rewrite includes_nonstrict. apply collinear_close; auto. Qed.

Lemma at_line_segment A B t : A <> B -> (on_segment A B (at_line A B t) <-> 0 <= t <= 1).
Proof.
  intros H. split.
  - intros (s & Hs & E). pose proof (pt_neq A B H).
    assert (E1 : (t - s) * (fst B - fst A) = 0) by (unspec; inversion E; lra).
    assert (E2 : (t - s) * (snd B - snd A) = 0) by (unspec; inversion E; lra).
    assert (t - s = 0); [|lra]. 
    apply Rmult_integral in E1. apply Rmult_integral in E2.
    destruct E1; auto. destruct E2; auto. rewrite H1, H2 in H0. lra.
  - intros Ht. exists t. auto.
Qed.

Lemma at_line_ray A B t : A <> B -> (on_open_ray A B (at_line A B t) <-> 0 < t).
Proof.
  intros H. split.
  - intros (s & Hs & E). pose proof (pt_neq A B H).
    assert (E1 : (t - s) * (fst B - fst A) = 0) by (unspec; inversion E; lra).
    assert (E2 : (t - s) * (snd B - snd A) = 0) by (unspec; inversion E; lra).
    assert (t - s = 0); [|lra]. 
    apply Rmult_integral in E1. apply Rmult_integral in E2.
    destruct E1; auto. destruct E2; auto. rewrite H1, H2 in H0. lra.
  - intros Ht. exists t. auto.
Qed.

Lemma ray_test x y t : x * x + y * y > 0 ->
  (ltb 0 (t * x * x) || ltb 0 (t * y * y) = true <-> 0 < t).
Proof.
  intros H. rewrite orb_true_iff, !ltb_true. split.
  - intros [E|E]; apply Rnot_le_lt; intros Ht; nra.
  - intros Ht. destruct (Req_dec x 0) as [->|Hx].
    + right. rewrite Rmult_assoc. apply Rmult_lt_0_compat; lra.
    + left. assert (0 < x * x) by (apply Rsqr_pos_lt; auto).
      rewrite Rmult_assoc. apply Rmult_lt_0_compat; lra.
Qed.

Lemma includes_strict l M cc : lA l <> lB l -> on_line (lA l) (lB l) M ->
  exists b, line_includes l M true cc = Ok b /\
  (b = true <->
   match lextA l, lextB l with
   | true, true => True
   | false, false => on_segment (lA l) (lB l) M
   | true, false => on_open_ray (lB l) (lA l) M
   | false, true => on_open_ray (lA l) (lB l) M
   end).
Proof.
  intros H HM. unfold line_includes. rewrite (collinear_on_line _ _ _ H HM). cbn [bind negb].
  destruct l as [A B eA eB]; cbn [lA lB lextA lextB] in *.
  pose proof (pt_neq A B H) as Hp.
  destruct HM as [t ->].
  assert (HE : exists b, (if negb true || (eA && eB) then Ok true
    else if negb eA && negb eB then Ok (leb (dot_ (vsub A (at_line A B t)) (vsub B (at_line A B t))) 0)
    else if eA then Ok (ltb 0 ((fst (at_line A B t) - fst B) * (fst A - fst B)) || ltb 0 ((snd (at_line A B t) - snd B) * (snd A - snd B)))
    else Ok (ltb 0 ((fst (at_line A B t) - fst A) * (fst B - fst A)) || ltb 0 ((snd (at_line A B t) - snd A) * (snd B - snd A)))) = Ok b /\ (b = true <->
   match eA, eB with
   | true, true => True
   | false, false => on_segment A B (at_line A B t)
   | true, false => on_open_ray B A (at_line A B t)
   | false, true => on_open_ray A B (at_line A B t)
   end)).
  { destruct eA, eB; cbn [negb andb orb]; eexists; (split; [reflexivity|]).
    - tauto.
    - replace (at_line A B t) with (at_line B A (1 - t)).
      2:{ unspec; f_equal; ring. }
      rewrite (at_line_ray B A) by auto.
      rewrite <- (ray_test (fst A - fst B) (snd A - snd B) (1 - t)) by lra.
      unspec. 
      replace (fst B + (1 - t) * (fst A - fst B) - fst B) with ((1 - t) * (fst A - fst B)) by ring.
      replace (snd B + (1 - t) * (snd A - snd B) - snd B) with ((1 - t) * (snd A - snd B)) by ring.
      tauto.
    - rewrite (at_line_ray A B) by auto.
      rewrite <- (ray_test (fst B - fst A) (snd B - snd A) t) by lra.
      unspec.
      replace (fst A + t * (fst B - fst A) - fst A) with (t * (fst B - fst A)) by ring.
      replace (snd A + t * (snd B - snd A) - snd A) with (t * (snd B - snd A)) by ring.
      tauto.
    - rewrite at_line_segment by auto. rewrite leb_true.
      replace (dot_ (vsub A (at_line A B t)) (vsub B (at_line A B t))) with
        (- (t * (1 - t) * ((fst B - fst A) * (fst B - fst A) + (snd B - snd A) * (snd B - snd A)))).
      2:{ unfold dot_; unspec; ring. }
      set (n := (fst B - fst A) * (fst B - fst A) + (snd B - snd A) * (snd B - snd A)) in *.
      split; intros E.
      + assert (0 <= t * (1 - t)). { apply Rnot_lt_le. intros F. nra. } nra.
      + assert (0 <= t * (1 - t)) by nra. nra. }
  destruct cc; exact HE.
Qed.

(** ** C05 *)

Lemma line_line_intersection_spec P1 P2 Q1 Q2 :
  match line_line_intersection_ P1 P2 Q1 Q2 with
  | None => scross (vsub P2 P1) (vsub Q2 Q1) = 0
  | Some X => scross (vsub P2 P1) (vsub Q2 Q1) <> 0 /\
              scross (vsub P2 P1) (vsub X P1) = 0 /\ scross (vsub Q2 Q1) (vsub X Q1) = 0
  end.
Proof.
  unfold line_line_intersection_.
  set (D := det2x2_ (fst P1 - fst P2, snd P1 - snd P2) (fst Q1 - fst Q2, snd Q1 - snd Q2)).
  assert (HD : D = scross (vsub P2 P1) (vsub Q2 Q1)) by (unfold D, det2x2_; unspec; ring).
  destruct (eqb D 0) eqn:E.
  - apply eqb_true in E. lra.
  - apply eqb_false in E. split; [lra|].
    clear HD. revert E. unfold D, det2x2_. unspec. intros E. split; field; exact E.
Qed.

Lemma lli_unique P1 P2 Q1 Q2 M N :
  scross (vsub P2 P1) (vsub Q2 Q1) <> 0 ->
  scross (vsub P2 P1) (vsub M P1) = 0 -> scross (vsub Q2 Q1) (vsub M Q1) = 0 ->
  scross (vsub P2 P1) (vsub N P1) = 0 -> scross (vsub Q2 Q1) (vsub N Q1) = 0 -> M = N.
Proof.
  intros HD H1 H2 H3 H4. unspec.
  set (a := fst P2 - fst P1) in *. set (b := snd P2 - snd P1) in *.
  set (c := fst Q2 - fst Q1) in *. set (d := snd Q2 - snd Q1) in *.
  assert (E1 : a * (snd M - snd N) = b * (fst M - fst N)) by lra.
  assert (E2 : c * (snd M - snd N) = d * (fst M - fst N)) by lra.
  destruct M as [m1 m2], N as [n1 n2]; cbn [fst snd] in *.
  assert (F1 : (a * d - b * c) * (m1 - n1) = 0).
  { transitivity (a * (d * (m1 - n1)) - c * (b * (m1 - n1))); [ring|]. rewrite <- E1, <- E2. ring. }
  assert (F2 : (a * d - b * c) * (m2 - n2) = 0).
  { transitivity (d * (a * (m2 - n2)) - b * (c * (m2 - n2))); [ring|]. rewrite E1, E2. ring. }
  apply Rmult_integral in F1. apply Rmult_integral in F2.
  f_equal; [destruct F1|destruct F2]; lra.
Qed.

Lemma projection_spec l M : lA l <> lB l ->
  exists P, line_projection l M = Some P /\ on_line (lA l) (lB l) P /\
            orthogonal (vsub P M) (vsub (lB l) (lA l)).
Proof.
  intros H. unfold line_projection.
  set (v := (- (snd (lB l) - snd (lA l)), fst (lB l) - fst (lA l))).
  pose proof (line_line_intersection_spec (lA l) (lB l) M (vadd M v)) as S.
  pose proof (pt_neq _ _ H) as Hp.
  destruct (line_line_intersection_ (lA l) (lB l) M (vadd M v)) as [P|].
  - destruct S as (_ & S1 & S2). exists P. split; auto. split.
    + apply on_line_cross; auto.
    + unfold v in S2. unspec. lra.
  - exfalso. unfold v in S. unspec. lra.
Qed.

Lemma foot_nearest A B M P : on_line A B P -> orthogonal (vsub P M) (vsub B A) ->
  forall Q, on_line A B Q -> dist2 M Q = dist2 M P + dist2 P Q.
Proof.
  intros [t ->] Ho Q [s ->]. unspec.
  set (x := fst B - fst A) in *. set (y := snd B - snd A) in *.
  set (a := fst A - fst M). set (b := snd A - snd M).
  assert (E : (a + t * x) * x + (b + t * y) * y = 0) by (unfold a, b; lra).
  transitivity ((a + s * x) * (a + s * x) + (b + s * y) * (b + s * y)); [unfold a, b; ring|].
  transitivity ((a + t * x) * (a + t * x) + (b + t * y) * (b + t * y) + (s - t) * (s - t) * (x * x + y * y) + 2 * (s - t) * ((a + t * x) * x + (b + t * y) * y)); [ring|].
  rewrite E. unfold a, b; ring.
Qed.

Lemma distance_dist A B : distance_ A B = dist A B.
Proof. unfold distance_, vlength_, dist. reflexivity. Qed.

Lemma projection_nearest l M : lA l <> lB l ->
  exists P, line_projection l M = Some P /\
            on_line (lA l) (lB l) P /\ orthogonal (vsub P M) (vsub (lB l) (lA l)) /\
            line_distance l M = Ok (dist M P) /\
            (forall Q, on_line (lA l) (lB l) Q -> dist M P <= dist M Q) /\
            (forall Q, on_line (lA l) (lB l) Q -> dist M Q = dist M P -> Q = P).
Proof.
  intros H. destruct (projection_spec l M H) as (P & HP & H1 & H2). exists P.
  repeat split; auto.
  - unfold line_distance. rewrite HP, distance_dist. reflexivity.
  - intros Q HQ. apply dist_le_iff. rewrite (foot_nearest _ _ _ _ H1 H2 Q HQ).
    pose proof (dist2_nonneg P Q). lra.
  - intros Q HQ E. apply dist_eq_iff in E. rewrite (foot_nearest _ _ _ _ H1 H2 Q HQ) in E.
    symmetry. apply dist2_0. lra.
Qed.

Lemma perpendicular_spec l M eH eM l' : lA l <> lB l -> perpendicular l M eH eM = Ok l' ->
  on_line (lA l') (lB l') M /\ orthogonal (vsub (lB l') (lA l')) (vsub (lB l) (lA l)) /\
  allclose (lA l') (lB l') = false /\
  (line_includes l M false true = Ok false ->
     line_projection l M = Some (lA l') /\ lB l' = M /\ lextA l' = eH /\ lextB l' = eM) /\
  (line_includes l M false true = Ok true -> lA l' = M /\ lextA l' = true /\ lextB l' = true).
Proof.
  intros H. unfold perpendicular.
  rewrite includes_nonstrict.
  destruct (collinear_total (lA l) (lB l) M) as [b Hb]. rewrite Hb. cbn [bind].
  pose proof (pt_neq _ _ H) as Hp.
  set (v := (- snd (vsub (lB l) (lA l)), fst (vsub (lB l) (lA l)))).
  destruct b.
  - intros E. apply Line_init_Ok in E. destruct E as [E1 ->]. cbn [lA lB lextA lextB].
    repeat split; auto; try discriminate.
    + apply on_line_A.
    + unfold v; unspec; ring.
  - pose proof (line_line_intersection_spec (lA l) (lB l) (vsub M v) (vadd M v)) as S.
    destruct (line_line_intersection_ (lA l) (lB l) (vsub M v) (vadd M v)) as [P|]; [|discriminate].
    destruct S as (S0 & S1 & S2). intros E. apply Line_init_Ok in E. destruct E as [E1 ->]. cbn [lA lB lextA lextB].
    assert (Ho : orthogonal (vsub P M) (vsub (lB l) (lA l))) by (unfold v in S2; unspec; lra).
    split; [apply on_line_B|]. split; [unspec; lra|]. split; [auto|]. split; [|discriminate].
    intros _. repeat split; auto.
    destruct (projection_spec l M H) as (P' & HP' & H1 & H2). rewrite HP'. f_equal.
    apply on_line_cross in H1; auto.
    apply (lli_unique (lA l) (lB l) M (vadd M v)); auto.
    + unfold v; unspec; lra.
    + unfold v; unspec; lra.
    + unfold v; unspec; lra.
Qed.

Lemma perpendicular_raises l M eH eM e : lA l <> lB l -> perpendicular l M eH eM = Raise e -> e = ValueError.
Proof.
  intros H. unfold perpendicular. rewrite includes_nonstrict.
  destruct (collinear_total (lA l) (lB l) M) as [b Hb]. rewrite Hb. cbn [bind].
  destruct b.
  - unfold Line_init. destruct allclose; congruence.
  - destruct line_line_intersection_; [|congruence]. unfold Line_init. destruct allclose; congruence.
Qed.

(** ** C07 *)

Lemma rotate_spec l alpha O degrees :
  let th := radians degrees alpha in
  line_rotate l alpha O degrees = Line_init (rot th O (lA l)) (rot th O (lB l)) (lextA l) (lextB l).
Proof.
  cbv zeta. unfold line_rotate, unit_vector_, radians.
  replace (if degrees then alpha * (PI / 180) else alpha) with (if degrees then deg alpha else alpha).
  2:{ destruct degrees; auto. unfold deg. field. }
  set (th := if degrees then deg alpha else alpha).
  destruct (vsub (lA l) O) as [x y] eqn:E1. destruct (vsub (lB l) O) as [x' y'] eqn:E2.
  unfold vsub in E1, E2. inversion E1. inversion E2. 
  unfold vadd, rot. cbn [fst snd]. f_equal; f_equal; ring.
Qed.

Lemma rotate_line_spec l alpha O degrees l' : line_rotate l alpha O degrees = Ok l' ->
  (forall t, at_line (lA l') (lB l') t = rot (radians degrees alpha) O (at_line (lA l) (lB l) t)) /\
  (forall M, on_line (lA l') (lB l') (rot (radians degrees alpha) O M) <-> on_line (lA l) (lB l) M) /\
  lextA l' = lextA l /\ lextB l' = lextB l.
Proof.
  rewrite rotate_spec. intros E. apply Line_init_Ok in E. destruct E as [E ->]. cbn [lA lB lextA lextB].
  split; [|split]; auto.
  - intros t. rewrite rot_at_line. reflexivity.
  - intros M. split; intros [t Ht]; exists t.
    + rewrite <- rot_at_line in Ht. apply rot_inj in Ht. auto.
    + subst. apply rot_at_line.
Qed.

Lemma translate_line_spec l v l' : line_translate l v = Ok l' ->
  (forall t, at_line (lA l') (lB l') t = vadd (at_line (lA l) (lB l) t) v) /\
  (forall M, on_line (lA l') (lB l') (vadd M v) <-> on_line (lA l) (lB l) M) /\
  lextA l' = lextA l /\ lextB l' = lextB l.
Proof.
  unfold line_translate. intros E. apply Line_init_Ok in E. destruct E as [E ->]. cbn [lA lB lextA lextB].
  assert (F : forall t, at_line (vadd (lA l) v) (vadd (lB l) v) t = vadd (at_line (lA l) (lB l) t) v)
    by (intros; unspec; f_equal; ring).
  split; [|split]; auto.
  intros M. split; intros [t Ht]; exists t.
  - rewrite F in Ht. set (X := at_line (lA l) (lB l) t) in *. clearbody X.
    destruct M, X, v. unfold vadd in Ht; cbn [fst snd] in Ht. inversion Ht. f_equal; lra.
  - subst. auto.
Qed.

(** ** C08 *)

Lemma intersection_line_line_sound l1 l2 st P : lA l1 <> lB l1 -> lA l2 <> lB l2 ->
  intersection_line_line l1 l2 st = Some P ->
  on_line (lA l1) (lB l1) P /\ on_line (lA l2) (lB l2) P /\
  forall Q, on_line (lA l1) (lB l1) Q -> on_line (lA l2) (lB l2) Q -> Q = P.
Proof.
  intros H1 H2. unfold intersection_line_line.
  destruct (line_is_equal l1 l2); [discriminate|]. destruct (is_parallel l1 l2); [discriminate|].
  destruct st; cbn [negb]; [discriminate|].
  pose proof (line_line_intersection_spec (lA l1) (lB l1) (lA l2) (lB l2)) as S.
  intros E. rewrite E in S. destruct S as (S0 & S1 & S2).
  split; [apply on_line_cross; auto|]. split; [apply on_line_cross; auto|].
  intros Q HQ1 HQ2. apply on_line_cross in HQ1; auto. apply on_line_cross in HQ2; auto.
  apply (lli_unique (lA l1) (lB l1) (lA l2) (lB l2)); auto.
Qed.

Lemma intersection_line_line_parallel l1 l2 st :
  parallel (vsub (lB l1) (lA l1)) (vsub (lB l2) (lA l2)) -> intersection_line_line l1 l2 st = None.
Proof.
  intros H. unfold intersection_line_line. rewrite (is_parallel_complete _ _ H).
  destruct line_is_equal; auto.
Qed.

Lemma intersection_line_line_complete l1 l2 :
  sepsilon_ <= Rabs (scross (vsub (lB l1) (lA l1)) (vsub (lB l2) (lA l2))) ->
  line_is_equal l1 l2 = false ->
  exists P, intersection_line_line l1 l2 false = Some P.
Proof.
  intros H E. unfold intersection_line_line. rewrite E.
  destruct (is_parallel l1 l2) eqn:F; [apply is_parallel_iff in F; lra|].
  cbn [negb].
  pose proof (line_line_intersection_spec (lA l1) (lB l1) (lA l2) (lB l2)) as S.
  destruct (line_line_intersection_ (lA l1) (lB l1) (lA l2) (lB l2)) as [P|]; [eauto|].
  rewrite S, Rabs_R0 in H. pose proof sepsilon_pos; lra.
Qed.
