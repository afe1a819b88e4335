(** * Pairs of objects: exchanging the arguments; lines given by other points. *)

From Coq Require Import Reals Lra Lia Psatz List Bool ZArith Permutation.
From Verif Require Import Base BaseLemmas Spec SpecLemmas SpecTriangle SpecSym ModelInternal ModelLine ModelCircle ModelAffine ModelEllipse ModelTransfo ModelTriangle ModelInversion PLine PCircle PCircle2 PReflect PTriangle PTriangle2 PInversion PSym PSym2.
Import ListNotations.
Local Open Scope R_scope.

Lemma lli_comm P1 P2 Q1 Q2 : line_line_intersection_ P1 P2 Q1 Q2 = line_line_intersection_ Q1 Q2 P1 P2.
Proof.
  unfold line_line_intersection_, det2x2_, eqb. cbn [fst snd].
  destruct (Req_EM_T _ 0), (Req_EM_T _ 0); auto; try (exfalso; lra). f_equal. f_equal; field; split; lra.
Qed.

Lemma parallel_comm l1 l2 : is_parallel l1 l2 = is_parallel l2 l1.
Proof.
  unfold is_parallel, det2x2_. cbn [fst snd]. rewrite <- Rabs_Ropp. f_equal. f_equal. ring.
Qed.
Lemma perpendicular_comm l1 l2 : is_perpendicular l1 l2 = is_perpendicular l2 l1.
Proof. unfold is_perpendicular, dot_. f_equal. ring. Qed.
Lemma orthogonal_comm c1 c2 : is_orthogonal c1 c2 = is_orthogonal c2 c1.
Proof. unfold is_orthogonal, dot_, vsub. cbn [fst snd]. f_equal; ring. Qed.

Lemma dot_comm2 (P Q : pt) : dot_ (vsub P Q) (vsub P Q) = dot_ (vsub Q P) (vsub Q P).
Proof. unfold dot_, vsub. cbn [fst snd]. ring. Qed.

Lemma angle_comm c1 c2 : circle_angle c1 c2 = circle_angle c2 c1.
Proof.
  unfold circle_angle. rewrite (dot_comm2 (cO c1)). replace ((cr c1 + cr c2) ^ 2) with ((cr c2 + cr c1) ^ 2) by ring. replace ((cr c1 - cr c2) ^ 2) with ((cr c2 - cr c1) ^ 2) by ring.
  destruct (_ || _); [reflexivity|]. unfold dot_, vscal. cbn [fst snd]. f_equal. f_equal. ring.
Qed.

Lemma rc2_comm c1 c2 : radical_center2 c1 c2 = radical_center2 c2 c1.
Proof.
  unfold radical_center2. rewrite (dot_comm2 (cO c2)). destruct (eqb _ 0) eqn:E; [reflexivity|]. apply eqb_false in E.
  set (d := dot_ _ _) in *. f_equal. unfold vadd, vscal, vsub. cbn [fst snd]. f_equal; field; exact E.
Qed.

Lemma axis_comm c1 c2 l l' : radical_axis c1 c2 = Ok (Some l) -> radical_axis c2 c1 = Ok (Some l') -> same_line (lA l) (lB l) (lA l') (lB l').
Proof.
  intros H H'. destruct (radical_axis_spec _ _ _ H) as [_ X]. destruct (radical_axis_spec _ _ _ H') as [_ X']. intros M. rewrite X, X'. split; auto.
Qed.

Lemma rc3_perm c1 c2 c3 d1 d2 d3 P Q : Permutation [c1; c2; c3] [d1; d2; d3] -> radical_center3 c1 c2 c3 = Ok (Some P) -> radical_center3 d1 d2 d3 = Ok (Some Q) -> Q = P.
Proof.
  intros H E F. apply radical_center3_spec in E as (_ & _ & E). apply radical_center3_spec in F as (F1 & F2 & _).
  assert (K : forall c, In c [c1; c2; c3] -> pow_circle (cO c) (cr c) Q = pow_circle (cO d1) (cr d1) Q).
  { intros c I. apply (Permutation_in _ H) in I. destruct I as [<-|[<-|[<-|[]]]]; auto. }
  apply E; (etransitivity; [apply K; cbn; auto|symmetry; apply K; cbn; auto]).
Qed.

Lemma mid_comm c1 c2 : 0 < cr c1 -> 0 < cr c2 -> cr c1 <> cr c2 -> mid_circles c1 c2 = mid_circles c2 c1.
Proof.
  intros H1 H2 N. unfold mid_circles.
  rewrite (proj2 (eqb_false (cr c1) (cr c2)) N), (proj2 (eqb_false (cr c2) (cr c1)) (fun E => N (eq_sym E))).
  rewrite (dot_comm2 (cO c1) (cO c2)). replace ((cr c1 + cr c2) ^ 2) with ((cr c2 + cr c1) ^ 2) by ring. replace ((cr c1 - cr c2) ^ 2) with ((cr c2 - cr c1) ^ 2) by ring.
  set (O1 := cO c1). set (O2 := cO c2). set (r1 := cr c1) in *. set (r2 := cr c2) in *.
  assert (EX : vsub O1 (vscal (r1 / r2 / (1 - r1 / r2)) (vsub O2 O1)) = vsub O2 (vscal (r2 / r1 / (1 - r2 / r1)) (vsub O1 O2))).
  { unfold vsub, vscal. cbn [fst snd]. f_equal; field; repeat split; lra. }
  assert (IN : vadd O1 (vscal (r1 / r2 / (1 + r1 / r2)) (vsub O2 O1)) = vadd O2 (vscal (r2 / r1 / (1 + r2 / r1)) (vsub O1 O2))).
  { unfold vadd, vsub, vscal. cbn [fst snd]. f_equal; field; repeat split; lra. }
  assert (KX : let P := vsub O1 (vscal (r1 / r2 / (1 - r1 / r2)) (vsub O2 O1)) in dot_ (vsub P O1) (vsub P O1) - r1 * r1 = (r1 / r2) * (r1 / r2) * (dot_ (vsub P O2) (vsub P O2) - r2 * r2)).
  { unfold dot_, vsub, vscal. cbn [fst snd]. field; repeat split; lra. }
  assert (KI : let P := vadd O1 (vscal (r1 / r2 / (1 + r1 / r2)) (vsub O2 O1)) in dot_ (vsub P O1) (vsub P O1) - r1 * r1 = (r1 / r2) * (r1 / r2) * (dot_ (vsub P O2) (vsub P O2) - r2 * r2)).
  { unfold dot_, vadd, vsub, vscal. cbn [fst snd]. field; repeat split; lra. }
  rewrite <- EX, <- IN. cbv zeta in KX, KI. rewrite KX, KI. rewrite !Rabs_mult.
  assert (Q0 : 0 < r1 / r2) by (apply Rdiv_lt_0_compat; lra). rewrite (Rabs_right (r1 / r2)) by lra.
  assert (Q1 : forall x, r2 / r1 * (r1 / r2 * (r1 / r2) * x) = r1 / r2 * x) by (intros; field; split; lra).
  rewrite !Q1. reflexivity.
Qed.

Lemma two_perm (P Q P' Q' : pt) : P' <> Q' -> P' = P \/ P' = Q -> Q' = P \/ Q' = Q -> Permutation [P; Q] [P'; Q'].
Proof. intros N [->| ->] [->| ->]; try contradiction; [reflexivity|apply perm_swap]. Qed.

Lemma icc_comm c1 c2 : 0 < cr c1 -> 0 < cr c2 -> circle_is_equal c1 c2 = false -> circle_is_equal c2 c1 = false ->
  match intersection_circle_circle c1 c2, intersection_circle_circle c2 c1 with
  | Ok (CCPoints INone), Ok (CCPoints INone) => True
  | Ok (CCPoints (IOne _)), Ok (CCPoints (IOne _)) => True
  | Ok (CCPoints (ITwo P Q)), Ok (CCPoints (ITwo P' Q')) => Permutation [P; Q] [P'; Q']
  | _, _ => False
  end.
Proof.
  intros H1 H2 E E'. pose proof (icc_spec c1 c2 H1 H2) as S. pose proof (icc_spec c2 c1 H2 H1) as S'.
  assert (X : forall c c', circle_is_equal c c' = false -> let t := ltb ((cr c + cr c') ^ 2 - dist2 (cO c) (cO c')) sepsilon_ || ltb (dist2 (cO c) (cO c') - (cr c - cr c') ^ 2) sepsilon_ in
     let n := ltb ((cr c + cr c') ^ 2 + sepsilon_) (dist2 (cO c) (cO c')) || ltb (dist2 (cO c) (cO c')) ((cr c - cr c') ^ 2 - sepsilon_) in
     match intersection_circle_circle c c' with Raise _ => True | Ok (CCSame _) => False | Ok (CCPoints INone) => n = true | Ok (CCPoints (IOne _)) => n = false /\ t = true | Ok (CCPoints (ITwo _ _)) => n = false /\ t = false end).
  { intros c c' F t n. unfold intersection_circle_circle. rewrite F. rewrite dot_dist2'. fold n. destruct n; [reflexivity|].
    destruct (vsub (cO c) (cO c')) as [x y]. fold t.
    match goal with |- match bind ?r _ with _ => _ end => destruct r end; [|exact I]. cbn [bind]. destruct t; auto. }
  pose proof (X c1 c2 E) as X1. pose proof (X c2 c1 E') as X2. cbv zeta in X1, X2. clear X.
  rewrite (dist2_sym (cO c2) (cO c1)) in X2. replace ((cr c2 + cr c1) ^ 2) with ((cr c1 + cr c2) ^ 2) in X2 by ring. replace ((cr c2 - cr c1) ^ 2) with ((cr c1 - cr c2) ^ 2) in X2 by ring.
  destruct (intersection_circle_circle c1 c2) as [[|[|?|P Q]]|], (intersection_circle_circle c2 c1) as [[|[|?|P' Q']]|]; auto; try contradiction; try (destruct X1; destruct X2; congruence); try (destruct X1; congruence); try (destruct X2; congruence).
  destruct S as (N & A1 & A2 & A3 & A4 & A5). destruct S' as (N' & B1 & B2 & B3 & B4 & B5).
  apply two_perm; auto.
Qed.

(** ** Lines given by other points *)

Lemma same_dir A B C D : A <> B -> C <> D -> same_line A B C D -> exists k, k <> 0 /\ vsub D C = vscal k (vsub B A).
Proof.
  intros H H' S. apply same_line_cross in S as [S1 S2]; auto. pose proof (pt_neq A B H) as Hp.
  assert (HC : on_line A B C) by (apply on_line_cross; auto). assert (HD : on_line A B D) by (apply on_line_cross; auto).
  destruct HC as [t ->]. destruct HD as [u ->]. exists (u - t). split.
  - intros E. apply H'. replace u with t by lra. reflexivity.
  - unfold at_line, vadd, vsub, vscal. cbn [fst snd]. f_equal; ring.
Qed.

Lemma projection_same l l' M : lA l <> lB l -> lA l' <> lB l' -> same_line (lA l) (lB l) (lA l') (lB l') ->
  line_projection l M = line_projection l' M /\ line_distance l M = line_distance l' M.
Proof.
  intros H H' S. destruct (projection_nearest l M H) as (P & E & O1 & _ & D1 & N1 & U1). destruct (projection_nearest l' M H') as (P' & E' & O2 & _ & D2 & N2 & U2).
  assert (P = P'). { apply U2; [apply S; auto|]. apply Rle_antisym; [apply N1; apply S; auto|apply N2; apply S; auto]. }
  subst P'. rewrite E, E', D1, D2. auto.
Qed.

Lemma includes_same l l' M cc : allclose (lA l) (lB l) = false -> allclose (lA l') (lB l') = false -> same_line (lA l) (lB l) (lA l') (lB l') ->
  allclose (lA l) M = false -> allclose (lB l) M = false -> allclose (lA l') M = false -> allclose (lB l') M = false ->
  line_includes l M false cc = line_includes l' M false cc.
Proof.
  intros H H' S H1 H2 H3 H4. destruct (includes_decides l M cc H H1 H2) as (b & -> & E). destruct (includes_decides l' M cc H' H3 H4) as (b' & -> & E').
  f_equal. apply eq_true_iff_eq. rewrite E, E'. apply S.
Qed.

Lemma meet_same l1 l1' l2 l2' st st' P P' : lA l1 <> lB l1 -> lA l1' <> lB l1' -> lA l2 <> lB l2 -> lA l2' <> lB l2' ->
  same_line (lA l1) (lB l1) (lA l1') (lB l1') -> same_line (lA l2) (lB l2) (lA l2') (lB l2') ->
  intersection_line_line l1 l2 st = Some P -> intersection_line_line l1' l2' st' = Some P' -> P' = P.
Proof.
  intros H1 H1' H2 H2' S1 S2 E E'. destruct (intersection_line_line_sound _ _ _ _ H1 H2 E) as (_ & _ & U). destruct (intersection_line_line_sound _ _ _ _ H1' H2' E') as (X1 & X2 & _).
  apply U; [apply S1|apply S2]; auto.
Qed.

Lemma icl_same c l l' : 0 < cr c -> lA l <> lB l -> lA l' <> lB l' -> same_line (lA l) (lB l) (lA l') (lB l') ->
  match intersection_circle_line c l, intersection_circle_line c l' with
  | Ok INone, Ok INone => True
  | Ok (IOne P), Ok (IOne P') => P = P'
  | Ok (ITwo P Q), Ok (ITwo P' Q') => Permutation [P; Q] [P'; Q']
  | Ok (IOne _), Ok (ITwo _ _) => True
  | Ok (ITwo _ _), Ok (IOne _) => True
  | _, _ => False
  end.
Proof.
  intros Hc H H' S. destruct (projection_same l l' (cO c) H H' S) as [EP _]. destruct (projection_nearest l (cO c) H) as (P0 & E0 & _).
  assert (E0' : line_projection l' (cO c) = Some P0) by congruence.
  pose proof (icl_which c l P0 H Hc E0) as (W1 & W2 & W3). pose proof (icl_which c l' P0 H' Hc E0') as (W1' & W2' & W3'). cbv zeta in *.
  pose proof (icl_spec c l H Hc) as K. pose proof (icl_spec c l' H' Hc) as K'.
  assert (D : 0 < dist2 (lA l) (lB l)) by (apply dist2_pos; auto). assert (D' : 0 < dist2 (lA l') (lB l')) by (apply dist2_pos; auto).
  set (q := cr c * cr c - dist2 (cO c) P0) in *.
  assert (Z : dist2 (lA l) (lB l) * q < 0 <-> dist2 (lA l') (lB l') * q < 0) by (split; intros; nra).
  destruct (intersection_circle_line c l) as [[|P|P Q]|] eqn:E; try contradiction; destruct (intersection_circle_line c l') as [[|P'|P' Q']|] eqn:E'; try contradiction; auto.
  - exfalso. assert (dist2 (lA l) (lB l) * q < 0) by (apply W1; auto). apply Z, W1' in H0. discriminate.
  - exfalso. assert (dist2 (lA l) (lB l) * q < 0) by (apply W1; auto). apply Z, W1' in H0. discriminate.
  - exfalso. assert (dist2 (lA l') (lB l') * q < 0) by (apply W1'; auto). apply Z, W1 in H0. discriminate.
  - assert (X : forall m, lA m <> lB m -> line_projection m (cO c) = Some P0 -> forall X, on_line (lA m) (lB m) X -> orthogonal (vsub X (cO c)) (vsub (lB m) (lA m)) -> X = P0).
    { intros m Hm Em X OX RX. destruct (projection_nearest m (cO c) Hm) as (Y & EY & OY & RY & _). rewrite Em in EY. injection EY as <-.
      destruct OX as [t ->]. destruct OY as [u ->]. f_equal. apply pt_neq in Hm. destruct (lA m), (lB m), (cO c). unspec.
      assert ((t - u) * ((r1 - r) * (r1 - r) + (r2 - r0) * (r2 - r0)) = 0) by lra. apply Rmult_integral in H0 as [|]; [lra|]. exfalso. nra. }
    destruct K as (K1 & K2 & _). destruct K' as (K1' & K2' & _). rewrite (X l H E0 P K1 K2), (X l' H' E0' P' K1' K2'). reflexivity.
  - exfalso. assert (dist2 (lA l') (lB l') * q < 0) by (apply W1'; auto). apply Z, W1 in H0. discriminate.
  - destruct K as (N & A1 & A2 & A3 & A4 & A5). destruct K' as (N' & B1 & B2 & B3 & B4 & B5).
    apply two_perm; auto; apply A5; auto; apply S; auto.
Qed.

Lemma reflection_same l l' P Q Q' : allclose (lA l) (lB l) = false -> allclose (lA l') (lB l') = false -> same_line (lA l) (lB l) (lA l') (lB l') ->
  allclose (lA l) P = false -> allclose (lB l) P = false -> allclose (lA l') P = false -> allclose (lB l') P = false ->
  reflection_transform_pt l P = Ok Q -> reflection_transform_pt l' P = Ok Q' -> Q' = Q.
Proof.
  intros H H' S H1 H2 H3 H4 E E'. apply reflection_spec in E; auto. apply reflection_spec in E'; auto.
  assert (N : lA l <> lB l) by (intros X; rewrite X, allclose_refl in H; discriminate). assert (N' : lA l' <> lB l') by (intros X; rewrite X, allclose_refl in H'; discriminate).
  apply (mirror_unique (lA l) (lB l) P); auto. destruct E' as [M1 M2]. destruct (same_dir _ _ _ _ N N' S) as (k & Hk & K). split.
  - apply S. exact M1.
  - rewrite K in M2. unspec. apply (Rmult_eq_reg_l k); [|exact Hk]. lra.
Qed.

Lemma invert_line_same iota l l' c c' : lA l <> lB l -> lA l' <> lB l' -> same_line (lA l) (lB l) (lA l') (lB l') ->
  invert_line iota l = Ok (Some (GC c)) -> invert_line iota l' = Ok (Some (GC c')) -> c' = c.
Proof.
  intros H H' S E E'. destruct (invert_line_spec _ _ _ E) as (K & R & N & I0 & F). destruct (invert_line_spec _ _ _ E') as (_ & R' & _ & I0' & F').
  assert (NA : lA l <> ipole iota). { intros X. apply N. rewrite <- X. exists 0. destruct (lA l), (lB l). unspec. f_equal; ring. }
  assert (NB : lB l <> ipole iota). { intros X. apply N. rewrite <- X. exists 1. destruct (lA l), (lB l). unspec. f_equal; ring. }
  assert (OA : on_line (lA l) (lB l) (lA l)) by (exists 0; destruct (lA l), (lB l); unspec; f_equal; ring).
  assert (OB : on_line (lA l) (lB l) (lB l)) by (exists 1; destruct (lA l), (lB l); unspec; f_equal; ring).
  destruct (circ_unique (ipole iota) (inv_pt (ipole iota) (ipower iota) (lA l)) (inv_pt (ipole iota) (ipower iota) (lB l)) (cO c') (cO c) (cr c') (cr c)) as [X1 X2]; auto; try lra.
  - rewrite inv_dbl by auto. assert (D1 : 0 < dist2 (ipole iota) (lA l)) by (apply dist2_pos; auto). assert (D2 : 0 < dist2 (ipole iota) (lB l)) by (apply dist2_pos; auto).
    assert (X : scross (vsub (lA l) (ipole iota)) (vsub (lB l) (ipole iota)) <> 0).
    { intros Z. apply N. apply on_line_cross; auto. rewrite <- Z. unspec. ring. }
    repeat apply Rmult_integral_contrapositive_currified; auto; apply Rinv_neq_0_compat; lra.
  - apply F'; auto. apply S. exact OA.
  - apply F'; auto. apply S. exact OB.
  - apply F; auto.
  - apply F; auto.
  - apply circle_ext; auto.
Qed.
