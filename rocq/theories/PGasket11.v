(** * Proofs about the triangular gasket: the tolerances at the corners. *)

From Coq Require Import Reals Lra Lia Psatz List Bool ZArith.
From Verif Require Import Base BaseLemmas Spec SpecLemmas SpecTriangle SpecGasket ModelInternal ModelLine ModelCircle ModelTriangle ModelGasket PLine PTriangle PTriangle2 PTriangle3 PTriangle4 PTriangle5 PSteiner PGasket1 PGasket2 PGasket3 PGasket4 PGasket5 PGasket6 PGasket7 PGasket8 PGasket9 PGasket10.
Import ListNotations.
Local Open Scope R_scope.

(** ** lines taken as equal are nearly parallel *)
Lemma sin_abs_le x : Rabs (sin x) <= Rabs x.
Proof.
  destruct (Rtotal_order x 0) as [L|[->|L]]; [|rewrite sin_0; lra|].
  - assert (sin (- x) < - x) by (apply sin_lt_x; lra). assert (G : - - x > sin (- - x) \/ True) by auto. clear G. rewrite sin_neg in H.
    rewrite (Rabs_left x) by lra. apply Rabs_le. split; [lra|]. destruct (Rle_lt_dec (sin x) (- x)) as [|K]; auto. pose proof (SIN_bound x).
    destruct (Rle_lt_dec (- PI) x) as [P|P]; [|pose proof PI_RGT_0; pose proof PI2_1; lra]. assert (0 <= sin (- x)) by (apply sin_ge_0; lra). rewrite sin_neg in H1. lra.
  - assert (sin x < x) by (apply sin_lt_x; lra). rewrite (Rabs_right x) by lra. apply Rabs_le. split; [|lra]. pose proof (SIN_bound x).
    destruct (Rle_lt_dec x PI) as [P|P]; [assert (0 <= sin x) by (apply sin_ge_0; lra); lra|pose proof PI2_1; lra].
Qed.

Lemma sin_shift d (n : Z) : Rabs (sin (d + IZR n * PI)) <= Rabs d.
Proof.
  rewrite sin_plus. rewrite (sin_eq_0_1 (IZR n * PI)) by (exists n; auto). rewrite Rmult_0_r, Rplus_0_r, Rabs_mult.
  pose proof (sin_abs_le d). assert (Rabs (cos (IZR n * PI)) <= 1) by (apply Rabs_le; pose proof (COS_bound (IZR n * PI)); lra).
  pose proof (Rabs_pos (sin d)). pose proof (Rabs_pos (cos (IZR n * PI))). assert (Rabs (sin d) * Rabs (cos (IZR n * PI)) <= Rabs (sin d) * 1) by (apply Rmult_le_compat_l; lra). lra.
Qed.

Lemma isclose_le x y m : Rabs x <= m -> Rabs y <= m -> isclose x y = true -> Rabs (x - y) <= / 1000000000 * m.
Proof. intros Hx Hy H. unfold isclose in H. apply leb_true in H. assert (Rmax (Rabs x) (Rabs y) <= m) by (apply Rmax_lub; auto). lra. Qed.
Lemma approx_le x y m : 0 <= x <= m -> 0 <= y <= m -> approx_equal_ x y = true -> Rabs (x - y) <= / 1000000000 * (m + 1).
Proof.
  intros Hx Hy H. unfold approx_equal_ in H. apply orb_true_iff in H. destruct H as [H|H].
  - apply (isclose_le _ _ m) in H; try (apply Rabs_le; lra). lra.
  - apply (isclose_le _ _ (m + 1)) in H; try (apply Rabs_le; lra). replace (x + 1 - (y + 1)) with (x - y) in H by ring. lra.
Qed.

Lemma PI_4 : PI <= 4. Proof. pose proof PI_4. lra. Qed.

Lemma equal_angle l1 l2 : lA l1 <> lB l1 -> lA l2 <> lB l2 -> line_is_equal l1 l2 = true ->
  Rabs (sin (fst (direction_offset l1) - fst (direction_offset l2))) <= / 10000 /\
  Rabs (snd (direction_offset l1) - snd (direction_offset l2)) <= / 100000000 + / 100000 * Rmax (snd (direction_offset l1)) (snd (direction_offset l2)).
Proof.
  intros N1 N2 H. destruct (direction_offset_spec l1 N1) as (R1 & O1 & _). destruct (direction_offset_spec l2 N2) as (R2 & O2 & _).
  unfold line_is_equal in H. cbv zeta in H. destruct (direction_offset l1) as [t1 o1]. destruct (direction_offset l2) as [t2 o2]. cbn [fst snd] in *. pose proof PI_4 as P4. pose proof PI_RGT_0 as PP.
  pose proof (Rmax_l o1 o2) as Ml. pose proof (Rmax_r o1 o2) as Mr.
  destruct (approx_equal_ o1 o2) eqn:EO.
  - apply (approx_le _ _ (Rmax o1 o2)) in EO; try lra. split; [|lra]. 
    pose proof (pymod_range t1 PI PP) as Q1. pose proof (pymod_range t2 PI PP) as Q2. apply (approx_le _ _ PI) in H; try lra.
    destruct (pymod_eq t1 PI) as (n1 & E1). destruct (pymod_eq t2 PI) as (n2 & E2).
    replace (t1 - t2) with ((pymod t1 PI - pymod t2 PI) + IZR (n1 - n2) * PI) by (rewrite E1, E2, minus_IZR; ring).
    eapply Rle_trans; [apply sin_shift|]. lra.
  - unfold allclose in H. cbn [fst snd] in H. apply andb_true_iff in H. destruct H as (H1 & H2). unfold allclose1 in H1, H2. apply leb_true in H1, H2.
    split.
    + eapply Rle_trans; [apply sin_abs_le|]. rewrite (Rabs_right t2) in H1 by lra. lra.
    + rewrite (Rabs_right o2) in H2 by lra. lra.
Qed.

Lemma equal_cross l1 l2 : lA l1 <> lB l1 -> lA l2 <> lB l2 -> line_is_equal l1 l2 = true ->
  let d1 := vsub (lB l1) (lA l1) in let d2 := vsub (lB l2) (lA l2) in
  scross d1 d2 * scross d1 d2 <= / 100000000 * (sdot d1 d1 * sdot d2 d2).
Proof.
  intros N1 N2 H d1 d2. destruct (equal_angle l1 l2 N1 N2 H) as (K & _). destruct (direction_offset_spec l1 N1) as (_ & _ & U1 & (k1 & Z1 & C1 & S1) & _).
  destruct (direction_offset_spec l2 N2) as (_ & _ & U2 & (k2 & Z2 & C2 & S2) & _). cbv zeta in *. rewrite sin_minus in K. rewrite C1, S1, C2, S2 in K. rewrite C1, S1 in U1. rewrite C2, S2 in U2.
  set (s := _ - _) in K. assert (Es : s = - (k1 * k2 * (scross d1 d2))) by (unfold s, d1, d2; unspec; ring).
  assert (E1 : k1 * k1 * sdot d1 d1 = 1) by (rewrite <- U1; unfold d1; unspec; ring). assert (E2 : k2 * k2 * sdot d2 d2 = 1) by (rewrite <- U2; unfold d2; unspec; ring).
  assert (K2 : s * s <= / 100000000) by (rewrite <- Rabs_sq; pose proof (Rabs_pos s); assert (Rabs s * Rabs s <= / 10000 * / 10000) by (apply Rmult_le_compat; lra); lra).
  assert (P1 : 0 < sdot d1 d1) by (pose proof (sqnn k1); assert (0 <= sdot d1 d1) by (unfold sdot; pose proof (sqnn (fst d1)); pose proof (sqnn (snd d1)); lra); destruct (Req_dec (sdot d1 d1) 0) as [Z|Z]; [rewrite Z in E1|]; lra).
  assert (P2 : 0 < sdot d2 d2) by (pose proof (sqnn k2); assert (0 <= sdot d2 d2) by (unfold sdot; pose proof (sqnn (fst d2)); pose proof (sqnn (snd d2)); lra); destruct (Req_dec (sdot d2 d2) 0) as [Z|Z]; [rewrite Z in E2|]; lra).
  assert (E3 : scross d1 d2 * scross d1 d2 = s * s * (sdot d1 d1 * sdot d2 d2)).
  { rewrite Es. transitivity ((k1 * k1 * sdot d1 d1) * (k2 * k2 * sdot d2 d2) * (scross d1 d2 * scross d1 d2)); [rewrite E1, E2; ring|ring]. }
  rewrite E3. apply Rmult_le_compat_r; auto. pose proof (Rmult_lt_0_compat _ _ P1 P2). lra.
Qed.

(** ** points that are not close *)
Lemma allclose_far P Q M L : Rabs (fst Q) <= M -> Rabs (snd Q) <= M -> L * L <= dist2 P Q -> / 100000000 + / 100000 * M < L * / 2 -> 0 <= M -> allclose P Q = false.
Proof.
  intros M1 M2 HL HM PM. destruct (allclose P Q) eqn:E; auto. exfalso. unfold allclose in E. apply andb_true_iff in E. destruct E as (E1 & E2). unfold allclose1 in E1, E2. apply leb_true in E1, E2.
  set (b := / 100000000 + / 100000 * M) in *. assert (Rabs (fst P - fst Q) <= b) by (unfold b; lra). assert (Rabs (snd P - snd Q) <= b) by (unfold b; lra).
  assert (sq : forall v, Rabs v <= b -> v * v <= b * b) by (intros v Hv; rewrite <- Rabs_sq; pose proof (Rabs_pos v); apply Rmult_le_compat; auto).
  apply sq in H. apply sq in H0. assert (Pb : 0 <= b) by (unfold b; lra). assert (2 * b * (2 * b) < L * L) by (apply Rmult_le_0_lt_compat; lra).
  replace (dist2 P Q) with ((fst P - fst Q) * (fst P - fst Q) + (snd P - snd Q) * (snd P - snd Q)) in HL by (unspec; ring). pose proof (sqnn b). lra.
Qed.

Lemma allclose_near P Q : dist2 P Q <= / 100000000 * / 100000000 -> allclose P Q = true.
Proof.
  intros H. assert (E : dist2 P Q = (fst P - fst Q) * (fst P - fst Q) + (snd P - snd Q) * (snd P - snd Q)) by (unspec; ring). rewrite E in H.
  pose proof (sqnn (fst P - fst Q)). pose proof (sqnn (snd P - snd Q)).
  assert (sq : forall v, v * v <= / 100000000 * / 100000000 -> Rabs v <= / 100000000) by (intros v Hv; apply Rsqr_incr_0_var; [unfold Rsqr; rewrite Rabs_sq; auto|lra]).
  assert (Rabs (fst P - fst Q) <= / 100000000) by (apply sq; lra). assert (Rabs (snd P - snd Q) <= / 100000000) by (apply sq; lra).
  unfold allclose, allclose1. apply andb_true_iff. split; apply leb_true; [pose proof (Rabs_pos (fst Q))|pose proof (Rabs_pos (snd Q))]; lra.
Qed.

Lemma Rabs_btw a M : Rabs a <= M -> - M <= a <= M.
Proof. unfold Rabs. destruct Rcase_abs; lra. Qed.

Lemma seg_bound a b t M : 0 <= t <= 1 -> Rabs a <= M -> Rabs b <= M -> Rabs (a + t * (b - a)) <= M.
Proof.
  intros Ht Ha Hb. apply Rabs_btw in Ha, Hb. apply Rabs_le. assert (0 <= t * (M - b)) by (apply Rmult_le_pos; lra). assert (0 <= t * (b + M)) by (apply Rmult_le_pos; lra).
  assert (0 <= (1 - t) * (M - a)) by (apply Rmult_le_pos; lra). assert (0 <= (1 - t) * (a + M)) by (apply Rmult_le_pos; lra). lra.
Qed.
Lemma comp_le v r : 0 <= r -> sdot v v = r * r -> Rabs (fst v) <= r /\ Rabs (snd v) <= r.
Proof.
  intros Hr E. assert (E' : fst v * fst v + snd v * snd v = r * r) by (rewrite <- E; reflexivity). pose proof (sqnn (fst v)). pose proof (sqnn (snd v)).
  split; apply Rsqr_incr_0_var; auto; unfold Rsqr; rewrite Rabs_sq; lra.
Qed.

(** the tangent line of the circle at its point nearest to A, with the side AC *)
Lemma tangent_meets A C w r d T P P' b u : sdot u u = 1 -> 0 < b -> vsub C A = vscal b u -> 0 < r < d -> d * d = sdot w w -> sdot w u = T ->
  vsub P' P = vscal (- (r / d)) (- snd w, fst w) -> d < 10000 * T -> sepsilon_ <= r * b * (T / d) ->
  exists Q, intersection_line_line (mkLine P P' true true) (mkLine A C true true) false = Some Q.
Proof.
  intros Uu Pb Eu Hr Qd ET EP HC HS. assert (PT : 0 < T) by lra. 
  assert (NAC : A <> C). { intros E. assert (K : sdot (vsub C A) (vsub C A) = b * b) by (rewrite Eu; transitivity (b * b * sdot u u); [unspec; ring|rewrite Uu; ring]). rewrite <- E in K. assert (b * b = 0) by (rewrite <- K; unspec; ring). pose proof (Rmult_lt_0_compat b b). lra. }
  assert (ED : sdot (vsub P' P) (vsub P' P) = r * r). { rewrite EP. transitivity ((r / d) * (r / d) * sdot w w); [unspec; ring|]. rewrite <- Qd. field. lra. }
  assert (NPP : P <> P'). { intros E. rewrite <- E in ED. assert (r * r = 0) by (rewrite <- ED; unspec; ring). pose proof (Rmult_lt_0_compat r r). lra. }
  assert (EX : scross (vsub P' P) (vsub C A) = r * b * (T / d)). { rewrite EP, Eu. transitivity ((r / d) * b * (sdot w u)); [unspec; ring|]. rewrite ET. field. lra. }
  assert (PX : 0 < r * b * (T / d)) by (repeat apply Rmult_lt_0_compat; try lra; apply Rinv_0_lt_compat; lra).
  unfold intersection_line_line. destruct (line_is_equal _ _) eqn:EQ.
  { exfalso. apply equal_cross in EQ; cbn [lA lB] in *; auto. rewrite EX, ED, Eu in EQ. replace (sdot (vscal b u) (vscal b u)) with (b * b) in EQ by (transitivity (b * b * sdot u u); [rewrite Uu; ring|unspec; ring]).
    assert (K : (T / d) * (T / d) <= / 100000000). { apply (Rmult_le_reg_l (r * r * (b * b))); [repeat apply Rmult_lt_0_compat; lra|]. lra. }
    assert (K2 : / 10000 < T / d) by (apply (Rmult_lt_reg_r d); [lra|]; replace (T / d * d) with T by (field; lra); lra).
    assert (/ 10000 * / 10000 < T / d * (T / d)) by (apply Rmult_le_0_lt_compat; lra). lra. }
  assert (DD : det2x2_ (fst P - fst P', snd P - snd P') (fst A - fst C, snd A - snd C) = r * b * (T / d)) by (rewrite <- EX; unfold det2x2_; unspec; ring).
  unfold is_parallel. cbn [lA lB]. rewrite DD. rewrite Rabs_right by lra. destruct (ltb _ _) eqn:EL; [apply ltb_true in EL; lra|].
  unfold line_line_intersection_. rewrite DD. destruct (eqb _ 0) eqn:EZ; [apply eqb_true in EZ; lra|]. cbn [negb]. eauto.
Qed.

Lemma side_side_total A B C c D M : region (CLL A B C c) D -> bounded M A -> bounded M B -> bounded M C -> bounded M (cO c) ->
  (1 + M) / 20000 <= cr c -> (1 + M) / 20000 <= dist A B -> (1 + M) / 20000 <= dist A C -> dist A (cO c) < 10000 * cr D ->
  sepsilon_ <= cr c * dist A C * (cr D / dist A (cO c)) -> sepsilon_ <= cr c * dist A B * (cr D / dist A (cO c)) ->
  side_side_circle A B C c = Ok (corner_next A c, [CLL A B C (corner_next A c); CCL c (corner_next A c) A B; CCL c (corner_next A c) A C]).
Proof.
  intros R (HA1 & HA2) (HB1 & HB2) (HC1 & HC2) (HO1 & HO2) Hr0 HAB HAC HT HS1 HS2. destruct (side_side_cases A B C c D R) as (P & P' & EP & EP' & [(_ & F)|(_ & F)]); auto. exfalso.
  destruct R as (Pc & PD & ED & O & e & He & Hx & T1 & T2).
  destruct (cll_geom e A B C c D Pc PD ED O He Hx T1 T2) as (u & v & q & de & Pa & Pb & Eu & Ev & Uu & Uv & Pq & Pde & Ede & Ew & Er & Hr & Ed & Qd & ET & E2 & Eg).
  unfold posc in *. set (r := cr c) in *. set (d := dist A (cO c)) in *. set (T := cr D) in *. set (w := vsub (cO c) A) in *.
  assert (PM : 0 <= M) by (pose proof (Rabs_pos (fst A)); lra).
  assert (Qr : sdot (vsub P' P) (vsub P' P) = r * r). { rewrite EP'. transitivity ((r / d) * (r / d) * sdot w w); [unspec; ring|]. rewrite <- Qd. field. lra. }
  assert (Ht : 0 <= 1 - r / d <= 1). { assert (0 < r / d) by (apply Rdiv_lt_0_compat; lra). assert (r / d < 1) by (apply (Rmult_lt_reg_r d); [lra|]; replace (r / d * d) with r by (field; lra); lra). lra. }
  assert (BP : bounded M P). { rewrite EP. unfold w, bounded, vadd, vscal, vsub. cbn [fst snd]. split; apply seg_bound; auto. }
  destruct (comp_le (vsub P' P) r ltac:(lra) Qr) as (Q1 & Q2). unfold vsub in Q1, Q2. cbn [fst snd] in Q1, Q2. destruct BP as (BP1 & BP2).
  assert (BP'1 : Rabs (fst P') <= M + r) by (apply Rabs_btw in Q1, BP1; apply Rabs_le; lra). assert (BP'2 : Rabs (snd P') <= M + r) by (apply Rabs_btw in Q2, BP2; apply Rabs_le; lra).
  rewrite (allclose_far P P' (M + r) r) in F; auto; [|unfold dist2; lra|lra|lra].
  rewrite (allclose_far A C M ((1 + M) / 20000)) in F; auto; [|rewrite <- dist_sq; apply Rmult_le_compat; lra|lra].
  rewrite (allclose_far A B M ((1 + M) / 20000)) in F; auto; [|rewrite <- dist_sq; apply Rmult_le_compat; lra|lra].
  assert (G : sdot w u = T /\ sdot w v = T).
  { rewrite Ew, ET. split; [transitivity (q * (sdot u u + sdot u v))|transitivity (q * (sdot v v + sdot u v))]; try (unspec; ring); [rewrite Uu|rewrite Uv]; ring. }
  destruct (tangent_meets A C w r d T P P' (dist A C) u) as (P1 & I1); auto; try tauto.
  destruct (tangent_meets A B w r d T P P' (dist A B) v) as (P2 & I2); auto; try tauto.
  rewrite I1, I2 in F. intuition discriminate.
Qed.

(** a circle of radius at most 1e-8 in a corner *)
Lemma side_side_tiny A B C c D : region (CLL A B C c) D -> cr c <= / 100000000 -> side_side_circle A B C c = Raise ValueError.
Proof.
  intros R Hr0. destruct (side_side_cases A B C c D R) as (P & P' & EP & EP' & [(H & _)|(H & _)]); auto. exfalso.
  destruct R as (Pc & PD & ED & O & e & He & Hx & T1 & T2).
  destruct (cll_geom e A B C c D Pc PD ED O He Hx T1 T2) as (u & v & q & de & Pa & Pb & Eu & Ev & Uu & Uv & Pq & Pde & Ede & Ew & Er & Hr & Ed & Qd & ET & E2 & Eg).
  unfold posc in *. set (r := cr c) in *. set (d := dist A (cO c)) in *. set (T := cr D) in *. set (w := vsub (cO c) A) in *.
  assert (Qr : sdot (vsub P' P) (vsub P' P) = r * r). { rewrite EP'. transitivity ((r / d) * (r / d) * sdot w w); [unspec; ring|]. rewrite <- Qd. field. lra. }
  rewrite allclose_near in H; [discriminate|]. unfold dist2. rewrite Qr. apply Rmult_le_compat; lra.
Qed.
