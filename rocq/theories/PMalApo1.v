(** * Proofs about the Malfatti gasket: the outer Soddy circle. *)

From Coq Require Import Reals Lra Lia Psatz List Bool.
From Verif Require Import Base BaseLemmas Spec SpecLemmas SpecTriangle SpecGasket SpecApollonian ModelInternal ModelLine ModelCircle ModelTriangle ModelInversion ModelApollonian PTriangle PTriangle2 PTriangle3 PTriangle4 PTriangle5 PSteiner PGasket1 PGasket5 PApo1 PApo2.
Import ListNotations.
Local Open Scope R_scope.

(** the vector tangent to three mutually tangent ones, on the far side *)
Definition sod (v1 v2 v3 d : v4) : v4 := v4add (v4add v1 v2) (v4add v3 (v4scal (-2) d)).

Lemma sod_frame v1 v2 v3 d : frame v1 v2 v3 d -> let u := sod v1 v2 v3 d in
  kap u u = -1 /\ kap u v1 = 1 /\ kap u v2 = 1 /\ kap u v3 = 1 /\ kap u d = 2.
Proof.
  intros ((A1 & A2 & A3 & A4) & (B1 & B2 & B3) & C1 & C2 & C3) u.
  assert (Q : forall x, kap u x = kap v1 x + kap v2 x + kap v3 x - 2 * kap d x) by (intros x; unfold u, sod; rewrite !kap_add_l, kap_scal_l; ring).
  assert (K1 : kap u v1 = 1) by (rewrite Q, A1, (kap_sym v2 v1), B1, (kap_sym v3 v1), B3, C1; ring).
  assert (K2 : kap u v2 = 1) by (rewrite Q, A2, B1, (kap_sym v3 v2), B2, C2; ring).
  assert (K3 : kap u v3 = 1) by (rewrite Q, A3, B2, B3, C3; ring).
  assert (K4 : kap u d = 2) by (rewrite Q, A4, (kap_sym v1 d), (kap_sym v2 d), (kap_sym v3 d), C1, C2, C3; ring).
  split; [|auto]. rewrite Q, (kap_sym v1), (kap_sym v2), (kap_sym v3), (kap_sym d), K1, K2, K3, K4. ring.
Qed.

(** the circle orthogonal to three mutually tangent circles *)
Definition orthc (c1 c2 c3 : circle) (S : R) : circle :=
  mkCircle (incenter (cO c1) (cO c2) (cO c3) (cr c1) (cr c2) (cr c3)) (S / (cr c1 + cr c2 + cr c3)).

Lemma orthc_frame c1 c2 c3 S : Ravi (cO c1) (cO c2) (cO c3) (cr c1) (cr c2) (cr c3) S -> posc (orthc c1 c2 c3 S) /\ frame (vc c1) (vc c2) (vc c3) (vc (orthc c1 c2 c3 S)).
Proof.
  intros H. pose proof (Ravi_perm _ _ _ _ _ _ _ H) as H2. pose proof (Ravi_perm _ _ _ _ _ _ _ H2) as H3.
  pose proof (incenter_dist _ _ _ _ _ _ _ H) as E1. pose proof (incenter_dist _ _ _ _ _ _ _ H2) as E2. pose proof (incenter_dist _ _ _ _ _ _ _ H3) as E3.
  cbv zeta in E1, E2, E3. rewrite incenter_perm in E3. rewrite incenter_perm in E2, E3. rewrite dist2_sym in E1, E2, E3.
  replace (cr c2 + cr c3 + cr c1) with (cr c1 + cr c2 + cr c3) in E2 by ring. replace (cr c3 + cr c1 + cr c2) with (cr c1 + cr c2 + cr c3) in E3 by ring.
  destruct H as (Hx & Hy & Hz & HS & _ & Da & Db & Dc & _). assert (PD : posc (orthc c1 c2 c3 S)) by (unfold posc, orthc; cbn [cr]; apply Rdiv_lt_0_compat; lra). split; [auto|].
  assert (O1 : kap (vc (orthc c1 c2 c3 S)) (vc c1) = 0) by (apply kap_ortho; auto; unfold ortho, orthc; cbn [cO cr]; rewrite E1; ring).
  assert (O2 : kap (vc (orthc c1 c2 c3 S)) (vc c2) = 0) by (apply kap_ortho; auto; unfold ortho, orthc; cbn [cO cr]; rewrite E2; ring).
  assert (O3 : kap (vc (orthc c1 c2 c3 S)) (vc c3) = 0) by (apply kap_ortho; auto; unfold ortho, orthc; cbn [cO cr]; rewrite E3; ring).
  unfold frame. repeat split; try apply kap_self; try apply kap_tang; auto.
Qed.

Lemma vb_sod c1 c2 c3 S : Ravi (cO c1) (cO c2) (cO c3) (cr c1) (cr c2) (cr c3) S ->
  vb (sod (vc c1) (vc c2) (vc c3) (vc (orthc c1 c2 c3 S))) = / cr c1 + / cr c2 + / cr c3 - 2 * ((cr c1 + cr c2 + cr c3) / S).
Proof.
  intros (Hx & Hy & Hz & HS & _). unfold sod, v4add, v4scal, vc, orthc, vb. cbn [fst snd cr]. field. repeat split; lra.
Qed.

Lemma np_div_nz x y : y <> 0 -> np_div x y = Ok (x / y).
Proof. unfold np_div. intros H. destruct (Req_EM_T y 0); [contradiction|auto]. Qed.
Lemma np_div_0 x y : y = 0 -> np_div x y = Raise NonFinite.
Proof. unfold np_div. intros H. destruct (Req_EM_T y 0); [auto|contradiction]. Qed.

Lemma soddy_eval c1 c2 c3 S : Ravi (cO c1) (cO c2) (cO c3) (cr c1) (cr c2) (cr c3) S ->
  let u := sod (vc c1) (vc c2) (vc c3) (vc (orthc c1 c2 c3 S)) in
  soddyOuterCircle (mkTri (cO c1) (cO c2) (cO c3)) =
    if Req_EM_T (vb u) 0 then Raise NonFinite else Ok (mkCircle (vscal (/ vb u) (vp u)) (Rabs (/ vb u))).
Proof.
  intros H u. pose proof (vb_sod c1 c2 c3 S H) as Eb. fold u in Eb. destruct H as (Hx & Hy & Hz & HS & S2 & Da & Db & Dc & _).
  unfold soddyOuterCircle. unfold side_a, side_b, side_c. cbn [tA tB tC]. change distance_ with dist. rewrite Da, Db, Dc.
  assert (Evp : vp u = vadd (vadd (vscal (/ cr c1 - (cr c2 + cr c3) / S) (cO c1)) (vscal (/ cr c2 - (cr c1 + cr c3) / S) (cO c2))) (vscal (/ cr c3 - (cr c1 + cr c2) / S) (cO c3))).
  { unfold u, sod, v4add, v4scal, vc, orthc, vp, incenter. cbn [fst snd cO cr]. destruct (cO c1), (cO c2), (cO c3). unfold bary, vadd, vscal. cbn [fst snd]. f_equal; field; repeat split; lra. }
  set (x := cr c1) in *. set (y := cr c2) in *. set (z := cr c3) in *. clearbody u x y z.
  replace (y + z + (x + z) + (x + y)) with (2 * (x + y + z)) by ring. replace (2 * (x + y + z) / 2) with (x + y + z) by field. set (s := x + y + z) in *.
  replace (s - (y + z)) with x by (unfold s; ring). replace (s - (x + z)) with y by (unfold s; ring). replace (s - (x + y)) with z by (unfold s; ring).
  replace (y + z + (x + z) - s) with z by (unfold s; ring). replace (y + z + (x + y) - s) with y by (unfold s; ring). replace (x + z + (x + y) - s) with x by (unfold s; ring).
  assert (Es : sqrt (s * x * y * z) = S) by (rewrite <- S2; apply sqrt_square; lra). replace (s * z * y * x) with (s * x * y * z) by ring.
  unfold py_sqrt. destruct (Rlt_dec (s * x * y * z) 0) as [L|_]; [exfalso; rewrite <- S2 in L; nra|]. cbn [bind]. rewrite Es.
  assert (Ps : 0 < s) by (unfold s; lra).
  rewrite np_div_nz by lra. cbn [bind]. rewrite np_div_nz by lra. cbn [bind].
  assert (Ed : 4 * ((y + z) * (x + z) * (x + y) / (4 * S)) + S / s - 2 * s = S * vb u).
  { rewrite Eb. apply (Rmult_eq_reg_r (S * s * (x * y * z))); [|apply Rgt_not_eq; repeat apply Rmult_lt_0_compat; lra].
    transitivity ((y + z) * (x + z) * (x + y) * s * (x * y * z) + S * S * (x * y * z) - 2 * s * s * S * (x * y * z)); [field; lra|].
    transitivity (S * S * s * (x * y + y * z + x * z) - 2 * s * s * S * (x * y * z)); [|field; repeat split; lra]. rewrite S2. unfold s. ring. }
  rewrite Ed. destruct (Req_EM_T (vb u) 0) as [Z|NZ].
  - rewrite np_div_0 by (rewrite Z; ring). reflexivity.
  - rewrite np_div_nz by (apply Rmult_integral_contrapositive; lra). cbn [bind]. rewrite (np_div_nz S x), (np_div_nz S y), (np_div_nz S z) by lra. cbn [bind].
    assert (Ep : y + z - S / x + (x + z - S / y) + (x + y - S / z) = - S * vb u) by (rewrite Eb; unfold s; field; repeat split; lra).
    rewrite Ep. unfold comb3. cbv zeta. rewrite !np_div_nz by (apply Rmult_integral_contrapositive; lra). cbn [bind].
    replace (S / (S * vb u)) with (/ vb u) by (field; lra). unfold Circle_init.
    assert (PR : 0 < Rabs (/ vb u)) by (apply Rabs_pos_lt, Rinv_neq_0_compat; auto). replace (leb (Rabs (/ vb u)) 0) with false by (symmetry; apply leb_false; lra).
    f_equal. f_equal. rewrite Evp. destruct (cO c1), (cO c2), (cO c3). unfold vadd, vscal. cbn [fst snd]. f_equal; field; repeat split; lra.
Qed.

(** a vector of square -1 and negative first coordinate *)
Lemma neg_circ u : vb u < 0 -> kap u u = -1 -> let c := mkCircle (vscal (/ vb u) (vp u)) (Rabs (/ vb u)) in posc c /\ u = v4scal (-1) (vc c).
Proof.
  intros H E c. assert (I : / vb u < 0) by (apply Rinv_lt_0_compat; auto). assert (Ec : c = circ (v4scal (-1) u)).
  { unfold c, circ, v4scal, vb, vp in *. cbn [fst snd]. rewrite Rabs_left by auto. destruct u as [[b [p q]] w]. cbn [fst snd] in *. unfold vscal. cbn [fst snd]. f_equal; [f_equal|]; field; lra. }
  destruct (circ_vc (v4scal (-1) u)) as (P & V & _).
  - unfold v4scal, vb in *. cbn [fst snd]. lra.
  - rewrite kap_scal_l, kap_scal_r, E. ring.
  - rewrite Ec. split; [auto|]. rewrite V. destruct u as [[b [p q]] w]. unfold v4scal, vscal, vb, vp, vw. cbn [fst snd]. f_equal; [f_equal; [|f_equal]|]; ring.
Qed.
Lemma pos_circ u : 0 < vb u -> kap u u = -1 -> let c := mkCircle (vscal (/ vb u) (vp u)) (Rabs (/ vb u)) in posc c /\ u = vc c.
Proof.
  intros H E c. assert (I : 0 < / vb u) by (apply Rinv_0_lt_compat; auto). assert (Ec : c = circ u) by (unfold c, circ; rewrite Rabs_pos_eq by lra; auto).
  destruct (circ_vc u H E) as (P & V & _). rewrite Ec. auto.
Qed.

(** the curvature of the outer Soddy circle, with sign *)
Lemma curv_sod c1 c2 c3 S : Ravi (cO c1) (cO c2) (cO c3) (cr c1) (cr c2) (cr c3) S ->
  vb (sod (vc c1) (vc c2) (vc c3) (vc (orthc c1 c2 c3 S))) = outer_curvature (cr c1) (cr c2) (cr c3).
Proof.
  intros H. rewrite vb_sod by auto. destruct H as (Hx & Hy & Hz & HS & S2 & _). unfold outer_curvature. f_equal. f_equal. f_equal. symmetry. apply sqrt_eq.
  - apply Rlt_le, Rdiv_lt_0_compat; lra.
  - apply (Rmult_eq_reg_r (S * S)); [|nra]. replace ((cr c1 + cr c2 + cr c3) / S * ((cr c1 + cr c2 + cr c3) / S) * (S * S)) with ((cr c1 + cr c2 + cr c3) * (cr c1 + cr c2 + cr c3)) by (field; lra).
    rewrite S2. field. repeat split; lra.
Qed.

(** three circles in mutual contact: the circle that surrounds them, or that is in their hole *)
Lemma soddy_outer c1 c2 c3 : posc c1 -> posc c2 -> posc c3 -> tang c1 c2 -> tang c2 c3 -> tang c1 c3 ->
  let T := mkTri (cO c1) (cO c2) (cO c3) in let q := outer_curvature (cr c1) (cr c2) (cr c3) in
  (q = 0 -> soddyOuterCircle T = Raise NonFinite) /\
  (q < 0 -> exists co, soddyOuterCircle T = Ok co /\ posc co /\ cr co = - / q /\ forall c, In c [c1; c2; c3] -> dist (cO co) (cO c) = cr co - cr c) /\
  (0 < q -> exists co, soddyOuterCircle T = Ok co /\ posc co /\ cr co = / q /\ forall c, In c [c1; c2; c3] -> tang co c).
Proof.
  intros P1 P2 P3 T12 T23 T13 T q. destruct (tangent_Ravi c1 c2 c3 P1 P2 P3 T12 T23 T13) as (S & H). pose proof (soddy_eval c1 c2 c3 S H) as E. pose proof (curv_sod c1 c2 c3 S H) as Q.
  destruct (orthc_frame c1 c2 c3 S H) as (PD & F). destruct (sod_frame _ _ _ _ F) as (K0 & K1 & K2 & K3 & _). set (u := sod _ _ _ _) in *. cbv zeta in E. fold T in E. fold q in Q. rewrite Q in E. split; [|split]; intros Hq; (destruct (Req_EM_T q 0) as [Z|NZ]; [try lra|try lra]).
  - exact E.
  - rewrite <- Q in Hq. destruct (neg_circ u Hq K0) as (Pc & Eu). rewrite Q in Pc, Eu, Hq. eexists. split; [exact E|]. split; [exact Pc|]. split; [cbn [cr]; apply Rabs_left, Rinv_lt_0_compat; auto|].
    set (co := mkCircle _ _) in *. rewrite Eu, kap_scal_l in K1, K2, K3.
    assert (Tt : forall c c', posc c -> posc c' -> tang c c' -> kap (vc c) (vc co) = -1 -> kap (vc c') (vc co) = -1 -> dist (cO co) (cO c) = cr co - cr c).
    { intros c c' H1 H2 H3 K K'. apply kap_inner_tang; auto. destruct (kap_inner_cases c co H1 Pc ltac:(lra)) as [|I1]; [auto|]. exfalso. 
      destruct (kap_inner_cases c' co H2 Pc ltac:(lra)) as [I2|I2]; [exact (inner_disj_absurd c' co c H2 I2 I1 (tang_disj _ _ H3))|].
      unfold inner, posc, tang in *. pose proof (dist_triangle (cO c) (cO co) (cO c')). rewrite (dist_sym (cO c) (cO co)) in H0. lra. }
    rewrite kap_sym in K1, K2, K3. intros c [<-|[<-|[<-|[]]]]; [apply (Tt c1 c2)|apply (Tt c2 c3)|apply (Tt c3 c1)]; auto; try lra. apply tang_sym; auto.
  - rewrite <- Q in Hq. destruct (pos_circ u Hq K0) as (Pc & Eu). rewrite Q in Pc, Eu, Hq. eexists. split; [exact E|]. split; [exact Pc|]. split; [cbn [cr]; apply Rabs_pos_eq, Rlt_le, Rinv_0_lt_compat; auto|].
    set (co := mkCircle _ _) in *. rewrite Eu in K1, K2, K3. intros c [<-|[<-|[<-|[]]]]; apply kap_tang; auto.
Qed.
