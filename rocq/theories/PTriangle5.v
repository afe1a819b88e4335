(** * Malfatti circles: evaluation of the code; Steiner ellipses. *)

From Coq Require Import Reals Lra Lia Psatz List Bool ZArith.
From Verif Require Import Base BaseLemmas Spec SpecLemmas SpecTriangle ModelInternal ModelLine ModelCircle ModelAffine ModelTriangle PLine PInvBase PTriangle PTriangle2 PTriangle3 PTriangle4.
Import ListNotations.
Local Open Scope R_scope.

Lemma py_sqrt_sq x y : 0 <= y -> x = y * y -> py_sqrt x = Ok y.
Proof.
  intros H ->. unfold py_sqrt. destruct Rlt_dec as [L|L]; [pose proof (sqnn y); lra|]. f_equal. apply sqrt_eq; auto.
Qed.
Lemma np_div_ok x y z : y <> 0 -> x / y = z -> np_div x y = Ok z.
Proof. intros H <-. unfold np_div. destruct Req_EM_T; [contradiction|auto]. Qed.

Ltac stepdiv z := match goal with |- context [np_div ?x ?y] => rewrite (np_div_ok x y z); [cbn [bind]| |] end.

Lemma malfatti_eval A B C x y z S : Ravi A B C x y z S ->
  let s := x + y + z in let r := S / s in let I0 := incenter A B C x y z in
  let u := dist A I0 in let v := dist B I0 in let q := dist C I0 in
  let d1 := (s - r - (v + q - u)) / 2 in let d2 := (s - r - (q + u - v)) / 2 in let d3 := (s - r - (u + v - q)) / 2 in
  let cA := mkCircle (mcenter A I0 (d1 / x)) (r * d1 / x) in
  let cB := mkCircle (mcenter B I0 (d2 / y)) (r * d2 / y) in
  let cC := mkCircle (mcenter C I0 (d3 / z)) (r * d3 / z) in
  (0 < d1 < x /\ 0 < d2 < y /\ 0 < d3 < z) /\
  ext_tangent (cO cA) (cr cA) (cO cB) (cr cB) /\ ext_tangent (cO cB) (cr cB) (cO cC) (cr cC) /\ ext_tangent (cO cA) (cr cA) (cO cC) (cr cC) /\
  malfatti_circles (mkTri A B C) =
    let! TA := tangency (cO cB) (cO cC) (cr cB) in
    let! TB := tangency (cO cA) (cO cC) (cr cA) in
    let! TC := tangency (cO cA) (cO cB) (cr cA) in
    Ok (Some ((cA, cB, cC), (TA, TB, TC))).
Proof.
  intros H s r I0 u v q d1 d2 d3 cA cB cC.
  pose proof (Ravi_perm _ _ _ _ _ _ _ H) as H2. pose proof (Ravi_perm _ _ _ _ _ _ _ H2) as H3.
  assert (N : dbl A B C <> 0).
  { destruct H as (Hx & Hy & Hz & HS & S2 & Ea & Eb & Ec & ES). intros E. rewrite E, Rabs_R0 in ES. lra. }
  pose proof (incenter_dist _ _ _ _ _ _ _ H) as Eu. pose proof (incenter_dist _ _ _ _ _ _ _ H2) as Ev. pose proof (incenter_dist _ _ _ _ _ _ _ H3) as Eq.
  cbv zeta in Eu, Ev, Eq. rewrite incenter_perm in Eq. rewrite incenter_perm in Eq, Ev. fold I0 in Eu, Ev, Eq.
  rewrite <- dist_sq in Eu, Ev, Eq. fold u in Eu. fold v in Ev. fold q in Eq.
  replace (y + z + x) with (x + y + z) in Ev by ring. replace (z + x + y) with (x + y + z) in Eq by ring.
  pose proof H as (Hx & Hy & Hz & HS & S2 & Ea & Eb & Ec & ES). fold s in S2.
  assert (Hs : 0 < s) by (unfold s; lra).
  assert (Hr : 0 < r) by (apply Rmult_lt_0_compat; auto; apply Rinv_0_lt_compat; lra).
  fold s in Eu, Ev, Eq. fold r in Eu, Ev, Eq.
  assert (pos : forall t w, 0 < w -> 0 <= t -> t * t = r * r + w * w -> 0 < t).
  { intros t w Hw Ht E. pose proof (sqpos r ltac:(lra)). pose proof (sqnn w). destruct Ht as [|<-]; auto. lra. }
  assert (Pu : 0 < u) by (apply (pos u x); auto; apply dist_nonneg). assert (Pv : 0 < v) by (apply (pos v y); auto; apply dist_nonneg).
  assert (Pq : 0 < q) by (apply (pos q z); auto; apply dist_nonneg). clear pos.
  assert (M : mrad x y z S) by (unfold mrad; auto). assert (M2 : mrad y z x S) by (unfold mrad; repeat split; auto; rewrite S2; unfold s; ring).
  assert (M3 : mrad z x y S) by (unfold mrad; repeat split; auto; rewrite S2; unfold s; ring).
  assert (R2 : S / (y + z + x) = r) by (unfold r, s; f_equal; ring). assert (R3 : S / (z + x + y) = r) by (unfold r, s; f_equal; ring).
  assert (Hu : 0 < u /\ u * u = r * r + x * x) by auto. assert (Hv : 0 < v /\ v * v = r * r + y * y) by auto. assert (Hq : 0 < q /\ q * q = r * r + z * z) by auto.
  pose proof (malf_pos x y z S u v q M Hu Hv Hq) as (Pd1 & Pd2). fold s r d1 d2 in Pd1, Pd2.
  pose proof (malf_prod x y z S u v q M Hu Hv Hq) as E12. fold s r d1 d2 in E12.
  pose proof (malf_qrz x y z S q M Hq) as (Q3 & Q3' & Q3''). fold s r in Q3, Q3''.
  pose proof (malf_pos y z x S v q u M2) as Pd. rewrite R2 in Pd. specialize (Pd Hv Hq Hu). replace (y + z + x) with s in Pd by (unfold s; ring).
  replace ((s - r - (q + u - v)) / 2) with d2 in Pd by auto. replace ((s - r - (u + v - q)) / 2) with d3 in Pd by auto. destruct Pd as (_ & Pd3).
  pose proof (malf_prod y z x S v q u M2) as E23. rewrite R2 in E23. specialize (E23 Hv Hq Hu). replace (y + z + x) with s in E23 by (unfold s; ring). fold d2 d3 in E23.
  pose proof (malf_qrz y z x S u M2) as Q1. rewrite R2 in Q1. specialize (Q1 Hu). destruct Q1 as (Q1 & Q1' & Q1'').
  pose proof (malf_prod z x y S q u v M3) as E31. rewrite R3 in E31. specialize (E31 Hq Hu Hv). replace (z + x + y) with s in E31 by (unfold s; ring). fold d1 d3 in E31.
  pose proof (malf_qrz z x y S v M3) as Q2. rewrite R3 in Q2. specialize (Q2 Hv). destruct Q2 as (Q2 & Q2' & Q2'').
  assert (L1 : d1 < x) by (unfold d1, s; lra). assert (L2 : d2 < y) by (unfold d2, s; lra). assert (L3 : d3 < z) by (unfold d3, s; lra).
  assert (W12 : x + y - d1 - d2 = q + r - z) by (unfold d1, d2, s; lra).
  assert (W23 : y + z - d2 - d3 = u + r - x) by (unfold d3, d2, s; lra).
  assert (W31 : z + x - d3 - d1 = v + r - y) by (unfold d1, d3, s; lra).
  assert (P1 : 0 < r * d1 / x) by (apply Rmult_lt_0_compat; [apply Rmult_lt_0_compat; auto|apply Rinv_0_lt_compat; auto]).
  assert (P2 : 0 < r * d2 / y) by (apply Rmult_lt_0_compat; [apply Rmult_lt_0_compat; auto|apply Rinv_0_lt_compat; auto]).
  assert (P3 : 0 < r * d3 / z) by (apply Rmult_lt_0_compat; [apply Rmult_lt_0_compat; auto|apply Rinv_0_lt_compat; auto]).
  split; [lra|]. split; [|split; [|split]].
  - unfold ext_tangent, cA, cB. cbn [cO cr]. apply (mcenter_dist A B C x y z S d1 d2 H); auto. rewrite W12. exact E12.
  - unfold ext_tangent, cB, cC. cbn [cO cr]. pose proof (mcenter_dist B C A y z x S d2 d3 H2 Pd2 Pd3) as D. cbv zeta in D. rewrite R2, incenter_perm in D. fold I0 in D.
    apply D. rewrite W23. exact E23.
  - unfold ext_tangent, cA, cC. cbn [cO cr]. pose proof (mcenter_dist C A B z x y S d3 d1 H3 Pd3 Pd1) as D. cbv zeta in D. rewrite R3, incenter_perm, incenter_perm in D. fold I0 in D.
    rewrite dist_sym, Rplus_comm. apply D. rewrite W31. exact E31.
  - destruct (flatness_ok A B C N) as (f & Hf & Hf1).
    unfold malfatti_circles. rewrite Hf. cbn [bind]. destruct (eqb f 1) eqn:Ef; [apply eqb_true in Ef; contradiction|].
    cbn [tA tB tC]. rewrite (distance_dist B C), (distance_dist A C), (distance_dist B A), (dist_sym B A).
    pose proof (half_angle_tan_spec _ _ _ _ _ _ _ H) as TA. 
    assert (TB : half_angle_tan (vsub C B) (vsub A B) (dist B C) (dist A B) = Ok (r / y)).
    { pose proof (half_angle_tan_spec _ _ _ _ _ _ _ (Ravi_swap _ _ _ _ _ _ _ H)) as TB. rewrite (dist_sym B A) in TB.
      replace (y + x + z) with s in TB by (unfold s; ring). exact TB. }
    assert (TC : half_angle_tan (vsub A C) (vsub B C) (dist A C) (dist B C) = Ok (r / z)).
    { pose proof (half_angle_tan_spec _ _ _ _ _ _ _ (Ravi_swap _ _ _ _ _ _ _ H2)) as TC. rewrite (dist_sym C A), (dist_sym C B) in TC.
      replace (z + y + x) with s in TC by (unfold s; ring). exact TC. }
    fold s in TA. fold r in TA. rewrite TA, TB, TC. rewrite Ea, Eb, Ec. clear TA TB TC.
    replace ((y + z + (x + z) + (x + y)) / 2) with s by (unfold s; field).
    replace (y + z + (x + z) + (x + y)) with (2 * s) by (unfold s; ring).
    replace (s - (y + z)) with x by (unfold s; ring). replace (s - (x + z)) with y by (unfold s; ring). replace (s - (x + y)) with z by (unfold s; ring).
    rewrite (py_sqrt_sq (s * x * y * z) S) by (lra || auto). cbn [bind].
    rewrite comb3_ok by lra. cbn [bind].
    change (bary ((y + z) / (2 * s)) ((x + z) / (2 * s)) ((x + y) / (2 * s)) A B C) with I0.
    stepdiv r; [|lra|reflexivity]. rewrite !vlength_dist. fold u v q.
    stepdiv (r * d1 / x); [|lra|unfold d1; field; lra].
    stepdiv (r * d2 / y); [|lra|unfold d2; field; lra].
    stepdiv (r * d3 / z); [|lra|unfold d3; field; lra].
    stepdiv d1; [|apply Rgt_not_eq, Rmult_lt_0_compat; auto; apply Rinv_0_lt_compat; auto|field; lra].
    stepdiv d2; [|apply Rgt_not_eq, Rmult_lt_0_compat; auto; apply Rinv_0_lt_compat; auto|field; lra].
    stepdiv d3; [|apply Rgt_not_eq, Rmult_lt_0_compat; auto; apply Rinv_0_lt_compat; auto|field; lra].
    rewrite (py_sqrt_sq (r * d1 / x * (r * d2 / y)) ((q + r - z) / 2)) by lra. cbn [bind].
    rewrite (py_sqrt_sq (r * d2 / y * (r * d3 / z)) ((u + r - x) / 2)) by lra. cbn [bind].
    rewrite (py_sqrt_sq (r * d3 / z * (r * d1 / x)) ((v + r - y) / 2)) by lra. cbn [bind].
    replace (d1 + d2 + 2 * ((q + r - z) / 2)) with (x + y) by lra.
    replace (d2 + d3 + 2 * ((u + r - x) / 2)) with (y + z) by lra.
    replace (d3 + d1 + 2 * ((v + r - y) / 2)) with (x + z) by lra.
    rewrite (py_sqrt_sq _ (4 * S)); [|lra|].
    2:{ transitivity (16 * (S * S)); [|ring]. rewrite S2. unfold s. ring. }
    cbn [bind]. replace (4 * S / 2) with (2 * S) by field.
    stepdiv (2 * S / (r * d1 / x)); [|lra|reflexivity].
    rewrite (comb3_corner A B C x y z S d1 (y + z) (r * d1 / x)); auto; [|lra]. cbn [bind].
    stepdiv (2 * S / (r * d2 / y)); [|lra|reflexivity].
    assert (rot : forall k1 k2 k3 w X Y Z, comb3 k1 k2 k3 w X Y Z = comb3 k2 k3 k1 w Y Z X).
    { intros. unfold comb3. replace (vadd (vadd (vscal k2 Y) (vscal k3 Z)) (vscal k1 X)) with (vadd (vadd (vscal k1 X) (vscal k2 Y)) (vscal k3 Z)); auto. unpt; f_equal; ring. }
    rewrite (rot ((y + z) * (x + z))).
    pose proof (comb3_corner B C A y z x S d2 (x + z) (r * d2 / y) H2 Pd2 ltac:(lra) ltac:(rewrite R2; reflexivity)) as CB. cbv zeta in CB.
    rewrite incenter_perm in CB. fold I0 in CB.
    replace ((x + z) * (2 * S / (r * d2 / y) - (y + z + (x + y)))) with ((x + z) * (2 * S / (r * d2 / y) - (y + x + (y + z)))) by (f_equal; f_equal; ring).
    replace ((x + y) * (x + z)) with ((y + x) * (x + z)) by ring.
    rewrite CB by ring. cbn [bind].
    stepdiv (2 * S / (r * d3 / z)); [|lra|reflexivity].
    rewrite (rot ((y + z) * (x + y))), (rot ((x + z) * (x + y))).
    pose proof (comb3_corner C A B z x y S d3 (x + y) (r * d3 / z) H3 Pd3 ltac:(lra) ltac:(rewrite R3; reflexivity)) as CC. cbv zeta in CC.
    rewrite incenter_perm, incenter_perm in CC. fold I0 in CC.
    replace ((x + y) * (2 * S / (r * d3 / z) - (y + z + (x + z)))) with ((x + y) * (2 * S / (r * d3 / z) - (z + y + (z + x)))) by (f_equal; f_equal; ring).
    replace ((y + z) * (x + y)) with ((z + y) * (x + y)) by ring. replace ((x + z) * (x + y)) with ((z + x) * (x + y)) by ring.
    rewrite CC by ring. cbn [bind].
    rewrite !Circle_init_pos by auto. cbn [bind]. reflexivity.
Qed.

Lemma malfatti_spec A B C : ~ collinear A B C -> exists cA cB cC TA TB TC,
  malfatti_circles (mkTri A B C) = Ok (Some ((cA, cB, cC), (TA, TB, TC))) /\
  corner_circle A B C cA /\ corner_circle B C A cB /\ corner_circle C A B cC /\
  ext_tangent (cO cA) (cr cA) (cO cB) (cr cB) /\ ext_tangent (cO cB) (cr cB) (cO cC) (cr cC) /\ ext_tangent (cO cA) (cr cA) (cO cC) (cr cC) /\
  (on_circle (cO cB) (cr cB) TA /\ on_circle (cO cC) (cr cC) TA) /\
  (on_circle (cO cA) (cr cA) TB /\ on_circle (cO cC) (cr cC) TB) /\
  (on_circle (cO cA) (cr cA) TC /\ on_circle (cO cB) (cr cB) TC).
Proof.
  intros N. apply not_collinear_dbl in N. destruct (Ravi_ex A B C N) as (x & y & z & S & H).
  pose proof (malfatti_eval A B C x y z S H) as K. cbv zeta in K. destruct K as ((D1 & D2 & D3) & T1 & T2 & T3 & E).
  pose proof (Ravi_perm _ _ _ _ _ _ _ H) as H2. pose proof (Ravi_perm _ _ _ _ _ _ _ H2) as H3.
  set (I0 := incenter A B C x y z) in *.
  pose proof (mcenter_corner _ _ _ _ _ _ _ _ H (proj1 D1) (proj2 D1)) as C1.
  pose proof (mcenter_corner _ _ _ _ _ _ _ _ H2 (proj1 D2) (proj2 D2)) as C2.
  pose proof (mcenter_corner _ _ _ _ _ _ _ _ H3 (proj1 D3) (proj2 D3)) as C3.
  rewrite incenter_perm in C2. rewrite incenter_perm, incenter_perm in C3. fold I0 in C1, C2, C3.
  replace (y + z + x) with (x + y + z) in C2 by ring. replace (z + x + y) with (x + y + z) in C3 by ring.
  set (cA := mkCircle _ _) in C1. set (cB := mkCircle _ _) in C2. set (cC := mkCircle _ _) in C3.
  change (ext_tangent (cO cA) (cr cA) (cO cB) (cr cB)) in T1. change (ext_tangent (cO cB) (cr cB) (cO cC) (cr cC)) in T2. change (ext_tangent (cO cA) (cr cA) (cO cC) (cr cC)) in T3.
  destruct (tangency_spec _ _ _ _ (proj1 C2) (proj1 C3) T2) as (TA & EA & OA).
  destruct (tangency_spec _ _ _ _ (proj1 C1) (proj1 C3) T3) as (TB & EB & OB).
  destruct (tangency_spec _ _ _ _ (proj1 C1) (proj1 C2) T1) as (TC & EC & OC).
  exists cA, cB, cC, TA, TB, TC. split.
  - rewrite E. change (tangency _ _ _) with (tangency (cO cB) (cO cC) (cr cB)) at 1. rewrite EA. cbn [bind].
    change (tangency _ _ _) with (tangency (cO cA) (cO cC) (cr cA)) at 1. rewrite EB. cbn [bind].
    change (tangency _ _ _) with (tangency (cO cA) (cO cB) (cr cA)) at 1. rewrite EC. cbn [bind]. reflexivity.
  - tauto.
Qed.
