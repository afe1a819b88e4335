(** * Proofs about triangles: the Malfatti circles. *)

From Coq Require Import Reals Lra Lia Psatz List Bool ZArith Nsatz.
From Verif Require Import Base BaseLemmas Spec SpecLemmas SpecTriangle ModelInternal ModelLine ModelCircle ModelAffine ModelTriangle PLine PInvBase PTriangle PTriangle2 PTriangle3.
Import ListNotations.
Local Open Scope R_scope.

(** a triangle with sides y + z, x + z, x + y and area S *)
Definition Ravi (A B C : pt) (x y z S : R) : Prop :=
  0 < x /\ 0 < y /\ 0 < z /\ 0 < S /\ S * S = (x + y + z) * x * y * z /\
  dist B C = y + z /\ dist A C = x + z /\ dist A B = x + y /\ Rabs (dbl A B C) = 2 * S.

Lemma Ravi_ex A B C : dbl A B C <> 0 -> exists x y z S, Ravi A B C x y z S.
Proof.
  intros N. destruct (ravi A B C N) as (x & y & z & S & H). exists x, y, z, S. unfold Ravi. intuition lra.
Qed.
Lemma Ravi_perm A B C x y z S : Ravi A B C x y z S -> Ravi B C A y z x S.
Proof.
  intros (Hx & Hy & Hz & HS & S2 & Ea & Eb & Ec & ES). unfold Ravi. rewrite dbl_perm, (dist_sym C A), (dist_sym B A). intuition lra.
Qed.
Lemma Ravi_swap A B C x y z S : Ravi A B C x y z S -> Ravi B A C y x z S.
Proof.
  intros (Hx & Hy & Hz & HS & S2 & Ea & Eb & Ec & ES). unfold Ravi. rewrite dbl_swap, Rabs_Ropp, (dist_sym B A). intuition lra.
Qed.

Definition incenter (A B C : pt) (x y z : R) : pt :=
  let p := 2 * (x + y + z) in bary ((y + z) / p) ((x + z) / p) ((x + y) / p) A B C.
Lemma incenter_perm A B C x y z : incenter B C A y z x = incenter A B C x y z.
Proof. 
  unfold incenter. cbv zeta. replace (2 * (y + z + x)) with (2 * (x + y + z)) by ring. rewrite (bary_perm1 _ _ _ A B C). f_equal; f_equal; ring.
Qed.
Lemma incenter_swap A B C x y z : incenter B A C y x z = incenter A B C x y z.
Proof. 
  unfold incenter. cbv zeta. replace (2 * (y + x + z)) with (2 * (x + y + z)) by ring. rewrite (bary_swap _ _ _ A B C). f_equal; f_equal; ring.
Qed.

Lemma incenter_dist A B C x y z S : Ravi A B C x y z S -> let r := S / (x + y + z) in
  dist2 A (incenter A B C x y z) = r * r + x * x.
Proof.
  intros (Hx & Hy & Hz & HS & S2 & Ea & Eb & Ec & ES) r. unfold incenter. cbv zeta.
  rewrite bary_dist2_A by (field; lra). rewrite <- !dist_sq, Ea, Eb, Ec.
  transitivity (S * S / ((x + y + z) * (x + y + z)) + x * x); [|unfold r; field; lra]. rewrite S2. field. lra.
Qed.

Lemma incenter_dot A B C x y z S : Ravi A B C x y z S ->
  sdot (vsub (incenter A B C x y z) A) (vsub B A) = x * (x + y).
Proof.
  intros (Hx & Hy & Hz & HS & S2 & Ea & Eb & Ec & ES). set (s := x + y + z).
  assert (D : sdot (vsub B A) (vsub C A) = ((x + y) * (x + y) + (x + z) * (x + z) - (y + z) * (y + z)) / 2).
  { pose proof (sdot_sides A B C) as Q. rewrite <- !dist_sq, Ea, Eb, Ec in Q. lra. }
  transitivity ((x + z) / (2 * s) * dist2 A B + (x + y) / (2 * s) * sdot (vsub B A) (vsub C A)).
  - unfold incenter. cbv zeta. replace ((y + z) / (2 * (x + y + z))) with (1 - (x + z) / (2 * s) - (x + y) / (2 * s)) by (unfold s; field; lra).
    fold s. unfold bary. unspec. ring.
  - rewrite D, <- dist_sq, Ec. unfold s. field. lra.
Qed.

Lemma incenter_cross A B C x y z S : Ravi A B C x y z S -> let r := S / (x + y + z) in
  let k := scross (vsub B A) (vsub (incenter A B C x y z) A) in k * k = r * r * ((x + y) * (x + y)).
Proof.
  intros (Hx & Hy & Hz & HS & S2 & Ea & Eb & Ec & ES) r k. set (s := x + y + z).
  assert (E : k = (x + y) / (2 * s) * dbl A B C).
  { unfold k, incenter. cbv zeta. replace ((y + z) / (2 * (x + y + z))) with (1 - (x + z) / (2 * s) - (x + y) / (2 * s)) by (unfold s; field; lra).
    fold s. unfold bary, dbl. unspec. ring. }
  rewrite E. transitivity (((x + y) / (2 * s)) * ((x + y) / (2 * s)) * (dbl A B C * dbl A B C)); [ring|].
  rewrite <- (Rabs_sq (dbl A B C)), ES. unfold r. fold s. field. unfold s; lra.
Qed.

(** ** the numbers *)
Lemma malf_poly x y z r u v q : r * r * (x + y + z) = x * y * z -> u * u = r * r + x * x -> v * v = r * r + y * y -> q * q = r * r + z * z ->
  u * v * z = (x + y) * r * q ->
  z * (r * r * ((x + y + z - r - q) * (x + y + z - r - q) - (u - v) * (u - v))) = z * (x * y * ((q + r - z) * (q + r - z))).
Proof. intros. nsatz. Qed.

Definition mrad (x y z S : R) : Prop := 0 < x /\ 0 < y /\ 0 < z /\ 0 < S /\ S * S = (x + y + z) * x * y * z.

Section numbers.
Variables x y z S u v q : R.
Let s := x + y + z.
Let r := S / s.
Hypothesis M : mrad x y z S.
Hypothesis Hu : 0 < u /\ u * u = r * r + x * x.
Hypothesis Hv : 0 < v /\ v * v = r * r + y * y.
Hypothesis Hq : 0 < q /\ q * q = r * r + z * z.

Lemma malf_r : 0 < r /\ r * r * s = x * y * z /\ r * s = S.
Proof.
  destruct M as (Hx & Hy & Hz & HS & S2). assert (Hs : 0 < s) by (unfold s; lra).
  assert (r * s = S) by (unfold r; field; lra).
  split; [apply Rmult_lt_0_compat; auto; apply Rinv_0_lt_compat; auto|]. split; auto.
  apply (Rmult_eq_reg_r s); [|lra]. transitivity ((r * s) * (r * s)); [ring|]. rewrite H, S2. unfold s. ring.
Qed.

Lemma malf_mid : u * v * z = (x + y) * r * q.
Proof.
  destruct M as (Hx & Hy & Hz & HS & S2). destruct malf_r as (Hr & Er & _). destruct Hu as [Pu Eu], Hv as [Pv Ev], Hq as [Pq Eq].
  apply sq_inj; [left; repeat apply Rmult_lt_0_compat; auto|left; apply Rmult_lt_0_compat; [apply Rmult_lt_0_compat|]; lra|].
  transitivity ((u * u) * (v * v) * (z * z)); [ring|]. transitivity ((x + y) * (x + y) * (r * r) * (q * q)); [|ring].
  rewrite Eu, Ev, Eq. set (rr := r * r) in *. 
  assert (Hs : s <> 0) by (unfold s; lra). apply (Rmult_eq_reg_r s); auto. apply (Rmult_eq_reg_r s); auto.
  transitivity ((rr * s + x * x * s) * (rr * s + y * y * s) * (z * z)); [ring|].
  transitivity ((x + y) * (x + y) * (rr * s) * (rr * s + z * z * s)); [|ring].
  rewrite Er. unfold s. ring.
Qed.

Lemma malf_sum : 0 < s - r - q.
Proof.
  destruct M as (Hx & Hy & Hz & HS & S2). destruct malf_r as (Hr & Er & Es). destruct Hq as [Pq Eq].
  assert (Hs : 0 < s) by (unfold s; lra).
  assert (L : 2 * S < (x + y) * (s + z)).
  { apply Rsqr_incrst_0; [|lra|apply Rmult_le_pos; lra]. unfold Rsqr.
    assert (0 < x * y * (s * z)) by (repeat apply Rmult_lt_0_compat; auto).
    pose proof (sqnn ((x - y) * (s + z))) as Q1. 
    assert (Q2 : 0 <= x * y * ((s - z) * (s - z))) by (apply Rmult_le_pos; [apply Rmult_le_pos; lra|apply sqnn]).
    assert (E : 2 * S * (2 * S) = 4 * (x * y * (s * z))) by (transitivity (4 * (S * S)); [ring|]; rewrite S2; fold s; ring).
    rewrite E. replace ((x + y) * (s + z) * ((x + y) * (s + z))) with ((x - y) * (s + z) * ((x - y) * (s + z)) + 4 * (x * y * ((s - z) * (s - z))) + 16 * (x * y * (s * z))) by ring. lra. }
  assert (L2 : 2 * (r * s) < s * s - z * z) by (rewrite Es; replace (s * s - z * z) with ((x + y) * (s + z)) by (unfold s; ring); auto).
  assert (r < s). { pose proof (sqnn z). assert (r * s < s * s) by (pose proof (Rmult_lt_0_compat _ _ Hr Hs); lra). apply (Rmult_lt_reg_r s); auto. }
  assert (q < s - r); [|lra]. apply Rsqr_incrst_0; [|lra|lra]. unfold Rsqr. rewrite Eq. lra.
Qed.

Let d1 := (s - r - (v + q - u)) / 2.
Let d2 := (s - r - (q + u - v)) / 2.

Lemma malf_prod : 4 * (r * d1 / x) * (r * d2 / y) = (q + r - z) * (q + r - z).
Proof.
  destruct M as (Hx & Hy & Hz & HS & S2). destruct malf_r as (Hr & Er & Es). destruct Hu as [Pu Eu], Hv as [Pv Ev], Hq as [Pq Eq].
  pose proof (malf_poly x y z r u v q Er Eu Ev Eq malf_mid) as P. apply Rmult_eq_reg_l in P; [|lra].
  apply (Rmult_eq_reg_r (x * y)); [|apply Rgt_not_eq; apply Rmult_lt_0_compat; auto].
  transitivity (x * y * ((q + r - z) * (q + r - z))); [|ring]. rewrite <- P. unfold d1, d2. fold s. field. lra.
Qed.

Lemma malf_qrz : 0 < q + r - z /\ z < q /\ q < z + r.
Proof.
  destruct M as (Hx & Hy & Hz & HS & S2). destruct malf_r as (Hr & Er & Es). destruct Hq as [Pq Eq].
  pose proof (sqpos r ltac:(lra)). assert (z < q) by (apply Rsqr_incrst_0; unfold Rsqr; lra).
  assert (q < z + r). { apply Rsqr_incrst_0; unfold Rsqr; try lra. rewrite Eq. pose proof (Rmult_lt_0_compat _ _ Hr Hz). lra. }
  lra.
Qed.

Lemma malf_pos : 0 < d1 /\ 0 < d2.
Proof.
  destruct M as (Hx & Hy & Hz & HS & S2). destruct malf_r as (Hr & Er & Es). pose proof malf_sum as Hsum. destruct malf_qrz as (H0 & _ & _).
  pose proof malf_prod as P. pose proof (Rmult_lt_0_compat _ _ H0 H0) as PP. rewrite <- P in PP.
  assert (E : 4 * (r * d1 / x) * (r * d2 / y) = (4 * (r * r) / (x * y)) * (d1 * d2)) by (field; lra).
  rewrite E in PP.
  assert (W : 0 < 4 * (r * r) / (x * y)) by (apply Rmult_lt_0_compat; [pose proof (sqpos r ltac:(lra)); lra|apply Rinv_0_lt_compat, Rmult_lt_0_compat; auto]).
  assert (D : 0 < d1 * d2) by (apply (Rmult_lt_reg_l (4 * (r * r) / (x * y))); lra).
  assert (Sm : 0 < d1 + d2) by (unfold d1, d2; lra).
  destruct (Rlt_dec 0 d1), (Rlt_dec 0 d2); auto; exfalso; nra.
Qed.
End numbers.

(** ** the circles *)
Definition mcenter (A I0 : pt) (k : R) : pt := vadd A (vscal k (vsub I0 A)).

Lemma mcenter_tangent A B C x y z S d : Ravi A B C x y z S -> 0 < d -> let r := S / (x + y + z) in
  line_tangent_at A B (mcenter A (incenter A B C x y z) (d / x)) (r * d / x) (at_line A B (d / (x + y))).
Proof.
  intros H Hd r. pose proof (incenter_dot _ _ _ _ _ _ _ H) as D. pose proof (incenter_cross _ _ _ _ _ _ _ H) as X. cbv zeta in X. fold r in X.
  destruct H as (Hx & Hy & Hz & HS & S2 & Ea & Eb & Ec & ES). set (I0 := incenter A B C x y z) in *.
  assert (Hr : 0 < r) by (apply Rmult_lt_0_compat; auto; apply Rinv_0_lt_compat; lra).
  assert (HAB : A <> B) by (intros E; apply dist_0 in E; lra).
  apply line_tangent_at_foot; auto.
  - left. apply Rmult_lt_0_compat; [apply Rmult_lt_0_compat; auto|apply Rinv_0_lt_compat; auto].
  - rewrite <- dist_sq, Ec. transitivity (d / x * sdot (vsub I0 A) (vsub B A)); [rewrite D; field; lra|]. unfold mcenter. unspec. ring.
  - transitivity ((d / x) * (d / x) * (scross (vsub B A) (vsub I0 A) * scross (vsub B A) (vsub I0 A))); [unfold mcenter; unspec; ring|].
    rewrite X, <- dist_sq, Ec. field. lra.
Qed.

Lemma mcenter_dist A B C x y z S d1 d2 : Ravi A B C x y z S -> 0 < d1 -> 0 < d2 -> let r := S / (x + y + z) in
  let r1 := r * d1 / x in let r2 := r * d2 / y in let I0 := incenter A B C x y z in
  4 * r1 * r2 = (x + y - d1 - d2) * (x + y - d1 - d2) ->
  dist (mcenter A I0 (d1 / x)) (mcenter B I0 (d2 / y)) = r1 + r2.
Proof.
  intros H Hd1 Hd2 r r1 r2 I0 E. pose proof (incenter_dot _ _ _ _ _ _ _ H) as D1. pose proof (incenter_cross _ _ _ _ _ _ _ H) as X. cbv zeta in X. fold r in X.
  pose proof (incenter_dot _ _ _ _ _ _ _ (Ravi_swap _ _ _ _ _ _ _ H)) as D2. rewrite incenter_swap in D2. fold I0 in D1, D2, X.
  destruct H as (Hx & Hy & Hz & HS & S2 & Ea & Eb & Ec & ES).
  assert (Hr : 0 < r) by (apply Rmult_lt_0_compat; auto; apply Rinv_0_lt_compat; lra).
  assert (Hr1 : 0 < r1) by (apply Rmult_lt_0_compat; [apply Rmult_lt_0_compat; auto|apply Rinv_0_lt_compat; auto]).
  assert (Hr2 : 0 < r2) by (apply Rmult_lt_0_compat; [apply Rmult_lt_0_compat; auto|apply Rinv_0_lt_compat; auto]).
  assert (Q : dist2 A B = (x + y) * (x + y)) by (rewrite <- dist_sq, Ec; auto).
  apply sqrt_eq; [lra|]. change (sdot _ _) with (dist2 (mcenter A I0 (d1 / x)) (mcenter B I0 (d2 / y))).
  apply (Rmult_eq_reg_r ((x + y) * (x + y))); [|apply Rgt_not_eq, Rmult_lt_0_compat; lra].
  set (k1 := d1 / x). set (k2 := d2 / y). set (k := scross (vsub B A) (vsub I0 A)) in *.
  transitivity ((dist2 A B - k2 * sdot (vsub I0 B) (vsub A B) - k1 * sdot (vsub I0 A) (vsub B A)) * (dist2 A B - k2 * sdot (vsub I0 B) (vsub A B) - k1 * sdot (vsub I0 A) (vsub B A)) + (k2 - k1) * (k2 - k1) * (k * k)).
  - rewrite X, D1, D2, Q.
    transitivity (((x + y - d1 - d2) * (x + y - d1 - d2) + (r2 - r1) * (r2 - r1)) * ((x + y) * (x + y))); [rewrite <- E; ring|].
    unfold r1, r2, k1, k2. field. lra.
  - rewrite <- Q. unfold k, mcenter. unspec. ring.
Qed.

(** ** tan of the half angle *)
Lemma tan_half t : - PI < t < PI -> tan (t / 2) = sin t / (1 + cos t) /\ 0 < 1 + cos t.
Proof.
  intros H. assert (Hc : 0 < cos (t / 2)) by (apply cos_gt_0; lra).
  assert (E1 : sin t = 2 * sin (t / 2) * cos (t / 2)) by (rewrite <- sin_2a; f_equal; field).
  assert (E2 : 1 + cos t = 2 * cos (t / 2) * cos (t / 2)).
  { replace t with (2 * (t / 2)) at 1 by field. rewrite cos_2a_cos. ring. }
  rewrite E1, E2. split; [unfold tan; field; lra|]. repeat apply Rmult_lt_0_compat; lra.
Qed.

Lemma half_angle_tan_spec A B C x y z S : Ravi A B C x y z S ->
  half_angle_tan (vsub C A) (vsub B A) (dist A C) (dist A B) = Ok (S / (x + y + z) / x).
Proof.
  intros H. destruct H as (Hx & Hy & Hz & HS & S2 & Ea & Eb & Ec & ES).
  assert (HAB : A <> B) by (intros E; apply dist_0 in E; lra). assert (HAC : A <> C) by (intros E; apply dist_0 in E; lra).
  destruct (angle_at_spec (vsub C A) (vsub B A)) as (t & E & Rt & Ct & St); try (apply vsub_neq; auto).
  rewrite !vlength_dist in E, Ct, St.
  unfold half_angle_tan. revert E. unfold angle_at, np_div. destruct Req_EM_T as [Z|Z]; [discriminate|]. cbn [bind].
  destruct Req_EM_T as [Z'|Z']; [discriminate|]. cbn [bind]. intros ->. cbn [bind]. f_equal.
  assert (D : sdot (vsub C A) (vsub B A) = ((x + y) * (x + y) + (x + z) * (x + z) - (y + z) * (y + z)) / 2).
  { pose proof (sdot_sides A B C) as Q. rewrite <- !dist_sq, Ea, Eb, Ec in Q. revert Q. clear. unspec. intros. lra. }
  assert (X : Rabs (scross (vsub C A) (vsub B A)) = 2 * S).
  { rewrite <- ES, <- Rabs_Ropp. f_equal. unfold dbl. unspec. ring. }
  rewrite D, Eb, Ec in Ct. rewrite X, Eb, Ec in St.
  assert (Hb : 0 < (x + z) * (x + y)) by (apply Rmult_lt_0_compat; lra).
  assert (t < PI).
  { destruct (Rle_lt_or_eq_dec t PI (proj2 Rt)) as [Q|Q]; auto. rewrite Q, sin_PI in St. lra. }
  destruct (tan_half t ltac:(pose proof PI_RGT_0; lra)) as [-> Pc].
  apply (Rmult_eq_reg_r ((1 + cos t) * ((x + z) * (x + y)))); [|apply Rgt_not_eq, Rmult_lt_0_compat; auto].
  transitivity (sin t * ((x + z) * (x + y))); [field; lra|]. rewrite St.
  transitivity (S / (x + y + z) / x * ((x + z) * (x + y) + cos t * ((x + z) * (x + y)))); [|ring]. rewrite Ct. field. lra.
Qed.

(** the circle of the corner A: tangent to (AB) and (AC) at points of the sides,
    centre inside *)
Definition corner_circle (A B C : pt) (c : circle) : Prop :=
  0 < cr c /\ inside_triangle A B C (cO c) /\
  (exists F, line_tangent_at A B (cO c) (cr c) F /\ on_segment A B F) /\
  (exists F, line_tangent_at A C (cO c) (cr c) F /\ on_segment A C F).

Lemma mcenter_corner A B C x y z S d : Ravi A B C x y z S -> 0 < d -> d < x ->
  corner_circle A B C (mkCircle (mcenter A (incenter A B C x y z) (d / x)) (S / (x + y + z) * d / x)).
Proof.
  intros H Hd Hdx. pose proof (mcenter_tangent A B C x y z S d H Hd) as T1. cbv zeta in T1.
  assert (H' : Ravi A C B x z y S) by (apply Ravi_swap, Ravi_perm in H; auto).
  pose proof (mcenter_tangent A C B x z y S d H' Hd) as T2. cbv zeta in T2.
  assert (EI : incenter A C B x z y = incenter A B C x y z) by (rewrite incenter_perm, incenter_swap; auto).
  rewrite EI in T2. replace (x + z + y) with (x + y + z) in T2 by ring.
  destruct H as (Hx & Hy & Hz & HS & S2 & Ea & Eb & Ec & ES).
  assert (Hs : 0 < S / (x + y + z)) by (apply Rmult_lt_0_compat; auto; apply Rinv_0_lt_compat; lra).
  assert (Hk : 0 < d / x < 1).
  { assert (Q : d / x * x = d) by (field; lra). split; [apply Rmult_lt_0_compat; auto; apply Rinv_0_lt_compat; auto|apply (Rmult_lt_reg_r x); lra]. }
  unfold corner_circle. cbn [cO cr]. split; [|split; [|split]].
  - apply Rmult_lt_0_compat; [apply Rmult_lt_0_compat; auto|apply Rinv_0_lt_compat; auto].
  - set (k := d / x) in *. set (p := 2 * (x + y + z)). assert (Hp : 0 < p) by (unfold p; lra).
    exists (1 - k + k * ((y + z) / p)), (k * ((x + z) / p)), (k * ((x + y) / p)).
    assert (Ip : 0 < / p) by (apply Rinv_0_lt_compat; auto).
    assert (0 < (y + z) / p) by (apply Rmult_lt_0_compat; lra). assert (0 < (x + z) / p) by (apply Rmult_lt_0_compat; lra).
    assert (0 < (x + y) / p) by (apply Rmult_lt_0_compat; lra).
    repeat split; try (apply Rmult_lt_0_compat; lra).
    + pose proof (Rmult_lt_0_compat k ((y + z) / p)). lra.
    + unfold p. field. lra.
    + unfold mcenter, incenter, bary. fold p. unpt. f_equal; field; lra.
  - eexists. split; [exact T1|]. apply on_segment_at. apply div01; lra.
  - eexists. split; [exact T2|]. apply on_segment_at. apply div01; lra.
Qed.

Lemma tangency_spec P Q r1 r2 : 0 < r1 -> 0 < r2 -> dist P Q = r1 + r2 ->
  exists T, tangency P Q r1 = Ok T /\ on_circle P r1 T /\ on_circle Q r2 T.
Proof.
  intros H1 H2 H. unfold tangency. rewrite vlength_dist, H. unfold np_div. destruct Req_EM_T; [lra|]. cbn [bind].
  eexists. split; [reflexivity|].
  assert (D : dist2 P Q = (r1 + r2) * (r1 + r2)) by (rewrite <- dist_sq, H; auto).
  set (k := r1 / (r1 + r2)). assert (Hk : k * (r1 + r2) = r1) by (unfold k; field; lra).
  rewrite !on_circle_sq by lra. split.
  - transitivity (k * k * dist2 P Q); [unspec; ring|]. rewrite D. transitivity ((k * (r1 + r2)) * (k * (r1 + r2))); [ring|]. rewrite Hk. ring.
  - transitivity ((1 - k) * (1 - k) * dist2 P Q); [unspec; ring|]. rewrite D.
    transitivity (((r1 + r2) - k * (r1 + r2)) * ((r1 + r2) - k * (r1 + r2))); [ring|]. rewrite Hk. ring.
Qed.

Lemma comb3_corner A B C x y z S d k r1 : Ravi A B C x y z S -> 0 < d -> k <> 0 ->
  r1 = S / (x + y + z) * d / x -> let X := 2 * S / r1 - (x + z + (x + y)) in
  forall W, W = k * X + (x + z) * k + (x + y) * k ->
  comb3 (k * X) ((x + z) * k) ((x + y) * k) W A B C = Ok (mcenter A (incenter A B C x y z) (d / x)).
Proof.
  intros H Hd Hk Hr1 X W HW. destruct H as (Hx & Hy & Hz & HS & S2 & Ea & Eb & Ec & ES).
  assert (Hs : 0 < S / (x + y + z)) by (apply Rmult_lt_0_compat; auto; apply Rinv_0_lt_compat; lra).
  assert (P1 : 0 < r1) by (rewrite Hr1; apply Rmult_lt_0_compat; [apply Rmult_lt_0_compat; auto|apply Rinv_0_lt_compat; auto]).
  assert (EW : W = k * (2 * S / r1)) by (rewrite HW; unfold X; field; lra).
  assert (P2 : 2 * S / r1 <> 0) by (apply Rgt_not_eq, Rmult_lt_0_compat; [lra|apply Rinv_0_lt_compat; auto]).
  rewrite comb3_ok by (rewrite EW; apply Rmult_integral_contrapositive_currified; auto).
  f_equal.
  assert (E1 : (x + z) * k / W = d / x * ((x + z) / (2 * (x + y + z)))).
  { rewrite EW, Hr1. field. repeat split; lra. }
  assert (E2 : (x + y) * k / W = d / x * ((x + y) / (2 * (x + y + z)))).
  { rewrite EW, Hr1. field. repeat split; lra. }
  assert (E0 : k * X / W = 1 - d / x * ((x + z) / (2 * (x + y + z))) - d / x * ((x + y) / (2 * (x + y + z)))).
  { rewrite <- E1, <- E2. rewrite HW. field. rewrite <- HW, EW. apply Rmult_integral_contrapositive_currified; auto. }
  rewrite E0, E1, E2. unfold mcenter, incenter. cbv zeta.
  replace ((y + z) / (2 * (x + y + z))) with (1 - (x + z) / (2 * (x + y + z)) - (x + y) / (2 * (x + y + z))) by (field; lra).
  unfold bary. unpt. f_equal; ring.
Qed.
