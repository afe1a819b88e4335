(** * Proofs about triangles: sides, area, angles, circumcircle, tritangent circles. *)

From Coq Require Import Reals Lra Lia Psatz List Bool ZArith.
From Verif Require Import Base BaseLemmas Spec SpecLemmas SpecTriangle ModelInternal ModelLine ModelCircle ModelAffine ModelTriangle PLine.
Import ListNotations.
Local Open Scope R_scope.

(** twice the signed area *)
Definition dbl (A B C : pt) : R := scross (vsub B A) (vsub C A).

Lemma dbl_perm A B C : dbl B C A = dbl A B C.
Proof. unfold dbl. unspec. ring. Qed.
Lemma dbl_swap A B C : dbl B A C = - dbl A B C.
Proof. unfold dbl. unspec. ring. Qed.

Lemma not_collinear_dbl A B C : ~ collinear A B C <-> dbl A B C <> 0.
Proof. rewrite collinear_cross. unfold dbl. tauto. Qed.

Lemma dbl_distinct A B C : dbl A B C <> 0 -> A <> B /\ A <> C /\ B <> C.
Proof.
  intros H. repeat split; intros E; subst; apply H; unfold dbl; unspec; ring.
Qed.

(** squares of the sides determine the scalar products and the area *)
Lemma sdot_sides A B C : 2 * sdot (vsub B A) (vsub C A) = dist2 A B + dist2 A C - dist2 B C.
Proof. unspec. ring. Qed.

Lemma heron_poly A B C a b c : a * a = dist2 B C -> b * b = dist2 A C -> c * c = dist2 A B ->
  (a + b + c) * (- a + b + c) * (a - b + c) * (a + b - c) = 4 * (dbl A B C * dbl A B C).
Proof.
  intros H1 H2 H3.
  transitivity (4 * (b * b) * (c * c) - (b * b + c * c - a * a) * (b * b + c * c - a * a)); [ring|].
  rewrite H1, H2, H3. unfold dbl. unspec. ring.
Qed.

Section sides.
Variables A B C : pt.
Let a := dist B C.
Let b := dist A C.
Let c := dist A B.
Hypothesis K : dbl A B C <> 0.

Lemma sides_pos : 0 < a /\ 0 < b /\ 0 < c.
Proof. destruct (dbl_distinct _ _ _ K) as (H1 & H2 & H3). repeat split; apply dist_pos; auto. Qed.

Lemma sides_heron : (a + b + c) * (- a + b + c) * (a - b + c) * (a + b - c) = 4 * (dbl A B C * dbl A B C).
Proof. apply heron_poly; unfold a, b, c; apply dist_sq. Qed.

Lemma sides_ineq : a < b + c /\ b < a + c /\ c < a + b.
Proof.
  destruct sides_pos as (Ha & Hb & Hc). pose proof sides_heron as E. pose proof (sqpos _ K) as HK.
  set (x := - a + b + c) in *. set (y := a - b + c) in *. set (z := a + b - c) in *.
  assert (Hxy : 0 < x + y) by (unfold x, y; lra). assert (Hyz : 0 < y + z) by (unfold z, y; lra).
  assert (Hxz : 0 < x + z) by (unfold x, z; lra).
  assert (P : 0 < x * y * z). { assert (0 < (a + b + c) * (x * y * z)) by lra. assert (0 < a + b + c) by lra.
    apply (Rmult_lt_reg_l (a + b + c)); lra. }
  assert (0 < x /\ 0 < y /\ 0 < z); [|unfold x, y, z in *; lra].
  destruct (Rlt_dec 0 x), (Rlt_dec 0 y), (Rlt_dec 0 z); try (repeat split; lra); exfalso.
  - assert (0 < x * y) by (apply Rmult_lt_0_compat; lra). assert (x * y * z <= 0) by nra. lra.
  - assert (0 < x * z) by (apply Rmult_lt_0_compat; lra). assert (x * y * z <= 0) by nra. lra.
  - assert (0 < y * z) by (apply Rmult_lt_0_compat; lra). assert (x * y * z <= 0) by nra. lra.
Qed.

Lemma sides_area (s := (a + b + c) / 2) : sqrt (s * (s - a) * (s - b) * (s - c)) = Rabs (dbl A B C) / 2.
Proof.
  apply sqrt_eq; [pose proof (Rabs_pos (dbl A B C)); lra|].
  transitivity (Rabs (dbl A B C) * Rabs (dbl A B C) / 4); [field|]. rewrite Rabs_sq.
  pose proof sides_heron. unfold s. lra.
Qed.
End sides.

(** ** flatness *)
Lemma flat_den A B C : let z := Cmul (Cconj (vsub B A)) (vsub C A) in
  fst z * fst z + snd z * snd z = dist2 A B * dist2 A C /\ fst z = sdot (vsub B A) (vsub C A) /\ snd z = dbl A B C.
Proof. cbn zeta. unfold Cmul, Cconj, dbl. unspec. repeat split; ring. Qed.

Lemma flatness_spec T f : flatness T = Ok f ->
  tA T <> tB T /\ tA T <> tC T /\ 0 <= f <= 1 /\ (f = 1 <-> collinear (tA T) (tB T) (tC T)) /\
  f * (dist2 (tA T) (tB T) * dist2 (tA T) (tC T)) = sdot (vsub (tB T) (tA T)) (vsub (tC T) (tA T)) ^ 2.
Proof.
  destruct T as [A B C]. unfold flatness. cbn [tA tB tC].
  destruct (flat_den A B C) as (E1 & E2 & E3). rewrite E1. unfold py_div. destruct Req_EM_T as [Z|Z]; [discriminate|].
  intros E. apply Ok_inj in E. rewrite E2 in E. subst f.
  assert (A <> B) by (intros ->; apply Z; unspec; ring). assert (A <> C) by (intros ->; apply Z; unspec; ring).
  pose proof (dist2_pos _ _ H). pose proof (dist2_pos _ _ H0).
  rewrite E2 in *. rewrite E3 in *.
  set (p := dist2 A B * dist2 A C) in *. set (d := sdot _ _) in *.
  assert (Hp : 0 < p) by (unfold p; apply Rmult_lt_0_compat; auto).
  pose proof (sqnn d). pose proof (sqnn (dbl A B C)).
  rewrite collinear_cross. fold (dbl A B C).
  assert (Q : d * d / p * p = d * d) by (field; lra).
  split; [auto|split; [auto|split; [split|split]]].
  - apply Rmult_le_pos; [lra|]. left. apply Rinv_0_lt_compat; auto.
  - apply (Rmult_le_reg_r p); auto. lra.
  - split; intros V.
    + rewrite V in Q. apply sq0. lra.
    + rewrite V in E1. apply (Rmult_eq_reg_r p); [|lra]. rewrite Q. lra.
  - rewrite Q. ring.
Qed.

Lemma flatness_raise T e : flatness T = Raise e <-> e = ZeroDivisionError /\ (tA T = tB T \/ tA T = tC T).
Proof.
  destruct T as [A B C]. unfold flatness. cbn [tA tB tC].
  destruct (flat_den A B C) as (E1 & E2 & E3). rewrite E1. unfold py_div. destruct Req_EM_T as [Z|Z].
  - apply Rmult_integral in Z. rewrite !dist2_0 in Z. split; [intros V; injection V as <-; auto|intros [-> _]; auto].
  - split; [discriminate|]. intros [_ [-> | ->]]; exfalso; apply Z; unspec; ring.
Qed.

Lemma flatness_ok A B C : dbl A B C <> 0 -> exists f, flatness (mkTri A B C) = Ok f /\ f <> 1.
Proof.
  intros H. destruct (flatness (mkTri A B C)) eqn:E.
  - exists a. split; auto. destruct (flatness_spec _ _ E) as (_ & _ & _ & Hf & _). cbn [tA tB tC] in Hf.
    rewrite Hf. apply not_collinear_dbl; auto.
  - apply flatness_raise in E. cbn [tA tB tC] in E. destruct (dbl_distinct _ _ _ H) as (H1 & H2 & H3). tauto.
Qed.

(** ** orientation *)
Lemma orientation_spec T :
  (orientation T = 0%Z <-> collinear (tA T) (tB T) (tC T)) /\
  (orientation T = (-1)%Z <-> counterclockwise (tA T) (tB T) (tC T)) /\
  (orientation T = 1%Z <-> clockwise (tA T) (tB T) (tC T)).
Proof.
  destruct T as [A B C]. cbn [tA tB tC]. rewrite collinear_cross. unfold counterclockwise, clockwise.
  assert (E : (snd B - snd A) * (fst C - fst B) - (fst B - fst A) * (snd C - snd B) = - scross (vsub B A) (vsub C A)) by (unspec; ring).
  unfold orientation. cbn [tA tB tC]. rewrite E. set (k := scross _ _). clearbody k. clear E.
  destruct (eqb (- k) 0) eqn:E; [apply eqb_true in E|apply eqb_false in E; destruct (ltb 0 (- k)) eqn:E'; [apply ltb_true in E'|apply ltb_false in E']];
    repeat split; intros V; try discriminate V; try lra; auto.
Qed.

(** ** contains *)
Lemma contains_spec T M : triangle_contains T M = true <->
  ~ collinear (tA T) (tB T) (tC T) /\ inside_triangle (tA T) (tB T) (tC T) M.
Proof.
  destruct T as [[A0 A1] [B0 B1] [C0 C1]], M as [M0 M1]. rewrite collinear_cross. unfold triangle_contains. cbn [tA tB tC].
  set (D := - B1 * C0 + _ + _ + _).
  assert (HD : scross (vsub (B0, B1) (A0, A1)) (vsub (C0, C1) (A0, A1)) = D) by (unfold D; unspec; ring).
  rewrite HD. destruct (eqb D 0) eqn:E; [apply eqb_true in E; split; [discriminate|tauto]|apply eqb_false in E].
  set (s := _ / D). set (t := (A0 * B1 - _ + _ + _) / D).
  assert (Es : s * D = A1 * C0 - A0 * C1 + (C1 - A1) * M0 + (A0 - C0) * M1) by (unfold s; field; auto).
  assert (Et : t * D = A0 * B1 - A1 * B0 + (A1 - B1) * M0 + (B0 - A0) * M1) by (unfold t; field; auto).
  rewrite !andb_true_iff, !ltb_true. unfold inside_triangle, bary. cbn [fst snd]. split.
  - intros [[H1 H2] H3]. split; auto. exists (1 - s - t), s, t. repeat split; auto; try lra.
    f_equal.
    + apply (Rmult_eq_reg_r D); auto.
      transitivity ((D - s * D - t * D) * A0 + s * D * B0 + t * D * C0); [|ring]. rewrite Es, Et. unfold D. ring.
    + apply (Rmult_eq_reg_r D); auto.
      transitivity ((D - s * D - t * D) * A1 + s * D * B1 + t * D * C1); [|ring]. rewrite Es, Et. unfold D. ring.
  - intros [_ (u & v & w & Hu & Hv & Hw & H1 & HM)]. injection HM as -> ->.
    assert (u = 1 - v - w) by lra. subst u.
    assert (s = v) by (apply (Rmult_eq_reg_r D); auto; rewrite Es; unfold D; ring).
    assert (t = w) by (apply (Rmult_eq_reg_r D); auto; rewrite Et; unfold D; ring). lra.
Qed.

(** ** is_acute *)
Lemma sort3 a b c : exists x y z, sort [a; b; c] = [x; y; z] /\ x <= y <= z /\
  ((z * z <= x * x + y * y) <-> (0 <= a -> 0 <= b -> 0 <= c -> a * a <= b * b + c * c /\ b * b <= a * a + c * c /\ c * c <= a * a + b * b)) \/ ~ (0 <= a /\ 0 <= b /\ 0 <= c).
Proof.
  destruct (Rle_dec 0 a), (Rle_dec 0 b), (Rle_dec 0 c); try (exists 0, 0, 0; right; lra).
  unfold sort. cbn [fold_left insert_sorted].
  pose proof (sqnn a). pose proof (sqnn b). pose proof (sqnn c).
  assert (Q : forall x y, 0 <= x -> x <= y -> x * x <= y * y) by (intros; nra).
  destruct (ltb b a) eqn:E1; cbn [insert_sorted];
    [destruct (ltb c b) eqn:E2; [|destruct (ltb c a) eqn:E3] | destruct (ltb c a) eqn:E2; [|destruct (ltb c b) eqn:E3]];
    repeat match goal with H : ltb _ _ = true |- _ => apply ltb_true in H | H : ltb _ _ = false |- _ => apply ltb_false in H end;
    (do 3 eexists; left; split; [reflexivity|split; [lra|]]);
    (pose proof (Q a b); pose proof (Q b a); pose proof (Q a c); pose proof (Q c a); pose proof (Q b c); pose proof (Q c b));
    (split; [intros; repeat split; lra | intros V; destruct (V r r0 r1) as (?&?&?); lra]).
Qed.

Lemma is_acute_spec T : is_acute T = true <->
  0 <= sdot (vsub (tB T) (tA T)) (vsub (tC T) (tA T)) /\
  0 <= sdot (vsub (tA T) (tB T)) (vsub (tC T) (tB T)) /\
  0 <= sdot (vsub (tA T) (tC T)) (vsub (tB T) (tC T)).
Proof.
  destruct T as [A B C]. cbn [tA tB tC]. unfold is_acute, side_a, side_b, side_c. cbn [tA tB tC]. rewrite (distance_dist B C), (distance_dist A C), (distance_dist A B).
  pose proof (dist_nonneg B C) as Ha. pose proof (dist_nonneg A C) as Hb. pose proof (dist_nonneg A B) as Hc.
  pose proof (dist_sq B C) as Ea. pose proof (dist_sq A C) as Eb. pose proof (dist_sq A B) as Ec.
  pose proof (sdot_sides A B C) as S1. pose proof (sdot_sides B A C) as S2. pose proof (sdot_sides C A B) as S3.
  rewrite (dist2_sym B A) in S2. rewrite (dist2_sym C A), (dist2_sym C B) in S3.
  destruct (sort3 (dist B C) (dist A C) (dist A B)) as (x & y & z & [(E & _ & H)|H]); [|tauto].
  rewrite E. rewrite leb_true, H. split.
  - intros V. destruct (V Ha Hb Hc) as (V1 & V2 & V3). lra.
  - intros V _ _ _. lra.
Qed.

(** ** angles *)
Lemma angle_at_spec x y : x <> (0, 0) -> y <> (0, 0) ->
  exists t, angle_at x y (vlength_ x) (vlength_ y) = Ok t /\ 0 <= t <= PI /\
    cos t * (vlength_ x * vlength_ y) = sdot x y /\ sin t * (vlength_ x * vlength_ y) = Rabs (scross x y).
Proof.
  intros Hx Hy. destruct x as [x1 x2], y as [y1 y2].
  pose proof (sum_sq_pos _ _ Hx) as Px. pose proof (sum_sq_pos _ _ Hy) as Py.
  unfold vlength_. cbn [fst snd].
  set (lx := sqrt (x1 * x1 + x2 * x2)). set (ly := sqrt (y1 * y1 + y2 * y2)).
  assert (Lx : 0 < lx) by (apply sqrt_lt_R0; auto). assert (Ly : 0 < ly) by (apply sqrt_lt_R0; auto).
  assert (Sx : lx * lx = x1 * x1 + x2 * x2) by (apply sqrt_sq; lra).
  assert (Sy : ly * ly = y1 * y1 + y2 * y2) by (apply sqrt_sq; lra).
  unfold angle_at, np_div. destruct Req_EM_T; [lra|]. cbn [bind]. destruct Req_EM_T; [lra|]. cbn [bind].
  unfold dot_. cbn [fst snd]. set (d := x1 * y1 + x2 * y2). set (k := x1 * y2 - x2 * y1).
  set (q := d / lx / ly).
  assert (Hq : q * (lx * ly) = d) by (unfold q; field; lra).
  assert (Hl : 0 < lx * ly) by (apply Rmult_lt_0_compat; auto).
  assert (Lag : d * d + k * k = (lx * ly) * (lx * ly)).
  { transitivity ((lx * lx) * (ly * ly)); [|ring]. rewrite Sx, Sy. unfold d, k. ring. }
  assert (Q2 : q * q <= 1).
  { apply (Rmult_le_reg_r ((lx * ly) * (lx * ly))); [apply Rmult_lt_0_compat; auto|].
    replace (q * q * (lx * ly * (lx * ly))) with ((q * (lx * ly)) * (q * (lx * ly))) by ring. rewrite Hq.
    pose proof (sqnn k). lra. }
  assert (Q1 : -1 <= q <= 1) by nra.
  exists (acos q). unfold py_acos. destruct Rlt_dec; [lra|]. destruct Rlt_dec; [lra|].
  split; auto. split; [apply acos_bound|]. unfold sdot, scross. cbn [fst snd]. fold d k. rewrite cos_acos by auto.
  split; [auto|].
  assert (S0 : 0 <= sin (acos q)) by (apply sin_ge_0; apply acos_bound).
  apply sq_inj; [apply Rmult_le_pos; lra|apply Rabs_pos|]. rewrite Rabs_sq.
  pose proof (cs1 (acos q)) as CS. rewrite cos_acos in CS by auto.
  assert (sin (acos q) * sin (acos q) = 1 - q * q) by lra.
  transitivity (sin (acos q) * sin (acos q) * (lx * ly * (lx * ly))); [ring|]. rewrite H.
  transitivity (lx * ly * (lx * ly) - (q * (lx * ly)) * (q * (lx * ly))); [ring|]. rewrite Hq. lra.
Qed.

Lemma vsub_neq P Q : P <> Q -> vsub Q P <> (0, 0).
Proof. intros H E. apply H. destruct P, Q; unpt; inversion E. f_equal; lra. Qed.

Lemma vlength_dist P Q : vlength_ (vsub Q P) = dist P Q.
Proof. reflexivity. Qed.

Definition angle_of (P Q S : pt) (t : R) : Prop :=
  is_angle Q P S t /\ sin t * dist P Q * dist P S = Rabs (dbl P Q S).

Lemma angleA_spec T : tA T <> tB T -> tA T <> tC T -> exists t, angleA T = Ok t /\ angle_of (tA T) (tB T) (tC T) t.
Proof.
  intros H1 H2. destruct (angle_at_spec (vsub (tC T) (tA T)) (vsub (tB T) (tA T))) as (t & E & R1 & R2 & R3); try (apply vsub_neq; auto).
  exists t. split; auto. rewrite !vlength_dist in *. split; [split; auto|].
  - rewrite Rmult_assoc, (Rmult_comm (dist (tA T) (tB T))), R2. unspec. ring.
  - rewrite Rmult_assoc, (Rmult_comm (dist (tA T) (tB T))), R3. unfold dbl. rewrite <- Rabs_Ropp. f_equal. unspec. ring.
Qed.
Lemma angleB_spec T : tA T <> tB T -> tB T <> tC T -> exists t, angleB T = Ok t /\ angle_of (tB T) (tA T) (tC T) t.
Proof.
  intros H1 H2. destruct (angle_at_spec (vsub (tC T) (tB T)) (vsub (tA T) (tB T))) as (t & E & R1 & R2 & R3); try (apply vsub_neq; auto).
  exists t. split; auto. rewrite !vlength_dist in *. split; [split; auto|].
  - rewrite Rmult_assoc, (Rmult_comm (dist (tB T) (tA T))), R2. unspec. ring.
  - rewrite Rmult_assoc, (Rmult_comm (dist (tB T) (tA T))), R3. unfold dbl. rewrite <- Rabs_Ropp. f_equal. unspec. ring.
Qed.
Lemma angleC_spec T : tA T <> tC T -> tB T <> tC T -> exists t, angleC T = Ok t /\ angle_of (tC T) (tA T) (tB T) t.
Proof.
  intros H1 H2. destruct (angle_at_spec (vsub (tA T) (tC T)) (vsub (tB T) (tC T))) as (t & E & R1 & R2 & R3); try (apply vsub_neq; auto).
  rewrite !vlength_dist in *.
  exists t. split.
  - unfold angleC. rewrite !vlength_dist. revert E. unfold angle_at, np_div.
    pose proof (dist_pos (tC T) (tA T)). pose proof (dist_pos (tC T) (tB T)).
    destruct (Req_EM_T (dist (tC T) (tA T)) 0); [exfalso; apply H1; symmetry; apply dist_0; auto|].
    destruct (Req_EM_T (dist (tC T) (tB T)) 0); [exfalso; apply H2; symmetry; apply dist_0; auto|].
    cbn [bind]. intros <-. f_equal. field. auto.
  - split; [split; auto|].
    + rewrite Rmult_assoc, R2. unspec. ring.
    + rewrite Rmult_assoc, R3. unfold dbl. f_equal.
Qed.

Lemma angle_sum A B C al be ga : A <> B -> A <> C -> B <> C ->
  angle_of A B C al -> angle_of B A C be -> angle_of C A B ga -> al + be + ga = PI.
Proof.
  intros HAB HAC HBC [[Ra Ca] Sa] [[Rb Cb] Sb] [[Rc Cc] Sc].
  rewrite (dist_sym B A) in Cb, Sb. rewrite (dist_sym C A), (dist_sym C B) in Cc, Sc.
  assert (K1 : dbl B A C = - dbl A B C) by apply dbl_swap. assert (K2 : dbl C A B = dbl A B C) by (rewrite <- dbl_perm; reflexivity).
  rewrite K1, Rabs_Ropp in Sb. rewrite K2 in Sc.
  pose proof (dist_pos _ _ HAB) as Pc. pose proof (dist_pos _ _ HAC) as Pb. pose proof (dist_pos _ _ HBC) as Pa.
  pose proof (sdot_sides A B C) as S1. pose proof (sdot_sides B A C) as S2. pose proof (sdot_sides C A B) as S3.
  rewrite (dist2_sym B A) in S2. rewrite (dist2_sym C A), (dist2_sym C B) in S3.
  rewrite <- !dist_sq in S1, S2, S3.
  pose proof (heron_poly A B C _ _ _ (dist_sq B C) (dist_sq A C) (dist_sq A B)) as He.
  set (k := Rabs (dbl A B C)) in *. assert (Hk : k * k = dbl A B C * dbl A B C) by apply Rabs_sq.
  assert (Hk0 : 0 <= k) by apply Rabs_pos.
  rewrite <- Hk in He.
  set (a := dist B C) in *. set (b := dist A C) in *. set (c := dist A B) in *.
  assert (Wa : 0 < b * c) by (apply Rmult_lt_0_compat; auto). assert (Wb : 0 < a * c) by (apply Rmult_lt_0_compat; auto).
  assert (Wc : 0 < a * b) by (apply Rmult_lt_0_compat; auto).
  assert (ca : cos al = (c * c + b * b - a * a) / (2 * (b * c))).
  { apply (Rmult_eq_reg_r (2 * (b * c))); [|lra]. field_simplify; [|lra]. lra. }
  assert (cb : cos be = (c * c + a * a - b * b) / (2 * (a * c))).
  { apply (Rmult_eq_reg_r (2 * (a * c))); [|lra]. field_simplify; [|lra]. lra. }
  assert (cc : cos ga = (b * b + a * a - c * c) / (2 * (a * b))).
  { apply (Rmult_eq_reg_r (2 * (a * b))); [|lra]. field_simplify; [|lra]. lra. }
  assert (sa : sin al = k / (b * c)).
  { apply (Rmult_eq_reg_r (b * c)); [|lra]. field_simplify; [|lra]. lra. }
  assert (sb : sin be = k / (a * c)).
  { apply (Rmult_eq_reg_r (a * c)); [|lra]. field_simplify; [|lra]. lra. }
  assert (sc : sin ga = k / (a * b)).
  { apply (Rmult_eq_reg_r (a * b)); [|lra]. field_simplify; [|lra]. lra. }
  assert (Cs : cos (al + be) = - cos ga).
  { rewrite cos_plus, ca, cb, cc, sa, sb.
    apply (Rmult_eq_reg_r (4 * (a * b * c * c))); [|apply Rgt_not_eq; repeat apply Rmult_lt_0_compat; lra].
    transitivity ((c * c + b * b - a * a) * (c * c + a * a - b * b) - 4 * (k * k)); [field; lra|].
    rewrite <- He. field. lra. }
  assert (Ss : sin (al + be) = sin ga).
  { rewrite sin_plus, ca, cb, sc, sa, sb. field. lra. }
  assert (G0 : 0 <= sin ga) by (apply sin_ge_0; lra).
  assert (al + be <= PI).
  { destruct (Rle_dec (al + be) PI); auto. exfalso. apply Rnot_le_lt in n.
    destruct (Rlt_dec (al + be) (2 * PI)) as [L|L].
    - pose proof (sin_lt_0 (al + be) n L). lra.
    - assert (al = PI) by lra. assert (be = PI) by lra. subst al be. rewrite cos_PI in ca, cb.
      assert (c * c + b * b - a * a = - (2 * (b * c))) by (apply (Rmult_eq_reg_r (/ (2 * (b * c)))); [|apply Rinv_neq_0_compat; lra]; fold (Rdiv (c * c + b * b - a * a) (2 * (b * c))); rewrite <- ca; field; lra).
      assert (c * c + a * a - b * b = - (2 * (a * c))) by (apply (Rmult_eq_reg_r (/ (2 * (a * c)))); [|apply Rinv_neq_0_compat; lra]; fold (Rdiv (c * c + a * a - b * b) (2 * (a * c))); rewrite <- cb; field; lra).
      pose proof (sqpos c ltac:(lra)). lra. }
  assert (al + be = PI - ga); [|lra].
  apply cos_inj; try lra. rewrite Cs. rewrite Rtrigo_facts.cos_pi_minus. auto.
Qed.
