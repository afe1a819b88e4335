(** * Proofs about triangles: equal detour point and Malfatti circles. *)

From Coq Require Import Reals Lra Lia Psatz List Bool ZArith Nsatz.
From Verif Require Import Base BaseLemmas Spec SpecLemmas SpecTriangle ModelInternal ModelLine ModelCircle ModelAffine ModelTriangle PLine PInvBase PTriangle PTriangle2.
Import ListNotations.
Local Open Scope R_scope.

(** ** equal detour point *)
Lemma soddy_poly x y z S : S * S = (x + y + z) * x * y * z ->
  let s := x + y + z in let a := y + z in let b := x + z in let c := x + y in
  let T1 := b * S + s * x * z in let T2 := c * S + s * x * y in let e2 := x * y + y * z + z * x in
  T1 * T1 * (c * c) + T2 * T2 * (b * b) + T1 * T2 * (b * b + c * c - a * a) = (S * S + x * s * (e2 + 2 * S)) * (S * S + x * s * (e2 + 2 * S)).
Proof. intros H. cbv zeta. nsatz. Qed.

Lemma bary_dist2_A u v w A B C : u + v + w = 1 ->
  dist2 A (bary u v w A B C) = v * v * dist2 A B + w * w * dist2 A C + v * w * (dist2 A B + dist2 A C - dist2 B C).
Proof. intros H. assert (u = 1 - v - w) by lra. subst u. unfold bary. unspec. ring. Qed.

Definition detour_weight (S x y z : R) : R := y + z + S / x.
Definition detour_sum (S x y z : R) : R := detour_weight S x y z + detour_weight S y z x + detour_weight S z x y.
Definition detour_point (S x y z : R) (A B C : pt) : pt :=
  let g := detour_sum S x y z in
  bary (detour_weight S x y z / g) (detour_weight S y z x / g) (detour_weight S z x y / g) A B C.

Lemma detour_weight_pos S x y z : 0 < x -> 0 < y -> 0 < z -> 0 < S -> 0 < detour_weight S x y z.
Proof. intros. unfold detour_weight. assert (0 < S / x) by (apply Rmult_lt_0_compat; auto; apply Rinv_0_lt_compat; auto). lra. Qed.

Lemma detour_A A B C x y z S : 0 < x -> 0 < y -> 0 < z -> 0 < S -> S * S = (x + y + z) * x * y * z ->
  dist B C = y + z -> dist A C = x + z -> dist A B = x + y ->
  dist A (detour_point S x y z A B C) = x + x * y * z / (x * y + y * z + z * x + 2 * S).
Proof.
  intros Hx Hy Hz HS S2 Ea Eb Ec.
  assert (Ea' : dist2 B C = (y + z) * (y + z)) by (rewrite <- dist_sq, Ea; auto).
  assert (Eb' : dist2 A C = (x + z) * (x + z)) by (rewrite <- dist_sq, Eb; auto).
  assert (Ec' : dist2 A B = (x + y) * (x + y)) by (rewrite <- dist_sq, Ec; auto).
  set (e2 := x * y + y * z + z * x). set (s := x + y + z) in *.
  assert (He2 : 0 < e2) by (unfold e2; repeat apply Rplus_lt_0_compat; apply Rmult_lt_0_compat; auto).
  assert (Hs : 0 < s) by (unfold s; lra).
  assert (Hxyz : 0 < x * y * z) by (repeat apply Rmult_lt_0_compat; auto).
  unfold detour_point. cbv zeta. set (sg := detour_sum S x y z).
  set (t0 := detour_weight S x y z). set (t1 := detour_weight S y z x). set (t2 := detour_weight S z x y).
  assert (T1 : S * t1 = (x + z) * S + s * x * z).
  { unfold t1, detour_weight. transitivity ((x + z) * S + S * S / y); [field; lra|]. rewrite S2. field. lra. }
  assert (T2 : S * t2 = (x + y) * S + s * x * y).
  { unfold t2, detour_weight. transitivity ((x + y) * S + S * S / z); [field; lra|]. rewrite S2. field. lra. }
  assert (Hsg : S * sg = s * (e2 + 2 * S)).
  { unfold sg, detour_sum, detour_weight. transitivity (2 * s * S + S * S * (/ x + / y + / z)); [unfold s; field; lra|].
    rewrite S2. unfold e2, s. field. lra. }
  assert (Psg : 0 < sg). { apply (Rmult_lt_reg_l S); auto. rewrite Hsg, Rmult_0_r. apply Rmult_lt_0_compat; lra. }
  assert (Hw : t0 / sg + t1 / sg + t2 / sg = 1) by (unfold sg, detour_sum; fold t0 t1 t2; field; unfold sg, detour_sum in Psg; fold t0 t1 t2 in Psg; lra).
  assert (Hrho : x * y * z / (e2 + 2 * S) * sg = S).
  { apply (Rmult_eq_reg_r S); [|lra]. replace (x * y * z / (e2 + 2 * S) * sg * S) with (x * y * z / (e2 + 2 * S) * (S * sg)) by ring.
    rewrite Hsg, S2. field. lra. }
  assert (Hrp : 0 < x * y * z / (e2 + 2 * S)) by (apply Rmult_lt_0_compat; auto; apply Rinv_0_lt_compat; lra).
  apply sqrt_eq; [lra|]. rewrite bary_dist2_A by auto. rewrite Ea', Eb', Ec'.
  set (rho := x * y * z / (e2 + 2 * S)) in *.
  apply (Rmult_eq_reg_r ((S * sg) * (S * sg))); [|apply Rgt_not_eq; apply Rmult_lt_0_compat; apply Rmult_lt_0_compat; auto].
  transitivity ((S * (rho * sg) + x * (S * sg)) * (S * (rho * sg) + x * (S * sg))); [ring|]. rewrite Hrho.
  transitivity ((S * t1) * (S * t1) * ((x + y) * (x + y)) + (S * t2) * (S * t2) * ((x + z) * (x + z)) + (S * t1) * (S * t2) * ((x + z) * (x + z) + (x + y) * (x + y) - (y + z) * (y + z)));
    [|field; lra].
  rewrite T1, T2, Hsg. pose proof (soddy_poly x y z S S2) as Q. cbv zeta in Q. fold s e2 in Q. rewrite Q. ring.
Qed.

Lemma detour_perm S x y z A B C : detour_point S y z x B C A = detour_point S x y z A B C.
Proof.
  unfold detour_point. cbv zeta. replace (detour_sum S y z x) with (detour_sum S x y z) by (unfold detour_sum; ring).
  rewrite (bary_perm1 (_ / _) _ _ A B C). reflexivity.
Qed.

(** the three half-sums of a triangle *)
Lemma ravi A B C : dbl A B C <> 0 -> exists x y z S, 0 < x /\ 0 < y /\ 0 < z /\ 0 < S /\ S * S = (x + y + z) * x * y * z /\
  dist B C = y + z /\ dist A C = x + z /\ dist A B = x + y /\ S = Rabs (dbl A B C) / 2.
Proof.
  intros N. destruct (sides_ineq _ _ _ N) as (I1 & I2 & I3). pose proof (sides_heron A B C) as He.
  set (a := dist B C) in *. set (b := dist A C) in *. set (c := dist A B) in *.
  exists ((- a + b + c) / 2), ((a - b + c) / 2), ((a + b - c) / 2), (Rabs (dbl A B C) / 2).
  repeat split; try lra.
  - pose proof (Rabs_pos_lt _ N). lra.
  - transitivity (Rabs (dbl A B C) * Rabs (dbl A B C) / 4); [field|]. rewrite Rabs_sq. lra.
Qed.

Lemma equal_detour_spec A B C : ~ collinear A B C -> exists P d, equal_detour_point (mkTri A B C) = Ok (P, d) /\
  inside_triangle A B C P /\
  dist P A + dist P B - dist A B = d /\ dist P B + dist P C - dist B C = d /\ dist P C + dist P A - dist C A = d.
Proof.
  intros N. apply not_collinear_dbl in N. pose proof (sides_area A B C) as SA. cbv zeta in SA.
  destruct (ravi A B C N) as (x & y & z & S & Hx & Hy & Hz & HS & S2 & Ea & Eb & Ec & ES). rewrite <- ES in SA.
  unfold equal_detour_point. cbn [tA tB tC]. rewrite (distance_dist B C), (distance_dist A C), (distance_dist B A), (dist_sym B A).
  rewrite Ea, Eb, Ec in *.
  set (hs := (y + z + (x + z) + (x + y)) / 2) in *.
  assert (Q : 0 <= hs * (hs - (y + z)) * (hs - (x + z)) * (hs - (x + y))) by (repeat apply Rmult_le_pos; unfold hs; lra).
  unfold py_sqrt. destruct Rlt_dec; [lra|]. cbn [bind]. rewrite SA.
  unfold np_div. destruct Req_EM_T; [lra|]. cbn [bind]. destruct Req_EM_T; [lra|]. cbn [bind]. destruct Req_EM_T; [lra|]. cbn [bind].
  replace (y + z + 2 * S / (x + z + (x + y) - (y + z))) with (detour_weight S x y z) by (unfold detour_weight; field; lra).
  replace (x + z + 2 * S / (x + y + (y + z) - (x + z))) with (detour_weight S y z x) by (unfold detour_weight; field; lra).
  replace (x + y + 2 * S / (y + z + (x + z) - (x + y))) with (detour_weight S z x y) by (unfold detour_weight; field; lra).
  fold (detour_sum S x y z).
  pose proof (detour_weight_pos S x y z Hx Hy Hz HS) as W0. pose proof (detour_weight_pos S y z x Hy Hz Hx HS) as W1. pose proof (detour_weight_pos S z x y Hz Hx Hy HS) as W2.
  assert (Psg : 0 < detour_sum S x y z) by (unfold detour_sum; lra).
  rewrite comb3_ok by lra. cbn [bind]. set (P := bary _ _ _ A B C). do 2 eexists. split; [reflexivity|].
  split.
  - exists (detour_weight S x y z / detour_sum S x y z), (detour_weight S y z x / detour_sum S x y z), (detour_weight S z x y / detour_sum S x y z).
    pose proof (Rinv_0_lt_compat _ Psg). repeat split; try (apply Rmult_lt_0_compat; auto).
    unfold detour_sum. field. fold (detour_sum S x y z). lra.
  - assert (EP : P = detour_point S x y z A B C) by reflexivity.
    assert (DA : dist A P = x + x * y * z / (x * y + y * z + z * x + 2 * S)) by (rewrite EP; apply detour_A; auto).
    assert (DB : dist B P = y + x * y * z / (x * y + y * z + z * x + 2 * S)).
    { rewrite EP, <- detour_perm. rewrite (detour_A B C A y z x S); auto; try (rewrite dist_sym; lra); [|lra].
      replace (y * z * x) with (x * y * z) by ring. replace (y * z + z * x + x * y) with (x * y + y * z + z * x) by ring. auto. }
    assert (DC : dist C P = z + x * y * z / (x * y + y * z + z * x + 2 * S)).
    { rewrite EP, <- detour_perm, <- detour_perm. rewrite (detour_A C A B z x y S); auto; try (rewrite dist_sym; lra); [|lra].
      replace (z * x * y) with (x * y * z) by ring. replace (z * x + x * y + y * z) with (x * y + y * z + z * x) by ring. auto. }
    rewrite (distance_dist A P), (distance_dist B P).
    rewrite (dist_sym P A), (dist_sym P B), (dist_sym P C), (dist_sym C A), DA, DB, DC, Eb. repeat split; lra.
Qed.
