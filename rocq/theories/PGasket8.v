(** * Proofs about the triangular gasket: the first holes, and the whole drawing. *)

From Coq Require Import Reals Lra Lia Psatz List Bool ZArith.
From Verif Require Import Base BaseLemmas Spec SpecLemmas SpecTriangle ModelInternal ModelLine ModelCircle ModelTriangle ModelGasket PLine PTriangle PTriangle2 PTriangle3 PTriangle4 PTriangle5 PSteiner PGasket1 PGasket2 PGasket3 PGasket4 PGasket5 PGasket6 PGasket7.
Import ListNotations.
Local Open Scope R_scope.

Lemma mc_tangs A B C P x y z r e k1 k2 k3 : mconf A B C P x y z r e k1 k2 k3 ->
  let c1 := mc A P r k1 in let c2 := mc B P r k2 in let c3 := mc C P r k3 in
  posc c1 /\ posc c2 /\ posc c3 /\ tang c1 c2 /\ tang c2 c3 /\ tang c1 c3.
Proof.
  intros M c1 c2 c3. pose proof (mconf_perm _ _ _ _ _ _ _ _ _ _ _ _ M) as M2. pose proof (mconf_perm _ _ _ _ _ _ _ _ _ _ _ _ M2) as M3.
  pose proof (mc_pos _ _ _ _ _ _ _ _ _ _ _ _ M) as (P1 & P2). pose proof (mc_pos _ _ _ _ _ _ _ _ _ _ _ _ M2) as (_ & P3).
  pose proof (mc_tang _ _ _ _ _ _ _ _ _ _ _ _ M) as T12. pose proof (mc_tang _ _ _ _ _ _ _ _ _ _ _ _ M2) as T23. pose proof (mc_tang _ _ _ _ _ _ _ _ _ _ _ _ M3) as T31.
  apply tang_sym in T31. auto 8.
Qed.

Lemma middle_ex c1 c2 c3 : posc c1 -> posc c2 -> posc c3 -> tang c1 c2 -> tang c2 c3 -> tang c1 c3 -> exists D, region (CCC c1 c2 c3) D.
Proof.
  intros P1 P2 P3 T12 T23 T13. destruct (tangent_Ravi c1 c2 c3 P1 P2 P3 T12 T23 T13) as (S & H).
  pose proof (Ravi_perm _ _ _ _ _ _ _ H) as H2. pose proof (Ravi_perm _ _ _ _ _ _ _ H2) as H3.
  pose proof (incenter_dist _ _ _ _ _ _ _ H) as E1. pose proof (incenter_dist _ _ _ _ _ _ _ H2) as E2. pose proof (incenter_dist _ _ _ _ _ _ _ H3) as E3.
  cbv zeta in E1, E2, E3. rewrite incenter_perm in E3. rewrite incenter_perm in E2, E3. rewrite dist2_sym in E1, E2, E3.
  replace (cr c2 + cr c3 + cr c1) with (cr c1 + cr c2 + cr c3) in E2 by ring. replace (cr c3 + cr c1 + cr c2) with (cr c1 + cr c2 + cr c3) in E3 by ring.
  exists (mkCircle (incenter (cO c1) (cO c2) (cO c3) (cr c1) (cr c2) (cr c3)) (S / (cr c1 + cr c2 + cr c3))). destruct H as (Hx & Hy & Hz & HS & _).
  cbn [region]. unfold ortho, posc at 4. cbn [cO cr]. rewrite E1, E2, E3. assert (0 < S / (cr c1 + cr c2 + cr c3)) by (apply Rdiv_lt_0_compat; lra). tauto.
Qed.

(** the orientation of the centres *)
Lemma mc_dblO A B C P x y z r e k1 k2 k3 : mconf A B C P x y z r e k1 k2 k3 ->
  0 < e * dbl (cO (mc A P r k1)) (cO (mc B P r k2)) (cO (mc C P r k3)).
Proof.
  intros M. pose proof (mc_cO A B C P r k1 k2 k3) as (E1 & E2 & E3). 
  pose proof M as ((Hx & Hy & Hz & Hr & He) & (K1 & K2 & K3) & _ & _ & (Xab & Xbc & Xca) & _).
  set (o1 := cO (mc A P r k1)) in *. set (o2 := cO (mc B P r k2)) in *. set (o3 := cO (mc C P r k3)) in *.
  assert (G : e * dbl o1 o2 o3 = e * scross (vsub o1 P) (vsub o2 P) + e * scross (vsub o2 P) (vsub o3 P) + e * scross (vsub o3 P) (vsub o1 P)) by (unfold dbl; unspec; ring).
  rewrite E1, E2, E3 in G.
  assert (G2 : e * dbl o1 o2 o3 = (1 - k1) * (1 - k2) * (e * scross (vsub A P) (vsub B P)) + (1 - k2) * (1 - k3) * (e * scross (vsub B P) (vsub C P)) + (1 - k3) * (1 - k1) * (e * scross (vsub C P) (vsub A P))) by (rewrite G; unspec; ring).
  rewrite G2, Xab, Xbc, Xca.
  assert (0 < (1 - k1) * (1 - k2) * (r * (x + y))) by (repeat apply Rmult_lt_0_compat; lra). assert (0 < (1 - k2) * (1 - k3) * (r * (y + z))) by (repeat apply Rmult_lt_0_compat; lra).
  assert (0 < (1 - k3) * (1 - k1) * (r * (z + x))) by (repeat apply Rmult_lt_0_compat; lra). lra.
Qed.

Lemma side_middle A B C P x y z r e k1 k2 k3 D : mconf A B C P x y z r e k1 k2 k3 -> region (CCC (mc A P r k1) (mc B P r k2) (mc C P r k3)) D ->
  disj (dside A B x y k1 k2) D.
Proof.
  intros M HD. pose proof (mc_cO A B C P r k1 k2 k3) as (F1 & F2 & _). pose proof (mc_dblO _ _ _ _ _ _ _ _ _ _ _ _ M) as PO.
  cbn [region] in HD. set (c1 := mc A P r k1) in *. set (c2 := mc B P r k2) in *. set (c3 := mc C P r k3) in *.
  destruct HD as (P1 & P2 & P3 & PD & T12 & T23 & T13 & OD1 & OD2 & OD3).
  destruct (tangent_Ravi c1 c2 c3 P1 P2 P3 T12 T23 T13) as (S & H). destruct (ortho_incenter c1 c2 c3 D S PD H OD1 OD2 OD3) as (EO & ER).
  pose proof M as ((Hx & Hy & Hz & Hr & He) & (K1 & K2 & K3) & _ & _ & (Xab & _ & _) & _).
  pose proof (incenter_height _ _ _ _ _ _ _ e H (Ravi_e _ _ _ _ _ _ _ _ H He PO)) as EH. rewrite <- EO, <- ER in EH.
  apply disj_sym. apply (separated_cross e (vsub (cO c2) (cO c1)) (dist (cO c1) (cO c2)) (cO c1)); auto.
  - unfold tang in T12. unfold posc in *. lra.
  - rewrite dist_sq. reflexivity.
  - rewrite EH. unfold tang in T12. rewrite T12. lra.
  - unfold tang in T12. rewrite T12. change (cr c1) with (k1 * r). change (cr c2) with (k2 * r). unfold dside. cbn [cO cr].
    set (t := (x + y + k1 * x - k2 * y) / (2 * (x + y))). apply Req_le.
    transitivity (- ((1 - k2) * (k1 - t) + (1 - k1) * t) * (e * scross (vsub A P) (vsub B P))).
    + transitivity (e * scross (vsub (vsub (cO c2) P) (vsub (cO c1) P)) (vsub (vsub (at_line A B t) P) (vsub (cO c1) P))); [unspec; ring|]. rewrite F1, F2. unspec. ring.
    + rewrite Xab. unfold t. field. lra.
Qed.

Lemma corner_middle A B C P x y z r e k1 k2 k3 D : mconf A B C P x y z r e k1 k2 k3 -> region (CCC (mc A P r k1) (mc B P r k2) (mc C P r k3)) D ->
  disj (dcorner A k1 x) D.
Proof.
  intros M HD. pose proof (mc_cO A B C P r k1 k2 k3) as (F1 & F2 & F3).
  cbn [region] in HD. set (c1 := mc A P r k1) in *. set (c2 := mc B P r k2) in *. set (c3 := mc C P r k3) in *.
  destruct HD as (P1 & P2 & P3 & PD & T12 & T23 & T13 & OD1 & OD2 & OD3).
  destruct (tangent_Ravi c1 c2 c3 P1 P2 P3 T12 T23 T13) as (S & H). destruct (ortho_incenter c1 c2 c3 D S PD H OD1 OD2 OD3) as (EO & ER).
  pose proof M as ((Hx & Hy & Hz & Hr & He) & (K1 & K2 & K3) & (Qa & Qb & Qc) & (Qab & Qbc & Qca) & _ & E & _).
  destruct (bisector_len r x Hr) as (N & PN & EN). set (a := vsub A P) in *. set (b := vsub B P) in *. set (c := vsub C P) in *. set (n := vscal (/ N) a).
  assert (U : sdot n n = 1) by (transitivity (/ N * / N * sdot a a); [unfold n; unspec; ring|rewrite Qa, <- EN; field; lra]).
  assert (Gca : r * r - z * x <= 0). { apply Rmult_le_reg_r with (x + y + z); [lra|]. replace ((r * r - z * x) * (x + y + z)) with (r * r * (x + y + z) - z * x * (x + y + z)) by ring. rewrite <- E. pose proof (Rmult_lt_0_compat (z * x) (x + z) ltac:(apply Rmult_lt_0_compat; lra) ltac:(lra)). lra. }
  assert (Gab : r * r - x * y <= 0). { apply Rmult_le_reg_r with (x + y + z); [lra|]. replace ((r * r - x * y) * (x + y + z)) with (r * r * (x + y + z) - x * y * (x + y + z)) by ring. rewrite <- E. pose proof (Rmult_lt_0_compat (x * y) (x + y) ltac:(apply Rmult_lt_0_compat; lra) ltac:(lra)). lra. }
  pose proof (Rinv_0_lt_compat _ PN) as IN. assert (Ga : 0 < (1 - k1) * sdot a a) by (rewrite Qa, <- EN; repeat apply Rmult_lt_0_compat; lra).
  assert (S1 : forall v w, sdot (vscal (/ N) v) w = / N * sdot v w) by (intros; unspec; ring).
  apply (separated n 1 (cO c1)); [lra|lra| |].
  - unfold dcorner. cbn [cO cr]. replace (vsub A (cO c1)) with (vscal k1 a) by (unfold c1, mc, mcenter, a; cbn [cO]; unpt; f_equal; ring).
    unfold n. rewrite S1. replace (sdot a (vscal k1 a)) with (k1 * sdot a a) by (unspec; ring). rewrite Qa, <- EN. replace (/ N * (k1 * (N * N))) with (k1 * N) by (field; lra).
    assert (x < N) by (apply Rsqr_incrst_0; [unfold Rsqr; rewrite EN; pose proof (Rmult_lt_0_compat r r Hr Hr); lra|lra|lra]). assert (k1 * x < k1 * N) by (apply Rmult_lt_compat_l; lra). lra.
  - rewrite EO, ER, Rmult_1_l. apply incircle_in; auto.
    + unfold n. rewrite S1. replace (sdot a (vsub (cO c1) (cO c1))) with 0 by (unspec; ring). lra.
    + unfold n. rewrite S1. replace (sdot a (vsub (cO c2) (cO c1))) with (sdot a (vsub (cO c2) P) - sdot a (vsub (cO c1) P)) by (unspec; ring). rewrite F1, F2.
      replace (sdot a (vscal (1 - k2) b) - sdot a (vscal (1 - k1) a)) with ((1 - k2) * sdot a b - (1 - k1) * sdot a a) by (unspec; ring).
      assert (0 <= (1 - k2) * - sdot a b) by (apply Rmult_le_pos; lra). assert (0 < / N * ((1 - k2) * - sdot a b + (1 - k1) * sdot a a)) by (apply Rmult_lt_0_compat; lra). lra.
    + unfold n. rewrite S1. replace (sdot a (vsub (cO c3) (cO c1))) with (sdot a (vsub (cO c3) P) - sdot a (vsub (cO c1) P)) by (unspec; ring). rewrite F1, F3.
      replace (sdot a (vscal (1 - k3) c) - sdot a (vscal (1 - k1) a)) with ((1 - k3) * sdot c a - (1 - k1) * sdot a a) by (unspec; ring).
      assert (0 <= (1 - k3) * - sdot c a) by (apply Rmult_le_pos; lra). assert (0 < / N * ((1 - k3) * - sdot c a + (1 - k1) * sdot a a)) by (apply Rmult_lt_0_compat; lra). lra.
Qed.
