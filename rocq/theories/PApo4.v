(** * Proofs about gaskets made by inversions: the walls of a Steiner chain. *)

From Coq Require Import Reals Lra Lia Psatz List Bool FinFun.
From Verif Require Import Base BaseLemmas Spec SpecLemmas ModelInternal ModelLine ModelCircle ModelTriangle ModelInversion ModelApollonian PInvBase PInversion PInversion2 PTriangle PTriangle2 PTriangle3 PTriangle4 PTriangle5 PSteiner PGasket1 PGasket5 PApo1 PApo2 PApo3.
Import ListNotations.
Local Open Scope R_scope.

Lemma inner_kap c co : posc c -> posc co -> inner c co -> kap (vc c) (vc co) <= -1.
Proof.
  unfold posc, inner. intros H1 H2 H. rewrite kap_cc by lra. rewrite <- dist_sq. pose proof (dist_nonneg (cO c) (cO co)). set (d := dist _ _) in *.
  assert (P : 0 < 2 * cr c * cr co) by (apply Rmult_lt_0_compat; lra). apply (Rmult_le_reg_r (2 * cr c * cr co)); [auto|].
  replace ((d * d - cr c * cr c - cr co * cr co) / (2 * cr c * cr co) * (2 * cr c * cr co)) with (d * d - cr c * cr c - cr co * cr co) by (field; split; lra).
  assert (d * d <= (cr co - cr c) * (cr co - cr c)) by (apply Rmult_le_compat; lra). lra.
Qed.

(** ** the power of the radical centre of tangent circles *)
Lemma power_pos3 (a b c : pt) (r1 r2 r3 p : R) : 0 < r1 -> 0 < r2 -> r3 <> 0 ->
  sdot a a = p + r1 * r1 -> sdot b b = p + r2 * r2 -> sdot c c = p + r3 * r3 ->
  sdot a b = p - r1 * r2 -> sdot a c = p - r1 * r3 -> sdot b c = p - r2 * r3 -> 0 < p.
Proof.
  intros H1 H2 H3 Ea Eb Ec Eab Eac Ebc.
  assert (L : sdot a a * sdot b b = sdot a b * sdot a b + scross a b * scross a b) by (unspec; ring).
  pose proof (Rle_0_sqr (scross a b)) as Q. unfold Rsqr in Q. rewrite Ea, Eb, Eab in L.
  assert (P0 : 0 <= p * ((r1 + r2) * (r1 + r2))) by lra. assert (Ps : 0 < (r1 + r2) * (r1 + r2)) by (apply Rmult_lt_0_compat; lra).
  destruct (Rle_lt_dec p 0) as [N|]; [|auto]. exfalso. assert (p = 0) by (destruct (Rle_lt_or_eq_dec p 0 N); [pose proof (Rmult_lt_compat_r _ _ _ Ps r); lra|auto]). subst p.
  destruct a as [a1 a2], b as [b1 b2], c as [c1 c2]. unfold sdot in *. cbn [fst snd] in *.
  assert (Z : (r2 * a1 + r1 * b1) * (r2 * a1 + r1 * b1) + (r2 * a2 + r1 * b2) * (r2 * a2 + r1 * b2) = 0).
  { transitivity (r2 * r2 * (a1 * a1 + a2 * a2) + r1 * r1 * (b1 * b1 + b2 * b2) + 2 * r1 * r2 * (a1 * b1 + a2 * b2)); [ring|]. rewrite Ea, Eb, Eab. ring. }
  assert (Z1 : r2 * a1 + r1 * b1 = 0) by exact (Rplus_sqr_eq_0_l _ _ Z). assert (Z2 : r2 * a2 + r1 * b2 = 0) by (rewrite Rplus_comm in Z; exact (Rplus_sqr_eq_0_l _ _ Z)).
  assert (Y : r2 * (a1 * c1 + a2 * c2) + r1 * (b1 * c1 + b2 * c2) = 0) by (transitivity ((r2 * a1 + r1 * b1) * c1 + (r2 * a2 + r1 * b2) * c2); [ring|rewrite Z1, Z2; ring]).
  rewrite Eac, Ebc in Y. assert (r1 * r2 * r3 = 0) by lra. apply Rmult_integral in H. destruct H as [H|]; [apply Rmult_integral in H|]; lra.
Qed.

Lemma sdot_dist2 P X Y : sdot (vsub X P) (vsub Y P) = (dist2 X P + dist2 Y P - dist2 X Y) / 2.
Proof. unfold dist2. unspec. field. Qed.
Lemma dist2_sdot P X : sdot (vsub X P) (vsub X P) = dist2 X P.
Proof. unfold dist2. unspec. ring. Qed.

(** two circles inside a third one, tangent *)
Lemma power_pos_in c0 c1 c2 P p : posc c0 -> posc c1 -> posc c2 ->
  dist (cO c0) (cO c1) = cr c0 - cr c1 -> dist (cO c0) (cO c2) = cr c0 - cr c2 -> tang c1 c2 ->
  p = pow_circle (cO c0) (cr c0) P -> p = pow_circle (cO c1) (cr c1) P -> p = pow_circle (cO c2) (cr c2) P -> 0 < p.
Proof.
  unfold posc, tang, pow_circle. intros H0 H1 H2 D1 D2 D12 E0 E1 E2. pose proof (dist_sq (cO c0) (cO c1)) as Q1. pose proof (dist_sq (cO c0) (cO c2)) as Q2. pose proof (dist_sq (cO c1) (cO c2)) as Q12.
  rewrite D1 in Q1. rewrite D2 in Q2. rewrite D12 in Q12.
  apply (power_pos3 (vsub (cO c1) P) (vsub (cO c2) P) (vsub (cO c0) P) (cr c1) (cr c2) (- cr c0)); try lra; rewrite ?dist2_sdot, ?sdot_dist2; try lra;
    rewrite ?(dist2_sym (cO c1) (cO c0)), ?(dist2_sym (cO c2) (cO c0)), <- ?Q1, <- ?Q2, <- ?Q12; lra.
Qed.
Lemma power_pos_ext c0 c1 c2 P p : posc c0 -> posc c1 -> posc c2 -> tang c0 c1 -> tang c0 c2 -> tang c1 c2 ->
  p = pow_circle (cO c0) (cr c0) P -> p = pow_circle (cO c1) (cr c1) P -> p = pow_circle (cO c2) (cr c2) P -> 0 < p.
Proof.
  unfold posc, tang, pow_circle. intros H0 H1 H2 D1 D2 D12 E0 E1 E2. pose proof (dist_sq (cO c0) (cO c1)) as Q1. pose proof (dist_sq (cO c0) (cO c2)) as Q2. pose proof (dist_sq (cO c1) (cO c2)) as Q12.
  rewrite D1 in Q1. rewrite D2 in Q2. rewrite D12 in Q12.
  apply (power_pos3 (vsub (cO c1) P) (vsub (cO c2) P) (vsub (cO c0) P) (cr c1) (cr c2) (cr c0)); try lra; rewrite ?dist2_sdot, ?sdot_dist2; try lra;
    rewrite ?(dist2_sym (cO c1) (cO c0)), ?(dist2_sym (cO c2) (cO c0)), <- ?Q1, <- ?Q2, <- ?Q12; lra.
Qed.

Lemma kap_wv_fix c iota : posc c -> 0 < ipower iota -> ipower iota = pow_circle (cO c) (cr c) (ipole iota) -> kap (wv iota) (vc c) = 0.
Proof. intros P K E. rewrite kap_sym, kap_wv by auto. rewrite <- E. unfold Rdiv, Rminus. rewrite Rplus_opp_r. ring. Qed.

(** ** the inversion that swaps a circle and a circle inside it *)
Lemma swap_inside c0 ci : posc c0 -> posc ci -> inner ci c0 -> cr ci < cr c0 -> exists iota lam,
  snd (from_swapping_two_circles c0 ci true) = Some iota /\ 0 < ipower iota /\ 0 < lam /\ wv iota = v4scal lam (v4add (vc c0) (vc ci)).
Proof.
  unfold posc, inner. intros H0 Hi I Hr. unfold from_swapping_two_circles. replace (eqb (cr c0) (cr ci)) with false by (symmetry; apply eqb_false; lra).
  rewrite Rmin_right, Rmax_left by lra. change (distance_ (cO c0) (cO ci)) with (dist (cO c0) (cO ci)). rewrite dist_sym in I. replace (leb (dist (cO c0) (cO ci) + cr ci) (cr c0)) with true by (symmetry; apply leb_true; lra).
  cbv zeta. cbn [orb snd]. set (a := cr c0 / cr ci). set (O := vadd (cO c0) (vscal (a / (1 + a)) (vsub (cO ci) (cO c0)))). set (k := a * Rabs _). exists (mkInv O k), (cr c0 * cr ci / ((cr c0 + cr ci) * sqrt k)).
  split; [reflexivity|]. cbn [ipower]. pose proof (dist_nonneg (cO c0) (cO ci)) as Dn. pose proof (dist_sq (cO c0) (cO ci)) as Dq. set (d := dist (cO c0) (cO ci)) in *.
  assert (Pa : 0 < a) by (unfold a; apply Rdiv_lt_0_compat; auto).
  assert (EO : dot_ (vsub O (cO ci)) (vsub O (cO ci)) = (cr ci * d / (cr c0 + cr ci)) ^ 2).
  { transitivity (/ (1 + a) * / (1 + a) * dist2 (cO c0) (cO ci)).
    - unfold O. destruct (cO c0), (cO ci). unfold dot_, dist2, vsub, vadd, vscal, sdot. cbn [fst snd]. field. lra.
    - rewrite <- Dq. unfold a. field. lra. }
  assert (Q : cr ci * d / (cr c0 + cr ci) < cr ci).
  { apply (Rmult_lt_reg_r (cr c0 + cr ci)); [lra|]. unfold Rdiv. rewrite Rmult_assoc, Rinv_l by lra. nra. }
  assert (Q0 : 0 <= cr ci * d / (cr c0 + cr ci)) by (unfold Rdiv; apply Rmult_le_pos; [apply Rmult_le_pos; lra|]; apply Rlt_le, Rinv_0_lt_compat; lra).
  assert (Ek : k = cr c0 * cr ci * ((cr c0 + cr ci) * (cr c0 + cr ci) - d * d) / ((cr c0 + cr ci) * (cr c0 + cr ci))).
  { unfold k. rewrite EO. rewrite Rabs_minus_sym, Rabs_pos_eq by (assert ((cr ci * d / (cr c0 + cr ci)) ^ 2 <= cr ci * cr ci) by nra; lra). unfold a. field. lra. }
  assert (Pk : 0 < k).
  { rewrite Ek. apply Rdiv_lt_0_compat; [|apply Rmult_lt_0_compat; lra]. apply Rmult_lt_0_compat; [apply Rmult_lt_0_compat; lra|]. nra. }
  split; [auto|]. pose proof (sqrt_lt_R0 _ Pk) as Pq. split; [apply Rdiv_lt_0_compat; apply Rmult_lt_0_compat; lra|].
  unfold wv. cbn [ipole ipower]. pose proof (sqrt_def k ltac:(lra)) as Eq. set (q := sqrt k) in *.
  assert (EOx : O = vscal (/ (cr c0 + cr ci)) (vadd (vscal (cr ci) (cO c0)) (vscal (cr c0) (cO ci)))).
  { unfold O, a. destruct (cO c0), (cO ci). unfold vadd, vscal, vsub. cbn [fst snd]. f_equal; field; lra. }
  rewrite EOx. apply v4_eq.
  - unfold vc, v4scal, v4add, vb. cbn [fst snd cO cr]. field. repeat split; lra.
  - unfold vc, v4scal, v4add, vp. cbn [fst snd cO cr]. destruct (cO c0), (cO ci). unfold vadd, vscal. cbn [fst snd]. f_equal; field; repeat split; lra.
  - unfold vc, v4scal, v4add, vw. cbn [fst snd cO cr]. unfold Rdiv at 1. replace q with (q * q * / q) at 2 by (field; lra). rewrite Eq, Ek. unfold dist2 in Dq. rewrite Dq. destruct (cO c0), (cO ci). unfold vadd, vscal, vsub, sdot. cbn [fst snd]. field. repeat split; lra.
Qed.

Lemma swap_facts c0 ci iota lam : posc c0 -> posc ci -> inner ci c0 -> 0 < ipower iota -> 0 < lam -> wv iota = v4scal lam (v4add (vc c0) (vc ci)) ->
  1 <= kap (v4scal (-1) (vc c0)) (wv iota) /\ vc ci = refl (wv iota) (v4scal (-1) (vc c0)) /\
  forall x, kap x (vc c0) + kap x (vc ci) = 0 -> kap x (wv iota) = 0.
Proof.
  intros P0 Pi I Pk Pl E. pose proof (inner_kap ci c0 Pi P0 I) as K. pose proof (wv_unit iota Pk) as U. rewrite E in U. rewrite kap_scal_l, kap_scal_r, kap_add_l, !kap_add_r in U.
  rewrite (kap_self c0), (kap_self ci), (kap_sym (vc c0)) in U by auto. set (ka := kap (vc ci) (vc c0)) in *.
  assert (L2 : lam * lam * (2 * (1 - ka)) = 1) by lra.
  assert (EK : kap (v4scal (-1) (vc c0)) (wv iota) = lam * (1 - ka)).
  { rewrite E, kap_scal_l, kap_scal_r, kap_add_r, kap_self by auto. rewrite (kap_sym (vc c0)). fold ka. ring. }
  split; [|split].
  - rewrite EK. assert (0 < lam * (1 - ka)) by (apply Rmult_lt_0_compat; lra). destruct (Rle_lt_dec 1 (lam * (1 - ka))) as [|Q]; [auto|]. exfalso.
    assert (lam * (1 - ka) * (lam * (1 - ka)) < 1) by nra. replace (lam * (1 - ka) * (lam * (1 - ka))) with (lam * lam * (2 * (1 - ka)) * ((1 - ka) / 2)) in H0 by field. rewrite L2 in H0. lra.
  - unfold refl. rewrite EK, E. destruct (vc c0) as [[? [? ?]] ?], (vc ci) as [[? [? ?]] ?]. unfold v4add, v4scal, vadd, vscal, vb, vp, vw. cbn [fst snd].
    assert (L3 : forall u, 2 * (lam * (1 - ka)) * (lam * u) = u) by (intros u; transitivity (lam * lam * (2 * (1 - ka)) * u); [ring|rewrite L2; ring]).
    rewrite !L3. f_equal; [f_equal; [|f_equal]|]; ring.
  - intros x H. rewrite E, kap_scal_r, kap_add_r, H. ring.
Qed.
