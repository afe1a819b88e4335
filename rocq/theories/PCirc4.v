(** * Proofs about examples/triangularCircularGasket.py: the circles on which the program inverts. *)

From Coq Require Import Reals Lra Lia Psatz List Bool Permutation.
From Verif Require Import Base BaseLemmas Spec SpecLemmas SpecTriangle SpecGasket SpecApollonian ModelInternal ModelLine ModelCircle ModelTriangle ModelInversion ModelTangentCircles ModelApollonian ModelCircular PCircle PInvBase PInversion PInversion2 PTriangle PTriangle2 PTriangle3 PTriangle4 PTriangle5 PSteiner PSteiner2 PGasket1 PGasket5 PApo1 PApo2 PApo3 PApo4 PApo5 PCirc1 PCirc2 PCirc3.
Import ListNotations.
Local Open Scope R_scope.

Lemma circle_not_flat O r A B C : dist O A = r -> dist O B = r -> dist O C = r -> A <> B -> A <> C -> B <> C -> ~ collinear A B C.
Proof.
  intros HA HB HC NB NC N K. apply collinear_cross in K. apply dist2_pos in NB, NC, N. pose proof (dist_sq O A) as QA. pose proof (dist_sq O B) as QB. pose proof (dist_sq O C) as QC. rewrite HA in QA. rewrite HB in QB. rewrite HC in QC. clear HA HB HC.
  destruct O as [o1 o2], A as [a1 a2], B as [b1 b2], C as [c1 c2]. unfold dist2, scross, vsub, sdot in *. cbn [fst snd] in *.
  set (u1 := b1 - a1) in *. set (u2 := b2 - a2) in *. set (v1 := c1 - a1) in *. set (v2 := c2 - a2) in *.
  assert (U : u1 * u1 + u2 * u2 = - 2 * ((a1 - o1) * u1 + (a2 - o2) * u2)) by (unfold u1, u2; lra).
  assert (V : v1 * v1 + v2 * v2 = - 2 * ((a1 - o1) * v1 + (a2 - o2) * v2)) by (unfold v1, v2; lra).
  assert (Dif : (c1 - b1) * (c1 - b1) + (c2 - b2) * (c2 - b2) = (u1 * u1 + u2 * u2) - 2 * (u1 * v1 + u2 * v2) + (v1 * v1 + v2 * v2)) by (unfold u1, u2, v1, v2; ring).
  rewrite Dif in N. clear Dif QA QB QC. clearbody u1 u2 v1 v2. set (x := a1 - o1) in *. set (y := a2 - o2) in *. clearbody x y.
  set (q := u1 * u1 + u2 * u2) in *. set (s := v1 * v1 + v2 * v2) in *. set (p := u1 * v1 + u2 * v2) in *.
  assert (E1 : p * p = q * s) by (transitivity (q * s - (u1 * v2 - u2 * v1) * (u1 * v2 - u2 * v1)); [unfold p, q, s; ring|rewrite K; ring]).
  assert (W1 : q * v1 = p * u1) by (transitivity (p * u1 - u2 * (u1 * v2 - u2 * v1)); [unfold p, q; ring|rewrite K; ring]).
  assert (W2 : q * v2 = p * u2) by (transitivity (p * u2 + u1 * (u1 * v2 - u2 * v1)); [unfold p, q; ring|rewrite K; ring]).
  assert (E2 : q * s = p * q) by (rewrite V; transitivity (-2 * (x * (q * v1) + y * (q * v2))); [ring|rewrite W1, W2; rewrite U; ring]).
  assert (E3 : s = p) by (apply (Rmult_eq_reg_l q); lra). rewrite E3 in *. assert (p = q) by (apply (Rmult_eq_reg_l p); lra). lra.
Qed.

Lemma contact_dist2 c1 c2 : posc c1 -> posc c2 -> tang c1 c2 -> dist (cO c2) (contact (cO c2) (cr c2) (cO c1)) = cr c2.
Proof.
  unfold posc. intros P1 P2 T. pose proof (contact_ext c1 c2 (cO c2) P1 P2 T) as E. unfold pow_circle in E. rewrite <- !dist_sq in E. rewrite T, (proj2 (dist_0 _ _) eq_refl) in E.
  pose proof (dist_nonneg (cO c2) (contact (cO c2) (cr c2) (cO c1))) as D. set (d := dist (cO c2) _) in *. assert (d * d = cr c2 * cr c2) by (apply (Rmult_eq_reg_l (cr c1 + cr c2)); [rewrite E; ring|lra]). nra.
Qed.
Lemma contact_dist1 c1 c2 : posc c1 -> posc c2 -> tang c1 c2 -> dist (cO c1) (contact (cO c2) (cr c2) (cO c1)) = cr c1.
Proof.
  unfold posc. intros P1 P2 T. pose proof (contact_ext c1 c2 (cO c1) P1 P2 T) as E. unfold pow_circle in E. rewrite <- !dist_sq in E. unfold tang in T. rewrite (dist_sym (cO c2) (cO c1)), T, (proj2 (dist_0 _ _) eq_refl) in E.
  pose proof (dist_nonneg (cO c1) (contact (cO c2) (cr c2) (cO c1))) as D. set (d := dist (cO c1) (contact _ _ _)) in *. assert (d * d = cr c1 * cr c1) by (apply (Rmult_eq_reg_l (cr c1 + cr c2)); [rewrite E; ring|lra]). nra.
Qed.
Lemma no_third c1 c2 c3 : posc c1 -> posc c2 -> posc c3 -> tang c1 c2 -> disj c1 c3 -> disj c2 c3 -> dist (cO c3) (contact (cO c2) (cr c2) (cO c1)) <> cr c3.
Proof.
  unfold posc, disj. intros P1 P2 P3 T D1 D2 E3. pose proof (contact_ext c1 c2 (cO c3) P1 P2 T) as E. unfold pow_circle in E. rewrite <- !dist_sq in E. rewrite E3 in E.
  set (d1 := dist (cO c1) (cO c3)) in *. set (d2 := dist (cO c2) (cO c3)) in *.
  assert ((cr c1 + cr c3) * (cr c1 + cr c3) <= d1 * d1) by nra. assert ((cr c2 + cr c3) * (cr c2 + cr c3) <= d2 * d2) by nra.
  assert (0 < cr c1 * cr c2 * cr c3) by (repeat apply Rmult_lt_0_compat; auto). clear - P1 P2 P3 E H H0 H1. set (x := d1 * d1) in *. set (y := d2 * d2) in *. nra.
Qed.

Section Walls.
Variables (c0 : circle) (n : nat) (phi sh : R).
Hypothesis Hn : (3 <= n)%nat.
Hypothesis P0 : 0 < cr c0.
Hypothesis Hp : phi <> 0.
Hypothesis Hphi : Rabs phi < 1.
Local Notation ch := (chain_circle c0 n phi sh).
Local Notation ci := (chain_inner c0 n phi).
Local Notation J := (chain_J c0 n phi sh).
Local Notation K := (chain_K c0 n phi sh).

Lemma J_eq i : J i = contact (cO (ch (nx n (nx n i)))) (cr (ch (nx n (nx n i)))) (cO (ch (nx n i))).
Proof. unfold chain_J. rewrite nx1, nx2 by auto. reflexivity. Qed.

(** the circle of a wall is orthogonal to the outer circle and to two circles of the chain *)
Lemma wall_Fx i w : (i < n)%nat -> circumcircle_ext (Pt (J i)) (K ((i + 1) mod n)) (K ((i + 2) mod n)) = Ok (Some w) ->
  let k := cr w ^ 2 in k = pow_circle (cO c0) (cr c0) (cO w) /\ k = pow_circle (cO (ch (nx n i))) (cr (ch (nx n i))) (cO w) /\ k = pow_circle (cO (ch (nx n (nx n i)))) (cr (ch (nx n (nx n i)))) (cO w).
Proof.
  intros Hi E. destruct (chain_facts c0 n phi sh Hn P0 Hphi) as (Pi & Ii & Pc & T0 & Ti & Tn & Dj). rewrite nx1, nx2 in E by auto. pose proof (nx_lt n i Hi) as Hx. pose proof (nx_lt n _ Hx) as Hxx.
  unfold circumcircle_ext in E. destruct (K (nx n i)) as [K1|] eqn:E1; [|discriminate]. destruct (K (nx n (nx n i))) as [K2|] eqn:E2; [|discriminate]. apply circumcircle_spec in E. cbn [tA tB tC] in E. destruct E as (_ & _ & O1 & O2 & O3 & _).
  destruct (outer_contact c0 n phi sh _ K1 Hn P0 Hp Hphi E1) as (A1 & B1). destruct (outer_contact c0 n phi sh _ K2 Hn P0 Hp Hphi E2) as (A2 & B2). rewrite J_eq in O1.
  apply (wall_fixes c0 (ch (nx n i)) (ch (nx n (nx n i))) K1 K2 w); auto.
Qed.

(** the points of contact *)
Lemma J_distinct : J 0 <> J 1 /\ J 0 <> J 2 /\ J 1 <> J 2.
Proof.
  destruct (chain_facts c0 n phi sh Hn P0 Hphi) as (Pi & Ii & Pc & T0 & Ti & Tn & Dj). rewrite !J_eq.
  assert (H0 : (0 < n)%nat) by lia. pose proof (nx_lt n 0 H0) as H1. pose proof (nx_lt n _ H1) as H2. pose proof (nx_lt n _ H2) as H3. pose proof (nx_lt n _ H3) as H4.
  assert (E1 : nx n 0 = 1%nat) by (unfold nx; apply Nat.mod_small; lia). assert (E2 : nx n 1 = 2%nat) by (unfold nx; apply Nat.mod_small; lia). rewrite E1, E2 in *.
  set (a3 := nx n 2) in *. set (a4 := nx n a3) in *.
  assert (N3 : a3 <> 1%nat /\ a3 <> 2%nat) by (unfold a3; destruct (Nat.eq_dec n 3) as [->|]; [cbn; lia|unfold nx; rewrite Nat.mod_small; lia]).
  assert (N4 : a4 <> 2%nat /\ a4 <> a3). { unfold a4. destruct (nx_ne2 n a3 Hn H3) as (_ & Q). split; [|auto]. intros Q2. rewrite <- E2 in Q2. apply nx_inj in Q2; lia. }
  pose proof (Tn 1%nat H1) as T1. rewrite E2 in T1. pose proof (Tn 2%nat H2) as T2. fold a3 in T2. pose proof (Tn a3 H3) as T3. fold a4 in T3.
  pose proof (no_third (ch 1) (ch 2) (ch a3) (Pc _ H1) (Pc _ H2) (Pc _ H3) T1 (Dj _ _ H1 H3 ltac:(lia)) (Dj _ _ H2 H3 ltac:(lia))) as Q1.
  pose proof (no_third (ch 2) (ch a3) (ch a4) (Pc _ H2) (Pc _ H3) (Pc _ H4) T2 (Dj _ _ H2 H4 ltac:(lia)) (Dj _ _ H3 H4 ltac:(lia))) as Q2.
  split; [|split]; intros Q.
  - apply Q1. rewrite Q. apply contact_dist2; auto.
  - apply Q1. rewrite Q. apply contact_dist1; auto.
  - apply Q2. rewrite Q. apply contact_dist2; auto.
Qed.

(** the last wall is the circle of the inversion which swaps the outer circle and the inner one *)
Lemma last_wall : exists w lam, circumcircle (mkTri (J 0) (J 1) (J 2)) = Ok (Some w) /\
  snd (from_swapping_two_circles c0 ci true) = Some (inversion_on_circle w) /\ 0 < ipower (inversion_on_circle w) /\ 0 < lam /\ wv (inversion_on_circle w) = v4scal lam (v4add (vc c0) (vc ci)).
Proof.
  destruct (chain_facts c0 n phi sh Hn P0 Hphi) as (Pi & Ii & Pc & T0 & Ti & Tn & Dj). pose proof (chain_ci_lt c0 n phi sh Hn P0 Hphi) as Lt.
  destruct (swap_inside c0 ci P0 Pi Ii Lt) as (iota & lam & E & Pk & Pl & W). destruct (swap_facts c0 ci iota lam P0 Pi Ii Pk Pl W) as (_ & _ & S3).
  assert (KZ : forall j, (j < n)%nat -> kap (vc (ch j)) (wv iota) = 0).
  { intros j Hj. apply S3. rewrite (inner_tang_kap (ch j) c0) by auto. rewrite (proj2 (kap_tang (ch j) ci (Pc j Hj) Pi) (Ti j Hj)). ring. }
  assert (DJ : forall i, (i < n)%nat -> dist (ipole iota) (J i) = sqrt (ipower iota)).
  { intros i Hi. rewrite J_eq. pose proof (nx_lt n i Hi) as H1. pose proof (nx_lt n _ H1) as H2. apply contact_on; auto. }
  destruct J_distinct as (N1 & N2 & N3).
  pose proof (circle_not_flat (ipole iota) _ (J 0) (J 1) (J 2) (DJ 0%nat ltac:(lia)) (DJ 1%nat ltac:(lia)) (DJ 2%nat ltac:(lia)) N1 N2 N3) as NC.
  destruct (circumcircle (mkTri (J 0) (J 1) (J 2))) as [[w|]|e] eqn:Ec.
  - destruct (circumcircle_spec _ _ Ec) as (_ & _ & _ & _ & _ & U). cbn [tA tB tC] in U. destruct (U (ipole iota) (sqrt (ipower iota))) as (U1 & U2); [apply sqrt_pos|apply DJ; lia|apply DJ; lia|apply DJ; lia|].
    assert (Ew : inversion_on_circle w = iota). { unfold inversion_on_circle. rewrite <- U1, <- U2. rewrite <- Rsqr_pow2, Rsqr_sqrt by lra. destruct iota; reflexivity. }
    exists w, lam. rewrite Ew. auto.
  - exfalso. apply circumcircle_none in Ec. tauto.
  - exfalso. apply circumcircle_raise in Ec. cbn [tA tB tC] in Ec. tauto.
Qed.
End Walls.
