(** * Proofs about the triangular gasket: the discs of the seven first holes do not overlap. *)

From Coq Require Import Reals Lra Lia Psatz List Bool ZArith.
From Verif Require Import Base BaseLemmas Spec SpecLemmas SpecTriangle ModelInternal ModelLine ModelCircle ModelTriangle ModelGasket PLine PTriangle PTriangle2 PTriangle3 PTriangle4 PTriangle5 PSteiner PGasket1 PGasket2 PGasket3 PGasket4 PGasket5 PGasket6.
Import ListNotations.
Local Open Scope R_scope.

Lemma separated_cross e d N P c c' : e * e = 1 -> 0 < N -> N * N = sdot d d -> N * cr c <= e * scross d (vsub (cO c) P) ->
  e * scross d (vsub (cO c') P) <= - (N * cr c') -> disj c c'.
Proof.
  intros He PN EN H1 H2. set (n := vscal e (- snd d, fst d)). assert (E : forall v, sdot n v = e * scross d v) by (intros; unfold n; unspec; ring).
  apply (separated n N P); auto; rewrite ?E; auto. transitivity (e * e * sdot d d); [rewrite He, EN; ring|unfold n; unspec; ring].
Qed.

Lemma incenter_height A B C x y z S e : Ravi A B C x y z S -> e * dbl A B C = 2 * S ->
  e * scross (vsub B A) (vsub (incenter A B C x y z) A) = S / (x + y + z) * (x + y).
Proof.
  intros (Hx & Hy & Hz & HS & S2 & Ea & Eb & Ec & ES) He. set (s := x + y + z).
  transitivity (e * ((x + y) / (2 * s) * dbl A B C)).
  - f_equal. unfold incenter. cbv zeta. replace ((y + z) / (2 * (x + y + z))) with (1 - (x + z) / (2 * s) - (x + y) / (2 * s)) by (unfold s; field; lra).
    fold s. unfold bary, dbl. destruct A, B, C. unspec. ring.
  - replace (e * ((x + y) / (2 * s) * dbl A B C)) with ((x + y) / (2 * s) * (e * dbl A B C)) by ring. rewrite He. unfold s. field. lra.
Qed.

Lemma Ravi_e A B C x y z S e : Ravi A B C x y z S -> e * e = 1 -> 0 < e * dbl A B C -> e * dbl A B C = 2 * S.
Proof.
  intros (_ & _ & _ & HS & _ & _ & _ & _ & ES) He P. rewrite <- ES. assert (K : e = 1 \/ e = -1) by nra.
  destruct K as [-> | ->]; [rewrite Rabs_right|rewrite Rabs_left]; lra.
Qed.

Lemma incircle_within A B C x y z S e : Ravi A B C x y z S -> e * e = 1 -> 0 < e * dbl A B C ->
  within (halfplanes e A B C) (mkCircle (incenter A B C x y z) (S / (x + y + z))).
Proof.
  intros H He P. pose proof (Ravi_e _ _ _ _ _ _ _ _ H He P) as E. pose proof (Ravi_perm _ _ _ _ _ _ _ H) as H2. pose proof (Ravi_perm _ _ _ _ _ _ _ H2) as H3.
  pose proof (incenter_height _ _ _ _ _ _ _ e H E) as E1. pose proof (incenter_height _ _ _ _ _ _ _ e H2 ltac:(rewrite dbl_perm; auto)) as E2.
  pose proof (incenter_height _ _ _ _ _ _ _ e H3 ltac:(rewrite dbl_perm, dbl_perm; auto)) as E3. rewrite incenter_perm in E3. rewrite incenter_perm in E2, E3.
  assert (N : dbl A B C <> 0) by (intros Z; rewrite Z in P; lra). destruct (dbl_distinct _ _ _ N) as (N1 & N2 & N3).
  destruct H as (Hx & Hy & Hz & HS & S2 & Ea & Eb & Ec & ES). replace (y + z + x) with (x + y + z) in E2 by ring. replace (z + x + y) with (x + y + z) in E3 by ring.
  rewrite dist_sym in Eb. unfold within, halfplanes. rewrite Forall_3. cbn [fst snd]. unfold hp. cbn [cO cr]. rewrite !lnormal_cross by auto. rewrite E1, E2, E3, Ea, Eb, Ec.
  repeat split; apply Req_le; field; lra.
Qed.

Lemma incircle_in A B C x y z S n P : Ravi A B C x y z S -> sdot n n = 1 -> sdot n (vsub A P) <= 0 -> sdot n (vsub B P) <= 0 -> sdot n (vsub C P) <= 0 ->
  sdot n (vsub (incenter A B C x y z) P) <= - (S / (x + y + z)).
Proof.
  intros H U HA HB HC. assert (He : exists e, e * e = 1 /\ 0 < e * dbl A B C).
  { pose proof H as (_ & _ & _ & HS & _ & _ & _ & _ & ES). destruct (Rle_lt_dec 0 (dbl A B C)) as [L|L]; [exists 1; rewrite Rabs_right in ES by lra|exists (-1); rewrite Rabs_left in ES by lra]; lra. }
  destruct He as (e & He & P0). pose proof (incircle_within _ _ _ _ _ _ _ e H He P0) as W. set (I0 := incenter _ _ _ _ _ _) in *. set (r := S / _) in *.
  assert (Pr : 0 < r) by (destruct H as (Hx & Hy & Hz & HS & _); unfold r; apply Rdiv_lt_0_compat; lra).
  set (M := vadd I0 (vscal r n)). destruct (within_triangle e A B C _ He P0 W M) as (al & be & ga & Pa & Pb & Pc & Es & EM).
  { unfold in_disk. cbn [cO cr]. unfold dist. replace (dist2 I0 M) with (r * r * sdot n n) by (unfold M; unspec; ring). rewrite U, Rmult_1_r, sqrt_square by lra. lra. }
  assert (K : sdot n (vsub I0 P) + r * sdot n n = al * sdot n (vsub A P) + be * sdot n (vsub B P) + ga * sdot n (vsub C P)).
  { transitivity (sdot n (vsub M P)); [unfold M; unspec; ring|]. rewrite EM. replace al with (1 - be - ga) by lra. unfold bary. unspec. ring. }
  rewrite U in K. pose proof (Rmult_le_pos al (- sdot n (vsub A P))). pose proof (Rmult_le_pos be (- sdot n (vsub B P))). pose proof (Rmult_le_pos ga (- sdot n (vsub C P))). lra.
Qed.

Section Conf.
Variables (A B C P : pt) (x y z r e k1 k2 k3 : R).
Hypothesis MC : mconf A B C P x y z r e k1 k2 k3.
Let a := vsub A P.
Let b := vsub B P.
Let c := vsub C P.
Let O1 := mc A P r k1.
Let O2 := mc B P r k2.
Let O3 := mc C P r k3.
Let R12 := (x + y - k1 * x - k2 * y) / 2.
Let DAB := dside A B x y k1 k2.

Ltac mcd := destruct MC as ((Hx & Hy & Hz & Hr & He) & (K1 & K2 & K3) & (Qa & Qb & Qc) & (Qab & Qbc & Qca) & (Xab & Xbc & Xca) & E & T1 & T2 & T3).

(** the disc of a side is on one side of the bisector of B *)
Lemma side_bisector N : 0 < N -> N * N = r * r + y * y -> e * scross b (vsub (cO DAB) P) <= - (N * cr DAB).
Proof.
  intros PN EN. pose proof (mc_R12 _ _ _ _ _ _ _ _ _ _ _ _ MC) as (PR & ER). fold R12 in PR, ER. mcd.
  unfold DAB, dside. cbn [cO cr]. fold R12. set (t := (x + y + k1 * x - k2 * y) / (2 * (x + y))).
  replace (e * scross b (vsub (at_line A B t) P)) with (- (1 - t) * (e * scross a b)) by (unfold a, b; unspec; ring). unfold a, b. rewrite Xab.
  replace (- (1 - t) * (r * (x + y))) with (- (r * (R12 + k2 * y))) by (unfold t, R12; field; lra).
  set (q1 := sqrt k1). set (q2 := sqrt k2). assert (E1 : q1 * q1 = k1) by (apply sqrt_def; lra). assert (E2 : q2 * q2 = k2) by (apply sqrt_def; lra).
  assert (P1 : 0 < q1) by (apply sqrt_lt_R0; lra). assert (P2 : 0 < q2) by (apply sqrt_lt_R0; lra).
  assert (ER' : R12 = q1 * q2 * r). { apply Rsqr_inj; [lra|pose proof (Rmult_lt_0_compat q1 q2); pose proof (Rmult_lt_0_compat (q1 * q2) r); lra|]. unfold Rsqr. rewrite ER, <- E1, <- E2. ring. }
  assert (L : k1 * y < k2 * y + 2 * R12).
  { assert (0 < (1 - k1) * (x + y)) by (apply Rmult_lt_0_compat; lra). unfold R12. lra. }
  assert (L2 : q1 * y < q2 * (r + N)).
  { destruct (Rlt_le_dec (q1 * y) (q2 * (r + N))) as [|G]; auto. exfalso.
    assert (G1 : 0 < q2 * N) by (apply Rmult_lt_0_compat; lra). assert (G2 : q2 * N * (q2 * N) <= (q1 * y - q2 * r) * (q1 * y - q2 * r)) by (apply Rmult_le_compat; lra).
    assert (G3 : k1 * y * y < (k2 * y + 2 * R12) * y) by (apply Rmult_lt_compat_r; lra). rewrite ER', <- E1, <- E2 in G3.
    assert (G4 : q2 * N * (q2 * N) = q2 * q2 * (r * r + y * y)) by (rewrite <- EN; ring). lra. }
  assert (L3 : q1 * (N - r) < q2 * y).
  { apply (Rmult_lt_reg_r (r + N)); [lra|]. replace (q1 * (N - r) * (r + N)) with (q1 * (N * N - r * r)) by ring. rewrite EN.
    replace (q1 * (r * r + y * y - r * r)) with (q1 * y * y) by ring. replace (q2 * y * (r + N)) with (q2 * (r + N) * y) by ring. apply Rmult_lt_compat_r; auto. }
  assert (L4 : q1 * (N - r) * (q2 * r) < q2 * y * (q2 * r)) by (apply Rmult_lt_compat_r; auto; apply Rmult_lt_0_compat; auto).
  rewrite ER', <- E2. lra.
Qed.

Lemma corner_corner : disj (dcorner A k1 x) (dcorner B k2 y).
Proof.
  pose proof (mc_AB _ _ _ _ _ _ _ _ _ _ _ _ MC) as L. mcd. unfold disj, dcorner. cbn [cO cr]. rewrite L.
  pose proof (Rmult_lt_0_compat (1 - k1) x). pose proof (Rmult_lt_0_compat (1 - k2) y). lra.
Qed.
Lemma corner_side : disj (dcorner A k1 x) DAB.
Proof.
  pose proof (mc_AB _ _ _ _ _ _ _ _ _ _ _ _ MC) as L. pose proof (mc_R12 _ _ _ _ _ _ _ _ _ _ _ _ MC) as (PR & _). fold R12 in PR. mcd. unfold disj, dcorner, DAB, dside. cbn [cO cr]. fold R12.
  apply Req_le. symmetry. assert (0 < k1 * x) by (apply Rmult_lt_0_compat; lra). apply sqrt_eq; [lra|].
  set (t := (x + y + k1 * x - k2 * y) / (2 * (x + y))). transitivity (t * t * dist2 A B); [|unspec; ring]. rewrite <- dist_sq, L. unfold t, R12. field. lra.
Qed.
Lemma corner_malfatti : disj (dcorner A k1 x) O2.
Proof.
  pose proof (mc_R12 _ _ _ _ _ _ _ _ _ _ _ _ MC) as (PR & ER). fold R12 in PR, ER. pose proof (mc_cO A B C P r k1 k2 k3) as (_ & E2 & _). fold O2 b in E2. mcd.
  assert (Px : 0 < k1 * x) by (apply Rmult_lt_0_compat; lra). assert (Pr : 0 < k2 * r) by (apply Rmult_lt_0_compat; lra).
  unfold disj, dcorner. cbn [cO cr]. change (cr O2) with (k2 * r). apply Rsqr_incr_0_var; [|apply sqrt_pos]. unfold Rsqr. rewrite dist_sq.
  assert (ED : dist2 A (cO O2) = (k1 * x + 2 * R12) * (k1 * x + 2 * R12) + k2 * r * (k2 * r)).
  { transitivity (sdot a a + sdot (vsub (cO O2) P) (vsub (cO O2) P) - 2 * sdot a (vsub (cO O2) P)); [unfold a; unspec; ring|]. rewrite E2.
    transitivity (sdot a a + (1 - k2) * (1 - k2) * sdot b b - 2 * (1 - k2) * sdot a b); [unspec; ring|]. unfold a, b. rewrite Qa, Qb, Qab. unfold R12. ring_simplify. field. }
  rewrite ED. set (q1 := sqrt k1). set (q2 := sqrt k2). assert (E1 : q1 * q1 = k1) by (apply sqrt_def; lra). assert (E2' : q2 * q2 = k2) by (apply sqrt_def; lra).
  assert (P1 : 0 < q1) by (apply sqrt_lt_R0; lra). assert (P2 : 0 < q2) by (apply sqrt_lt_R0; lra).
  assert (ER' : R12 = q1 * q2 * r). { apply Rsqr_inj; [lra|pose proof (Rmult_lt_0_compat q1 q2); pose proof (Rmult_lt_0_compat (q1 * q2) r); lra|]. unfold Rsqr. rewrite ER, <- E1, <- E2'. ring. }
  assert (L : k2 * x <= k1 * x + 2 * R12).
  { assert (0 < (1 - k2) * (x + y)) by (apply Rmult_lt_0_compat; lra). unfold R12. lra. }
  assert (L2 : q2 * x <= 2 * q1 * x + 2 * q2 * r).
  { assert (0 < q2 * r) by (apply Rmult_lt_0_compat; lra). assert (0 < q1 * x) by (apply Rmult_lt_0_compat; lra).
    destruct (Rle_lt_dec q2 q1) as [G|G]; [pose proof (Rmult_le_compat_r x _ _ (Rlt_le _ _ Hx) G); lra|].
    apply (Rmult_le_reg_r q2); auto. rewrite ER', <- E1, <- E2' in L.
    assert (q1 * (q1 * x) <= q2 * (q1 * x)) by (apply Rmult_le_compat_r; lra). assert (q1 * (q2 * r) <= q2 * (q2 * r)) by (apply Rmult_le_compat_r; lra). assert (0 < q2 * (q1 * x)) by (apply Rmult_lt_0_compat; lra). lra. }
  assert (L3 : q1 * q1 * q2 * r * (q2 * x) <= q1 * q1 * q2 * r * (2 * q1 * x + 2 * q2 * r)) by (apply Rmult_le_compat_l; auto; repeat apply Rmult_le_pos; lra).
  assert (L4 : 4 * R12 * (k1 * x) + 4 * (R12 * R12) - 2 * (k1 * x) * (k2 * r) = 2 * (q1 * q1 * q2 * r * (2 * q1 * x + 2 * q2 * r)) - 2 * (q1 * q1 * q2 * r * (q2 * x))) by (rewrite ER', <- E1, <- E2'; ring).
  lra.
Qed.

(** the disc of a side and the third circle *)
Lemma side_malfatti : disj DAB O3.
Proof.
  pose proof (mc_R12 _ _ _ _ _ _ _ _ _ _ _ _ MC) as (PR & ER). fold R12 in PR, ER. pose proof (region_side _ _ _ _ _ _ _ _ _ _ _ _ MC) as RS. cbn [region] in RS.
  fold O1 O2 DAB in RS. destruct RS as (NAB & Q1 & Q2 & QD & TG & _ & OD1 & OD2 & _).
  pose proof (mc_third _ _ _ _ _ _ _ _ _ _ _ _ MC) as H3. fold O3 in H3. pose proof (mc_AB _ _ _ _ _ _ _ _ _ _ _ _ MC) as L.
  pose proof (mc_touch _ _ _ _ _ _ _ _ _ _ _ _ MC) as (TO1 & TO2). fold O1 in TO1. fold O2 in TO2.
  pose proof (mc_tang _ _ _ _ _ _ _ _ _ _ _ _ (mconf_perm _ _ _ _ _ _ _ _ _ _ _ _ MC)) as TG23. fold O2 O3 in TG23.
  pose proof (mc_tang _ _ _ _ _ _ _ _ _ _ _ _ (mconf_perm _ _ _ _ _ _ _ _ _ _ _ _ (mconf_perm _ _ _ _ _ _ _ _ _ _ _ _ MC))) as TG31. fold O3 O1 in TG31.
  mcd. unfold tang in TG23, TG31. apply (f_equal (fun v => v * v)) in TG23. apply (f_equal (fun v => v * v)) in TG31. rewrite dist_sq in TG23, TG31. rewrite dist2_sym in TG31.
  unfold touch in TO1, TO2. rewrite L in TO1, TO2. unfold disj. change (cr DAB) with R12. change (cr O3) with (k3 * r).
  change (cr O1) with (k1 * r) in *. change (cr O2) with (k2 * r) in *. change (cr O3) with (k3 * r) in *.
  set (t := (x + y + k1 * x - k2 * y) / (2 * (x + y))) in *. set (h := (1 - k3) * (2 * r * (x + y + z)) / (x + y) + k3 * r).
  assert (H3' : e * scross (vsub B A) (vsub (cO O3) A) = h * (x + y)) by (rewrite H3; unfold h; field; lra).
  set (u := vscal (/ (x + y)) (vsub B A)). set (n := vscal e (- snd u, fst u)).
  assert (Uu : sdot u u = 1). { transitivity (/ (x + y) * / (x + y) * dist2 A B); [unfold u; unspec; ring|]. rewrite <- dist_sq, L. field. lra. }
  assert (Nh : forall M, sdot n (vsub M A) = e * scross (vsub B A) (vsub M A) / (x + y)) by (intros; unfold n, u; unspec; field; lra).
  assert (Dec : forall v w, sdot v w = sdot u v * sdot u w + sdot n v * sdot n w).
  { intros v w. assert (U2 : sdot n n = 1) by (transitivity (e * e * sdot u u); [unfold n; unspec; ring|rewrite He, Uu; ring]).
    transitivity (sdot u u * sdot v w); [rewrite Uu; ring|]. transitivity (sdot u v * sdot u w + e * e * (scross u v * scross u w)); [rewrite He; unspec; ring|]. unfold n. unspec. ring. }
  assert (FD : sdot u (vsub (cO DAB) A) = k1 * x + R12 /\ sdot n (vsub (cO DAB) A) = 0).
  { split; [|rewrite Nh; unfold DAB, dside; cbn [cO]; fold t; unspec; field; lra].
    transitivity (t * (/ (x + y)) * dist2 A B); [unfold DAB, dside; cbn [cO]; fold t; unfold u; unspec; ring|]. rewrite <- dist_sq, L. unfold t, R12. field. lra. }
  destruct FD as (FD1 & FD2). pose proof (Nh (cO O1)) as N1. rewrite TO1 in N1. pose proof (Nh (cO O2)) as N2. rewrite TO2 in N2. pose proof (Nh (cO O3)) as N3. rewrite H3' in N3.
  replace (k1 * r * (x + y) / (x + y)) with (k1 * r) in N1 by (field; lra). replace (k2 * r * (x + y) / (x + y)) with (k2 * r) in N2 by (field; lra). replace (h * (x + y) / (x + y)) with h in N3 by (field; lra).
  assert (D2 : forall M N, dist2 M N = (sdot u (vsub N A) - sdot u (vsub M A)) * (sdot u (vsub N A) - sdot u (vsub M A)) + (sdot n (vsub N A) - sdot n (vsub M A)) * (sdot n (vsub N A) - sdot n (vsub M A))).
  { intros M N. unfold dist2. rewrite Dec. f_equal; f_equal; unspec; ring. }
  assert (F1 : sdot u (vsub (cO O1) A) = k1 * x).
  { pose proof (mc_cO A B C P r k1 k2 k3) as (E1 & _ & _). fold O1 a in E1. transitivity (/ (x + y) * (sdot b (vsub (cO O1) P) - sdot a (vsub (cO O1) P) - sdot b a + sdot a a)); [unfold u, a, b; unspec; ring|]. rewrite E1.
    transitivity (/ (x + y) * ((1 - k1) * sdot a b - (1 - k1) * sdot a a - sdot a b + sdot a a)); [unspec; ring|]. unfold a, b. rewrite Qa, Qab. field. lra. }
  assert (F2 : sdot u (vsub (cO O2) A) = k1 * x + 2 * R12).
  { pose proof (mc_cO A B C P r k1 k2 k3) as (_ & E1 & _). fold O2 b in E1. transitivity (/ (x + y) * (sdot b (vsub (cO O2) P) - sdot a (vsub (cO O2) P) - sdot b a + sdot a a)); [unfold u, a, b; unspec; ring|]. rewrite E1.
    transitivity (/ (x + y) * ((1 - k2) * sdot b b - (1 - k2) * sdot a b - sdot a b + sdot a a)); [unspec; ring|]. unfold a, b. rewrite Qa, Qb, Qab. unfold R12. field. lra. }
  rewrite D2, F1, N1, N3 in TG31. rewrite D2, F2, N2, N3 in TG23. set (X := sdot u (vsub (cO O3) A)) in *.
  assert (Hh : r <= h).
  { assert (2 * r <= 2 * r * (x + y + z) / (x + y)). { apply (Rmult_le_reg_r (x + y)); [lra|]. replace (2 * r * (x + y + z) / (x + y) * (x + y)) with (2 * r * (x + y + z)) by (field; lra). apply Rmult_le_compat_l; lra. }
    unfold h. replace ((1 - k3) * (2 * r * (x + y + z)) / (x + y)) with ((1 - k3) * (2 * r * (x + y + z) / (x + y))) by (field; lra).
    assert ((1 - k3) * (2 * r) <= (1 - k3) * (2 * r * (x + y + z) / (x + y))) by (apply Rmult_le_compat_l; lra). assert (0 < (1 - k3) * r) by (apply Rmult_lt_0_compat; lra). lra. }
  assert (Rr : R12 < r).
  { destruct (Rlt_le_dec R12 r) as [|G]; auto. exfalso. assert (r * r <= R12 * R12) by (apply Rmult_le_compat; lra). assert (k1 * k2 < 1) by (pose proof (Rmult_lt_compat_l k1 k2 1); lra). pose proof (Rmult_lt_0_compat r r Hr Hr). assert (k1 * k2 * (r * r) < 1 * (r * r)) by (apply Rmult_lt_compat_r; auto). lra. }
  assert (Sm : 2 * R12 <= k1 * r + k2 * r).
  { destruct (Rle_lt_dec (2 * R12) (k1 * r + k2 * r)) as [|G]; auto. exfalso. assert (0 < k1 * r) by (apply Rmult_lt_0_compat; lra). assert (0 < k2 * r) by (apply Rmult_lt_0_compat; lra).
    assert ((k1 * r + k2 * r) * (k1 * r + k2 * r) < 2 * R12 * (2 * R12)) by (apply Rmult_le_0_lt_compat; lra). pose proof (sqnn (k1 * r - k2 * r)). lra. }
  assert (P3 : 0 < k3 * r) by (apply Rmult_lt_0_compat; lra).
  apply Rsqr_incr_0_var; [|apply sqrt_pos]. unfold Rsqr. rewrite dist_sq, D2, FD1, FD2, N3. fold X.
  assert (M1 : 2 * R12 * (h + k3 * r) <= (k1 * r + k2 * r) * (h + k3 * r)) by (apply Rmult_le_compat_r; lra). assert (M2 : R12 * R12 <= R12 * h) by (apply Rmult_le_compat_l; lra). lra.
Qed.

End Conf.

Lemma side_bisector2 A B C P x y z r e k1 k2 k3 N : mconf A B C P x y z r e k1 k2 k3 -> 0 < N -> N * N = r * r + x * x ->
  N * cr (dside A B x y k1 k2) <= e * scross (vsub A P) (vsub (cO (dside A B x y k1 k2)) P).
Proof.
  intros M PN EN. assert (Nz : x + y <> 0) by (destruct M as ((Hx & Hy & _) & _); lra).
  pose proof (side_bisector _ _ _ _ _ _ _ _ _ _ _ _ (mconf_swap _ _ _ _ _ _ _ _ _ _ _ _ M) N PN EN) as K. rewrite (dside_swap A B) in K by auto. lra.
Qed.

Lemma bisector_len r x : 0 < r -> exists N, 0 < N /\ N * N = r * r + x * x.
Proof.
  intros Hr. assert (0 < r * r + x * x) by (pose proof (Rmult_lt_0_compat r r Hr Hr); pose proof (sqnn x); lra).
  exists (sqrt (r * r + x * x)). split; [apply sqrt_lt_R0; auto|apply sqrt_def; lra].
Qed.

Lemma side_side A B C P x y z r e k1 k2 k3 : mconf A B C P x y z r e k1 k2 k3 -> disj (dside A B x y k1 k2) (dside B C y z k2 k3).
Proof.
  intros M. pose proof M as ((Hx & Hy & Hz & Hr & He) & _ & (Qa & Qb & Qc) & _). destruct (bisector_len r y Hr) as (N & PN & EN).
  apply disj_sym. apply (separated_cross e (vsub B P) N P); auto; [rewrite EN; auto| |].
  - apply (side_bisector2 B C A P y z x r e k2 k3 k1 N); auto. apply mconf_perm. auto.
  - apply (side_bisector A B C P x y z r e k1 k2 k3 M N); auto.
Qed.

Lemma corner_opposite A B C P x y z r e k1 k2 k3 : mconf A B C P x y z r e k1 k2 k3 -> disj (dcorner C k3 z) (dside A B x y k1 k2).
Proof.
  intros M. pose proof M as ((Hx & Hy & Hz & Hr & He) & (K1 & K2 & K3) & (Qa & Qb & Qc) & (Qab & Qbc & Qca) & (Xab & Xbc & Xca) & E & T1 & T2 & T3).
  pose proof (mc_R12 _ _ _ _ _ _ _ _ _ _ _ _ M) as (PR & _). 
  destruct (bisector_len r x Hr) as (Na & Pa & Ea). destruct (bisector_len r y Hr) as (Nb & Pb & Eb). destruct (bisector_len r z Hr) as (Nc & Pc & Ec).
  pose proof (side_bisector _ _ _ _ _ _ _ _ _ _ _ _ M Nb Pb Eb) as SB. pose proof (side_bisector2 _ _ _ _ _ _ _ _ _ _ _ _ Na M Pa Ea) as SA.
  set (D := dside A B x y k1 k2) in *. change (cr D) with ((x + y - k1 * x - k2 * y) / 2) in SA, SB. set (R := (x + y - k1 * x - k2 * y) / 2) in *.
  set (v := vsub (cO D) P) in *. set (a := vsub A P) in *. set (b := vsub B P) in *. set (c := vsub C P) in *.
  apply (separated c Nc P); auto; [rewrite Ec, Qc; auto| |].
  - unfold dcorner. cbn [cO cr]. fold c. rewrite Qc, <- Ec. apply Rmult_le_compat_l; [lra|]. assert (z < Nc) by (apply Rsqr_incrst_0; [unfold Rsqr; rewrite Ec; pose proof (Rmult_lt_0_compat r r Hr Hr); lra|lra|lra]).
    assert (k3 * z < 1 * z) by (apply Rmult_lt_compat_r; lra). lra.
  - change (cr D) with R. fold v. assert (EC1 : forall w, e * scross a w <= Na * sqrt (sdot w w)).
    { intros w. pose proof (cauchy (vscal e (- snd a, fst a)) w Na Pa) as K. replace (sdot (vscal e (- snd a, fst a)) w) with (e * scross a w) in K by (unspec; ring). apply K. rewrite Ea, <- Qa. transitivity (e * e * sdot a a); [rewrite He; ring|unspec; ring]. }
    assert (EC2 : forall w, e * scross b w <= Nb * sqrt (sdot w w)).
    { intros w. pose proof (cauchy (vscal e (- snd b, fst b)) w Nb Pb) as K. replace (sdot (vscal e (- snd b, fst b)) w) with (e * scross b w) in K by (unspec; ring). apply K. rewrite Eb, <- Qb. transitivity (e * e * sdot b b); [rewrite He; ring|unspec; ring]. }
    pose proof (EC1 (vscal (-1) c)) as C1. pose proof (EC2 c) as C2. replace (sdot (vscal (-1) c) (vscal (-1) c)) with (sdot c c) in C1 by (unspec; ring). 
    replace (sqrt (sdot c c)) with Nc in C1, C2 by (symmetry; apply sqrt_eq; [lra|rewrite Qc, <- Ec; ring]).
    replace (e * scross a (vscal (-1) c)) with (e * scross c a) in C1 by (unspec; ring). rewrite Xca in C1. rewrite Xbc in C2.
    assert (EQ : r * (x + y) * sdot c v = (- (e * scross b v)) * (sdot c a) + e * scross a v * sdot b c) by (rewrite <- Xab; unspec; ring).
    assert (Gca : r * r - z * x <= 0). { apply Rmult_le_reg_r with (x + y + z); [lra|]. replace ((r * r - z * x) * (x + y + z)) with (r * r * (x + y + z) - z * x * (x + y + z)) by ring. rewrite <- E. pose proof (Rmult_lt_0_compat (z * x) (x + z) ltac:(apply Rmult_lt_0_compat; lra) ltac:(lra)). lra. }
    assert (Gbc : r * r - y * z <= 0). { apply Rmult_le_reg_r with (x + y + z); [lra|]. replace ((r * r - y * z) * (x + y + z)) with (r * r * (x + y + z) - y * z * (x + y + z)) by ring. rewrite <- E. pose proof (Rmult_lt_0_compat (y * z) (y + z) ltac:(apply Rmult_lt_0_compat; lra) ltac:(lra)). lra. }
    rewrite Qca, Qbc in EQ.
    assert (B1 : - (e * scross b v) * (r * r - z * x) <= Nb * R * (r * r - z * x)) by (pose proof (Rmult_le_pos (- (e * scross b v) - Nb * R) (z * x - r * r) ltac:(lra) ltac:(lra)); lra).
    assert (B2 : e * scross a v * (r * r - y * z) <= Na * R * (r * r - y * z)) by (pose proof (Rmult_le_pos (e * scross a v - Na * R) (y * z - r * r) ltac:(lra) ltac:(lra)); lra).
    assert (B3 : Nc * (Nb * (z * x - r * r) + Na * (y * z - r * r)) >= Nc * Nc * r * (x + y)).
    { apply Rle_ge. assert (B31 : r * (y + z) * (z * x - r * r) <= Nb * Nc * (z * x - r * r)) by (apply Rmult_le_compat_r; lra). assert (B32 : r * (z + x) * (y * z - r * r) <= Na * Nc * (y * z - r * r)) by (apply Rmult_le_compat_r; lra).
      assert (B33 : r * (y + z) * (z * x - r * r) + r * (z + x) * (y * z - r * r) = Nc * Nc * r * (x + y)); [|lra]. rewrite Ec.
      transitivity (r * (2 * (x * y * z) + z * z * (x + y) - r * r * (x + y + z) - r * r * z)); [ring|]. rewrite E. ring. }
    apply (Rmult_le_reg_l (Nc * (r * (x + y)))); [apply Rmult_lt_0_compat; auto; apply Rmult_lt_0_compat; lra|].
    assert (B4 : R * (Nc * Nc * r * (x + y)) <= R * (Nc * (Nb * (z * x - r * r) + Na * (y * z - r * r)))) by (apply Rmult_le_compat_l; lra).
    replace (Nc * (r * (x + y)) * sdot c v) with (Nc * (r * (x + y) * sdot c v)) by ring. rewrite EQ.
    assert (B5 : Nc * (- (e * scross b v) * (r * r - z * x) + e * scross a v * (r * r - y * z)) <= Nc * (Nb * R * (r * r - z * x) + Na * R * (r * r - y * z))) by (apply Rmult_le_compat_l; lra).
    lra.
Qed.
