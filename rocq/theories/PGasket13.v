(** * Proofs about the triangular gasket: a depth that is reached. *)

From Coq Require Import Reals Lra Lia Psatz List Bool ZArith.
From Verif Require Import Base BaseLemmas Spec SpecLemmas SpecTriangle SpecGasket ModelInternal ModelLine ModelCircle ModelTriangle ModelGasket PLine PTriangle PTriangle2 PTriangle3 PTriangle4 PTriangle5 PSteiner PGasket1 PGasket2 PGasket3 PGasket4 PGasket5 PGasket6 PGasket7 PGasket8 PGasket9 PGasket10 PGasket11 PGasket12.
Import ListNotations.
Local Open Scope R_scope.

Lemma bary_bounded M A B C P : bounded M A -> bounded M B -> bounded M C -> in_closed_triangle A B C P -> bounded M P.
Proof.
  intros (A1 & A2) (B1 & B2) (C1 & C2) (a & b & c & Pa & Pb & Pc & Es & ->).
  assert (K : forall p q s, Rabs p <= M -> Rabs q <= M -> Rabs s <= M -> Rabs (a * p + b * q + c * s) <= M).
  { intros p q s Hp Hq Hs. apply Rabs_btw in Hp, Hq, Hs. pose proof (Rmult_le_pos a (M - p)). pose proof (Rmult_le_pos a (p + M)). pose proof (Rmult_le_pos b (M - q)). pose proof (Rmult_le_pos b (q + M)).
    pose proof (Rmult_le_pos c (M - s)). pose proof (Rmult_le_pos c (s + M)). replace M with (a * M + b * M + c * M) at 1 by (rewrite <- (Rmult_1_l M) at 4; rewrite <- Es; ring).
    assert (EM : a * M + b * M + c * M = M) by (transitivity ((a + b + c) * M); [ring|rewrite Es; ring]). apply Rabs_le. lra. }
  unfold bounded, bary, vadd, vscal. cbn [fst snd]. split; apply K; auto.
Qed.

Lemma dist_bounded M P Q : bounded M P -> bounded M Q -> dist P Q <= 3 * M.
Proof.
  intros (P1 & P2) (Q1 & Q2). apply Rabs_btw in P1, P2, Q1, Q2. apply Rsqr_incr_0_var; [|lra]. unfold Rsqr. rewrite dist_sq.
  assert (sq : forall u, - (2 * M) <= u <= 2 * M -> u * u <= 4 * (M * M)) by (intros u Hu; assert (0 <= (2 * M - u) * (u + 2 * M)) by (apply Rmult_le_pos; lra); lra).
  pose proof (sq (fst Q - fst P) ltac:(lra)). pose proof (sq (snd Q - snd P) ltac:(lra)). pose proof (sqnn M). unspec. lra.
Qed.

Lemma tol_first M n A B C P x y z r e k1 k2 k3 : mconf A B C P x y z r e k1 k2 k3 -> bounded M A -> bounded M B -> bounded M C ->
  corner_tolerance M n A B C (mc A P r k1) -> tol M n A B C (mc A P r k1).
Proof.
  intros MC HA HB HC HT. pose proof (mc_within _ _ _ _ _ _ _ _ _ _ _ _ MC) as W. destruct (first_region _ _ _ _ _ _ _ _ _ _ _ _ MC) as ((D & Rg) & _).
  pose proof (corner_lt _ _ _ _ _ Rg) as L. pose proof (ratio_lt _ _ _ _ _ Rg) as L2.
  pose proof (mc_AB _ _ _ _ _ _ _ _ _ _ _ _ MC) as LAB. pose proof (mc_AB _ _ _ _ _ _ _ _ _ _ _ _ (mconf_perm _ _ _ _ _ _ _ _ _ _ _ _ MC)) as LBC.
  pose proof (mc_AB _ _ _ _ _ _ _ _ _ _ _ _ (mconf_perm _ _ _ _ _ _ _ _ _ _ _ _ (mconf_perm _ _ _ _ _ _ _ _ _ _ _ _ MC))) as LCA. rewrite dist_sym in LCA.
  pose proof (mc_dbl _ _ _ _ _ _ _ _ _ _ _ _ MC) as ED. pose proof (mc_cO A B C P r k1 k2 k3) as (F1 & _ & _).
  pose proof MC as ((Hx & Hy & Hz & Hr & He) & (K1 & K2 & K3) & (Qa & Qb & Qc) & _ & _ & E & _).
  assert (PO : 0 < e * dbl A B C) by (rewrite ED; repeat apply Rmult_lt_0_compat; lra).
  set (c := mc A P r k1) in *. assert (BO : bounded M (cO c)). { apply (bary_bounded M A B C); auto. apply (within_triangle e A B C c); auto. unfold in_disk. rewrite (proj2 (dist_0 _ _) eq_refl). lra. }
  destruct HT as (T1 & T2 & T3). unfold corner_ratio in L2. set (d := dist A (cO c)) in *.
  unfold tol. cbv zeta. unfold corner_ratio. fold d. rewrite <- (dist_sq A (cO c)). fold d. set (q := (d - cr c) / (d + cr c)) in *. change (/ 67108864) with sepsilon_ in T2, T3.
  assert (PM : 0 <= M) by (destruct HA as (HA & _); pose proof (Rabs_pos (fst A)); lra).
  assert (Pn1 : q ^ n <= 1) by (rewrite <- (pow1 n); apply pow_incr; lra). assert (Lr : cr c * q ^ n <= cr c * 1) by (apply Rmult_le_compat_l; lra).
  assert (Lk : cr c < r) by (change (cr c) with (k1 * r); pose proof (Rmult_lt_compat_r r k1 1); lra). assert (Lm : (1 + M) / 10000 < r) by lra.
  assert (AM : forall p s t, 0 < p -> 0 < s -> 0 < t -> p * s * t = r * r * (p + s + t) -> r <= (p + s) / 2).
  { intros p s t Pp Ps Pt EQ. apply Rsqr_incr_0_var; [|lra]. unfold Rsqr. apply (Rmult_le_reg_r (p + s + t)); [lra|]. rewrite <- EQ. pose proof (sqnn (p - s)).
    assert (0 < p * s) by (apply Rmult_lt_0_compat; auto). assert (0 <= ((p + s) / 2 * ((p + s) / 2) - p * s) * (p + s + t)) by (apply Rmult_le_pos; lra).
    assert (0 < p * s * (p + s)) by (apply Rmult_lt_0_compat; lra). lra. }
  pose proof (AM x y z Hx Hy Hz E). pose proof (AM z x y Hz Hx Hy ltac:(rewrite <- (Rmult_comm y), <- Rmult_assoc, (Rmult_comm y z); replace (z + x + y) with (x + y + z) by ring; rewrite <- E; ring)).
  pose proof (dist_bounded M B C HB HC) as DB. rewrite LBC in DB.
  assert (Lx : r < 9000 * x).
  { assert (G1 : r * r * (y + z) <= x * ((y + z) * (y + z) / 4)). { assert (0 < r * r * x) by (repeat apply Rmult_lt_0_compat; lra). assert (0 <= x * ((y - z) * (y - z))) by (apply Rmult_le_pos; [lra|apply sqnn]). lra. }
    assert (G2 : r * r <= x * ((y + z) / 4)) by (apply (Rmult_le_reg_r (y + z)); [lra|]; lra).
    assert (G3 : (y + z) / 4 < 7500 * r) by lra. assert (G4 : x * ((y + z) / 4) < x * (7500 * r)) by (apply Rmult_lt_compat_l; auto). apply (Rmult_lt_reg_r r); auto. assert (0 < x * r) by (apply Rmult_lt_0_compat; auto). lra. }
  assert (Ed : d * d = k1 * k1 * (r * r + x * x)). { unfold d. rewrite dist_sq. transitivity (k1 * k1 * sdot (vsub A P) (vsub A P)); [unfold c, mc, mcenter; cbn [cO]; unspec; ring|]. rewrite Qa. ring. }
  assert (Et : sqrt (d * d - cr c * cr c) = k1 * x) by (apply sqrt_eq; [apply Rmult_le_pos; lra|]; rewrite Ed; change (cr c) with (k1 * r); ring).
  rewrite LAB, LCA in *. do 4 (split; [auto|]). split; [lra|]. split; [lra|]. split; [lra|]. split; [|split; auto].
  rewrite Et. apply Rsqr_incrst_0; [|lra|assert (0 < k1 * x) by (apply Rmult_lt_0_compat; lra); lra]. unfold Rsqr. rewrite Ed.
  assert (G : r * r + x * x < 100000000 * (x * x)). { assert (r * r < 9000 * x * (9000 * x)) by (apply Rmult_le_0_lt_compat; lra). pose proof (Rmult_lt_0_compat x x Hx Hx). lra. }
  assert (k1 * k1 * (r * r + x * x) < k1 * k1 * (100000000 * (x * x))) by (apply Rmult_lt_compat_l; auto; apply Rmult_lt_0_compat; lra). lra.
Qed.

Lemma draw_total A B C depth M cA cB cC T : ~ collinear A B C -> malfatti_circles (mkTri A B C) = Ok (Some ((cA, cB, cC), T)) ->
  bounded M A -> bounded M B -> bounded M C ->
  corner_tolerance M depth A B C cA -> corner_tolerance M depth B A C cB -> corner_tolerance M depth C A B cC ->
  exists l, drawTriangularGasket A B C depth = Ok l.
Proof.
  intros N EM HA HB HC TA TB TC. destruct (malfatti_conf A B C N) as (P & x & y & z & r & e & k1 & k2 & k3 & T' & MC & PO & E). rewrite EM in E. injection E as -> -> -> ->.
  rewrite (draw_eval A B C depth _ _ _ _ EM). destruct (first_inv _ _ _ _ _ _ _ _ _ _ _ _ MC) as (p & Ep & I). cbv zeta in Ep, I. destruct I as (_ & _ & _ & IR & _).
  destruct (generations_total M (S depth) (first_holes A B C (mc A P r k1) (mc B P r k2) (mc C P r k3))) as (l & El); [|rewrite El; cbn [bind]; eauto].
  pose proof (mconf_perm _ _ _ _ _ _ _ _ _ _ _ _ MC) as M2. pose proof (mconf_perm _ _ _ _ _ _ _ _ _ _ _ _ M2) as M3. pose proof (mconf_swap _ _ _ _ _ _ _ _ _ _ _ _ MC) as N1.
  pose proof (tol_first _ _ _ _ _ _ _ _ _ _ _ _ _ _ MC HA HB HC TA) as Q1. pose proof (tol_first _ _ _ _ _ _ _ _ _ _ _ _ _ _ N1 HB HA HC TB) as Q2. pose proof (tol_first _ _ _ _ _ _ _ _ _ _ _ _ _ _ M3 HC HA HB TC) as Q3.
  rewrite <- Ep. apply Forall_forall. intros h Hh. split.
  - apply in_map_iff in Hh. destruct Hh as ((h' & D) & Eh & Ih). cbn [fst] in Eh. subst h'. rewrite Forall_forall in IR. specialize (IR _ Ih). eauto.
  - rewrite Ep in Hh. unfold first_holes in Hh. cbn [In] in Hh. destruct Hh as [<-|[<-|[<-|[<-|[<-|[<-|[<-|[]]]]]]]]; cbn [tolh]; auto.
Qed.
