(** * Proofs about the triangular gasket: the Malfatti circles and the seven first holes. *)

From Coq Require Import Reals Lra Lia Psatz List Bool ZArith.
From Verif Require Import Base BaseLemmas Spec SpecLemmas SpecTriangle ModelInternal ModelLine ModelCircle ModelTriangle ModelGasket PLine PTriangle PTriangle2 PTriangle3 PTriangle4 PTriangle5 PSteiner PGasket1 PGasket2 PGasket3 PGasket4 PGasket5.
Import ListNotations.
Local Open Scope R_scope.

(** ** discs separated by a line *)
Lemma cauchy (n v : pt) N : 0 < N -> N * N = sdot n n -> sdot n v <= N * sqrt (sdot v v).
Proof.
  intros PN EN. set (q := sqrt (sdot v v)). assert (Q : q * q = sdot v v) by (apply sqrt_def; unfold sdot; pose proof (sqnn (fst v)); pose proof (sqnn (snd v)); lra).
  assert (Nq : 0 <= q) by apply sqrt_pos. destruct (Rle_lt_dec (sdot n v) 0) as [L|L]; [pose proof (Rmult_le_pos N q); lra|].
  destruct (Rle_lt_dec (sdot n v) (N * q)) as [|K]; auto. exfalso.
  assert (E : sdot n v * sdot n v + scross n v * scross n v = N * N * (q * q)) by (rewrite EN, Q; unspec; ring).
  pose proof (sqnn (scross n v)). assert (0 <= N * q) by (apply Rmult_le_pos; lra). assert (N * q * (N * q) < sdot n v * sdot n v) by (apply Rmult_le_0_lt_compat; auto). lra.
Qed.

Lemma separated n N P c c' : 0 < N -> N * N = sdot n n -> N * cr c <= sdot n (vsub (cO c) P) -> sdot n (vsub (cO c') P) <= - (N * cr c') -> disj c c'.
Proof.
  intros PN EN H1 H2. unfold disj. rewrite dist_sym. pose proof (cauchy n (vsub (cO c) (cO c')) N PN EN) as K. change (sqrt _) with (dist (cO c') (cO c)) in K.
  apply (Rmult_le_reg_l N); auto. replace (sdot n (vsub (cO c) (cO c'))) with (sdot n (vsub (cO c) P) - sdot n (vsub (cO c') P)) in K by (unspec; ring). lra.
Qed.

(** ** a disc inside the three half-planes of a triangle is inside the triangle *)
Lemma halfplanes_triangle e A B C M : e * e = 1 -> 0 < e * dbl A B C -> 0 <= e * scross (vsub B A) (vsub M A) ->
  0 <= e * scross (vsub C B) (vsub M B) -> 0 <= e * scross (vsub A C) (vsub M C) -> in_closed_triangle A B C M.
Proof.
  intros He D H1 H2 H3. set (d := e * dbl A B C) in *.
  exists (e * scross (vsub C B) (vsub M B) / d), (e * scross (vsub A C) (vsub M C) / d), (e * scross (vsub B A) (vsub M A) / d).
  pose proof (Rinv_0_lt_compat _ D) as I. split; [apply Rmult_le_pos; lra|]. split; [apply Rmult_le_pos; lra|]. split; [apply Rmult_le_pos; lra|].
  assert (N : dbl A B C <> 0) by (intros E; unfold d in D; rewrite E in D; lra). assert (Ne : e <> 0) by (intros E; rewrite E in He; lra).
  unfold d, dbl in *. destruct A, B, C, M. unfold bary. unspec. cbn [fst snd] in *. split; [field; split; auto|]. f_equal; field; split; auto.
Qed.

Lemma disk_halfplane n P c M : sdot n n = 1 -> hp n P c -> in_disk (cO c) (cr c) M -> 0 <= sdot n (vsub M P).
Proof.
  unfold hp, in_disk. intros U H D. pose proof (cauchy n (vsub (cO c) M) 1 ltac:(lra) ltac:(lra)) as K. change (sqrt _) with (dist M (cO c)) in K. rewrite dist_sym in K.
  replace (sdot n (vsub M P)) with (sdot n (vsub (cO c) P) - sdot n (vsub (cO c) M)) by (unspec; ring). lra.
Qed.

Definition halfplanes (e : R) (A B C : pt) : list (pt * pt) := [(lnormal e A B, A); (lnormal e B C, B); (lnormal e C A, C)].

Lemma halfplanes_unit e A B C : e * e = 1 -> A <> B -> B <> C -> C <> A -> Forall (fun s => sdot (fst s) (fst s) = 1) (halfplanes e A B C).
Proof. intros. unfold halfplanes. rewrite Forall_3. cbn [fst]. rewrite !lnormal_unit by auto. auto. Qed.

Lemma within_triangle e A B C c : e * e = 1 -> 0 < e * dbl A B C -> within (halfplanes e A B C) c ->
  forall M, in_disk (cO c) (cr c) M -> in_closed_triangle A B C M.
Proof.
  intros He D W M HM. assert (N : dbl A B C <> 0) by (intros E; rewrite E in D; lra). destruct (dbl_distinct _ _ _ N) as (N1 & N2 & N3).
  unfold within, halfplanes in W. rewrite Forall_3 in W. cbn [fst snd] in W. destruct W as (W1 & W2 & W3).
  apply (disk_halfplane _ _ _ M) in W1; auto using lnormal_unit. apply (disk_halfplane _ _ _ M) in W2; auto using lnormal_unit. apply (disk_halfplane _ _ _ M) in W3; auto using lnormal_unit.
  rewrite lnormal_cross in W1, W2, W3 by auto.
  assert (pos : forall k d, 0 < d -> 0 <= k / d -> 0 <= k) by (intros k d Hd Hk; replace k with (k / d * d) by (field; lra); apply Rmult_le_pos; lra).
  apply pos in W1; [|apply dist_pos; auto]. apply pos in W2; [|apply dist_pos; auto]. apply pos in W3; [|apply dist_pos; auto].
  apply (halfplanes_triangle e); auto.
Qed.

(** ** the configuration of the Malfatti circles *)
Definition mconf (A B C P : pt) (x y z r e k1 k2 k3 : R) : Prop :=
  let a := vsub A P in let b := vsub B P in let c := vsub C P in
  (0 < x /\ 0 < y /\ 0 < z /\ 0 < r /\ e * e = 1) /\ (0 < k1 < 1 /\ 0 < k2 < 1 /\ 0 < k3 < 1) /\
  (sdot a a = r * r + x * x /\ sdot b b = r * r + y * y /\ sdot c c = r * r + z * z) /\
  (sdot a b = r * r - x * y /\ sdot b c = r * r - y * z /\ sdot c a = r * r - z * x) /\
  (e * scross a b = r * (x + y) /\ e * scross b c = r * (y + z) /\ e * scross c a = r * (z + x)) /\
  x * y * z = r * r * (x + y + z) /\
  ((x + y - k1 * x - k2 * y) * (x + y - k1 * x - k2 * y) = 4 * (k1 * k2 * (r * r)) /\
   (y + z - k2 * y - k3 * z) * (y + z - k2 * y - k3 * z) = 4 * (k2 * k3 * (r * r)) /\
   (z + x - k3 * z - k1 * x) * (z + x - k3 * z - k1 * x) = 4 * (k3 * k1 * (r * r))).

Lemma mconf_perm A B C P x y z r e k1 k2 k3 : mconf A B C P x y z r e k1 k2 k3 -> mconf B C A P y z x r e k2 k3 k1.
Proof. unfold mconf. cbv zeta. intros H. replace (y * z * x) with (x * y * z) by ring. replace (y + z + x) with (x + y + z) by ring. tauto. Qed.
Lemma mconf_swap A B C P x y z r e k1 k2 k3 : mconf A B C P x y z r e k1 k2 k3 -> mconf B A C P y x z r (- e) k2 k1 k3.
Proof.
  unfold mconf. cbv zeta. intros ((Hx & Hy & Hz & Hr & He) & (K1 & K2 & K3) & (Qa & Qb & Qc) & (Qab & Qbc & Qca) & (Xab & Xbc & Xca) & E & T1 & T2 & T3).
  assert (sw : forall u v, sdot u v = sdot v u) by (intros; unspec; ring). assert (sx : forall u v, - e * scross u v = e * scross v u) by (intros; unspec; ring).
  rewrite (sw (vsub B P) (vsub A P)), (sw (vsub A P) (vsub C P)), (sw (vsub C P) (vsub B P)). rewrite !sx.
  rewrite Qa, Qb, Qc, Qab, Qbc, Qca, Xab, Xbc, Xca. repeat match goal with |- _ /\ _ => split end; try assumption; try lra.
Qed.

(** the Malfatti circle of the corner A, the discs of the corner and of the side *)
Definition mc (A P : pt) (r k : R) : circle := mkCircle (mcenter A P k) (k * r).
Definition dcorner (A : pt) (k x : R) : circle := mkCircle A (k * x).
Definition dside (A B : pt) (x y k1 k2 : R) : circle :=
  mkCircle (at_line A B ((x + y + k1 * x - k2 * y) / (2 * (x + y)))) ((x + y - k1 * x - k2 * y) / 2).

Lemma dside_swap A B x y k1 k2 : x + y <> 0 -> dside B A y x k2 k1 = dside A B x y k1 k2.
Proof. intros H. unfold dside. f_equal; [|lra]. replace (y + x) with (x + y) by ring. unfold at_line. unpt. f_equal; field; auto. Qed.

Section Conf.
Variables (A B C P : pt) (x y z r e k1 k2 k3 : R).
Hypothesis MC : mconf A B C P x y z r e k1 k2 k3.
Let a := vsub A P.
Let b := vsub B P.
Let c := vsub C P.
Let O1 := mc A P r k1.
Let O2 := mc B P r k2.
Let O3 := mc C P r k3.
Let R12 := (x + y - k1 * x - k2 * y) / 2.

Ltac mcd := destruct MC as ((Hx & Hy & Hz & Hr & He) & (K1 & K2 & K3) & (Qa & Qb & Qc) & (Qab & Qbc & Qca) & (Xab & Xbc & Xca) & E & T1 & T2 & T3).

Lemma mc_AB : dist A B = x + y.
Proof.
  mcd. apply sqrt_eq; [lra|]. transitivity (sdot a a + sdot b b - 2 * sdot a b); [|unfold a, b; unspec; ring]. unfold a, b. rewrite Qa, Qb, Qab. ring.
Qed.
Lemma mc_R12 : 0 < R12 /\ R12 * R12 = k1 * k2 * (r * r).
Proof.
  mcd. unfold R12. split; [|lra]. pose proof (Rmult_lt_0_compat (1 - k1) x ltac:(lra) Hx). pose proof (Rmult_lt_0_compat (1 - k2) y ltac:(lra) Hy). lra.
Qed.
Lemma mc_pos : posc O1 /\ posc O2.
Proof. mcd. unfold posc, O1, O2, mc. cbn [cr]. split; apply Rmult_lt_0_compat; lra. Qed.
Lemma mc_cO : vsub (cO O1) P = vscal (1 - k1) a /\ vsub (cO O2) P = vscal (1 - k2) b /\ vsub (cO O3) P = vscal (1 - k3) c.
Proof. unfold O1, O2, O3, mc, mcenter, a, b, c. cbn [cO]. repeat split; unpt; f_equal; ring. Qed.

Lemma mc_tang : tang O1 O2.
Proof.
  pose proof mc_cO as (E1 & E2 & _). mcd. unfold tang. change (cr O1) with (k1 * r). change (cr O2) with (k2 * r).
  apply sqrt_eq; [assert (0 < k1 * r) by (apply Rmult_lt_0_compat; lra); assert (0 < k2 * r) by (apply Rmult_lt_0_compat; lra); lra|].
  transitivity (sdot (vsub (cO O1) P) (vsub (cO O1) P) + sdot (vsub (cO O2) P) (vsub (cO O2) P) - 2 * sdot (vsub (cO O1) P) (vsub (cO O2) P)); [|unspec; ring].
  rewrite E1, E2. transitivity ((1 - k1) * (1 - k1) * sdot a a + (1 - k2) * (1 - k2) * sdot b b - 2 * (1 - k1) * (1 - k2) * sdot a b); [|unspec; ring].
  unfold a, b. rewrite Qa, Qb, Qab. lra.
Qed.

Lemma mc_dbl : e * dbl A B C = 2 * r * (x + y + z).
Proof. mcd. transitivity (e * scross a b + e * scross b c + e * scross c a); [unfold dbl, a, b, c; unspec; ring|]. unfold a, b, c. rewrite Xab, Xbc, Xca. ring. Qed.

(** the height above the side AB *)
Lemma mc_height M : e * scross (vsub B A) (vsub M A) = e * scross (vsub b a) (vsub M P) + r * (x + y).
Proof. mcd. rewrite <- Xab. unfold a, b. unspec. ring. Qed.
Lemma mc_touch : touch e A B O1 /\ touch e A B O2.
Proof.
  pose proof mc_AB as L. pose proof mc_cO as (E1 & E2 & _). unfold touch. rewrite L, !mc_height, E1, E2. mcd. unfold O1, O2, mc. cbn [cr]. split.
  - transitivity (- (1 - k1) * (e * scross a b) + r * (x + y)); [unspec; ring|]. unfold a, b. rewrite Xab. ring.
  - transitivity (- (1 - k2) * (e * scross a b) + r * (x + y)); [unspec; ring|]. unfold a, b. rewrite Xab. ring.
Qed.
(** the third circle is high above the side *)
Lemma mc_third : e * scross (vsub B A) (vsub (cO O3) A) = (1 - k3) * (2 * r * (x + y + z)) + k3 * r * (x + y).
Proof.
  pose proof mc_cO as (_ & _ & E3). rewrite mc_height, E3. mcd. transitivity ((1 - k3) * (e * scross b c + e * scross c a) + r * (x + y)); [unspec; ring|]. unfold a, b, c. rewrite Xbc, Xca. ring.
Qed.

Lemma region_corner : region (CLL A B C O1) (dcorner A k1 x).
Proof.
  pose proof mc_dbl as D. pose proof mc_touch as (T & _). pose proof mc_pos as (P1 & _). pose proof mc_cO as (E1 & _ & _). mcd. cbn [region].
  split; [exact P1|]. split; [unfold posc, dcorner; cbn [cr]; apply Rmult_lt_0_compat; lra|]. split; [reflexivity|]. split.
  - unfold ortho, dcorner. cbn [cO cr]. change (cr O1) with (k1 * r). transitivity (k1 * k1 * sdot a a); [unfold O1, mc, mcenter, a; cbn [cO]; unspec; ring|]. unfold a. rewrite Qa. ring.
  - exists e. split; [auto|]. split; [unfold dbl in D; rewrite D; assert (0 < r * (x + y + z)) by (apply Rmult_lt_0_compat; lra); lra|]. split; [exact T|].
    unfold touch. assert (L : dist A C = z + x).
    { apply sqrt_eq; [lra|]. transitivity (sdot a a + sdot c c - 2 * sdot c a); [|unfold a, c; unspec; ring]. unfold a, c. rewrite Qa, Qc, Qca. ring. }
    rewrite L. change (cr O1) with (k1 * r). transitivity (k1 * (e * scross c a)); [unfold O1, mc, mcenter, a, c; cbn [cO]; unspec; ring|]. unfold a, c. rewrite Xca. ring.
Qed.

Lemma region_side : region (CCL O1 O2 A B) (dside A B x y k1 k2).
Proof.
  pose proof mc_AB as L. pose proof mc_touch as (T & T'). pose proof mc_pos as (P1 & P2). pose proof mc_R12 as (PR & ER). pose proof mc_tang as Tg. pose proof mc_cO as (E1 & E2 & _).
  mcd. cbn [region]. split; [intros <-; rewrite (proj2 (dist_0 A A) eq_refl) in L; lra|]. split; [exact P1|]. split; [exact P2|]. split; [exact PR|]. split; [exact Tg|].
  split; [exists e; auto|]. set (t := (x + y + k1 * x - k2 * y) / (2 * (x + y))).
  assert (D0 : forall M, dist2 (cO (dside A B x y k1 k2)) M = sdot (vsub M P) (vsub M P) - 2 * ((1 - t) * sdot a (vsub M P) + t * sdot b (vsub M P)) + (1 - t) * (1 - t) * sdot a a + t * t * sdot b b + 2 * t * (1 - t) * sdot a b).
  { intros M. unfold dside. cbn [cO]. fold t. unfold a, b. unspec. ring. }
  split; [|split].
  - unfold ortho. rewrite D0, E1. unfold dside. cbn [cr]. fold R12. unfold O1, mc. cbn [cr].
    transitivity ((1 - k1 - (1 - t)) * (1 - k1 - (1 - t)) * sdot a a + t * t * sdot b b - 2 * t * (1 - k1 - (1 - t)) * sdot a b); [unspec; ring|].
    unfold a, b. rewrite Qa, Qb, Qab. unfold R12, t. field. lra.
  - unfold ortho. rewrite D0, E2. unfold dside. cbn [cr]. fold R12. unfold O2, mc. cbn [cr].
    transitivity ((1 - t) * (1 - t) * sdot a a + (1 - k2 - t) * (1 - k2 - t) * sdot b b - 2 * (1 - t) * (1 - k2 - t) * sdot a b); [unspec; ring|].
    unfold a, b. rewrite Qa, Qb, Qab. unfold R12, t. field. lra.
  - unfold dside. cbn [cO]. unspec. ring.
Qed.
End Conf.
