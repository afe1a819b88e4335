(** * The ellipses of a pencil: between two ellipses there is one that is not larger. *)

From Coq Require Import Reals Lra Lia Psatz List Bool.
From Verif Require Import Base BaseLemmas Spec SpecLemmas ModelInternal ModelLine ModelCircle ModelAffine ModelEllipse PEllipse PEllipse6 PBoundary4b.
Import ListNotations.
Local Open Scope R_scope.

(** ** positive quadratic forms *)
Definition qf (A B C x y : R) : R := A * (x * x) + 2 * B * (x * y) + C * (y * y).

Lemma qf_square A B C x y : A * qf A B C x y = (A * x + B * y) * (A * x + B * y) + (A * C - B * B) * (y * y).
Proof. unfold qf. ring. Qed.

Lemma qf_nonneg A B C x y : 0 < A -> 0 < A * C - B * B -> 0 <= qf A B C x y.
Proof.
  intros HA HD. pose proof (qf_square A B C x y) as E. pose proof (sqnn (A * x + B * y)). pose proof (sqnn y).
  assert (0 <= (A * C - B * B) * (y * y)) by (apply Rmult_le_pos; lra). apply Rmult_le_reg_l with A; lra.
Qed.

Lemma qf_zero A B C x y : 0 < A -> 0 < A * C - B * B -> qf A B C x y <= 0 -> x = 0 /\ y = 0.
Proof.
  intros HA HD H. pose proof (qf_square A B C x y) as E. pose proof (sqnn (A * x + B * y)). pose proof (sqnn y).
  assert (K : 0 <= (A * C - B * B) * (y * y)) by (apply Rmult_le_pos; lra).
  assert (A * qf A B C x y <= 0). { rewrite <- (Rmult_0_r A). apply Rmult_le_compat_l; lra. }
  assert (Y : y * y = 0). { apply Rmult_eq_reg_l with (A * C - B * B); lra. }
  assert (y0 : y = 0) by (destruct (Rmult_integral _ _ Y); auto). subst y. split; [|auto].
  assert (X : (A * x) * (A * x) = 0) by (replace ((A * x) * (A * x)) with ((A * x + B * 0) * (A * x + B * 0)) by ring; lra).
  assert (A * x = 0) by (destruct (Rmult_integral _ _ X); auto). apply Rmult_eq_reg_l with A; lra.
Qed.

Lemma mixed_det A1 B1 C1 A2 B2 C2 d : 0 < A1 -> 0 < A2 -> 0 < d -> d <= A1 * C1 - B1 * B1 -> d <= A2 * C2 - B2 * B2 ->
  2 * d <= A1 * C2 + A2 * C1 - 2 * B1 * B2 /\
  (A1 * C1 - B1 * B1 = d -> A2 * C2 - B2 * B2 = d -> A1 * C2 + A2 * C1 - 2 * B1 * B2 <= 2 * d -> A1 = A2 /\ B1 = B2 /\ C1 = C2).
Proof.
  intros H1 H2 Hd D1 D2. set (X := A1 * C2 + A2 * C1).
  assert (P1 : 0 < C1). { apply Rmult_lt_reg_l with A1; [auto|]. pose proof (sqnn B1). lra. }
  assert (P2 : 0 < C2). { apply Rmult_lt_reg_l with A2; [auto|]. pose proof (sqnn B2). lra. }
  assert (PX : 0 < X) by (unfold X; apply Rplus_lt_0_compat; apply Rmult_lt_0_compat; auto).
  assert (EX : X * X = (A1 * C2 - A2 * C1) * (A1 * C2 - A2 * C1) + 4 * ((A1 * C1) * (A2 * C2))) by (unfold X; ring).
  assert (L : (d + B1 * B1) * (d + B2 * B2) <= (A1 * C1) * (A2 * C2)). { pose proof (sqnn B1). pose proof (sqnn B2). apply Rmult_le_compat; lra. }
  assert (EL : (d + B1 * B1) * (d + B2 * B2) = (d + B1 * B2) * (d + B1 * B2) + d * ((B1 - B2) * (B1 - B2))) by ring.
  pose proof (sqnn (A1 * C2 - A2 * C1)) as N1. pose proof (sqnn (B1 - B2)) as N2. assert (N3 : 0 <= d * ((B1 - B2) * (B1 - B2))) by (apply Rmult_le_pos; lra).
  split.
  - assert (2 * (d + B1 * B2) <= X); [|unfold X in *; lra]. destruct (Rle_dec (2 * (d + B1 * B2)) X) as [K|K]; auto. exfalso. assert (X * X < (2 * (d + B1 * B2)) * (2 * (d + B1 * B2))) by (apply Rmult_le_0_lt_compat; lra). lra.
  - intros E1 E2 K. assert (K' : X <= 2 * (d + B1 * B2)) by lra. assert (X * X <= (2 * (d + B1 * B2)) * (2 * (d + B1 * B2))) by (apply Rmult_le_compat; lra).
    assert (Z1 : d * ((B1 - B2) * (B1 - B2)) = 0) by lra. assert (Z2 : (A1 * C2 - A2 * C1) * (A1 * C2 - A2 * C1) = 0) by lra.
    assert (EB : B1 = B2). { destruct (Rmult_integral _ _ Z1) as [|Z]; [lra|]. destruct (Rmult_integral _ _ Z); lra. }
    assert (EA : A1 * C2 = A2 * C1) by (destruct (Rmult_integral _ _ Z2); lra). subst B2.
    assert (EC : A1 * C1 = A2 * C2) by lra.
    assert (Q : (A1 - A2) * ((A1 + A2) * C1) = 0). { replace ((A1 - A2) * ((A1 + A2) * C1)) with (A1 * (A1 * C1) - A2 * (A2 * C1)) by ring. rewrite EC, <- EA. ring. }
    assert (A1 = A2). { destruct (Rmult_integral _ _ Q) as [|Z]; [lra|]. assert (0 < (A1 + A2) * C1) by (apply Rmult_lt_0_compat; lra). lra. }
    subst A2. split; [auto|]. split; [auto|]. apply Rmult_eq_reg_l with A1; lra.
Qed.

(** completing the square *)
Lemma centre_form A B C D E F : 0 < A -> 0 < A * C - B * B -> exists c m, forall x y,
  A * (x * x) + 2 * B * (x * y) + C * (y * y) + 2 * D * x + 2 * E * y + F = qf A B C (x - fst c) (y - snd c) + m.
Proof.
  intros HA HD. exists ((B * E - C * D) / (A * C - B * B), (B * D - A * E) / (A * C - B * B)).
  exists (F + D * ((B * E - C * D) / (A * C - B * B)) + E * ((B * D - A * E) / (A * C - B * B))).
  intros x y. unfold qf. cbn [fst snd]. field. lra.
Qed.

(** an ellipse with a given centre and a given form *)
Lemma ellipse_of_form c A B C : 0 < A -> 0 < A * C - B * B -> exists a b th, 0 < a /\ 0 < b /\ (A * C - B * B) * (a * b * (a * b)) = 1 /\
  forall M, ell_form c a b th M = qf A B C (fst M - fst c) (snd M - snd c).
Proof.
  intros HA HD. destruct eigh_exists as [eigh HE]. set (S := mkM2 A B B C).
  assert (PD : forall u, u <> (0, 0) -> 0 < lowq S u).
  { intros [x y] Hu. assert (E : lowq S (x, y) = qf A B C x y) by (unfold lowq, qf, S; cbn [m11 m21 m22 fst snd]; ring). rewrite E. destruct (Rle_or_lt (qf A B C x y) 0) as [K|K]; auto. exfalso. destruct (qf_zero A B C x y HA HD K); subst. auto. }
  destruct (from_cm_iff eigh c S (HE S)) as [HI _]. apply HI in PD. destruct PD as [e Ee].
  destruct (from_cm_spec eigh c S e (HE S) Ee) as (EO & Hax & _ & _ & EF). exists (ea e), (eb e), (ell_th e). rewrite <- EO. split; [lra|]. split; [lra|].
  assert (F : forall M, ell_form (eO e) (ea e) (eb e) (ell_th e) M = qf A B C (fst M - fst (eO e)) (snd M - snd (eO e))).
  { intros M. rewrite <- EF. unfold lowq, qf, S, vsub. rewrite EO. cbn [m11 m21 m22 fst snd]. ring. }
  split; [|exact F].
  destruct (ell_quad (eO e) (ea e) (eb e) (ell_th e)) as (A' & B' & C' & HA' & HD' & F'); [lra..|]. rewrite <- HD'. f_equal.
  assert (G : forall x y, qf A B C x y = A' * (x * x) + 2 * B' * (x * y) + C' * (y * y)).
  { intros x y. pose proof (F (fst (eO e) + x, snd (eO e) + y)) as G1. pose proof (F' (fst (eO e) + x, snd (eO e) + y)) as G2. cbn [fst snd] in G1, G2.
    replace (fst (eO e) + x - fst (eO e)) with x in * by ring. replace (snd (eO e) + y - snd (eO e)) with y in * by ring. congruence. }
  pose proof (G 1 0) as G1. pose proof (G 0 1) as G2. pose proof (G 1 1) as G3. unfold qf in *. assert (A = A') by lra. assert (C = C') by lra. assert (B = B') by lra. subst. ring.
Qed.

(** ** the pencil *)
Lemma pencil O1 a1 b1 th1 O2 a2 b2 th2 t M N : 0 < a1 -> 0 < b1 -> 0 < a2 -> 0 < b2 -> 0 <= t <= 1 -> M <> N ->
  let f X := (1 - t) * ell_form O1 a1 b1 th1 X + t * ell_form O2 a2 b2 th2 X in f M <= 1 -> f N <= 1 ->
  exists O a b th k, 0 < a /\ 0 < b /\ 0 < k <= 1 /\ (forall X, k * (ell_form O a b th X - 1) = f X - 1) /\
    (forall s, a1 * b1 <= s -> a2 * b2 <= s -> a * b <= s) /\
    (0 < t < 1 -> a1 * b1 = a2 * b2 -> a1 * b1 <= a * b -> forall X, ell_form O1 a1 b1 th1 X = ell_form O2 a2 b2 th2 X).
Proof.
  intros Ha1 Hb1 Ha2 Hb2 Ht HMN f HM HN.
  destruct (ell_quad O1 a1 b1 th1 Ha1 Hb1) as (A1 & B1 & C1 & P1 & D1 & F1). destruct (ell_quad O2 a2 b2 th2 Ha2 Hb2) as (A2 & B2 & C2 & P2 & D2 & F2).
  set (s1 := a1 * b1 * (a1 * b1)) in *. set (s2 := a2 * b2 * (a2 * b2)) in *.
  assert (ps1 : 0 < s1) by (unfold s1; repeat apply Rmult_lt_0_compat; auto). assert (ps2 : 0 < s2) by (unfold s2; repeat apply Rmult_lt_0_compat; auto).
  assert (PD1 : 0 < A1 * C1 - B1 * B1) by (apply Rmult_lt_reg_r with s1; lra). assert (PD2 : 0 < A2 * C2 - B2 * B2) by (apply Rmult_lt_reg_r with s2; lra).
  set (A := (1 - t) * A1 + t * A2). set (B := (1 - t) * B1 + t * B2). set (C := (1 - t) * C1 + t * C2).
  assert (PA : 0 < A). { unfold A. destruct (Req_dec t 0) as [->|Zt]; [lra|]. assert (0 < t * A2) by (apply Rmult_lt_0_compat; lra). assert (0 <= (1 - t) * A1) by (apply Rmult_le_pos; lra). lra. }
  (* the determinant is at least the least of the two *)
  assert (LD : forall d, 0 < d -> d <= A1 * C1 - B1 * B1 -> d <= A2 * C2 - B2 * B2 -> d <= A * C - B * B /\
     (0 < t < 1 -> A1 * C1 - B1 * B1 = d -> A2 * C2 - B2 * B2 = d -> A * C - B * B <= d -> A1 = A2 /\ B1 = B2 /\ C1 = C2)).
  { intros d Hd L1 L2. destruct (mixed_det A1 B1 C1 A2 B2 C2 d P1 P2 Hd L1 L2) as [X1 X2].
    assert (E : A * C - B * B = (1 - t) * (1 - t) * (A1 * C1 - B1 * B1) + t * t * (A2 * C2 - B2 * B2) + t * (1 - t) * (A1 * C2 + A2 * C1 - 2 * B1 * B2)) by (unfold A, B, C; ring).
    assert (Q0 : 0 <= t * (1 - t)) by (apply Rmult_le_pos; lra). assert (Q1 : 0 <= (1 - t) * (1 - t)) by apply sqnn. assert (Q2 : 0 <= t * t) by apply sqnn.
    assert (Y0 : t * (1 - t) * (2 * d) <= t * (1 - t) * (A1 * C2 + A2 * C1 - 2 * B1 * B2)) by (apply Rmult_le_compat_l; lra).
    assert (Y1 : (1 - t) * (1 - t) * d <= (1 - t) * (1 - t) * (A1 * C1 - B1 * B1)) by (apply Rmult_le_compat_l; lra).
    assert (Y2 : t * t * d <= t * t * (A2 * C2 - B2 * B2)) by (apply Rmult_le_compat_l; lra).
    assert (Y : (1 - t) * (1 - t) * d + t * t * d + t * (1 - t) * (2 * d) = d) by ring. split; [lra|].
    intros Ht' E1 E2 L. apply X2; auto. assert (0 < t * (1 - t)) by (apply Rmult_lt_0_compat; lra). apply Rmult_le_reg_l with (t * (1 - t)); [auto|]. rewrite E1, E2 in E. lra. }
  assert (PD : 0 < A * C - B * B). { destruct (LD (Rmin (A1 * C1 - B1 * B1) (A2 * C2 - B2 * B2))) as [L _]; [apply Rmin_glb_lt; auto|apply Rmin_l|apply Rmin_r|]. eapply Rlt_le_trans; [|exact L]. apply Rmin_glb_lt; auto. }
  destruct (centre_form A B C (- ((1 - t) * (A1 * fst O1 + B1 * snd O1)) - t * (A2 * fst O2 + B2 * snd O2)) (- ((1 - t) * (B1 * fst O1 + C1 * snd O1)) - t * (B2 * fst O2 + C2 * snd O2))
    ((1 - t) * qf A1 B1 C1 (fst O1) (snd O1) + t * qf A2 B2 C2 (fst O2) (snd O2)) PA PD) as (c & m & Hc).
  assert (Ff : forall X, f X = qf A B C (fst X - fst c) (snd X - snd c) + m).
  { intros X. rewrite <- Hc. unfold f. rewrite F1, F2. unfold qf, A, B, C. ring. }
  assert (N1 : forall X, 0 <= ell_form O1 a1 b1 th1 X) by (intros X; rewrite F1; apply (qf_nonneg A1 B1 C1); auto). assert (N2 : forall X, 0 <= ell_form O2 a2 b2 th2 X) by (intros X; rewrite F2; apply (qf_nonneg A2 B2 C2); auto).
  assert (Fc : f c = m). { rewrite Ff. replace (fst c - fst c) with 0 by ring. replace (snd c - snd c) with 0 by ring. unfold qf. ring. }
  assert (Hm : 0 <= m). { rewrite <- Fc. unfold f. pose proof (N1 c). pose proof (N2 c). assert (0 <= (1 - t) * ell_form O1 a1 b1 th1 c) by (apply Rmult_le_pos; lra). assert (0 <= t * ell_form O2 a2 b2 th2 c) by (apply Rmult_le_pos; lra). lra. }
  assert (Hm1 : m < 1).
  { destruct (Rlt_or_le m 1) as [|K]; auto. exfalso. apply HMN. rewrite Ff in HM, HN. destruct (qf_zero A B C (fst M - fst c) (snd M - snd c) PA PD ltac:(lra)). destruct (qf_zero A B C (fst N - fst c) (snd N - snd c) PA PD ltac:(lra)). apply injective_projections; lra. }
  set (k := 1 - m). assert (Pk : 0 < k) by (unfold k; lra).
  assert (ED : A / k * (C / k) - B / k * (B / k) = (A * C - B * B) / (k * k)) by (field; lra).
  destruct (ellipse_of_form c (A / k) (B / k) (C / k)) as (a & b & th & Pa & Pb & Dab & Fe); [apply Rdiv_lt_0_compat; auto|rewrite ED; apply Rdiv_lt_0_compat; auto; apply Rmult_lt_0_compat; auto|].
  rewrite ED in Dab. exists c, a, b, th, k. split; [auto|]. split; [auto|]. split; [unfold k; lra|].
  assert (Dab' : (A * C - B * B) * (a * b * (a * b)) = k * k). { apply Rmult_eq_reg_r with (/ (k * k)); [|apply Rinv_neq_0_compat; nra]. rewrite Rinv_r by nra. rewrite <- Dab. unfold Rdiv. ring. }
  assert (kk : k * k <= 1). { rewrite <- (Rmult_1_r 1). apply Rmult_le_compat; unfold k in *; lra. }
  split; [|split].
  - intros X. rewrite Fe, Ff. unfold qf, k. field. unfold k in Pk. lra.
  - intros s L1 L2. assert (Ps : 0 < s) by (assert (0 < a1 * b1) by (apply Rmult_lt_0_compat; auto); lra). assert (pss : 0 < s * s) by (apply Rmult_lt_0_compat; auto).
    destruct (LD (/ (s * s))) as [L _].
    + apply Rinv_0_lt_compat. auto.
    + apply Rmult_le_reg_r with (s * s); [auto|]. rewrite Rinv_l by lra. rewrite <- D1. apply Rmult_le_compat_l; [lra|]. unfold s1. apply Rmult_le_compat; try lra; left; apply Rmult_lt_0_compat; auto.
    + apply Rmult_le_reg_r with (s * s); [auto|]. rewrite Rinv_l by lra. rewrite <- D2. apply Rmult_le_compat_l; [lra|]. unfold s2. apply Rmult_le_compat; try lra; left; apply Rmult_lt_0_compat; auto.
    + destruct (Rle_or_lt (a * b) s) as [|K]; auto. exfalso. assert (s * s < a * b * (a * b)) by (apply Rmult_le_0_lt_compat; lra).
      assert (/ (s * s) * (s * s) < (A * C - B * B) * (a * b * (a * b))). { apply Rle_lt_trans with ((A * C - B * B) * (s * s)); [apply Rmult_le_compat_r; lra|apply Rmult_lt_compat_l; auto]. }
      rewrite Rinv_l in H0 by lra. lra.
  - intros Ht' Es La X. assert (E12 : A1 * C1 - B1 * B1 = A2 * C2 - B2 * B2). { apply Rmult_eq_reg_r with s1; [|lra]. rewrite D1. unfold s1. rewrite Es. symmetry. exact D2. }
    destruct (LD (A1 * C1 - B1 * B1)) as [L U]; [lra..|].
    assert (La2 : s1 <= a * b * (a * b)). { unfold s1. apply Rmult_le_compat; auto; left; apply Rmult_lt_0_compat; auto. }
    assert (K1 : 1 <= k * k). { rewrite <- D1, <- Dab'. apply Rmult_le_compat; lra. }
    assert (k1 : k = 1). { assert (~ k < 1). { intros K. assert (k * k < 1 * 1) by (apply Rmult_le_0_lt_compat; lra). lra. } unfold k in *. lra. }
    assert (m0 : m = 0) by (unfold k in k1; lra).
    assert (UL : A * C - B * B <= A1 * C1 - B1 * B1). { apply Rmult_le_reg_r with s1; [auto|]. rewrite D1. apply Rle_trans with ((A * C - B * B) * (a * b * (a * b))); [apply Rmult_le_compat_l; lra|]. rewrite Dab', k1. lra. }
    destruct (U Ht' eq_refl (eq_sym E12) UL) as (EA & EB & EC). subst A2 B2 C2.
    assert (Z1 : ell_form O1 a1 b1 th1 c = 0 /\ ell_form O2 a2 b2 th2 c = 0).
    { pose proof (N1 c) as n1. pose proof (N2 c) as n2. rewrite m0 in Fc. unfold f in Fc. assert (0 <= (1 - t) * ell_form O1 a1 b1 th1 c) by (apply Rmult_le_pos; lra). assert (0 <= t * ell_form O2 a2 b2 th2 c) by (apply Rmult_le_pos; lra).
      split; [apply Rmult_eq_reg_l with (1 - t)|apply Rmult_eq_reg_l with t]; lra. }
    destruct Z1 as [Z1 Z2]. rewrite F1 in Z1. rewrite F2 in Z2. destruct (qf_zero A1 B1 C1 _ _ P1 PD1 (Req_le _ _ Z1)). destruct (qf_zero A1 B1 C1 _ _ P1 PD1 (Req_le _ _ Z2)).
    rewrite F1, F2. replace (fst O2) with (fst O1) by lra. replace (snd O2) with (snd O1) by lra. auto.
Qed.
