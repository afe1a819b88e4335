(** * Malfatti circles are packed in the triangle, but do not have the largest total area. *)

From Coq Require Import Reals Lra Psatz List Bool.
From Verif Require Import Base BaseLemmas Spec SpecLemmas SpecTriangle SpecRandom SpecExtremal ModelInternal ModelLine ModelCircle ModelTriangle
  PLine PCircle PTriangle PTriangle2 PTriangle3 PTriangle4 PTriangle5 PTriangleEx PExtremal.
Import ListNotations.
Local Open Scope R_scope.

(** a disc whose centre is in the triangle and which is not cut by the sides *)
Lemma disc_sides A B C O r : dbl A B C <> 0 -> 0 <= r -> let D := dbl A B C in
  r * dist B C * Rabs D <= dbl O B C * D -> r * dist C A * Rabs D <= dbl O C A * D -> r * dist A B * Rabs D <= dbl O A B * D -> disc_in_triangle A B C O r.
Proof.
  intros N Hr D H1 H2 H3 M HM.
  assert (K : forall q s, r * dist q s * Rabs D <= dbl O q s * D -> 0 <= dbl M q s * D).
  { intros q s E. set (l := dist q s) in *. assert (L0 : 0 <= l) by apply dist_nonneg. assert (SQ : dist O M * dist O M = (fst M - fst O) * (fst M - fst O) + (snd M - snd O) * (snd M - snd O)) by (apply (sd_sq O M)). assert (SL : l * l = (fst s - fst q) * (fst s - fst q) + (snd s - snd q) * (snd s - snd q)) by (apply (sd_sq q s)).
    set (x := dbl M q s - dbl O q s). assert (X : x * x <= (r * l) * (r * l)).
    { assert (EX : x = (fst s - fst q) * (snd M - snd O) - (snd s - snd q) * (fst M - fst O)) by (unfold x, dbl, scross, vsub; cbn [fst snd]; ring). apply Rle_trans with ((dist O M * dist O M) * (l * l)).
      - rewrite SQ, SL, EX. pose proof (Rle_0_sqr ((fst s - fst q) * (fst M - fst O) + (snd s - snd q) * (snd M - snd O))) as QQ. unfold Rsqr in QQ. lra.
      - replace (r * l * (r * l)) with (r * r * (l * l)) by ring. apply Rmult_le_compat_r; [nra|]. apply Rmult_le_compat; auto; apply dist_nonneg. }
    replace (dbl M q s) with (dbl O q s + x) by (unfold x; lra). assert (AX : Rabs x <= r * l) by (rewrite <- (Rabs_pos_eq (r * l)) by nra; apply Rsqr_le_abs_0; exact X).
    rewrite Rmult_plus_distr_r. assert (- (x * D) <= r * l * Rabs D). { apply Rle_trans with (Rabs x * Rabs D); [rewrite <- Rabs_mult, <- Rabs_Ropp; apply Rle_abs|apply Rmult_le_compat_r; [apply Rabs_pos|auto]]. } lra. }
  apply dbl_closed; auto.
Qed.

Lemma T345_disc_in o1 o2 t : 0 <= t -> t <= o1 -> t <= o2 -> 5 * t <= 12 - 3 * o1 - 4 * o2 -> disc_in_triangle (0, 0) (4, 0) (0, 3) (o1, o2) t.
Proof.
  intros Ht H1 H2 H3. apply disc_sides; auto.
  - rewrite T345_dbl. lra.
  - rewrite T345_dbl, T345_a, Rabs_pos_eq by lra. unfold dbl, scross, vsub. cbn [fst snd]. lra.
  - rewrite T345_dbl, dist_sym, T345_b, Rabs_pos_eq by lra. unfold dbl, scross, vsub. cbn [fst snd]. lra.
  - rewrite T345_dbl, T345_c, Rabs_pos_eq by lra. unfold dbl, scross, vsub. cbn [fst snd]. lra.
Qed.

Lemma le_dist P Q r : 0 <= r -> r * r <= dist2 P Q -> r <= dist P Q.
Proof. intros H E. apply Rsqr_incr_0; [unfold Rsqr; rewrite dist_sq; exact E|auto|apply dist_nonneg]. Qed.

Lemma T345_packed : packed3 (0, 0) (4, 0) (0, 3) (1, 1) 1 (5 / 2, 1 / 2) (1 / 2) (3 / 8, 9 / 4) (3 / 8).
Proof.
  split; [lra|]. split; [repeat split; apply T345_disc_in; lra|]. repeat split; apply le_dist; unfold dist2, sdot, vsub; cbn [fst snd]; lra.
Qed.

Lemma T345_Ravi : Ravi (0, 0) (4, 0) (0, 3) 1 3 2 6.
Proof. unfold Ravi. rewrite T345_a, T345_b, T345_c, T345_dbl. rewrite Rabs_pos_eq by lra. lra. Qed.

Lemma sqrt_in x l u : 0 <= l -> l * l <= x <= u * u -> 0 <= u -> l <= sqrt x <= u.
Proof. intros Hl (H1 & H2) Hu. assert (X : 0 <= x) by nra. pose proof (sqrt_sqrt x X). pose proof (sqrt_pos x). split; nra. Qed.

Lemma malfatti_345 : exists cA cB cC T, malfatti_circles (mkTri (0, 0) (4, 0) (0, 3)) = Ok (Some ((cA, cB, cC), T)) /\ cr cA * cr cA + cr cB * cr cB + cr cC * cr cC <= 13 / 10.
Proof.
  destruct (malfatti_spec _ _ _ T345_nc) as (cA & cB & cC & TA & TB & TC & HM & _). exists cA, cB, cC, (TA, TB, TC). split; [exact HM|].
  destruct (malfatti_eval _ _ _ _ _ _ _ T345_Ravi) as ((D1 & D2 & D3) & _ & _ & _ & E). rewrite HM in E.
  set (c1 := mkCircle (mcenter (0, 0) _ _) _) in E. set (c2 := mkCircle (mcenter (4, 0) _ _) _) in E. set (c3 := mkCircle (mcenter (0, 3) _ _) _) in E.
  destruct (tangency (cO c2) (cO c3) (cr c2)) as [t1|]; [|discriminate]. destruct (tangency (cO c1) (cO c3) (cr c1)) as [t2|]; [|discriminate]. destruct (tangency (cO c1) (cO c2) (cr c1)) as [t3|]; [|discriminate]. cbn [bind] in E. injection E as -> -> -> _ _ _.
  unfold c1, c2, c3. cbn [cr]. 
  assert (EI : incenter (0, 0) (4, 0) (0, 3) 1 3 2 = (1, 1)) by (unfold incenter, bary; cbn [fst snd]; f_equal; field). rewrite EI in *.
  assert (S1 : 1.414 <= dist (0, 0) (1, 1) <= 1.415) by (apply sqrt_in; unfold dist2, sdot, vsub; cbn [fst snd]; lra).
  assert (S2 : 3.162 <= dist (4, 0) (1, 1) <= 3.163) by (apply sqrt_in; unfold dist2, sdot, vsub; cbn [fst snd]; lra).
  assert (S3 : 2.236 <= dist (0, 3) (1, 1) <= 2.237) by (apply sqrt_in; unfold dist2, sdot, vsub; cbn [fst snd]; lra).
  set (u := dist (0, 0) (1, 1)) in *. set (v := dist (4, 0) (1, 1)) in *. set (q := dist (0, 3) (1, 1)) in *.
  set (d1 := (1 + 3 + 2 - 6 / (1 + 3 + 2) - (v + q - u)) / 2) in *. set (d2 := (1 + 3 + 2 - 6 / (1 + 3 + 2) - (q + u - v)) / 2) in *. set (d3 := (1 + 3 + 2 - 6 / (1 + 3 + 2) - (u + v - q)) / 2) in *.
  replace (6 / (1 + 3 + 2)) with 1 in * by field.
  assert (B1 : 0 <= 1 * d1 / 1 <= 51 / 100) by (unfold d1 in *; lra). assert (B2 : 0 <= 1 * d2 / 3 <= 76 / 100) by (unfold d2 in *; lra). assert (B3 : 0 <= 1 * d3 / 2 <= 67 / 100) by (unfold d3 in *; lra).
  set (r1 := 1 * d1 / 1) in *. set (r2 := 1 * d2 / 3) in *. set (r3 := 1 * d3 / 2) in *. assert (r1 * r1 <= 51 / 100 * (51 / 100)) by (apply Rmult_le_compat; lra). assert (r2 * r2 <= 76 / 100 * (76 / 100)) by (apply Rmult_le_compat; lra). assert (r3 * r3 <= 67 / 100 * (67 / 100)) by (apply Rmult_le_compat; lra). lra.
Qed.

Lemma malfatti_not_largest : exists A B C cA cB cC T O1 r1 O2 r2 O3 r3, ~ collinear A B C /\ malfatti_circles (mkTri A B C) = Ok (Some ((cA, cB, cC), T)) /\
  packed3 A B C O1 r1 O2 r2 O3 r3 /\ PI * cr cA ^ 2 + PI * cr cB ^ 2 + PI * cr cC ^ 2 < PI * r1 ^ 2 + PI * r2 ^ 2 + PI * r3 ^ 2.
Proof.
  destruct malfatti_345 as (cA & cB & cC & T & HM & L). exists (0, 0), (4, 0), (0, 3), cA, cB, cC, T, (1, 1), 1, (5 / 2, 1 / 2), (1 / 2), (3 / 8, 9 / 4), (3 / 8). split; [exact T345_nc|]. split; [exact HM|]. split; [exact T345_packed|]. rewrite <- !Rmult_plus_distr_l. apply Rmult_lt_compat_l; [apply PI_RGT_0|]. lra.
Qed.

(** ** The Malfatti circles of any triangle are packed in it *)
Lemma shrink_in A B C I0 rho k : 0 < k <= 1 -> disc_in_triangle A B C I0 rho -> disc_in_triangle A B C (mcenter A I0 k) (k * rho).
Proof.
  intros Hk H M HM. set (P := vadd A (vscal (/ k) (vsub M A))). assert (EP : dist I0 P <= rho).
  { apply Rmult_le_reg_l with k; [lra|]. apply Rle_trans with (2 := HM). apply Req_le. apply Rsqr_inj; [apply Rmult_le_pos; [lra|apply dist_nonneg]|apply dist_nonneg|]. unfold Rsqr. replace (k * dist I0 P * (k * dist I0 P)) with (k * k * (dist I0 P * dist I0 P)) by ring. rewrite !dist_sq. unfold P, mcenter, dist2, sdot, vadd, vsub, vscal. cbn [fst snd]. field. lra. }
  destruct (H P EP) as (u & v & w & Hu & Hv & Hw & S & E). exists (1 - k + k * u), (k * v), (k * w). split; [nra|]. split; [nra|]. split; [nra|]. split; [replace u with (1 - v - w) by lra; ring|].
  assert (EM : M = vadd A (vscal k (vsub P A))) by (unfold P; destruct M, A; unfold vadd, vsub, vscal; cbn [fst snd]; f_equal; field; lra). rewrite EM, E. replace u with (1 - v - w) by lra. unfold bary, vadd, vsub, vscal. cbn [fst snd]. f_equal; ring.
Qed.

Lemma in_perm A B C O r : disc_in_triangle B C A O r -> disc_in_triangle A B C O r.
Proof. intros H M HM. destruct (H M HM) as (u & v & w & Hu & Hv & Hw & S & ->). exists w, u, v. repeat (split; [lra|]). unfold bary. f_equal; ring. Qed.

Lemma malfatti_packed A B C : ~ collinear A B C -> exists cA cB cC T, malfatti_circles (mkTri A B C) = Ok (Some ((cA, cB, cC), T)) /\ packed3 A B C (cO cA) (cr cA) (cO cB) (cr cB) (cO cC) (cr cC).
Proof.
  intros N. destruct (malfatti_spec _ _ _ N) as (cA & cB & cC & TA & TB & TC & HM & K1 & K2 & K3 & X1 & X2 & X3 & _). exists cA, cB, cC, (TA, TB, TC). split; [exact HM|]. 
  split; [repeat split; [apply K1|apply K2|apply K3]|]. split; [|unfold ext_tangent in *; repeat split; lra].
  apply not_collinear_dbl in N as D0. destruct (Ravi_ex A B C D0) as (x & y & z & S & H). destruct (malfatti_eval _ _ _ _ _ _ _ H) as ((D1 & D2 & D3) & _ & _ & _ & E). rewrite HM in E.
  set (c1 := mkCircle (mcenter A _ _) _) in E. set (c2 := mkCircle (mcenter B _ _) _) in E. set (c3 := mkCircle (mcenter C _ _) _) in E.
  destruct (tangency (cO c2) (cO c3) (cr c2)) as [t1|]; [|discriminate]. destruct (tangency (cO c1) (cO c3) (cr c1)) as [t2|]; [|discriminate]. destruct (tangency (cO c1) (cO c2) (cr c1)) as [t3|]; [|discriminate]. cbn [bind] in E. injection E as -> -> -> _ _ _.
  destruct H as (Hx & Hy & Hz & HS & S2 & Ea & Eb & Ec & ES).
  assert (HI : disc_in_triangle A B C (incenter A B C x y z) (S / (x + y + z))).
  { destruct (incircle_largest A B C N) as (c & Hc & HI & _). destruct (incircle_total A B C D0) as (Hi & _). cbv zeta in Hi. rewrite Hc in Hi. injection Hi as ->. cbn [cO cr] in HI. rewrite Ea, Eb, Ec, ES in HI.
    replace (incenter A B C x y z) with (bary ((y + z) / (y + z + (x + z) + (x + y))) ((x + z) / (y + z + (x + z) + (x + y))) ((x + y) / (y + z + (x + z) + (x + y))) A B C) by (unfold incenter; cbv zeta; replace (2 * (x + y + z)) with (y + z + (x + z) + (x + y)) by ring; reflexivity).
    replace (S / (x + y + z)) with (2 * S / (y + z + (x + z) + (x + y))) by (field; lra). exact HI. }
  set (I0 := incenter A B C x y z) in *. set (r := S / (x + y + z)) in *.
  assert (QQ : forall d x, 0 < d < x -> 0 < d / x <= 1). { intros d x' (P1 & P2). assert (0 < x') by lra. split; [apply Rdiv_lt_0_compat; lra|]. apply Rmult_le_reg_r with x'; [lra|]. unfold Rdiv. rewrite Rmult_assoc, Rinv_l by lra. lra. }
  unfold c1, c2, c3. cbn [cO cr]. set (d1 := (_ - (_ - dist A I0)) / 2) in *. set (d2 := (_ - (_ - dist B I0)) / 2) in *. set (d3 := (_ - (_ - dist C I0)) / 2) in *. split; [|split].
  - replace (r * d1 / x) with (d1 / x * r) by (field; lra). apply shrink_in; auto.
  - replace (r * d2 / y) with (d2 / y * r) by (field; lra). apply in_perm. apply shrink_in; auto. apply in_perm, in_perm. exact HI.
  - replace (r * d3 / z) with (d3 / z * r) by (field; lra). apply in_perm, in_perm. apply shrink_in; auto. apply in_perm. exact HI.
Qed.

(** ** Concrete triangles *)
Lemma acute_case : ~ collinear (0, 0) (4, 0) (1, 3) /\ is_acute (mkTri (0, 0) (4, 0) (1, 3)) = true /\
  0 < sdot (vsub (4, 0) (0, 0)) (vsub (1, 3) (0, 0)) /\ 0 < sdot (vsub (0, 0) (4, 0)) (vsub (1, 3) (4, 0)) /\ 0 < sdot (vsub (0, 0) (1, 3)) (vsub (4, 0) (1, 3)).
Proof.
  split; [apply not_collinear_dbl; unfold dbl, scross, vsub; cbn [fst snd]; lra|]. split; [apply is_acute_spec; cbn [tA tB tC]|]; unfold sdot, vsub; cbn [fst snd]; lra.
Qed.
Lemma obtuse_case : ~ collinear (0, 1) (-4, 0) (4, 0) /\ allclose (-4, 0) (4, 0) = false /\ sdot (vsub (-4, 0) (0, 1)) (vsub (4, 0) (0, 1)) < 0.
Proof.
  split; [apply not_collinear_dbl; unfold dbl, scross, vsub; cbn [fst snd]; lra|]. split; [evalclose|unfold sdot, vsub; cbn [fst snd]; lra].
Qed.
