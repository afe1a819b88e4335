(** * Ellipses through four points on two lines. *)

From Coq Require Import Reals Lra Lia Psatz List Bool.
From Verif Require Import Base BaseLemmas Spec SpecLemmas PBoundary4a.
Import ListNotations.
Local Open Scope R_scope.

Lemma ell_quad O a b th : 0 < a -> 0 < b -> exists A B C, 0 < A /\ (A * C - B * B) * (a * b * (a * b)) = 1 /\
  forall M, ell_form O a b th M = A * ((fst M - fst O) * (fst M - fst O)) + 2 * B * ((fst M - fst O) * (snd M - snd O)) + C * ((snd M - snd O) * (snd M - snd O)).
Proof.
  intros Ha Hb. pose proof (sin2_cos2 th) as E. unfold Rsqr in E.
  exists (cos th * cos th / (a * a) + sin th * sin th / (b * b)), (cos th * sin th / (a * a) - cos th * sin th / (b * b)), (sin th * sin th / (a * a) + cos th * cos th / (b * b)).
  split; [|split].
  - replace (cos th * cos th / (a * a) + sin th * sin th / (b * b)) with ((cos th / a) * (cos th / a) + (sin th / b) * (sin th / b)) by (field; lra).
    pose proof (sqnn (cos th / a)). pose proof (sqnn (sin th / b)).
    destruct (Req_dec (cos th) 0) as [Z|Z].
    + assert (0 < (sin th / b) * (sin th / b)); [|lra]. apply sqpos. intros K. assert (sin th = 0). { replace (sin th) with (sin th / b * b) by (field; lra). rewrite K. ring. } rewrite Z, H1 in E. lra.
    + assert (0 < (cos th / a) * (cos th / a)); [|lra]. apply sqpos. intros K. apply Z. replace (cos th) with (cos th / a * a) by (field; lra). rewrite K. ring.
  - transitivity ((sin th * sin th + cos th * cos th) * (sin th * sin th + cos th * cos th)); [field; lra|rewrite E; ring].
  - intros M. unfold ell_form, fx, fy. field. lra.
Qed.

(** coordinates in the frame (X; i, j) *)
Definition inframe (X i j : pt) (x y : R) : pt := vadd X (vadd (vscal x i) (vscal y j)).

Lemma inframe_coords X i j M : scross i j = 1 -> M = inframe X i j (scross (vsub M X) j) (scross i (vsub M X)).
Proof.
  intros H. destruct X as [x1 x2], i as [i1 i2], j as [j1 j2], M as [m1 m2]. unfold inframe, scross, vsub, vadd, vscal in *; cbn [fst snd] in *.
  apply injective_projections; cbn [fst snd].
  - transitivity (x1 + (m1 - x1) * (i1 * j2 - i2 * j1)); [rewrite H; ring|ring].
  - transitivity (x2 + (m2 - x2) * (i1 * j2 - i2 * j1)); [rewrite H; ring|ring].
Qed.

Lemma conic_through O a b th X i j a0 a1 a2 a3 : 0 < a -> 0 < b -> scross i j = 1 ->
  0 < a0 -> 0 < a1 -> 0 < a2 -> 0 < a3 -> a0 * a2 = a1 * a3 ->
  on_ellipse O a b th (inframe X i j (- a0) 0) -> on_ellipse O a b th (inframe X i j a2 0) ->
  on_ellipse O a b th (inframe X i j 0 a1) -> on_ellipse O a b th (inframe X i j 0 (- a3)) ->
  let K := a0 * a2 in let U := (a2 - a0) / 2 in let W := (a1 - a3) / 2 in
  exists h q, -1 < h < 1 /\ 0 < q /\ q * (U * U + W * W - 2 * h * (U * W) + K * (1 - h * h)) = 1 - h * h /\
  a * b * (q * sqrt (1 - h * h)) = 1 /\
  forall x y, ell_form O a b th (inframe X i j x y) = 1 + q * (x * x + 2 * h * (x * y) + y * y - 2 * U * x - 2 * W * y - K).
Proof.
  intros Ha Hb Hij H0 H1 H2 H3 HK E0 E2 E1 E3 K U W.
  destruct (ell_quad O a b th Ha Hb) as (A & B & C & HA & HD & HF).
  pose proof (inframe_coords X i j O Hij) as EO. set (o1 := scross (vsub O X) j) in *. set (o2 := scross i (vsub O X)) in *. clearbody o1 o2.
  destruct i as [i1 i2], j as [j1 j2], X as [x1 x2].
  set (A' := A * (i1 * i1) + 2 * B * (i1 * i2) + C * (i2 * i2)).
  set (B' := A * (i1 * j1) + B * (i1 * j2 + i2 * j1) + C * (i2 * j2)).
  set (C' := A * (j1 * j1) + 2 * B * (j1 * j2) + C * (j2 * j2)).
  assert (HF' : forall x y, ell_form O a b th (inframe (x1, x2) (i1, i2) (j1, j2) x y) = A' * ((x - o1) * (x - o1)) + 2 * B' * ((x - o1) * (y - o2)) + C' * ((y - o2) * (y - o2))).
  { intros x y. rewrite HF, EO. unfold inframe, vadd, vscal, A', B', C'; cbn [fst snd]. ring. }
  assert (HD' : (A' * C' - B' * B') * (a * b * (a * b)) = 1).
  { rewrite <- HD. replace (A' * C' - B' * B') with ((A * C - B * B) * (scross (i1, i2) (j1, j2) * scross (i1, i2) (j1, j2))) by (unfold A', B', C', scross; cbn [fst snd]; ring). rewrite Hij. ring. }
  clear HD HF EO HA. clearbody A' B' C'. clear A B C. unfold on_ellipse in *. rewrite HF' in E0, E1, E2, E3.
  (* the coefficients *)
  set (f := A' * (o1 * o1) + 2 * B' * (o1 * o2) + C' * (o2 * o2) - 1) in *.
  set (n1 := A' * o1 + B' * o2) in *. set (n2 := B' * o1 + C' * o2) in *.
  assert (G0 : A' * (a0 * a0) + 2 * n1 * a0 + f = 0) by (unfold n1, f; lra).
  assert (G2 : A' * (a2 * a2) - 2 * n1 * a2 + f = 0) by (unfold n1, f; lra).
  assert (G1 : C' * (a1 * a1) - 2 * n2 * a1 + f = 0) by (unfold n2, f; lra).
  assert (G3 : C' * (a3 * a3) + 2 * n2 * a3 + f = 0) by (unfold n2, f; lra).
  assert (Hn1 : n1 = A' * U).
  { assert (Z : (a0 + a2) * (A' * (a0 - a2) + 2 * n1) = 0) by (transitivity ((A' * (a0 * a0) + 2 * n1 * a0 + f) - (A' * (a2 * a2) - 2 * n1 * a2 + f)); [ring|lra]).
    apply Rmult_integral in Z. destruct Z as [Z|Z]; [lra|]. unfold U. lra. }
  assert (Hn2 : n2 = C' * W).
  { assert (Z : (a1 + a3) * (C' * (a3 - a1) + 2 * n2) = 0) by (transitivity ((C' * (a3 * a3) + 2 * n2 * a3 + f) - (C' * (a1 * a1) - 2 * n2 * a1 + f)); [ring|lra]).
    apply Rmult_integral in Z. destruct Z as [Z|Z]; [lra|]. unfold W. lra. }
  assert (Hf : f = - A' * K). { rewrite Hn1 in G0. unfold U, K in *. lra. }
  assert (Hf' : f = - C' * K). { rewrite Hn2 in G3. unfold W, K in *. rewrite HK. lra. }
  assert (KP : 0 < K) by (unfold K; apply Rmult_lt_0_compat; lra).
  assert (HC : C' = A'). { apply Rmult_eq_reg_r with K; lra. }
  clear Hf'. subst C'. rename A' into q.
  assert (Pab : 0 < a * b) by (apply Rmult_lt_0_compat; auto).
  assert (Det : 0 < q * q - B' * B'). { assert (0 < a * b * (a * b)) by (apply Rmult_lt_0_compat; auto). clear - HD' H. nra. }
  (* f < 0 because X is inside: q > 0 *)
  assert (Ef : (q * q - B' * B') * (f + 1) = q * (n1 * n1) - 2 * B' * (n1 * n2) + q * (n2 * n2)) by (unfold f, n1, n2; ring).
  assert (Qp : 0 < q).
  { destruct (Rlt_dec 0 q) as [|N]; auto. exfalso. apply Rnot_lt_le in N.
    assert (0 <= f) by (rewrite Hf; clear - N KP; nra).
    assert (q * (n1 * n1) - 2 * B' * (n1 * n2) + q * (n2 * n2) <= 0).
    { assert (Nq : q < 0). { destruct (Req_dec q 0) as [Z|Z]; [rewrite Z in Det; clear - Det; nra|lra]. }
      assert (Z : q * (q * (n1 * n1) - 2 * B' * (n1 * n2) + q * (n2 * n2)) = (q * n1 - B' * n2) * (q * n1 - B' * n2) + (q * q - B' * B') * (n2 * n2)) by ring.
      assert (0 <= (q * q - B' * B') * (n2 * n2)) by (apply Rmult_le_pos; [lra|apply sqnn]). pose proof (sqnn (q * n1 - B' * n2)). clear - Z Nq H4 H5. nra. }
    assert (0 < (q * q - B' * B') * (f + 1)) by (apply Rmult_lt_0_compat; lra). lra. }
  exists (B' / q), q.
  assert (Eh : q * q - B' * B' = q * q * (1 - B' / q * (B' / q))) by (field; lra).
  set (h := B' / q) in *. assert (HB : B' = q * h) by (unfold h; field; lra). clearbody h.
  assert (Hh : 0 < 1 - h * h). { rewrite Eh in Det. assert (0 < q * q) by (apply Rmult_lt_0_compat; auto). clear - Det H. nra. }
  split; [split; clear - Hh; nra|]. split; [auto|]. split; [|split].
  - rewrite Hn1, Hn2, Hf, HB in Ef.
    assert (Z : q * q * ((1 - h * h) * (1 - q * K)) = q * q * (q * (U * U + W * W - 2 * h * (U * W)))) by (transitivity ((q * q - q * h * (q * h)) * (- q * K + 1)); [ring|rewrite Ef; ring]).
    apply Rmult_eq_reg_l in Z; [|clear - Qp; nra]. lra.
  - assert (Sp : 0 < sqrt (1 - h * h)) by (apply sqrt_lt_R0; auto). pose proof (sqrt_sqrt (1 - h * h) ltac:(lra)) as SS.
    assert (Z : (a * b * (q * sqrt (1 - h * h))) * (a * b * (q * sqrt (1 - h * h))) = 1).
    { transitivity (q * q * (sqrt (1 - h * h) * sqrt (1 - h * h)) * (a * b * (a * b))); [ring|]. rewrite SS, <- Eh. exact HD'. }
    assert (0 < a * b * (q * sqrt (1 - h * h))) by (apply Rmult_lt_0_compat; [auto|apply Rmult_lt_0_compat; auto]). clear - Z H. nra.
  - intros x y. rewrite HF'. transitivity (q * (x * x) + 2 * B' * (x * y) + q * (y * y) - 2 * n1 * x - 2 * n2 * y + f + 1).
    { unfold n1, n2, f. ring. } rewrite Hn1, Hn2, Hf, HB. ring.
Qed.

(** the area as a function of the angle *)
Lemma area_farea K U W a b h q : 0 < q -> -1 < h < 1 -> q * (U * U + W * W - 2 * h * (U * W) + K * (1 - h * h)) = 1 - h * h ->
  a * b * (q * sqrt (1 - h * h)) = 1 -> a * b = farea K U W (asin h).
Proof.
  intros Hq Hh E1 E2. unfold farea. rewrite sin_asin by lra. rewrite cos_asin by lra. unfold Rsqr.
  assert (Hp : 0 < 1 - h * h) by (clear - Hh; nra).
  assert (Sp : 0 < sqrt (1 - h * h)) by (apply sqrt_lt_R0; auto). pose proof (sqrt_sqrt (1 - h * h) ltac:(lra)) as SS. set (c := sqrt (1 - h * h)) in *. clearbody c.
  assert (Ea : a * b = / (q * c)). { apply Rmult_eq_reg_r with (q * c); [|apply Rgt_not_eq, Rmult_lt_0_compat; auto]. rewrite E2. field. lra. }
  rewrite Ea. rewrite <- SS in E1. 
  replace ((U * U + W * W - 2 * (U * W) * h) / c ^ 3 + K / c) with ((q * (U * U + W * W - 2 * h * (U * W) + K * (c * c))) / (q * c ^ 3)) by (field; lra).
  rewrite E1. field. lra.
Qed.
