(** * Proofs about the triangular gasket: a hole in a corner. *)

From Coq Require Import Reals Lra Lia Psatz List Bool ZArith.
From Verif Require Import Base BaseLemmas Spec SpecLemmas SpecTriangle ModelInternal ModelLine ModelCircle ModelAffine ModelTriangle ModelGasket PLine PInvBase PTriangle PTriangle2 PTriangle3 PTriangle4 PTriangle5 PSteiner PGasket1 PGasket2 PGasket3.
Import ListNotations.
Local Open Scope R_scope.

(** the corner A, the circle c in it; u, v unit vectors of the sides AC, AB *)
Lemma cll_geom e A B C c D : posc c -> posc D -> cO D = A -> ortho D c -> e * e = 1 ->
  0 < e * scross (vsub B A) (vsub C A) -> touch e A B c -> touch (- e) A C c ->
  let b := dist A C in let a := dist A B in let w := vsub (cO c) A in let r := cr c in let d := dist A (cO c) in let T := cr D in
  exists u v q de, 0 < a /\ 0 < b /\ vsub C A = vscal b u /\ vsub B A = vscal a v /\ sdot u u = 1 /\ sdot v v = 1 /\
    0 < q /\ 0 < de /\ e * scross v u = de /\ w = vscal q (vadd u v) /\ r = q * de /\ 0 < r < d /\
    d * d = T * T + r * r /\ d * d = sdot w w /\ T = q * (1 + sdot u v) /\ 2 * q * T = d * d /\ (2 - 2 * sdot u v) = (2 * r / d) * (2 * r / d).
Proof.
  intros Pc PD ED O He Hx T1 T2 b a w r d T. unfold posc, ortho, touch in *.
  assert (NAB : A <> B) by (intros <-; unspec; rewrite ?Rminus_eq_0 in Hx; lra).
  assert (NAC : A <> C) by (intros <-; unspec; rewrite ?Rminus_eq_0 in Hx; lra).
  pose proof (dist_pos _ _ NAB) as Pa. pose proof (dist_pos _ _ NAC) as Pb. pose proof (dist_sq A B) as Qa. pose proof (dist_sq A C) as Qb. fold a in Pa, Qa, T1. fold b in Pb, Qb, T2.
  set (u := vscal (/ b) (vsub C A)). set (v := vscal (/ a) (vsub B A)).
  assert (Eu : vsub C A = vscal b u) by (unfold u; unpt; f_equal; field; lra). assert (Ev : vsub B A = vscal a v) by (unfold v; unpt; f_equal; field; lra).
  assert (Uu : sdot u u = 1) by (transitivity (dist2 A C / (b * b)); [unfold u; unspec; field; lra|rewrite <- Qb; field; lra]).
  assert (Uv : sdot v v = 1) by (transitivity (dist2 A B / (a * a)); [unfold v; unspec; field; lra|rewrite <- Qa; field; lra]).
  fold w in T1, T2. rewrite Ev in T1, Hx. rewrite Eu in T2, Hx. fold r in T1, T2, Pc.
  assert (R1 : e * scross v w = r). { apply (Rmult_eq_reg_r a); [|lra]. rewrite <- T1. unspec. ring. }
  assert (R2 : - e * scross u w = r). { apply (Rmult_eq_reg_r b); [|lra]. rewrite <- T2. unspec. ring. }
  set (de := e * scross v u). assert (Pde : 0 < de).
  { assert (E : e * scross (vscal a v) (vscal b u) = a * b * de) by (unfold de; unspec; ring). rewrite E in Hx. pose proof (Rmult_lt_0_compat _ _ Pa Pb).
    apply (Rmult_lt_reg_l (a * b)); auto. lra. }
  clearbody u v. clear T1 T2 Hx.
  set (q := r / de). assert (Pq : 0 < q) by (apply Rmult_lt_0_compat; auto; apply Rinv_0_lt_compat; auto). assert (Er : r = q * de) by (unfold q; field; lra).
  assert (Xs : scross v u = e * de) by (unfold de; rewrite <- Rmult_assoc, He; ring).
  assert (Xv : scross v w = e * r) by (rewrite <- R1, <- Rmult_assoc, He; ring). assert (Xu : scross u w = - e * r) by (rewrite <- R2; transitivity (e * e * scross u w); [rewrite He|]; ring).
  assert (Ew : w = vscal q (vadd u v)).
  { (* w * scross v u = u * scross v w - v * scross u w *)
    assert (Nx : scross v u <> 0) by (rewrite Xs; intros E; assert (e * (e * de) = 0) by (rewrite E; ring); rewrite <- Rmult_assoc, He in H; lra).
    assert (H1 : fst w * scross v u = fst (vscal (q * scross v u) (vadd u v))).
    { transitivity (fst u * scross v w - fst v * scross u w); [unspec; ring|]. rewrite Xv, Xu, Xs, Er. unpt. ring. }
    assert (H2 : snd w * scross v u = snd (vscal (q * scross v u) (vadd u v))).
    { transitivity (snd u * scross v w - snd v * scross u w); [unspec; ring|]. rewrite Xv, Xu, Xs, Er. unpt. ring. }
    destruct w as [w1 w2]. cbn [fst snd vscal vadd] in *. unfold vscal, vadd. cbn [fst snd]. f_equal; apply (Rmult_eq_reg_r (scross v u)); auto; [rewrite H1|rewrite H2]; ring. }
  pose proof (dist_sq A (cO c)) as Qd. fold d in Qd. assert (Qw : d * d = sdot w w) by (rewrite Qd; reflexivity).
  rewrite ED in O. rewrite <- Qd in O. fold r T in O, PD. pose proof (dist_nonneg A (cO c)) as Nd. fold d in Nd.
  pose proof (Rmult_lt_0_compat _ _ PD PD) as PTT. assert (Lrd : r < d) by nra.
  set (g := sdot u v). assert (Gd : g * g + de * de = 1).
  { transitivity (g * g + scross v u * scross v u); [rewrite Xs; transitivity (g * g + e * e * (de * de)); [rewrite He|]; ring|]. transitivity (sdot u u * sdot v v); [unfold g; unspec; ring|rewrite Uu, Uv; ring]. }
  assert (Dd : d * d = q * q * (2 + 2 * g)).
  { rewrite Qw, Ew. transitivity (q * q * (sdot u u + sdot v v + 2 * g)); [unfold g; unspec; ring|]. rewrite Uu, Uv. ring. }
  assert (Pg : 0 < 1 + g). { pose proof (Rmult_lt_0_compat _ _ Pq Pq). pose proof (Rmult_lt_0_compat d d ltac:(lra) ltac:(lra)). nra. }
  assert (ET : T = q * (1 + g)).
  { assert (F : (T - q * (1 + g)) * (T + q * (1 + g)) = 0).
    { transitivity (T * T - q * q * ((1 + g) * (1 + g))); [ring|]. replace (T * T) with (d * d - r * r) by lra. rewrite Dd, Er. transitivity (q * q * (1 - (g * g + de * de))); [ring|rewrite Gd; ring]. }
    pose proof (Rmult_lt_0_compat _ _ Pq Pg). apply Rmult_integral in F. lra. }
  exists u, v, q, de. repeat (split; [assumption || lra|]). split; [reflexivity|]. repeat (split; [assumption || lra|]).
  split; [rewrite ET, Dd; ring|].
  apply (Rmult_eq_reg_r (d * d)); [|nra]. transitivity (4 * (r * r)); [|field; lra]. rewrite Er, Dd. transitivity (4 * (q * q) * (1 - g * g)); [fold g; ring|]. replace (1 - g * g) with (de * de) by lra. ring.
Qed.

(** the circle found in a corner: the image of [c] by a homothety of centre [A] *)
Definition corner_ratio (A : pt) (c : circle) : R := (dist A (cO c) - cr c) / (dist A (cO c) + cr c).
Definition corner_next (A : pt) (c : circle) : circle :=
  mkCircle (at_line A (cO c) (corner_ratio A c)) (corner_ratio A c * cr c).

Lemma incircle_corner A u v s q de e d r : sdot u u = 1 -> sdot v v = 1 -> 0 < q -> 0 < de -> e * e = 1 -> e * scross v u = de -> 0 < s ->
  0 < r < d -> r = q * de -> 2 - 2 * sdot u v = (2 * r / d) * (2 * r / d) ->
  incircle (mkTri A (vadd A (vscal s u)) (vadd A (vscal s v))) =
    Ok (mkCircle (vadd A (vscal (s * d / (2 * (d + r))) (vadd u v))) (s * d / (2 * (d + r)) * de)).
Proof.
  intros Uu Uv Pq Pde He Ede Ps Hr Er Eg.
  assert (X : scross u v * scross u v = de * de). { transitivity ((e * e) * (scross v u * scross v u)); [rewrite He; unspec; ring|]. rewrite <- Ede. ring. }
  assert (EA : dbl A (vadd A (vscal s u)) (vadd A (vscal s v)) = s * s * scross u v) by (unfold dbl; unspec; ring).
  assert (Xn : scross u v <> 0) by (intros E; rewrite E in X; pose proof (Rmult_lt_0_compat _ _ Pde Pde); lra).
  assert (N : dbl A (vadd A (vscal s u)) (vadd A (vscal s v)) <> 0).
  { rewrite EA. apply Rmult_integral_contrapositive_currified; auto. apply Rgt_not_eq, Rmult_lt_0_compat; auto. }
  destruct (incircle_total _ _ _ N) as (E & _). cbv zeta in E. rewrite E.
  assert (A1 : Rabs (dbl A (vadd A (vscal s u)) (vadd A (vscal s v))) = s * s * de).
  { rewrite EA, Rabs_mult. rewrite (Rabs_right (s * s)) by (pose proof (sqnn s); lra). f_equal.
    pose proof (Rabs_sq (scross u v)) as Q. pose proof (Rabs_pos (scross u v)). rewrite X in Q. assert (F : (Rabs (scross u v) - de) * (Rabs (scross u v) + de) = 0) by lra. apply Rmult_integral in F. lra. }
  assert (Pq2 : 0 < 2 * r / d) by (apply Rmult_lt_0_compat; [lra|apply Rinv_0_lt_compat; lra]).
  assert (B1 : dist (vadd A (vscal s u)) (vadd A (vscal s v)) = s * (2 * r / d)).
  { apply sqrt_eq; [apply Rmult_le_pos; lra|]. transitivity (s * s * (sdot u u + sdot v v - 2 * sdot u v)); [|unspec; ring]. rewrite Uu, Uv. replace (1 + 1 - 2 * sdot u v) with (2 - 2 * sdot u v) by ring. rewrite Eg. ring. }
  assert (B2 : dist A (vadd A (vscal s u)) = s). { apply sqrt_eq; [lra|]. transitivity (s * s * sdot u u); [rewrite Uu; ring|unspec; ring]. }
  assert (B3 : dist A (vadd A (vscal s v)) = s). { apply sqrt_eq; [lra|]. transitivity (s * s * sdot v v); [rewrite Uv; ring|unspec; ring]. }
  rewrite A1, B1, B2, B3. replace (s * (2 * r / d) + s + s) with (2 * s * (d + r) / d) by (field; lra). f_equal. f_equal; [|field; lra].
  unfold bary. unpt. f_equal; field; lra.
Qed.

Lemma side_side_cases A B C c D : region (CLL A B C c) D -> let w := vsub (cO c) A in let k := cr c / dist A (cO c) in
  exists P P', P = vadd A (vscal (1 - k) w) /\ vsub P' P = vscal (- k) (- snd w, fst w) /\
  ((side_side_circle A B C c = Raise ValueError /\ (allclose P P' = true \/ allclose A C = true \/ allclose A B = true \/
      intersection_line_line (mkLine P P' true true) (mkLine A C true true) false = None \/
      intersection_line_line (mkLine P P' true true) (mkLine A B true true) false = None)) \/
   (allclose P P' = false /\
    side_side_circle A B C c = Ok (corner_next A c, [CLL A B C (corner_next A c); CCL c (corner_next A c) A B; CCL c (corner_next A c) A C]))).
Proof.
  intros (Pc & PD & ED & O & e & He & Hx & T1 & T2) w0 k.
  destruct (cll_geom e A B C c D Pc PD ED O He Hx T1 T2) as (u & v & q & de & Pa & Pb & Eu & Ev & Uu & Uv & Pq & Pde & Ede & Ew & Er & Hr & Ed & Qd & ET & E2 & Eg).
  unfold posc in *. set (r := cr c) in *. set (d := dist A (cO c)) in *. set (T := cr D) in *. set (w := vsub (cO c) A) in *. change w0 with w. change k with (r / d). clear w0 k.
  unfold side_side_circle. cbv zeta.
  assert (Ea : sqrt (fst (A - cO c)%C * fst (A - cO c)%C + snd (A - cO c)%C * snd (A - cO c)%C) = d).
  { apply sqrt_eq; [lra|]. rewrite Qd. unfold w, Csub. unspec. ring. }
  rewrite Ea. fold r. rewrite (np_div_ok _ _ (- (r / d) * fst w)); [cbn [bind] | lra | unfold w, Csub; unpt; field; lra].
  rewrite (np_div_ok _ _ (- (r / d) * snd w)); [cbn [bind] | lra | unfold w, Csub; unpt; field; lra].
  set (P := (cO c + (_, _))%C). assert (EP : P = vadd A (vscal (1 - r / d) w)) by (unfold P, w, Cadd; unpt; f_equal; field; lra). clearbody P.
  assert (EOP : vsub P (cO c) = vscal (- (r / d)) w) by (rewrite EP; unfold w; unpt; f_equal; field; lra). rewrite EOP.
  set (P' := vadd P _). exists P, P'. split; [exact EP|]. split; [unfold P'; unpt; f_equal; ring|].
  unfold Line_init. destruct (allclose P P'); [left; split; [reflexivity|auto]|]. cbn [bind]. destruct (allclose A C); [left; split; [reflexivity|auto]|]. cbn [bind].
  destruct (allclose A B); [left; split; [reflexivity|auto]|]. cbn [bind].
  destruct (intersection_line_line _ (mkLine A C true true) false) as [P1|] eqn:E1; [|left; split; [reflexivity|auto]].
  destruct (intersection_line_line _ (mkLine A B true true) false) as [P2|] eqn:E2'; [|left; split; [reflexivity|auto 8]].
  right. split; [reflexivity|].
  assert (NPP : P <> P'). { intros E. apply (f_equal (dist2 P)) in E. unfold P' in E. assert (K : (r / d) * (r / d) * sdot w w = 0) by (transitivity (dist2 P P'); [unfold P'; unspec; ring|unfold P'; rewrite <- E; unspec; ring]).
    rewrite <- Qd in K. assert (K2 : r * r = 0) by (rewrite <- K; field; lra). pose proof (Rmult_lt_0_compat r r ltac:(lra) ltac:(lra)). lra. }
  assert (NAC : A <> C) by (intros E; rewrite E, (proj2 (dist_0 C C) eq_refl) in Pb; lra).
  assert (NAB : A <> B) by (intros E; rewrite E, (proj2 (dist_0 B B) eq_refl) in Pa; lra).
  apply intersection_line_line_sound in E1; cbn [lA lB] in *; auto. apply intersection_line_line_sound in E2'; cbn [lA lB] in *; auto.
  destruct E1 as (L1 & (t1 & M1) & _). destruct E2' as (L2 & (t2 & M2) & _).
  assert (on : forall Q, on_line P P' Q -> sdot w (vsub Q A) = d * (d - r)).
  { intros Q (t & ->). transitivity (sdot w (vscal (1 - r / d) w)); [unfold P'; rewrite EP; unspec; ring|]. transitivity ((1 - r / d) * sdot w w); [unspec; ring|]. rewrite <- Qd. field. lra. }
  apply on in L1. apply on in L2. rewrite M1 in L1. rewrite M2 in L2. clear on.
  assert (G : sdot w u = T /\ sdot w v = T).
  { rewrite Ew, ET. split; [transitivity (q * (sdot u u + sdot u v))|transitivity (q * (sdot v v + sdot u v))]; try (unspec; ring); [rewrite Uu|rewrite Uv]; ring. }
  set (s := d * (d - r) / T). assert (Ps : 0 < s) by (repeat apply Rmult_lt_0_compat; try lra; apply Rinv_0_lt_compat; auto).
  assert (Q1 : P1 = vadd A (vscal s u)).
  { rewrite M1. unfold at_line in *. rewrite Eu in *. assert (K : t1 * dist A C = s).
    { unfold s. rewrite <- L1, <- (proj1 G). apply (Rmult_eq_reg_r T); [|lra]. rewrite (proj1 G). field_simplify; [|lra]. rewrite <- (proj1 G). unspec. ring. }
    rewrite <- K. unpt. f_equal; ring. }
  assert (Q2 : P2 = vadd A (vscal s v)).
  { rewrite M2. unfold at_line in *. rewrite Ev in *. assert (K : t2 * dist A B = s).
    { unfold s. rewrite <- L2, <- (proj2 G). apply (Rmult_eq_reg_r T); [|lra]. rewrite (proj2 G). field_simplify; [|lra]. rewrite <- (proj2 G). unspec. ring. }
    rewrite <- K. unpt. f_equal; ring. }
  rewrite Q1, Q2, (incircle_corner A u v s q de e d r) by auto. cbn [bind].
  assert (Et : s * d / (2 * (d + r)) = corner_ratio A c * q).
  { unfold corner_ratio. fold d r. unfold s. replace T with (d * d / (2 * q)) by (rewrite <- E2; field; lra). field. repeat split; try lra. }
  replace (mkCircle _ _) with (corner_next A c); [reflexivity|]. unfold corner_next. rewrite Et. f_equal.
  - unfold at_line. fold w. rewrite Ew. unpt. f_equal; ring.
  - fold r. rewrite Er. ring.
Qed.

Lemma side_side_eval A B C c D : region (CLL A B C c) D ->
  side_side_circle A B C c = Raise ValueError \/
  side_side_circle A B C c = Ok (corner_next A c, [CLL A B C (corner_next A c); CCL c (corner_next A c) A B; CCL c (corner_next A c) A C]).
Proof. intros R. destruct (side_side_cases A B C c D R) as (P & P' & _ & _ & [(H & _)|(_ & H)]); auto. Qed.

Lemma corner_step A B C c D : region (CLL A B C c) D ->
  step_ok (CLL A B C c) D (corner_next A c) [CLL A B C (corner_next A c); CCL c (corner_next A c) A B; CCL c (corner_next A c) A C].
Proof.
  intros (Pc & PD & ED & O & e & He & Hx & T1 & T2).
  destruct (cll_geom e A B C c D Pc PD ED O He Hx T1 T2) as (u & v & q & de & Pa & Pb & Eu & Ev & Uu & Uv & Pq & Pde & Ede & Ew & Er & Hr & Ed & Qd & ET & E2 & Eg).
  assert (NAC : A <> C) by (intros E; rewrite E, (proj2 (dist_0 C C) eq_refl) in Pb; lra).
  assert (NAB : A <> B) by (intros E; rewrite E, (proj2 (dist_0 B B) eq_refl) in Pa; lra).
  set (c' := corner_next A c). set (tau := corner_ratio A c).
  assert (Ft : tau * (dist A (cO c) + cr c) = dist A (cO c) - cr c) by (unfold tau, corner_ratio; field; lra).
  assert (Pt : 0 < tau < 1).
  { unfold tau, corner_ratio. split; [apply Rmult_lt_0_compat; [lra|apply Rinv_0_lt_compat; lra]|]. apply (Rmult_lt_reg_r (dist A (cO c) + cr c)); [lra|]. fold tau.
    unfold Rdiv. rewrite Rmult_assoc, Rinv_l by lra. lra. }
  assert (EO' : cO c' = vadd A (vscal tau (vsub (cO c) A))) by reflexivity. assert (Er' : cr c' = tau * cr c) by reflexivity.
  clearbody tau c'. unfold posc in Pc, PD. 
  set (r := cr c) in *. set (d := dist A (cO c)) in *. set (T := cr D) in *. set (w := vsub (cO c) A) in *.
  assert (Pc' : 0 < cr c') by (rewrite Er'; apply Rmult_lt_0_compat; lra).
  assert (EO : cO c = vadd A w) by (unfold w; destruct (cO c); unpt; f_equal; ring).
  set (x := (1 + tau) * T / 2). set (R2 := (1 - tau) * T / 2).
  assert (PR2 : 0 < R2) by (unfold R2; pose proof (Rmult_lt_0_compat (1 - tau) T ltac:(lra) PD); lra).
  assert (Px : 0 < x) by (unfold x; pose proof (Rmult_lt_0_compat (1 + tau) T ltac:(lra) PD); lra).
  assert (PtT : 0 < tau * T) by (apply Rmult_lt_0_compat; lra).
  set (D1 := mkCircle A (tau * T)). set (D2 := mkCircle (vadd A (vscal x v)) R2). set (D3 := mkCircle (vadd A (vscal x u)) R2).
  assert (Gu : sdot w u = T). { rewrite Ew, ET. transitivity (q * (sdot u u + sdot u v)); [unspec; ring|]. rewrite Uu; ring. }
  assert (Gv : sdot w v = T). { rewrite Ew, ET. transitivity (q * (sdot v v + sdot u v)); [unspec; ring|]. rewrite Uv; ring. }
  assert (tch : forall e0 X Y, touch e0 X Y c -> X = A -> touch e0 X Y c').
  { unfold touch. intros e0 X Y Hh ->. fold w r in Hh. rewrite EO', Er'. transitivity (tau * (e0 * scross (vsub Y A) w)); [unspec; ring|]. rewrite Hh. ring. }
  assert (Tcc : tang c c').
  { unfold tang. rewrite EO', EO, Er'. fold r. apply sqrt_eq; [nra|]. transitivity ((1 - tau) * (1 - tau) * sdot w w); [|unspec; ring]. rewrite <- Qd.
    transitivity (((1 - tau) * d) * ((1 - tau) * d)); [|ring]. replace ((1 - tau) * d) with (r + tau * r) by lra. reflexivity. }
  assert (Ld : T < d) by nra.
  assert (Orc : forall f, sdot f f = 1 -> sdot w f = T -> ortho (mkCircle (vadd A (vscal x f)) R2) c /\ ortho (mkCircle (vadd A (vscal x f)) R2) c').
  { intros f Uf Gf. unfold ortho. cbn [cO cr]. rewrite EO', Er', EO. fold r. split.
    - transitivity (sdot w w - 2 * x * sdot w f + x * x * sdot f f); [unspec; ring|]. rewrite <- Qd, Uf, Gf, Ed. unfold x, R2. field.
    - transitivity (tau * tau * sdot w w - 2 * x * tau * sdot w f + x * x * sdot f f); [unspec; ring|]. rewrite <- Qd, Uf, Gf, Ed. unfold x, R2. field. }
  assert (Dx : forall f, sdot f f = 1 -> dist A (vadd A (vscal x f)) = x).
  { intros f Uf. apply sqrt_eq; [lra|]. transitivity (x * x * sdot f f); [rewrite Uf; ring|unspec; ring]. }
  unfold step_ok. cbn [members sides corners]. rewrite !Forall_1, Forall_2. cbn [fst snd].
  split; [exact Pc'|]. split.
  { unfold inner. rewrite ED, EO', Er', dist_sym. fold r T.
    replace (dist A (vadd A (vscal tau w))) with (tau * d); [nra|]. symmetry. apply sqrt_eq; [nra|]. transitivity (tau * tau * sdot w w); [rewrite <- Qd; ring|unspec; ring]. }
  split; [apply tang_sym; auto|]. split.
  { split; [apply (touch_line_tangent e)|apply (touch_line_tangent (- e))]; auto; lra. }
  split.
  { intros n A' U. rewrite !Forall_1. unfold hp. rewrite EO', Er', EO. fold r. intros Q1 Q2.
    replace (sdot n (vsub (vadd A (vscal tau w)) A')) with ((1 - tau) * sdot n (vsub A A') + tau * sdot n (vsub (vadd A w) A')) by (unspec; ring).
    pose proof (Rmult_le_pos (1 - tau) _ ltac:(lra) Q2). pose proof (Rmult_le_compat_l tau _ _ ltac:(lra) Q1). lra. }
  exists (CLL A B C c'), (CCL c c' A B), (CCL c c' A C), D1, D2, D3. split; [reflexivity|].
  split.
  { cbn [region]. split; [exact Pc'|]. split; [exact PtT|]. split; [reflexivity|]. split.
    - unfold ortho, D1. cbn [cO cr]. rewrite EO', Er'. fold r. transitivity (tau * tau * sdot w w); [unspec; ring|]. rewrite <- Qd, Ed. ring.
    - exists e. repeat split; auto. }
  split.
  { cbn [region]. destruct (Orc v Uv Gv). split; [auto|]. split; [exact Pc|]. split; [exact Pc'|]. split; [exact PR2|]. split; [assumption|]. split; [exists e; auto|]. split; [auto|]. split; [auto|].
    unfold D2; cbn [cO]. rewrite Ev. unspec. ring. }
  split.
  { cbn [region]. destruct (Orc u Uu Gu). split; [auto|]. split; [exact Pc|]. split; [exact Pc'|]. split; [exact PR2|]. split; [assumption|]. split; [exists (- e); repeat split; auto; lra|]. split; [auto|]. split; [auto|].
    unfold D3; cbn [cO]. rewrite Eu. unspec. ring. }
  unfold inner, disj, D1, D2, D3. cbn [cO cr]. rewrite ED. fold T. rewrite (proj2 (dist_0 A A) eq_refl). rewrite !(dist_sym _ A), !Dx by auto.
  split; [nra|]. split; [unfold x, R2; lra|]. split; [unfold x, R2; lra|]. split; [unfold x, R2; lra|]. split; [unfold x, R2; lra|]. split.
  { apply Req_le. symmetry. apply sqrt_eq; [lra|]. transitivity (x * x * (sdot u u + sdot v v - 2 * sdot u v)); [|unspec; ring]. rewrite Uu, Uv. replace (1 + 1 - 2 * sdot u v) with (2 - 2 * sdot u v) by ring. rewrite Eg.
    transitivity ((x * (2 * r / d)) * (x * (2 * r / d))); [|ring]. replace (x * (2 * r / d)) with (R2 + R2); [reflexivity|]. unfold x, R2.
    apply (Rmult_eq_reg_r d); [|lra]. transitivity (T * (d - tau * d)); [field|]. transitivity ((1 + tau) * T * r); [|field; lra]. replace (d - tau * d) with ((1 + tau) * r) by lra. ring. }
  intros h' D' [Q|[Q|[Q|[]]]]; injection Q as <- <-; cbn [members]; (split; [cbn [In]; auto|]); (split; [intros z; cbn [In]; tauto|]); (split; [intros z [<-|[]]; cbn [In]; auto; right; cbn [cO cr]; fold r d; nra|]); cbn [corners okside]; split; auto using incl_refl, incl_nil_l.
  - intros X Y Z HS. exists C. auto.
  - intros X Y Z HS. exists B. apply perm3_swap23; auto.
Qed.

(** ** any hole *)
Lemma new_hole_step h D : region h D ->
  new_hole h = Raise ValueError \/ exists c hs, new_hole h = Ok (c, hs) /\ step_ok h D c hs.
Proof.
  destruct h as [c1 c2 c3|c1 c2 A B|A B C c]; intros H; cbn [new_hole].
  - right. apply innerSoddy_step; auto.
  - right. apply side_circle_circle_step; auto.
  - destruct (side_side_eval A B C c D H) as [E|E]; [left; auto|]. right. do 2 eexists. split; [exact E|]. apply corner_step; auto.
Qed.
