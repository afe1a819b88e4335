(** * The elliptical billiard: hyperbolic caustic, trajectories through the foci, frames of the animation. *)

From Coq Require Import Reals List Bool ZArith Lra Lia Psatz.
From Verif Require Import Base BaseLemmas Spec SpecLemmas ModelInternal ModelLine ModelCircle ModelAffine ModelEllipse ModelBilliard SpecBilliard PLine PEllipse PEllipse2 PBilliard.
Import ListNotations.
Local Open Scope R_scope.

(** ** Hyperbolic caustic *)
Lemma on_hyp_poly a b M : 0 < a -> 0 < b -> (on_hyperbola a b M <-> b * b * (fst M * fst M) - a * a * (snd M * snd M) = a * a * (b * b)).
Proof.
  intros Ha Hb. unfold on_hyperbola. assert (P : a * a * (b * b) <> 0) by (repeat apply Rmult_integral_contrapositive_currified; lra).
  assert (E : b * b * (fst M * fst M) - a * a * (snd M * snd M) = a * a * (b * b) * ((fst M / a) ^ 2 - (snd M / b) ^ 2)) by (field; lra).
  rewrite E. split; [intros ->; ring|]. intros K. apply Rmult_eq_reg_l with (a * a * (b * b)); lra.
Qed.

Lemma hyp_tangent a b A B : 0 < a -> 0 < b -> A <> B ->
  (let u := fst B - fst A in let v := snd B - snd A in a * a * (v * v) - b * b * (u * u) = (u * snd A - v * fst A) * (u * snd A - v * fst A)) -> touches_hyperbola a b A B.
Proof.
  intros Ha Hb N. cbv zeta. set (u := fst B - fst A). set (v := snd B - snd A). set (d := u * snd A - v * fst A). intros E.
  assert (P : forall s, at_line A B s = (fst A + s * u, snd A + s * v)) by (intros s; unfold at_line, u, v; destruct A, B; unpt; auto).
  destruct (Req_dec d 0) as [D|D].
  - right. assert (O : on_line A B (0, 0)). { apply cross0_on_line; auto. unfold scross. unpt. fold u v. unfold d in D. lra. }
    split; [auto|]. assert (K : (a * v - b * u) * (a * v + b * u) = 0) by (rewrite D in E; lra).
    apply Rmult_integral in K. destruct K as [K|K]; [left|right]; apply cross0_on_line; auto; unfold scross; unpt; fold u v; unfold d in D; lra.
  - left. assert (Dp : 0 < d * d) by (apply sqpos; auto). set (x := fst A) in *. set (y := snd A) in *.
    set (z := b * b * x * u - a * a * y * v). 
    assert (Z : z * z = (b * b * (x * x) - a * a * (y * y) - a * a * (b * b)) * - (d * d)).
    { assert (Hz : z * z - (b * b * (x * x) - a * a * (y * y)) * (b * b * (u * u) - a * a * (v * v)) = - (a * a * (b * b)) * - (d * d)) by (unfold z, d; ring).
      replace (b * b * (u * u) - a * a * (v * v)) with (- (d * d)) in Hz by lra. lra. }
    assert (F : forall s, b * b * ((x + s * u) * (x + s * u)) - a * a * ((y + s * v) * (y + s * v)) - a * a * (b * b) = - ((d * d * s - z) * (d * d * s - z)) / (d * d)).
    { intros s. apply Rmult_eq_reg_r with (- (d * d)); [|lra].
      transitivity ((b * b * (x * x) - a * a * (y * y) - a * a * (b * b)) * - (d * d) + 2 * s * z * - (d * d) + s * s * (b * b * (u * u) - a * a * (v * v)) * - (d * d)); [unfold z; ring|].
      rewrite <- Z. replace (b * b * (u * u) - a * a * (v * v)) with (- (d * d)) by lra. field. auto. }
    exists (at_line A B (z / (d * d))). split; [eexists; reflexivity|]. split; [|split].
    + rewrite P. apply on_hyp_poly; auto. cbn [fst snd]. fold x y. pose proof (F (z / (d * d))) as K.
      replace (d * d * (z / (d * d)) - z) with 0 in K by (field; auto). replace (- (0 * 0) / (d * d)) with 0 in K by (field; auto). lra.
    + rewrite P. unpt. fold u v. assert (T0 : b * b * (x + z / (d * d) * u) * u = a * a * (y + z / (d * d) * v) * v).
      { assert (K : z + z / (d * d) * (b * b * (u * u) - a * a * (v * v)) = 0) by (replace (b * b * (u * u) - a * a * (v * v)) with (- (d * d)) by lra; field; auto). unfold z in K at 1. lra. }
      change (fst B - fst A) with u. change (snd B - snd A) with v. set (X := x + z / (d * d) * u) in *. set (Y := y + z / (d * d) * v) in *. clearbody X Y u v.
      apply Rmult_eq_reg_l with (a * a * (b * b)); [|repeat apply Rmult_integral_contrapositive_currified; lra]. transitivity (b * b * X * u); [field; lra|]. rewrite T0. field. lra.
    + intros M [s ->] K. rewrite P in K. apply on_hyp_poly in K; auto. cbn [fst snd] in K. fold x y in K. pose proof (F s) as K'.
      assert (Q : (d * d * s - z) * (d * d * s - z) = 0). { apply Rmult_eq_reg_r with (- / (d * d)); [|assert (/ (d * d) <> 0) by (apply Rinv_neq_0_compat; lra); lra]. unfold Rdiv in K'. lra. }
      apply Rmult_integral in Q. f_equal. apply Rmult_eq_reg_l with (d * d); [|lra]. transitivity z; [lra|field; auto].
Qed.

Lemma billiard_hyperbola e k P0 v0 segs l0 : std_ell e -> eb e <= ea e -> billiard_trajectory e k P0 v0 = Ok segs -> In l0 segs ->
  let f := sqrt (ea e ^ 2 - eb e ^ 2) in
  scross (vsub (lB l0) (lA l0)) (vsub (f, 0) (lA l0)) * scross (vsub (lB l0) (lA l0)) (vsub (- f, 0) (lA l0)) < 0 -> fst (lA l0) <> 0 \/ fst (lB l0) <> 0 ->
  exists a' b', 0 < a' /\ 0 < b' /\ a' ^ 2 + b' ^ 2 = ea e ^ 2 - eb e ^ 2 /\ forall l, In l segs -> touches_hyperbola a' b' (lA l) (lB l).
Proof.
  intros Hs Hab H H0 f Hneg Hx. pose proof Hs as (_ & _ & Ha & Hb). assert (Hf : f * f = ea e * ea e - eb e * eb e) by (unfold f; rewrite sqrt_sqrt; nra).
  destruct (billiard_foci_const e f k P0 v0 segs Hs Hf H) as (rho & R).
  fold (foci_prod f (lA l0) (lB l0)) in Hneg. set (a := ea e) in *. set (b := eb e) in *. clearbody a b f.
  assert (D : forall l, In l segs -> 0 < dist2 (lA l) (lB l)).
  { intros l Hl. destruct (R l Hl) as (N & _). destruct (dist_unit _ _ N) as [K1 K2]. rewrite <- K2. nra. }
  assert (Hr : rho < 0). { destruct (R l0 H0) as (N & _ & _ & E). rewrite E in Hneg. pose proof (D l0 H0). destruct (Rlt_le_dec rho 0); auto. nra. }
  assert (G : forall l, In l segs -> let u := fst (lB l) - fst (lA l) in let v := snd (lB l) - snd (lA l) in
     (f * f + rho) * (v * v) + rho * (u * u) = (u * snd (lA l) - v * fst (lA l)) * (u * snd (lA l) - v * fst (lA l))).
  { intros l Hl u v. destruct (R l Hl) as (_ & _ & _ & E). revert E. unfold foci_prod, dist2, sdot, scross, u, v. destruct (lA l) as [x y], (lB l) as [x' y']. unpt. intros E. lra. }
  assert (Hr2 : 0 < f * f + rho).
  { pose proof (G l0 H0) as G0. cbv zeta in G0. pose proof (D l0 H0) as D0. set (u := fst (lB l0) - fst (lA l0)) in *. set (v := snd (lB l0) - snd (lA l0)) in *.
    assert (E0 : dist2 (lA l0) (lB l0) = u * u + v * v) by (unfold u, v, dist2, sdot; destruct (lA l0), (lB l0); unpt; ring). rewrite E0 in D0.
    set (d := u * snd (lA l0) - v * fst (lA l0)) in *. pose proof (sqnn d) as Sd. pose proof (sqnn u) as Su. pose proof (sqnn v) as Sv.
    destruct (Rlt_le_dec 0 (f * f + rho)) as [|L]; auto. exfalso. assert (A1 : (f * f + rho) * (v * v) <= 0) by nra. assert (A2 : rho * (u * u) <= 0) by nra.
    assert (U0 : u * u = 0) by nra. assert (u = 0) by (apply Rmult_integral in U0; tauto). assert (V0 : v <> 0) by (intros K; rewrite K, H1 in D0; lra).
    assert (d * d = 0) by lra. assert (Z : d = 0) by (apply Rmult_integral in H2; tauto). unfold d in Z. rewrite H1 in Z. assert (Z2 : v * fst (lA l0) = 0) by lra. apply Rmult_integral in Z2. assert (fst (lA l0) = 0) by tauto. unfold u in H1. lra. }
  exists (sqrt (f * f + rho)), (sqrt (- rho)). assert (Hr' : 0 < - rho) by lra. pose proof (sqrt_lt_R0 _ Hr2) as Pa. pose proof (sqrt_lt_R0 _ Hr') as Pb.
  assert (Sa := sqrt_sqrt _ (Rlt_le _ _ Hr2)). assert (Sb := sqrt_sqrt _ (Rlt_le _ _ Hr')). split; [auto|]. split; [auto|]. split; [lra|].
  intros l Hl. destruct (R l Hl) as (N & _). apply hyp_tangent; auto. cbv zeta. rewrite Sa, Sb. rewrite <- (G l Hl). ring.
Qed.

(** ** Through the foci *)
Lemma tangent_at a b Q : 0 < a -> 0 < b -> on_ellipse (0, 0) a b 0 Q -> ell_tangent (0, 0) a b 0 Q (- (a * a * snd Q), b * b * fst Q).
Proof.
  intros Ha Hb HQ. pose proof HQ as HQ'. apply std_on in HQ'; auto. split; [auto|]. assert (Pa : 0 < a * a) by nra. assert (Pb : 0 < b * b) by nra. split.
  - intros E. injection E as E1 E2. assert (E1' : a * a * snd Q = 0) by lra. apply Rmult_integral in E1'. apply Rmult_integral in E2.
    assert (fst Q = 0) by (destruct E2; lra). assert (snd Q = 0) by (destruct E1'; lra). rewrite H, H0 in HQ'. nra.
  - intros k K. apply std_on in K; auto. destruct Q as [x y]. unfold vadd, vscal in K. cbn [fst snd] in *.
    assert (Z : k * k * (a * a * (b * b) * (a * a * (b * b))) = 0). { rewrite <- HQ' at 2. lra. }
    apply Rmult_integral in Z. destruct Z as [Z|Z]; [apply Rmult_integral in Z; tauto|]. exfalso. assert (0 < a * a * (b * b)) by (apply Rmult_lt_0_compat; auto). nra.
Qed.

(** from one focus to the other *)
Lemma focus_bounce a b c P Q N : 0 < a -> 0 < b -> c * c = a * a - b * b -> P <> Q -> Q <> N -> on_ellipse (0, 0) a b 0 Q ->
  (forall tau, ell_tangent (0, 0) a b 0 Q tau -> sdot (unit_dir P Q) tau = sdot (unit_dir Q N) tau /\ scross (unit_dir P Q) tau = - scross (unit_dir Q N) tau) ->
  on_line P Q (c, 0) -> on_line Q N (- c, 0).
Proof.
  intros Ha Hb Hc N1 N2 HQ Law HF. destruct (Law _ (tangent_at a b Q Ha Hb HQ)) as [L1 L2]. apply std_on in HQ; auto. apply cross0_on_line in HF; auto. apply cross0_on_line; auto.
  destruct (dist_unit P Q N1) as [D1 _]. destruct (dist_unit Q N N2) as [D2 _]. unfold unit_dir in *. set (p := dist P Q) in *. set (q := dist Q N) in *. clearbody p q.
  destruct P as [px py], Q as [x y], N as [nx ny]. unfold sdot, scross in *. unpt. set (u := x - px) in *. set (v := y - py) in *. set (s := nx - x) in *. set (t := ny - y) in *.
  assert (R1 : u * y - v * (x - c) = 0) by (replace (c - px) with (u - (x - c)) in HF by (unfold u; ring); replace (0 - py) with (v - y) in HF by (unfold v; ring); lra).
  clear HF. set (u' := / p * u) in *. set (v' := / p * v) in *. set (s' := / q * s) in *. set (t' := / q * t) in *.
  assert (R2 : u' * y - v' * (x - c) = 0) by (unfold u', v'; transitivity (/ p * (u * y - v * (x - c))); [ring|rewrite R1; ring]).
  assert (A2 : 0 < a * a) by nra. assert (B2 : 0 < b * b) by nra.
  (* the two laws: s', t' in terms of u', v' *)
  assert (W : 0 < a * a * y * (a * a * y) + b * b * x * (b * b * x)). { assert (0 < a * a * (b * b)) by (apply Rmult_lt_0_compat; auto). destruct (Req_dec y 0) as [->|Ny]; [destruct (Req_dec x 0) as [->|Nx]|]. - nra. - assert (b * b * x <> 0) by (apply Rmult_integral_contrapositive_currified; lra). pose proof (sqpos _ H0). pose proof (sqnn (a * a * 0)). lra. - assert (a * a * y <> 0) by (apply Rmult_integral_contrapositive_currified; lra). pose proof (sqpos _ H0). pose proof (sqnn (b * b * x)). lra. }
  set (m := a * a * y) in *. set (n := b * b * x) in *.
  assert (E1 : - m * u' + n * v' = - m * s' + n * t') by lra. assert (E2 : n * u' + m * v' = - (n * s' + m * t')) by lra.
  assert (S1 : (m * m + n * n) * s' = (m * m - n * n) * u' - 2 * m * n * v'). { transitivity (- m * (- m * s' + n * t') + n * (n * s' + m * t')); [ring|]. rewrite <- E1. replace (n * s' + m * t') with (- (n * u' + m * v')) by lra. ring. }
  assert (S2 : (m * m + n * n) * t' = - (2 * m * n * u') + (n * n - m * m) * v'). { transitivity (n * (- m * s' + n * t') + m * (n * s' + m * t')); [ring|]. rewrite <- E1. replace (n * s' + m * t') with (- (n * u' + m * v')) by lra. ring. }
  assert (Fin : (m * m + n * n) * (s' * (0 - y) - t' * (- c - x)) = 0).
  { transitivity (- (((m * m + n * n) * s') * y) + ((m * m + n * n) * t') * (c + x)); [ring|]. rewrite S1, S2.
    (* u' : v' = (x - c) : y, or both zero *)
    assert (Key : (x - c) * - ((m * m - n * n) * y + 2 * m * n * (c + x)) + y * (2 * m * n * y + (n * n - m * m) * (c + x)) = 0).
    { transitivity (- (2 * (m * m - n * n) * (x * y)) + 2 * m * n * (y * y - x * x + c * c)); [ring|]. rewrite Hc. unfold m, n.
      transitivity (2 * (x * y) * (a * a - b * b) * - (b * b * (x * x) + a * a * (y * y) - a * a * (b * b))); [ring|]. rewrite HQ. ring. }
    destruct (Req_dec y 0) as [Zy|Zy].
    - assert (v' * (x - c) = 0) by (rewrite Zy in R2; lra). assert (x - c <> 0). { intros K. assert (x = c) by lra. rewrite Zy, H0 in HQ. assert (b * b * (c * c) = a * a * (b * b)) by lra. rewrite Hc in H1. assert (0 < b * b * (b * b)) by (apply Rmult_lt_0_compat; auto). lra. }
      apply Rmult_integral in H. assert (v' = 0) by tauto. unfold m. rewrite H1, Zy. ring.
    - apply Rmult_eq_reg_l with y; [|auto]. transitivity ((u' * y) * - ((m * m - n * n) * y + 2 * m * n * (c + x)) + y * v' * (2 * m * n * y + (n * n - m * m) * (c + x))); [ring|]. replace (u' * y) with (v' * (x - c)) by lra.
      transitivity (v' * ((x - c) * - ((m * m - n * n) * y + 2 * m * n * (c + x)) + y * (2 * m * n * y + (n * n - m * m) * (c + x)))); [ring|]. rewrite Key. ring. }
  apply Rmult_integral in Fin. destruct Fin as [Fin|Fin]; [lra|]. unfold s', t' in Fin. apply Rmult_eq_reg_l with (/ q); [|assert (0 < / q) by (apply Rinv_0_lt_compat; auto); lra]. lra.
Qed.
