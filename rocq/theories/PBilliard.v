(** * Proofs about the elliptical billiard (property C91). *)

From Coq Require Import Reals List Bool ZArith Lra Lia Field.
From Verif Require Import Base BaseLemmas Spec SpecLemmas ModelInternal ModelLine ModelCircle ModelAffine ModelEllipse
  ModelBilliard PLine PEllipse PEllipse2 PEllipseEx.
Import ListNotations.
Local Open Scope R_scope.

(** the ellipses of the script: centre (0, 0), no rotation *)
Definition std_ell (e : ellipse) : Prop := eO e = (0, 0) /\ ealpha e = 0 /\ 0 < ea e /\ 0 < eb e.

Lemma std_th e : std_ell e -> ell_th e = 0.
Proof. intros (_ & H & _). unfold ell_th, radians, deg. rewrite H. destruct (edeg e); field. Qed.

Lemma std_on a b M : 0 < a -> 0 < b ->
  (on_ellipse (0, 0) a b 0 M <-> b * b * (fst M * fst M) + a * a * (snd M * snd M) = a * a * (b * b)).
Proof.
  intros Ha Hb. rewrite on_ellipse_poly by auto. unfold fx, fy. rewrite cos_0, sin_0. cbn [fst snd].
  split; intros H; [rewrite <- H|rewrite <- H]; ring.
Qed.

Lemma theta2t_sin e theta t : theta2t e theta false = Ok t -> sin theta <> 0.
Proof.
  unfold theta2t. destruct (eqb _ 0) eqn:E; [discriminate|]. intros _. apply eqb_false in E. intros K. apply E.
  unfold pymod. set (m := Int_part (theta / (2 * PI))).
  replace (theta - 2 * PI * floorR (theta / (2 * PI))) with (theta + IZR (- m) * (2 * PI)).
  - rewrite sin_period_Z. auto.
  - unfold floorR. fold m. rewrite opp_IZR. ring.
Qed.

(** the eccentric angle computed by the script is that of Q or of its opposite *)
Lemma billiard_t e Q t : std_ell e -> on_ellipse (0, 0) (ea e) (eb e) 0 Q ->
  theta2t e (atan2 (snd Q) (fst Q)) false = Ok t ->
  snd Q <> 0 /\ exists s, s * s = 1 /\ ea e * cos t = s * fst Q /\ eb e * sin t = s * snd Q.
Proof.
  intros Hs HQ Ht. pose proof Hs as (HO & Hal & Ha & Hb). destruct Q as [x y]; cbn [fst snd] in *.
  assert (HQ0 : (x, y) <> (0, 0)).
  { intros K. injection K as -> ->. apply std_on in HQ; auto. cbn [fst snd] in HQ. assert (0 < ea e * ea e * (eb e * eb e)) by (repeat apply Rmult_lt_0_compat; auto). nra. }
  destruct (cos_sin_atan2 y x HQ0) as [C S]. set (theta := atan2 y x) in *.
  assert (Hn := theta2t_sin _ _ _ Ht). pose proof (atan2_range y x) as Hr. fold theta in Hr. pose proof PI_RGT_0.
  assert (Hy : y <> 0). { intros ->. apply Hn. rewrite S. unfold Rdiv. ring. }
  split; auto.
  assert (Hne : theta <> 0) by (intros K; apply Hn; rewrite K; apply sin_0).
  assert (HneP : theta <> PI) by (intros K; apply Hn; rewrite K; apply sin_PI).
  assert (exists tau m, radians false theta = tau + IZR m * (2 * PI) /\ 0 < tau < 2 * PI /\ tau <> PI) as (tau & m & H1 & H2 & H3).
  { unfold radians. destruct (Rlt_le_dec 0 theta); [exists theta, 0%Z; repeat split; try lra|].
    exists (theta + 2 * PI), (-1)%Z. repeat split; try lra. }
  destruct (theta2t_frame e theta false tau m Ha Hb H1 H2 H3) as (t' & E' & Fx & Fy). rewrite Ht in E'. injection E' as <-.
  destruct (point_from_angle_spec e theta false tau m Ha Hb H1 ltac:(lra) H3) as (Hon & k & Hk & G).
  cbv zeta in *. rewrite (std_th e Hs) in *. rewrite HO in *. set (P := ellipse_point_from_angle e theta false) in *. clearbody P.
  set (sg := if ltb PI tau && ltb tau (PI + sepsilon_) then -1 else 1) in *.
  assert (Hsg : sg * sg = 1) by (unfold sg; destruct (_ && _); ring). clearbody sg. destruct G as [G1 G2].
  unfold radians in G1, G2. rewrite Fx, C in G1. rewrite Fy, S in G2.
  set (L := sqrt (x * x + y * y)) in *.
  assert (HL : 0 < L). { apply sqrt_lt_R0. pose proof (sqpos y Hy). pose proof (sqnn x). lra. }
  set (j := k / L). assert (Hj : 0 < j) by (apply Rdiv_lt_0_compat; auto).
  assert (G1' : ea e * cos t = sg * j * x) by (rewrite G1; unfold j; field; lra).
  assert (G2' : eb e * sin t = sg * j * y) by (rewrite G2; unfold j; field; lra).
  assert (J : j * j = 1).
  { apply std_on in HQ; auto. cbn [fst snd] in HQ. pose proof (cs1 t) as H4.
    assert (E : eb e * eb e * ((ea e * cos t) * (ea e * cos t)) + ea e * ea e * ((eb e * sin t) * (eb e * sin t)) = ea e * ea e * (eb e * eb e)).
    { transitivity (ea e * ea e * (eb e * eb e) * (cos t * cos t + sin t * sin t)); [ring|rewrite H4; ring]. }
    rewrite G1', G2' in E.
    assert (E2 : sg * sg * (j * j) * (ea e * ea e * (eb e * eb e)) = ea e * ea e * (eb e * eb e)) by (rewrite <- HQ at 1; rewrite <- E; ring).
    rewrite Hsg in E2. assert (0 < ea e * ea e * (eb e * eb e)) by (repeat apply Rmult_lt_0_compat; auto).
    apply Rmult_eq_reg_r with (ea e * ea e * (eb e * eb e)); lra. }
  exists (sg * j). split; [transitivity (sg * sg * (j * j)); [ring|rewrite Hsg, J; ring]|]. auto.
Qed.

Lemma billiard_normal e Q t : std_ell e -> on_ellipse (0, 0) (ea e) (eb e) 0 Q ->
  theta2t e (atan2 (snd Q) (fst Q)) false = Ok t ->
  exists c, c <> 0 /\ ellipse_normal e t = (c * (eb e * eb e * fst Q), c * (ea e * ea e * snd Q)) /\ sdot (ellipse_normal e t) (ellipse_normal e t) = 1.
Proof.
  intros Hs HQ Ht. pose proof Hs as (HO & Hal & Ha & Hb). destruct (billiard_t e Q t Hs HQ Ht) as (Hy & s & Hs1 & E1 & E2).
  assert (Hs0 : s <> 0) by (intros ->; lra).
  assert (N1 := ellipse_normal_spec e t Ha Hb). cbv zeta in N1. destruct N1 as [N1 _].
  unfold ellipse_normal in N1 |- *. rewrite ell_angle_eq, (std_th e Hs), cos_0, sin_0 in N1 |- *.
  set (v := (0 * (- ea e * sin t) + 1 * (eb e * cos t), - (1) * (- ea e * sin t) + 0 * (eb e * cos t))) in *.
  assert (Hv : v = (s / (ea e * eb e) * (eb e * eb e * fst Q), s / (ea e * eb e) * (ea e * ea e * snd Q))).
  { unfold v. f_equal.
    - transitivity (eb e / ea e * (ea e * cos t)); [field; lra|rewrite E1; field; lra].
    - transitivity (ea e / eb e * (eb e * sin t)); [field; lra|rewrite E2; field; lra]. }
  assert (HL : vlength_ v <> 0).
  { intros K. rewrite K in N1. rewrite Rinv_0 in N1. unfold sdot in N1; cbn [fst snd vscal] in N1. lra. }
  exists (/ vlength_ v * (s / (ea e * eb e))). split; [|split; auto].
  - apply Rmult_integral_contrapositive_currified; [apply Rinv_neq_0_compat; auto|]. unfold Rdiv.
    apply Rmult_integral_contrapositive_currified; auto. apply Rinv_neq_0_compat. nra.
  - set (L := vlength_ v) in *. clearbody L. rewrite Hv. unfold vscal; cbn [fst snd]. f_equal; ring.
Qed.

(** ** One step *)
Definition chord (l : line) (P Q : pt) : Prop := (lA l = P /\ lB l = Q) \/ (lA l = Q /\ lB l = P).

Lemma two_chord e l I0 I1 : std_ell e -> intersection_ellipse_line e l = Ok (ITwo I0 I1) ->
  I0 <> I1 /\ on_ellipse (0, 0) (ea e) (eb e) 0 I0 /\ on_ellipse (0, 0) (ea e) (eb e) 0 I1 /\
  on_line (lA l) (lB l) I0 /\ on_line (lA l) (lB l) I1 /\
  forall M, on_line (lA l) (lB l) M -> on_ellipse (0, 0) (ea e) (eb e) 0 M -> M = I0 \/ M = I1.
Proof.
  intros Hs E. pose proof Hs as (HO & Hal & Ha & Hb). assert (H := iel_spec e l Ha Hb). rewrite E in H.
  cbv zeta in H. fold (ell_th e) in H. rewrite (std_th e Hs), HO in H. destruct H as (H1 & H2 & H3 & H4 & H5 & H6). auto 8.
Qed.

Lemma billiard_step_spec e P Q seg Q1 : std_ell e -> on_ellipse (0, 0) (ea e) (eb e) 0 Q ->
  billiard_step e P Q = Ok (seg, Q1) ->
  P <> Q /\ exists n N s, sdot n n = 1 /\ (exists c, c <> 0 /\ n = (c * (eb e * eb e * fst Q), c * (ea e * ea e * snd Q))) /\
    s <> 0 /\ N = vadd Q (vscal s (billiard_reflect (vsub Q P) n)) /\ N <> Q /\ on_ellipse (0, 0) (ea e) (eb e) 0 N /\
    chord seg Q N /\ lextA seg = true /\ lextB seg = true /\ (Q1 = N \/ Q1 = Q).
Proof.
  intros Hs HQ. unfold billiard_step. destruct (theta2t e (atan2 (snd Q) (fst Q)) false) as [t|] eqn:Et; [|discriminate]. cbn [bind].
  destruct (billiard_normal e Q t Hs HQ Et) as (c & Hc & En & Hn). set (n := ellipse_normal e t) in *. clearbody n.
  set (v := billiard_reflect (vsub Q P) n).
  destruct (Line_init_cases Q (vadd Q v) true true) as [[Hl ->]|[_ ->]]; [|discriminate]. cbn [bind].
  set (l := mkLine Q (vadd Q v) true true).
  destruct (intersection_ellipse_line e l) as [[|I|I0 I1]|] eqn:Ei; try discriminate. cbn [bind two_points].
  destruct (Line_init_cases I0 I1 true true) as [[Hl2 ->]|[_ ->]]; [|discriminate]. cbn [bind].
  destruct (two_chord e l I0 I1 Hs Ei) as (Hne & E0 & E1 & L0 & L1 & All). unfold l in L0, L1, All. cbn [lA lB] in L0, L1, All.
  intros K. injection K as <- <-.
  split.
  { intros ->. assert (v = (0, 0)). { unfold v, billiard_reflect, dot_. unpt. f_equal; ring. }
    rewrite H in Hl. replace (vadd Q (0, 0)) with Q in Hl by (destruct Q; unpt; f_equal; ring). rewrite allclose_refl in Hl. discriminate. }
  assert (HQl : on_line Q (vadd Q v) Q) by (exists 0; unfold at_line; destruct Q; unpt; f_equal; ring).
  assert (Hat : forall M, on_line Q (vadd Q v) M -> exists s, M = vadd Q (vscal s v)).
  { intros M (s & ->). exists s. unfold at_line. destruct Q, v. unpt. f_equal; ring. }
  destruct (All Q HQl HQ) as [->| ->].
  - destruct (Hat I1 L1) as (s & Es). exists n, I1, s. repeat split; eauto.
    + intros ->. apply Hne. rewrite Es. destruct I0; unpt. f_equal; ring.
    + left; auto.
    + rewrite allclose_refl. auto.
  - destruct (Hat I0 L0) as (s & Es). exists n, I0, s. repeat split; eauto.
    + intros ->. apply Hne. rewrite Es. destruct I1; unpt. f_equal; ring.
    + right; auto.
    + destruct (allclose I1 I0); auto.
Qed.

(** reflection of the unit directions, and the conserved quantity *)
Definition unit_dir (P Q : pt) : pt := vscal (/ dist P Q) (vsub Q P).

Lemma tangent_dir a b Q tau : 0 < a -> 0 < b -> ell_tangent (0, 0) a b 0 Q tau ->
  b * b * fst Q * fst tau + a * a * snd Q * snd tau = 0.
Proof.
  intros Ha Hb (Hon & Hv & Huniq). apply std_on in Hon; auto. destruct Q as [x y], tau as [u v]; cbn [fst snd] in *.
  set (q := b * b * (u * u) + a * a * (v * v)).
  assert (Hq : 0 < q).
  { unfold q. destruct (Req_dec u 0) as [->|E]; [destruct (Req_dec v 0) as [->|E]|].
    - contradiction Hv; auto.
    - pose proof (sqpos _ E). assert (0 < a * a) by nra. nra.
    - pose proof (sqpos _ E). assert (0 < b * b) by nra. pose proof (sqnn (a * v)). nra. }
  set (z := b * b * x * u + a * a * y * v).
  assert (H := Huniq (- (2 * z) / q)). 
  assert (K : - (2 * z) / q = 0).
  { apply H. apply std_on; auto. unfold vadd, vscal; cbn [fst snd].
    transitivity (b * b * (x * x) + a * a * (y * y) + (- (2 * z) / q) * (2 * z + (- (2 * z) / q) * q)); [unfold z, q; ring|].
    rewrite Hon. field. lra. }
  apply (f_equal (fun r => - r * q / 2)) in K. transitivity (- (- (2 * z) / q) * q / 2); [unfold z; field; lra|rewrite K; field].
Qed.

Lemma chord_eq a b P Q : on_ellipse (0, 0) a b 0 P -> on_ellipse (0, 0) a b 0 Q -> 0 < a -> 0 < b ->
  b * b * (fst Q - fst P) * (fst Q + fst P) + a * a * (snd Q - snd P) * (snd Q + snd P) = 0.
Proof. intros H1 H2 Ha Hb. apply std_on in H1, H2; auto. lra. Qed.

Lemma dist_unit P Q : P <> Q -> 0 < dist P Q /\ dist P Q * dist P Q = dist2 P Q.
Proof.
  intros H. unfold dist. assert (0 < dist2 P Q).
  { destruct P as [a b], Q as [c d]. unfold dist2, sdot. unpt. destruct (Req_dec (c - a) 0) as [E|E].
    - destruct (Req_dec (d - b) 0) as [E2|E2]. + exfalso. apply H. f_equal; lra. + rewrite E. pose proof (sqpos _ E2). lra.
    - pose proof (sqpos _ E). pose proof (sqnn (d - b)). lra. }
  split; [apply sqrt_lt_R0; auto|apply sqrt_sqrt; lra].
Qed.

Lemma bounce a b P Q N n c r s : 0 < a -> 0 < b -> P <> Q ->
  on_ellipse (0, 0) a b 0 P -> on_ellipse (0, 0) a b 0 Q -> on_ellipse (0, 0) a b 0 N -> N <> Q ->
  sdot n n = 1 -> c <> 0 -> n = (c * (b * b * fst Q), c * (a * a * snd Q)) ->
  N = vadd Q (vscal s (billiard_reflect (vscal r (vsub Q P)) n)) ->
  exists k, 0 < k /\ vsub N Q = vscal k (billiard_reflect (vsub Q P) n).
Proof.
  intros Ha Hb HPQ HP HQ HN HNQ Hn Hc En EN. exists (s * r).
  assert (E : vsub N Q = vscal (s * r) (billiard_reflect (vsub Q P) n)).
  { rewrite EN. unfold billiard_reflect, dot_. destruct P, Q, n. unpt. f_equal; ring. }
  split; auto. set (k := s * r) in *. clearbody k. clear EN r s.
  apply std_on in HP, HQ, HN; auto. destruct P as [px py], Q as [x y], N as [nx ny]. cbn [fst snd] in *.
  assert (E' : exists w1 w2 m1 m2, w1 = x - px /\ w2 = y - py /\ n = (m1, m2)) by (destruct n as [m1 m2]; eauto 8).
  destruct E' as (w1 & w2 & m1 & m2 & W1 & W2 & ->). injection En as M1 M2. unfold sdot in Hn; cbn [fst snd] in Hn.
  unfold billiard_reflect, dot_, vsub, vscal in E; cbn [fst snd] in E. rewrite <- W1, <- W2 in E. injection E as X Y.
  set (d := m1 * w1 + m2 * w2) in *. set (u1 := w1 - 2 * d * m1) in *. set (u2 := w2 - 2 * d * m2) in *.
  assert (HB : c * (b * b * (x * u1) + a * a * (y * u2)) = - (c * (b * b * (x * w1) + a * a * (y * w2)))).
  { transitivity (m1 * u1 + m2 * u2); [rewrite M1, M2; ring|]. transitivity (- (m1 * w1 + m2 * w2)).
    - unfold u1, u2. fold d. transitivity (d - 2 * d * (m1 * m1 + m2 * m2)); [unfold d; ring|rewrite Hn; ring].
    - rewrite M1, M2; ring. }
  assert (HB' : b * b * (x * u1) + a * a * (y * u2) = - (b * b * (x * w1) + a * a * (y * w2))).
  { apply Rmult_eq_reg_l with c; auto. rewrite HB. ring. }
  assert (Hw : 2 * (b * b * (x * w1) + a * a * (y * w2)) = b * b * (w1 * w1) + a * a * (w2 * w2)).
  { rewrite <- HQ in HP. rewrite W1, W2. nra. }
  assert (Hu : k * (2 * (b * b * (x * u1) + a * a * (y * u2)) + k * (b * b * (u1 * u1) + a * a * (u2 * u2))) = 0).
  { rewrite <- HQ in HN. replace nx with (x + k * u1) in HN by lra. replace ny with (y + k * u2) in HN by lra. lra. }
  assert (Hk : k <> 0). { intros ->. apply HNQ. f_equal; lra. }
  apply Rmult_integral in Hu. destruct Hu as [Hu|Hu]; [contradiction|]. rewrite HB' in Hu.
  assert (Hpos : forall z1 z2, (z1 <> 0 \/ z2 <> 0) -> 0 < b * b * (z1 * z1) + a * a * (z2 * z2)).
  { clear - Ha Hb. intros z1 z2 H. assert (0 < b * b) by (apply Rmult_lt_0_compat; auto). assert (0 < a * a) by (apply Rmult_lt_0_compat; auto). pose proof (sqnn z1). pose proof (sqnn z2). destruct H as [H|H]; pose proof (sqpos _ H); nra. }
  assert (H1 : 0 < b * b * (w1 * w1) + a * a * (w2 * w2)).
  { apply Hpos. destruct (Req_dec w1 0) as [Z1|Z1]; auto. destruct (Req_dec w2 0) as [Z2|Z2]; auto. exfalso. apply HPQ. f_equal; lra. }
  assert (H2 : 0 <= b * b * (u1 * u1) + a * a * (u2 * u2)).
  { pose proof (sqnn (b * u1)). pose proof (sqnn (a * u2)). nra. }
  destruct (Rlt_le_dec 0 k); auto. nra.
Qed.

Lemma reflect_len w n : sdot n n = 1 -> sdot (billiard_reflect w n) (billiard_reflect w n) = sdot w w.
Proof.
  destruct w as [w1 w2], n as [m1 m2]. unfold billiard_reflect, dot_, sdot. unpt. intros H.
  set (d := m1 * w1 + m2 * w2). transitivity (w1 * w1 + w2 * w2 - 4 * d * (m1 * w1 + m2 * w2) + 4 * d * d * (m1 * m1 + m2 * m2)); [ring|].
  rewrite H. unfold d. ring.
Qed.

(** the law of reflection *)
Lemma bounce_law a b P Q N n c k : 0 < a -> 0 < b -> P <> Q -> N <> Q ->
  sdot n n = 1 -> c <> 0 -> n = (c * (b * b * fst Q), c * (a * a * snd Q)) ->
  0 < k -> vsub N Q = vscal k (billiard_reflect (vsub Q P) n) ->
  forall tau, ell_tangent (0, 0) a b 0 Q tau ->
    sdot (unit_dir P Q) tau = sdot (unit_dir Q N) tau /\ scross (unit_dir P Q) tau = - scross (unit_dir Q N) tau.
Proof.
  intros Ha Hb HPQ HNQ Hn Hc En Hk E tau Ht. apply tangent_dir in Ht; auto.
  assert (Hnt : sdot n tau = 0). { rewrite En. unfold sdot; cbn [fst snd]. transitivity (c * (b * b * fst Q * fst tau + a * a * snd Q * snd tau)); [ring|rewrite Ht; ring]. }
  assert (D : dist Q N = k * dist P Q).
  { unfold dist, dist2. rewrite E. set (w := vsub Q P). transitivity (sqrt (k * k * sdot w w)).
    - f_equal. transitivity (k * k * sdot (billiard_reflect w n) (billiard_reflect w n)); [unfold sdot; unpt; ring|rewrite reflect_len; auto].
    - rewrite sqrt_mult_alt by nra. rewrite sqrt_square by lra. auto. }
  destruct (dist_unit P Q HPQ) as [HL _]. unfold unit_dir. rewrite D, E. set (w := vsub Q P) in *. clearbody w. set (L := dist P Q) in *. clearbody L.
  replace (vscal (/ (k * L)) (vscal k (billiard_reflect w n))) with (vscal (/ L) (billiard_reflect w n)) by (unpt; f_equal; field; lra).
  destruct w as [w1 w2], n as [m1 m2], tau as [t1 t2]. unfold sdot, scross, billiard_reflect, dot_ in *. unpt. cbn [fst snd] in *. clear - Hn Hnt HL.
  set (d := m1 * w1 + m2 * w2). split.
  - transitivity (/ L * (w1 * t1 + w2 * t2 - 2 * d * (m1 * t1 + m2 * t2))); [rewrite Hnt; ring|ring].
  - assert (X : w1 * t2 - w2 * t1 = d * (m1 * t2 - m2 * t1)).
    { transitivity ((w1 * t2 - w2 * t1) * (m1 * m1 + m2 * m2) + (m1 * w2 - m2 * w1) * (m1 * t1 + m2 * t2)).
      - rewrite Hn, Hnt. ring.
      - unfold d. ring. }
    transitivity (/ L * (w1 * t2 - w2 * t1)); [ring|]. transitivity (- (/ L * (w1 * t2 - w2 * t1 - 2 * d * (m1 * t2 - m2 * t1)))); [|ring].
    rewrite X. ring.
Qed.

(** product of the (scaled) signed distances of the foci to the line (AB) *)
Definition foci_prod (f : R) (A B : pt) : R := scross (vsub B A) (vsub (f, 0) A) * scross (vsub B A) (vsub (- f, 0) A).

Lemma foci_prod_sym f A B : foci_prod f A B = foci_prod f B A.
Proof. unfold foci_prod, scross. destruct A, B. unpt. ring. Qed.

Lemma bounce_foci a b f P Q N n c k : 0 < a -> 0 < b -> f * f = a * a - b * b -> on_ellipse (0, 0) a b 0 Q ->
  sdot n n = 1 -> c <> 0 -> n = (c * (b * b * fst Q), c * (a * a * snd Q)) ->
  vsub N Q = vscal k (billiard_reflect (vsub Q P) n) ->
  foci_prod f P Q * dist2 Q N = foci_prod f Q N * dist2 P Q.
Proof.
  intros Ha Hb Hf HQ Hn Hc En E. rewrite (foci_prod_sym f P Q). unfold dist2. rewrite E.
  assert (Hlen := reflect_len (vsub Q P) n Hn).
  assert (X : foci_prod f Q N = k * k * (scross (billiard_reflect (vsub Q P) n) (vsub (f, 0) Q) * scross (billiard_reflect (vsub Q P) n) (vsub (- f, 0) Q))).
  { unfold foci_prod. rewrite E. unfold scross; unpt; ring. }
  assert (Y : foci_prod f Q P = scross (vsub Q P) (vsub (f, 0) Q) * scross (vsub Q P) (vsub (- f, 0) Q)).
  { unfold foci_prod, scross. unpt. ring. }
  rewrite X, Y. clear X Y E. set (w := vsub Q P) in *. clearbody w. set (u := billiard_reflect w n) in *.
  assert (Z : sdot (vscal k u) (vscal k u) = k * k * sdot w w). { rewrite <- Hlen. unfold sdot; unpt; ring. }
  rewrite Z. clear Z.
  assert (G : forall z, a * a * (b * b) * (scross z (vsub (f, 0) Q) * scross z (vsub (- f, 0) Q)) =
     a * a * (b * b) * (b * b) * sdot z z - (b * b * fst Q * fst z + a * a * snd Q * snd z) * (b * b * fst Q * fst z + a * a * snd Q * snd z)).
  { intros z. apply std_on in HQ; auto. destruct Q as [x y], z as [z1 z2]. unfold scross, sdot. unpt. cbn [fst snd] in *.
    transitivity (a * a * (b * b) * ((z1 * y - z2 * x) * (z1 * y - z2 * x) - z2 * z2 * (f * f))); [ring|]. rewrite Hf.
    transitivity ((b * b * (x * x) + a * a * (y * y)) * (b * b * (z1 * z1) + a * a * (z2 * z2)) - (b * b * x * z1 + a * a * y * z2) * (b * b * x * z1 + a * a * y * z2) - a * a * (b * b) * ((a * a - b * b) * (z2 * z2))).
    - ring. 
    - rewrite HQ. ring. }
  assert (J : b * b * fst Q * fst u + a * a * snd Q * snd u = - (b * b * fst Q * fst w + a * a * snd Q * snd w)).
  { apply Rmult_eq_reg_l with c; auto. transitivity (sdot n u); [rewrite En; unfold sdot; cbn [fst snd]; ring|].
    transitivity (- sdot n w); [|rewrite En; unfold sdot; cbn [fst snd]; ring].
    unfold u, billiard_reflect, dot_. transitivity (sdot n w - 2 * sdot n w * sdot n n); [unfold sdot; unpt; ring|rewrite Hn; ring]. }
  pose proof (G w) as Gw. pose proof (G u) as Gu. rewrite J, Hlen in Gu.
  assert (Hab : 0 < a * a * (b * b)) by (repeat apply Rmult_lt_0_compat; auto).
  assert (V : scross w (vsub (f, 0) Q) * scross w (vsub (- f, 0) Q) = scross u (vsub (f, 0) Q) * scross u (vsub (- f, 0) Q)).
  { apply Rmult_eq_reg_l with (a * a * (b * b)); [|lra]. rewrite Gw, Gu. ring. }
  rewrite V. ring.
Qed.

(** ** The whole trajectory *)
Definition bounces (a b f : R) (k : nat) (segs : list line) (q : nat -> pt) : Prop :=
  length segs = k /\
  (forall i, (i < k)%nat -> chord (nth i segs (mkLine (0, 0) (0, 0) true true)) (q (S i)) (q (S (S i)))) /\
  (forall i, (i <= k)%nat -> q i <> q (S i)) /\
  (forall i, (i <= S k)%nat -> on_ellipse (0, 0) a b 0 (q i)) /\
  (forall i tau, (i < k)%nat -> ell_tangent (0, 0) a b 0 (q (S i)) tau ->
     sdot (unit_dir (q i) (q (S i))) tau = sdot (unit_dir (q (S i)) (q (S (S i)))) tau /\
     scross (unit_dir (q i) (q (S i))) tau = - scross (unit_dir (q (S i)) (q (S (S i)))) tau) /\
  (forall i, (i < k)%nat -> f * f = a * a - b * b ->
     foci_prod f (q i) (q (S i)) * dist2 (q (S i)) (q (S (S i))) = foci_prod f (q (S i)) (q (S (S i))) * dist2 (q i) (q (S i))).

Lemma billiard_loop_spec e f k : std_ell e -> forall P q0 Q r segs, on_ellipse (0, 0) (ea e) (eb e) 0 q0 -> on_ellipse (0, 0) (ea e) (eb e) 0 Q ->
  q0 <> Q -> vsub Q P = vscal r (vsub Q q0) -> billiard_loop e k P Q = Ok segs ->
  exists q, q 0%nat = q0 /\ q 1%nat = Q /\ bounces (ea e) (eb e) f k segs q.
Proof.
  intros Hs. pose proof Hs as (HO & Hal & Ha & Hb). induction k as [|k IH]; intros P q0 Q r segs Hq0 HQ Hne Hr H.
  - cbn in H. injection H as <-. exists (fun i => match i with O => q0 | _ => Q end). split; [|split]; auto.
    unfold bounces. repeat split; auto; try lia.
    + intros [|i]; auto; lia.
    + intros [|i]; auto.
  - cbn [billiard_loop] in H. destruct (billiard_step e P Q) as [[seg Q1]|] eqn:Est; [|discriminate]. cbn [bind] in H.
    destruct (billiard_loop e k Q Q1) as [rest|] eqn:El; [|discriminate]. cbn [bind] in H. injection H as <-.
    destruct (billiard_step_spec e P Q seg Q1 Hs HQ Est) as (HPQ & n & N & s & Hn & (c & Hc & En) & Hs0 & EN & HNQ & HN & Hch & _ & _ & HQ1).
    rewrite Hr in EN.
    destruct (bounce (ea e) (eb e) q0 Q N n c r s Ha Hb Hne Hq0 HQ HN HNQ Hn Hc En EN) as (j & Hj & Ej).
    assert (Law := bounce_law (ea e) (eb e) q0 Q N n c j Ha Hb Hne HNQ Hn Hc En Hj Ej).
    assert (Foc := fun Hf => bounce_foci (ea e) (eb e) f q0 Q N n c j Ha Hb Hf HQ Hn Hc En Ej).
    assert (Q' : exists q, q 0%nat = Q /\ q 1%nat = N /\ bounces (ea e) (eb e) f k rest q).
    { assert (V1 : vsub N Q = vscal 1 (vsub N Q)) by (unpt; f_equal; ring).
      destruct k as [|k'].
      - apply (IH Q Q N 1); auto.
      - apply (IH Q Q N 1); auto. destruct HQ1 as [<-| ->]; auto.
        cbn [billiard_loop] in El. destruct (billiard_step e Q Q) as [[seg' Q1']|] eqn:Est'; [|discriminate].
        destruct (billiard_step_spec e Q Q seg' Q1' Hs HQ Est') as (K & _). contradiction K; auto. }
    destruct Q' as (q & E0 & E1 & Hb1 & Hb2 & Hb3 & Hb4 & Hb5 & Hb6).
    exists (fun i => match i with O => q0 | S i => q i end). split; [|split]; auto. unfold bounces.
    split; [cbn; f_equal; auto|]. split; [|split; [|split; [|split]]].
    + intros [|i] Hi. * cbn [nth]. rewrite E0, E1. auto. * cbn [nth]. apply Hb2. lia.
    + intros [|i] Hi; [rewrite E0; auto|]. apply Hb3. lia.
    + intros [|i] Hi; auto. apply Hb4. lia.
    + intros [|i] tau Hi; [rewrite E0, E1; apply Law|]. apply Hb5. lia.
    + intros [|i] Hi Hf; [rewrite E0, E1; apply Foc; auto|]. apply Hb6; auto. lia.
Qed.

Lemma on_line_of A B M : on_line A B M <-> exists s, M = vadd A (vscal s (vsub B A)).
Proof. unfold on_line, at_line. tauto. Qed.

Lemma billiard_trajectory_spec e f k P0 v0 segs : std_ell e -> billiard_trajectory e k P0 v0 = Ok segs ->
  exists q, on_line P0 (vadd P0 v0) (q 0%nat) /\ on_line P0 (vadd P0 v0) (q 1%nat) /\ exists seg rest, segs = seg :: rest /\
    chord seg (q 0%nat) (q 1%nat) /\ bounces (ea e) (eb e) f k rest q.
Proof.
  intros Hs. unfold billiard_trajectory.
  destruct (Line_init_cases P0 (vadd P0 v0) true true) as [[Hl ->]|[_ ->]]; [|discriminate]. cbn [bind].
  set (l := mkLine P0 (vadd P0 v0) true true).
  destruct (intersection_ellipse_line e l) as [[|I|I0 I1]|] eqn:Ei; try discriminate. cbn [bind two_points].
  destruct (Line_init_cases I0 I1 true true) as [[Hl2 ->]|[_ ->]]; [|discriminate]. cbn [bind].
  destruct (two_chord e l I0 I1 Hs Ei) as (Hne & E0 & E1 & L0 & L1 & All). unfold l in L0, L1. cbn [lA lB] in L0, L1.
  destruct (billiard_loop e k P0 I1) as [rest|] eqn:El; [|discriminate]. cbn [bind]. intros K. injection K as <-.
  assert (Hr : exists r, vsub I1 P0 = vscal r (vsub I1 I0)).
  { destruct L0 as (s0 & S0), L1 as (s1 & S1). exists (s1 / (s1 - s0)).
    assert (s1 - s0 <> 0). { intros K. apply Hne. rewrite S0, S1. replace s0 with s1 by lra. auto. }
    rewrite S0, S1. unfold at_line. destruct P0, v0. unpt. f_equal; field; auto. }
  destruct Hr as (r & Hr).
  destruct (billiard_loop_spec e f k Hs P0 I0 I1 r rest E0 E1 Hne Hr El) as (q & Q0 & Q1 & B).
  exists q. rewrite Q0, Q1. split; auto. split; auto. eexists _, _. split; [reflexivity|]. split; auto. left; auto.
Qed.

Definition dl : line := mkLine (0, 0) (0, 0) true true.

Lemma billiard_chords e k P0 v0 segs : std_ell e -> billiard_trajectory e k P0 v0 = Ok segs ->
  exists q : nat -> pt, length segs = S k /\
    on_line P0 (vadd P0 v0) (q 0%nat) /\ on_line P0 (vadd P0 v0) (q 1%nat) /\
    (forall i, (i <= k)%nat -> chord (nth i segs dl) (q i) (q (S i)) /\ q i <> q (S i) /\
       on_ellipse (0, 0) (ea e) (eb e) 0 (q i) /\ on_ellipse (0, 0) (ea e) (eb e) 0 (q (S i))) /\
    (forall i tau, (i < k)%nat -> ell_tangent (0, 0) (ea e) (eb e) 0 (q (S i)) tau ->
     sdot (unit_dir (q i) (q (S i))) tau = sdot (unit_dir (q (S i)) (q (S (S i)))) tau /\
     scross (unit_dir (q i) (q (S i))) tau = - scross (unit_dir (q (S i)) (q (S (S i)))) tau).
Proof.
  intros Hs H. destruct (billiard_trajectory_spec e 0 k P0 v0 segs Hs H) as (q & L0 & L1 & seg & rest & -> & C & B1 & B2 & B3 & B4 & B5 & _).
  exists q. split; [cbn; auto|]. split; auto. split; auto. split; [|exact B5].
  intros i Hi. split; [|split; [|split]]; [|apply B3; auto|apply B4; lia|apply B4; lia].
  destruct i as [|i]; cbn [nth]; auto.
Qed.

Lemma billiard_foci_const e f k P0 v0 segs : std_ell e -> f * f = ea e * ea e - eb e * eb e -> billiard_trajectory e k P0 v0 = Ok segs ->
  exists rho, forall l, In l segs -> lA l <> lB l /\ on_ellipse (0, 0) (ea e) (eb e) 0 (lA l) /\ on_ellipse (0, 0) (ea e) (eb e) 0 (lB l) /\ foci_prod f (lA l) (lB l) = rho * dist2 (lA l) (lB l).
Proof.
  intros Hs Hf H. destruct (billiard_trajectory_spec e f k P0 v0 segs Hs H) as (q & L0 & L1 & seg & rest & -> & C & B1 & B2 & B3 & B4 & _ & B6).
  assert (D : forall i, (i <= k)%nat -> 0 < dist2 (q i) (q (S i))).
  { intros i Hi. destruct (dist_unit _ _ (B3 i Hi)) as [K1 K2]. rewrite <- K2. nra. }
  set (rho := foci_prod f (q 0%nat) (q 1%nat) / dist2 (q 0%nat) (q 1%nat)).
  assert (R0 : forall i, (i <= k)%nat -> foci_prod f (q i) (q (S i)) = rho * dist2 (q i) (q (S i))).
  { induction i as [|i IH]; intros Hi.
    - unfold rho. field. pose proof (D 0%nat ltac:(lia)). lra.
    - assert (K := B6 i ltac:(lia) Hf). rewrite IH in K by lia. pose proof (D i ltac:(lia)).
      apply Rmult_eq_reg_r with (dist2 (q i) (q (S i))); [|lra]. rewrite <- K. ring. }
  exists rho. intros l Hl. 
  assert (exists i, (i <= k)%nat /\ chord l (q i) (q (S i))) as (i & Hi & Hc).
  { destruct Hl as [<-|Hl]; [exists 0%nat; split; auto; lia|]. destruct (In_nth rest l dl Hl) as (i & Hi & <-). exists (S i). rewrite B1 in Hi. split; auto. }
  pose proof (B3 i Hi). pose proof (B4 i ltac:(lia)). pose proof (B4 (S i) ltac:(lia)). pose proof (R0 i Hi).
  destruct Hc as [[-> ->]|[-> ->]]; auto. repeat split; auto. rewrite foci_prod_sym, H3. f_equal. unfold dist2, sdot. unpt. ring.
Qed.

Lemma billiard_foci e k P0 v0 segs l1 l2 : std_ell e -> eb e <= ea e -> billiard_trajectory e k P0 v0 = Ok segs ->
  In l1 segs -> In l2 segs ->
  let f := sqrt (ea e ^ 2 - eb e ^ 2) in
  foci_prod f (lA l1) (lB l1) / dist2 (lA l1) (lB l1) = foci_prod f (lA l2) (lB l2) / dist2 (lA l2) (lB l2).
Proof.
  intros Hs Hab H H1 H2 f. assert (Hf : f * f = ea e * ea e - eb e * eb e).
  { destruct Hs as (_ & _ & Ha & Hb). unfold f. rewrite sqrt_sqrt; nra. }
  destruct (billiard_foci_const e f k P0 v0 segs Hs Hf H) as (rho & R). destruct (R l1 H1) as (N1 & _ & _ & ->), (R l2 H2) as (N2 & _ & _ & ->).
  destruct (dist_unit _ _ N1) as [K1 K2], (dist_unit _ _ N2) as [K3 K4]. rewrite <- K2, <- K4. field. split; lra.
Qed.

Lemma cross0_on_line A B M : A <> B -> scross (vsub B A) (vsub M A) = 0 <-> on_line A B M.
Proof.
  intros H. destruct A as [a b], B as [c d], M as [x y]. unfold scross, on_line, at_line. unpt. cbn [fst snd]. split.
  - intros K. assert (D : 0 < (c - a) * (c - a) + (d - b) * (d - b)).
    { destruct (Req_dec (c - a) 0) as [E|E].
      - destruct (Req_dec (d - b) 0) as [E2|E2]; [exfalso; apply H; f_equal; lra|]. rewrite E. pose proof (sqpos _ E2). lra.
      - pose proof (sqpos _ E). pose proof (sqnn (d - b)). lra. }
    exists (((c - a) * (x - a) + (d - b) * (y - b)) / ((c - a) * (c - a) + (d - b) * (d - b))). f_equal.
    + apply Rmult_eq_reg_r with ((c - a) * (c - a) + (d - b) * (d - b)); [|lra].
      transitivity (a * ((c - a) * (c - a) + (d - b) * (d - b)) + ((c - a) * (x - a) + (d - b) * (y - b)) * (c - a)); [|field; lra].
      transitivity (a * ((c - a) * (c - a) + (d - b) * (d - b)) + ((c - a) * (x - a) + (d - b) * (y - b)) * (c - a) - (d - b) * ((c - a) * (y - b) - (d - b) * (x - a))); [ring|rewrite K; ring].
    + apply Rmult_eq_reg_r with ((c - a) * (c - a) + (d - b) * (d - b)); [|lra].
      transitivity (b * ((c - a) * (c - a) + (d - b) * (d - b)) + ((c - a) * (x - a) + (d - b) * (y - b)) * (d - b)); [|field; lra].
      transitivity (b * ((c - a) * (c - a) + (d - b) * (d - b)) + ((c - a) * (x - a) + (d - b) * (y - b)) * (d - b) + (c - a) * ((c - a) * (y - b) - (d - b) * (x - a))); [ring|rewrite K; ring].
  - intros (t & E). injection E as -> ->. ring.
Qed.

Lemma billiard_focus e k P0 v0 segs l1 l2 : std_ell e -> eb e <= ea e -> billiard_trajectory e k P0 v0 = Ok segs ->
  In l1 segs -> In l2 segs ->
  let f := sqrt (ea e ^ 2 - eb e ^ 2) in
  on_line (lA l1) (lB l1) (f, 0) \/ on_line (lA l1) (lB l1) (- f, 0) ->
  on_line (lA l2) (lB l2) (f, 0) \/ on_line (lA l2) (lB l2) (- f, 0).
Proof.
  intros Hs Hab H H1 H2 f Hon. assert (Hf : f * f = ea e * ea e - eb e * eb e).
  { destruct Hs as (_ & _ & Ha & Hb). unfold f. rewrite sqrt_sqrt; nra. }
  destruct (billiard_foci_const e f k P0 v0 segs Hs Hf H) as (rho & R). destruct (R l1 H1) as (N1 & _ & _ & E1), (R l2 H2) as (N2 & _ & _ & E2).
  destruct (dist_unit _ _ N1) as [K1 K2]. rewrite <- !cross0_on_line in * by auto. unfold foci_prod in *.
  assert (E : scross (vsub (lB l1) (lA l1)) (vsub (f, 0) (lA l1)) * scross (vsub (lB l1) (lA l1)) (vsub (- f, 0) (lA l1)) = 0) by (destruct Hon as [-> | ->]; ring).
  assert (rho = 0). { rewrite E1 in E. apply Rmult_integral in E. destruct E as [E|E]; auto. exfalso. rewrite <- K2 in E. nra. }
  rewrite H0, Rmult_0_l in E2. apply Rmult_integral in E2. auto.
Qed.

(** the caustic *)
Lemma tangent_line a b A w : 0 < a -> 0 < b -> a * a * (snd w * snd w) + b * b * (fst w * fst w) = scross w A * scross w A -> w <> (0, 0) ->
  exists s, ell_tangent (0, 0) a b 0 (vadd A (vscal s w)) w.
Proof.
  intros Ha Hb H Hw. destruct A as [x y], w as [u v]. unfold scross in H; cbn [fst snd] in H.
  set (h := v * x - u * y). assert (Hh : a * a * (v * v) + b * b * (u * u) = h * h) by (rewrite H; unfold h; ring).
  assert (Hq : 0 < u * u + v * v).
  { destruct (Req_dec u 0) as [->|E]; [destruct (Req_dec v 0) as [->|E]; [contradiction Hw; auto|]|].
    - pose proof (sqpos _ E); lra.
    - pose proof (sqpos _ E). pose proof (sqnn v). lra. }
  assert (Hp : 0 < h * h).
  { rewrite <- Hh. assert (0 < a * a) by (apply Rmult_lt_0_compat; auto). assert (0 < b * b) by (apply Rmult_lt_0_compat; auto). pose proof (sqnn u). pose proof (sqnn v).
    destruct (Rlt_le_dec 0 (u * u)); [nra|]. assert (0 < v * v) by lra. nra. }
  assert (Hh0 : h <> 0) by (intros K; rewrite K in Hp; lra).
  (* the tangency point *)
  assert (ET : exists s, vadd (x, y) (vscal s (u, v)) = (a * a * v / h, - (b * b * u / h))).
  { exists (((a * a * v / h - x) * u + (- (b * b * u / h) - y) * v) / (u * u + v * v)). unfold vadd, vscal; cbn [fst snd].
    assert (L : v * (a * a * v / h - x) - u * (- (b * b * u / h) - y) = 0).
    { transitivity ((a * a * (v * v) + b * b * (u * u)) / h - h); [unfold h; field; exact Hh0|rewrite Hh; field; auto]. }
    set (p := a * a * v / h) in *. set (q := - (b * b * u / h)) in *. clearbody p q. f_equal.
    - apply Rmult_eq_reg_r with (u * u + v * v); [|lra]. transitivity (x * (u * u + v * v) + ((p - x) * u + (q - y) * v) * u); [field; lra|].
      transitivity (p * (u * u + v * v) - v * (v * (p - x) - u * (q - y))); [ring|rewrite L; ring].
    - apply Rmult_eq_reg_r with (u * u + v * v); [|lra]. transitivity (y * (u * u + v * v) + ((p - x) * u + (q - y) * v) * v); [field; lra|].
      transitivity (q * (u * u + v * v) + u * (v * (p - x) - u * (q - y))); [ring|rewrite L; ring]. }
  destruct ET as (s & ET). exists s. rewrite ET.
  assert (On : b * b * (a * a * v / h * (a * a * v / h)) + a * a * (- (b * b * u / h) * - (b * b * u / h)) = a * a * (b * b)).
  { transitivity (a * a * (b * b) * (a * a * (v * v) + b * b * (u * u)) / (h * h)); [field; auto|rewrite Hh; field; auto]. }
  split; [|split]; auto.
  - apply std_on; auto.
  - intros k K. apply std_on in K; auto. unfold vadd, vscal in K; cbn [fst snd] in K.
    assert (K2 : k * k * (b * b * (u * u) + a * a * (v * v)) = 0).
    { transitivity (b * b * ((a * a * v / h + k * u) * (a * a * v / h + k * u)) + a * a * ((- (b * b * u / h) + k * v) * (- (b * b * u / h) + k * v)) - a * a * (b * b)); [|lra].
      rewrite <- On. field. auto. }
    apply Rmult_integral in K2. destruct K2 as [K2|K2]; [|lra]. apply sq0; auto.
Qed.

Lemma billiard_caustic e k P0 v0 segs l0 : std_ell e -> eb e <= ea e -> billiard_trajectory e k P0 v0 = Ok segs ->
  In l0 segs ->
  let f := sqrt (ea e ^ 2 - eb e ^ 2) in
  0 < scross (vsub (lB l0) (lA l0)) (vsub (f, 0) (lA l0)) * scross (vsub (lB l0) (lA l0)) (vsub (- f, 0) (lA l0)) ->
  exists a' b', 0 < a' < ea e /\ 0 < b' < eb e /\ a' ^ 2 - b' ^ 2 = ea e ^ 2 - eb e ^ 2 /\
    forall l, In l segs -> exists T, on_line (lA l) (lB l) T /\ ell_tangent (0, 0) a' b' 0 T (vsub (lB l) (lA l)).
Proof.
  intros Hs Hab H H0 f Hpos. pose proof Hs as (_ & _ & Ha & Hb). assert (Hf : f * f = ea e * ea e - eb e * eb e) by (unfold f; rewrite sqrt_sqrt; nra).
  destruct (billiard_foci_const e f k P0 v0 segs Hs Hf H) as (rho & R).
  fold (foci_prod f (lA l0) (lB l0)) in Hpos. set (a := ea e) in *. set (b := eb e) in *. clearbody a b f.
  assert (D : forall l, In l segs -> 0 < dist2 (lA l) (lB l)).
  { intros l Hl. destruct (R l Hl) as (N & _). destruct (dist_unit _ _ N) as [K1 K2]. rewrite <- K2. nra. }
  assert (Hr : 0 < rho). { destruct (R l0 H0) as (N & _ & _ & E). rewrite E in Hpos. pose proof (D l0 H0). destruct (Rlt_le_dec 0 rho); auto. nra. }
  (* rho < b^2, from l0 *)
  assert (Hr2 : rho < b * b).
  { destruct (R l0 H0) as (N & E0 & E1 & E). pose proof (D l0 H0) as D0. assert (C := chord_eq a b (lA l0) (lB l0) E0 E1 Ha Hb).
    apply std_on in E0, E1; auto. destruct (lA l0) as [x y] eqn:EA, (lB l0) as [x' y'] eqn:EB. cbn [fst snd] in *. unfold foci_prod, scross, dist2, sdot in *. cbn [fst snd vsub] in *.
    set (u := x' - x) in *. set (v := y' - y) in *.
    assert (J : a * a * (b * b) * (b * b - rho) * (u * u + v * v) = (b * b * x * u + a * a * y * v) * (b * b * x * u + a * a * y * v)).
    { transitivity (a * a * (b * b) * (b * b) * (u * u + v * v) - a * a * (b * b) * (rho * (u * u + v * v))); [ring|]. rewrite <- E.
      transitivity (a * a * (b * b) * ((b * b) * (u * u + v * v) - ((u * y - v * x) * (u * y - v * x) - v * v * (f * f)))); [ring|]. rewrite Hf.
      transitivity (a * a * (b * b) * (b * b * (u * u) + a * a * (v * v)) - a * a * (b * b) * ((u * y - v * x) * (u * y - v * x))); [ring|].
      rewrite <- E0 at 1. ring. }
    assert (Jn : b * b * x * u + a * a * y * v <> 0).
    { intros K. assert (b * b * (u * u) + a * a * (v * v) = 0). 
      { replace (x' + x) with (2 * x + u) in C by (unfold u; ring). replace (y' + y) with (2 * y + v) in C by (unfold v; ring). lra. }
      assert (0 < b * b) by (apply Rmult_lt_0_compat; auto). assert (0 < a * a) by (apply Rmult_lt_0_compat; auto). pose proof (sqnn u). pose proof (sqnn v). nra. }
    pose proof (sqpos _ Jn) as Jp. rewrite <- J in Jp. assert (0 < a * a * (b * b)) by (repeat apply Rmult_lt_0_compat; auto).
    destruct (Rlt_le_dec rho (b * b)); auto. exfalso.
    assert (a * a * (b * b) * (b * b - rho) <= 0) by nra. nra. }
  set (lam := b * b - rho). exists (sqrt (a * a - lam)), (sqrt (b * b - lam)).
  assert (La : 0 < a * a - lam) by (unfold lam; nra). assert (Lb : 0 < b * b - lam) by (unfold lam; lra).
  assert (Sa := sqrt_sqrt _ (Rlt_le _ _ La)). assert (Sb := sqrt_sqrt _ (Rlt_le _ _ Lb)). pose proof (sqrt_lt_R0 _ La) as Pa. pose proof (sqrt_lt_R0 _ Lb) as Pb.
  set (a' := sqrt (a * a - lam)) in *. set (b' := sqrt (b * b - lam)) in *. clearbody a' b'.
  assert (Hlam : 0 < lam) by (unfold lam; lra).
  split; [|split; [|split]].
  - split; auto. nra.
  - split; auto. nra.
  - nra.
  - intros l Hl. destruct (R l Hl) as (N & E0 & E1 & E). pose proof (D l Hl) as D0.
    destruct (tangent_line a' b' (lA l) (vsub (lB l) (lA l)) Pa Pb) as (s & T).
    + rewrite Sa, Sb. revert E. unfold foci_prod, dist2, sdot, scross, lam. destruct (lA l) as [x y], (lB l) as [x' y']. unpt. intros E.
      set (u := x' - x) in *. set (v := y' - y) in *.
      assert (E' : (u * y - v * x) * (u * y - v * x) - v * v * (f * f) = rho * (u * u + v * v)) by (rewrite <- E; ring).
      rewrite Hf in E'. lra.
    + intros K. apply N. destruct (lA l) as [x y], (lB l) as [x' y']. unfold vsub in K. cbn [fst snd] in K. injection K as K1 K2. f_equal; lra.
    + exists (vadd (lA l) (vscal s (vsub (lB l) (lA l)))). split; auto. exists s. auto.
Qed.
