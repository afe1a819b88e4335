(** * Proofs about the triangular gasket: a hole along a side. *)

From Coq Require Import Reals Lra Lia Psatz List Bool ZArith.
From Verif Require Import Base BaseLemmas Spec SpecLemmas SpecTriangle ModelInternal ModelLine ModelCircle ModelAffine ModelTriangle ModelGasket PLine PInvBase PTriangle PTriangle2 PTriangle3 PTriangle4 PTriangle5 PSteiner PGasket1 PGasket2.
Import ListNotations.
Local Open Scope R_scope.

Lemma acos_cos_sin q t : 0 <= t -> q * q + t * t = 1 -> py_acos q = Ok (acos q) /\ cos (acos q) = q /\ sin (acos q) = t.
Proof.
  intros Ht E. pose proof (sqnn q) as Q. pose proof (sqnn t) as Q'. assert (B : -1 <= q <= 1) by (split; nra).
  split; [unfold py_acos; destruct (Rlt_dec q (-1)); [lra|]; destruct (Rlt_dec 1 q); [lra|reflexivity]|].
  split; [apply cos_acos; auto|]. rewrite sin_acos by auto. apply sqrt_eq; auto. unfold Rsqr. lra.
Qed.

Lemma touch_frame e A B c : A <> B -> e * e = 1 -> touch e A B c -> scross (vsub B A) (vsub (cO c) A) / dist A B = e * cr c.
Proof.
  intros N He T. pose proof (dist_pos _ _ N) as P. unfold touch in T. set (k := scross _ _) in *.
  assert (k = e * (cr c * dist A B)) by (rewrite <- T, <- Rmult_assoc, He; ring). rewrite H. field. lra.
Qed.

Lemma frame_cross A B x y : A <> B -> scross (vsub B A) (vsub (frame A B x y) A) = y * dist A B.
Proof.
  intros N. pose proof (dist_pos _ _ N) as P. pose proof (dist_sq A B) as Q. unfold frame. set (d := dist A B) in *.
  transitivity (y * (dist2 A B / d)); [unspec; field; lra|]. rewrite <- Q. field. lra.
Qed.

(** the two circles of a hole along a side, their feet and the disc of the hole *)
Lemma ccl_coords e c1 c2 A B D : A <> B -> e * e = 1 -> posc c1 -> posc c2 -> posc D -> tang c1 c2 -> touch e A B c1 -> touch e A B c2 ->
  ortho D c1 -> ortho D c2 -> scross (vsub B A) (vsub (cO D) A) = 0 -> exists x1 x2,
  cO c1 = frame A B x1 (e * cr c1) /\ cO c2 = frame A B x2 (e * cr c2) /\ cO D = frame A B ((x1 + x2) / 2) 0 /\
  x1 = sdot (vsub B A) (vsub (cO c1) A) / dist A B /\ x2 = sdot (vsub B A) (vsub (cO c2) A) / dist A B /\
  cr D = sqrt (cr c1) * sqrt (cr c2) /\ (x2 - x1 = 2 * cr D \/ x1 - x2 = 2 * cr D).
Proof.
  intros N He P1 P2 PD T12 T1 T2 O1 O2 O3. pose proof (dist_pos _ _ N) as Pd.
  pose proof (frame_ex A B (cO c1) N) as F1. pose proof (frame_ex A B (cO c2) N) as F2. pose proof (frame_ex A B (cO D) N) as FD.
  rewrite (touch_frame e A B c1 N He T1) in F1. rewrite (touch_frame e A B c2 N He T2) in F2. rewrite O3 in FD.
  replace (0 / dist A B) with 0 in FD by (field; lra).
  set (x1 := sdot _ _ / _) in F1. set (x2 := sdot _ _ / _) in F2. set (m := sdot _ _ / _) in FD.
  exists x1, x2. unfold tang, ortho, posc in *.
  assert (E12 : (x2 - x1) * (x2 - x1) = 4 * (cr c1 * cr c2)).
  { pose proof (dist_sq (cO c1) (cO c2)) as Q. rewrite T12, F1, F2, frame_dist2 in Q by auto.
    assert ((e * cr c2 - e * cr c1) * (e * cr c2 - e * cr c1) = (cr c2 - cr c1) * (cr c2 - cr c1)) by (transitivity (e * e * ((cr c2 - cr c1) * (cr c2 - cr c1))); [ring|rewrite He; ring]). lra. }
  rewrite F1, FD, frame_dist2 in O1 by auto. rewrite F2, FD, frame_dist2 in O2 by auto.
  assert (Q1 : (e * cr c1) * (e * cr c1) = cr c1 * cr c1) by (transitivity (e * e * (cr c1 * cr c1)); [ring|rewrite He; ring]).
  assert (Q2 : (e * cr c2) * (e * cr c2) = cr c2 * cr c2) by (transitivity (e * e * (cr c2 * cr c2)); [ring|rewrite He; ring]).
  assert (R1 : (x1 - m) * (x1 - m) = cr D * cr D) by lra. assert (R2 : (x2 - m) * (x2 - m) = cr D * cr D) by lra.
  assert (X : (x1 - x2) * (x1 + x2 - 2 * m) = 0) by lra. pose proof (Rmult_lt_0_compat _ _ P1 P2) as P12.
  apply Rmult_integral in X. destruct X as [X|X]; [exfalso; replace (x2 - x1) with 0 in E12 by lra; lra|].
  assert (Em : m = (x1 + x2) / 2) by lra. rewrite <- Em.
  assert (RD : cr D * cr D = cr c1 * cr c2) by (rewrite <- R1; rewrite Em; lra).
  pose proof (sqrt_lt_R0 _ P1) as S1. pose proof (sqrt_lt_R0 _ P2) as S2. pose proof (sqrt_def _ (Rlt_le _ _ P1)) as D1. pose proof (sqrt_def _ (Rlt_le _ _ P2)) as D2.
  split; [exact F1|]. split; [exact F2|]. split; [exact FD|]. split; [reflexivity|]. split; [reflexivity|]. split.
  - pose proof (Rmult_lt_0_compat _ _ S1 S2). assert (F : (cr D - sqrt (cr c1) * sqrt (cr c2)) * (cr D + sqrt (cr c1) * sqrt (cr c2)) = 0).
    { transitivity (cr D * cr D - (sqrt (cr c1) * sqrt (cr c1)) * (sqrt (cr c2) * sqrt (cr c2))); [ring|]. rewrite D1, D2. lra. }
    apply Rmult_integral in F. lra.
  - assert (F : (x2 - x1 - 2 * cr D) * (x1 - x2 - 2 * cr D) = 0) by lra. apply Rmult_integral in F. lra.
Qed.

Lemma sorted_new e A B c1 c2 D : snd A <= snd B -> A <> B -> e * e = 1 -> posc c1 -> posc c2 -> posc D -> tang c1 c2 -> touch e A B c1 -> touch e A B c2 ->
  ortho D c1 -> ortho D c2 -> scross (vsub B A) (vsub (cO D) A) = 0 -> exists c,
  side_circle_circle_sorted A B c1 c2 = Ok (c, [CCC c c1 c2; CCL c1 c A B; CCL c c2 A B]) /\ posc c /\
  vc c = vnew (vc c1) (vc c2) (vl (lnormal e A B) A) (vc D) /\
  exists x1 x2 l, 0 <= l <= 1 /\ cr c <= cr c1 /\ cr c <= cr c2 /\
    cO c1 = frame A B x1 (e * cr c1) /\ cO c2 = frame A B x2 (e * cr c2) /\ cO c = frame A B ((1 - l) * x1 + l * x2) (e * cr c).
Proof.
  intros Sy N He P1 P2 PD T12 T1 T2 O1 O2 O3. pose proof (ccl_triple e c1 c2 A B D N He P1 P2 PD T12 T1 T2 O1 O2 O3) as T.
  destruct (ccl_coords e c1 c2 A B D N He P1 P2 PD T12 T1 T2 O1 O2 O3) as (x1 & x2 & F1 & F2 & FD & E1 & E2 & RD & X).
  pose proof (dist_pos _ _ N) as Pd. pose proof (dist_sq A B) as Qd.
  unfold posc in P1, P2, PD. pose proof (sqrt_lt_R0 _ P1) as S1. pose proof (sqrt_lt_R0 _ P2) as S2. pose proof (sqrt_def _ (Rlt_le _ _ P1)) as D1. pose proof (sqrt_def _ (Rlt_le _ _ P2)) as D2.
  unfold side_circle_circle_sorted. rewrite distance_dist.
  assert (Ec : np_div (fst B - fst A) (dist A B) = Ok ((fst B - fst A) / dist A B)) by (apply np_div_ok; lra). rewrite Ec. cbn [bind].
  destruct (acos_cos_sin ((fst B - fst A) / dist A B) ((snd B - snd A) / dist A B)) as (Ea & Cs & Sn).
  { apply Rmult_le_pos; [lra|]. apply Rlt_le, Rinv_0_lt_compat; auto. }
  { transitivity (dist2 A B / (dist A B * dist A B)); [unspec; field; lra|]. rewrite <- Qd. field. lra. }
  rewrite Ea. cbn [bind]. set (al := acos _) in *.
  assert (Z1 : (cexp_i (- al) * (cO c1 - A))%C = (x1, e * cr c1)).
  { rewrite E1, <- (touch_frame e A B c1 N He T1). unfold cexp_i, Cmul, Csub. rewrite cos_neg, sin_neg, Cs, Sn. cbn [fst snd]. unspec. f_equal; field; lra. }
  assert (Z2 : (cexp_i (- al) * (cO c2 - A))%C = (x2, e * cr c2)).
  { rewrite E2, <- (touch_frame e A B c2 N He T2). unfold cexp_i, Cmul, Csub. rewrite cos_neg, sin_neg, Cs, Sn. cbn [fst snd]. unspec. f_equal; field; lra. }
  rewrite Z1, Z2. cbn [fst snd]. set (a := sqrt (cr c1)) in *. set (b := sqrt (cr c2)) in *.
  destruct (innerSoddyRadius_inf a b S1 S2) as (Er & Ps). cbv zeta in *. set (s := a * b / (a + b)) in *. rewrite D1, D2 in Er. rewrite Er. cbn [bind].
  unfold py_sqrt. destruct (Rlt_dec (cr c1) 0); [lra|]. destruct (Rlt_dec (cr c2) 0); [lra|]. cbn [bind]. fold a b.
  assert (Pss : 0 < s * s) by (apply Rmult_lt_0_compat; auto).
  assert (Cp : copysign (s * s) (e * cr c1) = e * (s * s)).
  { unfold copysign, ltb. rewrite (Rabs_right (s * s)) by lra. assert (He' : (e - 1) * (e + 1) = 0) by lra. apply Rmult_integral in He'.
    destruct He' as [Ee|Ee]; [assert (e = 1) by lra; subst e; destruct Rlt_dec; lra|]. assert (e = -1) by lra. subst e. destruct Rlt_dec; lra. }
  rewrite Cp. assert (Pab : 0 < a + b) by lra. assert (PabI : 0 < / (a + b)) by (apply Rinv_0_lt_compat; auto).
  set (l := a / (a + b)).
  assert (Hl : 0 <= l <= 1).
  { split; [apply Rmult_le_pos; lra|]. unfold l. apply (Rmult_le_reg_r (a + b)); auto. replace (a / (a + b) * (a + b)) with a by (field; lra). lra. }
  rewrite <- D1, <- D2. set (Y := (1 - l) * x1 + l * x2).
  assert (EY : (if ltb x1 x2 then let! t := np_div (2 * (a * a) * b) (a + b) in Ok (t + x1) else let! t := np_div (2 * (b * b) * a) (a + b) in Ok (t + x2)) = Ok Y).
  { unfold ltb. destruct Rlt_dec as [L|L].
    - rewrite (np_div_ok _ _ (2 * a * b * l)); [cbn [bind] | lra | unfold l; field; lra]. f_equal. destruct X as [X|X]; [|lra]. unfold Y. rewrite RD in X. replace x2 with (x1 + 2 * (a * b)) by lra. ring.
    - rewrite (np_div_ok _ _ (2 * a * b * (1 - l))); [cbn [bind] | lra | unfold l; field; lra]. f_equal. destruct X as [X|X]; [lra|]. unfold Y. rewrite RD in X. replace x1 with (x2 + 2 * (a * b)) by lra. ring. }
  rewrite EY. cbn [bind].
  assert (EZ : (cexp_i al * (Y, (e * (s * s))%R) + A)%C = frame A B Y (e * (s * s))).
  { unfold cexp_i, Cmul, Cadd, frame. rewrite Cs, Sn. unpt. cbn [fst snd]. f_equal; field; lra. }
  rewrite EZ. rewrite <- surjective_pairing. rewrite Circle_init_pos by auto. cbn [bind]. eexists. split; [reflexivity|]. split; [exact Pss|].
  set (c := mkCircle _ _).
  assert (Sle1 : s <= a). { unfold s. apply (Rmult_le_reg_r (a + b)); auto. replace (a * b / (a + b) * (a + b)) with (a * b) by (field; lra). pose proof (sqnn a). lra. }
  assert (Sle2 : s <= b). { unfold s. apply (Rmult_le_reg_r (a + b)); auto. replace (a * b / (a + b) * (a + b)) with (a * b) by (field; lra). pose proof (sqnn b). lra. }
  split.
  - assert (Pc : posc c) by exact Pss. pose proof (triple_new _ _ _ _ T) as (K & _). cbv zeta in K.
    apply v4_det; [| | | rewrite K; apply kap_self; auto].
    + rewrite vb_vc. apply Rgt_not_eq, Rinv_0_lt_compat. exact Pc.
    + rewrite vnew_vb, !vb_vc. unfold c; cbn [cr]. rewrite RD, <- D1, <- D2. unfold vb, vl; cbn [fst]. unfold s. field. repeat split; lra.
    + unfold vnew, v4add, vp. unfold vc, vl. cbn [fst snd]. rewrite F1, F2, FD, RD. rewrite <- D1, <- D2. unfold c; cbn [cr cO].
      assert (XX : exists g, g * g = 1 /\ x2 = x1 + g * (2 * (a * b))) by (rewrite RD in X; destruct X; [exists 1|exists (-1)]; split; lra).
      destruct XX as (g & _ & ->). unfold Y, l, frame, lnormal. unpt. unfold vopp. cbn [fst snd]. unfold s. f_equal; field; repeat split; try lra.
  - exists x1, x2, l. split; [exact Hl|]. unfold c; cbn [cr cO]. rewrite <- D1 in F1. rewrite <- D2 in F2. split; [nra|]. split; [nra|]. auto.
Qed.

Lemma touch_line_tangent e A B c : A <> B -> e * e = 1 -> posc c -> touch e A B c -> line_tangent A B (cO c) (cr c).
Proof.
  unfold posc, touch. intros N He P T. pose proof (dist2_pos _ _ N) as P2.
  exists (at_line A B (sdot (vsub (cO c) A) (vsub B A) / dist2 A B)). apply line_tangent_at_foot; auto; [lra|field; lra|].
  rewrite <- dist_sq. transitivity ((e * e) * (scross (vsub B A) (vsub (cO c) A) * scross (vsub B A) (vsub (cO c) A))); [rewrite He; ring|].
  transitivity ((e * scross (vsub B A) (vsub (cO c) A)) * (e * scross (vsub B A) (vsub (cO c) A))); [ring|]. rewrite T. ring.
Qed.

Lemma sdot_frame n A B A' x y : sdot n (vsub (frame A B x y) A') =
  sdot n (vsub A A') + x * (sdot n (vsub B A) / dist A B) + y * (scross (vsub B A) n / dist A B).
Proof. unfold frame. unspec. unfold Rdiv. ring. Qed.

Lemma frame_lag n A B : A <> B -> sdot n n = 1 ->
  (sdot n (vsub B A) / dist A B) * (sdot n (vsub B A) / dist A B) + (scross (vsub B A) n / dist A B) * (scross (vsub B A) n / dist A B) = 1.
Proof.
  intros N U. pose proof (dist_pos _ _ N) as Pd. pose proof (dist_sq A B) as Q. transitivity (sdot n n * dist2 A B / (dist A B * dist A B)).
  - unspec. field. lra.
  - rewrite U, <- Q. field. lra.
Qed.

Lemma sorted_step A B c1 c2 D : snd A <= snd B -> region (CCL c1 c2 A B) D -> exists c hs,
  side_circle_circle_sorted A B c1 c2 = Ok (c, hs) /\ step_ok (CCL c1 c2 A B) D c hs.
Proof.
  intros Sy (N & P1 & P2 & PD & T12 & (e & He & T1 & T2) & O1 & O2 & O3).
  destruct (sorted_new e A B c1 c2 D Sy N He P1 P2 PD T12 T1 T2 O1 O2 O3) as (c & E & Pc & V & x1 & x2 & l & Hl & L1 & L2 & F1 & F2 & Fc).
  pose proof (ccl_triple e c1 c2 A B D N He P1 P2 PD T12 T1 T2 O1 O2 O3) as T.
  pose proof (triple_new _ _ _ _ T) as (_ & N1 & N2 & N3 & ND & NB). cbv zeta in *. rewrite <- V in *. rewrite kap_sym in N3.
  apply kap_tang in N1, N2; auto. apply kap_touch in N3; auto.
  destruct (triple_geom _ _ _ _ _ PD Pc T V) as (IcD & D12 & D23 & D13 & (P12 & P23 & P13) & _ & (I12 & I23 & I13) & (J1 & J2 & J3) & (C12 & C23 & C13) & K12 & K23 & K13).
  eexists c, _. split; [exact E|]. unfold step_ok. cbn [members sides]. rewrite !Forall_2, !Forall_1.
  split; [auto|]. split; [auto|]. split; [auto|]. split; [cbn [fst snd]; apply (touch_line_tangent e); auto|]. split.
  - intros n A' U. rewrite Forall_2. unfold hp. rewrite F1, F2, Fc, !sdot_frame. pose proof (frame_lag n A B N U) as G.
    set (f := sdot n (vsub B A) / dist A B) in *. set (g := scross (vsub B A) n / dist A B) in *. set (k := sdot n (vsub A A')). intros (Q1 & Q2) _.
    assert (He' : (e - 1) * (e + 1) = 0) by lra. apply Rmult_integral in He'.
    assert (G2 : -1 <= e * g <= 1) by (pose proof (sqnn f); destruct He' as [Ee|Ee]; [assert (e = 1) by lra|assert (e = -1) by lra]; subst e; split; nra).
    assert (G3 : 0 <= (1 + e * g)) by lra. assert (G4 : 0 <= 1 - e * g) by lra. clear G He'. set (h := e * g) in *. replace (e * cr c1 * g) with (cr c1 * h) in Q1 by (unfold h; ring).
    replace (e * cr c2 * g) with (cr c2 * h) in Q2 by (unfold h; ring). replace (e * cr c * g) with (cr c * h) by (unfold h; ring).
    assert (W1 : 0 <= (1 - l) * (k + x1 * f + cr c * h - cr c)) by (apply Rmult_le_pos; [lra|]; assert (0 <= (cr c1 - cr c) * (1 - h)) by (apply Rmult_le_pos; lra); lra).
    assert (W2 : 0 <= l * (k + x2 * f + cr c * h - cr c)) by (apply Rmult_le_pos; [lra|]; assert (0 <= (cr c2 - cr c) * (1 - h)) by (apply Rmult_le_pos; lra); lra).
    lra.
  - exists (CCC c c1 c2), (CCL c1 c A B), (CCL c c2 A B), D12, D13, D23. split; [reflexivity|].
    split; [apply region_CCC; auto|]. split; [apply (region_CCL e); auto; apply triple_swap12; auto|]. split; [apply (region_CCL e); auto|].
    do 6 (split; [auto using disj_sym|]).
    assert (X23 : disj D23 c1) by (apply kap_disj; auto; lra). assert (X13 : disj D13 c2) by (apply kap_disj; auto; lra).
    intros h' D' [Q|[Q|[Q|[]]]]; injection Q as <- <-; cbn [members]; (split; [cbn [In]; auto|]); (split; [intros w; cbn [In]; tauto|]); (split; [intros w [<-|[<-|[]]]; cbn [In]; auto|]); cbn [corners okside]; split; auto using incl_refl.
Qed.

Lemma region_CCL_swap c1 c2 A B D : region (CCL c1 c2 A B) D -> region (CCL c2 c1 B A) D.
Proof.
  intros (N & P1 & P2 & PD & T12 & (e & He & T1 & T2) & O1 & O2 & O3). cbn [region].
  repeat split; auto using tang_sym.
  - exists (- e). unfold touch in *. rewrite (dist_sym B A). repeat split; [lra| |]; [rewrite <- T2|rewrite <- T1]; unspec; ring.
  - rewrite <- Ropp_0, <- O3. unspec. ring.
Qed.

Lemma side_circle_circle_step A B c1 c2 D : region (CCL c1 c2 A B) D -> exists c hs,
  side_circle_circle A B c1 c2 = Ok (c, hs) /\ step_ok (CCL c1 c2 A B) D c hs.
Proof.
  intros H. unfold side_circle_circle, ltb. destruct Rlt_dec as [L|L]; [|apply sorted_step; auto; lra].
  destruct (sorted_step B A c2 c1 D) as (c & hs & E & S); [lra|apply region_CCL_swap; auto|]. exists c, hs. split; auto.
  destruct S as (Pc & I & Tm & Ts & Hh & h1 & h2 & h3 & D1 & D2 & D3 & Ehs & R1 & R2 & R3 & I1 & I2 & I3 & J1 & J2 & J3 & K).
  unfold step_ok. cbn [members sides] in *. rewrite !Forall_2, !Forall_1 in *. cbn [fst snd] in *.
  split; [auto|]. split; [auto|]. split; [tauto|]. split.
  { destruct Ts as (F & Ft). exists F. destruct Ft as (Q1 & Q2 & Q3). split; [apply on_line_sym; auto|]. split; auto. unfold orthogonal in *. rewrite <- Ropp_0, <- Q2. unspec. ring. }
  split; [intros n A' U; rewrite !Forall_2; intros (U1 & U2) Z; apply Hh; auto; rewrite Forall_2; auto|].
  exists h1, h2, h3, D1, D2, D3. do 10 (split; [auto|]). intros h' D' Q. destruct (K h' D' Q) as (K1 & K2 & K3 & K4 & K5). split; [auto|]. split; [|split; [|split]].
  - intros w Hw. specialize (K2 w Hw). cbn [In] in *. tauto.
  - intros w Hw. apply K3. cbn [In] in *. tauto.
  - exact K4.
  - intros X Y Z (S & HS). apply K5. exists S. apply perm3_swap12; auto.
Qed.
