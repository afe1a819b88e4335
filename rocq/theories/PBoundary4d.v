(** * from_boundary4: the ellipse is the smallest one; the order of the points. *)

From Coq Require Import Reals Lra Lia Psatz List Bool Permutation.
From Verif Require Import Base BaseLemmas Spec SpecLemmas SpecBoundary4 ModelInternal ModelLine ModelCircle ModelAffine ModelEllipse ModelBoundary4
  PLine PTransfo PEllipse PEllipse5 PEllipse6 PBoundary4a PBoundary4b PBoundary4c.
Import ListNotations.
Local Open Scope R_scope.

(** four points on two lines, in clockwise order *)
Definition cwquad (p0 p1 p2 p3 : pt) : Prop := exists X u v s t, scross u v < 0 /\ 0 < s < 1 /\ 0 < t < 1 /\
  p0 = vsub X (vscal s u) /\ p1 = vsub X (vscal t v) /\ p2 = vadd X (vscal (1 - s) u) /\ p3 = vadd X (vscal (1 - t) v).

(** ** the circle through three of the points passes through the fourth *)
Lemma fourth_on_circle z a0 a1 a2 a3 c r : -1 < z < 1 -> 0 < a0 -> 0 < a1 -> 0 < a2 -> a0 * a2 = a1 * a3 ->
  dist2 c (mv2 (swing_mat z) (- a0, 0)) = r * r -> dist2 c (mv2 (swing_mat z) (0, a1)) = r * r -> dist2 c (mv2 (swing_mat z) (a2, 0)) = r * r ->
  dist2 c (mv2 (swing_mat z) (0, - a3)) = r * r /\
  exists n1 n2 m, 0 < m /\ forall x y, dist2 c (mv2 (swing_mat z) (x, y)) = r * r + m * (x * x + 2 * z * (x * y) + y * y) - 2 * n1 * x - 2 * n2 * y - m * (a0 * a2).
Proof.
  intros Hz H0 H1 H2 HK. assert (Hzz : 0 < 1 - z * z) by (clear - Hz; nra).
  set (w := sqrt (sqrt (1 - z * z))). assert (W0 : 0 < w) by (apply sqrt_lt_R0, sqrt_lt_R0; auto).
  assert (W4 : w * w * (w * w) = 1 - z * z). { unfold w. assert (0 < sqrt (1 - z * z)) by (apply sqrt_lt_R0; auto). rewrite !sqrt_sqrt; lra. }
  set (m := / (w * w)). assert (Hm : 0 < m) by (apply Rinv_0_lt_compat, Rmult_lt_0_compat; auto).
  destruct c as [c1 c2].
  set (n1 := c1 / w). set (n2 := z * c1 / w + w * c2). set (f := c1 * c1 + c2 * c2).
  assert (G : forall x y, dist2 (c1, c2) (mv2 (swing_mat z) (x, y)) = m * (x * x + 2 * z * (x * y) + y * y) - 2 * n1 * x - 2 * n2 * y + f).
  { intros x y. unfold dist2, sdot, vsub, mv2, swing_mat; cbn [m11 m12 m21 m22 fst snd]. fold w.
    assert (E : w * w = (1 - z * z) * m) by (unfold m; rewrite <- W4; field; lra).
    transitivity ((x * x + 2 * z * (x * y) + z * z * (y * y)) * m + (w * w) * (y * y) - 2 * n1 * x - 2 * n2 * y + f).
    - unfold m, n1, n2, f. field. lra.
    - rewrite E. ring. }
  rewrite !G. clearbody n1 n2 f m. intros E0 E1 E2.
  assert (F : f = r * r - m * (a0 * a2)).
  { assert (Z : (a0 + a2) * (m * (a0 * a2) + f - r * r) = 0).
    { transitivity (a2 * (m * (- a0 * - a0 + 2 * z * (- a0 * 0) + 0 * 0) - 2 * n1 * - a0 - 2 * n2 * 0 + f - r * r) + a0 * (m * (a2 * a2 + 2 * z * (a2 * 0) + 0 * 0) - 2 * n1 * a2 - 2 * n2 * 0 + f - r * r)); [ring|]. rewrite E0, E2. ring. }
    apply Rmult_integral in Z. lra. }
  split.
  - assert (Z : a1 * (m * (0 * 0 + 2 * z * (0 * - a3) + - a3 * - a3) - 2 * n1 * 0 - 2 * n2 * - a3 + f - r * r) = 0); [|apply Rmult_integral in Z; lra].
    assert (E1' : 2 * n2 * a1 = m * (a1 * a1) - m * (a1 * a3)) by (rewrite F in E1; rewrite HK in E1; lra).
    transitivity (m * (a1 * (a3 * a3)) + (2 * n2 * a1) * a3 + a1 * (f - r * r)); [ring|]. rewrite E1', F, HK. ring.
  - exists n1, n2, m. split; [auto|]. intros x y. rewrite G, F. ring.
Qed.

Definition is_smallest (e : ellipse) (l : list pt) : Prop :=
  Forall (on_ellipse (eO e) (ea e) (eb e) (ell_th e)) l /\
  forall O a b th, 0 < a -> 0 < b -> Forall (on_ellipse O a b th) l ->
    ea e * eb e <= a * b /\ (ea e * eb e = a * b -> forall M, ell_form O a b th M = ell_form (eO e) (ea e) (eb e) (ell_th e) M).

Lemma sorted_smallest roots eigh p0 p1 p2 p3 : is_roots roots -> (forall S, is_eigh S (eigh S)) -> cwquad p0 p1 p2 p3 ->
  exists e, boundary4_sorted true roots eigh p0 p1 p2 p3 = Ok e /\ 0 < eb e <= ea e /\ is_smallest e [p0; p1; p2; p3].
Proof.
  intros HR HE (X & u & v & s & t & Hk & Hs & Ht & -> & -> & -> & ->).
  assert (N : scross u v <> 0) by lra. assert (s0 : s <> 0) by lra. assert (s1 : s <> 1) by lra. assert (t0 : t <> 0) by lra. assert (t1 : t <> 1) by lra.
  destruct (sorted_frame X u v s t N s0 s1 t0 t1 roots eigh HR HE) as (i & j & al & be & z & p & q' & c & r & e & Hij & Hal & _ & Hbe & E0 & E1 & E2 & E3 & EK & Ee & Hz & Hp & Hq' & Hg & Hr & C0 & C1 & C2 & Hax & HF).
  specialize (Hbe Hk). exists e. split; [exact Ee|]. split; [auto|]. clear Ee. rewrite E0, E1, E2, E3. clear E0 E1 E2 E3 N s0 s1 t0 t1 Hk u v.
  set (a0 := s * al) in *. set (a2 := (1 - s) * al) in *. set (a1 := t * be) in *. set (a3 := (1 - t) * be) in *.
  assert (P0 : 0 < a0) by (apply Rmult_lt_0_compat; lra). assert (P1 : 0 < a1) by (apply Rmult_lt_0_compat; lra).
  assert (P2 : 0 < a2) by (apply Rmult_lt_0_compat; lra). assert (P3 : 0 < a3) by (apply Rmult_lt_0_compat; lra).
  rewrite !Rabs_right in EK by lra. rewrite !Rabs_right in Hg by lra. clearbody a0 a1 a2 a3. clear Hs Ht Hal Hbe s t al be. cbv zeta in Hg.
  set (K := a0 * a2) in *. set (U := (a2 - a0) / 2). set (W := (a1 - a3) / 2).
  assert (EW : bW a0 a1 a2 = W). { unfold bW, W. fold K. rewrite EK. field. lra. }
  change (bK a0 a2) with K in Hg. change (bU a0 a2) with U in Hg. rewrite EW in Hg.
  assert (KP : 0 < K) by (apply Rmult_lt_0_compat; auto).
  destruct (fourth_on_circle z a0 a1 a2 a3 c r Hz P0 P1 P2 EK C0 C1 C2) as (C3 & n1 & n2 & m & Hm & HD).
  assert (Hrr : 0 < r * r) by (apply Rmult_lt_0_compat; auto).
  assert (On : Forall (on_ellipse (eO e) (ea e) (eb e) (ell_th e)) [inframe X i j (- a0) 0; inframe X i j 0 a1; inframe X i j a2 0; inframe X i j 0 (- a3)]).
  { repeat constructor; unfold on_ellipse; rewrite HF; [rewrite C0|rewrite C1|rewrite C2|rewrite C3]; field; lra. }
  split; [exact On|].
  (* the parameter of the ellipse found is the root *)
  inversion_clear On as [|? ? O0 On1]. inversion_clear On1 as [|? ? O1 On2]. inversion_clear On2 as [|? ? O2 On3]. inversion_clear On3 as [|? ? O3 _].
  destruct (conic_through (eO e) (ea e) (eb e) (ell_th e) X i j a0 a1 a2 a3 ltac:(lra) ltac:(lra) Hij P0 P1 P2 P3 EK O0 O2 O1 O3) as (h & q & Hh & Hq & Nq & Aq & Fq).
  fold U W K in Nq, Fq.
  assert (Eh : h = z).
  { assert (G : forall x y, (1 + q * (x * x + 2 * h * (x * y) + y * y - 2 * U * x - 2 * W * y - K)) * (r * r) = r * r + m * (x * x + 2 * z * (x * y) + y * y) - 2 * n1 * x - 2 * n2 * y - m * K).
    { intros x y. rewrite <- Fq, HF, HD. fold K. field. lra. }
    pose proof (G 1 1) as G1. pose proof (G (-1) (-1)) as G2. pose proof (G 1 (-1)) as G3. pose proof (G (-1) 1) as G4. pose proof (G 1 0) as G5. pose proof (G (-1) 0) as G6. pose proof (G 0 0) as G7.
    assert (X1 : q * (r * r) = m) by lra. assert (X2 : q * (r * r) * h = m * z) by lra. rewrite X1 in X2. apply Rmult_eq_reg_l in X2; lra. }
  subst h. pose proof (area_farea K U W (ea e) (eb e) z q Hq Hz Nq Aq) as Ae.
  intros O a b th Ha Hb HOn.
  inversion_clear HOn as [|? ? Q0 On1]. inversion_clear On1 as [|? ? Q1 On2]. inversion_clear On2 as [|? ? Q2 On3]. inversion_clear On3 as [|? ? Q3 _].
  destruct (conic_through O a b th X i j a0 a1 a2 a3 Ha Hb Hij P0 P1 P2 P3 EK Q0 Q2 Q1 Q3) as (h & q2 & Hh' & Hq2 & Nq2 & Aq2 & Fq2).
  fold U W K in Nq2, Fq2. pose proof (area_farea K U W a b h q2 Hq2 Hh' Nq2 Aq2) as Ab.
  pose proof (asin_bound_lt z Hz) as B1. pose proof (asin_bound_lt h Hh') as B2.
  destruct (Req_dec h z) as [->|Ne].
  - assert (q2 = q).
    { pose proof (eq_trans Nq2 (eq_sym Nq)) as E. apply Rmult_eq_reg_r in E; [auto|]. intros Z. rewrite Z in Nq2. clear - Nq2 Hz. nra. }
    subst q2. split; [lra|]. intros _ M. rewrite (inframe_coords X i j M Hij), Fq, Fq2. reflexivity.
  - assert (L : farea K U W (asin z) < farea K U W (asin h)).
    { apply (farea_min K U W KP p q' z); auto; try lra. - apply sin_asin; lra. - intros Z. apply Ne. rewrite <- (sin_asin h), <- (sin_asin z), Z by lra. reflexivity. }
    split; [lra|]. intros Z. exfalso. lra.
Qed.

(** ** the order of the points *)
Lemma perm4 {T} (A B C D p0 p1 p2 p3 : T) : Permutation [A; B; C; D] [p0; p1; p2; p3] ->
  (p0 = A /\ Permutation [B; C; D] [p1; p2; p3]) \/ (p0 = B /\ Permutation [A; C; D] [p1; p2; p3]) \/
  (p0 = C /\ Permutation [A; B; D] [p1; p2; p3]) \/ (p0 = D /\ Permutation [A; B; C] [p1; p2; p3]).
Proof.
  intros P. assert (I : In p0 [A; B; C; D]) by (apply (Permutation_in _ (Permutation_sym P)); left; reflexivity).
  destruct I as [<-|[<-|[<-|[<-|[]]]]].
  - left. split; auto. apply Permutation_cons_inv in P. exact P.
  - right; left. split; auto. apply (Permutation_cons_inv (a := B)). etransitivity; [apply perm_swap|exact P].
  - right; right; left. split; auto. apply (Permutation_cons_inv (a := C)). etransitivity; [|exact P]. apply (Permutation_middle [A; B] [D] C).
  - right; right; right. split; auto. apply (Permutation_cons_inv (a := D)). etransitivity; [|exact P]. apply (Permutation_middle [A; B; C] [] D).
Qed.

Lemma perm3' {X} (A B C A' B' C' : X) : Permutation [A; B; C] [A'; B'; C'] ->
  (A' = A /\ B' = B /\ C' = C) \/ (A' = A /\ B' = C /\ C' = B) \/ (A' = B /\ B' = A /\ C' = C) \/
  (A' = B /\ B' = C /\ C' = A) \/ (A' = C /\ B' = A /\ C' = B) \/ (A' = C /\ B' = B /\ C' = A).
Proof.
  intros P. assert (I : In A' [A; B; C]) by (apply (Permutation_in _ (Permutation_sym P)); left; reflexivity).
  destruct I as [<-|[<-|[<-|[]]]].
  - apply Permutation_cons_inv in P. apply Permutation_length_2_inv in P as [E|E]; injection E as -> ->; tauto.
  - assert (Q : Permutation [A; C] [B'; C']). { apply (Permutation_cons_inv (a := B)). etransitivity; [apply perm_swap|exact P]. }
    apply Permutation_length_2_inv in Q as [E|E]; injection E as -> ->; tauto.
  - assert (Q : Permutation [A; B] [B'; C']). { apply (Permutation_cons_inv (a := C)). etransitivity; [|exact P]. apply (Permutation_middle [A; B] [] C). }
    apply Permutation_length_2_inv in Q as [E|E]; injection E as -> ->; tauto.
Qed.

(** a property of four things that does not depend on two transpositions and a cycle *)
Lemma perm4_ind {T} (P : T -> T -> T -> T -> Prop) :
  (forall a b c d, P a b c d -> P b a c d) -> (forall a b c d, P a b c d -> P b c d a) ->
  forall a b c d a' b' c' d', Permutation [a; b; c; d] [a'; b'; c'; d'] -> P a b c d -> P a' b' c' d'.
Proof.
  intros H1 H2 a b c d a' b' c' d' HP H.
  assert (H3 : forall a b c d, P a b c d -> P a c b d) by (intros; apply H2, H2, H2, H1, H2; auto).
  assert (H4 : forall a b c d, P a b c d -> P a b d c) by (intros; apply H2, H2, H1, H2, H2; auto).
  destruct (perm4 _ _ _ _ _ _ _ _ HP) as [(-> & Q)|[(-> & Q)|[(-> & Q)|(-> & Q)]]];
  destruct (perm3' _ _ _ _ _ _ Q) as [(-> & -> & ->)|[(-> & -> & ->)|[(-> & -> & ->)|[(-> & -> & ->)|[(-> & -> & ->)|(-> & -> & ->)]]]]];
  eauto 6.
Qed.

Definition mean4 (P1 P2 P3 P4 : pt) : pt := ((fst P1 + fst P2 + fst P3 + fst P4) / 4, (snd P1 + snd P2 + snd P3 + snd P4) / 4).
Definition ang (G P : pt) : R := atan2 (snd P - snd G) (fst P - fst G).

Lemma sort_spec argsort P1 P2 P3 P4 : is_argsort argsort -> exists p0 p1 p2 p3, b4_sort argsort P1 P2 P3 P4 = [p0; p1; p2; p3] /\
  Permutation [P1; P2; P3; P4] [p0; p1; p2; p3] /\
  let G := mean4 P1 P2 P3 P4 in ang G p1 <= ang G p0 /\ ang G p2 <= ang G p1 /\ ang G p3 <= ang G p2.
Proof.
  intros HA. unfold b4_sort. cbv zeta. fold (mean4 P1 P2 P3 P4). set (G := mean4 P1 P2 P3 P4).
  set (pts := [P1; P2; P3; P4]). set (l := map Ropp (map (fun P => atan2 (snd (vsub P G)) (fst (vsub P G))) pts)).
  assert (Ll : length l = 4%nat) by reflexivity.
  destruct (HA l) as [HP HS]. rewrite Ll in HP, HS. cbn [seq] in HP.
  pose proof (Permutation_length HP) as EL. cbn [length] in EL. destruct (argsort l) as [|i0 [|i1 [|i2 [|i3 [|]]]]]; try discriminate EL. clear EL.
  assert (PM : Permutation (map (fun i => nth i pts (0, 0)) [i0; i1; i2; i3]) (map (fun i => nth i pts (0, 0)) [0; 1; 2; 3]%nat)) by (apply Permutation_map; auto).
  cbn [map] in PM |- *. do 4 eexists. split; [reflexivity|]. split; [apply Permutation_sym; exact PM|].
  assert (B : forall i, In i [i0; i1; i2; i3] -> (i < 4)%nat). { intros i Hi. apply (Permutation_in _ HP) in Hi. cbn in Hi. lia. }
  assert (V : forall i, (i < 4)%nat -> nth i l 0 = - ang G (nth i pts (0, 0))). { intros i Hi. destruct i as [|[|[|[|]]]]; try lia; reflexivity. }
  pose proof (HS 0%nat 1%nat ltac:(lia)) as S0. pose proof (HS 1%nat 2%nat ltac:(lia)) as S1. pose proof (HS 2%nat 3%nat ltac:(lia)) as S2. cbn [nth] in S0, S1, S2.
  rewrite (V i0), (V i1) in S0 by (apply B; cbn; tauto). rewrite (V i1), (V i2) in S1 by (apply B; cbn; tauto). rewrite (V i2), (V i3) in S2 by (apply B; cbn; tauto).
  cbv zeta. lra.
Qed.

Lemma sin_neg_cases x : - (2 * PI) < x < 2 * PI -> sin x < 0 -> (- PI < x < 0) \/ (PI < x).
Proof.
  intros Hx Hs. pose proof PI_RGT_0. destruct (Rle_dec x (- PI)) as [L|L].
  - exfalso. assert (0 <= sin (x + 2 * PI)) by (apply sin_ge_0; lra). rewrite sin_plus, sin_2PI, cos_2PI in H0. lra.
  - destruct (Rlt_dec x 0); [left; lra|]. destruct (Rle_dec x PI); [|right; lra]. exfalso. assert (0 <= sin x) by (apply sin_ge_0; lra). lra.
Qed.

Lemma sq2_pos a b : (a, b) <> (0, 0) -> 0 < sqrt (a * a + b * b).
Proof.
  intros H. apply sqrt_lt_R0. destruct (Req_dec a 0) as [Z|Z]; [destruct (Req_dec b 0) as [Z2|Z2]|].
  - rewrite Z, Z2 in H. contradiction.
  - pose proof (sqpos _ Z2). pose proof (sqnn a). lra.
  - pose proof (sqpos _ Z). pose proof (sqnn b). lra.
Qed.

Lemma ang_cross G A B : scross (vsub A G) (vsub B G) < 0 -> (- PI < ang G B - ang G A < 0) \/ (PI < ang G B - ang G A).
Proof.
  intros H. assert (NA : (fst A - fst G, snd A - snd G) <> (0, 0)). { intros Z. injection Z as Z1 Z2. unfold scross, vsub in H; cbn [fst snd] in H. rewrite Z1, Z2 in H. lra. }
  assert (NB : (fst B - fst G, snd B - snd G) <> (0, 0)). { intros Z. injection Z as Z1 Z2. unfold scross, vsub in H; cbn [fst snd] in H. rewrite Z1, Z2 in H. lra. }
  destruct (cos_sin_atan2 _ _ NA) as [CA SA]. destruct (cos_sin_atan2 _ _ NB) as [CB SB]. fold (ang G A) in CA, SA. fold (ang G B) in CB, SB.
  pose proof (atan2_range (snd A - snd G) (fst A - fst G)) as RA. pose proof (atan2_range (snd B - snd G) (fst B - fst G)) as RB. fold (ang G A) in RA. fold (ang G B) in RB.
  apply sin_neg_cases; [lra|]. rewrite sin_minus, CA, SA, CB, SB. unfold scross, vsub in H; cbn [fst snd] in H.
  pose proof (sq2_pos _ _ NA) as PA. pose proof (sq2_pos _ _ NB) as PB.
  set (lA := sqrt ((fst A - fst G) * (fst A - fst G) + (snd A - snd G) * (snd A - snd G))) in *. set (lB := sqrt ((fst B - fst G) * (fst B - fst G) + (snd B - snd G) * (snd B - snd G))) in *.
  clearbody lA lB. match goal with |- ?g < 0 => replace g with (((fst A - fst G) * (snd B - snd G) - (snd A - snd G) * (fst B - fst G)) * / (lA * lB)) by (field; lra) end.
  assert (0 < / (lA * lB)) by (apply Rinv_0_lt_compat, Rmult_lt_0_compat; auto). clear - H H0. nra.
Qed.

Lemma cw_rot p0 p1 p2 p3 : cwquad p0 p1 p2 p3 -> cwquad p1 p2 p3 p0.
Proof.
  intros (X & u & v & s & t & Hk & Hs & Ht & -> & -> & -> & ->). exists X, v, (vscal (-1) u), t, (1 - s).
  split. { replace (scross v (vscal (-1) u)) with (scross u v) by (unfold scross, vscal; cbn [fst snd]; ring). auto. }
  split; [lra|]. split; [lra|]. destruct X, u, v. unfold vsub, vadd, vscal; cbn [fst snd]. repeat split; pteq; ring.
Qed.

Lemma cw_mean p0 p1 p2 p3 : cwquad p0 p1 p2 p3 -> let G := mean4 p0 p1 p2 p3 in scross (vsub p0 G) (vsub p1 G) < 0.
Proof.
  intros (X & u & v & s & t & Hk & Hs & Ht & -> & -> & -> & ->) G.
  replace (scross _ _) with ((s + t) / 4 * scross u v).
  - assert (0 < (s + t) / 4) by lra. clear - H Hk. nra.
  - unfold G, mean4. destruct X, u, v. unfold scross, vsub, vadd, vscal; cbn [fst snd]. field.
Qed.

Lemma mean4_perm a b c d a' b' c' d' : Permutation [a; b; c; d] [a'; b'; c'; d'] -> mean4 a' b' c' d' = mean4 a b c d.
Proof.
  intros HP. apply (perm4_ind (fun x y z w => mean4 x y z w = mean4 a b c d)) with a b c d; auto.
  - intros x y z w <-. unfold mean4. pteq; lra.
  - intros x y z w <-. unfold mean4. pteq; lra.
Qed.

(** decreasing angles about the mean: the clockwise order *)
Lemma sorted_cw A B C D p0 p1 p2 p3 : cwquad A B C D -> Permutation [A; B; C; D] [p0; p1; p2; p3] ->
  (let G := mean4 A B C D in ang G p1 <= ang G p0 /\ ang G p2 <= ang G p1 /\ ang G p3 <= ang G p2) -> cwquad p0 p1 p2 p3.
Proof.
  intros HQ HP. set (G := mean4 A B C D). cbv zeta. intros HS.
  pose proof (cw_rot _ _ _ _ HQ) as HQ1. pose proof (cw_rot _ _ _ _ HQ1) as HQ2. pose proof (cw_rot _ _ _ _ HQ2) as HQ3.
  pose proof (cw_mean _ _ _ _ HQ) as M0. pose proof (cw_mean _ _ _ _ HQ1) as M1. pose proof (cw_mean _ _ _ _ HQ2) as M2. pose proof (cw_mean _ _ _ _ HQ3) as M3. cbv zeta in *.
  rewrite (mean4_perm A B C D B C D A) in M1 by (apply (Permutation_cons_append [B; C; D] A)).
  rewrite (mean4_perm A B C D C D A B) in M2 by (apply (Permutation_app_comm [A; B] [C; D])).
  rewrite (mean4_perm A B C D D A B C) in M3 by (apply (Permutation_app_comm [A; B; C] [D])).
  fold G in M0, M1, M2, M3. apply ang_cross in M0, M1, M2, M3.
  pose proof (atan2_range (snd A - snd G) (fst A - fst G)) as RA. pose proof (atan2_range (snd B - snd G) (fst B - fst G)) as RB.
  pose proof (atan2_range (snd C - snd G) (fst C - fst G)) as RC. pose proof (atan2_range (snd D - snd G) (fst D - fst G)) as RD.
  fold (ang G A) in RA. fold (ang G B) in RB. fold (ang G C) in RC. fold (ang G D) in RD. pose proof PI_RGT_0 as HPI. clearbody G.
  destruct (perm4 _ _ _ _ _ _ _ _ HP) as [(-> & Q)|[(-> & Q)|[(-> & Q)|(-> & Q)]]];
  destruct (perm3' _ _ _ _ _ _ Q) as [(-> & -> & ->)|[(-> & -> & ->)|[(-> & -> & ->)|[(-> & -> & ->)|[(-> & -> & ->)|(-> & -> & ->)]]]]];
  try assumption; exfalso; clear HP Q HQ HQ1 HQ2 HQ3;
  destruct M0 as [M0|M0]; destruct M1 as [M1|M1]; destruct M2 as [M2|M2]; destruct M3 as [M3|M3]; lra.
Qed.
