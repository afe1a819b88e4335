(** * Proofs about the triangular gasket: the three fillings by themselves, and an example. *)

From Coq Require Import Reals Lra Lia Psatz List Bool ZArith.
From Verif Require Import Base BaseLemmas Spec SpecLemmas SpecTriangle SpecGasket ModelInternal ModelLine ModelCircle ModelTriangle ModelGasket PLine PTriangle PTriangle2 PTriangle3 PTriangle4 PTriangle5 PSteiner PGasket1 PGasket2 PGasket3 PGasket4 PGasket5 PGasket6 PGasket7 PGasket8 PGasket9 PGasket10 PGasket11 PGasket12 PGasket13.
Import ListNotations.
Local Open Scope R_scope.

Lemma inner_disk c D M : inner c D -> in_disk (cO c) (cr c) M -> in_disk (cO D) (cr D) M.
Proof. unfold inner, in_disk. intros H1 H2. pose proof (dist_triangle (cO D) (cO c) M). rewrite (dist_sym (cO D) (cO c)) in H. lra. Qed.

Lemma innerSoddy_spec c1 c2 c3 : 0 < cr c1 -> 0 < cr c2 -> 0 < cr c3 -> circles_touch c1 c2 -> circles_touch c2 c3 -> circles_touch c1 c3 ->
  exists c hs, innerSoddyCircle c1 c2 c3 = Ok (c, hs) /\ 0 < cr c /\ circles_touch c c1 /\ circles_touch c c2 /\ circles_touch c c3 /\
    disc_in_triangle (cO c1) (cO c2) (cO c3) c.
Proof.
  intros P1 P2 P3 T12 T23 T13. destruct (middle_ex c1 c2 c3 P1 P2 P3 T12 T23 T13) as (D & R). destruct (innerSoddy_step c1 c2 c3 D R) as (c & hs & E & S0). exists c, hs. split; [auto|].
  destruct S0 as (Pc & In0 & T & _). cbn [members] in T. rewrite Forall_3 in T. destruct T as (T1 & T2 & T3). split; [exact Pc|]. split; [exact T1|]. split; [exact T2|]. split; [exact T3|].
  intros M HM. apply (inner_disk c D M In0) in HM. destruct (tangent_Ravi c1 c2 c3 P1 P2 P3 T12 T23 T13) as (S & H). destruct R as (_ & _ & _ & PD & _ & _ & _ & O1 & O2 & O3).
  destruct (ortho_incenter c1 c2 c3 D S PD H O1 O2 O3) as (EO & ER).
  assert (He : exists e, e * e = 1 /\ 0 < e * dbl (cO c1) (cO c2) (cO c3)).
  { pose proof H as (_ & _ & _ & HS & _ & _ & _ & _ & ES). destruct (Rle_lt_dec 0 (dbl (cO c1) (cO c2) (cO c3))) as [L|L]; [exists 1; rewrite Rabs_right in ES by lra|exists (-1); rewrite Rabs_left in ES by lra]; lra. }
  destruct He as (e & He & PO). pose proof (incircle_within _ _ _ _ _ _ _ e H He PO) as W. rewrite <- EO, <- ER in W.
  apply (within_triangle e _ _ _ _ He PO W M). exact HM.
Qed.

Lemma touch_foot A B c F e : A <> B -> e * e = 1 -> 0 < e * scross (vsub B A) (vsub (cO c) A) -> 0 < cr c -> line_tangent_at A B (cO c) (cr c) F -> touch e A B c.
Proof.
  intros N He P Pc (L & O & D). unfold touch. unfold orthogonal in O. destruct L as (t & ->). pose proof (dist_pos A B N) as PD.
  set (F := at_line A B t) in *.
  assert (E : scross (vsub B A) (vsub (cO c) A) * scross (vsub B A) (vsub (cO c) A) = cr c * cr c * (dist A B * dist A B)).
  { transitivity (scross (vsub B A) (vsub F (cO c)) * scross (vsub B A) (vsub F (cO c))); [unfold F; unspec; ring|].
    transitivity (dist2 A B * dist2 (cO c) F - sdot (vsub F (cO c)) (vsub B A) * sdot (vsub F (cO c)) (vsub B A)); [unspec; ring|]. rewrite O, <- !dist_sq, D. ring. }
  set (s := scross _ _) in *. assert (0 < cr c * dist A B) by (apply Rmult_lt_0_compat; auto).
  assert (F0 : (e * s - cr c * dist A B) * (e * s + cr c * dist A B) = 0) by (transitivity (e * e * (s * s) - cr c * cr c * (dist A B * dist A B)); [ring|rewrite He, E; ring]).
  apply Rmult_integral in F0. lra.
Qed.

Lemma side_circle_circle_spec A B c1 c2 F1 F2 : 0 < cr c1 -> 0 < cr c2 -> A <> B -> circles_touch c1 c2 ->
  line_tangent_at A B (cO c1) (cr c1) F1 -> line_tangent_at A B (cO c2) (cr c2) F2 ->
  0 < scross (vsub B A) (vsub (cO c1) A) * scross (vsub B A) (vsub (cO c2) A) ->
  exists c hs, side_circle_circle A B c1 c2 = Ok (c, hs) /\ 0 < cr c /\ circles_touch c c1 /\ circles_touch c c2 /\ side_touched c A B /\
    forall M, in_disk (cO c) (cr c) M -> in_disk (midpoint F1 F2) (dist F1 F2 / 2) M.
Proof.
  intros P1 P2 N T L1 L2 SS. set (s1 := scross (vsub B A) (vsub (cO c1) A)) in *. set (s2 := scross (vsub B A) (vsub (cO c2) A)) in *.
  assert (He : exists e, e * e = 1 /\ 0 < e * s1 /\ 0 < e * s2).
  { destruct (Rlt_le_dec 0 s1) as [L|L].
    - exists 1. assert (0 < s2) by (destruct (Rlt_le_dec 0 s2) as [|G]; auto; pose proof (Rmult_le_pos s1 (- s2)); lra). lra.
    - exists (-1). assert (s1 <> 0) by (intros Z; rewrite Z in SS; lra). assert (s2 < 0) by (destruct (Rlt_le_dec s2 0) as [|G]; auto; pose proof (Rmult_le_pos (- s1) s2); lra). lra. }
  destruct He as (e & He & G1 & G2). pose proof (touch_foot A B c1 F1 e N He G1 P1 L1) as T1. pose proof (touch_foot A B c2 F2 e N He G2 P2 L2) as T2.
  destruct L1 as ((t1 & E1) & O1 & D1). destruct L2 as ((t2 & E2) & O2 & D2). unfold orthogonal in O1, O2. set (b := vsub B A) in *.
  assert (PD : 0 < dist A B) by (apply dist_pos; auto).
  assert (EF : F2 = vadd F1 (vscal (t2 - t1) b)) by (rewrite E1, E2; unfold at_line, b, vadd, vscal, vsub; cbn [fst snd]; f_equal; ring).
  assert (EM : forall q, dist2 (vadd F1 (vscal q b)) (cO c1) = q * q * sdot b b + cr c1 * cr c1).
  { intros q. rewrite <- D1, dist_sq. transitivity (q * q * sdot b b + dist2 (cO c1) F1 + 2 * q * sdot (vsub F1 (cO c1)) b); [unspec; ring|]. rewrite O1. ring. }
  assert (EM2 : forall q, dist2 (vadd F2 (vscal q b)) (cO c2) = q * q * sdot b b + cr c2 * cr c2).
  { intros q. rewrite <- D2, dist_sq. transitivity (q * q * sdot b b + dist2 (cO c2) F2 + 2 * q * sdot (vsub F2 (cO c2)) b); [unspec; ring|]. rewrite O2. ring. }
  assert (NF : F1 <> F2).
  { intros EQ. unfold circles_touch, ext_tangent in T. unfold touch in T1, T2. fold b in T1, T2. apply (f_equal (fun v => v * v)) in T. rewrite dist_sq in T.
    assert (X : (e * (e * (sdot b b * dist2 (cO c1) (cO c2)))) = (e * scross b (vsub (cO c1) A) - e * scross b (vsub (cO c2) A)) * (e * scross b (vsub (cO c1) A) - e * scross b (vsub (cO c2) A))).
    { transitivity (e * e * ((scross b (vsub (cO c1) A) - scross b (vsub (cO c2) A)) * (scross b (vsub (cO c1) A) - scross b (vsub (cO c2) A)) + (sdot (vsub F2 (cO c2)) b - sdot (vsub F1 (cO c1)) b) * (sdot (vsub F2 (cO c2)) b - sdot (vsub F1 (cO c1)) b))); [rewrite EQ; unspec; ring|]. rewrite O1, O2. ring. }
    rewrite T1, T2, T in X. assert (Qb : sdot b b = dist A B * dist A B) by (rewrite dist_sq; reflexivity). rewrite Qb in X.
    rewrite <- Rmult_assoc, He in X. assert (Y : 1 * (dist A B * dist A B) * (4 * (cr c1 * cr c2)) = 0) by lra. assert (0 < 1 * (dist A B * dist A B) * (4 * (cr c1 * cr c2))) by (repeat apply Rmult_lt_0_compat; lra). lra. }
  assert (PF : 0 < dist F1 F2) by (apply dist_pos; auto).
  set (D := mkCircle (midpoint F1 F2) (dist F1 F2 / 2)).
  assert (Q2 : dist F1 F2 / 2 * (dist F1 F2 / 2) = (t2 - t1) / 2 * ((t2 - t1) / 2) * sdot b b).
  { transitivity (dist F1 F2 * dist F1 F2 / 4); [field|]. rewrite dist_sq, EF. unspec. field. }
  assert (R : region (CCL c1 c2 A B) D).
  { cbn [region]. split; [auto|]. split; [exact P1|]. split; [exact P2|]. split; [unfold posc, D; cbn [cr]; lra|]. split; [exact T|]. split; [exists e; auto|]. unfold ortho, D. cbn [cO cr]. rewrite Q2. split; [|split].
    - replace (midpoint F1 F2) with (vadd F1 (vscal ((t2 - t1) / 2) b)) by (rewrite EF; unfold midpoint, vadd, vscal; cbn [fst snd]; f_equal; field). apply EM.
    - replace (midpoint F1 F2) with (vadd F2 (vscal (- ((t2 - t1) / 2)) b)) by (rewrite EF; unfold midpoint, vadd, vscal; cbn [fst snd]; f_equal; field). rewrite EM2. ring.
    - rewrite E1, E2. unfold midpoint. unfold b. unspec. field. }
  destruct (side_circle_circle_step A B c1 c2 D R) as (c & hs & E & S0). exists c, hs. split; [auto|]. destruct S0 as (Pc & In0 & Tm & Ts & _). cbn [members sides] in Tm, Ts. rewrite Forall_2 in Tm. rewrite Forall_1 in Ts.
  destruct Tm as (Tm1 & Tm2). split; [exact Pc|]. split; [exact Tm1|]. split; [exact Tm2|]. split; [exact Ts|]. intros M HM. exact (inner_disk c D M In0 HM).
Qed.

(** a circle tangent to the sides AB and AC, inside the angle *)
Lemma side_side_spec A B C c F G : ~ collinear A B C -> 0 < cr c ->
  line_tangent_at A B (cO c) (cr c) F -> line_tangent_at A C (cO c) (cr c) G -> on_open_ray A B F -> on_open_ray A C G ->
  side_side_circle A B C c = Raise ValueError \/
  exists c' hs, side_side_circle A B C c = Ok (c', hs) /\ 0 < cr c' /\ circles_touch c' c /\ side_touched c' A B /\ side_touched c' A C /\
    forall M, in_disk (cO c') (cr c') M -> in_disk A (dist A F) M.
Proof.
  intros N Pc LF LG RF RG. apply not_collinear_dbl in N. destruct (dbl_distinct _ _ _ N) as (N1 & N2 & N3).
  pose proof LF as (_ & OF & DF). pose proof LG as (_ & OG & DG). unfold orthogonal in OF, OG. destruct RF as (t & Pt & EF). destruct RG as (u & Pu & EG).
  set (b := vsub B A) in *. set (g := vsub C A) in *. set (w := vsub (cO c) A) in *.
  assert (A1 : sdot w b = t * sdot b b) by (assert (sdot (vsub F (cO c)) b = t * sdot b b - sdot w b) by (rewrite EF; unfold w, b; unspec; ring); lra).
  assert (A2 : sdot w g = u * sdot g g) by (assert (sdot (vsub G (cO c)) g = u * sdot g g - sdot w g) by (rewrite EG; unfold w, g; unspec; ring); lra).
  assert (Pb : 0 < sdot b b) by (change (sdot b b) with (dist2 A B); rewrite <- dist_sq; pose proof (dist_pos A B N1); apply Rmult_lt_0_compat; auto).
  assert (Pg : 0 < sdot g g) by (change (sdot g g) with (dist2 A C); rewrite <- dist_sq; pose proof (dist_pos A C N2); apply Rmult_lt_0_compat; auto).
  assert (B1 : sdot w w = t * t * sdot b b + cr c * cr c).
  { rewrite <- DF, dist_sq. transitivity (t * t * sdot b b + dist2 (cO c) F - 2 * t * sdot (vsub F (cO c)) b); [rewrite EF; unfold w, b; unspec; ring|]. rewrite OF. ring. }
  assert (B2 : sdot w w = u * u * sdot g g + cr c * cr c).
  { rewrite <- DG, dist_sq. transitivity (u * u * sdot g g + dist2 (cO c) G - 2 * u * sdot (vsub G (cO c)) g); [rewrite EG; unfold w, g; unspec; ring|]. rewrite OG. ring. }
  assert (X1 : scross b w * scross b w = cr c * cr c * sdot b b).
  { transitivity (sdot b b * sdot w w - sdot w b * sdot w b); [unspec; ring|]. rewrite A1, B1. ring. }
  assert (X2 : scross g w * scross g w = cr c * cr c * sdot g g).
  { transitivity (sdot g g * sdot w w - sdot w g * sdot w g); [unspec; ring|]. rewrite A2, B2. ring. }
  assert (ND : scross b g <> 0) by exact N.
  (* b and g have the same tangent length: w is along the bisector *)
  assert (TL : t * t * sdot b b = u * u * sdot g g) by lra.
  assert (OP : scross b w * scross g w < 0).
  { destruct (Rlt_le_dec (scross b w * scross g w) 0) as [|K]; auto. exfalso.
    assert (S2 : (scross b w * scross g w) * (scross b w * scross g w) = (cr c * cr c) * (cr c * cr c) * (sdot b b * sdot g g)) by (transitivity ((scross b w * scross b w) * (scross g w * scross g w)); [ring|rewrite X1, X2; ring]).
    assert (Pw : 0 < sdot w w) by (rewrite B1; pose proof (Rmult_lt_0_compat _ _ Pc Pc); pose proof (sqnn t); assert (0 <= t * t * sdot b b) by (apply Rmult_le_pos; lra); lra).
    assert (S3 : sdot w w * scross b g = sdot w b * (- scross g w) + scross b w * sdot w g) by (unspec; ring). rewrite A1, A2 in S3.
    assert (S4 : (u * sdot g g * scross b w) * (u * sdot g g * scross b w) = (t * sdot b b * scross g w) * (t * sdot b b * scross g w)).
    { transitivity (u * u * sdot g g * (sdot g g * (scross b w * scross b w))); [ring|]. transitivity (t * t * sdot b b * (sdot b b * (scross g w * scross g w))); [|ring]. rewrite X1, X2, TL. ring. }
    assert (S5 : 0 <= (u * sdot g g * scross b w) * (t * sdot b b * scross g w)).
    { replace ((u * sdot g g * scross b w) * (t * sdot b b * scross g w)) with ((u * sdot g g * (t * sdot b b)) * (scross b w * scross g w)) by ring. apply Rmult_le_pos; auto. repeat apply Rmult_le_pos; lra. }
    assert (S6 : u * sdot g g * scross b w = t * sdot b b * scross g w).
    { set (p := u * sdot g g * scross b w) in *. set (q := t * sdot b b * scross g w) in *. assert (S7 : (p - q) * (p + q) = 0) by lra. apply Rmult_integral in S7. destruct S7; [lra|]. assert (p = - q) by lra. rewrite H0 in S5. pose proof (sqnn q). assert (q * q = 0) by lra. apply Rmult_integral in H2. lra. }
    assert (S8 : sdot w w * scross b g = 0) by lra. apply Rmult_integral in S8. destruct S8; [lra|contradiction]. }
  assert (He : exists e, e * e = 1 /\ 0 < e * scross b w /\ 0 < - e * scross g w).
  { destruct (Rlt_le_dec 0 (scross b w)) as [L|L].
    - exists 1. assert (scross g w < 0) by (destruct (Rlt_le_dec (scross g w) 0) as [|K]; auto; pose proof (Rmult_le_pos (scross b w) (scross g w)); lra). lra.
    - exists (-1). assert (scross b w <> 0) by (intros Z; rewrite Z in OP; lra). assert (0 < scross g w) by (destruct (Rlt_le_dec 0 (scross g w)) as [|K]; auto; pose proof (Rmult_le_pos (- scross b w) (- scross g w)); lra). lra. }
  destruct He as (e & He & G1 & G2). pose proof (touch_foot A B c F e N1 He G1 Pc LF) as T1. pose proof (touch_foot A C c G (- e) N2 ltac:(lra) G2 Pc LG) as T2.
  assert (DD : dist A F * dist A F = t * t * sdot b b) by (rewrite dist_sq, EF; unfold b; unspec; ring).
  assert (NF : 0 < dist A F). { apply dist_pos. intros EQ. rewrite EQ, (proj2 (dist_0 F F) eq_refl) in DD. assert (0 < t * t * sdot b b) by (repeat apply Rmult_lt_0_compat; lra). lra. }
  assert (R : region (CLL A B C c) (mkCircle A (dist A F))).
  { cbn [region]. unfold posc, ortho. cbn [cO cr]. split; [auto|]. split; [auto|]. split; [auto|]. split; [rewrite DD; change (dist2 A (cO c)) with (sdot w w); lra|]. exists e. split; [auto|]. split; [|auto].
    fold b g. assert (Pw : 0 < sdot w w) by (rewrite B1; pose proof (Rmult_lt_0_compat _ _ Pc Pc); assert (0 < t * t * sdot b b) by (repeat apply Rmult_lt_0_compat; lra); lra).
    assert (S3 : sdot w w * (e * scross b g) = t * sdot b b * (- e * scross g w) + e * scross b w * (u * sdot g g)) by (rewrite <- A1, <- A2; unspec; ring).
    assert (0 < t * sdot b b * (- e * scross g w)) by (apply Rmult_lt_0_compat; [apply Rmult_lt_0_compat|]; lra). assert (0 < e * scross b w * (u * sdot g g)) by (apply Rmult_lt_0_compat; [|apply Rmult_lt_0_compat]; lra).
    apply (Rmult_lt_reg_l (sdot w w)); auto. rewrite S3. lra. }
  destruct (side_side_eval A B C c _ R) as [E|E]; auto. right. do 2 eexists. split; [exact E|]. destruct (corner_step A B C c _ R) as (Pc' & In0 & Tm & Ts & _). cbn [members sides] in Tm, Ts. rewrite Forall_1 in Tm. rewrite Forall_2 in Ts.
  destruct Ts as (Ts1 & Ts2). split; [exact Pc'|]. split; [exact Tm|]. split; [exact Ts1|]. split; [exact Ts2|]. intros M HM. exact (inner_disk _ _ M In0 HM).
Qed.

(** ** Consequences for two earlier properties *)

Lemma malfatti_inside A B C cA cB cC T : ~ collinear A B C -> malfatti_circles (mkTri A B C) = Ok (Some ((cA, cB, cC), T)) ->
  disc_in_triangle A B C cA /\ disc_in_triangle A B C cB /\ disc_in_triangle A B C cC.
Proof.
  intros N E. destruct (malfatti_conf A B C N) as (P & x & y & z & r & e & k1 & k2 & k3 & T' & M & PO & E'). rewrite E in E'. injection E' as -> -> -> ->.
  assert (He : e * e = 1) by (destruct M as ((_ & _ & _ & _ & He) & _); auto).
  pose proof (mconf_perm _ _ _ _ _ _ _ _ _ _ _ _ M) as M2. pose proof (mconf_perm _ _ _ _ _ _ _ _ _ _ _ _ M2) as M3.
  assert (PO2 : 0 < e * dbl B C A) by (replace (dbl B C A) with (dbl A B C) by (unfold dbl; unspec; ring); auto).
  assert (PO3 : 0 < e * dbl C A B) by (replace (dbl C A B) with (dbl A B C) by (unfold dbl; unspec; ring); auto).
  split; [|split]; intros X HX.
  - exact (within_triangle e A B C _ He PO (mc_within _ _ _ _ _ _ _ _ _ _ _ _ M) X HX).
  - destruct (within_triangle e B C A _ He PO2 (mc_within _ _ _ _ _ _ _ _ _ _ _ _ M2) X HX) as (u & v & w & H1 & H2 & H3 & H4 & ->).
    exists w, u, v. repeat split; auto; [lra|unfold bary; f_equal; ring].
  - destruct (within_triangle e C A B _ He PO3 (mc_within _ _ _ _ _ _ _ _ _ _ _ _ M3) X HX) as (u & v & w & H1 & H2 & H3 & H4 & ->).
    exists v, w, u. repeat split; auto; [lra|unfold bary; f_equal; ring].
Qed.

Lemma offset_dist l : lA l <> lB l -> snd (direction_offset l) = Rabs (scross (vsub (lB l) (lA l)) (lA l)) / dist (lA l) (lB l).
Proof.
  intros N. destruct (direction_offset_spec l N) as (_ & O & U & (k & Zk & Ck & Sk) & E). cbv zeta in *. pose proof (dist_pos _ _ N) as PD. pose proof (dist_sq (lA l) (lB l)) as DS.
  set (o := snd (direction_offset l)) in *. set (d := fst (direction_offset l)) in *. rewrite Ck, Sk in E, U. set (s := scross _ _). set (q := dist (lA l) (lB l)) in *.
  assert (Eo : o = - k * s) by (rewrite E; unfold s; unspec; ring). assert (Eq : k * k * (q * q) = 1) by (rewrite DS, <- U; unspec; ring).
  assert (A1 : Rabs k * q = 1).
  { assert (0 <= Rabs k) by apply Rabs_pos. assert (Rabs k * Rabs k = k * k) by (rewrite <- Rabs_mult; apply Rabs_right; pose proof (sqnn k); lra).
    assert (F : (Rabs k * q - 1) * (Rabs k * q + 1) = 0) by (transitivity (Rabs k * Rabs k * (q * q) - 1); [ring|rewrite H0, Eq; ring]). assert (0 <= Rabs k * q) by (apply Rmult_le_pos; lra). apply Rmult_integral in F. lra. }
  rewrite <- (Rabs_right o) by lra. rewrite Eo, Rabs_mult, Rabs_Ropp. apply (Rmult_eq_reg_r q); [|lra]. replace (Rabs s / q * q) with (Rabs s) by (field; lra). transitivity (Rabs k * q * Rabs s); [ring|]. rewrite A1. ring.
Qed.

Lemma is_equal_near l1 l2 : lA l1 <> lB l1 -> lA l2 <> lB l2 -> line_is_equal l1 l2 = true ->
  let d1 := vsub (lB l1) (lA l1) in let d2 := vsub (lB l2) (lA l2) in
  let h1 := Rabs (scross d1 (lA l1)) / dist (lA l1) (lB l1) in let h2 := Rabs (scross d2 (lA l2)) / dist (lA l2) (lB l2) in
  Rabs (scross d1 d2) <= / 10000 * (dist (lA l1) (lB l1) * dist (lA l2) (lB l2)) /\
  Rabs (h1 - h2) <= / 100000000 + / 100000 * Rmax h1 h2.
Proof.
  intros N1 N2 H d1 d2 h1 h2. split.
  - pose proof (equal_cross l1 l2 N1 N2 H) as K. cbv zeta in K. fold d1 d2 in K.
    pose proof (dist_pos _ _ N1) as P1. pose proof (dist_pos _ _ N2) as P2. pose proof (dist_sq (lA l1) (lB l1)) as S1. pose proof (dist_sq (lA l2) (lB l2)) as S2.
    change (dist2 (lA l1) (lB l1)) with (sdot d1 d1) in S1. change (dist2 (lA l2) (lB l2)) with (sdot d2 d2) in S2. rewrite <- S1, <- S2 in K.
    set (p := dist (lA l1) (lB l1)) in *. set (q := dist (lA l2) (lB l2)) in *. assert (0 < p * q) by (apply Rmult_lt_0_compat; auto).

    rewrite <- (Rabs_right (/ 10000 * (p * q))) by lra. apply Rsqr_le_abs_0. unfold Rsqr. lra.
  - pose proof (equal_angle l1 l2 N1 N2 H) as (_ & K). rewrite !offset_dist in K by auto. exact K.
Qed.
