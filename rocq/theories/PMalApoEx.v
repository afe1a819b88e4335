(** * The values of examples/MalfattiApollonian.py. *)

From Coq Require Import Reals Lra Lia Psatz List Bool.
From Verif Require Import Base BaseLemmas Spec SpecLemmas SpecTriangle SpecGasket SpecApollonian ModelInternal ModelLine ModelCircle ModelTriangle ModelInversion ModelApollonian PTriangle PTriangle2 PTriangle3 PTriangle4 PTriangle5 PSteiner PGasket1 PGasket5 PGasketEx PApo1 PMalApo1 PMalApo2 PMalApo3 PMalApo4 PMalApo5.
Import ListNotations.
Local Open Scope R_scope.

Lemma malfatti_values A B C x y z S : Ravi A B C x y z S -> let s := x + y + z in let r := S / s in let I0 := incenter A B C x y z in
  let u := dist A I0 in let v := dist B I0 in let q := dist C I0 in
  exists c1 c2 c3 T, malfatti_circles (mkTri A B C) = Ok (Some ((c1, c2, c3), T)) /\
  c1 = mkCircle (mcenter A I0 ((s - r - (v + q - u)) / 2 / x)) (r * ((s - r - (v + q - u)) / 2) / x) /\
  c2 = mkCircle (mcenter B I0 ((s - r - (q + u - v)) / 2 / y)) (r * ((s - r - (q + u - v)) / 2) / y) /\
  c3 = mkCircle (mcenter C I0 ((s - r - (u + v - q)) / 2 / z)) (r * ((s - r - (u + v - q)) / 2) / z).
Proof.
  intros H s r I0 u v q. pose proof (malfatti_eval A B C x y z S H) as (_ & _ & _ & _ & E). fold s in E. fold r in E. fold I0 in E. fold u v q in E.
  assert (N : ~ collinear A B C). { apply not_collinear_dbl. intros Z. destruct H as (_ & _ & _ & HS & _ & _ & _ & _ & HD). rewrite Z, Rabs_R0 in HD. lra. }
  destruct (malfatti_spec A B C N) as (cA & cB & cC & TA & TB & TC & E2 & _). rewrite E2 in E. destruct (tangency _ _ _) as [t1|] in E; cbn [bind] in E; [|discriminate]. destruct (tangency _ _ _) as [t2|] in E; cbn [bind] in E; [|discriminate].
  destruct (tangency _ _ _) as [t3|] in E; cbn [bind] in E; [|discriminate]. injection E as -> -> -> -> -> ->. eexists _, _, _, _. split; [exact E2|]. auto.
Qed.

(** two circles whose centres are in line with the centre of the outer circle *)
Lemma in_line x y z : 0 < x -> 0 < y -> 0 < z -> outer_curvature x y z = - / (y + z) -> y * z * (y + z) = x * (y * y + z * z + y * z).
Proof.
  intros Hx Hy Hz E. unfold outer_curvature in E. assert (P : 0 < / (x * y) + / (y * z) + / (x * z)). { assert (0 < / (x * y)) by (apply Rinv_0_lt_compat; nra). assert (0 < / (y * z)) by (apply Rinv_0_lt_compat; nra). assert (0 < / (x * z)) by (apply Rinv_0_lt_compat; nra). lra. }
  pose proof (sqrt_def _ (Rlt_le _ _ P)) as Q. set (w := sqrt _) in *.
  assert (Ew : 2 * w = / x + / y + / z + / (y + z)) by lra. assert (Q4 : (2 * w) * (2 * w) = 4 * (/ (x * y) + / (y * z) + / (x * z))) by lra. rewrite Ew in Q4.
  assert (Z : (/ x - (/ y + / z - / (y + z))) * (/ x - (/ y + / z - / (y + z))) = 0).
  { transitivity ((/ x + / y + / z + / (y + z)) * (/ x + / y + / z + / (y + z)) - 4 * (/ (x * y) + / (y * z) + / (x * z))); [|rewrite Q4; ring]. field. repeat split; lra. }
  assert (Z' : / x = / y + / z - / (y + z)) by nra. apply (f_equal (fun t => t * (x * y * z * (y + z)))) in Z'.
  replace (/ x * (x * y * z * (y + z))) with (y * z * (y + z)) in Z' by (field; lra). rewrite Z'. field. lra.
Qed.
Lemma outer_curvature_perm x y z : outer_curvature x y z = outer_curvature y x z.
Proof. unfold outer_curvature. f_equal; [ring|]. f_equal. f_equal. rewrite (Rmult_comm x y). ring. Qed.
Lemma outer_curvature_perm2 x y z : outer_curvature x y z = outer_curvature x z y.
Proof. unfold outer_curvature. f_equal; [ring|]. f_equal. f_equal. rewrite (Rmult_comm z y). ring. Qed.

(** the triangle of the script *)
Definition hh : R := sqrt 3 / 2.
Definition bb : R := sqrt 7 / 2.
Lemma hh_b : 8660 / 10000 <= hh <= 8661 / 10000 /\ hh * hh = 3 / 4 /\ 13228 / 10000 <= bb <= 13229 / 10000 /\ bb * bb = 7 / 4.
Proof.
  pose proof (sqrt_between 3 1.7320 1.7322 ltac:(lra) ltac:(lra) ltac:(lra)). pose proof (sqrt_between 7 2.6456 2.6458 ltac:(lra) ltac:(lra) ltac:(lra)).
  pose proof (sqrt_def 3 ltac:(lra)). pose proof (sqrt_def 7 ltac:(lra)). unfold hh, bb. repeat split; lra.
Qed.
Lemma script_Ravi : Ravi (0, 0) (1, 0) (1, hh) ((1 + bb - hh) / 2) ((1 + hh - bb) / 2) ((bb + hh - 1) / 2) (hh / 2).
Proof.
  destruct hh_b as (Bh & Eh & Bb & Eb). unfold Ravi. split; [lra|]. split; [lra|]. split; [lra|]. split; [lra|]. split; [nra|]. split; [|split; [|split]].
  - apply Rsqr_inj; [apply dist_nonneg|lra|]. unfold Rsqr. rewrite dist_sq. unspec. simpl. lra.
  - apply Rsqr_inj; [apply dist_nonneg|lra|]. unfold Rsqr. rewrite dist_sq. unspec. simpl. lra.
  - apply Rsqr_inj; [apply dist_nonneg|lra|]. unfold Rsqr. rewrite dist_sq. unspec. simpl. lra.
  - unfold dbl. unspec. simpl. rewrite Rabs_right; lra.
Qed.

Lemma script_values : exists c1 c2 c3 T, malfatti_circles (mkTri (0, 0) (1, 0) (1, hh)) = Ok (Some ((c1, c2, c3), T)) /\
  1975 / 10000 <= cr c1 <= 1987 / 10000 /\ 1372 / 10000 <= cr c2 <= 1390 / 10000 /\ 1855 / 10000 <= cr c3 <= 1867 / 10000.
Proof.
  destruct hh_b as (Bh & Eh & Bb & Eb). pose proof (malfatti_values _ _ _ _ _ _ _ script_Ravi) as K. cbv zeta in K.
  set (r := (1 + hh - bb) / 2) in *. set (x := (1 + bb - hh) / 2) in *. set (z := (bb + hh - 1) / 2) in *.
  assert (Es : x + r + z = (1 + hh + bb) / 2) by (unfold x, r, z; field). rewrite Es in K.
  assert (Er : hh / 2 / ((1 + hh + bb) / 2) = r). { apply (Rmult_eq_reg_r ((1 + hh + bb) / 2)); [|lra]. replace (hh / 2 / ((1 + hh + bb) / 2) * ((1 + hh + bb) / 2)) with (hh / 2) by (field; lra). unfold r. nra. }
  rewrite Er in K.
  assert (EI : incenter (0, 0) (1, 0) (1, hh) x r z = (1 - r, r)).
  { unfold incenter, bary. cbv zeta. rewrite Es. cbn [fst snd]. replace (x + z) with bb by (unfold x, z; field). replace (x + r) with 1 by (unfold x, r; field). replace (2 * ((1 + hh + bb) / 2)) with (1 + hh + bb) by field.
    assert (Qr : r * (1 + hh + bb) = hh) by (unfold r; nra). f_equal.
    - apply (Rmult_eq_reg_r (1 + hh + bb)); [|lra]. replace ((1 - r) * (1 + hh + bb)) with (1 + bb) by lra. field. lra.
    - apply (Rmult_eq_reg_r (1 + hh + bb)); [|lra]. rewrite Qr. field. lra. }
  rewrite EI in K. assert (Br : 27145 / 100000 <= r <= 27165 / 100000) by (unfold r; lra).
  assert (DA : 7772 / 10000 <= dist (0, 0) (1 - r, r) <= 7776 / 10000).
  { unfold dist. apply sqrt_between; [lra|lra|]. replace (dist2 (0, 0) (1 - r, r)) with ((1 - r) * (1 - r) + r * r) by (unspec; ring). split; nra. }
  assert (DB : 3837 / 10000 <= dist (1, 0) (1 - r, r) <= 3844 / 10000).
  { unfold dist. apply sqrt_between; [lra|lra|]. replace (dist2 (1, 0) (1 - r, r)) with (r * r + r * r) by (unspec; ring). split; nra. }
  assert (Bz : 5944 / 10000 <= z <= 5945 / 10000) by (unfold z; lra). assert (Bx : 7283 / 10000 <= x <= 7285 / 10000) by (unfold x; lra).
  assert (Ez : z = hh - r) by (unfold z, r; field).
  assert (DC : 6533 / 10000 <= dist (1, hh) (1 - r, r) <= 6538 / 10000).
  { unfold dist. apply sqrt_between; [lra|lra|]. replace (dist2 (1, hh) (1 - r, r)) with (r * r + z * z) by (rewrite Ez; unspec; ring). split; nra. }
  set (u := dist (0, 0) _) in *. set (v := dist (1, 0) _) in *. set (q := dist (1, hh) _) in *.
  destruct K as (c1 & c2 & c3 & T & E & -> & -> & ->). eexists _, _, _, T. split; [exact E|]. cbn [cr].
  set (d1 := ((1 + hh + bb) / 2 - r - (v + q - u)) / 2) in *. set (d2 := ((1 + hh + bb) / 2 - r - (q + u - v)) / 2) in *. set (d3 := ((1 + hh + bb) / 2 - r - (u + v - q)) / 2) in *.
  assert (B1 : 5305 / 10000 <= d1 <= 5322 / 10000) by (unfold d1; lra). assert (B2 : 1372 / 10000 <= d2 <= 1390 / 10000) by (unfold d2; lra). assert (B3 : 4065 / 10000 <= d3 <= 4085 / 10000) by (unfold d3; lra).
  clearbody d1 d2 d3 r x z u v q.
  assert (Iv : forall a d w lo hi, 0 < w -> lo * w <= a * d <= hi * w -> lo <= a * d / w <= hi).
  { intros a d w lo hi Hw (H1 & H2). split; apply (Rmult_le_reg_r w); auto; unfold Rdiv; rewrite Rmult_assoc, Rinv_l by lra; lra. }
  split; [apply Iv; [lra|split; nra]|]. split; [apply Iv; [lra|split; nra]|]. apply Iv; [lra|split; nra].
Qed.

Lemma ex_C97 depth : exists Mc gens, malfatti_script (0, 0) (1, 0) (1, sqrt 3 / 2) depth = Ok (Mc, gens).
Proof.
  destruct script_values as (c1 & c2 & c3 & T & E & B1 & B2 & B3). fold hh.
  assert (N : ~ collinear (0, 0) (1, 0) (1, hh)). { apply not_collinear_dbl. unfold dbl. unspec. simpl. destruct hh_b as (Bh & _). lra. }
  destruct (malfatti_four _ _ _ c1 c2 c3 T N E) as (co & S & Es & H & Po & Eo & T1 & T2 & T3 & (P1 & P2 & P3) & (T12 & T23 & T13)).
  assert (Q : outer_curvature (cr c1) (cr c2) (cr c3) = - / cr co).
  { rewrite <- (curv_sod c1 c2 c3 S H), Eo. unfold v4scal, vc, vb. cbn [fst snd]. ring. }
  unfold posc in *. apply (script_total _ _ _ depth c1 c2 c3 co T N E Es).
  - assert (Rc : cr co <= 1).
    { assert (Q1 : outer_curvature (cr c1) (cr c2) (cr c3) <= -1).
      { unfold outer_curvature. assert (I : forall w lo hi, lo <= w <= hi -> 0 < lo -> / hi <= / w <= / lo) by (intros w lo hi (H1 & H2) Hl; split; apply Rinv_le_contravar; lra).
        pose proof (I _ _ _ B1 ltac:(lra)) as I1. pose proof (I _ _ _ B2 ltac:(lra)) as I2. pose proof (I _ _ _ B3 ltac:(lra)) as I3. rewrite !Rinv_mult.
        set (b1 := / cr c1) in *. set (b2 := / cr c2) in *. set (b3 := / cr c3) in *. clearbody b1 b2 b3.
        assert (10 <= sqrt (b1 * b2 + b2 * b3 + b1 * b3)). { rewrite <- (sqrt_square 10) by lra. apply sqrt_le_1_alt. assert (5 <= b1) by lra. assert (7.1 <= b2) by lra. assert (5.3 <= b3) by lra. nra. }
        lra. }
      rewrite Q in Q1. assert (1 <= / cr co) by lra. apply (Rmult_le_reg_l (/ cr co)); [lra|]. rewrite Rinv_l; lra. }
    repeat constructor; lra.
  - intros Z. rewrite <- Z in Q. apply in_line in Q; auto. clear - Q B1 B2 B3. set (a := cr c1) in *. set (b := cr c2) in *. set (c := cr c3) in *. clearbody a b c. 
    assert (b * c * (b + c) <= 0.1390 * 0.1867 * 0.3257) by (repeat apply Rmult_le_compat; nra). assert (0.1975 * 0.079 <= a * (b * b + c * c + b * c)) by (apply Rmult_le_compat; nra). lra.
  - intros Z. rewrite <- Z, outer_curvature_perm in Q. apply in_line in Q; auto. clear - Q B1 B2 B3. set (a := cr c1) in *. set (b := cr c2) in *. set (c := cr c3) in *. clearbody a b c.
    assert (a * c * (a + c) <= 0.1987 * 0.1867 * 0.3854) by (repeat apply Rmult_le_compat; nra). assert (0.1372 * 0.11 <= b * (a * a + c * c + a * c)) by (apply Rmult_le_compat; nra). lra.
  - intros Z. rewrite <- Z, outer_curvature_perm2, outer_curvature_perm in Q. apply in_line in Q; auto. clear - Q B1 B2 B3. set (a := cr c1) in *. set (b := cr c2) in *. set (c := cr c3) in *. clearbody a b c.
    assert (a * b * (a + b) <= 0.1987 * 0.1390 * 0.3377) by (repeat apply Rmult_le_compat; nra). assert (0.1855 * 0.083 <= c * (a * a + b * b + a * b)) by (apply Rmult_le_compat; nra). lra.
Qed.

(** a triangle on which the program fails: the outer circle is the unit circle, two of the
    three circles have the radius 1/2 *)
Definition w6 : R := sqrt 6.
Lemma w6_b : 2449 / 1000 <= w6 <= 2450 / 1000 /\ w6 * w6 = 6.
Proof. split; [apply sqrt_between; lra|apply sqrt_sqrt; lra]. Qed.
Definition fA : pt := (0, (2 + w6) / 4).
Definition fB : pt := (- (1 + w6 / 3), - (1 / 2)).
Definition fC : pt := (1 + w6 / 3, - (1 / 2)).
Lemma fail_Ravi : Ravi fA fB fC (w6 / 4) (1 + w6 / 3) (1 + w6 / 3) (3 / 2 + 7 * w6 / 12).
Proof.
  destruct w6_b as (B & E). unfold Ravi, fA, fB, fC. split; [lra|]. split; [lra|]. split; [lra|]. split; [lra|]. split; [nra|]. split; [|split; [|split]].
  - apply Rsqr_inj; [apply dist_nonneg|lra|]. unfold Rsqr. rewrite dist_sq. unspec. simpl. nra.
  - apply Rsqr_inj; [apply dist_nonneg|lra|]. unfold Rsqr. rewrite dist_sq. unspec. simpl. nra.
  - apply Rsqr_inj; [apply dist_nonneg|lra|]. unfold Rsqr. rewrite dist_sq. unspec. simpl. nra.
  - unfold dbl. unspec. simpl. rewrite Rabs_right; nra.
Qed.
Lemma fail_nc : ~ collinear fA fB fC.
Proof. apply not_collinear_dbl. destruct fail_Ravi as (_ & _ & _ & HS & _ & _ & _ & _ & HD). intros Z. rewrite Z, Rabs_R0 in HD. lra. Qed.
Lemma fail_values : exists T, malfatti_circles (mkTri fA fB fC) = Ok (Some ((mkCircle (0, 2 / 3) (1 / 3), mkCircle (- (1 / 2), 0) (1 / 2), mkCircle (1 / 2, 0) (1 / 2)), T)).
Proof.
  destruct w6_b as (B & E). pose proof (malfatti_values _ _ _ _ _ _ _ fail_Ravi) as K. cbv zeta in K.
  assert (Es : w6 / 4 + (1 + w6 / 3) + (1 + w6 / 3) = 2 + 11 * w6 / 12) by field. rewrite Es in K.
  assert (Er : (3 / 2 + 7 * w6 / 12) / (2 + 11 * w6 / 12) = (1 + w6) / 5). { apply (Rmult_eq_reg_r (2 + 11 * w6 / 12)); [|lra]. unfold Rdiv at 1. rewrite Rmult_assoc, Rinv_l by lra. nra. }
  rewrite Er in K.
  assert (EI : incenter fA fB fC (w6 / 4) (1 + w6 / 3) (1 + w6 / 3) = (0, (1 + w6) / 5 - 1 / 2)).
  { unfold incenter, bary, fA, fB, fC. cbv zeta. cbn [fst snd]. rewrite Es. f_equal.
    - field. lra.
    - apply (Rmult_eq_reg_r (2 * (2 + 11 * w6 / 12))); [|lra]. match goal with |- ?l = _ => replace l with ((1 + w6 / 3 + (1 + w6 / 3)) * ((2 + w6) / 4) + (w6 / 4 + (1 + w6 / 3)) * - (1 / 2) + (w6 / 4 + (1 + w6 / 3)) * - (1 / 2)) by (field; lra) end. nra. }
  rewrite EI in K.
  assert (DA : dist fA (0, (1 + w6) / 5 - 1 / 2) = (16 + w6) / 20) by (apply Rsqr_inj; [apply dist_nonneg|lra|]; unfold Rsqr; rewrite dist_sq; unfold fA; unspec; simpl; nra).
  assert (DB : dist fB (0, (1 + w6) / 5 - 1 / 2) = (12 + 7 * w6) / 15) by (apply Rsqr_inj; [apply dist_nonneg|lra|]; unfold Rsqr; rewrite dist_sq; unfold fB; unspec; simpl; nra).
  assert (DC : dist fC (0, (1 + w6) / 5 - 1 / 2) = (12 + 7 * w6) / 15) by (apply Rsqr_inj; [apply dist_nonneg|lra|]; unfold Rsqr; rewrite dist_sq; unfold fC; unspec; simpl; nra).
  rewrite DA, DB, DC in K. destruct K as (c1 & c2 & c3 & T & E0 & E1 & E2 & E3). exists T. rewrite E0. f_equal. f_equal. f_equal.
  assert (K1 : (2 + 11 * w6 / 12 - (1 + w6) / 5 - ((12 + 7 * w6) / 15 + (12 + 7 * w6) / 15 - (16 + w6) / 20)) / 2 / (w6 / 4) = (w6 - 1) / 3).
  { apply (Rmult_eq_reg_r (w6 / 4)); [|lra]. unfold Rdiv at 1. rewrite Rmult_assoc, Rinv_l by lra. nra. }
  assert (K2 : (2 + 11 * w6 / 12 - (1 + w6) / 5 - (16 + w6) / 20) / 2 / (1 + w6 / 3) = (w6 - 1) / 2).
  { apply (Rmult_eq_reg_r (1 + w6 / 3)); [|lra]. unfold Rdiv at 1. rewrite Rmult_assoc, Rinv_l by lra. nra. }
  replace ((12 + 7 * w6) / 15 + (16 + w6) / 20 - (12 + 7 * w6) / 15) with ((16 + w6) / 20) in E2 by ring. replace ((16 + w6) / 20 + (12 + 7 * w6) / 15 - (12 + 7 * w6) / 15) with ((16 + w6) / 20) in E3 by ring.
  assert (Rk : forall a b c : R, a * b / c = a * (b / c)) by (intros; unfold Rdiv; ring). rewrite (Rk ((1 + w6) / 5)), K1 in E1. rewrite (Rk ((1 + w6) / 5)), K2 in E2, E3.
  subst c1 c2 c3. unfold mcenter, fA, fB, fC, vadd, vscal, vsub. cbn [fst snd]. assert (Mc : forall a b c d e f : R, a = d -> b = e -> c = f -> mkCircle (a, b) c = mkCircle (d, e) f) by (intros; subst; auto).
  f_equal; [f_equal|]; apply Mc; clear - E; nra.
Qed.

Lemma fail_C97 depth : malfatti_apollonian (mkTri fA fB fC) depth = Raise ValueError /\ malfatti_script fA fB fC depth = Raise ValueError.
Proof.
  destruct fail_values as (T & E). pose proof fail_nc as N.
  destruct (malfatti_four _ _ _ _ _ _ T N E) as (co & S & Es & H & Po & Eo & T1 & T2 & T3 & _).
  pose proof (curv_sod _ _ _ S H) as Q. rewrite Eo in Q. unfold v4scal, vc, vb in Q. cbn [fst snd cr] in Q. unfold posc in Po.
  assert (Rco : cr co = 1).
  { unfold outer_curvature in Q. replace (/ (1 / 3 * (1 / 2)) + / (1 / 2 * (1 / 2)) + / (1 / 3 * (1 / 2))) with (4 * 4) in Q by field. rewrite sqrt_square in Q by lra.
    assert (I : / cr co = 1) by lra. rewrite <- (Rinv_involutive (cr co)) by lra. rewrite I. field. }
  assert (Oco : cO co = (0, 0)).
  { rewrite Rco in *. cbn [cO cr] in *. apply (three_distances _ _ (0, 2 / 3) (- (1 / 2), 0) (1 / 2, 0)).
    - intros C. apply collinear_cross in C. unfold scross, vsub in C. cbn [fst snd] in C. lra.
    - rewrite T1. symmetry. apply Rsqr_inj; [apply dist_nonneg|lra|]. unfold Rsqr. rewrite dist_sq. unspec. simpl. lra.
    - rewrite T2. symmetry. apply Rsqr_inj; [apply dist_nonneg|lra|]. unfold Rsqr. rewrite dist_sq. unspec. simpl. lra.
    - rewrite T3. symmetry. apply Rsqr_inj; [apply dist_nonneg|lra|]. unfold Rsqr. rewrite dist_sq. unspec. simpl. lra. }
  assert (F : from_fixing_three_circles co (mkCircle (- (1 / 2), 0) (1 / 2)) (mkCircle (1 / 2, 0) (1 / 2)) = Raise ValueError).
  { apply fixing_in_line; cbn [cO cr] in *.
    - unfold near0. rewrite Oco, Rco. cbn [fst snd]. rewrite Rabs_R0. lra.
    - unfold near0. cbn [cO cr fst snd]. rewrite Rabs_Ropp, Rabs_R0, Rabs_right; lra.
    - unfold near0. cbn [cO cr fst snd]. rewrite Rabs_R0, Rabs_right; lra.
    - lra.
    - lra.
    - rewrite Oco. apply collinear_cross. unfold scross, vsub. cbn [fst snd]. lra. }
  assert (G : malfatti_apollonian (mkTri fA fB fC) depth = Raise ValueError) by (unfold malfatti_apollonian; rewrite E; cbn [bind]; rewrite Es; cbn [bind]; rewrite F; reflexivity).
  split; [exact G|]. unfold malfatti_script. rewrite E. cbn [bind]. rewrite Es. cbn [bind]. rewrite !nrm_eval by exact Po. cbn [bind].
  replace (mkTri (nrm co fA) (nrm co fB) (nrm co fC)) with (mkTri fA fB fC); [exact G|]. unfold nrm. rewrite Oco, Rco. unfold fA, fB, fC. cbn [fst snd]. f_equal; f_equal; field.
Qed.

Lemma ex_C97_fails : exists A B C, ~ collinear A B C /\ forall depth,
  malfatti_apollonian (mkTri A B C) depth = Raise ValueError /\ malfatti_script A B C depth = Raise ValueError.
Proof. exists fA, fB, fC. split; [exact fail_nc|exact fail_C97]. Qed.

Lemma ex_C97_hyps : ~ collinear (0, 0) (1, 0) (1, sqrt 3 / 2) /\
  (exists Mc gens, malfatti_script (0, 0) (1, 0) (1, sqrt 3 / 2) 3 = Ok (Mc, gens)) /\
  outer_curvature 1 1 1 < 0 /\ 0 < outer_curvature 1 1 (1 / 9) /\ outer_curvature 1 1 (1 / 4) = 0.
Proof.
  split; [fold hh; apply not_collinear_dbl; unfold dbl; unspec; simpl; destruct hh_b as (Bh & _); lra|]. split; [exact (ex_C97 3)|]. unfold outer_curvature. split; [|split].
  - replace (/ (1 * 1) + / (1 * 1) + / (1 * 1)) with 3 by field. assert (K : 1.7 <= sqrt 3 <= 1.8) by (apply sqrt_between; lra). replace (/ 1) with 1 by field. lra.
  - replace (/ (1 * 1) + / (1 * (1 / 9)) + / (1 * (1 / 9))) with 19 by field. assert (K : 4 <= sqrt 19 <= 5) by (apply sqrt_between; lra). replace (/ 1) with 1 by field. replace (/ (1 / 9)) with 9 by field. lra.
  - replace (/ (1 * 1) + / (1 * (1 / 4)) + / (1 * (1 / 4))) with (3 * 3) by field. rewrite sqrt_square by lra. field.
Qed.
