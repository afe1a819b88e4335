(** * Inversions.py: the inversions of the circles and lines succeed. *)

From Coq Require Import Reals List Bool ZArith Lra Lia.
From Verif Require Import Base BaseLemmas ModelInternal ModelLine ModelCircle ModelTriangle ModelInversion ModelSchottky ModelInversions Spec SpecLemmas SpecInversions PLine PCircle PInvBase PInversion PGasket11 PSchottky1 PSchottky4 PInversions1.
Import ListNotations.
Local Open Scope R_scope.

Lemma IZR_abs_le z n : (Z.abs z <= n)%Z -> Rabs (IZR z) <= IZR n.
Proof. intros H. rewrite <- abs_IZR. apply IZR_le. auto. Qed.
Lemma IZR_abs_ge z : z <> 0%Z -> 1 <= Rabs (IZR z).
Proof. intros H. rewrite <- abs_IZR. apply IZR_le. lia. Qed.

(** circle to circle *)
Lemma step_circle N e v c : In e zstart -> (9 * N <= 13122)%Z -> rep N (GC c) v -> vk (zs e v) <> 0%Z ->
  exists g', invert_circle (mkInv (cO (circ e)) (cr (circ e) ^ 2)) c = Ok g' /\ rep (9 * N) g' (zs e v).
Proof.
  intros He HN Hg Hk'. pose proof (step_wf _ _ _ He (proj1 Hg)) as W'. destruct Hg as (W & Hk & ->).
  pose proof (wf_norm _ _ W) as Nv. pose proof (wf_norm _ _ (start_wf e He)) as Ne. pose proof (start_k e He) as Ke. assert (Pe : 0 < IZR (vk e)) by (apply IZR_lt; lia). assert (Pe2 : IZR (vk e) <= 2) by (apply IZR_le; lia).
  destruct (zs_R e v) as (Et & Ea & Eb & Ek & Ee). pose proof (not_0_IZR _ Hk) as Rk. pose proof (not_0_IZR _ Hk') as Rk'. pose proof (step_pow _ _ _ _ _ _ _ _ Nv Ne Pe Rk) as SP. cbv zeta in *.
  assert (B1 : Rabs (IZR (vk v)) <= 13122) by (apply IZR_abs_le; destruct W as (_ & _ & W); lia). pose proof (IZR_abs_ge _ Hk') as B2. pose proof (Rabs_pos_lt _ Rk) as Pk.
  rewrite <- Ek in SP. unfold circ. cbn [cO cr] in *.
  set (a := IZR (va v)) in *. set (b := IZR (vb v)) in *. set (k := IZR (vk v)) in *. set (e0 := IZR (ve v)) in *. set (ae := IZR (va e)) in *. set (be := IZR (vb e)) in *. set (ke := IZR (vk e)) in *. set (ee := IZR (ve e)) in *. set (k' := IZR (vk (zs e v))) in *.
  assert (Pr : 0 < 2 / Rabs k) by (apply Rdiv_lt_0_compat; lra).
  assert (S : inv_scale (2 * ae / ke, 2 * be / ke) ((2 / ke) ^ 2) (2 * a / k, 2 * b / k) (2 / Rabs k) = k / k') by (unfold inv_scale; rewrite SP; field; lra).
  eexists. split.
  - apply invert_circle_far; cbn [cO cr ipole ipower]; auto; [apply pow_nonzero; apply Rgt_not_eq, Rdiv_lt_0_compat; lra|].
    rewrite SP. unfold Rdiv. rewrite Rabs_mult, Rabs_mult, Rabs_inv, Rabs_mult. rewrite (Rabs_pos_eq 4), (Rabs_pos_eq (ke * ke)) by nra.
    apply Rlt_le_trans with (4 * 1 * / (13122 * (2 * 2))); [unfold sepsilon_; lra|]. apply Rmult_le_compat; [lra| |lra|].
    + apply Rlt_le, Rinv_0_lt_compat. lra.
    + apply Rinv_le_contravar; [apply Rmult_lt_0_compat; [lra|apply Rmult_lt_0_compat; lra]|]. apply Rmult_le_compat; [lra|clear - Pe; nra|lra|apply Rmult_le_compat; lra].
  - split; [exact W'|]. cbn [cO cr ipole ipower]. split; [exact Hk'|]. rewrite S. fold k'. f_equal.
    + unspec. rewrite Ea, Eb. set (t := _ - _ - _) in *. f_equal; rewrite Ek in Rk'; rewrite Ek; field; repeat split; auto; try lra; intros X; apply Rk'; revert X; unfold t; intros; lra.
    + unfold Rdiv. rewrite Rabs_mult, Rabs_inv. field. split; apply Rabs_no_R0; auto.
Qed.

(** a circle through the pole *)
Lemma line_core P1 P2 u1 u2 rho ke : u1 * u1 = 1 - u2 * u2 -> Rabs P1 <= 1 -> Rabs P2 <= 1 -> / 1000 <= Rabs rho <= 2 -> 0 < ke <= 2 ->
  let lam := (2 / ke) ^ 2 / (2 * rho) in / 4 <= Rabs lam <= 4000 ->
  let A := (P1 + lam * u1, P2 + lam * u2) in let B := (P1 + lam * (u1 + u2), P2 + lam * (u2 - u1)) in
  invert_circle (mkInv (P1, P2) ((2 / ke) ^ 2)) (mkCircle (P1 + rho * u1, P2 + rho * u2) (Rabs rho)) = Ok (GL (mkLine A B true true)) /\
  A <> B /\ allclose A B = false /\ Rabs (fst A) <= 20000 /\ Rabs (snd A) <= 20000 /\ Rabs (fst B) <= 20000 /\ Rabs (snd B) <= 20000.
Proof.
  intros Hu HP1 HP2 Hrho Hke lam Hlam A B.
  assert (U1 : Rabs u1 <= 1) by (apply Rabs_le; nra). assert (U2 : Rabs u2 <= 1) by (apply Rabs_le; nra).
  assert (Nr : rho <> 0) by (intros ->; rewrite Rabs_R0 in Hrho; lra).
  assert (TI : forall p c d, Rabs p <= 1 -> Rabs d <= 2 -> Rabs (p + c * d) <= 1 + 2 * Rabs c).
  { intros p c d Hp Hd. eapply Rle_trans; [apply Rabs_triang|]. rewrite Rabs_mult. pose proof (Rabs_pos c). nra. }
  assert (V1 : Rabs (u1 + u2) <= 2) by (eapply Rle_trans; [apply Rabs_triang|lra]). assert (V2 : Rabs (u2 - u1) <= 2) by (unfold Rminus; eapply Rle_trans; [apply Rabs_triang|rewrite Rabs_Ropp; lra]).
  assert (BA1 : Rabs (fst A) <= 1 + 2 * Rabs lam) by (apply TI; lra). assert (BA2 : Rabs (snd A) <= 1 + 2 * Rabs lam) by (apply TI; lra).
  assert (BB1 : Rabs (fst B) <= 1 + 2 * Rabs lam) by (apply TI; lra). assert (BB2 : Rabs (snd B) <= 1 + 2 * Rabs lam) by (apply TI; lra).
  assert (AB : allclose A B = false).
  { apply (allclose_far A B (1 + 2 * Rabs lam) (Rabs lam)); auto; [|lra|lra]. rewrite Rabs_sq. right. unfold A, B. unspec. ring [Hu]. }
  assert (NAB : A <> B) by (apply allclose_false_neq; auto).
  split; [|split; [auto|split; [auto|repeat split; lra]]].
  unfold invert_circle. cbn [ipole ipower cO cr]. rewrite D1_pow.
  assert (Z : pow_circle (P1 + rho * u1, P2 + rho * u2) (Rabs rho) (P1, P2) = 0).
  { unfold pow_circle. replace (Rabs rho ^ 2) with (rho * rho) by (rewrite <- (Rabs_sq rho); ring). unspec. ring [Hu]. }
  rewrite Z, Rabs_R0. rewrite (proj2 (ltb_false _ _)) by (left; apply sepsilon_pos).
  set (R180 := vsub _ (vsub _ _)). set (R90 := vadd (- _, _) _).
  assert (E180 : R180 = (P1 + rho * (2 * u1), P2 + rho * (2 * u2))) by (unfold R180; unspec; f_equal; ring).
  assert (E90 : R90 = (P1 + rho * (u1 + u2), P2 + rho * (u2 - u1))) by (unfold R90; unspec; f_equal; ring).
  clearbody R180 R90. subst R180 R90.
  assert (W1 : Rabs (2 * u1) <= 2) by (rewrite Rabs_mult, (Rabs_pos_eq 2); lra). assert (W2 : Rabs (2 * u2) <= 2) by (rewrite Rabs_mult, (Rabs_pos_eq 2); lra).
  rewrite !invert_far; cbn [ipole ipower].
  - assert (Q180 : inv_pt (P1, P2) ((2 / ke) ^ 2) (P1 + rho * (2 * u1), P2 + rho * (2 * u2)) = A).
    { unfold inv_pt. replace (dist2 (P1, P2) (P1 + rho * (2 * u1), P2 + rho * (2 * u2))) with (4 * (rho * rho)) by (unspec; ring [Hu]). unfold A, lam. unspec. f_equal; field; lra. }
    assert (Q90 : inv_pt (P1, P2) ((2 / ke) ^ 2) (P1 + rho * (u1 + u2), P2 + rho * (u2 - u1)) = B).
    { unfold inv_pt. replace (dist2 (P1, P2) (P1 + rho * (u1 + u2), P2 + rho * (u2 - u1))) with (2 * (rho * rho)) by (unspec; ring [Hu]). unfold B, lam. unspec. f_equal; field; lra. }
    rewrite Q180, Q90. cbn [Line_init_ext]. unfold Line_init. rewrite AB. reflexivity.
  - apply (allclose_far _ _ (1 + 2 * Rabs rho) (Rabs rho)); cbn [fst snd]; auto; [|lra|lra]. rewrite Rabs_sq. replace (dist2 _ _) with (2 * (rho * rho)) by (unspec; ring [Hu]). nra.
  - apply (allclose_far _ _ (1 + 2 * Rabs rho) (Rabs rho)); cbn [fst snd]; auto; [|lra|lra]. rewrite Rabs_sq. replace (dist2 _ _) with (4 * (rho * rho)) by (unspec; ring [Hu]). nra.
Qed.

Lemma start_pole e : In e zstart -> Rabs (2 * IZR (va e) / IZR (vk e)) <= 1 /\ Rabs (2 * IZR (vb e) / IZR (vk e)) <= 1.
Proof. cbn [zstart In]. intros [<-|[<-|[<-|[<-|[<-|[]]]]]]; cbn [va vb vk]; split; apply Rabs_le; lra. Qed.

Lemma step_line N e v c : In e zstart -> (9 * N <= 13122)%Z -> rep N (GC c) v -> vk (zs e v) = 0%Z ->
  exists g', invert_circle (mkInv (cO (circ e)) (cr (circ e) ^ 2)) c = Ok g' /\ rep (9 * N) g' (zs e v).
Proof.
  intros He HN Hg Hk'. pose proof (step_wf _ _ _ He (proj1 Hg)) as W'. destruct Hg as (W & Hk & ->). pose proof (wf_norm _ _ W') as Nv'. rewrite Hk' in Nv'.
  pose proof (wf_norm _ _ W) as Nv. pose proof (wf_norm _ _ (start_wf e He)) as Ne. pose proof (start_k e He) as Ke. assert (Pe : 1 <= IZR (vk e)) by (apply IZR_le; lia). assert (Pe2 : IZR (vk e) <= 2) by (apply IZR_le; lia).
  destruct (zs_R e v) as (Et & Ea & Eb & Ek & Ee). pose proof (not_0_IZR _ Hk) as Rk. pose proof (start_pole e He) as (SP1 & SP2). rewrite Hk' in Ek. cbv zeta in *.
  assert (B1 : Rabs (IZR (vk v)) <= 1458) by (apply IZR_abs_le; destruct W as (_ & _ & W); lia). pose proof (IZR_abs_ge _ Hk) as B2.
  unfold circ. cbn [cO cr] in *. unfold rep. rewrite Hk'. rewrite Ea, Eb in Nv'.
  set (a := IZR (va v)) in *. set (b := IZR (vb v)) in *. set (k := IZR (vk v)) in *. set (e0 := IZR (ve v)) in *. set (ae := IZR (va e)) in *. set (be := IZR (vb e)) in *. set (ke := IZR (vk e)) in *. set (ee := IZR (ve e)) in *.
  set (t := 2 * (a * ae + b * be) - k * ee - e0 * ke) in *. assert (Tk : t = k / ke) by (apply (Rmult_eq_reg_r ke); [|lra]; unfold Rdiv; rewrite Rmult_assoc, Rinv_l by lra; lra).
  set (P1 := 2 * ae / ke) in *. set (P2 := 2 * be / ke) in *. set (u1 := a - t * ae) in *. set (u2 := b - t * be) in *.
  assert (EO : (2 * a / k, 2 * b / k) = (P1 + 2 / k * u1, P2 + 2 / k * u2)) by (unfold P1, P2, u1, u2; rewrite Tk; f_equal; field; lra).
  assert (ER : 2 / Rabs k = Rabs (2 / k)) by (unfold Rdiv; rewrite Rabs_mult, Rabs_inv, (Rabs_pos_eq 2) by lra; reflexivity).
  assert (EL : (2 / ke) ^ 2 / (2 * (2 / k)) = k / (ke * ke)) by (field; lra).
  destruct (line_core P1 P2 u1 u2 (2 / k) ke) as (Q1 & Q2 & Q3 & Q4); auto.
  - clear - Nv'. lra.
  - rewrite <- ER. split.
    + apply (Rmult_le_reg_r (Rabs k)); [lra|]. unfold Rdiv. rewrite (Rmult_assoc 2), Rinv_l by lra. lra.
    + apply (Rmult_le_reg_r (Rabs k)); [lra|]. unfold Rdiv. rewrite (Rmult_assoc 2), Rinv_l by lra. lra.
  - lra.
  - rewrite EL. unfold Rdiv. rewrite Rabs_mult, Rabs_inv, (Rabs_pos_eq (ke * ke)) by nra. assert (I1 : / (2 * 2) <= / (ke * ke)) by (apply Rinv_le_contravar; [|apply Rmult_le_compat]; nra). assert (I2 : / (ke * ke) <= / (1 * 1)) by (apply Rinv_le_contravar; [|apply Rmult_le_compat]; nra).
    set (i := / (ke * ke)) in *. clearbody i. clear - I1 I2 B1 B2. split.
    + replace (/ 4) with (1 * / 4) by lra. apply Rmult_le_compat; lra.
    + apply Rle_trans with (1458 * 1); [apply Rmult_le_compat; lra|lra].
  - eexists. split; [rewrite EO, ER; exact Q1|]. split; [exact W'|]. cbn [lA lB]. split; [reflexivity|]. split; [exact Q2|]. split; [exact Q3|]. split; [exact Q4|]. cbn [fst snd].
    rewrite Ea, Eb, Ee, EL. fold u1 u2. clear Q1 Q2 Q3 Q4.
    assert (K : u1 * P1 + u2 * P2 + k / (ke * ke) = e0 - t * ee).
    { unfold P1, P2. transitivity ((2 * (u1 * ae + u2 * be) + t) / ke); [rewrite Tk; field; lra|]. apply (Rmult_eq_reg_r ke); [|lra]. unfold Rdiv at 1. rewrite (Rmult_assoc _ (/ ke)), Rinv_l by lra.
      assert (Kt : k = t * ke) by lra. unfold u1, u2. assert (T2 : 2 * (a * ae + b * be) = t + t * ke * ee + e0 * ke) by (rewrite <- Kt; unfold t; ring). clearbody t. transitivity (2 * (a * ae + b * be) - 2 * t * (ae * ae + be * be) + t); [ring|]. rewrite T2, Ne. ring. }
    split.
    + transitivity (u1 * P1 + u2 * P2 + k / (ke * ke) * (u1 * u1 + u2 * u2)); [ring|]. rewrite Nv'. fold u1 u2. rewrite <- K. ring.
    + transitivity (u1 * P1 + u2 * P2 + k / (ke * ke) * (u1 * u1 + u2 * u2)); [ring|]. rewrite Nv'. fold u1 u2. rewrite <- K. ring.
Qed.

(** lines *)
Lemma step_of_line N e v l : In e zstart -> (9 * N <= 13122)%Z -> rep N (GL l) v ->
  exists g', invert_line (mkInv (cO (circ e)) (cr (circ e) ^ 2)) l = Ok (Some g') /\ rep (9 * N) g' (zs e v).
Proof.
  intros He HN Hg. pose proof (step_wf _ _ _ He (proj1 Hg)) as W'. pose proof Hg as Hg0. destruct Hg as (W & Hk & HAB & CAB & BB & LA & LB).
  pose proof (wf_norm _ _ W) as Nv. pose proof (wf_norm _ _ (start_wf e He)) as Ne. pose proof (start_k e He) as Ke. assert (Pe : 1 <= IZR (vk e)) by (apply IZR_le; lia). assert (Pe2 : IZR (vk e) <= 2) by (apply IZR_le; lia).
  destruct (zs_R e v) as (Et & Ea & Eb & Ek & Ee). pose proof (start_pole e He) as (SP1 & SP2). rewrite Hk in Nv.
  pose proof (rep_points _ _ _ (cO (circ e)) Hg0) as PP. cbn [gpts] in PP. unfold qv, qf in PP. rewrite Hk in PP. cbn [circ cO fst snd] in PP.
  cbv zeta in *. rewrite Hk in Et, Ek. unfold circ. cbn [cO cr].
  assert (PT : 4 * IZR (zt e v) = - (0 * (2 * IZR (va e) / IZR (vk e) * (2 * IZR (va e) / IZR (vk e)) + 2 * IZR (vb e) / IZR (vk e) * (2 * IZR (vb e) / IZR (vk e))) - 4 * (IZR (va v) * (2 * IZR (va e) / IZR (vk e)) + IZR (vb v) * (2 * IZR (vb e) / IZR (vk e))) + 4 * IZR (ve v)) * IZR (vk e)) by (rewrite Et; field; lra).
  destruct (Z.eq_dec (zt e v) 0) as [Zt|Zt].
  - exists (GL l). split.
    + apply invert_line_through; auto. cbn [ipole]. apply PP. rewrite Zt in PT. set (w := _ + 4 * IZR (ve v)) in *. clearbody w. assert (X : w * IZR (vk e) = 0) by lra. apply Rmult_integral in X. destruct X; [auto|lra].
    + assert (Ez : zs e v = v) by (unfold zs; rewrite Zt; destruct v; cbn; f_equal; ring). rewrite Ez. destruct Hg0 as (_ & Hg). split; [rewrite <- Ez; exact W'|exact Hg].
  - assert (D : forall M, on_line (lA l) (lB l) M -> / 4 <= dist2 (2 * IZR (va e) / IZR (vk e), 2 * IZR (vb e) / IZR (vk e)) M).
    { intros M HM. assert (HMp : qv v M = 0) by (apply (rep_points _ _ _ M Hg0); exact HM). unfold qv, qf in HMp. rewrite Hk in HMp. pose proof (IZR_abs_ge _ Zt) as T1.
      set (P1 := 2 * IZR (va e) / IZR (vk e)) in *. set (P2 := 2 * IZR (vb e) / IZR (vk e)) in *. set (a := IZR (va v)) in *. set (b := IZR (vb v)) in *. set (ke := IZR (vk e)) in *. set (e0 := IZR (ve v)) in *. set (t := IZR (zt e v)) in *.
      assert (X : t = (a * (P1 - fst M) + b * (P2 - snd M)) * ke) by (clear - PT HMp; nra). clearbody t P1 P2.
      assert (T2 : 1 <= t * t) by (rewrite <- (Rabs_sq t); clear - T1; nra). unspec. set (x := P1 - fst M) in *. set (y := P2 - snd M) in *. replace (fst M - P1) with (- x) by (unfold x; ring). replace (snd M - P2) with (- y) by (unfold y; ring). clearbody x y a b ke.
      set (w := a * x + b * y) in *. assert (W2 : w * w <= x * x + y * y) by (unfold w; clear - Nv; assert (0 <= (a * y - b * x) * (a * y - b * x)) by apply Rle_0_sqr; assert ((a * x + b * y) * (a * x + b * y) + (a * y - b * x) * (a * y - b * x) = x * x + y * y) by (ring [Nv]); lra). clearbody w. rewrite X in T2.
      assert (W3 : w * ke * (w * ke) <= w * w * (2 * 2)). { replace (w * ke * (w * ke)) with (w * w * (ke * ke)) by ring. apply Rmult_le_compat_l; [apply Rle_0_sqr|]. apply Rmult_le_compat; lra. } lra. }
    assert (OA : on_line (lA l) (lB l) (lA l)) by (exists 0; destruct (lA l), (lB l); unfold at_line; unpt; f_equal; ring). assert (OB : on_line (lA l) (lB l) (lB l)) by (exists 1; destruct (lA l), (lB l); unfold at_line; unpt; f_equal; ring).
    pose proof (D _ OA) as DA. pose proof (D _ OB) as DB. set (P := (2 * IZR (va e) / IZR (vk e), 2 * IZR (vb e) / IZR (vk e))) in *.
    assert (NL : ~ on_line (lA l) (lB l) P) by (intros X; apply D in X; revert X; unspec; intros; lra).
    assert (SY : forall X Y, dist2 X Y = dist2 Y X) by (intros; unspec; ring).
    destruct (invert_line_total (mkInv P ((2 / IZR (vk e)) ^ 2)) l) as (c & Hc); cbn [ipole ipower]; auto.
    + apply pow_nonzero. apply Rgt_not_eq, Rdiv_lt_0_compat; lra.
    + apply (allclose_far _ _ 1 (/ 2)); [exact SP1|exact SP2|rewrite SY; lra|lra|lra].
    + apply (allclose_far _ _ 1 (/ 2)); [exact SP1|exact SP2|rewrite SY; lra|lra|lra].
    + apply (allclose_far _ _ 20000 (/ 2)); [tauto|tauto|lra|lra|lra].
    + apply (allclose_far _ _ 20000 (/ 2)); [tauto|tauto|lra|lra|lra].
    + exists (GC c). split; [exact Hc|]. destruct (invert_line_spec _ _ _ Hc) as (_ & Rc & _ & Ic & HM). cbn [ipole ipower] in *.
      assert (Kz : vk (zs e v) <> 0%Z) by (unfold zs; cbn [vk]; rewrite Hk; nia). pose proof (not_0_IZR _ Kz) as Rz.
      set (c0 := mkCircle (2 * IZR (va (zs e v)) / IZR (vk (zs e v)), 2 * IZR (vb (zs e v)) / IZR (vk (zs e v))) (2 / Rabs (IZR (vk (zs e v))))).
      assert (G0 : rep (9 * N) (GC c0) (zs e v)) by (split; [exact W'|]; split; auto).
      assert (E : c = c0).
      { apply same_circle; auto; [cbn [c0 cr]; apply Rdiv_lt_0_compat; [lra|apply Rabs_pos_lt; auto]|]. intros w Hw. destruct (pt_eq_dec w P) as [->|Nw].
        - apply (rep_points _ _ _ P G0). clear - Ea Eb Ek Ee Pe Ne Nv Et Hk. unfold qv, qf, P. cbn [fst snd]. rewrite Ea, Eb, Ek, Ee, Hk. set (a := IZR (va v)) in *. set (b := IZR (vb v)) in *. set (ae := IZR (va e)) in *. set (be := IZR (vb e)) in *. set (ke := IZR (vk e)) in *. set (ee := IZR (ve e)) in *. set (e0 := IZR (ve v)) in *.
          field_simplify_eq; [|lra]. ring [Ne].
        - assert (Pw : (2 / IZR (vk e)) ^ 2 <> 0) by (apply pow_nonzero; apply Rgt_not_eq, Rdiv_lt_0_compat; lra). pose proof (inv_pt_neq P _ w Pw Nw) as Nw'. rewrite <- (inv_pt_invol P _ w Pw Nw) in Hw |- *.
          apply (rep_image _ _ _ _ _ _ He Hg0 G0 _ Nw'). apply (HM _ Nw'). exact Hw. }
      subst c. exact G0.
Qed.

Lemma step_ok N e v g : In e zstart -> (9 * N <= 13122)%Z -> rep N g v -> exists g', invert_on (circ e) g = Ok g' /\ rep (9 * N) g' (zs e v).
Proof.
  intros He HN Hg. unfold invert_on. destruct g as [c|l].
  - destruct (Z.eq_dec (vk (zs e v)) 0); [apply (step_line N)|apply (step_circle N)]; auto.
  - destruct (step_of_line N e v l He HN Hg) as (g' & E & R). rewrite E. cbn [bind]. eauto.
Qed.
