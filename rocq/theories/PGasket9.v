(** * Proofs about the triangular gasket: the invariant of the seven first holes. *)

From Coq Require Import Reals Lra Lia Psatz List Bool ZArith.
From Verif Require Import Base BaseLemmas Spec SpecLemmas SpecTriangle ModelInternal ModelLine ModelCircle ModelTriangle ModelGasket PLine PTriangle PTriangle2 PTriangle3 PTriangle4 PTriangle5 PSteiner PGasket1 PGasket2 PGasket3 PGasket4 PGasket5 PGasket6 PGasket7 PGasket8.
Import ListNotations.
Local Open Scope R_scope.

Lemma mconf_ex A B C x y z S e k1 k2 k3 : Ravi A B C x y z S -> e * e = 1 -> 0 < e * dbl A B C ->
  0 < k1 < 1 -> 0 < k2 < 1 -> 0 < k3 < 1 -> let P := incenter A B C x y z in let r := S / (x + y + z) in
  tang (mc A P r k1) (mc B P r k2) -> tang (mc B P r k2) (mc C P r k3) -> tang (mc A P r k1) (mc C P r k3) ->
  mconf A B C P x y z r e k1 k2 k3.
Proof.
  intros H He PO K1 K2 K3 P r T12 T23 T13. pose proof (Ravi_e _ _ _ _ _ _ _ _ H He PO) as ED.
  pose proof (Ravi_perm _ _ _ _ _ _ _ H) as H2. pose proof (Ravi_perm _ _ _ _ _ _ _ H2) as H3.
  pose proof (incenter_dist _ _ _ _ _ _ _ H) as E1. pose proof (incenter_dist _ _ _ _ _ _ _ H2) as E2. pose proof (incenter_dist _ _ _ _ _ _ _ H3) as E3.
  cbv zeta in E1, E2, E3. rewrite incenter_perm in E3. rewrite incenter_perm in E2, E3. rewrite dist2_sym in E1, E2, E3.
  pose proof (incenter_height _ _ _ _ _ _ _ e H ED) as X1. pose proof (incenter_height _ _ _ _ _ _ _ e H2 ltac:(rewrite dbl_perm; auto)) as X2.
  pose proof (incenter_height _ _ _ _ _ _ _ e H3 ltac:(rewrite dbl_perm, dbl_perm; auto)) as X3. rewrite incenter_perm in X3. rewrite incenter_perm in X2, X3.
  replace (y + z + x) with (x + y + z) in E2, X2 by ring. replace (z + x + y) with (x + y + z) in E3, X3 by ring.
  fold P r in E1, E2, E3, X1, X2, X3. destruct H as (Hx & Hy & Hz & HS & S2 & Ea & Eb & Ec & ES). clear H2 H3.
  pose proof (mc_cO A B C P r k1 k2 k3) as (F1 & F2 & F3).
  assert (Pr : 0 < r) by (unfold r; apply Rdiv_lt_0_compat; lra).
  apply (f_equal (fun v => v * v)) in Ea. apply (f_equal (fun v => v * v)) in Eb. apply (f_equal (fun v => v * v)) in Ec. rewrite dist_sq in Ea, Eb, Ec.
  assert (Dt : forall M N, dist2 M N = dist2 P M + dist2 P N - 2 * sdot (vsub M P) (vsub N P)) by (intros; unspec; ring).
  assert (sw : forall u v, sdot u v = sdot v u) by (intros; unspec; ring).
  assert (Qab : sdot (vsub A P) (vsub B P) = r * r - x * y) by (pose proof (Dt A B); lra).
  assert (Qbc : sdot (vsub B P) (vsub C P) = r * r - y * z) by (pose proof (Dt B C); lra).
  assert (Qca : sdot (vsub C P) (vsub A P) = r * r - z * x) by (rewrite sw; pose proof (Dt A C); lra).
  change (dist2 P A) with (sdot (vsub A P) (vsub A P)) in *. change (dist2 P B) with (sdot (vsub B P) (vsub B P)) in *. change (dist2 P C) with (sdot (vsub C P) (vsub C P)) in *.
  assert (TT : forall U V k k' p q, sdot (vsub U P) (vsub U P) = r * r + p * p -> sdot (vsub V P) (vsub V P) = r * r + q * q -> sdot (vsub U P) (vsub V P) = r * r - p * q ->
    tang (mc U P r k) (mc V P r k') -> (p + q - k * p - k' * q) * (p + q - k * p - k' * q) = 4 * (k * k' * (r * r))).
  { intros U V k k' p q G1 G2 G3 T. unfold tang in T. apply (f_equal (fun v => v * v)) in T. rewrite dist_sq in T. unfold mc in T. cbn [cO cr] in T.
    replace (dist2 (mcenter U P k) (mcenter V P k')) with ((1 - k) * (1 - k) * sdot (vsub U P) (vsub U P) + (1 - k') * (1 - k') * sdot (vsub V P) (vsub V P) - 2 * (1 - k) * (1 - k') * sdot (vsub U P) (vsub V P)) in T by (unfold mcenter; unspec; ring).
    rewrite G1, G2, G3 in T. lra. }
  unfold mconf. cbv zeta. split; [auto|]. split; [auto|]. split; [auto|]. split; [auto|]. split; [|split; [|split; [|split]]].
  - split; [rewrite <- X1; unspec; ring|]. split; [rewrite <- X2; unspec; ring|rewrite <- X3; unspec; ring].
  - transitivity (S * S / (x + y + z)); [rewrite S2; field; lra|unfold r; field; lra].
  - apply (TT A B); auto.
  - apply (TT B C); auto.
  - apply (TT C A); auto. apply tang_sym. auto.
Qed.

Definition first_holes (A B C : pt) (c1 c2 c3 : circle) : list hole :=
  [CCL c1 c2 A B; CCL c2 c3 B C; CCL c3 c1 C A; CCC c1 c2 c3; CLL A B C c1; CLL B A C c2; CLL C A B c3].

Lemma mc_within A B C P x y z r e k1 k2 k3 : mconf A B C P x y z r e k1 k2 k3 -> within (halfplanes e A B C) (mc A P r k1).
Proof.
  intros M. pose proof (mconf_perm _ _ _ _ _ _ _ _ _ _ _ _ M) as M2. pose proof (mconf_perm _ _ _ _ _ _ _ _ _ _ _ _ M2) as M3.
  pose proof (mc_touch _ _ _ _ _ _ _ _ _ _ _ _ M) as (T1 & _). pose proof (mc_touch _ _ _ _ _ _ _ _ _ _ _ _ M3) as (_ & T3). pose proof (mc_third _ _ _ _ _ _ _ _ _ _ _ _ M2) as H2.
  pose proof (mc_AB _ _ _ _ _ _ _ _ _ _ _ _ M) as L1. pose proof (mc_AB _ _ _ _ _ _ _ _ _ _ _ _ M2) as L2. pose proof (mc_AB _ _ _ _ _ _ _ _ _ _ _ _ M3) as L3.
  pose proof (mc_dbl _ _ _ _ _ _ _ _ _ _ _ _ M) as D. pose proof M as ((Hx & Hy & Hz & Hr & He) & (K1 & K2 & K3) & _).
  assert (N : dbl A B C <> 0) by (intros Z; rewrite Z in D; pose proof (Rmult_lt_0_compat r (x + y + z)); lra). destruct (dbl_distinct _ _ _ N) as (N1 & N2 & N3).
  unfold within, halfplanes. rewrite Forall_3. cbn [fst snd]. unfold hp. rewrite !lnormal_cross by auto. unfold touch in T1, T3. rewrite T1, T3, H2, L1, L2, L3.
  change (cr (mc A P r k1)) with (k1 * r). split; [apply Req_le; field; lra|]. split; [|apply Req_le; field; lra].
  apply (Rmult_le_reg_r (y + z)); [lra|]. set (w := (1 - k1) * (2 * r * (y + z + x)) + k1 * r * (y + z)). replace (w / (y + z) * (y + z)) with w by (field; lra). unfold w.
  assert (0 < (1 - k1) * (2 * r * (y + z + x))) by (repeat apply Rmult_lt_0_compat; lra). lra.
Qed.

Lemma vertex_within A B C e : e * e = 1 -> 0 < e * dbl A B C -> withinp (halfplanes e A B C) A /\ withinp (halfplanes e A B C) B /\ withinp (halfplanes e A B C) C.
Proof.
  intros He D. assert (N : dbl A B C <> 0) by (intros Z; rewrite Z in D; lra). destruct (dbl_distinct _ _ _ N) as (N1 & N2 & N3).
  pose proof (dist_pos A B N1). pose proof (dist_pos B C) as D2. pose proof (dist_pos C A) as D3. specialize (D2 ltac:(auto)). specialize (D3 ltac:(auto)).
  assert (nn : forall u d, 0 < d -> 0 <= u -> 0 <= u / d) by (intros u d Hd Hu; apply Rmult_le_pos; [auto|apply Rlt_le, Rinv_0_lt_compat; auto]).
  unfold dbl in D. unfold withinp, halfplanes. rewrite !Forall_3. cbn [fst snd]. rewrite !lnormal_cross by auto.
  repeat match goal with |- _ /\ _ => split end; apply nn; auto;
  match goal with |- 0 <= e * ?t => (replace t with 0 by (unspec; ring); lra) || (replace t with (scross (vsub B A) (vsub C A)) by (unspec; ring); lra) end.
Qed.

Lemma within_perm e A B C c : within (halfplanes e B C A) c -> within (halfplanes e A B C) c.
Proof. unfold within, halfplanes. rewrite !Forall_3. tauto. Qed.

Lemma rot3 c1 c2 c3 D : region (CCC c1 c2 c3) D -> region (CCC c2 c3 c1) D.
Proof. cbn [region]. intros (P1 & P2 & P3 & PD & T12 & T23 & T13 & OD1 & OD2 & OD3). apply tang_sym in T13. assert (T21 := tang_sym _ _ T12). tauto. Qed.

Lemma first_inv A B C P x y z r e k1 k2 k3 : mconf A B C P x y z r e k1 k2 k3 ->
  let c1 := mc A P r k1 in let c2 := mc B P r k2 in let c3 := mc C P r k3 in
  exists p, map fst p = first_holes A B C c1 c2 c3 /\ inv A B C (halfplanes e A B C) [c1; c2; c3] p.
Proof.
  intros M c1 c2 c3. pose proof (mconf_perm _ _ _ _ _ _ _ _ _ _ _ _ M) as M2. pose proof (mconf_perm _ _ _ _ _ _ _ _ _ _ _ _ M2) as M3.
  pose proof (mconf_swap _ _ _ _ _ _ _ _ _ _ _ _ M) as N1. pose proof (mconf_swap _ _ _ _ _ _ _ _ _ _ _ _ M2) as N2. pose proof (mconf_swap _ _ _ _ _ _ _ _ _ _ _ _ M3) as N3.
  destruct (mc_tangs _ _ _ _ _ _ _ _ _ _ _ _ M) as (P1 & P2 & P3 & T12 & T23 & T13). fold c1 c2 c3 in P1, P2, P3, T12, T23, T13.
  destruct (middle_ex c1 c2 c3 P1 P2 P3 T12 T23 T13) as (D & HD). pose proof (rot3 _ _ _ _ HD) as HD2. pose proof (rot3 _ _ _ _ HD2) as HD3.
  pose proof M as ((Hx & Hy & Hz & Hr & He) & (K1 & K2 & K3) & _).
  pose proof (mc_dbl _ _ _ _ _ _ _ _ _ _ _ _ M) as ED. assert (PO : 0 < e * dbl A B C) by (rewrite ED; repeat apply Rmult_lt_0_compat; lra). destruct (vertex_within A B C e He PO) as (VA & VB & VC).
  set (sAB := dside A B x y k1 k2). set (sBC := dside B C y z k2 k3). set (sCA := dside C A z x k3 k1).
  set (dA := dcorner A k1 x). set (dB := dcorner B k2 y). set (dC := dcorner C k3 z).
  pose proof (region_side _ _ _ _ _ _ _ _ _ _ _ _ M) as R1. pose proof (region_side _ _ _ _ _ _ _ _ _ _ _ _ M2) as R2. pose proof (region_side _ _ _ _ _ _ _ _ _ _ _ _ M3) as R3.
  pose proof (region_corner _ _ _ _ _ _ _ _ _ _ _ _ M) as R5. pose proof (region_corner _ _ _ _ _ _ _ _ _ _ _ _ N1) as R6. pose proof (region_corner _ _ _ _ _ _ _ _ _ _ _ _ M3) as R7.
  pose proof (corner_corner _ _ _ _ _ _ _ _ _ _ _ _ M) as G1. pose proof (corner_corner _ _ _ _ _ _ _ _ _ _ _ _ M2) as G2. pose proof (corner_corner _ _ _ _ _ _ _ _ _ _ _ _ M3) as G3.
  pose proof (side_side _ _ _ _ _ _ _ _ _ _ _ _ M) as G4. pose proof (side_side _ _ _ _ _ _ _ _ _ _ _ _ M2) as G5. pose proof (side_side _ _ _ _ _ _ _ _ _ _ _ _ M3) as G6.
  pose proof (corner_opposite _ _ _ _ _ _ _ _ _ _ _ _ M) as G7. pose proof (corner_opposite _ _ _ _ _ _ _ _ _ _ _ _ M2) as G8. pose proof (corner_opposite _ _ _ _ _ _ _ _ _ _ _ _ M3) as G9.
  pose proof (corner_side _ _ _ _ _ _ _ _ _ _ _ _ M) as G10. pose proof (corner_side _ _ _ _ _ _ _ _ _ _ _ _ M2) as G11. pose proof (corner_side _ _ _ _ _ _ _ _ _ _ _ _ M3) as G12.
  pose proof (corner_side _ _ _ _ _ _ _ _ _ _ _ _ N1) as G13. pose proof (corner_side _ _ _ _ _ _ _ _ _ _ _ _ N2) as G14. pose proof (corner_side _ _ _ _ _ _ _ _ _ _ _ _ N3) as G15.
  rewrite dside_swap in G13 by lra. rewrite dside_swap in G14 by lra. rewrite dside_swap in G15 by lra.
  pose proof (side_middle _ _ _ _ _ _ _ _ _ _ _ _ D M HD) as G16. pose proof (side_middle _ _ _ _ _ _ _ _ _ _ _ _ D M2 HD2) as G17. pose proof (side_middle _ _ _ _ _ _ _ _ _ _ _ _ D M3 HD3) as G18.
  pose proof (corner_middle _ _ _ _ _ _ _ _ _ _ _ _ D M HD) as G19. pose proof (corner_middle _ _ _ _ _ _ _ _ _ _ _ _ D M2 HD2) as G20. pose proof (corner_middle _ _ _ _ _ _ _ _ _ _ _ _ D M3 HD3) as G21.
  pose proof (side_malfatti _ _ _ _ _ _ _ _ _ _ _ _ M) as G22. pose proof (side_malfatti _ _ _ _ _ _ _ _ _ _ _ _ M2) as G23. pose proof (side_malfatti _ _ _ _ _ _ _ _ _ _ _ _ M3) as G24.
  pose proof (corner_malfatti _ _ _ _ _ _ _ _ _ _ _ _ M) as G25. pose proof (corner_malfatti _ _ _ _ _ _ _ _ _ _ _ _ M2) as G26. pose proof (corner_malfatti _ _ _ _ _ _ _ _ _ _ _ _ M3) as G27.
  pose proof (corner_malfatti _ _ _ _ _ _ _ _ _ _ _ _ N1) as G28. pose proof (corner_malfatti _ _ _ _ _ _ _ _ _ _ _ _ N2) as G29. pose proof (corner_malfatti _ _ _ _ _ _ _ _ _ _ _ _ N3) as G30.
  fold c1 c2 c3 sAB sBC sCA dA dB dC in R1, R2, R3, R5, R6, R7, G1, G2, G3, G4, G5, G6, G7, G8, G9, G10, G11, G12, G13, G14, G15, G16, G17, G18, G19, G20, G21, G22, G23, G24, G25, G26, G27, G28, G29, G30.
  pose proof (mc_within _ _ _ _ _ _ _ _ _ _ _ _ M) as W1. pose proof (within_perm _ _ _ _ _ (mc_within _ _ _ _ _ _ _ _ _ _ _ _ M2)) as W2. pose proof (within_perm _ _ _ _ _ (within_perm _ _ _ _ _ (mc_within _ _ _ _ _ _ _ _ _ _ _ _ M3))) as W3.
  fold c1 c2 c3 in W1, W2, W3. clear M M2 M3 N1 N2 N3.
  assert (DS : forall u v, disj u v -> disj v u) by apply disj_sym.
  exists [(CCL c1 c2 A B, sAB); (CCL c2 c3 B C, sBC); (CCL c3 c1 C A, sCA); (CCC c1 c2 c3, D); (CLL A B C c1, dA); (CLL B A C c2, dB); (CLL C A B c3, dC)].
  split; [reflexivity|]. unfold inv. split; [rewrite Forall_3; auto|]. split; [|split; [rewrite Forall_3; auto|split; [|split; [|split; [|split]]]]].
  - apply FOP_cons; [apply Forall_cons; [apply tang_disj; auto|apply Forall_cons; [apply tang_disj; auto|apply Forall_nil]]|].
    apply FOP_cons; [apply Forall_cons; [apply tang_disj; auto|apply Forall_nil]|]. apply FOP_cons; [apply Forall_nil|apply FOP_nil].
  - repeat (apply Forall_cons; [assumption|]). apply Forall_nil.
  - repeat (apply FOP_cons; [repeat (apply Forall_cons; [cbn [snd]; first [assumption|apply DS; assumption]|]); apply Forall_nil|]). apply FOP_nil.
  - intros h D' w Hh Hw. cbn [In] in Hh, Hw.
    destruct Hh as [Hh|[Hh|[Hh|[Hh|[Hh|[Hh|[Hh|[]]]]]]]]; injection Hh as <- <-; cbn [members In]; destruct Hw as [<-|[<-|[<-|[]]]]; auto 8.
  - intros h D' Hh. cbn [In] in Hh.
    destruct Hh as [Hh|[Hh|[Hh|[Hh|[Hh|[Hh|[Hh|[]]]]]]]]; injection Hh as <- <-; cbn [members]; intros w; cbn [In]; tauto.
  - intros h D' Hh. cbn [In] in Hh.
    destruct Hh as [Hh|[Hh|[Hh|[Hh|[Hh|[Hh|[Hh|[]]]]]]]]; injection Hh as <- <-; cbn [okside corners]; (split; [first [exact Logic.I|exists C; unfold perm3; tauto|exists A; unfold perm3; tauto|exists B; unfold perm3; tauto|unfold perm3; tauto]|]);
      first [apply Forall_nil|apply Forall_cons; [assumption|apply Forall_nil]].
Qed.
