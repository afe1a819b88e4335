(** * Reflections in binary64: proofs *)

From Coq Require Import Reals ZArith Lia Lra Psatz Bool SpecFloat.
From Verif Require Import SpecF64 SpecFloatInv Base Spec BaseLemmas SpecLemmas ModelFloat ModelFloatInter ModelFloatAxis ModelFloatRefl PFloat PFloat2 PFloat3 PFloat4 PFloatCircle PFloatGrid PFloatLine PFloatMisc2 PFloatMisc PFloatInter PFloatEx PFloatInv.
Local Open Scope R_scope.

(** The foot of the perpendicular, the correctly rounded result of an exact intersection. *)
Lemma foot64 A B M : on_grid2 0 20000 A -> on_grid2 0 20000 B -> on_grid2 0 20000 M -> P2R A <> P2R B ->
  let v := fp_sub B A in let w := (SFopp (snd v), fst v) in
  exists P X, line_line_intersection64 A B (fp_sub M w) (fp_add M w) = Some P /\ on_line (P2R A) (P2R B) X /\ orthogonal (vsub X (P2R M)) (vsub (P2R B) (P2R A)) /\
    rounds (fst P) (fst X) /\ rounds (snd P) (snd X).
Proof.
  intros GA GB GM NAB v w.
  assert (W : forall N Q, (N <= 65536)%Z -> on_grid2 0 N Q -> on_grid2 0 65536 Q). { intros N Q HN ((F0 & n0 & B0 & E0) & (F1 & n1 & B1 & E1)). split; (split; [auto|]); [exists n0|exists n1]; split; auto; lia. }
  assert (G : (on_grid2 0 60000 (fp_add M w) /\ P2R (fp_add M w) = vadd (P2R M) (- (SF2R (snd B) - SF2R (snd A)), SF2R (fst B) - SF2R (fst A))) /\
              (on_grid2 0 60000 (fp_sub M w) /\ P2R (fp_sub M w) = vsub (P2R M) (- (SF2R (snd B) - SF2R (snd A)), SF2R (fst B) - SF2R (fst A)))).
  { destruct GA as (Ga0 & Ga1), GB as (Gb0 & Gb1), GM as (Gm0 & Gm1). apply gv_of in Ga0, Ga1, Gb0, Gb1, Gm0, Gm1. destruct Ga0 as (a0 & Ga0), Ga1 as (a1 & Ga1), Gb0 as (b0 & Gb0), Gb1 as (b1 & Gb1), Gm0 as (m0 & Gm0), Gm1 as (m1 & Gm1).
    assert (R1 : (-1074 <= 0 <= 970)%Z) by lia.
    pose proof (gva _ _ _ _ _ _ _ Gm0 (gv_opp _ _ _ _ (gvs _ _ _ _ _ _ _ Gb1 Ga1 R1 eq_refl)) R1 eq_refl) as H0. pose proof (gva _ _ _ _ _ _ _ Gm1 (gvs _ _ _ _ _ _ _ Gb0 Ga0 R1 eq_refl) R1 eq_refl) as H1.
    pose proof (gvs _ _ _ _ _ _ _ Gm0 (gv_opp _ _ _ _ (gvs _ _ _ _ _ _ _ Gb1 Ga1 R1 eq_refl)) R1 eq_refl) as H2. pose proof (gvs _ _ _ _ _ _ _ Gm1 (gvs _ _ _ _ _ _ _ Gb0 Ga0 R1 eq_refl) R1 eq_refl) as H3.
    destruct H0 as (F0 & B0 & E0), H1 as (F1 & B1 & E1), H2 as (F2 & B2 & E2), H3 as (F3 & B3 & E3).
    destruct Ga0 as (_ & _ & A0), Ga1 as (_ & _ & A1), Gb0 as (_ & _ & C0), Gb1 as (_ & _ & C1), Gm0 as (_ & _ & D0), Gm1 as (_ & _ & D1).
    split; split.
    - split; (split; [assumption|]); [exists (m0 + - (b1 - a1))%Z|exists (m1 + (b0 - a0))%Z]; split; auto; lia.
    - unfold P2R, vadd. cbn [fst snd fp_add fp_map2 w v fp_sub]. rewrite E0, E1, A0, A1, C0, C1, D0, D1, !plus_IZR, opp_IZR, !minus_IZR. f_equal; ring.
    - split; (split; [assumption|]); [exists (m0 - - (b1 - a1))%Z|exists (m1 - (b0 - a0))%Z]; split; auto; lia.
    - unfold P2R, vsub. cbn [fst snd fp_add fp_map2 w v fp_sub]. rewrite E2, E3, A0, A1, C0, C1, D0, D1, !minus_IZR, opp_IZR, !minus_IZR. f_equal; ring. }
  destruct G as ((G1 & V1) & (G2 & V2)).
  destruct (intersection64_grid 0 A B (fp_sub M w) (fp_add M w) ltac:(lia) (W 20000%Z _ ltac:(lia) GA) (W 20000%Z _ ltac:(lia) GB) (W 60000%Z _ ltac:(lia) G2) (W 60000%Z _ ltac:(lia) G1)) as (_ & K).
  rewrite V1, V2 in K. destruct K as (P & X & K1 & K2 & K3 & K4 & K5).
  - unfold scross, vsub, vadd, P2R. cbn [fst snd]. intros Z. apply NAB. unfold P2R.
    set (x := SF2R (fst B) - SF2R (fst A)) in *. set (y := SF2R (snd B) - SF2R (snd A)) in *. assert (Q : x * x + y * y = 0) by lra. assert (x = 0) by nra. assert (y = 0) by nra. f_equal; unfold x, y in *; lra.
  - exists P, X. split; [exact K1|]. split; [apply on_line_cross; auto|]. split; [|auto]. unfold orthogonal. revert K3. unfold scross, sdot, vsub, vadd, P2R. cbn [fst snd]. lra.
Qed.

Lemma refl_coord h x H : fin x -> rounds h H -> Rabs (SF2R x) <= 100000 -> Rabs H <= 100000 ->
  let w := SF64add x (SF64mul f2 (SF64sub h x)) in fin w /\ Rabs (SF2R w - (2 * H - SF2R x)) <= 10 * u64 * (Rabs (2 * H - SF2R x) + Rabs (SF2R x)) + bp (-1070).
Proof.
  intros Fx Rh Bx BH w. pose proof u_bounds as U. pose proof eta64_small as Et. assert (Fh : fin h) by (apply (rounds_fin _ _ Rh)). pose proof (rounds_err _ _ Rh) as Eh.
  assert (B23 : 1000000 <= bp 1023). { apply Rle_trans with (bp 20); [rewrite bp_IZR by lia; apply IZR_le; vm_compute; discriminate|apply bp_le; lia]. }
  assert (E70 : 8 * eta64 <= bp (-1070)). { unfold eta64. replace (bp (-1070)) with (bp 5 * bp (-1075)) by (rewrite <- bp_add; f_equal; lia). apply Rmult_le_compat_r; [left; apply bp_pos|]. rewrite bp_IZR by lia. apply IZR_le. vm_compute. discriminate. }
  set (X := SF2R x) in *. pose proof (Rabs_pos X) as P1. pose proof (Rabs_pos H) as P2.
  assert (uH : 0 <= u64 * Rabs H <= / 1000 * / 1000). { split; [apply Rmult_le_pos; lra|]. apply Rle_trans with (/ 9000000000000000 * 100000); [apply Rmult_le_compat; lra|lra]. }
  assert (uX : 0 <= u64 * Rabs X <= / 1000 * / 1000). { split; [apply Rmult_le_pos; lra|]. apply Rle_trans with (/ 9000000000000000 * 100000); [apply Rmult_le_compat; lra|lra]. }
  assert (uu : forall y, 0 <= y -> 0 <= u64 * y <= / 1000 * y) by (intros y Hy; split; [apply Rmult_le_pos; lra|apply Rmult_le_compat_r; lra]).
  set (e1 := u64 * Rabs H + eta64) in *.
  assert (Bd : Rabs (SF2R h - X) <= Rabs H + Rabs X + e1). { replace (SF2R h - X) with (H + - X + (SF2R h - H)) by ring. eapply Rle_trans; [apply Rabs_triang|]. pose proof (Rabs_triang H (- X)) as Q. rewrite Rabs_Ropp in Q. lra. }
  destruct (fsub h x Fh Fx ltac:(fold X; unfold e1 in Bd; lra)) as (Rd & Ed). fold X in Rd, Ed. set (d := SF64sub h x) in *. assert (Fd : fin d) by (apply (rounds_fin _ _ Rd)).
  set (S := Rabs H + Rabs X) in *. assert (uS : u64 * S = u64 * Rabs H + u64 * Rabs X) by (unfold S; ring). pose proof (uu S ltac:(unfold S; lra)) as uS'.
  assert (e1' : e1 <= u64 * S + eta64) by (unfold e1; lra). assert (e1p : 0 <= e1) by (unfold e1; lra).
  assert (Ed' : Rabs (SF2R d - (SF2R h - X)) <= 11 / 10 * (u64 * S) + eta64). { eapply Rle_trans; [exact Ed|]. apply Rle_trans with (u64 * (S + e1)); [apply Rmult_le_compat_l; [lra|exact Bd]|]. rewrite Rmult_plus_distr_l. pose proof (uu e1 e1p). lra. }
  assert (B2 : Rabs (SF2R f2 * SF2R d) <= 2 * S + 5 * (u64 * S) + 5 * eta64). { rewrite val_f2, Rabs_mult, (Rabs_right 2) by lra. replace (SF2R d) with ((SF2R d - (SF2R h - X)) + (SF2R h - X)) by ring. pose proof (Rabs_triang (SF2R d - (SF2R h - X)) (SF2R h - X)). lra. }
  assert (S0 : 0 <= S) by (unfold S; lra). assert (Sb : S <= 200000) by (unfold S; lra).
  pose proof (fmul f2 d fin_f2 Fd ltac:(lra)) as Rm. pose proof (rounds_err_le _ _ _ Rm B2) as Em. rewrite val_f2 in Em. set (t := SF64mul f2 d) in *. assert (Ft : fin t) by (apply (rounds_fin _ _ Rm)).
  assert (Em' : Rabs (SF2R t - 2 * SF2R d) <= 21 / 10 * (u64 * S) + 2 * eta64). { eapply Rle_trans; [exact Em|]. rewrite !Rmult_plus_distr_l. pose proof (uu (5 * (u64 * S)) ltac:(lra)). pose proof (uu (5 * eta64) ltac:(lra)). lra. }
  assert (Q : X + SF2R t = (2 * H - X) + ((SF2R t - 2 * SF2R d) + 2 * (SF2R d - (SF2R h - X)) + 2 * (SF2R h - H))) by ring.
  assert (Er : Rabs ((SF2R t - 2 * SF2R d) + 2 * (SF2R d - (SF2R h - X)) + 2 * (SF2R h - H)) <= 43 / 10 * (u64 * S) + 2 * (u64 * Rabs H) + 6 * eta64).
  { eapply Rle_trans; [apply Rabs_triang|]. pose proof (Rabs_triang (SF2R t - 2 * SF2R d) (2 * (SF2R d - (SF2R h - X)))) as T. rewrite !Rabs_mult, (Rabs_right 2) in * by lra. unfold e1 in Eh. lra. }
  set (er := (SF2R t - 2 * SF2R d) + 2 * (SF2R d - (SF2R h - X)) + 2 * (SF2R h - H)) in *. set (I := 2 * H - X) in *.
  assert (HI : Rabs H <= / 2 * (Rabs I + Rabs X)). { replace H with (/ 2 * (I + X)) by (unfold I; field). rewrite Rabs_mult, Rabs_right by lra. apply Rmult_le_compat_l; [lra|apply Rabs_triang]. }
  assert (BI : Rabs I <= 300000). { unfold I. pose proof (Rabs_triang (2 * H) (- X)) as T. rewrite Rabs_Ropp, Rabs_mult, (Rabs_right 2) in T by lra. unfold Rminus. lra. }
  assert (Bw : Rabs (X + SF2R t) <= Rabs I + Rabs er). { rewrite Q. apply Rabs_triang. }
  destruct (fadd x t Fx Ft ltac:(fold X; lra)) as (Rw & Ew). fold X in Rw, Ew. fold w in Rw, Ew. split; [apply (rounds_fin _ _ Rw)|].
  assert (Ew' : Rabs (SF2R w - (X + SF2R t)) <= u64 * Rabs I + / 1000 * Rabs er). { eapply Rle_trans; [exact Ew|]. apply Rle_trans with (u64 * (Rabs I + Rabs er)); [apply Rmult_le_compat_l; lra|]. rewrite Rmult_plus_distr_l. pose proof (uu (Rabs er) (Rabs_pos er)). lra. }
  pose proof (uu (Rabs I) (Rabs_pos I)) as uI. assert (uH2 : u64 * Rabs H <= / 2 * (u64 * Rabs I + u64 * Rabs X)). { apply Rle_trans with (u64 * (/ 2 * (Rabs I + Rabs X))); [apply Rmult_le_compat_l; lra|lra]. }
  replace (SF2R w - I) with ((SF2R w - (X + SF2R t)) + er) by (rewrite Q; ring). eapply Rle_trans; [apply Rabs_triang|]. lra.
Qed.

Section Refl.
Variables (m1 m2 : how) (A B M : fpt).
Let A0 := P2R A.
Let B0 := P2R B.
Let M0 := P2R M.

Lemma reflect64_gen N : (N <= 2800)%Z -> on_grid2 0 N A -> on_grid2 0 N B -> on_grid2 0 N M -> A0 <> B0 ->
  (on_line A0 B0 M0 -> reflect64 m1 m2 A B M = Ok M) /\
  (~ on_line A0 B0 M0 -> exists h w X, on_line A0 B0 X /\ orthogonal (vsub X M0) (vsub B0 A0) /\
     rounds (fst h) (fst X) /\ rounds (snd h) (snd X) /\
     near_image 10 (bp (-1070)) M0 (vsub (vscal 2 X) M0) w /\
     (reflect64 m1 m2 A B M = Ok w \/ allclose64 h M = true /\ reflect64 m1 m2 A B M = Raise ValueError) /\ ((N <= 150)%Z -> allclose64 h M = false)).
Proof.
  intros HN GA GB GM NAB.
  assert (W : forall K Q, (N <= K)%Z -> on_grid2 0 N Q -> on_grid2 0 K Q). { intros K Q HK ((F0 & n0 & C0 & E0) & (F1 & n1 & C1 & E1)). split; (split; [auto|]); [exists n0|exists n1]; split; auto; lia. }
  destruct (collinear64_grid m1 m2 A B M (W 2800%Z _ HN GA) (W 2800%Z _ HN GB) (W 2800%Z _ HN GM)) as (r & Er & Hr). fold A0 B0 M0 in Hr. rewrite <- (on_line_cross _ _ _ NAB) in Hr.
  assert (RE : reflect64 m1 m2 A B M = if r then Ok M else let! perp := perpendicular64 m1 m2 A B M in let d := fp_sub (fst perp) (snd perp) in Ok (fp_add M (f2 * fst d, f2 * snd d)%f64)).
  { unfold reflect64, line_init64 at 1. rewrite (not_close A B (W 65536%Z _ ltac:(lia) GA) (W 65536%Z _ ltac:(lia) GB) NAB). cbn [bind fst snd]. rewrite line_includes64_eq, Er. cbn [bind]. reflexivity. }
  rewrite RE. clear RE. split.
  - intros L. rewrite (proj2 Hr L). reflexivity.
  - intros L. destruct r; [exfalso; apply L, Hr; reflexivity|]. unfold perpendicular64. rewrite line_includes64_eq, Er. cbn [bind].
    destruct (foot64 A B M (W 20000%Z _ ltac:(lia) GA) (W 20000%Z _ ltac:(lia) GB) (W 20000%Z _ ltac:(lia) GM) NAB) as (h & X & Eh & L1 & L2 & R1 & R2). fold A0 B0 in L1. fold A0 B0 M0 in L2. cbv zeta in Eh. rewrite Eh.
    assert (Gf : forall x, on_grid 0 N x -> fin x /\ Rabs (SF2R x) <= IZR N /\ exists n, SF2R x = IZR n). { intros x (F & n & Hn & E). rewrite bp_0, Rmult_1_r in E. split; auto. split; [rewrite E, <- abs_IZR; apply IZR_le; lia|exists n; auto]. }
    destruct (Gf _ (proj1 GA)) as (_ & Ba0 & a0 & Ea0), (Gf _ (proj2 GA)) as (_ & Ba1 & a1 & Ea1), (Gf _ (proj1 GB)) as (_ & Bb0 & b0 & Eb0), (Gf _ (proj2 GB)) as (_ & Bb1 & b1 & Eb1), (Gf _ (proj1 GM)) as (Fm0 & Bm0 & p0 & Em0), (Gf _ (proj2 GM)) as (Fm1 & Bm1 & p1 & Em1).
    assert (HN' : IZR N <= 2800) by (apply IZR_le; auto).
    set (px := fst X - fst M0). set (py := snd X - snd M0).
    assert (K1 : scross (vsub B0 A0) (vsub X A0) = 0) by (apply on_line_cross; auto). unfold orthogonal, sdot in L2. unfold scross in K1. unfold vsub in K1, L2. cbn [fst snd] in K1, L2. fold px py in L2.
    assert (Pyth : px * (fst X - fst A0) + py * (snd X - snd A0) = 0).
    { destruct L1 as (k & EX). rewrite EX. unfold at_line. unfold vadd, vscal, vsub. cbn [fst snd]. fold A0 B0. transitivity (k * (px * (fst B0 - fst A0) + py * (snd B0 - snd A0))); [ring|rewrite L2; ring]. }
    assert (Sq : px * px + py * py <= (fst M0 - fst A0) * (fst M0 - fst A0) + (snd M0 - snd A0) * (snd M0 - snd A0)).
    { pose proof (Rle_0_sqr (fst X - fst A0)) as Z1. pose proof (Rle_0_sqr (snd X - snd A0)) as Z2. unfold Rsqr in *. assert (T1 : fst M0 - fst A0 = (fst X - fst A0) - px) by (unfold px; ring). assert (T2 : snd M0 - snd A0 = (snd X - snd A0) - py) by (unfold py; ring). rewrite T1, T2. lra. }
    change (SF2R (fst A)) with (fst A0) in *. change (SF2R (snd A)) with (snd A0) in *. change (SF2R (fst B)) with (fst B0) in *. change (SF2R (snd B)) with (snd B0) in *. change (SF2R (fst M)) with (fst M0) in *. change (SF2R (snd M)) with (snd M0) in *.
    apply abs_bounds in Ba0, Ba1, Bb0, Bb1. pose proof Bm0 as Bm0'. pose proof Bm1 as Bm1'. apply abs_bounds in Bm0', Bm1'.
    assert (SqB : forall d, -5600 <= d <= 5600 -> d * d <= 5600 * 5600) by (intros; nra).
    pose proof (SqB (fst M0 - fst A0) ltac:(lra)) as S1. pose proof (SqB (snd M0 - snd A0) ltac:(lra)) as S2.
    assert (Bd : forall d e, d * d + e * e <= 2 * (5600 * 5600) -> Rabs d <= 8000). { intros d e Hd. pose proof (Rle_0_sqr e) as Z. unfold Rsqr in Z. apply Rabs_le. split; nra. }
    pose proof (Bd px py ltac:(lra)) as Bpx. pose proof (Bd py px ltac:(lra)) as Bpy.
    assert (BX0 : Rabs (fst X) <= 100000). { replace (fst X) with (px + fst M0) by (unfold px; ring). eapply Rle_trans; [apply Rabs_triang|]. lra. }
    assert (BX1 : Rabs (snd X) <= 100000). { replace (snd X) with (py + snd M0) by (unfold py; ring). eapply Rle_trans; [apply Rabs_triang|]. lra. }
    destruct (refl_coord (fst h) (fst M) (fst X) Fm0 R1 ltac:(change (SF2R (fst M)) with (fst M0); lra) BX0) as (F0 & E0). destruct (refl_coord (snd h) (snd M) (snd X) Fm1 R2 ltac:(change (SF2R (snd M)) with (snd M0); lra) BX1) as (F1 & E1).
    exists h, (fp_add M (f2 * fst (fp_sub h M), f2 * snd (fp_sub h M))%f64), X. split; [exact L1|]. split; [unfold orthogonal, sdot, vsub; cbn [fst snd]; exact L2|]. split; [exact R1|]. split; [exact R2|]. split; [|split].
    + split; [split; [exact F0|exact F1]|]. split; [exact E0|exact E1].
    + unfold line_init64. destruct (allclose64 h M) eqn:AC; [right; split; [reflexivity|cbn [bind]; reflexivity]|left; reflexivity].
    + intros HS. assert (HS' : IZR N <= 150) by (apply IZR_le; auto). pose proof u_bounds as U. pose proof eta64_small as Et.
      assert (Cr : 1 <= (px * px + py * py) * ((fst B0 - fst A0) * (fst B0 - fst A0) + (snd B0 - snd A0) * (snd B0 - snd A0))).
      { set (ux := fst B0 - fst A0) in *. set (uy := snd B0 - snd A0) in *. set (cr := ux * (snd M0 - snd A0) - uy * (fst M0 - fst A0)).
        assert (Ecr : cr = IZR ((b0 - a0) * (p1 - a1) - (b1 - a1) * (p0 - a0))). { unfold cr, ux, uy. rewrite minus_IZR, !mult_IZR, !minus_IZR, Ea0, Ea1, Eb0, Eb1, Em0, Em1. reflexivity. }
        assert (Ncr : cr <> 0). { intros Z. apply L. apply on_line_cross; auto. }
        assert (Q : 1 <= cr * cr). { rewrite Ecr in Ncr |- *. rewrite <- mult_IZR. apply IZR_le. match goal with |- (1 <= ?z * ?z)%Z => assert (z <> 0%Z) by (intros Hz; apply Ncr; rewrite Hz; reflexivity); nia end. }
        assert (C2 : cr = uy * px - ux * py). { unfold cr, px, py. transitivity (ux * (snd X - snd A0) - uy * (fst X - fst A0) + (uy * (fst X - fst M0) - ux * (snd X - snd M0))); [ring|]. rewrite K1. ring. }
        assert (C3 : (px * px + py * py) * (ux * ux + uy * uy) = cr * cr + (px * ux + py * uy) * (px * ux + py * uy)) by (rewrite C2; ring). rewrite C3, L2. lra. }
      assert (Uu : forall d, -300 <= d <= 300 -> d * d <= 300 * 300) by (intros; nra). pose proof (Uu (fst B0 - fst A0) ltac:(lra)) as U1. pose proof (Uu (snd B0 - snd A0) ltac:(lra)) as U2.
      assert (P2 : 1 <= (px * px + py * py) * 180000). { eapply Rle_trans; [exact Cr|]. apply Rmult_le_compat_l; [pose proof (Rle_0_sqr px) as Z1; pose proof (Rle_0_sqr py) as Z2; unfold Rsqr in *; lra|lra]. }
      assert (Fin : forall k x H, fin x -> rounds k H -> Rabs (SF2R x) <= 150 -> Rabs H <= 100000 -> / 600 <= Rabs (H - SF2R x) -> npclose64 k x = false).
      { intros k x H Fx Rk Bx BH Hd. pose proof (rounds_err _ _ Rk) as Ek. assert (u64 * Rabs H <= / 9000000000000000 * 100000) by (apply Rmult_le_compat; try lra; apply Rabs_pos).
        assert (B5 : 1000000 <= bp 500). { apply Rle_trans with (bp 20); [rewrite bp_IZR by lia; apply IZR_le; vm_compute; discriminate|apply bp_le; lia]. }
        assert (Bk : Rabs (SF2R k) <= 100001). { replace (SF2R k) with (H + (SF2R k - H)) by ring. eapply Rle_trans; [apply Rabs_triang|]. lra. }
        apply npclose_far; auto; try lra; [apply (rounds_fin _ _ Rk)|]. assert (T : Rabs (H - SF2R x) <= Rabs (SF2R k - SF2R x) + Rabs (SF2R k - H)). { replace (H - SF2R x) with ((SF2R k - SF2R x) + - (SF2R k - H)) by ring. eapply Rle_trans; [apply Rabs_triang|]. rewrite Rabs_Ropp. lra. } lra. }
      unfold allclose64. apply andb_false_iff. destruct (Rle_lt_dec (/ 600) (Rabs px)) as [G|G]; [left; apply (Fin _ _ _ Fm0 R1); auto; change (SF2R (fst M)) with (fst M0); lra|].
      right. apply (Fin _ _ _ Fm1 R2); auto; change (SF2R (snd M)) with (snd M0); [lra|]. fold py. apply Rnot_lt_le. intros G2. assert (Sm : forall d, Rabs d < / 600 -> d * d < / 360000). { intros d Hd. apply Rabs_def2 in Hd. nra. } pose proof (Sm _ G). pose proof (Sm _ G2). lra.
Qed.
End Refl.

Lemma perpendicular64_gen m1 m2 A B M : on_grid2 0 2800 A -> on_grid2 0 2800 B -> on_grid2 0 2800 M -> P2R A <> P2R B ->
  (on_line (P2R A) (P2R B) (P2R M) -> exists Q, perpendicular64 m1 m2 A B M = Ok (M, Q) /\ fin2 Q /\ orthogonal (vsub (P2R Q) (P2R M)) (vsub (P2R B) (P2R A)) /\ dist (P2R M) (P2R Q) = dist (P2R A) (P2R B)) /\
  (~ on_line (P2R A) (P2R B) (P2R M) -> exists h X, on_line (P2R A) (P2R B) X /\ orthogonal (vsub X (P2R M)) (vsub (P2R B) (P2R A)) /\
     rounds (fst h) (fst X) /\ rounds (snd h) (snd X) /\ perpendicular64 m1 m2 A B M = if allclose64 h M then Raise ValueError else Ok (h, M)).
Proof.
  intros GA GB GM NAB. assert (W : forall K Q, (2800 <= K)%Z -> on_grid2 0 2800 Q -> on_grid2 0 K Q). { intros K Q HK ((F0 & n0 & C0 & E0) & (F1 & n1 & C1 & E1)). split; (split; [auto|]); [exists n0|exists n1]; split; auto; lia. }
  destruct (collinear64_grid m1 m2 A B M GA GB GM) as (r & Er & Hr). rewrite <- (on_line_cross _ _ _ NAB) in Hr. unfold perpendicular64. rewrite line_includes64_eq, Er. cbn [bind]. split; intros L.
  - rewrite (proj2 Hr L). set (v := fp_sub B A). set (Q := fp_add M (SFopp (snd v), fst v)).
    assert (G : on_grid2 0 65536 Q /\ P2R Q = vadd (P2R M) (- (SF2R (snd B) - SF2R (snd A)), SF2R (fst B) - SF2R (fst A))).
    { pose proof GM as GM'. destruct GA as (Ga0 & Ga1), GB as (Gb0 & Gb1), GM' as (Gm0 & Gm1). apply gv_of in Ga0, Ga1, Gb0, Gb1, Gm0, Gm1. destruct Ga0 as (a0 & Ga0), Ga1 as (a1 & Ga1), Gb0 as (b0 & Gb0), Gb1 as (b1 & Gb1), Gm0 as (q0 & Gm0), Gm1 as (q1 & Gm1).
      assert (R1 : (-1074 <= 0 <= 970)%Z) by lia.
      pose proof (gva _ _ _ _ _ _ _ Gm0 (gv_opp _ _ _ _ (gvs _ _ _ _ _ _ _ Gb1 Ga1 R1 eq_refl)) R1 eq_refl) as H0. pose proof (gva _ _ _ _ _ _ _ Gm1 (gvs _ _ _ _ _ _ _ Gb0 Ga0 R1 eq_refl) R1 eq_refl) as H1. destruct H0 as (F0 & B0 & E0), H1 as (F1 & B1 & E1).
      destruct Ga0 as (_ & _ & A0), Ga1 as (_ & _ & A1), Gb0 as (_ & _ & C0), Gb1 as (_ & _ & C1), Gm0 as (_ & _ & D0), Gm1 as (_ & _ & D1). split.
      - split; (split; [assumption|]); [exists (q0 + - (b1 - a1))%Z|exists (q1 + (b0 - a0))%Z]; split; auto; lia.
      - unfold P2R, vadd. cbn [fst snd fp_add fp_map2 Q v fp_sub]. rewrite E0, E1, A0, A1, C0, C1, D0, D1, !plus_IZR, opp_IZR, !minus_IZR. f_equal; ring. }
    destruct G as (G & V). assert (DQ : dist (P2R M) (P2R Q) = dist (P2R A) (P2R B)) by (unfold dist; f_equal; rewrite V; unfold P2R; unspec; ring).
    exists Q. unfold line_init64. rewrite (not_close M Q (W 65536%Z _ ltac:(lia) GM) G).
    2:{ intros E. apply NAB. apply dist_0. rewrite <- DQ, <- E. apply dist_0. reflexivity. } split; [reflexivity|]. split; [destruct G as ((F0 & _) & (F1 & _)); split; auto|]. split; auto. rewrite V. unfold orthogonal, P2R. unspec. ring.
  - destruct r; [exfalso; apply L, Hr; reflexivity|]. destruct (foot64 A B M (W 20000%Z _ ltac:(lia) GA) (W 20000%Z _ ltac:(lia) GB) (W 20000%Z _ ltac:(lia) GM) NAB) as (h & X & Eh & L1 & L2 & R1 & R2). cbv zeta in Eh. rewrite Eh. exists h, X. do 4 (split; [assumption|]). reflexivity.
Qed.

Lemma reflect64_raises m1 m2 : exists A B M, on_grid2 0 2100 A /\ on_grid2 0 2100 B /\ on_grid2 0 2100 M /\ P2R A <> P2R B /\ reflect64 m1 m2 A B M = Raise ValueError.
Proof.
  exists (fz 2000, fz 2000), (fz 2100, fz 2099), (fz 2001, fz 2001). do 3 (split; [apply fz_grid2; lia|]). split; [rewrite !fz_P2R by lia; intros Q; injection Q as Q; lra|]. destruct m1, m2; vm_compute; reflexivity.
Qed.
