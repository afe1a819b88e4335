(** * The radical axis of two circles in binary64: proofs *)

From Coq Require Import Reals ZArith Lia Lra Psatz Bool SpecFloat.
From Verif Require Import SpecF64 SpecFloatAxis Base Spec BaseLemmas SpecLemmas ModelFloat ModelFloatInter ModelFloatCC ModelFloatAxis PFloat PFloat2 PFloat3 PFloat4 PFloatCircle PFloatGrid PFloatInter PFloatCC PFloatCC2 PFloatEx PFloatInv.
Local Open Scope R_scope.

Lemma axis_coord z x C mid n : fin z -> fin x -> SF2R x = IZR n -> (Z.abs n <= 131072)%Z -> Rabs mid <= 65536 -> Rabs C <= bp 100 -> Rabs (SF2R z - C) <= 3 * u64 * (Rabs C + Rabs mid) + 2 * eta64 ->
  near5 (Rabs C + Rabs mid + Rabs (IZR n)) C z /\ near5 (Rabs C + Rabs mid + Rabs (IZR n)) (C + IZR n) (SF64add z x) /\
  (Rabs C <= 65536 -> n <> 0%Z -> npclose64 z (SF64add z x) = false).
Proof.
  intros Fz Fx Ex Bn Bm BC E. pose proof u_bounds as U. pose proof eta64_small as Et. pose proof (Rabs_pos C) as P1. pose proof (Rabs_pos mid) as P2. pose proof (Rabs_pos (IZR n)) as P3.
  assert (B3 : Rabs (IZR n) <= 131072) by (rewrite <- abs_IZR; apply IZR_le; lia).
  assert (u1 : 0 <= u64 * Rabs C <= / 1000 * Rabs C) by (split; [apply Rmult_le_pos; lra|apply Rmult_le_compat_r; lra]). assert (u2 : 0 <= u64 * Rabs mid <= / 1000 * / 1000) by (split; [apply Rmult_le_pos; lra|apply Rle_trans with (/ 9000000000000000 * 65536); [apply Rmult_le_compat; lra|lra]]). assert (u3 : 0 <= u64 * Rabs (IZR n)) by (apply Rmult_le_pos; lra).
  assert (b100 : 1000000 * bp 100 <= bp 500). { apply Rle_trans with (bp 20 * bp 100). - apply Rmult_le_compat_r; [left; apply bp_pos|]. rewrite bp_IZR by lia. apply IZR_le. vm_compute. discriminate. - rewrite <- bp_add. apply bp_le. lia. }
  assert (b1 : 1000000 <= bp 100). { apply Rle_trans with (bp 20); [rewrite bp_IZR by lia; apply IZR_le; vm_compute; discriminate|apply bp_le; lia]. } assert (b5 : bp 500 <= bp 1023) by (apply bp_le; lia).
  assert (Bz : Rabs (SF2R z) <= 101 / 100 * Rabs C + / 1000). { replace (SF2R z) with (C + (SF2R z - C)) by ring. eapply Rle_trans; [apply Rabs_triang|]. lra. }
  assert (Bs : Rabs (SF2R z + SF2R x) <= Rabs C + Rabs (IZR n) + (3 * u64 * (Rabs C + Rabs mid) + 2 * eta64)). { rewrite Ex. replace (SF2R z + IZR n) with (C + IZR n + (SF2R z - C)) by ring. eapply Rle_trans; [apply Rabs_triang|]. pose proof (Rabs_triang C (IZR n)). lra. }
  assert (W : near5 (Rabs C + Rabs mid + Rabs (IZR n)) (C + IZR n) (SF64add z x)).
  { destruct (fadd z x Fz Fx ltac:(lra)) as (R1 & R2). split; [apply (rounds_fin _ _ R1)|].
    assert (Q : u64 * Rabs (SF2R z + SF2R x) <= u64 * (11 / 10 * Rabs C + Rabs (IZR n) + Rabs mid) + u64 * (2 * eta64)). { rewrite <- Rmult_plus_distr_l. apply Rmult_le_compat_l; [lra|]. assert (u64 * Rabs mid <= / 1000 * Rabs mid) by (apply Rmult_le_compat_r; lra). lra. }
    assert (u64 * (2 * eta64) <= / 2 * (2 * eta64)) by (apply Rmult_le_compat_r; lra).
    replace (SF2R (SF64add z x) - (C + IZR n)) with ((SF2R (SF64add z x) - (SF2R z + SF2R x)) + (SF2R z - C)) by (rewrite Ex; ring). eapply Rle_trans; [apply Rabs_triang|]. lra. }
  split; [split; [auto|lra]|]. split; [exact W|]. intros HC Hn. destruct W as (Fw & Ew).
  assert (N1 : 1 <= Rabs (IZR n)) by (rewrite <- abs_IZR; apply IZR_le; lia).
  assert (T : 5 * u64 * (Rabs C + Rabs mid + Rabs (IZR n)) <= / 1000000). { apply Rle_trans with (5 * / 9000000000000000 * 262144); [|lra]. apply Rmult_le_compat; lra. }
  assert (Bw : Rabs (SF2R (SF64add z x)) <= 65536 + Rabs (IZR n) + / 100000). { replace (SF2R (SF64add z x)) with ((C + IZR n) + (SF2R (SF64add z x) - (C + IZR n))) by ring. eapply Rle_trans; [apply Rabs_triang|]. pose proof (Rabs_triang C (IZR n)). lra. }
  apply npclose_far; auto; try lra.
  assert (L : Rabs (IZR n) - / 100000 <= Rabs (SF2R z - SF2R (SF64add z x))); [|lra].
  replace (IZR n) with (- (SF2R z - SF2R (SF64add z x)) + ((SF2R z - C) - (SF2R (SF64add z x) - (C + IZR n)))) at 1 by ring.
  pose proof (Rabs_triang (- (SF2R z - SF2R (SF64add z x))) ((SF2R z - C) - (SF2R (SF64add z x) - (C + IZR n)))) as Q. pose proof (Rabs_triang (SF2R z - C) (- (SF2R (SF64add z x) - (C + IZR n)))) as Q2. rewrite Rabs_Ropp in Q, Q2. unfold Rminus in Q at 2. unfold Rminus in *. lra.
Qed.

Lemma radical_axis64_value m c1 c2 : on_grid2 0 65536 (c64_center c1) -> on_grid2 0 65536 (c64_center c2) -> on_grid 0 131072 (c64_radius c1) -> on_grid 0 131072 (c64_radius c2) ->
  let O1 := P2R (c64_center c1) in let O2 := P2R (c64_center c2) in
  let r1 := SF2R (c64_radius c1) in let r2 := SF2R (c64_radius c2) in
  (O1 = O2 -> radical_axis64 m c1 c2 = Ok None) /\
  (O1 <> O2 -> exists A B a b t, A = vadd O1 (vscal t (vsub O2 O1)) /\ dist A B = dist O1 O2 /\ (forall X, equal_powers O1 r1 O2 r2 X <-> on_line A B X) /\
     (let S := Rabs (fst A) + Rabs ((fst O1 + fst O2) / 2) + Rabs (snd O2 - snd O1) in near5 S (fst A) (fst a) /\ near5 S (fst B) (fst b)) /\
     (let S := Rabs (snd A) + Rabs ((snd O1 + snd O2) / 2) + Rabs (fst O2 - fst O1) in near5 S (snd A) (snd a) /\ near5 S (snd B) (snd b)) /\
     (radical_axis64 m c1 c2 = Ok (Some (a, b)) \/
      (65536 < Rabs (fst A) \/ 65536 < Rabs (snd A)) /\ allclose64 a b = true /\ radical_axis64 m c1 c2 = Raise ValueError)).
Proof.
  intros G1 G2 H1 H2 O1 O2 r1 r2. destruct (radical_center64_int m c1 c2 G1 G2 H1 H2) as (_ & RC). fold O1 O2 r1 r2 in RC. split.
  - intros E. unfold radical_axis64. replace (allclose64 (c64_center c1) (c64_center c2)) with true; auto. symmetry. apply andb_true_iff. destruct G1 as ((F1 & _) & (F2 & _)), G2 as ((F3 & _) & (F4 & _)).
    unfold O1, O2, P2R in E. injection E as E1 E2. split; apply orb_true_iff; right; apply feq; auto.
  - intros N. destruct (RC N) as (A & t & EA & EP & (Fz1 & Fz2) & X1 & X2). unfold radical_axis64. rewrite (not_close _ _ G1 G2 N). set (z := radical_center64 m c1 c2) in *.
    destruct (sub_int _ _ 65536 (proj1 G2) (proj1 G1) ltac:(lia)) as (n & Fn & En & Dn & Bn). destruct (sub_int _ _ 65536 (proj2 G2) (proj2 G1) ltac:(lia)) as (q & Fq & Eq & Dq & Bq).
    set (v := fp_sub (c64_center c2) (c64_center c1)). change (SF64sub (fst (c64_center c2)) (fst (c64_center c1))) with (fst v) in *. change (SF64sub (snd (c64_center c2)) (snd (c64_center c1))) with (snd v) in *.
    destruct (int_within _ G1) as (_ & W1 & W2). destruct (int_within _ G2) as (_ & W3 & W4).
    assert (Ex : fst O2 - fst O1 = IZR n) by exact Dn. assert (Ey : snd O2 - snd O1 = IZR q) by exact Dq.
    change (SF2R (fst (c64_center c1))) with (fst O1) in *. change (SF2R (snd (c64_center c1))) with (snd O1) in *. change (SF2R (fst (c64_center c2))) with (fst O2) in *. change (SF2R (snd (c64_center c2))) with (snd O2) in *.
    assert (B1 : Rabs r1 <= 131072 /\ Rabs r2 <= 131072). { destruct H1 as (_ & a1 & L1 & Q1), H2 as (_ & a2 & L2 & Q2). unfold r1, r2. rewrite Q1, Q2, bp_0, !Rmult_1_r, <- !abs_IZR. split; apply IZR_le; lia. }
    assert (D0 : 1 <= dist2 O1 O2). { assert (Z : dist2 O1 O2 = IZR (n * n + q * q)) by (rewrite plus_IZR, !mult_IZR, <- Ex, <- Ey; unspec; ring). assert (P : 0 < dist2 O1 O2) by (apply dist2_pos; auto). rewrite Z in *. apply lt_IZR in P. apply IZR_le. lia. }
    assert (T : (2 * t - 1) * dist2 O1 O2 = r1 * r1 - r2 * r2). { rewrite EA in EP. transitivity (dist2 O1 (vadd O1 (vscal t (vsub O2 O1))) - dist2 O2 (vadd O1 (vscal t (vsub O2 O1)))); [unspec; ring|lra]. }
    assert (Bt : Rabs (2 * t - 1) <= 131072 * 131072). { destruct B1 as (B1 & B2). pose proof (Rabs_pos (2 * t - 1)). assert (Rabs ((2 * t - 1) * dist2 O1 O2) <= 131072 * 131072). { rewrite T. assert (0 <= r1 * r1 <= 131072 * 131072). { pose proof (Rle_0_sqr r1) as Z. unfold Rsqr in Z. split; auto. rewrite <- (Rabs_right (r1 * r1)), Rabs_mult by lra. apply Rmult_le_compat; auto using Rabs_pos. } assert (0 <= r2 * r2 <= 131072 * 131072). { pose proof (Rle_0_sqr r2) as Z. unfold Rsqr in Z. split; auto. rewrite <- (Rabs_right (r2 * r2)), Rabs_mult by lra. apply Rmult_le_compat; auto using Rabs_pos. } apply Rabs_le. lra. }
      rewrite Rabs_mult, (Rabs_right (dist2 O1 O2)) in H0 by lra. assert (Rabs (2 * t - 1) * 1 <= Rabs (2 * t - 1) * dist2 O1 O2) by (apply Rmult_le_compat_l; auto). lra. }
    assert (BA : forall o o' k, Rabs o <= 65536 -> Rabs o' <= 65536 -> o' - o = IZR k -> (Z.abs k <= 2 * 65536)%Z -> Rabs (o + t * (o' - o)) <= bp 100 /\ Rabs ((o + o') / 2) <= 65536).
    { intros o o' k L1 L2 L3 L4. assert (Lk : Rabs (IZR k) <= 131072) by (rewrite <- abs_IZR; apply IZR_le; lia). assert (Lm : Rabs ((o + o') / 2) <= 65536). { apply abs_bounds in L1. apply abs_bounds in L2. apply Rabs_le. lra. } split; auto. rewrite L3.
      replace (o + t * IZR k) with ((o + o') / 2 + (2 * t - 1) * (IZR k / 2)) by (replace o' with (o + IZR k) by lra; field). eapply Rle_trans; [apply Rabs_triang|]. rewrite Rabs_mult. assert (Rabs (IZR k / 2) <= 65536). { apply abs_bounds in Lk. apply Rabs_le. lra. }
      assert (Rabs (2 * t - 1) * Rabs (IZR k / 2) <= 131072 * 131072 * 65536) by (apply Rmult_le_compat; auto using Rabs_pos). apply Rle_trans with (bp 60); [rewrite bp_IZR by lia; apply Rle_trans with (65536 + 131072 * 131072 * 65536); [lra|rewrite <- !mult_IZR, <- plus_IZR; apply IZR_le; vm_compute; discriminate]|apply bp_le; lia]. }
    destruct (BA _ _ _ W1 W3 Ex Bn) as (BA1 & BM1). destruct (BA _ _ _ W2 W4 Ey Bq) as (BA2 & BM2). clear BA.
    assert (EA1 : fst A = fst O1 + t * (fst O2 - fst O1)) by (rewrite EA; reflexivity). assert (EA2 : snd A = snd O1 + t * (snd O2 - snd O1)) by (rewrite EA; reflexivity). rewrite <- EA1 in BA1. rewrite <- EA2 in BA2.
    destruct (fin_opp _ Fq) as (Fo & Eo). rewrite Eq, <- opp_IZR in Eo.
    destruct (axis_coord _ _ _ _ _ Fz1 Fo Eo ltac:(lia) BM1 BA1 X1) as (Y1 & Y2 & Y3). destruct (axis_coord _ _ _ _ _ Fz2 Fn En ltac:(lia) BM2 BA2 X2) as (Y4 & Y5 & Y6).
    rewrite opp_IZR in Y1, Y2. rewrite Rabs_Ropp in Y1, Y2.
    set (B := (fst A + - IZR q, snd A + IZR n)). exists A, B, z, (fp_add z (SFopp (snd v), fst v)), t. split; [exact EA|].
    assert (EB : vsub B A = (- (snd O2 - snd O1), fst O2 - fst O1)) by (unfold B; rewrite Ex, Ey; unspec; f_equal; ring).
    split. { unfold dist. f_equal. transitivity (IZR q * IZR q + IZR n * IZR n); [unfold B; unspec; ring|rewrite <- Ex, <- Ey; unspec; ring]. }
    split.
    { assert (K : forall X, dist2 O1 X - r1 * r1 - (dist2 O2 X - r2 * r2) = 2 * ((fst X - fst A) * IZR n + (snd X - snd A) * IZR q)). { intros X. rewrite <- Ex, <- Ey. transitivity (dist2 O1 X - dist2 O2 X - (dist2 O1 A - dist2 O2 A)); [lra|]. unspec. ring. }
      intros X. unfold equal_powers. pose proof (K X) as KX. assert (D2 : dist2 O1 O2 = IZR n * IZR n + IZR q * IZR q) by (rewrite <- Ex, <- Ey; unspec; ring). split.
      - intros H. exists ((- (fst X - fst A) * IZR q + (snd X - snd A) * IZR n) / (IZR n * IZR n + IZR q * IZR q)). assert (Z : (fst X - fst A) * IZR n + (snd X - snd A) * IZR q = 0) by lra.
        unfold B. destruct X as (x0, x1), A as (y0, y1). unfold at_line. unspec. cbn [fst snd] in *. assert (Dz : IZR n * IZR n + IZR q * IZR q <> 0) by lra.
        f_equal.
        + match goal with |- _ = ?r => enough (x0 - r = IZR n * ((x0 - y0) * IZR n + (x1 - y1) * IZR q) / (IZR n * IZR n + IZR q * IZR q)) as E0 by (rewrite Z, Rmult_0_r in E0; unfold Rdiv in E0 at 2; lra) end. field. auto.
        + match goal with |- _ = ?r => enough (x1 - r = IZR q * ((x0 - y0) * IZR n + (x1 - y1) * IZR q) / (IZR n * IZR n + IZR q * IZR q)) as E0 by (rewrite Z, Rmult_0_r in E0; unfold Rdiv in E0 at 2; lra) end. field. auto.
      - intros (k & ->). enough (dist2 O1 (at_line A B k) - r1 * r1 - (dist2 O2 (at_line A B k) - r2 * r2) = 0) by lra. rewrite K. unfold B. unspec. cbn [fst snd]. ring. }
    rewrite Ex, Ey. split; [split; [exact Y1|exact Y2]|]. split; [split; [exact Y4|exact Y5]|].
    unfold line_init64. destruct (allclose64 z _) eqn:AC; [right|left; reflexivity]. split; [|split; auto].
    apply andb_true_iff in AC. destruct AC as (AC1 & AC2). cbn [fp_add fp_map2 fst snd] in AC1, AC2. destruct (Rle_lt_dec (Rabs (fst A)) 65536) as [L1|]; [|auto]. destruct (Rle_lt_dec (Rabs (snd A)) 65536) as [L2|]; [|auto]. exfalso.
    destruct (Z.eq_dec n 0) as [n0|n0]; [|rewrite (Y6 L2 n0) in AC2; discriminate]. destruct (Z.eq_dec q 0) as [q0|q0]; [|rewrite (Y3 L1 ltac:(lia)) in AC1; discriminate].
    apply N. rewrite (surjective_pairing O1), (surjective_pairing O2). apply pair_eq; subst n q; lra.
Qed.

Lemma fz_val n : (Z.abs n < 2 ^ 53)%Z -> SF2R (fz n) = IZR n.
Proof. intros H. apply fz_ok. exact H. Qed.

Lemma radical_axis64_raises m : exists c1 c2, on_grid2 0 1 (c64_center c1) /\ on_grid2 0 1 (c64_center c2) /\ on_grid 0 1000 (c64_radius c1) /\ on_grid 0 1000 (c64_radius c2) /\
  0 < SF2R (c64_radius c1) /\ 0 < SF2R (c64_radius c2) /\ P2R (c64_center c1) <> P2R (c64_center c2) /\ radical_axis64 m c1 c2 = Raise ValueError.
Proof.
  exists (Circle64 (fz 0, fz 0) (fz 1000)), (Circle64 (fz 1, fz 1) (fz 1)). cbn [c64_center c64_radius]. do 2 (split; [apply fz_grid2; lia|]). do 2 (split; [apply fz_grid; lia|]).
  do 2 (split; [rewrite fz_val by lia; lra|]). split; [|destruct m; vm_compute; reflexivity]. rewrite !fz_P2R by lia. intros Q. injection Q as Q _. lra.
Qed.

Lemma radical_axis64_none m : exists c1 c2, on_grid2 0 100001 (c64_center c1) /\ on_grid2 0 100001 (c64_center c2) /\ on_grid 0 1 (c64_radius c1) /\ on_grid 0 1 (c64_radius c2) /\
  0 < SF2R (c64_radius c1) /\ 0 < SF2R (c64_radius c2) /\ P2R (c64_center c1) <> P2R (c64_center c2) /\ radical_axis64 m c1 c2 = Ok None.
Proof.
  exists (Circle64 (fz 100000, fz 100000) (fz 1)), (Circle64 (fz 100001, fz 100001) (fz 1)). cbn [c64_center c64_radius]. do 2 (split; [apply fz_grid2; lia|]). do 2 (split; [apply fz_grid; lia|]).
  do 2 (split; [rewrite fz_val by lia; lra|]). split; [|destruct m; vm_compute; reflexivity]. rewrite !fz_P2R by lia. intros Q. injection Q as Q _. lra.
Qed.
