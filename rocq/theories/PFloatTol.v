(** * The tolerances in binary64 *)

From Coq Require Import Reals Lra Lia ZArith Bool SpecFloat.
From Verif Require Import SpecF64 Base Spec ModelFloat PFloat PFloat3 PFloat4 PFloatCircle PFloatGrid.
Local Open Scope R_scope.

Lemma literals64 : f1em9 = fq 1 1000000000 /\ f1em8 = fq 1 100000000 /\ f1em5 = fq 1 100000 /\ SF2R fsepsilon = / 67108864.
Proof.
  repeat split; try (vm_compute; reflexivity). unfold fsepsilon. rewrite val_lit. change (2 ^ 78)%Z with 302231454903657293676544%Z. lra.
Qed.

Lemma is_parallel64_threshold g N P1 P2 Q1 Q2 : (0 <= N < 2 ^ 25)%Z -> (-500 <= g <= 400)%Z ->
  on_grid2 g N P1 -> on_grid2 g N P2 -> on_grid2 g N Q1 -> on_grid2 g N Q2 ->
  (is_parallel64 P1 P2 Q1 Q2 = true <-> Rabs (scross (vsub (P2R P2) (P2R P1)) (vsub (P2R Q2) (P2R Q1))) < / 67108864).
Proof.
  intros HN HG (Ga0 & Ga1) (Gb0 & Gb1) (Gc0 & Gc1) (Gd0 & Gd1). assert (NN : (8 * (N * N) < 2 ^ 53)%Z) by (apply nn; lia).
  apply gv_of in Ga0, Ga1, Gb0, Gb1, Gc0, Gc1, Gd0, Gd1. destruct Ga0 as (a0 & Ga0), Ga1 as (a1 & Ga1), Gb0 as (b0 & Gb0), Gb1 as (b1 & Gb1), Gc0 as (c0 & Gc0), Gc1 as (c1 & Gc1), Gd0 as (d0 & Gd0), Gd1 as (d1 & Gd1).
  assert (R0 : (N + N < 2 ^ 53)%Z) by lia. assert (R1 : (-1074 <= g + g <= 970)%Z) by lia. assert (R1' : (-1074 <= g <= 970)%Z) by lia.
  assert (R2 : ((N + N) * (N + N) + (N + N) * (N + N) < 2 ^ 53)%Z) by (clear - NN; lia).
  pose proof (gv_det g g _ _ (fst P1 - fst P2, snd P1 - snd P2)%f64 (fst Q1 - fst Q2, snd Q1 - snd Q2)%f64 _ _ _ _ R2 R1 (gv_sub _ _ _ _ _ _ _ R0 R1' Ga0 Gb0) (gv_sub _ _ _ _ _ _ _ R0 R1' Ga1 Gb1) (gv_sub _ _ _ _ _ _ _ R0 R1' Gc0 Gd0) (gv_sub _ _ _ _ _ _ _ R0 R1' Gc1 Gd1)) as (F & _ & E).
  unfold is_parallel64. set (D := det64 _ _) in *. destruct (fabs D F) as (FA & EA). assert (FS : fin fsepsilon) by (split; reflexivity). rewrite (flt _ _ FA FS), EA, E, (proj2 (proj2 (proj2 literals64))).
  destruct Ga0 as (_ & _ & Ea0), Ga1 as (_ & _ & Ea1), Gb0 as (_ & _ & Eb0), Gb1 as (_ & _ & Eb1), Gc0 as (_ & _ & Ec0), Gc1 as (_ & _ & Ec1), Gd0 as (_ & _ & Ed0), Gd1 as (_ & _ & Ed1).
  replace (scross (vsub (P2R P2) (P2R P1)) (vsub (P2R Q2) (P2R Q1))) with (IZR ((a0 - b0) * (c1 - d1) - (c0 - d0) * (a1 - b1)) * bp (g + g)); [tauto|].
  unfold scross, vsub, P2R; cbn [fst snd]; rewrite Ea0, Ea1, Eb0, Eb1, Ec0, Ec1, Ed0, Ed1, !minus_IZR, !mult_IZR, !minus_IZR, bp_add. ring.
Qed.

Lemma sub_f0 x : fin x -> SF64sub x f0 = x \/ (SF2R x = 0 /\ SF2R (SF64sub x f0) = 0 /\ fin (SF64sub x f0)).
Proof.
  intros (V & F). destruct x as [[]| | |s m e]; try discriminate; cbn; try (right; repeat split; reflexivity). left; reflexivity.
Qed.

Lemma npclose64_0 x : fin x -> (npclose64 x f0 = true <-> Rabs (SF2R x) <= SF2R (fq 1 100000000)).
Proof.
  intros F. destruct literals64 as (_ & <- & _ & _). unfold npclose64.
  change (SFabs f0) with f0. change (SF64mul f1em5 f0) with f0. change (SF64add f1em8 f0) with f1em8. change (is_finite f0) with true. rewrite andb_true_r.
  assert (FD : fin (SF64sub x f0) /\ SF2R (SF64sub x f0) = SF2R x) by (destruct (sub_f0 x F) as [->|(E1 & E2 & E3)]; [auto|rewrite E1, E2; auto]). destruct FD as (FD & ED).
  destruct (fabs _ FD) as (FA & EA). pose proof (fle _ _ FA fin_f1em8) as L. rewrite EA, ED in L.
  rewrite orb_true_iff, L. split; [|auto]. intros [H|H]; auto. apply (feq x f0 F fin_f0) in H. rewrite H, val_f0, Rabs_R0. pose proof val_f1em8. lra.
Qed.

Lemma allclose64_origin A : fin2 A ->
  (allclose64 A (fz 0, fz 0) = true <-> within (SF2R (fq 1 100000000)) A).
Proof.
  intros (F1 & F2). unfold allclose64, within. cbn [fst snd]. change (fz 0) with f0. rewrite andb_true_iff, (npclose64_0 _ F1), (npclose64_0 _ F2). tauto.
Qed.

Lemma circle_init64 C r : fin r -> (0 < SF2R r -> mk_circle64 C r = Ok (Circle64 C r)) /\ (SF2R r <= 0 -> mk_circle64 C r = Raise ValueError).
Proof.
  intros F. split; [apply mk_circle_ok; auto|]. intros H. unfold mk_circle64. rewrite (proj2 (fle r f0 F fin_f0)); auto.
Qed.
