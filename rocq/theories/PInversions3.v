(** * Inversions.py: comparison of the circles and lines. *)

From Coq Require Import Reals List Bool ZArith Lra Lia.
From Verif Require Import Base BaseLemmas ModelInternal ModelLine ModelCircle ModelTriangle ModelInversion ModelSchottky ModelInversions Spec SpecLemmas SpecInversions PLine PCircle PInvBase PInversion POrtho PTransfo PGasket11 PSchottky1 PSchottky4 PInversions1 PInversions2.
Import ListNotations.
Local Open Scope R_scope.

Definition zv_eqb (v w : zv) : bool := (va v =? va w)%Z && (vb v =? vb w)%Z && (vk v =? vk w)%Z && (ve v =? ve w)%Z.
Lemma zv_eqb_spec v w : zv_eqb v w = true <-> v = w.
Proof.
  unfold zv_eqb. rewrite !andb_true_iff, !Z.eqb_eq. destruct v, w; cbn. split; [intros (((-> & ->) & ->) & ->); auto|intros E; injection E; auto].
Qed.
(** what the comparison sees *)
Definition zkey (v : zv) : zv :=
  if (vk v =? 0)%Z then mkV (Z.abs (va v)) (Z.abs (vb v)) 0 (Z.abs (ve v))
  else if (vk v <? 0)%Z then mkV (- va v) (- vb v) (- vk v) (- ve v) else v.


Lemma approx_far x y m : 0 <= x <= m -> 0 <= y <= m -> / 1000000000 * (m + 1) < Rabs (x - y) -> approx_equal_ x y = false.
Proof.
  intros Hx Hy H. unfold approx_equal_, isclose. apply orb_false_iff. split; apply leb_false.
  - rewrite !Rabs_pos_eq by lra. assert (Rmax x y <= m) by (apply Rmax_lub; lra). nra.
  - replace (x + 1 - (y + 1)) with (x - y) by ring. rewrite (Rabs_pos_eq (x + 1)), (Rabs_pos_eq (y + 1)) by lra. assert (Rmax (x + 1) (y + 1) <= m + 1) by (apply Rmax_lub; lra). nra.
Qed.
Lemma allclose1_far x y : / 100000000 + / 100000 * Rabs y < Rabs (x - y) -> allclose1 x y = false.
Proof. intros H. unfold allclose1. apply leb_false. auto. Qed.

Lemma wf_k N v : wf N v -> (N <= 13122)%Z -> Rabs (IZR (va v)) <= 13122 /\ Rabs (IZR (vb v)) <= 13122 /\ Rabs (IZR (vk v)) <= 13122 /\ Rabs (IZR (ve v)) <= 13122.
Proof. intros (_ & _ & H) HN. repeat split; apply IZR_abs_le; lia. Qed.

(** circles *)
Lemma coord_far p q k : k <> 0%Z -> Rabs (IZR k) <= 13122 -> Rabs (IZR q) <= 13122 -> p <> q -> allclose1 (2 * IZR p / IZR k) (2 * IZR q / IZR k) = false.
Proof.
  intros Hk Bk Bq Hpq. pose proof (IZR_abs_ge _ Hk) as Pk. apply not_0_IZR in Hk. assert (D : 1 <= Rabs (IZR p - IZR q)) by (rewrite <- minus_IZR; apply IZR_abs_ge; lia).
  apply allclose1_far. replace (2 * IZR p / IZR k - 2 * IZR q / IZR k) with (2 * (IZR p - IZR q) / IZR k) by (field; auto). unfold Rdiv. rewrite !Rabs_mult, Rabs_inv, (Rabs_pos_eq 2) by lra.
  set (K := Rabs (IZR k)) in *. set (Q := Rabs (IZR q)) in *. set (E := Rabs (IZR p - IZR q)) in *. apply (Rmult_lt_reg_r K); [lra|]. rewrite Rmult_plus_distr_r. replace (/ 100000 * (2 * Q * / K) * K) with (/ 100000 * (2 * Q)) by (field; lra). replace (2 * E * / K * K) with (2 * E) by (field; lra). lra.
Qed.

Lemma circles_equal N v v' c c' : (N <= 13122)%Z -> rep N (GC c) v -> rep N (GC c') v' -> circle_is_equal c c' = zv_eqb (zkey v) (zkey v').
Proof.
  intros HN (W & Hk & ->) (W' & Hk' & ->). unfold circle_is_equal. cbn [cO cr].
  destruct (wf_k _ _ W HN) as (Ba & Bb & Bk & Be). destruct (wf_k _ _ W' HN) as (Ba' & Bb' & Bk' & Be').
  destruct (Z.eq_dec (Z.abs (vk v)) (Z.abs (vk v'))) as [E|E].
  - assert (ER : Rabs (IZR (vk v)) = Rabs (IZR (vk v'))) by (rewrite <- !abs_IZR, E; reflexivity). rewrite ER, approx_equal_refl. cbn [andb]. unfold allclose. cbn [fst snd].
    assert (exists s, (s = 1 \/ s = -1)%Z /\ vk v' = s * vk v)%Z as (s & Hs & Es) by (destruct (Z.abs_eq_or_opp (vk v)), (Z.abs_eq_or_opp (vk v')); first [exists 1%Z; split; [auto|lia]|exists (-1)%Z; split; [auto|lia]]).
    assert (S2 : (s * s = 1)%Z) by (destruct Hs as [->| ->]; reflexivity).
    assert (CO : forall p, 2 * IZR p / IZR (vk v') = 2 * IZR (s * p) / IZR (vk v)).
    { intros p. rewrite Es, !mult_IZR. apply not_0_IZR in Hk. destruct Hs as [->| ->]; field; auto. }
    rewrite !CO. assert (Bs : forall p, Rabs (IZR p) <= 13122 -> Rabs (IZR (s * p)) <= 13122) by (intros p Hp; rewrite mult_IZR, Rabs_mult; destruct Hs as [->| ->]; [rewrite (Rabs_pos_eq 1) by lra|rewrite (Rabs_left (-1)) by lra]; lra).
    assert (KEY : zkey v = zkey v' <-> va v = (s * va v')%Z /\ vb v = (s * vb v')%Z).
    { unfold zkey. replace (vk v =? 0)%Z with false by (symmetry; apply Z.eqb_neq; auto). replace (vk v' =? 0)%Z with false by (symmetry; apply Z.eqb_neq; auto).
      split.
      - intros X. destruct Hs as [->| ->].
        + replace (vk v') with (vk v) in X by lia. destruct (vk v <? 0)%Z; [injection X; intros; lia|rewrite X; lia].
        + destruct (Z.ltb_spec (vk v) 0), (Z.ltb_spec (vk v') 0); try lia; [rewrite <- X; cbn [va vb vk ve]; lia|rewrite X; cbn [va vb vk ve]; lia].
      - intros (X1 & X2). assert (X3 : ve v = (s * ve v')%Z).
        { destruct W as (W & _), W' as (W' & _). rewrite X1, X2 in W. rewrite Es in W'. assert (Y : (vk v * (ve v - s * ve v') = 0)%Z) by (destruct Hs as [->| ->]; lia). apply Z.mul_eq_0 in Y. destruct Y; [contradiction|lia]. }
        destruct v as [p q k e], v' as [p' q' k' e']. cbn [va vb vk ve] in *. subst p q e k'. destruct Hs as [->| ->].
        + rewrite !Z.mul_1_l. reflexivity.
        + destruct (Z.ltb_spec k 0), (Z.ltb_spec (-1 * k) 0); try lia; f_equal; lia. }
    destruct (Z.eq_dec (va v) (s * va v')) as [Xa|Xa].
    + destruct (Z.eq_dec (vb v) (s * vb v')) as [Xb|Xb].
      * rewrite <- Xa, <- Xb, !allclose1_refl. symmetry. apply zv_eqb_spec. tauto.
      * rewrite (coord_far (vb v)) by auto. rewrite andb_false_r. symmetry. apply not_true_is_false. rewrite zv_eqb_spec. tauto.
    + rewrite (coord_far (va v)) by auto. cbn [andb]. symmetry. apply not_true_is_false. rewrite zv_eqb_spec. tauto.
  - pose proof (IZR_abs_ge _ Hk) as Pk. pose proof (IZR_abs_ge _ Hk') as Pk'. assert (D : 1 <= Rabs (Rabs (IZR (vk v)) - Rabs (IZR (vk v')))) by (rewrite <- !abs_IZR, <- minus_IZR; apply IZR_abs_ge; lia).
    rewrite (approx_far _ _ 2).
    + cbn [andb]. symmetry. apply not_true_is_false. rewrite zv_eqb_spec. intros X. apply E. apply (f_equal vk) in X. revert X. unfold zkey. replace (vk v =? 0)%Z with false by (symmetry; apply Z.eqb_neq; auto). replace (vk v' =? 0)%Z with false by (symmetry; apply Z.eqb_neq; auto).
      destruct (vk v <? 0)%Z, (vk v' <? 0)%Z; cbn [vk]; lia.
    + set (K := Rabs (IZR (vk v))) in *. split; [apply Rlt_le, Rdiv_lt_0_compat; lra|]. apply (Rmult_le_reg_r K); [lra|]. unfold Rdiv. rewrite Rmult_assoc, Rinv_l by lra. lra.
    + set (K := Rabs (IZR (vk v'))) in *. split; [apply Rlt_le, Rdiv_lt_0_compat; lra|]. apply (Rmult_le_reg_r K); [lra|]. unfold Rdiv. rewrite Rmult_assoc, Rinv_l by lra. lra.
    + set (K := Rabs (IZR (vk v))) in *. set (K' := Rabs (IZR (vk v'))) in *. replace (2 / K - 2 / K') with (- (2 * (K - K') * (/ K * / K'))) by (field; lra). rewrite Rabs_Ropp, !Rabs_mult, !Rabs_inv, (Rabs_pos_eq 2), (Rabs_pos_eq K), (Rabs_pos_eq K') by lra.
      assert (I1 : / 13122 <= / K) by (apply Rinv_le_contravar; lra). assert (I2 : / 13122 <= / K') by (apply Rinv_le_contravar; lra).
      apply Rlt_le_trans with (2 * 1 * (/ 13122 * / 13122)); [lra|]. apply Rmult_le_compat; [lra| |lra|apply Rmult_le_compat; lra]. apply Rlt_le, Rmult_lt_0_compat; lra.
Qed.

(** lines *)
Lemma line_coeffs N v : wf N v -> vk v = 0%Z -> (Z.abs (va v) = 1 /\ vb v = 0 \/ va v = 0 /\ Z.abs (vb v) = 1)%Z.
Proof. intros (W & _) Hk. rewrite Hk in W. assert (Z.abs (va v) <= 1)%Z by nia. assert (Z.abs (vb v) <= 1)%Z by nia. nia. Qed.

Lemma line_do N v l : rep N (GL l) v -> snd (direction_offset l) = IZR (Z.abs (ve v)) /\ pymod (fst (direction_offset l)) PI = (if (va v =? 0)%Z then PI / 2 else 0).
Proof.
  intros (W & Hk & HAB & _ & _ & LA & LB). pose proof PI_RGT_0 as HPI. unfold direction_offset. destruct (line_coeffs _ _ W Hk) as [(Ha & Hb)|(Ha & Hb)].
  - replace (va v =? 0)%Z with false by (symmetry; apply Z.eqb_neq; lia). rewrite Hb in LA, LB. assert (exists s, (s = 1 \/ s = -1)%Z /\ va v = s) as (s & Hs & Es) by (exists (va v); split; [lia|auto]). rewrite Es in LA, LB.
    assert (EA : fst (lA l) = fst (lB l)) by (destruct Hs as [->| ->]; lra). rewrite (proj2 (eqb_true _ _) EA).
    assert (EE : fst (lA l) = IZR (s * ve v)) by (rewrite mult_IZR; destruct Hs as [->| ->]; lra). rewrite EE.
    destruct (ltb 0 (IZR (s * ve v))) eqn:L; cbn [fst snd]; split.
    + apply ltb_true in L. apply lt_IZR in L. f_equal. destruct Hs as [->| ->]; lia.
    + apply (pymod_unique _ _ _ 0); lra.
    + apply ltb_false in L. apply le_IZR in L. rewrite <- opp_IZR. f_equal. destruct Hs as [->| ->]; lia.
    + apply (pymod_unique _ _ _ 1); lra.
  - rewrite Ha. cbn [Z.eqb]. rewrite Ha in LA, LB. assert (exists s, (s = 1 \/ s = -1)%Z /\ vb v = s) as (s & Hs & Es) by (exists (vb v); split; [lia|auto]). rewrite Es in LA, LB.
    assert (EA : snd (lA l) = IZR (s * ve v)) by (rewrite mult_IZR; destruct Hs as [->| ->]; lra). assert (EB : snd (lB l) = IZR (s * ve v)) by (rewrite mult_IZR; destruct Hs as [->| ->]; lra).
    assert (NX : fst (lA l) <> fst (lB l)) by (intros X; apply HAB; destruct (lA l), (lB l); cbn [fst snd] in *; congruence).
    destruct (eqb (fst (lA l)) (fst (lB l))) eqn:Q; [apply eqb_true in Q; contradiction|]. rewrite EA, EB. replace (IZR (s * ve v) - IZR (s * ve v)) with 0 by ring.
    set (x := fst (lB l) - fst (lA l)). assert (Hx : x <> 0) by (unfold x; lra).
    assert (CS : cos (atan2 x 0) = 0 /\ (sin (atan2 x 0) = 1 \/ sin (atan2 x 0) = -1)).
    { destruct (Rtotal_order x 0) as [L|[L|L]]; [|contradiction|].
      - destruct (atan2_unit (- x) 0 (-1)) as (C1 & C2); [lra|ring|]. replace (- x * -1) with x in * by ring. replace (- x * 0) with 0 in * by ring. auto.
      - destruct (atan2_unit x 0 1) as (C1 & C2); [lra|ring|]. replace (x * 1) with x in * by ring. replace (x * 0) with 0 in * by ring. auto. }
    destruct CS as (C & Sn). set (th := - atan2 x 0). assert (C' : cos th = 0) by (unfold th; rewrite cos_neg; auto). assert (Sn' : sin th = 1 \/ sin th = -1) by (unfold th; rewrite sin_neg; destruct Sn as [->| ->]; [right|left]; ring). clearbody th.
    rewrite C'. replace (fst (lA l) * 0 + IZR (s * ve v) * sin th) with (IZR (s * ve v) * sin th) by ring.
    assert (PM : forall d, cos d = 0 -> pymod d PI = PI / 2).
    { intros d Hd. rewrite (pymod_PI_eq d (PI / 2)); [apply pymod_small; lra|]. rewrite Hd, cos_PI2. ring. }
    destruct (ltb (IZR (s * ve v) * sin th) 0) eqn:L; cbn [fst snd]; (split; [|apply PM; rewrite cos_pymod, ?neg_cos, C'; lra]).
    + apply ltb_true in L. destruct Sn' as [X|X]; rewrite X in L |- *.
      * replace (- (IZR (s * ve v) * 1)) with (IZR (- (s * ve v))) by (rewrite opp_IZR; ring). replace (IZR (s * ve v) * 1) with (IZR (s * ve v)) in L by ring. apply lt_IZR in L. f_equal. destruct Hs as [->| ->]; lia.
      * replace (- (IZR (s * ve v) * -1)) with (IZR (s * ve v)) by ring. replace (IZR (s * ve v) * -1) with (IZR (- (s * ve v))) in L by (rewrite opp_IZR; ring). apply lt_IZR in L. f_equal. destruct Hs as [->| ->]; lia.
    + apply ltb_false in L. destruct Sn' as [X|X]; rewrite X in L |- *.
      * replace (IZR (s * ve v) * 1) with (IZR (s * ve v)) in * by ring. apply le_IZR in L. f_equal. destruct Hs as [->| ->]; lia.
      * replace (IZR (s * ve v) * -1) with (IZR (- (s * ve v))) in * by (rewrite opp_IZR; ring). apply le_IZR in L. f_equal. destruct Hs as [->| ->]; lia.
Qed.

Lemma lines_equal N v v' l l' : (N <= 13122)%Z -> rep N (GL l) v -> rep N (GL l') v' -> line_is_equal l l' = zv_eqb (zkey v) (zkey v').
Proof.
  intros HN H H'. destruct (line_do _ _ _ H) as (O & D). destruct (line_do _ _ _ H') as (O' & D'). destruct H as (W & Hk & _), H' as (W' & Hk' & _). pose proof PI_RGT_0 as HPI.
  unfold line_is_equal. rewrite O, O', D, D'. unfold zkey. rewrite Hk, Hk'. cbn [Z.eqb]. unfold zv_eqb. cbn [va vb vk ve]. rewrite Z.eqb_refl, andb_true_r.
  assert (B : forall z, 0 <= IZR (Z.abs z)) by (intros; apply IZR_le; lia).
  destruct (Z.eqb_spec (Z.abs (ve v)) (Z.abs (ve v'))) as [E|E].
  - rewrite E, approx_equal_refl, andb_true_r.
    assert (FAR : approx_equal_ (PI / 2) 0 = false) by (apply (approx_far _ _ 2); [pose proof PI_4; lra|lra|]; rewrite Rabs_pos_eq by lra; pose proof PI2_1; lra).
    destruct (line_coeffs _ _ W Hk) as [(A & B1)|(A & B1)], (line_coeffs _ _ W' Hk') as [(A' & B1')|(A' & B1')]; rewrite ?A, ?B1, ?A', ?B1'.
    + replace (va v =? 0)%Z with false by (symmetry; apply Z.eqb_neq; lia). replace (va v' =? 0)%Z with false by (symmetry; apply Z.eqb_neq; lia). rewrite approx_equal_refl. reflexivity.
    + replace (va v =? 0)%Z with false by (symmetry; apply Z.eqb_neq; lia). cbn [Z.eqb Z.abs]. rewrite approx_equal_sym, FAR. reflexivity.
    + replace (va v' =? 0)%Z with false by (symmetry; apply Z.eqb_neq; lia). cbn [Z.eqb Z.abs]. rewrite FAR. reflexivity.
    + cbn [Z.eqb Z.abs]. rewrite approx_equal_refl. reflexivity.
  - assert (F : 1 <= Rabs (IZR (Z.abs (ve v)) - IZR (Z.abs (ve v')))) by (rewrite <- minus_IZR; apply IZR_abs_ge; lia). assert (Be : IZR (Z.abs (ve v)) <= 13122) by (apply IZR_le; destruct W as (_ & _ & W); lia). assert (Be' : IZR (Z.abs (ve v')) <= 13122) by (apply IZR_le; destruct W' as (_ & _ & W'); lia).
    rewrite (approx_far _ _ 13122) by (auto; lra). unfold allclose. rewrite O, O'. rewrite (allclose1_far (IZR _) (IZR _)), !andb_false_r; [reflexivity|]. rewrite (Rabs_pos_eq (IZR (Z.abs (ve v')))) by auto. lra.
Qed.

Lemma equal_key N v v' g g' : (N <= 13122)%Z -> rep N g v -> rep N g' v' -> gcircle_is_equal g g' = zv_eqb (zkey v) (zkey v').
Proof.
  intros HN H H'. unfold gcircle_is_equal. destruct g as [c|l], g' as [c'|l'].
  - apply (circles_equal N); auto.
  - destruct H as (_ & Hk & _), H' as (_ & Hk' & _). symmetry. apply not_true_is_false. rewrite zv_eqb_spec. intros X. apply (f_equal vk) in X. revert X. unfold zkey. rewrite Hk'. cbn [Z.eqb vk]. replace (vk v =? 0)%Z with false by (symmetry; apply Z.eqb_neq; auto). destruct (vk v <? 0)%Z; cbn [vk]; lia.
  - destruct H as (_ & Hk & _), H' as (_ & Hk' & _). symmetry. apply not_true_is_false. rewrite zv_eqb_spec. intros X. apply (f_equal vk) in X. revert X. unfold zkey. rewrite Hk. cbn [Z.eqb vk]. replace (vk v' =? 0)%Z with false by (symmetry; apply Z.eqb_neq; auto). destruct (vk v' <? 0)%Z; cbn [vk]; lia.
  - apply (lines_equal N); auto.
Qed.
