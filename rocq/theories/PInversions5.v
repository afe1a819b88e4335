(** * Inversions.py: the picture. *)

From Coq Require Import Reals List Bool ZArith Lra Lia.
From Verif Require Import Base BaseLemmas ModelInternal ModelLine ModelCircle ModelTriangle ModelInversion ModelSchottky ModelInversions Spec SpecLemmas SpecInversions PLine PCircle PInvBase PInversion PGasket11 PSchottky1 PSchottky4 PSchottky5 PInversions1 PInversions2 PInversions3 PInversions4.
Import ListNotations.
Local Open Scope R_scope.

(** ** unique_with on related lists *)
Section Related.
Context {A B : Type} (R : A -> B -> Prop) (f : A -> A -> bool) (f' : B -> B -> bool).
Context (Hf : forall x y x' y', R x x' -> R y y' -> f x y = f' x' y').
Lemma F2_nth L L' i : Forall2 R L L' -> match nth_error L i, nth_error L' i with Some x, Some y => R x y | None, None => True | _, _ => False end.
Proof using. intros F. revert i. induction F; intros [|i]; cbn; auto. apply IHF. Qed.
Lemma F2_firstn L L' i : Forall2 R L L' -> Forall2 R (firstn i L) (firstn i L').
Proof using. intros F. revert i. induction F; intros [|i]; cbn; constructor; auto. Qed.
Lemma F2_skipn L L' i : Forall2 R L L' -> Forall2 R (skipn i L) (skipn i L').
Proof using. intros F. revert i. induction F; intros [|i]; cbn; auto. Qed.
Lemma F2_filter p p' L L' : (forall x y, R x y -> p x = p' y) -> Forall2 R L L' -> Forall2 R (filter p L) (filter p' L').
Proof using. intros H F. induction F as [|x y L L' Hxy F IH]; cbn; [constructor|]. rewrite (H _ _ Hxy). destruct (p' y); auto. Qed.
Lemma delete_F2 L L' i : Forall2 R L L' -> Forall2 R (delete_after f L i) (delete_after f' L' i).
Proof using Hf.
  intros F. unfold delete_after. pose proof (F2_nth L L' i F) as N. destruct (nth_error L i) as [x|], (nth_error L' i) as [y|]; try contradiction; auto.
  apply Forall2_app; [apply F2_firstn; auto|]. apply F2_filter; [|apply F2_skipn; auto]. intros u v Huv. rewrite (Hf _ _ _ _ N Huv). reflexivity.
Qed.
Lemma unique_F2 L L' : Forall2 R L L' -> Forall2 R (unique_with f L) (unique_with f' L').
Proof using Hf.
  intros F. unfold unique_with. rewrite <- (F2_len _ _ _ F). generalize (seq 0 (length L - 1)). intros s. revert L L' F. induction s as [|i s IH]; intros L L' F; cbn [fold_left]; auto. apply IH, delete_F2, F.
Qed.
End Related.

Lemma delete_sub {A} (f : A -> A -> bool) L i x : In x (delete_after f L i) -> In x L.
Proof.
  unfold delete_after. destruct (nth_error L i); auto. intros H. apply in_app_iff in H. rewrite <- (firstn_skipn (Datatypes.S i) L). apply in_app_iff. destruct H as [H|H]; auto. right. apply filter_In in H. tauto.
Qed.
Lemma unique_sub {A} (f : A -> A -> bool) L x : In x (unique_with f L) -> In x L.
Proof.
  unfold unique_with. generalize (seq 0 (length L - 1)). intros s. revert L. induction s as [|i s IH]; intros L H; cbn [fold_left] in H; auto. apply IH in H. apply delete_sub in H. auto.
Qed.

Lemma zgen_wf N g v : rep N g v -> wf N v.
Proof. intros H; apply H. Qed.

(** ** What has the same key *)
Lemma line_qv v M : vk v = 0%Z -> (qv v M = 0 <-> IZR (va v) * fst M + IZR (vb v) * snd M = IZR (ve v)).
Proof. intros H. unfold qv, qf. rewrite H. split; intros; lra. Qed.

Lemma key_same v v' g g' : rep NN g v -> rep NN g' v' -> (zkey v = zkey v' <-> (same_set g g' \/ opposite_lines g g')).
Proof.
  intros H H'. rewrite <- zv_eqb_spec. destruct g as [c|l], g' as [c'|l'].
  - split.
    + intros X. left. assert (E : c = c').
      { apply zv_eqb_spec in X. destruct H as (W & Hk & ->), H' as (W' & Hk' & ->). unfold zkey in X. replace (vk v =? 0)%Z with false in X by (symmetry; apply Z.eqb_neq; auto). replace (vk v' =? 0)%Z with false in X by (symmetry; apply Z.eqb_neq; auto).
        destruct v as [a b k e], v' as [a' b' k' e']. cbn [va vb vk ve] in *. apply not_0_IZR in Hk. apply not_0_IZR in Hk'. destruct (k <? 0)%Z, (k' <? 0)%Z; injection X; intros; subst.
        - replace a with a' by lia. replace b with b' by lia. replace k with k' by lia. reflexivity.
        - rewrite !opp_IZR, Rabs_Ropp. f_equal. f_equal; field; auto.
        - rewrite !opp_IZR, Rabs_Ropp. f_equal. f_equal; field; auto.
        - reflexivity. }
      subst. intros M. tauto.
    + intros [X|[]]. assert (E : c = c').
      { destruct H as (_ & Hk & ->), H' as (_ & Hk' & ->). apply not_0_IZR in Hk. apply not_0_IZR in Hk'. apply same_circle; try (cbn [cr]; apply Rdiv_lt_0_compat; [lra|apply Rabs_pos_lt; auto]). intros w Hw. apply (X w). exact Hw. }
      subst c'. rewrite <- (circles_equal NN _ _ _ _ ltac:(unfold NN; lia) H H'). unfold circle_is_equal. rewrite approx_equal_refl, allclose_refl. reflexivity.
  - split.
    + intros X. exfalso. assert (E := equal_key NN _ _ _ _ ltac:(unfold NN; lia) H H'). rewrite X in E. discriminate.
    + intros [X|[]]. exfalso. pose proof (rep_points _ _ _ (lA l') H') as PA. pose proof (rep_points _ _ _ (at_line (lA l') (lB l') 1) H') as PB. pose proof (rep_points _ _ _ (at_line (lA l') (lB l') 2) H') as PC.
      assert (Q : forall t, qv v (at_line (lA l') (lB l') t) = 0) by (intros t; apply (rep_points _ _ _ _ H), X; exists t; reflexivity). clear - Q H H'. destruct H as (_ & Hk & _), H' as (_ & _ & HAB & _). apply not_0_IZR in Hk. pose proof (Q 0) as Q0. pose proof (Q 1) as Q1. pose proof (Q 2) as Q2. clear Q.
      assert (Z : IZR (vk v) * dist2 (lA l') (lB l') = 0). { revert Q0 Q1 Q2. unfold qv, qf, at_line. unspec. intros. lra. }
      pose proof (dist2_pos _ _ HAB). apply Rmult_integral in Z. destruct Z; [auto|lra].
  - split.
    + intros X. exfalso. assert (E := equal_key NN _ _ _ _ ltac:(unfold NN; lia) H H'). rewrite X in E. discriminate.
    + intros [X|[]]. exfalso.
      assert (Q : forall t, qv v' (at_line (lA l) (lB l) t) = 0) by (intros t; apply (rep_points _ _ _ _ H'), X; exists t; reflexivity). clear - Q H H'. destruct H' as (_ & Hk & _), H as (_ & _ & HAB & _). apply not_0_IZR in Hk. pose proof (Q 0) as Q0. pose proof (Q 1) as Q1. pose proof (Q 2) as Q2. clear Q.
      assert (Z : IZR (vk v') * dist2 (lA l) (lB l) = 0). { revert Q0 Q1 Q2. unfold qv, qf, at_line. unspec. intros. lra. }
      pose proof (dist2_pos _ _ HAB). apply Rmult_integral in Z. destruct Z; [auto|lra].
  - rewrite zv_eqb_spec. pose proof (rep_points _ _ _ (0, 0) H) as _. assert (P := fun M => rep_points _ _ _ M H). assert (P' := fun M => rep_points _ _ _ M H'). destruct H as (W & Hk & _), H' as (W' & Hk' & _).
    assert (PL : forall M, gpts (GL l) M <-> IZR (va v) * fst M + IZR (vb v) * snd M = IZR (ve v)) by (intros M; rewrite P; apply line_qv; auto). assert (PL' : forall M, gpts (GL l') M <-> IZR (va v') * fst M + IZR (vb v') * snd M = IZR (ve v')) by (intros M; rewrite P'; apply line_qv; auto). clear P P'.
    unfold zkey, same_set. cbn [opposite_lines]. rewrite Hk, Hk'. cbn [Z.eqb].
    pose proof (line_coeffs _ _ W Hk) as C. pose proof (line_coeffs _ _ W' Hk') as C'. destruct v as [a b k e], v' as [a' b' k' e']. cbn [va vb vk ve] in *. clear W W' Hk Hk'.
    assert (SGN : forall z, (Z.abs z = 1)%Z -> z = 1%Z \/ z = (-1)%Z) by (intros; lia). assert (RZ : forall x y : Z, IZR x = IZR y -> x = y) by (intros; apply eq_IZR; auto).
    split.
    + intros X. injection X as X1 X2 X3. assert (S : (e = e' \/ e = - e')%Z) by lia.
      assert (T : (a' = a /\ b' = b \/ a' = - a /\ b' = - b)%Z) by (clear - C X1 X2; destruct C as [(C & ->)|(-> & C)]; lia).
      destruct S as [->| ->], T as [(-> & ->)|(-> & ->)].
      * left. intros M. rewrite PL, PL'. tauto.
      * right. intros M. rewrite PL, PL'. cbn [fst snd]. rewrite !opp_IZR. split; intros; lra.
      * right. intros M. rewrite PL, PL'. cbn [fst snd]. rewrite !opp_IZR. split; intros; lra.
      * left. intros M. rewrite PL, PL'. rewrite !opp_IZR. split; intros; lra.
    + assert (K : forall s : Z, (s = 1 \/ s = -1)%Z -> (forall M, gpts (GL l) M <-> gpts (GL l') (IZR s * fst M, IZR s * snd M)) -> mkV (Z.abs a) (Z.abs b) 0 (Z.abs e) = mkV (Z.abs a') (Z.abs b') 0 (Z.abs e')).
      { intros s Hs X. destruct C as [(Ca & ->)|(-> & Cb)].
        - pose proof (proj1 (X (IZR (a * e), 0))) as X0. pose proof (proj1 (X (IZR (a * e), 1))) as X1. rewrite PL, PL' in X0, X1. cbn [fst snd] in X0, X1.
          assert (G : IZR a * IZR (a * e) = IZR e) by (rewrite <- mult_IZR; f_equal; destruct (SGN _ Ca) as [->| ->]; ring). lapply X0; [clear X0; intros X0|lra]. lapply X1; [clear X1; intros X1|lra].
          destruct C' as [(Ca' & ->)|(-> & Cb')].
          + assert (Y : (a' * (s * (a * e)) = e')%Z) by (apply RZ; rewrite mult_IZR, (mult_IZR s); lra). clear - Ca Ca' Hs Y SGN. destruct (SGN _ Ca) as [->| ->], (SGN _ Ca') as [->| ->], Hs as [->| ->]; f_equal; lia.
          + exfalso. assert (IZR b' * IZR s = 0) by lra. rewrite <- mult_IZR in H. apply RZ in H. destruct Hs as [->| ->]; lia.
        - pose proof (proj1 (X (0, IZR (b * e)))) as X0. pose proof (proj1 (X (1, IZR (b * e)))) as X1. rewrite PL, PL' in X0, X1. cbn [fst snd] in X0, X1.
          assert (G : IZR b * IZR (b * e) = IZR e) by (rewrite <- mult_IZR; f_equal; destruct (SGN _ Cb) as [->| ->]; ring). lapply X0; [clear X0; intros X0|lra]. lapply X1; [clear X1; intros X1|lra].
          destruct C' as [(Ca' & ->)|(-> & Cb')].
          + exfalso. assert (IZR a' * IZR s = 0) by lra. rewrite <- mult_IZR in H. apply RZ in H. destruct Hs as [->| ->]; lia.
          + assert (Y : (b' * (s * (b * e)) = e')%Z) by (apply RZ; rewrite mult_IZR, (mult_IZR s); lra). clear - Cb Cb' Hs Y SGN. destruct (SGN _ Cb) as [->| ->], (SGN _ Cb') as [->| ->], Hs as [->| ->]; f_equal; lia. }
      intros [X|X].
      * apply (K 1%Z); [auto|]. intros M. rewrite X. destruct M as [x y]. cbn [fst snd]. rewrite !Rmult_1_l. tauto.
      * apply (K (-1)%Z); [auto|]. intros M. specialize (X M). destruct M as [x y]. cbn [fst snd] in *. replace (-1 * x) with (- x) by ring. replace (-1 * y) with (- y) by ring. exact X.
Qed.

(** ** The picture *)
Definition zall (m : nat) : list zv := map fst (concat (zgens m)).
Definition same_key (v w : zv) : bool := zv_eqb (zkey v) (zkey w).
Definition zpic (m : nat) : list zv := unique_with same_key (zall m).

Lemma F2_concat {A B} (P : A -> B -> Prop) l l' : Forall2 (Forall2 P) l l' -> Forall2 P (concat l) (concat l').
Proof. induction 1; cbn; [constructor|]. apply Forall2_app; auto. Qed.
Lemma all_rep m gens : (m <= 4)%nat -> inv_generations m = Ok gens -> Forall2 (rep NN) (map fst (concat gens)) (zall m).
Proof.
  intros Hm E. destruct (gens_ok m Hm) as (gens' & E' & F & _). rewrite E in E'. apply Ok_inj in E'. subst gens'. apply F2_concat in F. unfold zall. induction F as [|p q l l' (H & _) F IH]; cbn [map]; constructor; auto.
Qed.
Lemma picture_eq m gens : inv_generations m = Ok gens -> inv_picture m = Ok (unique_with gcircle_is_equal (map fst (concat gens))).
Proof. intros E. unfold inv_picture. rewrite E. reflexivity. Qed.
Lemma picture_rep m gens : (m <= 4)%nat -> inv_generations m = Ok gens -> Forall2 (rep NN) (unique_with gcircle_is_equal (map fst (concat gens))) (zpic m).
Proof. intros Hm E. apply (unique_F2 (rep NN)); [|apply all_rep; auto]. intros. apply (equal_key NN); auto. unfold NN; lia. Qed.
Lemma zpic_keys m : NoDup (map zkey (zpic m)) /\ forall x, In x (map zkey (zpic m)) <-> In x (map zkey (zall m)).
Proof.
  assert (F : Forall2 (fun v w => w = zkey v) (zpic m) (unique_with zv_eqb (map zkey (zall m)))).
  { apply unique_F2; [intros x y x' y' -> ->; reflexivity|]. generalize (zall m). intros l. induction l; constructor; auto. }
  assert (E : map zkey (zpic m) = unique_with zv_eqb (map zkey (zall m))) by (revert F; generalize (zpic m) (unique_with zv_eqb (map zkey (zall m))); intros l l' F; induction F; cbn; congruence).
  rewrite E. apply unique_with_spec. intros x y. apply zv_eqb_spec.
Qed.

Lemma ordpairs_F2 {A B} (R : A -> B -> Prop) (P : A -> A -> Prop) (k : B -> B) l l' : Forall2 R l l' -> NoDup (map k l') -> (forall x y x' y', R x x' -> R y y' -> k x' <> k y' -> P x y) -> ForallOrdPairs P l.
Proof.
  intros F N H. induction F as [|x x' l l' Hx F IH]; [constructor|]. cbn [map] in N. inversion N; subst. constructor; auto. apply Forall_forall. intros y Hy. destruct (F2_In_l _ _ _ _ F Hy) as (y' & Iy & Ry). apply (H x y x' y'); auto. intros E. apply H2. rewrite E. apply in_map. auto.
Qed.

Theorem picture_ok m : (m <= 4)%nat -> exists gens pic, inv_generations m = Ok gens /\ inv_picture m = Ok pic /\ let all := map fst (concat gens) in
  (forall g, In g pic -> In g all) /\
  (forall c, In (GC c) all -> In (GC c) pic) /\
  (forall l, In (GL l) all -> exists l', In (GL l') pic /\ (same_set (GL l) (GL l') \/ opposite_lines (GL l) (GL l'))) /\
  ForallOrdPairs (fun g g' => ~ same_set g g' /\ ~ opposite_lines g g') pic.
Proof.
  intros Hm. destruct (gens_ok m Hm) as (gens & E & _). pose proof (all_rep m gens Hm E) as F. pose proof (picture_rep m gens Hm E) as G. destruct (zpic_keys m) as (K1 & K2). exists gens. eexists. split; [exact E|]. split; [apply picture_eq; exact E|]. cbv zeta. set (all := map fst (concat gens)) in *. set (pic := unique_with gcircle_is_equal all) in *.
  assert (T : forall g, In g all -> exists g', In g' pic /\ (same_set g g' \/ opposite_lines g g')).
  { intros g Hg. destruct (F2_In_l _ _ _ _ F Hg) as (v & Iv & Rv). assert (I : In (zkey v) (map zkey (zpic m))) by (apply K2, in_map, Iv). apply in_map_iff in I. destruct I as (v' & Ek & Iv'). destruct (F2_In_r _ _ _ _ G Iv') as (g' & Ig & Rg). exists g'. split; auto. apply (key_same v v'); auto. }
  split; [intros g Hg; apply unique_sub in Hg; auto|]. split; [|split].
  - intros c Hc. destruct (T _ Hc) as (g' & Ig & [X|X]).
    + assert (Iall : In g' all) by (apply unique_sub in Ig; auto). destruct (F2_In_l _ _ _ _ F Hc) as (v & _ & Rv). destruct (F2_In_l _ _ _ _ F Iall) as (v' & _ & Rv'). destruct g' as [c'|l'].
      * assert (E' : c = c'); [|rewrite E'; auto]. destruct Rv as (_ & Hk & ->), Rv' as (_ & Hk' & ->). apply not_0_IZR in Hk. apply not_0_IZR in Hk'. apply same_circle; try (cbn [cr]; apply Rdiv_lt_0_compat; [lra|apply Rabs_pos_lt; auto]). intros w Hw. apply (X w). exact Hw.
      * exfalso. pose proof (proj2 (key_same _ _ _ _ Rv Rv') (or_introl X)) as Y. apply zv_eqb_spec in Y. rewrite <- (equal_key NN _ _ _ _ ltac:(unfold NN; lia) Rv Rv') in Y. discriminate.
    + destruct g'; contradiction.
  - intros l Hl. destruct (T _ Hl) as (g' & Ig & X). destruct g' as [c'|l'].
    + destruct X as [X|X]; [|contradiction]. exfalso. assert (Iall : In (GC c') all) by (apply unique_sub in Ig; auto). destruct (F2_In_l _ _ _ _ F Hl) as (v & _ & Rv). destruct (F2_In_l _ _ _ _ F Iall) as (v' & _ & Rv'). pose proof (proj2 (key_same _ _ _ _ Rv Rv') (or_introl X)) as Y. apply zv_eqb_spec in Y. rewrite <- (equal_key NN _ _ _ _ ltac:(unfold NN; lia) Rv Rv') in Y. discriminate.
    + exists l'. auto.
  - apply (ordpairs_F2 (rep NN) _ zkey _ _ G K1). intros x y x' y' Hx Hy N. pose proof (key_same x' y' x y Hx Hy). tauto.
Qed.

(** ** Two of them *)
Lemma two_circles O r O' r' M M' : 0 < r -> 0 < r' -> (dist2 O O' <= (r - r') * (r - r') \/ (r + r') * (r + r') <= dist2 O O') ->
  on_circle O r M -> on_circle O' r' M -> on_circle O r M' -> on_circle O' r' M' -> M = M' \/ O = O' /\ r = r'.
Proof.
  intros Hr Hr' HD H1 H2 H3 H4. destruct (pt_eq_dec O O') as [->|NO].
  - right. split; auto. unfold on_circle in *. congruence.
  - left. pose proof (dist2_pos O O' NO) as DP. apply on_circle_sq in H1, H2, H3, H4; try lra. destruct O as [o1 o2], O' as [p1 p2], M as [x y], M' as [x' y']. revert HD DP H1 H2 H3 H4. unspec. intros HD DP H1 H2 H3 H4.
    set (d1 := p1 - o1) in *. set (d2 := p2 - o2) in *. set (D := d1 * d1 + d2 * d2) in *.
    assert (K : forall x y, (x - o1) * (x - o1) + (y - o2) * (y - o2) = r * r -> (x - p1) * (x - p1) + (y - p2) * (y - p2) = r' * r' -> (x - o1) * d2 - (y - o2) * d1 = 0 /\ 2 * ((x - o1) * d1 + (y - o2) * d2) = r * r + D - r' * r').
    { clear - HD DP Hr Hr'. intros x y H1 H2. set (X := x - o1) in *. set (Y := y - o2) in *. assert (H : 2 * (X * d1 + Y * d2) = r * r + D - r' * r') by (unfold D; replace (x - p1) with (X - d1) in H2 by (unfold X, d1; ring); replace (y - p2) with (Y - d2) in H2 by (unfold Y, d2; ring); lra). split; [|exact H].
      assert (I : 4 * ((X * d2 - Y * d1) * (X * d2 - Y * d1)) = - ((D - (r + r') * (r + r')) * (D - (r - r') * (r - r')))).
      { transitivity (4 * (r * r) * D - (2 * (X * d1 + Y * d2)) * (2 * (X * d1 + Y * d2))); [rewrite <- H1; unfold D; ring|]. rewrite H. ring. }
      assert (P : 0 <= (D - (r + r') * (r + r')) * (D - (r - r') * (r - r'))). { clearbody D. destruct HD as [HD|HD]; [|apply Rmult_le_pos; nra]. rewrite <- Rmult_opp_opp. apply Rmult_le_pos; nra. }
      pose proof (Rle_0_sqr (X * d2 - Y * d1)) as S. unfold Rsqr in S. apply Rsqr_0_uniq. unfold Rsqr. lra. }
    destruct (K x y) as (K1 & K2); auto. destruct (K x' y') as (K1' & K2'); auto. clear - K1 K2 K1' K2' DP.
    assert (E1 : D * (x - x') = 0) by (unfold D; transitivity (d1 * (((x - o1) * d1 + (y - o2) * d2) - ((x' - o1) * d1 + (y' - o2) * d2)) + d2 * (((x - o1) * d2 - (y - o2) * d1) - ((x' - o1) * d2 - (y' - o2) * d1))); [ring|]; rewrite K1, K1'; replace ((x - o1) * d1 + (y - o2) * d2) with ((x' - o1) * d1 + (y' - o2) * d2) by lra; ring).
    assert (E2 : D * (y - y') = 0) by (unfold D; transitivity (d2 * (((x - o1) * d1 + (y - o2) * d2) - ((x' - o1) * d1 + (y' - o2) * d2)) - d1 * (((x - o1) * d2 - (y - o2) * d1) - ((x' - o1) * d2 - (y' - o2) * d1))); [ring|]; rewrite K1, K1'; replace ((x - o1) * d1 + (y - o2) * d2) with ((x' - o1) * d1 + (y' - o2) * d2) by lra; ring).
    apply Rmult_integral in E1. apply Rmult_integral in E2. f_equal; [destruct E1|destruct E2]; lra.
Qed.

(** the product of two vectors *)
Lemma product_int N v w : wf N v -> wf N w -> exists n : Z, (2 * n = 2 * (va v * va w + vb v * vb w) - vk v * ve w - ve v * vk w)%Z.
Proof.
  intros (_ & (h & Hh) & _) (_ & (h' & Hh') & _). replace (ve v) with (2 * h - vk v)%Z by lia. replace (ve w) with (2 * h' - vk w)%Z by lia.
  exists (va v * va w + vb v * vb w - vk v * h' - h * vk w + vk v * vk w)%Z. ring.
Qed.

Lemma circle_dec c c' : (cO c = cO c' /\ cr c = cr c') \/ ~ (cO c = cO c' /\ cr c = cr c').
Proof. destruct (pt_eq_dec (cO c) (cO c')), (Req_dec (cr c) (cr c')); tauto. Qed.

Lemma pair_cc v w c c' : rep NN (GC c) v -> rep NN (GC c') w -> same_set (GC c) (GC c') \/ one_common (GC c) (GC c') \/ right_angle (GC c) (GC c').
Proof.
  intros (W & Hk & ->) (W' & Hk' & ->). destruct (product_int _ _ _ W W') as (n & Hn). apply (f_equal IZR) in Hn. rewrite !minus_IZR, !mult_IZR, !plus_IZR, !mult_IZR in Hn.
  pose proof (wf_norm _ _ W) as N1. pose proof (wf_norm _ _ W') as N2. apply not_0_IZR in Hk. apply not_0_IZR in Hk'.
  set (a := IZR (va v)) in *. set (b := IZR (vb v)) in *. set (k := IZR (vk v)) in *. set (e := IZR (ve v)) in *. set (a' := IZR (va w)) in *. set (b' := IZR (vb w)) in *. set (k' := IZR (vk w)) in *. set (e' := IZR (ve w)) in *.
  set (r := 2 / Rabs k). set (r' := 2 / Rabs k'). assert (Pr : 0 < r) by (apply Rdiv_lt_0_compat; [lra|apply Rabs_pos_lt; auto]). assert (Pr' : 0 < r') by (apply Rdiv_lt_0_compat; [lra|apply Rabs_pos_lt; auto]).
  assert (R2 : r * r = 4 / (k * k)) by (unfold r; rewrite <- (Rabs_sq k); field; apply Rabs_no_R0; auto). assert (R2' : r' * r' = 4 / (k' * k')) by (unfold r'; rewrite <- (Rabs_sq k'); field; apply Rabs_no_R0; auto).
  assert (D : dist2 (2 * a / k, 2 * b / k) (2 * a' / k', 2 * b' / k') = r * r + r' * r' - 8 / (k * k') * IZR n).
  { rewrite R2, R2'. transitivity (4 * (a * a + b * b) / (k * k) + 4 * (a' * a' + b' * b') / (k' * k') - 8 / (k * k') * (a * a' + b * b')); [unspec; field; auto|]. rewrite N1, N2. replace (IZR n) with ((2 * (a * a' + b * b') - k * e' - e * k') / 2) by lra. field. auto. }
  assert (RR : exists s, (s = 1 \/ s = -1) /\ 8 / (k * k') = s * (2 * (r * r'))).
  { destruct (Rcase_abs (k * k')) as [L|L].
    - exists (-1). split; auto. unfold r, r'. transitivity (8 / - Rabs (k * k')); [rewrite (Rabs_left _ L), Ropp_involutive; reflexivity|]. rewrite Rabs_mult. field. split; apply Rabs_no_R0; auto.
    - exists 1. split; auto. unfold r, r'. transitivity (8 / Rabs (k * k')); [rewrite (Rabs_pos_eq (k * k')) by lra; reflexivity|]. rewrite Rabs_mult. field. split; apply Rabs_no_R0; auto. }
  destruct RR as (s & Hs & Es). rewrite Es in D.
  destruct (Z.eq_dec n 0) as [->|Nn].
  - right; right. cbn [right_angle cO cr]. fold r r'. unfold circ_orthogonal. rewrite D. ring.
  - destruct (circle_dec (mkCircle (2 * a / k, 2 * b / k) r) (mkCircle (2 * a' / k', 2 * b' / k') r')) as [E|E]; cbn [cO cr] in E.
    + left. intros M. cbn [gpts cO cr]. fold r r'. destruct E as (-> & ->). tauto.
    + right; left. intros M M'. cbn [gpts cO cr]. fold r r'. intros H1 H2 H3 H4. cut (M = M' \/ (2 * a / k, 2 * b / k) = (2 * a' / k', 2 * b' / k') /\ r = r'); [intros [X|X]; [auto|contradiction]|]. refine (two_circles _ _ _ _ M M' Pr Pr' _ H1 H2 H3 H4).
      rewrite D. pose proof (Rmult_lt_0_compat _ _ Pr Pr') as PP. assert (S : (1 <= s * IZR n) \/ (s * IZR n <= -1)).
      { assert (1 <= IZR n \/ IZR n <= -1) by (destruct (Z.lt_total n 0) as [L|[L|L]]; [right; apply IZR_le; lia|contradiction|left; apply IZR_le; lia]). destruct Hs as [->| ->]; lra. }
      replace (s * (2 * (r * r')) * IZR n) with (2 * (r * r') * (s * IZR n)) by ring. destruct S as [S|S]; [left|right]; nra.
Qed.

Lemma pair_cl v w c l : rep NN (GC c) v -> rep NN (GL l) w -> one_common (GC c) (GL l) \/ on_line (lA l) (lB l) (cO c).
Proof.
  intros (W & Hk & ->) H'. assert (PL := fun M => rep_points _ _ _ M H'). destruct H' as (W' & Hk' & _). destruct (product_int _ _ _ W W') as (n & Hn). rewrite Hk' in Hn. apply (f_equal IZR) in Hn. rewrite !minus_IZR, !mult_IZR, !plus_IZR, !mult_IZR in Hn.
  pose proof (wf_norm _ _ W) as N1. pose proof (wf_norm _ _ W') as N2. rewrite Hk' in N2. apply not_0_IZR in Hk. assert (PL' : forall M, gpts (GL l) M <-> IZR (va w) * fst M + IZR (vb w) * snd M = IZR (ve w)) by (intros M; rewrite PL; apply line_qv; auto). clear PL.
  cbn [gpts] in PL'. cbn [cO]. rewrite PL'. cbn [fst snd]. unfold one_common. cbn [gpts cO cr].
  set (a := IZR (va v)) in *. set (b := IZR (vb v)) in *. set (k := IZR (vk v)) in *. set (e := IZR (ve v)) in *. set (a' := IZR (va w)) in *. set (b' := IZR (vb w)) in *. set (e' := IZR (ve w)) in *.
  assert (Z : IZR n = k / 2 * (a' * (2 * a / k) + b' * (2 * b / k) - e')) by (transitivity (a * a' + b * b' - k * e' / 2); [lra|field; auto]).
  destruct (Z.eq_dec n 0) as [->|Nn].
  - right. symmetry in Z. apply Rmult_integral in Z. destruct Z; lra.
  - left. intros M M' H1 H2 H3 H4. rewrite PL' in H2, H4. pose proof (IZR_abs_ge _ Nn) as An. pose proof (Rabs_pos_lt k Hk) as Pk. assert (Pr : 0 < 2 / Rabs k) by (apply Rdiv_lt_0_compat; lra). apply on_circle_sq in H1, H3; try lra. assert (RR : 2 / Rabs k * (2 / Rabs k) = 4 / (k * k)) by (rewrite <- (Rabs_sq k); field; lra). rewrite RR in H1, H3.
    set (d := a' * (2 * a / k) + b' * (2 * b / k) - e') in *. assert (D2 : 4 / (k * k) <= d * d).
    { assert (S : 1 <= IZR n * IZR n) by (rewrite <- (Rabs_sq (IZR n)); nra). rewrite Z in S. apply (Rmult_le_reg_r (k * k)); [nra|]. unfold Rdiv. rewrite Rmult_assoc, Rinv_l by nra. lra. }
    assert (K : forall M, dist2 (2 * a / k, 2 * b / k) M = 4 / (k * k) -> a' * fst M + b' * snd M = e' -> M = (2 * a / k - d * a', 2 * b / k - d * b')).
    { clear - D2 N2. intros [x y]. unspec. intros H1 H2. set (X := x - 2 * a / k) in *. set (Y := y - 2 * b / k) in *. assert (E1 : a' * X + b' * Y = - d) by (unfold X, Y, d; lra).
      assert (E2 : (a' * Y - b' * X) * (a' * Y - b' * X) <= 0). { assert ((a' * X + b' * Y) * (a' * X + b' * Y) + (a' * Y - b' * X) * (a' * Y - b' * X) = X * X + Y * Y) by (ring [N2]). rewrite E1 in H. lra. }
      assert (E3 : a' * Y - b' * X = 0) by (apply Rsqr_0_uniq; unfold Rsqr; pose proof (Rle_0_sqr (a' * Y - b' * X)) as Q; unfold Rsqr in Q; lra).
      assert (X = - d * a') by (transitivity (a' * (a' * X + b' * Y) - b' * (a' * Y - b' * X)); [ring [N2]|rewrite E1, E3; ring]). assert (Y = - d * b') by (transitivity (b' * (a' * X + b' * Y) + a' * (a' * Y - b' * X)); [ring [N2]|rewrite E1, E3; ring]).
      f_equal; [unfold X in H|unfold Y in H0]; lra. }
    rewrite (K M), (K M'); auto.
Qed.

Lemma pair_ll v w l l' : rep NN (GL l) v -> rep NN (GL l') w -> same_set (GL l) (GL l') \/ one_common (GL l) (GL l') \/ right_angle (GL l) (GL l').
Proof.
  intros H H'. assert (PL := fun M => rep_points _ _ _ M H). assert (PL' := fun M => rep_points _ _ _ M H'). destruct H as (W & Hk & _ & _ & _ & A1 & A2), H' as (W' & Hk' & _ & _ & _ & B1 & B2). pose proof (line_coeffs _ _ W Hk) as C. pose proof (line_coeffs _ _ W' Hk') as C'.
  assert (Q := fun M => line_qv v M Hk). assert (Q' := fun M => line_qv w M Hk'). assert (SGN : forall z, (Z.abs z = 1)%Z -> z = 1%Z \/ z = (-1)%Z) by (intros; lia).
  assert (CASE : (va v = 0 /\ vb w = 0 \/ vb v = 0 /\ va w = 0 \/ exists s, (s = 1 \/ s = -1) /\ va v = s * va w /\ vb v = s * vb w)%Z).
  { destruct C as [(C1 & C2)|(C1 & C2)], C' as [(C1' & C2')|(C1' & C2')]; auto.
    - right; right. exists (va v * va w)%Z. destruct (SGN _ C1) as [->| ->], (SGN _ C1') as [->| ->]; split; lia.
    - right; right. exists (vb v * vb w)%Z. destruct (SGN _ C2) as [->| ->], (SGN _ C2') as [->| ->]; split; lia. }
  destruct CASE as [(E1 & E2)|[(E1 & E2)|(s & Hs & E1 & E2)]].
  - right; right. cbn [right_angle]. unfold orthogonal. rewrite E1 in A1, A2. rewrite E2 in B1, B2. destruct C as [(C1 & C2)|(C1 & C2)]; [lia|]. destruct C' as [(C1' & C2')|(C1' & C2')]; [|lia]. unspec. assert (snd (lB l) = snd (lA l)) by (destruct (SGN _ C2) as [X|X]; rewrite X in A1, A2; lra). assert (fst (lB l') = fst (lA l')) by (destruct (SGN _ C1') as [X|X]; rewrite X in B1, B2; lra). rewrite H, H0. ring.
  - right; right. cbn [right_angle]. unfold orthogonal. rewrite E1 in A1, A2. rewrite E2 in B1, B2. destruct C as [(C1 & C2)|(C1 & C2)]; [|lia]. destruct C' as [(C1' & C2')|(C1' & C2')]; [lia|]. unspec. assert (fst (lB l) = fst (lA l)) by (destruct (SGN _ C1) as [X|X]; rewrite X in A1, A2; lra). assert (snd (lB l') = snd (lA l')) by (destruct (SGN _ C2') as [X|X]; rewrite X in B1, B2; lra). rewrite H, H0. ring.
  - destruct (Z.eq_dec (ve v) (s * ve w)) as [E3|E3].
    + left. intros M. rewrite PL, PL', Q, Q', E1, E2, E3, !mult_IZR. destruct Hs as [->| ->]; split; intros; lra.
    + right; left. intros M M' H1 H2 _ _. exfalso. rewrite PL, Q, E1, E2, !mult_IZR in H1. rewrite PL', Q' in H2. apply E3. apply eq_IZR. rewrite mult_IZR, <- H2, <- H1. ring.
Qed.

Theorem pairs_ok m gens : (m <= 4)%nat -> inv_generations m = Ok gens -> forall g g', In g (map fst (concat gens)) -> In g' (map fst (concat gens)) -> same_set g g' \/ one_common g g' \/ right_angle g g'.
Proof.
  intros Hm E g g' Hg Hg'. pose proof (all_rep m gens Hm E) as F. destruct (F2_In_l _ _ _ _ F Hg) as (v & _ & Rv). destruct (F2_In_l _ _ _ _ F Hg') as (w & _ & Rw). destruct g as [c|l], g' as [c'|l'].
  - apply (pair_cc v w); auto.
  - right. destruct (pair_cl _ _ _ _ Rv Rw); auto.
  - right. destruct (pair_cl _ _ _ _ Rw Rv) as [X|X]; [left|right; exact X]. intros M M' ? ? ? ?. apply X; auto.
  - apply (pair_ll v w); auto.
Qed.

(** ** Integers *)
Theorem integers_ok m gens g : (m <= 4)%nat -> inv_generations m = Ok gens -> In g (map fst (concat gens)) ->
  match g with
  | GC c => exists a b k, k <> 0%Z /\ 1 / cr c = IZR k / 2 /\ fst (cO c) / cr c = IZR a /\ snd (cO c) / cr c = IZR b
  | GL l => exists e : Z, (forall M, gpts g M <-> fst M = IZR e) \/ (forall M, gpts g M <-> snd M = IZR e)
  end.
Proof.
  intros Hm E Hg. pose proof (all_rep m gens Hm E) as F. destruct (F2_In_l _ _ _ _ F Hg) as (v & _ & Rv). destruct g as [c|l].
  - destruct Rv as (W & Hk & ->). cbn [cO cr fst snd]. exists (Z.sgn (vk v) * va v)%Z, (Z.sgn (vk v) * vb v)%Z, (Z.abs (vk v)). split; [lia|]. pose proof (not_0_IZR _ Hk) as Rk. rewrite abs_IZR, !mult_IZR. split; [field; apply Rabs_no_R0; auto|].
    assert (S : IZR (Z.sgn (vk v)) = Rabs (IZR (vk v)) / IZR (vk v)).
    { destruct (Z.lt_total (vk v) 0) as [L|[L|L]]; [|contradiction|].
      - rewrite Z.sgn_neg by auto. apply IZR_lt in L. rewrite Rabs_left by auto. field. auto.
      - rewrite Z.sgn_pos by auto. apply IZR_lt in L. rewrite Rabs_pos_eq by lra. field. auto. }
    rewrite S. split; field; split; auto; apply Rabs_no_R0; auto.
  - assert (PL := fun M => rep_points _ _ _ M Rv). destruct Rv as (W & Hk & _). assert (Q := fun M => line_qv v M Hk). destruct (line_coeffs _ _ W Hk) as [(C1 & C2)|(C1 & C2)].
    + exists (va v * ve v)%Z. left. intros M. rewrite PL, Q, C2, mult_IZR. assert (X : va v = 1%Z \/ va v = (-1)%Z) by lia. destruct X as [->| ->]; split; intros; lra.
    + exists (vb v * ve v)%Z. right. intros M. rewrite PL, Q, C1, mult_IZR. assert (X : vb v = 1%Z \/ vb v = (-1)%Z) by lia. destruct X as [->| ->]; split; intros; lra.
Qed.

(** ** Three generations *)
Definition zcoord (v : zv) : bool * Z := ((vb v =? 0)%Z, (if (vb v =? 0)%Z then va v * ve v else vb v * ve v)%Z).
Lemma coord_line N v l : rep N (GL l) v -> (forall M, gpts (GL l) M <-> (if fst (zcoord v) then fst M else snd M) = IZR (snd (zcoord v))).
Proof.
  intros Rv M. rewrite (rep_points _ _ _ M Rv). destruct Rv as (W & Hk & _). rewrite (line_qv v M Hk). unfold zcoord. cbn [fst snd]. destruct (line_coeffs _ _ W Hk) as [(C1 & C2)|(C1 & C2)].
  - rewrite C2. cbn [Z.eqb]. rewrite mult_IZR. assert (X : va v = 1%Z \/ va v = (-1)%Z) by lia. destruct X as [->| ->]; split; intros; lra.
  - rewrite C1. replace (vb v =? 0)%Z with false by (symmetry; apply Z.eqb_neq; lia). rewrite mult_IZR. assert (X : vb v = 1%Z \/ vb v = (-1)%Z) by lia. destruct X as [->| ->]; split; intros; lra.
Qed.

Lemma rep_is_circle N g v : rep N g v -> is_circle g = negb (vk v =? 0)%Z.
Proof. intros (_ & H). destruct g; cbn [is_circle]; destruct H as (H & _); symmetry; [apply negb_true_iff, Z.eqb_neq; auto|rewrite H; reflexivity]. Qed.
Definition zline (v : zv) : bool := (vk v =? 0)%Z.
Lemma zline_filter l : Forall (fun v => zline v = true) (filter zline l).
Proof. apply Forall_forall. intros v Hv. apply filter_In in Hv. tauto. Qed.
Lemma zpic3_lines : map zcoord (filter zline (zpic 3)) = [(true, 2); (false, 2); (true, -6); (false, -6); (true, 10); (false, 10)]%Z.
Proof. vm_compute. reflexivity. Qed.
Lemma zpic3_circles : length (filter (fun v => negb (zline v)) (zpic 3)) = 149%nat.
Proof. vm_compute. reflexivity. Qed.
Definition twelve : list (bool * Z) := [(true, 2); (true, -2); (false, 2); (false, -2); (true, 6); (true, -6); (false, 6); (false, -6); (true, 10); (true, -10); (false, 10); (false, -10)]%Z.
Definition beqz (p q : bool * Z) : bool := Bool.eqb (fst p) (fst q) && Z.eqb (snd p) (snd q).
Lemma beqz_eq p q : beqz p q = true -> p = q.
Proof. unfold beqz. intros H. apply andb_true_iff in H. destruct H as (H1 & H2). apply eqb_prop in H1. apply Z.eqb_eq in H2. destruct p, q; cbn in *; congruence. Qed.
Lemma zall3_lines : forallb (fun v => existsb (beqz (zcoord v)) twelve) (filter zline (zall 3)) = true.
Proof. vm_compute. reflexivity. Qed.
Lemma zall3_lines' : forallb (fun q => existsb (fun v => beqz (zcoord v) q) (filter zline (zall 3))) twelve = true.
Proof. vm_compute. reflexivity. Qed.

Lemma rep_axis N g v : rep N g v -> zline v = true -> axis_line (fst (zcoord v)) (IZR (snd (zcoord v))) g.
Proof.
  intros Rv Hl. assert (C := rep_is_circle _ _ _ Rv). unfold zline in Hl. rewrite Hl in C. split; [exact C|]. destruct g as [c|l]; [discriminate|]. apply (coord_line _ _ _ Rv).
Qed.

Theorem three_ok : exists gens pic, inv_generations 3 = Ok gens /\ inv_picture 3 = Ok pic /\
  length (filter is_circle pic) = 149%nat /\
  Forall2 (fun q g => axis_line (fst q) (snd q) g) [(true, 2); (false, 2); (true, -6); (false, -6); (true, 10); (false, 10)] (filter (fun g => negb (is_circle g)) pic) /\
  (forall g, In g (map fst (concat gens)) -> is_circle g = false -> exists vertical e, axis_line vertical e g /\ In (Rabs e) [2; 6; 10]) /\
  (forall vertical e, In (Rabs e) [2; 6; 10] -> exists g, In g (map fst (concat gens)) /\ axis_line vertical e g).
Proof.
  assert (Hm : (3 <= 4)%nat) by lia. destruct (gens_ok 3 Hm) as (gens & E & _). pose proof (all_rep 3 gens Hm E) as F. pose proof (picture_rep 3 gens Hm E) as G. exists gens. eexists. split; [exact E|]. split; [apply picture_eq; exact E|]. set (all := map fst (concat gens)) in *. set (pic := unique_with gcircle_is_equal all) in *.
  split; [|split; [|split]].
  - assert (G' : Forall2 (rep NN) (filter is_circle pic) (filter (fun v => negb (zline v)) (zpic 3))) by (apply F2_filter; auto; intros x y; apply rep_is_circle). rewrite (F2_len _ _ _ G'). apply zpic3_circles.
  - assert (G' : Forall2 (rep NN) (filter (fun g => negb (is_circle g)) pic) (filter zline (zpic 3))) by (apply F2_filter; auto; intros x y Hxy; rewrite (rep_is_circle _ _ _ Hxy); apply negb_involutive).
    assert (L := zpic3_lines). assert (AL : Forall (fun v => zline v = true) (filter zline (zpic 3))) by (apply zline_filter). revert L AL G'. generalize (filter zline (zpic 3)) (filter (fun g => negb (is_circle g)) pic). intros zl gl L AL G'.
    assert (H : Forall2 (fun q g => axis_line (fst q) (IZR (snd q)) g) (map zcoord zl) gl).
    { clear L. induction G' as [|g v gl zl Hgv G' IH]; cbn [map]; [constructor|]. inversion AL; subst. constructor; auto. apply (rep_axis NN); auto. }
    rewrite L in H. clear - H. repeat match goal with H : Forall2 _ (_ :: _) _ |- _ => inversion H; subst; clear H | H : Forall2 _ [] _ |- _ => inversion H; subst; clear H end. cbn [fst snd] in *. repeat (apply Forall2_cons; [assumption|]). apply Forall2_nil.
  - intros g Hg Hc. destruct (F2_In_l _ _ _ _ F Hg) as (v & Iv & Rv). assert (Hl : zline v = true) by (rewrite (rep_is_circle _ _ _ Rv) in Hc; apply negb_false_iff in Hc; exact Hc).
    exists (fst (zcoord v)), (IZR (snd (zcoord v))). split; [apply (rep_axis NN); auto|]. pose proof zall3_lines as A. rewrite forallb_forall in A. specialize (A v). lapply A; [|apply filter_In; auto]. intros B. apply existsb_exists in B. destruct B as (q & Iq & Bq). apply beqz_eq in Bq. rewrite Bq. clear - Iq. rewrite <- abs_IZR.
    unfold twelve in Iq. cbn [In] in Iq. repeat destruct Iq as [<-|Iq]; cbn; auto.
  - intros vertical e He. assert (K : exists z, IZR z = e /\ In (vertical, z) twelve).
    { cbn [In] in He. assert (He' : exists n, (n = 2 \/ n = 6 \/ n = 10)%Z /\ (e = IZR n \/ e = IZR (- n))).
      { destruct He as [He|[He|[He|[]]]]; [exists 2%Z|exists 6%Z|exists 10%Z]; (split; [auto|]); rewrite opp_IZR; unfold Rabs in He; destruct (Rcase_abs e); [right|left|right|left|right|left]; lra. }
      destruct He' as (n & Hn & [->| ->]); [exists n|exists (- n)%Z]; (split; [reflexivity|]); destruct vertical, Hn as [->|[->| ->]]; cbn; tauto. }
    destruct K as (z & <- & Iz). pose proof zall3_lines' as A. rewrite forallb_forall in A. specialize (A _ Iz). apply existsb_exists in A. destruct A as (v & Iv & Bv). apply beqz_eq in Bv. apply filter_In in Iv. destruct Iv as (Iv & Hl). destruct (F2_In_r _ _ _ _ F Iv) as (g & Ig & Rg). exists g. split; auto. pose proof (rep_axis _ _ _ Rg Hl) as X. rewrite Bv in X. exact X.
Qed.

Theorem lines_lost : exists gens pic g, inv_generations 3 = Ok gens /\ inv_picture 3 = Ok pic /\ In g (map fst (concat gens)) /\ axis_line true (-2) g /\ forall g', In g' pic -> ~ same_set g g'.
Proof.
  destruct three_ok as (gens & pic & E & P & _ & D & _ & A). destruct (A true (-2)) as (g & Ig & Hg); [rewrite Rabs_left by lra; cbn; left; ring|]. exists gens, pic, g. split; auto. split; auto. split; auto. split; auto. intros g' Ig' S.
  destruct Hg as (Cg & Pg). assert (V : forall y, gpts g' (-2, y)) by (intros y; apply (S (-2, y)), Pg; reflexivity).
  destruct (is_circle g') eqn:C.
  - destruct g' as [c|l]; [|discriminate]. pose proof (V 0) as V0. pose proof (V 1) as V1. pose proof (V 2) as V2. cbn [gpts] in *. unfold on_circle in *. assert (Q : forall y, dist2 (cO c) (-2, y) = cr c * cr c) by (intros y; rewrite <- dist_sq, (V y); ring). pose proof (Q 0) as Q0. pose proof (Q 1) as Q1. pose proof (Q 2) as Q2. revert Q0 Q1 Q2. clear. unspec. intros. lra.
  - assert (I : In g' (filter (fun g => negb (is_circle g)) pic)) by (apply filter_In; rewrite C; auto). destruct (F2_In_r _ _ _ _ D I) as (q & Iq & Hq). destruct Hq as (_ & Hq). pose proof (proj1 (Hq (-2, 0)) (V 0)) as H0. pose proof (proj1 (Hq (-2, 1)) (V 1)) as H1. clear - Iq H0 H1. cbn [In] in Iq. repeat destruct Iq as [<-|Iq]; cbn [fst snd] in *; try lra.
Qed.

Theorem lengths_ok m gens : (m <= 4)%nat -> inv_generations m = Ok gens -> length gens = Datatypes.S m /\ forall k g, nth_error gens k = Some g -> length g = (5 * 4 ^ k)%nat.
Proof.
  intros Hm E. destruct (gens_ok m Hm) as (gens' & E' & F & _). rewrite E in E'. apply Ok_inj in E'. subst gens'. split.
  - rewrite (F2_len _ _ _ F). unfold zgens. cbn [length]. f_equal. generalize zgen0. clear. induction m as [|m IH]; intros L; cbn [zlater length]; auto.
  - intros k g Hg. pose proof (F2_nth (Forall2 (R2 NN)) _ _ k F) as N. rewrite Hg in N. destruct (nth_error (zgens m) k) as [z|] eqn:Ez; [|contradiction]. rewrite (F2_len _ _ _ N).
    assert (H : forallb (fun m => forallb (fun k => match nth_error (zgens m) k with Some z => Nat.eqb (length z) (5 * 4 ^ k) | None => true end) (seq 0 5)) (seq 0 5) = true) by (vm_compute; reflexivity).
    rewrite forallb_forall in H. specialize (H m). lapply H; [|apply in_seq; lia]. intros H'. rewrite forallb_forall in H'. specialize (H' k). rewrite Ez in H'. apply Nat.eqb_eq. apply H'. apply in_seq. split; [lia|].
    assert (k < length (zgens m))%nat by (apply nth_error_Some; congruence). assert (L : length (zgens m) = Datatypes.S m) by (unfold zgens; cbn [length]; f_equal; generalize zgen0; clear; induction m as [|m IH]; intros L; cbn [zlater length]; auto). lia.
Qed.

Theorem generations_ok m : (m <= 4)%nat -> exists gens, inv_generations m = Ok gens /\ length gens = Datatypes.S m /\
  nth_error gens 0 = Some (combine (map GC five_circles) [0; 1; 2; 3; 4]%nat) /\
  (forall k g h, nth_error gens k = Some g -> nth_error gens (Datatypes.S k) = Some h -> Forall2 moved (moves g) h) /\
  (forall k g, nth_error gens k = Some g -> length g = (5 * 4 ^ k)%nat).
Proof.
  intros Hm. destruct (gens_ok m Hm) as (gens & E & F & H0 & H). destruct (lengths_ok m gens Hm E) as (L1 & L2). exists gens. auto.
Qed.
