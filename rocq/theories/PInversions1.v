(** * Inversions.py: one inversion, on vectors of integers. *)

From Coq Require Import Reals List Bool ZArith Lra Lia.
From Verif Require Import Base BaseLemmas ModelInternal ModelLine ModelCircle ModelTriangle ModelInversion ModelSchottky ModelInversions Spec SpecLemmas SpecInversions PLine PCircle PInversion PGasket11 PSchottky1 PSchottky4.
Import ListNotations.
Local Open Scope R_scope.

Section Step.
Context (a b k e ae be ke ee : R).
Context (H1 : a * a = 1 + k * e - b * b) (H2 : ae * ae = 1 + ke * ee - be * be) (Hke : 0 < ke).
Let t := 2 * (a * ae + b * be) - k * ee - e * ke.
Let P : pt := (2 * ae / ke, 2 * be / ke).
Let pw := (2 / ke) ^ 2.
Let a' := a - t * ae.
Let b' := b - t * be.
Let k' := k - t * ke.
Let e' := e - t * ee.

Lemma step_norm : a' * a' + b' * b' = 1 + k' * e'.
Proof using H1 H2. clear Hke P pw. unfold a', b', k', e', t. ring [H1 H2]. Qed.

Lemma step_pow : k <> 0 -> pow_circle (2 * a / k, 2 * b / k) (2 / Rabs k) P = 4 * k' / (k * (ke * ke)).
Proof using H1 H2 Hke.
  intros Hk. unfold pow_circle, P. assert (R : (2 / Rabs k) ^ 2 = 4 / (k * k)) by (rewrite <- (Rabs_sq k); field; apply Rabs_no_R0; auto). rewrite R.
  replace (4 * k' / (k * (ke * ke))) with (4 * (k * k') / (k * k * (ke * ke))) by (field; lra).
  replace (k * k') with ((a * ke - ae * k) * (a * ke - ae * k) + (b * ke - be * k) * (b * ke - be * k) - ke * ke) by (unfold k', t; ring [H1 H2]).
  unspec. field. lra.
Qed.

(** the form that vanishes on the points *)
Definition qf (a b k e : R) (M : pt) : R := k * (fst M * fst M + snd M * snd M) - 4 * (a * fst M + b * snd M) + 4 * e.

Lemma step_qf M : M <> P -> qf a' b' k' e' (inv_pt P pw M) * dist2 P M = pw * qf a b k e M.
Proof using H1 H2 Hke.
  intros HM. pose proof (dist2_pos P M ltac:(auto)) as HD. unfold inv_pt. remember (dist2 P M) as D eqn:ED.
  destruct M as [x y]. unfold P in ED |- *. revert ED. unspec. intros ED.
  set (X := x - 2 * ae / ke) in *. set (Y := y - 2 * be / ke) in *. assert (Ex : x = 2 * ae / ke + X) by (unfold X; ring). assert (Ey : y = 2 * be / ke + Y) by (unfold Y; ring). clearbody X Y. subst x y.
  unfold qf. cbn [fst snd]. unfold pw.
  assert (XX : X * X = D - Y * Y) by lra.
  transitivity ((k' * ((2 * ae * D + ((2 / ke) ^ 2 * ke) * X) * (2 * ae * D + ((2 / ke) ^ 2 * ke) * X) + (2 * be * D + ((2 / ke) ^ 2 * ke) * Y) * (2 * be * D + ((2 / ke) ^ 2 * ke) * Y)) - 4 * (a' * (2 * ae * D + ((2 / ke) ^ 2 * ke) * X) + b' * (2 * be * D + ((2 / ke) ^ 2 * ke) * Y)) * (ke * D) + 4 * e' * (ke * ke) * (D * D)) / (D * (ke * ke))); [field; lra|].
  unfold a', b', k', e', t. field_simplify_eq; [|lra]. ring [H1 H2 XX].
Qed.
End Step.

(** ** Vectors of integers *)
Record zv := mkV { va : Z; vb : Z; vk : Z; ve : Z }.
Definition zt (e v : zv) : Z := (2 * (va v * va e + vb v * vb e) - vk v * ve e - ve v * vk e)%Z.
Definition zs (e v : zv) : zv := mkV (va v - zt e v * va e) (vb v - zt e v * vb e) (vk v - zt e v * vk e) (ve v - zt e v * ve e).
Definition zstart : list zv := [mkV 1 0 2 0; mkV 0 1 2 0; mkV (-1) 0 2 0; mkV 0 (-1) 2 0; mkV 0 0 1 (-1)].

Definition wf (N : Z) (v : zv) : Prop :=
  (va v * va v + vb v * vb v = 1 + vk v * ve v)%Z /\ (exists h, vk v + ve v = 2 * h)%Z /\
  (Z.abs (va v) <= N /\ Z.abs (vb v) <= N /\ Z.abs (vk v) <= N /\ Z.abs (ve v) <= N)%Z.

Definition rep (N : Z) (g : gcircle) (v : zv) : Prop := wf N v /\
  match g with
  | GC c => vk v <> 0%Z /\ c = mkCircle (2 * IZR (va v) / IZR (vk v), 2 * IZR (vb v) / IZR (vk v)) (2 / Rabs (IZR (vk v)))
  | GL l => vk v = 0%Z /\ lA l <> lB l /\ allclose (lA l) (lB l) = false /\
      (Rabs (fst (lA l)) <= 20000 /\ Rabs (snd (lA l)) <= 20000 /\ Rabs (fst (lB l)) <= 20000 /\ Rabs (snd (lB l)) <= 20000) /\
      IZR (va v) * fst (lA l) + IZR (vb v) * snd (lA l) = IZR (ve v) /\ IZR (va v) * fst (lB l) + IZR (vb v) * snd (lB l) = IZR (ve v)
  end.

Definition qv (v : zv) (M : pt) : R := qf (IZR (va v)) (IZR (vb v)) (IZR (vk v)) (IZR (ve v)) M.
Definition circ (e : zv) : circle := mkCircle (2 * IZR (va e) / IZR (vk e), 2 * IZR (vb e) / IZR (vk e)) (2 / IZR (vk e)).

Lemma wf_norm N v : wf N v -> IZR (va v) * IZR (va v) = 1 + IZR (vk v) * IZR (ve v) - IZR (vb v) * IZR (vb v).
Proof. intros (H & _). apply (f_equal IZR) in H. rewrite !plus_IZR, !mult_IZR in H. lra. Qed.
Lemma zs_R e v : let t := 2 * (IZR (va v) * IZR (va e) + IZR (vb v) * IZR (vb e)) - IZR (vk v) * IZR (ve e) - IZR (ve v) * IZR (vk e) in
  IZR (zt e v) = t /\ IZR (va (zs e v)) = IZR (va v) - t * IZR (va e) /\ IZR (vb (zs e v)) = IZR (vb v) - t * IZR (vb e) /\
  IZR (vk (zs e v)) = IZR (vk v) - t * IZR (vk e) /\ IZR (ve (zs e v)) = IZR (ve v) - t * IZR (ve e).
Proof.
  intros t. assert (Ht : IZR (zt e v) = t) by (unfold zt, t; rewrite !minus_IZR, !mult_IZR, !plus_IZR, !mult_IZR; reflexivity). split; [exact Ht|].
  unfold zs. cbn [va vb vk ve]. rewrite !minus_IZR, !mult_IZR, Ht. auto.
Qed.
Lemma start_wf e : In e zstart -> wf 2 e.
Proof. cbn [zstart In]. intuition; subst e; unfold wf; cbn; (split; [reflexivity|]; split; [|lia]). all: first [exists 1%Z; reflexivity|exists 0%Z; reflexivity]. Qed.
Lemma start_k e : In e zstart -> (1 <= vk e <= 2)%Z.
Proof. cbn [zstart In]. intuition; subst e; cbn; lia. Qed.

Lemma step_wf N e v : In e zstart -> wf N v -> wf (9 * N) (zs e v).
Proof.
  intros He Hv. pose proof (start_wf e He) as We. pose proof (wf_norm _ _ Hv) as Nv. pose proof (wf_norm _ _ We) as Ne. destruct (zs_R e v) as (_ & Ea & Eb & Ek & Ee).
  split.
  - apply eq_IZR. rewrite !plus_IZR, !mult_IZR, Ea, Eb, Ek, Ee. apply step_norm; auto.
  - destruct Hv as (_ & (h & Hh) & B). clear - He Hh B. revert He. cbn [zstart In]. intros He. split.
    + destruct He as [<-|[<-|[<-|[<-|[<-|[]]]]]]; unfold zs; cbn [va vb vk ve]; [exists (h - zt (mkV 1 0 2 0) v)%Z|exists (h - zt (mkV 0 1 2 0) v)%Z|exists (h - zt (mkV (-1) 0 2 0) v)%Z|exists (h - zt (mkV 0 (-1) 2 0) v)%Z|exists h]; lia.
    + destruct He as [<-|[<-|[<-|[<-|[<-|[]]]]]]; unfold zs, zt; cbn [va vb vk ve]; lia.
Qed.

Lemma rep_points N g v M : rep N g v -> (gpts g M <-> qv v M = 0).
Proof.
  intros (W & H). pose proof (wf_norm _ _ W) as Nv. unfold qv, qf. destruct g as [c|l]; cbn [gpts].
  - destruct H as (Hk & ->). cbn [cO cr]. apply not_0_IZR in Hk. set (a := IZR (va v)) in *. set (b := IZR (vb v)) in *. set (k := IZR (vk v)) in *. set (e := IZR (ve v)) in *.
    pose proof (Rabs_pos_lt k Hk) as Pk. rewrite on_circle_sq by (apply Rlt_le, Rdiv_lt_0_compat; lra).
    replace (2 / Rabs k * (2 / Rabs k)) with (4 / (k * k)) by (rewrite <- (Rabs_sq k); field; lra).
    destruct M as [x y]. unspec. assert (I : ((x - 2 * a / k) * (x - 2 * a / k) + (y - 2 * b / k) * (y - 2 * b / k) - 4 / (k * k)) * k = k * (x * x + y * y) - 4 * (a * x + b * y) + 4 * e).
    { transitivity ((((x * k - 2 * a) * (x * k - 2 * a) + (y * k - 2 * b) * (y * k - 2 * b)) - 4) / k); [field; auto|]. field_simplify_eq; [|auto]. ring [Nv]. }
    rewrite <- I. split; intros X.
    + rewrite X. ring.
    + apply Rmult_integral in X. destruct X; [lra|contradiction].
  - destruct H as (Hk & HAB & _ & _ & HA & HB). rewrite Hk in Nv |- *. set (a := IZR (va v)) in *. set (b := IZR (vb v)) in *. set (e := IZR (ve v)) in *.
    rewrite (on_line_of_dot (lA l) (lB l) (a, b) e); auto.
    + unspec. split; intros; lra.
    + intros E. injection E as E1 E2. rewrite E1, E2 in Nv. lra.
    + unspec. lra.
    + unspec. lra.
Qed.

(** the image of the points *)
Lemma rep_image N N' e g g' v : In e zstart -> rep N g v -> rep N' g' (zs e v) -> inv_image (circ e) g g'.
Proof.
  intros He Hg Hg' M HM. rewrite (rep_points _ _ _ _ Hg), (rep_points _ _ _ _ Hg').
  pose proof (wf_norm _ _ (proj1 Hg)) as Nv. pose proof (wf_norm _ _ (start_wf e He)) as Ne. pose proof (start_k e He) as Ke. assert (Pe : 0 < IZR (vk e)) by (apply IZR_lt; lia).
  pose proof (step_qf _ _ _ _ _ _ _ _ Nv Ne Pe M HM) as Q. destruct (zs_R e v) as (_ & Ea & Eb & Ek & Ee). cbv zeta in Q. unfold qv. rewrite Ea, Eb, Ek, Ee. cbn [circ cO cr] in *.
  pose proof (dist2_pos (2 * IZR (va e) / IZR (vk e), 2 * IZR (vb e) / IZR (vk e)) M ltac:(auto)) as D. assert (Pw : 0 < (2 / IZR (vk e)) ^ 2) by (apply pow_lt, Rdiv_lt_0_compat; lra).
  set (q1 := qf _ _ _ _ M) in *. set (q2 := qf _ _ _ _ (inv_pt _ _ M)) in *. split; intros X; rewrite X in Q.
  - rewrite Rmult_0_r in Q. apply Rmult_integral in Q. destruct Q; [auto|lra].
  - rewrite Rmult_0_l in Q. symmetry in Q. apply Rmult_integral in Q. destruct Q; [lra|auto].
Qed.
