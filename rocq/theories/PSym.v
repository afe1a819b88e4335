(** * Similarities and the triangle: what depends on distances only is preserved. *)

From Coq Require Import Reals Lra Lia Psatz List Bool ZArith.
From Verif Require Import Base BaseLemmas Spec SpecLemmas SpecTriangle SpecSym ModelInternal ModelLine ModelCircle ModelAffine ModelEllipse ModelTransfo ModelTriangle PLine PTriangle.
Import ListNotations.
Local Open Scope R_scope.

(** ** The form of a similarity *)

Lemma sq_zero x : x * x = 0 -> x = 0.
Proof. intros H. destruct (Req_dec x 0); auto. exfalso. pose proof (Rsqr_pos_lt x H0). unfold Rsqr in *. lra. Qed.

Lemma sum_sq_zero x y : x * x + y * y = 0 -> x = 0 /\ y = 0.
Proof. intros H. pose proof (Rle_0_sqr x). pose proof (Rle_0_sqr y). unfold Rsqr in *. split; apply sq_zero; lra. Qed.

Lemma similarity_form s f : similarity s f -> exists c d e t, c * c + d * d = 1 /\ (e = 1 \/ e = -1) /\
  forall P, f P = (s * (c * fst P - e * (d * snd P)) + fst t, s * (d * fst P + e * (c * snd P)) + snd t).
Proof.
  intros [Hs H].
  assert (H2 : forall P Q, dist2 (f P) (f Q) = s * s * dist2 P Q).
  { intros P Q. rewrite <- !dist_sq, H. ring. }
  set (t := f (0, 0)).
  pose proof (H2 (0, 0) (1, 0)) as E1. pose proof (H2 (0, 0) (0, 1)) as E2. pose proof (H2 (1, 0) (0, 1)) as E3.
  fold t in E1, E2.
  destruct (f (1, 0)) as [p q] eqn:F1. destruct (f (0, 1)) as [u v] eqn:F2. destruct t as [t1 t2] eqn:Ft.
  unfold dist2, sdot, vsub in E1, E2, E3. cbn [fst snd] in *.
  set (c := (p - t1) / s). set (d := (q - t2) / s). set (g := (u - t1) / s). set (h := (v - t2) / s).
  assert (Hp : p = s * c + t1) by (unfold c; field; lra). assert (Hq : q = s * d + t2) by (unfold d; field; lra).
  assert (Hu : u = s * g + t1) by (unfold g; field; lra). assert (Hv : v = s * h + t2) by (unfold h; field; lra).
  clearbody c d g h. subst p q u v.
  assert (S2 : s * s <> 0) by nra.
  assert (C1 : c * c + d * d = 1). { apply (Rmult_eq_reg_l (s * s)); [|exact S2]. lra. }
  assert (C2 : g * g + h * h = 1). { apply (Rmult_eq_reg_l (s * s)); [|exact S2]. lra. }
  assert (C3 : c * g + d * h = 0). { assert (s * s * ((g - c) * (g - c) + (h - d) * (h - d)) = s * s * 2) by lra.
    apply Rmult_eq_reg_l in H0; [|exact S2]. lra. }
  assert (He : exists e, (e = 1 \/ e = -1) /\ g = - (e * d) /\ h = e * c).
  { exists (c * h - d * g). 
    assert (G : g = - ((c * h - d * g) * d)). { transitivity (g * (c * c + d * d)); [rewrite C1; ring|]. transitivity (c * (c * g + d * h) - (c * h - d * g) * d); [ring|rewrite C3; ring]. }
    assert (K : h = (c * h - d * g) * c). { transitivity (h * (c * c + d * d)); [rewrite C1; ring|]. transitivity (d * (c * g + d * h) + (c * h - d * g) * c); [ring|rewrite C3; ring]. }
    split; [|split; assumption].
    set (e := c * h - d * g) in *.
    assert (e * e = 1). { transitivity (e * e * (c * c + d * d)); [rewrite C1; ring|]. transitivity (g * g + h * h); [|exact C2]. rewrite G, K at 1. fold e. rewrite K at 1. rewrite G at 1. ring. }
    assert ((e - 1) * (e + 1) = 0) by lra. apply Rmult_integral in H1 as [|]; [left|right]; lra. }
  destruct He as (e & He & G & K). exists c, d, e, (t1, t2). split; [exact C1|]. split; [exact He|].
  intros [x y]. cbn [fst snd].
  pose proof (H2 (0, 0) (x, y)) as A0. pose proof (H2 (1, 0) (x, y)) as A1. pose proof (H2 (0, 1) (x, y)) as A2.
  rewrite F1 in A1. rewrite F2 in A2. fold t in A0. rewrite Ft in A0. destruct (f (x, y)) as [X Y].
  unfold dist2, sdot, vsub in A0, A1, A2. cbn [fst snd] in *.
  set (a := X - t1) in *. set (b := Y - t2) in *.
  replace (X - (s * c + t1)) with (a - s * c) in A1 by (unfold a; ring). replace (Y - (s * d + t2)) with (b - s * d) in A1 by (unfold b; ring).
  replace (X - (s * g + t1)) with (a - s * g) in A2 by (unfold a; ring). replace (Y - (s * h + t2)) with (b - s * h) in A2 by (unfold b; ring).
  assert (I1 : a * c + b * d = s * x). { apply (Rmult_eq_reg_l s); [|lra]. assert (s * s * (c * c + d * d) = s * s) by (rewrite C1; ring). nra. }
  assert (I2 : a * g + b * h = s * y). { apply (Rmult_eq_reg_l s); [|lra]. assert (s * s * (g * g + h * h) = s * s) by (rewrite C2; ring). nra. }
  assert (e * e = 1) by (destruct He; subst e; ring).
  assert (Za : a = s * (c * x - e * (d * y))).
  { transitivity ((a * c + b * d) * c + (a * g + b * h) * g); [|rewrite I1, I2, G; ring].
    transitivity (a * (c * c + (e * e) * (d * d)) + b * (d * c + g * h)); [rewrite H0, G, K; transitivity (a * (c * c + d * d)); [rewrite C1; ring|]|].
    { transitivity (a * (c * c + 1 * (d * d)) + b * (d * c - (e * e) * (d * c))); [rewrite H0; ring|ring]. }
    rewrite G. ring. }
  assert (Zb : b = s * (d * x + e * (c * y))).
  { transitivity ((a * c + b * d) * d + (a * g + b * h) * h); [|rewrite I1, I2, K; ring].
    transitivity (b * (c * c + d * d)); [rewrite C1; ring|].
    transitivity (b * (d * d + (e * e) * (c * c)) + a * (c * d - (e * e) * (c * d))); [rewrite H0; ring|]. rewrite G, K. ring. }
  f_equal; unfold a, b in *; lra.
Qed.
