(** * Orthogonal arcs of a disc: when two of them cross. *)

From Coq Require Import Reals List Bool Lra Psatz.
From Verif Require Import Base BaseLemmas Spec SpecLemmas SpecHyperbolic ModelInternal ModelLine ModelCircle ModelInversion ModelHyperbolic PLine PCircle PCircle2.
Import ListNotations.
Local Open Scope R_scope.

Definition un (t : R) : pt := (cos t, sin t).
Definition gg (a b t : R) : R := sin ((t - a) / 2) * sin ((t - b) / 2).

Lemma gg_cos a b t : cos (t - (a + b) / 2) - cos ((a - b) / 2) = - 2 * gg a b t.
Proof.
  unfold gg. rewrite form2. replace ((t - (a + b) / 2 - (a - b) / 2) / 2) with ((t - a) / 2) by field.
  replace ((t - (a + b) / 2 + (a - b) / 2) / 2) with ((t - b) / 2) by field. ring.
Qed.

Lemma gg_un a b t t' : un t = un t' -> gg a b t = gg a b t'.
Proof.
  intros E. injection E as E1 E2. pose proof (gg_cos a b t). pose proof (gg_cos a b t').
  rewrite cos_minus, E1, E2, <- cos_minus in H. lra.
Qed.

Lemma sin_half_un t a : sin ((t - a) / 2) = 0 -> un t = un a.
Proof.
  intros E. unfold un. pose proof (form2 t a) as F1. pose proof (form4 t a) as F2. rewrite E in F1, F2. f_equal; lra.
Qed.

Lemma un_sin a b : un a = un b -> sin (a - b) = 0.
Proof. intros E. injection E as E1 E2. rewrite sin_minus, E1, E2. ring. Qed.

(** the arc through the points at the angles [a] and [b] *)
Definition arc_of (r a b : R) (A : arc) : Prop := orthogonal_through_two_points_on_circle (mkCircle (0, 0) r) a b true = Ok (OArc A).

Lemma arc_of_sin r a b A : 0 < r -> arc_of r a b A -> sin (a - b) <> 0.
Proof.
  intros Hr H E. unfold arc_of, orthogonal_through_two_points_on_circle in H.
  rewrite (proj2 (eqb_true _ 0)) in H by (apply pymod_PI_sin; auto). apply bind_Ok in H. destruct H as (l & _ & H). discriminate.
Qed.

Lemma arc_of_eq r a b A : 0 < r -> arc_of r a b A ->
  aO A = vscal (r / cos ((a - b) / 2)) (un ((a + b) / 2)) /\ ar A = r * Rabs (tan ((a - b) / 2)).
Proof.
  intros Hr H. pose proof (arc_of_sin r a b A Hr H) as Hs. unfold arc_of in H. rewrite ootp_eq in H by auto. injection H as <-. cbn [aO ar cO cr]. split; auto.
  unfold un. unpt. f_equal; ring.
Qed.

Lemma arc_of_exists r a b : 0 < r -> sin (a - b) <> 0 -> exists A, arc_of r a b A.
Proof. intros Hr Hs. unfold arc_of. rewrite ootp_eq by auto. eauto. Qed.

Lemma arc_of_line r a b A : 0 < r -> arc_of r a b A -> hyperbolic_line r A /\ joins A (vscal r (un a)) (vscal r (un b)).
Proof.
  intros Hr H. pose proof (arc_of_sin r a b A Hr H) as Hs.
  destruct (ootp_arc (mkCircle (0, 0) r) a b) as (A' & E & H1 & H2 & H3 & H4 & H5 & H6); [exact Hr| |].
  { change (circle_point_from_angle (mkCircle (0, 0) r) a false) with (at_angle (0, 0) r a). change (circle_point_from_angle (mkCircle (0, 0) r) b false) with (at_angle (0, 0) r b).
    cbn [cO]. rewrite collinear_angles; auto. }
  unfold arc_of in H. rewrite E in H. injection H as ->. cbn [cO cr] in *.
  assert (EP : forall t, circle_point_from_angle (mkCircle (0, 0) r) t false = vscal r (un t)).
  { intros t. unfold circle_point_from_angle, un, unit_vector_. cbn [cO cr]. unpt. f_equal; ring. }
  rewrite !EP in H4. split; [|exact H4]. split; auto. split; auto. intros t Ht. apply H6. exists t. split; auto.
Qed.

(** the centre is on the tangents of the circle at the two end points *)
Lemma arc_centre r a b A : 0 < r -> arc_of r a b A -> sdot (aO A) (un a) = r /\ sdot (aO A) (un b) = r.
Proof.
  intros Hr H. pose proof (arc_of_sin r a b A Hr H) as Hs. destruct (half_angle _ Hs) as [Hc _]. destruct (arc_of_eq r a b A Hr H) as [-> _].
  set (m := (a + b) / 2). set (h := (a - b) / 2) in *.
  replace a with (m + h) by (unfold m, h; field). replace b with (m - h) by (unfold m, h; field).
  unfold un. rewrite cos_plus, sin_plus, cos_minus, sin_minus. unfold sdot. unpt. pose proof (cs1 m) as K.
  split; transitivity (r / cos h * cos h * (cos m * cos m + sin m * sin m)); try ring; rewrite K; field; auto.
Qed.

Lemma arc_point r a b A M : 0 < r -> arc_of r a b A -> on_circle (aO A) (ar A) M -> sdot M M + r * r = 2 * sdot M (aO A).
Proof.
  intros Hr H HM. destruct (arc_of_line r a b A Hr H) as [(H1 & H2 & _) _].
  apply on_circle_sq in HM; [|lra]. revert HM H2. unfold circ_orthogonal. destruct M, (aO A). unspec. lra.
Qed.

Lemma same_ends r a b A a' b' A' : 0 < r -> arc_of r a b A -> arc_of r a' b' A' ->
  (un a' = un a /\ un b' = un b) \/ (un a' = un b /\ un b' = un a) -> aO A = aO A' /\ ar A = ar A'.
Proof.
  intros Hr H H' E. destruct (arc_centre r a b A Hr H) as [C1 C2]. destruct (arc_centre r a' b' A' Hr H') as [D1 D2].
  pose proof (arc_of_sin r a b A Hr H) as Hs. rewrite sin_minus in Hs.
  assert (K : sdot (aO A') (un a) = r /\ sdot (aO A') (un b) = r) by (destruct E as [[<- <-]|[<- <-]]; auto). destruct K as [K1 K2].
  assert (E0 : aO A = aO A').
  { destruct (aO A) as [x y], (aO A') as [x' y']. unfold un, sdot in *. cbn [fst snd] in *.
    assert (X : (x - x') * (sin a * cos b - cos a * sin b) = 0) by (transitivity (((x * cos b + y * sin b) - (x' * cos b + y' * sin b)) * sin a - ((x * cos a + y * sin a) - (x' * cos a + y' * sin a)) * sin b); [ring|rewrite C1, C2, K1, K2; ring]).
    assert (Y : (y - y') * (sin a * cos b - cos a * sin b) = 0) by (transitivity (((x * cos a + y * sin a) - (x' * cos a + y' * sin a)) * cos b - ((x * cos b + y * sin b) - (x' * cos b + y' * sin b)) * cos a); [ring|rewrite C1, C2, K1, K2; ring]).
    apply Rmult_integral in X, Y. f_equal; [destruct X|destruct Y]; lra. }
  split; auto. destruct (arc_of_line r a b A Hr H) as [(P1 & O1 & _) _]. destruct (arc_of_line r a' b' A' Hr H') as [(P2 & O2 & _) _].
  unfold circ_orthogonal in O1, O2. rewrite E0 in O1. rewrite O1 in O2. nra.
Qed.

(** two arcs that meet inside: their ends cannot be on the same side *)
Lemma meet_same_ends r a b A a' b' A' M : 0 < r -> arc_of r a b A -> arc_of r a' b' A' ->
  on_circle (aO A) (ar A) M -> on_circle (aO A') (ar A') M -> dist (0, 0) M < r ->
  (0 <= gg a b a' /\ 0 <= gg a b b') \/ (gg a b a' <= 0 /\ gg a b b' <= 0) ->
  (un a' = un a /\ un b' = un b) \/ (un a' = un b /\ un b' = un a).
Proof.
  intros Hr H H' HM HM' HI HG. pose proof (arc_of_sin r a b A Hr H) as Hs. pose proof (arc_of_sin r a' b' A' Hr H') as Hs'.
  pose proof (arc_point r a b A M Hr H HM) as E. pose proof (arc_point r a' b' A' M Hr H' HM') as E'.
  rewrite (proj1 (arc_of_eq r a b A Hr H)) in E. rewrite (proj1 (arc_of_eq r a' b' A' Hr H')) in E'.
  destruct (half_angle _ Hs) as [Hc _]. destruct (half_angle _ Hs') as [Hc' Hh'].
  assert (N : sdot M M < r * r).
  { assert (D : dist2 (0, 0) M = sdot M M) by (destruct M; unspec; ring). unfold dist in HI. rewrite D in HI.
    assert (0 <= sdot M M) by (destruct M; unfold sdot; cbn [fst snd]; nra). pose proof (sqrt_pos (sdot M M)). pose proof (sqrt_sqrt _ H0). nra. }
  assert (P0 : 0 <= sdot M M) by (destruct M; unfold sdot; cbn [fst snd]; nra).
  set (s := sdot M M + r * r) in *. assert (Ps : 0 < s) by (unfold s; nra).
  set (kx := 2 * r * fst M / s). set (ky := 2 * r * snd M / s).
  set (m := (a + b) / 2) in *. set (h := (a - b) / 2) in *. set (m' := (a' + b') / 2) in *. set (h' := (a' - b') / 2) in *.
  assert (K1 : kx * cos m + ky * sin m = cos h).
  { unfold kx, ky. apply (Rmult_eq_reg_r s); [|lra]. transitivity (2 * r * (fst M * cos m + snd M * sin m)); [field; lra|].
    transitivity (cos h * (2 * sdot M (vscal (r / cos h) (un m)))); [|rewrite <- E; ring].
    unfold un, sdot. unpt. field. auto. }
  assert (K2 : kx * cos m' + ky * sin m' = cos h').
  { unfold kx, ky. apply (Rmult_eq_reg_r s); [|lra]. transitivity (2 * r * (fst M * cos m' + snd M * sin m')); [field; lra|].
    transitivity (cos h' * (2 * sdot M (vscal (r / cos h') (un m')))); [|rewrite <- E'; ring].
    unfold un, sdot. unpt. field. auto. }
  assert (K3 : kx * kx + ky * ky < 1).
  { assert (Z : (kx * kx + ky * ky) * (s * s) < 1 * (s * s)).
    { unfold kx, ky. replace ((2 * r * fst M / s * (2 * r * fst M / s) + 2 * r * snd M / s * (2 * r * snd M / s)) * (s * s)) with (4 * (r * r) * sdot M M) by (unfold sdot; field; lra).
      unfold s. clear - N. assert (0 < (r * r - sdot M M) * (r * r - sdot M M)) by (apply Rmult_lt_0_compat; lra). lra. }
    apply Rmult_lt_reg_r in Z; auto. apply Rmult_lt_0_compat; auto. }
  set (tau := ky * cos m' - kx * sin m').
  assert (T : tau * tau < sin h' * sin h').
  { pose proof (cs1 m') as Q. pose proof (cs1 h') as Q2.
    assert (tau * tau + cos h' * cos h' = kx * kx + ky * ky).
    { rewrite <- K2. unfold tau. transitivity ((kx * kx + ky * ky) * (cos m' * cos m' + sin m' * sin m')); [ring|rewrite Q; ring]. }
    lra. }
  set (al := (1 + tau / sin h') / 2). set (be := (1 - tau / sin h') / 2).
  assert (B : -1 < tau / sin h' < 1).
  { assert (Z : (tau / sin h') * (tau / sin h') < 1).
    { apply (Rmult_lt_reg_r (sin h' * sin h')); [pose proof (Rle_0_sqr tau) as Q; unfold Rsqr in Q; lra|]. replace (tau / sin h' * (tau / sin h') * (sin h' * sin h')) with (tau * tau) by (field; auto). lra. }
    clear - Z. split; nra. }
  assert (Ax : kx = al * cos a' + be * cos b' /\ ky = al * sin a' + be * sin b').
  { replace a' with (m' + h') by (unfold m', h'; field). replace b' with (m' - h') by (unfold m', h'; field).
    rewrite cos_plus, cos_minus, sin_plus, sin_minus. pose proof (cs1 m') as Q. unfold al, be. split.
    - transitivity (cos m' * cos h' - tau * sin m'); [|field; auto]. rewrite <- K2. unfold tau.
      transitivity (kx * (cos m' * cos m' + sin m' * sin m')); [rewrite Q; ring|ring].
    - transitivity (sin m' * cos h' + tau * cos m'); [|field; auto]. rewrite <- K2. unfold tau.
      transitivity (ky * (cos m' * cos m' + sin m' * sin m')); [rewrite Q; ring|ring]. }
  assert (Z : al * gg a b a' + be * gg a b b' = 0).
  { pose proof (gg_cos a b a') as G1. pose proof (gg_cos a b b') as G2. fold m h in G1, G2. rewrite cos_minus in G1, G2.
    destruct Ax as [X Y]. rewrite X, Y in K1.
    assert (al + be = 1) by (unfold al, be; lra).
    assert (al * (cos a' * cos m + sin a' * sin m - cos h) + be * (cos b' * cos m + sin b' * sin m - cos h) = 0).
    { transitivity ((al * cos a' + be * cos b') * cos m + (al * sin a' + be * sin b') * sin m - (al + be) * cos h); [ring|rewrite K1, H0; ring]. }
    rewrite G1, G2 in H1. lra. }
  assert (Pal : 0 < al) by (unfold al; lra). assert (Pbe : 0 < be) by (unfold be; lra).
  assert (Z1 : gg a b a' = 0) by (clear - HG Pal Pbe Z; destruct HG as [[]|[]]; nra).
  assert (Z2 : gg a b b' = 0) by (clear - HG Pal Pbe Z; destruct HG as [[]|[]]; nra).
  unfold gg in Z1, Z2. apply Rmult_integral in Z1, Z2.
  destruct Z1 as [Z1|Z1], Z2 as [Z2|Z2]; apply sin_half_un in Z1, Z2; auto; exfalso; apply Hs'; apply un_sin; congruence.
Qed.
