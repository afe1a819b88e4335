(** * Proofs about mid-circles, orthogonal circles, random points and arcs
    (C13, C18, C20 (circle), C21). *)

From Coq Require Import Reals Lra Lia Psatz List Bool ZArith.
From Verif Require Import Base BaseLemmas Spec SpecLemmas ModelInternal ModelLine ModelCircle PLine PCircle PInvBase.
Import ListNotations.
Local Open Scope R_scope.

(** ** C13 *)

(** the reflection or inversion of the returned object exchanges the circles *)
Definition swaps (g : gcircle) (O1 : pt) (r1 : R) (O2 : pt) (r2 : R) : Prop :=
  match g with
  | GC c => 0 < cr c /\ inv_maps (cO c) (cr c ^ 2) O1 r1 O2 r2 /\ inv_maps (cO c) (cr c ^ 2) O2 r2 O1 r1
  | GL l => lA l <> lB l /\ mirror_maps (lA l) (lB l) O1 r1 O2 r2 /\ mirror_maps (lA l) (lB l) O2 r2 O1 r1
  end.

Definition Iext (c1 c2 : circle) : pt :=
  let rho := cr c1 / cr c2 in vsub (cO c1) (vscal (rho / (1 - rho)) (vsub (cO c2) (cO c1))).
Definition Iint (c1 c2 : circle) : pt :=
  let rho := cr c1 / cr c2 in vadd (cO c1) (vscal (rho / (1 + rho)) (vsub (cO c2) (cO c1))).

Lemma Iext_pow c1 c2 : 0 < cr c1 -> 0 < cr c2 -> cr c1 <> cr c2 ->
  let I := Iext c1 c2 in
  let rho := cr c1 / cr c2 in
  vsub (cO c1) I = vscal rho (vsub (cO c2) I) /\
  pow_circle (cO c1) (cr c1) I = rho * rho * pow_circle (cO c2) (cr c2) I /\
  pow_circle (cO c2) (cr c2) I * ((cr c2 - cr c1) * (cr c2 - cr c1)) =
    (dist2 (cO c1) (cO c2) - (cr c1 - cr c2) ^ 2) * (cr c2 * cr c2).
Proof.
  intros H1 H2 Hn I rho. unfold I, Iext, pow_circle. fold rho.
  assert (H : 1 - rho <> 0).
  { unfold rho. intros E. apply Hn. apply (Rmult_eq_reg_r (/ cr c2)); [|apply Rinv_neq_0_compat; lra].
    rewrite Rinv_r by lra. unfold Rdiv in E. lra. }
  assert (Er : cr c1 = rho * cr c2) by (unfold rho; field; lra).
  split; [|split].
  - unspec. f_equal; field; auto.
  - rewrite Er. unspec. field; auto.
  - rewrite Er. unspec. field; auto.
Qed.

Lemma Iint_pow c1 c2 : 0 < cr c1 -> 0 < cr c2 ->
  let I := Iint c1 c2 in
  let rho := cr c1 / cr c2 in
  vsub (cO c1) I = vscal (- rho) (vsub (cO c2) I) /\
  pow_circle (cO c1) (cr c1) I = rho * rho * pow_circle (cO c2) (cr c2) I /\
  pow_circle (cO c2) (cr c2) I * ((cr c2 + cr c1) * (cr c2 + cr c1)) =
    (dist2 (cO c1) (cO c2) - (cr c1 + cr c2) ^ 2) * (cr c2 * cr c2).
Proof.
  intros H1 H2 I rho. unfold I, Iint, pow_circle. fold rho.
  assert (Hr : 0 < rho) by (unfold rho; apply Rdiv_lt_0_compat; auto).
  assert (Er : cr c1 = rho * cr c2) by (unfold rho; field; lra).
  split; [|split].
  - unspec. f_equal; field; lra.
  - rewrite Er. unspec. field; lra.
  - rewrite Er. unspec. field; lra.
Qed.

(** the two similarity conditions under which the inversion exchanges the circles *)
Lemma swap_of_similar I k (sg : R) c1 c2 : 0 < cr c1 -> 0 < cr c2 -> sg = 1 \/ sg = -1 ->
  let rho := cr c1 / cr c2 in
  vsub (cO c1) I = vscal (sg * rho) (vsub (cO c2) I) ->
  pow_circle (cO c1) (cr c1) I = rho * rho * pow_circle (cO c2) (cr c2) I ->
  k = sg * (rho * pow_circle (cO c2) (cr c2) I) -> k <> 0 ->
  inv_maps I k (cO c1) (cr c1) (cO c2) (cr c2).
Proof.
  intros H1 H2 Hsg rho HO HD Hk Hk0.
  assert (Hr : 0 < rho) by (unfold rho; apply Rdiv_lt_0_compat; auto).
  assert (Hsg2 : sg * sg = 1) by (destruct Hsg; subst; ring).
  assert (HD2 : pow_circle (cO c2) (cr c2) I <> 0) by (intros E; apply Hk0; rewrite Hk, E; ring).
  assert (HD1 : pow_circle (cO c1) (cr c1) I <> 0).
  { rewrite HD. apply Rmult_integral_contrapositive_currified; auto. nra. }
  pose proof (inv_maps_image I k (cO c1) (cr c1) Hk0 H1 HD1) as K. cbv zeta in K.
  assert (Es : inv_scale I k (cO c1) (cr c1) = sg / rho).
  { unfold inv_scale. rewrite HD, Hk. field. lra. }
  rewrite Es, HO in K.
  replace (vadd I (vscal (sg / rho) (vscal (sg * rho) (vsub (cO c2) I)))) with (cO c2) in K.
  - replace (Rabs (sg / rho) * cr c1) with (cr c2) in K; auto.
    unfold Rdiv. rewrite Rabs_mult, (Rabs_right (/ rho)) by (left; apply Rinv_0_lt_compat; auto).
    replace (Rabs sg) with 1 by (destruct Hsg; subst; split_Rabs; lra). unfold rho. field. lra.
  - destruct (cO c2) as [a b], I as [i1 i2]. unpt. f_equal.
    + transitivity (i1 + (sg * sg) * (a - i1)); [rewrite Hsg2; ring|]. field; lra.
    + transitivity (i2 + (sg * sg) * (b - i2)); [rewrite Hsg2; ring|]. field; lra.
Qed.

(** conversely *)
Lemma swap_similar I k c1 c2 : 0 < cr c1 -> 0 < cr c2 -> cr c1 <> cr c2 -> 0 < k ->
  inv_maps I k (cO c1) (cr c1) (cO c2) (cr c2) ->
  let rho := cr c1 / cr c2 in
  (I = Iext c1 c2 /\ k = rho * pow_circle (cO c2) (cr c2) I) \/
  (I = Iint c1 c2 /\ k = - (rho * pow_circle (cO c2) (cr c2) I)).
Proof.
  intros H1 H2 Hn Hk HM rho.
  destruct (inv_maps_unique I k _ _ _ _ ltac:(lra) H1 H2 HM) as (HD & HO & Hr).
  set (s := inv_scale I k (cO c1) (cr c1)) in *.
  assert (Hrho : 0 < rho) by (unfold rho; apply Rdiv_lt_0_compat; auto).
  assert (Er : cr c1 = rho * cr c2) by (unfold rho; field; lra).
  assert (Ek : k = s * pow_circle (cO c1) (cr c1) I) by (unfold s, inv_scale; field; auto).
  assert (Habs : Rabs s * rho = 1).
  { rewrite Er in Hr. apply (Rmult_eq_reg_r (cr c2)); lra. }
  assert (Hrn : rho <> 1) by (intros E; apply Hn; rewrite Er, E; ring).
  destruct (cO c1) as [x1 y1] eqn:E1, (cO c2) as [x2 y2] eqn:E2, I as [i1 i2].
  unfold vadd, vsub, vscal in HO; cbn [fst snd] in HO; injection HO as X Y.
  destruct (Rle_dec 0 s) as [Hs|Hs].
  - left. rewrite Rabs_right in Habs by lra.
    assert (Es : s = / rho) by (apply (Rmult_eq_reg_r rho); try lra; rewrite Rinv_l; lra).
    assert (HI : (i1, i2) = Iext c1 c2).
    { unfold Iext. rewrite E1, E2. fold rho. unpt. rewrite X, Y, Es.
      apply pair_eq; field; lra. }
    split; auto. destruct (Iext_pow c1 c2 H1 H2 Hn) as (_ & P & _). fold rho in P. rewrite <- HI, E1, E2 in P.
    rewrite Ek, P, Es. field. lra.
  - right. rewrite Rabs_left in Habs by lra.
    assert (Es : s = - / rho) by (apply (Rmult_eq_reg_r rho); try lra; rewrite Ropp_mult_distr_l_reverse, Rinv_l; lra).
    assert (HI : (i1, i2) = Iint c1 c2).
    { unfold Iint. rewrite E1, E2. fold rho. unpt. rewrite X, Y, Es.
      apply pair_eq; field; lra. }
    split; auto. destruct (Iint_pow c1 c2 H1 H2) as (_ & P & _). fold rho in P. rewrite <- HI, E1, E2 in P.
    rewrite Ek, P, Es. field. lra.
Qed.

(** the circle computed by the code from a similarity centre *)
Definition mid_of (c2 : circle) (rho : R) (I : pt) : R :=
  sqrt (rho * Rabs (dot_ (vsub I (cO c2)) (vsub I (cO c2)) - cr c2 * cr c2)).

Lemma mid_of_eq c2 rho I : mid_of c2 rho I = sqrt (rho * Rabs (pow_circle (cO c2) (cr c2) I)).
Proof. unfold mid_of, pow_circle. rewrite dot_dist2. do 3 f_equal. ring. Qed.

Lemma Circle_init_mid c2 rho I : 0 < rho -> pow_circle (cO c2) (cr c2) I <> 0 ->
  Circle_init I (mid_of c2 rho I) = Ok (mkCircle I (mid_of c2 rho I)) /\ 0 < mid_of c2 rho I /\
  mid_of c2 rho I ^ 2 = rho * Rabs (pow_circle (cO c2) (cr c2) I).
Proof.
  intros Hr HD. rewrite mid_of_eq.
  assert (0 < rho * Rabs (pow_circle (cO c2) (cr c2) I)) by (apply Rmult_lt_0_compat; auto; apply Rabs_pos_lt; auto).
  assert (0 < sqrt (rho * Rabs (pow_circle (cO c2) (cr c2) I))) by (apply sqrt_lt_R0; auto).
  rewrite Circle_init_pos by auto. repeat split; auto. simpl. rewrite Rmult_1_r. apply sqrt_sqrt. lra.
Qed.

Lemma ext_swaps c1 c2 : 0 < cr c1 -> 0 < cr c2 -> cr c1 <> cr c2 ->
  (cr c1 - cr c2) ^ 2 < dist2 (cO c1) (cO c2) ->
  let rho := cr c1 / cr c2 in
  let c := mkCircle (Iext c1 c2) (mid_of c2 rho (Iext c1 c2)) in
  Circle_init (Iext c1 c2) (mid_of c2 rho (Iext c1 c2)) = Ok c /\
  swaps (GC c) (cO c1) (cr c1) (cO c2) (cr c2).
Proof.
  intros H1 H2 Hn Hd rho c. destruct (Iext_pow c1 c2 H1 H2 Hn) as (A & B & D). fold rho in A, B.
  assert (Hrho : 0 < rho) by (unfold rho; apply Rdiv_lt_0_compat; auto).
  assert (HD : 0 < pow_circle (cO c2) (cr c2) (Iext c1 c2)).
  { pose proof (sqpos (cr c2 - cr c1) ltac:(lra)). apply (Rmult_lt_reg_r ((cr c2 - cr c1) * (cr c2 - cr c1))); auto.
    rewrite D, Rmult_0_l. apply Rmult_lt_0_compat; nra. }
  destruct (Circle_init_mid c2 rho (Iext c1 c2) Hrho ltac:(lra)) as (E & Hp & Hq).
  split; auto. unfold swaps, c; cbn [cO cr].
  assert (K : inv_maps (Iext c1 c2) (mid_of c2 rho (Iext c1 c2) ^ 2) (cO c1) (cr c1) (cO c2) (cr c2)).
  { apply (swap_of_similar (Iext c1 c2) _ 1); auto.
    - fold rho. rewrite Rmult_1_l. auto.
    - rewrite Hq, Rabs_right by lra. fold rho. ring.
    - rewrite Hq. pose proof (Rabs_pos_lt (pow_circle (cO c2) (cr c2) (Iext c1 c2)) ltac:(lra)). nra. }
  split; [auto|]. split; [exact K|]. apply inv_maps_sym; [rewrite Hq|exact K].
  pose proof (Rabs_pos_lt (pow_circle (cO c2) (cr c2) (Iext c1 c2)) ltac:(lra)). nra.
Qed.

Lemma int_swaps c1 c2 : 0 < cr c1 -> 0 < cr c2 ->
  dist2 (cO c1) (cO c2) < (cr c1 + cr c2) ^ 2 ->
  let rho := cr c1 / cr c2 in
  let c := mkCircle (Iint c1 c2) (mid_of c2 rho (Iint c1 c2)) in
  Circle_init (Iint c1 c2) (mid_of c2 rho (Iint c1 c2)) = Ok c /\
  swaps (GC c) (cO c1) (cr c1) (cO c2) (cr c2).
Proof.
  intros H1 H2 Hd rho c. destruct (Iint_pow c1 c2 H1 H2) as (A & B & D). fold rho in A, B.
  assert (Hrho : 0 < rho) by (unfold rho; apply Rdiv_lt_0_compat; auto).
  assert (HD : pow_circle (cO c2) (cr c2) (Iint c1 c2) < 0).
  { pose proof (sqpos (cr c2 + cr c1) ltac:(lra)). apply (Rmult_lt_reg_r ((cr c2 + cr c1) * (cr c2 + cr c1))); auto.
    rewrite D, Rmult_0_l. assert (0 < cr c2 * cr c2) by nra. nra. }
  destruct (Circle_init_mid c2 rho (Iint c1 c2) Hrho ltac:(lra)) as (E & Hp & Hq).
  split; auto. unfold swaps, c; cbn [cO cr].
  assert (K : inv_maps (Iint c1 c2) (mid_of c2 rho (Iint c1 c2) ^ 2) (cO c1) (cr c1) (cO c2) (cr c2)).
  { apply (swap_of_similar (Iint c1 c2) _ (-1)); auto.
    - fold rho. replace (-1 * rho) with (- rho) by ring. auto.
    - rewrite Hq, Rabs_left by lra. fold rho. ring.
    - rewrite Hq. pose proof (Rabs_pos_lt (pow_circle (cO c2) (cr c2) (Iint c1 c2)) ltac:(lra)). nra. }
  split; [auto|]. split; [exact K|]. apply inv_maps_sym; [rewrite Hq|exact K].
  pose proof (Rabs_pos_lt (pow_circle (cO c2) (cr c2) (Iint c1 c2)) ltac:(lra)). nra.
Qed.

(** unequal radii: which circles are returned *)
Definition ext_circ c1 c2 := GC (mkCircle (Iext c1 c2) (mid_of c2 (cr c1 / cr c2) (Iext c1 c2))).
Definition int_circ c1 c2 := GC (mkCircle (Iint c1 c2) (mid_of c2 (cr c1 / cr c2) (Iint c1 c2))).

Lemma mid_circles_unequal c1 c2 : 0 < cr c1 -> 0 < cr c2 -> cr c1 <> cr c2 ->
  sepsilon_ <= 4 * cr c1 * cr c2 ->
  let d2 := dist2 (cO c1) (cO c2) in
  let s := (cr c1 + cr c2) ^ 2 in
  let m := (cr c1 - cr c2) ^ 2 in
  (s - sepsilon_ < d2 -> mid_circles c1 c2 = Ok [ext_circ c1 c2]) /\
  (d2 < m + sepsilon_ -> d2 <= s - sepsilon_ -> mid_circles c1 c2 = Ok [int_circ c1 c2]) /\
  (m + sepsilon_ <= d2 <= s - sepsilon_ -> mid_circles c1 c2 = Ok [ext_circ c1 c2; int_circ c1 c2]).
Proof.
  intros H1 H2 Hn He d2 s m. pose proof sepsilon_pos as He0.
  assert (Hsm : s = m + 4 * cr c1 * cr c2) by (unfold s, m; ring).
  unfold mid_circles. rewrite (proj2 (eqb_false _ _) Hn). rewrite dot_dist2'. fold d2. fold s. fold m.
  fold (Iext c1 c2). fold (Iint c1 c2). fold (mid_of c2 (cr c1 / cr c2) (Iext c1 c2)).
  fold (mid_of c2 (cr c1 / cr c2) (Iint c1 c2)).
  assert (KE : m < d2 -> Circle_init (Iext c1 c2) (mid_of c2 (cr c1 / cr c2) (Iext c1 c2)) =
     Ok (mkCircle (Iext c1 c2) (mid_of c2 (cr c1 / cr c2) (Iext c1 c2)))) by (intros K; apply (ext_swaps c1 c2 H1 H2 Hn K)).
  assert (KI : d2 < s -> Circle_init (Iint c1 c2) (mid_of c2 (cr c1 / cr c2) (Iint c1 c2)) =
     Ok (mkCircle (Iint c1 c2) (mid_of c2 (cr c1 / cr c2) (Iint c1 c2)))) by (intros K; apply (int_swaps c1 c2 H1 H2 K)).
  split; [|split].
  - intros K. rewrite KE by lra. cbn [bind].
    destruct (ltb (s + sepsilon_) d2) eqn:E1; auto. apply ltb_false in E1.
    rewrite (proj2 (ltb_false d2 _)) by lra.
    rewrite (proj2 (ltb_true (s - d2) _)) by lra. auto.
  - intros K K'. rewrite KI by lra. cbn [bind].
    rewrite (proj2 (ltb_false _ d2)) by lra.
    destruct (ltb d2 (m - sepsilon_)) eqn:E1; auto. apply ltb_false in E1.
    rewrite (proj2 (ltb_false (s - d2) _)) by lra.
    rewrite (proj2 (ltb_true (d2 - m) _)) by lra. auto.
  - intros K. rewrite KE, KI by lra. cbn [bind].
    rewrite (proj2 (ltb_false _ d2)) by lra. rewrite (proj2 (ltb_false d2 _)) by lra.
    rewrite (proj2 (ltb_false (s - d2) _)) by lra. rewrite (proj2 (ltb_false (d2 - m) _)) by lra. auto.
Qed.

(** equal radii *)
Lemma mid_circles_equal c1 c2 : 0 < cr c1 -> cr c1 = cr c2 -> allclose (cO c1) (cO c2) = false ->
  let v := (snd (cO c2) - snd (cO c1), - (fst (cO c2) - fst (cO c1))) in
  let I := midpoint (cO c1) (cO c2) in
  let l := mkLine (vadd I v) (vsub I v) true true in
  (allclose (vadd I v) (vsub I v) = true -> mid_circles c1 c2 = Raise ValueError) /\
  (allclose (vadd I v) (vsub I v) = false ->
     swaps (GL l) (cO c1) (cr c1) (cO c2) (cr c2) /\
     ((cr c1 + cr c2) ^ 2 <= dist2 (cO c1) (cO c2) -> mid_circles c1 c2 = Ok [GL l]) /\
     (dist2 (cO c1) (cO c2) < (cr c1 + cr c2) ^ 2 ->
        mid_circles c1 c2 = Ok [int_circ c1 c2; GL l])).
Proof.
  intros H1 Er Ha v I l. unfold mid_circles. rewrite (proj2 (eqb_true _ _) Er), Ha.
  destruct (vsub (cO c2) (cO c1)) as [x y] eqn:Exy.
  assert (Ex : x = fst (cO c2) - fst (cO c1)) by (unfold vsub in Exy; inversion Exy; auto).
  assert (Ey : y = snd (cO c2) - snd (cO c1)) by (unfold vsub in Exy; inversion Exy; auto).
  rewrite half_mid, dot_dist2'. fold I. replace (y, - x) with v by (unfold v; rewrite Ex, Ey; auto).
  assert (H2 : 0 < cr c2) by lra.
  split; intros Hc; unfold Line_init; rewrite Hc; cbn [bind]; auto. fold l.
  assert (Hne : lA l <> lB l) by (apply allclose_false_neq; auto).
  split; [|split].
  - assert (M1 : mirror (lA l) (lB l) (cO c1) (cO c2)).
    { split.
      - exists (/ 2). unfold l; cbn [lA lB]. fold I. destruct I, v; unspec. f_equal; field.
      - unfold l, v; cbn [lA lB]. unspec. ring. }
    assert (M2 : mirror (lA l) (lB l) (cO c2) (cO c1)).
    { split.
      - exists (/ 2). unfold l; cbn [lA lB]. replace (midpoint (cO c2) (cO c1)) with I by (unfold I, midpoint; f_equal; field).
        destruct I, v; unspec. f_equal; field.
      - unfold l, v; cbn [lA lB]. unspec. ring. }
    unfold swaps. split; auto. rewrite Er. split; apply mirror_maps_of_centers; auto; lra.
  - intros K. rewrite (proj2 (ltb_false _ _) K). auto.
  - intros K. rewrite (proj2 (ltb_true _ _) K).
    assert (EI : Iint c1 c2 = I).
    { unfold Iint, I. rewrite Er. unspec. f_equal; field; lra. }
    assert (Em : mid_of c2 (cr c1 / cr c2) (Iint c1 c2) = sqrt (Rabs (dot_ (vsub I (cO c2)) (vsub I (cO c2)) - cr c2 * cr c2))).
    { unfold mid_of. rewrite EI, Er. f_equal. field. lra. }
    unfold int_circ. rewrite Em, EI. rewrite <- Em, <- EI.
    rewrite (proj1 (int_swaps c1 c2 H1 H2 K)). auto.
Qed.

Lemma self_inversion c : 0 < cr c -> inv_maps (cO c) (cr c ^ 2) (cO c) (cr c) (cO c) (cr c).
Proof.
  intros H.
  assert (EP : pow_circle (cO c) (cr c) (cO c) = - cr c ^ 2) by (unfold pow_circle; unspec; ring).
  assert (Hp : 0 < cr c ^ 2) by nra.
  pose proof (inv_maps_image (cO c) (cr c ^ 2) (cO c) (cr c) ltac:(lra) H ltac:(lra)) as K. cbv zeta in K.
  unfold inv_scale in K. rewrite EP in K.
  replace (cr c ^ 2 / - cr c ^ 2) with (-1) in K by (field; lra).
  replace (Rabs (-1)) with 1 in K by (split_Rabs; lra). rewrite Rmult_1_l in K.
  replace (vadd (cO c) (vscal (-1) (vsub (cO c) (cO c)))) with (cO c) in K; auto.
  destruct (cO c); unpt; f_equal; ring.
Qed.

Lemma mid_circles_sound c1 c2 gs g : 0 < cr c1 -> 0 < cr c2 ->
  cr c1 = cr c2 \/ sepsilon_ <= 4 * cr c1 * cr c2 ->
  cr c1 <> cr c2 \/ cO c1 = cO c2 \/ allclose (cO c1) (cO c2) = false ->
  mid_circles c1 c2 = Ok gs -> In g gs -> swaps g (cO c1) (cr c1) (cO c2) (cr c2).
Proof.
  intros H1 H2 Ht Hc HE HI.
  destruct (Req_dec (cr c1) (cr c2)) as [Er|Er].
  - destruct Hc as [Hc|Hc]; [contradiction|].
    destruct (allclose (cO c1) (cO c2)) eqn:Ha.
    + destruct Hc as [Hc|Hc]; [|discriminate].
      unfold mid_circles in HE. rewrite (proj2 (eqb_true _ _) Er), Ha in HE. inversion HE; subst gs.
      destruct HI as [<-|[]]. unfold swaps. rewrite <- Er, <- Hc. split; auto. split; apply self_inversion; auto.
    + destruct (mid_circles_equal c1 c2 H1 Er Ha) as [K1 K2].
      destruct (allclose (vadd (midpoint (cO c1) (cO c2)) _) _) eqn:Hl in K1, K2.
      { rewrite (K1 eq_refl) in HE. discriminate. }
      destruct (K2 eq_refl) as (S & L1 & L2). clear K1 K2.
      destruct (Rlt_dec (dist2 (cO c1) (cO c2)) ((cr c1 + cr c2) ^ 2)) as [Hd|Hd].
      * rewrite (L2 Hd) in HE. inversion HE; subst gs. destruct HI as [<-|[<-|[]]]; auto.
        apply (int_swaps c1 c2 H1 H2 Hd).
      * rewrite L1 in HE by lra. inversion HE; subst gs. destruct HI as [<-|[]]; auto.
  - destruct Ht as [Ht|Ht]; [contradiction|].
    destruct (mid_circles_unequal c1 c2 H1 H2 Er Ht) as (K1 & K2 & K3). cbv zeta in *. pose proof sepsilon_pos as He0.
    assert (Hsm : (cr c1 + cr c2) ^ 2 = (cr c1 - cr c2) ^ 2 + 4 * cr c1 * cr c2) by ring.
    pose proof (ext_swaps c1 c2 H1 H2 Er) as SE. pose proof (int_swaps c1 c2 H1 H2) as SI. cbv zeta in SE, SI.
    destruct (Rlt_dec ((cr c1 + cr c2) ^ 2 - sepsilon_) (dist2 (cO c1) (cO c2))) as [D1|D1];
      [|destruct (Rlt_dec (dist2 (cO c1) (cO c2)) ((cr c1 - cr c2) ^ 2 + sepsilon_)) as [D2|D2]].
    + rewrite K1 in HE by auto. inversion HE; subst gs. destruct HI as [<-|[]]. apply SE. lra.
    + rewrite K2 in HE by lra. inversion HE; subst gs. destruct HI as [<-|[]]. apply SI. lra.
    + rewrite K3 in HE by lra. inversion HE; subst gs. destruct HI as [<-|[<-|[]]]; [apply SE|apply SI]; lra.
Qed.

(** totality, and the number of results *)
Lemma mid_circles_total c1 c2 : 0 < cr c1 -> 0 < cr c2 -> cr c1 <> cr c2 -> sepsilon_ <= 4 * cr c1 * cr c2 ->
  exists gs, mid_circles c1 c2 = Ok gs /\
   (length gs = 2%nat <->
      (cr c1 - cr c2) ^ 2 + sepsilon_ <= dist2 (cO c1) (cO c2) <= (cr c1 + cr c2) ^ 2 - sepsilon_) /\
   (length gs = 1%nat \/ length gs = 2%nat).
Proof.
  intros H1 H2 Er Ht. pose proof sepsilon_pos as He0.
  destruct (mid_circles_unequal c1 c2 H1 H2 Er Ht) as (K1 & K2 & K3). cbv zeta in *.
  destruct (Rlt_dec ((cr c1 + cr c2) ^ 2 - sepsilon_) (dist2 (cO c1) (cO c2))) as [D1|D1];
      [|destruct (Rlt_dec (dist2 (cO c1) (cO c2)) ((cr c1 - cr c2) ^ 2 + sepsilon_)) as [D2|D2]].
  - eexists. split; [apply K1; auto|]. split; [|left; reflexivity]. split; [discriminate|]. intros; lra.
  - eexists. split; [apply K2; lra|]. split; [|left; reflexivity]. split; [discriminate|]. intros; lra.
  - eexists. split; [apply K3; lra|]. split; [|right; reflexivity]. split; [intros; lra|reflexivity].
Qed.

(** every inversion exchanging the two circles is found, outside the tolerance bands *)
Lemma mid_circles_complete c1 c2 I R0 : 0 < cr c1 -> 0 < cr c2 -> cr c1 <> cr c2 ->
  sepsilon_ <= 4 * cr c1 * cr c2 -> 0 < R0 ->
  ~ ((cr c1 + cr c2) ^ 2 - sepsilon_ < dist2 (cO c1) (cO c2) < (cr c1 + cr c2) ^ 2) ->
  ~ ((cr c1 - cr c2) ^ 2 < dist2 (cO c1) (cO c2) < (cr c1 - cr c2) ^ 2 + sepsilon_) ->
  inv_maps I (R0 ^ 2) (cO c1) (cr c1) (cO c2) (cr c2) ->
  exists gs, mid_circles c1 c2 = Ok gs /\ In (GC (mkCircle I R0)) gs.
Proof.
  intros H1 H2 Er Ht HR B1 B2 HM. pose proof sepsilon_pos as He0.
  assert (Hsm : (cr c1 + cr c2) ^ 2 = (cr c1 - cr c2) ^ 2 + 4 * cr c1 * cr c2) by ring.
  destruct (mid_circles_unequal c1 c2 H1 H2 Er Ht) as (K1 & K2 & K3). cbv zeta in *.
  assert (Hk : 0 < R0 ^ 2) by nra.
  assert (Hrho : 0 < cr c1 / cr c2) by (apply Rdiv_lt_0_compat; auto).
  destruct (swap_similar I (R0 ^ 2) c1 c2 H1 H2 Er Hk HM) as [[HI E]|[HI E]].
  - destruct (Iext_pow c1 c2 H1 H2 Er) as (_ & _ & D). rewrite <- HI in D.
    assert (HD : 0 < pow_circle (cO c2) (cr c2) I) by nra.
    assert (Hd : (cr c1 - cr c2) ^ 2 < dist2 (cO c1) (cO c2)).
    { apply Rnot_le_lt. intros N. pose proof (sqpos (cr c2 - cr c1) ltac:(lra)). assert (0 < cr c2 * cr c2) by nra.
      assert (0 < pow_circle (cO c2) (cr c2) I * ((cr c2 - cr c1) * (cr c2 - cr c1))) by (apply Rmult_lt_0_compat; auto). nra. }
    assert (EG : GC (mkCircle I R0) = ext_circ c1 c2).
    { unfold ext_circ. rewrite <- HI. do 2 f_equal. rewrite mid_of_eq, Rabs_right, <- E by lra.
      symmetry. apply sqrt_eq; [lra|ring]. }
    destruct (Rlt_dec ((cr c1 + cr c2) ^ 2 - sepsilon_) (dist2 (cO c1) (cO c2))) as [D1|D1].
    + eexists. split; [apply K1; auto|]. left; auto.
    + eexists. split; [apply K3; lra|]. left; auto.
  - destruct (Iint_pow c1 c2 H1 H2) as (_ & _ & D). rewrite <- HI in D.
    assert (HD : pow_circle (cO c2) (cr c2) I < 0) by nra.
    assert (Hd : dist2 (cO c1) (cO c2) < (cr c1 + cr c2) ^ 2).
    { apply Rnot_le_lt. intros N. pose proof (sqpos (cr c2 + cr c1) ltac:(lra)). assert (0 < cr c2 * cr c2) by nra.
      assert (pow_circle (cO c2) (cr c2) I * ((cr c2 + cr c1) * (cr c2 + cr c1)) < 0) by nra. nra. }
    assert (EG : GC (mkCircle I R0) = int_circ c1 c2).
    { unfold int_circ. rewrite <- HI. do 2 f_equal. rewrite mid_of_eq, Rabs_left by lra.
      replace (cr c1 / cr c2 * - pow_circle (cO c2) (cr c2) I) with (R0 ^ 2) by lra.
      symmetry. apply sqrt_eq; [lra|ring]. }
    destruct (Rlt_dec (dist2 (cO c1) (cO c2)) ((cr c1 - cr c2) ^ 2 + sepsilon_)) as [D2|D2].
    + eexists. split; [apply K2; lra|]. left; auto.
    + eexists. split; [apply K3; lra|]. right; left; auto.
Qed.

(** tiny circles, one inside the other: a wrong circle is returned *)
Lemma mid_circles_tiny c1 c2 : 0 < cr c1 -> 0 < cr c2 -> cr c1 <> cr c2 ->
  (cr c1 + cr c2) ^ 2 < sepsilon_ -> cO c1 <> cO c2 -> dist2 (cO c1) (cO c2) < (cr c1 - cr c2) ^ 2 ->
  exists c, mid_circles c1 c2 = Ok [GC c] /\ 0 < cr c /\
    ~ inv_maps (cO c) (cr c ^ 2) (cO c1) (cr c1) (cO c2) (cr c2).
Proof.
  intros H1 H2 Er Ht HO Hd. pose proof sepsilon_pos as He0.
  assert (Hsm : (cr c1 + cr c2) ^ 2 = (cr c1 - cr c2) ^ 2 + 4 * cr c1 * cr c2) by ring.
  assert (0 < 4 * cr c1 * cr c2) by nra.
  assert (Hrho : 0 < cr c1 / cr c2) by (apply Rdiv_lt_0_compat; auto).
  pose proof (dist2_nonneg (cO c1) (cO c2)) as Hd0.
  destruct (Iext_pow c1 c2 H1 H2 Er) as (A & B & D).
  assert (HD : pow_circle (cO c2) (cr c2) (Iext c1 c2) < 0).
  { pose proof (sqpos (cr c2 - cr c1) ltac:(lra)). apply (Rmult_lt_reg_r ((cr c2 - cr c1) * (cr c2 - cr c1))); auto.
    rewrite D, Rmult_0_l. assert (0 < cr c2 * cr c2) by nra. nra. }
  destruct (Circle_init_mid c2 _ (Iext c1 c2) Hrho ltac:(lra)) as (E & Hp & Hq).
  unfold mid_circles. rewrite (proj2 (eqb_false _ _) Er). rewrite dot_dist2'.
  fold (Iext c1 c2). fold (mid_of c2 (cr c1 / cr c2) (Iext c1 c2)).
  rewrite (proj2 (ltb_false _ (dist2 _ _))) by lra.
  rewrite (proj2 (ltb_false (dist2 _ _) _)) by lra.
  rewrite (proj2 (ltb_true _ sepsilon_)) by lra. rewrite E. cbn [bind].
  eexists. split; [reflexivity|]. cbn [cO cr]. split; auto.
  intros HM. assert (Hk0 : 0 < mid_of c2 (cr c1 / cr c2) (Iext c1 c2) ^ 2) by (apply pow_lt; auto).
  destruct (swap_similar _ _ c1 c2 H1 H2 Er Hk0 HM) as [[HI EK]|[HI EK]].
  - rewrite Hq, Rabs_left in EK by lra. nra.
  - apply HO. destruct (Iint_pow c1 c2 H1 H2) as (A' & _). rewrite <- HI, A in A'.
    set (rho := cr c1 / cr c2) in *.
    assert (Z : vsub (cO c2) (Iext c1 c2) = (0, 0)).
    { destruct (vsub (cO c2) (Iext c1 c2)) as [a b]. unfold vscal in A'. cbn [fst snd] in A'. inversion A'.
      f_equal; nra. }
    rewrite Z in A. unfold vscal in A; cbn [fst snd] in A. rewrite !Rmult_0_r in A.
    destruct (cO c1), (cO c2), (Iext c1 c2). unpt. inversion A. inversion Z. f_equal; lra.
Qed.

(** ** C18 *)

(** the point of the circle at angle t *)
Definition at_angle (O : pt) (r t : R) : pt := vadd O (vscal r (cos t, sin t)).

Lemma at_angle_period O r t n : at_angle O r (t + IZR n * (2 * PI)) = at_angle O r t.
Proof. unfold at_angle. rewrite cos_period_Z, sin_period_Z. auto. Qed.

Lemma pymod_PI_sin x : pymod x PI = 0 <-> sin x = 0.
Proof.
  pose proof PI_RGT_0. split.
  - intros E. destruct (pymod_eq x PI) as [n Hn]. rewrite E in Hn.
    apply sin_eq_0_1. exists n. lra.
  - intros E. apply sin_eq_0_0 in E. destruct E as [n Hn].
    apply (pymod_unique x PI 0 n); lra.
Qed.

Lemma collinear_angles O r a b : 0 < r -> (collinear O (at_angle O r a) (at_angle O r b) <-> sin (a - b) = 0).
Proof.
  intros H. rewrite collinear_cross. unfold at_angle. unspec. rewrite sin_minus.
  split; intros E.
  - assert (E' : r * r * (sin a * cos b - cos a * sin b) = 0) by lra. apply Rmult_integral in E'.
    destruct E' as [E'|E']; auto. nra.
  - replace ((fst O + r * cos a - fst O) * (snd O + r * sin b - snd O) - (snd O + r * sin a - snd O) * (fst O + r * cos b - fst O))
      with (- (r * r) * (sin a * cos b - cos a * sin b)) by ring. rewrite E. ring.
Qed.

Lemma half_angle x : sin x <> 0 -> cos (x / 2) <> 0 /\ sin (x / 2) <> 0.
Proof.
  intros H. replace x with (2 * (x / 2)) in H by field. rewrite sin_2a in H.
  split; intros E; apply H; rewrite E; ring.
Qed.

(** the centre of the orthogonal circle is on the tangents at the two points *)
Lemma ortho_center I r a b : cos ((a - b) / 2) <> 0 ->
  let center := vadd I (vscal (r / cos ((a - b) / 2)) (cos ((a + b) / 2), sin ((a + b) / 2))) in
  let t := tan ((a - b) / 2) in
  center = vadd (at_angle I r a) (vscal (- (r * t)) (- sin a, cos a)) /\
  center = vadd (at_angle I r b) (vscal (r * t) (- sin b, cos b)).
Proof.
  intros H center t. unfold center, t, tan, at_angle.
  set (m := (a + b) / 2) in *. set (h := (a - b) / 2) in *.
  replace a with (m + h) by (unfold m, h; field). replace b with (m - h) by (unfold m, h; field).
  rewrite cos_plus, sin_plus, cos_minus, sin_minus. pose proof (cs1 h) as K.
  assert (K' : sin h * sin h = 1 - cos h * cos h) by lra.
  unpt. split; apply pair_eq; apply (Rmult_eq_reg_r (cos h)); auto; field_simplify; auto;
   try (replace (sin h ^ 2) with (1 - cos h * cos h) by (rewrite <- K'; ring)); ring.
Qed.

Lemma ortho_on I r a b : 0 < r -> sin (a - b) <> 0 ->
  let center := vadd I (vscal (r / cos ((a - b) / 2)) (cos ((a + b) / 2), sin ((a + b) / 2))) in
  let r0 := r * Rabs (tan ((a - b) / 2)) in
  0 < r0 /\ on_circle center r0 (at_angle I r a) /\ on_circle center r0 (at_angle I r b) /\
  circ_orthogonal I r center r0.
Proof.
  intros Hr Hs center r0. destruct (half_angle _ Hs) as [Hc Hs2].
  destruct (ortho_center I r a b Hc) as [E1 E2]. fold center in E1, E2.
  assert (Ht : tan ((a - b) / 2) <> 0).
  { unfold tan, Rdiv at 1. apply Rmult_integral_contrapositive_currified; auto. apply Rinv_neq_0_compat; auto. }
  assert (H0 : 0 < r0) by (apply Rmult_lt_0_compat; auto; apply Rabs_pos_lt; auto).
  assert (H2 : r0 * r0 = r * r * (tan ((a - b) / 2) * tan ((a - b) / 2))).
  { unfold r0. rewrite <- (Rabs_sq (tan _)). ring. }
  split; auto. split; [|split].
  - apply on_circle_sq; [lra|]. rewrite H2, E1. pose proof (cs1 a). unspec. 
    transitivity (r * r * (tan ((a - b) / 2) * tan ((a - b) / 2)) * (cos a * cos a + sin a * sin a)); [ring|]. rewrite H. ring.
  - apply on_circle_sq; [lra|]. rewrite H2, E2. pose proof (cs1 b). unspec. 
    transitivity (r * r * (tan ((a - b) / 2) * tan ((a - b) / 2)) * (cos b * cos b + sin b * sin b)); [ring|]. rewrite H. ring.
  - unfold circ_orthogonal. replace (r0 ^ 2) with (r0 * r0) by ring. rewrite H2, E1. unfold at_angle. pose proof (cs1 a). unspec.
    transitivity ((r * r + r * r * (tan ((a - b) / 2) * tan ((a - b) / 2))) * (cos a * cos a + sin a * sin a)); [ring|]. rewrite H. ring.
Qed.

Lemma ootp_eq c a b arc : 0 < cr c -> sin (a - b) <> 0 ->
  let center := vadd (cO c) (vscal (cr c / cos ((a - b) / 2)) (cos ((a + b) / 2), sin ((a + b) / 2))) in
  let r0 := cr c * Rabs (tan ((a - b) / 2)) in
  orthogonal_through_two_points_on_circle c a b arc =
  if arc then
    let d := pymod (b - a) (2 * PI) in
    let t1 := (- PI / 2 + (if leb PI d then PI else 0)) + a in
    let t2 := (- PI / 2 + (if leb PI d then PI else 0)) - PI + d + a in
    Ok (OArc (mkArc center r0 (Rmin t1 t2) (Rmax t1 t2) false))
  else Ok (OCircle (mkCircle center r0)).
Proof.
  intros Hr Hs center r0. destruct (ortho_on (cO c) (cr c) a b Hr Hs) as (H0 & _). fold r0 in H0.
  unfold orthogonal_through_two_points_on_circle.
  rewrite (proj2 (eqb_false _ 0)) by (rewrite pymod_PI_sin; auto).
  unfold unit_vector_. fold center r0.
  destruct arc; [|rewrite Circle_init_pos by auto; auto].
  unfold Arc_init. rewrite (proj2 (leb_false r0 0)) by auto. auto.
Qed.

Lemma ootp_circle c a b : 0 < cr c ->
  let P1 := circle_point_from_angle c a false in
  let P2 := circle_point_from_angle c b false in
  ~ collinear (cO c) P1 P2 ->
  exists c', orthogonal_through_two_points_on_circle c a b false = Ok (OCircle c') /\ 0 < cr c' /\
    on_circle (cO c') (cr c') P1 /\ on_circle (cO c') (cr c') P2 /\
    circ_orthogonal (cO c) (cr c) (cO c') (cr c').
Proof.
  intros Hr P1 P2 Hn. change P1 with (at_angle (cO c) (cr c) a) in *. change P2 with (at_angle (cO c) (cr c) b) in *.
  rewrite collinear_angles in Hn by auto.
  eexists. split; [apply (ootp_eq c a b false Hr Hn)|]. apply (ortho_on (cO c) (cr c) a b Hr Hn).
Qed.

(** [arc_points a M]: M is a point of the arc *)
Definition on_arc (a : arc) (M : pt) : Prop :=
  exists t, radians (adeg a) (aalpha1 a) <= t <= radians (adeg a) (aalpha2 a) /\ M = at_angle (aO a) (ar a) t.

Lemma ootp_arc c a b : 0 < cr c ->
  let P1 := circle_point_from_angle c a false in
  let P2 := circle_point_from_angle c b false in
  ~ collinear (cO c) P1 P2 ->
  exists A, orthogonal_through_two_points_on_circle c a b true = Ok (OArc A) /\ 0 < ar A /\ adeg A = false /\
    circ_orthogonal (cO c) (cr c) (aO A) (ar A) /\
    ((starting_point A = P1 /\ ending_point A = P2) \/ (starting_point A = P2 /\ ending_point A = P1)) /\
    0 < aalpha2 A - aalpha1 A < PI /\
    forall M, on_arc A M -> in_disk (cO c) (cr c) M.
Proof.
  intros Hr P1 P2 Hn. change P1 with (at_angle (cO c) (cr c) a) in *. change P2 with (at_angle (cO c) (cr c) b) in *.
  rewrite collinear_angles in Hn by auto. pose proof PI_RGT_0 as HPI.
  pose proof (ootp_eq c a b true Hr Hn) as E. cbv zeta in E.
  pose proof (ortho_on (cO c) (cr c) a b Hr Hn) as (Hr0 & _ & _ & Ho). cbv zeta in *.
  destruct (half_angle _ Hn) as [Hc0 Hs0].
  pose proof (ortho_center (cO c) (cr c) a b Hc0) as [E1 E2]. cbv zeta in *.
  set (center := vadd (cO c) (vscal (cr c / cos ((a - b) / 2)) (cos ((a + b) / 2), sin ((a + b) / 2)))) in *.
  set (r0 := cr c * Rabs (tan ((a - b) / 2))) in *.
  set (d := pymod (b - a) (2 * PI)) in *.
  assert (Hd : 0 <= d < 2 * PI) by (apply pymod_range; lra).
  destruct (pymod_eq (b - a) (2 * PI)) as [n Hdn]. fold d in Hdn.
  (* tan of the half difference, in terms of d *)
  assert (Hsd : sin d <> 0).
  { unfold d. rewrite sin_pymod. rewrite <- (Ropp_involutive (b - a)), sin_neg.
    replace (- (b - a)) with (a - b) by ring. lra. }
  assert (Hd0 : d <> 0) by (intros Z; apply Hsd; rewrite Z; apply sin_0).
  assert (HdP : d <> PI) by (intros Z; apply Hsd; rewrite Z; apply sin_PI).
  assert (Hab : (a - b) / 2 = - (d / 2) - IZR n * PI) by lra.
  assert (Eb : b = a + d + IZR n * (2 * PI)) by lra.
  assert (Htan : tan ((a - b) / 2) = - tan (d / 2)).
  { rewrite Hab. unfold tan.
    assert (K : forall x (m : Z), (cos (x - IZR m * PI) = cos x /\ sin (x - IZR m * PI) = sin x) \/
                                 (cos (x - IZR m * PI) = - cos x /\ sin (x - IZR m * PI) = - sin x)).
    { intros x m. rewrite cos_minus, sin_minus.
      assert (S0 : sin (IZR m * PI) = 0) by (apply sin_eq_0_1; exists m; auto).
      pose proof (cs1 (IZR m * PI)) as Q. rewrite S0 in Q.
      assert (Q' : (cos (IZR m * PI) - 1) * (cos (IZR m * PI) + 1) = 0) by lra.
      apply Rmult_integral in Q'. rewrite S0. destruct Q' as [Q'|Q'].
      - left. replace (cos (IZR m * PI)) with 1 by lra. split; ring.
      - right. replace (cos (IZR m * PI)) with (-1) by lra. split; ring. }
    assert (Hcd : cos (d / 2) <> 0) by (apply (half_angle d Hsd)).
    destruct (K (- (d / 2)) n) as [[-> ->]|[-> ->]]; rewrite cos_neg, sin_neg; field; auto. }
  assert (Hsin2 : 0 < sin (d / 2)) by (apply sin_gt_0; lra).
  assert (Hcd : cos (d / 2) <> 0) by (apply (half_angle d Hsd)).
  (* P1 and P2 seen from the centre *)
  rewrite Htan in E1, E2.
  assert (F1 : at_angle (cO c) (cr c) a = vadd center (vscal (cr c * tan (d / 2)) (sin a, - cos a))).
  { rewrite E1. destruct (at_angle (cO c) (cr c) a) as [p q]. clear. unpt. f_equal; ring. }
  assert (F2 : at_angle (cO c) (cr c) b = vadd center (vscal (cr c * tan (d / 2)) (- sin (a + d), cos (a + d)))).
  { rewrite E2. replace (sin (a + d)) with (sin b) by (rewrite Eb; apply sin_period_Z).
    replace (cos (a + d)) with (cos b) by (rewrite Eb; apply cos_period_Z).
    destruct (at_angle (cO c) (cr c) b) as [p q]. clear. unpt. f_equal; ring. }
  assert (Er0 : r0 = cr c * Rabs (tan (d / 2))) by (unfold r0; rewrite Htan, Rabs_Ropp; auto).
  (* distance from the centre of the circle to a point of the arc *)
  assert (G : forall t, dist2 (cO c) (at_angle center r0 t) = cr c * cr c + 2 * (r0 * r0) +
     2 * r0 * (cr c / cos (d / 2)) * cos (t - (a + d / 2))).
  { intros t. 
    assert (EC : center = vadd (cO c) (vscal (cr c / cos (d / 2)) (cos (a + d / 2), sin (a + d / 2)))).
    { rewrite E1. unfold at_angle, tan. replace (cos a) with (cos (a + d / 2 - d / 2)) by (f_equal; ring).
      replace (sin a) with (sin (a + d / 2 - d / 2)) by (f_equal; ring). rewrite cos_minus, sin_minus.
      set (m := a + d / 2). pose proof (cs1 (d / 2)) as K. 
      assert (K' : sin (d / 2) * sin (d / 2) = 1 - cos (d / 2) * cos (d / 2)) by lra.
      unpt. apply pair_eq; apply (Rmult_eq_reg_r (cos (d / 2))); auto; field_simplify; auto;
      replace (sin (d / 2) ^ 2) with (1 - cos (d / 2) * cos (d / 2)) by (rewrite <- K'; ring); ring. }
    rewrite cos_minus.
    assert (EO : dist2 (cO c) center = cr c * cr c + r0 * r0) by (unfold circ_orthogonal in Ho; rewrite Ho; ring).
    transitivity (dist2 (cO c) center + r0 * r0 * (cos t * cos t + sin t * sin t) + 2 * r0 * sdot (vsub center (cO c)) (cos t, sin t)).
    - unfold at_angle. unspec. ring.
    - rewrite EO, cs1. rewrite EC. unspec. field. auto. }
  destruct (Rle_dec PI d) as [HP|HP].
  - (* d > PI *)
    rewrite (proj2 (leb_true PI d) HP) in E.
    assert (Hneg : cos (d / 2) < 0).
    { destruct (Rtotal_order (cos (d / 2)) 0) as [L|[L|L]]; auto; [contradiction|].
      exfalso. apply (Rlt_not_le _ _ L). apply cos_le_0; lra. }
    assert (Hta : Rabs (tan (d / 2)) = - tan (d / 2)).
    { apply Rabs_left. unfold tan, Rdiv. pose proof (Rinv_lt_0_compat _ Hneg). nra. }
    set (t1 := - PI / 2 + PI + a) in *. set (t2 := - PI / 2 + PI - PI + d + a) in *.
    assert (T : t1 < t2) by (unfold t1, t2; lra).
    rewrite Rmin_left, Rmax_right in E by lra.
    eexists. split; [exact E|]. cbn [ar aO adeg aalpha1 aalpha2]. split; auto. split; auto. split; auto.
    split; [|split].
    + left. unfold starting_point, ending_point; cbn [ar aO adeg aalpha1 aalpha2]. unfold unit_vector_.
      rewrite F1, F2, Er0, Hta. unfold t1, t2.
      replace (- PI / 2 + PI + a) with (PI / 2 + a) by field. replace (- PI / 2 + PI - PI + d + a) with (- (PI / 2 - (a + d))) by field.
      rewrite cos_neg, sin_neg, cos_shift, sin_shift, cos_plus, sin_plus, cos_PI2, sin_PI2.
      split; unpt; apply pair_eq; ring.
    + unfold t1, t2. lra.
    + intros M (t & Ht & ->). cbn [ar aO adeg aalpha1 aalpha2 radians] in *.
      apply in_disk_sq; [lra|]. rewrite G.
      assert (Hcos : sin (d / 2) <= cos (t - (a + d / 2))).
      { unfold t1, t2 in Ht. rewrite <- cos_shift.
        destruct (Rle_dec 0 (t - (a + d / 2))) as [S|S].
        - rewrite <- (cos_neg (PI / 2 - d / 2)). apply cos_decr_1; lra.
        - rewrite <- (cos_neg (PI / 2 - d / 2)), <- (cos_neg (t - (a + d / 2))). apply cos_decr_1; lra. }
      assert (R1 : r0 * - cos (d / 2) = cr c * sin (d / 2)).
      { rewrite Er0, Hta. unfold tan. field. auto. }
      assert (R2 : r0 + (cr c / cos (d / 2)) * cos (t - (a + d / 2)) <= 0).
      { apply (Rmult_le_reg_r (- cos (d / 2))); [lra|]. rewrite Rmult_0_l.
        replace ((r0 + cr c / cos (d / 2) * cos (t - (a + d / 2))) * - cos (d / 2)) with
         (r0 * - cos (d / 2) - cr c * cos (t - (a + d / 2))) by (field; auto). rewrite R1. nra. }
      nra.
  - (* d < PI *)
    rewrite (proj2 (leb_false PI d)) in E by lra.
    assert (Hpos : 0 < cos (d / 2)) by (apply cos_gt_0; lra).
    assert (Hta : Rabs (tan (d / 2)) = tan (d / 2)).
    { apply Rabs_right. unfold tan, Rdiv. pose proof (Rinv_0_lt_compat _ Hpos). nra. }
    set (t1 := - PI / 2 + 0 + a) in *. set (t2 := - PI / 2 + 0 - PI + d + a) in *.
    assert (T : t2 < t1) by (unfold t1, t2; lra).
    rewrite Rmin_right, Rmax_left in E by lra.
    eexists. split; [exact E|]. cbn [ar aO adeg aalpha1 aalpha2]. split; auto. split; auto. split; auto.
    split; [|split].
    + right. unfold starting_point, ending_point; cbn [ar aO adeg aalpha1 aalpha2]. unfold unit_vector_.
      rewrite F1, F2, Er0, Hta. unfold t1, t2.
      replace (- PI / 2 + 0 + a) with (- (PI / 2 - a)) by field.
      replace (- PI / 2 + 0 - PI + d + a) with (PI / 2 + (a + d) + IZR (-1) * (2 * PI)) by field.
      rewrite cos_period_Z, sin_period_Z.
      rewrite cos_neg, sin_neg, cos_shift, sin_shift, (cos_plus (PI / 2)), (sin_plus (PI / 2)), cos_PI2, sin_PI2.
      split; unpt; apply pair_eq; ring.
    + unfold t1, t2. lra.
    + intros M (t & Ht & ->). cbn [ar aO adeg aalpha1 aalpha2 radians] in *.
      apply in_disk_sq; [lra|]. rewrite G.
      assert (Hcos : cos (t - (a + d / 2)) <= - sin (d / 2)).
      { unfold t1, t2 in Ht. replace (t - (a + d / 2)) with ((t - (a + d / 2) + PI) - PI) by ring.
        rewrite cos_minus, cos_PI, sin_PI.
        assert (sin (d / 2) <= cos (t - (a + d / 2) + PI)); [|lra]. rewrite <- cos_shift.
        destruct (Rle_dec 0 (t - (a + d / 2) + PI)) as [S|S].
        - apply cos_decr_1; lra.
        - rewrite <- (cos_neg (t - (a + d / 2) + PI)). apply cos_decr_1; lra. }
      assert (R1 : r0 * cos (d / 2) = cr c * sin (d / 2)).
      { rewrite Er0, Hta. unfold tan. field. auto. }
      assert (R2 : r0 + (cr c / cos (d / 2)) * cos (t - (a + d / 2)) <= 0).
      { apply (Rmult_le_reg_r (cos (d / 2))); [lra|]. rewrite Rmult_0_l.
        replace ((r0 + cr c / cos (d / 2) * cos (t - (a + d / 2))) * cos (d / 2)) with
         (r0 * cos (d / 2) + cr c * cos (t - (a + d / 2))) by (field; auto). rewrite R1. nra. }
      nra.
Qed.

Lemma ootp_diameter c a b arc : 0 < cr c ->
  let P1 := circle_point_from_angle c a false in
  let P2 := circle_point_from_angle c b false in
  collinear (cO c) P1 P2 ->
  let P1' := vsub (vscal 2 (cO c)) P1 in
  (allclose P1 P1' = true -> orthogonal_through_two_points_on_circle c a b arc = Raise ValueError) /\
  (allclose P1 P1' = false ->
   orthogonal_through_two_points_on_circle c a b arc = Ok (OLine (mkLine P1 P1' (negb arc) (negb arc)))) /\
  on_line P1 P1' P2 /\ on_line P1 P1' (cO c).
Proof.
  intros Hr P1 P2 Hn P1'.
  assert (EP : vsub (cO c) (vscal (cr c) (unit_vector_ a)) = P1').
  { unfold P1', P1, circle_point_from_angle. unpt. f_equal; ring. }
  pose proof Hn as Hn'. unfold P1, P2 in Hn. change (circle_point_from_angle c a false) with (at_angle (cO c) (cr c) a) in Hn.
  change (circle_point_from_angle c b false) with (at_angle (cO c) (cr c) b) in Hn.
  rewrite collinear_angles in Hn by auto.
  unfold orthogonal_through_two_points_on_circle.
  rewrite (proj2 (eqb_true _ 0)) by (rewrite pymod_PI_sin; auto).
  change (vadd (cO c) (vscal (cr c) (unit_vector_ a))) with P1. rewrite EP. unfold Line_init.
  split; [intros ->; auto|]. split; [intros ->; auto|].
  assert (Hne : P1 <> P1').
  { unfold P1', P1, circle_point_from_angle, unit_vector_. pose proof (cs1 a). unpt. intros Q. injection Q as Q1 Q2.
    assert (cr c * cos a = 0) by lra. assert (cr c * sin a = 0) by lra.
    apply Rmult_integral in H0. apply Rmult_integral in H1. destruct H0; [lra|]. destruct H1; [lra|]. rewrite H0, H1 in H. lra. }
  split.
  - apply on_line_cross; auto. apply collinear_cross in Hn'. unfold P1'. clear - Hn'. unspec. lra.
  - exists (/ 2). unfold P1'. destruct P1, (cO c). unspec. f_equal; field.
Qed.

(** ** C20, circles *)

Lemma mapM_Ok_Forall2 {A B} (f : A -> res B) l bs : mapM f l = Ok bs -> Forall2 (fun a b => f a = Ok b) l bs.
Proof.
  revert bs. induction l as [|a l IH]; cbn [mapM]; intros bs H.
  - inversion H. constructor.
  - apply bind_Ok in H. destruct H as (b & Hb & H). apply bind_Ok in H. destruct H as (bs' & Hb' & H).
    inversion H; subst. constructor; auto.
Qed.

Lemma Forall2_len {A B} (P : A -> B -> Prop) l l' : Forall2 P l l' -> length l = length l'.
Proof. induction 1; cbn [length]; auto. Qed.

Lemma mapM_total {A B} (f : A -> res B) l : Forall (fun a => exists b, f a = Ok b) l -> exists bs, mapM f l = Ok bs.
Proof.
  induction 1 as [|a l [b Hb] _ [bs IH]]; cbn [mapM]; [eauto|]. rewrite Hb. cbn [bind]. rewrite IH. cbn [bind]. eauto.
Qed.

Lemma vlength_pos g : g <> (0, 0) -> 0 < vlength_ g /\ vlength_ g * vlength_ g = fst g * fst g + snd g * snd g.
Proof.
  intros H. destruct g as [x y]. pose proof (sum_sq_pos x y H) as K. unfold vlength_, dot_; cbn [fst snd].
  split; [apply sqrt_lt_R0; auto|]. apply sqrt_sqrt. lra.
Qed.

Lemma runif_on_spec r g : g <> (0, 0) -> exists p, runif_on_circle1_ r g = Ok p /\ sdot p p = r * r.
Proof.
  intros H. destruct (vlength_pos g H) as [H1 H2]. unfold runif_on_circle1_.
  rewrite (proj2 (eqb_false (vlength_ g) 0)) by lra. eexists. split; [reflexivity|].
  unfold sdot; cbn [fst snd].
  transitivity (r * r * ((fst g * fst g + snd g * snd g) / (vlength_ g * vlength_ g))); [field; lra|].
  rewrite H2. field. rewrite <- H2. nra.
Qed.

Lemma circle_random_spec c n w draws ps : 0 < cr c ->
  Forall (fun d => 0 <= fst d < 1) draws ->
  circle_random_points c n w draws = Ok ps ->
  length ps = length draws /\
  match w with
  | WhereOn => Forall (on_circle (cO c) (cr c)) ps
  | WhereIn => Forall (in_disk (cO c) (cr c)) ps
  | WhereOther => False
  end.
Proof.
  intros Hr Hd H. unfold circle_random_points in H. destruct (n <=? 0)%Z; [discriminate|].
  destruct w; [| |discriminate]; apply mapM_Ok_Forall2 in H; (split; [symmetry; eapply Forall2_len; eauto|]);
    revert Hd; induction H as [|[u g] p ds ps Hp H IH]; intros Hd; constructor.
  - apply bind_Ok in Hp. destruct Hp as (q & Hq & Hp). inversion Hp; subst p. cbn [fst snd] in Hq.
    inversion Hd as [|? ? Hu _]; subst. cbn [fst] in Hu.
    unfold runif_in_circle1_ in Hq. apply bind_Ok in Hq. destruct Hq as (q' & Hq' & Hq). inversion Hq; subst q.
    assert (Hg : g <> (0, 0)).
    { intros ->. unfold runif_on_circle1_ in Hq'. rewrite (proj2 (eqb_true _ 0)) in Hq'; [discriminate|].
      unfold vlength_, dot_; cbn [fst snd]. replace (0 * 0 + 0 * 0) with 0 by ring. apply sqrt_0. }
    destruct (runif_on_spec (sqrt u) g Hg) as (p & E & Ep). rewrite E in Hq'. inversion Hq'; subst q'.
    rewrite sqrt_sqrt in Ep by lra. apply in_disk_sq; [lra|].
    replace (dist2 (cO c) (vadd (vscal (cr c) p) (cO c))) with (cr c * cr c * sdot p p) by (unspec; ring).
    rewrite Ep. assert (0 < cr c * cr c) by nra. nra.
  - inversion Hd; auto.
  - apply bind_Ok in Hp. destruct Hp as (q & Hq & Hp). inversion Hp; subst p. cbn [fst snd] in Hq.
    assert (Hg : g <> (0, 0)).
    { intros ->. unfold runif_on_circle1_ in Hq. rewrite (proj2 (eqb_true _ 0)) in Hq; [discriminate|].
      unfold vlength_, dot_; cbn [fst snd]. replace (0 * 0 + 0 * 0) with 0 by ring. apply sqrt_0. }
    destruct (runif_on_spec (cr c) g Hg) as (p & E & Ep). rewrite E in Hq. inversion Hq; subst q.
    apply on_circle_sq; [lra|]. rewrite <- Ep. unspec. ring.
  - inversion Hd; auto.
Qed.

Lemma circle_random_total c n w draws : 0 < cr c -> (0 < n)%Z -> w <> WhereOther ->
  Forall (fun d => snd d <> (0, 0)) draws -> exists ps, circle_random_points c n w draws = Ok ps.
Proof.
  intros Hr Hn Hw Hd. unfold circle_random_points. replace (n <=? 0)%Z with false by (symmetry; apply Z.leb_gt; auto).
  destruct w; [| |contradiction]; apply mapM_total; (eapply Forall_impl; [|exact Hd]); intros [u g] Hg; cbn [fst snd] in *.
  - destruct (runif_on_spec (sqrt u) g Hg) as (p & E & _). unfold runif_in_circle1_. rewrite E. cbn [bind]. eauto.
  - destruct (runif_on_spec (cr c) g Hg) as (p & E & _). rewrite E. cbn [bind]. eauto.
Qed.

(** every point of the open disk (of the circle) is obtained from some draw *)
Lemma circle_random_onto c M : 0 < cr c ->
  (dist (cO c) M < cr c -> exists u g, 0 <= u < 1 /\ g <> (0, 0) /\ circle_random_points c 1 WhereIn [(u, g)] = Ok [M]) /\
  (on_circle (cO c) (cr c) M -> exists g, g <> (0, 0) /\ forall u, circle_random_points c 1 WhereOn [(u, g)] = Ok [M]).
Proof.
  intros Hr. split.
  - intros H. set (u := dist2 (cO c) M / (cr c * cr c)).
    assert (Hu : 0 <= u < 1).
    { pose proof (dist_nonneg (cO c) M). assert (0 < cr c * cr c) by nra. unfold u. split.
      - apply Rmult_le_pos; [apply dist2_nonneg|]. left. apply Rinv_0_lt_compat; auto.
      - apply (Rmult_lt_reg_r (cr c * cr c)); auto. unfold Rdiv. rewrite Rmult_assoc, Rinv_l by lra.
        rewrite <- dist_sq. nra. }
    destruct (pt_eq_dec M (cO c)) as [->|Hne].
    + exists u, (1, 0). assert (u = 0) by (unfold u; replace (dist2 (cO c) (cO c)) with 0 by (unspec; ring); field; lra).
      split; auto. split; [intros E; injection E; lra|].
      unfold circle_random_points. cbn [Z.leb Z.compare mapM fst snd]. unfold runif_in_circle1_.
      destruct (runif_on_spec (sqrt u) (1, 0)) as (p & E & Ep); [intros E; injection E; lra|].
      rewrite E. cbn [bind]. rewrite sqrt_sqrt, H0 in Ep by lra.
      assert (p = (0, 0)). { destruct p as [p1 p2]. unfold sdot in Ep; cbn [fst snd] in Ep. apply sum_sq_0 in Ep. destruct Ep; subst; auto. }
      subst p. do 2 f_equal. destruct (cO c); unpt; f_equal; ring.
    + exists u, (vsub M (cO c)). split; auto.
      assert (Hg : vsub M (cO c) <> (0, 0)).
      { intros E. apply Hne. destruct M, (cO c); unpt. injection E as X Y. f_equal; lra. }
      split; auto. unfold circle_random_points. cbn [Z.leb Z.compare mapM fst snd]. unfold runif_in_circle1_, runif_on_circle1_.
      assert (Ev : vlength_ (vsub M (cO c)) = dist (cO c) M) by reflexivity. rewrite Ev.
      pose proof (dist_pos (cO c) M (not_eq_sym Hne)) as Hd. rewrite (proj2 (eqb_false _ 0)) by lra. cbn [bind].
      assert (Es : sqrt u = dist (cO c) M / cr c).
      { apply sqrt_eq. apply Rmult_le_pos; [lra|]. left; apply Rinv_0_lt_compat; auto.
        unfold u. rewrite <- dist_sq. field. lra. }
      rewrite Es. do 2 f_equal. destruct M as [m1 m2], (cO c) as [o1 o2]. unpt. f_equal; field; lra.
  - intros H. exists (vsub M (cO c)). unfold on_circle in H.
    assert (Hne : M <> cO c).
    { intros ->. assert (dist (cO c) (cO c) = 0) by (apply dist_0; auto). lra. }
    split.
    { intros E. apply Hne. destruct M, (cO c); unpt. injection E as X Y. f_equal; lra. }
    intros u. unfold circle_random_points. cbn [Z.leb Z.compare mapM fst snd]. unfold runif_on_circle1_.
    assert (Ev : vlength_ (vsub M (cO c)) = dist (cO c) M) by reflexivity. rewrite Ev, H.
    rewrite (proj2 (eqb_false _ 0)) by lra. cbn [bind].
    do 2 f_equal. destruct M as [m1 m2], (cO c) as [o1 o2]. unpt. f_equal; field; lra.
Qed.

Lemma circle_random_raises c n w draws : (n <= 0)%Z \/ w = WhereOther -> circle_random_points c n w draws = Raise ValueError.
Proof.
  intros [H|H]; unfold circle_random_points.
  - replace (n <=? 0)%Z with true by (symmetry; apply Z.leb_le; auto). auto.
  - subst w. destruct (n <=? 0)%Z; auto.
Qed.

(** ** C21 *)

Lemma linspace_length a b n : length (linspace a b n) = n.
Proof. unfold linspace. destruct n as [|[|n]]; auto. rewrite map_length, seq_length. auto. Qed.

Lemma linspace_nth a b n i d : (i < n)%nat ->
  nth i (linspace a b n) d = a + (if (n =? 1)%nat then 0 else INR i / (INR n - 1)) * (b - a).
Proof.
  intros H. unfold linspace. destruct n as [|[|n]]; [lia| |].
  - replace i with 0%nat by lia. cbn [nth Nat.eqb]. ring.
  - change (S (S n) =? 1)%nat with false. cbv beta iota.
    assert (Hn : INR (S (S n)) - 1 <> 0) by (rewrite !S_INR; pose proof (pos_INR n); lra).
    transitivity (a + INR i * ((b - a) / (INR (S (S n)) - 1))); [|field; auto].
    set (f := fun j => a + INR j * ((b - a) / (INR (S (S n)) - 1))).
    assert (L : (i < length (map f (seq 0 (S (S n)))))%nat) by (rewrite map_length, seq_length; auto).
    rewrite (nth_indep _ d (f 0%nat) L). rewrite map_nth. rewrite seq_nth by auto. reflexivity.
Qed.

Lemma arc_path_spec a n : (0 < n)%Z -> exists sweep path,
  arc_path a n = Ok path /\ length path = Z.to_nat n /\ 0 <= sweep < 2 * PI /\
  starting_point a = at_angle (aO a) (ar a) (radians (adeg a) (aalpha1 a)) /\
  ending_point a = at_angle (aO a) (ar a) (radians (adeg a) (aalpha1 a) + sweep) /\
  forall i, (i < Z.to_nat n)%nat ->
    nth i path (0, 0) = at_angle (aO a) (ar a)
       (radians (adeg a) (aalpha1 a) + (if (n =? 1)%Z then 0 else INR i / (IZR n - 1)) * sweep).
Proof.
  intros Hn. unfold arc_path. replace (n <=? 0)%Z with false by (symmetry; apply Z.leb_gt; auto).
  pose proof PI_RGT_0 as HPI.
  set (a1 := if adeg a then aalpha1 a * PI / 180 else aalpha1 a).
  set (a2 := if adeg a then aalpha2 a * PI / 180 else aalpha2 a).
  assert (A1 : radians (adeg a) (aalpha1 a) = a1) by reflexivity.
  set (b1 := pymod a1 (2 * PI)). set (b2 := pymod a2 (2 * PI)).
  pose proof (pymod_range a1 (2 * PI) ltac:(lra)) as R1. fold b1 in R1.
  pose proof (pymod_range a2 (2 * PI) ltac:(lra)) as R2. fold b2 in R2.
  set (sweep := if ltb (b2 - b1) 0 then b2 - b1 + 2 * PI else b2 - b1).
  assert (Hs : 0 <= sweep < 2 * PI).
  { unfold sweep. destruct (ltb (b2 - b1) 0) eqn:E; [apply ltb_true in E|apply ltb_false in E]; lra. }
  exists sweep. eexists. split; [reflexivity|]. rewrite map_length, linspace_length. split; auto. split; auto.
  rewrite A1.
  destruct (pymod_eq a1 (2 * PI)) as [n1 E1]. fold b1 in E1.
  destruct (pymod_eq a2 (2 * PI)) as [n2 E2]. fold b2 in E2.
  split; [|split].
  - unfold starting_point. replace (if adeg a then aalpha1 a * (PI / 180) else aalpha1 a) with a1; auto.
    unfold a1. destruct (adeg a); auto. field.
  - unfold ending_point. replace (if adeg a then aalpha2 a * (PI / 180) else aalpha2 a) with a2 by (unfold a2; destruct (adeg a); auto; field).
    assert (K : exists m : Z, a1 + sweep = a2 + IZR m * (2 * PI)).
    { unfold sweep. destruct (ltb (b2 - b1) 0).
      - exists (n1 - n2 + 1)%Z. rewrite plus_IZR, minus_IZR. lra.
      - exists (n1 - n2)%Z. rewrite minus_IZR. lra. }
    destruct K as [m ->]. rewrite at_angle_period. reflexivity.
  - intros i Hi.
    set (f := fun t => circle_point_ (b1 + t) (aO a) (ar a)).
    assert (L : (i < length (map f (linspace 0 sweep (Z.to_nat n))))%nat) by (rewrite map_length, linspace_length; auto).
    rewrite (nth_indep _ _ (f 0) L), map_nth, linspace_nth by auto.
    assert (EN : (Z.to_nat n =? 1)%nat = (n =? 1)%Z).
    { destruct (Z.eqb_spec n 1) as [->|Ne]; auto. apply Nat.eqb_neq. lia. }
    rewrite EN. replace (INR (Z.to_nat n)) with (IZR n) by (rewrite INR_IZR_INZ, Z2Nat.id by lia; auto).
    set (q := if (n =? 1)%Z then 0 else INR i / (IZR n - 1)).
    unfold f, circle_point_. rewrite Rplus_0_l, Rminus_0_r.
    rewrite <- (at_angle_period _ _ (a1 + q * sweep) (- n1)).
    replace (a1 + q * sweep + IZR (- n1) * (2 * PI)) with (b1 + q * sweep) by (rewrite opp_IZR; lra).
    reflexivity.
Qed.

Lemma arc_path_full a n : 0 < ar a -> (0 < n)%Z -> exists sweep path,
  arc_path a n = Ok path /\ length path = Z.to_nat n /\ 0 <= sweep < 2 * PI /\
  Forall (on_circle (aO a) (ar a)) path /\
  nth 0 path (0, 0) = starting_point a /\
  ((2 <= n)%Z -> last path (0, 0) = ending_point a) /\
  forall i, (i < Z.to_nat n)%nat ->
    nth i path (0, 0) = vadd (aO a) (vscal (ar a)
       (cos (radians (adeg a) (aalpha1 a) + (if (n =? 1)%Z then 0 else INR i / (IZR n - 1)) * sweep),
        sin (radians (adeg a) (aalpha1 a) + (if (n =? 1)%Z then 0 else INR i / (IZR n - 1)) * sweep))).
Proof.
  intros Hr Hn. destruct (arc_path_spec a n Hn) as (sweep & path & E & L & Hs & S1 & S2 & Hi).
  exists sweep, path. split; auto. split; auto. split; auto.
  assert (HF : Forall (on_circle (aO a) (ar a)) path).
  { apply Forall_forall. intros M HM. apply (In_nth _ _ (0, 0)) in HM. destruct HM as (i & Li & <-).
    rewrite Hi by (rewrite <- L; exact Li). apply polar_on_circle. lra. }
  split; auto. split; [|split].
  - rewrite Hi by lia. rewrite S1. f_equal. cbn [INR]. destruct (n =? 1)%Z eqn:En; [ring|].
    apply Z.eqb_neq in En. assert (IZR n - 1 <> 0); [|field; auto].
    assert (2 <= n)%Z by lia. apply IZR_le in H. lra.
  - intros H2. replace (last path (0, 0)) with (nth (Z.to_nat n - 1) path (0, 0)).
    + rewrite Hi by lia. rewrite S2. f_equal. replace (n =? 1)%Z with false by (symmetry; apply Z.eqb_neq; lia).
      apply IZR_le in H2. rewrite minus_INR by lia. rewrite (INR_IZR_INZ (Z.to_nat n)), Z2Nat.id by lia. simpl (INR 1). field. lra.
    + rewrite <- L. clear. induction path as [|p path IH]; auto. destruct path as [|q path]; auto.
      cbn [length]. replace (S (S (length path)) - 1)%nat with (S (length path)) by lia.
      change (last (p :: q :: path) (0, 0)) with (last (q :: path) (0, 0)). rewrite <- IH. cbn [length].
      replace (S (length path) - 1)%nat with (length path) by lia. auto.
  - exact Hi.
Qed.

Lemma arc_path_raises a n : (n <= 0)%Z -> arc_path a n = Raise ValueError.
Proof. intros H. unfold arc_path. replace (n <=? 0)%Z with true by (symmetry; apply Z.leb_le; auto). auto. Qed.

Lemma arc_end_points a :
  starting_point a = at_angle (aO a) (ar a) (radians (adeg a) (aalpha1 a)) /\
  ending_point a = at_angle (aO a) (ar a) (radians (adeg a) (aalpha2 a)).
Proof.
  unfold starting_point, ending_point, radians, deg, at_angle, unit_vector_.
  destruct (adeg a); auto.
  replace (aalpha1 a * (PI / 180)) with (aalpha1 a * PI / 180) by field.
  replace (aalpha2 a * (PI / 180)) with (aalpha2 a * PI / 180) by field. auto.
Qed.
