(** * Affine maps and the ellipses attached to points: four points, the smallest ellipse, Steiner ellipses. *)

From Coq Require Import Reals Lra Lia Psatz List Bool Permutation.
From Verif Require Import Base BaseLemmas Spec SpecLemmas SpecBoundary4 SpecLowner SpecTriangle ModelInternal ModelLine ModelCircle ModelAffine ModelEllipse ModelTransfo ModelTriangle ModelBoundary4 ModelLowner
  PEllipse PEllipse3 PEllipse5 PEllipse6 PBoundary4b PBoundary4e PLowner1 PLowner3 PLowner4 PLowner5 PTriangle6 PAffEq.
Import ListNotations.
Local Open Scope R_scope.

Lemma convex_affine f P1 P2 P3 P4 : det2 (afA f) <> 0 -> convex_position P1 P2 P3 P4 ->
  convex_position (affine_transform f P1) (affine_transform f P2) (affine_transform f P3) (affine_transform f P4).
Proof.
  intros Hd (A & B & C & D & s & t & Q & Hs & Ht & E & NC).
  exists (affine_transform f A), (affine_transform f B), (affine_transform f C), (affine_transform f D), s, t.
  split; [apply (Permutation_map (affine_transform f)) in Q; exact Q|]. split; [auto|]. split; [auto|]. split; [|intros K; apply NC; eapply collinear_affine; eauto].
  assert (L : forall X Y k, at_line (affine_transform f X) (affine_transform f Y) k = affine_transform f (at_line X Y k)).
  { intros X Y k. destruct f as [[p q r w] [tx ty]]. unfold at_line, affine_transform, vadd, vscal, vsub, mv2; cbn [afA afb m11 m12 m21 m22 fst snd]. f_equal; ring. }
  rewrite !L, E. reflexivity.
Qed.

Lemma boundary4_affine argsort roots eigh f P1 P2 P3 P4 : is_argsort argsort -> is_roots roots -> (forall S, is_eigh S (eigh S)) -> det2 (afA f) <> 0 -> convex_position P1 P2 P3 P4 ->
  exists e e', from_boundary4 true argsort roots eigh P1 P2 P3 P4 = Ok e /\
    from_boundary4 true argsort roots eigh (affine_transform f P1) (affine_transform f P2) (affine_transform f P3) (affine_transform f P4) = Ok e' /\
    0 < eb e <= ea e /\ 0 < eb e' <= ea e' /\
    (forall M, on_e e M <-> on_e e' (affine_transform f M)) /\ ea e' * eb e' = Rabs (det2 (afA f)) * (ea e * eb e).
Proof.
  intros H1 H2 H3 Hd CP. destruct (boundary4_smallest_set argsort roots eigh P1 P2 P3 P4 H1 H2 H3 CP) as (e & E & Hax & Ho & Hm).
  destruct (boundary4_smallest_set argsort roots eigh _ _ _ _ H1 H2 H3 (convex_affine f P1 P2 P3 P4 Hd CP)) as (e' & E' & Hax' & Ho' & Hm').
  exists e, e'. split; [auto|]. split; [auto|]. split; [auto|]. split; [auto|].
  destruct (affine_ellipse f (eO e) (ea e) (eb e) (ell_th e) Hd ltac:(lra) ltac:(lra)) as (a & b & th & Ha & Hb & Eab & EF).
  destruct (Hm' (affine_transform f (eO e)) a b th Ha Hb (on_affine_list f _ _ _ _ a b th [P1; P2; P3; P4] EF Ho)) as [L1 U1].
  destruct (affine_inv f Hd) as (g & Dg & gf & fg). assert (Hdg : det2 (afA g) <> 0) by (rewrite Dg; apply Rinv_neq_0_compat; auto).
  destruct (affine_ellipse g (eO e') (ea e') (eb e') (ell_th e') Hdg ltac:(lra) ltac:(lra)) as (a2 & b2 & th2 & Ha2 & Hb2 & Eab2 & EF2).
  assert (Ho2 : Forall (on_ellipse (affine_transform g (eO e')) a2 b2 th2) [P1; P2; P3; P4]).
  { pose proof (on_affine_list g _ _ _ _ a2 b2 th2 _ EF2 Ho') as K. cbn [map] in K. rewrite !gf in K. exact K. }
  destruct (Hm (affine_transform g (eO e')) a2 b2 th2 Ha2 Hb2 Ho2) as [L2 _].
  assert (EQ : ea e' * eb e' = a * b).
  { rewrite Eab2, Dg, Rabs_inv in L2. rewrite Eab in *. pose proof (Rabs_pos_lt _ Hd) as Pd. set (d := Rabs (det2 (afA f))) in *. apply Rle_antisym; [auto|].
    apply Rmult_le_compat_l with (r := d) in L2; [|lra]. replace (d * (/ d * (ea e' * eb e'))) with (ea e' * eb e') in L2 by (field; lra). lra. }
  split; [|lra]. intros M. rewrite <- (U1 EQ). unfold on_ellipse. rewrite EF. tauto.
Qed.

(** ** The smallest ellipse *)
Lemma smallest_affine f points O a b th O' a' b' th' : det2 (afA f) <> 0 -> smallest_enclosing O a b th points -> smallest_enclosing O' a' b' th' (map (affine_transform f) points) ->
  (forall M, in_ellipse O a b th M <-> in_ellipse O' a' b' th' (affine_transform f M)) /\ a' * b' = Rabs (det2 (afA f)) * (a * b).
Proof.
  intros Hd (Ha & Hb & Hi & Hm) (Ha' & Hb' & Hi' & Hm'). pose proof PI_RGT_0 as PP.
  destruct (affine_ellipse f O a b th Hd Ha Hb) as (a1 & b1 & th1 & Ha1 & Hb1 & Eab & EF).
  destruct (Hm' (affine_transform f O) a1 b1 th1 Ha1 Hb1 (in_affine_list f _ _ _ _ a1 b1 th1 points EF Hi)) as [L1 U1].
  destruct (affine_inv f Hd) as (g & Dg & gf & fg). assert (Hdg : det2 (afA g) <> 0) by (rewrite Dg; apply Rinv_neq_0_compat; auto).
  destruct (affine_ellipse g O' a' b' th' Hdg Ha' Hb') as (a2 & b2 & th2 & Ha2 & Hb2 & Eab2 & EF2).
  assert (Ho2 : Forall (in_ellipse (affine_transform g O') a2 b2 th2) points).
  { pose proof (in_affine_list g _ _ _ _ a2 b2 th2 _ EF2 Hi') as K. rewrite map_map in K. rewrite (map_ext _ (fun M => M)) in K by (intros; apply gf). rewrite map_id in K. exact K. }
  destruct (Hm (affine_transform g O') a2 b2 th2 Ha2 Hb2 Ho2) as [L2 _].
  assert (EQ : a' * b' = a1 * b1).
  { rewrite !Rmult_assoc in L1, L2. apply Rmult_le_reg_l in L1; [|auto]. apply Rmult_le_reg_l in L2; [|auto]. rewrite Eab2, Dg, Rabs_inv in L2. rewrite Eab in *. pose proof (Rabs_pos_lt _ Hd) as Pd. set (d := Rabs (det2 (afA f))) in *. apply Rle_antisym; [auto|].
    apply Rmult_le_compat_l with (r := d) in L2; [|lra]. replace (d * (/ d * (a' * b'))) with (a' * b') in L2 by (field; lra). lra. }
  split; [|lra]. intros M. rewrite <- U1 by (rewrite !Rmult_assoc, EQ; reflexivity). unfold in_ellipse. rewrite EF. tauto.
Qed.

(** the boundary from the inside *)
Lemma in_on_incl O a b th O' a' b' th' : 0 < a -> 0 < b -> 0 < a' -> 0 < b' -> (forall M, in_ellipse O a b th M <-> in_ellipse O' a' b' th' M) -> forall M, on_ellipse O a b th M -> on_ellipse O' a' b' th' M.
Proof.
  intros Ha Hb Ha' Hb' H M HM. unfold on_ellipse in *. destruct (Rle_or_lt 1 (ell_form O' a' b' th' M)) as [L|L].
  - assert (K : in_ellipse O' a' b' th' M) by (apply H; unfold in_ellipse; lra). unfold in_ellipse in K. lra.
  - exfalso. destruct (ell_quad O a b th Ha Hb) as (P & Q & S & _ & _ & EF). destruct (ell_quad O' a' b' th' Ha' Hb') as (P' & Q' & S' & _ & _ & EF').
    rewrite EF in HM. rewrite EF' in L. destruct M as [x y], O as [ox oy], O' as [px py]. cbn [fst snd] in *.
    set (u := x - ox) in *. set (v := y - oy) in *. set (c0 := P' * ((x - px) * (x - px)) + 2 * Q' * ((x - px) * (y - py)) + S' * ((y - py) * (y - py))) in *.
    set (c1 := 2 * (P' * ((x - px) * u) + Q' * ((x - px) * v + u * (y - py)) + S' * ((y - py) * v))). set (c2 := P' * (u * u) + 2 * Q' * (u * v) + S' * (v * v)).
    set (k := 1 + Rabs c1 + Rabs c2). assert (Pk : 1 <= k) by (unfold k; pose proof (Rabs_pos c1); pose proof (Rabs_pos c2); lra).
    set (h := Rmin 1 ((1 - c0) / k)). assert (Ph : 0 < h) by (apply Rmin_glb_lt; [lra|apply Rdiv_lt_0_compat; lra]). assert (H1 : h <= 1) by apply Rmin_l. assert (H2 : h * k <= 1 - c0). { assert (h <= (1 - c0) / k) by apply Rmin_r. apply Rmult_le_reg_r with (/ k); [apply Rinv_0_lt_compat; lra|]. rewrite Rmult_assoc, Rinv_r by lra. unfold Rdiv in *. lra. }
    assert (K : in_ellipse (px, py) a' b' th' (x + h * u, y + h * v)).
    { unfold in_ellipse. rewrite EF'. cbn [fst snd]. match goal with |- ?e <= 1 => replace e with (c0 + h * (c1 + h * c2)) by (unfold c0, c1, c2; ring) end.
      pose proof (Rle_abs c1). pose proof (Rle_abs c2). pose proof (Rabs_pos c2). assert (h * c2 <= Rabs c2) by nra. assert (h * (c1 + h * c2) <= h * k) by (apply Rmult_le_compat_l; [lra|unfold k; lra]). lra. }
    apply H in K. unfold in_ellipse in K. rewrite EF in K. cbn [fst snd] in K.
    assert (E1 : P * ((x + h * u - ox) * (x + h * u - ox)) + 2 * Q * ((x + h * u - ox) * (y + h * v - oy)) + S * ((y + h * v - oy) * (y + h * v - oy)) = (1 + h) * (1 + h) * (P * (u * u) + 2 * Q * (u * v) + S * (v * v))) by (unfold u, v; ring).
    rewrite E1, HM in K. nra.
Qed.

Lemma in_on_affine f O a b th O' a' b' th' : det2 (afA f) <> 0 -> 0 < a -> 0 < b -> 0 < a' -> 0 < b' -> (forall M, in_ellipse O a b th M <-> in_ellipse O' a' b' th' (affine_transform f M)) ->
  forall M, on_ellipse O a b th M <-> on_ellipse O' a' b' th' (affine_transform f M).
Proof.
  intros Hd Ha Hb Ha' Hb' H. destruct (affine_ellipse f O a b th Hd Ha Hb) as (a1 & b1 & th1 & Ha1 & Hb1 & _ & EF). destruct (affine_inv f Hd) as (g & _ & gf & fg).
  assert (G : forall M, in_ellipse (affine_transform f O) a1 b1 th1 M <-> in_ellipse O' a' b' th' M).
  { intros M. rewrite <- (fg M). rewrite <- H. unfold in_ellipse. rewrite EF. tauto. }
  assert (G' : forall M, in_ellipse O' a' b' th' M <-> in_ellipse (affine_transform f O) a1 b1 th1 M) by (intros M; symmetry; apply G).
  assert (Q : forall M, on_ellipse O a b th M <-> on_ellipse (affine_transform f O) a1 b1 th1 (affine_transform f M)) by (intros M; unfold on_ellipse; rewrite EF; tauto).
  intros M. rewrite Q. split; [apply (in_on_incl _ _ _ _ _ _ _ _ Ha1 Hb1 Ha' Hb' G)|apply (in_on_incl _ _ _ _ _ _ _ _ Ha' Hb' Ha1 Hb1 G')].
Qed.

(** ** With the method of the library that transforms an ellipse *)
Lemma same_as_transform f e e' : det2 (afA f) <> 0 -> 0 < eb e <= ea e -> (forall M, on_e e M <-> on_e e' (affine_transform f M)) ->
  exists e2, affine_transform_ellipse f (AEllipse e) = Ok (Some e2) /\ forall M, on_e e2 M <-> on_e e' M.
Proof.
  intros Hd Hax H. destruct (transform_ellipse_spec f (AEllipse e)) as (e2 & E2 & _ & _ & _ & HF); [split; lra|auto|]. exists e2. split; [auto|].
  destruct (affine_inv f Hd) as (g & _ & _ & fg). intros M. rewrite <- (fg M), <- HF, <- H. tauto.
Qed.

Lemma boundary3_same eigh f P1 P2 P3 e : (forall S, is_eigh S (eigh S)) -> det2 (afA f) <> 0 -> from_boundary3 eigh P1 P2 P3 = Ok e ->
  exists e' e2, from_boundary3 eigh (affine_transform f P1) (affine_transform f P2) (affine_transform f P3) = Ok e' /\
    affine_transform_ellipse f (AEllipse e) = Ok (Some e2) /\ (forall M, on_e e2 M <-> on_e e' M).
Proof.
  intros Hs Hd H. destruct (from_boundary3_on eigh P1 P2 P3 e Hs H) as (_ & _ & Hax & _). destruct (boundary3_affine eigh f P1 P2 P3 e Hs Hd H) as (e' & E' & EF & _).
  destruct (same_as_transform f e e' Hd Hax) as (e2 & E2 & K); [intros M; unfold on_ellipse; rewrite EF; tauto|]. exists e', e2. auto.
Qed.

Lemma boundary4_same argsort roots eigh f P1 P2 P3 P4 : is_argsort argsort -> is_roots roots -> (forall S, is_eigh S (eigh S)) -> det2 (afA f) <> 0 -> convex_position P1 P2 P3 P4 ->
  exists e e' e2, from_boundary4 true argsort roots eigh P1 P2 P3 P4 = Ok e /\
    from_boundary4 true argsort roots eigh (affine_transform f P1) (affine_transform f P2) (affine_transform f P3) (affine_transform f P4) = Ok e' /\
    affine_transform_ellipse f (AEllipse e) = Ok (Some e2) /\ (forall M, on_e e2 M <-> on_e e' M).
Proof.
  intros H1 H2 H3 Hd CP. destruct (boundary4_affine argsort roots eigh f P1 P2 P3 P4 H1 H2 H3 Hd CP) as (e & e' & E & E' & Hax & _ & HF & _).
  destruct (same_as_transform f e e' Hd Hax HF) as (e2 & E2 & K). exists e, e', e2. auto.
Qed.

Lemma lowner_same argsort roots eigh eigvals ch ch' f points e e' : is_argsort argsort -> is_roots roots -> (forall S, is_eigh S (eigh S)) -> (forall M, is_eigvals M (eigvals M)) -> det2 (afA f) <> 0 ->
  (forall O a b th, through_five points O a b th -> not_diagonal a b th) -> (forall O a b th, through_five (map (affine_transform f) points) O a b th -> not_diagonal a b th) ->
  LownerJohn_full true argsort roots eigh eigvals ch points = Ok (Some e) -> LownerJohn_full true argsort roots eigh eigvals ch' (map (affine_transform f) points) = Ok (Some e') ->
  exists e2, affine_transform_ellipse f (AEllipse e) = Ok (Some e2) /\ (forall M, on_e e2 M <-> on_e e' M).
Proof.
  intros H1 H2 H3 H4 Hd G G' H H'. destruct (full_smallest argsort roots eigh eigvals ch H1 H2 H3 H4 points e G H) as [Hax K]. destruct (full_smallest argsort roots eigh eigvals ch' H1 H2 H3 H4 _ e' G' H') as [Hax' K'].
  destruct (smallest_affine f points _ _ _ _ _ _ _ _ Hd K K') as [HI _]. apply same_as_transform; auto. apply in_on_affine; auto; lra.
Qed.

(** ** Steiner ellipses *)
Lemma steiner_same f A B C : det2 (afA f) <> 0 -> ~ collinear A B C -> allclose A B = false -> allclose A C = false -> allclose B C = false ->
  let A' := affine_transform f A in let B' := affine_transform f B in let C' := affine_transform f C in
  allclose A' B' = false -> allclose A' C' = false -> allclose B' C' = false ->
  (exists e e' e2, steiner_ellipse (mkTri A B C) = Ok (Some e) /\ steiner_ellipse (mkTri A' B' C') = Ok (Some e') /\ affine_transform_ellipse f (AEllipse e) = Ok (Some e2) /\ (forall M, on_e e2 M <-> on_e e' M)) /\
  (exists e e' e2, steiner_inellipse (mkTri A B C) = Ok (Some e) /\ steiner_inellipse (mkTri A' B' C') = Ok (Some e') /\ affine_transform_ellipse f (AEllipse e) = Ok (Some e2) /\ (forall M, on_e e2 M <-> on_e e' M)).
Proof.
  intros Hd NC N1 N2 N3 A' B' C' N1' N2' N3'. assert (NC' : ~ collinear A' B' C') by (intros K; apply NC; eapply collinear_affine; eauto). split.
  - destruct (steiner_ellipse_spec A B C NC N1 N2 N3) as (e & E & Hax & EO & OA & OB & OC & _). destruct (steiner_ellipse_spec A' B' C' NC' N1' N2' N3') as (e' & E' & Hax' & EO' & OA' & OB' & OC' & _).
    destruct (centred_affine f A B C e e' Hd NC Hax Hax' EO) as [EF _]; [rewrite EO', EO; symmetry; apply centroid_affine|repeat constructor; auto|repeat constructor; auto|].
    destruct (same_as_transform f e e' Hd Hax) as (e2 & E2 & K); [intros M; unfold on_ellipse; rewrite EF; tauto|]. exists e, e', e2. auto.
  - destruct (steiner_inellipse_spec A B C NC N1 N2 N3) as (e & E & Hax & EO & (OA & _) & (OB & _) & (OC & _)). destruct (steiner_inellipse_spec A' B' C' NC' N1' N2' N3') as (e' & E' & Hax' & EO' & (OA' & _) & (OB' & _) & (OC' & _)).
    unfold A', B', C' in OA', OB', OC'. rewrite <- !midpoint_affine in OA', OB', OC'.
    destruct (centred_affine f (midpoint A B) (midpoint B C) (midpoint A C) e e' Hd) as [EF _]; auto.
    + intros K. apply NC. apply collinear_cross in K. apply collinear_cross. destruct A, B, C. unfold scross, vsub, midpoint in *; cbn [fst snd] in *. lra.
    + rewrite EO. destruct A, B, C. unfold centroid, midpoint; cbn [fst snd]. f_equal; field.
    + rewrite EO', EO. symmetry; apply centroid_affine.
    + destruct (same_as_transform f e e' Hd Hax) as (e2 & E2 & K); [intros M; unfold on_ellipse; rewrite EF; tauto|]. exists e, e', e2. auto.
Qed.
