(** * The images of an ellipse by composed maps. *)

From Coq Require Import Reals Lra Psatz.
From Verif Require Import Base BaseLemmas Spec SpecLemmas SpecEllForm ModelInternal ModelLine ModelCircle ModelAffine ModelEllipse ModelTransfo
  PAffine PTransfo PEllipse PEllipse2 PEllipse3 PEllipse4 PBoundary4b PLowner1 PAffEq PAffEq2 PEllUnique.
Local Open Scope R_scope.

Definition deg_of (arg : circ_or_ell) : bool := match arg with ACircle _ => true | AEllipse e0 => edeg e0 end.

Lemma transform_full f arg : pos_ce arg -> det2 (afA f) <> 0 ->
  exists e, affine_transform_ellipse f arg = Ok (Some e) /\ normal_e e /\ edeg e = deg_of arg /\
    forall M, on_ce arg M <-> on_e e (affine_transform f M).
Proof.
  intros Hp Hd. destruct (transform_ellipse_spec f arg Hp Hd) as (e & E & Hax & Hg & Hal & Hon). exists e. split; [auto|]. split; [|auto]. split; [auto|]. split; [auto|].
  rewrite transform_ellipse_eq in E by auto. destruct (match arg with ACircle c => circle_as_ellipse c | AEllipse e => Ok e end) as [e0|]; [|discriminate]. cbn [bind] in E.
  destruct (inv3 (affine_mat3 f)) as [Mat|]; [|discriminate]. cbn [bind] in E. exact (ell_of_conic_round _ _ _ E).
Qed.

Lemma normal_unique e e' : normal_e e -> normal_e e' -> edeg e = edeg e' -> (forall M, on_e e M -> on_e e' M) -> e = e'.
Proof. intros (H1 & H2 & H3) (K1 & K2 & K3) Hd H. apply object_unique; auto. Qed.

Lemma det_compose f g : det2 (afA (affine_compose f g true)) = det2 (afA g) * det2 (afA f) /\ det2 (afA (affine_compose f g false)) = det2 (afA f) * det2 (afA g).
Proof. destruct f as [[a b c d] [x y]], g as [[a' b' c' d'] [x' y']]. unfold det2. unaff. split; ring. Qed.

Lemma compose_right f g P : affine_transform (affine_compose f g false) P = affine_transform f (affine_transform g P).
Proof. destruct f as [[a b c d] [x y]], g as [[a' b' c' d'] [x' y']], P. unaff. f_equal; ring. Qed.

Lemma onto f : det2 (afA f) <> 0 -> forall M, exists N, M = affine_transform f N.
Proof. intros H M. destruct (affine_inv f H) as (g & _ & _ & fg). exists (affine_transform g M). auto. Qed.

Lemma transform_twice f g h arg e1 e2 : pos_ce arg -> det2 (afA f) <> 0 -> det2 (afA g) <> 0 -> det2 (afA h) <> 0 -> (forall P, affine_transform h P = affine_transform g (affine_transform f P)) ->
  affine_transform_ellipse f arg = Ok (Some e1) -> affine_transform_ellipse g (AEllipse e1) = Ok (Some e2) -> affine_transform_ellipse h arg = Ok (Some e2).
Proof.
  intros Hp Df Dg Dh Hh E1 E2. destruct (transform_full f arg Hp Df) as (e1' & E1' & N1 & D1 & O1). rewrite E1 in E1'. injection E1' as <-.
  destruct (transform_full g (AEllipse e1)) as (e2' & E2' & N2 & D2 & O2); [cbn [pos_ce]; destruct N1; lra|auto|]. rewrite E2 in E2'. injection E2' as <-.
  destruct (transform_full h arg Hp Dh) as (e3 & E3 & N3 & D3 & O3). rewrite E3. f_equal. f_equal. apply normal_unique; auto; [cbn [deg_of] in D2; congruence|].
  intros M HM. destruct (onto h Dh M) as [N ->]. apply O3 in HM. rewrite Hh. cbn [on_ce] in O2. apply O2, O1, HM.
Qed.

Lemma ellipse_compose f g arg (left : bool) : pos_ce arg -> det2 (afA f) <> 0 -> det2 (afA g) <> 0 ->
  let first := if left then f else g in let second := if left then g else f in
  exists e1 e2, affine_transform_ellipse first arg = Ok (Some e1) /\ affine_transform_ellipse second (AEllipse e1) = Ok (Some e2) /\
    affine_transform_ellipse (affine_compose f g left) arg = Ok (Some e2).
Proof.
  intros Hp Df Dg first second. assert (D1 : det2 (afA first) <> 0) by (unfold first; destruct left; auto). assert (D2 : det2 (afA second) <> 0) by (unfold second; destruct left; auto).
  destruct (transform_full first arg Hp D1) as (e1 & E1 & N1 & G1 & O1). destruct (transform_full second (AEllipse e1)) as (e2 & E2 & _); [cbn [pos_ce]; destruct N1; lra|auto|].
  exists e1, e2. split; [auto|]. split; [auto|]. apply (transform_twice first second _ arg e1 e2); auto.
  - destruct (det_compose f g) as [K1 K2]. destruct left; [rewrite K1|rewrite K2]; apply Rmult_integral_contrapositive_currified; auto.
  - intros P. unfold first, second. destruct left; [apply compose_left|apply compose_right].
Qed.

Lemma ellipse_inverse f e : 0 < ea e -> 0 < eb e -> det2 (afA f) <> 0 ->
  exists fi e1 e2, affine_inverse f = Ok (Some fi) /\ affine_transform_ellipse f (AEllipse e) = Ok (Some e1) /\ affine_transform_ellipse fi (AEllipse e1) = Ok (Some e2) /\
    (forall M, on_e e2 M <-> on_e e M) /\ (normal_e e -> e2 = e).
Proof.
  intros Ha Hb Hd. destruct (inv3_affine f Hd) as (gi & EI & Dg & gf). 
  assert (EV : affine_inverse f = Ok (Some gi)). { unfold affine_inverse. rewrite (proj2 (eqb_false _ _) Hd), EI. cbn [bind]. destruct gi as [[? ? ? ?] [? ?]]. reflexivity. }
  destruct (transform_full f (AEllipse e)) as (e1 & E1 & N1 & G1 & O1); [split; auto|auto|]. destruct (transform_full gi (AEllipse e1)) as (e2 & E2 & N2 & G2 & O2); [cbn [pos_ce]; destruct N1; lra|auto|].
  assert (S : forall M, on_e e2 M <-> on_e e M). { intros M. rewrite <- (gf M) at 1. cbn [on_ce] in *. rewrite <- O2. symmetry. apply O1. }
  exists gi, e1, e2. split; [auto|]. split; [auto|]. split; [auto|]. split; [auto|]. intros Ne. apply normal_unique; auto; [cbn [deg_of] in *; congruence|]. intros M. apply S.
Qed.

(** centre and area *)
Lemma ellipse_centre f e e1 : 0 < ea e -> 0 < eb e -> det2 (afA f) <> 0 -> affine_transform_ellipse f (AEllipse e) = Ok (Some e1) ->
  eO e1 = affine_transform f (eO e) /\ ea e1 * eb e1 = Rabs (det2 (afA f)) * (ea e * eb e).
Proof.
  intros Ha Hb Hd E. destruct (transform_full f (AEllipse e)) as (e1' & E1 & N1 & G1 & O1); [split; auto|auto|]. rewrite E in E1. injection E1 as <-.
  destruct (affine_ellipse f (eO e) (ea e) (eb e) (ell_th e) Hd Ha Hb) as (a' & b' & th' & Pa & Pb & Eab & EF). cbn [on_ce] in O1.
  assert (K : forall M, on_e e1 M -> on_ellipse (affine_transform f (eO e)) a' b' th' M). { intros M HM. destruct (onto f Hd M) as [N ->]. apply O1 in HM. unfold on_ellipse in *. rewrite EF. auto. }
  destruct N1 as (Hax & _). destruct (Rle_or_lt b' a') as [L|L].
  - destruct (ellipse_unique _ _ _ _ _ _ _ _ Hax (conj Pb L) K) as (-> & -> & -> & _). auto.
  - assert (K' : forall M, on_e e1 M -> on_ellipse (affine_transform f (eO e)) b' a' (th' + PI / 2) M).
    { intros M HM. apply K in HM. unfold on_ellipse, ell_form, fx, fy in *. rewrite cos_plus, sin_plus, cos_PI2, sin_PI2. etransitivity; [|exact HM]. unfold Rdiv. ring. }
    destruct (ellipse_unique _ _ _ _ _ _ _ _ Hax (conj Pa (Rlt_le _ _ L)) K') as (-> & -> & -> & _). split; [auto|]. rewrite <- Eab. ring.
Qed.

(** rotations: the method of [Rotation] and the affine map *)
Lemma ellipse_rotation r e : 0 < ea e -> 0 < eb e -> exists e1 e2, rotate_ellipse r e = Ok e1 /\ affine_transform_ellipse (rotation_as_affine r) (AEllipse e) = Ok (Some e2) /\
  eO e2 = eO e1 /\ edeg e2 = edeg e1 /\ ea e2 = Rmax (ea e1) (eb e1) /\ eb e2 = Rmin (ea e1) (eb e1) /\ forall M, on_e e1 M <-> on_e e2 M.
Proof.
  intros Ha Hb. destruct (rotate_ellipse_total r e Ha Hb) as (e1 & E1). destruct (rotate_ellipse_spec r e e1 E1) as (Ea & Eb & Ed & O1).
  assert (Hd : det2 (afA (rotation_as_affine r)) <> 0). { unfold rotation_as_affine, rotation_mat3, det2. destruct (rO r) as [ox oy]. unaff. cbn [m11 m12 m21 m22 n11 n12 n21 n22]. pose proof (sin2_cos2 (rot_angle r)) as K. unfold Rsqr in K. lra. }
  destruct (transform_full (rotation_as_affine r) (AEllipse e)) as (e2 & E2 & N2 & G2 & O2); [split; auto|auto|]. cbn [on_ce deg_of] in *. exists e1, e2. split; [auto|]. split; [auto|].
  assert (K : forall M, on_e e1 M <-> on_e e2 M). { intros M. destruct (onto _ Hd M) as [N ->]. rewrite <- O2. rewrite rotate_affine. symmetry. apply O1. }
  assert (K1 : forall M, on_e e2 M -> on_e e1 M) by (intros M; apply K). destruct N2 as (Hax & _). destruct (Rle_or_lt (eb e1) (ea e1)) as [L|L].
  - assert (P : 0 < eb e1 <= ea e1) by lra. destruct (ellipse_unique _ _ _ _ _ _ _ _ Hax P K1) as (Q1 & Q2 & Q3 & _). rewrite Rmax_left, Rmin_right by lra. split; [auto|]. split; [congruence|auto].
  - assert (K' : forall M, on_e e2 M -> on_ellipse (eO e1) (eb e1) (ea e1) (ell_th e1 + PI / 2) M).
    { intros M HM. apply K in HM. unfold on_ellipse, ell_form, fx, fy in *. rewrite cos_plus, sin_plus, cos_PI2, sin_PI2. etransitivity; [|exact HM]. unfold Rdiv. ring. }
    assert (P : 0 < ea e1 <= eb e1) by lra. destruct (ellipse_unique _ _ _ _ _ _ _ _ Hax P K') as (Q1 & Q2 & Q3 & _). rewrite Rmax_right, Rmin_left by lra. split; [auto|]. split; [congruence|auto].
Qed.

(** the map to another object on the same points: the identity puts an ellipse in normal form *)
Lemma ellipse_identity e : 0 < ea e -> 0 < eb e -> exists e1, affine_transform_ellipse (mkAffine (mkM2 1 0 0 1) (0, 0)) (AEllipse e) = Ok (Some e1) /\ normal_e e1 /\
  (forall M, on_e e1 M <-> on_e e M) /\ (normal_e e -> e1 = e).
Proof.
  intros Ha Hb. set (f := mkAffine (mkM2 1 0 0 1) (0, 0)). assert (Hd : det2 (afA f) <> 0) by (unfold det2, f; cbn; lra). assert (If : forall M, affine_transform f M = M) by (intros [x y]; unfold f; unaff; apply pair_eq; ring).
  destruct (transform_full f (AEllipse e)) as (e1 & E1 & N1 & G1 & O1); [split; auto|auto|]. cbn [on_ce deg_of] in *. exists e1. split; [auto|]. split; [auto|].
  assert (S : forall M, on_e e1 M <-> on_e e M) by (intros M; rewrite <- (If M) at 1; symmetry; apply O1). split; [auto|]. intros Ne. apply normal_unique; auto. intros M. apply S.
Qed.

(** two affine maps with the same values give the same object *)
Lemma unique_ex : exists e1 e2, affine_transform_ellipse (mkAffine (mkM2 2 1 0 1) (3, 4)) (AEllipse (mkEllipse (1, 0) 2 1 30 true)) = Ok (Some e1) /\
  affine_transform_ellipse (mkAffine (mkM2 0 (-1) 1 0) (1, 1)) (AEllipse e1) = Ok (Some e2) /\
  affine_transform_ellipse (mkAffine (mkM2 0 (-1) 2 1) (-3, 4)) (AEllipse (mkEllipse (1, 0) 2 1 30 true)) = Ok (Some e2) /\ eO e2 = (-3, 6) /\ ea e2 * eb e2 = 4.
Proof.
  set (f := mkAffine (mkM2 2 1 0 1) (3, 4)). set (g := mkAffine (mkM2 0 (-1) 1 0) (1, 1)). set (e := mkEllipse (1, 0) 2 1 30 true).
  assert (Df : det2 (afA f) = 2) by (unfold det2, f; cbn; lra). assert (Dg : det2 (afA g) = 1) by (unfold det2, g; cbn; lra).
  assert (EC : affine_compose f g true = mkAffine (mkM2 0 (-1) 2 1) (-3, 4)). { unfold f, g. unaff. f_equal; [f_equal; lra|apply pair_eq; lra]. }
  destruct (ellipse_compose f g (AEllipse e) true) as (e1 & e2 & E1 & E2 & E3); [split; cbn [ea eb e]; lra|lra|lra|]. rewrite EC in E3. exists e1, e2. split; [auto|]. split; [auto|]. split; [auto|].
  destruct (ellipse_centre (mkAffine (mkM2 0 (-1) 2 1) (-3, 4)) e e2) as [K1 K2]; [cbn [ea e]; lra|cbn [eb e]; lra|unfold det2; cbn; lra|exact E3|].
  rewrite K1, K2. unfold e, det2. unaff. cbn [eO ea eb]. split; [apply pair_eq; cbn [fst snd]; lra|]. replace (0 * 1 - -1 * 2) with 2 by lra. rewrite Rabs_right by lra. lra.
Qed.

Lemma ellipse_normal f e : 0 < ea e -> 0 < eb e -> det2 (afA f) <> 0 -> exists e1, affine_transform_ellipse f (AEllipse e) = Ok (Some e1) /\ normal_e e1 /\
  eO e1 = affine_transform f (eO e) /\ ea e1 * eb e1 = Rabs (det2 (afA f)) * (ea e * eb e) /\
  forall e2, normal_e e2 -> edeg e2 = edeg e -> (forall M, on_e e M -> on_e e2 (affine_transform f M)) -> e2 = e1.
Proof.
  intros Ha Hb Hd. destruct (transform_full f (AEllipse e)) as (e1 & E1 & N1 & G1 & O1); [split; auto|auto|]. cbn [on_ce deg_of] in *. exists e1. split; [auto|]. split; [auto|].
  destruct (ellipse_centre f e e1 Ha Hb Hd E1) as [K1 K2]. split; [auto|]. split; [auto|]. intros e2 N2 G2 O2. symmetry. apply normal_unique; auto; [congruence|].
  intros M HM. destruct (onto f Hd M) as [N ->]. apply O2, O1, HM.
Qed.
