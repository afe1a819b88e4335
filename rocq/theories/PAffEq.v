(** * Affine maps and the ellipses attached to points. *)

From Coq Require Import Reals Lra Lia Psatz List Bool Permutation.
From Verif Require Import Base BaseLemmas Spec SpecLemmas SpecBoundary4 SpecLowner ModelInternal ModelLine ModelCircle ModelAffine ModelEllipse ModelBoundary4 ModelLowner
  PEllipse PEllipse3 PEllipse5 PEllipse6 PBoundary4b PBoundary4e PLowner1 PLowner3 PLowner4 PLowner5.
Import ListNotations.
Local Open Scope R_scope.

Notation on_e e := (on_ellipse (eO e) (ea e) (eb e) (ell_th e)).
Notation in_e e := (in_ellipse (eO e) (ea e) (eb e) (ell_th e)).
Notation form_e e := (ell_form (eO e) (ea e) (eb e) (ell_th e)).

(** the image of an ellipse *)
Lemma affine_ellipse f O a b th : det2 (afA f) <> 0 -> 0 < a -> 0 < b -> exists a' b' th', 0 < a' /\ 0 < b' /\ a' * b' = Rabs (det2 (afA f)) * (a * b) /\
  forall M, ell_form (affine_transform f O) a' b' th' (affine_transform f M) = ell_form O a b th M.
Proof.
  intros Hd Ha Hb. destruct (ell_quad O a b th Ha Hb) as (A & B & C & PA & HD & EF). destruct f as [[p q r s] [tx ty]]. unfold det2 in *. cbn [afA m11 m12 m21 m22] in *.
  set (d := p * s - q * r) in *. assert (Pab : 0 < a * b) by (apply Rmult_lt_0_compat; auto). set (ab := a * b) in *.
  assert (D0 : 0 < A * C - B * B). { destruct (Rle_or_lt (A * C - B * B) 0) as [L|L]; [|auto]. assert (0 <= ab * ab) by nra. nra. }
  set (A' := qf A B C (s / d) (- r / d)). set (C' := qf A B C (- q / d) (p / d)). set (B' := (A * (s / d) * (- q / d) + B * ((s / d) * (p / d) + (- r / d) * (- q / d)) + C * (- r / d) * (p / d))).
  assert (HA' : 0 < A'). { pose proof (qf_nonneg A B C (s / d) (- r / d) PA D0) as N. destruct (Rle_or_lt A' 0) as [L|L]; [|auto]. exfalso. destruct (qf_zero A B C (s / d) (- r / d) PA D0 L) as [Z1 Z2].
    assert (s = 0) by (replace s with (s / d * d) by (field; auto); rewrite Z1; ring). assert (r = 0) by (replace r with (- (- r / d * d)) by (field; auto); rewrite Z2; ring). subst. apply Hd. unfold d. ring. }
  assert (ED : (A' * C' - B' * B') * (d * d) = A * C - B * B).
  { unfold A', B', C', qf. transitivity ((A * C - B * B) * ((s * p - r * q) * (s * p - r * q)) / (d * d)); [field; auto|]. unfold d. field. exact Hd. }
  assert (D' : 0 < A' * C' - B' * B'). { destruct (Rle_or_lt (A' * C' - B' * B') 0) as [L|L]; [|auto]. assert (0 < d * d) by nra. nra. }
  destruct (ellipse_of_form (affine_transform (mkAffine (mkM2 p q r s) (tx, ty)) O) A' B' C' HA' D') as (a' & b' & th' & Ha' & Hb' & E & EF').
  exists a', b', th'. split; [auto|]. split; [auto|]. split.
  - assert (Pab' : 0 < a' * b') by (apply Rmult_lt_0_compat; auto). set (ab' := a' * b') in *. clearbody ab ab'. pose proof (Rabs_pos_lt d Hd) as Pd. assert (Sd : Rabs d * Rabs d = d * d) by (rewrite <- Rabs_mult; apply Rabs_right; nra).
    set (k := A' * C' - B' * B') in *. clearbody k.
    assert (K : k * ((ab' - Rabs d * ab) * (ab' + Rabs d * ab)) = 0). { transitivity (k * (ab' * ab') - k * (Rabs d * Rabs d) * (ab * ab)); [ring|]. rewrite Sd, E, ED, HD. ring. }
    apply Rmult_integral in K. destruct K as [K|K]; [lra|]. apply Rmult_integral in K. destruct K as [K|K]; [lra|]. assert (0 < Rabs d * ab) by (apply Rmult_lt_0_compat; auto). lra.
  - intros [x y]. rewrite EF', EF. destruct O as [ox oy]. unfold affine_transform, vadd, mv2, A', B', C', qf. cbn [afA afb m11 m12 m21 m22 fst snd].
    set (u := x - ox). set (v := y - oy). replace (p * x + q * y + tx - (p * ox + q * oy + tx)) with (p * u + q * v) by (unfold u, v; ring). replace (r * x + s * y + ty - (r * ox + s * oy + ty)) with (r * u + s * v) by (unfold u, v; ring).
    transitivity ((A * ((p * s - q * r) * u * ((p * s - q * r) * u)) + 2 * B * ((p * s - q * r) * u * ((p * s - q * r) * v)) + C * ((p * s - q * r) * v * ((p * s - q * r) * v))) / (d * d)); [field; auto|]. unfold d. field. exact Hd.
Qed.

(** the inverse map *)
Lemma affine_inv f : det2 (afA f) <> 0 -> exists g, det2 (afA g) = / det2 (afA f) /\ (forall M, affine_transform g (affine_transform f M) = M) /\ (forall M, affine_transform f (affine_transform g M) = M).
Proof.
  destruct f as [[p q r s] [tx ty]]. unfold det2. cbn [afA m11 m12 m21 m22]. intros Hd. set (d := p * s - q * r) in *.
  exists (mkAffine (mkM2 (s / d) (- q / d) (- r / d) (p / d)) (- (s / d * tx + - q / d * ty), - (- r / d * tx + p / d * ty))). cbn [afA m11 m12 m21 m22].
  split; [transitivity ((s * p - q * r) / (d * d)); [field; auto|unfold d; field; exact Hd]|].
  split; intros [x y]; unfold affine_transform, vadd, mv2; cbn [afA afb m11 m12 m21 m22 fst snd]; f_equal; unfold d; field; exact Hd.
Qed.

(** ** Ellipses with the same points *)
Lemma centred_unique O a b th a' b' th' A B C : ~ collinear A B C -> O = centroid A B C -> 0 < a -> 0 < b -> 0 < a' -> 0 < b' ->
  Forall (on_ellipse O a b th) [A; B; C] -> Forall (on_ellipse O a' b' th') [A; B; C] -> forall M, ell_form O a b th M = ell_form O a' b' th' M.
Proof.
  intros NC EO Ha Hb Ha' Hb' H H'. destruct (ell_quad O a b th Ha Hb) as (P & Q & S & _ & _ & EF). destruct (ell_quad O a' b' th' Ha' Hb') as (P' & Q' & S' & _ & _ & EF').
  inversion_clear H as [|? ? H1 H0]. inversion_clear H0 as [|? ? H2 H0']. inversion_clear H0' as [|? ? H3 _]. inversion_clear H' as [|? ? K1 H0]. inversion_clear H0 as [|? ? K2 H0']. inversion_clear H0' as [|? ? K3 _].
  unfold on_ellipse in *. rewrite EF in H1, H2, H3. rewrite EF' in K1, K2, K3.
  assert (NX : scross (vsub B A) (vsub C A) <> 0) by (intros K; apply NC, collinear_cross, K).
  destruct A as [ax ay], B as [bx by_], C as [cx cy]. unfold centroid in EO. unfold scross, vsub in NX. cbn [fst snd] in *.
  set (u := ax - fst O) in *. set (v := ay - snd O) in *. set (x := bx - fst O) in *. set (y := by_ - snd O) in *.
  assert (Ec : cx - fst O = - (u + x)) by (rewrite EO; unfold u, x; rewrite EO; cbn [fst]; lra). assert (Ec' : cy - snd O = - (v + y)) by (rewrite EO; unfold v, y; rewrite EO; cbn [snd]; lra).
  rewrite Ec, Ec' in *.
  assert (W : u * y - v * x <> 0). { intros W. apply NX. transitivity (3 * (u * y - v * x)); [|rewrite W; ring]. replace (bx - ax) with (x - u) by (unfold x, u; ring). replace (by_ - ay) with (y - v) by (unfold y, v; ring).
    replace (cx - ax) with (cx - fst O - u) by (unfold u; ring). replace (cy - ay) with (cy - snd O - v) by (unfold v; ring). rewrite Ec, Ec'. ring. }
  set (p := P - P'). set (q := Q - Q'). set (s := S - S').
  assert (G1 : p * (u * u) + 2 * q * (u * v) + s * (v * v) = 0) by (unfold p, q, s; lra).
  assert (G2 : p * (x * x) + 2 * q * (x * y) + s * (y * y) = 0) by (unfold p, q, s; lra).
  assert (G3 : p * (u * x) + q * (u * y + v * x) + s * (v * y) = 0) by (unfold p, q, s; lra).
  (* the form p, q, s vanishes on a basis *)
  assert (L1 : p * u + q * v = 0). { apply Rmult_eq_reg_r with (u * y - v * x); auto. transitivity (y * (p * (u * u) + 2 * q * (u * v) + s * (v * v)) - v * (p * (u * x) + q * (u * y + v * x) + s * (v * y))); [ring|rewrite G1, G3; ring]. }
  assert (L2 : q * u + s * v = 0). { apply Rmult_eq_reg_r with (u * y - v * x); auto. transitivity (u * (p * (u * x) + q * (u * y + v * x) + s * (v * y)) - x * (p * (u * u) + 2 * q * (u * v) + s * (v * v))); [ring|rewrite G1, G3; ring]. }
  assert (L3 : p * x + q * y = 0). { apply Rmult_eq_reg_r with (u * y - v * x); auto. transitivity (y * (p * (u * x) + q * (u * y + v * x) + s * (v * y)) - v * (p * (x * x) + 2 * q * (x * y) + s * (y * y))); [ring|rewrite G2, G3; ring]. }
  assert (L4 : q * x + s * y = 0). { apply Rmult_eq_reg_r with (u * y - v * x); auto. transitivity (u * (p * (x * x) + 2 * q * (x * y) + s * (y * y)) - x * (p * (u * x) + q * (u * y + v * x) + s * (v * y))); [ring|rewrite G2, G3; ring]. }
  assert (Z1 : p = 0). { apply Rmult_eq_reg_r with (u * y - v * x); auto. transitivity (y * (p * u + q * v) - v * (p * x + q * y)); [ring|rewrite L1, L3; ring]. }
  assert (Z2 : q = 0). { apply Rmult_eq_reg_r with (u * y - v * x); auto. transitivity (y * (q * u + s * v) - v * (q * x + s * y)); [ring|rewrite L2, L4; ring]. }
  assert (Z3 : s = 0). { apply Rmult_eq_reg_r with (u * y - v * x); auto. transitivity (u * (q * x + s * y) - x * (q * u + s * v)); [ring|rewrite L2, L4; ring]. }
  intros M. rewrite EF, EF'. replace P with P' by (unfold p in Z1; lra). replace Q with Q' by (unfold q in Z2; lra). replace S with S' by (unfold s in Z3; lra). reflexivity.
Qed.

Lemma centroid_affine f A B C : affine_transform f (centroid A B C) = centroid (affine_transform f A) (affine_transform f B) (affine_transform f C).
Proof. destruct f as [[p q r s] [tx ty]]. unfold affine_transform, centroid, vadd, mv2; cbn [afA afb m11 m12 m21 m22 fst snd]. f_equal; field. Qed.
Lemma midpoint_affine f A B : affine_transform f (midpoint A B) = midpoint (affine_transform f A) (affine_transform f B).
Proof. destruct f as [[p q r s] [tx ty]]. unfold affine_transform, midpoint, vadd, mv2; cbn [afA afb m11 m12 m21 m22 fst snd]. f_equal; field. Qed.
Lemma br_affine f A B C : br (affine_transform f A) (affine_transform f B) (affine_transform f C) = det2 (afA f) * br A B C.
Proof. destruct f as [[p q r s] [tx ty]]. unfold br, scross, vsub, affine_transform, vadd, mv2, det2; cbn [afA afb m11 m12 m21 m22 fst snd]. ring. Qed.
Lemma collinear_affine f A B C : det2 (afA f) <> 0 -> collinear (affine_transform f A) (affine_transform f B) (affine_transform f C) -> collinear A B C.
Proof. intros Hd K. apply collinear_cross in K. apply collinear_cross. fold (br A B C). change (br (affine_transform f A) (affine_transform f B) (affine_transform f C) = 0) in K. rewrite br_affine in K. apply Rmult_integral in K. tauto. Qed.

Lemma on_affine_list f O a b th a' b' th' l : (forall M, ell_form (affine_transform f O) a' b' th' (affine_transform f M) = ell_form O a b th M) ->
  Forall (on_ellipse O a b th) l -> Forall (on_ellipse (affine_transform f O) a' b' th') (map (affine_transform f) l).
Proof. intros E H. apply Forall_map. eapply Forall_impl; [|exact H]. intros M HM. unfold on_ellipse in *. rewrite E. exact HM. Qed.
Lemma in_affine_list f O a b th a' b' th' l : (forall M, ell_form (affine_transform f O) a' b' th' (affine_transform f M) = ell_form O a b th M) ->
  Forall (in_ellipse O a b th) l -> Forall (in_ellipse (affine_transform f O) a' b' th') (map (affine_transform f) l).
Proof. intros E H. apply Forall_map. eapply Forall_impl; [|exact H]. intros M HM. unfold in_ellipse in *. rewrite E. exact HM. Qed.

(** the ellipses centred at the centroid *)
Lemma centred_affine f A B C e e' : det2 (afA f) <> 0 -> ~ collinear A B C -> 0 < eb e <= ea e -> 0 < eb e' <= ea e' -> eO e = centroid A B C -> eO e' = affine_transform f (eO e) ->
  Forall (on_e e) [A; B; C] -> Forall (on_e e') [affine_transform f A; affine_transform f B; affine_transform f C] ->
  (forall M, form_e e' (affine_transform f M) = form_e e M) /\ ea e' * eb e' = Rabs (det2 (afA f)) * (ea e * eb e).
Proof.
  intros Hd NC Hax Hax' EO EO' Ho Ho'. destruct (affine_ellipse f (eO e) (ea e) (eb e) (ell_th e) Hd ltac:(lra) ltac:(lra)) as (a & b & th & Ha & Hb & Eab & EF).
  assert (G : forall M, form_e e' M = ell_form (affine_transform f (eO e)) a b th M).
  { rewrite EO'. rewrite EO' in Ho'. apply (centred_unique _ _ _ _ _ _ _ (affine_transform f A) (affine_transform f B) (affine_transform f C)); try lra; auto.
    - intros K. apply NC. eapply collinear_affine; eauto.
    - rewrite EO. apply centroid_affine.
    - apply (on_affine_list f _ _ _ _ a b th [A; B; C] EF Ho). }
  split; [intros M; rewrite G; apply EF|]. rewrite <- Eab. apply (form_area (eO e') _ _ (ell_th e') (affine_transform f (eO e)) a b th); try lra; auto.
Qed.

(** ** Three points *)
Lemma boundary3_affine eigh f P1 P2 P3 e : (forall S, is_eigh S (eigh S)) -> det2 (afA f) <> 0 -> from_boundary3 eigh P1 P2 P3 = Ok e ->
  exists e', from_boundary3 eigh (affine_transform f P1) (affine_transform f P2) (affine_transform f P3) = Ok e' /\
    (forall M, form_e e' (affine_transform f M) = form_e e M) /\ ea e' * eb e' = Rabs (det2 (afA f)) * (ea e * eb e).
Proof.
  intros Hs Hd H. destruct (from_boundary3_on eigh P1 P2 P3 e Hs H) as (NB & EO & Hax & Ho).
  destruct (from_boundary3_cases eigh (affine_transform f P1) (affine_transform f P2) (affine_transform f P3) Hs) as [[Z _]|(_ & e' & E' & _)].
  - exfalso. rewrite br_affine in Z. apply Rmult_integral in Z. tauto.
  - exists e'. split; [auto|]. destruct (from_boundary3_on eigh _ _ _ e' Hs E') as (_ & EO' & Hax' & Ho').
    apply (centred_affine f P1 P2 P3); auto; [intros K; apply NB, collinear_cross, K|]. rewrite EO', EO. symmetry. apply centroid_affine.
Qed.
