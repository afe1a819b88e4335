(** * Proofs about the examples on Steiner chains: ellipses and ellipsoids *)

From Coq Require Import Reals Lra Lia Psatz List Bool ZArith PeanoNat.
From Verif Require Import Base BaseLemmas Spec SpecLemmas SpecTriangle SpecGasket SpecApollonian SpecSteinerEx ModelInternal ModelLine ModelCircle ModelAffine ModelEllipse ModelTransfo
  ModelTriangle ModelInversion ModelApollonian ModelSteinerEx PLine PCircle PCircle2 PInvBase PAffine PEllipse PEllipse2 PEllipse4 PEllipse3 PTriangle6 PSteiner PSteiner2 PSteinerEx1 PSteinerEx2 PSteinerEx3.
Import ListNotations.
Local Open Scope R_scope.

Definition epos (e : ellipse) : Prop := 0 < ea e /\ 0 < eb e.

Lemma e2e c0 ell0 : 0 < cr c0 -> epos ell0 -> exists f, from_ellipse_to_ellipse (ACircle c0) (AEllipse ell0) = Ok f /\ det2 (afA f) <> 0 /\
  affine_transform f (cO c0) = eO ell0 /\ forall M, eform ell0 (affine_transform f M) = cform c0 M.
Proof.
  intros H0 He. destruct (ellipse_to_ellipse_spec (ACircle c0) (AEllipse ell0) H0 He) as (f & Hf & D & H). cbn [on_ce] in H. exists f. split; auto. split; auto.
  apply (affine_circle_form f (cO c0) (cr c0) (eO ell0) (ea ell0) (eb ell0) (ell_th ell0)); auto; apply He.
Qed.

Section Map.
Variables (c0 : circle) (ell0 : ellipse) (f : affine).
Hypothesis H0 : 0 < cr c0.
Hypothesis He : epos ell0.
Hypothesis Hd : det2 (afA f) <> 0.
Hypothesis Hc : affine_transform f (cO c0) = eO ell0.
Hypothesis Hf : forall M, eform ell0 (affine_transform f M) = cform c0 M.

Lemma f_surj M : exists P, affine_transform f P = M.
Proof. destruct (proj2 (inverse_spec f) Hd) as (g & _ & _ & _ & K). exists (affine_transform g M). auto. Qed.

Definition erel (c : circle) (e : ellipse) : Prop :=
  0 < cr c /\ epos e /\ affine_transform f (cO c) = eO e /\ forall M, eform e (affine_transform f M) = cform c M.

Lemma erel0 : erel c0 ell0. Proof. repeat split; auto; apply He. Qed.

Lemma image_erel c : 0 < cr c -> exists e, image_ellipse f (GC c) = Ok e /\ erel c e /\ eb e <= ea e.
Proof.
  intros P. unfold image_ellipse. cbn [drawn bind]. destruct (transform_ellipse_spec f (ACircle c) P Hd) as (e & E & A & _ & _ & K). cbn [on_ce] in K. rewrite E. cbn [bind].
  exists e. split; auto. split; [|lra]. split; auto. split; [split; lra|]. apply (affine_circle_form f (cO c) (cr c) (eO e) (ea e) (eb e) (ell_th e)); auto; lra.
Qed.
Lemma image_Ok g e : image_ellipse f g = Ok e -> exists c, g = GC c.
Proof. unfold image_ellipse. destruct g; [eauto|discriminate]. Qed.

Lemma erel_inside c1 c y1 y : erel c1 y1 -> erel c y -> circle_inside c1 c -> ell_inside y1 y.
Proof. intros (P1 & _ & _ & E1) (P & _ & _ & E) I. exact (im_inside (affine_transform f) f_surj _ _ _ _ E1 E (disc_inside_r _ _ P1 I)). Qed.
Lemma erel_touch_in c1 c y1 y : erel c1 y1 -> erel c y -> circle_touch_in c1 c -> ell_touch_in y1 y.
Proof. intros (P1 & _ & _ & E1) (P & _ & _ & E) I. exact (im_touch_in (affine_transform f) f_surj _ _ _ _ E1 E (disc_touch_in_r _ _ P1 I)). Qed.
Lemma erel_touch c1 c y1 y : erel c1 y1 -> erel c y -> circles_touch c1 c -> ell_touch y1 y.
Proof. intros (P1 & _ & _ & E1) (P & _ & _ & E) I. exact (im_touch (affine_transform f) f_surj _ _ _ _ E1 E (disc_touch_r _ _ P1 P I)). Qed.
Lemma erel_apart c1 c y1 y : erel c1 y1 -> erel c y -> not_overlapping c1 c -> ell_apart y1 y.
Proof. intros (P1 & _ & _ & E1) (P & _ & _ & E) I. exact (im_apart (affine_transform f) f_surj _ _ _ _ E1 E (disc_apart_r _ _ P1 P I)). Qed.

(** *** copies of the outer ellipse *)
Lemma aff_lin P v k : affine_transform f (vadd P (vscal k v)) = vadd (affine_transform f P) (vscal k (vsub (affine_transform f (vadd P v)) (affine_transform f P))).
Proof. destruct f as [[a b c d] [x y]], P as [p q], v as [u w]. unfold affine_transform, mv2. unpt. cbn. f_equal; ring. Qed.
Lemma aff_dir P Q v : vsub (affine_transform f (vadd P v)) (affine_transform f P) = vsub (affine_transform f (vadd Q v)) (affine_transform f Q).
Proof. destruct f as [[a b c d] [x y]], P as [p q], Q as [p' q'], v as [u w]. unfold affine_transform, mv2. unpt. cbn. f_equal; ring. Qed.

Lemma erel_form c e : erel c e -> forall v, eform e (vadd (eO e) (vscal (cr c / cr c0) v)) = eform ell0 (vadd (eO ell0) v).
Proof.
  intros (P & _ & E & K) v. destruct (f_surj (vadd (eO ell0) v)) as (M & HM). rewrite <- HM, Hf. set (u := vsub M (cO c0)).
  assert (EM : M = vadd (cO c0) u) by (unfold u; destruct M, (cO c0); unpt; f_equal; ring).
  assert (Ev : v = vsub (affine_transform f (vadd (cO c) u)) (affine_transform f (cO c))).
  { rewrite (aff_dir (cO c) (cO c0) u), <- EM, HM, Hc. destruct (eO ell0), v; unpt; f_equal; ring. }
  rewrite Ev, <- E, <- aff_lin, K. unfold cform. rewrite EM. 
  replace (dist2 (cO c) (vadd (cO c) (vscal (cr c / cr c0) u))) with ((cr c / cr c0) * (cr c / cr c0) * dist2 (cO c0) (vadd (cO c0) u)) by (destruct (cO c), (cO c0), u; unspec; ring).
  field. split; lra.
Qed.

Lemma forms_axes O a b th O' a' b' th' k : 0 < b <= a -> 0 < a' -> 0 < b' -> 0 < k ->
  (forall v, ell_form O a b th (vadd O (vscal k v)) = ell_form O' a' b' th' (vadd O' v)) -> a = k * Rmax a' b' /\ b = k * Rmin a' b'.
Proof.
  intros Hab Ha' Hb' Hk H. pose proof (H (1, 0)) as A. pose proof (H (0, 1)) as B. pose proof (H (1, 1)) as C. clear H. unfold ell_form, fx, fy in A, B, C.
  destruct O as [x y], O' as [x' y']. cbn [vadd vscal fst snd] in A, B, C. pose proof (cs1 th) as T. pose proof (cs1 th') as T'.
  set (c := cos th) in *. set (s := sin th) in *. set (c' := cos th') in *. set (s' := sin th') in *. clearbody c s c' s'.
  set (p := k / a). set (q := k / b). set (p' := / a'). set (q' := / b').
  assert (A1 : c * c * (p * p) + s * s * (q * q) = c' * c' * (p' * p') + s' * s' * (q' * q')).
  { transitivity (((c * (x + k * 1 - x) + s * (y + k * 0 - y)) / a) ^ 2 + ((- s * (x + k * 1 - x) + c * (y + k * 0 - y)) / b) ^ 2); [unfold p, q; field; lra|].
    rewrite A. unfold p', q'. field; lra. }
  assert (B1 : s * s * (p * p) + c * c * (q * q) = s' * s' * (p' * p') + c' * c' * (q' * q')).
  { transitivity (((c * (x + k * 0 - x) + s * (y + k * 1 - y)) / a) ^ 2 + ((- s * (x + k * 0 - x) + c * (y + k * 1 - y)) / b) ^ 2); [unfold p, q; field; lra|].
    rewrite B. unfold p', q'. field; lra. }
  assert (C1 : (c + s) * (c + s) * (p * p) + (c - s) * (c - s) * (q * q) = (c' + s') * (c' + s') * (p' * p') + (c' - s') * (c' - s') * (q' * q')).
  { transitivity (((c * (x + k * 1 - x) + s * (y + k * 1 - y)) / a) ^ 2 + ((- s * (x + k * 1 - x) + c * (y + k * 1 - y)) / b) ^ 2); [unfold p, q; field; lra|].
    rewrite C. unfold p', q'. field; lra. }
  assert (C2 : c * s * (p * p - q * q) = c' * s' * (p' * p' - q' * q')) by lra. clear A B C C1.
  assert (Tr : q * q + p * p = q' * q' + p' * p').
  { transitivity ((c * c + s * s) * (p * p) + (c * c + s * s) * (q * q)); [rewrite T; ring|]. transitivity ((c' * c' + s' * s') * (p' * p') + (c' * c' + s' * s') * (q' * q')); [lra|rewrite T'; ring]. }
  assert (Dt : q * q * (p * p) = q' * q' * (p' * p')).
  { transitivity ((c * c * (p * p) + s * s * (q * q)) * (s * s * (p * p) + c * c * (q * q)) - (c * s * (p * p - q * q)) * (c * s * (p * p - q * q))).
    - transitivity ((c * c + s * s) * (c * c + s * s) * (q * q * (p * p))); [rewrite T; ring|ring].
    - rewrite A1, B1, C2. transitivity ((c' * c' + s' * s') * (c' * c' + s' * s') * (q' * q' * (p' * p'))); [ring|rewrite T'; ring]. }
  assert (0 < p) by (apply Rdiv_lt_0_compat; lra). assert (p <= q). { unfold p, q. apply Rmult_le_compat_l; [lra|]. apply Rinv_le_contravar; lra. }
  assert (0 < p') by (apply Rinv_0_lt_compat; lra). assert (0 < q') by (apply Rinv_0_lt_compat; lra).
  assert (Ea : a = k * / p) by (unfold p; field; lra). assert (Eb : b = k * / q) by (unfold q; field; lra).
  unfold Rmax, Rmin. destruct (Rle_dec a' b') as [L|L].
  - assert (q' <= p') by (apply Rinv_le_contravar; lra). destruct (axes_unique q p p' q' ltac:(lra) ltac:(lra)) as [E1 E2]; [lra|lra|]. rewrite Ea, Eb, E1, E2. unfold p', q'. rewrite !Rinv_inv. auto.
  - assert (p' <= q') by (apply Rinv_le_contravar; lra). destruct (axes_unique q p q' p' ltac:(lra) ltac:(lra)) as [E1 E2]; [lra|lra|]. rewrite Ea, Eb, E1, E2. unfold p', q'. rewrite !Rinv_inv. auto.
Qed.

Lemma erel_copy c e : erel c e -> eb e <= ea e -> scaled_copy (cr c / cr c0) ell0 e.
Proof.
  intros Er L. pose proof Er as (P & [Pa Pb] & _). assert (K : 0 < cr c / cr c0) by (apply Rdiv_lt_0_compat; auto). pose proof (erel_form c e Er) as Fo.
  destruct (forms_axes (eO e) (ea e) (eb e) (radians (edeg e) (ealpha e)) (eO ell0) (ea ell0) (eb ell0) (radians (edeg ell0) (ealpha ell0)) (cr c / cr c0)) as [E1 E2]; auto; try apply He.
  split; auto.
Qed.

Lemma images l es : Forall (fun c => 0 < cr c) l -> mapM (image_ellipse f) (map GC l) = Ok es -> Forall2 (fun c e => erel c e /\ scaled_copy (cr c / cr c0) ell0 e) l es.
Proof.
  intros P. revert es. induction P as [|c l Pc P IH]; intros es H; cbn [map mapM] in H.
  - apply Ok_inj in H. subst. constructor.
  - apply bind_Ok in H. destruct H as (e & Hx & H). apply bind_Ok in H. destruct H as (es' & Hs & H). apply Ok_inj in H. subst es.
    destruct (image_erel c Pc) as (e' & E & Er & L). rewrite E in Hx. apply Ok_inj in Hx. subst e'. constructor; auto. split; auto. apply erel_copy; auto.
Qed.
Lemma images_ok l : Forall (fun c => 0 < cr c) l -> exists es, mapM (image_ellipse f) (map GC l) = Ok es.
Proof.
  induction 1 as [|c l Pc P (es & IH)]; [exists []; auto|]. destruct (image_erel c Pc) as (e & E & _). exists (e :: es). cbn [map mapM]. rewrite E. cbn [bind]. rewrite IH. auto.
Qed.
Lemma images_GC gs es : mapM (image_ellipse f) gs = Ok es -> exists cs, gs = map GC cs.
Proof.
  revert es. induction gs as [|g gs IH]; intros es H; cbn [mapM] in H; [exists []; auto|]. apply bind_Ok in H. destruct H as (e & Hx & H). apply bind_Ok in H. destruct H as (es' & Hs & _).
  destruct (image_Ok _ _ Hx) as (c & ->). destruct (IH _ Hs) as (cs & ->). exists (c :: cs). auto.
Qed.

(** *** ellipsoids *)
Variable h : R.
Hypothesis Hh : 0 < h.
Let T := transform3 (mat_Tr f h).
Lemma T_eq P : T P = (affine_transform f (fst P), h * snd P).
Proof.
  destruct f as [[a b c d] [x y]], P as [[u v] z]. unfold T, transform3, mat_Tr, hstack, vstack, column_stack, row_dot, affine_transform, mv2. unpt. cbn. apply f_equal2; [apply f_equal2|]; ring.
Qed.
Lemma T_surj Q : exists P, T P = Q.
Proof. destruct Q as [M z]. destruct (f_surj M) as (P & E). exists (P, z / h). rewrite T_eq. cbn [fst snd]. rewrite E. f_equal. field. lra. Qed.

Lemma sol_form c e : erel c e -> forall P, sform (e, h * cr c) (T P) = bform c P.
Proof.
  intros (P & _ & _ & K) [M z]. rewrite T_eq. unfold sform, bform. cbn [fst snd]. rewrite K. unfold cform. field. split; lra.
Qed.
Definition srel (c : circle) (s : solid) : Prop := 0 < cr c /\ 0 < snd s /\ forall P, sform s (T P) = bform c P.
Lemma erel_srel c e : erel c e -> srel c (e, h * cr c).
Proof. intros E. pose proof E as (P & _). split; auto. split; [cbn [snd]; nra|]. apply sol_form; auto. Qed.

Lemma srel_inside c1 c y1 y : srel c1 y1 -> srel c y -> circle_inside c1 c -> sol_inside y1 y.
Proof. intros (P1 & _ & E1) (P & _ & E) I. exact (im_inside T T_surj _ _ _ _ E1 E (ball_inside_r _ _ P1 I)). Qed.
Lemma srel_touch_in c1 c y1 y : srel c1 y1 -> srel c y -> circle_touch_in c1 c -> sol_touch_in y1 y.
Proof. intros (P1 & _ & E1) (P & _ & E) I. exact (im_touch_in T T_surj _ _ _ _ E1 E (ball_touch_in_r _ _ P1 I)). Qed.
Lemma srel_touch c1 c y1 y : srel c1 y1 -> srel c y -> circles_touch c1 c -> sol_touch y1 y.
Proof. intros (P1 & _ & E1) (P & _ & E) I. exact (im_touch T T_surj _ _ _ _ E1 E (ball_touch_r _ _ P1 P I)). Qed.
Lemma srel_apart c1 c y1 y : srel c1 y1 -> srel c y -> not_overlapping c1 c -> sol_apart y1 y.
Proof. intros (P1 & _ & E1) (P & _ & E) I. exact (im_apart T T_surj _ _ _ _ E1 E (ball_apart_r _ _ P1 P I)). Qed.

Lemma srel_image c s : srel c s -> sphere_image T (cO c, 0) (cr c) s.
Proof.
  intros (P & Ps & K). split; auto. intros Q. split.
  - intros E. destruct (T_surj Q) as (M & <-). exists M. split; auto. rewrite K in E. unfold bform in E. apply q_eq in E; auto. rewrite <- E. unfold dist2_3. destruct M as [M z]. cbn [fst snd]. simpl. ring.
  - intros (M & E & <-). rewrite K. unfold bform. apply q_eq; auto. rewrite <- E. unfold dist2_3. destruct M as [M z]. cbn [fst snd]. simpl. ring.
Qed.
End Map.
