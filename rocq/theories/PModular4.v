(** * The modular tessellation: the theorems. *)

From Coq Require Import Reals Lra Lia Psatz List Bool ZArith.
From Verif Require Import Base BaseLemmas Spec SpecLemmas SpecMobius SpecTriangle SpecGasket SpecModular ModelInternal ModelLine ModelCircle ModelTriangle ModelInversion ModelMobius ModelFarey ModelModular
  PMobius PMobius2 PMobius3 PMobius4 PFarey PDisc PModular1 PModular2 PModular3.
Import ListNotations.
Local Open Scope R_scope.

Lemma img_tile Ru m c : mdet Ru <> C0 -> (forall z, 0 < snd z -> exists w, transform Ru (Pt z) = Ok (Pt w) /\ 0 < snd w) -> zdet m = 1%Z -> img_of (matmul mobPhi Ru) m c ->
  is_tile (ma Ru) (mb Ru) (mc Ru) (md Ru) (m11 m) (m12 m) (m21 m) (m22 m) c.
Proof.
  intros DR Up Dm (P & O & _). split; [exact P|]. intros w. rewrite <- opn_dist by auto. rewrite O. clear O.
  assert (I : forall z, opn circI z <-> dist (0, 3 / 2) z < 1 / 2) by (intros z; rewrite opn_dist by (cbn [circI cr]; lra); cbn [circI cO cr]; tauto).
  pose proof (zmob_det m Dm) as Dz. split.
  - intros (z & v & Hz & E1 & E2). exists z. split; [apply I; auto|]. pose proof E1 as Ev. destruct (zmob_up m z Dm (cls_I_up z (opn_cls _ _ Hz))) as (v0 & Ev0 & Pv). rewrite Ev in Ev0. injection Ev0 as <-.
    rewrite transform_matmul in E2 by (auto; exact Phi_det). destruct (Up v Pv) as (v' & Ev' & Pv'). rewrite Ev' in E2. cbn [bind] in E2. exists v, v'.
    split; [exact (proj1 (transform_Ok (zmob m) _ _ Dz) E1)|]. split; [apply transform_Ok; auto|]. exact (proj1 (transform_Ok mobPhi _ _ Phi_det) E2).
  - intros (z & Hz & v & v' & E1 & E2 & E3). exists z, v. split; [apply I; auto|]. split; [apply (proj2 (transform_Ok (zmob m) _ _ Dz)); exact E1|].
    rewrite transform_matmul by (auto; exact Phi_det). apply transform_Ok in E2; auto. rewrite E2. cbn [bind]. apply (proj2 (transform_Ok mobPhi _ _ Phi_det)). exact E3.
Qed.

Lemma inside_disc c : 0 < cr c -> (forall w, cls c w -> Cmod2 w < 1) -> dist (0, 0) (cO c) + cr c < 1.
Proof.
  intros P H. destruct (ray_point (0, 0) (cO c) (cr c)) as (Q & E1 & E2); [lra|].
  assert (K : cls c Q) by (unfold cls; rewrite <- dist_sq, E1; lra). apply H in K. rewrite <- E2. pose proof (dist_nonneg (0, 0) Q).
  assert (S : dist (0, 0) Q * dist (0, 0) Q < 1) by (rewrite dist_sq; unfold Cmod2 in K; destruct Q; unspec; simpl in *; nra). nra.
Qed.

Lemma ms_exists n : (1 <= n)%Z -> exists ms, unimodular_matrices n = Ok ms /\ (forall m, In m ms -> zdet m = 1%Z) /\ (forall m, In m ms -> bnd n m) /\
  ((2 <= n)%Z -> forall g, zdet g = 1%Z -> bnd n g -> hits ms g).
Proof.
  intros Hn. assert (exists ms, unimodular_matrices n = Ok ms) as (ms & E).
  { destruct (unimodular_matrices n) as [ms|e] eqn:E; [eauto|]. apply unimodular_raise in E. lia. }
  exists ms. split; [exact E|]. split; [|split].
  - intros m I. apply (unimodular_sound n ms m E) in I. unfold zdet. lia.
  - intros m I. apply (unimodular_sound n ms m E) in I. unfold bnd. lia.
  - intros H2 g Dg Bg. destruct (unimodular_spec n H2) as (L & E' & _ & S & _). rewrite E in E'. injection E' as ->. apply (cover n L H2); auto. intros p r q s H. apply S, H.
Qed.

Lemma tessellation fuel arg eig n u : is_arg arg -> eig_ok eig mobR -> (1 <= n)%Z ->
  exists Ru l, gpower arg eig (mkMob C0 (RtoC (-1)) C1 C1) u = Ok Ru /\ modular_tessellation fuel arg eig n u = Some (Ok l) /\
    (forall k, In k l -> exists a b c d, modular_matrix n a b c d /\ is_tile (ma Ru) (mb Ru) (mc Ru) (md Ru) a b c d k) /\
    ((2 <= n)%Z -> forall a b c d, modular_matrix n a b c d -> exists k, In k l /\ is_tile (ma Ru) (mb Ru) (mc Ru) (md Ru) a b c d k) /\
    (forall k k', In k l -> In k' l -> k = k' \/ not_overlapping k k') /\
    (forall k, In k l -> dist (0, 0) (cO k) + cr k < 1) /\
    (forall k, In k l -> exists k', In k' l /\ circles_touch k k').
Proof.
  intros HA HE Hn. destruct (G_ok arg eig u HA HE) as (Ru & E & DR & Up & HG). destruct (ms_exists n Hn) as (ms & Em & Dm & Bm & Cov). destruct (frame_ok fuel arg eig u Ru ms E HG Dm) as (l & El & Hl & _).
  exists Ru, l. rewrite <- mobR_eq. split; [exact E|]. split; [unfold modular_tessellation; rewrite TI_eq; cbn [the_drawn]; rewrite Em; exact El|].
  assert (MM : forall g, zdet g = 1%Z -> bnd n g -> modular_matrix n (m11 g) (m12 g) (m21 g) (m22 g)) by (intros g D B; unfold modular_matrix, bnd, zdet in *; tauto).
  split; [|split; [|split; [|split]]].
  - intros k I. apply Hl in I. destruct I as (g & H & K). pose proof (hits_det ms g Dm H) as Dg. exists (m11 g), (m12 g), (m21 g), (m22 g). split; [apply MM; [exact Dg|exact (hits_bnd n ms g Bm H)]|]. apply img_tile; auto.
  - intros H2 a b c d (D & B). assert (Dg : zdet (mkZM a b c d) = 1%Z) by exact D. destruct (img_of_exists fuel (matmul mobPhi Ru) (mkZM a b c d) HG Dg) as (k & _ & K). exists k. split.
    + apply Hl. exists (mkZM a b c d). split; [apply Cov; auto|exact K].
    + apply (img_tile Ru (mkZM a b c d) k DR Up Dg K).
  - intros k k' I I'. apply Hl in I. apply Hl in I'. destruct I as (g & H & K), I' as (g' & H' & K'). destruct (img_pair _ g g' k k' HG (hits_det ms g Dm H) (hits_det ms g' Dm H') K K') as [(_ & ->)|N]; auto.
  - intros k I. apply Hl in I. destruct I as (g & H & K). apply inside_disc; [apply K|]. intros w Hw. exact (img_in_disc _ g k w HG (hits_det ms g Dm H) K Hw).
  - intros k I. apply Hl in I. destruct I as (g & H & K). pose proof (hits_det ms g Dm H) as Dg. assert (DT : zdet (zmul g zT) = 1%Z) by (apply zmul_det; auto).
    destruct (img_of_exists fuel _ (zmul g zT) HG DT) as (k' & _ & K'). exists k'. split; [|exact (img_touch _ g k k' HG Dg K K')]. apply Hl. exists (zmul g zT). split; [|exact K'].
    destruct H as (m & M & I1 & I2 & N). exists m, M. split; [auto|]. split; [auto|].
    assert (X : forall x, pm g x -> pm (zmul g zT) (zmul x zT)) by (intros x Q; apply pm_mul in Q; tauto).
    assert (Y : forall x, pm (zmul (zmul x zT) zT) x) by (intros [a b c d]; right; unfold zmul, zT, zopp; cbn [m11 m12 m21 m22]; f_equal; ring).
    destruct N as [Q|[Q|[Q|Q]]]; apply X in Q; unfold near.
    + auto.
    + left. exact (pm_trans _ _ _ Q (Y M)).
    + right; right; right. exact Q.
    + right; right; left. exact (pm_trans _ _ _ Q (Y (zmul zT M))).
Qed.

Lemma tessellation_period fuel arg eig n u : is_arg arg -> eig_ok eig mobR -> modular_tessellation fuel arg eig n (u + 3) = modular_tessellation fuel arg eig n u.
Proof.
  intros HA HE. unfold modular_tessellation. rewrite TI_eq. cbn [the_drawn]. destruct (unimodular_matrices n) as [ms|e] eqn:E; [|reflexivity]. apply frame_period; auto.
  intros m I. apply (unimodular_sound n ms m E) in I. unfold zdet. lia.
Qed.

Lemma animation fuel arg eig n us : is_arg arg -> eig_ok eig mobR -> (1 <= n)%Z ->
  exists pics, modular_animation fuel arg eig n us = Some (Ok pics) /\
    Forall2 (fun u pic => exists l, modular_tessellation fuel arg eig n u = Some (Ok l) /\ forall k, In k pic <-> In k l) us pics.
Proof.
  intros HA HE Hn. destruct (ms_exists n Hn) as (ms & Em & Dm & _). destruct (frames_ok fuel arg eig HA HE us ms Dm) as (pics & E & F). exists pics. unfold modular_animation, modular_tessellation. rewrite TI_eq. cbn [the_drawn]. rewrite Em. auto.
Qed.

Lemma tessellation_raise fuel arg eig n u : (n < 1)%Z -> modular_tessellation fuel arg eig n u = Some (Raise ValueError).
Proof. intros Hn. unfold modular_tessellation. rewrite TI_eq. cbn [the_drawn]. replace (unimodular_matrices n) with (Raise (A := list zmat) ValueError); [reflexivity|]. symmetry. apply unimodular_raise. auto. Qed.

(** the two first circles of the picture for u = 0 *)
Lemma tessellation_ex : exists arg eig l, is_arg arg /\ eig_ok eig mobR /\ modular_tessellation 0 arg eig 8 0 = Some (Ok l) /\ In (mkCircle (0, 1 / 6) (1 / 6)) l /\ In (mkCircle (0, - (1 / 6)) (1 / 6)) l.
Proof.
  destruct (eig_ok_exists mobR) as (eig & HE). pose proof arg_exists as HA. set (arg := fun z => _) in HA. exists arg, eig.
  destruct (G_ok arg eig 0 HA HE) as (Ru & E & DR & Up & HG). destruct (ms_exists 8) as (ms & Em & Dm & Bm & Cov); [lia|]. destruct (frame_ok 0 arg eig 0 Ru ms E HG Dm) as (l & El & Hl & _).
  exists l. split; [exact HA|]. split; [exact HE|]. split; [unfold modular_tessellation; rewrite TI_eq; cbn [the_drawn]; rewrite Em; exact El|].
  assert (R0 : Ru = mdiag C1 C1).
  { assert (HD : gpower_domain mobR).
    { left. replace ((ma mobR + md mobR) * (ma mobR + md mobR) - RtoC 4 * mdet mobR)%C with (RtoC (-3)) by (rewrite mobR_eq; unfold mdet; cbn [ma mb mc md]; unC; f_equal; ring). unfold RtoC. rewrite cabs_real. rewrite Rabs_left by lra. unfold sepsilon_. lra. }
    destruct (gpower_group arg eig mobR HA HE mobR_det HD) as (F & HF & _ & H0 & _). rewrite HF in E. apply Ok_inj in E. congruence. }
  assert (I8 : hits ms (mkZM 1 0 0 1)) by (apply Cov; [lia|reflexivity|unfold bnd; simpl; lia]).
  assert (T8 : hits ms zT) by (apply Cov; [lia|reflexivity|unfold bnd; simpl; lia]).
  assert (M1 : matmul (matmul mobPhi Ru) (zmob (mkZM 1 0 0 1)) = mobPhi).
  { change (zmob (mkZM 1 0 0 1)) with (mdiag C1 C1). rewrite R0, !matmul_1_r. reflexivity. }
  assert (Far : forall c k, 0 < cr c -> Cmod2 (md mobPhi + mc mobPhi * cO c)%C <> cr c * cr c * Cmod2 (mc mobPhi) ->
    img_centre mobPhi (cO c) (cr c) = cO k -> img_radius mobPhi (cO c) (cr c) = cr k -> transform_circle 0 mobPhi c = Some (Ok (GC k))).
  { intros c k Hc Hf E1 E2. rewrite transform_circle_far; [|exact Phi_det|exact Hc|exact Hf]. rewrite E1, E2. destruct k; reflexivity. }
  assert (DP : sqrt (Cmod2 (mdet mobPhi)) = 2).
  { replace (Cmod2 (mdet mobPhi)) with (2 * 2) by (unfold Cmod2, mdet, mobPhi, Ci; cbn [ma mb mc md]; unC; ring). apply sqrt_square. lra. }
  split; apply Hl; [exists (mkZM 1 0 0 1)|exists zT]; (split; [assumption|]).
  - destruct (img_of_exists 0 _ (mkZM 1 0 0 1) HG eq_refl) as (k & Ek & Hk). rewrite M1 in Ek.
    assert (K : Cmod2 (md mobPhi + mc mobPhi * cO circI)%C - cr circI * cr circI * Cmod2 (mc mobPhi) = 6) by (unfold Cmod2, mobPhi, Ci, circI; cbn [ma mb mc md cO cr]; unC; field).
    rewrite (Far circI (mkCircle (0, 1 / 6) (1 / 6))) in Ek; [injection Ek as <-; exact Hk|cbn [circI cr]; lra|lra| |]; cbn [cO cr].
    + unfold img_centre. rewrite K. unfold mobPhi, Ci, circI. cbn [ma mb mc md cO cr]. unC. f_equal; field.
    + unfold img_radius. rewrite K, DP, Rabs_right by lra. cbn [circI cr]. field.
  - destruct (img_of_TI 0 _ (mkZM 1 0 0 1) HG eq_refl) as (k & Ek & Hk). rewrite M1 in Ek. change (zmul (mkZM 1 0 0 1) zT) with zT in Hk.
    assert (K : Cmod2 (md mobPhi + mc mobPhi * cO circTI)%C - cr circTI * cr circTI * Cmod2 (mc mobPhi) = 3) by (unfold Cmod2, mobPhi, Ci, circTI; cbn [ma mb mc md cO cr]; unC; field).
    rewrite (Far circTI (mkCircle (0, - (1 / 6)) (1 / 6))) in Ek; [injection Ek as <-; exact Hk|cbn [circTI cr]; lra|lra| |]; cbn [cO cr].
    + unfold img_centre. rewrite K. unfold mobPhi, Ci, circTI. cbn [ma mb mc md cO cr]. unC. f_equal; field.
    + unfold img_radius. rewrite K, DP, Rabs_right by lra. cbn [circTI cr]. field.
Qed.

(** the image of a disc that does not contain the pole *)
Lemma disc_image_spec fuel M c : mdet M <> C0 -> 0 < cr c -> (forall z, dist (cO c) z <= cr c -> ~ mob_image (ma M) (mb M) (mc M) (md M) (Pt z) Inf) ->
  exists c', transform_circle fuel M c = Some (Ok (GC c')) /\ 0 < cr c' /\
    (forall w, dist (cO c') w < cr c' <-> exists z, dist (cO c) z < cr c /\ mob_image (ma M) (mb M) (mc M) (md M) (Pt z) (Pt w)) /\
    (forall w, dist (cO c') w <= cr c' <-> exists z, dist (cO c) z <= cr c /\ mob_image (ma M) (mb M) (mc M) (md M) (Pt z) (Pt w)).
Proof.
  intros HD Hr H. destruct (disc_image fuel M c HD Hr) as (c' & E & P & H1 & H2).
  { intros z Hz K. apply cls_in_disk in Hz; auto. apply (H z Hz). apply transform_Ok; [exact HD|]. apply transform_pole; auto. }
  exists c'. split; [exact E|]. split; [exact P|]. split; intros w.
  - rewrite <- opn_dist, H1 by auto. split; intros (z & Hz & Ez); exists z; (split; [apply opn_dist; auto|apply transform_Ok; auto]).
  - change (dist (cO c') w <= cr c') with (in_disk (cO c') (cr c') w). rewrite <- cls_in_disk, H2 by auto. split; intros (z & Hz & Ez); exists z; (split; [apply cls_in_disk; auto|apply transform_Ok; auto]).
Qed.
Lemma disc_image_ex : mdet mobPhi <> C0 /\ 0 < cr circI /\ forall z, dist (cO circI) z <= cr circI -> ~ mob_image (ma mobPhi) (mb mobPhi) (mc mobPhi) (md mobPhi) (Pt z) Inf.
Proof.
  split; [exact Phi_det|]. split; [cbn [circI cr]; lra|]. intros z Hz K. apply transform_Ok in K; [|exact Phi_det].
  assert (Hc : cls circI z) by (apply cls_in_disk; [cbn [circI cr]; lra|exact Hz]). destruct (Phi_up z (cls_I_up z Hc)) as (w & Ew & _). rewrite K in Ew. discriminate.
Qed.
