(** * Images of discs by Möbius transformations. *)

From Coq Require Import Reals Lra Lia Psatz List Bool ZArith.
From Verif Require Import Base BaseLemmas Spec SpecLemmas SpecMobius SpecTriangle SpecGasket ModelInternal ModelLine ModelCircle ModelTriangle ModelInversion ModelMobius
  PLine PCircle PInvBase PTriangle PTriangle2 PInversion PMobius PMobius2 PMobius3 PMobius4 PSteiner.
Import ListNotations.
Local Open Scope R_scope.

(** the open disc, the closed disc *)
Definition opn (c : circle) (z : pt) : Prop := dist2 (cO c) z < cr c * cr c.
Definition cls (c : circle) (z : pt) : Prop := dist2 (cO c) z <= cr c * cr c.

Lemma opn_cls c z : opn c z -> cls c z.
Proof. unfold opn, cls. lra. Qed.
Lemma cls_in_disk c z : 0 < cr c -> (cls c z <-> in_disk (cO c) (cr c) z).
Proof. intros H. unfold cls. rewrite in_disk_sq by lra. tauto. Qed.
Lemma opn_dist c z : 0 < cr c -> (opn c z <-> dist (cO c) z < cr c).
Proof.
  intros H. unfold opn. rewrite <- dist_sq. pose proof (dist_nonneg (cO c) z). split; intros K; nra.
Qed.
Lemma centre_opn c : 0 < cr c -> opn c (cO c).
Proof. intros H. unfold opn. destruct c as [[x y] r]. cbn [cO cr] in *. unspec. simpl. nra. Qed.

(** a point at a given distance, in the direction from [O] to [P] *)
Lemma ray_point O P t : 0 <= t -> exists Q, dist P Q = t /\ dist O Q = dist O P + t.
Proof.
  intros Ht. pose proof (dist_nonneg O P) as Hd. destruct (Req_EM_T (dist O P) 0) as [Z|NZ].
  - pose proof (proj1 (dist_0 O P) Z) as ->. destruct P as [a b].
    exists (a + t, b). rewrite Z. assert (E : dist (a, b) (a + t, b) = t) by (apply Rsqr_inj; [apply dist_nonneg|lra|]; unfold Rsqr; rewrite dist_sq; unspec; simpl; ring). rewrite E. lra.
  - set (D := dist O P) in *. exists (vadd P (vscal (t / D) (vsub P O))). assert (HD : 0 < D) by lra.
    assert (S2 : dist2 O P = D * D) by (unfold D; rewrite dist_sq; auto). assert (0 <= t / D) by (unfold Rdiv; apply Rmult_le_pos; [lra|left; apply Rinv_0_lt_compat; lra]). split.
    + apply Rsqr_inj; [apply dist_nonneg|lra|]. unfold Rsqr. rewrite dist_sq. transitivity (t / D * (t / D) * dist2 O P); [destruct O, P; unspec; simpl; ring|]. rewrite S2. field. lra.
    + apply Rsqr_inj; [apply dist_nonneg|lra|]. unfold Rsqr. rewrite dist_sq. transitivity ((1 + t / D) * (1 + t / D) * dist2 O P); [destruct O, P; unspec; simpl; ring|]. rewrite S2. field. lra.
Qed.

Lemma opn_incl c c' : 0 < cr c -> 0 < cr c' -> (forall z, opn c' z -> opn c z) -> dist (cO c) (cO c') + cr c' <= cr c.
Proof.
  intros P P' I. destruct (Rle_dec (dist (cO c) (cO c') + cr c') (cr c)) as [|N]; [auto|]. exfalso. set (D := dist (cO c) (cO c')) in *. assert (0 <= D) by apply dist_nonneg.
  assert (Hc : D < cr c) by (apply opn_dist; auto; apply I, centre_opn; auto). assert (Ht : 0 <= cr c - D) by lra.
  destruct (ray_point (cO c) (cO c') (cr c - D) Ht) as (Q & E1 & E2). assert (K : opn c Q) by (apply I; apply opn_dist; auto; lra). apply opn_dist in K; auto. fold D in E2. lra.
Qed.
Lemma disc_ext c c' : 0 < cr c -> 0 < cr c' -> (forall z, opn c z <-> opn c' z) -> c = c'.
Proof.
  intros P P' I. pose proof (opn_incl c c' P P' (fun z => proj2 (I z))) as H1. pose proof (opn_incl c' c P' P (fun z => proj1 (I z))) as H2. rewrite (dist_sym (cO c') (cO c)) in H2. pose proof (dist_nonneg (cO c) (cO c')).
  assert (E : cr c = cr c') by lra. assert (Z : dist (cO c) (cO c') = 0) by lra. apply dist_0 in Z. destruct c as [O r], c' as [O' r']. cbn [cO cr] in *. subst. auto.
Qed.

Lemma opn_disjoint c c' : 0 < cr c -> 0 < cr c' -> (forall z, opn c z -> opn c' z -> False) -> not_overlapping c c'.
Proof.
  intros P P' I. unfold not_overlapping. destruct (Rle_dec (cr c + cr c') (dist (cO c) (cO c'))) as [|N]; [auto|]. exfalso. set (D := dist (cO c) (cO c')) in *. assert (HD : 0 <= D) by apply dist_nonneg.
  set (s := cr c / (cr c + cr c')). assert (Hs : 0 < s < 1) by (unfold s; split; [apply Rmult_lt_0_compat; [lra|apply Rinv_0_lt_compat; lra]|apply (Rmult_lt_reg_r (cr c + cr c')); [lra|]; unfold Rdiv; rewrite Rmult_assoc, Rinv_l; lra]).
  set (Q := vadd (cO c) (vscal s (vsub (cO c') (cO c)))).
  assert (S2 : dist2 (cO c) (cO c') = D * D) by (unfold D; rewrite dist_sq; auto).
  assert (E1 : dist2 (cO c) Q = s * s * (D * D)) by (rewrite <- S2; unfold Q; destruct (cO c), (cO c'); unspec; simpl; ring).
  assert (E2 : dist2 (cO c') Q = (1 - s) * (1 - s) * (D * D)) by (rewrite <- S2; unfold Q; destruct (cO c), (cO c'); unspec; simpl; ring).
  assert (Es : s * (cr c + cr c') = cr c) by (unfold s; field; lra).
  apply (I Q); unfold opn; [rewrite E1|rewrite E2].
  - assert (s * D < cr c) by nra. assert (0 <= s * D) by nra. nra.
  - assert ((1 - s) * D < cr c') by nra. assert (0 <= (1 - s) * D) by nra. nra.
Qed.
Lemma cls_common c c' z : 0 < cr c -> 0 < cr c' -> cls c z -> cls c' z -> dist (cO c) (cO c') <= cr c + cr c'.
Proof.
  intros P P' H H'. apply cls_in_disk in H; auto. apply cls_in_disk in H'; auto. unfold in_disk in *. pose proof (dist_triangle (cO c) z (cO c')). rewrite (dist_sym z (cO c')) in H0. lra.
Qed.

(** ** images *)
Lemma pole_far M c : mdet M <> C0 -> 0 < cr c -> (forall z, cls c z -> (mc M * z + md M)%C <> C0) -> 0 < Cmod2 (md M + mc M * cO c)%C - cr c * cr c * Cmod2 (mc M).
Proof.
  intros HD Hr H. destruct (C_eq_dec (mc M) C0) as [Z|NZ].
  - rewrite Z. assert (md M <> C0) by (intros K; apply HD; unfold mdet; rewrite Z, K; cring). pose proof (Cmod2_pos _ H0). replace (md M + C0 * cO c)%C with (md M) by cring. replace (Cmod2 C0) with 0 by (unfold Cmod2, C0; cbn [fst snd]; ring). lra.
  - set (p := (- md M / mc M)%C). assert (Ep : (mc M * p + md M)%C = C0) by (unfold p; cfield; auto). assert (Hp : ~ cls c p) by (intros K; exact (H p K Ep)).
    unfold cls in Hp. rewrite dist2_Cmod2 in Hp. pose proof (Cmod2_pos _ NZ) as P.
    assert (E : Cmod2 (md M + mc M * cO c)%C = Cmod2 (mc M) * Cmod2 (p - cO c)%C).
    { rewrite <- Cmod2_mul, <- (Cmod2_opp (md M + _)%C). f_equal. transitivity ((mc M * p + md M) - (md M + mc M * cO c))%C; [rewrite Ep; cring|cring]. }
    rewrite E. nra.
Qed.

(** the image of a disc whose closure does not contain the pole *)
Lemma disc_image fuel M c : mdet M <> C0 -> 0 < cr c -> (forall z, cls c z -> (mc M * z + md M)%C <> C0) ->
  exists c', transform_circle fuel M c = Some (Ok (GC c')) /\ 0 < cr c' /\
  (forall w, opn c' w <-> exists z, opn c z /\ transform M (Pt z) = Ok (Pt w)) /\
  (forall w, cls c' w <-> exists z, cls c z /\ transform M (Pt z) = Ok (Pt w)).
Proof.
  intros HD Hr H. pose proof (pole_far M c HD Hr H) as HN.
  rewrite transform_circle_far by (auto; lra). eexists. split; [reflexivity|].
  assert (HN' : Cmod2 (md M + mc M * cO c)%C - cr c * cr c * Cmod2 (mc M) <> 0) by lra.
  split; [apply img_radius_pos; auto|].
  assert (K : forall z w, transform M (Pt z) = Ok (Pt w) -> (opn (mkCircle (img_centre M (cO c) (cr c)) (img_radius M (cO c) (cr c))) w <-> opn c z) /\ (cls (mkCircle (img_centre M (cO c) (cr c)) (img_radius M (cO c) (cr c))) w <-> cls c z)).
  { intros z w E. pose proof (img_dist2 M (cO c) (cr c) HD HN' z w E) as Q. unfold opn, cls. cbn [cO cr].
    assert (Hk : (mc M * z + md M)%C <> C0) by (apply transform_fin in E; tauto).
    assert (F : 0 < Cmod2 (mdet M) / ((Cmod2 (md M + mc M * cO c)%C - cr c * cr c * Cmod2 (mc M)) * Cmod2 (mc M * z + md M)%C)).
    { apply Rmult_lt_0_compat; [apply Cmod2_pos; auto|]. apply Rinv_0_lt_compat, Rmult_lt_0_compat; [auto|apply Cmod2_pos; auto]. }
    set (k := _ / _) in *. clearbody k. split; split; intros; nra. }
  assert (S : forall w, cls (mkCircle (img_centre M (cO c) (cr c)) (img_radius M (cO c) (cr c))) w -> exists z, transform M (Pt z) = Ok (Pt w)).
  { intros w Hw. destruct (transform_total (inverse M) (Pt w)) as ([z|] & E); [rewrite mdet_inverse; auto| |].
    - exists z. apply transform_inverse; auto.
    - exfalso. apply transform_inverse in E; auto. pose proof E as E0. apply transform_inf in E; auto. destruct E as (Hc & ->).
      unfold cls in Hw. cbn [cO cr] in Hw. rewrite dist2_Cmod2 in Hw.
      set (be := (md M + mc M * cO c)%C) in *. set (NN := Cmod2 be - cr c * cr c * Cmod2 (mc M)) in *.
      assert (HNC : RtoC NN <> C0) by (apply RtoC_neq; auto).
      assert (EN : RtoC NN = (be * Cconj be - RtoC (cr c * cr c) * (mc M * Cconj (mc M)))%C) by (rewrite !Cmul_conj; unfold NN; unC; f_equal; ring).
      assert (ED : (ma M / mc M - img_centre M (cO c) (cr c))%C = (mdet M * Cconj be / (RtoC NN * mc M))%C).
      { unfold img_centre. fold be. fold NN. transitivity ((ma M * RtoC NN - mc M * ((ma M * cO c + mb M) * Cconj be - RtoC (cr c * cr c) * ma M * Cconj (mc M))) / (RtoC NN * mc M))%C; [cfield; auto|].
        f_equal. rewrite EN. unfold be at 1. unfold mdet. generalize (Cconj be) (Cconj (mc M)). intros x y. cring. }
      rewrite ED in Hw. rewrite Cmod2_div in Hw by (apply Cmul_neq0; auto). rewrite !Cmod2_mul, Cmod2_RtoC, Cmod2_conj in Hw.
      unfold img_radius in Hw. fold be in Hw. fold NN in Hw. pose proof (Cmod2_pos _ Hc) as P1. pose proof (Cmod2_pos _ HD) as P2.
      assert (ER : cr c * sqrt (Cmod2 (mdet M)) / Rabs NN * (cr c * sqrt (Cmod2 (mdet M)) / Rabs NN) = cr c * cr c * Cmod2 (mdet M) / (NN * NN)).
      { replace (NN * NN) with (Rabs NN * Rabs NN) by (rewrite <- Rabs_mult; apply Rabs_right; nra).
        rewrite <- (sqrt_sqrt (Cmod2 (mdet M))) at 3 by lra. field. apply Rabs_no_R0; auto. }
      rewrite ER in Hw. assert (Hq : 0 < Cmod2 (mdet M) / (NN * NN * Cmod2 (mc M))) by (apply Rmult_lt_0_compat; [lra|apply Rinv_0_lt_compat; repeat apply Rmult_lt_0_compat; auto]).
      replace (Cmod2 (mdet M) * Cmod2 be / (NN * NN * Cmod2 (mc M))) with (Cmod2 (mdet M) / (NN * NN * Cmod2 (mc M)) * Cmod2 be) in Hw by (field; split; lra).
      replace (cr c * cr c * Cmod2 (mdet M) / (NN * NN)) with (Cmod2 (mdet M) / (NN * NN * Cmod2 (mc M)) * (cr c * cr c * Cmod2 (mc M))) in Hw by (field; split; lra).
      apply Rmult_le_reg_l in Hw; [|auto]. unfold NN in HN. lra. }
  split; intros w; split.
  - intros Hw. destruct (S w (opn_cls _ _ Hw)) as (z & E). exists z. split; auto. apply (K z w E); auto.
  - intros (z & Hz & E). apply (K z w E); auto.
  - intros Hw. destruct (S w Hw) as (z & E). exists z. split; auto. apply (K z w E); auto.
  - intros (z & Hz & E). apply (K z w E); auto.
Qed.
