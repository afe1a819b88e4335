(** * Proofs about Steiner chains. *)

From Coq Require Import Reals Lra Lia Psatz List Bool ZArith PeanoNat.
From Verif Require Import Base BaseLemmas Spec SpecLemmas SpecTriangle ModelInternal ModelLine ModelCircle ModelEllipse
  ModelTriangle ModelInversion PLine PCircle PCircle2 PInvBase PAffine PInversion PInversion2.
Import ListNotations.
Local Open Scope R_scope.

Definition steiner_sine (n : nat) : R := sin (PI / INR n).
Definition base_radius (c0 : circle) (n : nat) : R := cr c0 / (1 + steiner_sine n) * steiner_sine n.
Definition base_circle (c0 : circle) (n : nat) (shift : R) (i : nat) : circle :=
  mkCircle (vadd (vscal (cr c0 / (1 + steiner_sine n)) (unit_vector_ ((INR i + shift) * 2 * (PI / INR n)))) (cO c0)) (base_radius c0 n).
Definition base_inner (c0 : circle) (n : nat) : circle := mkCircle (cO c0) (cr c0 - 2 * base_radius c0 n).

Lemma dist_triangle A B C : dist A C <= dist A B + dist B C.
Proof.
  pose proof (dist_nonneg A B) as H1. pose proof (dist_nonneg B C) as H2.
  apply Rsqr_incr_0_var; [|lra]. unfold Rsqr. rewrite dist_sq.
  assert (K : sdot (vsub B A) (vsub C B) <= dist A B * dist B C).
  { apply Rsqr_incr_0_var; [|nra]. unfold Rsqr.
    replace (dist A B * dist B C * (dist A B * dist B C)) with (dist A B * dist A B * (dist B C * dist B C)) by ring.
    rewrite !dist_sq. pose proof (Rle_0_sqr (scross (vsub B A) (vsub C B))) as S. unfold Rsqr in S.
    enough (dist2 A B * dist2 B C - sdot (vsub B A) (vsub C B) * sdot (vsub B A) (vsub C B) =
      scross (vsub B A) (vsub C B) * scross (vsub B A) (vsub C B)) by lra. unspec. ring. }
  replace (dist2 A C) with (dist2 A B + dist2 B C + 2 * sdot (vsub B A) (vsub C B)) by (unspec; ring).
  rewrite <- !dist_sq. lra.
Qed.

Lemma mapM_map {A B} (f : A -> res B) (g : A -> B) l : (forall a, In a l -> f a = Ok (g a)) -> mapM f l = Ok (map g l).
Proof.
  induction l as [|a l IH]; intros H; cbn [mapM map]; auto. rewrite (H a) by (left; auto). cbn [bind].
  rewrite IH by (intros; apply H; right; auto). reflexivity.
Qed.

Lemma INR3 n : (3 <= n)%nat -> 3 <= INR n.
Proof. intros H. apply le_INR in H. replace (INR 3) with 3 in H by (simpl; ring). auto. Qed.

Lemma steiner_sine_bounds n : (3 <= n)%nat -> 0 < steiner_sine n < 1.
Proof.
  intros H. apply INR3 in H. pose proof PI_RGT_0 as HP.
  assert (0 < PI / INR n) by (apply Rdiv_lt_0_compat; lra).
  assert (PI / INR n < PI / 2).
  { unfold Rdiv. apply Rmult_lt_compat_l; auto. apply Rinv_lt_contravar; lra. }
  unfold steiner_sine. split.
  - apply sin_gt_0; lra.
  - rewrite <- sin_PI2. apply sin_increasing_1; lra.
Qed.

Lemma base_radius_bounds c0 n : (3 <= n)%nat -> 0 < cr c0 ->
  0 < base_radius c0 n /\ 0 < cr c0 - 2 * base_radius c0 n /\ cr c0 / (1 + steiner_sine n) = cr c0 - base_radius c0 n.
Proof.
  intros H HR. pose proof (steiner_sine_bounds n H) as Hs. unfold base_radius. set (s := steiner_sine n) in *.
  assert (0 < cr c0 / (1 + s)) by (apply Rdiv_lt_0_compat; lra). split; [nra|]. split.
  - replace (cr c0 - 2 * (cr c0 / (1 + s) * s)) with (cr c0 / (1 + s) * (1 - s)) by (field; lra). nra.
  - field. lra.
Qed.

Lemma phi0_eq c0 n shift : (3 <= n)%nat -> 0 < cr c0 ->
  SteinerChain_phi0_ c0 n shift = Ok (map (base_circle c0 n shift) (seq 0 n) ++ [base_inner c0 n]).
Proof.
  intros H HR. destruct (base_radius_bounds c0 n H HR) as (H1 & H2 & _). unfold SteinerChain_phi0_.
  fold (steiner_sine n). fold (base_radius c0 n). rewrite (mapM_map _ (base_circle c0 n shift)).
  - cbn [bind]. rewrite Circle_init_pos by auto. reflexivity.
  - intros i _. rewrite Circle_init_pos by auto. reflexivity.
Qed.

(** ** geometry of the base chain *)
Lemma base_dist2 c0 n shift i j : (3 <= n)%nat -> 0 < cr c0 ->
  dist2 (cO (base_circle c0 n shift i)) (cO (base_circle c0 n shift j)) =
  (2 * (cr c0 / (1 + steiner_sine n)) * sin ((INR i - INR j) * (PI / INR n))) ^ 2.
Proof.
  intros H HR. cbn [base_circle cO]. set (K := cr c0 / (1 + steiner_sine n)). set (p := PI / INR n). unfold unit_vector_.
  set (a := (INR i + shift) * 2 * p). set (b := (INR j + shift) * 2 * p).
  assert (E : sin ((INR i - INR j) * p) ^ 2 = (1 - cos (a - b)) / 2).
  { replace (a - b) with (2 * ((INR i - INR j) * p)) by (unfold a, b; ring). rewrite cos_2a_sin. simpl. field. }
  transitivity (4 * K * K * sin ((INR i - INR j) * p) ^ 2); [|simpl; ring].
  rewrite E, cos_minus. pose proof (sin2_cos2 a) as Sa. pose proof (sin2_cos2 b) as Sb. unfold Rsqr in *.
  unspec. nra.
Qed.

Lemma sin_mult_ge n m : (3 <= n)%nat -> (1 <= m < n)%nat -> steiner_sine n <= sin (INR m * (PI / INR n)).
Proof.
  intros Hn [H1 H2]. pose proof (INR3 n Hn) as H3. pose proof PI_RGT_0 as HP.
  assert (P0 : 0 < PI / INR n) by (apply Rdiv_lt_0_compat; lra).
  assert (Pn : INR n * (PI / INR n) = PI) by (field; lra).
  assert (M1 : 1 <= INR m) by (apply le_INR in H1; simpl in H1; auto).
  assert (M2 : INR m + 1 <= INR n) by (rewrite <- S_INR; apply le_INR; lia).
  set (p := PI / INR n) in *. unfold steiner_sine. fold p.
  assert (p <= PI / 2) by nra.
  destruct (Rle_dec (INR m * p) (PI / 2)) as [Q|Q].
  - apply sin_incr_1; nra.
  - rewrite <- (sin_PI_x (INR m * p)). apply sin_incr_1; nra.
Qed.

Lemma base_far c0 n shift i j : (3 <= n)%nat -> 0 < cr c0 -> (i < n)%nat -> (j < n)%nat -> i <> j ->
  2 * base_radius c0 n * (2 * base_radius c0 n) <= dist2 (cO (base_circle c0 n shift i)) (cO (base_circle c0 n shift j)).
Proof.
  intros Hn HR Hi Hj Hij. rewrite base_dist2 by auto. pose proof (steiner_sine_bounds n Hn) as Hs.
  assert (K : 0 < cr c0 / (1 + steiner_sine n)) by (apply Rdiv_lt_0_compat; lra).
  unfold base_radius. set (q := cr c0 / (1 + steiner_sine n)) in *. set (p := PI / INR n) in *.
  assert (S : steiner_sine n * steiner_sine n <= sin ((INR i - INR j) * p) * sin ((INR i - INR j) * p)).
  { destruct (Nat.lt_ge_cases j i) as [L|L].
    - rewrite <- minus_INR by lia. pose proof (sin_mult_ge n (i - j) Hn ltac:(lia)) as G. fold p in G. nra.
    - pose proof (sin_mult_ge n (j - i) Hn ltac:(lia)) as G. fold p in G. rewrite minus_INR in G by lia.
      replace ((INR i - INR j) * p) with (- ((INR j - INR i) * p)) by ring. rewrite sin_neg. nra. }
  set (x := sin ((INR i - INR j) * p)) in *. simpl. 
  replace (2 * (q * steiner_sine n) * (2 * (q * steiner_sine n))) with (4 * q * q * (steiner_sine n * steiner_sine n)) by ring.
  replace (2 * q * x * (2 * q * x * 1)) with (4 * q * q * (x * x)) by ring. apply Rmult_le_compat_l; nra.
Qed.

Lemma base_succ c0 n shift i : (3 <= n)%nat -> 0 < cr c0 ->
  dist2 (cO (base_circle c0 n shift i)) (cO (base_circle c0 n shift (S i))) = 2 * base_radius c0 n * (2 * base_radius c0 n).
Proof.
  intros Hn HR. rewrite base_dist2 by auto. rewrite S_INR.
  replace ((INR i - (INR i + 1)) * (PI / INR n)) with (- (PI / INR n)) by ring. rewrite sin_neg.
  fold (steiner_sine n). unfold base_radius. simpl. ring.
Qed.

Lemma base_period c0 n shift i : (3 <= n)%nat -> base_circle c0 n shift (i + n) = base_circle c0 n shift i.
Proof.
  intros Hn. pose proof (INR3 n Hn). unfold base_circle. do 3 f_equal.
  replace ((INR (i + n) + shift) * 2 * (PI / INR n)) with ((INR i + shift) * 2 * (PI / INR n) + 2 * PI)
    by (rewrite plus_INR; field; lra).
  unfold unit_vector_. rewrite cos_plus, sin_plus, cos_2PI, sin_2PI. f_equal; ring.
Qed.

Lemma base_mod c0 n shift i : (3 <= n)%nat -> (i < n)%nat -> base_circle c0 n shift (S i mod n) = base_circle c0 n shift (S i).
Proof.
  intros Hn Hi. destruct (Nat.eq_dec (S i) n) as [E|E].
  - rewrite E, Nat.mod_same by lia. rewrite <- (base_period c0 n shift 0) by auto. f_equal. 
  - rewrite Nat.mod_small by lia. reflexivity.
Qed.

Lemma base_shift c0 n shift i : base_circle c0 n (shift + 1) i = base_circle c0 n shift (S i).
Proof. unfold base_circle. rewrite S_INR. do 4 f_equal. ring. Qed.

Lemma base_centre_dist2 c0 n shift i : (3 <= n)%nat -> 0 < cr c0 ->
  dist2 (cO c0) (cO (base_circle c0 n shift i)) = (cr c0 - base_radius c0 n) * (cr c0 - base_radius c0 n).
Proof.
  intros Hn HR. destruct (base_radius_bounds c0 n Hn HR) as (_ & _ & E). rewrite <- E. cbn [base_circle cO].
  set (a := (INR i + shift) * 2 * (PI / INR n)). unfold unit_vector_. pose proof (sin2_cos2 a) as Sa. unfold Rsqr in Sa.
  set (q := cr c0 / (1 + steiner_sine n)). transitivity (q * q * (sin a * sin a + cos a * cos a)); [unspec; ring|]. rewrite Sa. ring.
Qed.

(** ** inversion of the base chain *)
Definition qform (c1 c2 : circle) : R := dist2 (cO c1) (cO c2) - cr c1 * cr c1 - cr c2 * cr c2.
Definition inside_circle (c0 c : circle) : Prop := 0 < cr c /\ dist (cO c0) (cO c) <= cr c0 - cr c.

Definition st_pole (c0 : circle) (phi : R) : pt := vadd (cr c0 * (1 / phi), 0) (cO c0).
Definition st_power (c0 : circle) (phi : R) : R := cr c0 * cr c0 * (1 / phi * (1 / phi) - 1).
Definition st_scale (c0 : circle) (phi : R) (c : circle) : R :=
  if eqb phi 0 then 1 else inv_scale (st_pole c0 phi) (st_power c0 phi) (cO c) (cr c).
Definition st_img (c0 : circle) (phi : R) (c : circle) : circle :=
  if eqb phi 0 then c
  else mkCircle (vadd (st_pole c0 phi) (vscal (st_scale c0 phi c) (vsub (cO c) (st_pole c0 phi)))) (st_scale c0 phi c * cr c).

Lemma st_q c0 phi : 0 < cr c0 -> phi <> 0 -> Rabs phi < 1 ->
  let q := cr c0 / Rabs phi in
  cr c0 < q /\ dist (cO c0) (st_pole c0 phi) = q /\ st_power c0 phi = (q - cr c0) * (q + cr c0) /\ 0 < st_power c0 phi.
Proof.
  intros HR Hp H1 q. pose proof (Rabs_pos_lt phi Hp) as Hp'.
  assert (Hq : cr c0 < q).
  { unfold q. apply (Rmult_lt_reg_r (Rabs phi)); auto. unfold Rdiv. rewrite Rmult_assoc, Rinv_l by lra. nra. }
  assert (Sq : q * q = cr c0 * (1 / phi) * (cr c0 * (1 / phi))).
  { unfold q. replace (cr c0 / Rabs phi * (cr c0 / Rabs phi)) with (cr c0 * cr c0 / (Rabs phi * Rabs phi)) by (field; lra).
    rewrite Rabs_sq. field. auto. }
  split; auto. split; [|].
  - apply Rsqr_inj; [apply dist_nonneg|lra|]. unfold Rsqr. rewrite dist_sq, Sq. unfold st_pole. unspec. ring.
  - assert (E : st_power c0 phi = (q - cr c0) * (q + cr c0)).
    { replace ((q - cr c0) * (q + cr c0)) with (q * q - cr c0 * cr c0) by ring. rewrite Sq. unfold st_power. ring. }
    split; auto. rewrite E. nra.
Qed.

Lemma st_pow_bound c0 phi c : 0 < cr c0 -> phi <> 0 -> Rabs phi < 1 -> inside_circle c0 c ->
  let q := cr c0 / Rabs phi in
  (q - cr c0) * (q - cr c0 + 2 * cr c) <= pow_circle (cO c) (cr c) (st_pole c0 phi).
Proof.
  intros HR Hp H1 [Hr Hi] q. destruct (st_q c0 phi HR Hp H1) as (Hq & Hd & _ & _). fold q in Hq, Hd.
  pose proof (dist_triangle (cO c0) (cO c) (st_pole c0 phi)) as T. rewrite Hd in T.
  pose proof (dist_nonneg (cO c) (st_pole c0 phi)). unfold pow_circle. rewrite <- dist_sq. simpl. nra.
Qed.

Lemma st_scale_spec c0 phi c : 0 < cr c0 -> Rabs phi < 1 -> inside_circle c0 c ->
  0 < st_scale c0 phi c /\ st_scale c0 phi c * cr c <= cr c0 /\
  (phi <> 0 -> pow_circle (cO c) (cr c) (st_pole c0 phi) <> 0 /\ st_scale c0 phi c = inv_scale (st_pole c0 phi) (st_power c0 phi) (cO c) (cr c)).
Proof.
  intros HR H1 Hi. unfold st_scale. destruct (eqb phi 0) eqn:E.
  - apply eqb_true in E. destruct Hi as [Hr Hd]. pose proof (dist_nonneg (cO c0) (cO c)). split; [lra|]. split; [lra|]. tauto.
  - apply eqb_false in E. destruct (st_q c0 phi HR E H1) as (Hq & Hd & Hk & Hk').
    pose proof (st_pow_bound c0 phi c HR E H1 Hi) as B. cbv zeta in B. set (q := cr c0 / Rabs phi) in *.
    destruct Hi as [Hr Hi]. pose proof (dist_nonneg (cO c0) (cO c)). unfold inv_scale.
    set (D := pow_circle (cO c) (cr c) (st_pole c0 phi)) in *.
    assert (0 < D) by nra. split; [apply Rdiv_lt_0_compat; auto|]. split; [|intros _; split; auto; lra].
    apply (Rmult_le_reg_r D); auto. replace (st_power c0 phi / D * cr c * D) with (st_power c0 phi * cr c) by (field; lra).
    rewrite Hk. apply Rle_trans with (cr c0 * ((q - cr c0) * (q - cr c0 + 2 * cr c))); [|apply Rmult_le_compat_l; lra].
    replace (cr c0 * ((q - cr c0) * (q - cr c0 + 2 * cr c))) with ((q - cr c0) * (cr c0 * (q - cr c0 + 2 * cr c))) by ring.
    replace ((q - cr c0) * (q + cr c0) * cr c) with ((q - cr c0) * ((q + cr c0) * cr c)) by ring.
    apply Rmult_le_compat_l; [lra|]. nra.
Qed.

Lemma st_img_cr c0 phi c : cr (st_img c0 phi c) = st_scale c0 phi c * cr c.
Proof. unfold st_img, st_scale. destruct (eqb phi 0); cbn [cr]; auto. ring. Qed.

Lemma inside_self c0 : 0 < cr c0 -> inside_circle c0 c0.
Proof. intros H. split; auto. rewrite (proj2 (dist_0 _ _) eq_refl). lra. Qed.

Lemma qform_img c0 phi c1 c2 : 0 < cr c0 -> Rabs phi < 1 -> inside_circle c0 c1 -> inside_circle c0 c2 ->
  qform (st_img c0 phi c1) (st_img c0 phi c2) = st_scale c0 phi c1 * st_scale c0 phi c2 * qform c1 c2.
Proof.
  intros HR H1 I1 I2. destruct (st_scale_spec c0 phi c1 HR H1 I1) as (S1 & _ & P1). destruct (st_scale_spec c0 phi c2 HR H1 I2) as (S2 & _ & P2).
  unfold qform. rewrite !st_img_cr. unfold st_img. destruct (eqb phi 0) eqn:E.
  - unfold st_scale. rewrite E. ring.
  - apply eqb_false in E. destruct (P1 E) as [N1 E1]. destruct (P2 E) as [N2 E2]. cbn [cO].
    pose proof (scale_product (st_pole c0 phi) (st_power c0 phi) (cO c1) (cr c1) (cO c2) (cr c2) N1 N2) as K. cbv zeta in K.
    rewrite <- E1, <- E2 in K. rewrite !Rabs_right in K by lra. simpl in K. rewrite !Rmult_1_r in K. exact K.
Qed.

Lemma st_img_c0 c0 phi : 0 < cr c0 -> Rabs phi < 1 -> st_img c0 phi c0 = c0 /\ st_scale c0 phi c0 = 1.
Proof.
  intros HR H1. unfold st_img, st_scale. destruct (eqb phi 0) eqn:E; auto. apply eqb_false in E.
  assert (S : inv_scale (st_pole c0 phi) (st_power c0 phi) (cO c0) (cr c0) = 1).
  { destruct (st_q c0 phi HR E H1) as (Hq & Hd & Hk & Hk'). unfold inv_scale.
    replace (pow_circle (cO c0) (cr c0) (st_pole c0 phi)) with (st_power c0 phi); [field; lra|].
    rewrite Hk. unfold pow_circle. rewrite <- dist_sq, Hd. ring. }
  rewrite S. split; auto. apply circle_ext; cbn [cO cr]; [|ring]. destruct (cO c0), (st_pole c0 phi); unpt; f_equal; ring.
Qed.

Lemma qform_ext c1 c2 : 0 < cr c1 -> 0 < cr c2 -> (qform c1 c2 = 2 * cr c1 * cr c2 <-> ext_tangent (cO c1) (cr c1) (cO c2) (cr c2)).
Proof.
  intros H1 H2. unfold qform, ext_tangent. rewrite <- dist_sq. pose proof (dist_nonneg (cO c1) (cO c2)). split; intros K.
  - apply Rsqr_inj; try lra. unfold Rsqr. lra.
  - rewrite K. ring.
Qed.
Lemma qform_apart c1 c2 : 0 < cr c1 -> 0 < cr c2 -> (2 * cr c1 * cr c2 <= qform c1 c2 <-> cr c1 + cr c2 <= dist (cO c1) (cO c2)).
Proof.
  intros H1 H2. unfold qform. rewrite <- dist_sq. pose proof (dist_nonneg (cO c1) (cO c2)). split; intros K.
  - apply Rsqr_incr_0_var; auto. unfold Rsqr. lra.
  - nra.
Qed.
Lemma qform_int c0 c : 0 < cr c -> cr c <= cr c0 -> (qform c0 c = - (2 * cr c0 * cr c) <-> dist (cO c0) (cO c) = cr c0 - cr c).
Proof.
  intros H1 H2. unfold qform. rewrite <- dist_sq. pose proof (dist_nonneg (cO c0) (cO c)). split; intros K.
  - apply Rsqr_inj; try lra. unfold Rsqr. lra.
  - rewrite K. ring.
Qed.
Lemma qform_inside c0 c : 0 < cr c -> cr c <= cr c0 -> (qform c0 c <= - (2 * cr c0 * cr c) <-> dist (cO c0) (cO c) <= cr c0 - cr c).
Proof.
  intros H1 H2. unfold qform. rewrite <- dist_sq. pose proof (dist_nonneg (cO c0) (cO c)). split; intros K.
  - apply Rsqr_incr_0_var; try lra. unfold Rsqr. lra.
  - nra.
Qed.

Section Img.
Variables (c0 : circle) (phi : R).
Hypothesis HR : 0 < cr c0.
Hypothesis H1 : Rabs phi < 1.

Lemma img_pos c : inside_circle c0 c -> 0 < cr (st_img c0 phi c) <= cr c0.
Proof.
  intros I. rewrite st_img_cr. destruct (st_scale_spec c0 phi c HR H1 I) as (S & B & _). destruct I as [Hr _]. split; auto. nra.
Qed.

Lemma img_ext_tangent c1 c2 : inside_circle c0 c1 -> inside_circle c0 c2 ->
  ext_tangent (cO c1) (cr c1) (cO c2) (cr c2) ->
  ext_tangent (cO (st_img c0 phi c1)) (cr (st_img c0 phi c1)) (cO (st_img c0 phi c2)) (cr (st_img c0 phi c2)).
Proof.
  intros I1 I2. rewrite <- !qform_ext by (try apply img_pos; auto; apply I1 || apply I2).
  intros K. rewrite qform_img by auto. rewrite K, !st_img_cr. ring.
Qed.

Lemma img_apart c1 c2 : inside_circle c0 c1 -> inside_circle c0 c2 ->
  cr c1 + cr c2 <= dist (cO c1) (cO c2) ->
  cr (st_img c0 phi c1) + cr (st_img c0 phi c2) <= dist (cO (st_img c0 phi c1)) (cO (st_img c0 phi c2)).
Proof.
  intros I1 I2. rewrite <- !qform_apart by (try apply img_pos; auto; apply I1 || apply I2).
  intros K. rewrite qform_img by auto. rewrite !st_img_cr.
  destruct (st_scale_spec c0 phi c1 HR H1 I1) as (S1 & _). destruct (st_scale_spec c0 phi c2 HR H1 I2) as (S2 & _).
  replace (2 * (st_scale c0 phi c1 * cr c1) * (st_scale c0 phi c2 * cr c2)) with (st_scale c0 phi c1 * st_scale c0 phi c2 * (2 * cr c1 * cr c2)) by ring.
  apply Rmult_le_compat_l; auto. nra.
Qed.

Lemma img_int_tangent c : inside_circle c0 c -> dist (cO c0) (cO c) = cr c0 - cr c ->
  dist (cO c0) (cO (st_img c0 phi c)) = cr c0 - cr (st_img c0 phi c).
Proof.
  intros I. pose proof (inside_self c0 HR) as I0. destruct (st_img_c0 c0 phi HR H1) as [E0 S0]. destruct (img_pos c I) as [P1 P2].
  rewrite <- !qform_int; auto; try apply I; [|destruct I; pose proof (dist_nonneg (cO c0) (cO c)); lra].
  intros K. rewrite <- E0 at 1. rewrite qform_img by auto. rewrite K, S0, st_img_cr. ring.
Qed.

Lemma img_inside c : inside_circle c0 c -> inside_circle c0 (st_img c0 phi c).
Proof.
  intros I. pose proof (inside_self c0 HR) as I0. destruct (st_img_c0 c0 phi HR H1) as [E0 S0]. destruct (img_pos c I) as [P1 P2].
  split; auto. pose proof I as [Hr Hd]. pose proof (dist_nonneg (cO c0) (cO c)).
  apply qform_inside; auto. rewrite <- E0 at 1. rewrite qform_img by auto. rewrite S0, st_img_cr.
  apply (qform_inside c0 c) in Hd; auto; [|lra]. destruct (st_scale_spec c0 phi c HR H1 I) as (S & _ & _). nra.
Qed.
End Img.
