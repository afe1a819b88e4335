(** * Möbius transformations: generalized powers and fixed points. *)

From Coq Require Import Reals Lra Lia Psatz List Bool ZArith.
From Verif Require Import Base BaseLemmas Spec SpecLemmas SpecMobius ModelInternal ModelLine ModelCircle ModelInversion ModelMobius PMobius.
Import ListNotations.
Local Open Scope R_scope.

Ltac unC := unfold Cdiv, Cinv, Csub, Cadd, Cmul, Copp, RtoC, C0, C1, Cconj in *; cbn [fst snd] in *.

Lemma cabs_pos z : z <> C0 -> 0 < cabs z.
Proof. intros H. apply sqrt_lt_R0. apply (Cmod2_pos z H). Qed.

Lemma cabs_0 : cabs C0 = 0.
Proof. unfold cabs, mod2_, C0. cbn [fst snd]. replace (0 * 0 + 0 * 0) with 0 by ring. apply sqrt_0. Qed.

(** ** Complex powers *)

Definition cpw (arg : C -> R) (z : C) (t : R) : C := (Rpower (cabs z) t * cos (t * arg z), Rpower (cabs z) t * sin (t * arg z)).

Lemma cpow_eq arg z t : z <> C0 -> cpow arg z t = Ok (cpw arg z t).
Proof. intros H. unfold cpow. rewrite (proj2 (Ceqb_false z C0)) by auto. reflexivity. Qed.

Lemma cpw_add arg z s t : cpw arg z (s + t) = (cpw arg z s * cpw arg z t)%C.
Proof.
  unfold cpw, Cmul. cbn [fst snd]. rewrite Rpower_plus, Rmult_plus_distr_r, cos_plus, sin_plus. f_equal; ring.
Qed.

Lemma cpw_0 arg z : cpw arg z 0 = C1.
Proof. unfold cpw, C1. rewrite Rmult_0_l, cos_0, sin_0. unfold Rpower. rewrite Rmult_0_l, exp_0. f_equal; ring. Qed.

Lemma cpw_1 arg z : is_arg arg -> z <> C0 -> cpw arg z 1 = z.
Proof.
  intros HA Hz. unfold cpw. rewrite Rpower_1 by (apply cabs_pos; auto). rewrite Rmult_1_l. symmetry. apply HA. auto.
Qed.

Lemma cpw_pred arg z t : is_arg arg -> z <> C0 -> cpw arg z t = (z * cpw arg z (t - 1))%C.
Proof.
  intros HA Hz. rewrite <- (cpw_1 arg z) at 2 by auto. rewrite <- cpw_add. f_equal. ring.
Qed.

(** ** 2x2 matrices *)

Lemma mob_eq A B : ma A = ma B -> mb A = mb B -> mc A = mc B -> md A = md B -> A = B.
Proof. destruct A, B. cbn. intros; subst; auto. Qed.

Lemma matmul_assoc A B D : matmul (matmul A B) D = matmul A (matmul B D).
Proof. apply mob_eq; unfold matmul; cbn [ma mb mc md]; cring. Qed.

Lemma matmul_1_l A : matmul (mdiag C1 C1) A = A.
Proof. apply mob_eq; unfold matmul, mdiag; cbn [ma mb mc md]; cring. Qed.

Lemma matmul_1_r A : matmul A (mdiag C1 C1) = A.
Proof. apply mob_eq; unfold matmul, mdiag; cbn [ma mb mc md]; cring. Qed.

Lemma matinv_spec P : mdet P <> C0 -> exists Q, matinv P = Ok Q /\ matmul P Q = mdiag C1 C1 /\ matmul Q P = mdiag C1 C1.
Proof.
  intros HD. unfold matinv. rewrite (proj2 (Ceqb_false _ C0)) by auto. eexists. split; [reflexivity|].
  unfold mdet in *. split; apply mob_eq; unfold matmul, mdiag; cbn [ma mb mc md]; cfield; auto.
Qed.

(** a one-parameter group conjugated by an invertible matrix *)
Lemma conj_group (M P Q : mobius) (J : R -> mobius) :
  matmul P Q = mdiag C1 C1 -> matmul Q P = mdiag C1 C1 ->
  (forall s t, matmul (J s) (J t) = J (s + t)) -> J 0 = mdiag C1 C1 -> matmul M P = matmul P (J 1) ->
  let F t := matmul (matmul P (J t)) Q in
  (forall s t, matmul (F s) (F t) = F (s + t)) /\ F 0 = mdiag C1 C1 /\ F 1 = M.
Proof.
  intros H1 H2 HJ H0 HM F. unfold F. split; [|split].
  - intros s t. rewrite !matmul_assoc. f_equal. rewrite <- HJ, !matmul_assoc. f_equal.
    rewrite <- (matmul_assoc Q P), H2, matmul_1_l. reflexivity.
  - rewrite H0, matmul_1_r. auto.
  - rewrite <- HM, matmul_assoc, H1, matmul_1_r. auto.
Qed.

(** ** gpower *)

Definition eig_ok (eig : mobius -> C * C * mobius) (M : mobius) : Prop :=
  let '(l1, l2, V) := eig M in
    is_eigen (ma M) (mb M) (mc M) (md M) l1 l2 (ma V) (mb V) (mc V) (md V).

Lemma eigen_invertible a b c d l1 l2 v11 v12 v21 v22 : is_eigen a b c d l1 l2 v11 v12 v21 v22 -> l1 <> l2 ->
  (v11 * v22 - v21 * v12)%C <> C0.
Proof.
  intros (E1 & E2 & E3 & E4 & N1 & N2 & _ & _) HL K.
  assert (X : forall p, ((l1 - l2) * p)%C = C0 -> p = C0).
  { intros p H. apply Cmul_0 in H. destruct H as [H|H]; auto. apply (proj1 (Csub_0 _ _)) in H. contradiction. }
  apply N2.
  destruct (C_eq_dec v11 C0) as [Z|Z].
  - subst v11. assert (Z2 : v21 <> C0) by (intros ->; apply N1; auto).
    assert (Z3 : v12 = C0). { apply (Cmul_cancel v21); auto. transitivity (- (C0 * v22 - v21 * v12))%C; [cring|]. rewrite K. cring. }
    subst v12. f_equal. apply X. apply (Cmul_cancel v21); auto.
    transitivity ((c * C0 + d * v21) * v22 - (c * C0 + d * v22) * v21)%C; [rewrite E2, E4|]; cring.
  - assert (Y : v22 = (v21 * v12 / v11)%C).
    { apply (Cmul_cancel v11); auto. transitivity (v21 * v12 + (v11 * v22 - v21 * v12))%C; [cring|]. rewrite K. cfield; auto. }
    assert (Y2 : v12 = C0).
    { apply X. transitivity (v12 / v11 * (l1 * v11) - l2 * v12)%C; [cfield; auto|]. rewrite <- E1, <- E3, Y. cfield; auto. }
    subst v12. f_equal. rewrite Y. cfield; auto.
Qed.

Lemma J_group arg alpha : is_arg arg -> alpha <> C0 ->
  let J t := mkMob (cpw arg alpha t) (RtoC t * cpw arg alpha (t - 1))%C C0 (cpw arg alpha t) in
  (forall s t, matmul (J s) (J t) = J (s + t)) /\ J 0 = mdiag C1 C1 /\ J 1 = mkMob alpha C1 C0 alpha.
Proof.
  intros HA Ha J. unfold J. split; [|split].
  - intros s t. apply mob_eq; unfold matmul; cbn [ma mb mc md]; try (rewrite cpw_add; cring); [|cring].
    rewrite (cpw_pred arg alpha s), (cpw_pred arg alpha t) by auto.
    replace (s + t - 1) with ((s - 1) + (t - 1) + 1) by ring. rewrite !cpw_add, (cpw_1 arg alpha) by auto.
    assert (E : RtoC (s + t) = (RtoC s + RtoC t)%C) by (unC; f_equal; ring). rewrite E. cring.
  - apply mob_eq; unfold mdiag; cbn [ma mb mc md]; rewrite ?cpw_0; auto. replace (RtoC 0) with C0 by reflexivity. cring.
  - apply mob_eq; cbn [ma mb mc md]; rewrite ?(cpw_1 arg alpha) by auto; auto. replace (1 - 1) with 0 by ring. rewrite cpw_0.
    change (RtoC 1) with C1. cring.
Qed.

Lemma D_group arg l1 l2 : is_arg arg -> l1 <> C0 -> l2 <> C0 ->
  let J t := mdiag (cpw arg l1 t) (cpw arg l2 t) in
  (forall s t, matmul (J s) (J t) = J (s + t)) /\ J 0 = mdiag C1 C1 /\ J 1 = mdiag l1 l2.
Proof.
  intros HA H1 H2 J. unfold J. split; [|split].
  - intros s t. apply mob_eq; unfold matmul, mdiag; cbn [ma mb mc md]; rewrite ?cpw_add; cring.
  - rewrite !cpw_0. auto.
  - rewrite !(cpw_1 arg) by auto. auto.
Qed.

(** the matrices for which no tolerance of gpower is misled *)
Definition gpower_domain (M : mobius) : Prop :=
  let disc := ((ma M + md M) * (ma M + md M) - RtoC 4 * mdet M)%C in
  let alpha := ((ma M + md M) / RtoC 2)%C in
  sepsilon_ <= cabs disc \/
  (disc = C0 /\ (M = mdiag alpha alpha \/ ~ (Cnear (ma M) alpha /\ Cnear (mb M) C0 /\ Cnear (mc M) C0 /\ Cnear (md M) alpha)) /\
   ((mb M = C0 /\ (md M - alpha)%C = C0) \/ ~ (Cnear (mb M) C0 /\ Cnear (md M - alpha)%C C0))).

Lemma callclose_near z w : callclose z w = true <-> Cnear z w.
Proof. unfold callclose, Cnear. rewrite leb_true. unfold cabs, mod2_. tauto. Qed.

Lemma RtoC_neq x : x <> 0 -> RtoC x <> C0.
Proof. unfold RtoC, C0. intros H E. injection E. auto. Qed.

Lemma callclose_refl z : callclose z z = true.
Proof.
  unfold callclose. apply leb_true. replace (z - z)%C with C0 by cring. rewrite cabs_0.
  assert (0 <= cabs z) by apply sqrt_pos. lra.
Qed.

Lemma gpower_group arg eig M : is_arg arg -> eig_ok eig M -> mdet M <> C0 -> gpower_domain M ->
  exists F, (forall t, gpower arg eig M t = Ok (F t)) /\
    (forall s t, matmul (F s) (F t) = F (s + t)) /\ F 0 = mdiag C1 C1 /\ F 1 = M.
Proof.
  intros HA HE HD [H|(Hdisc & HM & HN)].
  - (* distinct eigenvalues *)
    unfold eig_ok in HE. unfold gpower. rewrite (proj2 (ltb_false _ _)) by auto. destruct (eig M) as [[l1 l2] V].
    pose proof HE as HE'. destruct HE as (E1 & E2 & E3 & E4 & N1 & N2 & Tr & Dt).
    assert (HL : l1 <> l2).
    { intros ->. assert (Z : cabs ((ma M + md M) * (ma M + md M) - RtoC 4 * mdet M)%C = 0).
      { rewrite <- cabs_0. f_equal. rewrite <- Tr. unfold mdet. replace (ma M * md M - mc M * mb M)%C with (l2 * l2)%C by (rewrite Dt; cring).
        assert (R4 : RtoC 4 = ((C1 + C1) * (C1 + C1))%C) by (unC; f_equal; ring). rewrite R4. cring. }
      rewrite Z in H. pose proof sepsilon_pos. lra. }
    assert (L0 : (l1 * l2)%C <> C0) by (intros K; apply HD; unfold mdet; rewrite <- K, Dt; cring).
    assert (L1 : l1 <> C0) by (intros ->; apply L0; cring).
    assert (L2 : l2 <> C0) by (intros ->; apply L0; cring).
    assert (DV : mdet V <> C0) by (apply (eigen_invertible _ _ _ _ _ _ _ _ _ _ HE' HL)).
    destruct (matinv_spec V DV) as (Q & EQ & Q1 & Q2).
    destruct (D_group arg l1 l2 HA L1 L2) as (J1 & J2 & J3).
    exists (fun t => matmul (matmul V (mdiag (cpw arg l1 t) (cpw arg l2 t))) Q). split.
    + intros t. rewrite !cpow_eq by auto. cbn [bind]. rewrite EQ. reflexivity.
    + apply conj_group; auto. cbv beta in J3 |- *. rewrite J3. apply mob_eq; unfold matmul, mdiag; cbn [ma mb mc md].
      * rewrite E1. cring. * rewrite E3. cring. * rewrite E2. cring. * rewrite E4. cring.
  - unfold gpower. rewrite Hdisc, cabs_0, (proj2 (ltb_true _ _)) by apply sepsilon_pos.
    set (alpha := ((ma M + md M) / RtoC 2)%C) in *.
    assert (T2 : RtoC 2 = (C1 + C1)%C) by (unC; f_equal; ring).
    assert (T2n : (C1 + C1)%C <> C0) by (rewrite <- T2; apply RtoC_neq; lra).
    assert (Ha2 : (alpha * alpha)%C = mdet M).
    { assert (R4 : RtoC 4 = ((C1 + C1) * (C1 + C1))%C) by (unC; f_equal; ring). rewrite R4 in Hdisc. apply (proj1 (Csub_0 _ _)) in Hdisc.
      apply (Cmul_cancel ((C1 + C1) * (C1 + C1))%C); [apply Cmul_neq0; auto|]. rewrite <- Hdisc. unfold alpha. rewrite T2. cfield; auto. }
    assert (Ha : alpha <> C0) by (intros K; apply HD; rewrite <- Ha2, K; cring).
    destruct (mallclose M (mdiag alpha alpha)) eqn:EM.
    + destruct HM as [HM|HM].
      2:{ exfalso. apply HM. unfold mallclose, mdiag in EM. cbn [ma mb mc md] in EM. rewrite !andb_true_iff, !callclose_near in EM. tauto. }
      exists (fun t => mdiag (cpw arg alpha t) (cpw arg alpha t)). split.
      * intros t. rewrite cpow_eq by auto. reflexivity.
      * destruct (D_group arg alpha alpha HA Ha Ha) as (J1 & J2 & J3). cbv beta in J3. rewrite J3. auto.
    + assert (HM' : M <> mdiag alpha alpha).
      { intros K. rewrite <- K in EM. unfold mallclose in EM. rewrite !callclose_refl in EM. discriminate. }
      unfold mdiag. cbn [ma mb mc md].
      set (p := (ma M - alpha)%C). set (q := (mb M - C0)%C). set (r := (mc M - C0)%C). set (u := (md M - alpha)%C).
      assert (Hu : u = (- p)%C).
      { unfold u, p, alpha. rewrite T2. cfield. auto. }
      assert (Hq : mb M = q) by (unfold q; cring). assert (Hr : mc M = r) by (unfold r; cring).
      assert (Hp : ma M = (alpha + p)%C) by (unfold p; cring). assert (Hd : md M = (alpha - p)%C) by (transitivity (alpha + u)%C; [unfold u; cring|rewrite Hu; cring]).
      assert (Nil : (p * p + q * r)%C = C0).
      { unfold mdet in Ha2. rewrite Hp, Hq, Hr, Hd in Ha2. transitivity (alpha * alpha - ((alpha + p) * (alpha - p) - r * q))%C; [cring|].
        rewrite <- Ha2. cring. }
      assert (HJ := J_group arg alpha HA Ha). cbv zeta in HJ. destruct HJ as (J1 & J2 & J3). rewrite Hq in HN. fold u in HN.
      destruct (callclose q C0 && callclose u C0) eqn:EN.
      * destruct HN as [[Q0 U0]|HN]; [|exfalso; apply HN; rewrite andb_true_iff, !callclose_near in EN; exact EN].
        assert (P0 : p = C0) by (transitivity (- u)%C; [rewrite Hu; cring|rewrite U0; cring]).
        assert (R0 : r <> C0).
        { intros R0. apply HM'. apply mob_eq; unfold mdiag; cbn [ma mb mc md]; rewrite ?Hp, ?Hq, ?Hr, ?Hd, ?P0, ?Q0, ?R0; cring. }
        destruct (matinv_spec (mkMob p C1 r C0)) as (Q & EQ & Q1 & Q2).
        { unfold mdet; cbn [ma mb mc md]. intros K. apply R0. transitivity (- (p * C0 - r * C1))%C; [cring|rewrite K; cring]. }
        eexists (fun t => matmul (matmul (mkMob p C1 r C0) (mkMob (cpw arg alpha t) (RtoC t * cpw arg alpha (t - 1))%C C0 (cpw arg alpha t))) Q).
        split.
        -- intros t. rewrite !cpow_eq by auto. cbn [bind]. rewrite EQ. reflexivity.
        -- apply (conj_group M (mkMob p C1 r C0) Q (fun t => mkMob (cpw arg alpha t) (RtoC t * cpw arg alpha (t - 1))%C C0 (cpw arg alpha t))); auto.
           cbv beta. rewrite J3. apply mob_eq; unfold matmul; cbn [ma mb mc md]; rewrite ?Hp, ?Hq, ?Hr, ?Hd, ?P0, ?Q0; cring.
      * assert (Q0 : q <> C0).
        { intros K. rewrite K in *. assert (P0 : p = C0).
          { assert (Z : (p * p)%C = C0) by (transitivity (p * p + C0 * r)%C; [cring|auto]). apply Cmul_0 in Z. tauto. }
          rewrite Hu, P0 in EN. replace (- C0)%C with C0 in EN by cring. rewrite callclose_refl in EN. discriminate. }
        destruct (matinv_spec (mkMob q C0 u C1)) as (Q & EQ & Q1 & Q2).
        { unfold mdet; cbn [ma mb mc md]. intros K. apply Q0. transitivity (q * C1 - u * C0)%C; [cring|auto]. }
        eexists (fun t => matmul (matmul (mkMob q C0 u C1) (mkMob (cpw arg alpha t) (RtoC t * cpw arg alpha (t - 1))%C C0 (cpw arg alpha t))) Q).
        split.
        -- intros t. rewrite !cpow_eq by auto. cbn [bind]. rewrite EQ. reflexivity.
        -- apply (conj_group M (mkMob q C0 u C1) Q (fun t => mkMob (cpw arg alpha t) (RtoC t * cpw arg alpha (t - 1))%C C0 (cpw arg alpha t))); auto.
           cbv beta. rewrite J3. apply mob_eq; unfold matmul; cbn [ma mb mc md]; rewrite ?Hp, ?Hq, ?Hr, ?Hd, ?Hu.
           ++ cring.
           ++ cring.
           ++ transitivity (q * r + p * p - p * p - p * alpha + p * p)%C; [cring|]. 
              transitivity ((p * p + q * r) - p * alpha)%C; [cring|]. rewrite Nil. cring.
           ++ cring.
Qed.

Lemma gpower_det arg eig M t G : is_arg arg -> eig_ok eig M -> mdet M <> C0 -> gpower_domain M -> gpower arg eig M t = Ok G -> mdet G <> C0.
Proof.
  intros HA HE HD HG E. destruct (gpower_group arg eig M HA HE HD HG) as (F & HF & Hadd & H0 & H1).
  rewrite HF in E. apply Ok_inj in E. subst G. intros K.
  assert (X : mdet (matmul (F t) (F (- t))) = C0) by (rewrite mdet_matmul, K; cring).
  rewrite Hadd in X. replace (t + - t) with 0 in X by ring. rewrite H0 in X. unfold mdet, mdiag in X. cbn [ma mb mc md] in X.
  apply C1_neq_0. rewrite <- X. cring.
Qed.

(** integer exponents: gpower is the same transformation as power *)
Lemma gpower_power arg eig M k G M' P : is_arg arg -> eig_ok eig M -> mdet M <> C0 -> gpower_domain M ->
  gpower arg eig M (IZR k) = Ok G -> power M (IZR k) = Ok M' -> transform G P = transform M' P.
Proof.
  intros HA HE HD HG E1 E2. destruct (gpower_group arg eig M HA HE HD HG) as (F & HF & Hadd & H0 & H1).
  assert (FD : forall t, mdet (F t) <> C0).
  { intros t. apply (gpower_det arg eig M t); auto. }
  rewrite HF in E1. apply Ok_inj in E1. subst G.
  destruct (power_integer M k) as (M'' & E & HM''). rewrite E2 in E. apply Ok_inj in E. subst M''.
  destruct (HM'' HD) as [_ HT]. rewrite HT. fold (ziter M k P). clear HT HM'' E2.
  revert k. apply Z.bi_induction.
  - intros x y H. unfold Z.eq in H. subst. tauto.
  - rewrite H0. apply transform_id.
  - intros k. replace (Z.succ k) with (k + 1)%Z by lia. rewrite ziter_succ by auto.
    replace (IZR (k + 1)) with (1 + IZR k) by (rewrite plus_IZR; ring). rewrite <- Hadd, H1.
    replace (matmul M (F (IZR k))) with (matmul M (F (IZR k))) by auto. rewrite transform_matmul by auto.
    destruct (transform_total (F (IZR k)) P (FD _)) as [Q EQ]. rewrite EQ. cbn [bind]. split.
    + intros <-. reflexivity.
    + intros H. assert (HZ : exists S, ziter M k P = Ok S).
      { unfold ziter. destruct (k <? 0)%Z; apply iterM_total; rewrite ?mdet_inverse; auto. }
      destruct HZ as [S HS]. rewrite HS in *. cbn [bind] in H. destruct (transform_total M S HD) as [U EU]. rewrite EU in H.
      f_equal. apply (transform_inj M Q S U); auto.
Qed.

(** ** Existence of arg and eig *)

Lemma arg_exists : is_arg (fun z => atan2 (snd z) (fst z)).
Proof.
  intros [x y] H. cbn [fst snd]. destruct (cos_sin_atan2 y x H) as [E1 E2]. rewrite E1, E2.
  assert (0 < sqrt (x * x + y * y)) by (apply sqrt_lt_R0; apply sum_sq_pos; auto).
  f_equal; field; lra.
Qed.

Lemma csqrt_exists (z : C) : exists w, (w * w)%C = z.
Proof.
  destruct (C_eq_dec z C0) as [->|Hz].
  - exists C0. cring.
  - exists (cpw (fun z => atan2 (snd z) (fst z)) z (/ 2)). rewrite <- cpw_add. replace (/ 2 + / 2) with 1 by field.
    apply cpw_1; auto. apply arg_exists.
Qed.

Lemma eigvec_exists a b c d l : ((a - l) * (d - l) - b * c)%C = C0 ->
  exists x y, (a * x + b * y = l * x)%C /\ (c * x + d * y = l * y)%C /\ (x, y) <> (C0, C0).
Proof.
  intros H. destruct (C_eq_dec b C0) as [Hb|Hb], (C_eq_dec (l - a)%C C0) as [Hl|Hl].
  - apply (proj1 (Csub_0 _ _)) in Hl. subst b l. destruct (C_eq_dec c C0) as [Hc|Hc], (C_eq_dec (a - d)%C C0) as [Hd|Hd].
    + exists C1, C0. subst c. split; [cring|]. split; [cring|]. intros E; apply C1_neq_0; congruence.
    + exists (a - d)%C, c. split; [cring|]. split; [cring|]. intros E; apply Hd. congruence.
    + exists (a - d)%C, c. split; [cring|]. split; [cring|]. intros E; apply Hc. congruence.
    + exists (a - d)%C, c. split; [cring|]. split; [cring|]. intros E; apply Hc. congruence.
  - subst b. exists C0, (l - a)%C. assert (K : (l - d)%C = C0).
    { assert (X : ((l - a) * (l - d))%C = C0) by (rewrite <- H; cring). apply Cmul_0 in X. tauto. }
    split; [cring|]. split; [|intros E; apply Hl; congruence]. apply (proj1 (Csub_0 _ _)) in K. subst d. cring.
  - exists b, (l - a)%C. split; [cring|]. split; [|intros E; apply Hb; congruence]. apply Csub_0.
    transitivity (- ((a - l) * (d - l) - b * c))%C; [cring|rewrite H; cring].
  - exists b, (l - a)%C. split; [cring|]. split; [|intros E; apply Hb; congruence]. apply Csub_0.
    transitivity (- ((a - l) * (d - l) - b * c))%C; [cring|rewrite H; cring].
Qed.

Lemma eigen_exists M : exists l1 l2 V, is_eigen (ma M) (mb M) (mc M) (md M) l1 l2 (ma V) (mb V) (mc V) (md V).
Proof.
  destruct M as [a b c d]. cbn [ma mb mc md].
  destruct (csqrt_exists ((a - d) * (a - d) + RtoC 4 * b * c)%C) as [w Hw].
  assert (T2 : RtoC 2 = (C1 + C1)%C) by (unC; f_equal; ring).
  assert (T2n : (C1 + C1)%C <> C0) by (rewrite <- T2; apply RtoC_neq; lra).
  assert (R4 : RtoC 4 = ((C1 + C1) * (C1 + C1))%C) by (unC; f_equal; ring). rewrite R4 in Hw.
  set (h := (C1 + C1)%C) in *.
  assert (Hp : forall e, e = w \/ e = (- w)%C -> let l := ((a + d + e) / h)%C in ((a - l) * (d - l) - b * c)%C = C0).
  { intros e He l. assert (He2 : (e * e)%C = ((a - d) * (a - d) + h * h * b * c)%C) by (destruct He as [->| ->]; rewrite <- Hw; cring).
    apply (Cmul_cancel (h * h)%C); [apply Cmul_neq0; auto|].
    transitivity (e * e - (a - d) * (a - d) - h * h * b * c)%C; [unfold l; unfold h in *; cfield; auto|]. rewrite He2. cring. }
  destruct (eigvec_exists a b c d _ (Hp w (or_introl eq_refl))) as (x1 & y1 & A1 & A2 & A3).
  destruct (eigvec_exists a b c d _ (Hp (- w)%C (or_intror eq_refl))) as (x2 & y2 & B1 & B2 & B3).
  exists ((a + d + w) / h)%C, ((a + d + - w) / h)%C, (mkMob x1 x2 y1 y2). cbn [ma mb mc md].
  repeat (split; [assumption|]). split.
  - unfold h in *. cfield; auto.
  - apply (Cmul_cancel (h * h)%C); [apply Cmul_neq0; auto|]. transitivity ((a + d) * (a + d) - w * w)%C; [cfield; auto|].
    rewrite Hw. unfold h. cring.
Qed.

Lemma eig_ok_exists M : exists eig, eig_ok eig M.
Proof.
  destruct (eigen_exists M) as (l1 & l2 & V & H). exists (fun _ => (l1, l2, V)). exact H.
Qed.

(** ** The tolerances of gpower are not invariant under scaling of the matrix *)

Lemma cabs_real x : cabs (x, 0) = Rabs x.
Proof. unfold cabs, mod2_. cbn [fst snd]. replace (x * x + 0 * 0) with (Rsqr x) by (unfold Rsqr; ring). apply sqrt_Rsqr_abs. Qed.

Lemma gpower_small_refuted arg eig : is_arg arg ->
  let M := mkMob (RtoC (2 / 1000000000)) C0 C0 (RtoC (1 / 1000000000)) in
  mdet M <> C0 /\ transform M (Pt (1, 0)) = Ok (Pt (2, 0)) /\
  exists G, gpower arg eig M 1 = Ok G /\ transform G (Pt (1, 0)) = Ok (Pt (1, 0)).
Proof.
  intros HA M. set (e := 1 / 1000000000) in *.
  assert (HD : mdet M <> C0).
  { unfold M, mdet. cbn [ma mb mc md]. unC. intros E. injection E as E1 E2. unfold e in E1. lra. }
  split; [auto|]. split.
  - apply transform_Ok; auto. exists (RtoC e). unfold M. cbn [ma mb mc md hom fst snd]. unfold e. unC. repeat split.
    + intros E. injection E as E1. lra.
    + f_equal; lra.
    + f_equal; lra.
  - set (al := (3 / 2000000000, 0) : C).
    assert (Hal : al <> C0) by (unfold al, C0; intros E; injection E; lra).
    exists (mdiag al al). split.
    + unfold gpower, M, mdet. cbn [ma mb mc md].
      match goal with |- context [cabs ?x] => replace x with ((e * e, 0) : C) by (unfold e; unC; f_equal; field) end.
      rewrite cabs_real, Rabs_right by (unfold e; lra). rewrite (proj2 (ltb_true _ _)) by (unfold e, sepsilon_; lra).
      match goal with |- context [mdiag ?x ?x] => replace x with al by (unfold al, e; unC; f_equal; field) end.
      unfold mallclose, mdiag. cbn [ma mb mc md]. rewrite !callclose_refl. unfold callclose.
      match goal with |- context [cabs ?x] => replace x with ((/ 2000000000, 0) : C) by (unfold al, e; unC; f_equal; field) end.
      match goal with |- context [cabs (RtoC e - al)%C] => replace (RtoC e - al)%C with ((- / 2000000000, 0) : C) by (unfold al, e; unC; f_equal; field) end.
      unfold al at 1 2. rewrite !cabs_real. rewrite Rabs_Ropp, (Rabs_right (/ 2000000000)), (Rabs_right (3 / 2000000000)) by lra.
      rewrite !(proj2 (leb_true _ _)) by lra. cbn [andb]. rewrite cpow_eq by auto. cbn [bind]. rewrite cpw_1 by auto. reflexivity.
    + apply transform_Ok.
      * unfold mdet, mdiag; cbn [ma mb mc md]. intros K. assert (Z : (al * al)%C = C0) by (rewrite <- K; cring). apply Cmul_0 in Z. tauto.
      * exists al. split; auto. unfold mdiag; cbn [ma mb mc md hom fst snd]. split; cring.
Qed.

(** an invertible matrix for which gpower fails *)
Lemma gpower_raise_refuted arg eig t : 
  let M := mkMob (RtoC (2 / 100000)) C0 C0 (RtoC (1 / 100000)) in
  mdet M <> C0 /\ gpower arg eig M t = Raise LinAlgError.
Proof.
  intros M. set (e := 1 / 100000) in *.
  assert (HD : mdet M <> C0).
  { unfold M, mdet. cbn [ma mb mc md]. unC. intros E. injection E as E1 E2. unfold e in E1. lra. }
  split; auto.
  set (al := (3 / 200000, 0) : C).
  assert (Hal : al <> C0) by (unfold al, C0; intros E; injection E; lra).
  unfold gpower, M, mdet. cbn [ma mb mc md].
  match goal with |- context [cabs ?x] => replace x with ((e * e, 0) : C) by (unfold e; unC; f_equal; field) end.
  rewrite cabs_real, Rabs_right by (unfold e; lra). rewrite (proj2 (ltb_true _ _)) by (unfold e, sepsilon_; lra).
  match goal with |- context [mdiag ?x ?x] => replace x with al by (unfold al, e; unC; f_equal; field) end.
  replace (mallclose (mkMob (RtoC (2 / 100000)) C0 C0 (RtoC e)) (mdiag al al)) with false.
  - unfold mdiag. cbn [ma mb mc md].
    replace (callclose (RtoC e - al)%C C0) with false.
    + rewrite andb_false_r. rewrite !cpow_eq by auto. cbn [bind]. unfold matinv, mdet. cbn [ma mb mc md].
      rewrite (proj2 (Ceqb_true _ _)) by cring. reflexivity.
    + symmetry. unfold callclose. replace (RtoC e - al - C0)%C with ((- / 200000, 0) : C) by (unfold al, e; unC; f_equal; field).
      rewrite cabs_real, cabs_0, Rabs_Ropp, Rabs_right by lra. apply leb_false. lra.
  - symmetry. unfold mallclose, mdiag. cbn [ma mb mc md]. apply andb_false_iff. right. unfold callclose.
    replace (RtoC e - al)%C with ((- / 200000, 0) : C) by (unfold al, e; unC; f_equal; field).
    unfold al. rewrite !cabs_real, Rabs_Ropp, !Rabs_right by lra. apply leb_false. lra.
Qed.

(** ** Fixed points *)

Lemma fixed_iff M z : mdet M <> C0 ->
  (transform M (Pt z) = Ok (Pt z) <-> (mc M * (z * z) + (md M - ma M) * z - mb M)%C = C0).
Proof.
  intros HD. rewrite transform_Ok by auto. unfold mob_image. cbn [hom fst snd]. split.
  - intros (k & Hk & E1 & E2). assert (K : k = (mc M * z + md M)%C) by (transitivity (k * C1)%C; [cring|rewrite <- E2; cring]).
    subst k. transitivity ((mc M * z + md M) * z - (ma M * z + mb M * C1))%C; [cring|]. rewrite E1. cring.
  - intros E. exists (mc M * z + md M)%C. split; [|split; [|cring]].
    + intros K. apply HD. unfold mdet.
      assert (E' : (ma M * z + mb M)%C = C0) by (transitivity ((mc M * z + md M) * z - (mc M * (z * z) + (md M - ma M) * z - mb M))%C; [cring|rewrite E, K; cring]).
      destruct (C_eq_dec (mc M) C0) as [Z|Z].
      * rewrite Z in *. assert (D0 : md M = C0) by (rewrite <- K; cring). rewrite D0. cring.
      * apply (Cmul_cancel (mc M)); auto. 
        assert (Zz : md M = (- mc M * z)%C) by (transitivity (mc M * z + md M - mc M * z)%C; [cring|rewrite K; cring]).
        assert (Zb : mb M = (- ma M * z)%C) by (transitivity (ma M * z + mb M - ma M * z)%C; [cring|rewrite E'; cring]).
        rewrite Zz, Zb. cring.
    + transitivity (ma M * z + mb M + (mc M * (z * z) + (md M - ma M) * z - mb M))%C; [rewrite E|]; cring.
Qed.

Lemma fixed_inf_iff M : mdet M <> C0 -> (transform M Inf = Ok Inf <-> mc M = C0).
Proof.
  intros HD. unfold transform. destruct (Ceqb (mc M) C0) eqn:E.
  - apply Ceqb_true in E. tauto.
  - apply Ceqb_false in E. split; [discriminate|tauto].
Qed.

Definition fixed_list (f : fixed_pts) : list ept :=
  match f with FPAll => [] | FPInf => [Inf] | FPOne P => [Pt P] | FPTwo P Q => [Pt P; Pt Q] end.

Lemma Pt_inj P Q : Pt P = Pt Q -> P = Q.
Proof. intros E. injection E. auto. Qed.

Lemma h2 : RtoC 2 = (C1 + C1)%C /\ (C1 + C1)%C <> C0 /\ RtoC 4 = ((C1 + C1) * (C1 + C1))%C.
Proof.
  assert (T2 : RtoC 2 = (C1 + C1)%C) by (unC; f_equal; ring). split; auto. split.
  - rewrite <- T2. apply RtoC_neq; lra.
  - unC; f_equal; ring.
Qed.

Lemma fixed_points_identity M : mdet M <> C0 -> (fixed_points M = Ok FPAll <-> forall P, transform M P = Ok P).
Proof.
  intros HD. unfold fixed_points. split.
  - destruct (Ceqb (ma M) (md M) && Ceqb (mb M) C0 && Ceqb (mc M) C0) eqn:E.
    + intros _ P. apply andb_true_iff in E. destruct E as [E Ec]. apply andb_true_iff in E. destruct E as [Ea Eb].
      apply Ceqb_true in Ea, Eb, Ec. apply transform_Ok; auto. exists (md M). rewrite Ea, Eb, Ec. split; [|split; cring].
      intros K. apply HD. unfold mdet. rewrite K, Ec. cring.
    + destruct (Ceqb (mc M) C0); [destruct (Ceqb (ma M) (md M)); discriminate|].
      destruct (Ceqb ((ma M - md M) * (ma M - md M) + RtoC 4 * mb M * mc M)%C C0); [discriminate|].
      unfold sqrt_of_complex, py_sqrt. destruct (Rlt_dec _ _); discriminate.
  - intros H. assert (Ec : mc M = C0) by (apply fixed_inf_iff; auto).
    pose proof (H (Pt C0)) as H0. apply fixed_iff in H0; auto. pose proof (H (Pt C1)) as H1. apply fixed_iff in H1; auto.
    assert (Eb : mb M = C0) by (transitivity (- (mc M * (C0 * C0) + (md M - ma M) * C0 - mb M))%C; [cring|rewrite H0; cring]).
    assert (Ed : ma M = md M).
    { apply Csub_0. transitivity (- (mc M * (C1 * C1) + (md M - ma M) * C1 - mb M))%C; [rewrite Ec, Eb; cring|rewrite H1; cring]. }
    rewrite (proj2 (Ceqb_true _ _) Ed), (proj2 (Ceqb_true _ _) Eb), (proj2 (Ceqb_true _ _) Ec). reflexivity.
Qed.

(** c = 0, or a non-negative real discriminant: exactly the finite fixed points *)
Lemma fixed_points_good M : mdet M <> C0 -> ~ (forall P, transform M P = Ok P) ->
  let Delta := ((ma M - md M) * (ma M - md M) + RtoC 4 * mb M * mc M)%C in
  mc M = C0 \/ (0 <= fst Delta /\ snd Delta = 0) ->
  exists f, fixed_points M = Ok f /\ f <> FPAll /\
    (forall z, In (Pt z) (fixed_list f) <-> transform M (Pt z) = Ok (Pt z)) /\
    (In Inf (fixed_list f) -> transform M Inf = Ok Inf) /\ NoDup (fixed_list f).
Proof.
  intros HD HI Delta H. destruct h2 as (T2 & T2n & R4).
  assert (HI' : fixed_points M <> Ok FPAll) by (intros K; apply HI; apply fixed_points_identity; auto).
  assert (HF : forall z, transform M (Pt z) = Ok (Pt z) <-> (mc M * (z * z) + (md M - ma M) * z - mb M)%C = C0) by (intros; apply fixed_iff; auto).
  unfold fixed_points in *.
  destruct (Ceqb (ma M) (md M) && Ceqb (mb M) C0 && Ceqb (mc M) C0) eqn:E; [congruence|].
  destruct (Ceqb (mc M) C0) eqn:Ec; [apply Ceqb_true in Ec|apply Ceqb_false in Ec].
  - destruct (Ceqb (ma M) (md M)) eqn:Ea; [apply Ceqb_true in Ea|apply Ceqb_false in Ea].
    + exists FPInf. split; [auto|]. split; [discriminate|]. split; [|split].
      * intros z. rewrite HF, Ec, Ea. cbn [fixed_list In]. split; [intuition discriminate|]. intros K. exfalso.
        rewrite andb_true_r in E. cbn [andb] in E. apply Ceqb_false in E. apply E.
        transitivity (- (C0 * (z * z) + (md M - md M) * z - mb M))%C; [cring|rewrite K; cring].
      * intros _. apply fixed_inf_iff; auto.
      * constructor; [intros []|constructor].
    + eexists. split; [reflexivity|]. split; [discriminate|]. cbn [fixed_list In]. split; [|split].
      * assert (Had : (ma M - md M)%C <> C0) by (intros K; apply Ea; apply Csub_0; auto).
        intros z. rewrite HF, Ec. unfold from_complex_. split.
        -- intros [K|[]]. apply Pt_inj in K; subst z. cfield; auto.
        -- intros K. left. f_equal. apply (Cmul_cancel (ma M - md M)%C); auto.
           transitivity (- mb M)%C; [cfield; auto|]. apply Csub_0. transitivity (C0 * (z * z) + (md M - ma M) * z - mb M)%C; [cring|auto].
      * intuition discriminate.
      * constructor; [intros []|constructor].
  - destruct H as [H|[H1 H2]]; [contradiction|]. fold Delta.
    assert (HQ : forall z, (RtoC 4 * mc M * (mc M * (z * z) + (md M - ma M) * z - mb M))%C =
       ((RtoC 2 * mc M * z - (ma M - md M)) * (RtoC 2 * mc M * z - (ma M - md M)) - Delta)%C).
    { intros z. unfold Delta. rewrite R4, T2. cring. }
    assert (H4c : (RtoC 4 * mc M)%C <> C0) by (apply Cmul_neq0; auto; apply RtoC_neq; lra).
    assert (H2c : (RtoC 2 * mc M)%C <> C0) by (apply Cmul_neq0; auto; apply RtoC_neq; lra).
    assert (HQ' : forall z, transform M (Pt z) = Ok (Pt z) <-> ((RtoC 2 * mc M * z - (ma M - md M)) * (RtoC 2 * mc M * z - (ma M - md M)))%C = Delta).
    { intros z. rewrite HF. split; intros K.
      - apply Csub_0. rewrite <- HQ, K. cring.
      - apply (Cmul_cancel (RtoC 4 * mc M)%C); auto. rewrite HQ, K. cring. }
    destruct (Ceqb Delta C0) eqn:ED; [apply Ceqb_true in ED|apply Ceqb_false in ED].
    + eexists. split; [reflexivity|]. split; [discriminate|]. cbn [fixed_list In]. split; [|split].
      * intros z. rewrite HQ', ED. unfold from_complex_. split.
        -- intros [K|[]]. apply Pt_inj in K; subst z. rewrite T2. cfield; auto.
        -- intros K. left. f_equal. apply Cmul_0 in K.
           assert (K' : (RtoC 2 * mc M * z - (ma M - md M))%C = C0) by tauto.
           apply (Cmul_cancel (RtoC 2 * mc M)%C); auto. transitivity (ma M - md M)%C; [rewrite T2; cfield; auto|].
           symmetry. apply Csub_0. auto.
      * intuition discriminate.
      * constructor; [intros []|constructor].
    + unfold sqrt_of_complex, py_sqrt. destruct (Rlt_dec (fst Delta) 0) as [K|_]; [lra|]. cbn [bind].
      set (s := sqrt (fst Delta)). assert (Hs : (RtoC s * RtoC s)%C = Delta).
      { assert (s * s = fst Delta) by (apply sqrt_sqrt; auto). destruct Delta as [x y]. cbn [fst snd] in *. unC. f_equal; lra. }
      assert (Hs0 : RtoC s <> C0) by (intros K; apply ED; rewrite <- Hs, K; cring).
      eexists. split; [reflexivity|]. split; [discriminate|]. cbn [fixed_list In]. split; [|split].
      * intros z. rewrite HQ', <- Hs. unfold from_complex_. split.
        -- intros [K|[K|[]]]; apply Pt_inj in K; subst z; rewrite T2; cfield; auto.
        -- intros K. set (u := (RtoC 2 * mc M * z - (ma M - md M))%C) in *.
           assert (K' : ((u - RtoC s) * (u + RtoC s))%C = C0) by (transitivity (u * u - RtoC s * RtoC s)%C; [cring|rewrite K; cring]).
           apply Cmul_0 in K'.
           assert (Ez : z = ((u + (ma M - md M)) / (RtoC 2 * mc M))%C) by (unfold u; rewrite T2; cfield; auto).
           destruct K' as [K'|K'].
           ++ left. f_equal. apply (proj1 (Csub_0 _ _)) in K'. rewrite Ez, K', T2. cfield; auto.
           ++ right; left. f_equal. assert (Eu : u = (- RtoC s)%C) by (transitivity (u + RtoC s - RtoC s)%C; [cring|rewrite K'; cring]).
              rewrite Ez, Eu, T2. cfield; auto.
      * intuition discriminate.
      * constructor; [|constructor; [intros []|constructor]]. cbn [In]. intros [K|[]]. apply Pt_inj in K. unfold from_complex_ in K. symmetry in K.
        apply Hs0. apply (Cmul_cancel (C1 + C1)%C); auto.
        transitivity ((ma M - md M + RtoC s) - (ma M - md M - RtoC s))%C; [cring|].
        transitivity (RtoC 2 * mc M * ((ma M - md M + RtoC s) / RtoC 2 / mc M - (ma M - md M - RtoC s) / RtoC 2 / mc M))%C; [rewrite T2; cfield; auto|].
        rewrite K. cring.
Qed.

(** a discriminant with negative real part: ValueError *)
Lemma fixed_points_raise M : mc M <> C0 -> fst ((ma M - md M) * (ma M - md M) + RtoC 4 * mb M * mc M)%C < 0 ->
  fixed_points M = Raise ValueError.
Proof.
  intros Hc H. unfold fixed_points. rewrite (proj2 (Ceqb_false (mc M) C0) Hc), andb_false_r.
  set (Delta := ((ma M - md M) * (ma M - md M) + RtoC 4 * mb M * mc M)%C) in *.
  destruct (Ceqb Delta C0) eqn:ED.
  - apply Ceqb_true in ED. rewrite ED in H. cbn in H. lra.
  - unfold sqrt_of_complex, py_sqrt. destruct (Rlt_dec (fst Delta) 0); [reflexivity|lra].
Qed.

Lemma fixed_points_raise_only M e : fixed_points M = Raise e -> e = ValueError /\ mc M <> C0 /\
  fst ((ma M - md M) * (ma M - md M) + RtoC 4 * mb M * mc M)%C < 0.
Proof.
  unfold fixed_points. destruct (Ceqb (ma M) (md M) && Ceqb (mb M) C0 && Ceqb (mc M) C0); [discriminate|].
  destruct (Ceqb (mc M) C0) eqn:Ec; [destruct (Ceqb (ma M) (md M)); discriminate|]. apply Ceqb_false in Ec.
  destruct (Ceqb _ C0); [discriminate|]. unfold sqrt_of_complex, py_sqrt. destruct (Rlt_dec _ _) as [L|L]; [|discriminate].
  cbn [bind]. intros E. injection E as <-. auto.
Qed.

(** a discriminant with non-zero imaginary part: nothing returned is fixed *)
Lemma fixed_points_wrong M f : mdet M <> C0 -> mc M <> C0 -> snd ((ma M - md M) * (ma M - md M) + RtoC 4 * mb M * mc M)%C <> 0 ->
  fixed_points M = Ok f -> exists P Q, f = FPTwo P Q /\ transform M (Pt P) <> Ok (Pt P) /\ transform M (Pt Q) <> Ok (Pt Q).
Proof.
  intros HD Hc HI. destruct h2 as (T2 & T2n & R4). unfold fixed_points. rewrite (proj2 (Ceqb_false (mc M) C0) Hc), andb_false_r.
  set (Delta := ((ma M - md M) * (ma M - md M) + RtoC 4 * mb M * mc M)%C) in *.
  rewrite (proj2 (Ceqb_false Delta C0)) by (intros K; apply HI; rewrite K; reflexivity).
  unfold sqrt_of_complex, py_sqrt. destruct (Rlt_dec (fst Delta) 0) as [L|L]; [discriminate|]. cbn [bind].
  set (s := sqrt (fst Delta)). intros E. apply Ok_inj in E. subst f. do 2 eexists. split; [reflexivity|].
  assert (HQ : forall z, transform M (Pt z) = Ok (Pt z) -> ((RtoC 2 * mc M * z - (ma M - md M)) * (RtoC 2 * mc M * z - (ma M - md M)))%C = Delta).
  { intros z K. apply fixed_iff in K; auto. apply Csub_0.
    transitivity (RtoC 4 * mc M * (mc M * (z * z) + (md M - ma M) * z - mb M))%C; [unfold Delta; rewrite R4, T2; cring|rewrite K; cring]. }
  assert (NR : (RtoC s * RtoC s)%C <> Delta).
  { intros K. apply HI. rewrite <- K. unC. ring. }
  split; intros K; apply HQ in K; apply NR; rewrite <- K; unfold from_complex_; rewrite T2; cfield; auto.
Qed.

(** there are fixed points all the same *)
Lemma fixed_points_exist M : mdet M <> C0 -> mc M <> C0 ->
  ((ma M - md M) * (ma M - md M) + RtoC 4 * mb M * mc M)%C <> C0 ->
  exists z w, z <> w /\ transform M (Pt z) = Ok (Pt z) /\ transform M (Pt w) = Ok (Pt w).
Proof.
  intros HD Hc HN. destruct h2 as (T2 & T2n & R4).
  destruct (csqrt_exists ((ma M - md M) * (ma M - md M) + RtoC 4 * mb M * mc M)%C) as [s Hs].
  assert (Hs0 : s <> C0) by (intros ->; apply HN; rewrite <- Hs; cring).
  exists ((ma M - md M + s) / (RtoC 2 * mc M))%C, ((ma M - md M - s) / (RtoC 2 * mc M))%C. split; [|split].
  - intros K. apply Hs0. apply (Cmul_cancel (C1 + C1)%C); auto.
    transitivity (RtoC 2 * mc M * ((ma M - md M + s) / (RtoC 2 * mc M) - (ma M - md M - s) / (RtoC 2 * mc M)))%C; [rewrite T2; cfield; auto|].
    rewrite K. cring.
  - apply fixed_iff; auto. apply (Cmul_cancel (RtoC 4 * mc M)%C); [apply Cmul_neq0; auto; apply RtoC_neq; lra|].
    transitivity (s * s - ((ma M - md M) * (ma M - md M) + RtoC 4 * mb M * mc M))%C; [rewrite R4, T2; cfield; auto|rewrite Hs; cring].
  - apply fixed_iff; auto. apply (Cmul_cancel (RtoC 4 * mc M)%C); [apply Cmul_neq0; auto; apply RtoC_neq; lra|].
    transitivity (s * s - ((ma M - md M) * (ma M - md M) + RtoC 4 * mb M * mc M))%C; [rewrite R4, T2; cfield; auto|rewrite Hs; cring].
Qed.
