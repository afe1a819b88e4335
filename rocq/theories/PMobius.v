(** * Möbius transformations: action on points, composition, inverse, powers. *)

From Coq Require Import Reals Lra Lia Psatz List Bool ZArith.
From Verif Require Import Base BaseLemmas Spec SpecLemmas SpecMobius ModelInternal ModelLine ModelCircle ModelInversion ModelMobius.
Import ListNotations.
Local Open Scope R_scope.

Lemma C1_neq_0 : C1 <> C0.
Proof. unfold C1, C0. intros E; injection E; lra. Qed.

Ltac cring := match goal with |- ?a = ?b => change (@eq C a b) end; first [ring | symmetry; ring].
Ltac cfield := match goal with |- ?a = ?b => change (@eq C a b) end; first [field | symmetry; field].

Lemma Cmul_cancel (k x y : C) : k <> C0 -> (k * x = k * y)%C -> x = y.
Proof.
  intros Hk E. assert (H : (k * (x - y))%C = C0) by (replace (k * (x - y))%C with (k * x - k * y)%C by cring; rewrite E; cring).
  apply Cmul_0 in H. destruct H as [H|H]; [contradiction|]. apply Csub_0; auto.
Qed.

Lemma transform_Ok M P Q : mdet M <> C0 -> (transform M P = Ok Q <-> mob_image (ma M) (mb M) (mc M) (md M) P Q).
Proof.
  intros HD. destruct M as [a b c d]. unfold mdet in HD. cbn [ma mb mc md] in *. unfold transform, mob_image, from_complex_, complex_.
  cbn [ma mb mc md].
  destruct P as [z|]; cbn [hom fst snd].
  - destruct (Ceqb c C0) eqn:Ec; [apply Ceqb_true in Ec|apply Ceqb_false in Ec]; cbn [negb andb].
    + (* c = 0 *) subst c. assert (Ha : a <> C0) by (intros ->; apply HD; cring). assert (Hd : d <> C0) by (intros ->; apply HD; cring).
      unfold npc_div. replace (C0 * z + d)%C with d by cring. rewrite (proj2 (Ceqb_false d C0)) by auto. cbn [bind].
      split.
      * intros E. apply Ok_inj in E. subst Q. exists d. cbn [hom fst snd]. split; [auto|]. split; cfield; auto.
      * intros (k & Hk & E1 & E2). destruct Q as [w|]; cbn [hom fst snd] in *.
        -- assert (k = d) by (transitivity (k * C1)%C; [cring|rewrite <- E2; cring]). subst k. do 2 f_equal.
           apply (Cmul_cancel d); auto. replace (d * ((a * z + b) / d))%C with (a * z + b)%C by (cfield; auto).
           rewrite <- E1. cring.
        -- exfalso. apply Hd. transitivity (k * C0)%C; [rewrite <- E2|]; cring.
    + destruct (Ceqb z (- d / c)%C) eqn:Ez; [apply Ceqb_true in Ez|apply Ceqb_false in Ez].
      * split.
        -- intros E. apply Ok_inj in E. subst Q z. exists (- (a * d - c * b) / c)%C. cbn [hom fst snd]. split.
           ++ apply Cdiv_neq0; auto. intros K. apply HD. transitivity (- C0)%C; [rewrite <- K|]; cring.
           ++ split; cfield; auto.
        -- intros (k & Hk & E1 & E2). destruct Q as [w|]; auto. exfalso. apply Hk. cbn [hom fst snd] in E2.
           transitivity (k * C1)%C; [cring|]. rewrite <- E2. subst z. cfield; auto.
      * assert (Hz : (c * z + d)%C <> C0).
        { intros K. apply Ez. apply (Cmul_cancel c); auto. replace (c * (- d / c))%C with (- d)%C by (cfield; auto).
          transitivity (C0 - d)%C; [rewrite <- K|]; cring. }
        unfold npc_div. rewrite (proj2 (Ceqb_false _ C0)) by auto. cbn [bind]. split.
        -- intros E. apply Ok_inj in E. subst Q. exists (c * z + d)%C. cbn [hom fst snd]. split; [auto|]. split; cfield; auto.
        -- intros (k & Hk & E1 & E2). destruct Q as [w|]; cbn [hom fst snd] in *.
           ++ assert (k = c * z + d)%C by (transitivity (k * C1)%C; [cring|rewrite <- E2; cring]). subst k. do 2 f_equal.
              apply (Cmul_cancel (c * z + d)%C); auto. rewrite <- E1. cfield; auto.
           ++ exfalso. apply Hz. transitivity (k * C0)%C; [rewrite <- E2|]; cring.
  - destruct (Ceqb c C0) eqn:Ec; [apply Ceqb_true in Ec|apply Ceqb_false in Ec].
    + subst c. assert (Ha : a <> C0) by (intros ->; apply HD; cring). split.
      * intros E. apply Ok_inj in E. subst Q. exists a. cbn [hom fst snd]. split; [auto|]. split; cring.
      * intros (k & Hk & E1 & E2). destruct Q as [w|]; auto. exfalso. apply Hk. cbn [hom fst snd] in E2.
        transitivity (k * C1)%C; [cring|rewrite <- E2; cring].
    + split.
      * intros E. apply Ok_inj in E. subst Q. exists c. cbn [hom fst snd]. split; [auto|]. split; cfield; auto.
      * intros (k & Hk & E1 & E2). destruct Q as [w|]; cbn [hom fst snd] in *.
        -- assert (k = c) by (transitivity (k * C1)%C; [cring|rewrite <- E2; cring]). subst k. do 2 f_equal.
           apply (Cmul_cancel c); auto. replace (c * (a / c))%C with a by (cfield; auto). rewrite <- E1. cring.
        -- exfalso. apply Ec. transitivity (k * C0)%C; [rewrite <- E2|]; cring.
Qed.

Lemma transform_total M P : mdet M <> C0 -> exists Q, transform M P = Ok Q.
Proof.
  intros HD. destruct M as [a b c d]. unfold mdet in HD. unfold transform. cbn [ma mb mc md] in *. destruct P as [z|].
  - destruct (negb (Ceqb c C0) && Ceqb (complex_ z) (- d / c)%C) eqn:E; eauto. unfold npc_div.
    destruct (Ceqb (c * complex_ z + d)%C C0) eqn:E2; cbn [bind]; eauto. exfalso. apply Ceqb_true in E2.
    apply andb_false_iff in E. destruct E as [E|E].
    + apply negb_false_iff, Ceqb_true in E. subst c. apply HD.
      assert (d = C0) by (rewrite <- E2; cring). subst d. cring.
    + destruct (C_eq_dec c C0) as [K|K].
      * subst c. apply HD. assert (d = C0) by (rewrite <- E2; cring). subst d. cring.
      * apply Ceqb_false in E. apply E. apply (Cmul_cancel c); auto.
        transitivity (c * complex_ z + d - d)%C; [cring|]. rewrite E2. cfield; auto.
  - destruct (Ceqb c C0); eauto.
Qed.

(** a multiple of the coordinates of one point determines it *)
Lemma hom_inj P Q j k : j <> C0 -> k <> C0 -> (j * fst (hom P) = k * fst (hom Q))%C -> (j * snd (hom P) = k * snd (hom Q))%C -> P = Q.
Proof.
  intros Hj Hk E1 E2. destruct P as [z|], Q as [w|]; cbn [hom fst snd] in *; auto.
  - assert (j = k) by (transitivity (j * C1)%C; [cring|rewrite E2; cring]). subst. f_equal. apply (Cmul_cancel k); auto.
  - exfalso. apply Hj. transitivity (j * C1)%C; [cring|rewrite E2; cring].
  - exfalso. apply Hk. transitivity (k * C1)%C; [cring|rewrite <- E2; cring].
Qed.

Lemma mdet_matmul A B : mdet (matmul A B) = (mdet A * mdet B)%C.
Proof. unfold mdet, matmul. cbn [ma mb mc md]. cring. Qed.

Lemma mdet_inverse A : mdet (inverse A) = mdet A.
Proof. unfold mdet, inverse. cbn [ma mb mc md]. cring. Qed.

Lemma mob_image_mul A B P Q S : mob_image (ma A) (mb A) (mc A) (md A) P Q -> mob_image (ma B) (mb B) (mc B) (md B) Q S ->
  let M := matmul B A in mob_image (ma M) (mb M) (mc M) (md M) P S.
Proof.
  intros (k & Hk & E1 & E2) (j & Hj & F1 & F2) M. exists (k * j)%C. split; [apply Cmul_neq0; auto|].
  unfold M, matmul; cbn [ma mb mc md]. split.
  - transitivity (ma B * (ma A * fst (hom P) + mb A * snd (hom P)) + mb B * (mc A * fst (hom P) + md A * snd (hom P)))%C; [cring|].
    rewrite E1, E2. transitivity (k * (ma B * fst (hom Q) + mb B * snd (hom Q)))%C; [cring|]. rewrite F1. cring.
  - transitivity (mc B * (ma A * fst (hom P) + mb A * snd (hom P)) + md B * (mc A * fst (hom P) + md A * snd (hom P)))%C; [cring|].
    rewrite E1, E2. transitivity (k * (mc B * fst (hom Q) + md B * snd (hom Q)))%C; [cring|]. rewrite F2. cring.
Qed.

Lemma transform_matmul A B P : mdet A <> C0 -> mdet B <> C0 ->
  transform (matmul B A) P = let! Q := transform A P in transform B Q.
Proof.
  intros HA HB. destruct (transform_total A P HA) as [Q E]. rewrite E. cbn [bind].
  destruct (transform_total B Q HB) as [S F]. rewrite F. apply transform_Ok.
  - rewrite mdet_matmul. apply Cmul_neq0; auto.
  - apply transform_Ok in E, F; auto. apply (mob_image_mul A B P Q S); auto.
Qed.

Lemma transform_compose M0 M1 left P : mdet M0 <> C0 -> mdet M1 <> C0 ->
  transform (compose M0 M1 left) P =
  if left then let! Q := transform M0 P in transform M1 Q else let! Q := transform M1 P in transform M0 Q.
Proof. intros. unfold compose. destruct left; apply transform_matmul; auto. Qed.

Lemma transform_id P : transform (mdiag C1 C1) P = Ok P.
Proof.
  apply transform_Ok.
  - unfold mdet, mdiag; cbn [ma mb mc md]. replace (C1 * C1 - C0 * C0)%C with C1 by cring. apply C1_neq_0.
  - exists C1. split; [apply C1_neq_0|]. unfold mdiag; cbn [ma mb mc md]. split; cring.
Qed.

Lemma transform_inverse M P Q : mdet M <> C0 -> (transform M P = Ok Q <-> transform (inverse M) Q = Ok P).
Proof.
  assert (H : forall M P Q, mdet M <> C0 -> transform M P = Ok Q -> transform (inverse M) Q = Ok P).
  { intros M' P' Q' HD E. apply transform_Ok in E; auto. destruct E as (k & Hk & E1 & E2).
    apply transform_Ok; [rewrite mdet_inverse; auto|]. exists (mdet M' / k)%C. split; [apply Cdiv_neq0; auto|].
    unfold inverse, mdet; cbn [ma mb mc md].
    assert (F1 : fst (hom Q') = ((ma M' * fst (hom P') + mb M' * snd (hom P')) / k)%C) by (rewrite E1; cfield; auto).
    assert (F2 : snd (hom Q') = ((mc M' * fst (hom P') + md M' * snd (hom P')) / k)%C) by (rewrite E2; cfield; auto).
    rewrite F1, F2. split; cfield; auto. }
  intros HD. split; [apply H; auto|]. intros E. apply H in E; [|rewrite mdet_inverse; auto].
  replace (inverse (inverse M)) with M in E; auto. destruct M as [a b c d]. unfold inverse; cbn [ma mb mc md].
  f_equal; cring.
Qed.

Lemma transform_inverse_round M P : mdet M <> C0 ->
  (let! Q := transform M P in transform (inverse M) Q) = Ok P /\ (let! Q := transform (inverse M) P in transform M Q) = Ok P.
Proof.
  intros HD. split.
  - destruct (transform_total M P HD) as [Q E]. rewrite E. cbn [bind]. apply (transform_inverse M P Q HD); auto.
  - destruct (transform_total (inverse M) P) as [Q E]; [rewrite mdet_inverse; auto|]. rewrite E. cbn [bind]. apply (transform_inverse M Q P HD); auto.
Qed.

Lemma transform_inj M P P' Q : mdet M <> C0 -> transform M P = Ok Q -> transform M P' = Ok Q -> P = P'.
Proof.
  intros HD E E'. apply transform_inverse in E, E'; auto. rewrite E in E'. apply Ok_inj in E'. auto.
Qed.

(** ** Lists *)

Lemma mdet_fold Ms : forall M, mdet M <> C0 -> Forall (fun M => mdet M <> C0) Ms ->
  mdet (fold_left (fun acc M => compose acc M true) Ms M) <> C0.
Proof.
  induction Ms as [|M1 Ms IH]; intros M HM HF; cbn [fold_left]; auto. inversion HF; subst. apply IH; auto.
  unfold compose. rewrite mdet_matmul. apply Cmul_neq0; auto.
Qed.

Lemma transform_fold Ms : forall M P, mdet M <> C0 -> Forall (fun M => mdet M <> C0) Ms ->
  transform (fold_left (fun acc M => compose acc M true) Ms M) P = let! Q := transform M P in chainM transform Ms Q.
Proof.
  induction Ms as [|M1 Ms IH]; intros M P HM HF; cbn [fold_left chainM].
  - destruct (transform M P); auto.
  - inversion HF; subst. rewrite IH; auto.
    + rewrite transform_compose by auto. cbn [bind]. destruct (transform M P); auto.
    + unfold compose. rewrite mdet_matmul. apply Cmul_neq0; auto.
Qed.

Lemma transform_list Ms P : Forall (fun M => mdet M <> C0) Ms ->
  transform (fold_left (fun acc M => compose acc M true) Ms (mdiag C1 C1)) P = chainM transform Ms P.
Proof.
  intros HF. rewrite transform_fold; auto.
  - rewrite transform_id. reflexivity.
  - unfold mdet, mdiag; cbn [ma mb mc md]. replace (C1 * C1 - C0 * C0)%C with C1 by cring. apply C1_neq_0.
Qed.

(** ** Powers *)

Lemma mdet_power M n : mdet M <> C0 -> mdet (matrix_power M n) <> C0.
Proof.
  intros HD. induction n as [|n IH]; cbn [matrix_power].
  - unfold mdet, mdiag; cbn [ma mb mc md]. replace (C1 * C1 - C0 * C0)%C with C1 by cring. apply C1_neq_0.
  - rewrite mdet_matmul. apply Cmul_neq0; auto.
Qed.

Lemma transform_power M n : forall P, mdet M <> C0 -> transform (matrix_power M n) P = iterM (transform M) n P.
Proof.
  induction n as [|n IH]; intros P HD; cbn [matrix_power iterM].
  - apply transform_id.
  - rewrite transform_matmul by (auto using mdet_power). destruct (transform M P); cbn [bind]; auto.
Qed.

Lemma py_int_IZR k : py_int (IZR k) = k.
Proof.
  unfold py_int. assert (H : forall n, Int_part (IZR n) = n).
  { intros n. unfold Int_part. rewrite <- (up_tech (IZR n) n); [lia|lra|rewrite plus_IZR; lra]. }
  destruct (leb 0 (IZR k)); rewrite ?H; auto. rewrite <- opp_IZR, H. lia.
Qed.

Lemma power_integer M k : exists M', power M (IZR k) = Ok M' /\
  (mdet M <> C0 -> mdet M' <> C0 /\
    forall P, transform M' P = if (k <? 0)%Z then iterM (transform (inverse M)) (Z.to_nat (- k)) P else iterM (transform M) (Z.to_nat k) P).
Proof.
  unfold power. rewrite py_int_IZR. rewrite (proj2 (eqb_true _ _)) by auto. cbn [negb].
  destruct (k <? 0)%Z; eexists; (split; [reflexivity|]); intros HD; (split; [apply mdet_power; rewrite ?mdet_inverse; auto|]);
    intros P; apply transform_power; rewrite ?mdet_inverse; auto.
Qed.

Lemma power_raise M k : (power M k = Raise ValueError <-> ~ exists n, k = IZR n) /\ (forall e, power M k = Raise e -> e = ValueError).
Proof.
  unfold power. destruct (eqb (IZR (py_int k)) k) eqn:E; cbn [negb].
  - apply eqb_true in E. split.
    + split; intros H.
      * destruct (py_int k <? 0)%Z; discriminate.
      * exfalso. apply H. eauto.
    + intros e. destruct (py_int k <? 0)%Z; discriminate.
  - apply eqb_false in E. split; [split; auto|].
    + intros _ [n ->]. apply E. rewrite py_int_IZR. auto.
    + intros e He. congruence.
Qed.

(** the laws of exponents, as transformations *)
Lemma iterM_add {A} (f : A -> res A) n m x : iterM f (n + m) x = let! y := iterM f n x in iterM f m y.
Proof.
  revert x. induction n as [|n IH]; intros x; cbn [Nat.add iterM bind]; auto.
  destruct (f x); cbn [bind]; auto.
Qed.

Lemma iter_back (f g : ept -> res ept) : (forall P Q, f P = Ok Q -> g Q = Ok P) ->
  forall n P Q, iterM f n P = Ok Q -> iterM g n Q = Ok P.
Proof.
  intros H. induction n as [|n IH]; intros P Q E.
  - cbn [iterM] in *. apply Ok_inj in E. subst; auto.
  - cbn [iterM] in E. apply bind_Ok in E. destruct E as (S & E1 & E2).
    replace (Datatypes.S n) with (n + 1)%nat by lia. rewrite iterM_add, (IH _ _ E2). cbn [bind iterM].
    rewrite (H _ _ E1). reflexivity.
Qed.

Lemma iterM_total M n : mdet M <> C0 -> forall P, exists Q, iterM (transform M) n P = Ok Q.
Proof.
  intros HD. induction n as [|n IH]; intros P; cbn [iterM]; eauto.
  destruct (transform_total M P HD) as [Q E]. rewrite E. cbn [bind]. auto.
Qed.

(** [zpow M k]: the k-th iterate for k in Z *)
Definition ziter (M : mobius) (k : Z) (P : ept) : res ept :=
  if (k <? 0)%Z then iterM (transform (inverse M)) (Z.to_nat (- k)) P else iterM (transform M) (Z.to_nat k) P.

Lemma ziter_succ M k P : mdet M <> C0 -> ziter M (k + 1) P = let! Q := ziter M k P in transform M Q.
Proof.
  intros HD. unfold ziter. destruct (k <? 0)%Z eqn:Ek; [apply Z.ltb_lt in Ek|apply Z.ltb_ge in Ek].
  - assert (HI : mdet (inverse M) <> C0) by (rewrite mdet_inverse; auto).
    destruct (iterM_total (inverse M) (Z.to_nat (- (k + 1))) HI P) as [Q EQ].
    replace (Z.to_nat (- k)) with (Z.to_nat (- (k + 1)) + 1)%nat by lia. rewrite iterM_add, EQ. cbn [bind iterM].
    destruct (transform_total (inverse M) Q HI) as [S ES]. rewrite ES. cbn [bind].
    apply transform_inverse in ES; auto.
    rewrite ES. destruct (k + 1 <? 0)%Z eqn:Ek1; auto.
    apply Z.ltb_ge in Ek1. assert (k = -1)%Z by lia. subst k. cbn in EQ. cbn. auto.
  - destruct (k + 1 <? 0)%Z eqn:Ek1; [apply Z.ltb_lt in Ek1; lia|].
    replace (Z.to_nat (k + 1)) with (Z.to_nat k + 1)%nat by lia. rewrite iterM_add.
    destruct (iterM (transform M) (Z.to_nat k) P); cbn [bind iterM]; auto. destruct (transform M a); auto.
Qed.

Lemma ziter_add M j k P : mdet M <> C0 -> ziter M (j + k) P = let! Q := ziter M j P in ziter M k Q.
Proof.
  intros HD. assert (HT : forall k P, exists Q, ziter M k P = Ok Q).
  { intros k0 P0. unfold ziter. destruct (k0 <? 0)%Z; apply iterM_total; rewrite ?mdet_inverse; auto. }
  revert k. apply Z.bi_induction.
  - intros x y H. unfold Z.eq in H. subst x. tauto.
  - rewrite Z.add_0_r. destruct (HT j P) as [Q E]. rewrite E. reflexivity.
  - intros k. replace (j + Z.succ k)%Z with (j + k + 1)%Z by lia. replace (Z.succ k) with (k + 1)%Z by lia.
    rewrite ziter_succ by auto. destruct (HT j P) as [Q E]. rewrite E. cbn [bind]. rewrite ziter_succ by auto.
    destruct (HT k Q) as [S ES]. rewrite ES. split.
    + intros ->. reflexivity.
    + destruct (HT (j + k)%Z P) as [S' ES']. rewrite ES'. cbn [bind]. intros H.
      destruct (transform_total M S HD) as [U EU]. rewrite EU in H. f_equal. apply (transform_inj M S' S U); auto.
Qed.

Lemma power_add M j k Mj Mk Mjk P : mdet M <> C0 -> power M (IZR j) = Ok Mj -> power M (IZR k) = Ok Mk -> power M (IZR (j + k)) = Ok Mjk ->
  transform Mjk P = let! Q := transform Mj P in transform Mk Q.
Proof.
  intros HD Ej Ek Ejk.
  destruct (power_integer M j) as (Mj' & Ej' & Hj). destruct (power_integer M k) as (Mk' & Ek' & Hk). destruct (power_integer M (j + k)) as (Ml' & El' & Hl).
  rewrite Ej in Ej'. rewrite Ek in Ek'. rewrite Ejk in El'. apply Ok_inj in Ej', Ek', El'. subst.
  destruct (Hj HD) as [_ Hj']. destruct (Hk HD) as [_ Hk']. destruct (Hl HD) as [_ Hl'].
  rewrite Hl', Hj'. fold (ziter M (j + k) P). fold (ziter M j P). rewrite ziter_add by auto.
  destruct (ziter M j P); cbn [bind]; auto. rewrite Hk'. reflexivity.
Qed.
