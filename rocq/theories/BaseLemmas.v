(** * Basic lemmas about the vocabulary of [Base] (no model content). *)

From Coq Require Import Reals Lra Lia ZArith List Bool Field Psatz.
From Verif Require Import Base.
Import ListNotations.
Local Open Scope R_scope.

(** ** Booleans *)

Lemma ltb_true x y : ltb x y = true <-> x < y.
Proof. unfold ltb; destruct (Rlt_dec x y); split; intros; try discriminate; auto; contradiction. Qed.
Lemma ltb_false x y : ltb x y = false <-> y <= x.
Proof. unfold ltb; destruct (Rlt_dec x y); split; intros; try discriminate; auto; lra. Qed.
Lemma leb_true x y : leb x y = true <-> x <= y.
Proof. unfold leb; destruct (Rle_dec x y); split; intros; try discriminate; auto; contradiction. Qed.
Lemma leb_false x y : leb x y = false <-> y < x.
Proof. unfold leb; destruct (Rle_dec x y); split; intros; try discriminate; auto; lra. Qed.
Lemma eqb_true x y : eqb x y = true <-> x = y.
Proof. unfold eqb; destruct (Req_EM_T x y); split; intros; try discriminate; auto; contradiction. Qed.
Lemma eqb_false x y : eqb x y = false <-> x <> y.
Proof. unfold eqb; destruct (Req_EM_T x y); split; intros; try discriminate; auto; contradiction. Qed.

Lemma bool_iff (b : bool) (P : Prop) : (b = true <-> P) -> ~ P -> b = false.
Proof. destruct b; intros; auto. exfalso; tauto. Qed.

Lemma Ok_inj {A} (x y : A) : Ok x = Ok y -> x = y.
Proof. congruence. Qed.

Lemma bind_Ok {A B} (m : res A) (k : A -> res B) b :
  bind m k = Ok b -> exists a, m = Ok a /\ k a = Ok b.
Proof. destruct m as [a|e]; simpl; intros H; [exists a; auto | discriminate]. Qed.

Lemma pair_eq {A B} (a a' : A) (b b' : B) : a = a' -> b = b' -> (a, b) = (a', b').
Proof. congruence. Qed.

(** ** Squares and square roots *)

Lemma sqnn x : 0 <= x * x.
Proof. nra. Qed.
Lemma sqpos x : x <> 0 -> 0 < x * x.
Proof. nra. Qed.
Lemma sq0 x : x * x = 0 -> x = 0.
Proof. nra. Qed.

Lemma sum_sq_pos x y : (x, y) <> (0, 0) -> 0 < x * x + y * y.
Proof.
  intros H. destruct (Req_dec x 0) as [Hx|Hx]; destruct (Req_dec y 0) as [Hy|Hy]; subst.
  - exfalso; apply H; reflexivity.
  - assert (0 < y * y) by (apply Rsqr_pos_lt; auto). lra.
  - assert (0 < x * x) by (apply Rsqr_pos_lt; auto). lra.
  - assert (0 < y * y) by (apply Rsqr_pos_lt; auto).
    assert (0 < x * x) by (apply Rsqr_pos_lt; auto). lra.
Qed.

Lemma sum_sq_0 x y : x * x + y * y = 0 -> x = 0 /\ y = 0.
Proof. intros; split; nra. Qed.

Lemma sum_sq_nonneg x y : 0 <= x * x + y * y.
Proof. nra. Qed.

Lemma sqrt_sq x : 0 <= x -> sqrt x * sqrt x = x.
Proof. intros; apply sqrt_sqrt; auto. Qed.

Lemma sqrt_eq x y : 0 <= y -> y * y = x -> sqrt x = y.
Proof. intros Hy H. subst x. apply sqrt_square; auto. Qed.

Lemma sq_eq_abs x y : x * x = y * y -> Rabs x = Rabs y.
Proof. intros H. apply Rsqr_eq_abs_0. exact H. Qed.

Lemma sq_inj x y : 0 <= x -> 0 <= y -> x * x = y * y -> x = y.
Proof. intros Hx Hy H. apply sq_eq_abs in H. rewrite !Rabs_right in H; lra. Qed.

Lemma Rabs_sq x : Rabs x * Rabs x = x * x.
Proof. unfold Rabs; destruct (Rcase_abs x); ring. Qed.

(** ** Floor and modulo *)

Lemma floorR_spec x : floorR x <= x < floorR x + 1.
Proof. unfold floorR. destruct (base_Int_part x). lra. Qed.

Lemma floorR_unique x n : IZR n <= x < IZR n + 1 -> floorR x = IZR n.
Proof.
  intros [H1 H2]. unfold floorR. f_equal. destruct (base_Int_part x) as [H3 H4].
  assert (Int_part x < n + 1)%Z. { apply lt_IZR. rewrite plus_IZR. lra. }
  assert (n < Int_part x + 1)%Z. { apply lt_IZR. rewrite plus_IZR. lra. }
  lia.
Qed.

Lemma pymod_range x m : 0 < m -> 0 <= pymod x m < m.
Proof.
  intros Hm. unfold pymod. pose proof (floorR_spec (x / m)) as [H1 H2].
  assert (E : x = m * (x / m)) by (field; lra).
  set (q := x / m) in *. rewrite E. split; nra.
Qed.

Lemma pymod_eq x m : exists n : Z, pymod x m = x - IZR n * m.
Proof. exists (Int_part (x / m)). unfold pymod, floorR. ring. Qed.

Lemma pymod_unique x m r (n : Z) : 0 < m -> 0 <= r < m -> x = r + IZR n * m -> pymod x m = r.
Proof.
  intros Hm Hr E. unfold pymod.
  rewrite (floorR_unique (x / m) n).
  - rewrite E; ring.
  - assert (E2 : x / m = r / m + IZR n) by (rewrite E; field; lra).
    rewrite E2. assert (0 <= r / m). { apply Rmult_le_pos; [lra|]. left; apply Rinv_0_lt_compat; lra. }
    assert (r / m < 1). { apply (Rmult_lt_reg_r m); [lra|]. replace (r / m * m) with r by (field; lra). lra. }
    lra.
Qed.

Lemma pymod_add_period x m (n : Z) : 0 < m -> pymod (x + IZR n * m) m = pymod x m.
Proof.
  intros Hm. destruct (pymod_eq x m) as [k Hk].
  apply (pymod_unique _ m _ (k + n)); auto.
  - apply pymod_range; auto.
  - rewrite Hk, plus_IZR. ring.
Qed.

Lemma cos_period_Z x (n : Z) : cos (x + IZR n * (2 * PI)) = cos x.
Proof.
  destruct n as [|p|p].
  - f_equal; ring.
  - rewrite <- (cos_period x (Pos.to_nat p)). f_equal.
    rewrite <- (positive_nat_Z p) at 1. rewrite <- INR_IZR_INZ. ring.
  - rewrite <- (cos_period (x + IZR (Z.neg p) * (2 * PI)) (Pos.to_nat p)). f_equal.
    replace (Z.neg p) with (- Z.of_nat (Pos.to_nat p))%Z by (rewrite positive_nat_Z; reflexivity).
    rewrite opp_IZR, <- INR_IZR_INZ. ring.
Qed.

Lemma sin_period_Z x (n : Z) : sin (x + IZR n * (2 * PI)) = sin x.
Proof.
  destruct n as [|p|p].
  - f_equal; ring.
  - rewrite <- (sin_period x (Pos.to_nat p)). f_equal.
    rewrite <- (positive_nat_Z p) at 1. rewrite <- INR_IZR_INZ. ring.
  - rewrite <- (sin_period (x + IZR (Z.neg p) * (2 * PI)) (Pos.to_nat p)). f_equal.
    replace (Z.neg p) with (- Z.of_nat (Pos.to_nat p))%Z by (rewrite positive_nat_Z; reflexivity).
    rewrite opp_IZR, <- INR_IZR_INZ. ring.
Qed.

Lemma cos_pymod x : cos (pymod x (2 * PI)) = cos x.
Proof.
  destruct (pymod_eq x (2 * PI)) as [n Hn]. rewrite Hn.
  rewrite <- (cos_period_Z (x - IZR n * (2 * PI)) n). f_equal. ring.
Qed.

Lemma sin_pymod x : sin (pymod x (2 * PI)) = sin x.
Proof.
  destruct (pymod_eq x (2 * PI)) as [n Hn]. rewrite Hn.
  rewrite <- (sin_period_Z (x - IZR n * (2 * PI)) n). f_equal. ring.
Qed.

Lemma cs1 x : cos x * cos x + sin x * sin x = 1.
Proof. pose proof (sin2_cos2 x) as H; unfold Rsqr in H; lra. Qed.

(** ** atan2 *)

Lemma cos_atan_pos x : cos (atan x) = / sqrt (1 + x * x).
Proof. rewrite cos_atan. unfold Rsqr, Rdiv. rewrite Rmult_1_l. reflexivity. Qed.

Lemma sin_atan_eq x : sin (atan x) = x / sqrt (1 + x * x).
Proof. rewrite sin_atan. reflexivity. Qed.

Lemma sqrt_scale x y : 0 < x -> sqrt (1 + y / x * (y / x)) = sqrt (x * x + y * y) / x.
Proof.
  intros Hx. apply sqrt_eq.
  - apply Rmult_le_pos. apply sqrt_pos. left; apply Rinv_0_lt_compat; auto.
  - replace (sqrt (x * x + y * y) / x * (sqrt (x * x + y * y) / x))
      with ((sqrt (x * x + y * y) * sqrt (x * x + y * y)) / (x * x)) by (field; lra).
    rewrite sqrt_sqrt by nra. field; lra.
Qed.

Lemma cos_sin_atan2 y x : (x, y) <> (0, 0) ->
  cos (atan2 y x) = x / sqrt (x * x + y * y) /\
  sin (atan2 y x) = y / sqrt (x * x + y * y).
Proof.
  intros H. pose proof (sum_sq_pos x y H) as Hpos.
  pose proof (sqrt_lt_R0 _ Hpos) as Hs.
  unfold atan2. destruct (Rlt_dec 0 x) as [Hx|Hx].
  - rewrite cos_atan_pos, sin_atan_eq, (sqrt_scale x y Hx). split; field; lra.
  - destruct (Rlt_dec x 0) as [Hx'|Hx'].
    + assert (Hnx : 0 < - x) by lra.
      assert (E : sqrt (1 + y / x * (y / x)) = sqrt (x * x + y * y) / - x).
      { replace (y / x) with ((- y) / (- x)) by (field; lra).
        rewrite (sqrt_scale (- x) (- y) Hnx). do 2 f_equal. ring. }
      destruct (Rle_dec 0 y).
      * rewrite neg_cos, neg_sin, cos_atan_pos, sin_atan_eq, E. split; field; lra.
      * rewrite <- (cos_period _ 1), <- (sin_period _ 1).
        replace (atan (y / x) - PI + 2 * INR 1 * PI) with (atan (y / x) + PI) by (simpl; ring).
        rewrite neg_cos, neg_sin, cos_atan_pos, sin_atan_eq, E. split; field; lra.
    + assert (x = 0) by lra. subst x.
      replace (0 * 0 + y * y) with (y * y) in * by ring.
      destruct (Rlt_dec 0 y) as [Hy|Hy].
      * rewrite cos_PI2, sin_PI2, sqrt_square by lra. split; field; lra.
      * destruct (Rlt_dec y 0) as [Hy'|Hy'].
        -- replace (- PI / 2) with (- (PI / 2)) by field.
           rewrite cos_neg, sin_neg, cos_PI2, sin_PI2.
           replace (y * y) with ((- y) * (- y)) by ring.
           rewrite sqrt_square by lra. split; field; lra.
        -- exfalso; apply H. f_equal; lra.
Qed.

Lemma atan2_range y x : - PI < atan2 y x <= PI.
Proof.
  unfold atan2. pose proof PI_RGT_0 as HPI.
  destruct (Rlt_dec 0 x) as [Hx|Hx].
  - destruct (atan_bound (y / x)). lra.
  - destruct (Rlt_dec x 0) as [Hx'|Hx'].
    + destruct (atan_bound (y / x)) as [H1 H2].
      destruct (Rle_dec 0 y) as [Hy|Hy].
      * split; [lra|].
        assert (atan (y / x) <= 0).
        { rewrite <- atan_0. destruct (Req_dec y 0) as [->|Hy0].
          - unfold Rdiv; rewrite Rmult_0_l. lra.
          - left. apply atan_increasing. unfold Rdiv.
            pose proof (Rinv_lt_0_compat x Hx'). nra. }
        lra.
      * split; [|lra].
        assert (0 < atan (y / x)).
        { rewrite <- atan_0. apply atan_increasing. unfold Rdiv.
          replace (y * / x) with ((- y) * (- / x)) by ring.
          apply Rmult_lt_0_compat; [lra|]. pose proof (Rinv_lt_0_compat x Hx'); lra. }
        lra.
    + destruct (Rlt_dec 0 y); [lra|]. destruct (Rlt_dec y 0); lra.
Qed.

(** equality of angles from equality of cosine and sine *)
Lemma angle_eq_mod x y : cos x = cos y -> sin x = sin y -> exists n : Z, x = y + IZR n * (2 * PI).
Proof.
  intros Hc Hs.
  assert (H : cos (x - y) = 1).
  { rewrite cos_minus, Hc, Hs. apply cs1. }
  pose proof PI_RGT_0 as HPI.
  destruct (pymod_eq (x - y) (2 * PI)) as [n Hn].
  pose proof (pymod_range (x - y) (2 * PI) ltac:(lra)) as [H1 H2].
  pose proof (cos_pymod (x - y)) as H3. rewrite H in H3.
  set (r := pymod (x - y) (2 * PI)) in *.
  assert (r = 0).
  { destruct (Req_dec r 0); auto. exfalso.
    assert (cos r < 1); [|lra].
    assert (E : cos r = 1 - 2 * sin (r / 2) * sin (r / 2)).
    { replace r with (2 * (r / 2)) at 1 by field. apply cos_2a_sin. }
    assert (0 < sin (r / 2)) by (apply sin_gt_0; lra).
    nra. }
  exists n. lra.
Qed.

(** a unit vector is (cos t, sin t) *)
Lemma unit_angle x y : x * x + y * y = 1 -> cos (atan2 y x) = x /\ sin (atan2 y x) = y.
Proof.
  intros H. assert (Hn : (x, y) <> (0, 0)) by (intros E; inversion E; subst; lra).
  destruct (cos_sin_atan2 y x Hn) as [H1 H2]. rewrite H, sqrt_1 in H1, H2.
  split; lra.
Qed.

(** ** Vectors *)

Ltac unpt := unfold vadd, vsub, vscal, vopp in *; cbn [fst snd] in *.

(** ** Tolerances *)

Lemma sepsilon_pos : 0 < sepsilon_.
Proof. unfold sepsilon_; lra. Qed.

Lemma allclose1_refl x : allclose1 x x = true.
Proof. unfold allclose1. apply leb_true. rewrite Rminus_diag_eq, Rabs_R0 by auto.
       pose proof (Rabs_pos x); lra. Qed.

Lemma allclose_refl p : allclose p p = true.
Proof. unfold allclose. rewrite !allclose1_refl. reflexivity. Qed.

Lemma allclose_false_neq p q : allclose p q = false -> p <> q.
Proof. intros H E; subst; rewrite allclose_refl in H; discriminate. Qed.

Lemma isclose_refl x : isclose x x = true.
Proof. unfold isclose. apply leb_true. rewrite Rminus_diag_eq, Rabs_R0 by auto.
       pose proof (Rmax_l (Rabs x) (Rabs x)). pose proof (Rabs_pos x).
       apply Rmult_le_pos; lra. Qed.

Lemma isclose_sym x y : isclose x y = isclose y x.
Proof. unfold isclose. rewrite Rabs_minus_sym, Rmax_comm. reflexivity. Qed.

(** ** Complex numbers form a field *)

Lemma C_eq (z w : C) : fst z = fst w -> snd z = snd w -> z = w.
Proof. destruct z, w; simpl; congruence. Qed.

Definition Cmod2 (z : C) : R := fst z * fst z + snd z * snd z.

Lemma Cmod2_0 z : Cmod2 z = 0 <-> z = C0.
Proof.
  unfold Cmod2, C0; destruct z as [x y]; simpl; split; intros H.
  - apply sum_sq_0 in H. destruct H; subst; auto.
  - inversion H; subst; ring.
Qed.

Lemma Cmod2_pos z : z <> C0 -> 0 < Cmod2 z.
Proof. intros H. unfold Cmod2. apply sum_sq_pos. destruct z; exact H. Qed.

Lemma Cmod2_nonneg z : 0 <= Cmod2 z.
Proof. unfold Cmod2. nra. Qed.

Lemma C_ring : ring_theory C0 C1 Cadd Cmul Csub Copp (@eq C).
Proof.
  constructor; intros; repeat match goal with z : C |- _ => destruct z end;
  unfold C0, C1, Cadd, Cmul, Csub, Copp; simpl; f_equal; ring.
Qed.

Lemma C_field : field_theory C0 C1 Cadd Cmul Csub Copp Cdiv Cinv (@eq C).
Proof.
  constructor.
  - apply C_ring.
  - unfold C0, C1; intros H; inversion H; lra.
  - reflexivity.
  - intros z Hz. pose proof (Cmod2_pos z Hz) as H. destruct z as [x y].
    unfold Cmod2 in H; simpl in H.
    unfold Cinv, Cmul, C1; simpl. f_equal; field; lra.
Qed.

Add Field C_field_inst : C_field.

Lemma Ceqb_true z w : Ceqb z w = true <-> z = w.
Proof.
  unfold Ceqb. destruct z, w; simpl. rewrite andb_true_iff, !eqb_true. split.
  - intros [-> ->]; auto. - intros H; inversion H; auto.
Qed.

Lemma Ceqb_false z w : Ceqb z w = false <-> z <> w.
Proof. rewrite <- Ceqb_true. destruct (Ceqb z w); split; intros; try congruence; auto. Qed.

Lemma Cconj_add z w : Cconj (Cadd z w) = Cadd (Cconj z) (Cconj w).
Proof. unfold Cconj, Cadd; simpl; f_equal; ring. Qed.
Lemma Cconj_sub z w : Cconj (Csub z w) = Csub (Cconj z) (Cconj w).
Proof. unfold Cconj, Csub; simpl; f_equal; ring. Qed.
Lemma Cconj_mul z w : Cconj (Cmul z w) = Cmul (Cconj z) (Cconj w).
Proof. unfold Cconj, Cmul; simpl; f_equal; ring. Qed.
Lemma Cconj_opp z : Cconj (Copp z) = Copp (Cconj z).
Proof. reflexivity. Qed.
Lemma Cconj_conj z : Cconj (Cconj z) = z.
Proof. destruct z; unfold Cconj; simpl; f_equal; ring. Qed.
Lemma Cconj_0 z : Cconj z = C0 <-> z = C0.
Proof. destruct z as [x y]; unfold Cconj, C0; simpl; split; intros H; inversion H; f_equal; lra. Qed.
Lemma Cconj_inv z : Cconj (Cinv z) = Cinv (Cconj z).
Proof. unfold Cconj, Cinv; simpl. f_equal; unfold Rdiv; rewrite ?Rmult_opp_opp; ring. Qed.
Lemma Cconj_div z w : Cconj (Cdiv z w) = Cdiv (Cconj z) (Cconj w).
Proof. unfold Cdiv. rewrite Cconj_mul, Cconj_inv. reflexivity. Qed.
Lemma Cmul_conj z : Cmul z (Cconj z) = RtoC (Cmod2 z).
Proof. unfold Cmul, Cconj, RtoC, Cmod2; simpl; f_equal; ring. Qed.
Lemma Cmod2_mul z w : Cmod2 (Cmul z w) = Cmod2 z * Cmod2 w.
Proof. unfold Cmod2, Cmul; simpl; ring. Qed.
Lemma Cmod2_conj z : Cmod2 (Cconj z) = Cmod2 z.
Proof. unfold Cmod2, Cconj; simpl; ring. Qed.
Lemma Cmod2_inv z : z <> C0 -> Cmod2 (Cinv z) = / Cmod2 z.
Proof.
  intros H. pose proof (Cmod2_pos z H) as Hp. unfold Cmod2 in *. unfold Cinv; simpl. field. lra.
Qed.
Lemma Cmod2_div z w : w <> C0 -> Cmod2 (Cdiv z w) = Cmod2 z / Cmod2 w.
Proof. intros H. unfold Cdiv. rewrite Cmod2_mul, Cmod2_inv; auto. Qed.
Lemma Cmod2_opp z : Cmod2 (Copp z) = Cmod2 z.
Proof. unfold Cmod2, Copp; simpl; ring. Qed.
Lemma Cmul_0 z w : Cmul z w = C0 -> z = C0 \/ w = C0.
Proof.
  intros H. apply Cmod2_0 in H. rewrite Cmod2_mul in H.
  apply Rmult_integral in H. destruct H as [H|H]; apply Cmod2_0 in H; auto.
Qed.
Lemma Cmul_neq0 z w : z <> C0 -> w <> C0 -> Cmul z w <> C0.
Proof. intros Hz Hw H. apply Cmul_0 in H. tauto. Qed.
Lemma Cinv_neq0 z : z <> C0 -> Cinv z <> C0.
Proof.
  intros H E. assert (Cmul z (Cinv z) = C0) by (rewrite E; ring).
  assert (Cmul z (Cinv z) = C1) by (field; auto).
  rewrite H1 in H0. unfold C1, C0 in H0. inversion H0; lra.
Qed.
Lemma Cdiv_neq0 z w : z <> C0 -> w <> C0 -> Cdiv z w <> C0.
Proof. intros. apply Cmul_neq0; auto. apply Cinv_neq0; auto. Qed.
Lemma Csub_0 z w : Csub z w = C0 <-> z = w.
Proof. split; intros H. - replace z with (Cadd (Csub z w) w) by ring. rewrite H; ring.
       - subst; ring. Qed.
Lemma C_eq_dec (z w : C) : {z = w} + {z <> w}.
Proof. destruct (Ceqb z w) eqn:E; [left; apply Ceqb_true|right; apply Ceqb_false]; auto. Qed.
Lemma pt_eq_dec (p q : pt) : {p = q} + {p <> q}.
Proof. exact (C_eq_dec p q). Qed.

(** ** Evaluating comparisons of concrete numbers *)

Ltac rsolve := first [ lra | unfold Rmax in *; repeat destruct Rle_dec; split_Rabs; lra ].
Ltac evalb := repeat match goal with
  | |- context [ltb ?a ?b] => first [rewrite (proj2 (ltb_true a b)) by rsolve | rewrite (proj2 (ltb_false a b)) by rsolve]
  | |- context [leb ?a ?b] => first [rewrite (proj2 (leb_true a b)) by rsolve | rewrite (proj2 (leb_false a b)) by rsolve]
  | |- context [eqb ?a ?b] => first [rewrite (proj2 (eqb_true a b)) by rsolve | rewrite (proj2 (eqb_false a b)) by rsolve]
  end; cbn [negb andb orb].
Ltac evalclose := unfold allclose, allclose1, isclose; cbn [fst snd]; evalb; try reflexivity.
