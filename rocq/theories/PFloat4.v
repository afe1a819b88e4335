(** * Binary64: dot products, distances, approximate equality *)

From Coq Require Import Reals ZArith Lia Lra Psatz Bool SpecFloat.
From Verif Require Import SpecF64 Base ModelFloat PFloat PFloat2 PFloat3.
Local Open Scope R_scope.

Lemma abs_le x a : - a <= x <= a -> Rabs x <= a.
Proof. intros H. apply Rabs_le. lra. Qed.

Lemma abs_close z r e : Rabs (z - r) <= e -> Rabs r - e <= Rabs z <= Rabs r + e.
Proof.
  intros H. pose proof (Rabs_triang_inv z r). pose proof (Rabs_triang_inv r z). rewrite (Rabs_minus_sym r z) in *. lra.
Qed.

Lemma u_bounds : 0 < u64 <= / 9000000000000000.
Proof. rewrite u64_val. lra. Qed.

(** The error of a rounding as an absolute bound, for a number of known magnitude. *)
Lemma rounds_err_le z r b : rounds z r -> Rabs r <= b -> Rabs (SF2R z - r) <= u64 * b + eta64.
Proof. intros H L. pose proof (rounds_err z r H). pose proof u_bounds. nra. Qed.

Lemma eta_le_bp : 100 * eta64 <= bp 0.
Proof. rewrite bp_0. pose proof eta64_small. lra. Qed.

Lemma bp1023 : bp 1023 = 2 * bp 1022. Proof. rewrite <- bp_succ. reflexivity. Qed.
Lemma bp1022_big : 1024 <= bp 1022. Proof. apply Rle_trans with (bp 10); [rewrite bp_IZR by lia; cbn; lra|apply bp_le; lia]. Qed.

(** ** Sum of two products *)

Lemma sum2_ok m a b c d : fin a -> fin b -> fin c -> fin d -> Rabs (SF2R a * SF2R b) + Rabs (SF2R c * SF2R d) <= bp 1022 ->
  let z := sum2 m a b c d in
  fin z /\
  Rabs (SF2R z - (SF2R a * SF2R b + SF2R c * SF2R d)) <= 21 / 10 * u64 * (Rabs (SF2R a * SF2R b) + Rabs (SF2R c * SF2R d)) + 3 * eta64 /\
  (0 <= SF2R a * SF2R b -> 0 <= SF2R c * SF2R d -> 0 <= SF2R z).
Proof.
  intros Fa Fb Fc Fd L z. pose proof u_bounds as U. pose proof eta64_small as Et. pose proof bp1023 as B1. pose proof bp1022_big as B2.
  set (p := SF2R a * SF2R b) in *. set (q := SF2R c * SF2R d) in *. pose proof (Rabs_pos p) as Pp. pose proof (Rabs_pos q) as Pq.
  assert (Mp : rounds (SF64mul a b) p) by (apply fmul; auto; fold p; lra). assert (Mq : rounds (SF64mul c d) q) by (apply fmul; auto; fold q; lra).
  pose proof (rounds_err _ _ Mp) as Ep. pose proof (rounds_err _ _ Mq) as Eq. set (p' := SF64mul a b) in *. set (q' := SF64mul c d) in *.
  assert (Ap : Rabs (SF2R p') <= Rabs p + (u64 * Rabs p + eta64)) by (replace (SF2R p') with (p + (SF2R p' - p)) by ring; eapply Rle_trans; [apply Rabs_triang|lra]).
  assert (Aq : Rabs (SF2R q') <= Rabs q + (u64 * Rabs q + eta64)) by (replace (SF2R q') with (q + (SF2R q' - q)) by ring; eapply Rle_trans; [apply Rabs_triang|lra]).
  assert (Uu : u64 * u64 <= / 10 * u64) by nra.
  assert (Up : u64 * (u64 * Rabs p) <= / 10 * u64 * Rabs p) by (rewrite <- Rmult_assoc; apply Rmult_le_compat_r; auto).
  assert (Uq : u64 * (u64 * Rabs q) <= / 10 * u64 * Rabs q) by (rewrite <- Rmult_assoc; apply Rmult_le_compat_r; auto).
  assert (Ue : u64 * eta64 <= / 10 * eta64) by nra.
  assert (Up1 : u64 * Rabs p <= / 10 * Rabs p) by nra. assert (Uq1 : u64 * Rabs q <= / 10 * Rabs q) by nra.
  assert (Up0 : 0 <= u64 * Rabs p) by (apply Rmult_le_pos; lra). assert (Uq0 : 0 <= u64 * Rabs q) by (apply Rmult_le_pos; lra).
  destruct m; unfold z; cbn [sum2]; fold p' q'.
  - (* separate *)
    assert (S : Rabs (SF2R p' + SF2R q') <= bp 1023) by (eapply Rle_trans; [apply Rabs_triang|lra]).
    destruct (fadd p' q' (rounds_fin _ _ Mp) (rounds_fin _ _ Mq) S) as (R1 & R2). split; [apply (rounds_fin _ _ R1)|]. split.
    + set (s := SF2R (SF64add p' q')) in *.
      assert (R2' : Rabs (s - (SF2R p' + SF2R q')) <= u64 * (Rabs p + (u64 * Rabs p + eta64) + (Rabs q + (u64 * Rabs q + eta64)))).
      { eapply Rle_trans; [apply R2|]. apply Rmult_le_compat_l; [lra|]. eapply Rle_trans; [apply Rabs_triang|lra]. }
      replace (s - (p + q)) with ((s - (SF2R p' + SF2R q')) + ((SF2R p' - p) + (SF2R q' - q))) by ring.
      eapply Rle_trans; [apply Rabs_triang|]. pose proof (Rabs_triang (SF2R p' - p) (SF2R q' - q)). lra.
    + intros Hp Hq. pose proof (rounds_nonneg _ _ Mp Hp). pose proof (rounds_nonneg _ _ Mq Hq). apply (rounds_nonneg _ _ R1). lra.
  - (* fma of a b and the rounded c d *)
    assert (S : Rabs (p + SF2R q') <= bp 1023) by (eapply Rle_trans; [apply Rabs_triang|lra]).
    pose proof (ffma a b q' Fa Fb (rounds_fin _ _ Mq) S) as R1. split; [apply (rounds_fin _ _ R1)|]. split.
    + pose proof (rounds_err _ _ R1) as R2. fold p in R2. set (s := SF2R (SF64fma a b q')) in *.
      assert (R2' : Rabs (s - (p + SF2R q')) <= u64 * (Rabs p + (Rabs q + (u64 * Rabs q + eta64))) + eta64).
      { eapply Rle_trans; [apply R2|]. apply Rplus_le_compat_r. apply Rmult_le_compat_l; [lra|]. eapply Rle_trans; [apply Rabs_triang|lra]. }
      replace (s - (p + q)) with ((s - (p + SF2R q')) + (SF2R q' - q)) by ring. eapply Rle_trans; [apply Rabs_triang|]. lra.
    + intros Hp Hq. pose proof (rounds_nonneg _ _ Mq Hq). apply (rounds_nonneg _ _ R1). fold p. lra.
  - assert (S : Rabs (q + SF2R p') <= bp 1023) by (eapply Rle_trans; [apply Rabs_triang|lra]).
    pose proof (ffma c d p' Fc Fd (rounds_fin _ _ Mp) S) as R1. split; [apply (rounds_fin _ _ R1)|]. split.
    + pose proof (rounds_err _ _ R1) as R2. fold q in R2. set (s := SF2R (SF64fma c d p')) in *.
      assert (R2' : Rabs (s - (q + SF2R p')) <= u64 * (Rabs q + (Rabs p + (u64 * Rabs p + eta64))) + eta64).
      { eapply Rle_trans; [apply R2|]. apply Rplus_le_compat_r. apply Rmult_le_compat_l; [lra|]. eapply Rle_trans; [apply Rabs_triang|lra]. }
      replace (s - (p + q)) with ((s - (q + SF2R p')) + (SF2R p' - p)) by ring. eapply Rle_trans; [apply Rabs_triang|]. lra.
    + intros Hp Hq. pose proof (rounds_nonneg _ _ Mp Hp). apply (rounds_nonneg _ _ R1). fold q. lra.
Qed.

(** ** Squared distances *)

Lemma sub_coord x y b : fin x -> fin y -> Rabs (SF2R x) <= b -> Rabs (SF2R y) <= b -> b <= bp 1022 ->
  let z := SF64sub x y in
  fin z /\ Rabs (SF2R z - (SF2R x - SF2R y)) <= u64 * Rabs (SF2R x - SF2R y) /\ Rabs (SF2R x - SF2R y) <= 2 * b /\ Rabs (SF2R z) <= 3 * b.
Proof.
  intros Fx Fy Bx By Hb z. pose proof u_bounds as U. pose proof bp1023 as B1.
  assert (D : Rabs (SF2R x - SF2R y) <= 2 * b) by (unfold Rminus; eapply Rle_trans; [apply Rabs_triang|rewrite Rabs_Ropp; lra]).
  destruct (fsub x y Fx Fy ltac:(lra)) as (R1 & R2). split; [apply (rounds_fin _ _ R1)|]. split; [exact R2|]. split; [exact D|].
  fold z in R2. replace (SF2R z) with ((SF2R x - SF2R y) + (SF2R z - (SF2R x - SF2R y))) by ring. eapply Rle_trans; [apply Rabs_triang|]. pose proof (Rabs_pos (SF2R x - SF2R y)). nra.
Qed.

Lemma sq_err z x : Rabs (z - x) <= u64 * Rabs x -> Rabs (z * z - x * x) <= 201 / 100 * u64 * (x * x).
Proof.
  intros H. pose proof u_bounds as U. replace (z * z - x * x) with ((z - x) * ((z - x) + 2 * x)) by ring. rewrite Rabs_mult.
  assert (A : Rabs (z - x + 2 * x) <= 201 / 100 * Rabs x). { eapply Rle_trans; [apply Rabs_triang|]. rewrite Rabs_mult, (Rabs_right 2) by lra. pose proof (Rabs_pos x). nra. }
  replace (x * x) with (Rabs x * Rabs x) by (rewrite <- Rabs_mult, Rabs_right; nra).
  apply Rle_trans with (u64 * Rabs x * (201 / 100 * Rabs x)); [|lra]. apply Rmult_le_compat; auto using Rabs_pos.
Qed.

Lemma bp500 b : b = bp 500 -> 1 <= b /\ 72 * (b * b) <= bp 1022.
Proof.
  intros ->. split; [rewrite <- bp_0; apply bp_le; lia|]. rewrite <- bp_add. apply Rle_trans with (bp 7 * bp (500 + 500)); [|rewrite <- bp_add; apply bp_le; lia].
  apply Rmult_le_compat_r; [left; apply bp_pos|]. rewrite bp_IZR by lia. cbn. lra.
Qed.

Lemma abs_sq x b : Rabs x <= b -> x * x <= b * b.
Proof. intros H. apply abs_bounds in H. nra. Qed.

Lemma dist2_ok m P Q : fin2 P -> fin2 Q -> within (bp 500) P -> within (bp 500) Q ->
  let v := fp_sub P Q in let z := dot64 m v v in
  fin z /\ 0 <= SF2R z /\ Rabs (SF2R z - d2R P Q) <= 43 / 10 * u64 * d2R P Q + 3 * eta64 /\ 0 <= d2R P Q <= 8 * (bp 500 * bp 500).
Proof.
  intros (F1 & F2) (G1 & G2) (W1 & W2) (X1 & X2) v z. pose proof u_bounds as U. pose proof eta64_small as Et. destruct (bp500 _ eq_refl) as (B0 & B1). set (b := bp 500) in *.
  destruct (sub_coord _ _ b F1 G1 W1 X1 ltac:(nra)) as (Fx & Ex & Bx & Cx). destruct (sub_coord _ _ b F2 G2 W2 X2 ltac:(nra)) as (Fy & Ey & By & Cy).
  set (x := SF2R (fst P) - SF2R (fst Q)) in *. set (y := SF2R (snd P) - SF2R (snd Q)) in *.
  set (vx := SF64sub (fst P) (fst Q)) in *. set (vy := SF64sub (snd P) (snd Q)) in *.
  pose proof (abs_sq _ _ Bx). pose proof (abs_sq _ _ By). pose proof (abs_sq _ _ Cx). pose proof (abs_sq _ _ Cy).
  assert (N1 : Rabs (SF2R vx * SF2R vx) = SF2R vx * SF2R vx) by (apply Rabs_right; nra). assert (N2 : Rabs (SF2R vy * SF2R vy) = SF2R vy * SF2R vy) by (apply Rabs_right; nra).
  destruct (sum2_ok m vx vx vy vy Fx Fx Fy Fy) as (S1 & S2 & S3). { rewrite N1, N2. nra. }
  unfold z, dot64, v, fp_sub, fp_map2. cbn [fst snd]. fold vx vy. rewrite N1, N2 in S2.
  set (s := SF2R (sum2 m vx vx vy vy)) in *. split; [exact S1|]. split; [apply S3; nra|].
  pose proof (sq_err _ _ Ex) as Qx. pose proof (sq_err _ _ Ey) as Qy. unfold d2R. fold x y. clearbody s.
  set (X := x * x) in *. set (Y := y * y) in *. set (VX := SF2R vx * SF2R vx) in *. set (VY := SF2R vy * SF2R vy) in *.
  assert (0 <= X) by (unfold X; nra). assert (0 <= Y) by (unfold Y; nra). apply abs_bounds in Qx, Qy, S2.
  split; [|split; lra]. apply abs_le.
  assert (K1 : u64 * X <= / 1000 * X) by (apply Rmult_le_compat_r; lra). assert (K2 : u64 * Y <= / 1000 * Y) by (apply Rmult_le_compat_r; lra).
  assert (V1 : VX <= 101 / 100 * X) by lra. assert (V2 : VY <= 101 / 100 * Y) by lra.
  assert (K3 : u64 * (VX + VY) <= u64 * (101 / 100 * (X + Y))) by (apply Rmult_le_compat_l; lra).
  assert (0 <= u64 * (X + Y)) by nra. lra.
Qed.

(** ** [isclose], [approx_equal_] *)

Lemma npow : bp 1023 = 2 * bp 1022 /\ 1024 <= bp 1022. Proof. split; [apply bp1023|apply bp1022_big]. Qed.

Lemma isclose_ok a b : fin a -> fin b -> Rabs (SF2R a) <= bp 1021 -> Rabs (SF2R b) <= bp 1021 ->
  (isclose64 a b = true -> Rabs (SF2R a - SF2R b) <= 1000000001 / 1000000000000000000 * Rmax (Rabs (SF2R a)) (Rabs (SF2R b)) + 2 * eta64) /\
  (Rabs (SF2R a - SF2R b) <= 999999999 / 1000000000000000000 * Rmax (Rabs (SF2R a)) (Rabs (SF2R b)) - 2 * eta64 -> isclose64 a b = true).
Proof.
  intros Fa Fb Ba Bb. pose proof u_bounds as U. pose proof eta64_small as Et. destruct npow as (N1 & N2).
  assert (N3 : bp 1022 = 2 * bp 1021) by (rewrite <- bp_succ; reflexivity).
  destruct (sub_coord b a _ Fb Fa Bb Ba ltac:(lra)) as (Fd & Ed & Bd & _). destruct (fabs _ Fd) as (Fd' & Vd).
  assert (T := val_f1em9). set (t := SF2R f1em9) in *.
  assert (Tb : Rabs (t * SF2R b) <= bp 1023) by (rewrite Rabs_mult, (Rabs_right t) by lra; pose proof (Rabs_pos (SF2R b)); nra).
  assert (Ta : Rabs (t * SF2R a) <= bp 1023) by (rewrite Rabs_mult, (Rabs_right t) by lra; pose proof (Rabs_pos (SF2R a)); nra).
  pose proof (fmul _ _ fin_f1em9 Fb Tb) as Mb. pose proof (fmul _ _ fin_f1em9 Fa Ta) as Ma. fold t in Ma, Mb.
  pose proof (rounds_err _ _ Mb) as Eb. pose proof (rounds_err _ _ Ma) as Ea.
  destruct (fabs _ (rounds_fin _ _ Mb)) as (Fb' & Vb). destruct (fabs _ (rounds_fin _ _ Ma)) as (Fa' & Va).
  rewrite Rabs_mult, (Rabs_right t) in Eb, Ea by lra.
  set (A := Rabs (SF2R a)) in *. set (B := Rabs (SF2R b)) in *. set (D := Rabs (SF2R b - SF2R a)) in *.
  assert (PA : 0 <= A) by apply Rabs_pos. assert (PB : 0 <= B) by apply Rabs_pos. assert (PD : 0 <= D) by apply Rabs_pos.
  assert (ED : Rabs (SF2R a - SF2R b) = D) by (apply Rabs_minus_sym). rewrite ED.
  (* bounds of the computed quantities *)
  set (d := SF2R (SFabs (SF64sub b a))) in *. set (tb := SF2R (SFabs (SF64mul f1em9 b))) in *. set (ta := SF2R (SFabs (SF64mul f1em9 a))) in *.
  assert (Hd : D - u64 * D <= d <= D + u64 * D).
  { rewrite Vd. apply abs_close. exact Ed. }
  assert (Hm : forall x X, Rabs (SF2R (SF64mul f1em9 x) - t * SF2R x) <= u64 * (t * X) + eta64 -> X = Rabs (SF2R x) ->
     t * X - (u64 * (t * X) + eta64) <= Rabs (SF2R (SF64mul f1em9 x)) <= t * X + (u64 * (t * X) + eta64)).
  { intros x X E ->. apply abs_close in E. rewrite Rabs_mult, (Rabs_right t) in E by lra. exact E. }
  assert (Hb : t * B - (u64 * (t * B) + eta64) <= tb <= t * B + (u64 * (t * B) + eta64)) by (rewrite Vb; apply Hm; auto).
  assert (Ha : t * A - (u64 * (t * A) + eta64) <= ta <= t * A + (u64 * (t * A) + eta64)) by (rewrite Va; apply Hm; auto).
  assert (TA : (/ 1000000000 - / 10000000000000000000000) * A <= t * A <= (/ 1000000000 + / 10000000000000000000000) * A) by (split; apply Rmult_le_compat_r; lra).
  assert (TB : (/ 1000000000 - / 10000000000000000000000) * B <= t * B <= (/ 1000000000 + / 10000000000000000000000) * B) by (split; apply Rmult_le_compat_r; lra).
  assert (UA : 0 <= u64 * (t * A) <= / 9000000000000000 * (t * A)) by (split; [apply Rmult_le_pos; [lra|apply Rmult_le_pos; lra]|apply Rmult_le_compat_r; [apply Rmult_le_pos; lra|lra]]).
  assert (UB : 0 <= u64 * (t * B) <= / 9000000000000000 * (t * B)) by (split; [apply Rmult_le_pos; [lra|apply Rmult_le_pos; lra]|apply Rmult_le_compat_r; [apply Rmult_le_pos; lra|lra]]).
  assert (UD : 0 <= u64 * D <= / 9000000000000000 * D) by (split; [apply Rmult_le_pos; lra|apply Rmult_le_compat_r; lra]).
  pose proof (Rmax_l A B) as ML. pose proof (Rmax_r A B) as MR.
  assert (Is : isclose64 a b = true <-> (SF2R a = SF2R b \/ d <= tb \/ d <= ta \/ d <= 0)).
  { unfold isclose64. destruct (SFeqb a b) eqn:Eab.
    - apply (feq a b Fa Fb) in Eab. tauto.
    - assert (Nab : SF2R a <> SF2R b) by (intros K; apply (feq a b Fa Fb) in K; congruence).
      assert (Simp : is_inf64 a || is_inf64 b = false) by (destruct Fa as (_ & Fa2), Fb as (_ & Fb2); destruct a; try discriminate; destruct b; try discriminate; reflexivity).
      rewrite Simp. cbv zeta. rewrite !orb_true_iff, (fle _ _ Fd' Fb'), (fle _ _ Fd' Fa'), (fle _ _ Fd' fin_f0), val_f0. fold d ta tb. tauto. }
  clear Hm Vd Va Vb Ea Eb Ed. clearbody d ta tb. split.
  - intros H. apply Is in H. destruct H as [H|[H|[H|H]]]; [|lra..]. assert (D = 0) by (unfold D; rewrite H; replace (SF2R b - SF2R b) with 0 by ring; apply Rabs_R0). lra.
  - intros H. apply Is. unfold Rmax in H. destruct (Rle_dec A B) as [L|L]; [right; left|right; right; left]; lra.
Qed.

(** [approx_equal_] decides |a - b| <= 1e-9 (1 + max a b) up to a relative change of the tolerance of 1e-6. *)
Lemma approx_equal_ok a b : fin a -> fin b -> 0 <= SF2R a <= bp 1020 -> 0 <= SF2R b <= bp 1020 ->
  (approx_equal64 a b = true -> Rabs (SF2R a - SF2R b) <= 1000001 / 1000000000000000 * (1 + Rmax (SF2R a) (SF2R b))) /\
  (Rabs (SF2R a - SF2R b) <= 999999 / 1000000000000000 * (1 + Rmax (SF2R a) (SF2R b)) -> approx_equal64 a b = true).
Proof.
  intros Fa Fb Ba Bb. pose proof u_bounds as U. pose proof eta64_small as Et. destruct npow as (N1 & N2).
  assert (N3 : bp 1022 = 2 * bp 1021) by (rewrite <- bp_succ; reflexivity). assert (N4 : bp 1021 = 2 * bp 1020) by (rewrite <- bp_succ; reflexivity).
  set (A := SF2R a) in *. set (B := SF2R b) in *.
  assert (AA : Rabs A = A) by (apply Rabs_right; lra). assert (AB : Rabs B = B) by (apply Rabs_right; lra).
  assert (P1 : forall x, fin x -> 0 <= SF2R x <= bp 1020 -> fin (SF64add x f1) /\ SF2R x + 1 - u64 * (SF2R x + 1) <= SF2R (SF64add x f1) <= SF2R x + 1 + u64 * (SF2R x + 1)).
  { intros x Fx Bx. destruct (fadd x f1 Fx fin_f1) as (R1 & R2). { rewrite val_f1, Rabs_right by lra. lra. }
    rewrite val_f1 in *. rewrite (Rabs_right (SF2R x + 1)) in R2 by lra. apply abs_bounds in R2. split; [apply (rounds_fin _ _ R1)|lra]. }
  destruct (P1 a Fa Ba) as (Fa1 & Ea1). destruct (P1 b Fb Bb) as (Fb1 & Eb1). fold A in Ea1. fold B in Eb1.
  set (A1 := SF2R (SF64add a f1)) in *. set (B1 := SF2R (SF64add b f1)) in *.
  assert (UA : 0 <= u64 * (A + 1) <= / 9000000000000000 * (A + 1)) by (split; [apply Rmult_le_pos; lra|apply Rmult_le_compat_r; lra]).
  assert (UB : 0 <= u64 * (B + 1) <= / 9000000000000000 * (B + 1)) by (split; [apply Rmult_le_pos; lra|apply Rmult_le_compat_r; lra]).
  assert (AA1 : Rabs A1 = A1) by (apply Rabs_right; lra). assert (AB1 : Rabs B1 = B1) by (apply Rabs_right; lra).
  destruct (isclose_ok a b Fa Fb) as (S1 & _); [fold A; rewrite AA; lra|fold B; rewrite AB; lra|].
  destruct (isclose_ok _ _ Fa1 Fb1) as (S2 & S3); [fold A1; rewrite AA1; lra|fold B1; rewrite AB1; lra|].
  fold A B in S1. fold A1 B1 in S2, S3. rewrite AA, AB in S1. rewrite AA1, AB1 in S2, S3.
  unfold approx_equal64. rewrite orb_true_iff. pose proof (Rmax_l A B) as ML. pose proof (Rmax_r A B) as MR. split.
  - intros [H|H].
    + specialize (S1 H). lra.
    + specialize (S2 H). apply abs_bounds in S2. apply abs_le. assert (Rmax A1 B1 <= Rmax A B + 1 + / 9000000000000000 * (Rmax A B + 1)) by (apply Rmax_lub; lra). lra.
  - intros H. right. apply S3. apply abs_bounds in H. apply abs_le. pose proof (Rmax_l A1 B1). pose proof (Rmax_r A1 B1).
    unfold Rmax in H. destruct (Rle_dec A B); lra.
Qed.
