(** * Proofs about the examples on Steiner chains: discs, balls and their images *)

From Coq Require Import Reals Lra Lia Psatz List Bool ZArith PeanoNat.
From Verif Require Import Base BaseLemmas Spec SpecLemmas SpecTriangle SpecGasket SpecApollonian SpecSteinerEx ModelInternal ModelLine ModelCircle ModelAffine ModelEllipse ModelTransfo
  ModelTriangle ModelInversion ModelApollonian ModelSteinerEx PLine PCircle PCircle2 PInvBase PAffine PEllipse PEllipse2 PEllipse4 PTriangle6 PSteiner PSteiner2 PGasket5 PCirc8 PSteinerEx1 PSteinerEx2.
Import ListNotations.
Local Open Scope R_scope.

(** ** discs and balls as regions *)
Definition cform (c : circle) : region pt := fun M => dist2 (cO c) M / (cr c * cr c).
Definition bform (c : circle) : region (pt * R) := fun P => (dist2 (cO c) (fst P) + snd P * snd P) / (cr c * cr c).

Lemma q_le r x : 0 < r -> (x / (r * r) <= 1 <-> x <= r * r).
Proof.
  intros H. assert (0 < r * r) by nra. split; intros K.
  - apply (Rmult_le_compat_r (r * r)) in K; [|lra]. unfold Rdiv in K. rewrite Rmult_assoc, Rinv_l in K by lra. lra.
  - apply (Rmult_le_reg_r (r * r)); auto. unfold Rdiv. rewrite Rmult_assoc, Rinv_l by lra. lra.
Qed.
Lemma q_lt r x : 0 < r -> (x / (r * r) < 1 <-> x < r * r).
Proof.
  intros H. assert (0 < r * r) by nra. split; intros K.
  - apply (Rmult_lt_compat_r (r * r)) in K; [|lra]. unfold Rdiv in K. rewrite Rmult_assoc, Rinv_l in K by lra. lra.
  - apply (Rmult_lt_reg_r (r * r)); auto. unfold Rdiv. rewrite Rmult_assoc, Rinv_l by lra. lra.
Qed.
Lemma q_eq r x : 0 < r -> (x / (r * r) = 1 <-> x = r * r).
Proof.
  intros H. assert (0 < r * r) by nra. split; intros K.
  - apply (f_equal (fun y => y * (r * r))) in K. unfold Rdiv in K. rewrite Rmult_assoc, Rinv_l in K by lra. lra.
  - rewrite K. field. lra.
Qed.
Lemma sq_dist_0 A B : dist2 A B <= 0 -> A = B.
Proof.
  intros H. apply dist_0. pose proof (dist_sq A B). pose proof (dist_nonneg A B). nra.
Qed.
Lemma dist2_pos A B : 0 <= dist2 A B.
Proof. rewrite <- dist_sq. pose proof (dist_nonneg A B). nra. Qed.

(** *** inside *)
Lemma ball_inside c0 c X z : 0 < cr c0 -> circle_inside c0 c -> dist2 (cO c) X + z * z <= cr c * cr c -> dist2 (cO c0) X + z * z <= cr c0 * cr c0.
Proof.
  intros P0 [P I] H. pose proof (disc_inner c c0 P I) as D. rewrite dist_sym in D. rewrite <- dist_sq in H |- *.
  pose proof (dist_triangle (cO c0) (cO c) X) as T. pose proof (dist_nonneg (cO c0) (cO c)). pose proof (dist_nonneg (cO c) X). pose proof (dist_nonneg (cO c0) X).
  set (a := dist (cO c) X) in *. set (d := dist (cO c0) (cO c)) in *. set (b := dist (cO c0) X) in *. clearbody a b d.
  assert (a <= cr c) by (apply Rsqr_incr_0_var; [unfold Rsqr; nra|lra]). assert (b * b <= (a + d) * (a + d)) by (apply Rmult_le_compat; lra).
  assert ((cr c + d) * (cr c + d) <= cr c0 * cr c0) by (apply Rmult_le_compat; lra). nra.
Qed.

(** *** tangent from inside *)
Definition in_point (c0 c : circle) : pt := vadd (cO c) (vscal (cr c / (cr c0 - cr c)) (vsub (cO c) (cO c0))).
Lemma in_point_spec c0 c : circle_touch_in c0 c -> dist2 (cO c) (in_point c0 c) = cr c * cr c /\ dist2 (cO c0) (in_point c0 c) = cr c0 * cr c0.
Proof.
  intros [[P L] T]. assert (E : dist2 (cO c0) (cO c) = (cr c0 - cr c) * (cr c0 - cr c)) by (rewrite <- dist_sq, T; ring).
  set (t := cr c / (cr c0 - cr c)). assert (Et : t * (cr c0 - cr c) = cr c) by (unfold t; field; lra).
  split.
  - transitivity (t * t * dist2 (cO c0) (cO c)); [unfold in_point; fold t; destruct (cO c), (cO c0); unspec; ring|]. rewrite E. rewrite <- Et at 3 4. ring.
  - transitivity ((1 + t) * (1 + t) * dist2 (cO c0) (cO c)); [unfold in_point; fold t; destruct (cO c), (cO c0); unspec; ring|]. rewrite E.
    replace (cr c0) with ((1 + t) * (cr c0 - cr c)) at 3 4 by lra. ring.
Qed.
Lemma in_point_unique c0 c X : circle_touch_in c0 c -> dist2 (cO c) X <= cr c * cr c -> dist2 (cO c0) X = cr c0 * cr c0 -> X = in_point c0 c.
Proof.
  intros [[P L] T] H K. symmetry. apply sq_dist_0.
  assert (E : dist2 (cO c0) (cO c) = (cr c0 - cr c) * (cr c0 - cr c)) by (rewrite <- dist_sq, T; ring).
  set (t := cr c / (cr c0 - cr c)). assert (Et : t * (cr c0 - cr c) = cr c) by (unfold t; field; lra). assert (Pt' : 0 < t) by (unfold t; apply Rdiv_lt_0_compat; lra).
  assert (Q : dist2 (in_point c0 c) X = (1 + t) * dist2 (cO c) X - t * dist2 (cO c0) X + t * (1 + t) * dist2 (cO c0) (cO c)).
  { unfold in_point; fold t; destruct (cO c), (cO c0), X; unspec; ring. }
  rewrite Q, E, K. assert (B : (1 + t) * dist2 (cO c) X <= (1 + t) * (cr c * cr c)) by (apply Rmult_le_compat_l; lra).
  assert (Z : (1 + t) * (cr c * cr c) - t * (cr c0 * cr c0) + t * (1 + t) * ((cr c0 - cr c) * (cr c0 - cr c)) = 0).
  { clearbody t. set (R0 := cr c0) in *. set (r := cr c) in *. clearbody R0 r. replace (t * (1 + t) * ((R0 - r) * (R0 - r))) with ((t * (R0 - r)) * ((1 + t) * (R0 - r))) by ring. rewrite Et.
    replace ((1 + t) * (R0 - r)) with R0 by lra. replace (t * (R0 * R0)) with (R0 * (t * (R0 - r) + t * r)) by ring. rewrite Et.
    replace ((1 + t) * (r * r)) with (r * r + r * (t * r)) by ring. replace (t * r) with (t * R0 - r) by lra. 
    replace (t * R0) with (r + t * r) by lra. assert (t * R0 = r + t * r) by lra. nra. }
  lra.
Qed.

(** *** tangent from outside *)
Definition out_point (c c' : circle) : pt := vadd (cO c) (vscal (cr c / (cr c + cr c')) (vsub (cO c') (cO c))).
Lemma out_point_spec c c' : 0 < cr c -> 0 < cr c' -> circles_touch c c' -> dist2 (cO c) (out_point c c') = cr c * cr c /\ dist2 (cO c') (out_point c c') = cr c' * cr c'.
Proof.
  intros P P' T. unfold circles_touch, ext_tangent in T.
  assert (E : dist2 (cO c) (cO c') = (cr c + cr c') * (cr c + cr c')) by (rewrite <- dist_sq, T; ring).
  set (t := cr c / (cr c + cr c')). assert (Et : t * (cr c + cr c') = cr c) by (unfold t; field; lra).
  split.
  - transitivity (t * t * dist2 (cO c) (cO c')); [unfold out_point; fold t; destruct (cO c), (cO c'); unspec; ring|]. rewrite E.
    transitivity ((t * (cr c + cr c')) * (t * (cr c + cr c'))); [ring|]. rewrite Et. auto.
  - transitivity ((1 - t) * (1 - t) * dist2 (cO c) (cO c')); [unfold out_point; fold t; destruct (cO c), (cO c'); unspec; ring|]. rewrite E.
    transitivity ((cr c + cr c' - t * (cr c + cr c')) * (cr c + cr c' - t * (cr c + cr c'))); [ring|]. rewrite Et. ring.
Qed.
Lemma out_point_unique c c' X : 0 < cr c -> 0 < cr c' -> circles_touch c c' -> dist2 (cO c) X <= cr c * cr c -> dist2 (cO c') X <= cr c' * cr c' -> X = out_point c c'.
Proof.
  intros P P' T H K. symmetry. apply sq_dist_0. unfold circles_touch, ext_tangent in T.
  assert (E : dist2 (cO c) (cO c') = (cr c + cr c') * (cr c + cr c')) by (rewrite <- dist_sq, T; ring).
  set (s := cr c + cr c') in *. assert (Ps : 0 < s) by (unfold s; lra).
  assert (Q : s * dist2 (out_point c c') X = cr c' * dist2 (cO c) X + cr c * dist2 (cO c') X - cr c * cr c' / s * dist2 (cO c) (cO c')).
  { unfold out_point. fold s. destruct (cO c) as [x y], (cO c') as [x' y'], X as [u v]. replace (cr c') with (s - cr c) by (unfold s; ring). clearbody s. unspec. field. lra. }
  assert (Z : cr c * cr c' / s * dist2 (cO c) (cO c') = cr c * cr c' * s) by (rewrite E; field; lra). rewrite Z in Q. unfold s in Q at 2.
  assert (cr c' * dist2 (cO c) X <= cr c' * (cr c * cr c)) by (apply Rmult_le_compat_l; lra). assert (cr c * dist2 (cO c') X <= cr c * (cr c' * cr c')) by (apply Rmult_le_compat_l; lra).
  assert (s * dist2 (out_point c c') X <= 0) by nra. pose proof (dist2_pos (out_point c c') X). nra.
Qed.

(** *** disjoint *)
Lemma apart_disc c c' X : 0 < cr c -> 0 < cr c' -> not_overlapping c c' -> dist2 (cO c) X < cr c * cr c -> dist2 (cO c') X < cr c' * cr c' -> False.
Proof.
  intros P P' H K K'. unfold not_overlapping in H. rewrite <- dist_sq in K, K'. pose proof (dist_triangle (cO c) X (cO c')) as T. rewrite (dist_sym X) in T.
  pose proof (dist_nonneg (cO c) X). pose proof (dist_nonneg (cO c') X).
  assert (dist (cO c) X < cr c) by (apply Rsqr_incrst_0; unfold Rsqr; lra). assert (dist (cO c') X < cr c') by (apply Rsqr_incrst_0; unfold Rsqr; lra). lra.
Qed.

(** ** images *)
Section Image.
Context {X Y : Type}.
Variable F : X -> Y.
Hypothesis Fs : forall y, exists x, F x = y.
Variables (f0 f : region X) (g0 g : region Y).
Hypothesis H0 : forall x, g0 (F x) = f0 x.
Hypothesis H : forall x, g (F x) = f x.

Lemma im_inside : reg_inside f0 f -> reg_inside g0 g.
Proof. intros K y Hy. destruct (Fs y) as (x & <-). rewrite H0. rewrite H in Hy. auto. Qed.
Lemma im_apart : reg_apart f0 f -> reg_apart g0 g.
Proof. intros K y Hy. destruct (Fs y) as (x & <-). rewrite H0, H in Hy. apply (K x); auto. Qed.
Lemma im_touch : reg_touch f0 f -> reg_touch g0 g.
Proof.
  intros (x & A & B & U). exists (F x). rewrite H0, H. split; auto. split; auto. intros y Hy Hy'. destruct (Fs y) as (x' & <-). rewrite H0 in Hy. rewrite H in Hy'. f_equal. auto.
Qed.
Lemma im_touch_in : reg_touch_in f0 f -> reg_touch_in g0 g.
Proof.
  intros [I (x & A & B & U)]. split; [apply im_inside; auto|]. exists (F x). rewrite H0, H. split; auto. split; auto. intros y Hy Hy'. destruct (Fs y) as (x' & <-). rewrite H0 in Hy'. rewrite H in Hy. f_equal. auto.
Qed.
End Image.

(** ** regions of the circles *)
Definition good (c : circle) := 0 < cr c.
Lemma disc_inside_r c0 c : good c0 -> circle_inside c0 c -> reg_inside (cform c0) (cform c).
Proof.
  intros P0 I M. unfold cform. pose proof (proj1 I) as P. rewrite !q_le by auto. intros K. pose proof (ball_inside c0 c M 0 P0 I). lra.
Qed.
Lemma ball_inside_r c0 c : good c0 -> circle_inside c0 c -> reg_inside (bform c0) (bform c).
Proof.
  intros P0 I [M z]. unfold bform. pose proof (proj1 I) as P. rewrite !q_le by auto. cbn [fst snd]. apply ball_inside; auto.
Qed.
Lemma touch_inside c0 c : good c0 -> circle_touch_in c0 c -> circle_inside c0 c.
Proof. intros P0 [[P L] T]. split; auto. intros M K. unfold in_disk in *. pose proof (dist_triangle (cO c0) (cO c) M). lra. Qed.
Lemma disc_touch_in_r c0 c : good c0 -> circle_touch_in c0 c -> reg_touch_in (cform c0) (cform c).
Proof.
  intros P0 T. pose proof (touch_inside c0 c P0 T) as I. split; [apply disc_inside_r; auto|]. pose proof (proj1 I) as P. destruct (in_point_spec c0 c T) as [E1 E2].
  exists (in_point c0 c). unfold cform. rewrite !q_eq by auto. split; auto. split; auto. intros M'. rewrite q_le, q_eq by auto. apply in_point_unique; auto.
Qed.
Lemma ball_touch_in_r c0 c : good c0 -> circle_touch_in c0 c -> reg_touch_in (bform c0) (bform c).
Proof.
  intros P0 T. pose proof (touch_inside c0 c P0 T) as I. split; [apply ball_inside_r; auto|]. pose proof (proj1 I) as P. destruct (in_point_spec c0 c T) as [E1 E2].
  exists (in_point c0 c, 0). unfold bform. rewrite !q_eq by auto. cbn [fst snd]. split; [lra|]. split; [lra|]. intros [M z]. rewrite q_le, q_eq by auto. cbn [fst snd]. intros K K'.
  assert (Ez : z = 0).
  { pose proof T as [[_ L] Td]. rewrite <- dist_sq in K, K'. pose proof (dist_triangle (cO c0) (cO c) M) as Tr. rewrite Td in Tr. pose proof (dist_nonneg (cO c) M). pose proof (dist_nonneg (cO c0) M).
    set (a := dist (cO c) M) in *. set (b := dist (cO c0) M) in *. set (r := cr c) in *. set (R0 := cr c0) in *. clearbody a b r R0. clear - K K' Tr H H0 L P P0. unfold good in P0.
    assert (b * b <= (R0 - r + a) * (R0 - r + a)) by (apply Rmult_le_compat; lra).
    assert (r <= a). { assert ((R0 - r) * r <= (R0 - r) * a) by nra. nra. }
    assert (r * r <= a * a) by (apply Rmult_le_compat; lra). assert (z * z = 0) by nra. apply Rmult_integral in H4. tauto. }
  subst z. f_equal. apply in_point_unique; auto; lra.
Qed.
Lemma disc_touch_r c c' : good c -> good c' -> circles_touch c c' -> reg_touch (cform c) (cform c').
Proof.
  intros P P' T. destruct (out_point_spec c c' P P' T) as [E1 E2]. exists (out_point c c'). unfold cform. rewrite !q_eq by auto. split; auto. split; auto.
  intros M. rewrite !q_le by auto. apply out_point_unique; auto.
Qed.
Lemma ball_touch_r c c' : good c -> good c' -> circles_touch c c' -> reg_touch (bform c) (bform c').
Proof.
  intros P P' T. destruct (out_point_spec c c' P P' T) as [E1 E2]. exists (out_point c c', 0). unfold bform. rewrite !q_eq by auto. cbn [fst snd]. split; [lra|]. split; [lra|].
  intros [M z]. rewrite !q_le by auto. cbn [fst snd]. intros K K'. assert (M = out_point c c') by (apply out_point_unique; auto; nra). subst M.
  assert (z * z = 0) by nra. apply Rmult_integral in H. f_equal. tauto.
Qed.
Lemma disc_apart_r c c' : good c -> good c' -> not_overlapping c c' -> reg_apart (cform c) (cform c').
Proof. intros P P' H M. unfold cform. rewrite !q_lt by auto. intros [K K']. exact (apart_disc c c' M P P' H K K'). Qed.
Lemma ball_apart_r c c' : good c -> good c' -> not_overlapping c c' -> reg_apart (bform c) (bform c').
Proof. intros P P' H [M z]. unfold bform. rewrite !q_lt by auto. cbn [fst snd]. intros [K K']. apply (apart_disc c c' M P P' H); nra. Qed.

(** ** chains carried by a relation *)
Lemma F2_FOP {A B} (P : A -> B -> Prop) (Q : A -> A -> Prop) (Q' : B -> B -> Prop) l l' :
  (forall x x' y y', P x y -> P x' y' -> Q x x' -> Q' y y') -> Forall2 P l l' -> ForallOrdPairs Q l -> ForallOrdPairs Q' l'.
Proof.
  intros H F. induction F as [|x y l l' Hx F IH]; intros D; constructor; inversion D as [|? ? D1 D2]; subst; auto.
  apply Forall_forall. intros y' Hy'. destruct (Forall2_In_l _ _ _ _ F Hy') as (x' & I & Hx'). rewrite Forall_forall in D1. eauto.
Qed.
Section Carry.
Context {B : Type}.
Variable P : circle -> B -> Prop.
Variables (inside touch_in touch apart : B -> B -> Prop).
Hypothesis Hg : forall c y, P c y -> good c.
Hypothesis Hi : forall c0 c y0 y, P c0 y0 -> P c y -> circle_inside c0 c -> inside y0 y.
Hypothesis Hti : forall c0 c y0 y, P c0 y0 -> P c y -> circle_touch_in c0 c -> touch_in y0 y.
Hypothesis Ht : forall c0 c y0 y, P c0 y0 -> P c y -> circles_touch c0 c -> touch y0 y.
Hypothesis Ha : forall c0 c y0 y, P c0 y0 -> P c y -> not_overlapping c0 c -> apart y0 y.

Lemma carry_chain c0 y0 n chain inner chain' inner' : (0 < n)%nat -> P c0 y0 -> Forall2 P chain chain' -> P inner inner' ->
  circle_chain c0 n chain inner -> closed_chain inside touch_in touch apart y0 n chain' inner'.
Proof.
  intros Hn P0 F Pi (L & I & A & T & D). split; [rewrite <- (Forall2_len _ _ _ F); auto|]. split; [eapply Hi; eauto|]. split; [|split].
  - intros y Hy. destruct (Forall2_In_l _ _ _ _ F Hy) as (c & Hc & K). destruct (A c Hc). split; [eapply Hti|eapply Ht]; eauto.
  - intros i Hi'. assert (S i mod n < n)%nat by (apply Nat.mod_upper_bound; lia). eapply Ht; [| |apply T; exact Hi']; apply (Forall2_nth _ _ _ F); lia.
  - eapply F2_FOP; [|apply Forall2_app; [exact F|constructor; [exact Pi|constructor]]|exact D]. intros; eapply Ha; eauto.
Qed.

Lemma F2_app_inv chain inner l : Forall2 P (chain ++ [inner]) l -> exists chain' inner', l = chain' ++ [inner'] /\ Forall2 P chain chain' /\ P inner inner'.
Proof. intros F. apply Forall2_app_inv_l in F. destruct F as (a & b & F1 & F2 & ->). inversion F2 as [|? ? ? ? K K']; subst. inversion K'; subst. exists a, y. auto. Qed.

Lemma F2_concat' l l' : Forall2 (Forall2 P) l l' -> Forall2 P (concat l) (concat l').
Proof. induction 1; cbn [concat]; [constructor|apply Forall2_app; auto]. Qed.

Lemma carry_nested c0 y0 n n' blue red blue' red' : (0 < n)%nat -> (0 < n')%nat -> P c0 y0 -> Forall2 P blue blue' -> Forall2 (Forall2 P) red red' ->
  circle_nested c0 n n' blue red -> nested_chains_in inside touch_in touch apart y0 n n' blue' red'.
Proof.
  intros Hn Hn' P0 Fb Fr (chain & inner & -> & C & L & N & A & D). destruct (F2_app_inv _ _ _ Fb) as (chain' & inner' & -> & Fc & Pi).
  exists chain', inner'. split; auto. split; [eapply carry_chain; eauto|]. split; [rewrite <- (Forall2_len _ _ _ Fr); auto|]. split; [|split].
  - intros k Hk. destruct (N k Hk) as (a & b & E & K). pose proof (Forall2_nth _ _ _ Fr [] [] k ltac:(lia)) as Q. rewrite E in Q. apply F2_app_inv in Q. destruct Q as (a' & b' & E' & Q1 & Q2).
    exists a', b'. split; auto. eapply carry_chain; [auto| |exact Q1|exact Q2|exact K]. apply (Forall2_nth _ _ _ Fc). destruct C as (Lc & _). lia.
  - apply F2_concat' in Fr. apply Forall_forall. intros y Hy. destruct (Forall2_In_l _ _ _ _ Fr Hy) as (c & Hc & K). rewrite Forall_forall in A. eapply Hi; eauto.
  - eapply F2_FOP; [|apply Forall2_app; [apply F2_concat'; exact Fr|constructor; [exact Pi|constructor]]|exact D]. intros; eapply Ha; eauto.
Qed.
End Carry.
