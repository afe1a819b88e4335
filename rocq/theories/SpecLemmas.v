(** * Lemmas about the specification (no model content). *)

From Coq Require Import Reals Lra Psatz List.
From Verif Require Import Base BaseLemmas Spec.
Local Open Scope R_scope.

Ltac unspec := unfold orthogonal, dist2, at_line, midpoint in *; unfold sdot, scross in *; unpt.
Ltac destruct_pts := repeat match goal with p : pt |- _ => destruct p as [? ?] end.

Lemma pt_neq (A B : pt) : A <> B -> 0 < (fst B - fst A) * (fst B - fst A) + (snd B - snd A) * (snd B - snd A).
Proof.
  intros H. apply sum_sq_pos. intros E. inversion E. apply H. destruct A, B; simpl in *; f_equal; lra.
Qed.

Lemma on_line_cross A B M : A <> B ->
  (on_line A B M <-> scross (vsub B A) (vsub M A) = 0).
Proof.
  intros H. pose proof (pt_neq A B H) as Hp. split.
  - intros [t ->]. unspec. ring.
  - intros E. exists (sdot (vsub B A) (vsub M A) / sdot (vsub B A) (vsub B A)).
    destruct A as [a1 a2], B as [b1 b2], M as [m1 m2]. unspec.
    assert (Hn : (b1 - a1) * (b1 - a1) + (b2 - a2) * (b2 - a2) <> 0) by lra.
    apply pair_eq.
    + apply (Rmult_eq_reg_l ((b1 - a1) * (b1 - a1) + (b2 - a2) * (b2 - a2))); auto.
      transitivity (a1 * ((b1 - a1) * (b1 - a1) + (b2 - a2) * (b2 - a2))
        + ((b1 - a1) * (m1 - a1) + (b2 - a2) * (m2 - a2)) * (b1 - a1)); [|field; auto]. 
      assert ((b2 - a2) * ((b1 - a1) * (m2 - a2)) = (b2 - a2) * ((b2 - a2) * (m1 - a1))) by (f_equal; lra). lra.
    + apply (Rmult_eq_reg_l ((b1 - a1) * (b1 - a1) + (b2 - a2) * (b2 - a2))); auto.
      transitivity (a2 * ((b1 - a1) * (b1 - a1) + (b2 - a2) * (b2 - a2))
        + ((b1 - a1) * (m1 - a1) + (b2 - a2) * (m2 - a2)) * (b2 - a2)); [|field; auto]. 
      assert ((b1 - a1) * ((b1 - a1) * (m2 - a2)) = (b1 - a1) * ((b2 - a2) * (m1 - a1))) by (f_equal; lra). lra.
Qed.

Lemma on_line_A A B : on_line A B A.
Proof. exists 0. destruct_pts; unspec; f_equal; ring. Qed.
Lemma on_line_B A B : on_line A B B.
Proof. exists 1. destruct_pts; unspec; f_equal; ring. Qed.

Lemma on_line_sym A B M : on_line A B M <-> on_line B A M.
Proof.
  split; intros [t ->]; exists (1 - t); destruct_pts; unspec; f_equal; ring.
Qed.

Lemma dist2_nonneg P Q : 0 <= dist2 P Q.
Proof. unspec. apply sum_sq_nonneg. Qed.

Lemma dist_nonneg P Q : 0 <= dist P Q.
Proof. apply sqrt_pos. Qed.

Lemma dist_sq P Q : dist P Q * dist P Q = dist2 P Q.
Proof. unfold dist. apply sqrt_sqrt, dist2_nonneg. Qed.

Lemma dist2_sym P Q : dist2 P Q = dist2 Q P.
Proof. unspec. ring. Qed.

Lemma dist_sym P Q : dist P Q = dist Q P.
Proof. unfold dist. f_equal. apply dist2_sym. Qed.

Lemma dist2_0 P Q : dist2 P Q = 0 <-> P = Q.
Proof.
  unspec. split; intros H.
  - apply sum_sq_0 in H. destruct P, Q; simpl in *; f_equal; lra.
  - subst; ring.
Qed.

Lemma dist2_pos P Q : P <> Q -> 0 < dist2 P Q.
Proof. intros H. pose proof (dist2_nonneg P Q). destruct (Req_dec (dist2 P Q) 0); [|lra].
       apply dist2_0 in H1. contradiction. Qed.

Lemma dist_0 P Q : dist P Q = 0 <-> P = Q.
Proof.
  rewrite <- dist2_0. rewrite <- dist_sq. split; intros H; [rewrite H; ring|].
  apply Rmult_integral in H; tauto.
Qed.

Lemma dist_pos P Q : P <> Q -> 0 < dist P Q.
Proof. intros H. apply sqrt_lt_R0, dist2_pos; auto. Qed.

Lemma on_circle_sq O r M : 0 <= r -> (on_circle O r M <-> dist2 O M = r * r).
Proof.
  intros Hr. unfold on_circle. rewrite <- dist_sq. split; intros H; [rewrite H; ring|].
  apply sq_inj; auto. apply dist_nonneg.
Qed.

Lemma in_disk_sq O r M : 0 <= r -> (in_disk O r M <-> dist2 O M <= r * r).
Proof.
  intros Hr. unfold in_disk. rewrite <- dist_sq. pose proof (dist_nonneg O M).
  split; intros; nra.
Qed.

Lemma dist_le_iff P Q R0 S : dist P Q <= dist R0 S <-> dist2 P Q <= dist2 R0 S.
Proof.
  rewrite <- !dist_sq. pose proof (dist_nonneg P Q). pose proof (dist_nonneg R0 S). split; intros; nra.
Qed.

Lemma dist_eq_iff P Q R0 S : dist P Q = dist R0 S <-> dist2 P Q = dist2 R0 S.
Proof.
  rewrite <- !dist_sq. split; intros H; [rewrite H; auto|].
  apply sq_inj; auto; apply dist_nonneg.
Qed.

Lemma rot_isometry th O P Q : dist (rot th O P) (rot th O Q) = dist P Q.
Proof.
  apply dist_eq_iff. unfold rot. unspec.
  pose proof (cs1 th). set (c := cos th) in *. set (s := sin th) in *.
  transitivity ((c * c + s * s) * ((fst Q - fst P) * (fst Q - fst P) + (snd Q - snd P) * (snd Q - snd P))).
  - ring.
  - rewrite H; ring.
Qed.

Lemma rot_at_line th O A B t : rot th O (at_line A B t) = at_line (rot th O A) (rot th O B) t.
Proof. unfold rot; unspec; f_equal; ring. Qed.

Lemma rot_inv th O P : rot (- th) O (rot th O P) = P.
Proof.
  unfold rot; cbn [fst snd]. rewrite cos_neg, sin_neg.
  pose proof (cs1 th). set (c := cos th) in *. set (s := sin th) in *.
  destruct P as [x y]; cbn [fst snd]. f_equal.
  - transitivity (fst O + (c * c + s * s) * (x - fst O)); [ring|]. rewrite H; ring.
  - transitivity (snd O + (c * c + s * s) * (y - snd O)); [ring|]. rewrite H; ring.
Qed.

Lemma rot_inj th O P Q : rot th O P = rot th O Q -> P = Q.
Proof. intros H. rewrite <- (rot_inv th O P), H, rot_inv. reflexivity. Qed.

Lemma rot_add th1 th2 O P : rot th1 O (rot th2 O P) = rot (th1 + th2) O P.
Proof. unfold rot; cbn [fst snd]. rewrite cos_plus, sin_plus. f_equal; ring. Qed.

Lemma collinear_cross A B C : collinear A B C <-> scross (vsub B A) (vsub C A) = 0.
Proof.
  split.
  - intros (P & v & a & b & c & -> & -> & ->). unspec. ring.
  - intros H. destruct (pt_eq_dec A B) as [->|HAB].
    + exists B, (vsub C B), 0, 0, 1. destruct_pts; unspec. repeat split; f_equal; ring.
    + apply (on_line_cross A B C HAB) in H. destruct H as [t Ht].
      exists A, (vsub B A), 0, 1, t. split; [|split]; auto; destruct_pts; unspec; f_equal; ring.
Qed.

Lemma collinear_dec A B C : {collinear A B C} + {~ collinear A B C}.
Proof.
  destruct (Req_EM_T (scross (vsub B A) (vsub C A)) 0) as [H|H].
  - left. apply collinear_cross; auto.
  - right. intros E. apply collinear_cross in E. contradiction.
Qed.

Lemma parallel_cross u v : parallel u v <-> scross u v = 0.
Proof.
  split.
  - intros [[k ->]|[k ->]]; unspec; ring.
  - intros H. destruct u as [a b], v as [c d]. unfold scross in H; simpl in H.
    destruct (Req_dec a 0) as [Ha|Ha]; [destruct (Req_dec b 0) as [Hb|Hb]|].
    + right. exists 0. unpt. subst. f_equal; ring.
    + left. exists (d / b). unpt. subst. f_equal. 
      * assert (c = 0) by (apply (Rmult_eq_reg_l b); lra). lra.
      * field; auto.
    + left. exists (c / a). unpt. f_equal; [field; auto|].
      apply (Rmult_eq_reg_l a); auto. replace (a * (c / a * b)) with (c * b) by (field; auto). lra.
Qed.

Lemma same_line_cross A B C D : A <> B -> C <> D ->
  (same_line A B C D <-> scross (vsub B A) (vsub C A) = 0 /\ scross (vsub B A) (vsub D A) = 0).
Proof.
  intros HAB HCD. split.
  - intros H. split; apply on_line_cross; auto; apply H; [apply on_line_A|apply on_line_B].
  - intros [H1 H2] M. rewrite !on_line_cross by auto.
    pose proof (pt_neq A B HAB). pose proof (pt_neq C D HCD).
    apply on_line_cross in H1; auto. apply on_line_cross in H2; auto.
    destruct H1 as [s ->]. destruct H2 as [t ->].
    assert (s <> t) by (intros ->; apply HCD; reflexivity).
    assert (E : scross (vsub (at_line A B t) (at_line A B s)) (vsub M (at_line A B s))
            = (t - s) * scross (vsub B A) (vsub M A)) by (unspec; ring).
    rewrite E. split; intros H3.
    + rewrite H3; ring.
    + apply Rmult_integral in H3. destruct H3; auto. lra.
Qed.
