(** * Four points of an ellipse are in convex position. *)

From Coq Require Import Reals Lra Lia Psatz List Bool Permutation.
From Verif Require Import Base BaseLemmas Spec SpecLemmas SpecBoundary4 ModelInternal ModelLine ModelCircle ModelAffine ModelEllipse PEllipse PEllipse5 PEllipse6 PBoundary4d PBoundary4e.
Import ListNotations.
Local Open Scope R_scope.

Definition bary3 (x y z : R) (A B C : pt) : pt := vadd (vscal x A) (vadd (vscal y B) (vscal z C)).

Lemma cvx_one P1 P2 P3 P4 A B C D x y z : Permutation [P1; P2; P3; P4] [A; B; C; D] -> D = bary3 x y z A B C -> x + y + z = 1 ->
  x < 0 -> 0 < y -> 0 < z -> ~ collinear A B D -> convex_position P1 P2 P3 P4.
Proof.
  intros HP ED Hs Hx Hy Hz HN. exists A, B, D, C, (/ (1 - x)), (z / (1 - x)). split; [|split; [|split; [|split; [|exact HN]]]].
  - eapply perm_trans; [exact HP|]. apply perm_skip, perm_skip, perm_swap.
  - split; [apply Rinv_0_lt_compat; lra|]. rewrite <- Rinv_1. apply Rinv_1_lt_contravar; lra.
  - split; [apply Rdiv_lt_0_compat; lra|]. apply Rmult_lt_reg_r with (1 - x); [lra|]. unfold Rdiv. rewrite Rmult_assoc, Rinv_l by lra. lra.
  - subst D. replace y with (1 - x - z) by lra. destruct A, B, C. unfold at_line, bary3, vadd, vscal, vsub; cbn [fst snd]. apply f_equal2; field; lra.
Qed.

Lemma in_one P1 P2 P3 P4 A B C D x y z : Permutation [P1; P2; P3; P4] [A; B; C; D] -> D = bary3 x y z A B C -> x + y + z = 1 ->
  0 < x -> 0 < y -> 0 < z -> ~ collinear A B C -> one_inside P1 P2 P3 P4.
Proof. intros HP -> Hs Hx Hy Hz HN. exists A, B, C, x, y, z. unfold bary3 in HP. auto 6. Qed.

Lemma four_cases A B C D : no_three_collinear A B C D -> convex_position A B C D \/ one_inside A B C D.
Proof.
  intros (N1 & N2 & N3 & N4). assert (W : br A B C <> 0) by (intros K; apply N1, collinear_cross, K).
  set (x := br D B C / br A B C). set (y := br A D C / br A B C). set (z := br A B D / br A B C).
  assert (Hs : x + y + z = 1). { unfold x, y, z. rewrite <- (Rmult_1_r 1). replace (1 * 1) with (br A B C / br A B C) by (field; auto). unfold Rdiv. rewrite <- !Rmult_plus_distr_r. f_equal. unfold br, scross, vsub; cbn [fst snd]. ring. }
  assert (ED : D = bary3 x y z A B C).
  { unfold x, y, z. revert W. destruct A as [a1 a2], B as [b1 b2], C as [c1 c2], D as [d1 d2]. unfold bary3, br, scross, vsub, vadd, vscal; cbn [fst snd]. intros W. apply f_equal2; field; auto. }
  assert (Zx : x <> 0). { intros K. apply N4. apply collinear_rot. apply collinear_cross. change (br D B C = 0). assert (E : x * br A B C = br D B C) by (unfold x; field; auto). rewrite K in E. lra. }
  assert (Zy : y <> 0). { intros K. apply N3. apply collinear_cross. change (br A C D = 0). assert (E : y * br A B C = br A D C) by (unfold y; field; auto). rewrite K in E. transitivity (- br A D C); [unfold br, scross, vsub; cbn [fst snd]; ring|rewrite <- E; ring]. }
  assert (Zz : z <> 0). { intros K. apply N2. apply collinear_cross. change (br A B D = 0). assert (E : z * br A B C = br A B D) by (unfold z; field; auto). rewrite K in E. lra. }
  clearbody x y z. clear W.
  assert (C2 : forall u v w A B C, D = bary3 u v w A B C -> u + v + w = 1 -> u < 0 -> v < 0 -> C = bary3 (/ w) (- u / w) (- v / w) D A B).
  { clear. intros u v w A B C E S Hu Hv. rewrite E. destruct A, B, C. unfold bary3, vadd, vscal; cbn [fst snd]. apply f_equal2; field; lra. }
  assert (pin : forall u v w, u + v + w = 1 -> u < 0 -> v < 0 -> / w + - u / w + - v / w = 1 /\ 0 < / w /\ 0 < - u / w /\ 0 < - v / w).
  { clear. intros u v w S Hu Hv. split; [transitivity ((1 - u - v) / w); [field; lra|replace w with (1 - u - v) by lra; field; lra]|]. split; [apply Rinv_0_lt_compat; lra|]. split; apply Rdiv_lt_0_compat; lra. }
  destruct (Rtotal_order x 0) as [Hx|[Hx|Hx]]; [|tauto|]; (destruct (Rtotal_order y 0) as [Hy|[Hy|Hy]]; [|tauto|]); (destruct (Rtotal_order z 0) as [Hz|[Hz|Hz]]; [|tauto|]).
  - lra.
  - right. destruct (pin x y z Hs Hx Hy) as (S & P1 & P2 & P3). apply (in_one _ _ _ _ D A B C (/ z) (- x / z) (- y / z)); auto.
    + apply (Permutation_app_comm [A; B; C] [D]).
    + intros K. apply N2. apply collinear_rot. exact K.
  - right. destruct (pin x z y ltac:(lra) Hx Hz) as (S & P1 & P2 & P3).
    assert (E' : D = bary3 x z y A C B) by (rewrite ED; destruct A, B, C; unfold bary3, vadd, vscal; cbn [fst snd]; apply f_equal2; ring).
    apply (in_one _ _ _ _ D A C B (/ y) (- x / y) (- z / y)); auto.
    + eapply perm_trans; [apply perm_skip, perm_swap|]. apply (Permutation_app_comm [A; C; B] [D]).
    + apply (C2 x z y A C B E' ltac:(lra) Hx Hz).
    + intros K. apply N3. apply collinear_rot. exact K.
  - left. apply (cvx_one _ _ _ _ A B C D x y z); auto.
  - right. destruct (pin y z x ltac:(lra) Hy Hz) as (S & P1 & P2 & P3).
    assert (E' : D = bary3 y z x B C A) by (rewrite ED; destruct A, B, C; unfold bary3, vadd, vscal; cbn [fst snd]; apply f_equal2; ring).
    apply (in_one _ _ _ _ D B C A (/ x) (- y / x) (- z / x)); auto.
    + eapply perm_trans; [apply (Permutation_app_comm [A] [B; C; D])|]. cbn [app]. apply (Permutation_app_tail [A] (Permutation_app_comm [B; C] [D])).
    + apply (C2 y z x B C A E' ltac:(lra) Hy Hz).
    + intros K. apply N4. apply collinear_rot. exact K.
  - left. apply (cvx_one _ _ _ _ B A C D y x z); auto; [apply perm_swap| |lra|].
    + rewrite ED; destruct A, B, C; unfold bary3, vadd, vscal; cbn [fst snd]; apply f_equal2; ring.
    + intros K. apply N2, collinear_swap, K.
  - left. apply (cvx_one _ _ _ _ C A B D z x y); auto; [|  |lra|].
    + apply (Permutation_app_tail [D] (Permutation_app_comm [A; B] [C])).
    + rewrite ED; destruct A, B, C; unfold bary3, vadd, vscal; cbn [fst snd]; apply f_equal2; ring.
    + intros K. apply N3, collinear_swap, K.
  - right. apply (in_one _ _ _ _ A B C D x y z); auto.
Qed.

Lemma on_noncollinear O a b th P Q S : 0 < a -> 0 < b -> on_ellipse O a b th P -> on_ellipse O a b th Q -> on_ellipse O a b th S ->
  P <> Q -> P <> S -> Q <> S -> ~ collinear P Q S.
Proof. intros Ha Hb HP HQ HS N1 N2 N3 K. apply collinear_cross in K. exact (ellipse_no_three O a b th P Q S Ha Hb HP HQ HS N1 N2 N3 K). Qed.

Lemma four_on_convex O a b th P1 P2 P3 P4 : 0 < a -> 0 < b -> NoDup [P1; P2; P3; P4] -> Forall (on_ellipse O a b th) [P1; P2; P3; P4] ->
  convex_position P1 P2 P3 P4.
Proof.
  intros Ha Hb ND HF. destruct (four_cases P1 P2 P3 P4) as [K|K]; [|exact K|].
  - inversion_clear HF as [|? ? F1 HF1]. inversion_clear HF1 as [|? ? F2 HF2]. inversion_clear HF2 as [|? ? F3 HF3]. inversion_clear HF3 as [|? ? F4 _].
    inversion_clear ND as [|? ? D1 ND1]. inversion_clear ND1 as [|? ? D2 ND2]. inversion_clear ND2 as [|? ? D3 _]. cbn [In] in *.
    assert (P1 <> P2) by (intros ->; tauto). assert (P1 <> P3) by (intros ->; tauto). assert (P1 <> P4) by (intros ->; tauto).
    assert (P2 <> P3) by (intros ->; tauto). assert (P2 <> P4) by (intros ->; tauto). assert (P3 <> P4) by (intros ->; tauto).
    repeat split; apply (on_noncollinear O a b th); auto.
  - exfalso. exact (not_through P1 P2 P3 P4 K O a b th Ha Hb HF).
Qed.
