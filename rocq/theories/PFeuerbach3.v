(** * Relations between the circles of a triangle: final statements and a concrete triangle. *)

From Coq Require Import Reals Lra Psatz List Bool.
From Verif Require Import Base BaseLemmas Spec SpecLemmas SpecTriangle ModelInternal ModelLine ModelCircle ModelAffine ModelTriangle PLine PInvBase PTriangle PTriangle2 PFeuerbach PFeuerbach2.
Import ListNotations.
Local Open Scope R_scope.

Lemma all_circles A B C : ~ collinear A B C -> dbl A B C <> 0 /\ exists cc ci cA cB cC, circumcircle (mkTri A B C) = Ok (Some cc) /\ incircle (mkTri A B C) = Ok ci /\
  excircles (mkTri A B C) = Ok (cA, cB, cC).
Proof.
  intros H. apply not_collinear_dbl in H. split; auto. destruct (circumcircle_total A B C H) as (cc & E1 & _). destruct (incircle_total A B C H) as [E2 _].
  pose proof (excircles_total A B C H) as E3. cbn zeta in E3. eauto 10.
Qed.
Lemma radii_spec A B C : ~ collinear A B C -> exists cc ci cA cB cC,
  circumcircle (mkTri A B C) = Ok (Some cc) /\ incircle (mkTri A B C) = Ok ci /\ excircles (mkTri A B C) = Ok (cA, cB, cC) /\
  / cr ci = / cr cA + / cr cB + / cr cC /\ cr cA + cr cB + cr cC = 4 * cr cc + cr ci /\
  let area := Rabs (scross (vsub B A) (vsub C A)) / 2 in
  cr ci * cr cA * cr cB * cr cC = area ^ 2 /\ cr ci * ((dist B C + dist A C + dist A B) / 2) = area /\
  4 * cr cc * area = dist B C * dist A C * dist A B.
Proof.
  intros H. destruct (all_circles A B C H) as (N & cc & ci & cA & cB & cC & E1 & E2 & E3). exists cc, ci, cA, cB, cC.
  destruct (radii A B C cc ci cA cB cC N E1 E2 E3) as (F1 & F2 & F3 & F4). pose proof (Rk A B C cc N E1) as F5.
  fold (dbl A B C). cbn zeta. repeat split; auto; lra.
Qed.
Lemma euler_spec A B C : ~ collinear A B C -> exists cc ci cA cB cC,
  circumcircle (mkTri A B C) = Ok (Some cc) /\ incircle (mkTri A B C) = Ok ci /\ excircles (mkTri A B C) = Ok (cA, cB, cC) /\
  2 * cr ci <= cr cc /\ dist2 (cO cc) (cO ci) = cr cc * (cr cc - 2 * cr ci) /\
  Forall (fun cx => dist2 (cO cc) (cO cx) = cr cc * (cr cc + 2 * cr cx)) [cA; cB; cC].
Proof.
  intros H. destruct (all_circles A B C H) as (N & cc & ci & cA & cB & cC & E1 & E2 & E3). exists cc, ci, cA, cB, cC.
  destruct (euler A B C cc ci cA cB cC N E1 E2 E3) as (F1 & F2 & F3 & F4). destruct (cc_facts A B C cc E1) as (Hr & _).
  assert (2 * cr ci <= cr cc). { pose proof (dist2_nonneg (cO cc) (cO ci)) as X. rewrite F1 in X. destruct (Rle_or_lt (2 * cr ci) (cr cc)); auto. nra. }
  repeat split; auto.
Qed.
Lemma nine_spec A B C : ~ collinear A B C -> ~ orthogonal (vsub B A) (vsub C A) -> ~ orthogonal (vsub A B) (vsub C B) -> ~ orthogonal (vsub A C) (vsub B C) ->
  exists cc ci cA cB cC T n,
  circumcircle (mkTri A B C) = Ok (Some cc) /\ incircle (mkTri A B C) = Ok ci /\ excircles (mkTri A B C) = Ok (cA, cB, cC) /\
  orthic_triangle (mkTri A B C) = Ok T /\ circumcircle T = Ok (Some n) /\ cr n = cr cc / 2 /\
  Forall (on_circle (cO n) (cr n)) [tA T; tB T; tC T; midpoint B C; midpoint A C; midpoint A B] /\
  dist (cO n) (cO ci) = cr n - cr ci /\ Forall (fun cx => dist (cO n) (cO cx) = cr n + cr cx) [cA; cB; cC].
Proof.
  intros H Na Nb Nc. destruct (all_circles A B C H) as (N & cc & ci & cA & cB & cC & E1 & E2 & E3).
  destruct (nine_circle A B C cc N E1 Na Nb Nc) as (T & n & HT & Hn & EO & Er & M1 & M2 & M3). exists cc, ci, cA, cB, cC, T, n.
  destruct (feuerbach A B C cc ci cA cB cC N E1 E2 E3) as (F1 & F2 & F3 & F4). rewrite <- EO, <- Er in *.
  destruct (circumcircle_spec _ _ Hn) as (_ & _ & V1 & V2 & V3 & _).
  repeat split; auto. repeat constructor; auto.
Qed.
Lemma nine_right_spec A B C : ~ collinear A B C -> exists T, orthic_triangle (mkTri A B C) = Ok T /\
  (orthogonal (vsub B A) (vsub C A) -> circumcircle T = Ok None) /\
  (orthogonal (vsub A B) (vsub C B) \/ orthogonal (vsub A C) (vsub B C) -> circumcircle T = Raise ZeroDivisionError).
Proof. intros H. apply not_collinear_dbl in H. exact (nine_right A B C H). Qed.
Lemma excentral_spec A B C : ~ collinear A B C -> exists cc cA cB cC e,
  circumcircle (mkTri A B C) = Ok (Some cc) /\ excircles (mkTri A B C) = Ok (cA, cB, cC) /\
  orthic_triangle (mkTri (cO cA) (cO cB) (cO cC)) = Ok (mkTri A B C) /\
  circumcircle (mkTri (cO cA) (cO cB) (cO cC)) = Ok (Some e) /\ cr e = 2 * cr cc.
Proof.
  intros H. destruct (all_circles A B C H) as (N & cc & ci & cA & cB & cC & E1 & E2 & E3).
  destruct (excentral A B C cc cA cB cC N E1 E3) as (F & e & G1 & G2). exists cc, cA, cB, cC, e. auto.
Qed.
Lemma ex_C111 : let A := (0, 0) in let B := (4, 0) in let C := (1, 3) in
  ~ collinear A B C /\ ~ orthogonal (vsub B A) (vsub C A) /\ ~ orthogonal (vsub A B) (vsub C B) /\ ~ orthogonal (vsub A C) (vsub B C).
Proof. cbv zeta. split; [apply not_collinear_dbl; unfold dbl; unspec; lra|]. unspec. repeat split; lra. Qed.
