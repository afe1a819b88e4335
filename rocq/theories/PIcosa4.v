(** * Proofs about ApollonianIcosahedralGasket.py: the statements *)

From Coq Require Import Reals Lra Lia Psatz List Bool PeanoNat.
From Verif Require Import Base BaseLemmas Spec SpecLemmas SpecTriangle SpecGasket SpecSteinerEx SpecIcosa ModelInternal ModelLine ModelCircle ModelTriangle ModelGasket ModelSteinerEx ModelIcosa PLine PTriangle PGasket10 PGasket12 PGasket13 PGasket14 PIcosa1 PIcosa2 PIcosa3.
Import ListNotations.
Local Open Scope R_scope.

Lemma transfo_spec A B C : ~ collinear3 A B C ->
  exists Mat P Q, transfoMatrix A B C = Ok (Mat, P, Q) /\ motion3 (transform3 Mat) /\
    transform3 Mat ((0, 0), 0) = A /\ transform3 Mat (P, 0) = B /\ transform3 Mat (Q, 0) = C /\
    P = (dist3 A B, 0) /\ 0 < fst P /\ 0 < snd Q /\
    dist (0, 0) Q = dist3 A C /\ dist P Q = dist3 B C /\
    (forall M, in_plane3 A B C M <-> exists N, M = transform3 Mat (N, 0)).
Proof.
  intros NC. destruct (transfo_ok A B C NC) as (Mat & p & q & m & L & x & y & E & F & PL & Py & EL & HT & EB & EC). exists Mat, (L, 0), (x, y).
  pose proof (flat_A A B C p q m L x y EB EC) as FA. assert (FB : flat A p q m (L, 0) = B) by exact EB. assert (FC : flat A p q m (x, y) = C) by exact EC.
  assert (D2 : dist (0, 0) (x, y) = dist3 A C) by (rewrite <- FC, <- (dist_flat A p q m F), FA; auto).
  assert (D3 : dist (L, 0) (x, y) = dist3 B C) by (rewrite <- FB, <- FC, <- (dist_flat A p q m F); auto).
  pose proof (place_motion A p q m F) as (M1 & M2 & M3).
  split; [exact E|]. split; [split; [|split]|]. { intros M N. rewrite !HT. apply M1. } { intros Q. destruct (M2 Q) as (M & HM). exists M. rewrite HT. exact HM. } { intros. rewrite !HT. apply M3. }
  rewrite !HT. split; [exact FA|]. split; [exact FB|]. split; [exact FC|]. split; [congruence|]. split; [auto|]. split; [auto|]. split; [auto|]. split; [auto|].
  intros M. split.
  - intros H. destruct (plane_flat A B C p q m L x y EB EC M H) as (N & ->). exists N. rewrite HT. auto.
  - intros ([a b] & ->). rewrite HT. change (in_plane3 A B C (flat A p q m (a, b))).
    set (w := b / y). set (v := (a - w * x) / L). exists (1 - v - w), v, w. split; [ring|].
    assert (Eab : (a, b) = bary (1 - v - w) v w (0, 0) (L, 0) (x, y)). { unfold bary, v, w. cbn [fst snd]. apply f_equal2; field; lra. }
    rewrite Eab. rewrite (flat_bary A B C p q m L x y EB EC) by ring. rewrite FA, FB, FC. auto.
Qed.

Lemma face_flat A B C depth : collinear3 A B C -> transfoMatrix A B C = Raise NonFinite /\ drawFace A B C depth = Raise NonFinite.
Proof. intros H. pose proof (transfo_flat A B C H) as E. split; auto. unfold drawFace. rewrite E. auto. Qed.

Lemma face_limit A B C : ~ collinear3 A B C -> exists m, forall depth, (m <= depth)%nat -> drawFace A B C depth = Raise ValueError.
Proof.
  intros NC. destruct (transfo_ok A B C NC) as (Mat & p & q & n & L & x & y & E & F & PL & Py & _ & HT & EB & EC).
  assert (N2 : ~ collinear (0, 0) (L, 0) (x, y)) by (apply not_collinear_dbl; unfold dbl; unspec; nra).
  destruct (draw_limit _ _ _ N2) as (m & Hm). exists m. intros depth Hd. unfold drawFace. rewrite E. cbn [bind]. rewrite Hm by auto. auto.
Qed.

Lemma icosa_spec : length vertices = 12%nat /\ NoDup vertices /\ (forall M, In M vertices -> inner3 M M = 1 + g_ * g_) /\
  length faces = 20%nat /\ closed_surface faces /\ (forall v, (v < 12)%nat -> length (filter (has_vertex v) faces) = 5%nat) /\
  Forall (fun f => let '(A, B, C) := face_points f in
    (forall P Q, In (P, Q) [(A, B); (A, C); (B, C)] -> 1.52786404500042 <= inner3 (vec3 P Q) (vec3 P Q) <= 1.52786404500043) /\
    outward_face vertices A B C) faces.
Proof.
  destruct icosa_ok as (H1 & H2 & H3 & H4 & H5 & H6 & H7). do 6 (split; [assumption|]). eapply Forall_impl; [|exact H7]. cbv beta. intros f. destruct (face_points f) as [[A B] C]. intros (E1 & E2 & E3 & O). split; auto.
  intros P Q [K|[K|[K|[]]]]; injection K as <- <-; auto.
Qed.

Lemma icosa_drawn n : (n <= 6)%nat -> exists l, draw_icosahedron n = Ok l /\ map fst l = map face_points faces /\
    Forall (fun fd => let '(A, B, C) := fst fd in ~ collinear3 A B C /\ drawFace A B C n = Ok (snd fd)) l.
Proof.
  intros Hn. pose proof faces_edges as H. unfold draw_icosahedron. induction H as [|f fs Hf H (l & El & Em & Fo)]; [exists []; auto|].
  destruct (face_points f) as [[A B] C] eqn:Ef. destruct Hf as (E1 & E2 & E3). destruct (face_total A B C n Hn E1 E2 E3) as (d & Ed).
  exists (((A, B, C), d) :: l). cbn [mapM map fst]. rewrite Ef, Ed. cbn [bind]. rewrite El. cbn [bind]. split; [auto|]. rewrite Em. split; [auto|]. constructor; auto. cbn [fst snd]. split; auto. apply edges_nc; auto.
Qed.

Lemma ex_C106 : let A := ((0, 0), 1) in let B := ((10, 2), 0) in let C := ((5, 10), 3) in ~ collinear3 A B C /\ collinear3 A B ((20, 4), -1).
Proof.
  cbv zeta. split.
  - intros H. apply cross_collinear in H. un3. injection H. intros. lra.
  - exists 2, (-1). split; [left; lra|]. un3. eq3; ring.
Qed.

Lemma transfo_homogeneous A B C Mat P Q : transfoMatrix A B C = Ok (Mat, P, Q) -> homogeneous Mat.
Proof.
  unfold transfoMatrix. intros H. cbv zeta in H. repeat match type of H with bind ?e _ = _ => destruct e; cbn [bind] in H; [|discriminate H] end. inversion H.
  eexists [_; _; _]. split; [reflexivity|]. split; [reflexivity|]. repeat constructor.
Qed.
