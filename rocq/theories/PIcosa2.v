(** * Proofs about ApollonianIcosahedralGasket.py: the solids on a face *)

From Coq Require Import Reals Lra Lia Psatz List Bool FinFun.
From Verif Require Import Base BaseLemmas Spec SpecLemmas SpecTriangle SpecGasket SpecSteinerEx SpecIcosa ModelInternal ModelLine ModelCircle ModelTriangle ModelGasket ModelSteinerEx ModelIcosa PLine PGasket10 PGasket12 PSteiner PTriangle PIcosa1.
Import ListNotations.
Local Open Scope R_scope.

Section Face.
Variables (A B C p q n : v3) (L x y : R).
Hypothesis F : frame p q n.
Hypothesis PL : 0 < L.
Hypothesis Py : 0 < y.
Hypothesis EB : place A p q n ((L, 0), 0) = B.
Hypothesis EC : place A p q n ((x, y), 0) = C.
Let T := place A p q n.
Definition flat (M : pt) : v3 := place A p q n (M, 0).
Definition disc_of (c : circle) : disc3 := (flat (cO c), cr c).

Lemma flat_A : flat (0, 0) = A.
Proof. unfold flat, place. destruct A as [[? ?] ?]. un3. eq3; ring. Qed.
Lemma flat_B : flat (L, 0) = B. Proof. exact EB. Qed.
Lemma flat_C : flat (x, y) = C. Proof. exact EC. Qed.

Lemma dist_flat M N : dist3 (flat M) (flat N) = dist M N.
Proof. unfold flat. rewrite dist_place by auto. unfold dist3, dist. f_equal. un3. unspec. ring. Qed.
Lemma flat_inj M N : flat M = flat N -> M = N.
Proof. intros E. apply dist_0. rewrite <- dist_flat, E. unfold dist3. replace (inner3 (vec3 (flat N) (flat N)) (vec3 (flat N) (flat N))) with 0 by (un3; ring). apply sqrt_0. Qed.
Lemma disc_inj c c' : disc_of c = disc_of c' -> c = c'.
Proof. destruct c as [o r], c' as [o' r']. unfold disc_of. cbn [cO cr]. intros E. pose proof (f_equal fst E) as E1. pose proof (f_equal snd E) as E2. cbn [fst snd] in E2. apply (flat_inj o o') in E1. congruence. Qed.

Lemma flat_bary a b c M N K : a + b + c = 1 -> flat (bary a b c M N K) = bary3 a b c (flat M) (flat N) (flat K).
Proof.
  intros H. assert (E : a = 1 - b - c) by lra. subst a. unfold flat, bary3, place, bary. destruct A as [[? ?] ?]. un3. eq3; ring.
Qed.
Lemma flat_line P Q t : flat (at_line P Q t) = add3 (flat P) (mul3 t (vec3 (flat P) (flat Q))).
Proof. unfold flat, place, at_line, vsub. destruct A as [[? ?] ?]. un3. eq3; ring. Qed.

Lemma flat_tri M : in_closed_triangle (0, 0) (L, 0) (x, y) M -> in_triangle3 A B C (flat M).
Proof. intros (u & v & w & Hu & Hv & Hw & S & ->). exists u, v, w. repeat split; auto. rewrite flat_bary by auto. rewrite flat_A, flat_B, flat_C. auto. Qed.
Lemma plane_flat M : in_plane3 A B C M -> exists N, M = flat N.
Proof. intros (u & v & w & S & ->). exists (bary u v w (0, 0) (L, 0) (x, y)). rewrite flat_bary by auto. rewrite flat_A, flat_B, flat_C. auto. Qed.
Lemma tri_plane M : in_triangle3 A B C M -> in_plane3 A B C M.
Proof. intros (u & v & w & _ & _ & _ & S & E). exists u, v, w. auto. Qed.

Lemma disc_tri c : 0 < cr c -> disc_in_triangle (0, 0) (L, 0) (x, y) c -> disc3_in_triangle A B C (disc_of c).
Proof.
  intros Pc H. split; cbn [fst snd disc_of].
  - apply tri_plane, flat_tri, H. unfold in_disk. rewrite (proj2 (dist_0 _ _) eq_refl). lra.
  - intros M HM D. destruct (plane_flat M HM) as (N & ->). rewrite dist_flat in D. apply flat_tri, H. exact D.
Qed.

Lemma ball_eq k c m z : flat_ball n k (disc_of c) (T (m, z)) = dist2 (cO c) m / (cr c) ^ 2 + z ^ 2 / (k * cr c) ^ 2.
Proof.
  unfold flat_ball, disc_of. cbn [fst snd]. unfold T, flat. rewrite vec_place by auto. rewrite inner_place, inner_n by auto. f_equal; [f_equal|f_equal; f_equal].
  - un3. unspec. ring.
  - un3. ring.
Qed.

Lemma surf k c Mat : 0 < k -> 0 < cr c -> (forall M, transform3 Mat M = T M) -> forall Q,
  flat_ball n k (disc_of c) Q = 1 <-> exists P, dist2_3 (cO c, 0) P = cr c * cr c /\ pretty_point k Mat P = Q.
Proof.
  intros Pk Pc HM Q. split.
  - intros H. destruct (place_surj A p q n F Q) as ([m z] & <-). fold T in H. rewrite ball_eq in H. exists (m, z / k). split.
    + unfold dist2_3. cbn [fst snd]. apply (Rmult_eq_reg_r (/ (cr c) ^ 2)); [|apply Rinv_neq_0_compat; nra]. transitivity (dist2 (cO c) m / cr c ^ 2 + z ^ 2 / (k * cr c) ^ 2); [field; lra|]. rewrite H. field. lra.
    + unfold pretty_point. rewrite HM. unfold scale3, T. cbn [fst snd]. f_equal. destruct m. cbn [fst snd]. eq3; field; lra.
  - intros ([m z] & D & <-). unfold pretty_point. rewrite HM. unfold scale3. cbn [fst snd]. rewrite ball_eq. unfold dist2_3 in D. cbn [fst snd] in D. destruct m as [a b]. cbn [fst snd]. replace (1 * a) with a by ring. replace (1 * b) with b by ring.
    transitivity ((dist2 (cO c) (a, b) + (0 - z) ^ 2) / (cr c * cr c)); [field; lra|]. rewrite D. field. lra.
Qed.

Lemma balls_apart k c c' : 0 < k -> 0 < cr c -> 0 < cr c' -> not_overlapping c c' -> reg_apart (flat_ball n k (disc_of c)) (flat_ball n k (disc_of c')).
Proof.
  intros Pk P1 P2 H Q [A1 A2]. destruct (place_surj A p q n F Q) as ([m z] & <-). fold T in A1, A2. rewrite ball_eq in A1, A2.
  assert (K : forall c, 0 < cr c -> dist2 (cO c) m / cr c ^ 2 + z ^ 2 / (k * cr c) ^ 2 < 1 -> dist (cO c) m < cr c).
  { intros d Pd I. assert (0 <= z ^ 2 / (k * cr d) ^ 2) by (apply Rmult_le_pos; [nra|left; apply Rinv_0_lt_compat; apply pow_lt; nra]).
    apply Rsqr_incrst_0; [|apply dist_nonneg|lra]. unfold Rsqr. rewrite dist_sq. assert (J : dist2 (cO d) m / cr d ^ 2 < 1) by lra.
    apply (Rmult_lt_reg_r (/ cr d ^ 2)); [apply Rinv_0_lt_compat, pow_lt; auto|]. replace (cr d * cr d * / cr d ^ 2) with 1 by (field; lra). exact J. }
  pose proof (K _ P1 A1) as D1. pose proof (K _ P2 A2) as D2. unfold not_overlapping in H. pose proof (dist_triangle (cO c) m (cO c')) as D. rewrite (dist_sym m (cO c')) in D. lra.
Qed.

Lemma side_flat c P Q : P <> Q -> side_touched c P Q -> side3_touched (disc_of c) (flat P) (flat Q).
Proof.
  intros N (G & (t & ->) & O & D). exists t. cbn [fst snd disc_of]. rewrite <- flat_line, dist_flat. split; auto. intros t' Nt. rewrite <- flat_line, dist_flat, <- D.
  assert (P2 : 0 < dist2 P Q). { rewrite <- dist_sq. assert (0 < dist P Q). { destruct (dist_nonneg P Q) as [K|K]; auto. exfalso. apply N. apply dist_0. auto. } nra. }
  apply Rsqr_incrst_0; [|apply dist_nonneg|apply dist_nonneg]. unfold Rsqr. rewrite !dist_sq. unfold orthogonal in O.
  assert (E : dist2 (cO c) (at_line P Q t') = dist2 (cO c) (at_line P Q t) + (t' - t) * (t' - t) * dist2 P Q + 2 * (t' - t) * sdot (vsub (at_line P Q t) (cO c)) (vsub Q P)) by (unfold at_line; unspec; ring).
  rewrite E, O. assert (0 < (t' - t) * (t' - t)) by nra. nra.
Qed.
Lemma vert_flat P Q V : vertices_of (0, 0) (L, 0) (x, y) P Q V -> vertices3_of A B C (flat P) (flat Q) (flat V) /\ P <> Q /\ P <> V.
Proof.
  assert (E2 : flat (L, 0) = B) by exact EB. assert (E3 : flat (x, y) = C) by exact EC. pose proof flat_A as E1.
  assert (N1 : (0, 0) <> (L, 0)) by (intros K; injection K; lra). assert (N2 : (0, 0) <> (x, y)) by (intros K; injection K; lra). assert (N3 : (L, 0) <> (x, y)) by (intros K; injection K; lra).
  unfold vertices_of, vertices3_of. intros [(-> & -> & ->)|[(-> & -> & ->)|[(-> & -> & ->)|[(-> & -> & ->)|[(-> & -> & ->)|(-> & -> & ->)]]]]]; rewrite ?E1, ?E2, ?E3; split; try tauto; split; congruence.
Qed.
Lemma touch_flat c c' : circles_touch c c' -> discs3_touch (disc_of c) (disc_of c').
Proof. unfold circles_touch, ext_tangent, discs3_touch, disc_of. cbn [fst snd]. rewrite dist_flat. auto. Qed.
Lemma three_flat l c : touches_three (0, 0) (L, 0) (x, y) l c -> touches_three3 A B C (map disc_of l) (disc_of c).
Proof.
  intros [(c1 & c2 & c3 & I & N & T1 & T2 & T3)|[(c1 & c2 & P & Q & V & I & N & Hv & T1 & T2 & S)|(c1 & P & Q & V & I & Hv & T1 & S1 & S2)]].
  - left. exists (disc_of c1), (disc_of c2), (disc_of c3). split; [|split; [|split; [|split]]]; try (apply touch_flat; auto).
    + apply (incl_map disc_of) in I. exact I.
    + change [disc_of c1; disc_of c2; disc_of c3] with (map disc_of [c1; c2; c3]). apply FinFun.Injective_map_NoDup; auto. intros a b. apply disc_inj.
  - right; left. destruct (vert_flat _ _ _ Hv) as (V3 & NP & _). exists (disc_of c1), (disc_of c2), (flat P), (flat Q), (flat V). split; [|split; [|split; [|split; [|split]]]]; try (apply touch_flat; auto); auto.
    + apply (incl_map disc_of) in I. exact I.
    + intros E. apply N, disc_inj, E.
    + apply side_flat; auto.
  - right; right. destruct (vert_flat _ _ _ Hv) as (V3 & NP & NV). exists (disc_of c1), (flat P), (flat Q), (flat V). split; [apply in_map; auto|]. split; auto. split; [apply touch_flat; auto|]. split; apply side_flat; auto.
Qed.
Lemma normal_flat : unit_normal A B C n.
Proof.
  assert (K : forall M, inner3 n (vec3 A (flat M)) = 0).
  { intros M. pose proof (inner_n p q n F (vec3 ((0, 0), 0) (M, 0))) as E. rewrite <- (vec_place A) in E by auto. change (inner3 (vec3 (flat (0, 0)) (flat M)) n = snd (vec3 ((0, 0), 0) (M, 0))) in E. rewrite flat_A in E.
    transitivity (inner3 (vec3 A (flat M)) n); [unfold inner3; ring|]. rewrite E. un3. ring. }
  split; [apply F|]. rewrite <- flat_B, <- flat_C. auto.
Qed.
End Face.

Lemma FOP_map_imp {X Y} (f : X -> Y) (P : X -> Prop) (R1 : X -> X -> Prop) (R2 : Y -> Y -> Prop) l :
  (forall a b, P a -> P b -> R1 a b -> R2 (f a) (f b)) -> Forall P l -> ForallOrdPairs R1 l -> ForallOrdPairs R2 (map f l).
Proof.
  intros H FP FO. induction FO as [|a l Ha FO IH]; [constructor|]. inversion FP; subst. cbn [map]. constructor; [|auto].
  apply Forall_map. rewrite Forall_forall in *. intros b Ib. auto.
Qed.

Lemma face_ok A B C k depth : ~ collinear3 A B C -> 0 < k ->
  drawFace A B C depth = Raise ValueError \/
  exists spheres Mat n discs, drawFace A B C depth = Ok (spheres, Mat) /\ unit_normal A B C n /\
    Forall2 (fun s d => 0 < snd d /\ forall Q, flat_ball n k d Q = 1 <-> exists P, dist2_3 (sO s) P = sr s * sr s /\ pretty_point k Mat P = Q) spheres discs /\
    Forall (disc3_in_triangle A B C) discs /\
    ForallOrdPairs (fun d d' => reg_apart (flat_ball n k d) (flat_ball n k d')) discs /\
    (2 * length discs + 1 = 7 * 3 ^ (S depth))%nat /\
    forall l1 d l2, discs = l1 ++ d :: l2 -> (3 <= length l1)%nat -> touches_three3 A B C l1 d.
Proof.
  intros NC Pk. destruct (transfo_ok A B C NC) as (Mat & p & q & n & L & x & y & E & F & PL & Py & _ & HT & EB & EC). unfold drawFace. rewrite E. cbn [bind].
  assert (N2 : ~ collinear (0, 0) (L, 0) (x, y)).
  { apply not_collinear_dbl. unfold dbl. unspec. nra. }
  destruct (draw_spec (0, 0) (L, 0) (x, y) depth N2) as [D|(l & D & P & O & I & Len & Th)]; rewrite D; cbn [bind]; [left; auto|right].
  eexists. exists Mat, n, (map (disc_of A p q n) l). split; [reflexivity|]. split; [apply (normal_flat A B C p q n L x y); auto|]. split; [|split; [|split; [|split]]].
  - clear - P F Pk HT. induction P as [|c l Pc P IH]; cbn [map]; constructor; auto. split; [exact Pc|]. intros Q. cbn [sO sr]. apply (surf A p q n); auto.
  - apply Forall_map. rewrite Forall_forall in *. intros c Ic. apply (disc_tri A B C p q n L x y); auto.
  - apply (FOP_map_imp _ (fun c => 0 < cr c) not_overlapping); auto. intros a b Pa Pb H. apply balls_apart; auto.
  - rewrite map_length. exact Len.
  - intros l1 d l2 El Hl. apply map_eq_app in El. destruct El as (k1 & k2 & -> & <- & E2). destruct k2 as [|c k2]; [discriminate|]. cbn [map] in E2. injection E2 as <- <-. rewrite map_length in Hl.
    apply (three_flat A B C p q n L x y); auto. apply (Th k1 c k2); auto.
Qed.
