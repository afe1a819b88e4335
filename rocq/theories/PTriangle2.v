(** * Proofs about triangles: circumcircle, incircle, excircles, orthic triangle,
    random points. *)

From Coq Require Import Reals Lra Lia Psatz List Bool ZArith.
From Verif Require Import Base BaseLemmas Spec SpecLemmas SpecTriangle ModelInternal ModelLine ModelCircle ModelAffine ModelTriangle PLine PInvBase PTriangle.
Import ListNotations.
Local Open Scope R_scope.

(** ** circumcircle *)
Lemma circ_unique A B C O O' r r' : dbl A B C <> 0 -> 0 <= r -> 0 <= r' ->
  on_circle O r A -> on_circle O r B -> on_circle O r C ->
  on_circle O' r' A -> on_circle O' r' B -> on_circle O' r' C -> O = O' /\ r = r'.
Proof.
  intros K Hr Hr' H1 H2 H3 H4 H5 H6. rewrite on_circle_sq in * by auto.
  assert (E1 : sdot (vsub B A) (vsub O' O) = 0) by (revert H1 H2 H4 H5; clear; unspec; intros; lra).
  assert (E2 : sdot (vsub C A) (vsub O' O) = 0) by (revert H1 H3 H4 H6; clear; unspec; intros; lra).
  assert (EO : O = O').
  { destruct A as [a1 a2], B as [b1 b2], C as [c1 c2], O as [o1 o2], O' as [p1 p2]. unfold dbl in K.
    clear - K E1 E2. unspec.
    assert (((b1 - a1) * (c2 - a2) - (b2 - a2) * (c1 - a1)) * (p1 - o1) = 0).
    { transitivity ((c2 - a2) * ((b1 - a1) * (p1 - o1) + (b2 - a2) * (p2 - o2)) - (b2 - a2) * ((c1 - a1) * (p1 - o1) + (c2 - a2) * (p2 - o2))); [ring|].
      rewrite E1, E2. ring. }
    assert (((b1 - a1) * (c2 - a2) - (b2 - a2) * (c1 - a1)) * (p2 - o2) = 0).
    { transitivity (- (c1 - a1) * ((b1 - a1) * (p1 - o1) + (b2 - a2) * (p2 - o2)) + (b1 - a1) * ((c1 - a1) * (p1 - o1) + (c2 - a2) * (p2 - o2))); [ring|].
      rewrite E1, E2. ring. }
    apply Rmult_integral in H. apply Rmult_integral in H0. f_equal; lra. }
  split; auto. subst O'. apply sq_inj; auto. lra.
Qed.

Definition circum_center (A B C : pt) : pt :=
  let qA := sdot A A in let qB := sdot B B in let qC := sdot C C in
  ((qA * (snd B - snd C) + qB * (snd C - snd A) + qC * (snd A - snd B)) / (2 * dbl A B C),
   (qA * (fst C - fst B) + qB * (fst A - fst C) + qC * (fst B - fst A)) / (2 * dbl A B C)).

Lemma circum_center_eq A B C : dbl A B C <> 0 ->
  dist2 (circum_center A B C) B = dist2 (circum_center A B C) A /\ dist2 (circum_center A B C) C = dist2 (circum_center A B C) A.
Proof.
  intros K. unfold circum_center. set (d := dbl A B C) in *.
  destruct A as [a1 a2], B as [b1 b2], C as [c1 c2].
  assert (Hd : d = (b1 - a1) * (c2 - a2) - (b2 - a2) * (c1 - a1)) by (unfold d, dbl; unspec; ring).
  clearbody d. unspec. set (X := (a1 * a1 + a2 * a2) * (b2 - c2) + (b1 * b1 + b2 * b2) * (c2 - a2) + (c1 * c1 + c2 * c2) * (a2 - b2)).
  set (Y := (a1 * a1 + a2 * a2) * (c1 - b1) + (b1 * b1 + b2 * b2) * (a1 - c1) + (c1 * c1 + c2 * c2) * (b1 - a1)).
  split.
  - apply (Rmult_eq_reg_r d); auto.
    transitivity ((b1 * b1 + b2 * b2) * d - (b1 * X + b2 * Y) + (X / (2 * d) * (X / (2 * d)) + Y / (2 * d) * (Y / (2 * d))) * d); [field; auto|].
    transitivity ((a1 * a1 + a2 * a2) * d - (a1 * X + a2 * Y) + (X / (2 * d) * (X / (2 * d)) + Y / (2 * d) * (Y / (2 * d))) * d); [|field; auto].
    f_equal. rewrite Hd. unfold X, Y. ring.
  - apply (Rmult_eq_reg_r d); auto.
    transitivity ((c1 * c1 + c2 * c2) * d - (c1 * X + c2 * Y) + (X / (2 * d) * (X / (2 * d)) + Y / (2 * d) * (Y / (2 * d))) * d); [field; auto|].
    transitivity ((a1 * a1 + a2 * a2) * d - (a1 * X + a2 * Y) + (X / (2 * d) * (X / (2 * d)) + Y / (2 * d) * (Y / (2 * d))) * d); [|field; auto].
    f_equal. rewrite Hd. unfold X, Y. ring.
Qed.

Lemma circumcircle_total A B C : dbl A B C <> 0 -> exists c, circumcircle (mkTri A B C) = Ok (Some c) /\
  0 < cr c /\ on_circle (cO c) (cr c) A /\ on_circle (cO c) (cr c) B /\ on_circle (cO c) (cr c) C.
Proof.
  intros K. destruct (flatness_ok _ _ _ K) as (f & Hf & Hf1).
  destruct (circum_center_eq _ _ _ K) as [EB EC]. destruct (dbl_distinct _ _ _ K) as (HAB & HAC & HBC).
  assert (HA : circum_center A B C <> A).
  { intros E. rewrite E in EB. assert (dist2 A A = 0) by (apply dist2_0; auto). rewrite H in EB. apply dist2_0 in EB. auto. }
  pose proof (dist_pos _ _ HA) as Hr.
  exists (mkCircle (circum_center A B C) (dist (circum_center A B C) A)). cbn [cO cr]. split.
  - unfold circumcircle. rewrite Hf. cbn [bind]. destruct (eqb f 1) eqn:E; [apply eqb_true in E; contradiction|].
    cbn [tA tB tC]. set (D := det3 (mkM3 (fst A) _ _ _ _ _ _ _ _)).
    assert (HD : D = dbl A B C) by (unfold D, det3, dbl; cbn [n11 n12 n13 n21 n22 n23 n31 n32 n33]; unspec; ring).
    rewrite HD. unfold np_div. destruct Req_EM_T; [contradiction|]. cbn [bind].
    match goal with |- context [distance_ ?c A] => replace c with (circum_center A B C) end.
    + unfold Circle_init. destruct (leb (distance_ (circum_center A B C) A) 0) eqn:E'; [apply leb_true in E'; rewrite distance_dist in E'; lra|].
      cbn [bind]. rewrite distance_dist. reflexivity.
    + unfold circum_center, det3, dot_. cbn [n11 n12 n13 n21 n22 n23 n31 n32 n33]. f_equal; unfold sdot; field; auto.
  - split; auto. split; [unfold on_circle; auto|]. split; unfold on_circle; rewrite dist_eq_iff; auto.
Qed.

Lemma circumcircle_spec T c : circumcircle T = Ok (Some c) ->
  ~ collinear (tA T) (tB T) (tC T) /\ 0 < cr c /\
  on_circle (cO c) (cr c) (tA T) /\ on_circle (cO c) (cr c) (tB T) /\ on_circle (cO c) (cr c) (tC T) /\
  (forall O r, 0 <= r -> on_circle O r (tA T) -> on_circle O r (tB T) -> on_circle O r (tC T) -> O = cO c /\ r = cr c).
Proof.
  destruct T as [A B C]. cbn [tA tB tC]. intros H.
  assert (N : ~ collinear A B C).
  { unfold circumcircle in H. destruct (flatness (mkTri A B C)) eqn:E; [|discriminate]. cbn [bind] in H.
    destruct (flatness_spec _ _ E) as (_ & _ & _ & Hf & _). cbn [tA tB tC] in Hf. rewrite <- Hf.
    destruct (eqb a 1) eqn:E'; [discriminate|]. apply eqb_false; auto. }
  split; auto. apply not_collinear_dbl in N. destruct (circumcircle_total A B C N) as (c' & Hc & Hr & H1 & H2 & H3).
  rewrite Hc in H. injection H as ->. repeat split; auto; destruct (circ_unique A B C O (cO c) r (cr c)); auto; lra.
Qed.

Lemma circumcircle_none T : circumcircle T = Ok None <->
  tA T <> tB T /\ tA T <> tC T /\ collinear (tA T) (tB T) (tC T).
Proof.
  destruct T as [A B C]. cbn [tA tB tC]. split.
  - intros H. destruct (flatness (mkTri A B C)) eqn:E.
    + destruct (flatness_spec _ _ E) as (H1 & H2 & _ & Hf & _). cbn [tA tB tC] in *. split; auto. split; auto.
      destruct (collinear_dec A B C); auto. apply not_collinear_dbl in n.
      destruct (circumcircle_total A B C n) as (c & Hc & _). congruence.
    + unfold circumcircle in H. rewrite E in H. discriminate.
  - intros (H1 & H2 & H3). unfold circumcircle. destruct (flatness (mkTri A B C)) eqn:E.
    + destruct (flatness_spec _ _ E) as (_ & _ & _ & Hf & _). cbn [tA tB tC] in *. rewrite (proj2 Hf H3). cbn [bind].
      destruct (eqb 1 1) eqn:E1; auto. apply eqb_false in E1. lra.
    + apply flatness_raise in E. cbn [tA tB tC] in E. tauto.
Qed.

Lemma circumcircle_raise T e : circumcircle T = Raise e <-> e = ZeroDivisionError /\ (tA T = tB T \/ tA T = tC T).
Proof.
  destruct T as [A B C]. cbn [tA tB tC]. split.
  - intros H. destruct (flatness (mkTri A B C)) eqn:E.
    + exfalso. destruct (collinear_dec A B C).
      * destruct (flatness_spec _ _ E) as (H1 & H2 & _). 
        assert (circumcircle (mkTri A B C) = Ok None) by (apply circumcircle_none; cbn [tA tB tC] in *; auto). congruence.
      * apply not_collinear_dbl in n. destruct (circumcircle_total A B C n) as (c & Hc & _). congruence.
    + unfold circumcircle in H. rewrite E in H. cbn [bind] in H. injection H as ->. apply flatness_raise in E. auto.
  - intros H. apply (flatness_raise (mkTri A B C)) in H. unfold circumcircle. rewrite H. reflexivity.
Qed.

(** ** tritangent circles *)
Lemma line_tangent_at_foot A B O r t : A <> B -> 0 <= r ->
  t * dist2 A B = sdot (vsub O A) (vsub B A) -> scross (vsub B A) (vsub O A) * scross (vsub B A) (vsub O A) = r * r * dist2 A B ->
  line_tangent_at A B O r (at_line A B t).
Proof.
  intros HAB Hr Ht Hc. pose proof (dist2_pos _ _ HAB) as P. split; [exists t; auto|]. split.
  - transitivity (t * dist2 A B - sdot (vsub O A) (vsub B A)); [unspec; ring|lra].
  - change (on_circle O r (at_line A B t)). apply on_circle_sq; auto.
    apply (Rmult_eq_reg_r (dist2 A B)); [|lra]. rewrite <- Hc.
    transitivity (dist2 A O * dist2 A B - 2 * (t * dist2 A B) * sdot (vsub O A) (vsub B A) + (t * dist2 A B) * (t * dist2 A B)); [unspec; ring|].
    rewrite Ht. unspec. ring.
Qed.

(** centre (alpha A + beta B + gamma C) / sigma, with |alpha| = BC, ... *)
Lemma tritangent A B C al be ga : dbl A B C <> 0 -> al * al = dist2 B C -> be * be = dist2 A C -> ga * ga = dist2 A B ->
  let sg := al + be + ga in sg <> 0 ->
  line_tangent_at A B (bary (al / sg) (be / sg) (ga / sg) A B C) (Rabs (dbl A B C) / Rabs sg) (at_line A B ((be + ga - al) / (2 * ga))).
Proof.
  intros K Ha Hb Hc sg Hs. destruct (dbl_distinct _ _ _ K) as (HAB & HAC & HBC).
  pose proof (dist2_pos _ _ HAB) as P. assert (Hg : ga <> 0) by (intros ->; lra).
  set (O := bary _ _ _ A B C).
  assert (EO : vsub O A = vadd (vscal (be / sg) (vsub B A)) (vscal (ga / sg) (vsub C A))).
  { unfold O, bary. unspec. f_equal; unfold sg; field; fold sg; auto. }
  apply line_tangent_at_foot; auto.
  - apply Rmult_le_pos; [apply Rabs_pos|]. left. apply Rinv_0_lt_compat. apply Rabs_pos_lt. auto.
  - rewrite EO.
    transitivity (be / sg * dist2 A B + ga / sg * sdot (vsub B A) (vsub C A)); [|unspec; ring].
    assert (D : sdot (vsub B A) (vsub C A) = (ga * ga + be * be - al * al) / 2) by (pose proof (sdot_sides A B C); lra).
    rewrite D, <- Hc. unfold sg. field. fold sg. auto.
  - rewrite EO.
    transitivity ((ga / sg * dbl A B C) * (ga / sg * dbl A B C)); [unfold dbl; unspec; ring|].
    transitivity (Rabs (dbl A B C) * Rabs (dbl A B C) / (Rabs sg * Rabs sg) * (ga * ga)).
    + rewrite !Rabs_sq. field. auto.
    + rewrite <- Hc. field. apply Rabs_no_R0. auto.
Qed.

Lemma bary_perm1 u v w A B C : bary u v w A B C = bary v w u B C A.
Proof. unfold bary. f_equal; ring. Qed.
Lemma bary_swap u v w A B C : bary u v w A B C = bary v u w B A C.
Proof. unfold bary. f_equal; ring. Qed.

Lemma tritangent3 A B C al be ga : dbl A B C <> 0 -> al * al = dist2 B C -> be * be = dist2 A C -> ga * ga = dist2 A B ->
  let sg := al + be + ga in sg <> 0 ->
  let O := bary (al / sg) (be / sg) (ga / sg) A B C in
  let r := Rabs (dbl A B C) / Rabs sg in
  line_tangent_at A B O r (at_line A B ((be + ga - al) / (2 * ga))) /\
  line_tangent_at B C O r (at_line B C ((ga + al - be) / (2 * al))) /\
  line_tangent_at C A O r (at_line C A ((al + be - ga) / (2 * be))) /\ 0 < r.
Proof.
  intros K Ha Hb Hc sg Hs O r. split; [apply tritangent; auto|]. split; [|split].
  - pose proof (tritangent B C A be ga al) as H. rewrite dbl_perm in H. rewrite (dist2_sym C A), (dist2_sym B A) in H.
    specialize (H K Hb Hc Ha). cbn zeta in H. replace (be + ga + al) with sg in H by (unfold sg; ring).
    unfold O. rewrite bary_perm1. apply H; auto.
  - pose proof (tritangent C A B ga al be) as H. assert (E : dbl C A B = dbl A B C) by (rewrite <- dbl_perm; auto). rewrite E in H. 
    rewrite (dist2_sym C B), (dist2_sym C A) in H.
    specialize (H K Hc Ha Hb). cbn zeta in H. replace (ga + al + be) with sg in H by (unfold sg; ring).
    unfold O. rewrite bary_perm1, bary_perm1. apply H; auto.
  - apply Rmult_lt_0_compat; [apply Rabs_pos_lt; auto|]. apply Rinv_0_lt_compat, Rabs_pos_lt; auto.
Qed.

(** ** comb3 *)
Lemma comb3_ok u v w d A B C : d <> 0 -> comb3 u v w d A B C = Ok (bary (u / d) (v / d) (w / d) A B C).
Proof.
  intros H. unfold comb3, np_div. destruct Req_EM_T; [contradiction|]. cbn [bind]. unfold bary. unpt.
  do 2 f_equal; field; auto.
Qed.

Lemma Circle_init_pos O r : 0 < r -> Circle_init O r = Ok (mkCircle O r).
Proof. intros H. unfold Circle_init. destruct (leb r 0) eqn:E; auto. apply leb_true in E. lra. Qed.

(** ** incircle *)
Lemma incircle_total A B C : dbl A B C <> 0 ->
  let a := dist B C in let b := dist A C in let c := dist A B in let p := a + b + c in
  incircle (mkTri A B C) = Ok (mkCircle (bary (a / p) (b / p) (c / p) A B C) (Rabs (dbl A B C) / p)) /\ 0 < Rabs (dbl A B C) / p.
Proof.
  intros K a b c p. destruct (sides_pos _ _ _ K) as (Ha & Hb & Hc). destruct (sides_ineq _ _ _ K) as (I1 & I2 & I3).
  fold a in Ha, I1, I2, I3. fold b in Hb, I1, I2, I3. fold c in Hc, I1, I2, I3.
  assert (Hp : 0 < p) by (unfold p; lra).
  assert (Hr : 0 < Rabs (dbl A B C) / p) by (apply Rmult_lt_0_compat; [apply Rabs_pos_lt; auto|apply Rinv_0_lt_compat; auto]).
  split; auto. unfold incircle. cbn [tA tB tC]. rewrite (distance_dist B C), (distance_dist A C), (distance_dist B A), (dist_sym B A).
  fold a b c. fold p. unfold py_sqrt.
  pose proof (sides_area A B C) as S. cbn zeta in S. fold a b c in S. fold p in S.
  destruct Rlt_dec as [L|L].
  - exfalso. assert (0 <= p / 2 * (p / 2 - a) * (p / 2 - b) * (p / 2 - c)); [|lra].
    repeat apply Rmult_le_pos; unfold p; lra.
  - cbn [bind]. rewrite comb3_ok by lra. cbn [bind]. rewrite S. unfold np_div. destruct Req_EM_T; [lra|]. cbn [bind].
    replace (Rabs (dbl A B C) / 2 / (p / 2)) with (Rabs (dbl A B C) / p) by (field; lra). apply Circle_init_pos; auto.
Qed.

Lemma on_segment_at A B t : 0 <= t <= 1 -> on_segment A B (at_line A B t).
Proof. intros H. exists t. auto. Qed.

Lemma frac01 x y : 0 < x -> 0 < y -> 0 <= x / (x + y) <= 1.
Proof.
  intros. assert (x / (x + y) * (x + y) = x) by (field; lra). split.
  - apply Rmult_le_pos; [lra|]. left. apply Rinv_0_lt_compat. lra.
  - apply (Rmult_le_reg_r (x + y)); lra.
Qed.

Lemma incircle_spec A B C : ~ collinear A B C -> exists c, incircle (mkTri A B C) = Ok c /\ 0 < cr c /\
  inside_triangle A B C (cO c) /\
  (exists F, line_tangent_at A B (cO c) (cr c) F /\ on_segment A B F) /\
  (exists F, line_tangent_at B C (cO c) (cr c) F /\ on_segment B C F) /\
  (exists F, line_tangent_at C A (cO c) (cr c) F /\ on_segment C A F).
Proof.
  intros N. apply not_collinear_dbl in N. destruct (incircle_total A B C N) as (E & Hr).
  destruct (sides_pos _ _ _ N) as (Ha & Hb & Hc). destruct (sides_ineq _ _ _ N) as (I1 & I2 & I3).
  pose proof (dist_sq B C) as Qa. pose proof (dist_sq A C) as Qb. pose proof (dist_sq A B) as Qc.
  set (a := dist B C) in *. set (b := dist A C) in *. set (c := dist A B) in *. set (p := a + b + c) in *.
  assert (Hp : 0 < p) by (unfold p; lra).
  destruct (tritangent3 A B C a b c N Qa Qb Qc ltac:(fold p; lra)) as (T1 & T2 & T3 & _). fold p in T1, T2, T3.
  rewrite (Rabs_right p) in T1, T2, T3 by lra.
  eexists. split; [exact E|]. cbn [cO cr]. split; auto. split; [|split; [|split]].
  - exists (a / p), (b / p), (c / p). repeat split; try (apply Rmult_lt_0_compat; auto; apply Rinv_0_lt_compat; auto).
    unfold p; field. fold p. lra.
  - eexists. split; [exact T1|]. apply on_segment_at. replace (2 * c) with ((b + c - a) + (a + c - b)) by ring. apply frac01; lra.
  - eexists. split; [exact T2|]. apply on_segment_at. replace (2 * a) with ((c + a - b) + (a + b - c)) by ring. apply frac01; lra.
  - eexists. split; [exact T3|]. apply on_segment_at. replace (2 * b) with ((a + b - c) + (b + c - a)) by ring. apply frac01; lra.
Qed.

(** flat triangles have no incircle *)
Lemma heron_flat A B C : dbl A B C = 0 -> let a := dist B C in let b := dist A C in let c := dist A B in
  let s := (a + b + c) / 2 in s * (s - a) * (s - b) * (s - c) = 0.
Proof.
  intros K a b c s. pose proof (heron_poly A B C a b c (dist_sq _ _) (dist_sq _ _) (dist_sq _ _)) as H. rewrite K in H.
  transitivity ((a + b + c) * (- a + b + c) * (a - b + c) * (a + b - c) / 16); [unfold s; field|]. rewrite H. field.
Qed.

Lemma incircle_flat A B C : collinear A B C -> ~ (A = B /\ A = C) -> incircle (mkTri A B C) = Raise ValueError.
Proof.
  intros H N. assert (K : dbl A B C = 0) by (apply collinear_cross in H; auto).
  pose proof (heron_flat A B C K) as He. cbn zeta in He.
  pose proof (dist_nonneg B C) as Ha. pose proof (dist_nonneg A C) as Hb. pose proof (dist_nonneg A B) as Hc.
  assert (Hp : 0 < dist B C + dist A C + dist A B).
  { destruct (pt_eq_dec A B) as [E|E]; [destruct (pt_eq_dec A C) as [E'|E']; [tauto|]|];
    match goal with Q : ?x <> ?y |- _ => pose proof (dist_pos _ _ Q) end; lra. }
  unfold incircle. cbn [tA tB tC]. rewrite (distance_dist B C), (distance_dist A C), (distance_dist B A), (dist_sym B A).
  rewrite He. unfold py_sqrt. destruct Rlt_dec; [lra|]. cbn [bind]. rewrite comb3_ok by lra. cbn [bind].
  unfold np_div. destruct Req_EM_T; [lra|]. cbn [bind]. unfold Circle_init. rewrite sqrt_0.
  destruct leb eqn:E; auto. apply leb_false in E. unfold Rdiv in E. rewrite Rmult_0_l in E. lra.
Qed.

(** ** excircles *)
Lemma excircle_radius A B C : dbl A B C <> 0 -> let a := dist B C in let b := dist A C in let c := dist A B in
  let s := (a + b + c) / 2 in
  sqrt (s * (s - b) * (s - c) / (s - a)) = Rabs (dbl A B C) / (- a + b + c) /\ 0 <= s * (s - b) * (s - c) / (s - a).
Proof.
  intros K a b c s. destruct (sides_ineq _ _ _ K) as (I1 & I2 & I3). destruct (sides_pos _ _ _ K) as (Ha & Hb & Hc).
  fold a in Ha, I1, I2, I3. fold b in Hb, I1, I2, I3. fold c in Hc, I1, I2, I3.
  assert (Hx : 0 < - a + b + c) by lra.
  split.
  - apply sqrt_eq.
    + apply Rmult_le_pos; [apply Rabs_pos|]. left; apply Rinv_0_lt_compat; auto.
    + transitivity (Rabs (dbl A B C) * Rabs (dbl A B C) / ((- a + b + c) * (- a + b + c))); [field; lra|].
      rewrite Rabs_sq. pose proof (sides_heron A B C) as He. fold a b c in He.
      replace (dbl A B C * dbl A B C) with ((a + b + c) * (- a + b + c) * (a - b + c) * (a + b - c) / 4) by lra.
      unfold s. field. lra.
  - apply Rmult_le_pos; [repeat apply Rmult_le_pos; unfold s; lra|]. left. apply Rinv_0_lt_compat. unfold s; lra.
Qed.

Lemma Circle_init_np_pos O r : 0 < r -> Circle_init_np (Ok O) (Ok r) = Ok (Ok (mkCircle O r)).
Proof. intros H. unfold Circle_init_np. destruct (leb r 0) eqn:E; auto. apply leb_true in E. lra. Qed.

Lemma excircles_total A B C : dbl A B C <> 0 ->
  let a := dist B C in let b := dist A C in let c := dist A B in let k := Rabs (dbl A B C) in
  excircles (mkTri A B C) =
    Ok (mkCircle (bary (- a / (- a + b + c)) (b / (- a + b + c)) (c / (- a + b + c)) A B C) (k / (- a + b + c)),
        mkCircle (bary (a / (a - b + c)) (- b / (a - b + c)) (c / (a - b + c)) A B C) (k / (a - b + c)),
        mkCircle (bary (a / (a + b - c)) (b / (a + b - c)) (- c / (a + b - c)) A B C) (k / (a + b - c))).
Proof.
  intros K a b c k. destruct (sides_ineq _ _ _ K) as (I1 & I2 & I3). destruct (sides_pos _ _ _ K) as (Ha & Hb & Hc).
  fold a in Ha, I1, I2, I3. fold b in Hb, I1, I2, I3. fold c in Hc, I1, I2, I3.
  assert (Hk : 0 < k) by (apply Rabs_pos_lt; auto).
  unfold excircles. cbn [tA tB tC]. rewrite (distance_dist B C), (distance_dist A C), (distance_dist B A), (dist_sym B A).
  fold a b c. set (s := (a + b + c) / 2).
  rewrite !comb3_ok by lra.
  assert (RA : (let! q := np_div (s * (s - b) * (s - c)) (s - a) in py_sqrt q) = Ok (k / (- a + b + c))).
  { destruct (excircle_radius A B C K) as (E & P). cbn zeta in E, P. fold a b c in E, P. fold s in E, P.
    unfold np_div. destruct Req_EM_T; [unfold s in *; lra|]. cbn [bind]. unfold py_sqrt. destruct Rlt_dec; [lra|]. rewrite E. auto. }
  assert (RB : (let! q := np_div (s * (s - a) * (s - c)) (s - b) in py_sqrt q) = Ok (k / (a - b + c))).
  { destruct (excircle_radius B A C ltac:(rewrite dbl_swap; lra)) as (E & P). cbn zeta in E, P. rewrite (dist_sym B A) in E, P. fold a b c in E, P.
    rewrite dbl_swap, Rabs_Ropp in E. fold k in E.
    replace ((b + a + c) / 2) with s in E, P by (unfold s; lra).
    unfold np_div. destruct Req_EM_T; [unfold s in *; lra|]. cbn [bind]. unfold py_sqrt. destruct Rlt_dec; [lra|]. rewrite E. f_equal. f_equal. lra. }
  assert (RC : (let! q := np_div (s * (s - a) * (s - b)) (s - c) in py_sqrt q) = Ok (k / (a + b - c))).
  { assert (E3 : dbl C A B = dbl A B C) by (rewrite <- dbl_perm; auto).
    destruct (excircle_radius C A B ltac:(rewrite E3; auto)) as (E & P). cbn zeta in E, P. rewrite (dist_sym C A), (dist_sym C B) in E, P. fold a b c in E, P.
    rewrite E3 in E. fold k in E.
    replace ((c + a + b) / 2) with s in E, P by (unfold s; lra).
    replace (s * (s - b) * (s - a)) with (s * (s - a) * (s - b)) in E, P by ring. replace (s * (s - a) * (s - b)) with (s * (s - a) * (s - b)) by ring.
    unfold np_div. destruct Req_EM_T; [unfold s in *; lra|]. cbn [bind]. unfold py_sqrt. destruct Rlt_dec; [lra|]. rewrite E. f_equal. f_equal. lra. }
  rewrite RA, RB, RC.
  rewrite !Circle_init_np_pos by (apply Rmult_lt_0_compat; auto; apply Rinv_0_lt_compat; lra). reflexivity.
Qed.

Definition is_excircle (A B C : pt) (c : circle) : Prop :=
  0 < cr c /\ line_tangent A B (cO c) (cr c) /\ line_tangent C A (cO c) (cr c) /\
  (exists F, line_tangent_at B C (cO c) (cr c) F /\ on_segment B C F) /\
  opposite_sides B C A (cO c) /\ same_side A B C (cO c) /\ same_side C A B (cO c).

Lemma excircle_one A B C : dbl A B C <> 0 ->
  let a := dist B C in let b := dist A C in let c := dist A B in let q := - a + b + c in
  is_excircle A B C (mkCircle (bary (- a / q) (b / q) (c / q) A B C) (Rabs (dbl A B C) / q)).
Proof.
  intros K a b c q. destruct (sides_ineq _ _ _ K) as (I1 & I2 & I3). destruct (sides_pos _ _ _ K) as (Ha & Hb & Hc).
  fold a in Ha, I1, I2, I3. fold b in Hb, I1, I2, I3. fold c in Hc, I1, I2, I3.
  assert (Hq : 0 < q) by (unfold q; lra).
  destruct (tritangent3 A B C (- a) b c K) as (T1 & T2 & T3 & T4); try apply dist_sq; [transitivity (a * a); [ring|apply dist_sq]|fold q; lra|].
  fold q in T1, T2, T3, T4. rewrite (Rabs_right q) in T1, T2, T3, T4 by lra.
  pose proof (sqpos _ K) as K2.
  assert (Iq : 0 < / q) by (apply Rinv_0_lt_compat; auto).
  unfold is_excircle. cbn [cO cr]. split; auto. split; [eexists; exact T1|]. split; [eexists; exact T3|]. split; [|split; [|split]].
  - eexists. split; [exact T2|]. apply on_segment_at.
    replace ((c + - a - b) / (2 * - a)) with ((a + b - c) / ((a + b - c) + (a - b + c))) by (field; lra). apply frac01; lra.
  - assert (E : scross (vsub C B) (vsub A B) = dbl A B C) by (unfold dbl; unspec; ring).
    assert (E' : scross (vsub C B) (vsub (bary (- a / q) (b / q) (c / q) A B C) B) = - a / q * dbl A B C).
    { replace (b / q) with (1 - - a / q - c / q) by (unfold q; field; fold q; lra). unfold dbl, bary. unspec. ring. }
    unfold opposite_sides. rewrite E, E'. assert (0 < a * / q * (dbl A B C * dbl A B C)) by (apply Rmult_lt_0_compat; [apply Rmult_lt_0_compat|]; lra).
    unfold Rdiv. lra.
  - assert (E' : scross (vsub B A) (vsub (bary (- a / q) (b / q) (c / q) A B C) A) = c / q * dbl A B C).
    { replace (- a / q) with (1 - b / q - c / q) by (unfold q; field; fold q; lra). unfold dbl, bary. unspec. ring. }
    unfold same_side. fold (dbl A B C). rewrite E'. assert (0 < c * / q * (dbl A B C * dbl A B C)) by (apply Rmult_lt_0_compat; [apply Rmult_lt_0_compat|]; lra).
    unfold Rdiv. lra.
  - assert (E : scross (vsub A C) (vsub B C) = dbl A B C) by (unfold dbl; unspec; ring).
    assert (E' : scross (vsub A C) (vsub (bary (- a / q) (b / q) (c / q) A B C) C) = b / q * dbl A B C).
    { replace (c / q) with (1 - - a / q - b / q) by (unfold q; field; fold q; lra). unfold dbl, bary. unspec. ring. }
    unfold same_side. rewrite E, E'. assert (0 < b * / q * (dbl A B C * dbl A B C)) by (apply Rmult_lt_0_compat; [apply Rmult_lt_0_compat|]; lra).
    unfold Rdiv. lra.
Qed.

Lemma excircles_spec A B C : ~ collinear A B C -> exists cA cB cC,
  excircles (mkTri A B C) = Ok (cA, cB, cC) /\ is_excircle A B C cA /\ is_excircle B C A cB /\ is_excircle C A B cC.
Proof.
  intros N. apply not_collinear_dbl in N. rewrite (excircles_total A B C N). do 3 eexists. split; [reflexivity|].
  split; [|split].
  - apply (excircle_one A B C); auto.
  - pose proof (excircle_one B C A) as H. rewrite dbl_perm in H. specialize (H N). cbn zeta in H. rewrite (dist_sym C A), (dist_sym B A) in H.
    rewrite bary_perm1.
    replace (dist B C - dist A C + dist A B) with (- dist A C + dist A B + dist B C) by ring. exact H.
  - pose proof (excircle_one C A B) as H. assert (E : dbl C A B = dbl A B C) by (rewrite <- dbl_perm; auto). rewrite E in H.
    specialize (H N). cbn zeta in H. rewrite (dist_sym C B), (dist_sym C A) in H.
    rewrite bary_perm1, bary_perm1.
    replace (dist B C + dist A C - dist A B) with (- dist A B + dist B C + dist A C) by ring. exact H.
Qed.

Lemma exc_np J n x : n * x = 0 ->
  Circle_init_np J (let! q := np_div n x in py_sqrt q) = if Req_EM_T x 0 then Ok (Raise NonFinite) else Raise ValueError.
Proof.
  intros H. unfold np_div. destruct Req_EM_T as [E|E]; [reflexivity|]. cbn [bind].
  assert (n = 0) by (apply Rmult_integral in H; tauto). subst n.
  replace (0 / x) with 0 by (field; auto). unfold py_sqrt. destruct Rlt_dec; [lra|]. rewrite sqrt_0. cbn.
  destruct (leb 0 0) eqn:L; auto. apply leb_false in L. lra.
Qed.

Lemma excircles_flat A B C : collinear A B C -> ~ (A = B /\ A = C) -> excircles (mkTri A B C) = Raise ValueError.
Proof.
  intros H N. assert (K : dbl A B C = 0) by (apply collinear_cross in H; auto).
  pose proof (heron_flat A B C K) as He. cbn zeta in He.
  pose proof (dist_nonneg B C) as Ha. pose proof (dist_nonneg A C) as Hb. pose proof (dist_nonneg A B) as Hc.
  assert (Hp : 0 < dist B C + dist A C + dist A B).
  { destruct (pt_eq_dec A B) as [E|E]; [destruct (pt_eq_dec A C) as [E'|E']; [tauto|]|];
    match goal with Q : ?x <> ?y |- _ => pose proof (dist_pos _ _ Q) end; lra. }
  unfold excircles. cbn [tA tB tC]. rewrite (distance_dist B C), (distance_dist A C), (distance_dist B A), (dist_sym B A).
  set (s := (dist B C + dist A C + dist A B) / 2) in *.
  rewrite !exc_np by lra.
  destruct Req_EM_T; cbn [bind]; auto. destruct Req_EM_T; cbn [bind]; auto. destruct Req_EM_T; cbn [bind]; auto.
  exfalso. unfold s in *. lra.
Qed.

(** ** orthic triangle *)
Lemma xdiv_xinv b t : xdiv b (xinv t) = b * t.
Proof. unfold xinv, xdiv. destruct (eqb t 0) eqn:E; [apply eqb_true in E; subst; ring|apply eqb_false in E; field; auto]. Qed.

Lemma foot_bary A B C : B <> C ->
  altitude_foot A B C (bary 0 (sdot (vsub A C) (vsub B C) / dist2 B C) (sdot (vsub C B) (vsub A B) / dist2 B C) A B C).
Proof.
  intros H. pose proof (dist2_pos _ _ H) as P. set (t := sdot (vsub C B) (vsub A B) / dist2 B C).
  assert (Ht : t * dist2 B C = sdot (vsub C B) (vsub A B)) by (unfold t; field; lra).
  replace (sdot (vsub A C) (vsub B C) / dist2 B C) with (1 - t).
  2:{ apply (Rmult_eq_reg_r (dist2 B C)); [|lra]. rewrite Rmult_minus_distr_r, Ht. field_simplify; [|lra]. unspec. ring. }
  split.
  - exists t. unfold bary. unspec. f_equal; ring.
  - transitivity (t * dist2 B C - sdot (vsub C B) (vsub A B)); [unfold bary; unspec; ring|lra].
Qed.

Lemma orthic_spec A B C : A <> B -> A <> C -> B <> C -> exists T, orthic_triangle (mkTri A B C) = Ok T /\
  altitude_foot A B C (tA T) /\ altitude_foot B C A (tB T) /\ altitude_foot C A B (tC T).
Proof.
  intros HAB HAC HBC. pose proof (dist_pos _ _ HAB) as Pc. pose proof (dist_pos _ _ HAC) as Pb. pose proof (dist_pos _ _ HBC) as Pa.
  pose proof (foot_bary A B C HBC) as FA. pose proof (foot_bary B C A ltac:(auto)) as FB. pose proof (foot_bary C A B HAB) as FC.
  unfold orthic_triangle. cbn [tA tB tC]. rewrite (distance_dist B C), (distance_dist A C), (distance_dist B A), (dist_sym B A).
  rewrite (dist2_sym C A) in FB. rewrite <- (dist_sq B C) in FA. rewrite <- (dist_sq A C) in FB. rewrite <- (dist_sq A B) in FC.
  pose proof (sdot_sides A B C) as S1. pose proof (sdot_sides B A C) as S2. pose proof (sdot_sides C A B) as S3.
  rewrite (dist2_sym B A) in S2. rewrite (dist2_sym C A), (dist2_sym C B) in S3. rewrite <- !dist_sq in S1, S2, S3.
  set (a := dist B C) in *. set (b := dist A C) in *. set (c := dist A B) in *.
  unfold np_div. repeat (destruct Req_EM_T; [lra|]; cbn [bind]). rewrite !xdiv_xinv.
  unfold dot_. 
  set (x := fst (vsub C A) * _ + _). set (y := fst (vsub C B) * _ + _). set (z := fst (vsub A C) * _ + _).
  assert (Ex : x = (c * c + b * b - a * a) / 2) by (unfold x; revert S1; clear; unspec; intros; lra).
  assert (Ey : y = (c * c + a * a - b * b) / 2) by (unfold y; revert S2; clear; unspec; intros; lra).
  assert (Ez : z = (b * b + a * a - c * c) / 2) by (unfold z; revert S3; clear; unspec; intros; lra).
  assert (DA : b * (z / a / b) + c * (y / a / c) = a) by (rewrite Ey, Ez; field; lra).
  assert (DB : a * (z / a / b) + c * (x / b / c) = b) by (rewrite Ex, Ez; field; lra).
  assert (DC : a * (y / a / c) + b * (x / b / c) = c) by (rewrite Ex, Ey; field; lra).
  rewrite DA, DB, DC. rewrite !comb3_ok by lra. cbn [bind]. eexists. split; [reflexivity|]. cbn [tA tB tC]. split; [|split].
  - replace (bary _ _ _ A B C) with (bary 0 (sdot (vsub A C) (vsub B C) / (a * a)) (sdot (vsub C B) (vsub A B) / (a * a)) A B C); auto.
    f_equal; [field; lra| |]; [unfold z|unfold y]; unspec; field; lra.
  - rewrite bary_perm1. replace (bary _ _ _ B C A) with (bary 0 (sdot (vsub B A) (vsub C A) / (b * b)) (sdot (vsub A C) (vsub B C) / (b * b)) B C A); auto.
    f_equal; [field; lra| |]; [unfold x|unfold z]; unspec; field; lra.
  - rewrite bary_perm1, bary_perm1. replace (bary _ _ _ C A B) with (bary 0 (sdot (vsub C B) (vsub A B) / (c * c)) (sdot (vsub B A) (vsub C A) / (c * c)) C A B); auto.
    f_equal; [field; lra| |]; [unfold y|unfold x]; unspec; field; lra.
Qed.

(** ** random points *)
Lemma random_in_spec A B C r1 q : 0 <= r1 <= 1 -> 0 <= q <= 1 -> in_closed_triangle A B C (runif_in_triangle1_ A B C r1 q).
Proof.
  intros H1 H2. unfold runif_in_triangle1_. set (s := sqrt q). assert (0 <= s) by apply sqrt_pos.
  assert (s <= 1) by (rewrite <- sqrt_1; apply sqrt_le_1; lra).
  exists (1 - s), (s * (1 - r1)), (r1 * s). repeat split; try (apply Rmult_le_pos; lra); try lra; try ring.
  unfold bary. f_equal; ring.
Qed.

Lemma seg_weights A B s t : 0 <= t <= 1 -> s = 1 - t -> on_segment A B (vadd (vscal s A) (vscal t B)).
Proof. intros H ->. exists t. split; auto. unspec. f_equal; ring. Qed.

Lemma div01 x y : 0 < y -> 0 <= x <= y -> 0 <= x / y <= 1.
Proof.
  intros H1 H2. assert (x / y * y = x) by (field; lra). split; [apply Rmult_le_pos; [lra|left; apply Rinv_0_lt_compat; auto]|].
  apply (Rmult_le_reg_r y); lra.
Qed.

Lemma random_on_spec A B C u : 0 <= u <= dist A B + dist B C + dist C A ->
  match runif_on_triangle1_ A B C u with
  | Ok P => on_segment A B P \/ on_segment B C P \/ on_segment C A P
  | Raise e => e = NonFinite /\ A = B /\ u = 0
  end.
Proof.
  intros H. unfold runif_on_triangle1_. rewrite (distance_dist A B), (distance_dist B C), (distance_dist C A).
  pose proof (dist_nonneg A B) as Pc. pose proof (dist_nonneg C A) as Pb. pose proof (dist_nonneg B C) as Pa.
  destruct (leb u (dist A B)) eqn:E1; [apply leb_true in E1|apply leb_false in E1;
    destruct (leb u (dist A B + dist B C)) eqn:E2; [apply leb_true in E2|apply leb_false in E2]];
    unfold np_div; destruct Req_EM_T as [Z|Z]; cbn [bind].
  - split; auto. apply dist_0 in Z as Z'. split; auto. lra.
  - left. apply seg_weights; [apply div01; lra|field; auto].
  - exfalso. lra.
  - right; left. apply seg_weights; [apply div01; lra|field; auto].
  - exfalso. lra.
  - right; right. apply seg_weights; [apply div01; lra|field; auto].
Qed.
