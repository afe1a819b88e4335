(** * The constructions of the triangle do not depend on the order of the vertices. *)

From Coq Require Import Reals Lra Lia Psatz List Bool ZArith Permutation.
From Verif Require Import Base BaseLemmas Spec SpecLemmas SpecTriangle SpecSym ModelInternal ModelLine ModelCircle ModelAffine ModelEllipse ModelTransfo ModelTriangle PLine PTriangle PTriangle2 PTriangle3 PTriangle4 PTriangle5 PTriangle6 PSym PSym2.
Import ListNotations.
Local Open Scope R_scope.

Lemma perm3 {X} (A B C A' B' C' : X) : Permutation [A; B; C] [A'; B'; C'] ->
  (A' = A /\ B' = B /\ C' = C) \/ (A' = A /\ B' = C /\ C' = B) \/ (A' = B /\ B' = A /\ C' = C) \/
  (A' = B /\ B' = C /\ C' = A) \/ (A' = C /\ B' = A /\ C' = B) \/ (A' = C /\ B' = B /\ C' = A).
Proof.
  intros P. assert (I : In A' [A; B; C]) by (apply (Permutation_in _ (Permutation_sym P)); left; reflexivity).
  destruct I as [<-|[<-|[<-|[]]]].
  - apply Permutation_cons_inv in P. apply Permutation_length_2_inv in P as [E|E]; injection E as -> ->; tauto.
  - assert (Q : Permutation [A; C] [B'; C']). { apply (Permutation_cons_inv (a := B)). etransitivity; [apply perm_swap|exact P]. }
    apply Permutation_length_2_inv in Q as [E|E]; injection E as -> ->; tauto.
  - assert (Q : Permutation [A; B] [B'; C']). { apply (Permutation_cons_inv (a := C)). etransitivity; [|exact P]. apply (Permutation_trans (l' := [A; C; B])); [apply perm_swap|apply perm_skip, perm_swap]. }
    apply Permutation_length_2_inv in Q as [E|E]; injection E as -> ->; tauto.
Qed.

(** results attached to the vertices *)
Lemma attached {X} (V : pt -> pt -> pt -> X -> X -> X -> Prop) :
  (forall A B C x y z, V A B C x y z -> V B A C y x z) -> (forall A B C x y z, V A B C x y z -> V A C B x z y) ->
  forall A B C A' B' C' x y z, Permutation [A; B; C] [A'; B'; C'] -> V A B C x y z ->
  exists x' y' z', V A' B' C' x' y' z' /\ Permutation [(A, x); (B, y); (C, z)] [(A', x'); (B', y'); (C', z')].
Proof.
  intros S12 S23 A B C A' B' C' x y z P H.
  destruct (perm3 _ _ _ _ _ _ P) as [(->&->&->)|[(->&->&->)|[(->&->&->)|[(->&->&->)|[(->&->&->)|(->&->&->)]]]]].
  - exists x, y, z. auto.
  - exists x, z, y. split; [auto|]. apply perm_skip, perm_swap.
  - exists y, x, z. split; [auto|]. apply perm_swap.
  - exists y, z, x. split; [auto|]. etransitivity; [apply perm_swap|]. apply perm_skip, perm_swap.
  - exists z, x, y. split; [auto|]. etransitivity; [apply perm_skip, perm_swap|]. apply perm_swap.
  - exists z, y, x. split; [auto|]. etransitivity; [apply perm_swap|]. etransitivity; [apply perm_skip, perm_swap|]. apply perm_swap.
Qed.

Lemma invariant {X} (F : pt -> pt -> pt -> X) (N : pt -> pt -> pt -> Prop) :
  (forall A B C, N A B C -> N B A C) -> (forall A B C, N A B C -> N A C B) ->
  (forall A B C, N A B C -> F B A C = F A B C) -> (forall A B C, N A B C -> F A C B = F A B C) ->
  forall A B C A' B' C', Permutation [A; B; C] [A'; B'; C'] -> N A B C -> F A' B' C' = F A B C.
Proof.
  intros N12 N23 S12 S23 A B C A' B' C' P H.
  destruct (perm3 _ _ _ _ _ _ P) as [(->&->&->)|[(->&->&->)|[(->&->&->)|[(->&->&->)|[(->&->&->)|(->&->&->)]]]]]; auto.
  - rewrite S23, S12; auto.
  - rewrite S12, S23; auto.
  - rewrite S12, S23, S12; auto.
Qed.

Definition ndeg (A B C : pt) : Prop := dbl A B C <> 0.
Lemma ndeg12 A B C : ndeg A B C -> ndeg B A C.
Proof. unfold ndeg. rewrite dbl_swap. lra. Qed.
Lemma dbl_swap23 A B C : dbl A C B = - dbl A B C.
Proof. unfold dbl. unspec. ring. Qed.
Lemma ndeg23 A B C : ndeg A B C -> ndeg A C B.
Proof. unfold ndeg. rewrite dbl_swap23. lra. Qed.
Lemma ndeg_iff A B C : ~ collinear A B C <-> ndeg A B C.
Proof. apply not_collinear_dbl. Qed.

Lemma abs12 A B C : Rabs (dbl B A C) = Rabs (dbl A B C).
Proof. rewrite dbl_swap, Rabs_Ropp. reflexivity. Qed.
Lemma abs23 A B C : Rabs (dbl A C B) = Rabs (dbl A B C).
Proof. rewrite dbl_swap23, Rabs_Ropp. reflexivity. Qed.

Lemma bary12 u v w A B C : bary v u w B A C = bary u v w A B C.
Proof. unfold bary. f_equal; ring. Qed.
Lemma bary23 u v w A B C : bary u w v A C B = bary u v w A B C.
Proof. unfold bary. f_equal; ring. Qed.

Lemma incircle_perm A B C A' B' C' : Permutation [A; B; C] [A'; B'; C'] -> ~ collinear A B C -> incircle (mkTri A' B' C') = incircle (mkTri A B C).
Proof.
  intros P K. apply ndeg_iff in K. apply (invariant (fun A B C => incircle (mkTri A B C)) ndeg ndeg12 ndeg23); auto; clear; intros A B C K.
  - rewrite (proj1 (incircle_total A B C K)), (proj1 (incircle_total B A C (ndeg12 _ _ _ K))). cbv zeta. rewrite abs12, (dist_sym B A).
    replace (dist A C + dist B C + dist A B) with (dist B C + dist A C + dist A B) by ring. rewrite bary12. reflexivity.
  - rewrite (proj1 (incircle_total A B C K)), (proj1 (incircle_total A C B (ndeg23 _ _ _ K))). cbv zeta. rewrite abs23, (dist_sym C B).
    replace (dist B C + dist A B + dist A C) with (dist B C + dist A C + dist A B) by ring. rewrite bary23. reflexivity.
Qed.

Lemma circumcircle_perm A B C A' B' C' : Permutation [A; B; C] [A'; B'; C'] -> ~ collinear A B C -> circumcircle (mkTri A' B' C') = circumcircle (mkTri A B C).
Proof.
  intros P K. apply ndeg_iff in K. apply (invariant (fun A B C => circumcircle (mkTri A B C)) ndeg ndeg12 ndeg23); auto; clear; intros A B C K.
  - destruct (circumcircle_total _ _ _ K) as ([O r] & -> & R & H1 & H2 & H3). destruct (circumcircle_total _ _ _ (ndeg12 _ _ _ K)) as ([O' r'] & -> & R' & H1' & H2' & H3').
    cbn in *. destruct (circ_unique A B C O O' r r'); auto; try lra. subst. reflexivity.
  - destruct (circumcircle_total _ _ _ K) as ([O r] & -> & R & H1 & H2 & H3). destruct (circumcircle_total _ _ _ (ndeg23 _ _ _ K)) as ([O' r'] & -> & R' & H1' & H2' & H3').
    cbn in *. destruct (circ_unique A B C O O' r r'); auto; try lra. subst. reflexivity.
Qed.

Lemma excircles_perm A B C A' B' C' cA cB cC : Permutation [A; B; C] [A'; B'; C'] -> ~ collinear A B C -> excircles (mkTri A B C) = Ok (cA, cB, cC) ->
  exists cA' cB' cC', excircles (mkTri A' B' C') = Ok (cA', cB', cC') /\ Permutation [(A, cA); (B, cB); (C, cC)] [(A', cA'); (B', cB'); (C', cC')].
Proof.
  intros P K E. apply ndeg_iff in K.
  destruct (attached (fun A B C x y z => ndeg A B C /\ excircles (mkTri A B C) = Ok (x, y, z))) with (A := A) (B := B) (C := C) (A' := A') (B' := B') (C' := C') (x := cA) (y := cB) (z := cC)
    as (x' & y' & z' & (_ & E') & Q); auto; [| |exists x', y', z'; auto]; clear; intros A B C x y z (K & E).
  - split; [apply ndeg12; auto|]. rewrite (excircles_total _ _ _ K) in E. rewrite (excircles_total _ _ _ (ndeg12 _ _ _ K)). cbv zeta in *. injection E as <- <- <-.
    rewrite abs12, (dist_sym B A). set (a := dist B C). set (b := dist A C). set (c := dist A B).
    replace (- b + a + c) with (a - b + c) by ring. replace (b - a + c) with (- a + b + c) by ring. replace (b + a - c) with (a + b - c) by ring.
    rewrite !(bary12 _ _ _ A B C). reflexivity.
  - split; [apply ndeg23; auto|]. rewrite (excircles_total _ _ _ K) in E. rewrite (excircles_total _ _ _ (ndeg23 _ _ _ K)). cbv zeta in *. injection E as <- <- <-.
    rewrite abs23, (dist_sym C B). set (a := dist B C). set (b := dist A C). set (c := dist A B).
    replace (- a + c + b) with (- a + b + c) by ring. replace (a - c + b) with (a + b - c) by ring. replace (a + c - b) with (a - b + c) by ring.
    rewrite !(bary23 _ _ _ A B C). reflexivity.
Qed.

Lemma foot_unique A B C F F' : B <> C -> altitude_foot A B C F -> altitude_foot A B C F' -> F = F'.
Proof.
  intros N [[t ->] H] [[t' ->] H'].
  assert (E : (t - t') * dist2 B C = 0). { transitivity (sdot (vsub (at_line B C t) A) (vsub C B) - sdot (vsub (at_line B C t') A) (vsub C B)); [unspec; ring|]. unfold orthogonal in *. rewrite H, H'. ring. }
  apply Rmult_integral in E as [E|E]; [f_equal; lra|]. apply dist2_0 in E. contradiction.
Qed.

Lemma foot_sym A B C F : altitude_foot A C B F -> altitude_foot A B C F.
Proof.
  intros [[t ->] H]. split; [exists (1 - t); unfold at_line; unspec; f_equal; ring|].
  unfold orthogonal in *. transitivity (- sdot (vsub (at_line C B t) A) (vsub B C)); [unspec; ring|rewrite H; ring].
Qed.

Definition distinct3 (A B C : pt) : Prop := A <> B /\ A <> C /\ B <> C.

Lemma orthic_perm A B C A' B' C' T : Permutation [A; B; C] [A'; B'; C'] -> A <> B -> A <> C -> B <> C -> orthic_triangle (mkTri A B C) = Ok T ->
  exists T', orthic_triangle (mkTri A' B' C') = Ok T' /\ Permutation [(A, tA T); (B, tB T); (C, tC T)] [(A', tA T'); (B', tB T'); (C', tC T')].
Proof.
  intros P N1 N2 N3 E.
  destruct (attached (fun A B C x y z => distinct3 A B C /\ orthic_triangle (mkTri A B C) = Ok (mkTri x y z))) with (A := A) (B := B) (C := C) (A' := A') (B' := B') (C' := C') (x := tA T) (y := tB T) (z := tC T)
    as (x' & y' & z' & (_ & E') & Q); auto.
  3: { split; [split; auto|]. destruct T; exact E. } 3: { exists (mkTri x' y' z'). auto. }
  all: clear; intros A B C x y z ((N1 & N2 & N3) & E); assert (D : forall P Q : pt, P <> Q -> Q <> P) by auto.
  - split; [split; auto|]. destruct (orthic_spec A B C N1 N2 N3) as (T & ET & F1 & F2 & F3). destruct (orthic_spec B A C) as (T' & ET' & F1' & F2' & F3'); auto.
    rewrite ET in E. injection E as ->. rewrite ET'. cbn [tA tB tC] in *. destruct T' as [x' y' z']. cbn in *. f_equal. f_equal.
    + apply (foot_unique B A C); auto. apply foot_sym. auto. 
    + apply (foot_unique A B C); auto. apply foot_sym. auto.
    + apply (foot_unique C A B); auto. apply foot_sym. auto.
  - split; [split; auto|]. destruct (orthic_spec A B C N1 N2 N3) as (T & ET & F1 & F2 & F3). destruct (orthic_spec A C B) as (T' & ET' & F1' & F2' & F3'); auto.
    rewrite ET in E. injection E as ->. rewrite ET'. cbn [tA tB tC] in *. destruct T' as [x' y' z']. cbn in *. f_equal. f_equal.
    + apply (foot_unique A B C); auto. apply foot_sym. auto. 
    + apply (foot_unique C A B); auto. apply foot_sym. auto.
    + apply (foot_unique B C A); auto. apply foot_sym. auto.
Qed.

Lemma detour_eval A B C x y z S : Ravi A B C x y z S -> let P := detour_point S x y z A B C in
  equal_detour_point (mkTri A B C) = Ok (P, dist A P + dist B P - dist A B).
Proof.
  intros H. assert (N : dbl A B C <> 0).
  { destruct H as (Hx & Hy & Hz & HS & S2 & Ea & Eb & Ec & ES). intros E. rewrite E, Rabs_R0 in ES. lra. }
  destruct H as (Hx & Hy & Hz & HS & S2 & Ea & Eb & Ec & ES). pose proof (sides_area A B C) as SA. cbv zeta in SA.
  replace (Rabs (dbl A B C) / 2) with S in SA by lra.
  intros P. unfold equal_detour_point. cbn [tA tB tC]. rewrite (distance_dist B C), (distance_dist A C), (distance_dist B A), (dist_sym B A).
  rewrite Ea, Eb, Ec in *.
  set (hs := (y + z + (x + z) + (x + y)) / 2) in *.
  assert (Q : 0 <= hs * (hs - (y + z)) * (hs - (x + z)) * (hs - (x + y))) by (repeat apply Rmult_le_pos; unfold hs; lra).
  unfold py_sqrt. destruct Rlt_dec; [lra|]. cbn [bind]. rewrite SA.
  unfold np_div. destruct Req_EM_T; [lra|]. cbn [bind]. destruct Req_EM_T; [lra|]. cbn [bind]. destruct Req_EM_T; [lra|]. cbn [bind].
  replace (y + z + 2 * S / (x + z + (x + y) - (y + z))) with (detour_weight S x y z) by (unfold detour_weight; field; lra).
  replace (x + z + 2 * S / (x + y + (y + z) - (x + z))) with (detour_weight S y z x) by (unfold detour_weight; field; lra).
  replace (x + y + 2 * S / (y + z + (x + z) - (x + y))) with (detour_weight S z x y) by (unfold detour_weight; field; lra).
  fold (detour_sum S x y z).
  pose proof (detour_weight_pos S x y z Hx Hy Hz HS) as W0. pose proof (detour_weight_pos S y z x Hy Hz Hx HS) as W1. pose proof (detour_weight_pos S z x y Hz Hx Hy HS) as W2.
  assert (Psg : 0 < detour_sum S x y z) by (unfold detour_sum; lra).
  rewrite comb3_ok by lra. reflexivity.
Qed.

Lemma weight_sym S x y z : detour_weight S x z y = detour_weight S x y z.
Proof. unfold detour_weight. ring. Qed.

Lemma detour_swap12 S x y z A B C : detour_point S y x z B A C = detour_point S x y z A B C.
Proof.
  unfold detour_point. cbv zeta. assert (E : detour_sum S y x z = detour_sum S x y z) by (unfold detour_sum, detour_weight; ring).
  rewrite E. rewrite (bary12 _ _ _ A B C), (weight_sym S y z x), (weight_sym S x y z), (weight_sym S z x y). reflexivity.
Qed.

Lemma Ravi_swap23 A B C x y z S : Ravi A B C x y z S -> Ravi A C B x z y S.
Proof. intros H. apply Ravi_perm, Ravi_swap, Ravi_perm, Ravi_perm in H. exact H. Qed.

Lemma detour_swap23 S x y z A B C : detour_point S x z y A C B = detour_point S x y z A B C.
Proof. rewrite <- (detour_perm S x y z A B C), <- (detour_swap12 S y z x B C A), <- (detour_perm S z y x C B A), <- (detour_perm S y x z B A C). reflexivity. Qed.

Lemma incenter_swap23 A B C x y z : incenter A C B x z y = incenter A B C x y z.
Proof. rewrite <- (incenter_perm A B C x y z), <- (incenter_swap B C A y z x), <- (incenter_perm C B A z y x), <- (incenter_perm B A C y x z). reflexivity. Qed.

Lemma detour_perm3 A B C A' B' C' : Permutation [A; B; C] [A'; B'; C'] -> ~ collinear A B C -> equal_detour_point (mkTri A' B' C') = equal_detour_point (mkTri A B C).
Proof.
  intros P K. apply ndeg_iff in K. apply (invariant (fun A B C => equal_detour_point (mkTri A B C)) ndeg ndeg12 ndeg23); auto; clear; intros A B C K.
  - destruct (Ravi_ex _ _ _ K) as (x & y & z & S & H). rewrite (detour_eval A B C x y z S H), (detour_eval B A C y x z S (Ravi_swap _ _ _ _ _ _ _ H)). cbv zeta.
    rewrite detour_swap12. f_equal. f_equal. rewrite (dist_sym B A). ring.
  - pose proof (proj2 (ndeg_iff A B C) K) as K'. destruct (equal_detour_spec A B C K') as (Q & d & E & _ & E1 & E2 & E3).
    destruct (Ravi_ex _ _ _ K) as (x & y & z & S & H). rewrite (detour_eval A B C x y z S H) in E. cbv zeta in E. injection E as EQ Ed.
    rewrite (detour_eval A B C x y z S H), (detour_eval A C B x z y S (Ravi_swap23 _ _ _ _ _ _ _ H)). cbv zeta. rewrite detour_swap23, EQ. f_equal. f_equal.
    rewrite (dist_sym A Q), (dist_sym B Q), (dist_sym C Q). rewrite (dist_sym C A) in E3. lra.
Qed.

Lemma tangency_sym P Q r1 r2 : 0 < r1 -> 0 < r2 -> ext_tangent P r1 Q r2 -> tangency Q P r2 = tangency P Q r1.
Proof.
  intros H1 H2 H. unfold ext_tangent in H. unfold tangency. rewrite !vlength_dist, (dist_sym Q P), H. unfold np_div. destruct Req_EM_T; [lra|]. cbn [bind]. f_equal.
  unfold vadd, vscal, vsub. cbn. f_equal; field; lra.
Qed.

Lemma malfatti_perm A B C A' B' C' cA cB cC TA TB TC : Permutation [A; B; C] [A'; B'; C'] -> ~ collinear A B C ->
  malfatti_circles (mkTri A B C) = Ok (Some ((cA, cB, cC), (TA, TB, TC))) ->
  exists cA' cB' cC' TA' TB' TC', malfatti_circles (mkTri A' B' C') = Ok (Some ((cA', cB', cC'), (TA', TB', TC'))) /\
    Permutation [(A, (cA, TA)); (B, (cB, TB)); (C, (cC, TC))] [(A', (cA', TA')); (B', (cB', TB')); (C', (cC', TC'))].
Proof.
  intros P K E. apply ndeg_iff in K.
  destruct (attached (fun A B C (x y z : circle * pt) => ndeg A B C /\ malfatti_circles (mkTri A B C) = Ok (Some ((fst x, fst y, fst z), (snd x, snd y, snd z)))))
    with (A := A) (B := B) (C := C) (A' := A') (B' := B') (C' := C') (x := (cA, TA)) (y := (cB, TB)) (z := (cC, TC))
    as ([x' x''] & [y' y''] & [z' z''] & (_ & E') & Q); auto; [| |exists x', y', z', x'', y'', z''; auto]; clear; intros A B C [x x'] [y y'] [z z'] (K & E); cbn [fst snd] in *.
  - split; [apply ndeg12; auto|]. destruct (Ravi_ex _ _ _ K) as (p & q & r & S & H).
    destruct (malfatti_eval _ _ _ _ _ _ _ H) as ((D1 & D2 & D3) & X1 & X2 & X3 & F). destruct (malfatti_eval _ _ _ _ _ _ _ (Ravi_swap _ _ _ _ _ _ _ H)) as (_ & _ & _ & _ & F').
    destruct H as (Hx & Hy & Hz & HS & _). cbv zeta in *. rewrite F in E. rewrite F'. clear F F'. rewrite incenter_swap. replace (q + p + r) with (p + q + r) by ring.
    set (I0 := incenter A B C p q r) in *. set (u := dist A I0) in *. set (v := dist B I0) in *. set (w := dist C I0) in *. set (s := p + q + r) in *. set (rr := S / s) in *.
    replace (u + w - v) with (w + u - v) by ring. replace (w + v - u) with (v + w - u) by ring. replace (v + u - w) with (u + v - w) by ring.
    set (d1 := (s - rr - (v + w - u)) / 2) in *. set (d2 := (s - rr - (w + u - v)) / 2) in *. set (d3 := (s - rr - (u + v - w)) / 2) in *. cbn [cO cr] in *.
    assert (R0 : 0 < rr) by (apply Rdiv_lt_0_compat; unfold s; lra).
    assert (R1 : 0 < rr * d1 / p) by (apply Rdiv_lt_0_compat; [apply Rmult_lt_0_compat|]; lra). assert (R2 : 0 < rr * d2 / q) by (apply Rdiv_lt_0_compat; [apply Rmult_lt_0_compat|]; lra).
    rewrite (tangency_sym _ _ _ _ R1 R2 X1).
    destruct (tangency (mcenter B I0 (d2 / q)) _ _); [|discriminate]. cbn [bind] in *. destruct (tangency (mcenter A I0 (d1 / p)) (mcenter C I0 (d3 / r)) _); [|discriminate]. cbn [bind] in *.
    destruct (tangency (mcenter A I0 (d1 / p)) (mcenter B I0 (d2 / q)) _); [|discriminate]. cbn [bind] in *. injection E as <- <- <- <- <- <-. reflexivity.
  - split; [apply ndeg23; auto|]. destruct (Ravi_ex _ _ _ K) as (p & q & r & S & H).
    destruct (malfatti_eval _ _ _ _ _ _ _ H) as ((D1 & D2 & D3) & X1 & X2 & X3 & F). destruct (malfatti_eval _ _ _ _ _ _ _ (Ravi_swap23 _ _ _ _ _ _ _ H)) as (_ & _ & _ & _ & F').
    destruct H as (Hx & Hy & Hz & HS & _). cbv zeta in *. rewrite F in E. rewrite F'. clear F F'. rewrite incenter_swap23. replace (p + r + q) with (p + q + r) by ring.
    set (I0 := incenter A B C p q r) in *. set (u := dist A I0) in *. set (v := dist B I0) in *. set (w := dist C I0) in *. set (s := p + q + r) in *. set (rr := S / s) in *.
    replace (u + w - v) with (w + u - v) by ring. replace (w + v - u) with (v + w - u) by ring. replace (v + u - w) with (u + v - w) by ring.
    set (d1 := (s - rr - (v + w - u)) / 2) in *. set (d2 := (s - rr - (w + u - v)) / 2) in *. set (d3 := (s - rr - (u + v - w)) / 2) in *. cbn [cO cr] in *.
    assert (R0 : 0 < rr) by (apply Rdiv_lt_0_compat; unfold s; lra).
    assert (R3 : 0 < rr * d3 / r) by (apply Rdiv_lt_0_compat; [apply Rmult_lt_0_compat|]; lra). assert (R2 : 0 < rr * d2 / q) by (apply Rdiv_lt_0_compat; [apply Rmult_lt_0_compat|]; lra).
    rewrite (tangency_sym _ _ _ _ R2 R3 X2).
    destruct (tangency (mcenter B I0 (d2 / q)) _ _); [|discriminate]. cbn [bind] in *. destruct (tangency (mcenter A I0 (d1 / p)) (mcenter C I0 (d3 / r)) _); [|discriminate]. cbn [bind] in *.
    destruct (tangency (mcenter A I0 (d1 / p)) (mcenter B I0 (d2 / q)) _); [|discriminate]. cbn [bind] in *. injection E as <- <- <- <- <- <-. reflexivity.
Qed.

Lemma inside_swap12 A B C M : inside_triangle A B C M -> inside_triangle B A C M.
Proof. intros (u & v & w & Hu & Hv & Hw & Hs & ->). exists v, u, w. split; [auto|split; [auto|split; [auto|split; [lra|]]]]. symmetry. apply bary12. Qed.
Lemma inside_swap23 A B C M : inside_triangle A B C M -> inside_triangle A C B M.
Proof. intros (u & v & w & Hu & Hv & Hw & Hs & ->). exists u, w, v. split; [auto|split; [auto|split; [auto|split; [lra|]]]]. symmetry. apply bary23. Qed.

Lemma contains_perm A B C A' B' C' M : Permutation [A; B; C] [A'; B'; C'] -> triangle_contains (mkTri A' B' C') M = triangle_contains (mkTri A B C) M.
Proof.
  intros P. apply (invariant (fun A B C => triangle_contains (mkTri A B C) M) (fun _ _ _ => True)); auto; clear; intros A B C _.
  - apply eq_true_iff_eq. rewrite !contains_spec. cbn [tA tB tC]. rewrite !ndeg_iff. split; intros [H1 H2]; split; try (apply ndeg12; assumption); apply inside_swap12; assumption.
  - apply eq_true_iff_eq. rewrite !contains_spec. cbn [tA tB tC]. rewrite !ndeg_iff. split; intros [H1 H2]; split; try (apply ndeg23; assumption); apply inside_swap23; assumption.
Qed.

Lemma sides_perm A B C A' B' C' : Permutation [A; B; C] [A'; B'; C'] -> let T := mkTri A B C in let T' := mkTri A' B' C' in
  Permutation [(A, side_a T); (B, side_b T); (C, side_c T)] [(A', side_a T'); (B', side_b T'); (C', side_c T')].
Proof.
  intros P T T'. destruct (attached (fun A B C x y z => let T := mkTri A B C in side_a T = x /\ side_b T = y /\ side_c T = z)) with (A := A) (B := B) (C := C) (A' := A') (B' := B') (C' := C') (x := side_a T) (y := side_b T) (z := side_c T)
    as (x' & y' & z' & (E1 & E2 & E3) & Q); auto; [| |subst; exact Q];
  clear; intros A B C x y z; unfold side_a, side_b, side_c; cbn [tA tB tC]; rewrite !distance_dist; intros (<- & <- & <-); repeat split; apply dist_sym.
Qed.

