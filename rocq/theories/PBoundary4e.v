(** * from_boundary4: the theorems for any four points. *)

From Coq Require Import Reals Lra Lia Psatz List Bool Permutation.
From Verif Require Import Base BaseLemmas Spec SpecLemmas SpecBoundary4 ModelInternal ModelLine ModelCircle ModelAffine ModelEllipse ModelBoundary4
  PLine PTransfo PEllipse PEllipse5 PEllipse6 PBoundary4a PBoundary4b PBoundary4c PBoundary4d.
Import ListNotations.
Local Open Scope R_scope.

Lemma convex_cw P1 P2 P3 P4 : convex_position P1 P2 P3 P4 -> exists A B C D, Permutation [P1; P2; P3; P4] [A; B; C; D] /\ cwquad A B C D.
Proof.
  intros (A & B & C & D & s & t & HP & Hs & Ht & HX & HN).
  assert (HN' : scross (vsub B A) (vsub C A) <> 0) by (intros Z; apply HN, collinear_cross; auto).
  set (X := at_line A C s) in *. set (u := vsub C A). set (v := vsub D B).
  assert (EA : A = vsub X (vscal s u)) by (unfold X, u; destruct A, C; unfold at_line, vsub, vadd, vscal; cbn [fst snd]; pteq; ring).
  assert (EC : C = vadd X (vscal (1 - s) u)) by (unfold X, u; destruct A, C; unfold at_line, vsub, vadd, vscal; cbn [fst snd]; pteq; ring).
  assert (EB : B = vsub X (vscal t v)) by (rewrite HX; unfold v; destruct B, D; unfold at_line, vsub, vadd, vscal; cbn [fst snd]; pteq; ring).
  assert (ED : D = vadd X (vscal (1 - t) v)) by (rewrite HX; unfold v; destruct B, D; unfold at_line, vsub, vadd, vscal; cbn [fst snd]; pteq; ring).
  assert (EN : scross (vsub B A) (vsub C A) = t * scross u v).
  { fold u. rewrite EB, EA. clearbody X u v. destruct X, u, v. unfold scross, vsub, vadd, vscal; cbn [fst snd]. ring. }
  rewrite EN in HN'. assert (K : scross u v <> 0) by (intros Z; apply HN'; rewrite Z; ring).
  destruct (Rlt_dec (scross u v) 0) as [L|L].
  - exists A, B, C, D. split; [auto|]. exists X, u, v, s, t. repeat (split; [assumption|]). assumption.
  - exists A, D, C, B. split. { etransitivity; [exact HP|]. apply perm_skip. etransitivity; [apply (Permutation_rev [B; C; D])|]. reflexivity. }
    exists X, u, (vscal (-1) v), s, (1 - t). split. { replace (scross u (vscal (-1) v)) with (- scross u v) by (unfold scross, vscal; cbn [fst snd]; ring). lra. }
    split; [lra|]. split; [lra|]. split; [auto|]. split. { rewrite ED. unfold vsub, vadd, vscal; cbn [fst snd]. pteq; ring. }
    split; [auto|]. rewrite EB. unfold vsub, vadd, vscal; cbn [fst snd]. pteq; ring.
Qed.

Lemma convex_sorted argsort P1 P2 P3 P4 : is_argsort argsort -> convex_position P1 P2 P3 P4 -> exists p0 p1 p2 p3,
  b4_sort argsort P1 P2 P3 P4 = [p0; p1; p2; p3] /\ Permutation [P1; P2; P3; P4] [p0; p1; p2; p3] /\ cwquad p0 p1 p2 p3.
Proof.
  intros HA HC. destruct (sort_spec argsort P1 P2 P3 P4 HA) as (p0 & p1 & p2 & p3 & E & HP & HS).
  exists p0, p1, p2, p3. split; [auto|]. split; [auto|]. destruct (convex_cw _ _ _ _ HC) as (A & B & C & D & HP2 & HQ).
  apply (sorted_cw A B C D); auto. - etransitivity; [apply Permutation_sym; exact HP2|exact HP]. - rewrite (mean4_perm _ _ _ _ _ _ _ _ HP2). exact HS.
Qed.

Lemma Forall_perm {T} (P : T -> Prop) l l' : Permutation l l' -> Forall P l -> Forall P l'.
Proof. intros HP HF. rewrite Forall_forall in *. intros x Hx. apply HF. apply (Permutation_in _ (Permutation_sym HP)). auto. Qed.

Lemma is_smallest_perm e l l' : Permutation l l' -> is_smallest e l -> is_smallest e l'.
Proof.
  intros HP [H1 H2]. split; [eapply Forall_perm; eauto|]. intros O a b th Ha Hb HF. apply H2; auto. eapply Forall_perm; [apply Permutation_sym; exact HP|auto].
Qed.

Lemma boundary4_smallest argsort roots eigh P1 P2 P3 P4 : is_argsort argsort -> is_roots roots -> (forall S, is_eigh S (eigh S)) ->
  convex_position P1 P2 P3 P4 -> exists e, from_boundary4 true argsort roots eigh P1 P2 P3 P4 = Ok e /\ 0 < eb e <= ea e /\ is_smallest e [P1; P2; P3; P4].
Proof.
  intros HA HR HE HC. destruct (convex_sorted argsort _ _ _ _ HA HC) as (p0 & p1 & p2 & p3 & E & HP & HQ).
  destruct (sorted_smallest roots eigh _ _ _ _ HR HE HQ) as (e & Ee & Hax & HS). exists e. unfold from_boundary4. rewrite E. split; [auto|]. split; [auto|].
  eapply is_smallest_perm; [apply Permutation_sym; exact HP|auto].
Qed.

(** ** any four sorted points with diagonals that are not parallel *)
Lemma sorted_form p0 p1 p2 p3 : let u := vsub p2 p0 in let v := vsub p3 p1 in scross u v <> 0 ->
  exists X s t, p0 = vsub X (vscal s u) /\ p1 = vsub X (vscal t v) /\ p2 = vadd X (vscal (1 - s) u) /\ p3 = vadd X (vscal (1 - t) v) /\
  s * scross u v = scross (vsub p1 p0) v /\ t * scross u v = scross (vsub p1 p0) u.
Proof.
  intros u v K. set (s := scross (vsub p1 p0) v / scross u v). set (t := scross (vsub p1 p0) u / scross u v).
  exists (vadd p0 (vscal s u)), s, t.
  assert (ET : vadd p0 (vscal s u) = vadd p1 (vscal t v)).
  { unfold s, t. unfold u, v in *. destruct p0, p1, p2, p3. unfold scross, vsub, vadd, vscal in *; cbn [fst snd] in *. pteq; field; auto. }
  split. { unfold vsub, vadd, vscal; cbn [fst snd]. pteq; ring. }
  split. { rewrite ET. unfold vsub, vadd, vscal; cbn [fst snd]. pteq; ring. }
  split. { unfold u. clearbody s. unfold vsub, vadd, vscal; cbn [fst snd]. pteq; ring. }
  split. { rewrite ET. unfold v. clearbody t. unfold vsub, vadd, vscal; cbn [fst snd]. pteq; ring. }
  split; [unfold s|unfold t]; field; auto.
Qed.

Lemma diag_sing p0 p1 p2 p3 : scross (vsub p2 p0) (vsub p3 p1) = 0 -> b4_diag p0 p1 p2 p3 = Raise LinAlgError.
Proof.
  intros H. unfold b4_diag. rewrite solve2_sing; [reflexivity|]. rewrite <- (Rmult_0_r (-1)), <- H.
  destruct p0, p1, p2, p3. unfold det2, cols, scross, vsub; cbn [m11 m12 m21 m22 fst snd]. ring.
Qed.

Lemma sorted_raise npfloat roots eigh p0 p1 p2 p3 : scross (vsub p2 p0) (vsub p3 p1) = 0 ->
  boundary4_sorted npfloat roots eigh p0 p1 p2 p3 = Raise LinAlgError.
Proof. intros H. unfold boundary4_sorted. rewrite diag_sing; auto. Qed.

Lemma boundary4_new argsort roots eigh P1 P2 P3 P4 : is_argsort argsort ->
  (exists x, from_boundary4 false argsort roots eigh P1 P2 P3 P4 = Raise (b4_raise x)) /\
  (convex_position P1 P2 P3 P4 -> from_boundary4 false argsort roots eigh P1 P2 P3 P4 = Raise AttributeError).
Proof.
  intros HA. split.
  - destruct (sort_spec argsort P1 P2 P3 P4 HA) as (p0 & p1 & p2 & p3 & E & _ & _). unfold from_boundary4. rewrite E.
    destruct (Req_dec (scross (vsub p2 p0) (vsub p3 p1)) 0) as [Z|Z].
    + exists B4Lin. apply sorted_raise. auto.
    + exists B4Attr. destruct (sorted_form p0 p1 p2 p3 Z) as (X & s & t & E0 & E1 & E2 & E3 & _). pose proof (sorted_new X (vsub p2 p0) (vsub p3 p1) s t Z roots eigh) as H. rewrite <- E0, <- E1, <- E2, <- E3 in H. exact H.
  - intros HC. destruct (convex_sorted argsort _ _ _ _ HA HC) as (p0 & p1 & p2 & p3 & E & _ & (X & u & v & s & t & Hk & _ & _ & -> & -> & -> & ->)).
    unfold from_boundary4. rewrite E. apply sorted_new. lra.
Qed.

Lemma sorted_general roots eigh p0 p1 p2 p3 : is_roots roots -> (forall S, is_eigh S (eigh S)) -> scross (vsub p2 p0) (vsub p3 p1) <> 0 ->
  ~ collinear p0 p1 p2 -> ~ collinear p0 p1 p3 -> ~ collinear p0 p2 p3 -> ~ collinear p1 p2 p3 ->
  exists e, boundary4_sorted true roots eigh p0 p1 p2 p3 = Ok e /\ 0 < eb e <= ea e /\ Forall (on_ellipse (eO e) (ea e) (eb e) (ell_th e)) [p0; p1; p2].
Proof.
  intros HR HE K N1 N2 N3 N4. rewrite collinear_cross in N1, N2, N3, N4.
  destruct (sorted_form p0 p1 p2 p3 K) as (X & s & t & E0 & E1 & E2 & E3 & Es & Et).
  set (u := vsub p2 p0) in *. set (v := vsub p3 p1) in *.
  assert (s0 : s <> 0). { intros Z. rewrite Z in Es. apply N2. rewrite Rmult_0_l in Es. symmetry in Es. rewrite <- Es. unfold v, scross, vsub; cbn [fst snd]. ring. }
  assert (s1 : s <> 1). { intros Z. rewrite Z in Es. apply N4. transitivity (- (scross (vsub p1 p0) v - 1 * scross u v)); [unfold u, v, scross, vsub; cbn [fst snd]; ring|lra]. }
  assert (t0 : t <> 0). { intros Z. rewrite Z in Et. apply N1. rewrite Rmult_0_l in Et. symmetry in Et. exact Et. }
  assert (t1 : t <> 1). { intros Z. rewrite Z in Et. apply N3. transitivity (1 * scross u v - scross (vsub p1 p0) u); [rewrite Et; fold u|lra]. 
    transitivity (scross u v - scross (vsub p1 p0) u - (1 * scross u v - scross (vsub p1 p0) u) + (1 * scross u v - scross (vsub p1 p0) u)); [unfold u, v, scross, vsub; cbn [fst snd]; ring|lra]. }
  destruct (sorted_frame X u v s t K s0 s1 t0 t1 roots eigh HR HE) as (i & j & al & be & z & p & q' & c & r & e & Hij & _ & _ & _ & F0 & F1 & F2 & F3 & _ & Ee & _ & _ & _ & _ & Hr & C0 & C1 & C2 & Hax & HF).
  rewrite <- E0, <- E1, <- E2, <- E3 in Ee. rewrite <- E0 in F0. rewrite <- E1 in F1. rewrite <- E2 in F2.
  exists e. split; [exact Ee|]. split; [auto|]. assert (Hrr : 0 < r * r) by (apply Rmult_lt_0_compat; auto).
  repeat constructor; unfold on_ellipse; [rewrite F0|rewrite F1|rewrite F2]; rewrite HF; [rewrite C0|rewrite C1|rewrite C2]; field; lra.
Qed.

Lemma collinear_rot A B C : collinear A B C -> collinear B C A.
Proof. rewrite !collinear_cross. intros H. rewrite <- H. unfold scross, vsub; cbn [fst snd]. ring. Qed.
Lemma collinear_swap A B C : collinear A B C -> collinear B A C.
Proof. rewrite !collinear_cross. intros H. transitivity (- scross (vsub B A) (vsub C A)); [unfold scross, vsub; cbn [fst snd]; ring|lra]. Qed.

Lemma no_three_perm P1 P2 P3 P4 p0 p1 p2 p3 : Permutation [P1; P2; P3; P4] [p0; p1; p2; p3] -> no_three_collinear P1 P2 P3 P4 -> no_three_collinear p0 p1 p2 p3.
Proof.
  apply (perm4_ind no_three_collinear); intros a b c d (H1 & H2 & H3 & H4); repeat split; intros Z.
  - apply H1, collinear_swap; auto. - apply H2, collinear_swap; auto. - apply H4; auto. - apply H3; auto.
  - apply H4; auto. - apply H1, collinear_rot, collinear_rot; auto. - apply H2, collinear_rot, collinear_rot; auto. - apply H3, collinear_rot, collinear_rot; auto.
Qed.

Lemma parallel_sym u v : parallel u v -> parallel v u.
Proof. unfold parallel. tauto. Qed.

Lemma no_two_perm P1 P2 P3 P4 p0 p1 p2 p3 : Permutation [P1; P2; P3; P4] [p0; p1; p2; p3] -> no_two_parallel P1 P2 P3 P4 -> no_two_parallel p0 p1 p2 p3.
Proof.
  apply (perm4_ind no_two_parallel); intros a b c d (H1 & H2 & H3); unfold no_two_parallel; rewrite !parallel_cross in *;
  unfold scross, vsub in *; cbn [fst snd] in *; repeat split; intros Z; [apply H1|apply H3|apply H2|apply H3|apply H2|apply H1]; lra.
Qed.

Lemma boundary4_general argsort roots eigh P1 P2 P3 P4 : is_argsort argsort -> is_roots roots -> (forall S, is_eigh S (eigh S)) ->
  no_three_collinear P1 P2 P3 P4 ->
  ((exists A B C D, Permutation [P1; P2; P3; P4] [A; B; C; D] /\ parallel (vsub C A) (vsub D B)) /\
    from_boundary4 true argsort roots eigh P1 P2 P3 P4 = Raise LinAlgError) \/
  (exists e A B C D, from_boundary4 true argsort roots eigh P1 P2 P3 P4 = Ok e /\ 0 < eb e <= ea e /\
    Permutation [P1; P2; P3; P4] [A; B; C; D] /\ Forall (on_ellipse (eO e) (ea e) (eb e) (ell_th e)) [A; B; C]).
Proof.
  intros HA HR HE HN. destruct (sort_spec argsort P1 P2 P3 P4 HA) as (p0 & p1 & p2 & p3 & E & HP & _).
  destruct (no_three_perm _ _ _ _ _ _ _ _ HP HN) as (N1 & N2 & N3 & N4). unfold from_boundary4. rewrite E.
  destruct (Req_dec (scross (vsub p2 p0) (vsub p3 p1)) 0) as [Z|Z].
  - left. split; [|apply sorted_raise; auto]. exists p0, p1, p2, p3. split; [auto|]. apply parallel_cross. auto.
  - right. destruct (sorted_general roots eigh p0 p1 p2 p3 HR HE Z N1 N2 N3 N4) as (e & Ee & Hax & HF). exists e, p0, p1, p2, p3. auto.
Qed.

(** ** a point inside the triangle of three points of an ellipse is inside the ellipse *)
Lemma inside_form O a b th A B C x y z : 0 < a -> 0 < b -> on_ellipse O a b th A -> on_ellipse O a b th B -> on_ellipse O a b th C ->
  0 < x -> 0 < y -> 0 < z -> x + y + z = 1 -> A <> B -> ell_form O a b th (vadd (vscal x A) (vadd (vscal y B) (vscal z C))) < 1.
Proof.
  intros Ha Hb HA HB HC Hx Hy Hz Hs Hn. destruct (ell_quad O a b th Ha Hb) as (m & n & l & Hm & HD & HF). unfold on_ellipse in *. rewrite HF in *.
  assert (D : 0 < m * l - n * n). { assert (0 < a * b * (a * b)) by (repeat apply Rmult_lt_0_compat; auto). clear - HD H. nra. }
  clear HF HD Ha Hb. destruct A as [a1 a2], B as [b1 b2], C as [c1 c2], O as [o1 o2]. unfold vadd, vscal; cbn [fst snd] in *.
  replace (x * a1 + (y * b1 + z * c1) - o1) with (x * (a1 - o1) + (y * (b1 - o1) + z * (c1 - o1))) by (transitivity (x * a1 + (y * b1 + z * c1) - (x + y + z) * o1); [ring|rewrite Hs; ring]).
  replace (x * a2 + (y * b2 + z * c2) - o2) with (x * (a2 - o2) + (y * (b2 - o2) + z * (c2 - o2))) by (transitivity (x * a2 + (y * b2 + z * c2) - (x + y + z) * o2); [ring|rewrite Hs; ring]).
  assert (Hab : a1 - o1 <> b1 - o1 \/ a2 - o2 <> b2 - o2).
  { destruct (Req_dec a1 b1) as [Z|Z]; [|left; lra]. right. intros Z2. apply Hn. f_equal; lra. }
  set (u1 := a1 - o1) in *. set (u2 := a2 - o2) in *. set (v1 := b1 - o1) in *. set (v2 := b2 - o2) in *. set (w1 := c1 - o1) in *. set (w2 := c2 - o2) in *. clearbody u1 u2 v1 v2 w1 w2.
  set (Q := fun p q => m * (p * p) + 2 * n * (p * q) + l * (q * q)).
  assert (QP : forall p q, 0 <= Q p q /\ (p <> 0 \/ q <> 0 -> 0 < Q p q)).
  { intros p q. assert (E : m * Q p q = (m * p + n * q) * (m * p + n * q) + (m * l - n * n) * (q * q)) by (unfold Q; ring).
    pose proof (sqnn (m * p + n * q)) as S1. assert (S2 : 0 <= (m * l - n * n) * (q * q)) by (apply Rmult_le_pos; [lra|apply sqnn]). split.
    - clear - E S1 S2 Hm. nra.
    - intros Hpq. assert (0 < m * Q p q); [|clear - H Hm; nra]. rewrite E. destruct (Req_dec q 0) as [Z|Z].
      + subst q. assert (P0 : m * p + n * 0 <> 0). { intros W. assert (p = 0); [|tauto]. apply Rmult_eq_reg_l with m; lra. } pose proof (sqpos _ P0). lra.
      + pose proof (sqpos _ Z). assert (0 < (m * l - n * n) * (q * q)) by (apply Rmult_lt_0_compat; auto). lra. }
  pose proof (proj2 (QP (u1 - v1) (u2 - v2)) ltac:(destruct Hab; [left|right]; lra)) as Q1. pose proof (proj1 (QP (u1 - w1) (u2 - w2))) as Q2. pose proof (proj1 (QP (v1 - w1) (v2 - w2))) as Q3.
  assert (E : Q (x * u1 + (y * v1 + z * w1)) (x * u2 + (y * v2 + z * w2)) = (x + y + z) * (x * Q u1 u2 + y * Q v1 v2 + z * Q w1 w2) - x * y * Q (u1 - v1) (u2 - v2) - x * z * Q (u1 - w1) (u2 - w2) - y * z * Q (v1 - w1) (v2 - w2)) by (unfold Q; ring).
  change (Q (x * u1 + (y * v1 + z * w1)) (x * u2 + (y * v2 + z * w2)) < 1). rewrite E, Hs. change (Q u1 u2 = 1) in HA. change (Q v1 v2 = 1) in HB. change (Q w1 w2 = 1) in HC. rewrite HA, HB, HC.
  assert (0 < x * y * Q (u1 - v1) (u2 - v2)) by (repeat apply Rmult_lt_0_compat; auto). assert (0 <= x * z * Q (u1 - w1) (u2 - w2)) by (repeat apply Rmult_le_pos; lra). assert (0 <= y * z * Q (v1 - w1) (v2 - w2)) by (repeat apply Rmult_le_pos; lra). lra.
Qed.

Lemma not_through P1 P2 P3 P4 : one_inside P1 P2 P3 P4 -> forall O a b th, 0 < a -> 0 < b -> ~ Forall (on_ellipse O a b th) [P1; P2; P3; P4].
Proof.
  intros (A & B & C & x & y & z & HP & Hx & Hy & Hz & Hs & HN) O a b th Ha Hb HF. apply (Forall_perm _ _ _ HP) in HF.
  inversion_clear HF as [|? ? F1 HF1]. inversion_clear HF1 as [|? ? F2 HF2]. inversion_clear HF2 as [|? ? F3 HF3]. inversion_clear HF3 as [|? ? F4 _].
  assert (NE : A <> B). { intros ->. apply HN. apply collinear_cross. unfold scross, vsub; cbn [fst snd]. ring. }
  pose proof (inside_form O a b th A B C x y z Ha Hb F1 F2 F3 Hx Hy Hz Hs NE) as L. unfold on_ellipse in F4. lra.
Qed.

Lemma ex_inside : one_inside (0, 0) (4, 0) (0, 4) (1, 1) /\ no_three_collinear (0, 0) (4, 0) (0, 4) (1, 1) /\ no_two_parallel (0, 0) (4, 0) (0, 4) (1, 1).
Proof.
  split; [|split].
  - exists (0, 0), (4, 0), (0, 4), (1 / 2), (1 / 4), (1 / 4). split.
    { replace (vadd (vscal (1 / 2) (0, 0)) (vadd (vscal (1 / 4) (4, 0)) (vscal (1 / 4) (0, 4)))) with ((1, 1) : pt) by (unfold vadd, vscal; cbn [fst snd]; pteq; field). apply Permutation_refl. }
    repeat split; try lra. rewrite collinear_cross. unfold scross, vsub; cbn [fst snd]. lra.
  - unfold no_three_collinear. rewrite !collinear_cross. unfold scross, vsub; cbn [fst snd]. repeat split; lra.
  - unfold no_two_parallel. rewrite !parallel_cross. unfold scross, vsub; cbn [fst snd]. repeat split; lra.
Qed.

Lemma boundary4_not_through argsort roots eigh : is_argsort argsort -> is_roots roots -> (forall S, is_eigh S (eigh S)) ->
  exists P1 P2 P3 P4 e, no_three_collinear P1 P2 P3 P4 /\ from_boundary4 true argsort roots eigh P1 P2 P3 P4 = Ok e /\
  ~ Forall (on_ellipse (eO e) (ea e) (eb e) (ell_th e)) [P1; P2; P3; P4].
Proof.
  intros HA HR HE. destruct ex_inside as (H1 & H2 & H3). exists (0, 0), (4, 0), (0, 4), (1, 1).
  destruct (boundary4_general argsort roots eigh _ _ _ _ HA HR HE H2) as [((A & B & C & D & HP & Hpar) & _)|(e & A & B & C & D & Ee & Hax & _)].
  - exfalso. destruct (no_two_perm _ _ _ _ _ _ _ _ HP H3) as (_ & K & _). contradiction.
  - exists e. split; [auto|]. split; [auto|]. apply not_through; auto; lra.
Qed.

Lemma ex_convex : convex_position (0, 2) (1, 0) (0, -1) (-3, 0).
Proof.
  exists (0, 2), (1, 0), (0, -1), (-3, 0), (2 / 3), (1 / 4). split; [apply Permutation_refl|]. split; [lra|]. split; [lra|]. split.
  - unfold at_line, vadd, vscal, vsub; cbn [fst snd]. pteq; field.
  - rewrite collinear_cross. unfold scross, vsub; cbn [fst snd]. lra.
Qed.

(** ** the assumptions about numpy can be met *)
Fixpoint insert_idx (l : list R) (i : nat) (s : list nat) : list nat :=
  match s with
  | [] => [i]
  | j :: s' => if Rle_dec (nth i l 0) (nth j l 0) then i :: s else j :: insert_idx l i s'
  end.
Definition argsort_ins (l : list R) : list nat := fold_right (insert_idx l) [] (seq 0 (length l)).

Lemma insert_perm l i s : Permutation (insert_idx l i s) (i :: s).
Proof. induction s as [|j s IH]; cbn [insert_idx]; [auto|]. destruct (Rle_dec _ _); auto. etransitivity; [apply perm_skip; exact IH|apply perm_swap]. Qed.

Definition sorted_idx (l : list R) (s : list nat) : Prop := forall i j, (i < j < length s)%nat -> nth (nth i s 0%nat) l 0 <= nth (nth j s 0%nat) l 0.

Lemma sorted_idx_cons l i s : (forall j, In j s -> nth i l 0 <= nth j l 0) -> sorted_idx l s -> sorted_idx l (i :: s).
Proof.
  intros H1 H2 a b Hab. cbn [length] in Hab. destruct b as [|b]; [lia|]. destruct a as [|a]; cbn [nth].
  - apply H1. apply nth_In. lia.
  - apply H2. lia.
Qed.
Lemma sorted_idx_inv l i s : sorted_idx l (i :: s) -> (forall j, In j s -> nth i l 0 <= nth j l 0) /\ sorted_idx l s.
Proof.
  intros H. split.
  - intros j Hj. destruct (In_nth s j 0%nat Hj) as (k & Hk & <-). apply (H 0%nat (S k)). cbn [length]. lia.
  - intros a b Hab. apply (H (S a) (S b)). cbn [length]. lia.
Qed.

Lemma insert_sorted l i s : sorted_idx l s -> sorted_idx l (insert_idx l i s).
Proof.
  induction s as [|j s IH]; cbn [insert_idx]; intros H.
  - apply sorted_idx_cons; [intros ? []|]. intros a b Hab. cbn in Hab. lia.
  - destruct (sorted_idx_inv _ _ _ H) as [H1 H2]. destruct (Rle_dec (nth i l 0) (nth j l 0)) as [L|L].
    + apply sorted_idx_cons; [|auto]. intros k [<-|Hk]; auto. specialize (H1 k Hk). lra.
    + apply sorted_idx_cons; [|auto]. intros k Hk. apply (Permutation_in _ (insert_perm l i s)) in Hk. destruct Hk as [<-|Hk]; [lra|auto].
Qed.

Lemma argsort_exists : exists argsort, is_argsort argsort.
Proof.
  exists argsort_ins. intros l. unfold argsort_ins.
  assert (H : forall s, Permutation (fold_right (insert_idx l) [] s) s /\ sorted_idx l (fold_right (insert_idx l) [] s)).
  { induction s as [|i s [IH1 IH2]]; cbn [fold_right]; split; auto.
    - intros a b Hab. cbn in Hab. lia.
    - etransitivity; [apply insert_perm|auto].
    - apply insert_sorted. auto. }
  destruct (H (seq 0 (length l))) as [H1 H2]. split; [auto|]. intros i j Hij. apply H2. rewrite (Permutation_length H1), seq_length. auto.
Qed.

Section onecubic.
Variables b c d : R.
Definition mcub (x : R) : R := x ^ 3 + b * x ^ 2 + c * x + d.
Definition mbound : R := 1 + Rabs b + Rabs c + Rabs d.
Lemma mcub_signs : mcub (- mbound) < 0 /\ 0 < mcub mbound /\ - mbound < mbound.
Proof.
  pose proof (Rabs_pos b) as B0. pose proof (Rabs_pos c) as C0. pose proof (Rabs_pos d) as D0.
  assert (A : forall x, - Rabs x <= x <= Rabs x) by (intros x; pose proof (Rle_abs x); pose proof (Rle_abs (- x)) as Y; rewrite Rabs_Ropp in Y; lra).
  pose proof (A b) as B1. pose proof (A c) as C1. pose proof (A d) as D1. clear A. unfold mbound, mcub. set (M := 1 + Rabs b + Rabs c + Rabs d).
  assert (M1 : 1 <= M) by (unfold M; lra). assert (MM : M <= M * M) by nra. assert (E : M * (M * M) = (M * M) + Rabs b * (M * M) + Rabs c * (M * M) + Rabs d * (M * M)) by (unfold M; ring).
  clearbody M. assert (b * (M * M) <= Rabs b * (M * M) /\ - (Rabs b * (M * M)) <= b * (M * M)) by (split; nra).
  assert (c * M <= Rabs c * (M * M) /\ - (Rabs c * (M * M)) <= c * M) by (split; nra).
  assert (d <= Rabs d * (M * M) /\ - (Rabs d * (M * M)) <= d) by (split; nra).
  repeat split.
  - replace ((- M) ^ 3 + b * (- M) ^ 2 + c * - M + d) with (- (M * (M * M)) + b * (M * M) - c * M + d) by ring. lra.
  - replace (M ^ 3 + b * M ^ 2 + c * M + d) with (M * (M * M) + b * (M * M) + c * M + d) by ring. lra.
  - lra.
Qed.
Lemma mcub_cont : continuity mcub.
Proof. unfold mcub. reg. Qed.
Definition mroot : R := proj1_sig (IVT mcub (- mbound) mbound mcub_cont (proj2 (proj2 mcub_signs)) (proj1 mcub_signs) (proj1 (proj2 mcub_signs))).
Lemma mroot_0 : mcub mroot = 0.
Proof. unfold mroot. destruct (IVT _ _ _ _ _ _ _) as [z Hz]. cbn [proj1_sig]. apply Hz. Qed.
(** the two other roots: x^2 + (b + z) x + (c + z (b + z)) *)
Definition mroots : list R :=
  let z := mroot in let p := b + z in let q := c + z * p in
  [z; (- p - sqrt (p * p - 4 * q)) / 2; (- p + sqrt (p * p - 4 * q)) / 2].
Lemma mroots_ok r1 r2 r3 : (forall x, mcub x = (x - r1) * (x - r2) * (x - r3)) ->
  exists s1 s2 s3, mroots = [s1; s2; s3] /\ forall x, mcub x = (x - s1) * (x - s2) * (x - s3).
Proof.
  intros H. unfold mroots. pose proof mroot_0 as Z. set (z := mroot) in *. clearbody z. set (p := b + z). set (q := c + z * p).
  assert (F : forall x, mcub x = (x - z) * (x * x + p * x + q) + mcub z) by (intros x; unfold mcub, q, p; ring). rewrite Z in F.
  assert (V : b = - (r1 + r2 + r3) /\ c = r1 * r2 + r1 * r3 + r2 * r3).
  { pose proof (H 0) as H0. pose proof (H 1) as H1. pose proof (H (-1)) as H2. unfold mcub in *. split; lra. }
  assert (D : 0 <= p * p - 4 * q).
  { pose proof (H z) as Hz. rewrite Z in Hz. symmetry in Hz. apply Rmult_integral in Hz. destruct V as [Vb Vc].
    assert (K : exists s t, p = - (s + t) /\ q = s * t).
    { destruct Hz as [Hz|Hz]; [apply Rmult_integral in Hz; destruct Hz as [Hz|Hz]|].
      - exists r2, r3. unfold q, p. rewrite Vb, Vc. replace z with r1 by lra. split; ring.
      - exists r1, r3. unfold q, p. rewrite Vb, Vc. replace z with r2 by lra. split; ring.
      - exists r1, r2. unfold q, p. rewrite Vb, Vc. replace z with r3 by lra. split; ring. }
    destruct K as (s & t & -> & ->). replace (- (s + t) * - (s + t) - 4 * (s * t)) with ((s - t) * (s - t)) by ring. apply sqnn. }
  do 3 eexists. split; [reflexivity|]. intros x. rewrite F. pose proof (sqrt_sqrt _ D) as E. set (w := sqrt _) in *. clearbody w.
  replace q with ((p * p - w * w) / 4) by lra. field.
Qed.
End onecubic.

Lemma roots_exist : exists roots, is_roots roots.
Proof.
  exists (fun k0 k1 k2 k3 => mroots (k1 / k0) (k2 / k0) (k3 / k0)). intros k0 k1 k2 k3 K0 factors (r1 & r2 & r3 & H).
  assert (N : forall x, k0 * mcub (k1 / k0) (k2 / k0) (k3 / k0) x = k0 * x ^ 3 + k1 * x ^ 2 + k2 * x + k3) by (intros x; unfold mcub; field; auto).
  destruct (mroots_ok (k1 / k0) (k2 / k0) (k3 / k0) r1 r2 r3) as (s1 & s2 & s3 & E & F).
  { intros x. apply Rmult_eq_reg_l with k0; [|auto]. rewrite N, (H x). ring. }
  exists s1, s2, s3. split; [exact E|]. intros x. rewrite <- N, F. ring.
Qed.

Lemma boundary4_smallest_set argsort roots eigh P1 P2 P3 P4 :
  is_argsort argsort -> is_roots roots -> (forall S, is_eigh S (eigh S)) -> convex_position P1 P2 P3 P4 ->
  exists e, from_boundary4 true argsort roots eigh P1 P2 P3 P4 = Ok e /\ 0 < eb e <= ea e /\
  let th := ell_th e in
  Forall (on_ellipse (eO e) (ea e) (eb e) th) [P1; P2; P3; P4] /\
  forall O a b th', 0 < a -> 0 < b -> Forall (on_ellipse O a b th') [P1; P2; P3; P4] ->
    ea e * eb e <= a * b /\
    (ea e * eb e = a * b -> forall M, on_ellipse O a b th' M <-> on_ellipse (eO e) (ea e) (eb e) th M).
Proof.
  intros HA HR HE HC. destruct (boundary4_smallest argsort roots eigh P1 P2 P3 P4 HA HR HE HC) as (e & Ee & Hax & H1 & H2).
  exists e. split; [auto|]. split; [auto|]. cbv zeta. split; [auto|]. intros O a b th' Ha Hb HF. destruct (H2 O a b th' Ha Hb HF) as [L U].
  split; [auto|]. intros E M. unfold on_ellipse. rewrite (U E M). tauto.
Qed.
