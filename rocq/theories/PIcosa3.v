(** * Proofs about ApollonianIcosahedralGasket.py: the icosahedron, success *)

From Coq Require Import Reals Lra Lia Psatz List Bool PeanoNat.
From Verif Require Import Base BaseLemmas Spec SpecLemmas SpecTriangle SpecGasket SpecSteinerEx SpecIcosa ModelInternal ModelLine ModelCircle ModelTriangle ModelGasket ModelSteinerEx ModelIcosa PLine PTriangle PTriangle2 PTriangle3 PTriangle4 PTriangle5 PGasket10 PGasket13 PGasketEx PIcosa1 PIcosa2.
Import ListNotations.
Local Open Scope R_scope.

Lemma corner_near V W1 W2 P k u r x n : (n <= 6)%nat -> 0.632 <= k -> 0.3566 <= r <= 0.3571 -> 0.7134 <= u <= 0.7140 -> 0.61 <= x -> dist V P = u -> u * u = x * x + r * r ->
  1 <= dist V W1 -> 1 <= dist V W2 -> corner_tolerance (5 / 4) n V W1 W2 (mkCircle (mcenter V P k) (r * k)).
Proof.
  intros Hn Hk Hr Hu Hx EP E2 D1 D2. unfold corner_tolerance. cbv zeta. cbn [cO cr].
  assert (E : dist V (mcenter V P k) = k * u).
  { apply Rsqr_inj; [apply dist_nonneg|nra|]. unfold Rsqr. rewrite dist_sq. replace (k * u * (k * u)) with (k * k * (u * u)) by ring. rewrite <- EP, dist_sq. unfold mcenter. unspec. ring. }
  rewrite E. replace ((k * u - r * k) / (k * u + r * k)) with ((u - r) / (u + r)) by (field; nra).
  replace (k * u * (k * u) - r * k * (r * k)) with ((k * x) * (k * x)) by (transitivity (k * k * (u * u - r * r)); [rewrite E2; ring|ring]).
  rewrite sqrt_square by nra. replace (k * x / (k * u)) with (x / u) by (field; lra).
  assert (Q : 0.3326 <= (u - r) / (u + r) <= 1).
  { split; [apply (Rmult_le_reg_r (u + r)); [lra|]; replace ((u - r) / (u + r) * (u + r)) with (u - r) by (field; lra); nra|].
    apply (Rmult_le_reg_r (u + r)); [lra|]. replace ((u - r) / (u + r) * (u + r)) with (u - r) by (field; lra). lra. }
  set (t := (u - r) / (u + r)) in *. clearbody t.
  assert (T : 0.3326 ^ 6 <= t ^ n). { apply Rle_trans with (0.3326 ^ n); [|apply pow_incr; lra]. do 7 (destruct n as [|n]; [simpl; lra|]). lia. }
  assert (Rh : 0.3566 * 0.632 * 0.3326 ^ 6 <= r * k * t ^ n). { apply Rmult_le_compat; [lra|apply pow_le; lra| |auto]. apply Rmult_le_compat; lra. }
  set (rho := r * k * t ^ n) in *. clearbody rho.
  assert (Rh' : 0.0003 <= rho) by (simpl in Rh; lra). split; [lra|].
  assert (Hc : 1 / 2 <= x / u) by (apply (Rmult_le_reg_r u); [lra|]; replace (x / u * u) with x by (field; lra); lra).
  assert (Fin : forall d, 1 <= d -> / 67108864 <= rho * d * (x / u)).
  { intros d Hd. assert (/ 67108864 <= 0.0003 * 1 * (1 / 2)) by lra. apply (Rle_trans _ _ _ H). apply Rmult_le_compat; try lra. apply Rmult_le_compat; lra. }
  split; apply Fin; auto.
Qed.

Lemma near_total A B C n : (n <= 6)%nat -> bounded (5 / 4) A -> bounded (5 / 4) B -> bounded (5 / 4) C -> ~ collinear A B C ->
  1.2360 <= dist A B <= 1.2361 -> 1.2360 <= dist A C <= 1.2361 -> 1.2360 <= dist B C <= 1.2361 -> exists l, drawTriangularGasket A B C n = Ok l.
Proof.
  intros Hn BA BB BC NC DAB DAC DBC. destruct (Ravi_ex A B C) as (x & y & z & S & HR); [apply not_collinear_dbl; auto|].
  pose proof (malfatti_eval _ _ _ _ _ _ _ HR) as K. cbv zeta in K. destruct K as (_ & _ & _ & _ & E).
  pose proof (incenter_dist _ _ _ _ _ _ _ HR) as Eu. pose proof (Ravi_perm _ _ _ _ _ _ _ HR) as H2. pose proof (Ravi_perm _ _ _ _ _ _ _ H2) as H3.
  pose proof (incenter_dist _ _ _ _ _ _ _ H2) as Ev. pose proof (incenter_dist _ _ _ _ _ _ _ H3) as Eq.
  cbv zeta in Eu, Ev, Eq. rewrite incenter_perm in Eq. rewrite incenter_perm in Eq, Ev. rewrite <- dist_sq in Eu, Ev, Eq.
  replace (y + z + x) with (x + y + z) in Ev by ring. replace (z + x + y) with (x + y + z) in Eq by ring.
  set (I0 := incenter A B C x y z) in *. clear H2 H3. destruct HR as (Px & Py & Pz & PS & S2 & Ea & Eb & Ec & _). rewrite Ea in DBC. rewrite Eb in DAC. rewrite Ec in DAB.
  assert (Bx : 0.6179 <= x <= 0.6182) by lra. assert (By : 0.6179 <= y <= 0.6182) by lra. assert (Bz : 0.6179 <= z <= 0.6182) by lra. 
  set (r := S / (x + y + z)) in *.
  assert (R2 : r * r * (x + y + z) = x * y * z). { unfold r. transitivity (S * S / (x + y + z)); [field; lra|]. rewrite S2. field. lra. }
  assert (Pr : 0 < r) by (unfold r; apply Rmult_lt_0_compat; [auto|apply Rinv_0_lt_compat; lra]).
  assert (Pxyz : 0.2359 <= x * y * z <= 0.2363). { assert (0.3818 - 0.00001 <= x * y <= 0.3822) by nra. set (w := x * y) in *. clearbody w. nra. }
  assert (Br : 0.3566 <= r <= 0.3571). { clearbody r. split; apply Rnot_lt_le; intros K; [assert (r * r < 0.3566 * 0.3566) by nra|assert (0.3571 * 0.3571 < r * r) by nra]; set (w := r * r) in *; clearbody w; nra. }
  set (u := dist A I0) in *. set (v := dist B I0) in *. set (w := dist C I0) in *.
  assert (Bd : forall t d, 0.6179 <= t <= 0.6182 -> 0 <= d -> d * d = t * t + r * r -> 0.7134 <= d <= 0.7140). { clear - Br. clearbody r. intros t d Ht Pd Ed. assert (0.6179 * 0.6179 <= t * t <= 0.6182 * 0.6182) by (split; apply Rmult_le_compat; lra). assert (0.3566 * 0.3566 <= r * r <= 0.3571 * 0.3571) by (split; apply Rmult_le_compat; lra).
    split; apply Rsqr_incr_0; unfold Rsqr; lra. }
  assert (Bu : 0.7134 <= u <= 0.7140) by (apply (Bd x); auto; [apply dist_nonneg|rewrite Eu; ring]). assert (Bv : 0.7134 <= v <= 0.7140) by (apply (Bd y); auto; [apply dist_nonneg|rewrite Ev; ring]).
  assert (Bw : 0.7134 <= w <= 0.7140) by (apply (Bd z); auto; [apply dist_nonneg|rewrite Eq; ring]).
  destruct (malfatti_spec _ _ _ NC) as (cA & cB & cC & TA & TB & TC & E2 & _).
  rewrite E2 in E. destruct (tangency _ _ _) as [t1|] in E; cbn [bind] in E; [|discriminate]. destruct (tangency _ _ _) as [t2|] in E; cbn [bind] in E; [|discriminate].
  destruct (tangency _ _ _) as [t3|] in E; cbn [bind] in E; [|discriminate]. apply Ok_inj in E. injection E as EA EB EC _ _ _.
  assert (Kk : forall d t, 0.6179 <= t <= 0.6182 -> 0.3909 <= d -> 0.632 <= d / t). { intros d t Ht Hd. apply (Rmult_le_reg_r t); [lra|]. replace (d / t * t) with d by (field; lra). nra. }
  assert (G : forall t, r * t / x = r * (t / x) /\ r * t / y = r * (t / y) /\ r * t / z = r * (t / z)) by (intros t; unfold Rdiv; repeat split; ring).
  refine (draw_total A B C n (5 / 4) _ _ _ _ NC E2 BA BB BC _ _ _).
  - rewrite EA. rewrite (proj1 (G _)). apply (corner_near A B C I0 _ u r x); auto; try lra; [apply Kk; lra].
  - rewrite EB. rewrite (proj1 (proj2 (G _))). apply (corner_near B A C I0 _ v r y); auto; try lra; [apply Kk; lra|rewrite dist_sym; lra].
  - rewrite EC. rewrite (proj2 (proj2 (G _))). apply (corner_near C A B I0 _ w r z); auto; try lra; [apply Kk; lra|rewrite dist_sym; lra|rewrite dist_sym; lra].
Qed.

Lemma dist3_sq A B : dist3 A B * dist3 A B = inner3 (vec3 A B) (vec3 A B).
Proof. unfold dist3. apply sqrt_sqrt, inner_pos. Qed.
Lemma dist3_nonneg A B : 0 <= dist3 A B.
Proof. apply sqrt_pos. Qed.
Definition edge_ok (A B : v3) : Prop := 1.52786404500042 <= inner3 (vec3 A B) (vec3 A B) <= 1.52786404500043.
Lemma edge_len A B : edge_ok A B -> 1.2360 <= dist3 A B <= 1.2361.
Proof. unfold edge_ok. rewrite <- dist3_sq. pose proof (dist3_nonneg A B) as P. intros H. set (d := dist3 A B) in *. clearbody d. split; apply Rsqr_incr_0; unfold Rsqr; lra. Qed.

Lemma edges_nc A B C : edge_ok A B -> edge_ok A C -> edge_ok B C -> ~ collinear3 A B C.
Proof.
  intros H1 H2 H3 K. apply cross_collinear in K. unfold edge_ok in *.
  assert (E : inner3 (cross3 (vec3 A B) (vec3 A C)) (cross3 (vec3 A B) (vec3 A C)) =
    inner3 (vec3 A B) (vec3 A B) * inner3 (vec3 A C) (vec3 A C) - inner3 (vec3 A B) (vec3 A C) * inner3 (vec3 A B) (vec3 A C)).
  { destruct A as [[? ?] ?], B as [[? ?] ?], C as [[? ?] ?]. un3. ring. }
  assert (D : inner3 (vec3 A B) (vec3 A C) = (inner3 (vec3 A B) (vec3 A B) + inner3 (vec3 A C) (vec3 A C) - inner3 (vec3 B C) (vec3 B C)) / 2).
  { destruct A as [[? ?] ?], B as [[? ?] ?], C as [[? ?] ?]. un3. field. }
  rewrite K in E. rewrite D in E. set (a := inner3 (vec3 A B) (vec3 A B)) in *. set (b := inner3 (vec3 A C) (vec3 A C)) in *. set (c := inner3 (vec3 B C) (vec3 B C)) in *. clearbody a b c.
  replace (inner3 ((0, 0), 0) ((0, 0), 0)) with 0 in E by (unfold inner3; cbn [fst snd]; ring). nra.
Qed.

Lemma face_total A B C n : (n <= 6)%nat -> edge_ok A B -> edge_ok A C -> edge_ok B C -> exists s, drawFace A B C n = Ok s.
Proof.
  intros Hn HB HC HBC. destruct (transfo_ok A B C (edges_nc _ _ _ HB HC HBC)) as (Mat & p & q & m & L & x & y & E & F & PL & Py & EL & HT & EB & EC).
  unfold drawFace. rewrite E. cbn [bind]. apply edge_len in HB, HC, HBC.
  pose proof (flat_A A B C p q m L x y EB EC) as FA. assert (FB : flat A p q m (L, 0) = B) by exact EB. assert (FC : flat A p q m (x, y) = C) by exact EC.
  assert (D1 : dist (0, 0) (L, 0) = dist3 A B) by (rewrite <- FB, <- (dist_flat A p q m F), FA; auto).
  assert (D2 : dist (0, 0) (x, y) = dist3 A C) by (rewrite <- FC, <- (dist_flat A p q m F), FA; auto).
  assert (D3 : dist (L, 0) (x, y) = dist3 B C) by (rewrite <- FB, <- FC, <- (dist_flat A p q m F); auto).
  assert (S2 : x * x + y * y = dist3 A C * dist3 A C) by (rewrite <- D2, dist_sq; unspec; ring).
  destruct (near_total (0, 0) (L, 0) (x, y) n Hn) as (l & El).
  - split; cbn [fst snd]; rewrite Rabs_R0; lra.
  - split; cbn [fst snd]; [rewrite Rabs_right; lra|rewrite Rabs_R0; lra].
  - split; cbn [fst snd]; apply Rabs_le; split; nra.
  - apply not_collinear_dbl. unfold dbl. unspec. nra.
  - rewrite D1. auto.
  - rewrite D2. auto.
  - rewrite D3. auto.
  - rewrite El. cbn [bind]. eauto.
Qed.

Lemma faces_edges : Forall (fun f => let '(A, B, C) := face_points f in edge_ok A B /\ edge_ok A C /\ edge_ok B C) faces.
Proof. unfold faces. repeat apply Forall_cons; try apply Forall_nil; cbn [face_points nth vertices]; unfold edge_ok, g_; un3; repeat split; lra. Qed.

Lemma faces_outward : Forall (fun f => let '(A, B, C) := face_points f in outward_face vertices A B C) faces.
Proof.
  unfold faces. repeat apply Forall_cons; try apply Forall_nil; cbn [face_points nth]; unfold vertices at 2 3 4; cbn [nth]; intros M I;
  repeat (destruct I as [<-|I]; [first [left; reflexivity|right; left; reflexivity|right; right; left; reflexivity|right; right; right; unfold g_; un3; lra]|]); destruct I.
Qed.

Definition eqp (e f : nat * nat) : bool := (Nat.eqb (fst e) (fst f) && Nat.eqb (snd e) (snd f))%bool.
Lemma eqp_eq e f : eqp e f = true <-> e = f.
Proof. destruct e, f. unfold eqp. cbn [fst snd]. rewrite andb_true_iff, !Nat.eqb_eq. split; [intros [-> ->]; auto|intros E; injection E; auto]. Qed.
Fixpoint nodupb (l : list (nat * nat)) : bool := match l with [] => true | e :: l => (negb (existsb (eqp e) l) && nodupb l)%bool end.
Lemma nodupb_ok l : nodupb l = true -> NoDup l.
Proof.
  induction l as [|e l IH]; [constructor|]. cbn [nodupb]. rewrite andb_true_iff, negb_true_iff. intros [H1 H2]. constructor; auto. intros I. assert (K : existsb (eqp e) l = true) by (apply existsb_exists; exists e; split; auto; apply eqp_eq; auto). congruence.
Qed.
Lemma surface_ok : closed_surface faces.
Proof.
  split; [apply nodupb_ok; vm_compute; reflexivity|]. assert (K : forallb (fun e => existsb (eqp (snd e, fst e)) (flat_map edges_of faces)) (flat_map edges_of faces) = true) by (vm_compute; reflexivity).
  rewrite forallb_forall in K. intros i j I. specialize (K _ I). cbn [fst snd] in K. apply existsb_exists in K. destruct K as (f & If & Ef). apply eqp_eq in Ef. subst. auto.
Qed.

Lemma vertices_nodup : NoDup vertices.
Proof.
  unfold vertices. repeat (constructor; [cbn [In]; intros K; repeat (destruct K as [K|K]; [injection K; unfold g_; intros; lra|]); contradiction|]). constructor.
Qed.

Lemma icosa_ok : length vertices = 12%nat /\ NoDup vertices /\ (forall M, In M vertices -> inner3 M M = 1 + g_ * g_) /\
  length faces = 20%nat /\ closed_surface faces /\ (forall v, (v < 12)%nat -> length (filter (has_vertex v) faces) = 5%nat) /\
  Forall (fun f => let '(A, B, C) := face_points f in edge_ok A B /\ edge_ok A C /\ edge_ok B C /\ outward_face vertices A B C) faces.
Proof.
  split; [reflexivity|]. split; [apply vertices_nodup|]. split.
  { intros M I. unfold vertices in I. cbn [In] in I. repeat (destruct I as [<-|I]; [unfold inner3; cbn [fst snd]; ring|]). destruct I. }
  split; [reflexivity|]. split; [apply surface_ok|]. split.
  { intros v Hv. do 12 (destruct v as [|v]; [reflexivity|]). lia. }
  pose proof faces_edges as H1. pose proof faces_outward as H2. rewrite Forall_forall in *. intros f I. specialize (H1 f I). specialize (H2 f I). destruct (face_points f) as [[A B] C]. tauto.
Qed.

Lemma icosa_total n : (n <= 6)%nat -> exists l, draw_icosahedron n = Ok l /\ map fst l = map face_points faces.
Proof.
  intros Hn. pose proof faces_edges as H. unfold draw_icosahedron. induction H as [|f fs Hf H (l & El & Em)]; [exists []; auto|].
  destruct (face_points f) as [[A B] C] eqn:Ef. destruct Hf as (E1 & E2 & E3). destruct (face_total A B C n Hn E1 E2 E3) as (d & Ed).
  exists (((A, B, C), d) :: l). cbn [mapM map fst]. rewrite Ef, Ed. cbn [bind]. rewrite El. cbn [bind]. split; [auto|]. rewrite Em. auto.
Qed.
