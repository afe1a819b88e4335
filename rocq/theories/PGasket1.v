(** * Proofs about the triangular gasket: the Lorentz form of circles and lines,
    circles tangent to three. *)

From Coq Require Import Reals Lra Lia Psatz List Bool ZArith.
From Verif Require Import Base BaseLemmas Spec SpecLemmas SpecTriangle ModelInternal ModelLine ModelCircle ModelAffine ModelTriangle ModelGasket PLine PInvBase PTriangle PTriangle2 PTriangle3 PTriangle4 PTriangle5 PSteiner.
Import ListNotations.
Local Open Scope R_scope.

(** ** the vector of a circle, the vector of a line, the Lorentz form *)
Definition v4 := (R * pt * R)%type.
Definition vb (u : v4) : R := fst (fst u).
Definition vp (u : v4) : pt := snd (fst u).
Definition vw (u : v4) : R := snd u.
Definition v4add (u v : v4) : v4 := (vb u + vb v, vadd (vp u) (vp v), vw u + vw v).
Definition kap (u v : v4) : R := (vb u * vw v + vb v * vw u) / 2 - sdot (vp u) (vp v).
Definition vc (c : circle) : v4 :=
  (/ cr c, vscal (/ cr c) (cO c), sdot (cO c) (cO c) / cr c - cr c).
(** the outside of the half-plane n.X >= n.A *)
Definition vl (n A : pt) : v4 := (0, vopp n, - 2 * sdot n A).

Lemma kap_add_l u v w : kap (v4add u v) w = kap u w + kap v w.
Proof. unfold kap, v4add, vb, vp, vw, sdot, vadd; simpl; field. Qed.
Lemma kap_add_r u v w : kap w (v4add u v) = kap w u + kap w v.
Proof. unfold kap, v4add, vb, vp, vw, sdot, vadd; simpl; field. Qed.
Lemma vb_add u v : vb (v4add u v) = vb u + vb v.
Proof. reflexivity. Qed.
Lemma kap_sym u v : kap u v = kap v u.
Proof. unfold kap, sdot; field. Qed.

Lemma kap_cc c c' : cr c <> 0 -> cr c' <> 0 ->
  kap (vc c) (vc c') = (dist2 (cO c) (cO c') - cr c * cr c - cr c' * cr c') / (2 * cr c * cr c').
Proof. intros. unfold kap, vc, vb, vp, vw. simpl. unspec. field. auto. Qed.
Lemma kap_lc n A c : cr c <> 0 -> kap (vl n A) (vc c) = sdot n (vsub (cO c) A) / cr c.
Proof. intros. unfold kap, vl, vc, vb, vp, vw, vopp. simpl. unspec. field. auto. Qed.
Lemma kap_ll n A n' A' : kap (vl n A) (vl n' A') = - sdot n n'.
Proof. unfold kap, vl, vb, vp, vw, vopp. simpl. unspec. field. Qed.

Definition posc (c : circle) := 0 < cr c.
Definition disj (c c' : circle) := cr c + cr c' <= dist (cO c) (cO c').
Definition tang (c c' : circle) := dist (cO c) (cO c') = cr c + cr c'.
Definition inner (c c' : circle) := dist (cO c) (cO c') + cr c <= cr c'.
Definition ortho (c c' : circle) := dist2 (cO c) (cO c') = cr c * cr c + cr c' * cr c'.

Lemma disj_sym c c' : disj c c' -> disj c' c.
Proof. unfold disj. rewrite dist_sym. lra. Qed.
Lemma tang_disj c c' : tang c c' -> disj c c'.
Proof. unfold tang, disj. lra. Qed.
Lemma tang_sym c c' : tang c c' -> tang c' c.
Proof. unfold tang. rewrite dist_sym. lra. Qed.
Lemma ortho_sym c c' : ortho c c' -> ortho c' c.
Proof. unfold ortho. rewrite dist2_sym. lra. Qed.
Lemma inner_disj c D c' : inner c D -> disj D c' -> disj c c'.
Proof. unfold inner, disj. intros H1 H2. pose proof (dist_triangle (cO D) (cO c) (cO c')). rewrite (dist_sym (cO D) (cO c)) in H. lra. Qed.
Lemma inner_trans a b c : inner a b -> inner b c -> inner a c.
Proof. unfold inner. intros H1 H2. pose proof (dist_triangle (cO a) (cO b) (cO c)). lra. Qed.
Lemma inner_refl a : inner a a.
Proof. unfold inner. rewrite (proj2 (dist_0 _ _) eq_refl). lra. Qed.

Lemma kap_self c : posc c -> kap (vc c) (vc c) = -1.
Proof. unfold posc. intros H. rewrite kap_cc by lra. unfold dist2. unspec. field. lra. Qed.
Lemma kap_tang c c' : posc c -> posc c' -> kap (vc c) (vc c') = 1 <-> tang c c'.
Proof.
  unfold posc, tang. intros H H'. rewrite kap_cc by lra. rewrite <- dist_sq. pose proof (dist_nonneg (cO c) (cO c')) as N. set (d := dist _ _) in *.
  assert (P : 0 < cr c * cr c') by (apply Rmult_lt_0_compat; auto). split; intros E.
  - assert (E2 : d * d - cr c * cr c - cr c' * cr c' = 1 * (2 * cr c * cr c')) by (rewrite <- E; field; lra).
    assert ((d - (cr c + cr c')) * (d + (cr c + cr c')) = 0) by (clear - E2; nra). apply Rmult_integral in H0. lra.
  - rewrite E. field. lra.
Qed.
Lemma kap_ortho c c' : posc c -> posc c' -> kap (vc c) (vc c') = 0 <-> ortho c c'.
Proof.
  unfold posc, ortho. intros H H'. rewrite kap_cc by lra. split; intros E.
  - assert (E2 : dist2 (cO c) (cO c') - cr c * cr c - cr c' * cr c' = 0 * (2 * cr c * cr c')) by (rewrite <- E; field; lra). lra.
  - rewrite E. field. lra.
Qed.
Lemma kap_disj c c' : posc c -> posc c' -> 1 <= kap (vc c) (vc c') <-> disj c c'.
Proof.
  unfold posc, disj. intros H H'. rewrite kap_cc by lra. rewrite <- dist_sq. pose proof (dist_nonneg (cO c) (cO c')) as N. set (d := dist _ _) in *.
  assert (P : 0 < 2 * cr c * cr c') by (apply Rmult_lt_0_compat; lra). set (q := (d * d - cr c * cr c - cr c' * cr c') / (2 * cr c * cr c')).
  assert (E : d * d - cr c * cr c - cr c' * cr c' = q * (2 * cr c * cr c')) by (unfold q; field; lra). split; intros L.
  - assert (0 <= (q - 1) * (2 * cr c * cr c')) by (apply Rmult_le_pos; lra).
    destruct (Rle_lt_dec (cr c + cr c') d) as [|K]; auto. assert (0 < (cr c + cr c' - d) * (cr c + cr c' + d)) by (apply Rmult_lt_0_compat; lra). nra.
  - destruct (Rle_lt_dec 1 q) as [|K]; auto. assert (0 < (1 - q) * (2 * cr c * cr c')) by (apply Rmult_lt_0_compat; lra).
    assert (0 <= (d - (cr c + cr c')) * (cr c + cr c' + d)) by (apply Rmult_le_pos; lra). nra.
Qed.
Lemma kap_inner c c' : posc c -> posc c' -> cr c <= cr c' -> kap (vc c) (vc c') <= -1 -> inner c c'.
Proof.
  unfold posc, inner. intros H H' O. rewrite kap_cc by lra. rewrite <- dist_sq. pose proof (dist_nonneg (cO c) (cO c')) as N. set (d := dist _ _) in *.
  assert (P : 0 < 2 * cr c * cr c') by (apply Rmult_lt_0_compat; lra). set (q := (d * d - cr c * cr c - cr c' * cr c') / (2 * cr c * cr c')).
  assert (E : d * d - cr c * cr c - cr c' * cr c' = q * (2 * cr c * cr c')) by (unfold q; field; lra). intros L.
  assert (0 <= (-1 - q) * (2 * cr c * cr c')) by (apply Rmult_le_pos; lra).
  destruct (Rle_lt_dec d (cr c' - cr c)) as [|K]; [lra|]. assert (0 < (d - (cr c' - cr c)) * (d + (cr c' - cr c))) by (apply Rmult_lt_0_compat; lra). nra.
Qed.

(** a vector of square -1 and positive first coordinate is that of a circle *)
Definition circ (u : v4) : circle := mkCircle (vscal (/ vb u) (vp u)) (/ vb u).
Lemma circ_vc u : 0 < vb u -> kap u u = -1 -> posc (circ u) /\ vc (circ u) = u /\ cr (circ u) = / vb u.
Proof.
  destruct u as [[b [p q]] w]. unfold circ, posc, vc, kap, vb, vp, vw. simpl. intros H E. assert (I : 0 < / b) by (apply Rinv_0_lt_compat; auto).
  split; [auto|]. split; [|auto]. unfold vscal, sdot in *. simpl in *.
  assert (Ew : w = (p * p + q * q - 1) / b) by (apply (Rmult_eq_reg_l b); [field_simplify|]; lra).
  rewrite Rinv_inv. f_equal; [f_equal; f_equal; field; lra|]. rewrite Ew. field. lra.
Qed.

(** ** three mutually tangent circles or lines and the circle orthogonal to them *)
Definition triple (v1 v2 v3 vD : v4) : Prop :=
  (kap v1 v1 = -1 /\ kap v2 v2 = -1 /\ kap v3 v3 = -1 /\ kap vD vD = -1) /\
  (kap v1 v2 = 1 /\ kap v2 v3 = 1 /\ kap v1 v3 = 1) /\ (kap vD v1 = 0 /\ kap vD v2 = 0 /\ kap vD v3 = 0) /\
  0 <= vb v1 /\ 0 <= vb v2 /\ 0 <= vb v3 /\ 0 < vb vD.

Definition vnew (v1 v2 v3 vD : v4) : v4 := v4add (v4add (v4add v1 v2) v3) (v4add vD vD).
Definition vdual (vD v1 v2 : v4) : v4 := v4add vD (v4add v1 v2).

Ltac kexp := repeat (rewrite kap_add_l || rewrite kap_add_r).

Lemma triple_swap12 v1 v2 v3 vD : triple v1 v2 v3 vD -> triple v2 v1 v3 vD.
Proof. unfold triple. rewrite (kap_sym v2 v1). tauto. Qed.
Lemma triple_swap23 v1 v2 v3 vD : triple v1 v2 v3 vD -> triple v1 v3 v2 vD.
Proof. unfold triple. rewrite (kap_sym v3 v2). tauto. Qed.

Lemma triple_child v1 v2 v3 vD : triple v1 v2 v3 vD ->
  triple (vnew v1 v2 v3 vD) v1 v2 (vdual vD v1 v2).
Proof.
  intros ((A1 & A2 & A3 & AD) & (A12 & A23 & A13) & (D1 & D2 & D3) & B1 & B2 & B3 & BD). unfold triple, vnew, vdual. kexp.
  rewrite ?(kap_sym v2 v1), ?(kap_sym v3 v2), ?(kap_sym v3 v1), ?(kap_sym v1 vD), ?(kap_sym v2 vD), ?(kap_sym v3 vD).
  rewrite ?A1, ?A2, ?A3, ?AD, ?A12, ?A23, ?A13, ?D1, ?D2, ?D3. rewrite ?vb_add. repeat split; lra.
Qed.

Lemma triple_new v1 v2 v3 vD : triple v1 v2 v3 vD -> let v := vnew v1 v2 v3 vD in
  kap v v = -1 /\ kap v v1 = 1 /\ kap v v2 = 1 /\ kap v v3 = 1 /\ kap v vD = -2 /\ vb vD < vb v.
Proof.
  intros ((A1 & A2 & A3 & AD) & (A12 & A23 & A13) & (D1 & D2 & D3) & B1 & B2 & B3 & BD). cbv zeta. unfold vnew. kexp.
  rewrite ?(kap_sym v2 v1), ?(kap_sym v3 v2), ?(kap_sym v3 v1), ?(kap_sym v1 vD), ?(kap_sym v2 vD), ?(kap_sym v3 vD).
  rewrite ?A1, ?A2, ?A3, ?AD, ?A12, ?A23, ?A13, ?D1, ?D2, ?D3. rewrite ?vb_add. repeat split; lra.
Qed.

Lemma triple_duals v1 v2 v3 vD : triple v1 v2 v3 vD -> let d := vdual vD v1 v2 in
  kap d vD = -1 /\ kap d v3 = 2 /\ kap d (vdual vD v2 v3) = 1 /\ kap d (vdual vD v1 v3) = 1 /\ vb vD <= vb d.
Proof.
  intros ((A1 & A2 & A3 & AD) & (A12 & A23 & A13) & (D1 & D2 & D3) & B1 & B2 & B3 & BD). cbv zeta. unfold vdual. kexp.
  rewrite ?(kap_sym v2 v1), ?(kap_sym v3 v2), ?(kap_sym v3 v1), ?(kap_sym v1 vD), ?(kap_sym v2 vD), ?(kap_sym v3 vD).
  rewrite ?A1, ?A2, ?A3, ?AD, ?A12, ?A23, ?A13, ?D1, ?D2, ?D3. rewrite ?vb_add. repeat split; lra.
Qed.

(** ** innerSoddyCircle *)
Lemma equal_detour_eval A B C x y z S : Ravi A B C x y z S -> exists d,
  equal_detour_point (mkTri A B C) = Ok (detour_point S x y z A B C, d).
Proof.
  intros (Hx & Hy & Hz & HS & S2 & Ea & Eb & Ec & ES). pose proof (sides_area A B C) as SA. cbv zeta in SA. rewrite ES in SA.
  replace (2 * S / 2) with S in SA by field.
  unfold equal_detour_point. cbn [tA tB tC]. rewrite (distance_dist B C), (distance_dist A C), (distance_dist B A), (dist_sym B A).
  rewrite Ea, Eb, Ec in *.
  set (hs := (y + z + (x + z) + (x + y)) / 2) in *.
  assert (Q : 0 <= hs * (hs - (y + z)) * (hs - (x + z)) * (hs - (x + y))) by (repeat apply Rmult_le_pos; unfold hs; lra).
  unfold py_sqrt. destruct Rlt_dec; [lra|]. cbn [bind]. rewrite SA.
  unfold np_div. destruct Req_EM_T; [lra|]. cbn [bind]. destruct Req_EM_T; [lra|]. cbn [bind]. destruct Req_EM_T; [lra|]. cbn [bind].
  replace (y + z + 2 * S / (x + z + (x + y) - (y + z))) with (detour_weight S x y z) by (unfold detour_weight; field; lra).
  replace (x + z + 2 * S / (x + y + (y + z) - (x + z))) with (detour_weight S y z x) by (unfold detour_weight; field; lra).
  replace (x + y + 2 * S / (y + z + (x + z) - (x + y))) with (detour_weight S z x y) by (unfold detour_weight; field; lra).
  fold (detour_sum S x y z).
  pose proof (detour_weight_pos S x y z Hx Hy Hz HS) as W0. pose proof (detour_weight_pos S y z x Hy Hz Hx HS) as W1. pose proof (detour_weight_pos S z x y Hz Hx Hy HS) as W2.
  assert (Psg : 0 < detour_sum S x y z) by (unfold detour_sum; lra).
  rewrite comb3_ok by lra. cbn [bind]. eexists. reflexivity.
Qed.

Lemma tangent_Ravi c1 c2 c3 : posc c1 -> posc c2 -> posc c3 -> tang c1 c2 -> tang c2 c3 -> tang c1 c3 ->
  exists S, Ravi (cO c1) (cO c2) (cO c3) (cr c1) (cr c2) (cr c3) S.
Proof.
  unfold posc, tang. intros H1 H2 H3 T12 T23 T13. set (x := cr c1) in *. set (y := cr c2) in *. set (z := cr c3) in *.
  assert (P : 0 < (x + y + z) * x * y * z) by (repeat apply Rmult_lt_0_compat; lra).
  exists (sqrt ((x + y + z) * x * y * z)). pose proof (sqrt_lt_R0 _ P) as PS. pose proof (sqrt_def _ (Rlt_le _ _ P)) as E.
  set (S := sqrt _) in *. unfold Ravi. repeat split; auto.
  pose proof (sides_heron (cO c1) (cO c2) (cO c3)) as He. rewrite T12, T23, T13 in He.
  assert (E2 : dbl (cO c1) (cO c2) (cO c3) * dbl (cO c1) (cO c2) (cO c3) = 4 * (S * S)) by (rewrite E; lra).
  rewrite <- Rabs_sq in E2. pose proof (Rabs_pos (dbl (cO c1) (cO c2) (cO c3))) as N. set (k := Rabs _) in *.
  assert (F : (k - 2 * S) * (k + 2 * S) = 0) by lra. apply Rmult_integral in F. lra.
Qed.

Lemma innerSoddyRadius_ok x y z S : 0 < x -> 0 < y -> 0 < z -> 0 < S -> S * S = (x + y + z) * x * y * z ->
  let rho := x * y * z / (x * y + y * z + z * x + 2 * S) in
  innerSoddyRadius x y (Some z) = Ok rho /\ 0 < rho /\ / rho = / x + / y + / z + 2 * ((x + y + z) / S).
Proof.
  intros Hx Hy Hz HS S2 rho. assert (Pxy : 0 < x * y) by (apply Rmult_lt_0_compat; auto). assert (Pyz : 0 < y * z) by (apply Rmult_lt_0_compat; auto).
  assert (Pzx : 0 < z * x) by (apply Rmult_lt_0_compat; auto). assert (P : 0 < x * y * z) by (apply Rmult_lt_0_compat; auto).
  assert (I : / rho = / x + / y + / z + 2 * ((x + y + z) / S)).
  { unfold rho. replace ((x + y + z) / S) with (S / (x * y * z)).
    - field. repeat split; lra.
    - apply (Rmult_eq_reg_r (S * (x * y * z))); [|apply Rgt_not_eq, Rmult_lt_0_compat; auto]. field_simplify; [|lra|lra]. nra. }
  assert (Pr : 0 < rho) by (unfold rho; apply Rmult_lt_0_compat; auto; apply Rinv_0_lt_compat; lra).
  split; [|auto]. unfold innerSoddyRadius, np_div.
  destruct (Req_EM_T x 0); [lra|]. destruct (Req_EM_T y 0); [lra|]. destruct (Req_EM_T z 0); [lra|]. cbn [bind].
  assert (E : py_sqrt (1 / x / y + 1 / y / z + 1 / z / x) = Ok ((x + y + z) / S)).
  { apply py_sqrt_sq; [apply Rlt_le, Rmult_lt_0_compat; [lra|apply Rinv_0_lt_compat; auto]|].
    apply (Rmult_eq_reg_r (S * S)); [|apply Rgt_not_eq, Rmult_lt_0_compat; auto]. transitivity ((x + y + z) * (x + y + z)); [rewrite S2|]; field; lra. }
  rewrite E. cbn [bind]. assert (Eq : 1 / x + 1 / y + 1 / z + 2 * ((x + y + z) / S) = / rho) by (rewrite I; field; lra). rewrite Eq.
  pose proof (Rinv_0_lt_compat _ Pr). destruct Req_EM_T; [lra|]. f_equal. field. lra.
Qed.

(** the radical centre of three circles with non collinear centres is unique *)
Lemma radical_unique A B C P Q a b : dbl A B C <> 0 ->
  dist2 P A - dist2 P B = a -> dist2 P A - dist2 P C = b -> dist2 Q A - dist2 Q B = a -> dist2 Q A - dist2 Q C = b -> P = Q.
Proof.
  intros N P1 P2 Q1 Q2. destruct A as [ax ay], B as [bx bly], C as [cx cy], P as [px py], Q as [qx qy]. unfold dbl, dist2, scross, sdot, vsub in *. cbn [fst snd] in *.
  assert (E1 : (px - qx) * (bx - ax) + (py - qy) * (bly - ay) = 0) by lra. assert (E2 : (px - qx) * (cx - ax) + (py - qy) * (cy - ay) = 0) by lra.
  set (D := (bx - ax) * (cy - ay) - (bly - ay) * (cx - ax)) in *.
  assert (F1 : (px - qx) * D = 0) by (unfold D; replace ((px - qx) * _) with (((px - qx) * (bx - ax) + (py - qy) * (bly - ay)) * (cy - ay) - ((px - qx) * (cx - ax) + (py - qy) * (cy - ay)) * (bly - ay)) by ring; rewrite E1, E2; ring).
  assert (F2 : (py - qy) * D = 0) by (unfold D; replace ((py - qy) * _) with (((px - qx) * (cx - ax) + (py - qy) * (cy - ay)) * (bx - ax) - ((px - qx) * (bx - ax) + (py - qy) * (bly - ay)) * (cx - ax)) by ring; rewrite E1, E2; ring).
  apply Rmult_integral in F1, F2. f_equal; destruct F1, F2; try lra; contradiction.
Qed.

Lemma ortho_incenter c1 c2 c3 D S : posc D -> Ravi (cO c1) (cO c2) (cO c3) (cr c1) (cr c2) (cr c3) S ->
  ortho D c1 -> ortho D c2 -> ortho D c3 ->
  cO D = incenter (cO c1) (cO c2) (cO c3) (cr c1) (cr c2) (cr c3) /\ cr D = S / (cr c1 + cr c2 + cr c3).
Proof.
  intros PD H O1 O2 O3. pose proof (Ravi_perm _ _ _ _ _ _ _ H) as H2. pose proof (Ravi_perm _ _ _ _ _ _ _ H2) as H3.
  pose proof (incenter_dist _ _ _ _ _ _ _ H) as E1. pose proof (incenter_dist _ _ _ _ _ _ _ H2) as E2. pose proof (incenter_dist _ _ _ _ _ _ _ H3) as E3.
  cbv zeta in E1, E2, E3. rewrite incenter_perm in E3. rewrite incenter_perm in E2, E3.
  pose proof H as (Hx & Hy & Hz & HS & S2 & Ea & Eb & Ec & ES).
  unfold ortho, posc in *. set (x := cr c1) in *. set (y := cr c2) in *. set (z := cr c3) in *. set (I0 := incenter _ _ _ _ _ _) in *.
  replace (y + z + x) with (x + y + z) in E2 by ring. replace (z + x + y) with (x + y + z) in E3 by ring. set (r := S / (x + y + z)) in *.
  assert (N : dbl (cO c1) (cO c2) (cO c3) <> 0) by (intros E; rewrite E, Rabs_R0 in ES; lra).
  rewrite dist2_sym in E1, E2, E3.
  assert (E : cO D = I0) by (apply (radical_unique (cO c1) (cO c2) (cO c3) _ _ (x * x - y * y) (x * x - z * z)); auto; lra).
  split; auto. rewrite E in O1. assert (Hr : 0 < r) by (apply Rmult_lt_0_compat; auto; apply Rinv_0_lt_compat; lra).
  assert (F : (cr D - r) * (cr D + r) = 0) by lra. apply Rmult_integral in F. lra.
Qed.

Lemma v4_det u v : vb u <> 0 -> vb u = vb v -> vp u = vp v -> kap u u = kap v v -> u = v.
Proof.
  destruct u as [[b [p q]] w], v as [[b' [p' q']] w']. unfold kap, vb, vp, vw, sdot. simpl. intros H <- E K. injection E as <- <-. f_equal.
  apply (Rmult_eq_reg_l b); auto. lra.
Qed.

Lemma ccc_triple c1 c2 c3 D : posc c1 -> posc c2 -> posc c3 -> posc D -> tang c1 c2 -> tang c2 c3 -> tang c1 c3 ->
  ortho D c1 -> ortho D c2 -> ortho D c3 -> triple (vc c1) (vc c2) (vc c3) (vc D).
Proof.
  intros P1 P2 P3 PD T12 T23 T13 O1 O2 O3. unfold triple. rewrite !kap_self by auto.
  rewrite (proj2 (kap_tang c1 c2 P1 P2) T12), (proj2 (kap_tang c2 c3 P2 P3) T23), (proj2 (kap_tang c1 c3 P1 P3) T13).
  rewrite (proj2 (kap_ortho D c1 PD P1) O1), (proj2 (kap_ortho D c2 PD P2) O2), (proj2 (kap_ortho D c3 PD P3) O3).
  unfold posc in *. pose proof (Rinv_0_lt_compat _ P1). pose proof (Rinv_0_lt_compat _ P2). pose proof (Rinv_0_lt_compat _ P3). pose proof (Rinv_0_lt_compat _ PD).
  unfold vc, vb. cbn [fst snd]. repeat split; lra.
Qed.

Lemma innerSoddy_new c1 c2 c3 D : posc c1 -> posc c2 -> posc c3 -> posc D -> tang c1 c2 -> tang c2 c3 -> tang c1 c3 ->
  ortho D c1 -> ortho D c2 -> ortho D c3 -> exists c,
  innerSoddyCircle c1 c2 c3 = Ok (c, [CCC c c1 c2; CCC c c2 c3; CCC c c1 c3]) /\ posc c /\ vc c = vnew (vc c1) (vc c2) (vc c3) (vc D) /\
  inside_triangle (cO c1) (cO c2) (cO c3) (cO c).
Proof.
  intros P1 P2 P3 PD T12 T23 T13 O1 O2 O3. pose proof (ccc_triple c1 c2 c3 D P1 P2 P3 PD T12 T23 T13 O1 O2 O3) as T.
  destruct (tangent_Ravi c1 c2 c3 P1 P2 P3 T12 T23 T13) as (S & H). destruct (ortho_incenter c1 c2 c3 D S PD H O1 O2 O3) as (ED & RD).
  destruct (equal_detour_eval _ _ _ _ _ _ _ H) as (d & Ed). destruct H as (Hx & Hy & Hz & HS & S2 & Ea & Eb & Ec & ES).
  unfold innerSoddyCircle. destruct (innerSoddyRadius_ok _ _ _ _ Hx Hy Hz HS S2) as (Er & Pr & Ir). cbv zeta in *.
  set (x := cr c1) in *. set (y := cr c2) in *. set (z := cr c3) in *. set (rho := x * y * z / _) in *.
  rewrite Er. cbn [bind]. rewrite Ed. cbn [bind]. rewrite Circle_init_pos by auto. cbn [bind]. eexists. split; [reflexivity|]. split; [exact Pr|].
  pose proof (detour_weight_pos S x y z Hx Hy Hz HS) as W0. pose proof (detour_weight_pos S y z x Hy Hz Hx HS) as W1. pose proof (detour_weight_pos S z x y Hz Hx Hy HS) as W2.
  assert (Psg : 0 < detour_sum S x y z) by (unfold detour_sum; lra).
  split.
  - set (c := mkCircle _ rho). assert (Pc : posc c) by exact Pr. pose proof (triple_new _ _ _ _ T) as (K & _).
    assert (Eb4 : vb (vc c) = vb (vnew (vc c1) (vc c2) (vc c3) (vc D))).
    { unfold vnew. rewrite !vb_add. unfold vc, vb. cbn [fst snd]. unfold c at 1. cbn [cr]. rewrite Ir, RD. fold x y z. field. repeat split; lra. }
    apply v4_det; [| exact Eb4 | | rewrite K; apply kap_self; auto].
    + unfold vb, vc; cbn [fst]. apply Rgt_not_eq, Rinv_0_lt_compat. exact Pc.
    + assert (Hg : / rho = detour_sum S x y z / S) by (rewrite Ir; unfold detour_sum, detour_weight; field; repeat split; lra).
      unfold vnew, v4add, vp, vc. cbn [fst snd]. rewrite ED, RD. fold x y z. unfold c at 1. cbn [cr]. rewrite Hg. unfold c. cbn [cO].
      unfold detour_point, incenter, bary. cbv zeta. set (g := detour_sum S x y z) in *. unfold vadd, vscal. cbn [fst snd]. unfold detour_weight.
      f_equal; field; repeat split; lra.
  - exists (detour_weight S x y z / detour_sum S x y z), (detour_weight S y z x / detour_sum S x y z), (detour_weight S z x y / detour_sum S x y z).
    pose proof (Rinv_0_lt_compat _ Psg). repeat split; try (apply Rmult_lt_0_compat; auto).
    unfold detour_sum. field. fold (detour_sum S x y z). lra.
Qed.

(** ** side_circle_circle *)
Definition lnormal (e : R) (A B : pt) : pt := vscal (e / dist A B) (- snd (vsub B A), fst (vsub B A)).

Lemma lnormal_unit e A B : e * e = 1 -> A <> B -> sdot (lnormal e A B) (lnormal e A B) = 1.
Proof.
  intros He N. pose proof (dist_pos _ _ N) as P. pose proof (dist_sq A B) as Q. unfold lnormal. set (d := dist A B) in *.
  transitivity (e * e * dist2 A B / (d * d)); [unspec; field; lra|]. rewrite Q, He. field. rewrite <- Q. apply Rgt_not_eq, Rmult_lt_0_compat; auto.
Qed.
Lemma lnormal_cross e A B O : A <> B -> sdot (lnormal e A B) (vsub O A) = e * scross (vsub B A) (vsub O A) / dist A B.
Proof. intros N. pose proof (dist_pos _ _ N) as P. unfold lnormal. set (d := dist A B) in *. unspec. field. lra. Qed.

(** the circle touches the line (AB) on the side e *)
Definition touch (e : R) (A B : pt) (c : circle) : Prop := e * scross (vsub B A) (vsub (cO c) A) = cr c * dist A B.

Lemma kap_touch e A B c : A <> B -> posc c -> kap (vl (lnormal e A B) A) (vc c) = 1 <-> touch e A B c.
Proof.
  unfold posc, touch. intros N P. pose proof (dist_pos _ _ N) as Pd. rewrite kap_lc by lra. rewrite lnormal_cross by auto. split; intros E.
  - assert (e * scross (vsub B A) (vsub (cO c) A) = 1 * (cr c * dist A B)) by (rewrite <- E; field; lra). lra.
  - rewrite E. field. lra.
Qed.
Lemma kap_centre e A B c : A <> B -> posc c -> e * e = 1 -> kap (vl (lnormal e A B) A) (vc c) = 0 <-> scross (vsub B A) (vsub (cO c) A) = 0.
Proof.
  unfold posc. intros N P He. pose proof (dist_pos _ _ N) as Pd. rewrite kap_lc by lra. rewrite lnormal_cross by auto. set (k := scross _ _). split; intros E.
  - assert (e * k = 0 * (cr c * dist A B)) by (rewrite <- E; field; lra). assert (e * e * k = 0) by (rewrite Rmult_assoc, H; ring). rewrite He in H0. lra.
  - rewrite E. field. lra.
Qed.

Lemma ccl_triple e c1 c2 A B D : A <> B -> e * e = 1 -> posc c1 -> posc c2 -> posc D -> tang c1 c2 -> touch e A B c1 -> touch e A B c2 ->
  ortho D c1 -> ortho D c2 -> scross (vsub B A) (vsub (cO D) A) = 0 -> triple (vc c1) (vc c2) (vl (lnormal e A B) A) (vc D).
Proof.
  intros N He P1 P2 PD T12 T23 T13 O1 O2 O3. unfold triple. rewrite !kap_self by auto. rewrite kap_ll, lnormal_unit by auto.
  rewrite (kap_sym (vc c2) (vl _ _)), (kap_sym (vc c1) (vl _ _)), (kap_sym (vc D) (vl _ _)).
  rewrite (proj2 (kap_tang c1 c2 P1 P2) T12), (proj2 (kap_touch e A B c1 N P1) T23), (proj2 (kap_touch e A B c2 N P2) T13).
  rewrite (proj2 (kap_ortho D c1 PD P1) O1), (proj2 (kap_ortho D c2 PD P2) O2), (proj2 (kap_centre e A B D N PD He) O3).
  unfold posc in *. pose proof (Rinv_0_lt_compat _ P1). pose proof (Rinv_0_lt_compat _ P2). pose proof (Rinv_0_lt_compat _ PD).
  unfold vc, vl, vb. cbn [fst snd]. repeat split; lra.
Qed.

Lemma innerSoddyRadius_inf a b : 0 < a -> 0 < b ->
  let s := a * b / (a + b) in innerSoddyRadius (a * a) (b * b) None = Ok (s * s) /\ 0 < s.
Proof.
  intros Ha Hb s. assert (Pa : 0 < a * a) by (apply Rmult_lt_0_compat; auto). assert (Pb : 0 < b * b) by (apply Rmult_lt_0_compat; auto).
  assert (Pab : 0 < a * b) by (apply Rmult_lt_0_compat; auto).
  assert (Ps : 0 < s) by (apply Rmult_lt_0_compat; auto; apply Rinv_0_lt_compat; lra).
  split; auto. unfold innerSoddyRadius, np_div. destruct (Req_EM_T (a * a) 0); [lra|]. destruct (Req_EM_T (b * b) 0); [lra|]. cbn [bind].
  rewrite (py_sqrt_sq _ (/ (a * b))); [cbn [bind] | apply Rlt_le, Rinv_0_lt_compat; auto | field; lra].
  assert (E : 1 / (a * a) + 1 / (b * b) + 0 + 2 * / (a * b) = / (s * s)) by (unfold s; field; lra). rewrite E.
  pose proof (Rmult_lt_0_compat _ _ Ps Ps) as Pss. pose proof (Rinv_0_lt_compat _ Pss). destruct Req_EM_T; [lra|]. f_equal. field. lra.
Qed.

(** the frame of the line (AB) *)
Definition frame (A B : pt) (x y : R) : pt := vadd A (vadd (vscal (x / dist A B) (vsub B A)) (vscal (y / dist A B) (- snd (vsub B A), fst (vsub B A)))).
Lemma frame_dist2 A B x y x' y' : A <> B -> dist2 (frame A B x y) (frame A B x' y') = (x' - x) * (x' - x) + (y' - y) * (y' - y).
Proof.
  intros N. pose proof (dist_pos _ _ N) as P. pose proof (dist_sq A B) as Q. unfold frame. set (d := dist A B) in *.
  transitivity (dist2 A B / (d * d) * ((x' - x) * (x' - x) + (y' - y) * (y' - y))); [unspec; field; lra|].
  rewrite <- Q. field. lra.
Qed.
Lemma frame_ex A B P : A <> B -> P = frame A B (sdot (vsub B A) (vsub P A) / dist A B) (scross (vsub B A) (vsub P A) / dist A B).
Proof.
  intros N. pose proof (dist_pos _ _ N) as Pd. pose proof (dist_sq A B) as Q. unfold frame. set (d := dist A B) in *.
  assert (Q' : d * d = (fst B - fst A) * (fst B - fst A) + (snd B - snd A) * (snd B - snd A)) by (rewrite Q; unspec; ring). clearbody d.
  destruct A as [ax ay], B as [bx bly], P as [px py]. unspec. cbn [fst snd] in *.
  f_equal; apply (Rmult_eq_reg_r (d * d)); try (apply Rgt_not_eq, Rmult_lt_0_compat; auto); field_simplify; try lra; rewrite ?Q'; try ring.
  all: replace (d ^ 2) with (d * d) by ring; rewrite Q'; ring.
Qed.
