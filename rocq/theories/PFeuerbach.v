(** * Relations between the circles of a triangle: Euler, Feuerbach, the excentral triangle. *)

From Coq Require Import Reals Lra Psatz List Bool.
From Verif Require Import Base BaseLemmas Spec SpecLemmas SpecTriangle ModelInternal ModelLine ModelCircle ModelAffine ModelTriangle PLine PInvBase PTriangle PTriangle2.
Import ListNotations.
Local Open Scope R_scope.

(** ** identities *)
Lemma circum_sq A B C O r2 : dist2 O A = r2 -> dist2 O B = r2 -> dist2 O C = r2 ->
  4 * r2 * (dbl A B C * dbl A B C) = dist2 B C * dist2 A C * dist2 A B.
Proof.
  intros <- HB HC. destruct A as [a1 a2], B as [b1 b2], C as [c1 c2], O as [o1 o2]. unfold dbl. unspec.
  set (u1 := b1 - a1) in *. set (u2 := b2 - a2) in *. set (v1 := c1 - a1) in *. set (v2 := c2 - a2) in *. set (x := o1 - a1). set (y := o2 - a2).
  assert (E1 : 2 * (u1 * x + u2 * y) = u1 * u1 + u2 * u2) by (unfold u1, u2, x, y; lra).
  assert (E2 : 2 * (v1 * x + v2 * y) = v1 * v1 + v2 * v2) by (unfold v1, v2, x, y; lra).
  set (d := u1 * v2 - u2 * v1).
  assert (X : 2 * d * x = (u1 * u1 + u2 * u2) * v2 - (v1 * v1 + v2 * v2) * u2) by (rewrite <- E1, <- E2; unfold d; ring).
  assert (Y : 2 * d * y = (v1 * v1 + v2 * v2) * u1 - (u1 * u1 + u2 * u2) * v1) by (rewrite <- E1, <- E2; unfold d; ring).
  replace (a1 - o1) with (- x) by (unfold x; ring). replace (a2 - o2) with (- y) by (unfold y; ring).
  replace (c1 - b1) with (v1 - u1) by (unfold u1, v1; ring). replace (c2 - b2) with (v2 - u2) by (unfold u2, v2; ring).
  transitivity ((2 * d * x) * (2 * d * x) + (2 * d * y) * (2 * d * y)); [ring|]. rewrite X, Y. ring.
Qed.
Lemma leibniz O A B C x y z : x + y + z = 1 ->
  dist2 O (bary x y z A B C) = x * dist2 O A + y * dist2 O B + z * dist2 O C - (y * z * dist2 B C + x * z * dist2 A C + x * y * dist2 A B).
Proof. intros H. replace z with (1 - x - y) by lra. destruct_pts. unfold bary. unspec. ring. Qed.

(** a point with barycentric coordinates u : v : w where |u|, |v|, |w| are the sides *)
Lemma euler_gen O A B C u v w r2 : u + v + w <> 0 -> u * u = dist2 B C -> v * v = dist2 A C -> w * w = dist2 A B ->
  dist2 O A = r2 -> dist2 O B = r2 -> dist2 O C = r2 ->
  let q := u + v + w in dist2 O (bary (u / q) (v / q) (w / q) A B C) = r2 - u * v * w / q.
Proof.
  intros Hq Hu Hv Hw HA HB HC q. fold q in Hq. rewrite leibniz by (unfold q; field; auto). rewrite HA, HB, HC, <- Hu, <- Hv, <- Hw.
  transitivity ((u + v + w) / q * r2 - u * v * w * (u + v + w) / (q * q)); [field; auto|]. fold q. field. auto.
Qed.

(** the centre of the nine-point circle *)
Definition nine (O A B C : pt) : pt := vscal (/ 2) (vsub (vadd (vadd A B) C) O).
Lemma nine_vertex O A B C r2 : dist2 O A = r2 -> dist2 O B = r2 -> dist2 O C = r2 ->
  dist2 (nine O A B C) A = (r2 - dist2 B C + dist2 A C + dist2 A B) / 4.
Proof. destruct_pts. unfold nine. unspec. intros. lra. Qed.
Lemma nine_perm O A B C : nine O B C A = nine O A B C.
Proof. unfold nine. destruct_pts. unpt. apply pair_eq; ring. Qed.
Lemma feuerbach_gen O A B C u v w r2 : u + v + w <> 0 -> u * u = dist2 B C -> v * v = dist2 A C -> w * w = dist2 A B ->
  dist2 O A = r2 -> dist2 O B = r2 -> dist2 O C = r2 ->
  let q := u + v + w in
  dist2 (nine O A B C) (bary (u / q) (v / q) (w / q) A B C) = r2 / 4 + dbl A B C * dbl A B C / (q * q) - u * v * w / (2 * q).
Proof.
  intros Hq Hu Hv Hw HA HB HC q. fold q in Hq. rewrite leibniz by (unfold q; field; auto).
  assert (NB : dist2 (nine O A B C) B = (r2 - dist2 A C + dist2 A B + dist2 B C) / 4).
  { rewrite <- (nine_perm O A B C), (nine_vertex O B C A r2) by auto. rewrite (dist2_sym C A), (dist2_sym B A). reflexivity. }
  assert (NC : dist2 (nine O A B C) C = (r2 - dist2 A B + dist2 B C + dist2 A C) / 4).
  { rewrite (nine_perm O C A B), (nine_vertex O C A B r2) by auto. rewrite (dist2_sym C A), (dist2_sym C B). field. }
  rewrite (nine_vertex O A B C r2), NB, NC by auto. rewrite <- Hu, <- Hv, <- Hw.
  pose proof (heron_poly A B C u v w Hu Hv Hw) as He. fold q in He.
  replace (dbl A B C * dbl A B C) with (q * (- u + v + w) * (u - v + w) * (u + v - w) / 4) by lra.
  transitivity (q / q * r2 / 4 + ((- u + v + w) * (u - v + w) * (u + v - w) + 2 * u * v * w) / (4 * q) - u * v * w * q / (q * q)); [unfold q; field; auto|].
  field. auto.
Qed.

(** ** the circles of a triangle *)
Section Tri.
Variables (A B C : pt) (cc ci cA cB cC : circle).
Hypothesis N : dbl A B C <> 0.
Hypothesis Hcc : circumcircle (mkTri A B C) = Ok (Some cc).
Hypothesis Hci : incircle (mkTri A B C) = Ok ci.
Hypothesis Hex : excircles (mkTri A B C) = Ok (cA, cB, cC).
Let a := dist B C.
Let b := dist A C.
Let c := dist A B.
Let k := Rabs (dbl A B C).

Lemma kpos : 0 < k. Proof. apply Rabs_pos_lt. auto. Qed.
Lemma ksq : k * k = dbl A B C * dbl A B C. Proof. apply Rabs_sq. Qed.
Lemma cc_facts : 0 < cr cc /\ dist2 (cO cc) A = cr cc * cr cc /\ dist2 (cO cc) B = cr cc * cr cc /\ dist2 (cO cc) C = cr cc * cr cc.
Proof.
  destruct (circumcircle_spec _ _ Hcc) as (_ & Hr & H1 & H2 & H3 & _). cbn [tA tB tC] in *.
  rewrite on_circle_sq in * by lra. auto.
Qed.
Lemma ci_val : ci = mkCircle (bary (a / (a + b + c)) (b / (a + b + c)) (c / (a + b + c)) A B C) (k / (a + b + c)).
Proof. destruct (incircle_total A B C N) as [E _]. rewrite E in Hci. injection Hci as <-. reflexivity. Qed.
Lemma ex_val : cA = mkCircle (bary (- a / (- a + b + c)) (b / (- a + b + c)) (c / (- a + b + c)) A B C) (k / (- a + b + c)) /\
  cB = mkCircle (bary (a / (a - b + c)) (- b / (a - b + c)) (c / (a - b + c)) A B C) (k / (a - b + c)) /\
  cC = mkCircle (bary (a / (a + b - c)) (b / (a + b - c)) (- c / (a + b - c)) A B C) (k / (a + b - c)).
Proof. rewrite (excircles_total A B C N) in Hex. injection Hex as <- <- <-. auto. Qed.
Lemma Rk : 2 * cr cc * k = a * b * c.
Proof.
  destruct cc_facts as (Hr & H1 & H2 & H3). pose proof (circum_sq A B C _ _ H1 H2 H3) as E. rewrite <- ksq, <- !dist_sq in E. fold a b c in E.
  destruct (sides_pos _ _ _ N) as (P1 & P2 & P3). fold a in P1. fold b in P2. fold c in P3. pose proof kpos.
  apply sq_inj; [| |transitivity (4 * (cr cc * cr cc) * (k * k)); [ring|rewrite E; ring]].
  - apply Rlt_le. repeat apply Rmult_lt_0_compat; lra.
  - apply Rlt_le. repeat apply Rmult_lt_0_compat; lra.
Qed.
Lemma sides3 : 0 < a + b + c /\ 0 < - a + b + c /\ 0 < a - b + c /\ 0 < a + b - c /\ 0 < a /\ 0 < b /\ 0 < c.
Proof.
  destruct (sides_pos _ _ _ N) as (P1 & P2 & P3). destruct (sides_ineq _ _ _ N) as (Q1 & Q2 & Q3). unfold a, b, c. repeat split; lra.
Qed.
Lemma hero : (a + b + c) * (- a + b + c) * (a - b + c) * (a + b - c) = 4 * (k * k).
Proof. rewrite ksq. apply (heron_poly A B C); apply dist_sq. Qed.

Lemma radii : / cr ci = / cr cA + / cr cB + / cr cC /\ cr cA + cr cB + cr cC = 4 * cr cc + cr ci /\
  cr ci * cr cA * cr cB * cr cC = (k / 2) ^ 2 /\ cr ci * (a + b + c) = k.
Proof.
  destruct ex_val as (-> & -> & ->). rewrite ci_val. cbn [cr]. destruct sides3 as (S0 & S1 & S2 & S3 & P1 & P2 & P3). pose proof kpos as K. pose proof hero as He. pose proof Rk as HR. pose proof (Rmult_lt_0_compat _ _ K K) as KK.
  split; [field; lra|]. split; [|split; [|field; lra]].
  - assert (E : cr cc = a * b * c / (2 * k)) by (rewrite <- HR; field; lra). rewrite E.
    apply (Rmult_eq_reg_r (k * ((a + b + c) * (- a + b + c) * (a - b + c) * (a + b - c)))); [|rewrite He; apply Rgt_not_eq, Rmult_lt_0_compat; lra].
    transitivity (k * k * ((a + b + c) * ((a - b + c) * (a + b - c) + (- a + b + c) * (a + b - c) + (- a + b + c) * (a - b + c)))); [field; lra|].
    transitivity (2 * (a * b * c) * ((a + b + c) * (- a + b + c) * (a - b + c) * (a + b - c)) + k * k * ((- a + b + c) * (a - b + c) * (a + b - c))); [|field; lra].
    rewrite He. ring.
  - apply (Rmult_eq_reg_r ((a + b + c) * (- a + b + c) * (a - b + c) * (a + b - c))); [|rewrite He; lra].
    transitivity (k * k * k * k); [field; lra|]. rewrite He. field.
Qed.

Let nn := nine (cO cc) A B C.
Lemma one u v w rho sg : u + v + w <> 0 -> u * u = a * a -> v * v = b * b -> w * w = c * c -> u * v * w = sg * (a * b * c) -> rho = k / (u + v + w) ->
  sg * sg = 1 ->
  let J := bary (u / (u + v + w)) (v / (u + v + w)) (w / (u + v + w)) A B C in
  dist2 (cO cc) J = cr cc * (cr cc - 2 * sg * rho) /\ dist2 nn J = (cr cc / 2 - sg * rho) ^ 2.
Proof.
  intros Hq Hu Hv Hw Hs -> Hg J. destruct cc_facts as (Hr & H1 & H2 & H3).
  unfold a, b, c in Hu, Hv, Hw. rewrite dist_sq in Hu, Hv, Hw.
  pose proof (euler_gen (cO cc) A B C u v w _ Hq Hu Hv Hw H1 H2 H3) as E1. pose proof (feuerbach_gen (cO cc) A B C u v w _ Hq Hu Hv Hw H1 H2 H3) as E2. cbn zeta in E1, E2.
  fold J in E1, E2. fold nn in E2. rewrite E1, E2, Hs, <- Rk, <- ksq. split.
  - field. auto.
  - transitivity (cr cc * cr cc / 4 + sg * sg * (k * k) / ((u + v + w) * (u + v + w)) - sg * (2 * cr cc * k) / (2 * (u + v + w))); [rewrite Hg; field; auto|field; auto].
Qed.
Lemma euler : dist2 (cO cc) (cO ci) = cr cc * (cr cc - 2 * cr ci) /\ dist2 (cO cc) (cO cA) = cr cc * (cr cc + 2 * cr cA) /\
  dist2 (cO cc) (cO cB) = cr cc * (cr cc + 2 * cr cB) /\ dist2 (cO cc) (cO cC) = cr cc * (cr cc + 2 * cr cC).
Proof.
  destruct ex_val as (-> & -> & ->). rewrite ci_val. cbn [cO cr]. destruct sides3 as (S0 & S1 & S2 & S3 & P1 & P2 & P3). repeat split.
  - rewrite (proj1 (one a b c _ 1 ltac:(lra) eq_refl eq_refl eq_refl ltac:(ring) eq_refl ltac:(ring))). ring.
  - rewrite (proj1 (one (- a) b c _ (-1) ltac:(lra) ltac:(ring) eq_refl eq_refl ltac:(ring) eq_refl ltac:(ring))). ring.
  - replace (a - b + c) with (a + - b + c) by ring.
    rewrite (proj1 (one a (- b) c _ (-1) ltac:(lra) eq_refl ltac:(ring) eq_refl ltac:(ring) eq_refl ltac:(ring))). ring.
  - replace (a + b - c) with (a + b + - c) by ring.
    rewrite (proj1 (one a b (- c) _ (-1) ltac:(lra) eq_refl eq_refl ltac:(ring) ltac:(ring) eq_refl ltac:(ring))). ring.
Qed.
Lemma feuerbach : dist nn (cO ci) = cr cc / 2 - cr ci /\ dist nn (cO cA) = cr cc / 2 + cr cA /\ dist nn (cO cB) = cr cc / 2 + cr cB /\ dist nn (cO cC) = cr cc / 2 + cr cC.
Proof.
  destruct euler as (E0 & _). destruct cc_facts as (Hr & _). pose proof (dist2_nonneg (cO cc) (cO ci)) as E1. rewrite E0 in E1.
  assert (E2 : 0 <= cr cc - 2 * cr ci) by (destruct (Rle_or_lt 0 (cr cc - 2 * cr ci)); auto; nra). clear E0 E1. revert E2. pose proof kpos as K.
  destruct ex_val as (-> & -> & ->). rewrite ci_val. cbn [cO cr]. destruct sides3 as (S0 & S1 & S2 & S3 & P1 & P2 & P3). intros E2.
  assert (D : forall x, 0 < x -> 0 < k / x) by (intros; apply Rdiv_lt_0_compat; auto).
  pose proof (D _ S1). pose proof (D _ S2). pose proof (D _ S3).
  repeat split; unfold dist; (apply sqrt_eq; [lra|]).
  - rewrite (proj2 (one a b c _ 1 ltac:(lra) eq_refl eq_refl eq_refl ltac:(ring) eq_refl ltac:(ring))). ring.
  - rewrite (proj2 (one (- a) b c _ (-1) ltac:(lra) ltac:(ring) eq_refl eq_refl ltac:(ring) eq_refl ltac:(ring))). ring.
  - replace (a - b + c) with (a + - b + c) by ring.
    rewrite (proj2 (one a (- b) c _ (-1) ltac:(lra) eq_refl ltac:(ring) eq_refl ltac:(ring) eq_refl ltac:(ring))). ring.
  - replace (a + b - c) with (a + b + - c) by ring.
    rewrite (proj2 (one a b (- c) _ (-1) ltac:(lra) eq_refl eq_refl ltac:(ring) ltac:(ring) eq_refl ltac:(ring))). ring.
Qed.
End Tri.
