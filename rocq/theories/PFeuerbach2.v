(** * The nine-point circle and the excentral triangle. *)

From Coq Require Import Reals Lra Psatz List Bool.
From Verif Require Import Base BaseLemmas Spec SpecLemmas SpecTriangle ModelInternal ModelLine ModelCircle ModelAffine ModelTriangle PLine PInvBase PTriangle PTriangle2 PFeuerbach.
Import ListNotations.
Local Open Scope R_scope.

(** the middle of a side and the foot on this side are at the same distance of the centre *)
Lemma nine_mid O A B C : dist2 (nine O A B C) (midpoint B C) = dist2 O A / 4.
Proof. destruct_pts. unfold nine. unspec. field. Qed.
Lemma nine_foot O A B C F r2 : dist2 O B = r2 -> dist2 O C = r2 -> altitude_foot A B C F ->
  dist2 (nine O A B C) F = dist2 O A / 4.
Proof.
  intros HB HC [[t Ht] Ho]. rewrite <- (nine_mid O A B C). subst F. destruct A as [a1 a2], B as [b1 b2], C as [c1 c2], O as [o1 o2]. unfold nine. unspec.
  set (u := c1 - b1) in *. set (v := c2 - b2) in *.
  assert (E : u * (2 * o1 - b1 - c1) + v * (2 * o2 - b2 - c2) = 0) by (unfold u, v; lra).
  apply Rminus_diag_uniq.
  transitivity ((t - / 2) * (((b1 + t * u - a1) * u + (b2 + t * v - a2) * v) + / 2 * (u * (2 * o1 - b1 - c1) + v * (2 * o2 - b2 - c2)))); [unfold u, v; field|].
  rewrite Ho, E. ring.
Qed.
Lemma foot_val A B C F : B <> C -> altitude_foot A B C F ->
  let q := sdot (vsub A B) (vsub C B) in let r := sdot (vsub A C) (vsub B C) in
  q + r = dist2 B C /\ F = bary 0 (r / (q + r)) (q / (q + r)) A B C.
Proof.
  intros H [[t ->] H1] q r. assert (E : q + r = dist2 B C) by (unfold q, r; destruct_pts; unspec; ring). split; auto.
  pose proof (dist2_pos _ _ H) as P. rewrite <- E in P.
  assert (T : t = q / (q + r)). { apply (Rmult_eq_reg_r (q + r)); [|lra]. transitivity q; [|field; lra]. rewrite E. clear - H1. unfold q. destruct_pts. unspec. lra. }
  assert (T' : r / (q + r) = 1 - t) by (rewrite T; field; lra). rewrite T', <- T. clear. destruct_pts. unfold bary. unspec. apply pair_eq; ring.
Qed.
Lemma foot_unique A B C F G : B <> C -> altitude_foot A B C F -> altitude_foot A B C G -> F = G.
Proof. intros H H1 H2. rewrite (proj2 (foot_val A B C F H H1)), (proj2 (foot_val A B C G H H2)). reflexivity. Qed.

Definition pA (A B C : pt) := sdot (vsub B A) (vsub C A).
Lemma orthic_dbl A B C T : A <> B -> A <> C -> B <> C -> orthic_triangle (mkTri A B C) = Ok T ->
  dbl (tA T) (tB T) (tC T) = 2 * pA A B C * pA B A C * pA C A B / (dist2 B C * dist2 A C * dist2 A B) * dbl A B C.
Proof.
  intros H1 H2 H3 HT. destruct (orthic_spec A B C H1 H2 H3) as (T' & HT' & FA & FB & FC). rewrite HT in HT'. injection HT' as <-.
  destruct (foot_val A B C _ H3 FA) as [EA VA]. destruct (foot_val B C A _ ltac:(auto) FB) as [EB VB]. destruct (foot_val C A B _ H1 FC) as [EC VC].
  pose proof (dist2_pos _ _ H3) as P1. pose proof (dist2_pos _ _ H2) as P2. pose proof (dist2_pos _ _ H1) as P3.
  rewrite VA, VB, VC. rewrite (dist2_sym C A) in EB.
  set (p := pA A B C). set (q := pA B A C). set (r := pA C A B).
  assert (Eq : sdot (vsub A B) (vsub C B) = q) by reflexivity. assert (Er : sdot (vsub A C) (vsub B C) = r) by reflexivity.
  assert (Er' : sdot (vsub B C) (vsub A C) = r) by (unfold r, pA; unfold sdot; ring). assert (Ep' : sdot (vsub B A) (vsub C A) = p) by reflexivity.
  assert (Ep : sdot (vsub C A) (vsub B A) = p) by (unfold p, pA; unfold sdot; ring). assert (Eq' : sdot (vsub C B) (vsub A B) = q) by (unfold q, pA; unfold sdot; ring).
  rewrite Eq, Er, Er', Ep, Ep', Eq' in *. rewrite <- EA, <- EB, <- EC in *. clearbody p q r. clear - P1 P2 P3.
  destruct A as [a1 a2], B as [b1 b2], C as [c1 c2]. unfold dbl, bary. unspec. field. lra.
Qed.

Lemma mid_sym (X Y : pt) : midpoint X Y = midpoint Y X.
Proof. unfold midpoint. destruct X, Y. unpt. apply pair_eq; field. Qed.
Lemma right1 X Y Z F : pA X Y Z = 0 -> Z <> X -> altitude_foot Y Z X F -> F = X.
Proof.
  intros Hp Hz HF. apply (foot_unique Y Z X); auto. split; [exists 1; unspec; destruct_pts; cbn; apply pair_eq; ring|]. unfold pA in Hp. revert Hp. clear. destruct_pts. unspec. lra.
Qed.
Lemma right2 X Y Z F : pA X Y Z = 0 -> Y <> X -> altitude_foot Z X Y F -> F = X.
Proof.
  intros Hp Hy HF. apply (foot_unique Z X Y); auto. split; [exists 0; unspec; destruct_pts; cbn; apply pair_eq; ring|]. unfold pA in Hp. revert Hp. clear. destruct_pts. unspec. lra.
Qed.
Lemma line_flat B C t : dbl (vadd B (vscal t (vsub C B))) B C = 0.
Proof. unfold dbl. destruct_pts. unspec. ring. Qed.
Lemma col_twice X Y : collinear X Y Y.
Proof. apply collinear_cross. unspec. destruct_pts. cbn. ring. Qed.
Lemma pA_sym X Y Z : pA X Y Z = pA X Z Y.
Proof. unfold pA, sdot. ring. Qed.

Section Nine.
Variables (A B C : pt) (cc : circle).
Hypothesis N : dbl A B C <> 0.
Hypothesis Hcc : circumcircle (mkTri A B C) = Ok (Some cc).

Lemma nine_circle : pA A B C <> 0 -> pA B A C <> 0 -> pA C A B <> 0 ->
  exists T n, orthic_triangle (mkTri A B C) = Ok T /\ circumcircle T = Ok (Some n) /\ cO n = nine (cO cc) A B C /\ cr n = cr cc / 2 /\
    on_circle (cO n) (cr n) (midpoint B C) /\ on_circle (cO n) (cr n) (midpoint A C) /\ on_circle (cO n) (cr n) (midpoint A B).
Proof.
  intros Np Nq Nr. destruct (dbl_distinct _ _ _ N) as (H1 & H2 & H3). destruct (orthic_spec A B C H1 H2 H3) as (T & HT & FA & FB & FC).
  pose proof (orthic_dbl A B C T H1 H2 H3 HT) as D.
  destruct (cc_facts A B C cc Hcc) as (Hr & EA & EB & EC).
  assert (D0 : dbl (tA T) (tB T) (tC T) <> 0).
  { rewrite D. pose proof (dist2_pos _ _ H3) as P1. pose proof (dist2_pos _ _ H2) as P2. pose proof (dist2_pos _ _ H1) as P3.
    assert (M : forall x y, x <> 0 -> y <> 0 -> x * y <> 0) by (intros; apply Rmult_integral_contrapositive_currified; auto).
    apply M; auto. apply M; [apply M; [apply M; [apply M; [lra|auto]|auto]|auto]|]. apply Rinv_neq_0_compat. apply M; [apply M; lra|lra]. }
  destruct T as [HA HB HC]. cbn [tA tB tC] in *. destruct (circumcircle_total HA HB HC D0) as (n & Hn & Rn & NA & NB & NC).
  exists (mkTri HA HB HC), n. split; auto. split; auto.
  assert (Q : forall M, dist2 (nine (cO cc) A B C) M = cr cc * cr cc / 4 -> on_circle (nine (cO cc) A B C) (cr cc / 2) M).
  { intros M H. apply on_circle_sq; [lra|]. rewrite H. field. }
  assert (X : cO n = nine (cO cc) A B C /\ cr n = cr cc / 2).
  { apply (circ_unique HA HB HC); auto; try lra; apply Q.
    - rewrite (nine_foot (cO cc) A B C HA _ EB EC FA). rewrite EA. reflexivity.
    - rewrite <- (nine_perm (cO cc) A B C). rewrite (nine_foot (cO cc) B C A HB _ EC EA FB). rewrite EB. reflexivity.
    - rewrite (nine_perm (cO cc) C A B). rewrite (nine_foot (cO cc) C A B HC _ EA EB FC). rewrite EC. reflexivity. }
  destruct X as [-> ->]. split; auto. split; auto. split; [|split]; apply Q.
  - rewrite nine_mid, EA. reflexivity.
  - rewrite <- (nine_perm (cO cc) A B C). rewrite (mid_sym A C), nine_mid, EB. reflexivity.
  - rewrite (nine_perm (cO cc) C A B), nine_mid, EC. reflexivity.
Qed.

(** a right angle: two vertices of the orthic triangle are equal *)
Lemma nine_right : exists T, orthic_triangle (mkTri A B C) = Ok T /\
  (pA A B C = 0 -> circumcircle T = Ok None) /\ (pA B A C = 0 \/ pA C A B = 0 -> circumcircle T = Raise ZeroDivisionError).
Proof.
  destruct (dbl_distinct _ _ _ N) as (H1 & H2 & H3). destruct (orthic_spec A B C H1 H2 H3) as (T & HT & FA & FB & FC). exists T. split; auto.
  split.
  - intros Hp. apply circumcircle_none.
    assert (EB : tB T = A) by (apply (right1 A B C); auto). assert (EC : tC T = A) by (apply (right2 A B C); auto). rewrite EB, EC.
    assert (NA : tA T <> A). { intros E. rewrite E in FA. destruct FA as [[t FA] _]. apply N. rewrite FA at 1. apply line_flat. }
    split; auto. split; auto. apply col_twice.
  - intros [Hp|Hp]; apply circumcircle_raise; split; auto.
    + rewrite pA_sym in Hp. right. rewrite (right2 B C A (tA T)), (right1 B C A (tC T)); auto.
    + left. rewrite (right1 C A B (tA T)), (right2 C A B (tB T)); auto.
Qed.
End Nine.

(** ** the triangle of the centres of the excircles *)
Lemma bary_dbl A B C x1 y1 z1 x2 y2 z2 x3 y3 z3 : x1 + y1 + z1 = 1 -> x2 + y2 + z2 = 1 -> x3 + y3 + z3 = 1 ->
  dbl (bary x1 y1 z1 A B C) (bary x2 y2 z2 A B C) (bary x3 y3 z3 A B C) =
  (x1 * (y2 * z3 - z2 * y3) - y1 * (x2 * z3 - z2 * x3) + z1 * (x2 * y3 - y2 * x3)) * dbl A B C.
Proof. intros E1 E2 E3. replace x1 with (1 - y1 - z1) by lra. replace x2 with (1 - y2 - z2) by lra. replace x3 with (1 - y3 - z3) by lra. clear. destruct_pts. unfold dbl, bary. unspec. ring. Qed.
Lemma exc_foot A B C a b c : b * b = dist2 A C -> c * c = dist2 A B -> - a + b + c <> 0 -> a - b + c <> 0 -> a + b - c <> 0 -> a <> 0 ->
  altitude_foot (bary (- a / (- a + b + c)) (b / (- a + b + c)) (c / (- a + b + c)) A B C)
    (bary (a / (a - b + c)) (- b / (a - b + c)) (c / (a - b + c)) A B C) (bary (a / (a + b - c)) (b / (a + b - c)) (- c / (a + b - c)) A B C) A.
Proof.
  intros Hb Hc N1 N2 N3 Na. destruct A as [a1 a2], B as [b1 b2], C as [c1 c2]. unfold altitude_foot, on_line, bary. unspec. split.
  - exists ((a + b - c) / (2 * a)). apply pair_eq; field; lra.
  - transitivity (- 2 * a / ((- a + b + c) * (a - b + c) * (a + b - c)) * (b * b * ((b1 - a1) * (b1 - a1) + (b2 - a2) * (b2 - a2)) - c * c * ((c1 - a1) * (c1 - a1) + (c2 - a2) * (c2 - a2)))).
    + field. lra.
    + rewrite Hb, Hc. ring.
Qed.
Lemma bary_rot x y z A B C : bary y z x B C A = bary x y z A B C.
Proof. unfold bary. destruct_pts. unpt. apply pair_eq; ring. Qed.
Lemma excentral A B C cc cA cB cC : dbl A B C <> 0 -> circumcircle (mkTri A B C) = Ok (Some cc) -> excircles (mkTri A B C) = Ok (cA, cB, cC) ->
  orthic_triangle (mkTri (cO cA) (cO cB) (cO cC)) = Ok (mkTri A B C) /\
  exists e, circumcircle (mkTri (cO cA) (cO cB) (cO cC)) = Ok (Some e) /\ cr e = 2 * cr cc.
Proof.
  intros N Hcc Hex. destruct (ex_val A B C cA cB cC N Hex) as (-> & -> & ->). cbn [cO]. destruct (sides3 A B C N) as (S0 & S1 & S2 & S3 & P1 & P2 & P3).
  pose proof (dist_sq B C) as Qa. pose proof (dist_sq A C) as Qb. pose proof (dist_sq A B) as Qc.
  set (a := dist B C) in *. set (b := dist A C) in *. set (c := dist A B) in *. clearbody a b c.
  set (JA := bary (- a / (- a + b + c)) (b / (- a + b + c)) (c / (- a + b + c)) A B C).
  set (JB := bary (a / (a - b + c)) (- b / (a - b + c)) (c / (a - b + c)) A B C).
  set (JC := bary (a / (a + b - c)) (b / (a + b - c)) (- c / (a + b - c)) A B C).
  assert (FA : altitude_foot JA JB JC A) by (apply exc_foot; auto; lra).
  assert (FB : altitude_foot JB JC JA B).
  { replace JB with (bary (- b / (- b + c + a)) (c / (- b + c + a)) (a / (- b + c + a)) B C A) by (clear - S2; unfold JB, bary; destruct_pts; unpt; apply pair_eq; field; lra).
    replace JC with (bary (b / (b - c + a)) (- c / (b - c + a)) (a / (b - c + a)) B C A) by (clear - S3; unfold JC, bary; destruct_pts; unpt; apply pair_eq; field; lra).
    replace JA with (bary (b / (b + c - a)) (c / (b + c - a)) (- a / (b + c - a)) B C A) by (clear - S1; unfold JA, bary; destruct_pts; unpt; apply pair_eq; field; lra).
    apply exc_foot; auto; try lra. rewrite (dist2_sym B A). auto. }
  assert (FC : altitude_foot JC JA JB C).
  { replace JC with (bary (- c / (- c + a + b)) (a / (- c + a + b)) (b / (- c + a + b)) C A B) by (clear - S3; unfold JC, bary; destruct_pts; unpt; apply pair_eq; field; lra).
    replace JA with (bary (c / (c - a + b)) (- a / (c - a + b)) (b / (c - a + b)) C A B) by (clear - S1; unfold JA, bary; destruct_pts; unpt; apply pair_eq; field; lra).
    replace JB with (bary (c / (c + a - b)) (a / (c + a - b)) (- b / (c + a - b)) C A B) by (clear - S2; unfold JB, bary; destruct_pts; unpt; apply pair_eq; field; lra).
    apply exc_foot; auto; try lra; rewrite dist2_sym; auto. }
  assert (M : forall x y, x <> 0 -> y <> 0 -> x * y <> 0) by (intros; apply Rmult_integral_contrapositive_currified; auto).
  assert (D : dbl JA JB JC <> 0).
  { unfold JA, JB, JC. rewrite bary_dbl by (field; lra). apply M; auto.
    replace (_ - _ + _) with (4 * a * b * c * / ((- a + b + c) * (a - b + c) * (a + b - c))) by (field; lra).
    apply M; [apply M; [apply M; [apply M; lra|lra]|lra]|]. apply Rinv_neq_0_compat. apply M; [apply M; lra|lra]. }
  destruct (dbl_distinct _ _ _ D) as (D1 & D2 & D3). destruct (orthic_spec JA JB JC D1 D2 D3) as (T & HT & GA & GB & GC).
  assert (ET : T = mkTri A B C).
  { destruct T as [X Y Z]. cbn [tA tB tC] in *. f_equal; [apply (foot_unique JA JB JC)|apply (foot_unique JB JC JA)|apply (foot_unique JC JA JB)]; auto. }
  rewrite ET in HT. split; auto.
  destruct (circumcircle_total JA JB JC D) as (e & He & _). exists e. split; auto.
  assert (NA : JA <> B /\ JA <> C).
  { assert (K : dbl JA B C <> 0).
    { replace (dbl JA B C) with (- a * / (- a + b + c) * dbl A B C) by (clear - S1; unfold JA, bary, dbl; destruct_pts; unspec; field; lra).
      apply M; auto. apply M; [lra|]. apply Rinv_neq_0_compat. lra. }
    destruct (dbl_distinct _ _ _ K) as (? & ? & _). auto. }
  assert (NB : JB <> A).
  { assert (K : dbl JB A C <> 0).
    { replace (dbl JB A C) with (b * / (a - b + c) * dbl A B C) by (clear - S2; unfold JB, bary, dbl; destruct_pts; unspec; field; lra).
      apply M; auto. apply M; [lra|]. apply Rinv_neq_0_compat. lra. }
    destruct (dbl_distinct _ _ _ K) as (? & _). auto. }
  assert (NC : JC <> A).
  { assert (K : dbl JC A B <> 0).
    { replace (dbl JC A B) with (- c * / (a + b - c) * dbl A B C) by (clear - S3; unfold JC, bary, dbl; destruct_pts; unspec; field; lra).
      apply M; auto. apply M; [lra|]. apply Rinv_neq_0_compat. lra. }
    destruct (dbl_distinct _ _ _ K) as (? & _). auto. }
  destruct NA as [NA NA'].
  destruct (nine_circle JA JB JC e D He) as (T' & n & HT' & Hn & _ & Rn & _).
  - intros E. apply NA. symmetry. apply (right1 JA JB JC B); auto.
  - intros E. apply NB. symmetry. rewrite pA_sym in E. apply (right2 JB JC JA A); auto.
  - intros E. apply NC. symmetry. apply (right1 JC JA JB A); auto.
  - rewrite HT in HT'. injection HT' as <-. rewrite Hcc in Hn. injection Hn as <-. lra.
Qed.
