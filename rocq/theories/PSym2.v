(** * The constructions of the triangle commute with similarities. *)

From Coq Require Import Reals Lra Lia Psatz List Bool ZArith.
From Verif Require Import Base BaseLemmas Spec SpecLemmas SpecTriangle SpecSym ModelInternal ModelLine ModelCircle ModelAffine ModelEllipse ModelTransfo ModelTriangle PLine PTriangle PTriangle2 PSym.
Import ListNotations.
Local Open Scope R_scope.

(** both calls raise the same exception, or return related values *)
Definition rrel {X Y} (Q : X -> Y -> Prop) (r : res X) (r' : res Y) : Prop :=
  match r, r' with Ok x, Ok y => Q x y | Raise e, Raise e' => e = e' | _, _ => False end.

Lemma rrel_bind {X Y X' Y'} (Q : X -> Y -> Prop) (Q' : X' -> Y' -> Prop) r r' k k' :
  rrel Q r r' -> (forall x y, Q x y -> rrel Q' (k x) (k' y)) -> rrel Q' (bind r k) (bind r' k').
Proof. intros H H'. destruct r, r'; cbn in *; auto; contradiction. Qed.

Lemma rrel_map {X Y} (g : X -> Y) r r' : rrel (fun x y => y = g x) r r' -> r' = rmap g r.
Proof. destruct r, r'; cbn; intros; subst; try contradiction; reflexivity. Qed.

Lemma map_rrel {X Y} (g : X -> Y) r r' : r' = rmap g r -> rrel (fun x y => y = g x) r r'.
Proof. intros ->. destruct r; reflexivity. Qed.

Lemma np_div_rel k1 k2 x y x' y' : k2 <> 0 -> x' = k1 * x -> y' = k2 * y -> rrel (fun q q' => q' = k1 / k2 * q) (np_div x y) (np_div x' y').
Proof.
  intros H -> ->. unfold np_div. destruct (Req_EM_T y 0), (Req_EM_T (k2 * y) 0); cbn; auto.
  - subst. lra.
  - apply Rmult_integral in e as [|]; lra.
  - field. auto.
Qed.

Lemma py_div_rel k1 k2 x y x' y' : k2 <> 0 -> x' = k1 * x -> y' = k2 * y -> rrel (fun q q' => q' = k1 / k2 * q) (py_div x y) (py_div x' y').
Proof.
  intros H -> ->. unfold py_div. destruct (Req_EM_T y 0), (Req_EM_T (k2 * y) 0); cbn; auto.
  - subst. lra.
  - apply Rmult_integral in e as [|]; lra.
  - field. auto.
Qed.

Lemma sqrt_scale k x : 0 < k -> sqrt (k * k * x) = k * sqrt x.
Proof. intros H. rewrite sqrt_mult_alt by nra. rewrite sqrt_square by lra. reflexivity. Qed.

Lemma py_sqrt_rel k x x' : 0 < k -> x' = k * k * x -> rrel (fun q q' => q' = k * q) (py_sqrt x) (py_sqrt x').
Proof.
  intros H ->. assert (0 < k * k) by nra. unfold py_sqrt. destruct (Rlt_dec x 0), (Rlt_dec (k * k * x) 0); cbn; auto.
  - apply n. nra.
  - apply n. nra.
  - apply sqrt_scale. exact H.
Qed.

Lemma leb_scale k x y : 0 < k -> leb (k * x) (k * y) = leb x y.
Proof.
  intros H. unfold leb. destruct (Rle_dec (k * x) (k * y)), (Rle_dec x y); auto; exfalso.
  - apply n. apply (Rmult_le_reg_l k); assumption.
  - apply n. apply Rmult_le_compat_l; lra.
Qed.
Lemma ltb_scale k x y : 0 < k -> ltb (k * x) (k * y) = ltb x y.
Proof.
  intros H. unfold ltb. destruct (Rlt_dec (k * x) (k * y)), (Rlt_dec x y); auto; exfalso.
  - apply n. apply (Rmult_lt_reg_l k); assumption.
  - apply n. apply Rmult_lt_compat_l; lra.
Qed.

Section Sim.
Variables (s : R) (f : pt -> pt).
Hypothesis H : similarity s f.

Lemma s_pos : 0 < s. Proof. apply H. Qed.

Lemma f_dist A B : distance_ (f A) (f B) = s * distance_ A B.
Proof. exact (proj2 H A B). Qed.

Lemma f_dist2 A B : dist2 (f A) (f B) = s * s * dist2 A B.
Proof. rewrite <- !dist_sq, (proj2 H). ring. Qed.

Lemma f_dot A B C : dot_ (vsub (f B) (f A)) (vsub (f C) (f A)) = s * s * dot_ (vsub B A) (vsub C A).
Proof.
  pose proof (sdot_sides (f A) (f B) (f C)) as E. pose proof (sdot_sides A B C) as E'. rewrite !f_dist2 in E.
  change (dot_ (vsub (f B) (f A)) (vsub (f C) (f A))) with (sdot (vsub (f B) (f A)) (vsub (f C) (f A))).
  change (dot_ (vsub B A) (vsub C A)) with (sdot (vsub B A) (vsub C A)).
  apply (Rmult_eq_reg_l 2); [|lra]. rewrite E. transitivity (s * s * (2 * sdot (vsub B A) (vsub C A))); [rewrite E'; ring|ring].
Qed.

Lemma f_cross_sign : exists e, (e = 1 \/ e = -1) /\ forall A B C, dbl (f A) (f B) (f C) = e * (s * s) * dbl A B C.
Proof.
  destruct (similarity_form s f H) as (c & d & e & t & E & He & F). exists e. split; [exact He|]. intros A B C. rewrite !F.
  transitivity (e * (s * s) * (c * c + d * d) * dbl A B C); [|rewrite E; ring]. unfold dbl. unspec. ring.
Qed.

Lemma f_bary u v w A B C : u + v + w = 1 -> f (bary u v w A B C) = bary u v w (f A) (f B) (f C).
Proof.
  destruct (similarity_form s f H) as (c & d & e & t & E & He & F). intros K. rewrite !F. unfold bary. cbn [fst snd].
  replace u with (1 - v - w) by lra. f_equal; ring.
Qed.

Lemma comb3_rel k u v w D u' v' w' D' A B C : k <> 0 -> u' = k * u -> v' = k * v -> w' = k * w -> D' = k * D -> u + v + w = D ->
  rrel (fun P Q => Q = f P) (comb3 u v w D A B C) (comb3 u' v' w' D' (f A) (f B) (f C)).
Proof.
  intros Hk -> -> -> -> Hs. unfold comb3, np_div. destruct (Req_EM_T D 0), (Req_EM_T (k * D) 0); cbn; auto.
  - subst D. rewrite e in n. lra.
  - apply Rmult_integral in e as [|]; lra.
  - transitivity (bary (u / D) (v / D) (w / D) (f A) (f B) (f C)).
    + unfold bary. cbn. f_equal; field; auto.
    + rewrite <- f_bary by (rewrite <- Hs; field; rewrite Hs; exact n). f_equal. unfold bary. cbn. f_equal; field; auto.
Qed.

Lemma Circle_init_rel O r O' r' : O' = f O -> r' = s * r -> rrel (fun c c' => c' = mkCircle (f (cO c)) (s * cr c)) (Circle_init O r) (Circle_init O' r').
Proof.
  intros -> ->. unfold Circle_init. replace 0 with (s * 0) at 2 by ring. rewrite leb_scale by apply s_pos. destruct (leb r 0); cbn; reflexivity.
Qed.

Lemma flat_rel A B C : flatness (mkTri (f A) (f B) (f C)) = flatness (mkTri A B C).
Proof.
  destruct f_cross_sign as (e & He & Fc). pose proof s_pos as Hs.
  pose proof (f_dot A B C) as E1. specialize (Fc A B C). unfold dbl in Fc.
  assert (R1 : fst (Cmul (Cconj (vsub (f B) (f A))) (vsub (f C) (f A))) = s * s * fst (Cmul (Cconj (vsub B A)) (vsub C A))).
  { unfold dot_ in E1. unfold Cmul, Cconj. cbn [fst snd]. lra. }
  assert (R2 : snd (Cmul (Cconj (vsub (f B) (f A))) (vsub (f C) (f A))) = e * (s * s) * snd (Cmul (Cconj (vsub B A)) (vsub C A))).
  { unfold scross in Fc. unfold Cmul, Cconj. cbn [fst snd]. lra. }
  unfold flatness. cbn [tA tB tC]. rewrite R1, R2. set (re := fst _). set (im := snd _).
  assert (E2 : e * e = 1) by (destruct He; subst e; ring).
  pose proof (py_div_rel (s * s * (s * s)) (s * s * (s * s)) (re * re) (re * re + im * im) (s * s * re * (s * s * re)) (s * s * re * (s * s * re) + e * (s * s) * im * (e * (s * s) * im))) as P.
  assert (Z : s * s * (s * s) <> 0). { assert (0 < s * s) by nra. nra. }
  specialize (P Z ltac:(ring)).
  assert (Q : s * s * re * (s * s * re) + e * (s * s) * im * (e * (s * s) * im) = s * s * (s * s) * (re * re + im * im)).
  { transitivity (s * s * (s * s) * (re * re + (e * e) * (im * im))); [ring|rewrite E2; ring]. }
  specialize (P Q). destruct (py_div _ _), (py_div _ _); cbn in P; try contradiction; subst; auto. f_equal. field. lra.
Qed.

Lemma incircle_sim A B C : incircle (mkTri (f A) (f B) (f C)) = rmap (fun c => mkCircle (f (cO c)) (s * cr c)) (incircle (mkTri A B C)).
Proof.
  pose proof s_pos as Hs. apply rrel_map. unfold incircle. cbn [tA tB tC]. rewrite !f_dist.
  eapply rrel_bind; [apply (py_sqrt_rel (s * s)); [nra|]|].
  { field. }
  intros x y ->. eapply rrel_bind; [apply (comb3_rel s); try ring; lra|]. intros P Q ->.
  eapply rrel_bind; [apply (np_div_rel (s * s) s); [lra|ring|field]|]. intros r r' ->. apply Circle_init_rel; [reflexivity|field; lra].
Qed.

Lemma f_eq P Q : f P = f Q <-> P = Q.
Proof.
  split; [|intros ->; reflexivity]. intros E. pose proof (proj2 H P Q) as D. rewrite E in D.
  assert (dist (f Q) (f Q) = 0) by (apply dist_0; reflexivity). pose proof s_pos. apply dist_0. apply (Rmult_eq_reg_l s); lra.
Qed.

Lemma f_dbl0 A B C : dbl (f A) (f B) (f C) = 0 <-> dbl A B C = 0.
Proof.
  destruct f_cross_sign as (e & He & F). rewrite F. pose proof s_pos. assert (0 < s * s) by nra.
  split; [|intros ->; ring]. intros E. apply Rmult_integral in E as [E|]; auto. destruct He; subst e; lra.
Qed.

Lemma circumcircle_sim A B C : circumcircle (mkTri (f A) (f B) (f C)) =
  rmap (option_map (fun c => mkCircle (f (cO c)) (s * cr c))) (circumcircle (mkTri A B C)).
Proof.
  pose proof s_pos as Hs. destruct (Req_dec (dbl A B C) 0) as [K|K].
  - unfold circumcircle at 1. rewrite flat_rel. destruct (flatness (mkTri A B C)) as [x|e] eqn:E.
    + assert (E2 : circumcircle (mkTri A B C) = Ok None). { apply circumcircle_none. destruct (flatness_spec _ _ E) as (H1 & H2 & _). cbn in *. split; [|split]; auto. apply collinear_cross. exact K. }
      rewrite E2. cbn [bind rmap option_map]. destruct (eqb x 1) eqn:E1; [reflexivity|]. exfalso.
      unfold circumcircle in E2. rewrite E in E2. cbn [bind] in E2. rewrite E1 in E2. destruct (np_div _ _); [|discriminate]. cbn [bind] in E2. destruct (np_div _ _); [|discriminate]. cbn [bind] in E2. destruct (Circle_init _ _); discriminate.
    + unfold circumcircle. rewrite E. reflexivity.
  - assert (K' : dbl (f A) (f B) (f C) <> 0) by (rewrite f_dbl0; exact K).
    destruct (circumcircle_total _ _ _ K) as (c & E & Hr & HA & HB & HC). destruct (circumcircle_total _ _ _ K') as (c' & E' & Hr' & HA' & HB' & HC').
    rewrite E, E'. cbn. destruct (circ_unique (f A) (f B) (f C) (f (cO c)) (cO c') (s * cr c) (cr c')) as [E1 E2]; auto; try lra; try nra;
      unfold on_circle in *; rewrite ?(proj2 H), ?HA, ?HB, ?HC; try reflexivity.
    rewrite E1, E2. destruct c'. reflexivity.
Qed.

Lemma Circle_init_np_rel J J' r r' : rrel (fun P Q => Q = f P) J J' -> rrel (fun x y => y = s * x) r r' ->
  rrel (rrel (fun c c' => c' = mkCircle (f (cO c)) (s * cr c))) (Circle_init_np J r) (Circle_init_np J' r').
Proof.
  intros HJ Hr. pose proof s_pos as Hs. unfold Circle_init_np. destruct r, r'; cbn in Hr; subst; try contradiction.
  - replace 0 with (s * 0) at 2 by ring. rewrite leb_scale by auto. destruct (leb a 0); cbn; auto. destruct J, J'; cbn in *; subst; try contradiction; reflexivity.
  - destruct e0; cbn; reflexivity.
Qed.

Lemma excircles_sim A B C : excircles (mkTri (f A) (f B) (f C)) =
  rmap (fun '(c1, c2, c3) => (mkCircle (f (cO c1)) (s * cr c1), mkCircle (f (cO c2)) (s * cr c2), mkCircle (f (cO c3)) (s * cr c3))) (excircles (mkTri A B C)).
Proof.
  pose proof s_pos as Hs. apply rrel_map. unfold excircles. cbn [tA tB tC]. rewrite !f_dist.
  eapply rrel_bind; [apply Circle_init_np_rel; [apply (comb3_rel s); try ring; lra|]|].
  { eapply rrel_bind; [apply (np_div_rel (s * s * s) s); [lra|field|field]|]. intros q q' ->. apply py_sqrt_rel; [exact Hs|field; lra]. }
  intros j1 j1' H1. eapply rrel_bind; [apply Circle_init_np_rel; [apply (comb3_rel s); try ring; lra|]|].
  { eapply rrel_bind; [apply (np_div_rel (s * s * s) s); [lra|field|field]|]. intros q q' ->. apply py_sqrt_rel; [exact Hs|field; lra]. }
  intros j2 j2' H2. eapply rrel_bind; [apply Circle_init_np_rel; [apply (comb3_rel s); try ring; lra|]|].
  { eapply rrel_bind; [apply (np_div_rel (s * s * s) s); [lra|field|field]|]. intros q q' ->. apply py_sqrt_rel; [exact Hs|field; lra]. }
  intros j3 j3' H3. eapply rrel_bind; [exact H1|]. intros x1 y1 ->. eapply rrel_bind; [exact H2|]. intros x2 y2 ->. eapply rrel_bind; [exact H3|]. intros x3 y3 ->. reflexivity.
Qed.

Lemma xinv_rel t t' : t' = t -> xinv t' = xinv t.
Proof. intros ->. reflexivity. Qed.

Lemma xdiv_rel b x : xdiv (s * b) x = s * xdiv b x.
Proof. destruct x; cbn; unfold Rdiv; ring. Qed.

Lemma quot_rel A B C : forall b c, rrel eq (let! q := np_div (dot_ (vsub B A) (vsub C A)) b in np_div q c)
   (let! q := np_div (dot_ (vsub (f B) (f A)) (vsub (f C) (f A))) (s * b) in np_div q (s * c)).
Proof.
  intros b c. pose proof s_pos as Hs. eapply rrel_bind; [apply (np_div_rel (s * s) s); [lra|apply f_dot|reflexivity]|].
  intros q q' ->. pose proof (np_div_rel s s q c (s * s / s * q) (s * c)) as P. specialize (P ltac:(lra) ltac:(field; lra) eq_refl).
  destruct (np_div q c), (np_div (s * s / s * q) (s * c)); cbn in *; auto. subst. field. lra.
Qed.

Lemma orthic_sim A B C : orthic_triangle (mkTri (f A) (f B) (f C)) = rmap (fun T => mkTri (f (tA T)) (f (tB T)) (f (tC T))) (orthic_triangle (mkTri A B C)).
Proof.
  pose proof s_pos as Hs. apply rrel_map. unfold orthic_triangle. cbn [tA tB tC]. rewrite !f_dist.
  eapply rrel_bind; [apply quot_rel|]. intros qx ? <-. eapply rrel_bind; [apply quot_rel|]. intros qy ? <-. eapply rrel_bind; [apply quot_rel|]. intros qz ? <-.
  rewrite !xdiv_rel.
  eapply rrel_bind; [apply (comb3_rel s); try ring; lra|]. intros P ? ->. eapply rrel_bind; [apply (comb3_rel s); try ring; lra|]. intros Q ? ->.
  eapply rrel_bind; [apply (comb3_rel s); try ring; lra|]. intros R ? ->. reflexivity.
Qed.

Lemma detour_sim A B C : equal_detour_point (mkTri (f A) (f B) (f C)) = rmap (fun '(P, d) => (f P, s * d)) (equal_detour_point (mkTri A B C)).
Proof.
  pose proof s_pos as Hs. apply rrel_map. unfold equal_detour_point. cbn [tA tB tC]. rewrite !f_dist.
  eapply rrel_bind; [apply (py_sqrt_rel (s * s)); [nra|field]|]. intros S ? ->.
  eapply rrel_bind; [apply (np_div_rel (s * s) s); [lra|ring|ring]|]. intros v0 ? ->.
  eapply rrel_bind; [apply (np_div_rel (s * s) s); [lra|ring|ring]|]. intros v1 ? ->.
  eapply rrel_bind; [apply (np_div_rel (s * s) s); [lra|ring|ring]|]. intros v2 ? ->.
  eapply rrel_bind; [apply (comb3_rel s); try (field; lra); lra|]. intros P ? ->. cbn. rewrite !f_dist. f_equal. ring.
Qed.

Lemma vlen_f P Q : vlength_ (vsub (f P) (f Q)) = s * vlength_ (vsub P Q).
Proof. exact (f_dist Q P). Qed.

Lemma half_angle_rel A B C b c : rrel eq (half_angle_tan (vsub B A) (vsub C A) b c) (half_angle_tan (vsub (f B) (f A)) (vsub (f C) (f A)) (s * b) (s * c)).
Proof.
  unfold half_angle_tan. pose proof (quot_rel A B C b c) as Q. destruct (np_div _ b) eqn:E1, (np_div _ (s * b)) eqn:E2; cbn [bind] in *; try contradiction; auto.
  - destruct (np_div a c), (np_div a0 (s * c)); cbn in *; try contradiction; subst; auto. destruct (py_acos a2); cbn; auto.
  - destruct (np_div a c); cbn in *; auto; contradiction.
  - destruct (np_div a (s * c)); cbn in *; auto; contradiction.
Qed.

Lemma tangency_rel P Q r : rrel (fun X Y => Y = f X) (tangency P Q r) (tangency (f P) (f Q) (s * r)).
Proof.
  pose proof s_pos as Hs. unfold tangency. eapply rrel_bind; [apply (np_div_rel s s); [lra|reflexivity|apply vlen_f]|]. intros k ? ->. cbn.
  transitivity (bary (1 - k) k 0 (f P) (f Q) (f Q)); [unfold bary, vadd, vscal, vsub; cbn; f_equal; field; lra|].
  rewrite <- f_bary by ring. f_equal. unfold bary, vadd, vscal, vsub; cbn; f_equal; ring.
Qed.

Lemma malfatti_sim A B C : malfatti_circles (mkTri (f A) (f B) (f C)) =
  rmap (option_map (fun '((c1, c2, c3), (P1, P2, P3)) =>
    ((mkCircle (f (cO c1)) (s * cr c1), mkCircle (f (cO c2)) (s * cr c2), mkCircle (f (cO c3)) (s * cr c3)), (f P1, f P2, f P3)))) (malfatti_circles (mkTri A B C)).
Proof.
  pose proof s_pos as Hs. apply rrel_map. unfold malfatti_circles. cbn [tA tB tC]. rewrite flat_rel, !f_dist.
  destruct (flatness (mkTri A B C)) as [x|]; [|reflexivity]. cbn [bind]. destruct (eqb x 1); [reflexivity|].
  eapply rrel_bind; [apply (py_sqrt_rel (s * s)); [nra|field]|]. intros S ? ->.
  eapply rrel_bind; [apply (comb3_rel s); try ring; lra|]. intros I0 ? ->.
  eapply rrel_bind; [apply (np_div_rel (s * s) s); [lra|ring|field]|]. intros r ? ->. rewrite !vlen_f.
  eapply rrel_bind; [apply (np_div_rel (s * s) s); [lra|field; lra|field]|]. intros r1 ? ->.
  eapply rrel_bind; [apply (np_div_rel (s * s) s); [lra|field; lra|field]|]. intros r2 ? ->.
  eapply rrel_bind; [apply (np_div_rel (s * s) s); [lra|field; lra|field]|]. intros r3 ? ->.
  eapply rrel_bind; [apply half_angle_rel|]. intros t1 ? <-. eapply rrel_bind; [apply (np_div_rel s 1); [lra|field; lra|ring]|]. intros d1 ? ->.
  eapply rrel_bind; [apply half_angle_rel|]. intros t2 ? <-. eapply rrel_bind; [apply (np_div_rel s 1); [lra|field; lra|ring]|]. intros d2 ? ->.
  eapply rrel_bind; [apply half_angle_rel|]. intros t3 ? <-. eapply rrel_bind; [apply (np_div_rel s 1); [lra|field; lra|ring]|]. intros d3 ? ->.
  eapply rrel_bind; [apply (py_sqrt_rel s); [lra|field; lra]|]. intros q12 ? ->.
  eapply rrel_bind; [apply (py_sqrt_rel s); [lra|field; lra]|]. intros q23 ? ->.
  eapply rrel_bind; [apply (py_sqrt_rel s); [lra|field; lra]|]. intros q31 ? ->.
  eapply rrel_bind; [apply (py_sqrt_rel (s * s)); [nra|field; lra]|]. intros sq ? ->.
  eapply rrel_bind; [apply (np_div_rel (s * s) s); [lra|field; lra|field; lra]|]. intros dr1 ? ->.
  eapply rrel_bind; [apply (comb3_rel (s * s)); try (field; lra); nra|]. intros O1 ? ->.
  eapply rrel_bind; [apply (np_div_rel (s * s) s); [lra|field; lra|field; lra]|]. intros dr2 ? ->.
  eapply rrel_bind; [apply (comb3_rel (s * s)); try (field; lra); nra|]. intros O2 ? ->.
  eapply rrel_bind; [apply (np_div_rel (s * s) s); [lra|field; lra|field; lra]|]. intros dr3 ? ->.
  eapply rrel_bind; [apply (comb3_rel (s * s)); try (field; lra); nra|]. intros O3 ? ->.
  replace (s * s / s) with s by (field; lra).
  eapply rrel_bind; [apply Circle_init_rel; reflexivity|]. intros c1 ? ->.
  eapply rrel_bind; [apply Circle_init_rel; reflexivity|]. intros c2 ? ->.
  eapply rrel_bind; [apply Circle_init_rel; reflexivity|]. intros c3 ? ->.
  eapply rrel_bind; [apply tangency_rel|]. intros T1 ? ->. eapply rrel_bind; [apply tangency_rel|]. intros T2 ? ->. eapply rrel_bind; [apply tangency_rel|]. intros T3 ? ->.
  reflexivity.
Qed.

Lemma collinear_sim A B C : collinear (f A) (f B) (f C) <-> collinear A B C.
Proof. rewrite !collinear_cross. exact (f_dbl0 A B C). Qed.

Lemma contains_sim A B C M : triangle_contains (mkTri (f A) (f B) (f C)) (f M) = triangle_contains (mkTri A B C) M.
Proof.
  apply eq_true_iff_eq. rewrite !contains_spec. cbn [tA tB tC]. rewrite collinear_sim. 
  assert (E : inside_triangle (f A) (f B) (f C) (f M) <-> inside_triangle A B C M); [|rewrite E; reflexivity].
  split; intros (u & v & w & Hu & Hv & Hw & Hs & E); exists u, v, w; (split; [exact Hu|split; [exact Hv|split; [exact Hw|split; [exact Hs|]]]]).
  - apply f_eq. rewrite E. symmetry. apply f_bary. exact Hs.
  - rewrite E. apply f_bary. exact Hs.
Qed.

Lemma orientation_val A B C : (snd B - snd A) * (fst C - fst B) - (fst B - fst A) * (snd C - snd B) = - dbl A B C.
Proof. unfold dbl. unspec. ring. Qed.

Lemma orientation_sim : exists sg, (sg = 1%Z \/ sg = (-1)%Z) /\ forall A B C, orientation (mkTri (f A) (f B) (f C)) = (sg * orientation (mkTri A B C))%Z.
Proof.
  destruct f_cross_sign as (e & He & F). pose proof s_pos as Hs. assert (0 < s * s) by nra.
  exists (if Rlt_dec 0 e then 1%Z else (-1)%Z). split; [destruct (Rlt_dec 0 e); auto|]. intros A B C.
  unfold orientation. cbn [tA tB tC]. rewrite !orientation_val, F. set (x := dbl A B C).
  unfold eqb, ltb. destruct He; subst e; destruct (Rlt_dec 0 _) as [l|n]; try (exfalso; lra);
    destruct (Req_EM_T (- x) 0), (Req_EM_T _ 0); try (exfalso; nra); try reflexivity; destruct (Rlt_dec 0 (- x)), (Rlt_dec 0 _); try (exfalso; nra); try reflexivity.
Qed.

Lemma angle_at_rel A B C b c : angle_at (vsub (f B) (f A)) (vsub (f C) (f A)) (s * b) (s * c) = angle_at (vsub B A) (vsub C A) b c.
Proof.
  unfold angle_at. pose proof (quot_rel A B C b c) as Q. destruct (np_div _ b) eqn:E1, (np_div _ (s * b)) eqn:E2; cbn [bind] in *; try contradiction.
  - destruct (np_div a c), (np_div a0 (s * c)); cbn in *; try contradiction; subst; auto.
  - destruct (np_div a c); cbn in *; subst; auto; contradiction.
  - destruct (np_div a (s * c)); cbn in *; subst; auto; contradiction.
  - cbn in Q. subst. reflexivity.
Qed.

Lemma angles_sim A B C : angleA (mkTri (f A) (f B) (f C)) = angleA (mkTri A B C) /\ angleB (mkTri (f A) (f B) (f C)) = angleB (mkTri A B C) /\
  angleC (mkTri (f A) (f B) (f C)) = angleC (mkTri A B C).
Proof. unfold angleA, angleB, angleC. cbn [tA tB tC]. rewrite !vlen_f. split; [|split]; apply angle_at_rel. Qed.

Lemma sides_sim A B C : side_a (mkTri (f A) (f B) (f C)) = s * side_a (mkTri A B C) /\ side_b (mkTri (f A) (f B) (f C)) = s * side_b (mkTri A B C) /\
  side_c (mkTri (f A) (f B) (f C)) = s * side_c (mkTri A B C).
Proof. unfold side_a, side_b, side_c. cbn [tA tB tC]. rewrite !f_dist. auto. Qed.

Lemma acute_sim A B C : is_acute (mkTri (f A) (f B) (f C)) = is_acute (mkTri A B C).
Proof.
  pose proof s_pos as Hs.
  assert (L : forall x y z, leb (s * x * (s * x)) (s * y * (s * y) + s * z * (s * z)) = leb (x * x) (y * y + z * z)).
  { intros x y z. rewrite <- (leb_scale (s * s) (x * x)) by nra. f_equal; ring. }
  unfold is_acute. destruct (sides_sim A B C) as (-> & -> & ->). unfold sort. cbn [fold_left insert_sorted].
  rewrite !ltb_scale by exact Hs.
  destruct (ltb (side_b (mkTri A B C)) (side_a (mkTri A B C))); cbn [insert_sorted]; rewrite !ltb_scale by exact Hs;
    repeat match goal with |- context [if ltb ?x ?y then _ else _] => destruct (ltb x y) end; cbn [insert_sorted]; rewrite ?ltb_scale by exact Hs;
    repeat match goal with |- context [if ltb ?x ?y then _ else _] => destruct (ltb x y) end;
    apply L.
Qed.

End Sim.

(** ** Ellipses through three points with the same centre are equal *)

Lemma form_quadratic O a b th : exists p q r, forall M, ell_form O a b th M =
  p * (fst M - fst O) * (fst M - fst O) + q * (fst M - fst O) * (snd M - snd O) + r * (snd M - snd O) * (snd M - snd O).
Proof.
  unfold ell_form, fx, fy, Rdiv.
  exists ((cos th * / a) ^ 2 + (sin th * / b) ^ 2), (2 * cos th * sin th * (/ a * / a - / b * / b)), ((sin th * / a) ^ 2 + (cos th * / b) ^ 2).
  intros M. ring.
Qed.

(** two quadratic forms about O taking the same values at O + u, O + v, O + u + v *)
Lemma quad_unique p q r p' q' r' u1 u2 v1 v2 : u1 * v2 - u2 * v1 <> 0 ->
  p * u1 * u1 + q * u1 * u2 + r * u2 * u2 = p' * u1 * u1 + q' * u1 * u2 + r' * u2 * u2 ->
  p * v1 * v1 + q * v1 * v2 + r * v2 * v2 = p' * v1 * v1 + q' * v1 * v2 + r' * v2 * v2 ->
  p * (u1 + v1) * (u1 + v1) + q * (u1 + v1) * (u2 + v2) + r * (u2 + v2) * (u2 + v2) = p' * (u1 + v1) * (u1 + v1) + q' * (u1 + v1) * (u2 + v2) + r' * (u2 + v2) * (u2 + v2) ->
  p = p' /\ q = q' /\ r = r'.
Proof.
  intros K E1 E2 E3. set (P := p - p'). set (Q := q - q'). set (T := r - r').
  assert (F1 : P * u1 * u1 + Q * u1 * u2 + T * u2 * u2 = 0) by (unfold P, Q, T; lra).
  assert (F2 : P * v1 * v1 + Q * v1 * v2 + T * v2 * v2 = 0) by (unfold P, Q, T; lra).
  assert (F3 : 2 * P * u1 * v1 + Q * (u1 * v2 + u2 * v1) + 2 * T * u2 * v2 = 0) by (unfold P, Q, T in *; lra).
  set (k := u1 * v2 - u2 * v1) in *.
  assert (K2 : k * k <> 0) by (intros Z; apply sq_zero in Z; contradiction).
  assert (GP : P * (k * k) = 0).
  { transitivity (v2 * v2 * (P * u1 * u1 + Q * u1 * u2 + T * u2 * u2) + u2 * u2 * (P * v1 * v1 + Q * v1 * v2 + T * v2 * v2)
       - u2 * v2 * (2 * P * u1 * v1 + Q * (u1 * v2 + u2 * v1) + 2 * T * u2 * v2)); [unfold k; ring|]. rewrite F1, F2, F3. ring. }
  assert (GT : T * (k * k) = 0).
  { transitivity (v1 * v1 * (P * u1 * u1 + Q * u1 * u2 + T * u2 * u2) + u1 * u1 * (P * v1 * v1 + Q * v1 * v2 + T * v2 * v2)
       - u1 * v1 * (2 * P * u1 * v1 + Q * (u1 * v2 + u2 * v1) + 2 * T * u2 * v2)); [unfold k; ring|]. rewrite F1, F2, F3. ring. }
  apply Rmult_integral in GP as [GP|]; [|contradiction]. apply Rmult_integral in GT as [GT|]; [|contradiction].
  assert (GQ : Q * (k * k) = 0).
  { transitivity ((u1 * v2 + u2 * v1) * (Q * (u1 * v2 + u2 * v1)) - 4 * (Q * u1 * u2) * (v1 * v2)); [unfold k; ring|].
    rewrite GP, GT in *. replace (Q * (u1 * v2 + u2 * v1)) with 0 by lra. replace (Q * u1 * u2) with 0 by lra. ring. }
  apply Rmult_integral in GQ as [GQ|]; [|contradiction]. unfold P, Q, T in *. lra.
Qed.

(** three points whose centroid is G *)
Lemma ellipse_unique A B C a b th a' b' th' : dbl A B C <> 0 -> let G := centroid A B C in
  on_ellipse G a b th A -> on_ellipse G a b th B -> on_ellipse G a b th C ->
  on_ellipse G a' b' th' A -> on_ellipse G a' b' th' B -> on_ellipse G a' b' th' C ->
  forall M, ell_form G a b th M = ell_form G a' b' th' M.
Proof.
  intros K G HA HB HC HA' HB' HC'. unfold on_ellipse in *.
  destruct (form_quadratic G a b th) as (p & q & r & F). destruct (form_quadratic G a' b' th') as (p' & q' & r' & F').
  rewrite F in HA, HB, HC. rewrite F' in HA', HB', HC'. intros M. rewrite F, F'.
  set (u1 := fst A - fst G) in *. set (u2 := snd A - snd G) in *. set (v1 := fst B - fst G) in *. set (v2 := snd B - snd G) in *.
  assert (W1 : fst C - fst G = - (u1 + v1)) by (unfold u1, v1, G, centroid; cbn; field). assert (W2 : snd C - snd G = - (u2 + v2)) by (unfold u2, v2, G, centroid; cbn; field).
  rewrite W1, W2 in *.
  destruct (quad_unique p q r p' q' r' u1 u2 v1 v2) as (-> & -> & ->); [|lra|lra|lra|reflexivity].
  intros Z. apply K. transitivity (3 * (u1 * v2 - u2 * v1)); [|rewrite Z; ring]. unfold dbl, u1, u2, v1, v2, G, centroid. unspec. cbn. field.
Qed.
