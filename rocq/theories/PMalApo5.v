(** * Proofs about the Malfatti gasket: the triangle moved so that the outer circle is the unit circle. *)

From Coq Require Import Reals Lra Lia Psatz List Bool.
From Verif Require Import Base BaseLemmas Spec SpecLemmas SpecTriangle SpecGasket SpecApollonian SpecSym ModelInternal ModelLine ModelCircle ModelTriangle ModelInversion ModelApollonian PLine PCircle PInvBase PInversion PInversion2 PTriangle PTriangle2 PTriangle3 PTriangle4 PTriangle5 PSym2 PSteiner PGasket1 PGasket5 PApo1 PMalApo1 PMalApo2 PMalApo3 PMalApo4.
Import ListNotations.
Local Open Scope R_scope.

Definition near0 (c : circle) : Prop := 0 <= cr c <= 1 /\ Rabs (fst (cO c)) <= 1 /\ Rabs (snd (cO c)) <= 1.

Lemma axis_near c c' : near0 c -> near0 c' -> 1 / 20 <= dist (cO c) (cO c') -> exists l, radical_axis c c' = Ok (Some l).
Proof.
  intros (R1 & X1 & Y1) (R2 & X2 & Y2) D. unfold radical_axis, radical_center2. destruct c as [[x y] r], c' as [[x' y'] r']. cbn [cO cr fst snd] in *.
  assert (Dq : 1 / 400 <= (x' - x) * (x' - x) + (y' - y) * (y' - y)).
  { pose proof (dist_sq (x, y) (x', y')) as Q. assert (1 / 20 * (1 / 20) <= dist (x, y) (x', y') * dist (x, y) (x', y')) by (apply Rmult_le_compat; lra). unfold dist2, sdot, vsub in Q. cbn [fst snd] in Q. lra. }
  clear D. apply Rabs_le_inv in X1, Y1, X2, Y2. unfold vsub, dot_. cbn [fst snd]. set (u := x' - x) in *. set (v := y' - y) in *. set (d := u * u + v * v) in *.
  assert (Bu : -2 <= u <= 2) by (unfold u; lra). assert (Bv : -2 <= v <= 2) by (unfold v; lra).
  assert (Big : 1 / 30 <= Rabs u \/ 1 / 30 <= Rabs v).
  { destruct (Rle_lt_dec (1 / 30) (Rabs u)) as [|Q1]; [auto|]. destruct (Rle_lt_dec (1 / 30) (Rabs v)) as [|Q2]; [auto|]. exfalso.
    pose proof (Rabs_pos u). pose proof (Rabs_pos v). pose proof (Rabs_sq u). pose proof (Rabs_sq v). unfold d in Dq. nra. }
  assert (C1 : allclose (x, y) (x', y') = false).
  { unfold allclose, allclose1. cbn [fst snd]. apply andb_false_iff. assert (Ax : Rabs x' <= 1) by (apply Rabs_le; lra). assert (Ay : Rabs y' <= 1) by (apply Rabs_le; lra).
    destruct Big as [B|B]; [left|right]; apply leb_false; rewrite Rabs_minus_sym; [fold u|fold v]; lra. }
  rewrite C1. cbn [bind]. replace (eqb d 0) with false by (symmetry; apply eqb_false; lra). cbn [bind].
  set (k := r * r - r' * r'). assert (Bk : -1 <= k <= 1) by (unfold k; nra).
  set (P := vadd _ _). 
  assert (BP : forall w s, w * w <= d -> -2 <= s <= 2 -> Rabs (/ 2 * s + / d * (k / 2 * w)) <= 11).
  { intros w s Hw Hs. apply (Rle_trans _ (Rabs (/ 2 * s) + Rabs (/ d * (k / 2 * w)))); [apply Rabs_triang|].
    assert (A1 : Rabs (/ 2 * s) <= 1) by (apply Rabs_le; lra). assert (A2 : Rabs (/ d * (k / 2 * w)) <= 10); [|lra].
    assert (Rabs (k / 2 * w) <= d * 10).
    { rewrite Rabs_mult. assert (Hk : Rabs (k / 2) <= 1 / 2) by (apply Rabs_le; lra). pose proof (Rabs_pos w) as Pw. pose proof (Rabs_sq w) as Sw. pose proof (Rabs_pos (k / 2)).
      assert (Hd : Rabs w <= 20 * d). { destruct (Rle_lt_dec (Rabs w) (1 / 20)); nra. } nra. }
    rewrite Rabs_mult, (Rabs_pos_eq (/ d)) by (apply Rlt_le, Rinv_0_lt_compat; lra). apply (Rmult_le_reg_l d); [lra|]. rewrite <- Rmult_assoc, Rinv_r by lra. lra. }
  assert (B1 : Rabs (fst P) <= 11). { unfold P, vadd, vscal. cbn [fst snd]. apply BP; [unfold d; nra|lra]. }
  assert (B2 : Rabs (snd P) <= 11). { unfold P, vadd, vscal. cbn [fst snd]. apply BP; [unfold d; nra|lra]. }
  clearbody P. destruct P as [p q]. cbn [fst snd] in *. unfold Line_init.
  assert (C2 : allclose (p, q) (vadd (p, q) (- v, u)) = false).
  { unfold allclose, allclose1, vadd. cbn [fst snd]. apply andb_false_iff. assert (Rabs (- v) <= 2) by (apply Rabs_le; lra). assert (Rabs u <= 2) by (apply Rabs_le; lra).
    destruct Big as [B|B]; [right|left]; apply leb_false.
    - replace (q - (q + u)) with (- u) by ring. rewrite Rabs_Ropp. pose proof (Rabs_triang q u). lra.
    - replace (p - (p + - v)) with v by ring. pose proof (Rabs_triang p (- v)). lra. }
  rewrite C2. cbn [bind]. eauto.
Qed.

Lemma fixing_near a b c : near0 a -> near0 b -> near0 c -> 1 / 20 <= dist (cO a) (cO b) -> 1 / 20 <= dist (cO a) (cO c) -> ~ collinear (cO a) (cO b) (cO c) ->
  exists iota, from_fixing_three_circles a b c = Ok iota.
Proof.
  intros Ha Hb Hc D1 D2 N. destruct (axis_near a b Ha Hb D1) as (l1 & E1). destruct (axis_near a c Ha Hc D2) as (l2 & E2). exact (fixing_three_total _ _ _ l1 l2 E1 E2 N).
Qed.

(** three circles in the unit circle *)
Lemma in_unit_near c : posc c -> dist (0, 0) (cO c) = 1 - cr c -> near0 c.
Proof.
  unfold posc. intros P E. pose proof (dist_nonneg (0, 0) (cO c)) as D. rewrite E in D. pose proof (dist_sq (0, 0) (cO c)) as Q. rewrite E in Q. destruct c as [[x y] r]. unfold dist2, sdot, vsub in Q. cbn [fst snd cO cr] in *.
  unfold near0. cbn [cO cr fst snd]. split; [lra|]. split; apply Rabs_le; split; nra.
Qed.

Lemma tangent_nc O Rr a b : posc a -> posc b -> dist O (cO a) = Rr - cr a -> dist O (cO b) = Rr - cr b -> tang a b -> cr a + cr b <> Rr -> ~ collinear O (cO a) (cO b).
Proof.
  unfold posc, tang. intros Pa Pb Ta Tb T Ne C. apply collinear_cross in C.
  assert (Qa : dist2 O (cO a) = (Rr - cr a) * (Rr - cr a)) by (rewrite <- dist_sq, Ta; auto). assert (Qb : dist2 O (cO b) = (Rr - cr b) * (Rr - cr b)) by (rewrite <- dist_sq, Tb; auto).
  assert (Q : dist2 (cO a) (cO b) = (cr a + cr b) * (cr a + cr b)) by (rewrite <- dist_sq, T; auto).
  destruct a as [[x y] r], b as [[x' y'] r'], O as [p q]. unfold dist2, scross, sdot, vsub in *. cbn [cO cr fst snd] in *.
  set (u := x - p) in *. set (v := y - q) in *. set (u' := x' - p) in *. set (v' := y' - q) in *.
  pose proof Qa as A. pose proof Qb as B.
  assert (Dt : 2 * (u * u' + v * v') = (Rr - r) * (Rr - r) + (Rr - r') * (Rr - r') - (r + r') * (r + r')) by (rewrite <- Q, <- A, <- B; unfold u, v, u', v'; ring).
  assert (L : (u * v' - v * u') * (u * v' - v * u') + (u * u' + v * v') * (u * u' + v * v') = (u * u + v * v) * (u' * u' + v' * v')) by ring.
  rewrite C, A, B in L. set (t := u * u' + v * v') in *. clearbody t u v u' v'.
  assert (Z : r * r' * Rr * (Rr - r - r') = 0) by nra. assert (r * r' <> 0) by nra.
  assert (Rr = 0 \/ Rr - r - r' = 0) as [Z1|Z1] by (apply Rmult_integral in Z; destruct Z as [Z|Z]; [apply Rmult_integral in Z; destruct Z; [contradiction|auto]|auto]); [|lra].
  pose proof (dist_nonneg (p, q) (x, y)) as D. lra.
Qed.

Lemma three_distances P Q A B C : ~ collinear A B C -> dist P A = dist Q A -> dist P B = dist Q B -> dist P C = dist Q C -> P = Q.
Proof.
  intros N EA EB EC. assert (N' : scross (vsub B A) (vsub C A) <> 0) by (intros Z; apply N; apply collinear_cross; exact Z).
  assert (sq : forall X, dist P X = dist Q X -> dist2 P X = dist2 Q X) by (intros X E; rewrite <- !dist_sq, E; auto). apply sq in EA, EB, EC.
  destruct P as [p q], Q as [p' q'], A as [a a'], B as [b b'], C as [c c']. unfold dist2, scross, sdot, vsub in *. cbn [fst snd] in *.
  assert (E1 : (p - p') * (b - a) + (q - q') * (b' - a') = 0) by lra. assert (E2 : (p - p') * (c - a) + (q - q') * (c' - a') = 0) by lra.
  assert (Z1 : (p - p') * ((b - a) * (c' - a') - (b' - a') * (c - a)) = 0).
  { replace ((p - p') * ((b - a) * (c' - a') - (b' - a') * (c - a))) with (((p - p') * (b - a) + (q - q') * (b' - a')) * (c' - a') - ((p - p') * (c - a) + (q - q') * (c' - a')) * (b' - a')) by ring. rewrite E1, E2. ring. }
  assert (Z2 : (q - q') * ((b - a) * (c' - a') - (b' - a') * (c - a)) = 0).
  { replace ((q - q') * ((b - a) * (c' - a') - (b' - a') * (c - a))) with (((p - p') * (c - a) + (q - q') * (c' - a')) * (b - a) - ((p - p') * (b - a) + (q - q') * (b' - a')) * (c - a)) by ring. rewrite E1, E2. ring. }
  apply Rmult_integral in Z1, Z2. destruct Z1 as [Z1|Z1]; [|contradiction]. destruct Z2 as [Z2|Z2]; [|contradiction]. f_equal; lra.
Qed.

Lemma outer_curvature_scale s x y z : 0 < s -> 0 < x -> 0 < y -> 0 < z -> outer_curvature (s * x) (s * y) (s * z) = outer_curvature x y z / s.
Proof.
  intros Hs Hx Hy Hz. unfold outer_curvature.
  replace (/ (s * x * (s * y)) + / (s * y * (s * z)) + / (s * x * (s * z))) with ((/ (x * y) + / (y * z) + / (x * z)) * (/ s * / s)) by (field; repeat split; lra).
  assert (0 < / s) by (apply Rinv_0_lt_compat; auto). rewrite sqrt_mult_alt, sqrt_square by (try apply Rlt_le; auto; assert (0 < / (x * y)) by (apply Rinv_0_lt_compat; nra); assert (0 < / (y * z)) by (apply Rinv_0_lt_compat; nra); assert (0 < / (x * z)) by (apply Rinv_0_lt_compat; nra); lra).
  field. repeat split; lra.
Qed.

Lemma soddy_sim s f c1 c2 c3 co : similarity s f -> posc c1 -> posc c2 -> posc c3 -> tang c1 c2 -> tang c2 c3 -> tang c1 c3 -> posc co ->
  soddyOuterCircle (mkTri (cO c1) (cO c2) (cO c3)) = Ok co -> (forall c, In c [c1; c2; c3] -> dist (cO co) (cO c) = cr co - cr c) -> outer_curvature (cr c1) (cr c2) (cr c3) < 0 ->
  soddyOuterCircle (mkTri (f (cO c1)) (f (cO c2)) (f (cO c3))) = Ok (mkCircle (f (cO co)) (s * cr co)).
Proof.
  intros (Hs & F) P1 P2 P3 T12 T23 T13 Po E Ti Q. set (g := fun c => mkCircle (f (cO c)) (s * cr c)).
  assert (Pg : forall c, posc c -> posc (g c)) by (unfold posc, g; intros; cbn [cr]; apply Rmult_lt_0_compat; auto). assert (Tg : forall c c', tang c c' -> tang (g c) (g c')) by (unfold tang, g; intros c c' T; cbn [cO cr]; rewrite F, T; ring).
  destruct (soddy_outer (g c1) (g c2) (g c3) (Pg _ P1) (Pg _ P2) (Pg _ P3) (Tg _ _ T12) (Tg _ _ T23) (Tg _ _ T13)) as (_ & X & _). destruct (soddy_outer c1 c2 c3 P1 P2 P3 T12 T23 T13) as (_ & Y & _).
  destruct (Y Q) as (co1 & E1 & _ & R1 & _). rewrite E in E1. injection E1 as <-. clear Y. unfold g in X. cbn [cO cr] in X. unfold posc in P1, P2, P3. rewrite outer_curvature_scale in X by auto. set (q := outer_curvature _ _ _) in *.
  destruct X as (co' & E' & _ & R' & T'). { apply (Rmult_lt_reg_r s); auto. unfold Rdiv. rewrite Rmult_assoc, Rinv_l by lra. lra. }
  rewrite E'. f_equal. destruct co' as [o' r']. cbn [cO cr] in *. assert (Er : r' = s * cr co) by (rewrite R', R1; field; lra). subst r'. rewrite Er in *. f_equal.
  destruct (tangent_Ravi c1 c2 c3 P1 P2 P3 T12 T23 T13) as (S & HR).
  assert (Di : forall c, In c [c1; c2; c3] -> dist o' (f (cO c)) = dist (f (cO co)) (f (cO c))).
  { intros c I. rewrite F, (Ti c I). specialize (T' (g c)). unfold g in T'. cbn [cO cr] in T'. rewrite T'; [ring|]. cbn [In] in I |- *. destruct I as [<-|[<-|[<-|[]]]]; auto. }
  apply (three_distances _ _ (f (cO c1)) (f (cO c2)) (f (cO c3))); [|apply Di; cbn [In]; auto..].
  destruct (tangent_Ravi (g c1) (g c2) (g c3) (Pg _ P1) (Pg _ P2) (Pg _ P3) (Tg _ _ T12) (Tg _ _ T23) (Tg _ _ T13)) as (S' & HR'). destruct HR' as (_ & _ & _ & HS & _ & _ & _ & _ & HD).
  apply not_collinear_dbl. intros Z. change (dbl (cO (g c1)) (cO (g c2)) (cO (g c3)) = 0) in Z. rewrite Z, Rabs_R0 in HD. lra.
Qed.

(** ** the script *)
Definition nrm (co : circle) (P : pt) : pt := ((fst P - fst (cO co)) / cr co, (snd P - snd (cO co)) / cr co).

Lemma nrm_sim co : posc co -> similarity (/ cr co) (nrm co).
Proof.
  unfold posc. intros P. split; [apply Rinv_0_lt_compat; auto|]. intros [x y] [x' y']. assert (I : 0 < / cr co) by (apply Rinv_0_lt_compat; auto).
  apply Rsqr_inj; [apply dist_nonneg|apply Rmult_le_pos; [lra|apply dist_nonneg]|]. unfold Rsqr. rewrite dist_sq.
  replace (/ cr co * dist (x, y) (x', y') * (/ cr co * dist (x, y) (x', y'))) with (/ cr co * / cr co * (dist (x, y) (x', y') * dist (x, y) (x', y'))) by ring. rewrite dist_sq.
  unfold dist2, nrm, sdot, vsub. cbn [fst snd]. field. lra.
Qed.
Lemma nrm_eval co P : posc co -> normalize_by co P = Ok (nrm co P).
Proof. unfold posc, normalize_by. intros H. rewrite !np_div_nz by lra. reflexivity. Qed.
Lemma nrm_nc co A B C : posc co -> ~ collinear A B C -> ~ collinear (nrm co A) (nrm co B) (nrm co C).
Proof.
  unfold posc. intros P N C'. apply N. apply collinear_cross in C'. apply collinear_cross. destruct A as [a a'], B as [b b'], C as [c c'], co as [[o o'] r]. unfold nrm, scross, vsub in *. cbn [fst snd cO cr] in *.
  replace ((b - a) * (c' - a') - (b' - a') * (c - a)) with (r * r * (((b - o) / r - (a - o) / r) * ((c' - o') / r - (a' - o') / r) - ((b' - o') / r - (a' - o') / r) * ((c - o) / r - (a - o) / r))) by (field; lra). rewrite C'. ring.
Qed.

Lemma script_eval A B C depth c1 c2 c3 T : ~ collinear A B C -> malfatti_circles (mkTri A B C) = Ok (Some ((c1, c2, c3), T)) ->
  exists co S T', soddyOuterCircle (mkTri (cO c1) (cO c2) (cO c3)) = Ok co /\ posc co /\
  Ravi (cO c1) (cO c2) (cO c3) (cr c1) (cr c2) (cr c3) S /\
  (dist (cO co) (cO c1) = cr co - cr c1 /\ dist (cO co) (cO c2) = cr co - cr c2 /\ dist (cO co) (cO c3) = cr co - cr c3) /\
  let g := fun c => mkCircle (nrm co (cO c)) (/ cr co * cr c) in
  malfatti_script A B C depth = malfatti_apollonian (mkTri (nrm co A) (nrm co B) (nrm co C)) depth /\
  malfatti_circles (mkTri (nrm co A) (nrm co B) (nrm co C)) = Ok (Some ((g c1, g c2, g c3), T')) /\
  soddyOuterCircle (mkTri (cO (g c1)) (cO (g c2)) (cO (g c3))) = Ok (mkCircle (0, 0) 1).
Proof.
  intros N EM. destruct (malfatti_four A B C c1 c2 c3 T N EM) as (co & S & Es & H & Po & Eo & T1 & T2 & T3 & (P1 & P2 & P3) & (T12 & T23 & T13)). destruct T as [[Q1 Q2] Q3].
  exists co, S, (nrm co Q1, nrm co Q2, nrm co Q3). split; [auto|]. split; [auto|]. split; [auto|]. split; [auto|]. intros g. split; [|split].
  - unfold malfatti_script. rewrite EM. cbn [bind]. rewrite Es. cbn [bind]. rewrite !nrm_eval by auto. reflexivity.
  - rewrite (malfatti_sim (/ cr co) (nrm co) (nrm_sim co Po) A B C), EM. reflexivity.
  - unfold g. cbn [cO]. rewrite (soddy_sim (/ cr co) (nrm co) c1 c2 c3 co); auto.
    + f_equal. unfold posc in Po. unfold nrm. f_equal; [f_equal|]; field; lra.
    + apply nrm_sim. auto.
    + intros c [<-|[<-|[<-|[]]]]; auto.
    + pose proof (curv_sod c1 c2 c3 S H) as Eb. rewrite Eo in Eb. rewrite <- Eb. unfold v4scal, vc, vb. cbn [fst snd]. pose proof (Rinv_0_lt_compat _ Po). lra.
Qed.

Lemma script_normal A B C depth Mc gens : ~ collinear A B C -> malfatti_script A B C depth = Ok (Mc, gens) ->
  exists A' B' C', ~ collinear A' B' C' /\ malfatti_apollonian (mkTri A' B' C') depth = Ok (Mc, gens) /\ nth_error Mc 3 = Some (mkCircle (0, 0) 1).
Proof.
  intros N E. pose proof E as E0. unfold malfatti_script in E0. destruct (malfatti_circles (mkTri A B C)) as [[[[[c1 c2] c3] T]|]|] eqn:EM; cbn [bind] in E0; try discriminate. clear E0.
  destruct (script_eval A B C depth c1 c2 c3 T N EM) as (co & S & T' & _ & Po & _ & _ & Ev & EM' & Es'). exists (nrm co A), (nrm co B), (nrm co C). split; [apply nrm_nc; auto|]. rewrite <- Ev. split; [auto|].
  rewrite Ev in E. destruct (malapo_packing _ _ _ _ _ _ (nrm_nc co A B C Po N) E) as (d1 & d2 & d3 & do & T2 & EM2 & -> & _).
  cbn [nth_error]. f_equal. unfold malfatti_apollonian in E. rewrite EM' in E. cbn [bind] in E. rewrite Es' in E. cbn [bind] in E.
  repeat match type of E with bind ?x _ = _ => destruct x; cbn [bind] in E; [|discriminate] end. injection E as _ _ _ <- _. reflexivity.
Qed.

Lemma script_total A B C depth c1 c2 c3 co T : ~ collinear A B C -> malfatti_circles (mkTri A B C) = Ok (Some ((c1, c2, c3), T)) ->
  soddyOuterCircle (mkTri (cO c1) (cO c2) (cO c3)) = Ok co ->
  Forall (fun c => cr co <= 20 * cr c) [c1; c2; c3] -> cr c2 + cr c3 <> cr co -> cr c1 + cr c3 <> cr co -> cr c1 + cr c2 <> cr co ->
  exists Mc gens, malfatti_script A B C depth = Ok (Mc, gens).
Proof.
  intros N EM Es0 Bd D23 D13 D12. destruct (script_eval A B C depth c1 c2 c3 T N EM) as (co' & S & T' & Es & Po & H & (T1 & T2 & T3) & Ev & EM' & Es'). rewrite Es0 in Es. injection Es as <-. rewrite Ev. clear Ev Es0.
  set (g := fun c => mkCircle (nrm co (cO c)) (/ cr co * cr c)) in *. change (malfatti_circles (mkTri (nrm co A) (nrm co B) (nrm co C)) = Ok (Some ((g c1, g c2, g c3), T'))) in EM'. change (soddyOuterCircle (mkTri (cO (g c1)) (cO (g c2)) (cO (g c3))) = Ok (mkCircle (0, 0) 1)) in Es'.
  destruct (malfatti_four _ _ _ (g c1) (g c2) (g c3) T' (nrm_nc co A B C Po N) EM') as (cu & S' & Eu & HR & _ & _ & U1 & U2 & U3 & (P1 & P2 & P3) & (T12 & T23 & T13)). rewrite Es' in Eu. injection Eu as <-. cbn [cO cr] in U1, U2, U3.
  assert (Ir : / cr co * cr co = 1) by (unfold posc in Po; field; lra). assert (Ip : 0 < / cr co) by (apply Rinv_0_lt_compat; exact Po).
  assert (Sz : forall c, cr co <= 20 * cr c -> 1 / 20 <= cr (g c)) by (intros c Hc; unfold g; cbn [cr]; nra).
  assert (Ne : forall c c', cr c + cr c' <> cr co -> cr (g c) + cr (g c') <> 1) by (intros c c' Hc Z; apply Hc; unfold g in Z; cbn [cr] in Z; nra).
  inversion Bd as [|? ? Z1 Bd1]; subst. inversion Bd1 as [|? ? Z2 Bd2]; subst. inversion Bd2 as [|? ? Z3 _]; subst. apply Sz in Z1, Z2, Z3. apply Ne in D23, D13, D12. clear Bd Bd1 Bd2 Sz Ne.
  pose proof (nrm_nc co A B C Po N) as N'. set (gA := nrm co A) in *. set (gB := nrm co B) in *. set (gC := nrm co C) in *. clearbody gA gB gC. set (d1 := g c1) in *. set (d2 := g c2) in *. set (d3 := g c3) in *. clearbody d1 d2 d3. clear - EM' Es' HR U1 U2 U3 P1 P2 P3 T12 T23 T13 Z1 Z2 Z3 D23 D13 D12 N'.
  set (cu := mkCircle (0, 0) 1) in *. assert (Nu : near0 cu) by (unfold near0, cu; cbn [cO cr fst snd]; rewrite Rabs_R0; lra).
  pose proof (in_unit_near d1 P1 U1) as N1. pose proof (in_unit_near d2 P2 U2) as N2. pose proof (in_unit_near d3 P3 U3) as N3.
  assert (Lt : forall a b, posc a -> posc b -> dist (0, 0) (cO a) = 1 - cr a -> dist (0, 0) (cO b) = 1 - cr b -> tang a b -> cr a + cr b <= 1).
  { intros a b Pa Pb Ta Tb T. unfold tang in T. pose proof (dist_triangle (cO a) (0, 0) (cO b)) as Q. rewrite (dist_sym (cO a) (0, 0)), Ta, Tb, T in Q. lra. }
  pose proof (Lt d1 d2 P1 P2 U1 U2 T12) as L12. pose proof (Lt d2 d3 P2 P3 U2 U3 T23) as L23. pose proof (Lt d1 d3 P1 P3 U1 U3 T13) as L13.
  destruct (fixing_near cu d2 d3) as (i0 & F0); auto; [cbn [cO cu]; lra|cbn [cO cu]; lra|apply (tangent_nc _ 1); auto|].
  destruct (fixing_near cu d1 d3) as (i1 & F1); auto; [cbn [cO cu]; lra|cbn [cO cu]; lra|apply (tangent_nc _ 1); auto|].
  destruct (fixing_near cu d1 d2) as (i2 & F2); auto; [cbn [cO cu]; lra|cbn [cO cu]; lra|apply (tangent_nc _ 1); auto|].
  destruct (fixing_near d1 d2 d3) as (i3 & F3); auto; [unfold tang in T12; lra|unfold tang in T13; lra| |].
  { apply not_collinear_dbl. intros Z. destruct HR as (_ & _ & _ & HS & _ & _ & _ & _ & HD). rewrite Z, Rabs_R0 in HD. lra. }
  destruct (malapo_total gA gB gC depth d1 d2 d3 cu T' i0 i1 i2 i3 N' EM' Es' F0 F1 F2 F3) as (gens & E); [cbn [cr cu]; nra..| |exists [d1; d2; d3; cu], gens; exact E].
  assert (1 / 20 * (1 / 20) <= cr d1 * cr d2) by (apply Rmult_le_compat; lra). assert (1 / 20 * (1 / 20) * (1 / 20) <= cr d1 * cr d2 * cr d3) by (apply Rmult_le_compat; lra). unfold sepsilon_. lra.
Qed.

(** ** when the centres are in line *)
Lemma axis_dir c c' l : radical_axis c c' = Ok (Some l) -> vsub (lB l) (lA l) = (- snd (vsub (cO c') (cO c)), fst (vsub (cO c') (cO c))).
Proof.
  unfold radical_axis. destruct (allclose (cO c) (cO c')); [discriminate|]. unfold vsub at 1. intros E. destruct (radical_center2 c c') as [P|]; cbn [bind] in E; [|discriminate]. unfold Line_init in E.
  destruct (allclose P _); cbn [bind] in E; [discriminate|]. injection E as <-. cbn [lA lB]. unfold vsub, vadd. cbn [fst snd]. f_equal; ring.
Qed.
Lemma fixing_nc a b c iota : from_fixing_three_circles a b c = Ok iota -> ~ collinear (cO a) (cO b) (cO c).
Proof.
  unfold from_fixing_three_circles, radical_center3. intros E C. apply collinear_cross in C. destruct (radical_axis a b) as [[l1|]|] eqn:E1; cbn [bind] in E; try discriminate; destruct (radical_axis a c) as [[l2|]|] eqn:E2; cbn [bind] in E; try discriminate.
  apply axis_dir in E1, E2. unfold line_line_intersection_ in E. replace (eqb _ 0) with true in E; [discriminate|]. symmetry. apply eqb_true. unfold det2x2_. cbn [fst snd].
  destruct (lA l1) as [p q], (lB l1) as [p' q'], (lA l2) as [s t], (lB l2) as [s' t']. unfold vsub, scross in *. cbn [fst snd] in *. injection E1 as A1 A2. injection E2 as B1 B2.
  replace ((p - p') * (t - t') - (s - s') * (q - q')) with ((p' - p) * (t' - t) - (s' - s) * (q' - q)) by ring. rewrite A1, A2, B1, B2. lra.
Qed.
Lemma fixing_in_line a b c : near0 a -> near0 b -> near0 c -> 1 / 20 <= dist (cO a) (cO b) -> 1 / 20 <= dist (cO a) (cO c) -> collinear (cO a) (cO b) (cO c) ->
  from_fixing_three_circles a b c = Raise ValueError.
Proof.
  intros Ha Hb Hc D1 D2 N. destruct (axis_near a b Ha Hb D1) as (l1 & E1). destruct (axis_near a c Ha Hc D2) as (l2 & E2).
  destruct (from_fixing_three_circles a b c) as [i|e] eqn:E; [exfalso; exact (fixing_nc _ _ _ _ E N)|]. unfold from_fixing_three_circles, radical_center3 in E. rewrite E1, E2 in E. cbn [bind] in E.
  destruct (line_line_intersection_ _ _ _ _); cbn [bind] in E; [discriminate|]. exact (eq_sym E).
Qed.
Lemma touch_in_line O Rr a b : posc a -> posc b -> dist O (cO a) = Rr - cr a -> dist O (cO b) = Rr - cr b -> tang a b -> cr a + cr b = Rr -> collinear O (cO a) (cO b).
Proof.
  unfold posc, tang. intros Pa Pb Ta Tb T E. apply collinear_cross.
  assert (Qa : dist2 O (cO a) = cr b * cr b) by (rewrite <- dist_sq, Ta, <- E; ring). assert (Qb : dist2 O (cO b) = cr a * cr a) by (rewrite <- dist_sq, Tb, <- E; ring).
  assert (Q : dist2 (cO a) (cO b) = (cr a + cr b) * (cr a + cr b)) by (rewrite <- dist_sq, T; auto). clear Ta Tb T.
  destruct a as [[x y] r], b as [[x' y'] r'], O as [p q]. unfold dist2, scross, sdot, vsub in *. cbn [cO cr fst snd] in *.
  set (u := x - p) in *. set (v := y - q) in *. set (u' := x' - p) in *. set (v' := y' - q) in *.
  assert (Dt : 2 * (u * u' + v * v') = r' * r' + r * r - (r + r') * (r + r')) by (rewrite <- Q, <- Qa, <- Qb; unfold u, v, u', v'; ring).
  assert (L : (u * v' - v * u') * (u * v' - v * u') + (u * u' + v * v') * (u * u' + v * v') = (u * u + v * v) * (u' * u' + v' * v')) by ring.
  rewrite Qa, Qb in L. set (t := u * u' + v * v') in *. set (k := u * v' - v * u') in *. clearbody t k. assert (t = - (r * r')) by lra. subst t. nra.
Qed.
Lemma malapo_Ok_ne A B C depth c1 c2 c3 co T Mc gens : ~ collinear A B C -> malfatti_circles (mkTri A B C) = Ok (Some ((c1, c2, c3), T)) ->
  soddyOuterCircle (mkTri (cO c1) (cO c2) (cO c3)) = Ok co -> malfatti_apollonian (mkTri A B C) depth = Ok (Mc, gens) ->
  cr c2 + cr c3 <> cr co /\ cr c1 + cr c3 <> cr co /\ cr c1 + cr c2 <> cr co.
Proof.
  intros N EM Es E. destruct (malfatti_four A B C c1 c2 c3 T N EM) as (co' & S & Es' & H & Po & Eo & T1 & T2 & T3 & (P1 & P2 & P3) & (T12 & T23 & T13)). rewrite Es in Es'. injection Es' as <-.
  unfold malfatti_apollonian in E. rewrite EM in E. cbn [bind] in E. rewrite Es in E. cbn [bind] in E.
  destruct (from_fixing_three_circles co c2 c3) as [i0|] eqn:F0; cbn [bind] in E; [|discriminate]. destruct (from_fixing_three_circles co c1 c3) as [i1|] eqn:F1; cbn [bind] in E; [|discriminate].
  destruct (from_fixing_three_circles co c1 c2) as [i2|] eqn:F2; cbn [bind] in E; [|discriminate]. apply fixing_nc in F0, F1, F2.
  split; [|split]; intros Z; [apply F0|apply F1|apply F2]; apply (touch_in_line _ (cr co)); auto.
Qed.

Lemma script_iff A B C depth c1 c2 c3 co T : ~ collinear A B C -> malfatti_circles (mkTri A B C) = Ok (Some ((c1, c2, c3), T)) ->
  soddyOuterCircle (mkTri (cO c1) (cO c2) (cO c3)) = Ok co -> Forall (fun c => cr co <= 20 * cr c) [c1; c2; c3] ->
  (exists Mc gens, malfatti_script A B C depth = Ok (Mc, gens)) <-> cr c2 + cr c3 <> cr co /\ cr c1 + cr c3 <> cr co /\ cr c1 + cr c2 <> cr co.
Proof.
  intros N EM Es Bd. split.
  - intros (Mc & gens & E). destruct (script_eval A B C depth c1 c2 c3 T N EM) as (co' & S & T' & Es2 & Po & H & _ & Ev & EM' & Es'). rewrite Es in Es2. injection Es2 as <-. rewrite Ev in E.
    pose proof (malapo_Ok_ne _ _ _ depth _ _ _ _ T' Mc gens (nrm_nc co A B C Po N) EM' Es' E) as K. cbn [cr] in K. unfold posc in Po. assert (Ir : / cr co * cr co = 1) by (field; lra). destruct K as (K1 & K2 & K3).
    split; [|split]; intros Z; [apply K1|apply K2|apply K3]; rewrite <- Rmult_plus_distr_l, Z; auto.
  - intros (D23 & D13 & D12). apply (script_total A B C depth c1 c2 c3 co T); auto.
Qed.
