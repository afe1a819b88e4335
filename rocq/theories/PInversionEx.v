(** * Concrete cases for the properties of inversions. *)

From Coq Require Import Reals Lra Lia Psatz List Bool ZArith.
From Verif Require Import Base BaseLemmas Spec SpecLemmas SpecTriangle ModelInternal ModelLine ModelCircle ModelEllipse
  ModelTriangle ModelInversion PLine PCircle PCircle2 PInvBase PAffine PInversion PInversion2 PSteiner PSteiner2 POrtho.
Import ListNotations.
Local Open Scope R_scope.

Lemma dist_val P Q r : 0 <= r -> dist2 P Q = r * r -> dist P Q = r.
Proof. intros Hr H. apply Rsqr_inj; auto. apply dist_nonneg. unfold Rsqr. rewrite dist_sq. auto. Qed.

Lemma ex_C32 : invert (mkInv (1, 0) 4) (Pt (5, 0)) = Pt (2, 0) /\ invert (mkInv (1, 0) 4) (Pt (2, 0)) = Pt (5, 0).
Proof.
  split; rewrite invert_far; cbn [ipole ipower]; try (evalclose; fail); unfold inv_pt; unspec; do 2 f_equal; field.
Qed.

Lemma circle_ex I k O r c' : 0 < r -> k <> 0 -> sepsilon_ < Rabs (pow_circle O r I) ->
  cO c' = vadd I (vscal (k / pow_circle O r I) (vsub O I)) -> cr c' = Rabs (k / pow_circle O r I) * r ->
  invert_circle (mkInv I k) (mkCircle O r) = Ok (GC c').
Proof.
  intros Hr Hk HD E1 E2. rewrite invert_circle_far by auto. do 2 f_equal. apply circle_ext; cbn [cO cr ipole ipower]; auto.
Qed.

Lemma ex_C33_circle : invert_circle (mkInv (0, 0) 4) (mkCircle (3, 0) 1) = Ok (GC (mkCircle (3 / 2, 0) (1 / 2))).
Proof.
  assert (P : pow_circle (3, 0) 1 (0, 0) = 8) by (unfold pow_circle; unspec; ring).
  apply circle_ex; try lra; cbn [cO cr]; rewrite ?P.
  - rewrite Rabs_right by lra. unfold sepsilon_. lra.
  - unpt. f_equal; field.
  - rewrite Rabs_right by lra. field.
Qed.

Lemma ex_C33_line : invert_circle (mkInv (0, 0) 4) (mkCircle (1, 0) 1) = Ok (GL (mkLine (2, 0) (2, -2) true true)).
Proof.
  unfold invert_circle. cbn [ipole ipower cO cr]. rewrite D1_pow.
  assert (P : pow_circle (1, 0) 1 (0, 0) = 0) by (unfold pow_circle; unspec; ring).
  rewrite P, Rabs_R0. rewrite (proj2 (ltb_false _ _)) by (unfold sepsilon_; lra).
  replace (vsub (1, 0) (vsub (0, 0) (1, 0))) with (2, 0) by (unpt; f_equal; ring).
  replace (vadd (- snd (vsub (0, 0) (1, 0)), fst (vsub (0, 0) (1, 0))) (1, 0)) with (1, -1) by (unpt; f_equal; ring).
  rewrite !invert_far; cbn [ipole ipower]; try (evalclose; fail).
  replace (inv_pt (0, 0) 4 (2, 0)) with (2, 0) by (unfold inv_pt; unspec; f_equal; field).
  replace (inv_pt (0, 0) 4 (1, -1)) with (2, -2) by (unfold inv_pt; unspec; f_equal; field).
  cbn [Line_init_ext]. unfold Line_init. replace (allclose (2, 0) (2, -2)) with false by (symmetry; evalclose). reflexivity.
Qed.

(** the pole is 2^-28 away from the circle: a line is returned *)
Lemma ex_C33_refuted : exists iota c l M N, 0 < cr c /\ ~ on_circle (cO c) (cr c) (ipole iota) /\
  invert_circle iota c = Ok (GL l) /\ on_circle (cO c) (cr c) M /\ invert iota (Pt M) = Pt N /\ ~ on_line (lA l) (lB l) N.
Proof.
  set (r := 1 - / 268435456). assert (Hr : 0 < r < 1) by (unfold r; lra).
  exists (mkInv (0, 0) 4), (mkCircle (1, 0) r), (mkLine (2, 0) (2, -2) true true), (1 + r, 0), (4 / (1 + r), 0). cbn [cO cr ipole lA lB].
  assert (P : pow_circle (1, 0) r (0, 0) = (1 - r) * (1 + r)) by (unfold pow_circle; unspec; ring).
  split; [lra|]. split; [rewrite pow_circle_on by lra; rewrite P; nra|]. split.
  - unfold invert_circle. cbn [ipole ipower cO cr]. rewrite D1_pow, P. rewrite Rabs_right by nra.
    rewrite (proj2 (ltb_false _ _)) by (unfold sepsilon_, r; lra).
    replace (vsub (1, 0) (vsub (0, 0) (1, 0))) with (2, 0) by (unpt; f_equal; ring).
    replace (vadd (- snd (vsub (0, 0) (1, 0)), fst (vsub (0, 0) (1, 0))) (1, 0)) with (1, -1) by (unpt; f_equal; ring).
    rewrite !invert_far; cbn [ipole ipower]; try (evalclose; fail).
    replace (inv_pt (0, 0) 4 (2, 0)) with (2, 0) by (unfold inv_pt; unspec; f_equal; field).
    replace (inv_pt (0, 0) 4 (1, -1)) with (2, -2) by (unfold inv_pt; unspec; f_equal; field).
    cbn [Line_init_ext]. unfold Line_init. replace (allclose (2, 0) (2, -2)) with false by (symmetry; evalclose). reflexivity.
  - split; [apply dist_val; [lra|unspec; ring]|]. split.
    + rewrite invert_far; cbn [ipole ipower].
      * unfold inv_pt. unspec. replace ((1 + r - 0) * (1 + r - 0) + (0 - 0) * (0 - 0)) with ((1 + r) * (1 + r)) by ring. do 2 f_equal; field; lra.
      * unfold allclose. cbn [fst snd]. apply andb_false_iff. left. apply leb_false. unfold r. 
        replace (0 - (1 + (1 - / 268435456))) with (- (2 - / 268435456)) by ring. rewrite Rabs_Ropp.
        replace (1 + (1 - / 268435456)) with (2 - / 268435456) by ring. rewrite Rabs_right by lra. lra.
    + rewrite on_line_cross by (intros E; injection E; lra). unspec. intros E.
      assert (E' : 4 / (1 + r) = 2) by lra. assert (4 = 2 * (1 + r)) by (rewrite <- E'; field; lra). lra.
Qed.

Lemma ex_C34 : exists c, invert_line (mkInv (0, 0) 4) (mkLine (2, 0) (2, -2) true true) = Ok (Some (GC c)).
Proof.
  apply invert_line_total; cbn [ipower ipole lA lB]; try lra; try (evalclose; fail).
  - intros E; injection E; lra.
  - rewrite on_line_cross by (intros E; injection E; lra). unspec. lra.
Qed.

(** a line whose point A is allclose to the pole is returned although the pole is not on it *)
Lemma ex_C34_refuted : exists iota l M N, ipower iota <> 0 /\ ~ on_line (lA l) (lB l) (ipole iota) /\ lA l <> lB l /\
  invert_line iota l = Ok (Some (GL l)) /\ on_line (lA l) (lB l) M /\ invert iota (Pt M) = Pt N /\ ~ on_line (lA l) (lB l) N.
Proof.
  set (e := / 1000000000).
  exists (mkInv (0, 0) 1), (mkLine (0, e) (2, e) true true), (1, e), (/ (1 + e * e), e / (1 + e * e)). cbn [ipole ipower lA lB].
  assert (He : 0 < e) by (unfold e; lra).
  assert (Hne : (0, e) <> (2, e)) by (intros E; injection E; lra).
  split; [lra|]. split; [rewrite on_line_cross by auto; unspec; lra|]. split; [auto|]. split; [|split; [|split]].
  - unfold invert_line. cbn [ipole lA lB]. rewrite collinear_close; auto. left. unfold e. evalclose.
  - exists (/ 2). unfold at_line. unpt. f_equal; field.
  - rewrite invert_far; cbn [ipole ipower].
    + unfold inv_pt. unspec. replace ((1 - 0) * (1 - 0) + (e - 0) * (e - 0)) with (1 + e * e) by ring. do 2 f_equal; field; nra.
    + unfold allclose. cbn [fst snd]. apply andb_false_iff. left. apply leb_false. replace (0 - 1) with (- (1)) by ring. rewrite Rabs_Ropp, Rabs_R1. lra.
  - rewrite on_line_cross by auto. unspec. intros E.
    assert (E' : e / (1 + e * e) = e) by lra.
    assert (E2 : e / (1 + e * e) * (1 + e * e) = e) by (field; nra). rewrite E' in E2. assert (0 < e * (e * e)) by (apply Rmult_lt_0_compat; nra). lra.
Qed.

Lemma ex_C36 : (exists iota, from_swapping_two_circles (mkCircle (0, 0) 1) (mkCircle (5, 0) 2) false = ([], Some iota)) /\
  (exists iota, from_swapping_two_circles (mkCircle (0, 0) 1) (mkCircle (2, 0) 2) false = ([SwitchToTrue], Some iota)) /\
  from_swapping_two_circles (mkCircle (0, 0) 1) (mkCircle (2, 0) 1) true = ([NoInversion], None).
Proof.
  assert (D1 : dist (0, 0) (5, 0) = 5) by (apply dist_val; [lra|unspec; ring]).
  assert (D2 : dist (0, 0) (2, 0) = 2) by (apply dist_val; [lra|unspec; ring]).
  assert (A1 : Rabs (2 - 1) = 1) by (rewrite Rabs_right; lra).
  split; [|split].
  - destruct (swapping_cases (mkCircle (0, 0) 1) (mkCircle (5, 0) 2) false ltac:(cbn [cr]; lra) ltac:(cbn [cr]; lra)) as [(_ & _ & E)|(_ & out & iota & E & (_ & _ & _ & S) & ST & SF)]; cbn [cO cr] in *.
    + lra.
    + exists iota. rewrite E. destruct S as [[-> _]|[[S _]|[S [? _]]]]; [auto| |discriminate].
      exfalso. apply ST in S. destruct S as (_ & _ & S). specialize (S ltac:(lra)). lra.
  - destruct (swapping_cases (mkCircle (0, 0) 1) (mkCircle (2, 0) 2) false ltac:(cbn [cr]; lra) ltac:(cbn [cr]; lra)) as [(_ & _ & E)|(_ & out & iota & E & _ & ST & SF)]; cbn [cO cr] in *.
    + lra.
    + exists iota. rewrite E. f_equal. apply ST. split; auto. split; intros; lra.
  - destruct (swapping_cases (mkCircle (0, 0) 1) (mkCircle (2, 0) 1) true ltac:(cbn [cr]; lra) ltac:(cbn [cr]; lra)) as [(E & _ & _)|(N & _)]; cbn [cO cr] in *; auto.
    exfalso. apply N. split; lra.
Qed.

Lemma ex_C37 : exists iota, from_fixing_two_circles (mkCircle (0, 0) 1) (mkCircle (4, 0) 2) = Ok iota /\ sepsilon_ < Rabs (ipower iota).
Proof.
  destruct (fixing_two_spec (mkCircle (0, 0) 1) (mkCircle (4, 0) 2)) as (iota & E & L & P1 & P2); cbn [cO cr] in *.
  { intros E; injection E; lra. }
  exists iota. split; auto. destruct L as [t L]. unfold at_line in L. destruct iota as [[x y] k]. cbn [ipole ipower] in *.
  unfold pow_circle in *. unspec. injection L as L1 L2. assert (y = 0) by lra. assert (x = 13 / 8) by lra. rewrite H, H0 in P1.
  assert (Hk : k = 105 / 64) by lra. rewrite Hk, Rabs_right by lra. unfold sepsilon_. lra.
Qed.

Lemma ex_C38 : exists c1' c2', let w := [mkInv (10, 0) 1; mkInv (0, 0) (-3)] in
  invert_circle_word w (GC (mkCircle (0, 0) 1)) = Ok (GC c1') /\ invert_circle_word w (GC (mkCircle (3, 0) 2)) = Ok (GC c2') /\
  ext_tangent (0, 0) 1 (3, 0) 2.
Proof.
  assert (E1 : invert_circle (mkInv (10, 0) 1) (mkCircle (0, 0) 1) = Ok (GC (mkCircle (980 / 99, 0) (/ 99)))).
  { assert (P : pow_circle (0, 0) 1 (10, 0) = 99) by (unfold pow_circle; unspec; ring).
    apply circle_ex; try lra; cbn [cO cr]; rewrite ?P.
    - rewrite Rabs_right by lra. unfold sepsilon_. lra.
    - unpt. f_equal; field.
    - rewrite Rabs_right by lra. field. }
  assert (E2 : invert_circle (mkInv (10, 0) 1) (mkCircle (3, 0) 2) = Ok (GC (mkCircle (443 / 45, 0) (2 / 45)))).
  { assert (P : pow_circle (3, 0) 2 (10, 0) = 45) by (unfold pow_circle; unspec; ring).
    apply circle_ex; try lra; cbn [cO cr]; rewrite ?P.
    - rewrite Rabs_right by lra. unfold sepsilon_. lra.
    - unpt. f_equal; field.
    - rewrite Rabs_right by lra. field. }
  cbn [invert_circle_word]. rewrite E1, E2. cbn [bind].
  do 2 eexists. cbv zeta. split; [|split].
  - rewrite invert_circle_far; [reflexivity|cbn [cr]; lra|cbn [ipower]; lra|]. cbn [cO cr ipole]. unfold pow_circle. unspec.
    rewrite Rabs_right by lra. unfold sepsilon_. lra.
  - rewrite invert_circle_far; [reflexivity|cbn [cr]; lra|cbn [ipower]; lra|]. cbn [cO cr ipole]. unfold pow_circle. unspec.
    rewrite Rabs_right by lra. unfold sepsilon_. lra.
  - unfold ext_tangent. apply dist_val; [lra|unspec; ring].
Qed.

Lemma ex_C40 : exists cs ell, SteinerChain (mkCircle (1, 2) 2) 6 (1 / 2) (1 / 4) = Ok (map GC cs, ell).
Proof.
  assert (A : Rabs (1 / 2) = 1 / 2) by (rewrite Rabs_right; lra).
  apply steiner_total; [lia|cbn [cr]; lra|lra|]. right. cbn [cr]. rewrite A. unfold sepsilon_. lra.
Qed.

Lemma ex_C19 : (exists c', orthogonal_through_two_points_in_circle (mkCircle (0, 0) 2) (1, 0) (0, 1) false = Ok (OCircle c')) /\
  exists l, orthogonal_through_two_points_in_circle (mkCircle (0, 0) 2) (1, 0) (-1, 0) false = Ok (OLine l).
Proof.
  split.
  - assert (Q1 : inv_pt (0, 0) (2 * 2) (1, 0) = (4, 0)) by (unfold inv_pt; unspec; f_equal; field).
    assert (Q2 : inv_pt (0, 0) (2 * 2) (0, 1) = (0, 4)) by (unfold inv_pt; unspec; f_equal; field).
    apply (ortho_in_total (mkCircle (0, 0) 2) (1, 0) (0, 1) false); cbn [cO cr]; rewrite ?Q1, ?Q2; unfold midpoint; unfold vadd; cbn [fst snd]; try lra; try (evalclose; fail).
    + apply dist_bound; try lra. unspec. lra.
    + apply dist_bound; try lra. unspec. lra.
    + rewrite collinear_cross. unspec. lra.
  - destruct (ortho_in_core (mkCircle (0, 0) 2) (1, 0) (-1, 0) false ltac:(cbn [cr]; lra)) as [[H _]|(_ & _ & _ & [[_ E]|[K _]])]; cbn [cO cr] in *.
    + exfalso. assert (F : allclose (1, 0) (-1, 0) = false) by evalclose.
      assert (dist (1, 0) (0, 0) = 1) by (apply dist_val; [lra|unspec; ring]).
      assert (dist (-1, 0) (0, 0) = 1) by (apply dist_val; [lra|unspec; ring]).
      destruct H as [H|[H|H]]; [congruence|lra|lra].
    + eauto.
    + exfalso. apply collinear_false in K. destruct K as [K _]. apply K. apply collinear_cross. unspec. ring.
Qed.

(** ** Forms used by the property file *)
Lemma invert_circle_raises iota c :
  (forall e, invert_circle iota c = Raise e -> e = ValueError) /\
  (0 < cr c -> ipower iota = 0 -> invert_circle iota c = Raise ValueError) /\
  (0 < cr c <= / 8192 -> cO c = ipole iota -> invert_circle iota c = Raise ValueError).
Proof.
  split; [intros; eapply invert_circle_raise; eauto|]. split.
  - intros Hr Hk. destruct iota as [I k]. cbn [ipower] in Hk. subst k. apply invert_circle_zero; auto.
  - intros [Hr Hs] E. destruct c as [O r]. cbn [cO cr] in *. subst O. apply invert_circle_centred; auto.
Qed.

Lemma swapping_Some c1 c2 positive out iota : 0 < cr c1 -> 0 < cr c2 ->
  from_swapping_two_circles c1 c2 positive = (out, Some iota) -> swap_result c1 c2 positive out iota.
Proof.
  intros H1 H2 E. destruct (swapping_cases c1 c2 positive H1 H2) as [(E' & _)|(_ & o & i & E' & S & _)]; rewrite E in E'.
  - discriminate.
  - injection E' as -> ->. auto.
Qed.

Lemma swapping_invert_circle c1 c2 positive out iota : 0 < cr c1 -> 0 < cr c2 ->
  from_swapping_two_circles c1 c2 positive = (out, Some iota) ->
  (sepsilon_ < Rabs (pow_circle (cO c1) (cr c1) (ipole iota)) -> invert_circle iota c1 = Ok (GC c2)) /\
  (sepsilon_ < Rabs (pow_circle (cO c2) (cr c2) (ipole iota)) -> invert_circle iota c2 = Ok (GC c1)) /\
  (forall c, invert_circle iota c1 = Ok (GC c) -> c = c2) /\ (forall c, invert_circle iota c2 = Ok (GC c) -> c = c1).
Proof.
  intros H1 H2 E. destruct (swapping_Some c1 c2 positive out iota H1 H2 E) as (Hk & M1 & M2 & _).
  destruct (maps_invert_circle iota c1 c2 Hk H1 H2 M1). destruct (maps_invert_circle iota c2 c1 Hk H2 H1 M2). auto.
Qed.

Lemma swapping_None c1 c2 positive : 0 < cr c1 -> 0 < cr c2 ->
  (snd (from_swapping_two_circles c1 c2 positive) = None <-> cr c1 = cr c2 /\ dist (cO c1) (cO c2) = cr c1 + cr c2).
Proof.
  intros H1 H2. destruct (swapping_cases c1 c2 positive H1 H2) as [(E & K)|(K & o & i & E & _)]; rewrite E; cbn [snd].
  - tauto.
  - split; [discriminate|tauto].
Qed.

Lemma swapping_messages c1 c2 positive : 0 < cr c1 -> 0 < cr c2 ->
  let d := dist (cO c1) (cO c2) in
  let out := fst (from_swapping_two_circles c1 c2 positive) in
  (In SwitchToTrue out <-> positive = false /\ (cr c1 = cr c2 -> d < cr c1 + cr c2) /\
     (cr c1 <> cr c2 -> Rabs (cr c2 - cr c1) <= d <= cr c1 + cr c2)) /\
  (In SwitchToFalse out <-> positive = true /\ cr c1 = cr c2 /\ cr c1 + cr c2 < d) /\
  (In NoInversion out <-> cr c1 = cr c2 /\ d = cr c1 + cr c2).
Proof.
  intros H1 H2 d out. unfold out. destruct (swapping_cases c1 c2 positive H1 H2) as [(E & K1 & K2)|(K & o & i & E & (_ & _ & _ & S) & ST & SF)]; rewrite E; cbn [fst]; subst d; clear out.
  - simpl. split; [|split].
    + split; [intuition discriminate|]. intros (_ & A & _). specialize (A K1). lra.
    + split; [intuition discriminate|]. intros (_ & _ & A). lra.
    + tauto.
  - rewrite <- ST, <- SF. destruct S as [[-> _]|[[-> _]|[-> _]]]; simpl; intuition discriminate.
Qed.

Lemma fixing_two_fixes c1 c2 iota : 0 < cr c1 -> 0 < cr c2 -> from_fixing_two_circles c1 c2 = Ok iota ->
  cO c1 <> cO c2 /\ on_line (cO c1) (cO c2) (ipole iota) /\
  (ipower iota <> 0 -> inv_maps (ipole iota) (ipower iota) (cO c1) (cr c1) (cO c1) (cr c1) /\
                       inv_maps (ipole iota) (ipower iota) (cO c2) (cr c2) (cO c2) (cr c2)) /\
  (sepsilon_ < Rabs (ipower iota) -> invert_circle iota c1 = Ok (GC c1) /\ invert_circle iota c2 = Ok (GC c2)) /\
  (Rabs (ipower iota) <= sepsilon_ -> forall c', invert_circle iota c1 <> Ok (GC c') /\ invert_circle iota c2 <> Ok (GC c')).
Proof.
  intros H1 H2 E. destruct (fixing_two_Ok _ _ _ E) as (N & P1 & P2).
  destruct (fixing_two_spec c1 c2 N) as (i & E' & L & _). rewrite E in E'. apply Ok_inj in E'. subst i.
  destruct (fixes_of_power _ _ H1 P1) as (A1 & A2 & A3 & _). destruct (fixes_of_power _ _ H2 P2) as (B1 & B2 & B3 & _).
  split; [auto|]. split; [auto|]. split; [auto|]. split; [auto|]. intros; split; auto.
Qed.

Lemma fixing_two_total c1 c2 :
  (cO c1 <> cO c2 -> exists iota, from_fixing_two_circles c1 c2 = Ok iota) /\
  (cO c1 = cO c2 -> from_fixing_two_circles c1 c2 = Raise NonFinite).
Proof.
  split; [|apply fixing_two_concentric]. intros N. destruct (fixing_two_spec c1 c2 N) as (i & E & _). eauto.
Qed.

Lemma fixing_three_fixes c1 c2 c3 iota : from_fixing_three_circles c1 c2 c3 = Ok iota ->
  forall c, In c [c1; c2; c3] -> 0 < cr c ->
  (ipower iota <> 0 -> inv_maps (ipole iota) (ipower iota) (cO c) (cr c) (cO c) (cr c)) /\
  (sepsilon_ < Rabs (ipower iota) -> invert_circle iota c = Ok (GC c)) /\
  (Rabs (ipower iota) <= sepsilon_ -> forall c', invert_circle iota c <> Ok (GC c')) /\
  (0 < ipower iota -> circ_orthogonal (ipole iota) (sqrt (ipower iota)) (cO c) (cr c)).
Proof.
  intros E c Hc Hr. destruct (fixing_three_spec _ _ _ _ E) as (P1 & P2 & P3).
  apply fixes_of_power; auto. simpl in Hc. destruct Hc as [<-|[<-|[<-|[]]]]; auto.
Qed.
