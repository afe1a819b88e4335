(** * The unit tests of the repository pass for all data: affine maps, circles, cross ratio,
    inversions, Moebius transformations. *)

From Coq Require Import Reals List Bool ZArith Lra Lia Psatz.
From Verif Require Import Base BaseLemmas Spec SpecLemmas SpecTriangle SpecMobius ModelInternal ModelLine ModelCircle ModelAffine ModelEllipse ModelTriangle ModelInversion ModelTransfo ModelMobius ModelTests.
From Verif Require PTriangle.
From Verif Require Import PInvBase PLine PCircle PCircle2 PAffine PEllipseEx PTriangle2 PTransfo PReflect PInversion PInversion2 PInversionEx PMobius PMobius2 PMobius3 PMobius4 PMobius5 PSchottky4 PExample1.
Import ListNotations.
Local Open Scope R_scope.

Lemma pt_eqb_refl P : pt_eqb P P = true.
Proof. unfold pt_eqb. rewrite !(proj2 (eqb_true _ _)) by auto. reflexivity. Qed.

(** ** Affine *)
Lemma affine_three_ok P1 P2 P3 Q1 Q2 Q3 :
  (~ collinear P1 P2 P3 -> allclose P1 P2 = false -> allclose P1 P3 = false -> allclose P2 P3 = false ->
   ~ collinear Q1 Q2 Q3 -> allclose Q1 Q2 = false -> allclose Q1 Q3 = false -> allclose Q2 Q3 = false ->
   test_affine_three_points P1 P2 P3 Q1 Q2 Q3 = Ok true) /\
  forall b, test_affine_three_points P1 P2 P3 Q1 Q2 Q3 = Ok b -> b = true.
Proof.
  assert (K : forall f, affine_from_three_points P1 P2 P3 Q1 Q2 Q3 = Ok (Some f) -> test_affine_three_points P1 P2 P3 Q1 Q2 Q3 = Ok true).
  { intros f E. unfold test_affine_three_points. rewrite E. cbn [bind]. destruct (three_points_spec _ _ _ _ _ _ f E) as (E1 & E2 & E3 & _). rewrite E1, E2, E3, !pt_eqb_refl. reflexivity. }
  split.
  - intros H1 H2 H3 H4 H5 H6 H7 H8. destruct (proj2 (three_points_total P1 P2 P3 Q1 Q2 Q3) (collinear_not _ _ _ H1 H2 H3 H4) (collinear_not _ _ _ H5 H6 H7 H8)) as (f & E). eauto.
  - intros b E. destruct (affine_from_three_points P1 P2 P3 Q1 Q2 Q3) as [[f|]|] eqn:F.
    + rewrite (K f) in E by auto. congruence.
    + unfold test_affine_three_points in E. rewrite F in E. discriminate.
    + unfold test_affine_three_points in E. rewrite F in E. discriminate.
Qed.

(** ** Circle *)
Lemma orthogonal_test_ok c a b : 0 < cr c ->
  (~ collinear (cO c) (circle_point_from_angle c a false) (circle_point_from_angle c b false) -> test_orthogonal c a b = Ok true).
Proof.
  intros Hr N. unfold test_orthogonal. destruct (ootp_circle c a b Hr N) as (c' & E & Hr' & A & B & O). rewrite E. cbn [bind]. rewrite is_orthogonal_complete by auto.
  assert (T : (cr c - cr c') ^ 2 <= dist2 (cO c) (cO c') <= (cr c + cr c') ^ 2). { unfold circ_orthogonal in O. pose proof (Rmult_lt_0_compat _ _ Hr Hr'). rewrite O. split; nra. }
  destruct (angle_spec c c' Hr Hr' T) as (t & Et & _ & _ & _ & Ho). rewrite Et. cbn [bind]. rewrite (proj2 Ho O). rewrite isclose_refl. reflexivity.
Qed.

(** ** Cross ratio *)
Lemma cross_ratio_real_ok c a b d e : 0 < cr c ->
  (NoDup [circle_point_from_angle c a true; circle_point_from_angle c b true; circle_point_from_angle c d true; circle_point_from_angle c e true] ->
   test_cross_ratio_real c a b d e = Ok true) /\
  (forall r, test_cross_ratio_real c a b d e = Ok r -> r = true).
Proof.
  intros Hr. unfold test_cross_ratio_real. set (A := circle_point_from_angle c a true). set (B := circle_point_from_angle c b true). set (D := circle_point_from_angle c d true). set (E := circle_point_from_angle c e true).
  assert (K : forall r, cross_ratio A B D E = Ok r -> approx_equal_ (snd r) 0 = true).
  { intros r Er. rewrite (proj2 (concyclic_iff A B D E r Er)); [apply approx_equal_refl|]. left. exists (cO c), (cr c). unfold A, B, D, E. repeat split; auto; apply point_from_angle_spec; auto. }
  split.
  - intros N. inversion_clear N as [|? ? N1 N']. inversion_clear N' as [|? ? N2 N'']. inversion_clear N'' as [|? ? N3 _]. cbn [In] in *.
    destruct (cross_ratio_value A B D E) as (r & Er & _); try (intros X; rewrite X in *; tauto). rewrite Er. cbn [bind]. rewrite K; auto.
  - intros r. destruct (cross_ratio A B D E) as [z|] eqn:Er; cbn [bind]; [|discriminate]. rewrite (K z) by auto. congruence.
Qed.

Lemma cross_ratio_invariant_ok M A B C D : mdet M <> C0 ->
  (NoDup [A; B; C; D] -> Forall (fun P => transform M (Pt P) <> Ok Inf) [A; B; C; D] -> test_cross_ratio_invariant M A B C D = Ok true) /\
  (forall b, test_cross_ratio_invariant M A B C D = Ok b -> b = true).
Proof.
  intros Hd. unfold test_cross_ratio_invariant.
  assert (K : forall A' B' C' D' r, transform M (Pt A) = Ok (Pt A') -> transform M (Pt B) = Ok (Pt B') -> transform M (Pt C) = Ok (Pt C') -> transform M (Pt D) = Ok (Pt D') -> cross_ratio A B C D = Ok r ->
    (let! cr2 := cross_ratio A' B' C' D' in Ok (approx_equal_ (fst r) (fst cr2) && approx_equal_ (snd r) (snd cr2))) = Ok true).
  { intros A' B' C' D' r E1 E2 E3 E4 Er. rewrite (cross_ratio_invariant M A B C D A' B' C' D' r Hd E1 E2 E3 E4 Er). cbn [bind]. rewrite !approx_equal_refl. reflexivity. }
  split.
  - intros N F. inversion_clear N as [|? ? N1 N']. inversion_clear N' as [|? ? N2 N'']. inversion_clear N'' as [|? ? N3 _]. cbn [In] in *.
    destruct (cross_ratio_value A B C D) as (r & Er & _); try (intros X; rewrite X in *; tauto). rewrite Er. cbn [bind].
    assert (T : forall P, transform M (Pt P) <> Ok Inf -> exists P', transform M (Pt P) = Ok (Pt P')).
    { intros P NI. destruct (transform_total M (Pt P) Hd) as ([P'|] & E); [eauto|contradiction]. }
    inversion_clear F as [|? ? F1 F']. inversion_clear F' as [|? ? F2 F'']. inversion_clear F'' as [|? ? F3 F''']. inversion_clear F''' as [|? ? F4 _].
    destruct (T A F1) as (A' & EA). destruct (T B F2) as (B' & EB). destruct (T C F3) as (C' & EC). destruct (T D F4) as (D' & ED).
    rewrite EA, EB, EC, ED. cbn [bind]. apply K; auto.
  - intros b. destruct (cross_ratio A B C D) as [r|] eqn:Er; cbn [bind]; [|discriminate].
    destruct (transform M (Pt A)) as [[A'|]|] eqn:EA; cbn [bind]; try discriminate; destruct (transform M (Pt B)) as [[B'|]|] eqn:EB; cbn [bind]; try discriminate;
    destruct (transform M (Pt C)) as [[C'|]|] eqn:EC; cbn [bind]; try discriminate; destruct (transform M (Pt D)) as [[D'|]|] eqn:ED; cbn [bind]; try discriminate.
    rewrite (K A' B' C' D' r) by auto. congruence.
Qed.

(** ** Homothety *)
Lemma homothety_test_ok H c a : 0 < cr c ->
  (hscale H <> 0 -> test_homothety_circle H c a = Ok true) /\ (hscale H = 0 -> test_homothety_circle H c a = Raise ValueError).
Proof.
  intros Hr. destruct (homothety_circle H c Hr) as [Z N]. unfold test_homothety_circle. split; intros S.
  - destruct (N S) as (c' & E & Hr' & K). rewrite E. cbn [bind]. rewrite inc_on; auto. apply K. apply point_from_angle_spec; auto.
  - rewrite (Z S). reflexivity.
Qed.

(** ** Inversion *)
Lemma invert_circle_test_never iota c P1 P2 P3 : 0 < cr c -> ipower iota <> 0 ->
  on_circle (cO c) (cr c) P1 -> on_circle (cO c) (cr c) P2 -> on_circle (cO c) (cr c) P3 ->
  on_circle (cO c) (cr c) (ipole iota) \/ sepsilon_ < Rabs (pow_circle (cO c) (cr c) (ipole iota)) ->
  forall b, test_invert_circle iota c P1 P2 P3 = Ok b -> b = true.
Proof.
  intros Hr Hk H1 H2 H3 Hp b. unfold test_invert_circle. destruct (invert_circle iota c) as [g|] eqn:E; cbn [bind]; [|discriminate].
  assert (K : forall P, on_circle (cO c) (cr c) P -> forall x, gcircle_includes_e g (invert iota (Pt P)) = Ok x -> x = true).
  { intros P HP x. destruct (invert iota (Pt P)) as [Q|] eqn:EI; [|destruct g; discriminate]. destruct g as [c'|l]; cbn [gcircle_includes_e].
    - intros X. injection X as <-. apply inc_on; [apply (invert_circle_spec iota c c' Hr E)|]. apply (invert_circle_points iota c c' P Q Hr E EI). auto.
    - destruct Hp as [Hp|Hp]. 2:{ pose proof (proj1 (invert_circle_GL iota c l E)). lra. }
      destruct (invert_circle_line iota c l Hr Hp E) as (_ & Hl & _). rewrite linc_on; auto; [congruence|]. apply (invert_circle_line_points iota c l P Q Hr Hp E EI). auto. }
  destruct (gcircle_includes_e g (invert iota (Pt P1))) as [b1|] eqn:E1; cbn [bind]; [|discriminate].
  destruct (gcircle_includes_e g (invert iota (Pt P2))) as [b2|] eqn:E2; cbn [bind]; [|discriminate].
  destruct (gcircle_includes_e g (invert iota (Pt P3))) as [b3|] eqn:E3; cbn [bind]; [|discriminate].
  rewrite (K _ H1 _ E1), (K _ H2 _ E2), (K _ H3 _ E3). intros X. injection X as <-. reflexivity.
Qed.

Lemma invert_circle_test_ok iota c P1 P2 P3 : 0 < cr c -> ipower iota <> 0 ->
  on_circle (cO c) (cr c) P1 -> on_circle (cO c) (cr c) P2 -> on_circle (cO c) (cr c) P3 ->
  sepsilon_ < Rabs (pow_circle (cO c) (cr c) (ipole iota)) ->
  Forall (fun P => allclose (ipole iota) P = false) [P1; P2; P3] ->
  test_invert_circle iota c P1 P2 P3 = Ok true.
Proof.
  intros Hr Hk H1 H2 H3 Hp F. pose proof (invert_circle_test_never iota c P1 P2 P3 Hr Hk H1 H2 H3 (or_intror Hp)) as K.
  inversion_clear F as [|? ? F1 F']. inversion_clear F' as [|? ? F2 F'']. inversion_clear F'' as [|? ? F3 _].
  assert (T : forall P, allclose (ipole iota) P = false -> exists Q, invert iota (Pt P) = Pt Q). { intros P E. unfold invert. rewrite E. eauto. }
  destruct (T _ F1) as (Q1 & E1). destruct (T _ F2) as (Q2 & E2). destruct (T _ F3) as (Q3 & E3).
  unfold test_invert_circle in *. rewrite (invert_circle_far iota c Hr Hk Hp) in *. cbn [bind] in *. rewrite E1, E2, E3 in *. cbn [gcircle_includes_e bind] in *. f_equal. apply K. reflexivity.
Qed.

Lemma swapping_test_ok c1 c2 positive : 0 < cr c1 -> 0 < cr c2 ->
  (forall b, test_swapping c1 c2 positive = Ok b -> b = true) /\
  (test_swapping c1 c2 positive = Raise AttributeError <-> cr c1 = cr c2 /\ dist (cO c1) (cO c2) = cr c1 + cr c2) /\
  (forall out iota, from_swapping_two_circles c1 c2 positive = (out, Some iota) ->
     sepsilon_ < Rabs (pow_circle (cO c1) (cr c1) (ipole iota)) -> sepsilon_ < Rabs (pow_circle (cO c2) (cr c2) (ipole iota)) ->
     test_swapping c1 c2 positive = Ok true).
Proof.
  intros H1 H2. unfold test_swapping. pose proof (swapping_None c1 c2 positive H1 H2) as HN. destruct (from_swapping_two_circles c1 c2 positive) as [out [iota|]] eqn:E; cbn [snd] in *.
  - destruct (swapping_invert_circle c1 c2 positive out iota H1 H2 E) as (A & B & C & D). split; [|split].
    + intros b. destruct (invert_circle iota c2) as [[c|]|] eqn:E2; cbn [bind circle_is_equal_g]; try discriminate. destruct (invert_circle iota c1) as [[c'|]|] eqn:E1; cbn [bind circle_is_equal_g]; try discriminate.
      rewrite (C c' eq_refl), (D c eq_refl), !circle_is_equal_refl. cbn [andb]. congruence.
    + split; [|intros X; apply HN in X; discriminate]. intros X. exfalso.
      destruct (invert_circle iota c2) as [[c|]|e2] eqn:E2; cbn [bind circle_is_equal_g] in X; try discriminate.
      * destruct (invert_circle iota c1) as [[c'|]|e1] eqn:E1; cbn [bind circle_is_equal_g] in X; try discriminate. pose proof (proj1 (invert_circle_raises iota c1) e1 E1). congruence.
      * pose proof (proj1 (invert_circle_raises iota c2) e2 E2). congruence.
    + intros out' iota' X S1 S2. injection X as <- <-. rewrite (B S2), (A S1). cbn [bind circle_is_equal_g]. rewrite !circle_is_equal_refl. reflexivity.
  - split; [discriminate|]. split; [|discriminate]. split; [intros _; apply HN; reflexivity|reflexivity].
Qed.

Lemma fixing_two_test_ok c1 c2 : 0 < cr c1 -> 0 < cr c2 ->
  (forall b, test_fixing_two c1 c2 = Ok b -> b = true) /\
  (test_fixing_two c1 c2 = Ok true <-> exists iota, from_fixing_two_circles c1 c2 = Ok iota /\ sepsilon_ < Rabs (ipower iota)).
Proof.
  intros H1 H2. unfold test_fixing_two. destruct (from_fixing_two_circles c1 c2) as [iota|] eqn:E; cbn [bind].
  2:{ split; [discriminate|]. split; [discriminate|intros (? & X & _); discriminate]. }
  destruct (fixing_two_fixes c1 c2 iota H1 H2 E) as (_ & _ & _ & A & B). destruct (Rlt_or_le sepsilon_ (Rabs (ipower iota))) as [S|S].
  - destruct (A S) as [-> ->]. cbn [bind circle_is_equal_g]. rewrite !circle_is_equal_refl. cbn [andb]. split; [congruence|]. split; [intros _; exists iota; auto|reflexivity].
  - assert (N : forall b, (let! newcirc1 := invert_circle iota c1 in let! newcirc2 := invert_circle iota c2 in let! b1 := circle_is_equal_g c1 newcirc1 in let! b2 := circle_is_equal_g c2 newcirc2 in Ok (b1 && b2)) <> Ok b).
    { intros b. destruct (invert_circle iota c1) as [[c|]|] eqn:E1; cbn [bind]; try discriminate.
      - destruct (B S c) as [X _]. contradiction.
      - destruct (invert_circle iota c2); cbn [bind circle_is_equal_g]; discriminate. }
    split; [intros b X; elim (N _ X)|]. split; [intros X; elim (N _ X)|]. intros (i & X & L). injection X as <-. lra.
Qed.

Lemma fixing_three_test_ok c1 c2 c3 : 0 < cr c1 -> 0 < cr c2 -> 0 < cr c3 ->
  (forall b, test_fixing_three c1 c2 c3 = Ok b -> b = true) /\
  (test_fixing_three c1 c2 c3 = Ok true <-> exists iota, from_fixing_three_circles c1 c2 c3 = Ok iota /\ sepsilon_ < Rabs (ipower iota)).
Proof.
  intros H1 H2 H3. unfold test_fixing_three. destruct (from_fixing_three_circles c1 c2 c3) as [iota|] eqn:E; cbn [bind].
  2:{ split; [discriminate|]. split; [discriminate|intros (? & X & _); discriminate]. }
  pose proof (fixing_three_fixes c1 c2 c3 iota E) as F.
  destruct (F c1 ltac:(cbn; auto) H1) as (_ & A1 & B1 & _). destruct (F c2 ltac:(cbn; auto) H2) as (_ & A2 & B2 & _). destruct (F c3 ltac:(cbn; auto) H3) as (_ & A3 & B3 & _).
  destruct (Rlt_or_le sepsilon_ (Rabs (ipower iota))) as [S|S].
  - rewrite (A1 S), (A2 S), (A3 S). cbn [bind circle_is_equal_g]. rewrite !circle_is_equal_refl. cbn [andb]. split; [congruence|]. split; [intros _; exists iota; auto|reflexivity].
  - assert (N : forall b, (let! n1 := invert_circle iota c1 in let! n2 := invert_circle iota c2 in let! n3 := invert_circle iota c3 in let! b1 := circle_is_equal_g c1 n1 in let! b2 := circle_is_equal_g c2 n2 in let! b3 := circle_is_equal_g c3 n3 in Ok (b1 && b2 && b3)) <> Ok b).
    { intros b. destruct (invert_circle iota c1) as [[c|]|] eqn:E1; cbn [bind]; try discriminate.
      - elim (B1 S c eq_refl).
      - destruct (invert_circle iota c2); cbn [bind]; [|discriminate]. destruct (invert_circle iota c3); cbn [bind circle_is_equal_g]; discriminate. }
    split; [intros b X; elim (N _ X)|]. split; [intros X; elim (N _ X)|]. intros (i & X & L). injection X as <-. lra.
Qed.

Lemma compose_inversions_ok iota1 iota2 M : ipower iota1 <> 0 -> ipower iota2 <> 0 ->
  (allclose (ipole iota2) M = true -> M = ipole iota2) ->
  (forall P, invert iota2 (Pt M) = Pt P -> allclose (ipole iota1) P = true -> P = ipole iota1) ->
  test_compose_inversions iota1 iota2 M = Ok true.
Proof.
  intros H1 H2 A B. unfold test_compose_inversions. destruct (inversion_compose_spec iota2 iota1 true (Pt M) H2 H1) as [_ E].
  - intros P X. injection X as <-. auto.
  - exact B.
  - rewrite E. cbn [bind]. destruct (invert iota1 (invert iota2 (Pt M))); cbn [allclose_e]; rewrite ?BaseLemmas.allclose_refl; reflexivity.
Qed.

(** ** Moebius transformations *)
Lemma mapping_three_test_ok P1 P2 P3 Q1 Q2 Q3 :
  (NoDup [P1; P2; P3] -> NoDup [Q1; Q2; Q3] -> test_mapping_three_points P1 P2 P3 Q1 Q2 Q3 = Ok true) /\
  (forall b, test_mapping_three_points P1 P2 P3 Q1 Q2 Q3 = Ok b -> b = true).
Proof.
  assert (K : forall M, from_mapping_three_points (Pt P1) (Pt P2) (Pt P3) (Pt Q1) (Pt Q2) (Pt Q3) = Ok (Some M) -> test_mapping_three_points P1 P2 P3 Q1 Q2 Q3 = Ok true).
  { intros M E. unfold test_mapping_three_points. rewrite E. cbn [bind]. destruct (mapping_three_spec _ _ _ _ _ _ M E) as (_ & E1 & E2 & E3). rewrite E1, E2, E3. cbn [bind allclose_e]. rewrite !BaseLemmas.allclose_refl. reflexivity. }
  split.
  - intros N N'. inversion_clear N as [|? ? N1 N2]. inversion_clear N2 as [|? ? N3 _]. inversion_clear N' as [|? ? N4 N5]. inversion_clear N5 as [|? ? N6 _]. cbn [In] in *.
    destruct (mapping_three_total P1 P2 P3 Q1 Q2 Q3) as (M & E); try (intros X; rewrite X in *; tauto). eauto.
  - intros b E. destruct (from_mapping_three_points (Pt P1) (Pt P2) (Pt P3) (Pt Q1) (Pt Q2) (Pt Q3)) as [[M|]|] eqn:F.
    + rewrite (K M) in E by auto. congruence.
    + unfold test_mapping_three_points in E. rewrite F in E. discriminate.
    + unfold test_mapping_three_points in E. rewrite F in E. discriminate.
Qed.

Lemma circle_three c c' P Q R : 0 < cr c -> 0 < cr c' -> ~ collinear P Q R -> on_circle (cO c) (cr c) P -> on_circle (cO c) (cr c) Q -> on_circle (cO c) (cr c) R ->
  on_circle (cO c') (cr c') P -> on_circle (cO c') (cr c') Q -> on_circle (cO c') (cr c') R -> c = c'.
Proof.
  intros H H' N. destruct (proj1 (proj2 (tri_accepted P Q R N))) as (cc & E & _). pose proof (circumcircle_spec (mkTri P Q R) cc E) as S. cbn [tA tB tC] in S. destruct S as (_ & _ & _ & _ & _ & U).
  intros A B C A' B' C'. destruct (U (cO c) (cr c)) as [X Y]; auto; [lra|]. destruct (U (cO c') (cr c')) as [X' Y']; auto; [lra|]. destruct c, c'; simpl in *. congruence.
Qed.

Lemma mapping_one_circle_ok fuel c1 c2 : 0 < cr c1 -> 0 < cr c2 -> test_mapping_one_circle fuel c1 c2 = Some (Ok true).
Proof.
  intros H1 H2. unfold test_mapping_one_circle. pose proof (one_circle_det c1 c2 H1 H2) as D. set (M := from_mapping_one_circle c1 c2) in *.
  destruct (transform_circle_circle fuel M c1 D H1) as (c & E & Hr & K).
  - intros p Ep O. destruct (one_circle_centre c1 c2 H1 H2) as [Ec _]. fold M in Ec. pose proof (transform_inj M (Pt p) (Pt (cO c1)) Inf D Ep Ec) as X. injection X as ->. unfold on_circle in O. rewrite (proj2 (dist_0 _ _) eq_refl) in O. lra.
  - rewrite E. cbn [bind circle_is_equal_g]. assert (Ec : c = c2); [|rewrite Ec, circle_is_equal_refl; reflexivity].
    apply same_circle; auto. intros w Hw. assert (Ee : exists e, transform M e = Ok (Pt w)). { destruct (transform_total (inverse M) (Pt w)) as (e & Ee); [rewrite mdet_inverse; auto|]. exists e. apply transform_inverse; auto. } destruct Ee as (e & Ee). destruct (proj2 (K e (Pt w) Ee)) as (z & Ez & Hz); [eauto|]. subst e. apply (proj1 (one_circle_spec c1 c2 z w H1 H2 Ee)). auto.
Qed.

Lemma three_on_circle O r P Q R : 0 < r -> on_circle O r P -> on_circle O r Q -> on_circle O r R -> P <> Q -> P <> R -> Q <> R -> ~ collinear P Q R.
Proof.
  intros Hr HP HQ HR N1 N2 N3 K. apply collinear_cross in K. apply on_circle_sq in HP, HQ, HR; try lra.
  apply on_line_cross in K; auto. destruct K as (t & ->). pose proof (dist2_pos P Q N1) as U.
  assert (E : t * (t - 1) * dist2 P Q = t * (dist2 O P - dist2 O Q) + (dist2 O (at_line P Q t) - dist2 O P)) by (unfold dist2, sdot, at_line; destruct O, P, Q; unpt; ring).
  rewrite HP, HQ, HR in E. assert (Z : t * (t - 1) * dist2 P Q = 0) by lra. apply Rmult_integral in Z. destruct Z as [Z|Z]; [|lra]. apply Rmult_integral in Z. destruct Z as [Z|Z].
  - apply N2. rewrite Z. unfold at_line. destruct P, Q. unpt. apply pair_eq; ring.
  - apply N3. replace t with 1 by lra. unfold at_line. destruct P, Q. unpt. apply pair_eq; ring.
Qed.

Lemma image_circle_ok fuel M c a b d : mdet M <> C0 -> 0 < cr c ->
  (forall r, test_image_circle fuel M c a b d = Some (Ok r) -> r = true) /\
  ((forall p, transform M (Pt p) = Ok Inf -> ~ on_circle (cO c) (cr c) p) ->
   NoDup [circle_point_from_angle c a true; circle_point_from_angle c b true; circle_point_from_angle c d true] ->
   test_image_circle fuel M c a b d = Some (Ok true)).
Proof.
  intros HD Hr. unfold test_image_circle. set (A := circle_point_from_angle c a true). set (B := circle_point_from_angle c b true). set (D := circle_point_from_angle c d true).
  assert (OA : on_circle (cO c) (cr c) A) by (apply PCircle.point_from_angle_spec; auto). assert (OB : on_circle (cO c) (cr c) B) by (apply PCircle.point_from_angle_spec; auto). assert (OD : on_circle (cO c) (cr c) D) by (apply PCircle.point_from_angle_spec; auto).
  assert (K : forall c' A' B' D' c2, transform_circle fuel M c = Some (Ok (GC c')) -> transform M (Pt A) = Ok (Pt A') -> transform M (Pt B) = Ok (Pt B') -> transform M (Pt D) = Ok (Pt D') ->
     circumcircle (mkTri A' B' D') = Ok (Some c2) -> c' = c2).
  { intros c' A' B' D' c2 E EA EB ED E2. destruct (transform_circle_GC fuel M c c' HD Hr E) as (Hr' & _ & T). pose proof (circumcircle_spec (mkTri A' B' D') c2 E2) as S. cbn [tA tB tC] in S. destruct S as (N & Hr2 & SA & SB & SD & _).
    apply (circle_three c' c2 A' B' D'); auto.
    - destruct (proj1 (T _ _ EA)) as (w & Ew & Hw); [eauto|]. injection Ew as ->. auto.
    - destruct (proj1 (T _ _ EB)) as (w & Ew & Hw); [eauto|]. injection Ew as ->. auto.
    - destruct (proj1 (T _ _ ED)) as (w & Ew & Hw); [eauto|]. injection Ew as ->. auto. }
  split.
  - intros r. destruct (transform_circle fuel M c) as [[g|]|] eqn:E; try discriminate. cbn [bind].
    destruct (transform M (Pt A)) as [[A'|]|] eqn:EA; cbn [bind]; try discriminate; destruct (transform M (Pt B)) as [[B'|]|] eqn:EB; cbn [bind]; try discriminate;
    destruct (transform M (Pt D)) as [[D'|]|] eqn:ED; cbn [bind circumcircle_e]; try discriminate.
    destruct (circumcircle (mkTri A' B' D')) as [[c2|]|] eqn:E2; cbn [bind]; destruct g as [c'|]; try discriminate.
    rewrite (K c' A' B' D' c2) by auto. rewrite circle_is_equal_refl. congruence.
  - intros HP N. destruct (transform_circle_circle fuel M c HD Hr HP) as (c' & E & Hr' & T). rewrite E. cbn [bind].
    assert (F : forall P, on_circle (cO c) (cr c) P -> exists P', transform M (Pt P) = Ok (Pt P') /\ on_circle (cO c') (cr c') P').
    { intros P O. destruct (transform_total M (Pt P) HD) as (e & Ee). destruct (proj1 (T _ _ Ee)) as (w & Ew & Hw); [eauto|]. subst e. eauto. }
    destruct (F A OA) as (A' & EA & OA'). destruct (F B OB) as (B' & EB & OB'). destruct (F D OD) as (D' & ED & OD'). rewrite EA, EB, ED. cbn [bind circumcircle_e].
    inversion_clear N as [|? ? N1 N2]. inversion_clear N2 as [|? ? N3 _]. cbn [In] in *.
    assert (I : forall P Q P' Q', transform M (Pt P) = Ok (Pt P') -> transform M (Pt Q) = Ok (Pt Q') -> P <> Q -> P' <> Q').
    { intros P Q P' Q' E1 E2 X Y. subst Q'. apply X. pose proof (transform_inj M _ _ _ HD E1 E2) as Z. injection Z. auto. }
    assert (NC : ~ collinear A' B' D').
    { apply (three_on_circle (cO c') (cr c')); auto; [apply (I A B)|apply (I A D)|apply (I B D)]; auto; intros X; rewrite X in *; tauto. }
    destruct (proj1 (proj2 (tri_accepted A' B' D' NC))) as (c2 & E2 & _). rewrite E2. cbn [bind]. rewrite (K c' A' B' D' c2) by auto. rewrite circle_is_equal_refl. reflexivity.
Qed.

Lemma image_line_ok M l : mdet M <> C0 -> lA l <> lB l ->
  (forall r, test_image_line M l = Ok r -> r = true) /\
  (forall c, transform_line M l = Ok (GC c) -> test_image_line M l = Ok true).
Proof.
  intros HD Hl. unfold test_image_line. set (I := vscal (/ 2) (vadd (lA l) (lB l))).
  assert (OI : on_line (lA l) (lB l) I). { exists (/ 2). unfold I, at_line. destruct (lA l), (lB l). unpt. apply pair_eq; field. }
  assert (OA : on_line (lA l) (lB l) (lA l)). { exists 0. unfold at_line. destruct (lA l), (lB l). unpt. apply pair_eq; ring. }
  assert (OB : on_line (lA l) (lB l) (lB l)). { exists 1. unfold at_line. destruct (lA l), (lB l). unpt. apply pair_eq; ring. }
  assert (K : forall c' A' B' D' c2, transform_line M l = Ok (GC c') -> transform M (Pt (lA l)) = Ok (Pt A') -> transform M (Pt (lB l)) = Ok (Pt B') -> transform M (Pt I) = Ok (Pt D') ->
     circumcircle (mkTri A' B' D') = Ok (Some c2) -> c' = c2).
  { intros c' A' B' D' c2 E EA EB ED E2. destruct (transform_line_GC M l c' HD Hl E) as (Hr' & _ & T). pose proof (circumcircle_spec (mkTri A' B' D') c2 E2) as S. cbn [tA tB tC] in S. destruct S as (N & Hr2 & SA & SB & SD & _).
    apply (circle_three c' c2 A' B' D'); auto.
    - destruct (proj1 (T _ _ EA)) as (w & Ew & Hw); [auto|]. injection Ew as ->. auto.
    - destruct (proj1 (T _ _ EB)) as (w & Ew & Hw); [auto|]. injection Ew as ->. auto.
    - destruct (proj1 (T _ _ ED)) as (w & Ew & Hw); [auto|]. injection Ew as ->. auto. }
  split.
  - intros r. destruct (transform_line M l) as [g|] eqn:E; try discriminate. cbn [bind].
    destruct (transform M (Pt (lA l))) as [[A'|]|] eqn:EA; cbn [bind]; try discriminate; destruct (transform M (Pt (lB l))) as [[B'|]|] eqn:EB; cbn [bind]; try discriminate;
    destruct (transform M (Pt I)) as [[D'|]|] eqn:ED; cbn [bind circumcircle_e]; try discriminate.
    destruct (circumcircle (mkTri A' B' D')) as [[c2|]|] eqn:E2; cbn [bind]; destruct g as [c'|]; try discriminate.
    rewrite (K c' A' B' D' c2) by auto. rewrite circle_is_equal_refl. congruence.
  - intros c' E. destruct (transform_line_GC M l c' HD Hl E) as (Hr' & _ & T). rewrite E. cbn [bind].
    assert (F : forall P, on_line (lA l) (lB l) P -> exists P', transform M (Pt P) = Ok (Pt P') /\ on_circle (cO c') (cr c') P').
    { intros P O. destruct (transform_total M (Pt P) HD) as (e & Ee). destruct (proj1 (T _ _ Ee)) as (w & Ew & Hw); [auto|]. subst e. eauto. }
    destruct (F _ OA) as (A' & EA & OA'). destruct (F _ OB) as (B' & EB & OB'). destruct (F _ OI) as (D' & ED & OD'). rewrite EA, EB, ED. cbn [bind circumcircle_e].
    assert (J : forall P Q P' Q', transform M (Pt P) = Ok (Pt P') -> transform M (Pt Q) = Ok (Pt Q') -> P <> Q -> P' <> Q').
    { intros P Q P' Q' E1 E2 X Y. subst Q'. apply X. pose proof (transform_inj M _ _ _ HD E1 E2) as Z. injection Z. auto. }
    assert (NC : ~ collinear A' B' D').
    { assert (NI : lA l <> I /\ lB l <> I). { unfold I. destruct (lA l) as [x y], (lB l) as [x' y']. unpt. split; intros X; apply Hl; injection X as X1 X2; apply pair_eq; lra. }
      apply (three_on_circle (cO c') (cr c')); auto; [apply (J (lA l) (lB l))|apply (J (lA l) I)|apply (J (lB l) I)]; tauto. }
    destruct (proj1 (proj2 (tri_accepted A' B' D' NC))) as (c2 & E2 & _). rewrite E2. cbn [bind]. rewrite (K c' A' B' D' c2) by auto. rewrite circle_is_equal_refl. reflexivity.
Qed.
