(** * The tests of the library accept what the library constructs. *)

From Coq Require Import Reals List Bool ZArith Lra Lia Psatz.
From Verif Require Import Base BaseLemmas Spec SpecLemmas SpecTriangle SpecMobius SpecEllForm ModelInternal ModelLine ModelCircle ModelAffine ModelEllipse ModelTriangle ModelInversion ModelTransfo ModelMobius ModelAlias ModelBilliard ModelExample1.
From Verif Require PTriangle.
From Verif Require Import PLine PLineEx PCircle PCircle2 PEllipse PEllipse2 PEllipseEx PTriangle2 PTriangle6 PTransfo PReflect PTransfoEx PMobius PMobius2 PMobius3 PMobius4 PEllUnique PEllUnique2.
Import ListNotations.
Local Open Scope R_scope.

Local Notation on_e e := (on_ellipse (eO e) (ea e) (eb e) (ell_th e)).

Lemma inc_on c P : 0 < cr c -> on_circle (cO c) (cr c) P -> circle_includes c P = true.
Proof. intros H. apply includes_on_circle. lra. Qed.
Lemma linc_on l P cc : lA l <> lB l -> on_line (lA l) (lB l) P -> line_includes l P false cc = Ok true.
Proof. intros N H. rewrite includes_nonstrict. apply collinear_on_line; auto. Qed.

Lemma ex1_circumcircle_ok A B C : (~ collinear A B C -> ex1_circumcircle A B C = Ok true) /\ forall b, ex1_circumcircle A B C = Ok b -> b = true.
Proof.
  unfold ex1_circumcircle. destruct (circumcircle (mkTri A B C)) as [[c|]|x] eqn:E; cbn [bind].
  - destruct (circumcircle_spec _ _ E) as (_ & Hr & HA & _). cbn [tA] in HA. rewrite (inc_on c A Hr HA). split; auto. intros b K. injection K as <-. auto.
  - split; [|discriminate]. intros K. exfalso. apply (circumcircle_none (mkTri A B C)) in E. tauto.
  - split; [|discriminate]. intros K. exfalso. apply (circumcircle_raise (mkTri A B C) x) in E. cbn [tA tB tC] in E. apply K.
    destruct E as [_ [->| ->]]; [exists B, (vsub C B), 0, 0, 1|exists C, (vsub B C), 0, 1, 0]; destruct B, C; unpt; repeat split; apply pair_eq; ring.
Qed.

Lemma ex1_circle_line_ok c l P : lA l <> lB l -> 0 < cr c -> line_projection l (cO c) = Some P ->
  (ex1_circle_line c l = Ok true <-> / 67108864 <= dist2 (lA l) (lB l) * (cr c * cr c - dist2 (cO c) P)) /\ ex1_circle_line c l <> Ok false.
Proof.
  intros N Hr HP. destruct (icl_which c l P N Hr HP) as (_ & _ & W). pose proof (icl_spec c l N Hr) as S. cbv zeta in W. rewrite <- W. unfold ex1_circle_line.
  destruct (intersection_circle_line c l) as [[|X|X Y]|x]; cbn [bind two_points].
  - split; [|discriminate]. split; [discriminate|]. intros (? & ? & ?). discriminate.
  - split; [|discriminate]. split; [discriminate|]. intros (? & ? & ?). discriminate.
  - destruct S as (_ & _ & _ & S1 & S2 & _). rewrite (inc_on c X), (inc_on c Y) by auto. cbn [andb]. split; [|discriminate]. split; eauto.
  - tauto.
Qed.

Lemma einc_on e P : 0 < ea e -> 0 < eb e -> on_ellipse (eO e) (ea e) (eb e) (radians (edeg e) (ealpha e)) P -> ellipse_includes e P = true.
Proof. intros Ha Hb. apply (proj1 (ellipse_includes_spec e P Ha Hb)). Qed.

Lemma ex1_ellipse_line_ok e l : 0 < ea e -> 0 < eb e ->
  ((exists P Q, intersection_ellipse_line e l = Ok (ITwo P Q)) <-> ex1_ellipse_line e l = Ok true) /\ ex1_ellipse_line e l <> Ok false.
Proof.
  intros Ha Hb. pose proof (iel_spec e l Ha Hb) as S. unfold ex1_ellipse_line. destruct (intersection_ellipse_line e l) as [[|X|X Y]|x]; cbn [bind two_points].
  - split; [|discriminate]. split; [intros (? & ? & ?)|]; discriminate.
  - split; [|discriminate]. split; [intros (? & ? & ?)|]; discriminate.
  - destruct S as (_ & _ & _ & S1 & S2 & _). rewrite (einc_on e X), (einc_on e Y) by auto. cbn [andb]. split; [|discriminate]. split; eauto.
  - split; [|discriminate]. split; [intros (? & ? & ?)|]; discriminate.
Qed.

Lemma ex1_ellipses_ok e1 e2 : 0 < ea e1 -> 0 < eb e1 -> 0 < ea e2 -> 0 < eb e2 ->
  exists e, ex1_ellipses e1 e2 = Ok (Some e) /\ normal_e e /\ edeg e = edeg e1 /\
    (forall M, on_ellipse (eO e) (ea e) (eb e) (radians (edeg e) (ealpha e)) M <-> on_ellipse (eO e2) (ea e2) (eb e2) (radians (edeg e2) (ealpha e2)) M) /\
    (normal_e e2 -> edeg e2 = edeg e1 -> e = e2).
Proof.
  intros A1 B1 A2 B2. unfold ex1_ellipses. destruct (ellipse_to_ellipse_spec (AEllipse e1) (AEllipse e2)) as (f & -> & D & K); [split; auto|split; auto|]. cbn [bind on_ce] in *.
  destruct (transform_full f (AEllipse e1)) as (e & E & Ne & De & W); [split; auto|auto|]. cbn [on_ce deg_of] in *.
  assert (S : forall M, on_e e M <-> on_e e2 M). { intros M. destruct (onto f D M) as [N ->]. rewrite <- W. apply K. }
  exists e. split; [auto|]. split; [auto|]. split; [auto|]. split; [exact S|]. intros N2 D2. apply normal_unique; auto; [congruence|]. intros M. apply S.
Qed.

Lemma ex1_mobius_ok fuel M c alpha degrees : mdet M <> C0 -> 0 < cr c ->
  ((forall p, transform M (Pt p) = Ok Inf -> ~ on_circle (cO c) (cr c) p) -> ex1_mobius fuel M c alpha degrees = Some (Ok true)) /\
  ex1_mobius fuel M c alpha degrees <> Some (Ok false).
Proof.
  intros HD Hr. unfold ex1_mobius. set (A := circle_point_from_angle c alpha degrees).
  assert (HA : on_circle (cO c) (cr c) A) by (apply (PCircle.point_from_angle_spec c Hr)).
  assert (HL : forall l, transform_circle fuel M c = Some (Ok (GL l)) -> forall B, transform M (Pt A) = Ok (Pt B) -> line_includes l B false true = Ok true).
  { intros l E B EB. destruct (transform_circle_GL fuel M c l HD Hr E) as (_ & N & _ & _ & K). apply linc_on; auto. apply (proj1 (K (Pt A) (Pt B) EB)). eauto. }
  assert (HC : forall c', transform_circle fuel M c = Some (Ok (GC c')) -> forall B, transform M (Pt A) = Ok (Pt B) -> circle_includes c' B = true).
  { intros c' E B EB. destruct (transform_circle_GC fuel M c c' HD Hr E) as (Hr' & _ & K). apply inc_on; auto. destruct (proj1 (K (Pt A) (Pt B) EB)) as (w & Ew & On); [eauto|]. injection Ew as <-. auto. }
  split.
  - intros NP. destruct (transform_circle_circle fuel M c HD Hr NP) as (c' & E & Hr' & K). rewrite E. cbn [bind].
    destruct (transform_total M (Pt A) HD) as (f & Ef). rewrite Ef. cbn [bind]. destruct f as [B|]; [|exfalso; eapply NP; eauto]. rewrite (HC c' E B Ef). auto.
  - destruct (transform_circle fuel M c) as [[[c'|l]|x]|]; try discriminate; cbn [bind]; destruct (transform M (Pt A)) as [[B|]|]; cbn [bind]; try discriminate.
    + rewrite (HC c' eq_refl B eq_refl). discriminate.
    + rewrite (HL l eq_refl B eq_refl). discriminate.
Qed.

Lemma ex1_projection_ok l P : lA l <> lB l -> ex1_projection l P = Ok true.
Proof.
  intros N. unfold ex1_projection. destruct (projection_nearest l P N) as (M & -> & On & _). apply linc_on; auto.
Qed.

Lemma ex1_reflection_ok l P Q d : line_reflection l P = Ok Q -> allclose (lA l) P = false -> allclose (lB l) P = false -> allclose (lA l) Q = false -> allclose (lB l) Q = false ->
  ex1_reflection l P = Ok d -> d = (0, 0).
Proof.
  intros E1 H1 H2 H3 H4. unfold ex1_reflection. rewrite E1. cbn [bind]. destruct (line_reflection l Q) as [R|] eqn:E2; [|discriminate]. cbn [bind]. intros K. injection K as <-.
  unfold line_reflection, Reflection_init in *. destruct (Line_init_cases (lA l) (lB l) true true) as [[N E]|[_ E]]; rewrite E in *; [|discriminate]. cbn [bind] in *.
  rewrite (reflection_involutive _ P Q R N H1 H2 H3 H4 E1 E2). destruct P. unpt. apply pair_eq; ring.
Qed.

Lemma gpower_power_matrix arg eig M n : is_arg arg -> eig_ok eig M -> mdet M <> C0 -> gpower_domain M -> gpower arg eig M (INR n) = power M (INR n).
Proof.
  intros HA HE HD Hd. destruct (gpower_group arg eig M HA HE HD Hd) as (F & EF & G & F0 & F1). rewrite EF.
  rewrite INR_IZR_INZ. unfold power. rewrite py_int_IZR. rewrite (proj2 (eqb_true _ _)) by auto. cbn [negb]. destruct (Z.of_nat n <? 0)%Z eqn:Z; [apply Z.ltb_lt in Z; lia|]. f_equal. rewrite Nat2Z.id, <- INR_IZR_INZ.
  clear Z. induction n as [|n IH]; [cbn [INR matrix_power]; exact F0|]. rewrite S_INR, <- G, F1, IH. reflexivity.
Qed.

(** ** Other constructions *)
Lemma icc_included c1 c2 P Q : 0 < cr c1 -> 0 < cr c2 -> intersection_circle_circle c1 c2 = Ok (CCPoints (ITwo P Q)) ->
  circle_includes c1 P = true /\ circle_includes c2 P = true /\ circle_includes c1 Q = true /\ circle_includes c2 Q = true.
Proof.
  intros H1 H2 E. pose proof (icc_spec c1 c2 H1 H2) as S. rewrite E in S. destruct S as (_ & A & B & C & D & _). repeat split; apply inc_on; auto.
Qed.

Lemma ill_included l1 l2 st P : lA l1 <> lB l1 -> lA l2 <> lB l2 -> intersection_line_line l1 l2 st = Some P -> line_includes l1 P false true = Ok true /\ line_includes l2 P false true = Ok true.
Proof.
  intros H1 H2 E. destruct (intersection_line_line_sound l1 l2 st P H1 H2 E) as (A & B & _). split; apply linc_on; auto.
Qed.

Lemma icl_on_line c l P Q : lA l <> lB l -> 0 < cr c -> intersection_circle_line c l = Ok (ITwo P Q) -> line_includes l P false true = Ok true /\ line_includes l Q false true = Ok true.
Proof.
  intros H1 H2 E. pose proof (icl_spec c l H1 H2) as S. rewrite E in S. destruct S as (_ & A & B & _). split; apply linc_on; auto.
Qed.

Lemma perp_included l M eH eM l' : lA l <> lB l -> perpendicular l M eH eM = Ok l' -> line_includes l' M false true = Ok true /\ is_perpendicular l l' = true.
Proof.
  intros N E. destruct (perpendicular_full l M eH eM l' N E) as (A & B & C & _). split; [apply linc_on; auto|]. apply is_perpendicular_complete. unfold orthogonal, sdot in *. lra.
Qed.

Lemma ootp_accepted c a b : 0 < cr c -> ~ collinear (cO c) (circle_point_from_angle c a false) (circle_point_from_angle c b false) ->
  exists c', orthogonal_through_two_points_on_circle c a b false = Ok (OCircle c') /\ is_orthogonal c c' = true /\
    circle_includes c' (circle_point_from_angle c a false) = true /\ circle_includes c' (circle_point_from_angle c b false) = true.
Proof.
  intros Hr N. destruct (ootp_circle c a b Hr N) as (c' & E & Hr' & A & B & O). exists c'. split; [auto|]. split; [apply is_orthogonal_complete; auto|]. split; apply inc_on; auto.
Qed.

Lemma tri_accepted A B C : ~ collinear A B C ->
  (exists c, incircle (mkTri A B C) = Ok c /\ triangle_contains (mkTri A B C) (cO c) = true) /\
  (exists c, circumcircle (mkTri A B C) = Ok (Some c) /\ circle_includes c A = true /\ circle_includes c B = true /\ circle_includes c C = true) /\
  (allclose A B = false -> allclose A C = false -> allclose B C = false ->
   exists e, steiner_ellipse (mkTri A B C) = Ok (Some e) /\ ellipse_includes e A = true /\ ellipse_includes e B = true /\ ellipse_includes e C = true).
Proof.
  intros N. split; [|split].
  - destruct (incircle_spec A B C N) as (c & E & _ & I & _). exists c. split; [auto|]. apply (PTriangle.contains_spec (mkTri A B C)). auto.
  - destruct (circumcircle (mkTri A B C)) as [[c|]|x] eqn:E.
    + destruct (circumcircle_spec _ _ E) as (_ & Hr & H1 & H2 & H3 & _). cbn [tA tB tC] in *. exists c. split; [auto|]. repeat split; apply inc_on; auto.
    + exfalso. apply (circumcircle_none (mkTri A B C)) in E. tauto.
    + exfalso. destruct (ex1_circumcircle_ok A B C) as [K _]. unfold ex1_circumcircle in K. rewrite E in K. discriminate (K N).
  - intros H1 H2 H3. destruct (steiner_ellipse_spec A B C N H1 H2 H3) as (e & E & [Hb Ha] & _ & K1 & K2 & K3 & _). exists e. split; [auto|]. assert (0 < ea e) by lra. repeat split; apply einc_on; auto.
Qed.

Lemma boundary3_accepted eigh P1 P2 P3 e : (forall S, is_eigh S (eigh S)) -> from_boundary3 eigh P1 P2 P3 = Ok e -> Forall (fun P => ellipse_includes e P = true) [P1; P2; P3].
Proof.
  intros H E. destruct (boundary3_spec eigh P1 P2 P3 e H E) as (_ & [Hb Ha] & K). eapply Forall_impl; [|exact K]. intros P. apply einc_on; lra.
Qed.

Lemma point_accepted c alpha degrees : 0 < cr c -> circle_includes c (circle_point_from_angle c alpha degrees) = true.
Proof. intros Hr. apply inc_on; auto. apply (PCircle.point_from_angle_spec c Hr). Qed.

(** ** The data of the script *)
Lemma script_circle_line : ex1_circle_line (mkCircle (1, 1) 5) (mkLine (2, -2) (0, 4) true true) = Ok true.
Proof.
  set (c := mkCircle (1, 1) 5). set (l := mkLine (2, -2) (0, 4) true true). assert (N : lA l <> lB l) by (cbn; intros K; injection K; lra).
  destruct (projection_nearest l (cO c) N) as (P & EP & _ & _ & _ & _ & U). assert (Hr : 0 < cr c) by (cbn; lra).
  apply (proj1 (ex1_circle_line_ok c l P N Hr EP)).
  assert (P = (1, 1)) as ->.
  { destruct (projection_nearest l (cO c) N) as (P' & EP' & _ & _ & _ & L & _). rewrite EP in EP'. injection EP' as <-. symmetry.
    assert (O1 : on_line (lA l) (lB l) (1, 1)) by (exists (1 / 2); unfold at_line; cbn [l lA lB]; unpt; apply pair_eq; lra). apply U; auto. apply Rle_antisym; [|apply L; auto].
    cbn [c cO]. unfold dist, dist2, sdot. unpt. replace ((1 - 1) * (1 - 1) + (1 - 1) * (1 - 1)) with 0 by ring. rewrite sqrt_0. apply sqrt_pos. }
  unfold dist2, sdot. cbn. lra.
Qed.

Lemma script_ellipses : ex1_ellipses (mkEllipse (1, 1) 5 1 30 true) (mkEllipse (4, -1) 3 2 50 true) = Ok (Some (mkEllipse (4, -1) 3 2 50 true)).
Proof.
  destruct (ex1_ellipses_ok (mkEllipse (1, 1) 5 1 30 true) (mkEllipse (4, -1) 3 2 50 true)) as (e & E & _ & _ & _ & U); cbn [ea eb]; try lra. rewrite E. do 2 f_equal. apply U; auto. unfold normal_e. cbn. repeat split; lra.
Qed.

Lemma script_mobius fuel : let M := mkMob (1, 1) (0, 2) (2, 1) (1, 0) in mdet M <> C0 /\ gpower_domain M /\ ex1_mobius fuel M (mkCircle (0, 0) 3) 1 true = Some (Ok true).
Proof.
  intros M. assert (HD : mdet M <> C0). { unfold M, mdet. cbn [ma mb mc md]. unC. intros K. injection K. lra. } split; [auto|]. split.
  { left. unfold M, mdet, cabs, mod2_. cbn [ma mb mc md]. unC. apply Rle_trans with (sqrt (1 * 1)); [rewrite sqrt_square by lra; unfold sepsilon_; lra|]. apply sqrt_le_1_alt. unfold RtoC. cbn [fst snd]. lra. }
  apply (proj1 (ex1_mobius_ok fuel M (mkCircle (0, 0) 3) 1 true HD ltac:(cbn; lra))). intros p Hp On. cbn [cO cr] in On.
  assert (Hc : mc M <> C0) by (unfold M; cbn [mc]; unC; intros K; injection K; lra). apply transform_pole in Hp; auto. unfold M in Hp. cbn [mc md] in Hp.
  apply on_circle_sq in On; [|lra]. destruct p as [x y]. unfold dist2, sdot in On. unC. unpt. injection Hp as E1 E2.
  assert (y = 1 / 5) by lra. assert (x = - 2 / 5) by lra. subst. lra.
Qed.

Lemma refl_eval l P Q : allclose (lA l) (lB l) = false -> allclose (lA l) P = false -> allclose (lB l) P = false -> ~ on_line (lA l) (lB l) P ->
  mirror (lA l) (lB l) P Q -> allclose (midpoint P Q) P = false -> line_reflection l P = Ok Q.
Proof.
  intros N H1 H2 H3 M H4. pose proof M as [M1 M2]. unfold line_reflection, Reflection_init. destruct (Line_init_cases (lA l) (lB l) true true) as [[_ ->]|[K _]]; [|congruence]. cbn [bind].
  set (l' := mkLine (lA l) (lB l) true true). assert (O : orthogonal (vsub P (midpoint P Q)) (vsub (lB l') (lA l'))).
  { cbn [l' lA lB]. unfold orthogonal, sdot, midpoint in *. destruct P, Q, (lA l), (lB l). unpt. lra. }
  destruct (proj2 (reflection_exact l' P (midpoint P Q) N M1 O) H1 H2 H3) as [_ K]. destruct (K H4) as (Q' & E & M'). rewrite E. f_equal. apply (mirror_unique (lA l) (lB l) P Q' Q); auto. apply allclose_false_neq; auto.
Qed.

Lemma script_rest : ex1_circumcircle (0, 0) (1, 0) (2, 1) = Ok true /\ ex1_projection (mkLine (0, 0) (2, 2) true true) (-1, 5) = Ok true /\
  line_reflection (mkLine (0, 0) (2, 2) true true) (-1, 5) = Ok (5, -1) /\ ex1_reflection (mkLine (0, 0) (2, 2) true true) (-1, 5) = Ok (0, 0).
Proof.
  assert (F : forall P Q, Rabs (fst P - fst Q) > / 100000000 + / 100000 * Rabs (fst Q) -> allclose P Q = false).
  { intros P Q H. unfold allclose, allclose1. rewrite (proj2 (leb_false _ _)) by lra; auto. }
  assert (R1 : line_reflection (mkLine (0, 0) (2, 2) true true) (-1, 5) = Ok (5, -1)).
  { apply refl_eval; cbn [lA lB]; try (apply F; unfold midpoint; cbn [fst snd]; unfold Rabs; repeat destruct Rcase_abs; lra).
    - intros [t E]. unfold at_line in E. unpt. injection E. lra.
    - split; [exists 1; unfold at_line, midpoint; unpt; apply pair_eq; lra|unfold orthogonal, sdot; unpt; ring]. }
  assert (R2 : line_reflection (mkLine (0, 0) (2, 2) true true) (5, -1) = Ok (-1, 5)).
  { apply refl_eval; cbn [lA lB]; try (apply F; unfold midpoint; cbn [fst snd]; unfold Rabs; repeat destruct Rcase_abs; lra).
    - intros [t E]. unfold at_line in E. unpt. injection E. lra.
    - split; [exists 1; unfold at_line, midpoint; unpt; apply pair_eq; lra|unfold orthogonal, sdot; unpt; ring]. }
  split; [|split; [|split]].
  - apply ex1_circumcircle_ok. intros (P & v & a & b & c & E1 & E2 & E3). destruct P as [p q], v as [u w]. unpt. injection E1 as A1 A2. injection E2 as B1 B2. injection E3 as C1 C2.
    assert (K1 : (b - a) * w = 0) by lra. assert (K2 : (b - a) * u = 1) by lra. apply Rmult_integral in K1. destruct K1 as [K1|K1]; [rewrite K1 in K2; lra|]. rewrite K1 in A2, C2. lra.
  - apply ex1_projection_ok. cbn. intros K. injection K. lra.
  - exact R1.
  - unfold ex1_reflection. rewrite R1. cbn [bind]. rewrite R2. cbn [bind]. f_equal. unpt. apply pair_eq; lra.
Qed.

Lemma script_ellipse_line : ex1_ellipse_line (mkEllipse (1, 1) 5 1 30 true) (mkLine (2, -2) (0, 4) true true) = Ok true.
Proof.
  set (e := mkEllipse (1, 1) 5 1 30 true). set (l := mkLine (2, -2) (0, 4) true true). assert (Ha : 0 < ea e) by (cbn; lra). assert (Hb : 0 < eb e) by (cbn; lra).
  apply (proj1 (proj1 (ex1_ellipse_line_ok e l Ha Hb))). pose proof (iel_which e l Ha Hb) as W. cbv zeta in W. destruct W as [_ W].
  set (th := ell_th e) in *. assert (T : th = PI / 6) by (unfold th, ell_th, e, radians, deg; cbn [edeg ealpha]; field). clearbody th.
  cbn [e l lA lB ea eb eO] in W. unfold fx, fy in W. unpt. rewrite T, cos_PI6, sin_PI6 in W.
  set (s := sqrt 3) in *. assert (S1 : s * s = 3) by (apply sqrt_sqrt; lra). assert (S0 : 0 < s) by (apply sqrt_lt_R0; lra). clearbody s.
  apply W; clear W.
  - unfold allclose, allclose1. rewrite andb_comm. cbn [fst snd]. rewrite (proj2 (leb_false _ _)); [auto|]. rewrite Rabs_right by lra. rewrite Rabs_left by lra. lra.
  - unfold dist2, sdot, scross. unpt. nra.
Qed.
