(** * Schottky.py: the starting circles, the whole picture. *)

From Coq Require Import Reals Lra Lia Psatz List Bool ZArith.
From Verif Require Import Base BaseLemmas Spec SpecLemmas SpecMobius SpecTriangle SpecGasket SpecApollonian ModelInternal ModelLine ModelCircle ModelTriangle ModelInversion ModelMobius ModelModular ModelSchottky SpecSchottky
  PLine PCircle PMobius PMobius2 PMobius3 PMobius4 PMobius5 PSteiner PInversion PDisc PModular1 PModular3 PSchottky1 PSchottky2 PSchottky3 PSchottky4 PMalApo1 PGasket11.
Import ListNotations.
Local Open Scope R_scope.

Lemma good_small theta : -1 / 2 <= theta < 0 -> good_theta theta.
Proof.
  intros H. assert (S1 : sin theta < 0). { rewrite <- (Ropp_involutive theta), sin_neg. pose proof (sin_gt_0 (- theta) ltac:(lra) ltac:(pose proof PI_RGT_0; pose proof PI2_1; lra)). lra. }
  assert (S2 : theta < sin theta). { rewrite <- (Ropp_involutive theta) at 2. rewrite sin_neg. pose proof (sin_lt_x (- theta) ltac:(lra)). lra. }
  assert (S3 : theta / 2 < sin (theta / 2) < 0).
  { replace (sin (theta / 2)) with (- sin (- (theta / 2))) by (rewrite sin_neg; ring). pose proof (sin_lt_x (- (theta / 2)) ltac:(lra)). pose proof (sin_gt_0 (- (theta / 2)) ltac:(lra) ltac:(pose proof PI_RGT_0; pose proof PI2_1; lra)). lra. }
  assert (C : cos theta = 1 - 2 * sin (theta / 2) * sin (theta / 2)) by (rewrite <- cos_2a_sin; f_equal; field).
  split; [lra|]. split; [lra|]. rewrite C. nra.
Qed.

Section Good.
Variable theta : R.
Hypothesis HG : good_theta theta.
Notation r := (rb theta).
Notation p := (ob theta).

Lemma good_cos : 0 < cos theta /\ 0 < 1 + sin theta /\ - (49 / 100) < sin theta.
Proof using HG.
  destruct HG as (_ & H1 & H2). pose proof (sin2_cos2 theta) as E. unfold Rsqr in E. assert (C : 0 < cos theta) by lra. split; [auto|]. assert (- (49 / 100) < sin theta) by nra. split; lra.
Qed.
Lemma good_Hs : 0 < 1 + sin theta. Proof using HG. apply good_cos. Qed.
Lemma good_Hx : r <= fst p.
Proof using HG.
  destruct HG as (_ & _ & H). pose proof good_Hs as Hs. destruct sqrt2 as (_ & S3). unfold rb, ob. cbn [fst]. unfold Rdiv. apply Rmult_le_compat_r; [apply Rlt_le, Rinv_0_lt_compat; auto|]. nra.
Qed.
Lemma good_Hr : 1 <= r <= 3.
Proof using HG.
  destruct HG as (_ & H1 & _). pose proof good_cos as (_ & Hs & H2). destruct sqrt2 as (S2 & S3). assert (S4 : 1.4142 < sqrt 2) by nra. unfold rb. split.
  - apply (Rmult_le_reg_r (1 + sin theta)); [auto|]. replace (sqrt 2 / 4 * (3 - sin theta) / (1 + sin theta) * (1 + sin theta)) with (sqrt 2 / 4 * (3 - sin theta)) by (field; lra). nra.
  - apply (Rmult_le_reg_r (1 + sin theta)); [auto|]. replace (sqrt 2 / 4 * (3 - sin theta) / (1 + sin theta) * (1 + sin theta)) with (sqrt 2 / 4 * (3 - sin theta)) by (field; lra). nra.
Qed.

Lemma starting_eq : starting theta = Ok (mkSch (mkLine (-1, 0) (1, 0) true true) (mkCircle oA rA) (mkCircle p r) (mkCircle (oB theta) r) (gmat theta La) (gmat theta Lb) (gmat theta LA) (gmat theta LB)).
Proof using HG.
  destruct HG as (N & _ & _). pose proof good_cos as (Hc & Hs & _). destruct sqrt2 as (S2 & S3). pose proof (sin2_cos2 theta) as E. unfold Rsqr in E. pose proof (rb_pos theta Hs) as Pr.
  assert (Ht : tan theta <> 0). { unfold tan, Rdiv. apply Rmult_integral_contrapositive_currified; [auto|]. apply Rinv_neq_0_compat. lra. }
  assert (B : -1 <= sin theta <= 1) by apply SIN_bound.
  assert (EP : distance_ (sqrt 2 / 4 * cos theta, -3 * sqrt 2 / 4 + sqrt 2 / 4 * sin theta) (sqrt 2 / 4 * cos theta + (-3 * sqrt 2 / 4 + sqrt 2 / 4 * sin theta) * tan theta, 0) = sqrt 2 / 4 * (3 - sin theta) / cos theta).
  { rewrite distance_dist. unfold dist. rewrite <- (sqrt_square (sqrt 2 / 4 * (3 - sin theta) / cos theta)).
    2: { apply Rmult_le_pos; [nra|apply Rlt_le, Rinv_0_lt_compat; auto]. }
    f_equal. unspec. unfold tan. set (q := sqrt 2) in *. set (s := sin theta) in *. set (c := cos theta) in *. clearbody q s c. clear - Hc E. assert (E' : s * s = 1 - c * c) by lra. field_simplify_eq; [|lra]. clear - E'. ring [E'].  }
  assert (EX : sqrt 2 / 4 * cos theta + (-3 * sqrt 2 / 4 + sqrt 2 / 4 * sin theta) * tan theta + sqrt 2 / 4 * (3 - sin theta) / cos theta = fst p).
  { unfold ob, tan. cbn [fst]. apply (Rmult_eq_reg_r (cos theta * (1 + sin theta))); [|nra]. set (q := sqrt 2) in *. set (s := sin theta) in *. set (c := cos theta) in *. clearbody q s c. assert (E' : s * s = 1 - c * c) by lra. field_simplify; [|lra|lra]. clear - E'. field [E']. }
  assert (EQ : Rabs (-3 * sqrt 2 / 4 * Rabs (fst p - - (-3 * sqrt 2 / 4) / tan theta) / (- (-3 * sqrt 2 / 4) / tan theta)) = r).
  { set (X := - (-3 * sqrt 2 / 4) / tan theta). assert (HX : X <> 0). { unfold X, Rdiv. apply Rmult_integral_contrapositive_currified; [lra|]. apply Rinv_neq_0_compat. auto. }
    unfold Rdiv. rewrite !Rabs_mult, Rabs_Rabsolu, <- !Rabs_mult. 
    replace (-3 * sqrt 2 * / 4 * (fst p - X) * / X) with (-3 * sqrt 2 / 4 * (fst p / X - 1)) by (field; auto).
    replace (-3 * sqrt 2 / 4 * (fst p / X - 1)) with r; [apply Rabs_right; lra|]. unfold X, rb, ob, tan. cbn [fst]. field. repeat split; lra. }
  unfold starting. replace (Line_init (-1, 0) (1, 0) true true) with (Ok (mkLine (-1, 0) (1, 0) true true)) by (unfold Line_init; rewrite (PGasket11.allclose_far _ _ 1 1); [reflexivity|cbn [fst]; rewrite Rabs_right; lra|cbn [snd]; rewrite Rabs_right; lra|unspec; lra|lra|lra]). rewrite (Circle_init_pos (0, -3 * sqrt 2 / 4)) by lra. cbn [bind fst snd]. rewrite EP, EX. unfold py_div. destruct (Req_EM_T (tan theta) 0) as [K|_]; [contradiction|]. cbn [bind]. rewrite np_div_nz.
  2: { unfold Rdiv. apply Rmult_integral_contrapositive_currified; [lra|]. apply Rinv_neq_0_compat. auto. }
  cbn [bind]. rewrite EQ, !Circle_init_pos by auto. cbn [bind cO cr].
  assert (EB : mkMob (complex_ (fst p, - r)) (RtoC (dot_ (fst p, - r) (fst p, - r) - r * r)) C1 (- complex_ ((- fst p)%R, (- r)%R))%C = gmat theta Lb).
  { cbn [gmat]. unfold oB. rewrite (surjective_pairing p), snd_ob. cbn [fst snd]. generalize (fst p) r. intros a b. unfold complex_, dot_. cbn [fst snd]. f_equal; unC; f_equal; ring. }
  rewrite EB. reflexivity.
Qed.

(** ** the picture *)
Lemma start_M x : Mobs (mkSch (mkLine (-1, 0) (1, 0) true true) (mkCircle oA rA) (mkCircle p r) (mkCircle (oB theta) r) (gmat theta La) (gmat theta Lb) (gmat theta LA) (gmat theta LB)) x = gmat theta x.
Proof using. destruct x; reflexivity. Qed.
Lemma start_C x : Circles (mkSch (mkLine (-1, 0) (1, 0) true true) (mkCircle oA rA) (mkCircle p r) (mkCircle (oB theta) r) (gmat theta La) (gmat theta Lb) (gmat theta LA) (gmat theta LB)) x = gobj theta x.
Proof using. destruct x; reflexivity. Qed.

Lemma in_turn_app {A} (l1 l2 : list (option (res A))) a b : in_turn l1 = Some (Ok a) -> in_turn l2 = Some (Ok b) -> in_turn (l1 ++ l2) = Some (Ok (a ++ b)).
Proof using.
  revert a. induction l1 as [|o l1 IH]; intros a H1 H2; cbn [app in_turn] in *; [injection H1 as <-; exact H2|]. destruct o as [[x|e]|]; try discriminate. destruct (in_turn l1) as [[a1|e]|] eqn:E; try discriminate. injection H1 as <-. rewrite (IH a1 eq_refl H2). reflexivity.
Qed.
Lemma in_turn_raise {A} (l1 l2 : list (option (res A))) a e : in_turn l1 = Some (Ok a) -> in_turn (l1 ++ Some (Raise e) :: l2) = Some (Raise e).
Proof using.
  revert a. induction l1 as [|o l1 IH]; intros a H1; cbn [app in_turn] in *; [reflexivity|]. destruct o as [[x|e']|]; try discriminate. destruct (in_turn l1) as [[a1|e']|] eqn:E; try discriminate. rewrite (IH a1 eq_refl). reflexivity.
Qed.

Lemma drawn_ge2 w : reduced w -> (2 <= length w)%nat -> (2 <= length (drawn_word w))%nat.
Proof using.
  intros R L. destruct w as [|x w]; [cbn in L; lia|]. destruct w as [|y w] using rev_ind; [cbn in L; lia|]. clear IHw. rewrite drawn_snoc, app_length, rev_length. cbn [length]. destruct w as [|z w].
  - destruct R as (N & _). destruct (letter_eqb y (linv x)) eqn:E; [apply letter_eqb_spec in E; contradiction|cbn; lia].
  - cbn [length]. lia.
Qed.

Definition words2 : list (list letter) := map (fun x => [fst x; snd x]) twelve.
Lemma words2_all : all_words 2 words2.
Proof using.
  split.
  - unfold words2, twelve. cbn [map fst snd]. repeat (constructor; [cbn [In]; intros K; repeat (destruct K as [K|K]; [discriminate K|]); exact K|]). constructor.
  - intros w. split.
    + unfold words2, twelve. cbn [map fst snd In]. intros K. repeat (destruct K as [K|K]; [subst w; split; [reflexivity|cbn; repeat split; discriminate]|]). destruct K.
    + intros (L & R). destruct w as [|x [|y [|z w]]]; cbn in L; try discriminate. destruct R as (N & _). unfold words2, twelve. cbn [map fst snd In]. destruct x, y; cbn [linv] in N; try congruence; repeat (first [left; reflexivity|right]).
Qed.

Lemma twelve_ok fuel : exists cs, in_turn (map (fun x => the_drawn (transform_gc fuel (gmat theta (fst x)) (gobj theta (snd x)))) twelve) = Some (Ok cs) /\ Forall2 (bounds theta) words2 cs.
Proof using HG.
  destruct (in_turn_rel (fun x c => bounds theta [fst x; snd x] c) (fun x => the_drawn (transform_gc fuel (gmat theta (fst x)) (gobj theta (snd x)))) twelve) as (cs & E & F).
  - intros (x, y) I. cbn [fst snd]. assert (N : y <> linv x). { assert (K : In [x; y] words2) by (apply in_map_iff; exists (x, y); auto). apply (proj2 words2_all) in K. destruct K as (_ & K & _). exact K. }
    destruct (two_image theta good_Hs good_Hx good_Hr fuel x y N) as (c & E & B). exists c. rewrite E. split; [reflexivity|apply bd_bounds; auto].
  - exists cs. split; [exact E|]. unfold words2. clear E. induction F; cbn [map]; constructor; auto.
Qed.

Definition starters : list circle := [mkCircle oA rA; mkCircle p r; mkCircle (oB theta) r].
Lemma starters_ok : Forall2 (bounds theta) [[LA]; [Lb]; [LB]] starters.
Proof using HG.
  pose proof good_Hs as Hs. pose proof (rb_pos theta Hs). pose proof rA_pos. repeat constructor; cbn [cr]; auto; intros Q; cbn [region letter_disc cO cr]; split; intros (z & -> & Z); exists z; (split; [auto|exact Z]).
Qed.

Lemma picture_ok fuel n : (2 <= n)%nat -> exists c1 w2 c2 ws cs, schottky_picture fuel theta n = Some (Ok (c1 ++ c2 ++ cs)) /\
  Forall2 (bounds theta) [[LA]; [Lb]; [LB]] c1 /\ all_words 2 w2 /\ Forall2 (bounds theta) w2 c2 /\
  all_words n ws /\ length ws = (4 * 3 ^ (n - 1))%nat /\ Forall2 (fun w c => bounds theta (drawn_word w) c) ws cs.
Proof using HG.
  intros Hn. destruct (Gn_words n ltac:(lia)) as (l & EG & ND & W & LL). unfold schottky_picture. rewrite EG, starting_eq.
  destruct (twelve_ok fuel) as (c2 & E2 & F2).
  destruct (in_turn_rel (fun w c => bounds theta (drawn_word (transfo2seq w)) c) (fun w => the_drawn (schottky_circle fuel (mkSch (mkLine (-1, 0) (1, 0) true true) (mkCircle oA rA) (mkCircle p r) (mkCircle (oB theta) r) (gmat theta La) (gmat theta Lb) (gmat theta LA) (gmat theta LB)) n w)) l) as (cs & E3 & F3).
  { intros w I. assert (K : In (transfo2seq w) (map transfo2seq l)) by (apply in_map; auto). apply W in K. destruct K as (L & R).
    destruct (word_image theta good_Hs good_Hx good_Hr fuel _ n w Hn start_M start_C L R (drawn_ge2 _ R ltac:(lia))) as (c & E & B). exists c. rewrite E. split; [reflexivity|apply bd_bounds; auto]. }
  exists starters, words2, c2, (map transfo2seq l), cs.
  rewrite (map_ext _ (fun x => the_drawn (transform_gc fuel (gmat theta (fst x)) (gobj theta (snd x))))) by (intros x; rewrite start_M, start_C; reflexivity).
  rewrite (in_turn_app _ _ _ _ E2 E3). split; [reflexivity|]. split; [exact starters_ok|]. split; [exact words2_all|]. split; [exact F2|]. split; [split; [exact ND|exact W]|]. split; [rewrite map_length; exact LL|]. clear - F3. induction F3; cbn [map]; constructor; auto.
Qed.

Lemma picture_small fuel n : (n <= 1)%nat -> schottky_picture fuel theta n = Some (Raise TypeError).
Proof using HG.
  intros Hn. destruct n as [|[|n]]; [reflexivity| |lia]. destruct (Gn_words 1 ltac:(lia)) as (l & EG & ND & W & LL). unfold schottky_picture. rewrite EG, starting_eq. destruct (twelve_ok fuel) as (c2 & E2 & F2).
  rewrite (map_ext _ (fun x => the_drawn (transform_gc fuel (gmat theta (fst x)) (gobj theta (snd x))))) by (intros x; rewrite start_M, start_C; reflexivity).
  destruct l as [|w l]; [cbn in LL; lia|]. cbn [map]. unfold schottky_circle at 1. cbn [Nat.sub firstn reduce the_drawn]. rewrite (in_turn_raise _ _ _ _ E2). reflexivity.
Qed.

(** ** pairs of regions *)
Lemma bounds_ne w c : bounds theta w c -> w <> [].
Proof using. intros (H & B) ->. assert (K : region theta [] (Pt (cO c))); [|exact K]. apply B. exists (cO c). split; [auto|]. apply opn_dist; [auto|apply centre_opn; auto]. Qed.
Lemma bounds_opn w c : bounds theta w c -> forall z, region theta w (Pt z) <-> opn c z.
Proof using. intros (H & B) z. rewrite B. rewrite opn_dist by auto. split; [intros (z' & E & K); injection E as <-; exact K|intros K; exists z; auto]. Qed.
Lemma bounds_unique w c c' : bounds theta w c -> bounds theta w c' -> c = c'.
Proof using. intros B B'. apply disc_ext; [apply B|apply B'|]. intros z. rewrite <- (bounds_opn _ _ B), <- (bounds_opn _ _ B'). reflexivity. Qed.
Lemma bounds_same w w' c : reduced w -> reduced w' -> bounds theta w c -> bounds theta w' c -> w = w'.
Proof using HG.
  intros R R' B B'. pose proof good_Hs as Hs. pose proof good_Hx as Hx. apply (region_inj theta Hs Hx); auto; try (eapply bounds_ne; eauto; fail). intros Q. rewrite (proj2 B Q), (proj2 B' Q). reflexivity.
Qed.
Lemma bounds_prefix w t c c' : reduced (w ++ t) -> bounds theta w c -> bounds theta (w ++ t) c' -> disc_in c' c.
Proof using HG.
  intros R B B'. unfold disc_in. rewrite dist_sym. apply opn_incl; [apply B|apply B'|]. intros z Z. apply (bounds_opn _ _ B). apply (region_prefix theta good_Hs good_Hx w t); auto; [eapply bounds_ne; eauto|]. apply (bounds_opn _ _ B'). auto.
Qed.
Lemma bounds_apart w w' c c' : reduced w -> reduced w' -> (forall t, w' <> w ++ t) -> (forall t, w <> w' ++ t) -> bounds theta w c -> bounds theta w' c' -> not_overlapping c c'.
Proof using HG.
  intros R R' N N' B B'. apply opn_disjoint; [apply B|apply B'|]. intros z Z Z'. apply (region_disjoint theta good_Hs good_Hx w w' (Pt z)); auto; [apply (bounds_opn _ _ B); auto|]. apply region_in_cl; [apply good_Hs|]. apply (bounds_opn _ _ B'). auto.
Qed.
Lemma bounds_pair w w' c c' : reduced w -> reduced w' -> bounds theta w c -> bounds theta w' c' -> c = c' \/ not_overlapping c c' \/ disc_in c c' \/ disc_in c' c.
Proof using HG.
  intros R R' B B'. destruct (prefix_dec w w') as [(t & E)|N].
  - right; right; right. subst w'. apply (bounds_prefix w t); auto.
  - destruct (prefix_dec w' w) as [(t & E)|N']; [right; right; left; subst w; apply (bounds_prefix w' t); auto|]. right; left. apply (bounds_apart w w'); auto.
Qed.
Lemma level_ok w : reduced w -> (2 <= length w)%nat -> exists c, bounds theta w c /\ forall c', bounds theta w c' -> c' = c.
Proof using HG. intros R L. destruct (word_disc theta good_Hs good_Hx w L R) as (c & B). apply bd_bounds in B. exists c. split; [auto|]. intros c' B'. apply (bounds_unique w); auto. Qed.

(** ** neighbours *)
Lemma adjacent_point x y : adjacent x y -> exists P, hform theta x P <= 0 /\ hform theta y P <= 0.
Proof using HG.
  pose proof good_Hs as Hs. pose proof (rb_pos theta Hs) as Pr. pose proof rA_pos as PA.
  assert (K : forall y, y = Lb \/ y = LB -> (exists P, himag P <= 0 /\ hform theta y P <= 0) /\ exists P, hdisc oA rA P <= 0 /\ hform theta y P <= 0).
  { assert (K2 : forall O, dist2 oA O = (rA + r) * (rA + r) -> exists P, hdisc oA rA P <= 0 /\ hdisc O r P <= 0).
    { intros O E. set (t := rA / (rA + r)). exists (Pt (at_line oA O t)). rewrite !hdisc_pt.
      replace (dist2 oA (at_line oA O t)) with (t * t * dist2 oA O) by (destruct oA, O; unspec; ring). replace (dist2 O (at_line oA O t)) with ((1 - t) * (1 - t) * dist2 oA O) by (destruct oA, O; unspec; ring). rewrite E. unfold t. clear E t. generalize dependent r. intros v Pv. split; right; field; lra. }
    intros z [->| ->]; cbn [hform]; split.
    - exists (Pt (fst p, 0)). rewrite himag_pt, hdisc_pt, (surjective_pairing p), snd_ob. unspec. split; lra.
    - apply K2, oA_ob; auto.
    - exists (Pt (- fst p, 0)). rewrite himag_pt, hdisc_pt. unfold oB. rewrite snd_ob. unspec. split; lra.
    - apply K2, oA_oB; auto. }
  intros (N1 & N2). destruct x, y; cbn [linv] in *; try congruence; cbn [hform].
  all: try (apply (proj1 (K Lb ltac:(auto)))); try (apply (proj1 (K LB ltac:(auto)))); try (apply (proj2 (K Lb ltac:(auto)))); try (apply (proj2 (K LB ltac:(auto)))).
  - destruct (proj1 (K Lb ltac:(auto))) as (P & A & B); exists P; auto.
  - destruct (proj2 (K Lb ltac:(auto))) as (P & A & B); exists P; auto.
  - destruct (proj1 (K LB ltac:(auto))) as (P & A & B); exists P; auto.
  - destruct (proj2 (K LB ltac:(auto))) as (P & A & B); exists P; auto.
Qed.
Lemma rcl_point w x y : (exists P, hform theta x P <= 0 /\ hform theta y P <= 0) -> exists Q, region_cl theta (w ++ [x]) Q /\ region_cl theta (w ++ [y]) Q.
Proof using HG.
  induction w as [|z w IH]; cbn [app]; [auto|]. intros H. destruct (IH H) as (P & A & B). destruct (gen_map_total theta good_Hs z P) as (Q & E). exists Q. destruct (w ++ [x]) as [|a l] eqn:E1; [destruct w; discriminate|]. destruct (w ++ [y]) as [|b l'] eqn:E2; [destruct w; discriminate|]. rewrite !region_cl_cons. split; exists P; auto.
Qed.
Lemma neighbours_touch w x y c c' : w <> [] -> adjacent x y -> reduced (w ++ [x]) -> reduced (w ++ [y]) -> bounds theta (w ++ [x]) c -> bounds theta (w ++ [y]) c' -> dist (cO c) (cO c') = cr c + cr c'.
Proof using HG.
  intros Hw A R R' B B'. assert (Lw : (2 <= length w + 1)%nat) by (destruct w; [contradiction|cbn; lia]).
  destruct (word_disc theta good_Hs good_Hx (w ++ [x]) ltac:(rewrite app_length; exact Lw) R) as (c0 & D). destruct (word_disc theta good_Hs good_Hx (w ++ [y]) ltac:(rewrite app_length; exact Lw) R') as (c0' & D').
  rewrite (bounds_unique _ _ _ B (bd_bounds _ _ _ D)), (bounds_unique _ _ _ B' (bd_bounds _ _ _ D')). destruct (rcl_point w x y (adjacent_point x y A)) as (Q & Q1 & Q2).
  apply D in Q1. destruct Q1 as (z & -> & Z1). apply D' in Q2. destruct Q2 as (z' & E & Z2). injection E as <-. pose proof (cls_common c0 c0' z (proj1 D) (proj1 D') Z1 Z2) as L.
  assert (N : not_overlapping c0 c0').
  { apply (bounds_apart (w ++ [x]) (w ++ [y])); auto; try (apply bd_bounds; auto); intros t K; destruct A as (N & _).
    - rewrite <- app_assoc in K. apply app_inv_head in K. cbn [app] in K. injection K as K _. congruence.
    - rewrite <- app_assoc in K. apply app_inv_head in K. cbn [app] in K. injection K as K _. congruence. }
  unfold not_overlapping in N. lra.
Qed.

(** ** which circles are drawn *)
Lemma reduced_last v z y : reduced (v ++ [z; y]) -> y <> linv z.
Proof using. induction v as [|x v IH]; cbn [app]; intros R; [apply R|]. apply IH, R. Qed.
Lemma drawn_inj w w' : length w = length w' -> (2 <= length w)%nat -> drawn_word w = drawn_word w' -> w = w'.
Proof using.
  intros L L2. destruct w as [|x w]; [cbn in L2; lia|]. destruct w' as [|x' w']; [discriminate|]. destruct w as [|y w] using rev_ind; [cbn in L2; lia|]. clear IHw. destruct w' as [|y' w'] using rev_ind; [cbn in *; rewrite app_length in L; cbn in L; lia|]. clear IHw'.
  cbn [length] in L. rewrite !app_length in L. cbn [length] in L. rewrite !drawn_snoc. destruct (letter_eqb y (linv x)) eqn:E, (letter_eqb y' (linv x')) eqn:E'; intros K.
  - rewrite !app_nil_r in K. apply (f_equal (@rev letter)) in K. rewrite !rev_involutive in K. injection K as -> ->. apply letter_eqb_spec in E. apply letter_eqb_spec in E'. congruence.
  - apply (f_equal (@length letter)) in K. rewrite !app_length, !rev_length in K. cbn [length] in K. lia.
  - apply (f_equal (@length letter)) in K. rewrite !app_length, !rev_length in K. cbn [length] in K. lia.
  - apply app_inj_tail in K. destruct K as (K & ->). apply (f_equal (@rev letter)) in K. rewrite !rev_involutive in K. injection K as -> ->. reflexivity.
Qed.
Lemma drawn_iff n t : (2 <= n)%nat -> reduced t -> (3 <= length t)%nat ->
  ((exists w, length w = n /\ reduced w /\ drawn_word w = t) <-> (length t = n /\ last t La <> linv (hd La t)) \/ (length t = n - 1 /\ last t La <> hd La t)%nat).
Proof using.
  intros Hn R L. split.
  - intros (w & Lw & Rw & E). destruct w as [|x w]; [cbn in Lw; lia|]. destruct w as [|y w] using rev_ind; [cbn in Lw; lia|]. clear IHw. cbn [length] in Lw. rewrite app_length in Lw. cbn [length] in Lw. rewrite drawn_snoc in E.
    destruct w as [|z w] using rev_ind; [exfalso; rewrite <- E in L; destruct (letter_eqb y (linv x)); cbn in L; lia|]. clear IHw.
    assert (N : y <> linv z). { apply (reduced_last (x :: w)). cbn [app]. rewrite <- app_assoc in Rw. exact Rw. }
    rewrite app_length in Lw. cbn [length] in Lw. cbn [rev] in E. rewrite rev_app_distr in E. cbn [rev app] in E. destruct (letter_eqb y (linv x)) eqn:K.
    + right. rewrite app_nil_r in E. apply letter_eqb_spec in K. subst t y. cbn [hd length]. rewrite app_length, rev_length. cbn [length]. split; [lia|]. change (z :: rev w ++ [x]) with ((z :: rev w) ++ [x]). rewrite last_last. intros K. apply N. congruence.
    + left. subst t. cbn [hd length]. rewrite !app_length, rev_length. cbn [length]. split; [lia|]. change (z :: (rev w ++ [x]) ++ [y]) with ((z :: rev w ++ [x]) ++ [y]). rewrite last_last. exact N.
  - destruct t as [|h t]; [cbn in L; lia|]. destruct t as [|y t] using rev_ind; [cbn in L; lia|]. clear IHt. cbn [hd length] in *. rewrite app_length in *. cbn [length] in *. change (h :: t ++ [y]) with ((h :: t) ++ [y]) at 1 2. rewrite last_last. intros [(E & N)|(E & N)].
    + destruct t as [|x t] using rev_ind; [cbn in L; lia|]. clear IHt. rewrite app_length in *. cbn [length] in *. exists (x :: (rev t ++ [h]) ++ [y]). cbn [length]. rewrite !app_length, rev_length. cbn [length]. split; [lia|]. 
      assert (Rv : reduced (rev (h :: t ++ [x]))) by (apply reduced_rev, (reduced_app_l _ [y]); exact R). cbn [rev] in Rv. rewrite rev_app_distr in Rv. cbn [rev app] in Rv. split.
      * rewrite <- app_assoc. cbn [app]. apply (reduced_snoc2 (x :: rev t)); [exact Rv|exact N].
      * rewrite drawn_snoc. assert (K : y <> linv x) by (apply (reduced_last (h :: t)); cbn [app]; rewrite <- app_assoc in R; exact R). destruct (letter_eqb y (linv x)) eqn:K'; [apply letter_eqb_spec in K'; contradiction|]. cbn [rev]. rewrite rev_app_distr. cbn [rev app]. rewrite rev_involutive. reflexivity.
    + exists (y :: (rev t ++ [h]) ++ [linv y]). cbn [length]. rewrite !app_length, rev_length. cbn [length]. split; [lia|]. assert (Rv : reduced (rev (h :: t ++ [y]))) by (apply reduced_rev; exact R). cbn [rev] in Rv. rewrite rev_app_distr in Rv. cbn [rev app] in Rv. split.
      * rewrite <- app_assoc. cbn [app]. apply (reduced_snoc2 (y :: rev t)); [exact Rv|]. intros K. apply N. rewrite <- (linv_linv y), K, linv_linv. reflexivity.
      * rewrite drawn_snoc. assert (K : letter_eqb (linv y) (linv y) = true) by (apply letter_eqb_spec; reflexivity). rewrite K, app_nil_r. cbn [rev]. rewrite rev_app_distr. cbn [rev app]. rewrite rev_involutive. reflexivity.
Qed.

Lemma F2_NoDup {A B} (P : A -> B -> Prop) l l' : Forall2 P l l' -> NoDup l -> (forall x x' y, In x l -> In x' l -> P x y -> P x' y -> x = x') -> NoDup l'.
Proof using.
  induction 1 as [|x y l l' H F IH]; intros ND I; [constructor|]. apply NoDup_cons_iff in ND. destruct ND as (N & ND). constructor.
  - intros K. destruct (F2_In_r _ _ _ _ F K) as (x' & I' & K'). apply N. rewrite (I x x' y); auto; [left; auto|right; auto].
  - apply IH; auto. intros a a' b Ia Ia'. apply I; right; auto.
Qed.

Lemma picture_full fuel n : (2 <= n)%nat -> exists c1 w2 c2 ws cs, schottky_picture fuel theta n = Some (Ok (c1 ++ c2 ++ cs)) /\
  Forall2 (bounds theta) [[LA]; [Lb]; [LB]] c1 /\ all_words 2 w2 /\ Forall2 (bounds theta) w2 c2 /\
  all_words n ws /\ length cs = (4 * 3 ^ (n - 1))%nat /\ NoDup cs /\ Forall2 (fun w c => bounds theta (drawn_word w) c) ws cs.
Proof using HG.
  intros Hn. destruct (picture_ok fuel n Hn) as (c1 & w2 & c2 & ws & cs & E & F1 & A2 & F2 & A & L & F). exists c1, w2, c2, ws, cs. split; [exact E|]. split; [exact F1|]. split; [exact A2|]. split; [exact F2|]. split; [exact A|]. split; [rewrite <- L; clear - F; induction F; cbn [length]; auto|]. split; [|exact F].
  apply (F2_NoDup _ _ _ F (proj1 A)). intros w w' c I I' B B'. apply (proj2 A) in I. apply (proj2 A) in I'. destruct I as (L1 & R1), I' as (L2 & R2). apply drawn_inj; [congruence|lia|]. apply (bounds_same _ _ c); auto; apply drawn_reduced; auto.
Qed.

Lemma picture_words fuel n l c : (2 <= n)%nat -> schottky_picture fuel theta n = Some (Ok l) ->
  (In c l <-> exists t, reduced t /\ bounds theta t c /\ (In t [[LA]; [Lb]; [LB]] \/ length t = 2%nat \/ exists w, length w = n /\ reduced w /\ drawn_word w = t)).
Proof using HG.
  intros Hn E. destruct (picture_full fuel n Hn) as (c1 & w2 & c2 & ws & cs & E' & F1 & A2 & F2 & A & _ & _ & F). rewrite E in E'. injection E' as ->. rewrite !in_app_iff. split.
  - intros [I|[I|I]].
    + destruct (F2_In_r _ _ _ _ F1 I) as (t & It & B). exists t. split; [cbn [In] in It; destruct It as [<-|[<-|[<-|[]]]]; repeat split|]. split; auto.
    + destruct (F2_In_r _ _ _ _ F2 I) as (t & It & B). exists t. apply (proj2 A2) in It. destruct It as (Lt & Rt). split; auto.
    + destruct (F2_In_r _ _ _ _ F I) as (w & Iw & B). apply (proj2 A) in Iw. destruct Iw as (Lw & Rw). exists (drawn_word w). split; [apply drawn_reduced; auto|]. split; [auto|]. right; right. exists w. auto.
  - intros (t & R & B & [I|[I|I]]).
    + left. destruct (F2_In_l _ _ _ _ F1 I) as (c' & Ic & B'). rewrite (bounds_unique t c c'); auto.
    + right; left. destruct (F2_In_l _ _ _ t F2) as (c' & Ic & B'); [apply (proj2 A2); auto|]. rewrite (bounds_unique t c c'); auto.
    + right; right. destruct I as (w & Lw & Rw & <-). destruct (F2_In_l _ _ _ w F) as (c' & Ic & B'); [apply (proj2 A); auto|]. rewrite (bounds_unique _ c c' B B'). auto.
Qed.

Lemma picture_which fuel n l t c : (2 <= n)%nat -> schottky_picture fuel theta n = Some (Ok l) -> reduced t -> (3 <= length t)%nat -> bounds theta t c ->
  (In c l <-> (length t = n /\ last t La <> linv (hd La t)) \/ (length t = n - 1 /\ last t La <> hd La t)%nat).
Proof using HG.
  intros Hn E R L B. rewrite (picture_words fuel n l c Hn E), <- (drawn_iff n t Hn R L). split.
  - intros (t' & R' & B' & K). assert (t' = t) by (apply (bounds_same t' t c); auto). subst t'. destruct K as [K|[K|K]]; [|lia|auto]. cbn [In] in K. destruct K as [<-|[<-|[<-|[]]]]; cbn in L; lia.
  - intros K. exists t. auto.
Qed.

Lemma picture_pairs fuel n l c c' : (2 <= n)%nat -> schottky_picture fuel theta n = Some (Ok l) -> In c l -> In c' l -> c = c' \/ not_overlapping c c' \/ disc_in c c' \/ disc_in c' c.
Proof using HG.
  intros Hn E I I'. apply (picture_words fuel n l c Hn E) in I. apply (picture_words fuel n l c' Hn E) in I'. destruct I as (t & R & B & _), I' as (t' & R' & B' & _). apply (bounds_pair t t'); auto.
Qed.

(** ** the transformations *)
Lemma letter_closed_h x P : letter_closed theta x P <-> hform theta x P <= 0.
Proof using HG.
  pose proof (rb_pos theta good_Hs) as Pr. pose proof rA_pos as PA. destruct P as [z|]; cbn [letter_closed].
  - destruct x; cbn [hform]; [rewrite himag_pt; lra| | |]; rewrite hdisc_pt.
    + exact (iff_trans (iff_sym (cls_in_disk (mkCircle p r) z Pr)) (conj (fun H : cls _ _ => Rle_minus _ _ H) (fun H => Rminus_le _ _ H))).
    + exact (iff_trans (iff_sym (cls_in_disk (mkCircle oA rA) z PA)) (conj (fun H : cls _ _ => Rle_minus _ _ H) (fun H => Rminus_le _ _ H))).
    + exact (iff_trans (iff_sym (cls_in_disk (mkCircle (oB theta) r) z Pr)) (conj (fun H : cls _ _ => Rle_minus _ _ H) (fun H => Rminus_le _ _ H))).
  - destruct x; cbn [hform]; [rewrite himag_inf|rewrite hdisc_inf..]; split; intros K; try reflexivity; try discriminate; lra.
Qed.
Lemma pairing x P Q : gen_map theta x P Q -> (letter_disc theta x Q <-> ~ letter_closed theta (linv x) P).
Proof using HG.
  intros G. pose proof good_Hs as Hs. rewrite letter_closed_h, letter_disc_h by auto. destruct (gen_map_h theta Hs x P Q G) as (k & Hk & ->). split; intros K; [|nra]. intros K'. nra.
Qed.
Lemma starting_maps : exists s, starting theta = Ok s /\ lA (sCa s) = (-1, 0) /\ lB (sCa s) = (1, 0) /\
  sCA s = mkCircle (0, -3 * sqrt 2 / 4) (sqrt 2 / 4) /\ sCb s = mkCircle (ob theta) (rb theta) /\ sCB s = mkCircle (- fst (ob theta), snd (ob theta)) (rb theta) /\
  forall x P Q, transform (Mobs s x) P = Ok Q <-> gen_map theta x P Q.
Proof using HG.
  eexists. split; [exact starting_eq|]. cbn [sCa sCA sCb sCB lA lB]. repeat (split; [reflexivity|]). intros x P Q. rewrite start_M, gen_map_transform by apply good_Hs. reflexivity.
Qed.
Lemma starting_touch : snd p = - r /\ dist p (0, -3 * sqrt 2 / 4) = r + sqrt 2 / 4 /\ dist (- fst p, snd p) (0, -3 * sqrt 2 / 4) = r + sqrt 2 / 4 /\ r + r <= dist p (- fst p, snd p).
Proof using HG.
  pose proof good_Hs as Hs. pose proof good_Hx as Hx. pose proof (rb_pos theta Hs) as Pr. pose proof rA_pos as PA. split; [reflexivity|].
  assert (K : forall O, dist2 oA O = (rA + r) * (rA + r) -> dist O oA = r + rA). { intros O E. rewrite dist_sym. unfold dist. rewrite E, sqrt_square by lra. ring. }
  split; [exact (K _ (oA_ob theta Hs))|]. split; [exact (K _ (oA_oB theta Hs))|].
  unfold dist. rewrite <- (sqrt_square (r + r)) by lra. apply sqrt_le_1_alt. exact (ob_oB theta Hs Hx).
Qed.
End Good.

Lemma starting_zero theta : sin theta = 0 -> starting theta = Raise ZeroDivisionError.
Proof.
  intros E. unfold starting. replace (Line_init (-1, 0) (1, 0) true true) with (Ok (mkLine (-1, 0) (1, 0) true true)) by (unfold Line_init; rewrite (PGasket11.allclose_far _ _ 1 1); [reflexivity|cbn [fst]; rewrite Rabs_right; lra|cbn [snd]; rewrite Rabs_right; lra|unspec; lra|lra|lra]).
  destruct sqrt2 as (_ & S3). rewrite Circle_init_pos by lra. cbn [bind]. unfold py_div. destruct (Req_EM_T (tan theta) 0) as [K|K]; [reflexivity|]. exfalso. apply K. unfold tan. rewrite E. field. intros C. pose proof (sin2_cos2 theta) as Q. unfold Rsqr in Q. rewrite E, C in Q. lra.
Qed.

Lemma picture_zero theta : sin theta = 0 -> forall fuel n, (1 <= n)%nat -> schottky_picture fuel theta n = Some (Raise ZeroDivisionError).
Proof. intros H fuel n Hn. unfold schottky_picture. destruct (Gn_words n Hn) as (l & -> & _). rewrite starting_zero by auto. reflexivity. Qed.

Lemma F2_len {A B} (P : A -> B -> Prop) l l' : Forall2 P l l' -> length l = length l'.
Proof. induction 1; cbn [length]; auto. Qed.
Lemma all_words_2 w2 : all_words 2 w2 -> length w2 = 12%nat.
Proof.
  intros (N & A). assert (K : (length w2 <= length words2)%nat) by (apply NoDup_incl_length; [auto|]; intros w I; apply (proj2 words2_all), A, I).
  assert (K' : (length words2 <= length w2)%nat) by (apply NoDup_incl_length; [apply words2_all|]; intros w I; apply A, (proj2 words2_all), I). cbn in K, K'. lia.
Qed.
