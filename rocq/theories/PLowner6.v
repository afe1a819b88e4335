(** * The search for the smallest ellipse: five points of a circle, a rectangle, the other numpy. *)

From Coq Require Import Reals Lra Lia Psatz List Bool Permutation PeanoNat.
From Verif Require Import Base BaseLemmas Spec SpecLemmas SpecBoundary4 SpecLowner ModelInternal ModelLine ModelCircle ModelAffine ModelEllipse ModelBoundary4 ModelLowner
  PEllipse PEllipse4 PEllipse5 PEllipse6 PBoundary4b PBoundary4d PBoundary4e PLowner1 PLowner2 PLowner3 PLowner4 PLowner5.
Import ListNotations.
Local Open Scope R_scope.

(** five points of the circle of radius 1 and centre [O] *)
Definition penta (O : pt) : list pt :=
  [(fst O + 1, snd O); (fst O + 5 / 13, snd O + 12 / 13); (fst O - 4 / 5, snd O + 3 / 5);
   (fst O - 4 / 5, snd O - 3 / 5); (fst O + 5 / 13, snd O - 12 / 13)].

Lemma penta_nodup O : NoDup (penta O).
Proof. unfold penta. destruct O as [x y]. cbn [fst snd]. repeat constructor; cbn [In]; intros H; repeat (destruct H as [H|H]; [injection H; intros; lra|]); auto. Qed.

Lemma penta_quad O O' A B C : (forall X, In X (penta O) -> qf A B C (fst X - fst O') (snd X - snd O') <= 1) -> 0 < A -> 0 < A * C - B * B -> A + C <= 2.
Proof.
  intros H HA HD. destruct O as [x y], O' as [x' y']. unfold penta in H. cbn [In fst snd] in H.
  pose proof (H _ (or_introl eq_refl)) as H1. pose proof (H _ (or_intror (or_introl eq_refl))) as H2. pose proof (H _ (or_intror (or_intror (or_introl eq_refl)))) as H3.
  pose proof (H _ (or_intror (or_intror (or_intror (or_introl eq_refl))))) as H4. pose proof (H _ (or_intror (or_intror (or_intror (or_intror (or_introl eq_refl)))))) as H5. clear H.
  cbn [fst snd] in *. pose proof (qf_nonneg A B C (x - x') (y - y') HA HD) as H0. unfold qf in *. lra.
Qed.

Lemma penta_area O O' a b th : 0 < a -> 0 < b -> Forall (in_ellipse O' a b th) (penta O) -> 1 <= a * b.
Proof.
  intros Ha Hb HF. destruct (ell_quad O' a b th Ha Hb) as (A & B & C & PA & HD & EF).
  assert (K : 0 < a * b) by (apply Rmult_lt_0_compat; auto).
  assert (D : 0 < A * C - B * B). { apply Rnot_le_lt. intros L. assert (0 <= a * b * (a * b)) by nra. nra. }
  assert (T : A + C <= 2). { apply (penta_quad O O' A B C); auto. intros X HX. unfold qf; unfold qf; rewrite <- EF. rewrite Forall_forall in HF. apply HF, HX. }
  assert (L : A * C - B * B <= 1). { pose proof (sqnn (A - C)). pose proof (sqnn B). assert (0 < C) by nra. nra. }
  destruct (Rle_or_lt 1 (a * b)) as [G|G]; [auto|]. exfalso. assert (a * b * (a * b) < 1) by nra. nra.
Qed.

(** an ellipse through five of them is the circle *)
Lemma penta_conic O O' a b th : 0 < a -> 0 < b -> Forall (on_ellipse O' a b th) (penta O) -> O' = O /\ a = 1 /\ b = 1.
Proof.
  intros Ha Hb HF. destruct (ell_quad O' a b th Ha Hb) as (A & B & C & PA & HD & EF). rewrite Forall_forall in HF.
  assert (H : forall X, In X (penta O) -> qf A B C (fst X - fst O') (snd X - snd O') = 1). { intros X HX. unfold qf; rewrite <- EF. apply HF, HX. }
  destruct O as [x y], O' as [x' y']. unfold penta in H. cbn [In fst snd] in H.
  pose proof (H _ (or_introl eq_refl)) as H1. pose proof (H _ (or_intror (or_introl eq_refl))) as H2. pose proof (H _ (or_intror (or_intror (or_introl eq_refl)))) as H3.
  pose proof (H _ (or_intror (or_intror (or_intror (or_introl eq_refl))))) as H4. pose proof (H _ (or_intror (or_intror (or_intror (or_intror (or_introl eq_refl)))))) as H5. clear H.
  cbn [fst snd] in *. unfold qf in H1, H2, H3, H4, H5.
  assert (B = 0) by lra. assert (A = C) by lra. subst B C.
  assert (x = x') by (apply Rmult_eq_reg_l with A; lra). assert (y = y') by (apply Rmult_eq_reg_l with A; lra). subst x' y'. assert (A = 1) by lra. subst A.
  pose proof (cs1 th) as CS. split; [reflexivity|].
  pose proof (EF (x + cos th, y + sin th)) as E1. pose proof (EF (x - sin th, y + cos th)) as E2. unfold ell_form, fx, fy, qf in E1, E2. cbn [fst snd] in E1, E2.
  assert (F1 : (/ a) * (/ a) = 1).
  { transitivity (((cos th * (x + cos th - x) + sin th * (y + sin th - y)) / a) ^ 2 + ((- sin th * (x + cos th - x) + cos th * (y + sin th - y)) / b) ^ 2).
    - replace (cos th * (x + cos th - x) + sin th * (y + sin th - y)) with 1 by lra. replace (- sin th * (x + cos th - x) + cos th * (y + sin th - y)) with 0 by ring. field. lra.
    - rewrite E1. lra. }
  assert (F2 : (/ b) * (/ b) = 1).
  { transitivity (((cos th * (x - sin th - x) + sin th * (y + cos th - y)) / a) ^ 2 + ((- sin th * (x - sin th - x) + cos th * (y + cos th - y)) / b) ^ 2).
    - replace (cos th * (x - sin th - x) + sin th * (y + cos th - y)) with 0 by ring. replace (- sin th * (x - sin th - x) + cos th * (y + cos th - y)) with 1 by lra. field. lra.
    - rewrite E2. lra. }
  assert (one : forall s, 0 < s -> / s * / s = 1 -> s = 1).
  { intros s Hs E. pose proof (Rinv_0_lt_compat s Hs). assert (K : / s = 1) by nra. apply Rmult_eq_reg_l with (/ s); [rewrite Rinv_l by lra; lra|lra]. }
  split; apply one; auto.
Qed.

Lemma penta_on O : Forall (on_ellipse O 1 1 0) (penta O).
Proof. destruct O as [x y]. unfold penta. cbn [fst snd]. repeat constructor; unfold on_ellipse, ell_form, fx, fy; rewrite cos_0, sin_0; cbn [fst snd]; field. Qed.

Lemma penta_five O O' a b th : through_five (penta O) O' a b th -> O' = O /\ a = 1 /\ b = 1.
Proof.
  intros (Ha & Hb & l & HL & ND & HI & HF). apply (penta_conic O O' a b th); auto. rewrite Forall_forall in *. intros X HX. apply HF.
  apply (NoDup_length_incl (l := l) (l' := penta O)); auto. rewrite HL. cbn [penta length]. lia.
Qed.

(** four of them are on an ellipse of smaller area *)
Lemma penta_small O A B C dx dy k : 0 < A -> 1 < A * C - B * B ->
  (forall X, In X (penta O) -> X <> k -> qf A B C (fst X - (fst O + dx)) (snd X - (snd O + dy)) = 1) ->
  exists O' a b th, 0 < a /\ 0 < b /\ a * b < 1 /\ forall X, In X (penta O) -> X <> k -> on_ellipse O' a b th X.
Proof.
  intros HA HD H. destruct (ellipse_of_form (fst O + dx, snd O + dy) A B C HA ltac:(lra)) as (a & b & th & Ha & Hb & E & EF).
  exists (fst O + dx, snd O + dy), a, b, th. split; [auto|]. split; [auto|]. split.
  - assert (0 < a * b) by (apply Rmult_lt_0_compat; auto). destruct (Rlt_or_le (a * b) 1) as [G|G]; [auto|]. exfalso. assert (1 <= a * b * (a * b)) by nra. nra.
  - intros X HX HN. unfold on_ellipse. rewrite EF. cbn [fst snd]. auto.
Qed.

Lemma penta_four O k : In k (penta O) -> exists O' a b th, 0 < a /\ 0 < b /\ a * b < 1 /\ forall X, In X (penta O) -> X <> k -> on_ellipse O' a b th X.
Proof.
  destruct O as [x y]. intros Hk. unfold penta in Hk. cbn [In fst snd] in Hk. destruct Hk as [<-|[<-|[<-|[<-|[<-|[]]]]]].
  - apply (penta_small (x, y) (4060225 / 2487124) 0 (1702675 / 2487124) (- (243 / 2015)) 0); [lra..|].
    intros X HX HN. unfold penta in HX. cbn [In fst snd] in HX. destruct HX as [<-|[<-|[<-|[<-|[<-|[]]]]]]; try (exfalso; apply HN; reflexivity); unfold qf; cbn [fst snd]; field.
  - apply (penta_small (x, y) (15225 / 18304) (2175 / 9152) (2175 / 1408) (- (23 / 435)) (- (10 / 87))); [lra..|].
    intros X HX HN. unfold penta in HX. cbn [In fst snd] in HX. destruct HX as [<-|[<-|[<-|[<-|[<-|[]]]]]]; try (exfalso; apply HN; reflexivity); unfold qf; cbn [fst snd]; field.
  - apply (penta_small (x, y) (41002 / 25585) (- (19422 / 25585)) (28054 / 25585) (297 / 2158) (- (369 / 2158))); [lra..|].
    intros X HX HN. unfold penta in HX. cbn [In fst snd] in HX. destruct HX as [<-|[<-|[<-|[<-|[<-|[]]]]]]; try (exfalso; apply HN; reflexivity); unfold qf; cbn [fst snd]; field.
  - apply (penta_small (x, y) (41002 / 25585) (19422 / 25585) (28054 / 25585) (297 / 2158) (369 / 2158)); [lra..|].
    intros X HX HN. unfold penta in HX. cbn [In fst snd] in HX. destruct HX as [<-|[<-|[<-|[<-|[<-|[]]]]]]; try (exfalso; apply HN; reflexivity); unfold qf; cbn [fst snd]; field.
  - apply (penta_small (x, y) (15225 / 18304) (- (2175 / 9152)) (2175 / 1408) (- (23 / 435)) (10 / 87)); [lra..|].
    intros X HX HN. unfold penta in HX. cbn [In fst snd] in HX. destruct HX as [<-|[<-|[<-|[<-|[<-|[]]]]]]; try (exfalso; apply HN; reflexivity); unfold qf; cbn [fst snd]; field.
Qed.

Section Search.
Variable argsort : list R -> list nat.
Variable roots : R -> R -> R -> R -> list R.
Variable eigh : mat2 -> eigh_res.
Variable eigvals : mat2 -> R * R.
Variable ch : list bool -> nat.

(** the result is the ellipse of some boundary points *)
Lemma lj_source npfloat n : forall path ip bp e, length ip = n -> lowner_full npfloat argsort roots eigh eigvals ch n path ip bp = Ok (Some e) ->
  exists bp' rest, Permutation (ip ++ bp) (bp' ++ rest) /\ lj_stop npfloat argsort roots eigh eigvals bp' = Ok (Some e).
Proof.
  assert (K : forall ip bp : list pt, exists rest, Permutation (ip ++ bp) (bp ++ rest)) by (intros ip bp; exists ip; apply Permutation_app_comm).
  induction n as [|n IH]; intros path ip bp e Hi H.
  - destruct (K ip bp) as [r Hr]. exists bp, r. split; auto.
  - destruct (Nat.le_gt_cases 5 (length bp)) as [L|L].
    + rewrite lj_full in H by auto. destruct (K ip bp) as [r Hr]. exists bp, r. split; auto.
    + destruct (lj_step npfloat argsort roots eigh eigvals ch n path ip bp Hi L) as (p & ip' & HP & HL & E). rewrite E in H. clear E.
      assert (Q1 : Permutation (ip ++ bp) (p :: ip' ++ bp)) by (apply (Permutation_app_tail bp HP)).
      assert (Q2 : Permutation (ip ++ bp) (ip' ++ bp ++ [p])). { eapply perm_trans; [exact Q1|]. rewrite app_assoc. apply Permutation_cons_append. }
      assert (S2 : lowner_full npfloat argsort roots eigh eigvals ch n (false :: path) ip' (bp ++ [p]) = Ok (Some e) -> exists bp' rest, Permutation (ip ++ bp) (bp' ++ rest) /\ lj_stop npfloat argsort roots eigh eigvals bp' = Ok (Some e)).
      { intros H2. destruct (IH _ _ _ _ HL H2) as (b' & r & Hr & Hs). exists b', r. split; [|auto]. eapply perm_trans; eauto. }
      destruct (lowner_full npfloat argsort roots eigh eigvals ch n (true :: path) ip' bp) as [[e1|]|y] eqn:E1; cbn [bind] in H; [|auto|discriminate].
      destruct (ellipse_contains e1 p); [|auto]. injection H as ->. destruct (IH _ _ _ _ HL E1) as (b' & r & Hr & Hs). exists b', (p :: r). split; [|auto].
      eapply perm_trans; [exact Q1|]. eapply perm_trans; [apply perm_skip, Hr|]. apply Permutation_middle.
Qed.

(** where numpy has no np.float *)
Lemma full_false : is_argsort argsort -> exists b4, forall ch' points,
  LownerJohn_full false argsort roots eigh eigvals ch' points = LownerJohnEllipse eigh eigvals b4 ch' points.
Proof.
  intros HA. exists (fun l => match l with
    | [P1; P2; P3; P4] => match from_boundary4 false argsort roots eigh P1 P2 P3 P4 with Raise LinAlgError => B4Lin | _ => B4Attr end
    | _ => B4Attr end).
  intros ch' points. unfold LownerJohn_full, LownerJohnEllipse. generalize (length points) as n. intros n. generalize (@nil bool) as path. generalize points as ip. generalize (@nil pt) as bp.
  induction n as [|n IH]; intros bp ip path.
  - cbn [lowner_full lowner_john]. destruct bp as [|P1 [|P2 [|P3 [|P4 [|P5 [|]]]]]]; try reflexivity. cbn [lj_stop].
    destruct (proj1 (boundary4_new argsort roots eigh P1 P2 P3 P4 HA)) as [x E]. rewrite E. destruct x; reflexivity.
  - cbn [lowner_full lowner_john]. destruct (5 <=? length bp)%nat.
    + destruct bp as [|P1 [|P2 [|P3 [|P4 [|P5 [|]]]]]]; try reflexivity. cbn [lj_stop].
      destruct (proj1 (boundary4_new argsort roots eigh P1 P2 P3 P4 HA)) as [x E]. rewrite E. destruct x; reflexivity.
    + rewrite !IH. reflexivity.
Qed.

Hypothesis Hsort : is_argsort argsort.
Hypothesis Hroots : is_roots roots.
Hypothesis Heigh : forall S, is_eigh S (eigh S).
Hypothesis Hev : forall M, is_eigvals M (eigvals M).

Notation LJ := (LownerJohn_full true argsort roots eigh eigvals ch).

Lemma full_penta O : (2 <= dist2 (0, 0) O -> LJ (penta O) = Raise ValueError) /\
  (dist2 (0, 0) O < 2 -> exists e, LJ (penta O) = Ok (Some e) /\ eO e = O /\ ea e = 1 /\ eb e = 1).
Proof.
  assert (HG : good5 (penta O)). { intros O' a b th H. apply penta_five in H. left. lra. }
  assert (NA : ~ aligned_in (penta O)).
  { intros (A & B & C & l & Q & K). pose proof (penta_on O) as Ho. rewrite Forall_forall in Ho.
    pose proof (Permutation_NoDup Q (penta_nodup O)) as ND. inversion_clear ND as [|? ? N1 ND']. inversion_clear ND' as [|? ? N2 _]. cbn [In] in N1, N2.
    assert (IA : forall X, In X [A; B; C] -> on_ellipse O 1 1 0 X). { intros X HX. apply Ho. apply (Permutation_in _ (Permutation_sym Q)). cbn [In] in *. tauto. }
    apply (on_noncollinear O 1 1 0 A B C); first [lra | apply IA; cbn [In]; tauto | exact K | intros ->; tauto]. }
  (* no ellipse of fewer than five boundary points *)
  assert (KS : forall e, LJ (penta O) = Ok (Some e) -> dist2 (0, 0) O < 2 /\ eO e = O /\ ea e = 1 /\ eb e = 1).
  { intros e H. destruct (full_smallest argsort roots eigh eigvals ch Hsort Hroots Heigh Hev (penta O) e HG H) as (Hax & Pa & Pb & Hin & _).
    pose proof (penta_area O _ _ _ _ Pa Pb Hin) as Hbig.
    unfold LownerJohn_full in H. pose proof (lj_source true (length (penta O)) [] (penta O) [] e eq_refl) as S0. specialize (S0 H). destruct S0 as (bp & rest & Q & Hs). rewrite app_nil_r in Q.
    pose proof (Permutation_NoDup Q (penta_nodup O)) as ND.
    assert (NDb : NoDup bp) by (clear - ND; induction bp; [constructor|]; inversion_clear ND; constructor; [intros K; apply H; apply in_or_app; auto|auto]).
    assert (Ib : incl bp (penta O)) by (intros X HX; apply (Permutation_in _ (Permutation_sym Q)); apply in_or_app; auto).
    pose proof (Permutation_length Q) as HL. rewrite app_length in HL. cbn [penta length] in HL.
    destruct rest as [|k rest].
    - cbn [length] in HL. destruct bp as [|P1 [|P2 [|P3 [|P4 [|P5 [|]]]]]]; cbn [length] in HL; try lia. cbn [lj_stop] in Hs.
      assert (Ho : Forall (on_ellipse O 1 1 0) [P1; P2; P3; P4; P5]). { rewrite Forall_forall. intros X HX. pose proof (penta_on O) as Ho. rewrite Forall_forall in Ho. apply Ho, Ib, HX. }
      set (e0 := mkEllipse O 1 1 0 false). assert (H1 : 0 < ea e0) by (cbn; lra). assert (H2 : 0 < eb e0) by (cbn; lra).
      assert (Hbest : best e [] [P1; P2; P3; P4; P5]).
      { apply (five_best eigvals Hev [] P1 P2 P3 P4 P5 e); auto.
        - intros O' a b th (Ha & Hb & l & q1 & q2 & q3 & q4). apply (HG O' a b th). split; [auto|]. split; [auto|]. exists l. repeat split; auto. eapply incl_tran; eauto.
        - exists O, 1, 1, 0. repeat split; [lra|lra|constructor|auto].
        - destruct (ellipse_from_five_points eigvals P1 P2 P3 P4 P5) as [e'|]; cbn [bind] in Hs; [congruence|discriminate]. }
      destruct Hbest as (_ & _ & Hon & _).
      assert (Hon' : Forall (on_ellipse (eO e) (ea e) (eb e) (ell_th e)) (penta O)). { rewrite Forall_forall in *. intros X HX. apply Hon. rewrite app_nil_r in Q. apply (Permutation_in _ Q HX). }
      pose proof (penta_conic O _ _ _ _ Pa Pb Hon') as (E1 & E2 & E3). split; [|auto].
      rewrite (from_five_of_ellipse eigvals e0 P1 P2 P3 P4 P5 Hev H1 H2 NDb Ho) in Hs.
      destruct (own_equation_ok eigvals e0 Hev H1 H2) as [_ K2]. apply Rnot_le_lt. intros L. assert (L' : ea e0 ^ 2 + eb e0 ^ 2 <= dist2 (0, 0) (eO e0)) by (cbn [e0 ea eb eO]; lra). apply K2 in L'. unfold feq in L', Hs. destruct (ellipse_equation e0) as [[[[[A B] C] D] E] F]. rewrite L' in Hs. discriminate.
    - exfalso. assert (Ik : In k (penta O)) by (apply (Permutation_in _ (Permutation_sym Q)); apply in_or_app; right; left; auto).
      destruct (penta_four O k Ik) as (O' & a & b & th & Ha & Hb & Hab & Hon).
      assert (Hnk : ~ In k bp). { intros K. apply NoDup_remove_2 in ND. apply ND, in_or_app. auto. }
      assert (HF : feas O' a b th [] bp). { split; [auto|]. split; [auto|]. split; [constructor|]. rewrite Forall_forall. intros X HX. apply Hon; [apply Ib, HX|intros ->; auto]. }
      cbn [length] in HL. destruct (stop_best argsort roots eigh eigvals Hsort Hroots Heigh bp e) as (_ & _ & _ & Hm); auto; [lia|exists O', a, b, th; auto|]. pose proof (Hm _ _ _ _ HF). lra. }
  destruct (full_cases argsort roots eigh eigvals ch Hsort Hroots Heigh Hev (penta O) HG) as [HN HX].
  destruct (LJ (penta O)) as [[e|]|x] eqn:E.
  - destruct (KS e eq_refl) as (L & K). split; [lra|]. intros _. exists e. auto.
  - exfalso. assert (5 < 3)%nat by (apply HN; reflexivity). lia.
  - destruct (HX x eq_refl) as [(_ & K)|(-> & O' & a & b & th & K1 & K2)]; [contradiction|]. split; [auto|]. apply penta_five in K1. destruct K1 as (-> & -> & ->). intros L. lra.
Qed.

(** the corners of a rectangle *)
Lemma full_rectangle u v : 0 < u -> 0 < v -> exists e,
  LJ [(u, v); (- u, v); (- u, - v); (u, - v)] = Ok (Some e) /\ ea e * eb e = 2 * u * v.
Proof.
  intros Hu Hv. set (l := [(u, v); (- u, v); (- u, - v); (u, - v)]).
  assert (N5 : forall O a b th, ~ through_five l O a b th). { intros O a b th (_ & _ & q & Q1 & Q2 & Q3 & _). pose proof (NoDup_incl_length Q2 Q3). cbn [l length] in H. lia. }
  assert (HG : good5 l). { intros O a b th H. exfalso. eapply N5; eauto. }
  set (r := sqrt 2). assert (Hr : 0 < r) by (apply sqrt_lt_R0; lra). assert (Hr2 : r * r = 2) by (apply sqrt_sqrt; lra).
  assert (F1 : forall x, x = u * / (r * u) -> x * x = / 2). { intros x ->. transitivity (/ (r * r)); [field; lra|rewrite Hr2; reflexivity]. }
  assert (F2 : forall x, x = v * / (r * v) -> x * x = / 2). { intros x ->. transitivity (/ (r * r)); [field; lra|rewrite Hr2; reflexivity]. }
  assert (Ho : Forall (on_ellipse (0, 0) (r * u) (r * v) 0) l).
  { unfold l. repeat constructor; unfold on_ellipse, ell_form, fx, fy; rewrite cos_0, sin_0; cbn [fst snd];
    (match goal with |- ?a = 1 => replace a with (/ (r * r) + / (r * r)) by (field; lra); rewrite Hr2; lra end). }
  assert (ND : NoDup l). { unfold l. repeat constructor; cbn [In]; intros H; repeat (destruct H as [H|H]; [injection H; intros; lra|]); auto. }
  assert (NA : ~ aligned_in l).
  { intros (A & B & C & q & Q & K). rewrite Forall_forall in Ho.
    pose proof (Permutation_NoDup Q ND) as ND'. inversion_clear ND' as [|? ? N1 ND'']. inversion_clear ND'' as [|? ? N2 _]. cbn [In] in N1, N2.
    assert (IA : forall X, In X [A; B; C] -> on_ellipse (0, 0) (r * u) (r * v) 0 X). { intros X HX. apply Ho. apply (Permutation_in _ (Permutation_sym Q)). cbn [In] in *. tauto. }
    apply (on_noncollinear (0, 0) (r * u) (r * v) 0 A B C); first [nra | apply IA; cbn [In]; tauto | exact K | intros ->; tauto]. }
  destruct (full_cases argsort roots eigh eigvals ch Hsort Hroots Heigh Hev l HG) as [HN HX].
  destruct (LJ l) as [[e|]|x] eqn:E.
  - exists e. split; [auto|]. destruct (full_smallest argsort roots eigh eigvals ch Hsort Hroots Heigh Hev l e HG E) as (Hax & Pa & Pb & Hin & Hm).
    assert (PP := PI_RGT_0).
    assert (L1 : ea e * eb e <= 2 * u * v).
    { destruct (Hm (0, 0) (r * u) (r * v) 0) as [K _]; [nra|nra|eapply Forall_impl; [apply on_in|exact Ho]|]. rewrite !Rmult_assoc in K. apply Rmult_le_reg_l in K; [|auto]. replace (2 * u * v) with (r * r * u * v) by (rewrite Hr2; ring). lra. }
    assert (L2 : 2 * u * v <= ea e * eb e).
    { destruct (ell_quad (eO e) (ea e) (eb e) (ell_th e) Pa Pb) as (A & B & C & PA & HD & EF). rewrite Forall_forall in Hin.
      assert (G : forall X, In X l -> qf A B C (fst X - fst (eO e)) (snd X - snd (eO e)) <= 1). { intros X IX. unfold qf; rewrite <- EF. apply Hin, IX. }
      pose proof (G (u, v) (or_introl eq_refl)) as G1. pose proof (G (- u, v) (or_intror (or_introl eq_refl))) as G2. pose proof (G (- u, - v) (or_intror (or_intror (or_introl eq_refl)))) as G3. pose proof (G (u, - v) (or_intror (or_intror (or_intror (or_introl eq_refl))))) as G4.
      cbn [fst snd] in *. set (s := ea e * eb e) in *. assert (Ps : 0 < s) by (apply Rmult_lt_0_compat; auto).
      assert (D : 0 < A * C - B * B) by nra. pose proof (qf_nonneg A B C (0 - fst (eO e)) (0 - snd (eO e)) PA D) as G0. unfold qf in *.
      assert (T : A * (u * u) + C * (v * v) <= 1) by lra.
      assert (T2 : 4 * (A * C) * ((u * v) * (u * v)) <= 1). { pose proof (sqnn (A * (u * u) - C * (v * v))). assert (0 <= A * (u * u) + C * (v * v)) by nra. nra. }
      assert (T3 : (A * C - B * B) * ((2 * u * v) * (2 * u * v)) <= 1) by (pose proof (sqnn B); pose proof (sqnn (2 * u * v)); nra).
      assert (0 < u * v) by nra. destruct (Rle_or_lt (2 * u * v) s) as [L|L]; [auto|]. exfalso.
      assert (s * s < 2 * u * v * (2 * u * v)) by nra. nra. }
    lra.
  - exfalso. assert (4 < 3)%nat by (apply HN; reflexivity). lia.
  - exfalso. destruct (HX x eq_refl) as [(_ & K)|(_ & O & a & b & th & K & _)]; [contradiction|eapply N5; eauto].
Qed.
End Search.
