(** * Proofs about inversions: points, circles, lines. *)

From Coq Require Import Reals Lra Psatz List Bool.
From Verif Require Import Base BaseLemmas Spec SpecLemmas SpecTriangle ModelInternal ModelLine ModelCircle
  ModelTriangle ModelInversion PLine PCircle PInvBase PAffine PTriangle PTriangle2.
Import ListNotations.
Local Open Scope R_scope.

(** ** C32: points *)
Lemma invert_Pt iota M N : invert iota (Pt M) = Pt N ->
  allclose (ipole iota) M = false /\ M <> ipole iota /\ N = inv_pt (ipole iota) (ipower iota) M.
Proof.
  unfold invert. destruct (allclose (ipole iota) M) eqn:E; [discriminate|]. intros H. injection H as <-.
  split; auto. split; [apply allclose_false_neq in E; auto|]. unfold inv_pt. f_equal.
Qed.

Lemma invert_far iota M : allclose (ipole iota) M = false ->
  invert iota (Pt M) = Pt (inv_pt (ipole iota) (ipower iota) M).
Proof. intros H. unfold invert. rewrite H. reflexivity. Qed.

Lemma invert_Inf_iff iota M : invert iota (Pt M) = Inf <-> allclose (ipole iota) M = true.
Proof. unfold invert. destruct (allclose (ipole iota) M); split; auto; discriminate. Qed.

Lemma invert_spec iota M N : invert iota (Pt M) = Pt N ->
  on_line (ipole iota) M N /\ sdot (vsub M (ipole iota)) (vsub N (ipole iota)) = ipower iota.
Proof.
  intros H. apply invert_Pt in H. destruct H as (_ & HM & ->). destruct iota as [I k]; cbn [ipole ipower] in *.
  pose proof (dist2_pos I M ltac:(auto)) as Hd. split.
  - exists (k / dist2 I M). reflexivity.
  - transitivity (k / dist2 I M * dist2 I M); [|field; lra].
    unfold inv_pt. remember (k / dist2 I M) as q. unspec. ring.
Qed.

Lemma invert_unique I M N P k : M <> I -> on_line I M N -> on_line I M P ->
  sdot (vsub M I) (vsub N I) = k -> sdot (vsub M I) (vsub P I) = k -> N = P.
Proof.
  intros HM [s ->] [t ->] E1 E2. pose proof (dist2_pos I M ltac:(auto)) as Hd.
  enough (s = t) by (subst; auto).
  assert (s * dist2 I M = t * dist2 I M) by (unfold at_line in *; unspec; lra).
  apply Rmult_eq_reg_r in H; lra.
Qed.

Lemma allclose_refl P : allclose P P = true.
Proof.
  unfold allclose, allclose1. rewrite !Rminus_diag_eq, Rabs_R0 by auto.
  rewrite andb_true_iff; split; apply leb_true; pose proof (Rabs_pos (fst P)); pose proof (Rabs_pos (snd P)); lra.
Qed.

Lemma invert_pole iota : invert iota (Pt (ipole iota)) = Inf /\ invert iota Inf = Pt (ipole iota).
Proof. split; [|reflexivity]. apply invert_Inf_iff. apply allclose_refl. Qed.

Lemma invert_invol iota M N Q : ipower iota <> 0 -> invert iota (Pt M) = Pt N -> invert iota (Pt N) = Pt Q -> Q = M.
Proof.
  intros Hk H1 H2. apply invert_Pt in H1. apply invert_Pt in H2. destruct H1 as (_ & HM & ->). destruct H2 as (_ & _ & ->).
  apply inv_pt_invol; auto.
Qed.

Lemma invert_invol_ext iota M : ipower iota <> 0 ->
  (forall P, M = Pt P -> P = ipole iota \/ (exists N Q, invert iota M = Pt N /\ invert iota (Pt N) = Pt Q)) ->
  invert iota (invert iota M) = M.
Proof.
  intros Hk H. destruct M as [P|].
  - destruct (H P eq_refl) as [->|(N & Q & H1 & H2)].
    + rewrite (proj1 (invert_pole iota)). reflexivity.
    + rewrite H1, H2. f_equal. apply (invert_invol iota P N Q); auto.
  - cbn [invert]. apply invert_pole.
Qed.

Lemma Rabs_le_inv a b : Rabs a <= b -> - b <= a <= b.
Proof. intros H. unfold Rabs in H. destruct (Rcase_abs a); lra. Qed.

Lemma invert_invol_fails iota : exists M N, invert iota (Pt M) = Pt N /\ invert iota (Pt N) = Inf.
Proof.
  destruct iota as [[x y] k]. set (t := 100000000 * Rabs k + 2 * Rabs x + 1).
  pose proof (Rabs_pos k) as Ka. pose proof (Rabs_pos x) as Xa. pose proof (Rabs_pos y) as Ya.
  assert (Ht : 0 < t) by (unfold t; lra).
  assert (F : allclose (x, y) (x + t, y) = false).
  { unfold allclose. cbn [fst snd]. apply andb_false_iff. left. apply leb_false.
    replace (x - (x + t)) with (- t) by ring. rewrite Rabs_Ropp, (Rabs_right t) by lra.
    pose proof (Rabs_triang x t) as T. rewrite (Rabs_right t) in T by lra. unfold t in *. lra. }
  exists (x + t, y). eexists. split; [apply invert_far; exact F|]. cbn [ipole ipower].
  apply invert_Inf_iff. cbn [ipole].
  assert (E : inv_pt (x, y) k (x + t, y) = (x + k / t, y)).
  { unfold inv_pt. unspec. replace ((x + t - x) * (x + t - x) + (y - y) * (y - y)) with (t * t) by ring. f_equal; field; lra. }
  rewrite E. unfold allclose, allclose1; cbn [fst snd]. apply andb_true_iff. split; apply leb_true.
  - replace (x - (x + k / t)) with (- (k / t)) by ring. rewrite Rabs_Ropp.
    unfold Rdiv. rewrite Rabs_mult, (Rabs_right (/ t)) by (left; apply Rinv_0_lt_compat; auto).
    assert (Rabs k * / t <= / 100000000).
    { apply (Rmult_le_reg_r t); auto. rewrite Rmult_assoc, Rinv_l by lra. unfold t. lra. }
    pose proof (Rabs_pos (x + k * / t)). lra.
  - rewrite Rminus_diag_eq, Rabs_R0 by auto. lra.
Qed.

Lemma invert_zero_power I M N : invert (mkInv I 0) (Pt M) = Pt N -> N = I.
Proof.
  intros H. apply invert_Pt in H. cbn [ipole ipower] in H. destruct H as (_ & _ & ->). unfold inv_pt.
  destruct I; unfold vadd, vscal, Rdiv; cbn [fst snd]. rewrite Rmult_0_l, !Rmult_0_l, !Rplus_0_r. reflexivity.
Qed.

Lemma on_circle_fixed c M N : 0 < cr c -> invert (inversion_on_circle c) (Pt M) = Pt N ->
  (on_circle (cO c) (cr c) M <-> N = M).
Proof.
  intros Hr H. apply invert_Pt in H. unfold inversion_on_circle in H; cbn [ipole ipower] in H. destruct H as (_ & HM & ->).
  pose proof (dist2_pos (cO c) M ltac:(auto)) as Hd. rewrite on_circle_sq by lra. split.
  - intros E. unfold inv_pt. rewrite E. replace (cr c ^ 2 / (cr c * cr c)) with 1 by (field; lra).
    destruct M, (cO c); unpt. f_equal; ring.
  - intros E. assert (D : dist2 (cO c) (inv_pt (cO c) (cr c ^ 2) M) = dist2 (cO c) M) by (rewrite E; auto).
    rewrite inv_pt_dist2 in D by auto.
    assert (cr c ^ 2 * cr c ^ 2 = dist2 (cO c) M * dist2 (cO c) M).
    { rewrite <- D at 1. field. lra. }
    assert ((cr c * cr c - dist2 (cO c) M) * (cr c * cr c + dist2 (cO c) M) = 0) by lra.
    apply Rmult_integral in H0. nra.
Qed.

(** ** C33: circles *)
Lemma circle_ext c c' : cO c = cO c' -> cr c = cr c' -> c = c'.
Proof. destruct c as [a b], c' as [a' b']. cbn [cO cr]. congruence. Qed.
Lemma sepsilon_pos : 0 < sepsilon_.
Proof. unfold sepsilon_. lra. Qed.

Lemma D1_pow c0 c1 r1 : (fst c1 - fst c0) ^ 2 + (snd c1 - snd c0) ^ 2 - r1 * r1 = pow_circle c1 r1 c0.
Proof. unfold pow_circle. unspec. ring. Qed.

Lemma invert_circle_far iota c : 0 < cr c -> ipower iota <> 0 -> sepsilon_ < Rabs (pow_circle (cO c) (cr c) (ipole iota)) ->
  let s := inv_scale (ipole iota) (ipower iota) (cO c) (cr c) in
  invert_circle iota c = Ok (GC (mkCircle (vadd (ipole iota) (vscal s (vsub (cO c) (ipole iota)))) (Rabs s * cr c))).
Proof.
  intros Hr Hk H s. unfold invert_circle. rewrite D1_pow. rewrite (proj2 (ltb_true _ _) H).
  assert (HD : pow_circle (cO c) (cr c) (ipole iota) <> 0).
  { intros E. rewrite E, Rabs_R0 in H. pose proof sepsilon_pos. lra. }
  destruct (inv_circle_pole _ _ _ _ Hk Hr HD) as (_ & Hp & _). fold (inv_scale (ipole iota) (ipower iota) (cO c) (cr c)). fold s in Hp |- *.
  rewrite Circle_init_pos by auto. reflexivity.
Qed.

Lemma invert_circle_GC iota c c' : 0 < cr c -> invert_circle iota c = Ok (GC c') ->
  ipower iota <> 0 /\ sepsilon_ < Rabs (pow_circle (cO c) (cr c) (ipole iota)) /\ 0 < cr c' /\
  cO c' = vadd (ipole iota) (vscal (inv_scale (ipole iota) (ipower iota) (cO c) (cr c)) (vsub (cO c) (ipole iota))) /\
  cr c' = Rabs (inv_scale (ipole iota) (ipower iota) (cO c) (cr c)) * cr c.
Proof.
  intros Hr H. unfold invert_circle in H. rewrite D1_pow in H.
  destruct (ltb _ _) eqn:E in H.
  - apply ltb_true in E. apply bind_Ok in H. destruct H as (c2 & H & H'). apply Ok_inj in H'. injection H' as ->.
    apply Circle_init_Ok in H. destruct H as [Hp ->]. cbn [cO cr].
    split; [|split; auto; split; auto].
    intros K. rewrite K in Hp. unfold Rdiv in Hp. rewrite Rmult_0_l, Rabs_R0 in Hp. lra.
  - apply bind_Ok in H. destruct H as (l & _ & H). discriminate.
Qed.

Lemma pow_band_neq c P : sepsilon_ < Rabs (pow_circle (cO c) (cr c) P) -> pow_circle (cO c) (cr c) P <> 0.
Proof. intros H E. rewrite E, Rabs_R0 in H. pose proof sepsilon_pos. lra. Qed.

Lemma invert_circle_spec iota c c' : 0 < cr c -> invert_circle iota c = Ok (GC c') ->
  0 < cr c' /\ inv_maps (ipole iota) (ipower iota) (cO c) (cr c) (cO c') (cr c').
Proof.
  intros Hr H. apply invert_circle_GC in H; auto. destruct H as (Hk & HD & Hp & E1 & E2). split; auto. rewrite E1, E2.
  apply inv_maps_image; auto. apply pow_band_neq; auto.
Qed.

Lemma invert_circle_points iota c c' M N : 0 < cr c -> invert_circle iota c = Ok (GC c') ->
  invert iota (Pt M) = Pt N -> (on_circle (cO c) (cr c) M <-> on_circle (cO c') (cr c') N).
Proof.
  intros Hr H HM. apply invert_circle_spec in H; auto. destruct H as (_ & _ & _ & H).
  apply invert_Pt in HM. destruct HM as (_ & HM & ->). apply H; auto.
Qed.

Lemma invert_circle_twice iota c c' c'' : 0 < cr c -> invert_circle iota c = Ok (GC c') ->
  invert_circle iota c' = Ok (GC c'') -> c'' = c.
Proof.
  intros Hr H1 H2. pose proof (invert_circle_GC _ _ _ Hr H1) as (Hk & _).
  destruct (invert_circle_spec _ _ _ Hr H1) as [Hr' M1]. destruct (invert_circle_spec _ _ _ Hr' H2) as [Hr'' M2].
  apply inv_maps_sym in M1; auto.
  destruct (inv_maps_unique _ _ _ _ _ _ Hk Hr' Hr M1) as (_ & E1 & E2).
  destruct (inv_maps_unique _ _ _ _ _ _ Hk Hr' Hr'' M2) as (_ & E3 & E4).
  apply circle_ext; congruence.
Qed.

Lemma Line_init_ext_Ok A B l : Line_init_ext A B = Ok l ->
  exists P Q, A = Pt P /\ B = Pt Q /\ allclose P Q = false /\ l = mkLine P Q true true.
Proof.
  unfold Line_init_ext. destruct A as [P|]; [|discriminate]. destruct B as [Q|]; [|discriminate].
  intros H. apply Line_init_Ok in H. exists P, Q. tauto.
Qed.

Lemma invert_circle_GL iota c l : invert_circle iota c = Ok (GL l) ->
  Rabs (pow_circle (cO c) (cr c) (ipole iota)) <= sepsilon_ /\ lextA l = true /\ lextB l = true /\ allclose (lA l) (lB l) = false /\
  invert iota (Pt (vsub (cO c) (vsub (ipole iota) (cO c)))) = Pt (lA l) /\
  invert iota (Pt (vadd (- snd (vsub (ipole iota) (cO c)), fst (vsub (ipole iota) (cO c))) (cO c))) = Pt (lB l).
Proof.
  unfold invert_circle. rewrite D1_pow. destruct (ltb _ _) eqn:E.
  - intros H. apply bind_Ok in H. destruct H as (c2 & _ & H). discriminate.
  - intros H. apply bind_Ok in H. destruct H as (l2 & H & H'). apply Ok_inj in H'. injection H' as ->.
    apply Line_init_ext_Ok in H. destruct H as (P & Q & H1 & H2 & H3 & ->). cbn [lA lB lextA lextB]. apply ltb_false in E. auto 10.
Qed.

(** the image of a circle through the pole is the line orthogonal to the radius *)
Lemma inv_circle_through I k O M : M <> I -> I <> O -> k <> 0 ->
  (dist2 O M = dist2 O I <-> sdot (vsub (inv_pt I k M) I) (vsub O I) = k / 2).
Proof.
  intros HM HI Hk. pose proof (dist2_pos I M ltac:(auto)) as Hd.
  assert (E : sdot (vsub (inv_pt I k M) I) (vsub O I) - k / 2 = (k / (2 * dist2 I M)) * (dist2 O I - dist2 O M)).
  { unfold inv_pt. destruct M as [m1 m2], I as [i1 i2], O as [o1 o2]. unspec. field. lra. }
  assert (k / (2 * dist2 I M) <> 0).
  { unfold Rdiv. apply Rmult_integral_contrapositive_currified; auto. apply Rinv_neq_0_compat. lra. }
  split; intros H0.
  - rewrite H0 in E. lra.
  - rewrite H0 in E. assert (Z : k / (2 * dist2 I M) * (dist2 O I - dist2 O M) = 0) by lra. apply Rmult_integral in Z. lra.
Qed.

Lemma on_line_of_dot A B u k N : A <> B -> u <> (0, 0) -> sdot A u = k -> sdot B u = k -> (on_line A B N <-> sdot N u = k).
Proof.
  intros HAB Hu HA HB. split.
  - intros [t ->]. unfold at_line. rewrite <- HA in *. clear HA.
    assert (sdot (vsub B A) u = 0) by (unspec; lra). transitivity (sdot A u + t * sdot (vsub B A) u); [unspec; ring|]. rewrite H. ring.
  - intros HN. apply on_line_cross; auto.
    assert (sdot (vsub B A) u = 0) by (unspec; lra). assert (sdot (vsub N A) u = 0) by (unspec; lra).
    destruct A as [a1 a2], B as [b1 b2], N as [n1 n2], u as [u1 u2].
    pose proof (sum_sq_pos u1 u2 Hu) as Kp. clear HN HA HB HAB Hu. unspec.
    set (p := b1 - a1) in *. set (q := b2 - a2) in *. set (x := n1 - a1) in *. set (y := n2 - a2) in *.
    assert (Z : (u1 * u1 + u2 * u2) * (p * y - q * x) = 0).
    { transitivity ((p * u1 + q * u2) * (u1 * y - u2 * x) + (x * u1 + y * u2) * (p * u2 - q * u1)); [ring|]. rewrite H, H0. ring. }
    apply Rmult_integral in Z. lra.
Qed.

Lemma invert_circle_line iota c l : 0 < cr c -> on_circle (cO c) (cr c) (ipole iota) -> invert_circle iota c = Ok (GL l) ->
  ipower iota <> 0 /\ lA l <> lB l /\
  (forall N, on_line (lA l) (lB l) N <-> sdot (vsub N (ipole iota)) (vsub (cO c) (ipole iota)) = ipower iota / 2) /\
  (forall M, M <> ipole iota -> (on_circle (cO c) (cr c) M <-> on_line (lA l) (lB l) (inv_pt (ipole iota) (ipower iota) M))).
Proof.
  intros Hr Hon H. apply invert_circle_GL in H. destruct H as (_ & _ & _ & HAB & HA & HB).
  destruct iota as [I k]. cbn [ipole ipower] in *.
  rewrite on_circle_sq in Hon by lra.
  assert (HIO : I <> cO c). { intros ->. rewrite (proj2 (dist2_0 (cO c) (cO c)) eq_refl) in Hon. nra. }
  assert (HIO2 : vsub (cO c) I <> (0, 0)).
  { intros E. apply HIO. destruct I, (cO c); unpt. injection E as E1 E2. f_equal; lra. }
  assert (Hk : k <> 0).
  { intros ->. apply invert_zero_power in HA. apply invert_zero_power in HB. rewrite HA, HB in HAB.
    rewrite allclose_refl in HAB. discriminate. }
  pose proof (allclose_false_neq _ _ HAB) as NAB.
  apply invert_Pt in HA. apply invert_Pt in HB. cbn [ipole ipower] in *. destruct HA as (_ & NA & EA). destruct HB as (_ & NB & EB).
  assert (KA : sdot (vsub (lA l) I) (vsub (cO c) I) = k / 2).
  { rewrite EA. apply inv_circle_through; auto. unspec. ring. }
  assert (KB : sdot (vsub (lB l) I) (vsub (cO c) I) = k / 2).
  { rewrite EB. apply inv_circle_through; auto. unspec. ring. }
  assert (K : forall N, on_line (lA l) (lB l) N <-> sdot (vsub N I) (vsub (cO c) I) = k / 2).
  { intros N. rewrite (on_line_of_dot (lA l) (lB l) (vsub (cO c) I) (k / 2 + sdot I (vsub (cO c) I))); auto.
    - split; intros; unspec; lra.
    - clear - KA. unspec. lra.
    - clear - KB. unspec. lra. }
  split; auto. split; auto. split; auto. intros M HM. rewrite K, on_circle_sq, <- Hon by lra. apply inv_circle_through; auto.
Qed.

Lemma invert_circle_line_points iota c l M N : 0 < cr c -> on_circle (cO c) (cr c) (ipole iota) ->
  invert_circle iota c = Ok (GL l) -> invert iota (Pt M) = Pt N ->
  (on_circle (cO c) (cr c) M <-> on_line (lA l) (lB l) N).
Proof.
  intros Hr Hon H HM. destruct (invert_circle_line _ _ _ Hr Hon H) as (_ & _ & _ & K).
  apply invert_Pt in HM. destruct HM as (_ & HM & ->). apply K; auto.
Qed.

Lemma invert_circle_raise iota c e : invert_circle iota c = Raise e -> e = ValueError.
Proof.
  unfold invert_circle. destruct (ltb _ _); unfold Circle_init, Line_init_ext, Line_init.
  - destruct (leb _ _); cbn [bind]; intros H; inversion H; auto.
  - destruct (invert _ _); [destruct (invert _ _); [destruct (allclose _ _)|]|]; cbn [bind]; intros H; inversion H; auto.
Qed.

Lemma invert_circle_zero I c : 0 < cr c -> invert_circle (mkInv I 0) c = Raise ValueError.
Proof.
  intros Hr. destruct (invert_circle (mkInv I 0) c) as [[c'|l]|e] eqn:E.
  - apply invert_circle_GC in E; auto. cbn [ipower] in E. tauto.
  - exfalso. apply invert_circle_GL in E. destruct E as (_ & _ & _ & H & HA & HB).
    apply invert_zero_power in HA. apply invert_zero_power in HB. rewrite HA, HB, allclose_refl in H. discriminate.
  - apply invert_circle_raise in E. subst; auto.
Qed.

Lemma invert_circle_centred iota r : 0 < r -> r <= / 8192 -> invert_circle iota (mkCircle (ipole iota) r) = Raise ValueError.
Proof.
  intros H1 H2. destruct (invert_circle iota (mkCircle (ipole iota) r)) as [[c'|l]|e] eqn:E.
  - exfalso. apply invert_circle_GC in E; auto. cbn [cO cr] in E. destruct E as (_ & H & _).
    unfold pow_circle in H. rewrite (proj2 (dist2_0 _ _) eq_refl) in H.
    replace (0 - r ^ 2) with (- (r * r)) in H by ring. rewrite Rabs_Ropp, Rabs_right in H by nra. unfold sepsilon_ in H. nra.
  - exfalso. apply invert_circle_GL in E. cbn [cO cr] in E. destruct E as (_ & _ & _ & _ & H & _).
    replace (vsub (ipole iota) (vsub (ipole iota) (ipole iota))) with (ipole iota) in H by (destruct (ipole iota); unpt; f_equal; ring).
    rewrite (proj1 (invert_pole iota)) in H. discriminate.
  - apply invert_circle_raise in E. subst; auto.
Qed.

(** ** C34: lines *)

Lemma inv_line_circle I k A B c : A <> B -> k <> 0 -> 0 < cr c -> ~ on_line A B I ->
  on_circle (cO c) (cr c) I -> on_circle (cO c) (cr c) (inv_pt I k A) -> on_circle (cO c) (cr c) (inv_pt I k B) ->
  (forall M, M <> I -> (on_line A B M <-> on_circle (cO c) (cr c) (inv_pt I k M))).
Proof.
  intros HAB Hk Hr HI H1 HA HB M HM. destruct c as [O r]. cbn [cO cr] in *.
  rewrite on_circle_sq in H1, HA, HB |- * by lra.
  assert (NIA : A <> I). { intros ->. apply HI. exists 0. unfold at_line. destruct I, B; unpt; f_equal; ring. }
  assert (NIB : B <> I). { intros ->. apply HI. exists 1. unfold at_line. destruct I, A; unpt; f_equal; ring. }
  assert (HIO : I <> O). { intros ->. rewrite (proj2 (dist2_0 O O) eq_refl) in H1. nra. }
  assert (T : forall P, P <> I -> (dist2 O (inv_pt I k P) = r * r <-> sdot (vsub P I) (vsub O I) = k / 2)).
  { intros P HP. rewrite <- H1. rewrite (inv_circle_through I k O (inv_pt I k P)); auto. rewrite inv_pt_invol by auto. tauto. apply inv_pt_neq; auto. }
  rewrite T in HA, HB |- * by auto.
  assert (HIO2 : vsub O I <> (0, 0)).
  { intros E. apply HIO. destruct I, O; unpt. injection E as E1 E2. f_equal; lra. }
  rewrite (on_line_of_dot A B (vsub O I) (k / 2 + sdot I (vsub O I))); auto.
  - split; intros; unspec; lra.
  - clear - HA. unspec. lra.
  - clear - HB. unspec. lra.
Qed.

Lemma invert_line_GC iota l c : invert_line iota l = Ok (Some (GC c)) ->
  collinear_ (lA l) (lB l) (ipole iota) = Ok false /\ ~ collinear (lA l) (lB l) (ipole iota) /\ lA l <> lB l /\
  exists Ap Bp, invert iota (Pt (lA l)) = Pt Ap /\ invert iota (Pt (lB l)) = Pt Bp /\
    circumcircle (mkTri (ipole iota) Ap Bp) = Ok (Some c).
Proof.
  unfold invert_line. intros H. apply bind_Ok in H. destruct H as (b & Hb & H). destruct b.
  - apply Ok_inj in H. discriminate.
  - destruct (collinear_false _ _ _ Hb) as (N & NAB & _). apply allclose_false_neq in NAB.
    destruct (invert iota (Pt (lA l))) as [Ap|]; [|discriminate].
    destruct (invert iota (Pt (lB l))) as [Bp|]; [|discriminate].
    apply bind_Ok in H. destruct H as (oc & Hc & H). apply Ok_inj in H. destruct oc as [c2|]; [|discriminate].
    injection H as ->. split; auto. split; auto. split; auto. exists Ap, Bp. auto.
Qed.

Lemma not_collinear_not_on_line A B P : A <> B -> ~ collinear A B P -> ~ on_line A B P.
Proof. intros H N K. apply N. apply collinear_cross. apply on_line_cross in K; auto. Qed.

Lemma invert_line_spec iota l c : invert_line iota l = Ok (Some (GC c)) ->
  ipower iota <> 0 /\ 0 < cr c /\ ~ on_line (lA l) (lB l) (ipole iota) /\ on_circle (cO c) (cr c) (ipole iota) /\
  (forall M, M <> ipole iota -> (on_line (lA l) (lB l) M <-> on_circle (cO c) (cr c) (inv_pt (ipole iota) (ipower iota) M))).
Proof.
  intros H. apply invert_line_GC in H. destruct H as (_ & N & NAB & Ap & Bp & HA & HB & Hc).
  pose proof (not_collinear_not_on_line _ _ _ NAB N) as NL.
  destruct (circumcircle_spec _ _ Hc) as (Nc & Hr & C1 & C2 & C3 & _). cbn [tA tB tC] in *.
  assert (Hk : ipower iota <> 0).
  { intros E. apply Nc. destruct iota as [I k]. cbn [ipole ipower] in *. subst k. apply invert_zero_power in HA. apply invert_zero_power in HB.
    subst. apply collinear_cross. unspec. ring. }
  split; auto. split; auto. split; auto. split; auto.
  apply invert_Pt in HA. apply invert_Pt in HB. destruct HA as (_ & _ & ->). destruct HB as (_ & _ & ->).
  apply inv_line_circle; auto.
Qed.

Lemma invert_line_points iota l c M N : invert_line iota l = Ok (Some (GC c)) -> invert iota (Pt M) = Pt N ->
  (on_line (lA l) (lB l) M <-> on_circle (cO c) (cr c) N).
Proof.
  intros H HM. apply invert_line_spec in H. destruct H as (_ & _ & _ & _ & H).
  apply invert_Pt in HM. destruct HM as (_ & HM & ->). auto.
Qed.

Lemma invert_line_through iota l : lA l <> lB l -> on_line (lA l) (lB l) (ipole iota) -> invert_line iota l = Ok (Some (GL l)).
Proof. intros H1 H2. unfold invert_line. rewrite collinear_on_line; auto. Qed.

Lemma invert_line_through_points iota l M N : on_line (lA l) (lB l) (ipole iota) -> ipower iota <> 0 -> invert iota (Pt M) = Pt N ->
  (on_line (lA l) (lB l) M <-> on_line (lA l) (lB l) N).
Proof.
  assert (Q : forall A B I M t, on_line A B I -> on_line A B M -> on_line A B (vadd I (vscal t (vsub M I)))).
  { intros A B I M' t [a ->] [b ->]. exists (a + t * (b - a)). unfold at_line. destruct A, B; unpt; f_equal; ring. }
  intros HI Hk H. apply invert_Pt in H. destruct H as (_ & HM & ->). split; intros K.
  - apply Q; auto.
  - rewrite <- (inv_pt_invol (ipole iota) (ipower iota) M) by auto. apply Q; auto.
Qed.

Lemma invert_line_GL iota l l' : invert_line iota l = Ok (Some (GL l')) -> l' = l /\
  (on_line (lA l) (lB l) (ipole iota) \/ allclose (lA l) (ipole iota) = true \/ allclose (lB l) (ipole iota) = true \/ allclose (lA l) (lB l) = true).
Proof.
  unfold invert_line. intros H. apply bind_Ok in H. destruct H as (b & Hb & H). destruct b.
  - apply Ok_inj in H. injection H as <-. split; auto.
    destruct (allclose (lA l) (ipole iota)) eqn:E1; auto. destruct (allclose (lB l) (ipole iota)) eqn:E2; auto.
    destruct (allclose (lA l) (lB l)) eqn:E3; auto. left.
    destruct (collinear_not_close _ _ _ E3 E1 E2) as (b & Hb' & K). rewrite Hb in Hb'. apply Ok_inj in Hb'. subst b. apply K; auto.
  - destruct (invert iota (Pt (lA l))) as [Ap|]; [|discriminate].
    destruct (invert iota (Pt (lB l))) as [Bp|]; [|discriminate].
    apply bind_Ok in H. destruct H as (oc & Hc & H). apply Ok_inj in H. destruct oc as [c2|]; discriminate.
Qed.

(** images of A and B are not collinear with the pole *)
Lemma inv_dbl I k A B : A <> I -> B <> I ->
  dbl I (inv_pt I k A) (inv_pt I k B) = (k / dist2 I A) * (k / dist2 I B) * scross (vsub A I) (vsub B I).
Proof.
  intros HA HB. unfold inv_pt. remember (k / dist2 I A) as s. remember (k / dist2 I B) as t. unfold dbl. unspec. ring.
Qed.

Lemma invert_line_total iota l : ipower iota <> 0 -> lA l <> lB l -> ~ on_line (lA l) (lB l) (ipole iota) ->
  allclose (lA l) (lB l) = false -> allclose (lA l) (ipole iota) = false -> allclose (lB l) (ipole iota) = false ->
  allclose (ipole iota) (lA l) = false -> allclose (ipole iota) (lB l) = false ->
  exists c, invert_line iota l = Ok (Some (GC c)).
Proof.
  intros Hk HAB HI E1 E2 E3 E4 E5. unfold invert_line. destruct (collinear_not_close _ _ _ E1 E2 E3) as (b & Hb & K). rewrite Hb.
  cbn [bind]. destruct b; [exfalso; apply HI, K; auto|]. rewrite !invert_far by auto.
  apply allclose_false_neq in E2. apply allclose_false_neq in E3.
  assert (D : dbl (ipole iota) (inv_pt (ipole iota) (ipower iota) (lA l)) (inv_pt (ipole iota) (ipower iota) (lB l)) <> 0).
  { rewrite inv_dbl by auto. pose proof (dist2_pos (ipole iota) (lA l) ltac:(auto)). pose proof (dist2_pos (ipole iota) (lB l) ltac:(auto)).
    repeat apply Rmult_integral_contrapositive_currified; auto; try (apply Rinv_neq_0_compat; lra).
    intros E. apply HI. apply on_line_cross; auto. unspec. lra. }
  destruct (circumcircle_total _ _ _ D) as (c & Hc & _). rewrite Hc. cbn [bind]. eauto.
Qed.

Lemma invert_line_None iota l : invert_line iota l <> Ok None.
Proof.
  intros H. unfold invert_line in H. apply bind_Ok in H. destruct H as (b & Hb & H). destruct b; [discriminate|].
  destruct (collinear_false _ _ _ Hb) as (N & NAB & E1 & E2). apply allclose_false_neq in NAB. apply allclose_false_neq in E1. apply allclose_false_neq in E2.
  destruct (invert iota (Pt (lA l))) as [Ap|] eqn:HA; [|discriminate].
  destruct (invert iota (Pt (lB l))) as [Bp|] eqn:HB; [|discriminate].
  apply bind_Ok in H. destruct H as (oc & Hc & H). apply Ok_inj in H. destruct oc as [c2|]; [discriminate|].
  apply circumcircle_none in Hc. cbn [tA tB tC] in Hc. destruct Hc as (Z1 & Z2 & Z3).
  apply invert_Pt in HA. apply invert_Pt in HB. destruct HA as (_ & NA & ->). destruct HB as (_ & NB & ->).
  assert (Hk : ipower iota <> 0).
  { intros E. rewrite E in Z1. apply Z1. unfold inv_pt, Rdiv. rewrite Rmult_0_l. destruct (ipole iota); unpt; f_equal; ring. }
  apply not_collinear_dbl in Z3; auto. rewrite inv_dbl by auto.
  pose proof (dist2_pos (ipole iota) (lA l) ltac:(auto)). pose proof (dist2_pos (ipole iota) (lB l) ltac:(auto)).
    repeat apply Rmult_integral_contrapositive_currified; auto; try (apply Rinv_neq_0_compat; lra).
  intros E. apply N. apply collinear_cross. unspec. lra.
Qed.

Lemma invert_line_zero I l : lA l <> lB l -> ~ on_line (lA l) (lB l) I -> forall g, invert_line (mkInv I 0) l = Ok (Some g) -> g = GL l.
Proof.
  intros H1 H2 g H. destruct g as [c|l'].
  - apply invert_line_spec in H. cbn [ipower] in H. tauto.
  - apply invert_line_GL in H. destruct H as [-> _]. auto.
Qed.

(** ** inverting twice: circle - line - circle *)
Lemma circle_line_circle iota c l c' : 0 < cr c -> on_circle (cO c) (cr c) (ipole iota) ->
  invert_circle iota c = Ok (GL l) -> invert_line iota l = Ok (Some (GC c')) -> c' = c.
Proof.
  intros Hr Hon H1 H2. destruct (invert_circle_line _ _ _ Hr Hon H1) as (Hk & _ & _ & K1).
  destruct (invert_line_spec _ _ _ H2) as (_ & Hr' & _ & Hon' & K2).
  destruct (circle_eq_of_points (cO c) (cr c) (cO c') (cr c') Hr Hr') as [E1 E2].
  - intros M HM. destruct (pt_eq_dec M (ipole iota)) as [->|NM]; auto.
    assert (Ni : inv_pt (ipole iota) (ipower iota) M <> ipole iota) by (apply inv_pt_neq; auto).
    rewrite <- (inv_pt_invol (ipole iota) (ipower iota) M) by auto. apply K2; auto. apply K1; auto.
  - apply circle_ext; auto.
Qed.

Lemma line_circle_line iota l c l' : invert_line iota l = Ok (Some (GC c)) -> invert_circle iota c = Ok (GL l') ->
  same_line (lA l) (lB l) (lA l') (lB l').
Proof.
  intros H1 H2. destruct (invert_line_spec _ _ _ H1) as (Hk & Hr & NI & Hon & K1).
  destruct (invert_circle_line _ _ _ Hr Hon H2) as (_ & _ & K3 & K2).
  assert (NI' : ~ on_line (lA l') (lB l') (ipole iota)).
  { rewrite K3. unspec. intros E. apply Hk. lra. }
  intros M. destruct (pt_eq_dec M (ipole iota)) as [->|NM]; [tauto|].
  assert (Ni : inv_pt (ipole iota) (ipower iota) M <> ipole iota) by (apply inv_pt_neq; auto).
  rewrite K1 by auto. rewrite K2 by auto. rewrite inv_pt_invol by auto. tauto.
Qed.

(** the circle image of a line is never inverted to a circle (the pole is on it) *)
Lemma line_circle_not_circle iota l c c' : invert_line iota l = Ok (Some (GC c)) -> invert_circle iota c <> Ok (GC c').
Proof.
  intros H1 H2. destruct (invert_line_spec _ _ _ H1) as (Hk & Hr & NI & Hon & K1).
  apply invert_circle_GC in H2; auto. destruct H2 as (_ & H2 & _). apply pow_band_neq in H2.
  apply H2. apply pow_circle_on; auto. lra.
Qed.
