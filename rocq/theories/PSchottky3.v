(** * Schottky.py: the regions of the words of two letters or more are discs. *)

From Coq Require Import Reals Lra Lia Psatz List Bool ZArith.
From Verif Require Import Base BaseLemmas Spec SpecLemmas SpecMobius SpecTriangle SpecGasket SpecApollonian ModelInternal ModelLine ModelCircle ModelTriangle ModelInversion ModelMobius ModelModular ModelSchottky SpecSchottky
  PLine PCircle PMobius PMobius2 PMobius3 PMobius4 PMobius5 PSteiner PDisc PSchottky1 PSchottky2.
Import ListNotations.
Local Open Scope R_scope.

Section Theta.
Variable theta : R.
Hypothesis Hs : 0 < 1 + sin theta.
Hypothesis Hx : rb theta <= fst (ob theta).
Notation r := (rb theta).
Notation p := (ob theta).
Notation hf := (hform theta).
Notation rcl := (region_cl theta).

(** the circle bounds the region and its closure *)
Definition bd (w : list letter) (c : circle) : Prop := 0 < cr c /\
  (forall Q, region theta w Q <-> exists z, Q = Pt z /\ opn c z) /\ (forall Q, rcl w Q <-> exists z, Q = Pt z /\ cls c z).

Lemma bd_bounds w c : bd w c -> bounds theta w c.
Proof using. intros (H & B & _). split; [auto|]. intros Q. rewrite B. split; intros (z & -> & Z); exists z; (split; [auto|]); apply opn_dist; auto. Qed.

Lemma hdisc_opn c Q : hdisc (cO c) (cr c) Q < 0 <-> exists z, Q = Pt z /\ opn c z.
Proof using.
  split; [|intros (z & -> & H); rewrite hdisc_pt; unfold opn in H; lra]. intros H. destruct (ept_cases Q) as [->|(z & ->)]; [rewrite hdisc_inf in H; lra|]. exists z. split; [auto|]. rewrite hdisc_pt in H. unfold opn. lra.
Qed.
Lemma hdisc_cls c Q : hdisc (cO c) (cr c) Q <= 0 <-> exists z, Q = Pt z /\ cls c z.
Proof using.
  split; [|intros (z & -> & H); rewrite hdisc_pt; unfold cls in H; lra]. intros H. destruct (ept_cases Q) as [->|(z & ->)]; [rewrite hdisc_inf in H; lra|]. exists z. split; [auto|]. rewrite hdisc_pt in H. unfold cls. lra.
Qed.

(** one letter *)
Lemma bd_one x c : 0 < cr c -> (forall P, hf x P = hdisc (cO c) (cr c) P) -> bd [x] c.
Proof using Hs.
  intros H E. split; [auto|]. split; intros Q; cbn [region region_cl]; rewrite ?letter_disc_h, E by auto; [apply hdisc_opn|apply hdisc_cls].
Qed.
(** two letters: explicit circles *)
Lemma bd_two x y c : 0 < cr c -> (forall P Q, gen_map theta x P Q -> exists k, 0 < k /\ hdisc (cO c) (cr c) Q = k * hf y P) -> bd [x; y] c.
Proof using Hs.
  intros H E. split; [auto|]. split; intros Q; [rewrite region_cons, <- hdisc_opn|rewrite region_cl_cons, <- hdisc_cls]; cbn [region region_cl].
  - split.
    + intros (P & L & G). apply letter_disc_h in L; auto. destruct (E P Q G) as (k & Hk & ->). nra.
    + intros L. destruct (gen_map_total theta Hs (linv x) Q) as (P & G). apply gen_map_inv in G. exists P. split; [|auto]. apply letter_disc_h; auto. destruct (E P Q G) as (k & Hk & E'). rewrite E' in L. nra.
  - split.
    + intros (P & L & G). destruct (E P Q G) as (k & Hk & ->). nra.
    + intros L. destruct (gen_map_total theta Hs (linv x) Q) as (P & G). apply gen_map_inv in G. exists P. split; [|auto]. destruct (E P Q G) as (k & Hk & E'). rewrite E' in L. nra.
Qed.

Definition cAA : circle := mkCircle (0, 3 * sqrt 2 / 4) rA.
Definition cab : circle := mkCircle (fst p, r) r.
Definition caB : circle := mkCircle (- fst p, r) r.
Definition cba : circle := mkCircle (fst p, - (r / 2)) (r / 2).
Definition cBa : circle := mkCircle (- fst p, - (r / 2)) (r / 2).

(** [map_a] on hermitian forms *)
Lemma map_a_form O ro t (h : ept -> R) P Q : 0 < t -> map_a P Q ->
  (forall z1 z2, z1 = fst (hom P) -> z2 = snd (hom P) -> Cmod2 ((RtoC (sqrt 2) * z1 + Ci * z2) - O * (- Ci * z1 + RtoC (sqrt 2) * z2))%C - ro * ro * Cmod2 (- Ci * z1 + RtoC (sqrt 2) * z2)%C = t * h P) ->
  exists k, 0 < k /\ hdisc O ro Q = k * h P.
Proof using.
  intros Ht (k & Hk & E1 & E2) H. pose proof (Cmod2_pos k Hk) as Pk. exists (t / Cmod2 k). split; [apply Rmult_lt_0_compat; [auto|apply Rinv_0_lt_compat; auto]|].
  pose proof (hdisc_scal O ro _ _ k Q E1 E2) as E. rewrite (H _ _ eq_refl eq_refl) in E. replace (t / Cmod2 k * h P) with (t * h P / Cmod2 k) by (field; lra). rewrite E. field. lra.
Qed.

Lemma bd_aa : bd [La; La] cAA.
Proof using Hs.
  apply bd_two; [exact rA_pos|]. intros P Q G. cbn [cAA cO cr hform]. destruct sqrt2 as (S2 & S3). apply (map_a_form _ _ (sqrt 2 / 2) himag P Q); [lra|exact G|]. intros z1 z2 -> ->. unfold himag, Cmod2, rA. destruct (fst (hom P)) as (x1, y1), (snd (hom P)) as (x2, y2). set (q := sqrt 2) in *. clearbody q. unfold Ci. unC. clear - S2. field [S2].
Qed.
Lemma bd_ab : bd [La; Lb] cab.
Proof using Hs.
  clear Hx. apply bd_two; [exact (rb_pos theta Hs)|]. intros P Q G. cbn [cab cO cr hform]. destruct sqrt2 as (S2 & S3). pose proof (ob_sq theta Hs) as E. apply (map_a_form _ _ 1 (hdisc p r) P Q); [lra|exact G|]. intros z1 z2 -> ->. unfold hdisc, Cmod2. destruct (fst (hom P)) as (x1, y1), (snd (hom P)) as (x2, y2). rewrite (surjective_pairing p), snd_ob in *. cbn [fst] in *. set (q := sqrt 2) in *. set (u := fst p) in *. set (v := r) in *. clearbody q u v. unfold Ci. unC. clear - S2 E. ring [S2 E].
Qed.
Lemma bd_aB : bd [La; LB] caB.
Proof using Hs.
  clear Hx. apply bd_two; [exact (rb_pos theta Hs)|]. intros P Q G. cbn [caB cO cr hform]. destruct sqrt2 as (S2 & S3). pose proof (ob_sq theta Hs) as E. apply (map_a_form _ _ 1 (hdisc (oB theta) r) P Q); [lra|exact G|]. intros z1 z2 -> ->. unfold hdisc, Cmod2, oB. destruct (fst (hom P)) as (x1, y1), (snd (hom P)) as (x2, y2). rewrite snd_ob in *. set (q := sqrt 2) in *. set (u := fst p) in *. set (v := r) in *. clearbody q u v. unfold Ci. unC. clear - S2 E. ring [S2 E].
Qed.
Lemma bd_ba : bd [Lb; La] cba.
Proof using Hs.
  pose proof (rb_pos theta Hs) as Pr. apply bd_two; [cbn [cba cr]; lra|]. intros P Q (k & Hk & E1 & E2). cbn [cba cO cr hform]. pose proof (Cmod2_pos k Hk) as Pk. exists (r * r * r / Cmod2 k). split; [apply Rmult_lt_0_compat; [apply Rmult_lt_0_compat; [apply Rmult_lt_0_compat; exact Pr|exact Pr]|apply Rinv_0_lt_compat; auto]|].
  pose proof (hdisc_scal (fst p, - (r / 2)) (r / 2) _ _ k Q E1 E2) as E. replace (hdisc (fst p, - (r / 2)) (r / 2) Q) with (Cmod2 k * hdisc (fst p, - (r / 2)) (r / 2) Q / Cmod2 k) by (field; lra). rewrite <- E. replace (r * r * r / Cmod2 k * himag P) with (r * r * r * himag P / Cmod2 k) by (field; lra). f_equal.
  unfold himag, Cmod2. destruct (fst (hom P)) as (x1, y1), (snd (hom P)) as (x2, y2). rewrite (surjective_pairing p), snd_ob. cbn [fst]. set (u := fst p). set (v := r). clearbody u v. unC. clear. field.
Qed.
Lemma bd_Ba : bd [LB; La] cBa.
Proof using Hs.
  pose proof (rb_pos theta Hs) as Pr. apply bd_two; [cbn [cBa cr]; lra|]. intros P Q (k & Hk & E1 & E2). cbn [cBa cO cr hform]. pose proof (Cmod2_pos k Hk) as Pk. exists (Cmod2 k / r). split; [apply Rmult_lt_0_compat; [auto|apply Rinv_0_lt_compat; auto]|].
  assert (E : Cmod2 k * himag P = r * hdisc (- fst p, - (r / 2)) (r / 2) Q).
  { transitivity (- snd ((k * fst (hom P)) * Cconj (k * snd (hom P)))%C); [unfold himag, Cmod2; destruct k, (fst (hom P)), (snd (hom P)); unC; ring|]. rewrite <- E1, <- E2. clear. unfold hdisc, Cmod2. destruct (fst (hom Q)) as (x1, y1), (snd (hom Q)) as (x2, y2). rewrite (surjective_pairing p), snd_ob. cbn [fst]. set (u := fst p). set (v := r). clearbody u v. unC. field. }
  replace (Cmod2 k / r * himag P) with (Cmod2 k * himag P / r) by (field; lra). rewrite E. field. lra.
Qed.

(** infinity *)
Lemma no_inf x y P : y <> linv x -> hf y P <= 0 -> gen_map theta x P Inf -> False.
Proof using Hs Hx.
  intros N H G. destruct (letter_dec x La) as [->|Nx].
  - destruct sqrt2 as (S2 & S3). assert (E : P = Pt (0, - sqrt 2)).
    { apply (gen_map_inj theta Hs La P _ Inf G). cbn [gen_map]. exists (0, -1). cbn [hom fst snd]. split; [intros K; unfold C0 in K; injection K; lra|]. unfold Ci. unC. split; f_equal; nra. }
    subst P. pose proof (ob_sq theta Hs) as E2. destruct y; cbn [hform linv] in *; try congruence.
    + rewrite himag_pt in H. cbn [snd] in H. lra.
    + rewrite hdisc_pt, (surjective_pairing p), snd_ob in H. revert H. unspec. cbn [fst snd]. intros H. nra.
    + rewrite hdisc_pt in H. unfold oB in H. rewrite snd_ob in H. revert H. unspec. cbn [fst snd]. intros H. nra.
  - destruct (gen_map_h theta Hs x P Inf G) as (k & Hk & E). assert (L : hf (linv x) P < 0) by (assert (hf x Inf = 1) by (destruct x; [congruence| | |]; apply hdisc_inf); nra).
    exact (letters_apart theta Hs Hx (linv x) y P (fun e => N (eq_sym e)) L H).
Qed.

Lemma bd_step x y w c : reduced (x :: y :: w) -> bd (y :: w) c -> exists c', bd (x :: y :: w) c'.
Proof using Hs Hx.
  intros (N & R) (H & B1 & B2). assert (Hinf : forall z, cls c z -> gen_map theta x (Pt z) Inf -> False).
  { intros z Hz G. apply (no_inf x y (Pt z) N); auto. apply (region_cl_first theta Hs Hx w y (Pt z) R). apply B2. eauto. }
  destruct (disc_image 0 (gmat theta x) c (gmat_det0 theta Hs x) H) as (c' & _ & H' & D1 & D2).
  { intros z Hz E. apply (Hinf z Hz), gen_map_transform; auto. apply transform_pole; [apply gmat_det0; auto|exact E]. }
  exists c'. split; [auto|]. split; intros Q.
  - rewrite region_cons. split.
    + intros (P & L & G). apply B1 in L. destruct L as (z & -> & Hz). destruct (ept_cases Q) as [->|(q & ->)]; [exfalso; exact (Hinf z (opn_cls _ _ Hz) G)|]. exists q. split; [auto|]. apply D1. exists z. split; [auto|]. apply gen_map_transform in G; auto.
    + intros (q & -> & Hq). apply D1 in Hq. destruct Hq as (z & Hz & G). exists (Pt z). split; [apply B1; eauto|apply gen_map_transform; auto].
  - rewrite region_cl_cons. split.
    + intros (P & L & G). apply B2 in L. destruct L as (z & -> & Hz). destruct (ept_cases Q) as [->|(q & ->)]; [exfalso; exact (Hinf z Hz G)|]. exists q. split; [auto|]. apply D2. exists z. split; [auto|]. apply gen_map_transform in G; auto.
    + intros (q & -> & Hq). apply D2 in Hq. destruct Hq as (z & Hz & G). exists (Pt z). split; [apply B2; eauto|apply gen_map_transform; auto].
Qed.

Lemma word_disc w : (2 <= length w)%nat -> reduced w -> exists c, bd w c.
Proof using Hs Hx.
  induction w as [|x w IH]; cbn [length]; intros L R; [lia|]. destruct w as [|y w]; [cbn in L; lia|]. destruct w as [|z w].
  - pose proof (rb_pos theta Hs). pose proof rA_pos. destruct (letter_dec y La) as [->|Ny].
    + destruct R as (N & _). destruct x; cbn [linv] in N; try congruence; [exists cAA; apply bd_aa|exists cba; apply bd_ba|exists cBa; apply bd_Ba].
    + assert (B : exists c, bd [y] c).
      { destruct y; [congruence| | |]; [exists (mkCircle p r)|exists (mkCircle oA rA)|exists (mkCircle (oB theta) r)]; apply bd_one; auto. }
      destruct B as (c & B). exact (bd_step x y [] c R B).
  - destruct (IH) as (c & B); [cbn; lia|apply R|]. exact (bd_step x y (z :: w) c R B).
Qed.

Lemma bd_incl w t c c' : w <> [] -> reduced (w ++ t) -> bd w c -> bd (w ++ t) c' -> cr c' <= cr c.
Proof using Hs Hx.
  intros N R (H & B & _) (H' & B' & _). pose proof (opn_incl c c' H H') as I. assert (dist (cO c) (cO c') + cr c' <= cr c); [|pose proof (dist_nonneg (cO c) (cO c')); lra]. apply I. intros z Hz.
  assert (Q : region theta w (Pt z)) by (apply (region_prefix theta Hs Hx w t); auto; apply B'; eauto). apply B in Q. destruct Q as (z' & E & Hz'). injection E as <-. auto.
Qed.

Lemma radius_bound w c : 1 <= r -> (2 <= length w)%nat -> reduced w -> bd w c -> cr c <= r.
Proof using Hs Hx.
  intros Hr L R B. pose proof sqrt2 as (_ & S3). assert (HA : rA <= r) by (unfold rA; lra). destruct w as [|x [|y w]]; cbn in L; try lia.
  pose proof (rb_pos theta Hs). pose proof rA_pos. destruct x.
  - destruct y.
    + apply (Rle_trans _ rA); [|auto]. apply (bd_incl [La; La] w cAA c); auto; [discriminate|apply bd_aa].
    + apply (bd_incl [La; Lb] w cab c); auto; [discriminate|apply bd_ab].
    + exfalso. destruct R as (N & _). apply N. reflexivity.
    + apply (bd_incl [La; LB] w caB c); auto; [discriminate|apply bd_aB].
  - apply (bd_incl [Lb] (y :: w) (mkCircle p r) c); auto; [discriminate|apply bd_one; auto].
  - apply (Rle_trans _ rA); [|auto]. apply (bd_incl [LA] (y :: w) (mkCircle oA rA) c); auto; [discriminate|apply bd_one; auto].
  - apply (bd_incl [LB] (y :: w) (mkCircle (oB theta) r) c); auto; [discriminate|apply bd_one; auto].
Qed.
End Theta.
