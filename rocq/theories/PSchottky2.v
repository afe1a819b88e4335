(** * Schottky.py: the discs of the letters and the regions of the words. *)

From Coq Require Import Reals Lra Lia Psatz List Bool ZArith.
From Verif Require Import Base BaseLemmas Spec SpecLemmas SpecMobius SpecTriangle SpecGasket SpecApollonian ModelInternal ModelLine ModelCircle ModelTriangle ModelInversion ModelMobius ModelModular ModelSchottky SpecSchottky
  PLine PCircle PMobius PMobius2 PMobius3 PMobius4 PMobius5 PSteiner PDisc PSchottky1.
Import ListNotations.
Local Open Scope R_scope.

(** hermitian forms: negative inside a disc, zero on its boundary *)
Definition hdisc (O : pt) (r : R) (P : ept) : R := Cmod2 (fst (hom P) - O * snd (hom P))%C - r * r * Cmod2 (snd (hom P)).
Definition himag (P : ept) : R := - snd (fst (hom P) * Cconj (snd (hom P)))%C.

Definition oA : pt := (0, -3 * sqrt 2 / 4).
Definition rA : R := sqrt 2 / 4.
Definition oB (theta : R) : pt := (- fst (ob theta), snd (ob theta)).

Definition hform (theta : R) (x : letter) (P : ept) : R :=
  match x with La => himag P | LA => hdisc oA rA P | Lb => hdisc (ob theta) (rb theta) P | LB => hdisc (oB theta) (rb theta) P end.

Lemma sqrt2 : sqrt 2 * sqrt 2 = 2 /\ 1 < sqrt 2 < 3 / 2.
Proof. pose proof (sqrt_sqrt 2 ltac:(lra)). pose proof (sqrt_pos 2). split; [auto|]. split; nra. Qed.
Lemma rA_pos : 0 < rA.
Proof. unfold rA. pose proof sqrt2. lra. Qed.

Lemma hdisc_pt O r z : hdisc O r (Pt z) = dist2 O z - r * r.
Proof. unfold hdisc. cbn [hom fst snd]. rewrite dist2_Cmod2. replace (z - O * C1)%C with (z - O)%C by cring. replace (Cmod2 C1) with 1 by (unfold Cmod2, C1; cbn [fst snd]; ring). ring. Qed.
Lemma hdisc_inf O r : hdisc O r Inf = 1.
Proof. unfold hdisc. cbn [hom fst snd]. unfold Cmod2. destruct O. unC. ring. Qed.
Lemma himag_pt z : himag (Pt z) = - snd z.
Proof. unfold himag. cbn [hom fst snd]. destruct z. unC. ring. Qed.
Lemma himag_inf : himag Inf = 0.
Proof. unfold himag. cbn [hom fst snd]. unC. ring. Qed.
Lemma hdisc_scal O r (z1 z2 k : C) P : (z1 = k * fst (hom P))%C -> (z2 = k * snd (hom P))%C -> Cmod2 (z1 - O * z2)%C - r * r * Cmod2 z2 = Cmod2 k * hdisc O r P.
Proof. intros -> ->. unfold hdisc. rewrite Cmod2_mul. replace (k * fst (hom P) - O * (k * snd (hom P)))%C with (k * (fst (hom P) - O * snd (hom P)))%C by cring. rewrite Cmod2_mul. ring. Qed.

Lemma ept_cases P : P = Inf \/ exists z, P = Pt z.
Proof. destruct P; eauto. Qed.

Section Theta.
Variable theta : R.
Hypothesis Hs : 0 < 1 + sin theta.
Hypothesis Hx : rb theta <= fst (ob theta).
Notation r := (rb theta).
Notation p := (ob theta).

Lemma rb_pos : 0 < r.
Proof using Hs.
  unfold rb. pose proof sqrt2. pose proof (SIN_bound theta). apply Rmult_lt_0_compat; [nra|]. apply Rinv_0_lt_compat. lra.
Qed.
Lemma snd_ob : snd p = - r. Proof using. reflexivity. Qed.
Lemma ob_sq : fst p * fst p = 2 * sqrt 2 * r - 1.
Proof using Hs.
  unfold ob, rb. cbn [fst]. destruct sqrt2 as (S2 & _). pose proof (sin2_cos2 theta) as E. unfold Rsqr in E. set (s := sin theta) in *. set (c := cos theta) in *. set (q := sqrt 2) in *. clearbody s c q.
  replace (q * c / (1 + s) * (q * c / (1 + s))) with ((q * q) * (1 - s * s) / ((1 + s) * (1 + s))) by (replace (1 - s * s) with (c * c) by lra; field; lra).
  replace (2 * q * (q / 4 * (3 - s) / (1 + s)) - 1) with (((q * q) / 2 * (3 - s) - (1 + s)) / (1 + s)) by (field; lra). rewrite S2. field. lra.
Qed.

Lemma disc_iff O ro z : 0 < ro -> (dist O z < ro <-> hdisc O ro (Pt z) < 0).
Proof using.
  intros H. rewrite hdisc_pt. pose proof (dist_sq O z). pose proof (dist_nonneg O z). split; intros; nra.
Qed.
Lemma letter_disc_h x P : letter_disc theta x P <-> hform theta x P < 0.
Proof using Hs.
  unfold letter_disc, hform. pose proof rb_pos. pose proof rA_pos. split.
  - intros (z & -> & H1). destruct x; [rewrite himag_pt; lra|apply disc_iff; auto|apply disc_iff; auto|apply disc_iff; auto].
  - intros H1. destruct (ept_cases P) as [->|(z & ->)].
    + exfalso. destruct x; rewrite ?himag_inf, ?hdisc_inf in H1; lra.
    + exists z. split; [auto|]. destruct x; [rewrite himag_pt in H1; lra|apply disc_iff in H1; auto|apply disc_iff in H1; auto|apply disc_iff in H1; auto].
Qed.

(** the transformations and the forms *)
Lemma map_a_h P Q : map_a P Q -> exists k, 0 < k /\ himag Q = - k * hdisc oA rA P.
Proof using.
  intros (k & Hk & E1 & E2). pose proof (Cmod2_pos k Hk) as Pk. exists (sqrt 2 / Cmod2 k). destruct sqrt2 as (S2 & S3). split; [apply Rmult_lt_0_compat; [lra|apply Rinv_0_lt_compat; auto]|].
  assert (E : Cmod2 k * himag Q = - snd ((RtoC (sqrt 2) * fst (hom P) + Ci * snd (hom P)) * Cconj (- Ci * fst (hom P) + RtoC (sqrt 2) * snd (hom P)))%C).
  { rewrite E1, E2. unfold himag, Cmod2. destruct k, (fst (hom Q)), (snd (hom Q)). unC. ring. }
  assert (E' : - snd ((RtoC (sqrt 2) * fst (hom P) + Ci * snd (hom P)) * Cconj (- Ci * fst (hom P) + RtoC (sqrt 2) * snd (hom P)))%C = - sqrt 2 * hdisc oA rA P).
  { unfold hdisc, oA, rA, Cmod2. destruct (fst (hom P)) as (x1, y1), (snd (hom P)) as (x2, y2). set (q := sqrt 2) in *. clearbody q. unfold Ci. unC. clear - S2.
    assert (Q3 : q * q * q = 2 * q) by (rewrite S2; ring). match goal with |- ?a = ?b => replace a with (- (q * (x1 * x1 + y1 * y1) + (q * q + 1) * (y1 * x2 - x1 * y2) + q * (x2 * x2 + y2 * y2))) by ring; replace b with (- (q * (x1 * x1 + y1 * y1) + q * q * 3 / 2 * (y1 * x2 - x1 * y2) + (q * q * q) / 2 * (x2 * x2 + y2 * y2))) by field end. rewrite Q3, S2. field. }
  replace (himag Q) with (Cmod2 k * himag Q / Cmod2 k) by (field; lra). rewrite E, E'. field. lra.
Qed.
Lemma map_b_h P Q : map_b theta P Q -> exists k, 0 < k /\ hdisc p r Q = - k * hdisc (oB theta) r P.
Proof using Hs.
  intros (k & Hk & E1 & E2). fold (oB theta) in E1, E2. pose proof (Cmod2_pos k Hk) as Pk. pose proof rb_pos as Pr. exists (r * r / Cmod2 k). split; [apply Rmult_lt_0_compat; [nra|apply Rinv_0_lt_compat; auto]|].
  pose proof (hdisc_scal p r _ _ k Q E1 E2) as E. replace (hdisc p r Q) with (Cmod2 k * hdisc p r Q / Cmod2 k) by (field; lra). rewrite <- E. unfold hdisc.
  set (z1 := fst (hom P)). set (z2 := snd (hom P)).
  replace (p * z1 + (- (p * oB theta) - RtoC (r * r)) * z2 - p * (C1 * z1 + - oB theta * z2))%C with (- (RtoC (r * r) * z2))%C by cring.
  replace (C1 * z1 + - oB theta * z2)%C with (z1 - oB theta * z2)%C by cring. rewrite Cmod2_opp, Cmod2_mul, Cmod2_RtoC. field. lra.
Qed.
Lemma gen_map_h x P Q : gen_map theta x P Q -> exists k, 0 < k /\ hform theta x Q = - k * hform theta (linv x) P.
Proof using Hs.
  destruct x; cbn [gen_map linv hform]; intros H; [apply map_a_h in H|apply map_b_h in H|apply map_a_h in H|apply map_b_h in H]; auto; destruct H as (k & Hk & E); exists (/ k); (split; [apply Rinv_0_lt_compat; auto|]); rewrite E; field; lra.
Qed.

(** ** the discs do not overlap *)
Lemma two_discs O1 r1 O2 r2 P : 0 < r1 -> 0 < r2 -> (r1 + r2) * (r1 + r2) <= dist2 O1 O2 -> hdisc O1 r1 P < 0 -> hdisc O2 r2 P <= 0 -> False.
Proof using.
  intros H1 H2 HD L1 L2. destruct (ept_cases P) as [->|(z & ->)]; [rewrite hdisc_inf in L1; lra|]. rewrite hdisc_pt in *.
  assert (D1 : dist O1 z < r1) by (pose proof (dist_sq O1 z); pose proof (dist_nonneg O1 z); nra). assert (D2 : dist O2 z <= r2) by (pose proof (dist_sq O2 z); pose proof (dist_nonneg O2 z); nra).
  pose proof (dist_triangle O1 z O2). rewrite (dist_sym z O2) in H. pose proof (dist_sq O1 O2). pose proof (dist_nonneg O1 O2). nra.
Qed.
Lemma disc_half O ro P : 0 < ro -> ro <= - snd O -> (hdisc O ro P < 0 -> himag P <= 0 -> False) /\ (himag P < 0 -> hdisc O ro P <= 0 -> False).
Proof using.
  intros H HO. destruct (ept_cases P) as [->|(z & ->)]; [rewrite hdisc_inf, himag_inf; split; lra|]. rewrite hdisc_pt, himag_pt. destruct O as (x, y), z as (u, v). cbn [snd] in *. unfold dist2, sdot. unspec. cbn [fst snd]. clear - H HO. pose proof (Rle_0_sqr (u - x)) as Q. unfold Rsqr in Q. split; intros A B.
  - assert (ro * ro <= (v - y) * (v - y)) by (apply Rmult_le_compat; lra). lra.
  - assert (ro * ro < (v - y) * (v - y)) by (apply Rmult_le_0_lt_compat; lra). lra.
Qed.
Lemma oA_ob : dist2 oA p = (rA + r) * (rA + r).
Proof using Hs.
  pose proof ob_sq as E. unfold oA, rA. rewrite (surjective_pairing p), snd_ob. destruct sqrt2 as (S2 & _). unfold dist2, sdot. unspec. cbn [fst snd]. set (q := sqrt 2) in *. clearbody q. nra.
Qed.
Lemma oA_oB : dist2 oA (oB theta) = (rA + r) * (rA + r).
Proof using Hs. rewrite <- oA_ob. unfold oA, oB. rewrite (surjective_pairing p). unfold dist2, sdot. unspec. cbn [fst snd]. ring. Qed.
Lemma ob_oB : (r + r) * (r + r) <= dist2 p (oB theta).
Proof using Hs Hx. pose proof rb_pos. unfold oB. rewrite (surjective_pairing p). unfold dist2, sdot. unspec. cbn [fst snd]. nra. Qed.

Lemma dist2_sym A B : dist2 A B = dist2 B A.
Proof using. destruct A, B. unspec. ring. Qed.

Lemma letters_apart x y P : x <> y -> hform theta x P < 0 -> hform theta y P <= 0 -> False.
Proof using Hs Hx.
  intros N H1 H2. pose proof rb_pos as Pr. pose proof rA_pos as PA. pose proof oA_ob as D1. pose proof oA_oB as D2. pose proof ob_oB as D3. pose proof (dist2_sym oA p) as Y1. pose proof (dist2_sym oA (oB theta)) as Y2. pose proof (dist2_sym p (oB theta)) as Y3.
  assert (OA : rA <= - snd oA) by (unfold rA, oA; cbn [snd]; pose proof sqrt2; lra). assert (Ob : r <= - snd p) by (rewrite snd_ob; lra). assert (OB : r <= - snd (oB theta)) by (unfold oB; cbn [snd]; rewrite snd_ob; lra).
  destruct (disc_half oA rA P PA OA) as (U1 & U2). destruct (disc_half p r P Pr Ob) as (V1 & V2). destruct (disc_half (oB theta) r P Pr OB) as (W1 & W2).
  destruct x, y; cbn [hform] in *; try congruence; try tauto; try lra; eapply two_discs; try exact H1; try exact H2; auto; lra.
Qed.

(** ** the transformations as maps *)
Definition gmat (x : letter) : mobius :=
  let A := mkMob (RtoC (sqrt 2)) Ci (- Ci)%C (RtoC (sqrt 2)) in
  let B := mkMob p (- (p * oB theta) - RtoC (r * r))%C C1 (- oB theta)%C in
  match x with La => A | LA => inverse A | Lb => B | LB => inverse B end.
Lemma gmat_det x : mdet (gmat x) = RtoC (match x with La | LA => 1 | _ => r * r end).
Proof using. destruct sqrt2 as (S2 & _). destruct x; cbn [gmat]; rewrite ?mdet_inverse; unfold mdet; cbn [ma mb mc md]; [| cring | | cring]; unfold Ci; unC; f_equal; nra. Qed.
Lemma gmat_det0 x : mdet (gmat x) <> C0.
Proof using Hs. rewrite gmat_det. apply RtoC_neq. pose proof rb_pos. destruct x; nra. Qed.
Lemma gen_map_transform x P Q : gen_map theta x P Q <-> transform (gmat x) P = Ok Q.
Proof using Hs.
  pose proof (gmat_det0 La) as D1. pose proof (gmat_det0 Lb) as D2. destruct x; cbn [gen_map gmat]; unfold map_a, map_b.
  - rewrite transform_Ok by exact D1. reflexivity.
  - rewrite transform_Ok by exact D2. reflexivity.
  - rewrite <- transform_inverse by exact D1. rewrite transform_Ok by exact D1. reflexivity.
  - rewrite <- transform_inverse by exact D2. rewrite transform_Ok by exact D2. reflexivity.
Qed.
Lemma gen_map_total x P : exists Q, gen_map theta x P Q.
Proof using Hs. destruct (transform_total (gmat x) P (gmat_det0 x)) as (Q & E). exists Q. apply gen_map_transform, E. Qed.
Lemma gen_map_inv x P Q : gen_map theta x P Q <-> gen_map theta (linv x) Q P.
Proof using. destruct x; cbn; tauto. Qed.
Lemma gen_map_fun x P Q Q' : gen_map theta x P Q -> gen_map theta x P Q' -> Q = Q'.
Proof using Hs. rewrite !gen_map_transform. congruence. Qed.
Lemma gen_map_inj x P P' Q : gen_map theta x P Q -> gen_map theta x P' Q -> P = P'.
Proof using Hs. rewrite (gen_map_inv x P), (gen_map_inv x P'). apply gen_map_fun. Qed.

(** ** regions, open and closed *)
Fixpoint region_cl (w : list letter) (Q : ept) : Prop :=
  match w with
  | [] => False
  | x :: w' => match w' with [] => hform theta x Q <= 0 | _ :: _ => exists P, region_cl w' P /\ gen_map theta x P Q end
  end.

Lemma region_cons x y w Q : region theta (x :: y :: w) Q <-> exists P, region theta (y :: w) P /\ gen_map theta x P Q.
Proof using. reflexivity. Qed.
Lemma region_cl_cons x y w Q : region_cl (x :: y :: w) Q <-> exists P, region_cl (y :: w) P /\ gen_map theta x P Q.
Proof using. reflexivity. Qed.

Lemma region_first w : forall x Q, reduced (x :: w) -> region theta (x :: w) Q -> hform theta x Q < 0.
Proof using Hs Hx.
  induction w as [|y w IH]; intros x Q R H; [apply letter_disc_h, H|]. destruct R as (N & R). apply region_cons in H. destruct H as (P & H & G). apply IH in H; auto. destruct (gen_map_h x P Q G) as (k & Hk & ->).
  assert (0 < hform theta (linv x) P); [|nra]. destruct (Rlt_le_dec 0 (hform theta (linv x) P)) as [L|L]; auto. exfalso. exact (letters_apart y (linv x) P N H L).
Qed.
Lemma region_cl_first w : forall x Q, reduced (x :: w) -> region_cl (x :: w) Q -> hform theta x Q <= 0.
Proof using Hs Hx.
  induction w as [|y w IH]; intros x Q R H; [exact H|]. destruct R as (N & R). apply region_cl_cons in H. destruct H as (P & H & G). apply IH in H; auto. destruct (gen_map_h x P Q G) as (k & Hk & ->).
  assert (0 <= hform theta (linv x) P); [|nra]. destruct (Rle_lt_dec 0 (hform theta (linv x) P)) as [L|L]; auto. exfalso. exact (letters_apart (linv x) y P (fun e => N (eq_sym e)) L H).
Qed.
Lemma region_in_cl w Q : region theta w Q -> region_cl w Q.
Proof using Hs.
  revert Q. induction w as [|x [|y w] IH]; intros Q H; [exact H| |].
  - apply letter_disc_h in H. cbn. lra.
  - apply region_cons in H. destruct H as (P & H & G). apply region_cl_cons. eauto.
Qed.

Lemma region_disjoint w : forall w' Q, reduced w -> reduced w' -> (forall t, w' <> w ++ t) -> (forall t, w <> w' ++ t) -> region theta w Q -> region_cl w' Q -> False.
Proof using Hs Hx.
  induction w as [|x w IH]; intros w' Q R R' N N' H H'; [exact H|]. destruct w' as [|x' w']; [exact H'|].
  destruct (letter_dec x x') as [<-|E].
  - destruct w as [|y w]; [exact (N w' eq_refl)|]. destruct w' as [|y' w']; [exact (N' (y :: w) eq_refl)|]. apply region_cons in H. apply region_cl_cons in H'. destruct H as (P & H & G), H' as (P' & H' & G'). pose proof (gen_map_inj x P P' Q G G') as <-.
    apply (IH (y' :: w') P); auto; try apply R; try apply R'; [intros t E; exact (N t (f_equal (cons x) E))|intros t E; exact (N' t (f_equal (cons x) E))].
  - apply (letters_apart x x' Q E); [exact (region_first w x Q R H)|exact (region_cl_first w' x' Q R' H')].
Qed.
Lemma region_prefix w t : forall Q, w <> [] -> reduced (w ++ t) -> region theta (w ++ t) Q -> region theta w Q.
Proof using Hs Hx.
  induction w as [|x w IH]; intros Q N R H; [congruence|]. destruct w as [|y w].
  - apply letter_disc_h. exact (region_first t x Q R H).
  - cbn [app] in *. apply region_cons in H. destruct H as (P & H & G). apply region_cons. exists P. split; [|auto]. apply IH; [discriminate|apply R|exact H].
Qed.
Lemma region_nonempty w : w <> [] -> exists Q, region theta w Q.
Proof using Hs.
  clear Hx. induction w as [|x w IH]; [congruence|]. intros _. destruct w as [|y w].
  - pose proof rb_pos. pose proof rA_pos. destruct x; [exists (Pt (0, 1))|exists (Pt p)|exists (Pt oA)|exists (Pt (oB theta))]; apply letter_disc_h; cbn [hform]; rewrite ?himag_pt, ?hdisc_pt; cbn [snd]; try lra; match goal with |- dist2 ?O ?O - _ < 0 => replace (dist2 O O) with 0 by (destruct O; unspec; ring) end; nra.
  - destruct IH as (P & H); [discriminate|]. destruct (gen_map_total x P) as (Q & G). exists Q. apply region_cons. eauto.
Qed.

Lemma other_letter x y : exists z : letter, z <> x /\ z <> y.
Proof using. destruct x, y; first [exists La; split; discriminate|exists Lb; split; discriminate|exists LA; split; discriminate]. Qed.

Lemma region_prefix_strict w y t : w <> [] -> reduced (w ++ y :: t) -> (forall Q, region theta w Q -> region theta (w ++ y :: t) Q) -> False.
Proof using Hs Hx.
  intros N R H. assert (Rw : reduced w). { clear - R. revert R. induction w as [|x w IH]; [cbn; auto|]. cbn [app reduced]. intros (R1 & R2). split; [destruct w; auto|auto]. }
  destruct (exists_last N) as (v & l & Ew). destruct (other_letter y (linv l)) as (z & Z1 & Z2).
  assert (Rz : reduced (w ++ [z])) by (apply reduced_snoc; split; [auto|]; intros t' E; rewrite Ew in E; apply app_inj_tail in E; destruct E as (_ & E); apply Z2; rewrite E, linv_linv; reflexivity).
  destruct (region_nonempty (w ++ [z])) as (Q & HQ); [destruct w; discriminate|]. pose proof (region_prefix w [z] Q N Rz HQ) as HQ'. apply H in HQ'.
  apply (region_disjoint (w ++ [z]) (w ++ y :: t) Q); auto; [| |apply region_in_cl; auto]; intros t' E; rewrite <- app_assoc in E; apply app_inv_head in E; injection E; intros; congruence.
Qed.

Lemma prefix_dec (w w' : list letter) : (exists t, w' = w ++ t) \/ forall t, w' <> w ++ t.
Proof using.
  revert w'. induction w as [|x w IH]; intros w'; [left; exists w'; reflexivity|]. destruct w' as [|x' w']; [right; discriminate|]. destruct (letter_dec x' x) as [->|N]; [|right; intros t E; injection E; congruence].
  destruct (IH w') as [(t & ->)|E]; [left; exists t; reflexivity|right; intros t K; injection K; apply E].
Qed.

Lemma region_inj w w' : w <> [] -> w' <> [] -> reduced w -> reduced w' -> (forall Q, region theta w Q <-> region theta w' Q) -> w = w'.
Proof using Hs Hx.
  intros N N' R R' H. destruct (prefix_dec w w') as [([|y t] & ->)|A]; [rewrite app_nil_r; auto|exfalso; apply (region_prefix_strict w y t); auto; intros Q; apply H|].
  destruct (prefix_dec w' w) as [([|y t] & ->)|A']; [rewrite app_nil_r; auto|exfalso; apply (region_prefix_strict w' y t); auto; intros Q; apply H|].
  exfalso. destruct (region_nonempty w N) as (Q & HQ). apply (region_disjoint w w' Q); auto. apply region_in_cl, H, HQ.
Qed.
End Theta.
