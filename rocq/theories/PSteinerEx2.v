(** * Proofs about the examples on Steiner chains: radii, success, shifts *)

From Coq Require Import Reals Lra Lia Psatz List Bool ZArith PeanoNat.
From Verif Require Import Base BaseLemmas Spec SpecLemmas SpecTriangle SpecGasket SpecApollonian SpecSteinerEx ModelInternal ModelLine ModelCircle ModelEllipse
  ModelTriangle ModelInversion ModelApollonian ModelSteinerEx PLine PCircle PCircle2 PInvBase PAffine PInversion PInversion2 PEllipse PSteiner PSteiner2 PSteinerEx1.
Import ListNotations.
Local Open Scope R_scope.

(** ** radii *)
Lemma sine_Z n : (3 <= n)%Z -> sin (PI / IZR n) = steiner_sine (Z.to_nat n).
Proof. intros H. unfold steiner_sine. rewrite INR_IZR_INZ, Z2Nat.id by lia. auto. Qed.

Lemma frac_le a b c d : 0 < b -> 0 < d -> a * d <= c * b -> a / b <= c / d.
Proof.
  intros Hb Hd H. apply (Rmult_le_reg_r (b * d)); [nra|]. replace (a / b * (b * d)) with (a * d) by (field; lra). replace (c / d * (b * d)) with (c * b) by (field; lra). auto.
Qed.

Lemma radius_via_q R0 q s p r D : 0 < R0 -> R0 < q -> 0 < s < 1 -> p = R0 / q -> r = R0 / (1 + s) * s -> 0 < D ->
  (D <= (q + R0) * (q + R0 - 2 * r) -> R0 * s * (1 - p) / (1 + p + s * (1 - p)) <= (q - R0) * (q + R0) / D * r) /\
  ((q - R0) * (q - R0 + 2 * r) <= D -> (q - R0) * (q + R0) / D * r <= R0 * s * (1 + p) / (1 - p + s * (1 + p))) /\
  (D = (q + R0) * (q + R0 - 2 * r) -> (q - R0) * (q + R0) / D * r = R0 * s * (1 - p) / (1 + p + s * (1 - p))) /\
  (D = (q - R0) * (q - R0 + 2 * r) -> (q - R0) * (q + R0) / D * r = R0 * s * (1 + p) / (1 - p + s * (1 + p))).
Proof.
  intros H0 Hq Hs Ep Er HD.
  assert (Pr : 0 < r) by (rewrite Er; apply Rmult_lt_0_compat; [apply Rdiv_lt_0_compat|]; lra).
  assert (Pr2 : 2 * r < R0).
  { rewrite Er. apply (Rmult_lt_reg_r (1 + s)); [lra|]. replace (2 * (R0 / (1 + s) * s) * (1 + s)) with (2 * R0 * s) by (field; lra). nra. }
  assert (E1 : R0 * s * (1 - p) / (1 + p + s * (1 - p)) = (q - R0) * r / (q + R0 - 2 * r)).
  { rewrite Ep, Er. field. repeat split; try lra; nra. }
  assert (E2 : R0 * s * (1 + p) / (1 - p + s * (1 + p)) = (q + R0) * r / (q - R0 + 2 * r)).
  { rewrite Ep, Er. field. repeat split; try lra; nra. }
  replace ((q - R0) * (q + R0) / D * r) with ((q - R0) * (q + R0) * r / D) by (field; lra). rewrite E1, E2.
  split; [|split; [|split]].
  - intros K. apply frac_le; auto; [lra|]. replace ((q - R0) * (q + R0) * r * (q + R0 - 2 * r)) with ((q - R0) * r * ((q + R0) * (q + R0 - 2 * r))) by ring. apply Rmult_le_compat_l; auto. nra.
  - intros K. apply frac_le; auto; [lra|]. replace ((q - R0) * (q + R0) * r * (q - R0 + 2 * r)) with ((q + R0) * r * ((q - R0) * (q - R0 + 2 * r))) by ring. apply Rmult_le_compat_l; auto. nra.
  - intros ->. field. split; lra.
  - intros ->. field. split; lra.
Qed.

Section Radii.
Variables (c0 : circle) (n : Z) (phi shift : R).
Hypothesis Hn : (3 <= n)%Z.
Hypothesis H0 : 0 < cr c0.
Hypothesis H1 : Rabs phi < 1.
Let m := Z.to_nat n.

Lemma m3 : (3 <= m)%nat. Proof. unfold m. lia. Qed.

Lemma img_radius i : least_radius (cr c0) n phi <= cr (st_img c0 phi (base_circle c0 m shift i)) <= largest_radius (cr c0) n phi.
Proof.
  pose proof m3 as Hm. destruct (base_inside c0 m shift i Hm H0) as [I T]. rewrite st_img_cr. unfold least_radius, largest_radius. rewrite sine_Z by auto. fold m. cbv zeta.
  pose proof (steiner_sine_bounds m Hm) as Hs. change (cr (base_circle c0 m shift i)) with (base_radius c0 m) in *.
  destruct (Req_dec phi 0) as [->|Hp].
  - unfold st_scale. rewrite (proj2 (eqb_true 0 0) eq_refl). rewrite Rabs_R0. unfold base_radius. rewrite Rmult_1_l.
    split; right; field; lra.
  - destruct (st_q c0 phi H0 Hp H1) as (Hq & Hd & Hk & Hk'). set (q := cr c0 / Rabs phi) in *.
    destruct (st_scale_spec c0 phi _ H0 H1 I) as (S1 & _ & P1). destruct (P1 Hp) as [N E]. rewrite E. unfold inv_scale. rewrite Hk.
    set (D := pow_circle (cO (base_circle c0 m shift i)) (cr (base_circle c0 m shift i)) (st_pole c0 phi)) in *.
    assert (Pp : 0 < Rabs phi) by (apply Rabs_pos_lt; auto).
    assert (Dl : (q - cr c0) * (q - cr c0 + 2 * base_radius c0 m) <= D) by (exact (st_pow_bound c0 phi _ H0 Hp H1 I)).
    assert (Bb : 0 < base_radius c0 m /\ 0 < cr c0 - 2 * base_radius c0 m) by (destruct (base_radius_bounds c0 m Hm H0) as (A & B & _); auto).
    assert (Du : D <= (q + cr c0) * (q + cr c0 - 2 * base_radius c0 m)).
    { unfold D, pow_circle. rewrite <- dist_sq. pose proof (dist_triangle (cO (base_circle c0 m shift i)) (cO c0) (st_pole c0 phi)) as T1. rewrite (dist_sym (cO (base_circle c0 m shift i)) (cO c0)), T, Hd in T1.
      pose proof (dist_nonneg (cO (base_circle c0 m shift i)) (st_pole c0 phi)). change (cr (base_circle c0 m shift i)) with (base_radius c0 m). set (x := dist _ (st_pole c0 phi)) in *. set (r := base_radius c0 m) in *. clearbody x r q. nra. }
    destruct (radius_via_q (cr c0) q (steiner_sine m) (Rabs phi) (base_radius c0 m) D H0 Hq Hs) as (A & B & _); auto.
    { unfold q. field. lra. } { nra. }
Qed.

Lemma img_first : cr (st_img c0 phi (base_circle c0 m 0 0)) = if Rle_dec 0 phi then largest_radius (cr c0) n phi else least_radius (cr c0) n phi.
Proof.
  pose proof m3 as Hm. destruct (base_inside c0 m 0 0 Hm H0) as [I T]. rewrite st_img_cr. unfold least_radius, largest_radius. rewrite sine_Z by auto. fold m. cbv zeta.
  pose proof (steiner_sine_bounds m Hm) as Hs. change (cr (base_circle c0 m 0 0)) with (base_radius c0 m) in *.
  destruct (Req_dec phi 0) as [->|Hp].
  - unfold st_scale. rewrite (proj2 (eqb_true 0 0) eq_refl). rewrite Rabs_R0. unfold base_radius. rewrite Rmult_1_l. destruct Rle_dec; field; lra.
  - destruct (st_q c0 phi H0 Hp H1) as (Hq & Hd & Hk & Hk'). set (q := cr c0 / Rabs phi) in *.
    destruct (st_scale_spec c0 phi _ H0 H1 I) as (S1 & _ & P1). destruct (P1 Hp) as [N E]. rewrite E. unfold inv_scale. rewrite Hk.
    set (D := pow_circle (cO (base_circle c0 m 0 0)) (cr (base_circle c0 m 0 0)) (st_pole c0 phi)) in *.
    assert (Pp : 0 < Rabs phi) by (apply Rabs_pos_lt; auto).
    assert (Dl : (q - cr c0) * (q - cr c0 + 2 * base_radius c0 m) <= D) by (exact (st_pow_bound c0 phi _ H0 Hp H1 I)).
    assert (Bb : 0 < base_radius c0 m /\ 0 < cr c0 - 2 * base_radius c0 m) by (destruct (base_radius_bounds c0 m Hm H0) as (A & B & _); auto).
    destruct (radius_via_q (cr c0) q (steiner_sine m) (Rabs phi) (base_radius c0 m) D H0 Hq Hs) as (_ & _ & A & B); auto.
    { unfold q. field. lra. } { nra. }
    assert (ED : D = (cr c0 - base_radius c0 m - cr c0 / phi) * (cr c0 - base_radius c0 m - cr c0 / phi) - base_radius c0 m * base_radius c0 m).
    { destruct (base_radius_bounds c0 m Hm H0) as (_ & _ & EE). rewrite <- EE. unfold D, pow_circle, base_circle, st_pole, unit_vector_. cbn [cO cr INR].
      replace ((0 + 0) * 2 * (PI / INR m)) with 0 by ring. rewrite cos_0, sin_0. destruct (cO c0) as [x y]. unspec. field. split; [auto|lra]. }
    destruct Rle_dec as [L|L].
    + apply B. rewrite ED. unfold q. rewrite Rabs_right by lra. field; auto.
    + apply A. rewrite ED. unfold q. rewrite Rabs_left by lra. field; auto.
Qed.
End Radii.

Lemma steiner_radii c0 n phi shift cs ell : (3 <= n)%Z -> 0 < cr c0 -> Rabs phi < 1 ->
  SteinerChain c0 n phi shift = Ok (map GC cs, ell) ->
  (forall i, (i < Z.to_nat n)%nat -> least_radius (cr c0) n phi <= cr (nth i cs c0) <= largest_radius (cr c0) n phi) /\
  (shift = 0 -> cr (nth 0 cs c0) = if Rle_dec 0 phi then largest_radius (cr c0) n phi else least_radius (cr c0) n phi).
Proof.
  intros Hn H0 H1 H. destruct (steiner_Ok _ _ _ _ _ _ Hn H0 H1 H) as [-> _].
  assert (N : forall i, (i < Z.to_nat n)%nat -> nth i (map (st_img c0 phi) (base_all c0 (Z.to_nat n) shift)) c0 = st_img c0 phi (base_circle c0 (Z.to_nat n) shift i)).
  { intros i Hi. unfold base_all. rewrite map_app, app_nth1 by (rewrite !map_length, seq_length; auto). apply nth_chain; auto. }
  split.
  - intros i Hi. rewrite N by auto. apply img_radius; auto.
  - intros ->. rewrite N by lia. apply img_first; auto.
Qed.

(** ** success *)
Lemma least_pos r0 n phi : (3 <= n)%Z -> 0 < r0 -> Rabs phi < 1 -> 0 < least_radius r0 n phi.
Proof.
  intros Hn H0 H1. unfold least_radius. rewrite sine_Z by auto. pose proof (steiner_sine_bounds (Z.to_nat n) ltac:(lia)). pose proof (Rabs_pos phi). cbv zeta.
  apply Rdiv_lt_0_compat; [|nra]. apply Rmult_lt_0_compat; nra.
Qed.
Lemma safe_mono r r' phi : 0 < r -> r <= r' -> Rabs phi < 1 -> steiner_safe r phi -> steiner_safe r' phi.
Proof.
  intros H0 H H1 [E|K]; [left; auto|]. destruct (Req_dec phi 0) as [E|E]; [left; auto|right].
  pose proof (Rabs_pos_lt phi E) as Pp.
  assert (F : forall x, x / Rabs phi - x = x * (/ Rabs phi - 1)) by (intros; field; lra). rewrite F in K |- *.
  assert (1 < / Rabs phi). { rewrite <- Rinv_1. apply Rinv_lt_contravar; lra. }
  eapply Rle_trans; [exact K|]. apply Rmult_le_compat; nra.
Qed.

Lemma nested_total c0 n phi shift n' phi' shift' : (3 <= n)%Z -> 0 < cr c0 -> Rabs phi < 1 -> (3 <= n')%Z -> Rabs phi' < 1 ->
  steiner_safe (cr c0) phi -> steiner_safe (least_radius (cr c0) n phi) phi' ->
  exists blue red, nested_drawn c0 n phi shift n' phi' shift' = Ok (blue, c0, red) /\ nested_chains c0 n phi shift n' phi' shift' = Ok (map GC blue, map (map GC) red).
Proof.
  intros Hn H0 H1 Hn' H1' S S'. destruct (steiner_total c0 n phi shift Hn H0 H1 S) as (cs & ell & H).
  destruct (steiner_closed _ _ _ _ _ _ Hn H0 H1 H) as (chain & inner & -> & C). destruct (steiner_radii _ _ _ _ _ _ Hn H0 H1 H) as [Rd _].
  assert (L : length chain = Z.to_nat n) by apply C.
  assert (X : exists red, Forall2 (fun c cs => exists ell', SteinerChain c n' phi' shift' = Ok (map GC cs, ell')) chain red).
  { assert (Q : Forall (fun c => exists cs ell', SteinerChain c n' phi' shift' = Ok (map GC cs, ell')) chain).
    { apply Forall_forall. intros c Hc. destruct (In_nth _ _ c0 Hc) as (i & Hi & E). specialize (Rd i ltac:(lia)). rewrite app_nth1 in Rd by auto. rewrite E in Rd.
      pose proof (least_pos (cr c0) n phi Hn H0 H1). apply steiner_total; auto; [lra|]. apply (safe_mono (least_radius (cr c0) n phi)); auto. lra. }
    clear - Q. induction Q as [|c chain (cs & ell' & E) Q (red & F)]; [exists []; constructor|]. exists (cs :: red). constructor; eauto. }
  destruct X as (red & F).
  assert (N : nested_chains c0 n phi shift n' phi' shift' = Ok (map GC (chain ++ [inner]), map (map GC) red)).
  { unfold nested_chains. rewrite H. cbn [bind]. rewrite map_app, firstn_app, map_length, L, Nat.sub_diag, firstn_O, app_nil_r. rewrite firstn_all2 by (rewrite map_length; lia).
    assert (M : forall ch rd, Forall2 (fun c cs => exists ell', SteinerChain c n' phi' shift' = Ok (map GC cs, ell')) ch rd ->
      mapM (fun g => let! c := drawn g in let! (cs, _) := SteinerChain c n' phi' shift' in Ok cs) (map GC ch) = Ok (map (map GC) rd)).
    { clear. induction 1 as [|c cs ch rd (ell' & E) F IH]; cbn [map mapM]; auto. cbn [drawn bind]. rewrite E. cbn [bind]. rewrite IH. auto. }
    rewrite (M _ _ F). cbn [bind]. auto. }
  exists (chain ++ [inner]), red. split; [|exact N]. unfold nested_drawn. rewrite N. cbn [bind]. rewrite mapM_GC. cbn [bind].
  assert (M : forall rd, mapM (mapM drawn) (map (map GC) rd) = Ok rd). { clear. induction rd as [|cs rd IH]; cbn [map mapM]; auto. rewrite mapM_GC. cbn [bind]. rewrite IH. auto. }
  rewrite M. auto.
Qed.

(** ** shifts *)
Lemma mapM_ext {X Y} (f g : X -> res Y) l : (forall x, f x = g x) -> mapM f l = mapM g l.
Proof. intros H. induction l as [|x l IH]; cbn [mapM]; auto. rewrite H, IH. auto. Qed.

Lemma steiner_period c0 n phi shift : SteinerChain c0 n phi (shift + IZR n) = SteinerChain c0 n phi shift.
Proof.
  unfold SteinerChain. destruct (Z.leb_spec n 0); auto.
  assert (E : SteinerChain_phi0_ c0 (Z.to_nat n) (shift + IZR n) = SteinerChain_phi0_ c0 (Z.to_nat n) shift); [|rewrite E; auto].
  unfold SteinerChain_phi0_. cbv zeta. erewrite mapM_ext; [reflexivity|]. intros i. cbv beta. do 3 f_equal.
  rewrite INR_IZR_INZ with (n := Z.to_nat n), Z2Nat.id by lia.
  replace ((INR i + (shift + IZR n)) * 2 * (PI / IZR n)) with ((INR i + shift) * 2 * (PI / IZR n) + 2 * PI) by (field; apply not_0_IZR; lia).
  unfold unit_vector_. rewrite cos_plus, sin_plus, cos_2PI, sin_2PI. f_equal; ring.
Qed.
Lemma steiner_period_neg c0 n phi shift : SteinerChain c0 n phi (shift - IZR n) = SteinerChain c0 n phi shift.
Proof. rewrite <- steiner_period. f_equal. ring. Qed.

Lemma nested_period c0 n phi shift n' phi' shift' :
  nested_drawn c0 n phi (shift + IZR n) n' phi' (shift' - IZR n') = nested_drawn c0 n phi shift n' phi' shift'.
Proof.
  unfold nested_drawn. f_equal. unfold nested_chains. rewrite steiner_period. destruct (SteinerChain c0 n phi shift) as [[circles ell]|]; cbn [bind]; auto.
  erewrite mapM_ext; [reflexivity|]. intros g. cbv beta. destruct (drawn g); cbn [bind]; auto. rewrite steiner_period_neg. auto.
Qed.

Definition base_chain c0 n shift := map (base_circle c0 n shift) (seq 0 n).
Lemma base_shift_in c0 n shift (k : Z) c : (3 <= n)%nat -> In c (base_chain c0 n (shift + IZR k)) -> In c (base_chain c0 n shift).
Proof.
  intros Hn H. unfold base_chain in *.
  apply in_map_iff in H. destruct H as (i & <- & Hi). apply in_seq in Hi. apply in_map_iff.
  set (j := Z.to_nat ((Z.of_nat i + k) mod Z.of_nat n)). pose proof (Z.mod_pos_bound (Z.of_nat i + k) (Z.of_nat n) ltac:(lia)) as B.
  exists j. split; [|apply in_seq; unfold j; lia]. unfold base_circle. do 3 f_equal.
  pose proof (Z.div_mod (Z.of_nat i + k) (Z.of_nat n) ltac:(lia)) as E. set (u := ((Z.of_nat i + k) mod Z.of_nat n)%Z) in *. set (d := ((Z.of_nat i + k) / Z.of_nat n)%Z) in *.
  assert (Ej : INR i + (shift + IZR k) = INR j + shift + IZR d * INR n).
  { unfold j. rewrite (INR_IZR_INZ (Z.to_nat _)), Z2Nat.id by lia. rewrite !INR_IZR_INZ, <- mult_IZR. replace (IZR (Z.of_nat i) + (shift + IZR k)) with (IZR (Z.of_nat i + k) + shift) by (rewrite plus_IZR; ring).
    clearbody u d. rewrite E, plus_IZR. rewrite (Z.mul_comm (Z.of_nat n)). ring. }
  rewrite Ej. pose proof (INR3 n Hn).
  replace ((INR j + shift + IZR d * INR n) * 2 * (PI / INR n)) with ((INR j + shift) * 2 * (PI / INR n) + IZR d * (2 * PI)) by (field; lra).
  clear. assert (P : forall (d : Z) x, unit_vector_ (x + IZR d * (2 * PI)) = unit_vector_ x); [|auto].
  intros d' x. unfold unit_vector_.
  assert (Pn : forall m : nat, forall x, unit_vector_ (x + INR m * (2 * PI)) = unit_vector_ x).
  { induction m as [|m IH]; intros y; [f_equal; simpl; ring|]. rewrite S_INR. replace (y + (INR m + 1) * (2 * PI)) with ((y + INR m * (2 * PI)) + 2 * PI) by ring.
    rewrite <- (IH y). unfold unit_vector_. rewrite (cos_plus (y + _)), (sin_plus (y + _)), cos_2PI, sin_2PI. f_equal; ring. }
  fold (unit_vector_ (x + IZR d' * (2 * PI))). fold (unit_vector_ x). destruct (Z_le_gt_dec 0 d') as [L|L].
  - replace (IZR d') with (INR (Z.to_nat d')) by (rewrite INR_IZR_INZ, Z2Nat.id by lia; auto). apply Pn.
  - rewrite <- (Pn (Z.to_nat (- d')) (x + IZR d' * (2 * PI))). f_equal. rewrite INR_IZR_INZ, Z2Nat.id by lia. rewrite opp_IZR. ring.
Qed.
Lemma base_shift_iff c0 n shift (k : Z) c : (3 <= n)%nat -> In c (base_chain c0 n (shift + IZR k)) <-> In c (base_chain c0 n shift).
Proof.
  intros Hn. split; [apply base_shift_in; auto|]. intros H. apply (base_shift_in _ _ _ (- k)); auto. replace (shift + IZR k + IZR (- k)) with shift by (rewrite opp_IZR; ring). auto.
Qed.
Lemma base_all_iff c0 n shift (k : Z) c : (3 <= n)%nat -> In c (base_all c0 n (shift + IZR k)) <-> In c (base_all c0 n shift).
Proof. intros Hn. unfold base_all. rewrite !in_app_iff. pose proof (base_shift_iff c0 n shift k c Hn) as H. unfold base_chain in H. tauto. Qed.

Definition img_ok (c0 : circle) (phi : R) (l : list circle) : Prop :=
  phi = 0 \/ forall c, In c l -> invert_circle (mkInv (st_pole c0 phi) (st_power c0 phi)) c = Ok (GC (st_img c0 phi c)).

Lemma circles_iff c0 n phi shift : (3 <= n)%nat -> 0 < cr c0 -> Rabs phi < 1 ->
  (st_circles c0 n phi shift = Ok (map GC (map (st_img c0 phi) (base_all c0 n shift))) <-> img_ok c0 phi (base_all c0 n shift)).
Proof.
  intros Hn H0 H1. unfold st_circles, img_ok. destruct (eqb phi 0) eqn:E.
  - apply eqb_true in E. split; [auto|]. intros _. rewrite map_map. f_equal. apply map_ext. intros c. unfold st_img. rewrite (proj2 (eqb_true phi 0) E). auto.
  - apply eqb_false in E. split.
    + intros H. right. apply mapM_Ok_Forall2 in H. revert H. generalize (base_all c0 n shift). induction l as [|x l IH]; intros H c [->|I] || intros H c []; inversion H; subst; auto.
    + intros [K|K]; [tauto|]. rewrite map_map. apply mapM_map. auto.
Qed.

Definition st_ell (c0 : circle) (n : nat) (phi : R) : ellipse :=
  let inner := st_img c0 phi (base_inner c0 n) in let a := (cr inner + cr c0) / 2 in let c := (fst (cO inner) - fst (cO c0)) / 2 in
  mkEllipse (midpoint (cO c0) (cO inner)) a (sqrt (a * a - c * c)) 0 true.

Lemma steiner_iff c0 n phi shift cs ell : (3 <= n)%Z -> 0 < cr c0 -> Rabs phi < 1 ->
  (SteinerChain c0 n phi shift = Ok (map GC cs, ell) <->
   img_ok c0 phi (base_all c0 (Z.to_nat n) shift) /\ cs = map (st_img c0 phi) (base_all c0 (Z.to_nat n) shift) /\ ell = st_ell c0 (Z.to_nat n) phi).
Proof.
  intros Hn H0 H1. destruct (finish_ok c0 (Z.to_nat n) phi shift ltac:(lia) H0 H1) as (_ & _ & _ & E). split.
  - intros H. destruct (steiner_Ok _ _ _ _ _ _ Hn H0 H1 H) as [-> F]. rewrite E in F. apply Ok_inj in F. injection F as <-. split; [|auto].
    apply circles_iff; auto; [lia|]. rewrite steiner_eq in H by auto. apply bind_Ok in H. destruct H as (gs & Hg & H). rewrite Hg. f_equal.
    unfold st_finish in H. destruct (last gs (GC c0)); [|discriminate]. apply bind_Ok in H. destruct H as (b & _ & H).
    apply bind_Ok in H. destruct H as (e & _ & H). apply Ok_inj in H. congruence.
  - intros (K & -> & ->). rewrite steiner_eq by auto. rewrite (proj2 (circles_iff c0 (Z.to_nat n) phi shift ltac:(lia) H0 H1) K). cbn [bind]. exact E.
Qed.

Lemma img_ok_incl c0 phi l l' : (forall c, In c l' -> In c l) -> img_ok c0 phi l -> img_ok c0 phi l'.
Proof. intros H [K|K]; [left|right]; auto. Qed.

Lemma steiner_same c0 n phi shift (k : Z) chain inner ell : (3 <= n)%Z -> 0 < cr c0 -> Rabs phi < 1 ->
  SteinerChain c0 n phi shift = Ok (map GC (chain ++ [inner]), ell) ->
  exists chain', SteinerChain c0 n phi (shift + IZR k) = Ok (map GC (chain' ++ [inner]), ell) /\ length chain' = length chain /\ forall c, In c chain' <-> In c chain.
Proof.
  intros Hn H0 H1 H. apply steiner_iff in H; auto. destruct H as (K & E & ->). unfold base_all in E. rewrite map_app in E. cbn [map] in E. apply app_inj_tail in E. destruct E as [-> ->].
  exists (map (st_img c0 phi) (base_chain c0 (Z.to_nat n) (shift + IZR k))). split; [|split].
  - apply steiner_iff; auto. split; [|split; auto].
    + eapply img_ok_incl; [|exact K]. intros c. apply (proj1 (base_all_iff c0 (Z.to_nat n) shift k c ltac:(lia))).
    + unfold base_all. rewrite map_app. reflexivity.
  - unfold base_chain. rewrite !map_length. auto.
  - intros c. rewrite !in_map_iff. split; intros (x & Ex & I); exists x; split; auto; apply (base_shift_iff c0 (Z.to_nat n) shift k x); auto; lia.
Qed.

Lemma nested_same c0 n phi shift n' phi' shift' (k k' : Z) blue red : (3 <= n)%Z -> 0 < cr c0 -> Rabs phi < 1 -> (3 <= n')%Z -> Rabs phi' < 1 ->
  nested_drawn c0 n phi shift n' phi' shift' = Ok (blue, c0, red) ->
  exists blue' red', nested_drawn c0 n phi (shift + IZR k) n' phi' (shift' + IZR k') = Ok (blue', c0, red') /\
    (forall c, In c blue' <-> In c blue) /\ (forall c, In c (concat red') <-> In c (concat red)).
Proof.
  intros Hn H0 H1 Hn' H1' H. pose proof (nested_ok _ _ _ _ _ _ _ _ _ _ Hn H0 H1 Hn' H1' H) as [_ (ch0 & in0 & Eb & Cc & _)].
  unfold nested_drawn in H. apply bind_Ok in H. destruct H as ([circles chains] & H & K). apply bind_Ok in K. destruct K as (bl & Kb & K). apply bind_Ok in K. destruct K as (rd & Kr & K). apply Ok_inj in K.
  injection K as -> ->. destruct (nested_chains_Ok _ _ _ _ _ _ _ _ _ Hn H0 H) as (chain & inner & ell & -> & Hs & L & F).
  rewrite mapM_GC in Kb. apply Ok_inj in Kb. rewrite <- Kb in Eb. apply app_inj_tail in Eb. destruct Eb as [<- <-]. subst blue.
  pose proof (chain_inside c0 (Z.to_nat n) (chain ++ [inner]) ltac:(exists chain, inner; split; auto)) as I. apply Forall_app in I. destruct I as [I _].
  (* every nested chain, shifted *)
  assert (G : forall c, In c chain -> exists cs cs' ell', SteinerChain c n' phi' shift' = Ok (map GC cs, ell') /\ SteinerChain c n' phi' (shift' + IZR k') = Ok (map GC cs', ell') /\ (forall x, In x cs' <-> In x cs)).
  { intros c Hc. rewrite Forall_forall in I. destruct (I c Hc) as [Pc _]. apply mapM_Ok_Forall2 in Kr.
    assert (Q : exists cs ell', SteinerChain c n' phi' shift' = Ok (map GC cs, ell')).
    { clear - F Kr Hc. revert red Kr. induction F as [|x gs chain chains (ell' & E) F IH]; intros red Kr; [destruct Hc|]. inversion Kr; subst. destruct Hc as [<-|Hc]; [|eauto].
      apply mapM_drawn in H1. subst gs. eauto. }
    destruct Q as (cs & ell' & Q). destruct (steiner_closed _ _ _ _ _ _ Hn' Pc H1' Q) as (a & b & -> & _).
    destruct (steiner_same _ _ _ _ k' _ _ _ Hn' Pc H1' Q) as (a' & Q' & _ & J). exists (a ++ [b]), (a' ++ [b]), ell'. split; auto. split; auto. intros x. rewrite !in_app_iff, J. tauto. }
  assert (R0 : forall x, In x (concat red) <-> exists c cs ell', In c chain /\ SteinerChain c n' phi' shift' = Ok (map GC cs, ell') /\ In x cs).
  { clear - F Kr. apply mapM_Ok_Forall2 in Kr. revert red Kr. induction F as [|x gs chain chains (ell' & E) F IH]; intros red Kr; inversion Kr; subst; cbn [concat].
    - intros x. split; [intros []|intros (c & _ & _ & [] & _)].
    - apply mapM_drawn in H1. subst gs. intros z. rewrite in_app_iff, (IH _ H3). split.
      + intros [J|(c & cs & e' & J1 & J2 & J3)]; [exists x, y, ell'; split; [left|]; auto|exists c, cs, e'; split; [right|]; auto].
      + intros (c & cs & e' & [<-|J1] & J2 & J3); [left|right; eauto 8]. rewrite E in J2. apply Ok_inj in J2. injection J2 as J2 _.
        assert (y = cs); [|congruence]. clear - J2. revert cs J2. induction y as [|p y IH]; intros [|q cs] J; try discriminate; auto. injection J as -> J. f_equal; auto. }
  destruct (steiner_same _ _ _ _ k _ _ _ Hn H0 H1 Hs) as (chain' & Hs' & L' & J).
  assert (X : exists red', Forall2 (fun c cs => exists ell', SteinerChain c n' phi' (shift' + IZR k') = Ok (map GC cs, ell')) chain' red').
  { assert (Q : Forall (fun c => exists cs ell', SteinerChain c n' phi' (shift' + IZR k') = Ok (map GC cs, ell')) chain').
    { apply Forall_forall. intros c Hc. apply J in Hc. destruct (G c Hc) as (cs & cs' & ell' & _ & Q & _). eauto. }
    clear - Q. induction Q as [|c chain (cs & ell' & E) Q (red & F)]; [exists []; constructor|]. exists (cs :: red). constructor; eauto. }
  destruct X as (red' & F').
  exists (chain' ++ [inner]), red'. split; [|split].
  - unfold nested_drawn, nested_chains. rewrite Hs'. cbn [bind]. rewrite map_app, firstn_app, map_length, L', L, Nat.sub_diag, firstn_O, app_nil_r. rewrite firstn_all2 by (rewrite map_length; lia).
    assert (M : forall s ch rd, Forall2 (fun c cs => exists ell', SteinerChain c n' phi' s = Ok (map GC cs, ell')) ch rd ->
      mapM (fun g => let! c := drawn g in let! (cs, _) := SteinerChain c n' phi' s in Ok cs) (map GC ch) = Ok (map (map GC) rd)).
    { clear. induction 1 as [|c cs ch rd (ell' & E) F IH]; cbn [map mapM]; auto. cbn [drawn bind]. rewrite E. cbn [bind]. rewrite IH. auto. }
    rewrite (M _ _ _ F'). cbn [bind]. rewrite <- map_app, mapM_GC. cbn [bind].
    assert (M' : forall rd, mapM (mapM drawn) (map (map GC) rd) = Ok rd). { clear. induction rd as [|cs rd IH]; cbn [map mapM]; auto. rewrite mapM_GC. cbn [bind]. rewrite IH. auto. }
    rewrite M'. auto.
  - intros c. rewrite !in_app_iff, J. tauto.
  - assert (R1 : forall x, In x (concat red') <-> exists c cs ell', In c chain' /\ SteinerChain c n' phi' (shift' + IZR k') = Ok (map GC cs, ell') /\ In x cs).
    { clear - F'. induction F' as [|x y chain chains (ell' & E) F IH]; cbn [concat].
      - intros x. split; [intros []|intros (c & _ & _ & [] & _)].
      - intros z. rewrite in_app_iff, IH. split.
        + intros [J|(c & cs & e' & J1 & J2 & J3)]; [exists x, y, ell'; split; [left|]; auto|exists c, cs, e'; split; [right|]; auto].
        + intros (c & cs & e' & [<-|J1] & J2 & J3); [left|right; eauto 8]. rewrite E in J2. apply Ok_inj in J2. injection J2 as J2 _.
          assert (y = cs); [|congruence]. clear - J2. revert cs J2. induction y as [|p y IH]; intros [|q cs] J; try discriminate; auto. injection J as -> J. f_equal; auto. }
    assert (Inj : forall y cs, map GC y = map GC cs -> y = cs). { clear. induction y as [|p y IH]; intros [|q cs] J; try discriminate; auto. injection J as -> J. f_equal; auto. }
    intros x. rewrite R0, R1. split; intros (c & cs & e' & J1 & J2 & J3).
    + apply J in J1. destruct (G c J1) as (a & a' & e1 & G1 & G2 & G3). rewrite G2 in J2. apply Ok_inj in J2. injection J2 as J2 _. apply Inj in J2. subst a'. exists c, a, e1. rewrite <- G3. auto.
    + destruct (G c J1) as (a & a' & e1 & G1 & G2 & G3). rewrite G1 in J2. apply Ok_inj in J2. injection J2 as J2 _. apply Inj in J2. subst a. exists c, a', e1. rewrite G3. rewrite J. auto.
Qed.
