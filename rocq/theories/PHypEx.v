(** * Hyperbolic tessellations: cases that succeed, and the case of the script that is no tessellation. *)

From Coq Require Import Reals List Bool Arith Lia Lra Psatz Permutation Sorted.
From Verif Require Import Base BaseLemmas Spec SpecLemmas SpecHyperbolic ModelInternal ModelLine ModelCircle ModelInversion ModelHyperbolic PLine PCircle PCircle2 PInvBase PInversion PApo2 PMobGasket1 PGasket11 PHyp1 PHyp2 PHyp3 PHyp4 PHyp5.
Import ListNotations.
Local Open Scope R_scope.

(** ** The points of the pictures *)
Lemma unit_pts t0 t1 t2 P : In P [un t0; un t1; un t2] -> dist (0, 0) P = 1.
Proof.
  assert (H : forall t, dist (0, 0) (un t) = 1). { intros t. unfold dist, un. replace (dist2 (0, 0) (cos t, sin t)) with (cos t * cos t + sin t * sin t) by (unspec; ring). rewrite cs1. apply sqrt_1. }
  cbn [In]. intros [<-|[<-|[<-|[]]]]; apply H.
Qed.

Lemma hyperbolic_images r t0 t1 t2 depth pic d i M : 0 < r -> (2 <= depth)%nat -> hyperbolic_tessellation r t0 t1 t2 depth = Ok pic ->
  mirrored (nth 0 pic []) [un t0; un t1; un t2] d i M ->
  (1 < r -> dist (0, 0) M < r) /\ (r = 1 -> dist (0, 0) M = 1 /\ forall P, seen_at r M P <-> P = M).
Proof.
  intros Hr Hd H HM. destruct (hyperbolic_picture r t0 t1 t2 depth pic (mkArc (0, 0) 0 0 0 false) Hr Hd H) as (L & _ & F & _).
  assert (F0 : Forall (hyperbolic_line r) (nth 0 pic [])).
  { rewrite Forall_forall in F |- *. intros A HA. apply F. apply in_concat. exists (nth 0 pic []). split; auto. apply nth_In. lia. }
  destruct (mirrored_inside r _ _ d i M Hr F0 HM (unit_pts t0 t1 t2)) as [H1 H2]. split; auto. intros E. specialize (H2 E). split; auto.
  assert (N : M <> (0, 0)). { intros ->. unfold dist in H2. replace (dist2 (0, 0) (0, 0)) with 0 in H2 by (unspec; ring). rewrite sqrt_0 in H2. lra. }
  assert (S : vscal (r / dist (0, 0) M) M = M). { rewrite H2, E. destruct M. unfold vscal. cbn [fst snd]. f_equal; field. }
  intros P. split; [intros [[Q _]|[_ Q]]; [contradiction|rewrite Q; auto]|]. intros ->. right. split; auto.
Qed.

(** a side that is a diameter *)
Lemma hyperbolic_diameter r t0 t1 t2 depth pic : 0 < r -> hyperbolic_tessellation r t0 t1 t2 depth = Ok pic ->
  sin (t0 - t1) <> 0 /\ sin (t1 - t2) <> 0 /\ sin (t2 - t0) <> 0.
Proof.
  intros Hr H. unfold hyperbolic_tessellation in H. apply bind_Ok in H. destruct H as ([arcs gens] & Hp & _).
  destruct (points_count _ _ _ _ _ _ _ Hp) as (Hs & _). destruct (hyp_sides_spec _ _ _ _ _ Hs) as (A0 & A1 & A2 & _ & H0 & H1 & H2).
  repeat split; eapply arc_of_sin; eauto.
Qed.

(** ** When the arcs are drawn *)
Definition apart (l : list R) : Prop := NoDup l /\ forall x y, In x l -> In y l -> x <> y -> sin (x - y) <> 0.

Lemma apart_perm l l' : Permutation l l' -> apart l -> apart l'.
Proof. intros P [N H]. split; [apply (Permutation_NoDup P N)|]. intros x y Hx Hy. apply H; apply (Permutation_in _ (Permutation_sym P)); auto. Qed.

Lemma mapM_all {X Y} (f : X -> res Y) l : (forall x, In x l -> exists y, f x = Ok y) -> exists ys, mapM f l = Ok ys.
Proof.
  induction l as [|x l IH]; intros H; [exists []; reflexivity|]. destruct (H x ltac:(cbn; auto)) as (y & E). destruct IH as (ys & E'); [intros; apply H; cbn; auto|].
  exists (y :: ys). cbn [mapM]. rewrite E. cbn [bind]. rewrite E'. reflexivity.
Qed.

Lemma mapM_map {X Y} (f : X -> res Y) g l : (forall x, In x l -> f x = Ok (g x)) -> mapM f l = Ok (map g l).
Proof. induction l as [|x l IH]; intros H; [reflexivity|]. cbn [mapM map]. rewrite H by (cbn; auto). cbn [bind]. rewrite IH by (intros; apply H; cbn; auto). reflexivity. Qed.

(** the second script draws the arcs of the first ones *)
Lemma second_first r t0 t1 t2 depth pic : (2 <= depth)%nat -> hyperbolic_tessellation r t0 t1 t2 depth = Ok pic ->
  hyperbolic_tessellation2 r t0 t1 t2 depth = Ok (concat (map (fun d => map (fun A => (A, Datatypes.S d)) (nth d pic [])) (seq 0 (depth - 1)))).
Proof.
  intros Hd H. unfold hyperbolic_tessellation in H. apply bind_Ok in H. destruct H as ([arcs gens] & Hp & H). cbn [fst snd] in H.
  apply bind_Ok in H. destruct H as (Thetas & Ha & H). apply bind_Ok in H. destruct H as (levels & HL & H). injection H as <-.
  destruct (levels_nth _ 1 (depth - 1) levels [] HL) as [LL Hlev]. cbv beta in Hlev.
  unfold hyperbolic_tessellation2. rewrite Hp. cbn [bind fst snd]. rewrite Ha. cbn [bind].
  rewrite (mapM_map _ (fun d => map (fun A => (A, d)) (nth (d - 2) levels []))).
  2:{ intros d Hi. apply in_seq in Hi. specialize (Hlev (d - 2)%nat ltac:(lia)). replace (1 + (d - 2) + 1)%nat with d in Hlev by lia. rewrite Hlev. reflexivity. }
  cbn [bind]. f_equal. replace (depth - 1)%nat with (Datatypes.S (depth - 2)) by lia. cbn [seq map nth concat]. f_equal. f_equal.
  rewrite <- (seq_shift (depth - 2) 1), <- seq_shift, !map_map. apply map_ext. intros d. replace (Datatypes.S (Datatypes.S d) - 2)%nat with d by lia. reflexivity.
Qed.

Lemma hyp_arcs_total r l : 0 < r -> (2 <= length l)%nat -> apart l -> exists arcs, hyp_arcs (mkCircle (0, 0) r) l = Ok arcs.
Proof.
  intros Hr L [N H]. unfold hyp_arcs. apply mapM_all. intros i Hi. apply in_seq in Hi.
  assert (Hm : ((i + 1) mod length l < length l)%nat) by (apply Nat.mod_upper_bound; lia).
  destruct (arc_of_exists r (nth i l 0) (nth ((i + 1) mod length l) l 0) Hr) as (A & E).
  - apply H; try (apply nth_In; lia). intros Q. apply (proj1 (NoDup_nth l 0) N) in Q; try lia. 
    destruct (Nat.eq_dec (i + 1) (length l)) as [E|E]; [rewrite E, Nat.mod_same in Q by lia; lia|rewrite Nat.mod_small in Q by lia; lia].
  - exists A. unfold arc_of in E. rewrite E. reflexivity.
Qed.

Definition crs (P Q : pt) : R := snd P * fst Q - fst P * snd Q.

Lemma angle_sin P Q : crs P Q <> 0 -> sin (atan2 (snd P) (fst P) - atan2 (snd Q) (fst Q)) <> 0.
Proof.
  intros H. assert (NP : (fst P, snd P) <> (0, 0)) by (intros E; injection E as E1 E2; apply H; unfold crs; rewrite E1, E2; ring).
  assert (NQ : (fst Q, snd Q) <> (0, 0)) by (intros E; injection E as E1 E2; apply H; unfold crs; rewrite E1, E2; ring).
  destruct (cos_sin_atan2 _ _ NP) as [C1 S1]. destruct (cos_sin_atan2 _ _ NQ) as [C2 S2]. rewrite sin_minus, C1, S1, C2, S2.
  set (a := sqrt (fst P * fst P + snd P * snd P)) in *. set (b := sqrt (fst Q * fst Q + snd Q * snd Q)) in *.
  assert (Pa : 0 < a). { apply sqrt_lt_R0. assert (fst P <> 0 \/ snd P <> 0) by (destruct (Req_dec (fst P) 0) as [E1|]; auto; right; intros E2; apply NP; rewrite E1, E2; auto). destruct H0; nra. }
  assert (Pb : 0 < b). { apply sqrt_lt_R0. assert (fst Q <> 0 \/ snd Q <> 0) by (destruct (Req_dec (fst Q) 0) as [E1|]; auto; right; intros E2; apply NQ; rewrite E1, E2; auto). destruct H0; nra. }
  replace (snd P / a * (fst Q / b) - fst P / a * (snd Q / b)) with (crs P Q / (a * b)) by (unfold crs; field; lra).
  unfold Rdiv. apply Rmult_integral_contrapositive_currified; auto. apply Rinv_neq_0_compat. nra.
Qed.

Definition dir (P : pt) : R := atan2 (snd P) (fst P).

Lemma apart_points l : ForallOrdPairs (fun P Q => crs P Q <> 0) l -> apart (map dir l).
Proof.
  assert (C : forall P Q, crs P Q <> 0 -> crs Q P <> 0) by (intros P Q H E; apply H; unfold crs in *; lra).
  induction 1 as [|P l H F [N IH]]; [split; [constructor|intros x y []]|]. rewrite Forall_forall in H. cbn [map].
  assert (K : forall y, In y (map dir l) -> sin (dir P - y) <> 0 /\ sin (y - dir P) <> 0).
  { intros y Hy. apply in_map_iff in Hy. destruct Hy as (Q & <- & HQ). split; apply angle_sin; auto. }
  split.
  - constructor; auto. intros Hin. apply K in Hin. destruct Hin as [Hin _]. apply Hin. rewrite Rminus_diag_eq by auto. apply sin_0.
  - intros x y [<-|Hx] [<-|Hy] Hn; [contradiction|apply K; auto|apply K; auto|apply IH; auto].
Qed.

(** the centre and the radius of a side, from the directions of its ends *)
Lemma side_of r a b : 0 < r -> sin (a - b) <> 0 -> forall C, sdot C (un a) = r -> sdot C (un b) = r -> exists A, arc_of r a b A /\ aO A = C /\ ar A ^ 2 = dist2 (0, 0) C - r ^ 2.
Proof.
  intros Hr Hs C H1 H2. destruct (arc_of_exists r a b Hr Hs) as (A & E). exists A. split; auto. destruct (arc_centre r a b A Hr E) as [K1 K2].
  assert (EC : aO A = C).
  { rewrite sin_minus in Hs. destruct (aO A) as [x y], C as [x' y']. unfold un, sdot in *. cbn [fst snd] in *.
    assert (X : (x - x') * (sin a * cos b - cos a * sin b) = 0) by (transitivity (((x * cos b + y * sin b) - (x' * cos b + y' * sin b)) * sin a - ((x * cos a + y * sin a) - (x' * cos a + y' * sin a)) * sin b); [ring|rewrite H1, H2, K1, K2; ring]).
    assert (Y : (y - y') * (sin a * cos b - cos a * sin b) = 0) by (transitivity (((x * cos a + y * sin a) - (x' * cos a + y' * sin a)) * cos b - ((x * cos b + y * sin b) - (x' * cos b + y' * sin b)) * cos a); [ring|rewrite H1, H2, K1, K2; ring]).
    apply Rmult_integral in X, Y. f_equal; [destruct X|destruct Y]; lra. }
  split; auto. destruct (arc_of_line r a b A Hr E) as [(_ & HO & _) _]. unfold circ_orthogonal in HO. rewrite EC in HO. lra.
Qed.

Lemma sin_un a b : crs (un a) (un b) <> 0 -> sin (a - b) <> 0.
Proof. unfold crs, un. cbn [fst snd]. rewrite sin_minus. auto. Qed.

(** depth 2: three sides and three images *)
Lemma depth2 r t0 t1 t2 C0 C1 C2 M0 M1 M2 : 0 < r ->
  sdot C0 (un t0) = r -> sdot C0 (un t1) = r -> sdot C1 (un t1) = r -> sdot C1 (un t2) = r -> sdot C2 (un t2) = r -> sdot C2 (un t0) = r ->
  invert (mkInv C0 (dist2 (0, 0) C0 - r ^ 2)) (Pt (un t2)) = Pt M0 -> invert (mkInv C1 (dist2 (0, 0) C1 - r ^ 2)) (Pt (un t0)) = Pt M1 -> invert (mkInv C2 (dist2 (0, 0) C2 - r ^ 2)) (Pt (un t1)) = Pt M2 ->
  ForallOrdPairs (fun P Q => crs P Q <> 0) [un t0; un t1; un t2; M0; M1; M2] ->
  exists pic A0 A1 A2, hyperbolic_tessellation r t0 t1 t2 2 = Ok pic /\ nth 0 pic [] = [A0; A1; A2] /\ aO A0 = C0 /\ ar A0 ^ 2 = dist2 (0, 0) C0 - r ^ 2 /\ aO A1 = C1 /\ ar A1 ^ 2 = dist2 (0, 0) C1 - r ^ 2 /\ aO A2 = C2 /\ ar A2 ^ 2 = dist2 (0, 0) C2 - r ^ 2.
Proof.
  intros Hr a1 a2 b1 b2 c1 c2 I0 I1 I2 F. pose proof (apart_points _ F) as AP.
  assert (G : forall P Q, crs P Q <> 0 -> crs Q P <> 0) by (intros P Q H E; apply H; unfold crs in *; lra).
  assert (X01 : crs (un t0) (un t1) <> 0 /\ crs (un t1) (un t2) <> 0 /\ crs (un t2) (un t0) <> 0).
  { inversion F as [|? ? K1 F1]; subst. inversion F1 as [|? ? K2 F2]; subst. rewrite Forall_forall in K1, K2. repeat split; [apply K1; cbn; auto|apply K2; cbn; auto|apply G, K1; cbn; auto]. }
  destruct X01 as (X1 & X2 & X3).
  destruct (side_of r t0 t1 Hr (sin_un _ _ X1) C0 a1 a2) as (A0 & EA0 & O0 & R0).
  destruct (side_of r t1 t2 Hr (sin_un _ _ X2) C1 b1 b2) as (A1 & EA1 & O1 & R1).
  destruct (side_of r t2 t0 Hr (sin_un _ _ X3) C2 c1 c2) as (A2 & EA2 & O2 & R2).
  assert (ES : hyp_sides (mkCircle (0, 0) r) t0 t1 t2 = Ok [A0; A1; A2]).
  { unfold hyp_sides. cbn [mapM fst snd]. unfold arc_of in *. rewrite EA0. cbn [bind]. rewrite EA1. cbn [bind]. rewrite EA2. reflexivity. }
  assert (EP : hyp_points (mkCircle (0, 0) r) t0 t1 t2 2 = Ok ([A0; A1; A2], [[(Pt M0, 0%nat); (Pt M1, 1%nat); (Pt M2, 2%nat)]])).
  { unfold hyp_points. rewrite ES. cbn [bind]. change (2 - 1)%nat with 1%nat. cbn [generations]. unfold generation1. cbn [map].
    change ((0 + 2) mod 3)%nat with 2%nat. change ((1 + 2) mod 3)%nat with 0%nat. change ((2 + 2) mod 3)%nat with 1%nat. cbn [nth]. unfold side_inversion.
    rewrite O0, R0, O1, R1, O2, R2. change (unit_vector_ t0) with (un t0). change (unit_vector_ t1) with (un t1). change (unit_vector_ t2) with (un t2).
    rewrite I0, I1, I2. reflexivity. }
  assert (ET : hyp_angles t0 t1 t2 [[(Pt M0, 0%nat); (Pt M1, 1%nat); (Pt M2, 2%nat)]] = Ok [[dir (un t0); dir (un t1); dir (un t2)]; [dir M0; dir M1; dir M2]]).
  { unfold hyp_angles. destruct M0, M1, M2. reflexivity. }
  set (l := [dir (un t0); dir (un t1); dir (un t2); dir M0; dir M1; dir M2]).
  destruct (hyp_arcs_total r (sort_r l) Hr) as (arcs & EL).
  { rewrite (Permutation_length (sort_perm l)). cbn. lia. }
  { apply (apart_perm l); [apply Permutation_sym, sort_perm|exact AP]. }
  exists [[A0; A1; A2]; arcs], A0, A1, A2. split; [|repeat split; auto].
  unfold hyperbolic_tessellation. rewrite EP. cbn [bind fst snd]. rewrite ET. cbn [bind]. change (2 - 1)%nat with 1%nat. cbn [seq mapM Nat.add firstn concat app].
  fold l. rewrite EL. reflexivity.
Qed.

Definition s2 : R := atan2 (- (3 / 5)) (- (4 / 5)).
Lemma un_0 : un 0 = (1, 0). Proof. unfold un. rewrite cos_0, sin_0. auto. Qed.
Lemma un_1 : un (PI / 2) = (0, 1). Proof. unfold un. rewrite cos_PI2, sin_PI2. auto. Qed.
Lemma un_2 : un s2 = (- (4 / 5), - (3 / 5)).
Proof. unfold un, s2. destruct (unit_angle (- (4 / 5)) (- (3 / 5))) as [-> ->]; [lra|auto]. Qed.

Lemma inv_ex C k P N : dist2 C P <> 0 -> 1 <= dist2 C P -> dist2 (0, 0) P = 1 -> N = inv_pt C k P -> invert (mkInv C k) (Pt P) = Pt N.
Proof.
  intros Hd H1 HP ->. rewrite invert_far; auto. cbn [ipole].
  assert (B : Rabs (fst P) <= 1 /\ Rabs (snd P) <= 1).
  { destruct P as [x y]. revert HP. unspec. intros HP. split; apply Rabs_le; nra. }
  apply (allclose_far _ _ 1 1); try apply B; lra.
Qed.
Ltac inv_ex := apply inv_ex; [unspec; lra|unspec; lra|unspec; lra|unfold inv_pt; unspec; f_equal; field].

Ltac pairs_ex := repeat (constructor; [repeat (constructor; [unfold crs; cbn [fst snd]; lra|]); constructor|]); constructor.

Lemma ex3 : exists pic A0 A1 A2, hyperbolic_tessellation 3 0 (PI / 2) s2 2 = Ok pic /\ nth 0 pic [] = [A0; A1; A2] /\ aO A0 = (3, 3) /\ ar A0 ^ 2 = 9 /\ aO A1 = (-6, 3) /\ ar A1 ^ 2 = 36 /\ aO A2 = (3, -9) /\ ar A2 ^ 2 = 81.
Proof.
  destruct (depth2 3 0 (PI / 2) s2 (3, 3) (-6, 3) (3, -9) (240 / 137, 249 / 137) (- (48 / 29), 33 / 29) (84 / 109, - (171 / 109))) as (pic & A0 & A1 & A2 & H & H0 & K1 & K2 & K3 & K4 & K5 & K6);
    rewrite ?un_0, ?un_1, ?un_2; try (unfold sdot; cbn [fst snd]; lra); try lra; [inv_ex|inv_ex|inv_ex|pairs_ex|].
  exists pic, A0, A1, A2. repeat split; auto; [rewrite K2|rewrite K4|rewrite K6]; unspec; lra.
Qed.

Lemma ex1 : exists pic, hyperbolic_tessellation 1 0 (PI / 2) s2 2 = Ok pic.
Proof.
  destruct (depth2 1 0 (PI / 2) s2 (1, 1) (-2, 1) (1, -3) (20 / 29, 21 / 29) (- (4 / 5), 3 / 5) (8 / 17, - (15 / 17))) as (pic & A0 & A1 & A2 & H & _);
    rewrite ?un_0, ?un_1, ?un_2; try (unfold sdot; cbn [fst snd]; lra); try lra; [inv_ex|inv_ex|inv_ex|pairs_ex|]. eauto.
Qed.

(** the picture is not kept by the inversions in its sides *)
Lemma reflection_fails : exists t0 t1 t2 pic A P, hyperbolic_tessellation 3 t0 t1 t2 2 = Ok pic /\ In A (nth 0 pic []) /\ In P [vscal 3 (un t0); vscal 3 (un t1); vscal 3 (un t2)] /\ P <> aO A /\
  forall B Q R, In B (nth 1 pic []) -> joins B Q R -> Q <> inv_pt (aO A) (ar A ^ 2) P.
Proof.
  destruct ex3 as (pic & A0 & A1 & A2 & H & H0 & K1 & K2 & K3 & K4 & K5 & K6).
  exists 0, (PI / 2), s2, pic, A0, (vscal 3 (un s2)). split; auto. split; [rewrite H0; cbn; auto|]. split; [cbn; auto|].
  rewrite K1, K2, un_2. split; [intros E; injection E; lra|].
  assert (EI : inv_pt (3, 3) 9 (vscal 3 (- (4 / 5), - (3 / 5))) = (60 / 29, 63 / 29)) by (unfold inv_pt; unspec; f_equal; field). rewrite EI.
  intros B Q R HB HJ EQ. subst Q.
  destruct (hyperbolic_picture 3 0 (PI / 2) s2 2 pic B ltac:(lra) ltac:(lia) H) as (_ & (ps & P0 & PS) & _). destruct (PS 1%nat ltac:(lia)) as (_ & _ & PI & L1 & L2 & J).
  change (3 * 2 ^ 1)%nat with 6%nat in *. destruct (In_nth _ _ B HB) as (i & Hi & Ei). rewrite L2 in Hi. specialize (J i Hi). rewrite Ei in J.
  assert (IP : In (60 / 29, 63 / 29) (ps 1%nat)).
  { assert (I1 : In (nth i (ps 1%nat) (0, 0)) (ps 1%nat)) by (apply nth_In; lia). assert (I2 : In (nth ((i + 1) mod 6) (ps 1%nat) (0, 0)) (ps 1%nat)) by (apply nth_In; rewrite L1; apply Nat.mod_upper_bound; lia).
    unfold joins in HJ, J. destruct HJ as [[E1 E2]|[E1 E2]], J as [[F1 F2]|[F1 F2]]; first [rewrite <- E1, F1; assumption|rewrite <- E2, F2; assumption]. }
  apply PI in IP. destruct IP as [IP|(e & k & M & He & HM & HS)].
  - rewrite P0 in IP. cbn [In] in IP. rewrite un_0, un_1, un_2 in IP. unfold vscal in IP. cbn [fst snd] in IP. destruct IP as [E|[E|[E|[]]]]; injection E as E1 E2; lra.
  - assert (e = 1%nat) by lia. subst e. rewrite H0 in HM. inversion HM as [i' A P M' HA HP HN HMM | d' i' j A M' N' H' HN HA HMM HE]; subst; [|inversion H'].
    assert (CC : forall x y, seen_at 3 (x, y) (60 / 29, 63 / 29) -> x * 63 = y * 60).
    { intros x y [[E1 E2]|[E1 E2]]; [injection E2; lra|]. injection E2 as E2 E3. set (q := 3 / dist (0, 0) (x, y)) in *. clearbody q.
      assert (q <> 0) by (intros ->; lra). apply (Rmult_eq_reg_l q); auto. lra. }
    destruct k as [|[|[|k]]]; [| | |destruct k; discriminate]; cbn [nth_error] in HA; injection HA as <-.
    + change ((0 + 2) mod 3)%nat with 2%nat in HP. cbn [nth_error] in HP. injection HP as <-. rewrite K1, K2, un_2 in HS.
      replace (inv_pt (3, 3) 9 (- (4 / 5), - (3 / 5))) with ((240 / 137, 249 / 137) : pt) in HS by (unfold inv_pt; unspec; f_equal; field). apply CC in HS. lra.
    + change ((1 + 2) mod 3)%nat with 0%nat in HP. cbn [nth_error] in HP. injection HP as <-. rewrite K3, K4, un_0 in HS.
      replace (inv_pt (-6, 3) 36 (1, 0)) with ((- (48 / 29), 33 / 29) : pt) in HS by (unfold inv_pt; unspec; f_equal; field). apply CC in HS. lra.
    + change ((2 + 2) mod 3)%nat with 1%nat in HP. cbn [nth_error] in HP. injection HP as <-. rewrite K5, K6, un_1 in HS.
      replace (inv_pt (3, -9) 81 (0, 1)) with ((84 / 109, - (171 / 109)) : pt) in HS by (unfold inv_pt; unspec; f_equal; field). apply CC in HS. lra.
Qed.
