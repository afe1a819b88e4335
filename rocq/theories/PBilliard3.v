(** * The elliptical billiard through the foci; the frames of the animation. *)

From Coq Require Import Reals List Bool ZArith Lra Lia Psatz.
From Verif Require Import Base BaseLemmas Spec SpecBilliard SpecLemmas ModelInternal ModelLine ModelCircle ModelAffine ModelEllipse ModelBilliard ModelBilliardAnim PLine PEllipse PEllipse2 PBilliard PBilliard2.
Import ListNotations.
Local Open Scope R_scope.

Lemma half_tan_spec a b Q : 0 < a -> 0 < b -> on_ellipse (0, 0) a b 0 Q -> snd Q <> 0 ->
  let T := half_tan a b Q in T <> 0 /\ fst Q * (1 + T * T) = a * (1 - T * T) /\ snd Q * (1 + T * T) = 2 * b * T.
Proof.
  intros Ha Hb HQ Hy T. apply std_on in HQ; auto. destruct Q as [x y]. cbn [fst snd] in *.
  assert (N : a + x <> 0). { intros K. assert (x = - a) by lra. subst x. assert (0 < a * a * (y * y)) by (apply Rmult_lt_0_compat; [nra|apply sqpos; auto]). lra. }
  assert (Ey : y = b * T * (a + x) / a). { unfold T, half_tan. cbn [fst snd]. field. repeat split; auto; lra. }
  assert (E : T * T * (a + x) = a - x).
  { apply Rmult_eq_reg_l with (b * b * (a + x)); [|apply Rmult_integral_contrapositive_currified; [nra|auto]].
    transitivity (a * a * (y * y)); [rewrite Ey; field; lra|]. lra. }
  split. { intros K. rewrite K in Ey. apply Hy. rewrite Ey. unfold Rdiv. ring. }
  split; [lra|]. rewrite Ey. apply Rmult_eq_reg_r with a; [|lra]. transitivity (b * T * ((a + x) + T * T * (a + x))); [field; lra|]. rewrite E. ring.
Qed.

Lemma focal_chord a b c P Q : 0 < a -> 0 < b -> c * c = a * a - b * b -> P <> Q -> on_ellipse (0, 0) a b 0 P -> on_ellipse (0, 0) a b 0 Q -> on_line P Q (c, 0) -> snd P <> 0 ->
  snd Q <> 0 /\ half_tan a b P * half_tan a b Q * (a + c) = - (a - c).
Proof.
  intros Ha Hb Hc N HP HQ HF Hy. apply cross0_on_line in HF; auto.
  assert (Ca : 0 < (a - c) * (a + c)) by nra. assert (Cp : 0 < a + c /\ 0 < a - c). { destruct (Rlt_le_dec 0 (a + c)); [split; [auto|]|]; nra. } destruct Cp as [Cp Cm].
  assert (Hy' : snd Q <> 0).
  { intros K. apply std_on in HQ; auto. destruct P as [px py], Q as [x y]. unfold scross in HF. unpt. subst y.
    assert (Z : py * (c - x) = 0) by lra. apply Rmult_integral in Z. destruct Z as [Z|Z]; [auto|]. assert (x = c) by lra. subst x.
    assert (b * b * (c * c) = a * a * (b * b)) by lra. rewrite Hc in H. assert (0 < b * b * (b * b)) by (repeat apply Rmult_lt_0_compat; auto). lra. }
  split; [auto|]. destruct (half_tan_spec a b P Ha Hb HP Hy) as (N1 & X1 & Y1). destruct (half_tan_spec a b Q Ha Hb HQ Hy') as (N2 & X2 & Y2).
  set (T := half_tan a b P) in *. set (T' := half_tan a b Q) in *. clearbody T T'. assert (D1 : 0 < 1 + T * T) by (pose proof (sqnn T); lra). assert (D2 : 0 < 1 + T' * T') by (pose proof (sqnn T'); lra).
  assert (NT : T <> T'). { intros K. subst T'. apply N. destruct P, Q. cbn [fst snd] in *. f_equal; apply Rmult_eq_reg_r with (1 + T * T); lra. }
  destruct P as [px py], Q as [x y]. unfold scross in HF. unpt.
  assert (F : (x - c) * py = (px - c) * y) by lra.
  assert (F2 : (a * (1 - T' * T') - c * (1 + T' * T')) * (2 * b * T) = (a * (1 - T * T) - c * (1 + T * T)) * (2 * b * T')).
  { rewrite <- X1, <- X2, <- Y1, <- Y2. transitivity ((x - c) * py * ((1 + T * T) * (1 + T' * T'))); [ring|]. rewrite F. ring. }
  assert (F3 : (2 * b) * ((T - T') * (T * T' * (a + c) + (a - c))) = 0) by lra.
  apply Rmult_integral in F3. destruct F3 as [F3|F3]; [lra|]. apply Rmult_integral in F3. destruct F3 as [F3|F3]; [lra|]. lra.
Qed.

Lemma two_points_line A B P Q M : P <> Q -> on_line A B P -> on_line A B Q -> on_line A B M -> on_line P Q M.
Proof.
  intros N [s ->] [t ->] [w ->]. apply cross0_on_line; auto. unfold at_line, scross. destruct A, B. unpt. ring.
Qed.

Lemma billiard_alternate e k P0 v0 segs c : std_ell e -> c * c = ea e * ea e - eb e * eb e -> billiard_trajectory e k P0 v0 = Ok segs ->
  exists q : nat -> pt, on_line P0 (vadd P0 v0) (q 0%nat) /\ on_line P0 (vadd P0 v0) (q 1%nat) /\ on_ellipse (0, 0) (ea e) (eb e) 0 (q 0%nat) /\
    (forall i, (i <= k)%nat -> chord (nth i segs dl) (q i) (q (S i)) /\ q i <> q (S i)) /\
    (on_line (q 0%nat) (q 1%nat) (c, 0) -> (forall i, (i <= k)%nat -> on_line (q i) (q (S i)) (if Nat.even i then c else - c, 0)) /\
       (snd (q 0%nat) <> 0 -> forall j, (2 * j <= S k)%nat ->
          half_tan (ea e) (eb e) (q (2 * j)%nat) = ((ea e + c) / (ea e - c)) ^ (2 * j) * half_tan (ea e) (eb e) (q 0%nat) /\
          let h := Rabs (half_tan (ea e) (eb e) (q 0%nat)) * ((ea e + c) / (ea e - c)) ^ (2 * j) in
          Rabs (snd (q (2 * j)%nat)) <= 2 * eb e * h /\ Rabs (snd (q (2 * j)%nat)) <= 2 * eb e / h)).
Proof.
  intros Hs Hc H. pose proof Hs as (_ & _ & Ha & Hb). destruct (billiard_chords e k P0 v0 segs Hs H) as (q & _ & L0 & L1 & Hq & Law). set (a := ea e) in *. set (b := eb e) in *. clearbody a b.
  exists q. split; [auto|]. split; [auto|]. split; [apply (Hq 0%nat); lia|]. split. { intros i Hi. destruct (Hq i Hi) as (K1 & K2 & _). auto. } intros HF.
  assert (Al : forall i, (i <= k)%nat -> on_line (q i) (q (S i)) (if Nat.even i then c else - c, 0)).
  { induction i as [|i IH]; intros Hi; [exact HF|]. rewrite Nat.even_succ, <- Nat.negb_even. specialize (IH (Nat.lt_le_incl _ _ Hi)).
    destruct (Hq i) as (_ & N1 & _ & O1); [lia|]. destruct (Hq (S i)) as (_ & N2 & _); [lia|].
    pose proof (fun c Hc => focus_bounce a b c (q i) (q (S i)) (q (S (S i))) Ha Hb Hc N1 N2 O1 (fun tau => Law i tau Hi)) as B.
    destruct (Nat.even i); cbn [negb]; [apply B; auto|]. replace c with (- - c) by ring. apply B; auto. lra. }
  split; [exact Al|]. intros Hy.
  assert (Ca : 0 < (a - c) * (a + c)) by nra. assert (Cp : 0 < a + c /\ 0 < a - c). { destruct (Rlt_le_dec 0 (a + c)); [split; [auto|]|]; nra. } destruct Cp as [Cp Cm].
  assert (Ev : forall j, Nat.even (2 * j) = true) by (intros j; rewrite Nat.even_mul; auto).
  assert (G : forall j, (2 * j <= S k)%nat -> snd (q (2 * j)%nat) <> 0 /\ on_ellipse (0, 0) a b 0 (q (2 * j)%nat) /\ half_tan a b (q (2 * j)%nat) = ((a + c) / (a - c)) ^ (2 * j) * half_tan a b (q 0%nat)).
  { induction j as [|j IH]; intros Hj.
    - replace (2 * 0)%nat with 0%nat by lia. split; [auto|]. split; [apply (Hq 0%nat); lia|]. cbn [pow]. ring.
    - destruct IH as (Y0 & O0 & T0); [lia|]. replace (2 * S j)%nat with (S (S (2 * j))) in * by lia.
      destruct (Hq (2 * j)%nat) as (_ & N1 & _ & O1); [lia|]. destruct (Hq (S (2 * j))) as (_ & N2 & _ & O2); [lia|].
      pose proof (Al (2 * j)%nat ltac:(lia)) as A1. pose proof (Al (S (2 * j)) ltac:(lia)) as A2. rewrite Nat.even_succ, <- Nat.negb_even, Ev in A2. rewrite Ev in A1. cbn [negb] in A2.
      destruct (focal_chord a b c _ _ Ha Hb Hc N1 O0 O1 A1 Y0) as [Y1 C1]. assert (Hc' : - c * - c = a * a - b * b) by lra. destruct (focal_chord a b (- c) _ _ Ha Hb Hc' N2 O1 O2 A2 Y1) as [Y2 C2].
      split; [auto|]. split; [auto|]. set (x0 := half_tan a b (q (2 * j)%nat)) in *. set (x1 := half_tan a b (q (S (2 * j)))) in *. set (x2 := half_tan a b (q (S (S (2 * j))))) in *.
      assert (X : x2 = ((a + c) / (a - c)) * ((a + c) / (a - c)) * x0).
      { assert (K : x1 * (x2 * (a - c)) = x1 * (((a + c) / (a - c)) * (a + c) * x0)). { transitivity (- (a + c)); [lra|]. transitivity ((a + c) / (a - c) * (x0 * x1 * (a + c))); [rewrite C1; field; lra|ring]. }
        apply Rmult_eq_reg_l in K; [|intros Z; rewrite Z in C1; lra]. apply Rmult_eq_reg_r with (a - c); [|lra]. rewrite K. field. lra. }
      rewrite X, T0. rewrite <- !tech_pow_Rmult. ring. }
  intros j Hj. destruct (G j Hj) as (Yj & Oj & Tj). split; [auto|]. intros h. destruct (half_tan_spec a b _ Ha Hb Oj Yj) as (NT & _ & EY). set (T := half_tan a b (q (2 * j)%nat)) in *.
  assert (Eh : h = Rabs T). { unfold h. rewrite Tj, Rabs_mult, Rmult_comm. f_equal. rewrite Rabs_right; auto. left. apply Rlt_gt, pow_lt, Rdiv_lt_0_compat; auto. }
  assert (Ph : 0 < h) by (rewrite Eh; apply Rabs_pos_lt; auto). assert (Hh : h * h = T * T) by (rewrite Eh, <- Rabs_mult; apply Rabs_right, Rle_ge, sqnn).
  assert (EY' : Rabs (snd (q (2 * j)%nat)) * (1 + h * h) = 2 * b * h). { rewrite Hh, Eh. rewrite <- (Rabs_right (1 + T * T)) by (pose proof (sqnn T); lra). rewrite <- Rabs_mult, EY, Rabs_mult. f_equal. apply Rabs_right. lra. }
  set (y := Rabs (snd (q (2 * j)%nat))) in *. assert (0 <= y) by apply Rabs_pos. clearbody h y. split.
  - assert (0 <= y * (h * h)) by (apply Rmult_le_pos; [auto|apply sqnn]). lra.
  - apply Rmult_le_reg_r with (h * h); [nra|]. replace (2 * b / h * (h * h)) with (2 * b * h) by (field; lra). lra.
Qed.

Lemma billiard_focal e k P0 v0 segs c : std_ell e -> c * c = ea e * ea e - eb e * eb e -> billiard_trajectory e k P0 v0 = Ok segs -> on_line P0 (vadd P0 v0) (c, 0) ->
  exists q : nat -> pt, on_line P0 (vadd P0 v0) (q 0%nat) /\ on_line P0 (vadd P0 v0) (q 1%nat) /\
    (forall i, (i <= k)%nat -> chord (nth i segs dl) (q i) (q (S i)) /\ q i <> q (S i) /\ on_line (q i) (q (S i)) (if Nat.even i then c else - c, 0)) /\
    (snd P0 <> 0 \/ snd v0 <> 0 -> forall j, (2 * j <= S k)%nat ->
       half_tan (ea e) (eb e) (q (2 * j)%nat) = ((ea e + c) / (ea e - c)) ^ (2 * j) * half_tan (ea e) (eb e) (q 0%nat) /\ half_tan (ea e) (eb e) (q 0%nat) <> 0 /\
       let h := Rabs (half_tan (ea e) (eb e) (q 0%nat)) * ((ea e + c) / (ea e - c)) ^ (2 * j) in
       Rabs (snd (q (2 * j)%nat)) <= 2 * eb e * h /\ Rabs (snd (q (2 * j)%nat)) <= 2 * eb e / h).
Proof.
  intros Hs Hc H HF. pose proof Hs as (_ & _ & Ha & Hb). destruct (billiard_alternate e k P0 v0 segs c Hs Hc H) as (q & L0 & L1 & On & Hq & Al).
  assert (N : q 0%nat <> q 1%nat) by (apply (Hq 0%nat); lia).
  assert (N0 : P0 <> vadd P0 v0). { intros K. rewrite <- K in L0, L1. destruct L0 as [s0 E0], L1 as [s1 E1]. apply N. rewrite E0, E1. unfold at_line. destruct P0. unpt. apply pair_eq; ring. }
  assert (F : on_line (q 0%nat) (q 1%nat) (c, 0)). { apply (two_points_line P0 (vadd P0 v0)); auto. }
  destruct (Al F) as [A1 A2]. exists q. split; [auto|]. split; [auto|]. split. { intros i Hi. destruct (Hq i Hi). auto. }
  intros Hv. assert (Hy : snd (q 0%nat) <> 0).
  { intros K. apply std_on in On; auto. rewrite K in On.
    assert (Nx : fst (q 0%nat) <> c). { intros Z. rewrite Z in On. assert (b2 : 0 < eb e * eb e * (eb e * eb e)) by (repeat apply Rmult_lt_0_compat; auto). rewrite Hc in On. lra. }
    destruct L0 as [s0 E0], HF as [s E]. unfold at_line in E0, E. rewrite E0 in K, Nx. destruct P0 as [px py], v0 as [vx vy]. unpt. injection E as E1 E2.
    assert (Z : vy = 0). { assert (Z : (s0 - s) * vy = 0) by lra. apply Rmult_integral in Z. destruct Z as [Z|Z]; [|auto]. exfalso. apply Nx. assert (s0 = s) by lra. subst s0. lra. }
    destruct Hv as [Hv|Hv]; apply Hv; [rewrite Z in E2; lra|auto]. }
  intros j Hj. destruct (A2 Hy j Hj) as [B1 B2]. split; [exact B1|]. split; [|exact B2]. apply (half_tan_spec (ea e) (eb e) (q 0%nat)); auto.
Qed.

(** ** Frames *)
Lemma loop_prefix e : forall k j P Q segs, (j <= k)%nat -> billiard_loop e k P Q = Ok segs -> billiard_loop e j P Q = Ok (firstn j segs) /\ length segs = k.
Proof.
  induction k as [|k IH]; intros j P Q segs Hj H.
  - assert (j = 0%nat) by lia. subst j. cbn in H. injection H as <-. auto.
  - cbn [billiard_loop] in H. destruct (billiard_step e P Q) as [[seg Q1]|] eqn:E; [|discriminate]. cbn [bind] in H. destruct (billiard_loop e k Q Q1) as [rest|] eqn:El; [|discriminate]. cbn [bind] in H. injection H as <-.
    destruct j as [|j].
    + destruct (IH 0%nat _ _ _ (Nat.le_0_l _) El) as [_ L]. cbn. auto.
    + destruct (IH j _ _ _ ltac:(lia) El) as [E1 L]. cbn [billiard_loop firstn length]. rewrite E. cbn [bind]. rewrite E1. cbn [bind]. auto.
Qed.

Lemma trajectory_prefix e k j P0 v0 segs : (j <= k)%nat -> billiard_trajectory e k P0 v0 = Ok segs -> billiard_trajectory e j P0 v0 = Ok (firstn (S j) segs) /\ length segs = S k.
Proof.
  intros Hj. unfold billiard_trajectory. destruct (Line_init P0 (vadd P0 v0) true true) as [l|]; [|discriminate]. cbn [bind]. destruct (intersection_ellipse_line e l) as [i|]; [|discriminate]. cbn [bind].
  destruct (two_points i) as [[I0 I1]|]; [|discriminate]. cbn [bind]. destruct (Line_init I0 I1 true true) as [seg|]; [|discriminate]. cbn [bind].
  destruct (billiard_loop e k P0 I1) as [rest|] eqn:El; [|discriminate]. cbn [bind]. intros H. injection H as <-. destruct (loop_prefix e k j _ _ _ Hj El) as [E L]. rewrite E. cbn [bind firstn length]. auto.
Qed.

Lemma frames_spec e m P0 v0 : 
  (forall frames, billiard_frames e m P0 v0 = Ok frames -> length frames = m /\
     (forall j, (j < m)%nat -> billiard_trajectory e j P0 v0 = Ok (nth j frames [])) /\
     forall traj, billiard_trajectory e m P0 v0 = Ok traj -> forall F, In F frames -> (length F < length traj)%nat) /\
  (forall x, billiard_frames e m P0 v0 = Raise x <-> billiard_trajectory e m P0 v0 = Raise x).
Proof.
  unfold billiard_frames. destruct (billiard_trajectory e m P0 v0) as [traj|y] eqn:E; cbn [bind].
  - split; [|intros x; split; discriminate]. intros frames H. injection H as <-. rewrite map_length, seq_length. split; [auto|].
    assert (L : length traj = S m) by (apply (trajectory_prefix e m 0 P0 v0); [lia|auto]). split.
    + intros j Hj. destruct (trajectory_prefix e m j P0 v0 traj) as [Ej _]; [lia|auto|]. rewrite Ej. f_equal. symmetry.
      rewrite (nth_indep _ [] (firstn 0 traj)) by (rewrite map_length, seq_length; auto). rewrite (map_nth (fun k => firstn k traj)). rewrite seq_nth by auto. auto.
    + intros traj' E' F HF. injection E' as <-. apply in_map_iff in HF. destruct HF as (k & <- & Hk). apply in_seq in Hk. rewrite firstn_length, L. lia.
  - split; [discriminate|]. intros x. split; intros H; injection H as <-; auto.
Qed.
