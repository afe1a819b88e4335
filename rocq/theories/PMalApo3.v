(** * Proofs about the Malfatti gasket: four circles in mutual contact and their four walls. *)

From Coq Require Import Reals Lra Lia Psatz List Bool FinFun.
From Verif Require Import Base BaseLemmas Spec SpecLemmas SpecTriangle SpecGasket SpecApollonian ModelInternal ModelLine ModelCircle ModelTriangle ModelInversion ModelApollonian PInvBase PInversion PInversion2 PTriangle PTriangle2 PTriangle3 PTriangle4 PTriangle5 PSteiner PGasket1 PGasket5 PApo1 PApo2 PApo3 PApo4 PApo5 PMalApo1.
Import ListNotations.
Local Open Scope R_scope.

(** the image of a circle that surrounds the pole *)
Lemma invert_refl_neg iota c c' : posc c -> 0 < ipower iota -> pow_circle (cO c) (cr c) (ipole iota) < 0 ->
  invert_circle iota c = Ok (GC c') -> posc c' /\ vc c' = refl (wv iota) (v4scal (-1) (vc c)).
Proof.
  intros Hc Hk Hp H. apply invert_circle_GC in H; [|exact Hc]. destruct H as (_ & _ & Pc & E1 & E2). split; [exact Pc|].
  unfold refl. rewrite kap_scal_l, (kap_wv c iota Hc Hk). pose proof (sqrt_lt_R0 _ Hk) as S. pose proof (sqrt_def _ (Rlt_le _ _ Hk)) as SS.
  unfold inv_scale in *. assert (Sc : ipower iota / pow_circle (cO c) (cr c) (ipole iota) < 0) by (unfold Rdiv; pose proof (Rinv_lt_0_compat _ Hp); nra).
  rewrite Rabs_left in E2 by lra. unfold posc in *. destruct c' as [[x' y'] r']. destruct c as [[x y] r]. destruct iota as [[px py] k]. unfold wv, vc, v4add, v4scal, vadd, vsub, vscal, vb, vp, vw in *.
  cbn [cO cr ipole ipower fst snd] in *. set (q := sqrt k) in *. set (D := pow_circle (x, y) r (px, py)) in *. injection E1 as Ex Ey.
  assert (ED : (x - px) * (x - px) + (y - py) * (y - py) = D + r * r) by (unfold D, pow_circle, dist2; unspec; simpl; ring).
  assert (Hq : k = q * q) by lra. rewrite Ex, Ey, E2. rewrite Hq. unfold sdot. cbn [fst snd].
  assert (X2 : x * x + y * y = D + r * r + 2 * (x * px + y * py) - (px * px + py * py)) by lra.
  f_equal; [f_equal; [|f_equal]|].
  - field. repeat split; lra.
  - field. repeat split; lra.
  - field. repeat split; lra.
  - apply (Rmult_eq_reg_l (- (q * q * r * D))); [|apply Rgt_not_eq; replace (- (q * q * r * D)) with (q * q * r * - D) by ring; repeat apply Rmult_lt_0_compat; lra].
    transitivity (D * ((px * D + q * q * (x - px)) * (px * D + q * q * (x - px)) + (py * D + q * q * (y - py)) * (py * D + q * q * (y - py))) / D - q * q * (q * q) * (r * r)).
    + field. repeat split; lra.
    + transitivity (q * q * D * (x * x + y * y - r * r) + (D - q * q) * D * (px * px + py * py - q * q)); [|field; repeat split; lra].
      replace (D * ((px * D + q * q * (x - px)) * (px * D + q * q * (x - px)) + (py * D + q * q * (y - py)) * (py * D + q * q * (y - py))) / D)
        with (D * D * (px * px + py * py) + 2 * D * (q * q) * (x * px + y * py - (px * px + py * py)) + q * q * (q * q) * ((x - px) * (x - px) + (y - py) * (y - py))) by (field; lra).
      rewrite ED, X2. ring.
Qed.

(** the drawn generations are the computed ones *)
Lemma drawn_fst (L : list (gcircle * nat)) : forall cs, mapM (fun c => drawn (fst c)) L = Ok cs <-> map fst L = map GC cs.
Proof.
  intros cs. rewrite <- drawn_GC. induction L as [|x L IH] in cs |- *; cbn [mapM map]; [tauto|]. destruct (drawn (fst x)); cbn [bind]; [|split; discriminate].
  split; intros E.
  - destruct (mapM (fun c => drawn (fst c)) L) as [l|] eqn:El; cbn [bind] in E; [|discriminate]. rewrite (proj1 (IH l) eq_refl). cbn [bind]. exact E.
  - destruct (mapM drawn (map fst L)) as [l|] eqn:El; cbn [bind] in E; [|discriminate]. rewrite (proj2 (IH l) eq_refl). cbn [bind]. exact E.
Qed.
Lemma malfatti_desc invs d : forall L gs, malfatti_descendants invs L d = Ok gs <-> exists Ls, descendants invs L d = Ok Ls /\ map (map fst) Ls = map (map GC) gs.
Proof.
  induction d as [|d IH]; intros L gs; cbn [malfatti_descendants descendants].
  - split; [intros E; injection E as <-; exists []; auto|]. intros (Ls & E & E'). injection E as <-. destruct gs; [auto|discriminate].
  - destruct (children invs L) as [L'|e]; cbn [bind]; [|split; [discriminate|intros (Ls & E & _); discriminate]]. split.
    + intros E. destruct (mapM _ L') as [sp|] eqn:Es; cbn [bind] in E; [|discriminate]. destruct (malfatti_descendants invs L' d) as [mo|] eqn:Em; cbn [bind] in E; [|discriminate]. injection E as <-.
      apply IH in Em. destruct Em as (Ls & -> & E2). cbn [bind]. exists (L' :: Ls). split; [auto|]. cbn [map]. rewrite E2. apply drawn_fst in Es. rewrite Es. auto.
    + intros (Ls & E & E'). destruct (descendants invs L' d) as [Ls'|] eqn:Ed; cbn [bind] in E; [|discriminate]. injection E as <-. destruct gs as [|g gs]; [discriminate|]. cbn [map] in E'. injection E' as E1 E2.
      rewrite (proj2 (drawn_fst L' g) E1). cbn [bind]. rewrite (proj2 (IH L' gs)); [auto|]. exists Ls'. auto.
Qed.

Section Four.
Variables (c1 c2 c3 co : circle) (S : R) (iot : nat -> inversion).
Hypothesis H : Ravi (cO c1) (cO c2) (cO c3) (cr c1) (cr c2) (cr c3) S.
Hypothesis Po : posc co.
Hypothesis Eo : sod (vc c1) (vc c2) (vc c3) (vc (orthc c1 c2 c3 S)) = v4scal (-1) (vc co).
Hypothesis T1 : dist (cO co) (cO c1) = cr co - cr c1.
Hypothesis T2 : dist (cO co) (cO c2) = cr co - cr c2.
Hypothesis T3 : dist (cO co) (cO c3) = cr co - cr c3.
Hypothesis F0 : from_fixing_three_circles co c2 c3 = Ok (iot 0%nat).
Hypothesis F1 : from_fixing_three_circles co c1 c3 = Ok (iot 1%nat).
Hypothesis F2 : from_fixing_three_circles co c1 c2 = Ok (iot 2%nat).
Hypothesis F3 : from_fixing_three_circles c1 c2 c3 = Ok (iot 3%nat).

Definition sv4 (s : nat) : v4 := match s with 0%nat => v4scal (-1) (vc co) | 1%nat => vc c1 | 2%nat => vc c2 | _ => vc c3 end.
(** the seed that a wall moves *)
Definition mv (g : nat) : nat := match g with 0%nat => 1%nat | 1%nat => 2%nat | 2%nat => 3%nat | _ => 0%nat end.

Lemma posc3 : posc c1 /\ posc c2 /\ posc c3.
Proof. destruct H as (H1 & H2 & H3 & _). auto. Qed.
Lemma tang3 : tang c1 c2 /\ tang c2 c3 /\ tang c1 c3.
Proof. destruct H as (_ & _ & _ & _ & _ & E1 & E2 & E3 & _). unfold tang. auto. Qed.

Lemma sv4_self s : kap (sv4 s) (sv4 s) = -1.
Proof.
  destruct posc3 as (P1 & P2 & P3). destruct s as [|[|[|s]]]; cbn [sv4]; try apply kap_self; auto. rewrite kap_scal_l, kap_scal_r, kap_self by auto. ring.
Qed.
Lemma sv4_0 c : posc c -> dist (cO co) (cO c) = cr co - cr c -> kap (sv4 0) (vc c) = 1.
Proof. intros P E. cbn [sv4]. rewrite kap_scal_l, kap_sym, inner_tang_kap by auto. ring. Qed.
Lemma sv4_tan s t : (s < 4)%nat -> (t < 4)%nat -> s <> t -> kap (sv4 s) (sv4 t) = 1.
Proof.
  destruct posc3 as (P1 & P2 & P3). destruct tang3 as (T12 & T23 & T13). apply kap_tang in T12, T23, T13; auto.
  pose proof (sv4_0 c1 P1 T1) as Q1. pose proof (sv4_0 c2 P2 T2) as Q2. pose proof (sv4_0 c3 P3 T3) as Q3.
  intros Hs Ht D. destruct s as [|[|[|[|s]]]], t as [|[|[|[|t]]]]; try lia; cbn [sv4] in *; auto; rewrite kap_sym; auto.
Qed.

Lemma mv_lt g : (mv g < 4)%nat.
Proof. destruct g as [|[|[|g]]]; cbn [mv]; lia. Qed.
Lemma mv_inj g h : (g < 4)%nat -> (h < 4)%nat -> mv g = mv h -> g = h.
Proof. destruct g as [|[|[|[|g]]]], h as [|[|[|[|h]]]]; cbn [mv]; lia. Qed.
Lemma mv_surj s : (s < 4)%nat -> exists g, (g < 4)%nat /\ mv g = s.
Proof. intros Hs. destruct s as [|[|[|[|s]]]]; [exists 3%nat|exists 0%nat|exists 1%nat|exists 2%nat|]; cbn [mv]; lia. Qed.

Lemma iot4 g : (g < 4)%nat -> 0 < ipower (iot g) /\ (forall s, (s < 4)%nat -> s <> mv g -> kap (sv4 s) (wv (iot g)) = 0) /\
  ((g < 3)%nat -> ipower (iot g) = pow_circle (cO co) (cr co) (ipole (iot g))).
Proof.
  destruct posc3 as (P1 & P2 & P3). destruct tang3 as (T12 & T23 & T13). intros Hg.
  assert (Z : forall c, posc c -> 0 < ipower (iot g) -> ipower (iot g) = pow_circle (cO c) (cr c) (ipole (iot g)) -> kap (vc c) (wv (iot g)) = 0) by (intros c Pc Pk E; rewrite kap_sym; apply kap_wv_fix; auto).
  assert (Z0 : 0 < ipower (iot g) -> ipower (iot g) = pow_circle (cO co) (cr co) (ipole (iot g)) -> kap (sv4 0) (wv (iot g)) = 0) by (intros Pk E; cbn [sv4]; rewrite kap_scal_l, Z by auto; ring).
  destruct g as [|[|[|[|g]]]]; try lia; [pose proof F0 as F|pose proof F1 as F|pose proof F2 as F|pose proof F3 as F]; destruct (fixing_three_spec _ _ _ _ F) as (E0 & E1 & E2).
  - assert (P : 0 < ipower (iot 0%nat)) by (apply (power_pos_in co c2 c3 (ipole (iot 0%nat))); auto). split; [auto|]. split; [|auto].
    intros s Hs D. destruct s as [|[|[|[|s]]]]; cbn [mv] in D; try lia; [apply Z0; auto| |]; cbn [sv4]; apply Z; auto.
  - assert (P : 0 < ipower (iot 1%nat)) by (apply (power_pos_in co c1 c3 (ipole (iot 1%nat))); auto). split; [auto|]. split; [|auto].
    intros s Hs D. destruct s as [|[|[|[|s]]]]; cbn [mv] in D; try lia; [apply Z0; auto| |]; cbn [sv4]; apply Z; auto.
  - assert (P : 0 < ipower (iot 2%nat)) by (apply (power_pos_in co c1 c2 (ipole (iot 2%nat))); auto). split; [auto|]. split; [|auto].
    intros s Hs D. destruct s as [|[|[|[|s]]]]; cbn [mv] in D; try lia; [apply Z0; auto| |]; cbn [sv4]; apply Z; auto.
  - assert (P : 0 < ipower (iot 3%nat)) by (apply (power_pos_ext c1 c2 c3 (ipole (iot 3%nat))); auto). split; [auto|]. split; [|lia].
    intros s Hs D. destruct s as [|[|[|[|s]]]]; cbn [mv] in D; try lia; cbn [sv4]; apply Z; auto.
Qed.

Definition sg4 (g : nat) : R := if Rle_dec 0 (kap (sv4 (mv g)) (wv (iot g))) then 1 else -1.
Definition bw4 (g : nat) : v4 := v4scal (sg4 g) (wv (iot g)).
Lemma sg4_sq g : sg4 g * sg4 g = 1.
Proof. unfold sg4. destruct (Rle_dec _ _); ring. Qed.
Lemma bw4_self g : (g < 4)%nat -> kap (bw4 g) (bw4 g) = -1.
Proof. intros Hg. unfold bw4. rewrite kap_scal_l, kap_scal_r, <- Rmult_assoc, sg4_sq, wv_unit by (apply iot4; auto). ring. Qed.
Lemma bw4_fix g s : (g < 4)%nat -> (s < 4)%nat -> s <> mv g -> kap (sv4 s) (bw4 g) = 0.
Proof. intros Hg Hs D. unfold bw4. rewrite kap_scal_r, (proj1 (proj2 (iot4 g Hg))) by auto. ring. Qed.
Lemma bw4_frame g a b c : (g < 4)%nat -> (a < 4)%nat -> (b < 4)%nat -> (c < 4)%nat -> a <> b -> a <> c -> b <> c -> a <> mv g -> b <> mv g -> c <> mv g ->
  frame (sv4 a) (sv4 b) (sv4 c) (bw4 g).
Proof.
  intros. unfold frame. split; [rewrite !sv4_self, bw4_self by auto; auto|]. split; [rewrite !sv4_tan by auto; auto|]. split; [|split]; rewrite kap_sym; apply bw4_fix; auto.
Qed.
Lemma other_three m : (m < 4)%nat -> exists a b c, (a < 4)%nat /\ (b < 4)%nat /\ (c < 4)%nat /\ a <> b /\ a <> c /\ b <> c /\ a <> m /\ b <> m /\ c <> m /\ forall s, (s < 4)%nat -> s = m \/ s = a \/ s = b \/ s = c.
Proof.
  intros Hm. destruct m as [|[|[|[|m]]]]; [exists 1%nat, 2%nat, 3%nat|exists 0%nat, 2%nat, 3%nat|exists 0%nat, 1%nat, 3%nat|exists 0%nat, 1%nat, 2%nat|lia]; repeat split; lia.
Qed.
Lemma bw4_moved g : (g < 4)%nat -> kap (sv4 (mv g)) (bw4 g) = 2.
Proof.
  intros Hg. pose proof (mv_lt g) as Hm. destruct (other_three (mv g) Hm) as (a & b & c & Ha & Hb & Hc & D1 & D2 & D3 & N1 & N2 & N3 & _).
  pose proof (bw4_frame g a b c Hg Ha Hb Hc D1 D2 D3 N1 N2 N3) as F. pose proof (frame_norm _ _ _ _ (sv4 (mv g)) F (sv4_self _)) as Q. rewrite !sv4_tan in Q by auto.
  assert (P : 0 <= kap (sv4 (mv g)) (bw4 g)) by (unfold bw4; rewrite kap_scal_r; unfold sg4; destruct (Rle_dec _ _); lra). nra.
Qed.
Lemma bw4_walls g h : (g < 4)%nat -> (h < 4)%nat -> g <> h -> kap (bw4 g) (bw4 h) = 1.
Proof.
  intros Hg Hh D. pose proof (mv_lt h) as Hm. assert (Dm : mv g <> mv h) by (intros E; apply D, mv_inj; auto). destruct (other_three (mv h) Hm) as (a & b & c & Ha & Hb & Hc & D1 & D2 & D3 & N1 & N2 & N3 & All).
  pose proof (bw4_frame h a b c Hh Ha Hb Hc D1 D2 D3 N1 N2 N3) as F. pose proof (frame_kap _ _ _ _ (bw4 g) (sv4 (mv h)) F) as K. rewrite (bw4_moved h Hh), !(kap_sym (bw4 g)) in K. rewrite (kap_sym (bw4 h)) in K.
  rewrite (bw4_fix g (mv h)) in K by auto. rewrite (sv4_tan (mv h) a), (sv4_tan (mv h) b), (sv4_tan (mv h) c) in K by auto.
  destruct (All (mv g) (mv_lt g)) as [E|[E|[E|E]]]; [lia| | |]; rewrite <- E in *; rewrite (bw4_moved g Hg) in K; rewrite ?(bw4_fix g a), ?(bw4_fix g b), ?(bw4_fix g c) in K by auto; lra.
Qed.

(** the wall that moves the outside is the circle orthogonal to the three circles *)
Lemma wall3 : bw4 3 = wv (iot 3%nat).
Proof.
  destruct (orthc_frame c1 c2 c3 S H) as (PD & F). destruct (sod_frame _ _ _ _ F) as (_ & _ & _ & _ & K). rewrite Eo in K. set (d := vc (orthc c1 c2 c3 S)) in *.
  destruct (iot4 3 ltac:(lia)) as (Pk & Z & _). pose proof (Z 1%nat ltac:(lia) ltac:(cbn [mv]; lia)) as Z1. pose proof (Z 2%nat ltac:(lia) ltac:(cbn [mv]; lia)) as Z2. pose proof (Z 3%nat ltac:(lia) ltac:(cbn [mv]; lia)) as Z3.
  cbn [sv4] in Z1, Z2, Z3. rewrite kap_sym in Z1, Z2, Z3. pose proof (frame_expand _ _ _ _ (wv (iot 3%nat)) F) as E. pose proof (frame_norm _ _ _ _ (wv (iot 3%nat)) F (wv_unit _ Pk)) as Q.
  rewrite Z1, Z2, Z3 in E, Q. set (k := kap (wv (iot 3%nat)) d) in *.
  assert (Ek : k = -1).
  { apply (f_equal vb) in E. assert (V1 : 0 < vb (wv (iot 3%nat))) by (unfold wv, vc, vb; cbn [fst cr]; apply Rinv_0_lt_compat, sqrt_lt_R0; auto).
    assert (V2 : 0 < vb d) by (unfold d, vc, vb; cbn [fst]; apply Rinv_0_lt_compat, PD). rewrite E in V1. unfold v4add, v4scal, vb in V1, V2. cbn [fst snd] in V1. nra. }
  unfold bw4, sg4. cbn [mv sv4]. assert (K2 : kap (v4scal (-1) (vc co)) (wv (iot 3%nat)) = 2).
  { rewrite kap_sym, E, !kap_add_l, !kap_scal_l, (kap_sym d), K, Ek. field. }
  rewrite K2. destruct (Rle_dec 0 2); [|lra]. destruct (wv (iot 3%nat)) as [[? [? ?]] ?]. unfold v4scal, vscal, vb, vp, vw. cbn [fst snd]. f_equal; [f_equal; [|f_equal]|]; ring.
Qed.

(** ** the hypotheses of the generations *)
Lemma G_B1 g : (g < 4)%nat -> kap (bw4 g) (bw4 g) = -1.
Proof. apply bw4_self. Qed.
Lemma G_B2 g h : (g < 4)%nat -> (h < 4)%nat -> g <> h -> 1 <= kap (bw4 g) (bw4 h).
Proof. intros. rewrite bw4_walls by auto. lra. Qed.
Lemma G_S1 s : (s < 4)%nat -> kap (sv4 s) (sv4 s) = -1.
Proof. intros. apply sv4_self. Qed.
Lemma G_S2 s t : (s < 4)%nat -> (t < 4)%nat -> s <> t -> 1 <= kap (sv4 s) (sv4 t).
Proof. intros. rewrite sv4_tan by auto. lra. Qed.
Lemma G_BS g s : (g < 4)%nat -> (s < 4)%nat -> kap (sv4 s) (bw4 g) = 0 \/ 1 <= kap (sv4 s) (bw4 g).
Proof. intros Hg Hs. destruct (Nat.eq_dec s (mv g)) as [->|D]; [right; rewrite bw4_moved by auto; lra|left; apply bw4_fix; auto]. Qed.
Lemma G_moves g s : (g < 4)%nat -> (s < 4)%nat -> 1 <= kap (sv4 s) (bw4 g) -> s = mv g.
Proof. intros Hg Hs K. destruct (Nat.eq_dec s (mv g)) as [|D]; [auto|]. rewrite bw4_fix in K by auto. lra. Qed.
Definition invs4 : list (option inversion) := [Some (iot 0%nat); Some (iot 1%nat); Some (iot 2%nat); Some (iot 3%nat)].
Lemma G_IN g : (g < 4)%nat -> nth g invs4 None = Some (iot g) /\ 0 < ipower (iot g) /\ forall x, refl (bw4 g) x = refl (wv (iot g)) x.
Proof.
  intros Hg. split; [destruct g as [|[|[|[|g]]]]; try lia; reflexivity|]. split; [apply iot4; auto|]. intros x. unfold bw4, sg4. destruct (Rle_dec _ _); [|apply refl_opp].
  f_equal. destruct (wv (iot g)) as [[? [? ?]] ?]. unfold v4scal, vscal, vb, vp, vw. cbn [fst snd]. f_equal; [f_equal; [|f_equal]|]; ring.
Qed.
Lemma G_C1 : (1 < 4)%nat /\ posc c1 /\ sv4 1%nat = vc c1 /\ inner c1 co.
Proof. split; [lia|]. split; [apply posc3|]. split; [reflexivity|]. unfold inner. rewrite dist_sym, T1. lra. Qed.
Lemma G_CO : posc co /\ sv4 0%nat = v4scal (-1) (vc co).
Proof. auto. Qed.
Lemma G_PW g : (g < 4)%nat -> bw4 g = wv (iot g) \/ 0 < pow_circle (cO co) (cr co) (ipole (iot g)).
Proof.
  intros Hg. destruct (Nat.eq_dec g 3) as [->|D]; [left; apply wall3|right]. destruct (iot4 g Hg) as (P & _ & E). rewrite <- E by lia. auto.
Qed.
(** ** the first generation *)
Definition off4 (_ : nat) : nat := 0%nat.
Definition labs4 : list label := map (fun g => ([g], mv g)) (seq 0 4).
Local Notation lok := (lok 4 4 bw4 sv4).
Local Notation crep := (crep 4 4 bw4 sv4).
Local Notation rep := (rep 4 4 bw4 sv4).
Local Notation level_labels := (level_labels 4 4 bw4 sv4 off4).
Definition seed4 (s : nat) : circle := match s with 0%nat => co | 1%nat => c1 | 2%nat => c2 | _ => c3 end.

Lemma lok_seed s : (s < 4)%nat -> lok ([], s).
Proof. intros Hs. split; [exact Hs|]. split; exact I. Qed.
Lemma lok_first g : (g < 4)%nat -> lok ([g], mv g).
Proof. intros Hg. split; [apply mv_lt|]. split; [split; [auto|split; exact I]|]. cbn [fst snd moves]. rewrite bw4_moved by auto. lra. Qed.
Lemma crep_seed s : (1 <= s < 4)%nat -> crep (seed4 s) ([], s).
Proof.
  intros Hs. destruct posc3 as (P1 & P2 & P3). split; [|split; [|apply lok_seed; lia]]; destruct s as [|[|[|[|s]]]]; try lia; auto; reflexivity.
Qed.
Lemma labs4_level : level_labels 1 labs4.
Proof.
  split.
  - unfold labs4. apply FinFun.Injective_map_NoDup; [|apply seq_NoDup]. intros i j E. congruence.
  - intros l. unfold labs4. rewrite in_map_iff. split.
    + intros (g & <- & J). apply in_seq in J. split; [apply lok_first; lia|reflexivity].
    + intros (L & E). destruct l as [w s]. unfold level, off4 in E. cbn [fst snd] in E. destruct w as [|g [|h w]]; cbn [length] in E; try lia. destruct L as (Hs & (Hg & _) & Mv). cbn [fst snd moves] in *.
      apply G_moves in Mv; auto. subst s. exists g. split; [auto|]. apply in_seq. lia.
Qed.

(** the power of the last inversion *)
Lemma wv3 : wv (iot 3%nat) = vc (orthc c1 c2 c3 S).
Proof.
  destruct (iot4 3 ltac:(lia)) as (Pk & _).
  destruct (orthc_frame c1 c2 c3 S H) as (PD & F). set (d := vc (orthc c1 c2 c3 S)) in *. destruct (iot4 3 ltac:(lia)) as (_ & Z & _).
      pose proof (Z 1%nat ltac:(lia) ltac:(cbn [mv]; lia)) as Z1. pose proof (Z 2%nat ltac:(lia) ltac:(cbn [mv]; lia)) as Z2. pose proof (Z 3%nat ltac:(lia) ltac:(cbn [mv]; lia)) as Z3.
      cbn [sv4] in Z1, Z2, Z3. rewrite kap_sym in Z1, Z2, Z3. pose proof (frame_expand _ _ _ _ (wv (iot 3%nat)) F) as E. pose proof (frame_norm _ _ _ _ (wv (iot 3%nat)) F (wv_unit _ Pk)) as Q.
      rewrite Z1, Z2, Z3 in E, Q. set (kk := kap (wv (iot 3%nat)) d) in *.
      assert (Ekk : kk = -1).
      { apply (f_equal vb) in E. assert (V1 : 0 < vb (wv (iot 3%nat))) by (unfold wv, vc, vb; cbn [fst cr]; apply Rinv_0_lt_compat, sqrt_lt_R0; auto).
        assert (V2 : 0 < vb d) by (unfold d, vc, vb; cbn [fst]; apply Rinv_0_lt_compat, PD). rewrite E in V1. unfold v4add, v4scal, vb in V1, V2. cbn [fst snd] in V1. nra. }
      rewrite Ekk in E. rewrite E. destruct d as [[? [? ?]] ?], (vc c1) as [[? [? ?]] ?], (vc c2) as [[? [? ?]] ?], (vc c3) as [[? [? ?]] ?]. unfold v4add, v4scal, vadd, vscal, vb, vp, vw. cbn [fst snd]. f_equal; [f_equal; [|f_equal]|]; field.
Qed.
Lemma power3_eq : ipower (iot 3%nat) * (cr c1 + cr c2 + cr c3) = cr c1 * cr c2 * cr c3.
Proof.
  destruct posc3 as (P1 & P2 & P3). destruct (iot4 3 ltac:(lia)) as (Pk & _). unfold posc in *. pose proof wv3 as E.
  apply vc_inj in E; [|unfold posc; cbn [cr]; apply sqrt_lt_R0; auto|apply (orthc_frame c1 c2 c3 S H)]. apply (f_equal cr) in E. cbn [cr orthc] in E.
  destruct H as (_ & _ & _ & HS & S2 & _). rewrite <- (sqrt_def _ (Rlt_le _ _ Pk)), E.
  replace (S / (cr c1 + cr c2 + cr c3) * (S / (cr c1 + cr c2 + cr c3)) * (cr c1 + cr c2 + cr c3)) with (S * S / (cr c1 + cr c2 + cr c3)) by (field; lra). rewrite S2. field. lra.
Qed.
Lemma power3 : ipower (iot 3%nat) < cr c1 * cr c2 /\ cr c1 + cr c2 <= cr co /\
  pow_circle (cO co) (cr co) (ipole (iot 3%nat)) = ipower (iot 3%nat) - 4 * cr co * sqrt (ipower (iot 3%nat)) /\
  pow_circle (cO co) (cr co) (ipole (iot 3%nat)) <= - (3 * ipower (iot 3%nat)).
Proof.
  destruct posc3 as (P1 & P2 & P3). destruct tang3 as (T12 & T23 & T13). destruct (iot4 3 ltac:(lia)) as (Pk & _). unfold posc in *.
  assert (R12 : cr c1 + cr c2 <= cr co).
  { unfold tang in T12. pose proof (dist_triangle (cO c1) (cO co) (cO c2)) as Q. rewrite (dist_sym (cO c1) (cO co)), T1, T2, T12 in Q. lra. }
  assert (K : kap (sv4 0) (wv (iot 3%nat)) = 2) by (rewrite <- wall3; exact (bw4_moved 3 ltac:(lia))). cbn [sv4] in K. rewrite kap_scal_l, kap_wv in K by auto.
  pose proof (sqrt_lt_R0 _ Pk) as Pq. pose proof (sqrt_def _ (Rlt_le _ _ Pk)) as Eq. set (k := ipower (iot 3%nat)) in *. set (q := sqrt k) in *. set (p := pow_circle _ _ _) in *.
  assert (Ep : p = k - 4 * cr co * q). { assert (X : p - k = - (-1 * ((p - k) / (2 * cr co * q))) * (2 * cr co * q)) by (field; split; lra). rewrite K in X. lra. }
  assert (Ek : k < cr c1 * cr c2).
  { pose proof power3_eq as E. fold k in E. apply (Rmult_lt_reg_r (cr c1 + cr c2 + cr c3)); [lra|]. rewrite E. apply Rmult_lt_compat_l; [apply Rmult_lt_0_compat; lra|lra]. }
  split; [auto|]. split; [auto|]. split; [auto|]. rewrite Ep.
  assert (q <= cr co).
  { destruct (Rle_lt_dec q (cr co)) as [|N]; [auto|]. exfalso. assert (cr co * cr co < q * q) by (apply Rmult_le_0_lt_compat; lra). assert ((cr c1 + cr c2) * (cr c1 + cr c2) <= cr co * cr co) by (apply Rmult_le_compat; lra). rewrite Eq in H0. nra. }
  assert (q * q <= cr co * q) by (apply Rmult_le_compat_r; lra). lra.
Qed.

Lemma first_crep4 g c' : (g < 4)%nat -> invert_with invs4 g (GC (nth g [c1; c2; c3; co] co)) = Ok (GC c') -> crep c' ([g], mv g).
Proof.
  intros Hg E. destruct (Nat.eq_dec g 3) as [->|D].
  - split; [|split; [|apply lok_first; auto]]; unfold invert_with in E; cbn [nth invs4 the_circle bind] in E; destruct (power3) as (_ & _ & Ep & Np); destruct (iot4 3 ltac:(lia)) as (Pk & _); apply invert_refl_neg in E; auto; try lra; [apply E|].
    destruct E as (_ & E). unfold vec. cbn [fst snd act fold_right mv sv4]. rewrite wall3. exact E.
  - replace [g] with (g :: []) by auto. apply (crep_step 4 4 bw4 sv4 co c1 iot invs4 G_B1 G_B2 G_S1 G_S2 G_BS eq_refl G_IN G_CO G_C1 G_PW (seed4 (mv g))).
    + apply crep_seed. destruct g as [|[|[|[|g]]]]; cbn [mv]; lia.
    + apply lok_first. auto.
    + rewrite <- E. f_equal. f_equal. destruct g as [|[|[|[|g]]]]; try lia; reflexivity.
Qed.
(** ** the packing *)
Definition first4 : res (list (gcircle * nat)) :=
  mapM (fun i => let! circ := invert_with invs4 i (GC (nth i [c1; c2; c3; co] co)) in let! c := drawn circ in Ok (GC c, i)) (seq 0 4).

Lemma first4_rep L1 : first4 = Ok L1 -> Forall2 rep L1 labs4.
Proof.
  intros E. unfold first4 in E. apply mapM_Forall2 in E. unfold labs4. assert (A : Forall (fun j => (j < 4)%nat) (seq 0 4)) by (apply Forall_forall; intros j J; apply in_seq in J; lia).
  induction E as [|i y l l' Hy E IH]; cbn [map]; constructor.
  - inversion A; subst. destruct (invert_with _ _ _) as [g|] eqn:Eg; cbn [bind] in Hy; [|discriminate]. destruct g as [c|]; cbn [drawn bind] in Hy; [|discriminate]. injection Hy as <-.
    exists c, []. cbn [fst snd]. split; [auto|]. split; [auto|]. apply first_crep4; auto.
  - apply IH. inversion A; auto.
Qed.
Definition seeds4 : list label := [([], 1%nat); ([], 2%nat); ([], 3%nat)].
Lemma seeds4_In l : In l seeds4 <-> lok l /\ level off4 l = 0%nat /\ l <> ([], 0%nat).
Proof.
  unfold seeds4. cbn [In]. split.
  - intros [<-|[<-|[<-|[]]]]; (split; [apply lok_seed; lia|]; split; [reflexivity|congruence]).
  - intros (L & E & D). destruct l as [w s]. unfold level, off4 in E. cbn [fst snd] in E. destruct w; cbn [length] in E; [|lia]. destruct L as (Hs & _). cbn [snd] in Hs. destruct s as [|[|[|[|s]]]]; try lia; auto.
Qed.

Lemma nth_firstn_lt {X} (d : X) a n l : (a < n)%nat -> nth a l d = nth a (firstn n l) d.
Proof using.
  clear. revert a n. induction l as [|x l IH]; intros a n H; [destruct a, n; reflexivity|]. destruct n; [lia|]. destruct a; cbn [nth firstn]; auto. apply IH. lia.
Qed.
Lemma packing4 (Gs : list (list circle)) (Ls : list (list label)) :
  Forall2 (Forall2 crep) Gs Ls -> (forall i, (i < length Ls)%nat -> NoDup (nth i Ls []) /\ forall l, In l (nth i Ls []) <-> lok l /\ level off4 l = i /\ l <> ([], 0%nat)) ->
  Forall (fun c => 0 < cr c /\ disc_in_disc c co) (concat Gs) /\ ForallOrdPairs not_overlapping (concat Gs) /\
  forall i c, In c (nth i Gs []) -> touches_three_in co (concat (firstn (Datatypes.S i) Gs)) c.
Proof.
  intros F Lv. pose proof (Forall2_concat _ _ _ F) as FC.
  assert (CI : forall c l, crep c l -> inner c co) by (intros c l R; exact (crep_inside 4 4 bw4 sv4 co c1 invs4 G_B1 G_B2 G_S1 G_S2 G_BS eq_refl G_CO G_C1 c l R)).
  assert (CD : forall c c' l l', crep c l -> crep c' l' -> l <> l' -> disj c c') by (intros c c' l l' R R' D; exact (crep_disj 4 4 bw4 sv4 G_B1 G_B2 G_S1 G_S2 G_BS c c' l l' R R' D)).
  split; [|split].
  - apply Forall_forall. intros c I. destruct (Forall2_In_l _ _ _ _ FC I) as (l & _ & R). split; [apply R|]. apply inner_disc. exact (CI c l R).
  - apply (Forall2_FOP crep not_overlapping _ _ FC).
    + assert (Q : forall (Ls : list (list label)) k, (forall i, (i < length Ls)%nat -> NoDup (nth i Ls []) /\ forall l, In l (nth i Ls []) -> level off4 l = (k + i)%nat) -> NoDup (concat Ls) /\ forall l, In l (concat Ls) -> (k <= level off4 l)%nat).
      { clear. induction Ls as [|L Ls IH]; intros k Lv; cbn [concat]; [split; [constructor|intros l []]|]. pose proof (Lv 0%nat ltac:(cbn [length]; lia)) as (N0 & L0). cbn [nth] in *.
        destruct (IH (Datatypes.S k)) as (N1 & L1). { intros i Hi. replace (Datatypes.S k + i)%nat with (k + Datatypes.S i)%nat by lia. apply (Lv (Datatypes.S i)). cbn [length]. lia. }
        split.
        - apply NoDup_app2; auto. intros l I J. apply L0 in I. apply L1 in J. lia.
        - intros l I. apply in_app_iff in I. destruct I as [I|I]; [apply L0 in I; lia|apply L1 in I; lia]. }
      apply (Q Ls 0%nat). intros i Hi. destruct (Lv i Hi) as (Nd & Lq). split; [auto|]. intros l I. apply Lq in I. tauto.
    + intros c c' a a' R R' D. exact (CD c c' a a' R R' D).
  - intros i c I.
    assert (LG : length Gs = length Ls) by (apply (Forall2_len _ _ _ F)).
    assert (Hi : (i < length Ls)%nat). { destruct (Nat.lt_ge_cases i (length Ls)) as [|G]; [auto|]. rewrite nth_overflow in I by lia. destruct I. }
    assert (FN : forall j, Forall2 crep (nth j Gs []) (nth j Ls [])).
    { clear - F. induction F as [|G L Gs Ls E F IH]; intros [|j]; cbn [nth]; auto; constructor. }
    destruct (Forall2_In_l _ _ _ _ (FN i) I) as ((w, s) & Il & R). destruct (other_three s (proj1 (proj2 (proj2 R)))) as (t1 & t2 & t3 & H1 & H2 & H3 & D12 & D13 & D23 & N1 & N2 & N3 & _).
    assert (Hs : (s < 4)%nat) by apply (proj2 (proj2 R)).
    apply (touch_three 4 4 bw4 sv4 off4 co c1 invs4 G_B1 G_B2 G_S1 G_S2 G_BS eq_refl G_CO G_C1 ltac:(intros; apply le_n) ltac:(intros; unfold off4; lia) ltac:(intros; apply le_n) _ c w s t1 t2 t3); auto; try (apply sv4_tan; auto; fail).
    intros l Lo Le Nz. apply (Lv i Hi) in Il. destruct Il as (_ & El & _). rewrite El in Le. assert (Hj : (level off4 l < length Ls)%nat) by lia.
    assert (J : In l (nth (level off4 l) Ls [])) by (apply (Lv _ Hj); auto).
    destruct (Forall2_In_r _ _ _ _ (FN (level off4 l)) J) as (c' & Ic & R'). exists c'. split; [|auto]. apply in_concat. exists (nth (level off4 l) Gs []). split; [|auto].
    rewrite (nth_firstn_lt [] (level off4 l) (Datatypes.S i)) by lia. apply nth_In. rewrite firstn_length. lia.
Qed.

Lemma four_packing d L1 sph more : first4 = Ok L1 -> mapM (fun c => drawn (fst c)) L1 = Ok sph -> malfatti_descendants invs4 L1 d = Ok more ->
  length (sph :: more) = Datatypes.S d /\ (forall i, (i <= d)%nat -> length (nth i (sph :: more) []) = (4 * 3 ^ i)%nat) /\
  Forall (fun c => 0 < cr c /\ disc_in_disc c co) (concat ([c1; c2; c3] :: sph :: more)) /\ ForallOrdPairs not_overlapping (concat ([c1; c2; c3] :: sph :: more)) /\
  forall i c, In c (nth i ([c1; c2; c3] :: sph :: more) []) -> touches_three_in co (concat (firstn (Datatypes.S i) ([c1; c2; c3] :: sph :: more))) c.
Proof.
  intros E1 Es Em. pose proof (first4_rep L1 E1) as R1. apply drawn_fst in Es. apply malfatti_desc in Em. destruct Em as (Ls0 & Ed & Em).
  pose proof (descendants_rep 4 4 bw4 sv4 co c1 iot invs4 G_B1 G_B2 G_S1 G_S2 G_BS eq_refl G_IN G_CO G_C1 G_PW d L1 labs4 Ls0 R1 Ed (map_map_fst_GC _ _ Em)) as R2.
  apply (rep_drawn _ _ _ _ _ _ _ R1) in Es. apply (rep_drawns _ _ _ _ _ _ _ R2) in Em. clear R1 R2 Ed.
  set (Ls := seeds4 :: labs4 :: labgens 4 d labs4). set (gs := [c1; c2; c3] :: sph :: more).
  assert (F : Forall2 (Forall2 crep) gs Ls).
  { constructor; [|constructor; [exact Es|exact Em]]. unfold seeds4. repeat constructor; try (apply posc3); try exact I; cbn [snd]; try lia. }
  assert (LL : length Ls = (d + 2)%nat) by (unfold Ls; cbn [length]; rewrite labgens_length; lia).
  assert (LG : length gs = length Ls) by (apply (Forall2_len _ _ _ F)).
  assert (LN : forall i, length (nth i gs []) = length (nth i Ls [])).
  { clear - F. induction F as [|G L Gs Ls E F IH]; intros [|j]; cbn [nth]; auto. apply (Forall2_len _ _ _ E). }
  assert (N4 : length labs4 = 4%nat) by reflexivity.
  split; [unfold gs in LG; cbn [length] in LG |- *; lia|]. split.
  { intros i Hi. pose proof (LN (Datatypes.S i)) as Q. unfold gs, Ls in Q. cbn [nth] in Q. cbn [nth]. rewrite Q. destruct i as [|i]; cbn [nth]; [rewrite N4; reflexivity|].
    pose proof (labgens_sizes 4 4 sv4 co c1 invs4 eq_refl G_CO G_C1 d labs4) as Z.
    assert (H1 : Forall (fun l => (hd 0%nat (fst l) < 4)%nat) labs4) by (repeat constructor; cbn [fst hd]; lia).
    specialize (Z H1). apply (f_equal (fun l => nth i l (length (@nil label)))) in Z. rewrite map_nth in Z. rewrite Z.
    rewrite (nth_indep _ _ ((4 - 1) ^ Datatypes.S 0 * length labs4)%nat) by (rewrite map_length, seq_length; lia). rewrite (map_nth (fun i => ((4 - 1) ^ Datatypes.S i * length labs4)%nat)), seq_nth by lia.
    rewrite N4. change (4 - 1)%nat with 3%nat. cbn [Nat.add]. lia. }
  apply (packing4 gs Ls F). intros i Hi. assert (A : forall k labs, (1 <= k)%nat -> level_labels k labs -> NoDup labs /\ forall l, In l labs <-> lok l /\ level off4 l = k /\ l <> ([], 0%nat)).
  { intros k labs Hk (Nd & Q). split; [auto|]. intros l. rewrite Q. split; [|tauto]. intros (L & E). split; [auto|]. split; [auto|]. intros ->. unfold level, off4 in E. cbn [fst length] in E. lia. }
  destruct i as [|[|i]].
  - cbn [nth Ls]. split; [unfold seeds4; repeat constructor; cbn [In]; intuition congruence|apply seeds4_In].
  - apply A; [lia|apply labs4_level].
  - apply A; [lia|]. unfold Ls. cbn [nth]. replace (Datatypes.S (Datatypes.S i)) with (Datatypes.S 1 + i)%nat by lia.
    apply (level_gens 4 4 bw4 sv4 off4 co c1 invs4 eq_refl G_CO G_C1 d 1 labs4); [|apply labs4_level|lia]. intros s Hs. unfold off4. lia.
Qed.

(** ** nothing is raised *)
Lemma four_total d : (forall g, (g < 3)%nat -> cr co + / 8192 <= dist (cO co) (ipole (iot g))) -> sepsilon_ <= ipower (iot 3%nat) ->
  exists L1 sph more, first4 = Ok L1 /\ mapM (fun c => drawn (fst c)) L1 = Ok sph /\ malfatti_descendants invs4 L1 d = Ok more.
Proof.
  intros Far Pow.
  assert (PWF : forall g, (g < 4)%nat -> (bw4 g = wv (iot g) /\ sepsilon_ <= ipower (iot g)) \/ cr co + / 8192 <= dist (cO co) (ipole (iot g))).
  { intros g Hg. destruct (Nat.eq_dec g 3) as [->|D]; [left; split; [apply wall3|auto]|right; apply Far; lia]. }
  assert (X : exists L1, first4 = Ok L1 /\ Forall (fun x => isGC (fst x)) L1).
  { apply mapM_exists. intros g J. apply in_seq in J. assert (Hg : (g < 4)%nat) by lia. clear J.
    assert (K : exists c', invert_with invs4 g (GC (nth g [c1; c2; c3; co] co)) = Ok (GC c')).
    { destruct (Nat.eq_dec g 3) as [->|D].
      - destruct power3 as (_ & _ & _ & Np). destruct (iot4 3 ltac:(lia)) as (Pk & _). pose proof sepsilon_pos as Sp. unfold invert_with. cbn [nth invs4 the_circle bind]. rewrite invert_circle_far; [eauto|exact Po|lra|].
        rewrite Rabs_left by lra. lra.
      - replace (nth g [c1; c2; c3; co] co) with (seed4 (mv g)) by (destruct g as [|[|[|[|g]]]]; try lia; reflexivity).
        apply (step_total 4 4 bw4 sv4 co c1 iot invs4 G_B1 G_B2 G_S1 G_S2 G_BS eq_refl G_IN G_CO G_C1 PWF (seed4 (mv g)) g [] (mv g)); [apply crep_seed|apply lok_first; auto].
        destruct g as [|[|[|[|g]]]]; cbn [mv]; lia. }
    destruct K as (c' & K). rewrite K. cbn [bind drawn]. exists (GC c', g). split; [auto|]. exists c'. auto. }
  destruct X as (L1 & E1 & G1). pose proof (first4_rep L1 E1) as R1. destruct (isGC_fst _ G1) as (g1 & H1).
  destruct (descendants_total 4 4 bw4 sv4 co c1 iot invs4 G_B1 G_B2 G_S1 G_S2 G_BS eq_refl G_IN G_CO G_C1 G_PW PWF d L1 labs4 R1) as (Ls & Ed & G). destruct (isGC_fsts _ G) as (gs & Hg).
  exists L1, g1, gs. split; [auto|]. split; [apply drawn_fst; auto|]. apply malfatti_desc. exists Ls. auto.
Qed.
End Four.
