(** * Proofs about gaskets made by inversions: inversions as reflections, generations. *)

From Coq Require Import Reals Lra Lia Psatz List Bool.
From Verif Require Import Base BaseLemmas Spec SpecLemmas ModelInternal ModelLine ModelCircle ModelTriangle ModelInversion ModelApollonian PInvBase PInversion PInversion2 PTriangle PTriangle2 PTriangle3 PTriangle4 PTriangle5 PSteiner PGasket1 PGasket5 PApo1.
Import ListNotations.
Local Open Scope R_scope.

(** ** the vector of an inversion of positive power *)
Definition wv (iota : inversion) : v4 := vc (mkCircle (ipole iota) (sqrt (ipower iota))).

Lemma wv_unit iota : 0 < ipower iota -> kap (wv iota) (wv iota) = -1.
Proof. intros H. apply kap_self. unfold posc. cbn [cr]. apply sqrt_lt_R0. auto. Qed.

Lemma kap_wv c iota : posc c -> 0 < ipower iota ->
  kap (vc c) (wv iota) = (pow_circle (cO c) (cr c) (ipole iota) - ipower iota) / (2 * cr c * sqrt (ipower iota)).
Proof.
  unfold posc, wv. intros H K. pose proof (sqrt_lt_R0 _ K) as S. rewrite kap_cc by (cbn [cr]; lra). cbn [cO cr]. rewrite sqrt_def by lra. unfold pow_circle. field. split; lra.
Qed.

Lemma invert_refl iota c c' : posc c -> 0 < ipower iota -> 0 < pow_circle (cO c) (cr c) (ipole iota) ->
  invert_circle iota c = Ok (GC c') -> posc c' /\ vc c' = refl (wv iota) (vc c).
Proof.
  intros Hc Hk Hp H. apply invert_circle_GC in H; [|exact Hc]. destruct H as (_ & _ & Pc & E1 & E2). split; [exact Pc|].
  unfold refl. rewrite (kap_wv c iota Hc Hk). pose proof (sqrt_lt_R0 _ Hk) as S. pose proof (sqrt_def _ (Rlt_le _ _ Hk)) as SS.
  unfold inv_scale in *. assert (Sc : 0 < ipower iota / pow_circle (cO c) (cr c) (ipole iota)) by (apply Rdiv_lt_0_compat; auto).
  rewrite Rabs_pos_eq in E2 by lra. unfold posc in *. destruct c' as [[x' y'] r']. destruct c as [[x y] r]. destruct iota as [[px py] k]. unfold wv, vc, v4add, v4scal, vadd, vsub, vscal, vb, vp, vw in *.
  cbn [cO cr ipole ipower fst snd] in *. set (q := sqrt k) in *. set (D := pow_circle (x, y) r (px, py)) in *. injection E1 as Ex Ey.
  assert (ED : (x - px) * (x - px) + (y - py) * (y - py) = D + r * r) by (unfold D, pow_circle, dist2; unspec; simpl; ring).
  assert (Hq : k = q * q) by lra. rewrite Ex, Ey, E2. rewrite Hq. unfold sdot. cbn [fst snd].
  assert (X2 : x * x + y * y = D + r * r + 2 * (x * px + y * py) - (px * px + py * py)) by lra.
  f_equal; [f_equal; [|f_equal]|].
  - field. repeat split; lra.
  - field. repeat split; lra.
  - field. repeat split; lra.
  - apply (Rmult_eq_reg_l (q * q * r * D)); [|apply Rgt_not_eq; repeat apply Rmult_lt_0_compat; auto].
    transitivity (D * ((px * D + q * q * (x - px)) * (px * D + q * q * (x - px)) + (py * D + q * q * (y - py)) * (py * D + q * q * (y - py))) / D - q * q * (q * q) * (r * r)).
    + field. repeat split; lra.
    + transitivity (q * q * D * (x * x + y * y - r * r) + (D - q * q) * D * (px * px + py * py - q * q)); [|field; repeat split; lra].
      replace (D * ((px * D + q * q * (x - px)) * (px * D + q * q * (x - px)) + (py * D + q * q * (y - py)) * (py * D + q * q * (y - py))) / D)
        with (D * D * (px * px + py * py) + 2 * D * (q * q) * (x * px + y * py - (px * px + py * py)) + q * q * (q * q) * ((x - px) * (x - px) + (y - py) * (y - py))) by (field; lra).
      rewrite ED, X2. ring.
Qed.

(** ** powers *)
Lemma pow_beyond c iota : posc c -> 0 < ipower iota -> 1 <= kap (vc c) (wv iota) -> 0 < pow_circle (cO c) (cr c) (ipole iota).
Proof.
  intros Hc Hk H. rewrite kap_wv in H by auto. unfold posc in Hc. pose proof (sqrt_lt_R0 _ Hk) as S. set (p := pow_circle _ _ _) in *.
  assert (P : 0 < 2 * cr c * sqrt (ipower iota)) by (apply Rmult_lt_0_compat; lra).
  assert (p - ipower iota = (p - ipower iota) / (2 * cr c * sqrt (ipower iota)) * (2 * cr c * sqrt (ipower iota))) by (field; split; lra). nra.
Qed.
Lemma pow_outside c co P : posc c -> posc co -> inner c co -> 0 < pow_circle (cO co) (cr co) P -> 0 < pow_circle (cO c) (cr c) P.
Proof.
  unfold posc, inner, pow_circle. intros H1 H2 H3 H4. rewrite <- dist_sq in *. pose proof (dist_triangle (cO co) (cO c) P) as T. rewrite (dist_sym (cO co) (cO c)) in T.
  pose proof (dist_nonneg (cO co) P). pose proof (dist_nonneg (cO c) P). set (d := dist (cO co) P) in *. set (d' := dist (cO c) P) in *.
  assert (cr co < d) by (destruct (Rlt_le_dec (cr co) d); auto; assert (d * d <= cr co * cr co) by (apply Rmult_le_compat; lra); lra).
  assert (cr c < d') by lra. assert (0 < (d' - cr c) * (d' + cr c)) by (apply Rmult_lt_0_compat; lra). lra.
Qed.

Lemma pow_beyond_far c iota : posc c -> 0 < ipower iota -> 1 <= kap (vc c) (wv iota) -> ipower iota < pow_circle (cO c) (cr c) (ipole iota).
Proof.
  intros Hc Hk H. rewrite kap_wv in H by auto. unfold posc in Hc. pose proof (sqrt_lt_R0 _ Hk) as S. set (p := pow_circle _ _ _) in *.
  assert (P : 0 < 2 * cr c * sqrt (ipower iota)) by (apply Rmult_lt_0_compat; lra).
  assert (p - ipower iota = (p - ipower iota) / (2 * cr c * sqrt (ipower iota)) * (2 * cr c * sqrt (ipower iota))) by (field; split; lra). nra.
Qed.
Lemma pow_outside_far c co P e : posc c -> inner c co -> 0 < e -> cr co + e <= dist (cO co) P -> e * e < pow_circle (cO c) (cr c) P.
Proof.
  unfold posc, inner, pow_circle. intros H1 H3 He H4. rewrite <- dist_sq in *. pose proof (dist_triangle (cO co) (cO c) P) as T. rewrite (dist_sym (cO co) (cO c)) in T.
  set (d := dist (cO co) P) in *. set (d' := dist (cO c) P) in *. assert (cr c + e <= d') by lra.
  assert ((cr c + e) * (cr c + e) <= d' * d') by (apply Rmult_le_compat; lra). assert (0 < cr c * e) by (apply Rmult_lt_0_compat; auto). lra.
Qed.

Lemma kap_inner_cases c co : posc c -> posc co -> kap (vc c) (vc co) <= -1 -> inner c co \/ inner co c.
Proof.
  intros H1 H2 K. destruct (Rle_lt_dec (cr c) (cr co)); [left; apply kap_inner; auto|right; apply kap_inner; auto; [lra|rewrite kap_sym; auto]].
Qed.
Lemma inner_disj_absurd c1 co c : posc c1 -> inner c1 co -> inner co c -> disj c c1 -> False.
Proof.
  unfold posc, inner, disj. intros H H1 H2 H3. pose proof (dist_triangle (cO c1) (cO co) (cO c)). rewrite (dist_sym (cO c) (cO c1)) in H3. lra.
Qed.
Lemma inner_tang_kap c co : posc c -> posc co -> dist (cO co) (cO c) = cr co - cr c -> kap (vc c) (vc co) = -1.
Proof. unfold posc. intros H1 H2 H. rewrite kap_cc by lra. rewrite dist2_sym, <- dist_sq, H. field. split; lra. Qed.
Lemma kap_inner_tang c co : posc c -> posc co -> inner c co -> kap (vc c) (vc co) = -1 -> dist (cO co) (cO c) = cr co - cr c.
Proof.
  unfold posc, inner. intros H1 H2 I H. rewrite dist_sym. rewrite kap_cc in H by lra. rewrite <- dist_sq in H. pose proof (dist_nonneg (cO c) (cO co)). set (d := dist _ _) in *.
  assert (d * d - cr c * cr c - cr co * cr co = -1 * (2 * cr c * cr co)) by (rewrite <- H; field; split; lra).
  assert (E : (d - (cr co - cr c)) * (d + (cr co - cr c)) = 0) by lra. apply Rmult_integral in E. lra.
Qed.

(** ** lists of results *)
Lemma mapM_Forall2 {X Y} (f : X -> res Y) l ys : mapM f l = Ok ys -> Forall2 (fun x y => f x = Ok y) l ys.
Proof.
  revert ys. induction l as [|a l IH]; intros ys E; cbn [mapM] in E; [injection E as <-; constructor|].
  destruct (f a) as [y|] eqn:Ea; cbn [bind] in E; [|discriminate]. destruct (mapM f l) as [ys'|]; cbn [bind] in E; [|discriminate]. injection E as <-. constructor; auto.
Qed.
Lemma Forall2_mapM {X Y} (f : X -> res Y) l ys : Forall2 (fun x y => f x = Ok y) l ys -> mapM f l = Ok ys.
Proof. induction 1 as [|a y l ys E F IH]; [reflexivity|]. cbn [mapM]. rewrite E. cbn [bind]. rewrite IH. reflexivity. Qed.
Lemma Forall2_In_r {X Y} (P : X -> Y -> Prop) l ys y : Forall2 P l ys -> In y ys -> exists x, In x l /\ P x y.
Proof. induction 1 as [|a b l ys E F IH]; intros I; [destruct I|]. destruct I as [->|I]; [exists a; cbn [In]; auto|]. destruct (IH I) as (x & ? & ?). exists x. cbn [In]. auto. Qed.
Lemma Forall2_In_l {X Y} (P : X -> Y -> Prop) l ys x : Forall2 P l ys -> In x l -> exists y, In y ys /\ P x y.
Proof. induction 1 as [|a b l ys E F IH]; intros I; [destruct I|]. destruct I as [->|I]; [exists b; cbn [In]; auto|]. destruct (IH I) as (y & ? & ?). exists y. cbn [In]. auto. Qed.
Lemma Forall2_concat {X Y} (P : X -> Y -> Prop) l l' : Forall2 (Forall2 P) l l' -> Forall2 P (concat l) (concat l').
Proof. induction 1; cbn [concat]; auto using Forall2_app. Qed.
Lemma Forall2_imp {X Y} (P Q : X -> Y -> Prop) l l' : (forall x y, In x l -> P x y -> Q x y) -> Forall2 P l l' -> Forall2 Q l l'.
Proof. intros H F. induction F; constructor; [apply H; cbn [In]; auto|]. apply IHF. intros; apply H; cbn [In]; auto. Qed.
Lemma Forall2_comp {X Y Z} (P : X -> Y -> Prop) (Q : X -> Z -> Prop) (S : Y -> Z -> Prop) l l1 l2 :
  Forall2 P l l1 -> Forall2 Q l l2 -> (forall x y z, P x y -> Q x z -> S y z) -> Forall2 S l1 l2.
Proof.
  intros F G H. revert l2 G. induction F as [|x y l l1 E F IH]; intros l2 G; inversion G; subst; constructor; eauto.
Qed.
Lemma Forall2_FOP {X Y} (P : X -> Y -> Prop) (Q : X -> X -> Prop) l labs : Forall2 P l labs -> NoDup labs ->
  (forall c c' a a', P c a -> P c' a' -> a <> a' -> Q c c') -> ForallOrdPairs Q l.
Proof.
  intros F N H. induction F as [|c a l labs E F IH]; [constructor|]. inversion N; subst. constructor; [|auto].
  apply Forall_forall. intros c' I. destruct (Forall2_In_l _ _ _ _ F I) as (a' & I' & E'). apply (H c c' a a'); auto. congruence.
Qed.
