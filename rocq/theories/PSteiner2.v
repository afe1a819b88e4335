(** * Proofs about Steiner chains: the returned objects. *)

From Coq Require Import Reals Lra Lia Psatz List Bool ZArith PeanoNat.
From Verif Require Import Base BaseLemmas Spec SpecLemmas SpecTriangle ModelInternal ModelLine ModelCircle ModelEllipse
  ModelTriangle ModelInversion PLine PCircle PCircle2 PInvBase PAffine PInversion PInversion2 PEllipse PSteiner.
Import ListNotations.
Local Open Scope R_scope.

Definition base_all (c0 : circle) (n : nat) (shift : R) : list circle :=
  map (base_circle c0 n shift) (seq 0 n) ++ [base_inner c0 n].

Lemma base_inside c0 n shift i : (3 <= n)%nat -> 0 < cr c0 -> inside_circle c0 (base_circle c0 n shift i) /\
  dist (cO c0) (cO (base_circle c0 n shift i)) = cr c0 - cr (base_circle c0 n shift i).
Proof.
  intros Hn HR. destruct (base_radius_bounds c0 n Hn HR) as (B1 & B2 & _).
  assert (E : dist (cO c0) (cO (base_circle c0 n shift i)) = cr c0 - cr (base_circle c0 n shift i)).
  { apply Rsqr_inj; [apply dist_nonneg|cbn [base_circle cr]; lra|]. unfold Rsqr. rewrite dist_sq. apply base_centre_dist2; auto. }
  split; auto. split; [exact B1|lra].
Qed.

Lemma inner_inside c0 n : (3 <= n)%nat -> 0 < cr c0 -> inside_circle c0 (base_inner c0 n).
Proof.
  intros Hn HR. destruct (base_radius_bounds c0 n Hn HR) as (B1 & B2 & _).
  split; [exact B2|]. cbn [base_inner cO cr]. rewrite (proj2 (dist_0 _ _) eq_refl). lra.
Qed.

Lemma base_all_inside c0 n shift c : (3 <= n)%nat -> 0 < cr c0 -> In c (base_all c0 n shift) -> inside_circle c0 c.
Proof.
  intros Hn HR H. apply in_app_or in H. destruct H as [H|[<-|[]]].
  - apply in_map_iff in H. destruct H as (i & <- & _). apply base_inside; auto.
  - apply inner_inside; auto.
Qed.

Lemma invert_img c0 phi c c' : 0 < cr c0 -> Rabs phi < 1 -> phi <> 0 -> inside_circle c0 c ->
  invert_circle (mkInv (st_pole c0 phi) (st_power c0 phi)) c = Ok (GC c') -> c' = st_img c0 phi c.
Proof.
  intros HR H1 Hp I H. destruct (st_scale_spec c0 phi c HR H1 I) as (S1 & _ & P1). destruct (P1 Hp) as [_ E].
  apply invert_circle_GC in H; [|apply I]. cbn [ipole ipower] in H. destruct H as (_ & _ & _ & EO & ER). rewrite <- E in EO, ER.
  rewrite Rabs_right in ER by lra. unfold st_img. rewrite (proj2 (eqb_false _ _) Hp). apply circle_ext; auto.
Qed.

Lemma invert_img_total c0 phi c : 0 < cr c0 -> Rabs phi < 1 -> phi <> 0 -> inside_circle c0 c ->
  sepsilon_ <= (cr c0 / Rabs phi - cr c0) * (cr c0 / Rabs phi - cr c0) ->
  invert_circle (mkInv (st_pole c0 phi) (st_power c0 phi)) c = Ok (GC (st_img c0 phi c)).
Proof.
  intros HR H1 Hp I He. destruct (st_q c0 phi HR Hp H1) as (Hq & _ & _ & Hk).
  pose proof (st_pow_bound c0 phi c HR Hp H1 I) as B. cbv zeta in B. pose proof (proj1 I) as Hr.
  pose proof (invert_circle_far (mkInv (st_pole c0 phi) (st_power c0 phi)) c Hr ltac:(cbn [ipower]; lra)) as F. cbn [ipole ipower] in F.
  cbv zeta in F. rewrite F.
  - do 2 f_equal. eapply (invert_img c0 phi c); auto. rewrite F; [reflexivity|].
    rewrite Rabs_right; nra.
  - rewrite Rabs_right; nra.
Qed.

Definition st_circles (c0 : circle) (n : nat) (phi shift : R) : res (list gcircle) :=
  if eqb phi 0 then Ok (map GC (base_all c0 n shift))
  else mapM (invert_circle (mkInv (st_pole c0 phi) (st_power c0 phi))) (base_all c0 n shift).

Definition st_finish (c0 : circle) (circles : list gcircle) : res (list gcircle * ellipse) :=
    match last circles (GC c0) with
    | GL _ => Raise AttributeError
    | GC inner =>
        let O2 := cO inner in
        let r := cr inner in
        let c := (fst O2 - fst (cO c0)) / 2 in
        let a := (r + cr c0) / 2 in
        let! b := py_sqrt (a * a - c * c) in
        let! ell := Ellipse_init (vscal (/ 2) (vadd (cO c0) O2)) a b 0 true in
        Ok (circles, ell)
    end.

Lemma steiner_eq c0 n phi shift : (3 <= n)%Z -> 0 < cr c0 ->
  SteinerChain c0 n phi shift = let! circles := st_circles c0 (Z.to_nat n) phi shift in st_finish c0 circles.
Proof.
  intros Hn HR. unfold SteinerChain. rewrite (proj2 (Z.leb_gt n 0)) by lia.
  rewrite phi0_eq by (auto; lia). cbn [bind]. fold (base_all c0 (Z.to_nat n) shift). reflexivity.
Qed.

Lemma circles_img c0 n phi shift cs : (3 <= n)%nat -> 0 < cr c0 -> Rabs phi < 1 ->
  st_circles c0 n phi shift = Ok (map GC cs) -> cs = map (st_img c0 phi) (base_all c0 n shift).
Proof.
  intros Hn HR H1 H. unfold st_circles in H. destruct (eqb phi 0) eqn:E.
  - apply Ok_inj in H. assert (M : map GC (base_all c0 n shift) = map GC (map (st_img c0 phi) (base_all c0 n shift))).
    { rewrite map_map. apply map_ext. intros c. unfold st_img. rewrite E. auto. }
    rewrite M in H. clear M. revert H. generalize (map (st_img c0 phi) (base_all c0 n shift)). clear.
    induction cs as [|c cs IH]; intros [|d ds] H; try discriminate; auto. injection H as -> H. f_equal; auto.
  - apply eqb_false in E. apply mapM_Ok_Forall2 in H.
    assert (I : forall c, In c (base_all c0 n shift) -> inside_circle c0 c) by (intros; eapply base_all_inside; eauto).
    revert cs H I. generalize (base_all c0 n shift). induction l as [|c l IH]; intros cs H I.
    + destruct cs; [auto|inversion H].
    + destruct cs as [|d ds]; [inversion H|]. cbn [map] in H |- *. inversion H; subst. f_equal.
      * apply (invert_img c0 phi c d); auto. apply I. left; auto.
      * apply IH; auto. intros; apply I; right; auto.
Qed.

Lemma circles_total c0 n phi shift : (3 <= n)%nat -> 0 < cr c0 -> Rabs phi < 1 ->
  (phi = 0 \/ sepsilon_ <= (cr c0 / Rabs phi - cr c0) * (cr c0 / Rabs phi - cr c0)) ->
  st_circles c0 n phi shift = Ok (map GC (map (st_img c0 phi) (base_all c0 n shift))).
Proof.
  intros Hn HR H1 H. unfold st_circles. destruct (eqb phi 0) eqn:E.
  - rewrite map_map. f_equal. apply map_ext. intros c. unfold st_img. rewrite E. auto.
  - apply eqb_false in E. rewrite map_map. apply mapM_map. intros c Hc. apply invert_img_total; auto.
    + eapply base_all_inside; eauto.
    + tauto.
Qed.

(** the inner circle *)
Lemma inner_img c0 n phi : (3 <= n)%nat -> 0 < cr c0 -> Rabs phi < 1 ->
  let rho := (1 - steiner_sine n) / (1 + steiner_sine n) in
  0 < rho < 1 /\ st_img c0 phi (base_inner c0 n) =
    mkCircle (fst (cO c0) + cr c0 * phi * (1 - rho ^ 2) / (1 - phi ^ 2 * rho ^ 2), snd (cO c0))
      (cr c0 * rho * (1 - phi ^ 2) / (1 - phi ^ 2 * rho ^ 2)).
Proof.
  intros Hn HR H1 rho. pose proof (steiner_sine_bounds n Hn) as Hs.
  assert (Hr : 0 < rho < 1).
  { unfold rho. split; [apply Rdiv_lt_0_compat; lra|]. apply (Rmult_lt_reg_r (1 + steiner_sine n)); [lra|].
    unfold Rdiv. rewrite Rmult_assoc, Rinv_l; lra. }
  split; auto.
  assert (Hin : base_inner c0 n = mkCircle (cO c0) (cr c0 * rho)).
  { unfold base_inner, base_radius, rho. f_equal. field. lra. }
  rewrite Hin. clear Hin.
  assert (Hphi : phi ^ 2 < 1). { pose proof (Rabs_sq phi). pose proof (Rabs_pos phi). simpl. nra. }
  assert (Hd : 0 < 1 - phi ^ 2 * rho ^ 2) by (simpl in *; nra).
  destruct (Req_dec phi 0) as [E|E].
  - subst phi. unfold st_img. rewrite (proj2 (eqb_true 0 0) eq_refl). destruct (cO c0) as [x y]. cbn [fst snd]. f_equal; [f_equal|]; field; lra.
  - unfold st_img. rewrite (proj2 (eqb_false _ _) E). cbn [cO cr].
    assert (S : st_scale c0 phi (mkCircle (cO c0) (cr c0 * rho)) = (1 - phi ^ 2) / (1 - phi ^ 2 * rho ^ 2)).
    { unfold st_scale. rewrite (proj2 (eqb_false _ _) E). unfold inv_scale. cbn [cO cr].
      assert (P : pow_circle (cO c0) (cr c0 * rho) (st_pole c0 phi) = cr c0 * cr c0 * (1 - phi ^ 2 * rho ^ 2) / phi ^ 2).
      { unfold pow_circle, st_pole. destruct (cO c0) as [x y]. unspec. field. auto. }
      rewrite P. unfold st_power. field. repeat split; auto; lra. }
    rewrite S. f_equal.
    + unfold st_pole. destruct (cO c0) as [x y]. unpt. f_equal; field; repeat split; auto; simpl in *; lra.
    + field. lra.
Qed.

Lemma last_app_one {A} (l : list A) x d : last (l ++ [x]) d = x.
Proof. induction l as [|a l IH]; auto. cbn [app]. destruct (l ++ [x]) eqn:E; [destruct l; discriminate|]. exact IH. Qed.

Lemma last_img c0 n phi shift : last (map GC (map (st_img c0 phi) (base_all c0 n shift))) (GC c0) = GC (st_img c0 phi (base_inner c0 n)).
Proof. unfold base_all. rewrite !map_app. cbn [map]. apply last_app_one. Qed.

(** half focal distance smaller than the half axis *)
Lemma finish_ok c0 n phi shift : (3 <= n)%nat -> 0 < cr c0 -> Rabs phi < 1 ->
  let inner := st_img c0 phi (base_inner c0 n) in
  let a := (cr inner + cr c0) / 2 in
  let c := (fst (cO inner) - fst (cO c0)) / 2 in
  0 < cr inner /\ c * c < a * a /\ snd (cO inner) = snd (cO c0) /\
  st_finish c0 (map GC (map (st_img c0 phi) (base_all c0 n shift))) =
   Ok (map GC (map (st_img c0 phi) (base_all c0 n shift)),
       mkEllipse (midpoint (cO c0) (cO inner)) a (sqrt (a * a - c * c)) 0 true).
Proof.
  intros Hn HR H1 inner a c. pose proof (inner_inside c0 n Hn HR) as I0.
  pose proof (img_inside c0 phi HR H1 _ I0) as [P Q]. fold inner in P, Q.
  destruct (inner_img c0 n phi Hn HR H1) as [_ E]. fold inner in E.
  assert (Y : snd (cO inner) = snd (cO c0)) by (rewrite E; reflexivity).
  assert (D : dist2 (cO c0) (cO inner) = (2 * c) * (2 * c)) by (unfold c; unspec; rewrite Y; field).
  assert (L : c * c < a * a).
  { pose proof (dist_nonneg (cO c0) (cO inner)). rewrite <- dist_sq in D. unfold a. nra. }
  split; auto. split; auto. split; auto. unfold st_finish. rewrite last_img. fold inner. fold a. fold c.
  assert (0 < a) by (unfold a; lra).
  unfold py_sqrt. destruct Rlt_dec; [lra|]. cbn [bind]. rewrite Ellipse_init_pos; [|auto|apply sqrt_lt_R0; lra].
  cbn [bind]. do 3 f_equal. unfold midpoint. destruct (cO c0), (cO inner). unpt. f_equal; field.
Qed.

(** sum of the distances to the foci *)
Lemma focal_ellipse x y c a d1 d2 : 0 < a -> c * c < a * a -> 0 <= d1 -> 0 <= d2 ->
  d1 * d1 = (x + c) * (x + c) + y * y -> d2 * d2 = (x - c) * (x - c) + y * y -> d1 + d2 = 2 * a ->
  (x / a) ^ 2 + (y / sqrt (a * a - c * c)) ^ 2 = 1.
Proof.
  intros Ha Hc P1 P2 E1 E2 E.
  assert (Hb : 0 < a * a - c * c) by lra.
  replace ((y / sqrt (a * a - c * c)) ^ 2) with (y * y / (a * a - c * c)).
  2: { unfold Rdiv. rewrite Rpow_mult_distr. rewrite pow_inv.
       replace (sqrt (a * a - c * c) ^ 2) with (a * a - c * c) by (simpl; rewrite Rmult_1_r, sqrt_sqrt; lra). simpl. ring. }
  assert (K : a * (d1 - d2) = 2 * (c * x)).
  { assert ((d1 + d2) * (d1 - d2) = 4 * c * x) by lra. rewrite E in H. lra. }
  assert (K1 : a * d1 = a * a + c * x) by (assert (d2 = 2 * a - d1) by lra; subst d2; lra).
  assert (K2 : a * a * ((x + c) * (x + c) + y * y) = (a * a + c * x) * (a * a + c * x)).
  { rewrite <- E1, <- K1. ring. }
  assert (K3 : x * x * (a * a - c * c) + y * y * (a * a) = a * a * (a * a - c * c)) by lra.
  apply (Rmult_eq_reg_r (a * a * (a * a - c * c))); [|nra].
  replace (((x / a) ^ 2 + y * y / (a * a - c * c)) * (a * a * (a * a - c * c))) with (x * x * (a * a - c * c) + y * y * (a * a)) by (field; lra).
  lra.
Qed.

(** ** the statement *)
Definition steiner_chain_spec (c0 : circle) (n : nat) (cs : list circle) : Prop :=
  exists chain inner, cs = chain ++ [inner] /\ length chain = n /\
    0 < cr inner /\ dist (cO c0) (cO inner) <= cr c0 - cr inner /\
    (forall c, In c chain -> 0 < cr c /\ dist (cO c0) (cO c) = cr c0 - cr c /\ ext_tangent (cO c) (cr c) (cO inner) (cr inner)) /\
    (forall i, (i < n)%nat -> ext_tangent (cO (nth i chain c0)) (cr (nth i chain c0)) (cO (nth (S i mod n) chain c0)) (cr (nth (S i mod n) chain c0))) /\
    (forall i j, (i < n)%nat -> (j < n)%nat -> i <> j ->
       cr (nth i chain c0) + cr (nth j chain c0) <= dist (cO (nth i chain c0)) (cO (nth j chain c0))).

Lemma nth_chain c0 n phi shift i : (i < n)%nat ->
  nth i (map (st_img c0 phi) (map (base_circle c0 n shift) (seq 0 n))) c0 = st_img c0 phi (base_circle c0 n shift i).
Proof.
  intros H. rewrite map_map. rewrite (nth_indep _ c0 ((fun x => st_img c0 phi (base_circle c0 n shift x)) 0%nat)) by (rewrite map_length, seq_length; auto).
  rewrite (map_nth (fun x => st_img c0 phi (base_circle c0 n shift x))). rewrite seq_nth by auto. reflexivity.
Qed.

Lemma chain_spec c0 n phi shift : (3 <= n)%nat -> 0 < cr c0 -> Rabs phi < 1 ->
  steiner_chain_spec c0 n (map (st_img c0 phi) (base_all c0 n shift)).
Proof.
  intros Hn HR H1. exists (map (st_img c0 phi) (map (base_circle c0 n shift) (seq 0 n))), (st_img c0 phi (base_inner c0 n)).
  pose proof (inner_inside c0 n Hn HR) as I0. destruct (img_inside c0 phi HR H1 _ I0) as [P0 Q0].
  split; [unfold base_all; rewrite map_app; reflexivity|]. split; [rewrite !map_length, seq_length; auto|].
  split; auto. split; auto. split; [|split].
  - intros c Hc. apply in_map_iff in Hc. destruct Hc as (c' & <- & Hc). apply in_map_iff in Hc. destruct Hc as (i & <- & _).
    destruct (base_inside c0 n shift i Hn HR) as [Ii Ti]. split; [apply img_pos; auto|]. split; [apply img_int_tangent; auto|].
    apply img_ext_tangent; auto. cbn [base_inner cO cr]. unfold ext_tangent. rewrite dist_sym, Ti. cbn [base_circle cr]. ring.
  - intros i Hi. assert (Hm : (S i mod n < n)%nat) by (apply Nat.mod_upper_bound; lia).
    rewrite !nth_chain by auto. rewrite base_mod by auto. apply img_ext_tangent; auto; try apply base_inside; auto.
    unfold ext_tangent. cbn [base_circle cr]. destruct (base_radius_bounds c0 n Hn HR) as (B1 & _).
    apply Rsqr_inj; [apply dist_nonneg|lra|]. unfold Rsqr. rewrite dist_sq.
    change (dist2 (cO (base_circle c0 n shift i)) (cO (base_circle c0 n shift (S i))) = (base_radius c0 n + base_radius c0 n) * (base_radius c0 n + base_radius c0 n)).
    rewrite base_succ by auto. ring.
  - intros i j Hi Hj Hij. rewrite !nth_chain by auto. apply img_apart; auto; try apply base_inside; auto.
    destruct (base_radius_bounds c0 n Hn HR) as (B1 & _). cbn [base_circle cr].
    apply Rsqr_incr_0_var; [|apply dist_nonneg]. unfold Rsqr. rewrite dist_sq.
    pose proof (base_far c0 n shift i j Hn HR Hi Hj Hij) as F. cbn [base_circle cO] in F |- *. lra.
Qed.

Lemma steiner_Ok c0 n phi shift cs ell : (3 <= n)%Z -> 0 < cr c0 -> Rabs phi < 1 ->
  SteinerChain c0 n phi shift = Ok (map GC cs, ell) ->
  cs = map (st_img c0 phi) (base_all c0 (Z.to_nat n) shift) /\
  st_finish c0 (map GC (map (st_img c0 phi) (base_all c0 (Z.to_nat n) shift))) = Ok (map GC (map (st_img c0 phi) (base_all c0 (Z.to_nat n) shift)), ell).
Proof.
  intros Hn HR H1 H. rewrite steiner_eq in H by auto. apply bind_Ok in H. destruct H as (gs & Hg & H).
  assert (gs = map GC cs).
  { unfold st_finish in H. destruct (last gs (GC c0)); [|discriminate]. apply bind_Ok in H. destruct H as (b & _ & H).
    apply bind_Ok in H. destruct H as (e & _ & H). apply Ok_inj in H. congruence. }
  subst gs. pose proof (circles_img c0 (Z.to_nat n) phi shift cs ltac:(lia) HR H1 Hg) as E. split; auto. rewrite <- E. auto.
Qed.

Lemma steiner_spec c0 n phi shift cs ell : (3 <= n)%Z -> 0 < cr c0 -> Rabs phi < 1 ->
  SteinerChain c0 n phi shift = Ok (map GC cs, ell) -> steiner_chain_spec c0 (Z.to_nat n) cs.
Proof.
  intros Hn HR H1 H. destruct (steiner_Ok _ _ _ _ _ _ Hn HR H1 H) as [-> _]. apply chain_spec; auto; lia.
Qed.

Lemma steiner_total c0 n phi shift : (3 <= n)%Z -> 0 < cr c0 -> Rabs phi < 1 ->
  (phi = 0 \/ sepsilon_ <= (cr c0 / Rabs phi - cr c0) * (cr c0 / Rabs phi - cr c0)) ->
  exists cs ell, SteinerChain c0 n phi shift = Ok (map GC cs, ell).
Proof.
  intros Hn HR H1 H. rewrite steiner_eq by auto. rewrite circles_total by (auto; lia). cbn [bind].
  destruct (finish_ok c0 (Z.to_nat n) phi shift ltac:(lia) HR H1) as (_ & _ & _ & E). rewrite E. eauto.
Qed.

Lemma steiner_inner c0 n phi shift cs ell : (3 <= n)%Z -> 0 < cr c0 -> Rabs phi < 1 ->
  SteinerChain c0 n phi shift = Ok (map GC cs, ell) ->
  let s := sin (PI / IZR n) in
  let rho := (1 - s) / (1 + s) in
  last cs c0 = mkCircle (fst (cO c0) + cr c0 * phi * (1 - rho ^ 2) / (1 - phi ^ 2 * rho ^ 2), snd (cO c0))
      (cr c0 * rho * (1 - phi ^ 2) / (1 - phi ^ 2 * rho ^ 2)).
Proof.
  intros Hn HR H1 H s rho. destruct (steiner_Ok _ _ _ _ _ _ Hn HR H1 H) as [-> _].
  unfold base_all. rewrite map_app. cbn [map]. rewrite last_app_one.
  destruct (inner_img c0 (Z.to_nat n) phi ltac:(lia) HR H1) as [_ E]. rewrite E.
  unfold rho, s, steiner_sine. rewrite INR_IZR_INZ, Z2Nat.id by lia. reflexivity.
Qed.

Lemma steiner_ellipse c0 n phi shift cs ell : (3 <= n)%Z -> 0 < cr c0 -> Rabs phi < 1 ->
  SteinerChain c0 n phi shift = Ok (map GC cs, ell) ->
  0 < ea ell /\ 0 < eb ell /\
  forall i, (i < Z.to_nat n)%nat -> on_ellipse (eO ell) (ea ell) (eb ell) (radians (edeg ell) (ealpha ell)) (cO (nth i cs c0)).
Proof.
  intros Hn HR H1 H. pose proof (steiner_spec _ _ _ _ _ _ Hn HR H1 H) as S.
  destruct (steiner_Ok _ _ _ _ _ _ Hn HR H1 H) as [Ecs F].
  destruct (finish_ok c0 (Z.to_nat n) phi shift ltac:(lia) HR H1) as (Pin & L & Y & E). rewrite E in F. apply Ok_inj in F. injection F as <-.
  cbn [eO ea eb edeg ealpha].
  split; [lra|]. split; [apply sqrt_lt_R0; lra|].
  intros i Hi. destruct S as (chain & inner & E1 & Len & P0 & Q0 & Hc & _).
  assert (Ein : inner = st_img c0 phi (base_inner c0 (Z.to_nat n))).
  { rewrite E1 in Ecs. unfold base_all in Ecs. rewrite map_app in Ecs. apply app_inj_tail in Ecs. tauto. }
  rewrite <- Ein in *. rewrite E1. rewrite app_nth1 by lia.
  destruct (Hc (nth i chain c0)) as (Pr & T1 & T2); [apply nth_In; lia|]. set (c := nth i chain c0) in *. unfold ext_tangent in T2.
  unfold on_ellipse, ell_form. unfold radians, deg. replace (0 * PI / 180) with 0 by field.
  apply (focal_ellipse _ _ ((fst (cO inner) - fst (cO c0)) / 2) _ (dist (cO c0) (cO c)) (dist (cO c) (cO inner))); try apply dist_nonneg; try lra.
  - rewrite dist_sq. unfold fx, fy. rewrite cos_0, sin_0. unfold midpoint. cbn [fst snd]. rewrite Y. unspec. field.
  - rewrite dist_sq. unfold fx, fy. rewrite cos_0, sin_0. unfold midpoint. cbn [fst snd]. rewrite Y. unspec. rewrite ?Y. field.
Qed.

Lemma steiner_shift c0 n phi shift cs ell cs' ell' : (3 <= n)%Z -> 0 < cr c0 -> Rabs phi < 1 ->
  SteinerChain c0 n phi shift = Ok (map GC cs, ell) -> SteinerChain c0 n phi (shift + 1) = Ok (map GC cs', ell') ->
  ell' = ell /\ last cs' c0 = last cs c0 /\ forall i, (i < Z.to_nat n)%nat -> nth i cs' c0 = nth (S i mod Z.to_nat n) cs c0.
Proof.
  intros Hn HR H1 H H'. 
  destruct (steiner_Ok _ _ _ _ _ _ Hn HR H1 H) as [-> F]. destruct (steiner_Ok _ _ _ _ _ _ Hn HR H1 H') as [-> F'].
  destruct (finish_ok c0 (Z.to_nat n) phi shift ltac:(lia) HR H1) as (_ & _ & _ & E).
  destruct (finish_ok c0 (Z.to_nat n) phi (shift + 1) ltac:(lia) HR H1) as (_ & _ & _ & E').
  split; [|split].
  - rewrite E in F. rewrite E' in F'. apply Ok_inj in F. apply Ok_inj in F'. congruence.
  - unfold base_all. rewrite !map_app. cbn [map]. rewrite !last_app_one. reflexivity.
  - intros i Hi. assert (Hm : (S i mod Z.to_nat n < Z.to_nat n)%nat) by (apply Nat.mod_upper_bound; lia).
    unfold base_all. rewrite !map_app. rewrite !app_nth1 by (rewrite !map_length, seq_length; auto).
    rewrite !nth_chain by auto. rewrite base_shift, base_mod by (auto; lia). reflexivity.
Qed.

Lemma steiner_raise c0 n phi shift : (n <= 0)%Z \/ n = 2%Z -> SteinerChain c0 n phi shift = Raise ValueError.
Proof.
  intros [H|H].
  - unfold SteinerChain. rewrite (proj2 (Z.leb_le n 0)) by lia. reflexivity.
  - subst n. unfold SteinerChain. cbn [Z.leb Z.compare]. replace (Z.to_nat 2) with 2%nat by reflexivity.
    assert (S : SteinerChain_phi0_ c0 2 shift = Raise ValueError); [|rewrite S; reflexivity].
    unfold SteinerChain_phi0_. replace (PI / INR 2) with (PI / 2) by (simpl; f_equal; ring). rewrite sin_PI2. cbn [seq mapM].
    unfold Circle_init. destruct (leb _ 0); cbn [bind]; auto.
    replace (cr c0 - 2 * (cr c0 / (1 + 1) * 1)) with 0 by field.
    rewrite (proj2 (leb_true 0 0)) by lra. reflexivity.
Qed.

Lemma steiner_phi_one c0 n phi shift : (3 <= n)%Z -> 0 < cr c0 -> Rabs phi = 1 -> SteinerChain c0 n phi shift = Raise ValueError.
Proof.
  intros Hn HR H. rewrite steiner_eq by auto. unfold st_circles.
  assert (phi <> 0) by (intros ->; rewrite Rabs_R0 in H; lra). rewrite (proj2 (eqb_false _ _) H0).
  assert (st_power c0 phi = 0). { unfold st_power. pose proof (Rabs_sq phi) as Q. rewrite H in Q. replace (1 / phi * (1 / phi)) with (1 / (phi * phi)) by (field; auto). rewrite <- Q. field. }
  rewrite H1. unfold base_all. destruct (Z.to_nat n) as [|m] eqn:En; [lia|]. cbn [seq map app mapM].
  rewrite invert_circle_zero; [reflexivity|]. apply base_inside; auto. lia.
Qed.
