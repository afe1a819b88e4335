(** * Proofs about examples/triangularCircularGasket.py: the starting circles. *)

From Coq Require Import Reals Lra Lia Psatz List Bool Permutation.
From Verif Require Import Base BaseLemmas Spec SpecLemmas SpecTriangle SpecGasket SpecApollonian ModelInternal ModelLine ModelCircle ModelTriangle ModelInversion ModelTangentCircles ModelApollonian ModelCircular PCircle PInvBase PInversion PInversion2 PTriangle PTriangle2 PTriangle3 PTriangle4 PTriangle5 PSteiner PSteiner2 PGasket1 PGasket5 PApo1 PApo2 PApo3 PApo4 PApo5 PCirc1.
Import ListNotations.
Local Open Scope R_scope.

Definition arg_of (n : nat) (sh : R) (i : nat) : R := (INR i + sh) * 2 * PI / INR n.
Definition outer_point (c0 : circle) (n : nat) (sh : R) (i : nat) : pt := circle_point_from_angle c0 (arg_of n sh i) false.

Lemma on_circ0 c0 phi : 0 < cr c0 -> phi <> 0 -> Rabs phi < 1 ->
  let circ0 := mkCircle (vadd (cr c0 * (1 / phi), 0) (cO c0)) (cr c0 * sqrt (1 / phi * (1 / phi) - 1)) in
  0 < 1 / phi * (1 / phi) - 1 /\ 0 < cr circ0 /\ inversion_on_circle circ0 = mkInv (st_pole c0 phi) (st_power c0 phi).
Proof.
  intros H Hp H1. cbv zeta. destruct (st_q c0 phi H Hp H1) as (_ & _ & _ & K). assert (Q : 0 < 1 / phi * (1 / phi) - 1).
  { unfold st_power in K. destruct (Rlt_le_dec 0 (1 / phi * (1 / phi) - 1)) as [|G]; [auto|]. exfalso. assert (0 < cr c0 * cr c0) by nra. nra. }
  split; [auto|]. pose proof (sqrt_lt_R0 _ Q) as S. cbn [cr]. split; [apply Rmult_lt_0_compat; auto|]. unfold inversion_on_circle. cbn [cO cr]. f_equal. unfold st_power.
  pose proof (sqrt_def _ (Rlt_le _ _ Q)) as E. set (s := sqrt _) in *. transitivity (cr c0 * cr c0 * (s * s)); [ring|]. rewrite E. ring.
Qed.

Lemma phi_ok c0 phi q : 0 < cr c0 -> phi <> 0 -> py_sqrt (1 / phi * (1 / phi) - 1) = Ok q -> 0 < cr c0 * q -> Rabs phi < 1 /\ q = sqrt (1 / phi * (1 / phi) - 1).
Proof.
  intros H Hp E P. unfold py_sqrt in E. destruct (Rlt_dec _ 0) as [|G]; [discriminate|]. injection E as <-. split; [|auto].
  assert (Q : 0 < 1 / phi * (1 / phi) - 1). { destruct (Req_dec (1 / phi * (1 / phi) - 1) 0) as [Z|Z]; [rewrite Z, sqrt_0 in P; lra|lra]. }
  assert (D : phi * phi < 1). { assert (0 < phi * phi) by nra. replace (1 / phi * (1 / phi)) with (/ (phi * phi)) in Q by (field; auto). destruct (Rlt_le_dec (phi * phi) 1) as [|K]; [auto|]. exfalso.
    assert (/ (phi * phi) <= / 1) by (apply Rinv_le_contravar; lra). lra. }
  apply Rabs_def1; nra.
Qed.

Lemma outer_on c0 n sh i : 0 < cr c0 -> dist (cO c0) (outer_point c0 n sh i) = cr c0.
Proof.
  intros H. apply Rsqr_inj; [apply dist_nonneg|lra|]. unfold Rsqr. rewrite dist_sq. unfold outer_point, circle_point_from_angle, unit_vector_. set (a := arg_of n sh i). pose proof (sin2_cos2 a) as E. unfold Rsqr in E.
  destruct (cO c0) as [x y]. unspec. transitivity (cr c0 * cr c0 * (sin a * sin a + cos a * cos a)); [ring|rewrite E; ring].
Qed.
Lemma arg_base n sh i : (3 <= n)%nat -> arg_of n sh i = (INR i + sh) * 2 * (PI / INR n).
Proof. intros H. apply INR3 in H. unfold arg_of. field. lra. Qed.
Lemma outer_base c0 n sh i : (3 <= n)%nat -> 0 < cr c0 -> on_circle (cO (base_circle c0 n sh i)) (cr (base_circle c0 n sh i)) (outer_point c0 n sh i).
Proof.
  intros Hn H. destruct (base_radius_bounds c0 n Hn H) as (B1 & _ & B3). unfold on_circle. cbn [base_circle cO cr]. rewrite <- arg_base by auto. rewrite B3. apply Rsqr_inj; [apply dist_nonneg|lra|]. unfold Rsqr. rewrite dist_sq.
  unfold outer_point, circle_point_from_angle, unit_vector_. set (a := arg_of n sh i). pose proof (sin2_cos2 a) as E. unfold Rsqr in E. set (r := base_radius c0 n) in *.
  destruct (cO c0) as [x y]. unspec. transitivity (r * r * (sin a * sin a + cos a * cos a)); [ring|rewrite E; ring].
Qed.

(** the points of contact with the outer circle *)
Lemma outer_contact c0 n phi sh i K : (3 <= n)%nat -> 0 < cr c0 -> phi <> 0 -> Rabs phi < 1 ->
  invert (mkInv (st_pole c0 phi) (st_power c0 phi)) (Pt (outer_point c0 n sh i)) = Pt K ->
  dist (cO c0) K = cr c0 /\ dist (cO (st_img c0 phi (base_circle c0 n sh i))) K = cr (st_img c0 phi (base_circle c0 n sh i)).
Proof.
  intros Hn H Hp H1 E. destruct (st_q c0 phi H Hp H1) as (Hq & Dq & Ek & Pk). destruct (invert_Pt _ _ _ E) as (_ & Nq & EK). cbn [ipole ipower] in *. split.
  - rewrite EK. apply keep_circle; [apply outer_on; auto| |auto]. rewrite <- dist_sq, Dq, Ek. ring.
  - destruct (base_inside c0 n sh i Hn H) as (In & _). pose proof (st_scale_spec c0 phi (base_circle c0 n sh i) H H1 In) as (S1 & _ & P1). destruct (P1 Hp) as [Pw Es].
    pose proof (inv_maps_image (st_pole c0 phi) (st_power c0 phi) (cO (base_circle c0 n sh i)) (cr (base_circle c0 n sh i)) ltac:(lra) (proj1 In) Pw) as (_ & _ & Q). rewrite <- Es in Q. rewrite Rabs_pos_eq in Q by lra.
    specialize (Q _ Nq). apply proj1 in Q. specialize (Q (outer_base c0 n sh i Hn H)). rewrite EK. unfold st_img. rewrite (proj2 (eqb_false _ _) Hp). exact Q.
Qed.

Lemma mapM_seq {X} (f : nat -> res X) n l d : mapM f (seq 0 n) = Ok l -> length l = n /\ forall i, (i < n)%nat -> f i = Ok (nth i l d).
Proof.
  assert (G : forall k l, mapM f (seq k n) = Ok l -> length l = n /\ forall i, (i < n)%nat -> f (k + i)%nat = Ok (nth i l d)).
  { induction n as [|n IH]; intros k l' E; cbn [seq mapM] in E; [injection E as <-; split; [auto|lia]|]. destruct (f k) as [x|] eqn:Ek; cbn [bind] in E; [|discriminate]. destruct (mapM f (seq (S k) n)) as [xs|] eqn:Es; cbn [bind] in E; [|discriminate].
    injection E as <-. destruct (IH (S k) xs Es) as (L & Q). split; [cbn [length]; lia|]. intros [|i] Hi; cbn [nth]; [rewrite Nat.add_0_r; auto|]. rewrite Nat.add_succ_r. apply (Q i). lia. }
  apply (G 0%nat).
Qed.
Lemma mapM_seq_ok {X} (f : nat -> res X) (g : nat -> X) n : (forall i, (i < n)%nat -> f i = Ok (g i)) -> mapM f (seq 0 n) = Ok (map g (seq 0 n)).
Proof. intros H. apply mapM_map. intros i J. apply in_seq in J. apply H. lia. Qed.
Lemma nth_seq {X} (g : nat -> X) n i d : (i < n)%nat -> nth i (map g (seq 0 n)) d = g i.
Proof. intros H. rewrite (nth_indep _ d (g 0%nat)) by (rewrite map_length, seq_length; auto). rewrite map_nth, seq_nth by auto. auto. Qed.

Definition chain_circle (c0 : circle) (n : nat) (phi sh : R) (i : nat) : circle := st_img c0 phi (base_circle c0 n sh i).
Definition chain_inner (c0 : circle) (n : nat) (phi : R) : circle := st_img c0 phi (base_inner c0 n).
Definition chain_all (c0 : circle) (n : nat) (phi sh : R) : list circle := map (chain_circle c0 n phi sh) (seq 0 n) ++ [chain_inner c0 n phi].
Definition chain_K (c0 : circle) (n : nat) (phi sh : R) (i : nat) : ept := invert (mkInv (st_pole c0 phi) (st_power c0 phi)) (Pt (outer_point c0 n sh i)).
Definition chain_J (c0 : circle) (n : nat) (phi sh : R) (i : nat) : pt :=
  let c1 := chain_circle c0 n phi sh ((i + 1) mod n) in let c2 := chain_circle c0 n phi sh ((i + 2) mod n) in contact (cO c2) (cr c2) (cO c1).

Lemma chain_all_eq c0 n phi sh : chain_all c0 n phi sh = map (st_img c0 phi) (base_all c0 n sh).
Proof. unfold chain_all, base_all. rewrite map_app, map_map. reflexivity. Qed.

Lemma pair_eq c0 n phi sh i : (3 <= n)%nat -> 0 < cr c0 ->
  starting_pair c0 (mkInv (st_pole c0 phi) (st_power c0 phi)) n sh (cr c0 / (1 + steiner_sine n)) (base_radius c0 n) i =
  let! circ := invert_circle (mkInv (st_pole c0 phi) (st_power c0 phi)) (base_circle c0 n sh i) in Ok (chain_K c0 n phi sh i, circ).
Proof.
  intros Hn H. destruct (base_radius_bounds c0 n Hn H) as (B1 & _ & _). unfold starting_pair. rewrite Circle_init_pos by auto. cbn [bind]. fold (arg_of n sh i). fold (outer_point c0 n sh i). fold (chain_K c0 n phi sh i).
  replace (mkCircle _ (base_radius c0 n)) with (base_circle c0 n sh i); [auto|]. unfold base_circle. rewrite <- arg_base by auto. reflexivity.
Qed.

Lemma starting_Ok c0 n phi sh gs walls : (3 <= n)%nat -> 0 < cr c0 -> startingCircles c0 n phi sh = Ok (gs, walls) ->
  phi <> 0 /\ Rabs phi < 1 /\ length gs = (n + 1)%nat /\ length walls = (n + 1)%nat /\
  (forall i, (i < n)%nat -> nth i gs (GC c0) = GC (chain_circle c0 n phi sh i)) /\ (forall c, nth n gs (GC c0) = GC c -> c = chain_inner c0 n phi) /\
  (forall i, (i < n)%nat -> circumcircle_ext (Pt (chain_J c0 n phi sh i)) (chain_K c0 n phi sh ((i + 1) mod n)) (chain_K c0 n phi sh ((i + 2) mod n)) = Ok (nth i walls None)) /\
  circumcircle (mkTri (chain_J c0 n phi sh 0) (chain_J c0 n phi sh 1) (chain_J c0 n phi sh 2)) = Ok (nth n walls None).
Proof.
  intros Hn H E. destruct (base_radius_bounds c0 n Hn H) as (B1 & B2 & B3). unfold startingCircles in E. unfold py_div in E. destruct (Req_EM_T phi 0) as [|Hp]; cbn [bind] in E; [discriminate|].
  apply bind_Ok in E. destruct E as (q & Eq & E). apply bind_Ok in E. destruct E as (circ0 & Ec & E). apply Circle_init_Ok in Ec. destruct Ec as (Pc & ->). destruct (phi_ok c0 phi q H Hp Eq Pc) as (H1 & ->).
  destruct (on_circ0 c0 phi H Hp H1) as (_ & _ & Ei). rewrite Ei in E. clear Ei Eq Pc. fold (steiner_sine n) in E. fold (base_radius c0 n) in E.
  apply bind_Ok in E. destruct E as (pairs & Ep & E). rewrite Circle_init_pos in E by auto. cbn [bind] in E. apply bind_Ok in E. destruct E as (ci & Eci & E). apply bind_Ok in E. destruct E as (ws & Ew & E). apply bind_Ok in E. destruct E as (w & El & E). apply Ok_inj in E. injection E as <- <-.
  apply (mapM_seq _ n pairs (Inf, GC c0)) in Ep. destruct Ep as (Lp & Ep). apply (mapM_seq _ n ws (Inf, None)) in Ew. destruct Ew as (Lw & Ew).
  assert (PK : forall i, (i < n)%nat -> nth i (map fst pairs) Inf = chain_K c0 n phi sh i /\ invert_circle (mkInv (st_pole c0 phi) (st_power c0 phi)) (base_circle c0 n sh i) = Ok (snd (nth i pairs (Inf, GC c0)))).
  { intros i Hi. specialize (Ep i Hi). rewrite pair_eq in Ep by auto. apply bind_Ok in Ep. destruct Ep as (g & Eg & Ep). apply Ok_inj in Ep. change Inf with (fst (Inf, GC c0)) at 1. rewrite map_nth, <- Ep. cbn [fst snd]. auto. }
  assert (GN : forall i, (i < n)%nat -> nth i (map snd pairs ++ [ci]) (GC c0) = snd (nth i pairs (Inf, GC c0))).
  { intros i Hi. rewrite app_nth1 by (rewrite map_length; lia). change (GC c0) with (snd (Inf, GC c0)) at 1. rewrite map_nth. auto. }
  assert (GD : forall i c, (i < n)%nat -> drawn (nth i (map snd pairs ++ [ci]) (GC c0)) = Ok c -> c = chain_circle c0 n phi sh i /\ nth i (map snd pairs ++ [ci]) (GC c0) = GC c).
  { intros i c Hi D. rewrite GN in * by auto. destruct (PK i Hi) as (_ & Q). destruct (snd (nth i pairs (Inf, GC c0))) as [c'|l]; cbn [drawn] in D; [|discriminate]. injection D as ->. split; [|auto]. apply (invert_img c0 phi (base_circle c0 n sh i)); auto. apply base_inside; auto. }
  assert (M : forall i, (i < n)%nat -> ((i + 1) mod n < n)%nat /\ ((i + 2) mod n < n)%nat) by (intros; split; apply Nat.mod_upper_bound; lia).
  assert (W : forall i, (i < n)%nat -> nth ((i + 1) mod n) (map snd pairs ++ [ci]) (GC c0) = GC (chain_circle c0 n phi sh ((i + 1) mod n)) /\ nth i ws (Inf, None) = (Pt (chain_J c0 n phi sh i), snd (nth i ws (Inf, None))) /\
    circumcircle_ext (Pt (chain_J c0 n phi sh i)) (chain_K c0 n phi sh ((i + 1) mod n)) (chain_K c0 n phi sh ((i + 2) mod n)) = Ok (snd (nth i ws (Inf, None)))).
  { intros i Hi. destruct (M i Hi) as (M1 & M2). specialize (Ew i Hi). unfold starting_wall in Ew. apply bind_Ok in Ew. destruct Ew as (c2 & E2 & Ew). apply bind_Ok in Ew. destruct Ew as (c1 & E1 & Ew). apply bind_Ok in Ew. destruct Ew as (J & EJ & Ew). apply bind_Ok in Ew. destruct Ew as (w' & Ew' & Ew). apply Ok_inj in Ew.
    destruct (GD _ _ M2 E2) as (-> & _). destruct (GD _ _ M1 E1) as (-> & G1). apply towards_eq in EJ. destruct EJ as (_ & ->). rewrite (proj1 (PK _ M1)), (proj1 (PK _ M2)) in Ew'. rewrite <- Ew. cbn [snd]. split; [auto|]. split; [reflexivity|]. exact Ew'. }
  split; [auto|]. split; [auto|]. split; [rewrite app_length, map_length; cbn [length]; lia|]. split; [rewrite app_length, map_length; cbn [length]; lia|]. split; [|split; [|split]].
  - intros i Hi. set (j := ((i + (n - 1)) mod n)%nat). assert (Hj : (j < n)%nat) by (apply Nat.mod_upper_bound; lia).
    assert (Ej : ((j + 1) mod n)%nat = i) by (unfold j; rewrite Nat.add_mod_idemp_l by lia; replace (i + (n - 1) + 1)%nat with (i + 1 * n)%nat by lia; rewrite Nat.mod_add by lia; apply Nat.mod_small; auto).
    destruct (W j Hj) as (Q & _). rewrite Ej in Q. exact Q.
  - intros c Q. rewrite app_nth2, map_length, Lp, Nat.sub_diag in Q by (rewrite map_length; lia). cbn [nth] in Q. subst ci. apply (invert_img c0 phi (base_inner c0 n)); auto. apply inner_inside; auto.
  - intros i Hi. rewrite app_nth1 by (rewrite map_length; lia). change (@None circle) with (snd (Inf, @None circle)). rewrite map_nth. apply W. auto.
  - rewrite app_nth2, map_length, Lw, Nat.sub_diag by (rewrite map_length; lia). cbn [nth]. change Inf with (fst (Inf, @None circle)) in El. rewrite !map_nth in El.
    rewrite (proj1 (proj2 (W 0%nat ltac:(lia)))), (proj1 (proj2 (W 1%nat ltac:(lia)))), (proj1 (proj2 (W 2%nat ltac:(lia)))) in El. exact El.
Qed.
