(** * Proofs about gaskets made by inversions: examples/ApollonianGasket.py. *)

From Coq Require Import Reals Lra Lia Psatz List Bool Permutation FinFun ZArith.
From Verif Require Import Base BaseLemmas Spec SpecLemmas SpecTriangle SpecGasket SpecApollonian ModelInternal ModelLine ModelCircle ModelTriangle ModelEllipse ModelInversion ModelApollonian PInvBase PInversion PInversion2 PTriangle PTriangle2 PTriangle3 PTriangle4 PTriangle5 PSteiner PSteiner2 PGasket1 PGasket5 PApo1 PApo2 PApo3 PApo4 PApo5.
Import ListNotations.
Local Open Scope R_scope.

Lemma pole_alg R0 r1 r2 k x1 y1 x2 y2 p q : 0 < R0 -> 0 < r1 -> 0 < r2 -> 0 < R0 - r1 -> 0 < R0 - r2 -> 0 < k ->
  x1 * x1 + y1 * y1 = (R0 - r1) * (R0 - r1) -> x2 * x2 + y2 * y2 = (R0 - r2) * (R0 - r2) -> (x2 - x1) * (x2 - x1) + (y2 - y1) * (y2 - y1) = (r1 + r2) * (r1 + r2) ->
  k = p * p + q * q - R0 ^ 2 -> k = (p - x1) * (p - x1) + (q - y1) * (q - y1) - r1 ^ 2 -> k = (p - x2) * (p - x2) + (q - y2) * (q - y2) - r2 ^ 2 -> r1 * r2 <= k.
Proof.
  intros P0 P1 P2 Pa Pb Pk EA EB EAB E0 E1 E2. set (a := R0 - r1) in *. set (b := R0 - r2) in *.
  assert (PA : p * x1 + q * y1 = R0 * a) by (unfold a in *; nra). assert (PB : p * x2 + q * y2 = R0 * b) by (unfold b in *; nra).
  assert (AB : x1 * x2 + y1 * y2 = a * b - 2 * (r1 * r2)) by (unfold a, b in *; nra).
  set (wx := b * x1 + a * x2). set (wy := b * y1 + a * y2).
  assert (W : wx * wx + wy * wy = 4 * (a * b) * (a * b - r1 * r2)).
  { transitivity (b * b * (x1 * x1 + y1 * y1) + a * a * (x2 * x2 + y2 * y2) + 2 * (a * b) * (x1 * x2 + y1 * y2)); [unfold wx, wy; ring|]. rewrite EA, EB, AB. ring. }
  assert (PW : p * wx + q * wy = 2 * R0 * (a * b)).
  { transitivity (b * (p * x1 + q * y1) + a * (p * x2 + q * y2)); [unfold wx, wy; ring|]. rewrite PA, PB. ring. }
  assert (CS : (p * wx + q * wy) * (p * wx + q * wy) <= (p * p + q * q) * (wx * wx + wy * wy)).
  { pose proof (Rle_0_sqr (p * wy - q * wx)) as Sq. unfold Rsqr in Sq. clear - Sq. clearbody wx wy. nra. }
  rewrite PW, W in CS. assert (Pab : 0 < a * b) by (apply Rmult_lt_0_compat; auto). replace (p * p + q * q) with (R0 ^ 2 + k) in CS by lra.
  assert (Q : R0 ^ 2 * (a * b) <= (R0 ^ 2 + k) * (a * b - r1 * r2)).
  { apply (Rmult_le_reg_l (4 * (a * b))); [lra|]. clear - CS. nra. }
  set (s := a * b - r1 * r2) in *. assert (Hs : s <= R0 ^ 2) by (unfold s, a, b; nra). replace (a * b) with (s + r1 * r2) in Q by (unfold s; ring).
  apply (Rmult_le_reg_l (R0 ^ 2)); [apply pow_lt; auto|]. clear - Q Hs Pk. nra.
Qed.

(** the pole of an inversion that fixes a circle and two tangent circles inside *)
Lemma pole_far c0 c1 c2 iota : posc c0 -> posc c1 -> posc c2 -> dist (cO c0) (cO c1) = cr c0 - cr c1 -> dist (cO c0) (cO c2) = cr c0 - cr c2 -> tang c1 c2 ->
  ipower iota = pow_circle (cO c0) (cr c0) (ipole iota) -> ipower iota = pow_circle (cO c1) (cr c1) (ipole iota) -> ipower iota = pow_circle (cO c2) (cr c2) (ipole iota) -> 0 < ipower iota ->
  cr c1 * cr c2 <= ipower iota.
Proof.
  unfold posc, tang, pow_circle. intros P0 P1 P2 D1 D2 T E0 E1 E2 Pk. pose proof (dist_nonneg (cO c0) (cO c1)) as A1. pose proof (dist_nonneg (cO c0) (cO c2)) as A2.
  pose proof (dist_triangle (cO c1) (cO c0) (cO c2)) as Q. rewrite (dist_sym (cO c1) (cO c0)) in Q. rewrite D1, D2, T in Q.
  assert (H1 : 0 < cr c0 - cr c1).
  { destruct A1 as [A1|A1]; [lra|]. exfalso. symmetry in A1. pose proof A1 as Z. apply dist_0 in Z. rewrite <- Z in T. lra. }
  assert (H2 : 0 < cr c0 - cr c2).
  { destruct A2 as [A2|A2]; [lra|]. exfalso. symmetry in A2. pose proof A2 as Z. apply dist_0 in Z. rewrite <- Z, dist_sym in T. lra. }
  clear A1 A2 Q. apply (f_equal (fun x => x * x)) in D1, D2, T.
  rewrite dist_sq in D1, D2, T. destruct (cO c0) as [x0 y0], (cO c1) as [x1 y1], (cO c2) as [x2 y2], (ipole iota) as [p q]. unfold dist2, vsub, sdot in *. cbn [fst snd] in *.
  apply (pole_alg (cr c0) (cr c1) (cr c2) (ipower iota) (x1 - x0) (y1 - y0) (x2 - x0) (y2 - y0) (p - x0) (q - y0)); auto.
  - rewrite <- T. ring.
  - rewrite E1. ring.
  - rewrite E2. ring.
Qed.

(** the power of the inversion that swaps a circle and a circle inside *)
Lemma swap_power c0 ci iota : posc c0 -> posc ci -> inner ci c0 -> cr ci < cr c0 -> snd (from_swapping_two_circles c0 ci true) = Some iota -> cr ci * cr ci <= ipower iota.
Proof.
  unfold posc, inner. intros H0 Hi I Hr. unfold from_swapping_two_circles. replace (eqb (cr c0) (cr ci)) with false by (symmetry; apply eqb_false; lra).
  rewrite Rmin_right, Rmax_left by lra. change (distance_ (cO c0) (cO ci)) with (dist (cO c0) (cO ci)). rewrite dist_sym in I. replace (leb (dist (cO c0) (cO ci) + cr ci) (cr c0)) with true by (symmetry; apply leb_true; lra).
  cbv zeta. cbn [orb snd]. set (a := cr c0 / cr ci). set (O := vadd (cO c0) (vscal (a / (1 + a)) (vsub (cO ci) (cO c0)))). set (k := a * Rabs _). intros E. injection E as <-. cbn [ipower].
  pose proof (dist_nonneg (cO c0) (cO ci)) as Dn. pose proof (dist_sq (cO c0) (cO ci)) as Dq. set (d := dist (cO c0) (cO ci)) in *.
  assert (Pa : 0 < a) by (unfold a; apply Rdiv_lt_0_compat; auto).
  assert (EO : dot_ (vsub O (cO ci)) (vsub O (cO ci)) = (cr ci * d / (cr c0 + cr ci)) ^ 2).
  { transitivity (/ (1 + a) * / (1 + a) * dist2 (cO c0) (cO ci)).
    - unfold O. destruct (cO c0), (cO ci). unfold dot_, dist2, vsub, vadd, vscal, sdot. cbn [fst snd]. field. lra.
    - rewrite <- Dq. unfold a. field. lra. }
  unfold k. rewrite EO. set (R0 := cr c0) in *. set (r := cr ci) in *.
  assert (K : a * (r * r - (r * d / (R0 + r)) ^ 2) = R0 * r * (((R0 + r) * (R0 + r) - d * d) / ((R0 + r) * (R0 + r)))) by (unfold a; field; lra).
  assert (G : r * r <= a * (r * r - (r * d / (R0 + r)) ^ 2)).
  { rewrite K. apply (Rmult_le_reg_r ((R0 + r) * (R0 + r))); [nra|]. replace (R0 * r * (((R0 + r) * (R0 + r) - d * d) / ((R0 + r) * (R0 + r))) * ((R0 + r) * (R0 + r))) with (R0 * r * ((R0 + r) * (R0 + r) - d * d)) by (field; lra).
    assert (X : 4 * (R0 * r) <= (R0 + r) * (R0 + r) - d * d) by (assert (d * d <= (R0 - r) * (R0 - r)) by nra; nra).
    assert (Y : R0 * r * (4 * (R0 * r)) <= R0 * r * ((R0 + r) * (R0 + r) - d * d)) by (apply Rmult_le_compat_l; nra).
    assert (Z : r * r * ((R0 + r) * (R0 + r)) <= R0 * r * (4 * (R0 * r))); [|lra]. replace (R0 * r * (4 * (R0 * r))) with (r * r * ((2 * R0) * (2 * R0))) by ring. apply Rmult_le_compat_l; nra. }
  apply (Rle_trans _ _ _ G). apply Rmult_le_compat_l; [lra|]. rewrite <- Rabs_Ropp. eapply Rle_trans; [|apply Rle_abs]. apply Req_le. ring.
Qed.

(** ** the model *)
Lemma the_circle_Ok g c : the_circle g = Ok c -> g = GC c.
Proof. destruct g; cbn [the_circle]; intros E; [injection E as ->; auto|discriminate]. Qed.

Definition iot_of (invs : list (option inversion)) (g : nat) : inversion := match nth g invs None with Some i => i | None => mkInv (0, 0) 0 end.

Lemma inversions_Ok c0 n cs invs : gasket_inversions c0 n (map GC cs) = Ok invs -> length cs = (n + 1)%nat -> (0 < n)%nat ->
  length invs = S n /\
  (forall i, (i < n)%nat -> nth i invs None = Some (iot_of invs i) /\ from_fixing_three_circles c0 (nth i cs c0) (nth (S i mod n) cs c0) = Ok (iot_of invs i)) /\
  nth n invs None = snd (from_swapping_two_circles c0 (nth n cs c0) true).
Proof.
  intros E L Hn. unfold gasket_inversions in E. destruct (mapM _ (seq 0 n)) as [fs|] eqn:Em; cbn [bind] in E; [|discriminate]. apply mapM_Forall2 in Em.
  rewrite map_nth in E. cbn [the_circle bind] in E. injection E as <-. pose proof (Forall2_len _ _ _ Em) as Lf. rewrite seq_length in Lf.
  split; [rewrite app_length; cbn [length]; lia|]. split.
  - intros i Hi. assert (X : exists iota, nth i fs None = Some iota /\ from_fixing_three_circles c0 (nth i cs c0) (nth (S i mod n) cs c0) = Ok iota).
    { assert (Q : forall k l fs, (forall i, (i < length l)%nat -> nth i l 0%nat = (k + i)%nat) -> Forall2 (fun i y => (let! c1 := the_circle (nth i (map GC cs) (GC c0)) in let! c2 := the_circle (nth ((i + 1) mod n) (map GC cs) (GC c0)) in let! iota := from_fixing_three_circles c0 c1 c2 in Ok (Some iota)) = Ok y) l fs ->
        forall i, (i < length l)%nat -> exists iota, nth i fs None = Some iota /\ from_fixing_three_circles c0 (nth (k + i) cs c0) (nth (S (k + i) mod n) cs c0) = Ok iota).
      { clear. intros k l fs Hl F. revert k Hl. induction F as [|j y l fs Ej F IH]; intros k Hl i Hi; cbn [length] in Hi; [lia|]. destruct i as [|i].
        - pose proof (Hl 0%nat ltac:(cbn [length]; lia)) as Z. cbn [nth] in Z. rewrite !map_nth in Ej. cbn [the_circle bind] in Ej. rewrite Z in Ej. replace (k + 0 + 1)%nat with (S (k + 0)) in Ej by lia.
          destruct (from_fixing_three_circles _ _ _) as [iota|]; cbn [bind] in Ej; [|discriminate]. injection Ej as <-. exists iota. auto.
        - cbn [nth]. replace (k + S i)%nat with (S k + i)%nat by lia. apply IH; [|lia]. intros i' Hi'. replace (S k + i')%nat with (k + S i')%nat by lia. apply (Hl (S i')). cbn [length]. lia. }
      apply (Q 0%nat (seq 0 n) fs); [|exact Em|rewrite seq_length; auto]. intros j Hj. rewrite seq_length in Hj. apply seq_nth. auto. }
    destruct X as (iota & Ei & Ef). unfold iot_of. rewrite app_nth1 by lia. rewrite Ei. auto.
  - rewrite app_nth2 by lia. rewrite Lf, Nat.sub_diag. reflexivity.
Qed.

Lemma inversions_total c0 n cs (iot : nat -> inversion) : length cs = (n + 1)%nat ->
  (forall i, (i < n)%nat -> from_fixing_three_circles c0 (nth i cs c0) (nth (S i mod n) cs c0) = Ok (iot i)) -> exists invs, gasket_inversions c0 n (map GC cs) = Ok invs.
Proof.
  intros L H. unfold gasket_inversions. match goal with |- context [mapM ?f (seq 0 n)] => destruct (mapM_exists f (fun _ => True) (seq 0 n)) as (fs & E & _) end.
  - intros i Hi. apply in_seq in Hi. rewrite !map_nth. cbn [the_circle bind]. replace (i + 1)%nat with (S i) by lia. rewrite H by lia. cbn [bind]. eauto.
  - rewrite E. cbn [bind]. rewrite map_nth. cbn [the_circle bind]. eauto.
Qed.

Lemma nth_seq_map {X} (l : list X) d : l = map (fun j => nth j l d) (seq 0 (length l)).
Proof.
  apply (nth_ext _ _ d d); [rewrite map_length, seq_length; auto|]. intros i Hi. rewrite (nth_indep (map _ _) d (nth 0 l d)) by (rewrite map_length, seq_length; auto).
  rewrite (map_nth (fun j => nth j l d)), seq_nth by auto. reflexivity.
Qed.

Lemma id_KP m i : (i < m)%nat -> Permutation (map (fun k => k) (moved m i)) (moved m i).
Proof. intros _. rewrite map_id. apply Permutation_refl. Qed.
Lemma id_KB m i k : In k (moved m i) -> (k < m + 1)%nat.
Proof. unfold moved. intros H. apply filter_In in H. destruct H as (H & _). apply in_seq in H. lia. Qed.
Lemma id_PP m : Permutation (map (fun k : nat => k) (seq 0 (m + 1))) (seq 0 (m + 1)).
Proof. rewrite map_id. apply Permutation_refl. Qed.

Section Script.
Variables (c0 : circle) (n : Z) (phi shift : R) (cs : list circle) (ell : ellipse) (invs : list (option inversion)).
Hypothesis Hn : (3 <= n)%Z.
Hypothesis P0 : 0 < cr c0.
Hypothesis Hphi : Rabs phi < 1.
Hypothesis SC : SteinerChain c0 n phi shift = Ok (map GC cs, ell).
Hypothesis GI : gasket_inversions c0 (Z.to_nat n) (map GC cs) = Ok invs.
Local Notation m := (Z.to_nat n).
Local Notation ch := (fun j => nth j cs c0).
Local Notation ci := (nth m cs c0).
Local Notation iot := (iot_of invs).

Lemma script_facts : (3 <= m)%nat /\ length cs = (m + 1)%nat /\ posc ci /\ inner ci c0 /\ (forall j, (j < m)%nat -> posc (ch j)) /\
  (forall j, (j < m)%nat -> dist (cO c0) (cO (ch j)) = cr c0 - cr (ch j)) /\ (forall j, (j < m)%nat -> tang (ch j) ci) /\ (forall j, (j < m)%nat -> tang (ch j) (ch (nx m j))) /\
  (forall i j, (i < m)%nat -> (j < m)%nat -> i <> j -> disj (ch i) (ch j)).
Proof using Hn P0 Hphi SC. clear GI invs.
  destruct (steiner_spec _ _ _ _ _ _ Hn P0 Hphi SC) as (chain & inn & -> & L & Pi & Ii & Hc & Ht & Hd). split; [lia|]. split; [rewrite app_length; cbn [length]; lia|].
  assert (A : forall j, (j < m)%nat -> nth j (chain ++ [inn]) c0 = nth j chain c0) by (intros j Hj; apply app_nth1; lia).
  assert (B : nth m (chain ++ [inn]) c0 = inn) by (rewrite app_nth2, L, Nat.sub_diag by lia; reflexivity). rewrite B.
  split; [exact Pi|]. split; [unfold inner; rewrite dist_sym; lra|]. split; [|split; [|split; [|split]]].
  - intros j Hj. rewrite A by auto. apply Hc. apply nth_In. lia.
  - intros j Hj. rewrite A by auto. apply Hc. apply nth_In. lia.
  - intros j Hj. rewrite A by auto. apply Hc. apply nth_In. lia.
  - intros j Hj. pose proof (nx_lt m j Hj). rewrite !A by auto. apply Ht. auto.
  - intros i j Hi Hj D. rewrite !A by auto. apply Hd; auto.
Qed.
Lemma script_ci : cr ci < cr c0.
Proof using Hn P0 Hphi SC. clear GI invs.
  destruct script_facts as (H3 & _ & Pi & Ii & Pc & T0 & Ti & _). pose proof (Pc 0%nat ltac:(lia)) as P. pose proof (T0 0%nat ltac:(lia)) as E. pose proof (Ti 0%nat ltac:(lia)) as F. unfold posc, tang, inner in *.
  pose proof (dist_triangle (cO (nth 0 cs c0)) (cO c0) (cO ci)) as Q. rewrite (dist_sym (cO (nth 0 cs c0)) (cO c0)) in Q. rewrite (dist_sym (cO c0) (cO ci)) in Q. pose proof (dist_nonneg (cO ci) (cO c0)). lra.
Qed.
Lemma script_inv : length invs = S m /\ (forall g, (g < S m)%nat -> nth g invs None = Some (iot g)) /\
  (forall i, (i < m)%nat -> ipower (iot i) = pow_circle (cO c0) (cr c0) (ipole (iot i)) /\
     ipower (iot i) = pow_circle (cO (ch i)) (cr (ch i)) (ipole (iot i)) /\ ipower (iot i) = pow_circle (cO (ch (nx m i))) (cr (ch (nx m i))) (ipole (iot i))) /\
  snd (from_swapping_two_circles c0 ci true) = Some (iot m) /\
  exists lam, 0 < ipower (iot m) /\ 0 < lam /\ wv (iot m) = v4scal lam (v4add (vc c0) (vc ci)).
Proof using Hn P0 Hphi SC GI.
  destruct script_facts as (H3 & L & Pi & Ii & _). destruct (inversions_Ok c0 m cs invs GI L ltac:(lia)) as (LI & Fx & Sw).
  destruct (swap_inside c0 ci P0 Pi Ii script_ci) as (iota & lam & E & Hl). rewrite E in Sw.
  assert (Em : snd (from_swapping_two_circles c0 ci true) = Some (iot m)) by (rewrite E; unfold iot_of; rewrite Sw; auto).
  split; [auto|]. split; [|split; [|split; [auto|]]].
  - intros g Hg. destruct (Nat.eq_dec g m) as [->|D]; [rewrite Sw, <- E; auto|]. apply Fx. lia.
  - intros i Hi. apply fixing_three_spec. apply Fx. auto.
  - exists lam. rewrite E in Em. injection Em as <-. exact Hl.
Qed.
Lemma script_N0 j : (j < m + 1)%nat -> nth j (map GC cs) (GC c0) = GC (first m ci ch j).
Proof using. intros Hj. rewrite map_nth. unfold first. destruct (Nat.eqb_spec j m) as [->|]; auto. Qed.
Lemma script_C0 : map GC cs = map GC (map (first m ci ch) (seq 0 (m + 1))).
Proof using Hn P0 Hphi SC. clear GI invs.
  destruct script_facts as (_ & L & _). f_equal. rewrite (nth_seq_map cs c0) at 1. rewrite L. apply map_ext. intros j. unfold first. destruct (Nat.eqb_spec j m) as [->|]; auto.
Qed.
End Script.

Lemma apollonian_packing c0 n phi shift depth gens : (3 <= n)%Z -> 0 < cr c0 -> Rabs phi < 1 -> (2 <= depth)%nat ->
  apollonian_gasket c0 n phi shift depth = Ok gens ->
  let m := Z.to_nat n in
  length gens = depth /\ length (nth 0 gens []) = (m + 1)%nat /\ (forall i, (1 <= i < depth)%nat -> length (nth i gens []) = (m ^ i * (m - 1))%nat) /\
  Forall (fun c => 0 < cr c /\ disc_in_disc c c0) (concat gens) /\ ForallOrdPairs not_overlapping (concat gens) /\
  forall i c, In c (nth i gens []) -> touches_three_in c0 (concat (firstn (S i) gens)) c.
Proof.
  intros Hn P0 Hphi Hd E m. unfold apollonian_gasket in E. destruct (SteinerChain c0 n phi shift) as [[gs ell]|] eqn:SC; cbn [bind] in E; [|discriminate].
  fold m in E. destruct (gasket_inversions c0 m gs) as [invs|] eqn:GI; cbn [bind] in E; [|discriminate]. destruct (first_children c0 m gs invs) as [L1|] eqn:F1; cbn [bind] in E; [|discriminate].
  destruct (descendants invs L1 (depth - 2)) as [more|] eqn:Ed; cbn [bind] in E; [|discriminate]. pose proof E as E'. apply drawn_GCs in E'. destruct gens as [|cs gens']; [discriminate|]. injection E' as Ecs _. fold (map GC cs) in Ecs. subst gs.
  destruct (script_facts c0 n phi shift cs ell Hn P0 Hphi SC) as (H3 & L & Pi & Ii & Pc & T0 & Ti & Tn & Dj). destruct (script_inv c0 n phi shift cs ell invs Hn P0 Hphi SC GI) as (LI & IN & Fx & Es & Sw). fold m in LI, IN, Fx, Es, Sw, H3, L.
  destruct (chain_packing m c0 (nth m cs c0) (fun j => nth j cs c0) (iot_of invs) H3 P0 Pi Ii Pc T0 Ti Tn Dj Fx Sw invs (map GC cs) LI IN (fun k => k) (moved m) (script_N0 c0 n cs) (id_KP m) (id_KB m) (id_PP m) (script_C0 c0 n phi shift cs ell Hn P0 Hphi SC) (depth - 2) L1 more (cs :: gens') F1 Ed E) as (G1 & G2 & G3 & G4).
  split; [lia|]. split; [auto|]. split; [|exact G4]. intros i Hi. destruct i as [|i]; [lia|]. apply G3. lia.
Qed.

Lemma apollonian_total c0 n phi shift depth cs ell (iot : nat -> inversion) : (3 <= n)%Z -> 0 < cr c0 -> Rabs phi < 1 ->
  SteinerChain c0 n phi shift = Ok (map GC cs, ell) ->
  let m := Z.to_nat n in
  (forall i, (i < m)%nat -> from_fixing_three_circles c0 (nth i cs c0) (nth (S i mod m) cs c0) = Ok (iot i)) ->
  (forall i, (i < m)%nat -> (cr c0 + 1) / 4096 <= cr (nth i cs c0) * cr (nth (S i mod m) cs c0)) ->
  sepsilon_ <= cr (nth m cs c0) * cr (nth m cs c0) ->
  exists gens, apollonian_gasket c0 n phi shift depth = Ok gens.
Proof.
  intros Hn P0 Hphi SC m Fi Ri Rn. destruct (script_facts c0 n phi shift cs ell Hn P0 Hphi SC) as (H3 & L & Pi & Ii & Pc & T0 & Ti & Tn & Dj). fold m in H3, L.
  destruct (inversions_total c0 m cs iot L Fi) as (invs & GI). destruct (script_inv c0 n phi shift cs ell invs Hn P0 Hphi SC GI) as (LI & IN & Fx & Es & Sw). fold m in LI, IN, Fx, Es, Sw.
  destruct (chain_total m c0 (nth m cs c0) (fun j => nth j cs c0) (iot_of invs) H3 P0 Pi Ii Pc T0 Ti Tn Dj Fx Sw invs (map GC cs) LI IN (fun k => k) (moved m) (script_N0 c0 n cs) (id_KP m) (id_KB m) (script_C0 c0 n phi shift cs ell Hn P0 Hphi SC) (depth - 2)) as (L1 & more & gens & F1 & Ed & E).
  - intros i Hi. destruct (iot_pow m c0 (fun j => nth j cs c0) (iot_of invs) P0 Pc T0 Tn Fx i Hi) as (Pk & Ek & _). destruct (Fx i Hi) as (_ & E1 & E2).
    pose proof (nx_lt m i Hi) as Hx. pose proof (pole_far c0 _ _ (iot_of invs i) P0 (Pc i Hi) (Pc _ Hx) (T0 i Hi) (T0 _ Hx) (Tn i Hi) Ek E1 E2 Pk) as K. specialize (Ri i Hi). fold (nx m i) in Ri.
    unfold pow_circle in Ek. rewrite <- dist_sq in Ek. pose proof (dist_nonneg (cO c0) (ipole (iot_of invs i))) as Dn. clear - P0 Ek K Ri Dn. set (k := ipower (iot_of invs i)) in *. set (dd := dist _ _) in *. apply Rsqr_incr_0_var; [|auto]. unfold Rsqr. nra.
  - apply (Rle_trans _ _ _ Rn). apply (swap_power c0); auto. apply (script_ci c0 n phi shift cs ell Hn P0 Hphi SC).
  - exists gens. unfold apollonian_gasket. rewrite SC. cbn [bind]. fold m. rewrite GI. cbn [bind]. change (first_children c0 m (map GC cs) invs) with (any_children m c0 invs (map GC cs) (moved m)). rewrite F1. cbn [bind]. rewrite Ed. cbn [bind]. auto.
Qed.
