(** * Proofs about the Malfatti gasket: examples/MalfattiApollonian.py. *)

From Coq Require Import Reals Lra Lia Psatz List Bool FinFun.
From Verif Require Import Base BaseLemmas Spec SpecLemmas SpecTriangle SpecGasket SpecApollonian ModelInternal ModelLine ModelCircle ModelTriangle ModelInversion ModelApollonian PInvBase PInversion PInversion2 PTriangle PTriangle2 PTriangle3 PTriangle4 PTriangle5 PSteiner PGasket1 PGasket5 PGasket6 PGasket8 PGasket10 PApo1 PApo2 PApo3 PApo4 PApo5 PApo6 PMalApo1 PMalApo2 PMalApo3.
Import ListNotations.
Local Open Scope R_scope.

(** the outer circle of the three Malfatti circles *)
Lemma malfatti_four A B C c1 c2 c3 T : ~ collinear A B C -> malfatti_circles (mkTri A B C) = Ok (Some ((c1, c2, c3), T)) ->
  exists co S, soddyOuterCircle (mkTri (cO c1) (cO c2) (cO c3)) = Ok co /\
  Ravi (cO c1) (cO c2) (cO c3) (cr c1) (cr c2) (cr c3) S /\ posc co /\ sod (vc c1) (vc c2) (vc c3) (vc (orthc c1 c2 c3 S)) = v4scal (-1) (vc co) /\
  dist (cO co) (cO c1) = cr co - cr c1 /\ dist (cO co) (cO c2) = cr co - cr c2 /\ dist (cO co) (cO c3) = cr co - cr c3 /\
  (posc c1 /\ posc c2 /\ posc c3) /\ (tang c1 c2 /\ tang c2 c3 /\ tang c1 c3).
Proof.
  intros N E. destruct (malfatti_conf A B C N) as (P & x & y & z & r & e & k1 & k2 & k3 & T' & M & _ & E'). rewrite E' in E. injection E as <- <- <- _. clear E'.
  pose proof (malfatti_outer_neg _ _ _ _ _ _ _ _ _ _ _ _ M) as Q. destruct (mc_tangs _ _ _ _ _ _ _ _ _ _ _ _ M) as (P1 & P2 & P3 & T12 & T23 & T13).
  set (c1 := mc A P r k1) in *. set (c2 := mc B P r k2) in *. set (c3 := mc C P r k3) in *. destruct (tangent_Ravi c1 c2 c3 P1 P2 P3 T12 T23 T13) as (S & H).
  pose proof (soddy_eval c1 c2 c3 S H) as Es. pose proof (curv_sod c1 c2 c3 S H) as Eb. cbv zeta in Es. change (cr c1) with (k1 * r) in Eb. change (cr c2) with (k2 * r) in Eb. change (cr c3) with (k3 * r) in Eb.
  destruct (orthc_frame c1 c2 c3 S H) as (PD & F). destruct (sod_frame _ _ _ _ F) as (K0 & K1 & K2 & K3 & _). set (u := sod _ _ _ _) in *. rewrite <- Eb in Q.
  destruct (Req_EM_T (vb u) 0) as [Z|_]; [lra|]. destruct (neg_circ u Q K0) as (Po & Eu). set (co := mkCircle _ _) in *. exists co, S. split; [exact Es|]. split; [exact H|]. split; [exact Po|]. split; [exact Eu|].
  destruct (soddy_outer c1 c2 c3 P1 P2 P3 T12 T23 T13) as (_ & X & _). destruct X as (co' & E' & _ & _ & TI); [rewrite <- (curv_sod c1 c2 c3 S H); exact Q|]. rewrite E' in Es. injection Es as ->.
  split; [apply TI; cbn [In]; auto|]. split; [apply TI; cbn [In]; auto|]. split; [apply TI; cbn [In]; auto|]. auto 8.
Qed.

Definition iot4f (i0 i1 i2 i3 : inversion) (g : nat) : inversion := match g with 0%nat => i0 | 1%nat => i1 | 2%nat => i2 | _ => i3 end.

Lemma malapo_packing A B C depth Mc gens : ~ collinear A B C -> malfatti_apollonian (mkTri A B C) depth = Ok (Mc, gens) ->
  exists c1 c2 c3 co T, malfatti_circles (mkTri A B C) = Ok (Some ((c1, c2, c3), T)) /\ Mc = [c1; c2; c3; co] /\
  0 < cr co /\ Forall (fun c => touches_inside c co) [c1; c2; c3] /\
  length gens = S depth /\ (forall i, (i <= depth)%nat -> length (nth i gens []) = (4 * 3 ^ i)%nat) /\
  Forall (fun c => 0 < cr c /\ disc_in_disc c co) (concat ([c1; c2; c3] :: gens)) /\
  ForallOrdPairs not_overlapping (concat ([c1; c2; c3] :: gens)) /\
  forall i c, In c (nth i ([c1; c2; c3] :: gens) []) -> touches_three_in co (concat (firstn (S i) ([c1; c2; c3] :: gens))) c.
Proof.
  intros N E. unfold malfatti_apollonian in E. destruct (malfatti_circles (mkTri A B C)) as [[[[[c1 c2] c3] T]|]|] eqn:EM; cbn [bind] in E; try discriminate.
  destruct (malfatti_four A B C c1 c2 c3 T N EM) as (co & S & Es & H & Po & Eo & T1 & T2 & T3 & _). rewrite Es in E. cbn [bind] in E.
  destruct (from_fixing_three_circles co c2 c3) as [i0|] eqn:F0; cbn [bind] in E; [|discriminate]. destruct (from_fixing_three_circles co c1 c3) as [i1|] eqn:F1; cbn [bind] in E; [|discriminate].
  destruct (from_fixing_three_circles co c1 c2) as [i2|] eqn:F2; cbn [bind] in E; [|discriminate]. destruct (from_fixing_three_circles c1 c2 c3) as [i3|] eqn:F3; cbn [bind] in E; [|discriminate].
  change [Some i0; Some i1; Some i2; Some i3] with (invs4 (iot4f i0 i1 i2 i3)) in E. fold (first4 c1 c2 c3 co (iot4f i0 i1 i2 i3)) in E.
  destruct (first4 c1 c2 c3 co (iot4f i0 i1 i2 i3)) as [L1|] eqn:E1; cbn [bind] in E; [|discriminate]. destruct (mapM _ L1) as [sph|] eqn:Ep; cbn [bind] in E; [|discriminate].
  destruct (malfatti_descendants _ L1 depth) as [more|] eqn:Ed; cbn [bind] in E; [|discriminate]. injection E as <- <-. exists c1, c2, c3, co, T. split; [reflexivity|]. split; [reflexivity|]. split; [exact Po|].
  split; [repeat constructor; auto|]. exact (four_packing c1 c2 c3 co S (iot4f i0 i1 i2 i3) H Po Eo T1 T2 T3 F0 F1 F2 F3 depth L1 sph more E1 Ep Ed).
Qed.

(** the program succeeds *)
Lemma malapo_total A B C depth c1 c2 c3 co T i0 i1 i2 i3 : ~ collinear A B C -> malfatti_circles (mkTri A B C) = Ok (Some ((c1, c2, c3), T)) ->
  soddyOuterCircle (mkTri (cO c1) (cO c2) (cO c3)) = Ok co ->
  from_fixing_three_circles co c2 c3 = Ok i0 -> from_fixing_three_circles co c1 c3 = Ok i1 -> from_fixing_three_circles co c1 c2 = Ok i2 -> from_fixing_three_circles c1 c2 c3 = Ok i3 ->
  (cr co + 1) / 4096 <= cr c2 * cr c3 -> (cr co + 1) / 4096 <= cr c1 * cr c3 -> (cr co + 1) / 4096 <= cr c1 * cr c2 ->
  sepsilon_ * (cr c1 + cr c2 + cr c3) <= cr c1 * cr c2 * cr c3 ->
  exists gens, malfatti_apollonian (mkTri A B C) depth = Ok ([c1; c2; c3; co], gens).
Proof.
  intros N EM Es F0 F1 F2 F3 B23 B13 B12 Sp. destruct (malfatti_four A B C c1 c2 c3 T N EM) as (co' & S & Es' & H & Po & Eo & T1 & T2 & T3 & (P1 & P2 & P3) & (T12 & T23 & T13)). rewrite Es in Es'. injection Es' as <-.
  set (iot := iot4f i0 i1 i2 i3).
  assert (Far : forall a b iota, posc a -> posc b -> dist (cO co) (cO a) = cr co - cr a -> dist (cO co) (cO b) = cr co - cr b -> tang a b -> from_fixing_three_circles co a b = Ok iota -> 0 < ipower iota ->
    (cr co + 1) / 4096 <= cr a * cr b -> cr co + / 8192 <= dist (cO co) (ipole iota)).
  { intros a b iota Pa Pb Ta Tb Tab F Pk Bd. destruct (fixing_three_spec _ _ _ _ F) as (E0 & E1 & E2). pose proof (pole_far co a b iota Po Pa Pb Ta Tb Tab E0 E1 E2 Pk) as K. unfold posc in Po.
    assert (Q : dist (cO co) (ipole iota) * dist (cO co) (ipole iota) = cr co * cr co + ipower iota) by (rewrite E0; unfold pow_circle; rewrite dist_sq, dist2_sym; ring).
    pose proof (dist_nonneg (cO co) (ipole iota)) as Dn. set (D := dist (cO co) (ipole iota)) in *. clear - Po Bd K Q Dn. clearbody D. apply Rnot_lt_le. intros Lt. assert (D * D < (cr co + / 8192) * (cr co + / 8192)) by (apply Rmult_le_0_lt_compat; lra). nra. }
  assert (Pk : forall g, (g < 4)%nat -> 0 < ipower (iot g)) by (intros g Hg; apply (iot4 c1 c2 c3 co S iot H Po T1 T2 T3 F0 F1 F2 F3 g Hg)).
  assert (K3 : sepsilon_ <= ipower (iot 3%nat)).
  { pose proof (power3_eq c1 c2 c3 co S iot H Po Eo T1 T2 T3 F0 F1 F2 F3) as E. unfold posc in *. apply (Rmult_le_reg_r (cr c1 + cr c2 + cr c3)); [lra|]. rewrite E. exact Sp. }
  destruct (four_total c1 c2 c3 co S iot H Po Eo T1 T2 T3 F0 F1 F2 F3 depth) as (L1 & sph & more & E1 & Ep & Ed); [|exact K3|].
  - intros [|[|[|g]]] Hg; [apply (Far c2 c3)|apply (Far c1 c3)|apply (Far c1 c2)|lia]; auto.
  - exists (sph :: more). unfold malfatti_apollonian. rewrite EM. cbn [bind]. rewrite Es. cbn [bind]. rewrite F0. cbn [bind]. rewrite F1. cbn [bind]. rewrite F2. cbn [bind]. rewrite F3. cbn [bind].
    change [Some i0; Some i1; Some i2; Some i3] with (invs4 iot). fold (first4 c1 c2 c3 co iot). rewrite E1. cbn [bind]. rewrite Ep. cbn [bind]. rewrite Ed. reflexivity.
Qed.
