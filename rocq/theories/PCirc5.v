(** * Proofs about examples/triangularCircularGasket.py: the packing. *)

From Coq Require Import Reals Lra Lia Psatz List Bool Permutation.
From Verif Require Import Base BaseLemmas Spec SpecLemmas SpecTriangle SpecGasket SpecApollonian ModelInternal ModelLine ModelCircle ModelTriangle ModelInversion ModelTangentCircles ModelApollonian ModelCircular PCircle PInvBase PInversion PInversion2 PTriangle PTriangle2 PTriangle3 PTriangle4 PTriangle5 PSteiner PSteiner2 PGasket1 PGasket5 PApo1 PApo2 PApo3 PApo4 PApo5 PApo6 PCirc1 PCirc2 PCirc3 PCirc4.
Import ListNotations.
Local Open Scope R_scope.

Lemma mapM_In_Ok {X Y} (f : X -> res Y) l ys x : mapM f l = Ok ys -> In x l -> exists y, f x = Ok y.
Proof.
  revert ys. induction l as [|a l IH]; intros ys E J; [destruct J|]. cbn [mapM] in E. apply bind_Ok in E. destruct E as (y & Ey & E). apply bind_Ok in E. destruct E as (ys' & Es & _). destruct J as [->|J]; [eauto|]. eapply IH; eauto.
Qed.

Section Packing.
Variables (c0 : circle) (n : nat) (phi sh : R) (gs : list gcircle) (walls : list (option circle)).
Hypothesis Hn : (3 <= n)%nat.
Hypothesis P0 : 0 < cr c0.
Hypothesis St : startingCircles c0 n phi sh = Ok (gs, walls).
Local Notation ch := (chain_circle c0 n phi sh).
Local Notation ci := (chain_inner c0 n phi).
Local Notation invs := (wall_inversions walls).
Local Notation ch' := (fun j => ch (nx n j)).

Lemma first_drawn G0 : gs = map GC G0 -> G0 = chain_all c0 n phi sh.
Proof.
  intros E. destruct (starting_Ok c0 n phi sh gs walls Hn P0 St) as (Hp & H1 & Lg & Lw & Cg & Ci & _). subst gs. rewrite map_length in Lg.
  apply (nth_ext _ _ c0 c0); [rewrite chain_len; auto|]. intros k Hk. rewrite Lg in Hk. destruct (Nat.eq_dec k n) as [->|D].
  - rewrite chain_nth_n by auto. apply Ci. apply map_nth.
  - rewrite chain_nth by lia. specialize (Cg k ltac:(lia)). rewrite map_nth in Cg. injection Cg as ->. auto.
Qed.

Lemma gs_GC G0 : gs = map GC G0 -> forall k, (k < n + 1)%nat -> nth k gs (GC c0) = GC (first n ci ch' (pv n k)).
Proof.
  intros E k Hk. rewrite E, map_nth. f_equal. rewrite (first_drawn G0 E). unfold first. destruct (Nat.eq_dec k n) as [->|D].
  - rewrite pv_n, Nat.eqb_refl. apply chain_nth_n; auto.
  - pose proof (pv_lt n k Hn ltac:(lia)). replace (pv n k =? n)%nat with false by (symmetry; apply Nat.eqb_neq; lia). rewrite nx_pv by (auto; lia). apply chain_nth. lia.
Qed.
Lemma gs_C0 G0 : gs = map GC G0 -> gs = map GC (map (fun k => first n ci ch' (pv n k)) (seq 0 (n + 1))).
Proof.
  intros E. pose proof (gs_GC G0 E) as N. destruct (starting_Ok c0 n phi sh gs walls Hn P0 St) as (_ & _ & Lg & _). rewrite map_map. apply (nth_ext _ _ (GC c0) (GC c0)); [rewrite map_length, seq_length; auto|]. intros k Hk. rewrite N by lia. symmetry. apply (nth_seq (fun x => GC (first n ci ch' (pv n x)))). lia.
Qed.

(** the inversions *)
Lemma walls_inv : (forall i, (i < n)%nat -> nth i walls None <> None) -> exists iot : nat -> inversion,
  length invs = S n /\ (forall g, (g < S n)%nat -> nth g invs None = Some (iot g)) /\
  (forall i, (i < n)%nat -> ipower (iot i) = pow_circle (cO c0) (cr c0) (ipole (iot i)) /\
    ipower (iot i) = pow_circle (cO (ch' i)) (cr (ch' i)) (ipole (iot i)) /\ ipower (iot i) = pow_circle (cO (ch' (nx n i))) (cr (ch' (nx n i))) (ipole (iot i))) /\
  snd (from_swapping_two_circles c0 ci true) = Some (iot n) /\
  exists lam, 0 < ipower (iot n) /\ 0 < lam /\ wv (iot n) = v4scal lam (v4add (vc c0) (vc ci)).
Proof.
  intros NW. destruct (starting_Ok c0 n phi sh gs walls Hn P0 St) as (Hp & H1 & _ & Lw & _ & _ & Wi & Wn). destruct (last_wall c0 n phi sh Hn P0 H1) as (w & lam & Ew & Es & Pk & Pl & Wv). rewrite Ew in Wn. injection Wn as Wn.
  set (iot := fun g => match nth g invs None with Some i => i | None => mkInv (0, 0) 0 end). exists iot.
  assert (IN : forall g c, nth g walls None = Some c -> nth g invs None = Some (inversion_on_circle c)) by (intros g c E; unfold wall_inversions; change (@None inversion) with (option_map inversion_on_circle None); rewrite map_nth, E; auto).
  assert (In' : iot n = inversion_on_circle w) by (unfold iot; rewrite (IN n w) by auto; auto).
  split; [unfold wall_inversions; rewrite map_length; lia|]. split; [|split; [|split]].
  - intros g Hg. unfold iot. destruct (Nat.eq_dec g n) as [->|D]; [rewrite (IN n w) by auto; auto|]. specialize (NW g ltac:(lia)). destruct (nth g walls None) as [c|] eqn:Ec; [|contradiction]. rewrite (IN g c Ec). auto.
  - intros i Hi. specialize (NW i Hi). specialize (Wi i Hi). destruct (nth i walls None) as [c|] eqn:Ec; [|contradiction]. assert (Ei : iot i = inversion_on_circle c) by (unfold iot; rewrite (IN i c Ec); auto). rewrite Ei. cbn [inversion_on_circle ipole ipower]. apply (wall_Fx c0 n phi sh Hn P0 Hp H1 i c Hi Wi).
  - rewrite In'. auto.
  - rewrite In'. exists lam. auto.
Qed.

Lemma ch'_facts : Rabs phi < 1 -> posc ci /\ inner ci c0 /\ (forall j, (j < n)%nat -> posc (ch' j)) /\
  (forall j, (j < n)%nat -> dist (cO c0) (cO (ch' j)) = cr c0 - cr (ch' j)) /\ (forall j, (j < n)%nat -> tang (ch' j) ci) /\ (forall j, (j < n)%nat -> tang (ch' j) (ch' (nx n j))) /\
  (forall i j, (i < n)%nat -> (j < n)%nat -> i <> j -> disj (ch' i) (ch' j)).
Proof.
  intros H1. destruct (chain_facts c0 n phi sh Hn P0 H1) as (Pi & Ii & Pc & T0 & Ti & Tn & Dj). split; [auto|]. split; [auto|]. split; [|split; [|split; [|split]]].
  - intros j Hj. apply Pc, nx_lt; auto.
  - intros j Hj. apply T0, nx_lt; auto.
  - intros j Hj. apply Ti, nx_lt; auto.
  - intros j Hj. apply Tn, nx_lt; auto.
  - intros i j Hi Hj D. apply Dj; try (apply nx_lt; auto). intros E. apply nx_inj in E; auto.
Qed.

Lemma kept_bound i k : In k (kept n i) -> (k < n + 1)%nat.
Proof. unfold kept. rewrite filter_In, in_seq. lia. Qed.

Lemma Circles1_walls L1 : Circles1 c0 n gs invs = Ok L1 -> forall i, (i < n)%nat -> nth i walls None <> None.
Proof.
  intros E i Hi. unfold Circles1 in E. apply bind_Ok in E. destruct E as (Ls & E & _). destruct (mapM_In_Ok _ _ _ i E ltac:(apply in_seq; lia)) as (l & El). fold (kept n i) in El.
  destruct (mapM_In_Ok _ _ _ n El) as (y & Ey). { pose proof (nx_lt n i Hi) as Hx. pose proof (nx_lt n _ Hx) as Hxx. apply In_kept; auto. lia. }
  intros N. unfold invert_with in Ey. unfold wall_inversions in Ey. change (@None inversion) with (option_map inversion_on_circle None) in Ey. rewrite map_nth, N in Ey. cbn [option_map bind] in Ey. discriminate.
Qed.
End Packing.

Lemma circular_packing c0 n depth phi shift gens : (3 <= n)%nat -> 0 < cr c0 -> (1 <= depth)%nat -> drawCircularGasket c0 n depth phi shift = Ok gens ->
  length gens = depth /\ length (nth 0 gens []) = (n + 1)%nat /\ (forall i, (1 <= i < depth)%nat -> length (nth i gens []) = (n ^ i * (n - 1))%nat) /\
  Forall (fun c => 0 < cr c /\ disc_in_disc c c0) (concat gens) /\ ForallOrdPairs not_overlapping (concat gens) /\
  forall i c, In c (nth i gens []) -> touches_three_in c0 (concat (firstn (S i) gens)) c.
Proof.
  intros Hn P0 Hd E. unfold drawCircularGasket in E. apply bind_Ok in E. destruct E as ((gs & walls) & St & E). apply bind_Ok in E. destruct E as (more & Em & E).
  set (sh := INR n * shift) in *. destruct (starting_Ok c0 n phi sh gs walls Hn P0 St) as (Hp & H1 & _).
  pose proof E as E'. apply drawn_GCs in E'. destruct gens as [|G0 gens]; [discriminate|]. cbn [map] in E'. injection E' as E0 Er. 
  destruct depth as [|[|d]]; [lia| |].
  - injection Em as <-. cbn [map] in Er. destruct gens as [|G1 gens]; [|discriminate]. pose proof (first_drawn c0 n phi sh gs walls Hn P0 St G0 ltac:(auto)) as EG. cbn [concat length nth]. rewrite app_nil_r.
    destruct (chain_first c0 n phi sh Hn P0 H1) as (F1 & F2 & F3). split; [auto|]. rewrite EG. split; [apply chain_len|]. split; [intros; lia|]. split; [auto|]. split; [auto|].
    intros i c J. destruct i as [|i]; [|destruct i; destruct J]. cbn [firstn concat]. rewrite app_nil_r. apply F3. exact J.
  - apply bind_Ok in Em. destruct Em as (L1 & EL & Em). apply bind_Ok in Em. destruct Em as (more' & Ed & Em). injection Em as <-.
    destruct (walls_inv c0 n phi sh gs walls Hn P0 St (Circles1_walls c0 n gs walls Hn L1 EL)) as (iot & IL & IN & Fx & _ & Sw).
    destruct (ch'_facts c0 n phi sh Hn P0 H1) as (Pi & Ii & Pc & T0 & Ti & Tn & Dj).
    destruct (chain_packing n c0 (chain_inner c0 n phi) (fun j => chain_circle c0 n phi sh (nx n j)) iot Hn P0 Pi Ii Pc T0 Ti Tn Dj Fx Sw (wall_inversions walls) gs IL IN (pv n) (kept n)
      (gs_GC c0 n phi sh gs walls Hn P0 St G0 ltac:(auto)) (fun i Hi => kept_perm n i Hn Hi) (kept_bound n Hn) (seq_perm n Hn) (gs_C0 c0 n phi sh gs walls Hn P0 St G0 ltac:(auto)) d L1 more' (G0 :: gens) EL Ed E) as (G1 & G2 & G3 & G4).
    split; [lia|]. split; [auto|]. split; [|exact G4]. intros i Hi. destruct i as [|i]; [lia|]. apply G3. lia.
Qed.
