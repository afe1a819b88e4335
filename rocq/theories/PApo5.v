(** * Proofs about gaskets made by inversions: the seeds and the walls of a Steiner chain. *)

From Coq Require Import Reals Lra Lia Psatz List Bool Permutation FinFun.
From Verif Require Import Base BaseLemmas Spec SpecLemmas SpecTriangle SpecGasket SpecApollonian ModelInternal ModelLine ModelCircle ModelTriangle ModelInversion ModelApollonian PInvBase PInversion PInversion2 PTriangle PTriangle2 PTriangle3 PTriangle4 PTriangle5 PSteiner PGasket1 PGasket5 PApo1 PApo2 PApo3 PApo4.
Import ListNotations.
Local Open Scope R_scope.

(** the next index on the chain *)
Definition nx (n i : nat) : nat := (S i mod n)%nat.
Lemma nx_eq n i : (i < n)%nat -> nx n i = if (S i =? n)%nat then 0%nat else S i.
Proof.
  intros H. unfold nx. destruct (Nat.eqb_spec (S i) n) as [E|E]; [rewrite E; apply Nat.mod_same; lia|apply Nat.mod_small; lia].
Qed.
Ltac nx_tac := repeat match goal with
  | |- context [nx ?n ?i] => rewrite (nx_eq n i) by (try assumption; lia)
  | H : context [nx ?n ?i] |- _ => rewrite (nx_eq n i) in H by (try assumption; lia)
  end; repeat match goal with
  | |- context [(?a =? ?b)%nat] => destruct (Nat.eqb_spec a b)
  | H : context [(?a =? ?b)%nat] |- _ => destruct (Nat.eqb_spec a b)
  end; try lia.
Lemma nx_lt n i : (i < n)%nat -> (nx n i < n)%nat.
Proof. intros. nx_tac. Qed.
Lemma nx_ne n i : (3 <= n)%nat -> (i < n)%nat -> nx n i <> i.
Proof. intros. nx_tac. Qed.
Lemma nx_ne2 n i : (3 <= n)%nat -> (i < n)%nat -> nx n (nx n i) <> i /\ nx n (nx n i) <> nx n i.
Proof.
  intros H Hi. pose proof (nx_lt n i Hi). rewrite (nx_eq n (nx n i)) by auto. rewrite (nx_eq n i) in * by auto.
  destruct (Nat.eqb_spec (S i) n); repeat match goal with |- context [(?a =? ?b)%nat] => destruct (Nat.eqb_spec a b) end; lia.
Qed.
Lemma nx_inj n i j : (i < n)%nat -> (j < n)%nat -> nx n i = nx n j -> i = j.
Proof. intros Hi Hj E. rewrite !nx_eq in E by auto. destruct (Nat.eqb_spec (S i) n), (Nat.eqb_spec (S j) n); lia. Qed.

Lemma Forall2_len {X Y} (P : X -> Y -> Prop) l l' : Forall2 P l l' -> length l = length l'.
Proof. induction 1; cbn [length]; auto. Qed.
Lemma drawn_GC gs : forall cs, mapM drawn gs = Ok cs <-> gs = map GC cs.
Proof.
  induction gs as [|g gs IH]; intros cs; cbn [mapM].
  - split; [intros E; injection E as <-; auto|]. destruct cs; [auto|discriminate].
  - split.
    + destruct g as [c|l]; cbn [drawn bind]; [|discriminate]. destruct (mapM drawn gs) as [cs'|]; cbn [bind]; [|discriminate]. intros E. injection E as <-. cbn [map]. f_equal. apply IH. auto.
    + destruct cs as [|c cs]; [discriminate|]. cbn [map]. intros E. injection E as -> E. cbn [drawn bind]. rewrite (proj2 (IH cs) E). auto.
Qed.
Lemma drawn_GCs Gs : forall cs, mapM (mapM drawn) Gs = Ok cs <-> Gs = map (map GC) cs.
Proof.
  induction Gs as [|g gs IH]; intros cs; cbn [mapM].
  - split; [intros E; injection E as <-; auto|]. destruct cs; [auto|discriminate].
  - split.
    + destruct (mapM drawn g) as [c|] eqn:Eg; cbn [bind]; [|discriminate]. apply drawn_GC in Eg. destruct (mapM (mapM drawn) gs) as [cs'|]; cbn [bind]; [|discriminate]. intros E. injection E as <-. cbn [map]. f_equal; [auto|]. apply IH. auto.
    + destruct cs as [|c cs]; [discriminate|]. cbn [map]. intros E. injection E as Eg E. rewrite (proj2 (drawn_GC g c) Eg). cbn [bind]. rewrite (proj2 (IH cs) E). auto.
Qed.
Lemma map_fst_GC (L : list (gcircle * nat)) cs : map fst L = map GC cs -> Forall (fun x => isGC (fst x)) L.
Proof.
  revert cs. induction L as [|x L IH]; intros [|c cs] E; try discriminate; constructor; cbn [map] in E.
  - injection E as E _. exists c. auto.
  - injection E as _ E. apply (IH cs). auto.
Qed.
Lemma map_map_fst_GC (Ls : list (list (gcircle * nat))) gs : map (map fst) Ls = map (map GC) gs -> Forall (Forall (fun x => isGC (fst x))) Ls.
Proof.
  revert gs. induction Ls as [|x L IH]; intros [|c cs] E; try discriminate; constructor; cbn [map] in E.
  - injection E as E _. apply (map_fst_GC x c). auto.
  - injection E as _ E. apply (IH cs). auto.
Qed.
Lemma isGC_fst (L : list (gcircle * nat)) : Forall (fun x => isGC (fst x)) L -> exists cs, map fst L = map GC cs.
Proof. induction 1 as [|x L (c & E) F (cs & IH)]; [exists []; auto|]. exists (c :: cs). cbn [map]. rewrite E, IH. auto. Qed.
Lemma isGC_fsts (Ls : list (list (gcircle * nat))) : Forall (Forall (fun x => isGC (fst x))) Ls -> exists gs, map (map fst) Ls = map (map GC) gs.
Proof. induction 1 as [|x L E F (cs & IH)]; [exists []; auto|]. destruct (isGC_fst x E) as (c & E'). exists (c :: cs). cbn [map]. rewrite E', IH. auto. Qed.
Lemma rep_drawn m N b sv L labs cs : Forall2 (rep m N b sv) L labs -> map fst L = map GC cs -> Forall2 (crep m N b sv) cs labs.
Proof.
  intros F. revert cs. induction F as [|x l L labs (c & w & E & _ & R) F IH]; intros [|c' cs] Em; try discriminate; constructor; cbn [map] in Em; injection Em as Ex Em.
  - rewrite E in Ex. injection Ex as <-. auto.
  - apply IH. auto.
Qed.
Lemma rep_drawns m N b sv Ls labs gs : Forall2 (Forall2 (rep m N b sv)) Ls labs -> map (map fst) Ls = map (map GC) gs -> Forall2 (Forall2 (crep m N b sv)) gs labs.
Proof.
  intros F. revert gs. induction F as [|x l L labs R F IH]; intros [|c' cs] Em; try discriminate; constructor; cbn [map] in Em; injection Em as Ex Em.
  - apply (rep_drawn m N b sv x); auto.
  - apply IH. auto.
Qed.

Section Chain.
Variables (n : nat) (c0 ci : circle) (ch : nat -> circle) (iot : nat -> inversion).
Hypothesis Hn : (3 <= n)%nat.
Hypothesis P0 : posc c0.
Hypothesis Pi : posc ci.
Hypothesis Ii : inner ci c0.
Hypothesis PC : forall j, (j < n)%nat -> posc (ch j).
Hypothesis T0 : forall j, (j < n)%nat -> dist (cO c0) (cO (ch j)) = cr c0 - cr (ch j).
Hypothesis Ti : forall j, (j < n)%nat -> tang (ch j) ci.
Hypothesis Tn : forall j, (j < n)%nat -> tang (ch j) (ch (nx n j)).
Hypothesis Dj : forall i j, (i < n)%nat -> (j < n)%nat -> i <> j -> disj (ch i) (ch j).
Hypothesis Fx : forall i, (i < n)%nat -> ipower (iot i) = pow_circle (cO c0) (cr c0) (ipole (iot i)) /\
  ipower (iot i) = pow_circle (cO (ch i)) (cr (ch i)) (ipole (iot i)) /\ ipower (iot i) = pow_circle (cO (ch (nx n i))) (cr (ch (nx n i))) (ipole (iot i)).
Hypothesis iot_n : exists lam, 0 < ipower (iot n) /\ 0 < lam /\ wv (iot n) = v4scal lam (v4add (vc c0) (vc ci)).

Definition sv (s : nat) : v4 := match s with O => v4scal (-1) (vc c0) | S j => vc (ch j) end.
Definition sg (i : nat) : R := if Rle_dec 0 (kap (vc ci) (wv (iot i))) then 1 else -1.
Definition bw (i : nat) : v4 := if (i =? n)%nat then wv (iot n) else v4scal (sg i) (wv (iot i)).

Lemma ri_lt : cr ci < cr c0.
Proof.
  pose proof (PC 0%nat ltac:(lia)) as P. pose proof (T0 0%nat ltac:(lia)) as E. pose proof (Ti 0%nat ltac:(lia)) as F. unfold posc, tang, inner in *.
  pose proof (dist_triangle (cO (ch 0%nat)) (cO c0) (cO ci)) as Q. rewrite (dist_sym (cO (ch 0%nat)) (cO c0)) in Q. rewrite (dist_sym (cO c0) (cO ci)) in Q. pose proof (dist_nonneg (cO ci) (cO c0)). lra.
Qed.

Lemma iot_n_facts : 0 < ipower (iot n) /\ 1 <= kap (sv 0) (wv (iot n)) /\ vc ci = refl (wv (iot n)) (sv 0) /\ forall j, (j < n)%nat -> kap (vc (ch j)) (wv (iot n)) = 0.
Proof.
  destruct iot_n as (lam & H1 & H2 & H3). destruct (swap_facts c0 ci (iot n) lam P0 Pi Ii H1 H2 H3) as (K1 & K2 & K3). split; [auto|]. split; [auto|]. split; [auto|].
  intros j Hj. apply K3. rewrite (inner_tang_kap (ch j) c0) by auto. rewrite (proj2 (kap_tang (ch j) ci (PC j Hj) Pi) (Ti j Hj)). ring.
Qed.

Lemma iot_pow i : (i < n)%nat -> 0 < ipower (iot i) /\ ipower (iot i) = pow_circle (cO c0) (cr c0) (ipole (iot i)) /\
  kap (wv (iot i)) (vc c0) = 0 /\ kap (wv (iot i)) (vc (ch i)) = 0 /\ kap (wv (iot i)) (vc (ch (nx n i))) = 0.
Proof.
  intros Hi. destruct (Fx i Hi) as (E0 & E1 & E2). pose proof (nx_lt n i Hi) as Hx.
  assert (P : 0 < ipower (iot i)) by (apply (power_pos_in c0 (ch i) (ch (nx n i)) (ipole (iot i))); auto).
  split; [auto|]. split; [auto|]. split; [|split]; apply kap_wv_fix; auto.
Qed.

Lemma sg_sq i : sg i * sg i = 1.
Proof. unfold sg. destruct (Rle_dec _ _); ring. Qed.

Lemma chain_frame i : (i < n)%nat -> frame (sv 0) (sv (S i)) (sv (S (nx n i))) (bw i).
Proof.
  intros Hi. destruct (iot_pow i Hi) as (P & _ & K0 & K1 & K2). pose proof (nx_lt n i Hi) as Hx. unfold bw. replace (i =? n)%nat with false by (symmetry; apply Nat.eqb_neq; lia). unfold frame, sv.
  rewrite !kap_scal_l, !kap_scal_r, (wv_unit (iot i)), !kap_self, K0, K1, K2 by auto.
  rewrite (proj2 (kap_tang (ch i) (ch (nx n i)) (PC i Hi) (PC _ Hx)) (Tn i Hi)), !(kap_sym (vc c0)), !(inner_tang_kap _ c0) by auto.
  replace (sg i * (sg i * -1)) with (sg i * sg i * -1) by ring. rewrite sg_sq. repeat split; ring.
Qed.

Lemma S1 s : (s < S n)%nat -> kap (sv s) (sv s) = -1.
Proof. destruct s as [|j]; intros H; cbn [sv]; [rewrite kap_scal_l, kap_scal_r, kap_self by auto; ring|apply kap_self, PC; lia]. Qed.
Lemma S2 s t : (s < S n)%nat -> (t < S n)%nat -> s <> t -> 1 <= kap (sv s) (sv t).
Proof.
  destruct s as [|i], t as [|j]; intros Hs Ht D; cbn [sv]; try lia.
  - rewrite kap_scal_l, kap_sym, inner_tang_kap; auto; [lra|apply PC; lia|apply T0; lia].
  - rewrite kap_scal_r, inner_tang_kap; auto; [lra|apply PC; lia|apply T0; lia].
  - apply kap_disj; [apply PC; lia|apply PC; lia|]. apply Dj; lia.
Qed.
Lemma B1 g : (g < S n)%nat -> kap (bw g) (bw g) = -1.
Proof.
  intros H. unfold bw. destruct (Nat.eqb_spec g n) as [->|D]; [apply wv_unit, iot_n_facts|]. rewrite kap_scal_l, kap_scal_r, wv_unit by (apply iot_pow; lia). rewrite <- Rmult_assoc, sg_sq. ring.
Qed.

(** the inner circle against the triple of a wall *)
Lemma ci_seed s : (s < S n)%nat -> 1 <= kap (vc ci) (sv s).
Proof.
  intros H. destruct s as [|j]; cbn [sv].
  - rewrite kap_scal_r. pose proof (inner_kap ci c0 Pi P0 Ii). lra.
  - rewrite kap_sym, (proj2 (kap_tang (ch j) ci (PC j ltac:(lia)) Pi)); [lra|apply Ti; lia].
Qed.
Lemma ci_wall i : (i < n)%nat -> 2 <= kap (vc ci) (bw i).
Proof.
  intros Hi. pose proof (chain_frame i Hi) as F. pose proof (nx_lt n i Hi) as Hx. apply (frame_beyond _ _ _ _ _ F); try (apply ci_seed; lia); [apply kap_self; auto|].
  pose proof (frame_norm _ _ _ _ (vc ci) F (kap_self ci Pi)) as Q. pose proof (ci_seed 0 ltac:(lia)). pose proof (ci_seed (S i) ltac:(lia)). pose proof (ci_seed (S (nx n i)) ltac:(lia)).
  assert (NZ : kap (vc ci) (bw i) <> 0) by (intros Z; rewrite Z in Q; nra). assert (NN : 0 <= kap (vc ci) (bw i)); [|lra].
  unfold bw. replace (i =? n)%nat with false by (symmetry; apply Nat.eqb_neq; lia). rewrite kap_scal_r. unfold sg. destruct (Rle_dec _ _); lra.
Qed.
Lemma ch_wall i j : (i < n)%nat -> (j < n)%nat -> j <> i -> j <> nx n i -> 2 <= kap (sv (S j)) (bw i).
Proof.
  intros Hi Hj D1 D2. pose proof (chain_frame i Hi) as F. pose proof (nx_lt n i Hi) as Hx. pose proof (ci_wall i Hi) as W.
  assert (Q : 2 <= kap (sv (S j)) (bw i) * kap (vc ci) (bw i)).
  { apply (frame_side _ _ _ _ _ _ F); try (apply ci_seed; lia); try (apply S2; lia). cbn [sv]. apply kap_tang; auto. }
  apply (frame_beyond _ _ _ _ _ F); try (apply S2; lia); [apply S1; lia|]. nra.
Qed.
Lemma BS_fix i : (i < n)%nat -> kap (sv 0) (bw i) = 0 /\ kap (sv (S i)) (bw i) = 0 /\ kap (sv (S (nx n i))) (bw i) = 0.
Proof. intros Hi. destruct (chain_frame i Hi) as (_ & _ & K1 & K2 & K3). rewrite !(kap_sym _ (bw i)). auto. Qed.
Lemma BS_n : 1 <= kap (sv 0) (bw n) /\ forall j, (j < n)%nat -> kap (sv (S j)) (bw n) = 0.
Proof. unfold bw. rewrite Nat.eqb_refl. split; [apply iot_n_facts|]. intros j Hj. apply iot_n_facts. auto. Qed.
Lemma BS g s : (g < S n)%nat -> (s < S n)%nat -> kap (sv s) (bw g) = 0 \/ 1 <= kap (sv s) (bw g).
Proof.
  intros Hg Hs. destruct (Nat.eq_dec g n) as [->|Dg].
  - destruct s as [|j]; [right; apply BS_n|left; apply BS_n; lia].
  - destruct (BS_fix g ltac:(lia)) as (K0 & K1 & K2). destruct s as [|j]; [auto|]. destruct (Nat.eq_dec j g) as [->|D1]; [auto|]. destruct (Nat.eq_dec j (nx n g)) as [->|D2]; [auto|].
    right. pose proof (ch_wall g j ltac:(lia) ltac:(lia) D1 D2). lra.
Qed.
Lemma BS0' g s : (g < S n)%nat -> (s < S n)%nat -> 0 <= kap (bw g) (sv s).
Proof. intros Hg Hs. rewrite kap_sym. destruct (BS g s Hg Hs); lra. Qed.

(** a circle of the chain that a wall fixes and another one moves *)
Lemma wall_pair i g : (i < n)%nat -> (g < S n)%nat -> g <> i -> exists l, (l < n)%nat /\ l <> i /\ l <> nx n i /\ kap (bw g) (sv (S l)) = 0.
Proof.
  intros Hi Hg D. pose proof (nx_lt n i Hi) as Hx. pose proof (nx_lt n _ Hx) as Hxx. pose proof (nx_ne2 n i Hn Hi) as (N1 & N2). destruct (Nat.eq_dec g n) as [->|Dg].
  - exists (nx n (nx n i)). split; [auto|]. split; [auto|]. split; [auto|]. rewrite kap_sym. apply BS_n; auto.
  - destruct (BS_fix g ltac:(lia)) as (_ & K1 & K2). destruct (Nat.eq_dec g (nx n i)) as [->|D2].
    + exists (nx n (nx n i)). rewrite kap_sym. auto.
    + exists g. rewrite kap_sym. split; [lia|]. auto.
Qed.

Lemma B2i i g : (i < n)%nat -> (g < S n)%nat -> g <> i -> 1 <= kap (bw g) (bw i).
Proof.
  intros Hi Hg D. pose proof (chain_frame i Hi) as F. pose proof (nx_lt n i Hi) as Hx. destruct (wall_pair i g Hi Hg D) as (l & Hl & N1 & N2 & Z).
  pose proof (ch_wall i l Hi Hl N1 N2) as W. pose proof (frame_norm _ _ _ _ (bw g) F (B1 g Hg)) as Q. pose proof (frame_kap _ _ _ _ (bw g) (sv (S l)) F) as K. rewrite Z in K.
  pose proof (BS0' g 0 Hg ltac:(lia)) as A0. pose proof (BS0' g (S i) Hg ltac:(lia)) as A1. pose proof (BS0' g (S (nx n i)) Hg ltac:(lia)) as A2.
  pose proof (S2 (S l) 0 ltac:(lia) ltac:(lia) ltac:(lia)) as C0. pose proof (S2 (S l) (S i) ltac:(lia) ltac:(lia) ltac:(lia)) as C1. pose proof (S2 (S l) (S (nx n i)) ltac:(lia) ltac:(lia) ltac:(lia)) as C2.
  set (x := kap (bw g) (bw i)) in *. set (p0 := kap (bw g) (sv 0)) in *. set (p1 := kap (bw g) (sv (S i))) in *. set (p2 := kap (bw g) (sv (S (nx n i)))) in *.
  set (q0 := kap (sv (S l)) (sv 0)) in *. set (q1 := kap (sv (S l)) (sv (S i))) in *. set (q2 := kap (sv (S l)) (sv (S (nx n i)))) in *. set (y := kap (sv (S l)) (bw i)) in *.
  clear - Q K A0 A1 A2 C0 C1 C2 W.
  assert (0 <= p0 * (q1 + q2)) by (apply Rmult_le_pos; lra). assert (0 <= p1 * (q0 + q2)) by (apply Rmult_le_pos; lra). assert (0 <= p2 * (q0 + q1)) by (apply Rmult_le_pos; lra).
  assert (0 <= x * y) by lra. assert (0 <= x) by (destruct (Rle_lt_dec 0 x) as [|X]; [auto|]; assert (0 < (- x) * y) by (apply Rmult_lt_0_compat; lra); lra).
  pose proof (Rmult_le_pos _ _ A0 A1). pose proof (Rmult_le_pos _ _ A1 A2). pose proof (Rmult_le_pos _ _ A0 A2). destruct (Rle_lt_dec 1 x) as [|X]; [auto|]. assert (x * x < 1) by nra. lra.
Qed.
Lemma B2 g h : (g < S n)%nat -> (h < S n)%nat -> g <> h -> 1 <= kap (bw g) (bw h).
Proof.
  intros Hg Hh D. destruct (Nat.eq_dec h n) as [->|Dh]; [rewrite kap_sym; apply B2i; lia|apply B2i; lia].
Qed.

Definition offc (s : nat) : nat := match s with O => 0%nat | S _ => 1%nat end.

Lemma OFF g s t : (g < S n)%nat -> (s < S n)%nat -> (t < S n)%nat -> 1 <= kap (sv s) (bw g) -> 1 <= kap (sv t) (bw g) -> (offc t <= offc s)%nat.
Proof.
  intros Hg Hs Ht K1 K2. destruct s as [|s], t as [|t]; cbn [offc]; try lia. exfalso. destruct (Nat.eq_dec g n) as [->|Dg].
  - rewrite (proj2 BS_n) in K2 by lia. lra.
  - rewrite (proj1 (BS_fix g ltac:(lia))) in K1. lra.
Qed.
Lemma PW g : (g < S n)%nat -> bw g = wv (iot g) \/ 0 < pow_circle (cO c0) (cr c0) (ipole (iot g)).
Proof.
  intros Hg. unfold bw. destruct (Nat.eqb_spec g n) as [->|D]; [auto|]. right. destruct (iot_pow g ltac:(lia)) as (P & E & _). rewrite <- E. auto.
Qed.
Lemma refl_bw g x : (g < S n)%nat -> refl (bw g) x = refl (wv (iot g)) x.
Proof.
  intros Hg. unfold bw. destruct (Nat.eqb_spec g n) as [->|D]; [auto|]. unfold sg. destruct (Rle_dec _ _); [|apply refl_opp].
  f_equal. destruct (wv (iot g)) as [[? [? ?]] ?]. unfold v4scal, vscal, vb, vp, vw. cbn [fst snd]. f_equal; [f_equal; [|f_equal]|]; ring.
Qed.
Lemma ipower_pos g : (g < S n)%nat -> 0 < ipower (iot g).
Proof. intros Hg. destruct (Nat.eq_dec g n) as [->|D]; [apply iot_n_facts|apply iot_pow; lia]. Qed.

(** ** the labels of the first two generations *)
Definition lab0 (j : nat) : label := if (j =? n)%nat then ([n], 0%nat) else ([], S j).
Definition labs0 : list label := map lab0 (seq 0 (n + 1)).
Definition lab1 (i j : nat) : label := if (j =? n)%nat then ([i; n], 0%nat) else ([i], S j).
Definition moved (i : nat) : list nat := filter (fun j => negb (j =? i)%nat && negb (j =? (i + 1) mod n)%nat) (seq 0 (n + 1)).
Definition labs1 : list label := flat_map (fun i => map (lab1 i) (moved i)) (seq 0 n).

Local Notation lok := (lok (S n) (S n) bw sv).
Local Notation crep := (crep (S n) (S n) bw sv).
Local Notation level_labels := (level_labels (S n) (S n) bw sv offc).

Lemma In_moved i j : (i < n)%nat -> In j (moved i) <-> (j <= n)%nat /\ j <> i /\ j <> nx n i.
Proof.
  intros Hi. unfold moved. rewrite filter_In, in_seq, andb_true_iff, !negb_true_iff, !Nat.eqb_neq. replace (i + 1)%nat with (S i) by lia. fold (nx n i). lia.
Qed.
Lemma lok_lab0 j : (j <= n)%nat -> lok (lab0 j).
Proof.
  intros Hj. unfold lab0. destruct (Nat.eqb_spec j n) as [->|D].
  - unfold PApo3.lok, label_ok. cbn [fst snd reduced moves]. split; [lia|]. split; [split; [lia|auto]|apply BS_n].
  - unfold PApo3.lok, label_ok. cbn [fst snd reduced moves]. split; [lia|auto].
Qed.
Lemma lok_lab1 i j : (i < n)%nat -> (j <= n)%nat -> j <> i -> j <> nx n i -> lok (lab1 i j).
Proof.
  intros Hi Hj D1 D2. unfold lab1. destruct (Nat.eqb_spec j n) as [->|D].
  - unfold PApo3.lok, label_ok. cbn [fst snd reduced moves]. split; [lia|]. split; [split; [lia|]; split; [lia|]; split; [lia|auto]|apply BS_n].
  - unfold PApo3.lok, label_ok. cbn [fst snd reduced moves]. split; [lia|]. split; [split; [lia|auto]|]. pose proof (ch_wall i j Hi ltac:(lia) D1 D2). lra.
Qed.
Lemma moves_0 g : (g < S n)%nat -> 1 <= kap (sv 0) (bw g) -> g = n.
Proof. intros Hg K. destruct (Nat.eq_dec g n) as [|D]; [auto|]. rewrite (proj1 (BS_fix g ltac:(lia))) in K. lra. Qed.
Lemma moves_S g j : (g < S n)%nat -> (j < n)%nat -> 1 <= kap (sv (S j)) (bw g) -> (g < n)%nat /\ j <> g /\ j <> nx n g.
Proof.
  intros Hg Hj K. destruct (Nat.eq_dec g n) as [->|D]; [rewrite (proj2 BS_n) in K by auto; lra|]. split; [lia|]. destruct (BS_fix g ltac:(lia)) as (_ & K1 & K2).
  split; intros ->; lra.
Qed.

Lemma labs0_level : level_labels 1 labs0.
Proof.
  split.
  - unfold labs0. apply FinFun.Injective_map_NoDup; [|apply seq_NoDup]. intros i j. unfold lab0. destruct (Nat.eqb_spec i n), (Nat.eqb_spec j n); congruence.
  - intros l. unfold labs0. rewrite in_map_iff. split.
    + intros (j & <- & I). apply in_seq in I. split; [apply lok_lab0; lia|]. unfold lab0. destruct (j =? n)%nat; reflexivity.
    + intros (L & E). destruct l as [w [|j]]; unfold level in E; cbn [fst snd offc] in E.
      * destruct w as [|g [|h w]]; cbn [length] in E; try lia. exists n. destruct L as (_ & (Hg & _) & Mv). cbn [fst snd moves] in Mv. apply moves_0 in Mv; auto. subst g.
        unfold lab0. rewrite Nat.eqb_refl. split; [auto|]. apply in_seq. lia.
      * destruct w as [|g w]; cbn [length] in E; try lia. exists j. destruct L as (Hs & _). cbn [fst snd] in Hs. unfold lab0. replace (j =? n)%nat with false by (symmetry; apply Nat.eqb_neq; lia). split; [auto|]. apply in_seq. lia.
Qed.
Lemma labs1_level : level_labels 2 labs1.
Proof.
  split.
  - unfold labs1. apply NoDup_flat_map; [apply seq_NoDup| |].
    + intros i _. apply FinFun.Injective_map_NoDup; [|apply NoDup_filter, seq_NoDup]. intros j j'. unfold lab1. destruct (Nat.eqb_spec j n), (Nat.eqb_spec j' n); congruence.
    + intros i i' y _ _ I I'. apply in_map_iff in I, I'. destruct I as (j & <- & _), I' as (j' & E & _). unfold lab1 in E. destruct (j =? n)%nat, (j' =? n)%nat; congruence.
  - intros l. unfold labs1. rewrite in_flat_map. split.
    + intros (i & Ii' & J). apply in_seq in Ii'. apply in_map_iff in J. destruct J as (j & <- & J). apply In_moved in J; [|lia]. split; [apply lok_lab1; try lia; tauto|]. unfold lab1. destruct (j =? n)%nat; reflexivity.
    + intros (L & E). destruct l as [w [|j]]; unfold level in E; cbn [fst snd offc] in E.
      * destruct w as [|g [|h [|k w]]]; cbn [length] in E; try lia. destruct L as (_ & (Hg & Dg & Hh & _) & Mv). cbn [fst snd moves] in Mv. apply moves_0 in Mv; auto. subst h.
        exists g. split; [apply in_seq; lia|]. apply in_map_iff. exists n. split; [unfold lab1; rewrite Nat.eqb_refl; auto|]. apply In_moved; [lia|]. split; [lia|]. split; [auto|]. pose proof (nx_lt n g ltac:(lia)). lia.
      * destruct w as [|g [|h w]]; cbn [length] in E; try lia. destruct L as (Hs & (Hg & _) & Mv). cbn [fst snd moves] in *. destruct (moves_S g j Hg ltac:(lia) Mv) as (Hg' & D1 & D2).
        exists g. split; [apply in_seq; lia|]. apply in_map_iff. exists j. split; [unfold lab1; replace (j =? n)%nat with false by (symmetry; apply Nat.eqb_neq; lia); auto|]. apply In_moved; [lia|]. split; [lia|]. auto.
Qed.
Lemma labs1_length : length labs1 = (n * (n - 1))%nat.
Proof.
  unfold labs1. rewrite flat_map_concat_map.
  assert (M : forall i, (i < n)%nat -> length (moved i) = (n - 1)%nat).
  { intros i Hi. pose proof (nx_lt n i Hi) as Hx. pose proof (nx_ne n i Hn Hi) as Dx. assert (ND : NoDup (i :: nx n i :: moved i)).
    { constructor; [cbn [In]; rewrite In_moved by auto; intuition|]. constructor; [rewrite In_moved by auto; intuition|]. apply NoDup_filter, seq_NoDup. }
    assert (E : length (i :: nx n i :: moved i) = length (seq 0 (n + 1))).
    { apply Nat.le_antisymm; apply NoDup_incl_length; auto; try apply seq_NoDup.
      - intros j [<-|[<-|J]]; apply in_seq; try lia. apply In_moved in J; lia.
      - intros j J. apply in_seq in J. destruct (Nat.eq_dec j i) as [->|D1]; [left; auto|]. destruct (Nat.eq_dec j (nx n i)) as [->|D2]; [right; left; auto|]. right; right. apply In_moved; [auto|]. lia. }
    rewrite seq_length in E. cbn [length] in E. lia. }
  assert (G : forall l, (forall i, In i l -> (i < n)%nat) -> length (concat (map (fun i => map (lab1 i) (moved i)) l)) = (length l * (n - 1))%nat).
  { induction l as [|i l IH]; intros H; cbn [map concat length]; [auto|]. rewrite app_length, map_length, M, IH; [cbn [length]; lia| |apply H; left; auto]. intros j J. apply H. right; auto. }
  rewrite G; [rewrite seq_length; auto|]. intros i J. apply in_seq in J. lia.
Qed.

(** ** the circles of the first two generations *)
Variables (invs : list (option inversion)) (circles0 : list gcircle).
Hypothesis IL : length invs = S n.
Hypothesis IN0 : forall g, (g < S n)%nat -> nth g invs None = Some (iot g).
Definition first (j : nat) : circle := if (j =? n)%nat then ci else ch j.
(** the first circles in any order: the one at the place [k] is [first (pi k)]; [kept i] are the places of
    the circles moved by the inversion [i] *)
Variables (pi : nat -> nat) (kept : nat -> list nat).
Hypothesis N0 : forall k, (k < n + 1)%nat -> nth k circles0 (GC c0) = GC (first (pi k)).
Hypothesis KP : forall i, (i < n)%nat -> Permutation (map pi (kept i)) (moved i).
Hypothesis KB : forall i k, In k (kept i) -> (k < n + 1)%nat.
Hypothesis PP : Permutation (map pi (seq 0 (n + 1))) (seq 0 (n + 1)).
Definition any_children : res (list (gcircle * nat)) :=
  let! circles1 := mapM (fun i => mapM (fun k => let! circle := invert_with invs i (nth k circles0 (GC c0)) in Ok (circle, i)) (kept i)) (seq 0 n) in
  Ok (concat circles1).
Definition labs0' : list label := map (fun k => lab0 (pi k)) (seq 0 (n + 1)).
Definition labs1' : list label := flat_map (fun i => map (fun k => lab1 i (pi k)) (kept i)) (seq 0 n).
Lemma labs0_perm : Permutation labs0' labs0.
Proof. unfold labs0', labs0. rewrite <- (map_map pi lab0). apply Permutation_map. exact PP. Qed.
Lemma labs1_perm : Permutation labs1' labs1.
Proof.
  unfold labs1', labs1. assert (A : Forall (fun i => (i < n)%nat) (seq 0 n)) by (apply Forall_forall; intros i J; apply in_seq in J; lia).
  induction A as [|i l Hi A IH]; cbn [flat_map]; [constructor|]. apply Permutation_app; [|exact IH]. rewrite <- (map_map pi (lab1 i)). apply Permutation_map. auto.
Qed.
Lemma level_perm k l l' : Permutation l l' -> level_labels k l' -> level_labels k l.
Proof.
  intros P (N1 & I1). split; [apply (Permutation_NoDup (Permutation_sym P) N1)|]. intros x. rewrite <- I1. split; [apply Permutation_in; auto|apply Permutation_in, Permutation_sym; auto].
Qed.
Lemma kept_moved i k : (i < n)%nat -> In k (kept i) -> In (pi k) (moved i).
Proof. intros Hi J. apply (Permutation_in _ (KP i Hi)). apply in_map. auto. Qed.

Lemma IN g : (g < S n)%nat -> nth g invs None = Some (iot g) /\ 0 < ipower (iot g) /\ forall x, refl (bw g) x = refl (wv (iot g)) x.
Proof. intros Hg. split; [auto|]. split; [apply ipower_pos; auto|]. intros x. apply refl_bw; auto. Qed.
Lemma C1f : (1 < S n)%nat /\ posc (ch 0) /\ sv 1%nat = vc (ch 0) /\ inner (ch 0) c0.
Proof. split; [lia|]. split; [apply PC; lia|]. split; [reflexivity|]. unfold inner. rewrite dist_sym, T0 by lia. lra. Qed.

Lemma first_crep j : (j <= n)%nat -> crep (first j) (lab0 j).
Proof.
  intros Hj. split; [unfold first; destruct (Nat.eqb_spec j n); [auto|apply PC; lia]|]. split; [|apply lok_lab0; auto].
  unfold first, lab0. destruct (Nat.eqb_spec j n) as [->|D]; [|reflexivity]. cbn [vec fst snd act fold_right]. unfold vec. cbn [fst snd act fold_right]. rewrite refl_bw by lia. apply iot_n_facts.
Qed.
Lemma lab1_eq i j : lab1 i j = (i :: fst (lab0 j), snd (lab0 j)).
Proof. unfold lab1, lab0. destruct (j =? n)%nat; reflexivity. Qed.

Lemma first_step i k c' : (i < n)%nat -> In k (kept i) -> invert_with invs i (nth k circles0 (GC c0)) = Ok (GC c') -> crep c' (lab1 i (pi k)).
Proof.
  intros Hi J0 E. pose proof (kept_moved i k Hi J0) as J. apply In_moved in J; [|auto]. rewrite N0 in E by (eapply KB; eauto). rewrite lab1_eq.
  apply (crep_step (S n) (S n) bw sv c0 (ch 0) iot invs B1 B2 S1 S2 BS IL IN (conj P0 eq_refl) C1f PW (first (pi k))).
  - pose proof (first_crep (pi k) ltac:(lia)) as R. destruct (lab0 (pi k)). exact R.
  - rewrite <- lab1_eq. apply lok_lab1; lia.
  - auto.
Qed.

Lemma first_children_rep L1 : any_children = Ok L1 -> Forall (fun x => isGC (fst x)) L1 -> Forall2 (rep (S n) (S n) bw sv) L1 labs1'.
Proof.
  intros E G. unfold any_children in E. destruct (mapM _ (seq 0 n)) as [Ls|] eqn:Em; cbn [bind] in E; [|discriminate]. injection E as <-. apply mapM_Forall2 in Em.
  unfold labs1'. rewrite flat_map_concat_map. apply Forall2_concat. rewrite Forall_concat in G.
  assert (A : Forall (fun i => (i < n)%nat) (seq 0 n)) by (apply Forall_forall; intros i J; apply in_seq in J; lia).
  revert A Em G. generalize (seq 0 n) as is. intros is A Em G. induction Em as [|i L is Ls Ei Em IH]; cbn [map]; [constructor|]. constructor; [|apply IH; [inversion A; auto|inversion G; auto]].
  inversion A as [|? ? Hi A']; subst. inversion G as [|? ? GL G']; subst. apply mapM_Forall2 in Ei.
  assert (J : Forall (fun k => In k (kept i)) (kept i)) by (apply Forall_forall; auto). clear A A' G G' IH Em.
  revert J Ei GL. generalize (kept i) at 2 3 4 as js. intros js J Ei GL. induction Ei as [|j x js xs Ej F IH]; cbn [map]; [constructor|]. constructor; [|apply IH; [inversion J; auto|inversion GL; auto]].
  inversion J as [|? ? Jj J']; subst. inversion GL as [|? ? (c' & Gx) GL']; subst. destruct (invert_with invs i _) as [g|] eqn:Eg; cbn [bind] in Ej; [|discriminate]. injection Ej as <-. cbn [fst] in Gx. subst g.
  exists c', (fst (lab0 (pi j))). split; [auto|]. split; [rewrite lab1_eq; auto|]. apply first_step; auto.
Qed.

Lemma three_seeds s : (s < S n)%nat -> exists t1 t2 t3, (t1 < S n)%nat /\ (t2 < S n)%nat /\ (t3 < S n)%nat /\ t1 <> t2 /\ t1 <> t3 /\ t2 <> t3 /\
  kap (sv s) (sv t1) = 1 /\ kap (sv s) (sv t2) = 1 /\ kap (sv s) (sv t3) = 1.
Proof.
  intros Hs. assert (K0 : forall j, (j < n)%nat -> kap (sv 0) (sv (S j)) = 1) by (intros j Hj; cbn [sv]; rewrite kap_scal_l, kap_sym, (inner_tang_kap (ch j) c0); auto; ring).
  destruct s as [|j].
  - exists 1%nat, 2%nat, 3%nat. repeat (split; [lia|]). split; [apply K0; lia|]. split; apply K0; lia.
  - assert (Pv : exists i, (i < n)%nat /\ nx n i = j).
    { destruct j as [|j]; [exists (n - 1)%nat|exists j]; (split; [lia|]); rewrite nx_eq by lia; match goal with |- context [(?a =? ?b)%nat] => destruct (Nat.eqb_spec a b) end; lia. }
    destruct Pv as (i & Hi & Ei). exists 0%nat, (S i), (S (nx n j)). pose proof (nx_lt n j ltac:(lia)) as Hx. pose proof (nx_ne2 n i Hn Hi) as (N1 & _). rewrite Ei in N1.
    repeat (split; [lia|]). split; [rewrite kap_sym; apply K0; lia|]. cbn [sv]. split; apply kap_tang; try (apply PC; lia).
    + rewrite <- Ei. apply tang_sym. apply Tn. auto.
    + apply Tn. lia.
Qed.

Lemma low_labels l : lok l -> (level offc l < 1)%nat -> l = ([], 0%nat).
Proof. intros _ H. destruct l as [[|g w] [|s]]; unfold level in H; cbn [fst snd length offc] in H; try lia. auto. Qed.

Lemma offc_1 s : (s < S n)%nat -> (offc s <= 1)%nat.
Proof. destruct s; cbn [offc]; lia. Qed.
Lemma offc_2 s t : (1 <= s < S n)%nat -> (t < S n)%nat -> (offc t <= offc s)%nat.
Proof. destruct s, t; cbn [offc]; lia. Qed.

Hypothesis C0 : circles0 = map GC (map (fun k => first (pi k)) (seq 0 (n + 1))).

Local Notation first' := (fun k => first (pi k)).
Lemma labs0_level' : level_labels 1 labs0'.
Proof. apply (level_perm _ _ _ labs0_perm), labs0_level. Qed.
Lemma labs1_level' : level_labels 2 labs1'.
Proof. apply (level_perm _ _ _ labs1_perm), labs1_level. Qed.
Lemma labs1_len' : length labs1' = (n * (n - 1))%nat.
Proof. rewrite (Permutation_length labs1_perm). apply labs1_length. Qed.
Lemma pi_le k : (k < n + 1)%nat -> (pi k <= n)%nat.
Proof.
  intros H. assert (J : In (pi k) (seq 0 (n + 1))) by (apply (Permutation_in _ PP), in_map, in_seq; lia). apply in_seq in J. lia.
Qed.
Lemma first_rep' : Forall2 crep (map first' (seq 0 (n + 1))) labs0'.
Proof.
  unfold labs0'. assert (A : Forall (fun j => (pi j <= n)%nat) (seq 0 (n + 1))) by (apply Forall_forall; intros j J; apply in_seq in J; apply pi_le; lia).
  clear C0 N0 KP KB PP. induction A; cbn [map]; constructor; auto. apply first_crep. auto.
Qed.

Lemma chain_packing d L1 more gens : any_children = Ok L1 -> descendants invs L1 d = Ok more ->
  mapM (mapM drawn) (circles0 :: map (map fst) (L1 :: more)) = Ok gens ->
  length gens = (d + 2)%nat /\ length (nth 0 gens []) = (n + 1)%nat /\ (forall i, (i <= d)%nat -> length (nth (S i) gens []) = (n ^ S i * (n - 1))%nat) /\
  Forall (fun c => 0 < cr c /\ disc_in_disc c c0) (concat gens) /\ ForallOrdPairs not_overlapping (concat gens) /\
  forall i c, In c (nth i gens []) -> touches_three_in c0 (concat (firstn (S i) gens)) c.
Proof.
  intros E1 Ed E. apply drawn_GCs in E. destruct gens as [|G0 [|G1 gens]]; try discriminate. cbn [map] in E. injection E as E0 Em1 Em. rewrite C0 in E0.
  assert (Q : G0 = map first' (seq 0 (n + 1))). { clear - E0. revert G0 E0. generalize (map first' (seq 0 (n+1))) as l. induction l as [|x l IH]; intros [|c G0] E; try discriminate; auto. cbn [map] in E. injection E as -> E. f_equal. auto. }
  subst G0. clear E0.
  pose proof (first_children_rep L1 E1 (map_fst_GC _ _ Em1)) as R1.
  pose proof (descendants_rep (S n) (S n) bw sv c0 (ch 0) iot invs B1 B2 S1 S2 BS IL IN (conj P0 eq_refl) C1f PW d L1 labs1' more R1 Ed (map_map_fst_GC _ _ Em)) as R2.
  apply (rep_drawn _ _ _ _ _ _ _ R1) in Em1. apply (rep_drawns _ _ _ _ _ _ _ R2) in Em. clear R1 R2.
  pose proof first_rep' as R0.
  set (Ls := labs0' :: labs1' :: labgens (S n) d labs1'). set (gs := map first' (seq 0 (n + 1)) :: G1 :: gens).
  assert (F : Forall2 (Forall2 crep) gs Ls) by (constructor; [exact R0|constructor; [exact Em1|exact Em]]).
  assert (LL : length Ls = (d + 2)%nat) by (unfold Ls; cbn [length]; rewrite labgens_length; lia).
  assert (LG : length gs = length Ls) by (apply (Forall2_len _ _ _ F)).
  assert (LN : forall i, length (nth i gs []) = length (nth i Ls [])).
  { clear - F. induction F as [|G L Gs Ls E F IH]; intros [|j]; cbn [nth]; auto. apply (Forall2_len _ _ _ E). }
  split; [lia|]. split; [rewrite LN; unfold Ls, labs0'; cbn [nth]; rewrite map_length, seq_length; auto|]. split.
  { intros i Hi. rewrite LN. unfold Ls. cbn [nth]. destruct i as [|i]; cbn [nth]; [rewrite labs1_len'; cbn [Nat.pow]; lia|].
    pose proof (labgens_sizes (S n) (S n) sv c0 (ch 0) invs IL (conj P0 eq_refl) C1f d labs1') as Z. assert (H1 : Forall (fun l => (hd 0%nat (fst l) < S n)%nat) labs1').
    { apply Forall_forall. intros l J. unfold labs1' in J. apply in_flat_map in J. destruct J as (i' & I' & J). apply in_seq in I'. apply in_map_iff in J. destruct J as (j & <- & _). rewrite lab1_eq. cbn [fst hd]. lia. }
    specialize (Z H1). apply (f_equal (fun l => nth i l 0%nat)) in Z. change 0%nat with (length (@nil label)) in Z at 1. rewrite map_nth in Z. rewrite Z.
    rewrite (nth_indep _ _ ((S n - 1) ^ S 0 * length labs1')%nat) by (rewrite map_length, seq_length; lia). rewrite (map_nth (fun i => ((S n - 1) ^ S i * length labs1')%nat)), seq_nth by lia.
    rewrite labs1_len'. replace (S n - 1)%nat with n by lia. cbn [Nat.add Nat.pow]. lia. }
  apply (final_packing (S n) (S n) bw sv offc c0 (ch 0) invs B1 B2 S1 S2 BS IL (conj P0 eq_refl) C1f OFF offc_1 offc_2 1 gs Ls F).
  - intros i Hi. destruct i as [|[|i]]; [apply labs0_level'|apply labs1_level'|]. unfold Ls. cbn [nth]. replace (1 + S (S i))%nat with (S 2 + i)%nat by lia.
    apply (level_gens (S n) (S n) bw sv offc c0 (ch 0) invs IL (conj P0 eq_refl) C1f d 2 labs1'); [|apply labs1_level'|lia]. intros s Hs. pose proof (offc_1 s Hs). lia.
  - apply low_labels.
  - apply three_seeds.
Qed.

(** the program does not fail when the poles are far enough *)
Lemma chain_total d : (forall i, (i < n)%nat -> cr c0 + / 8192 <= dist (cO c0) (ipole (iot i))) -> sepsilon_ <= ipower (iot n) ->
  exists L1 more gens, any_children = Ok L1 /\ descendants invs L1 d = Ok more /\
  mapM (mapM drawn) (circles0 :: map (map fst) (L1 :: more)) = Ok gens.
Proof.
  intros Far Pow.
  assert (PWF : forall g, (g < S n)%nat -> (bw g = wv (iot g) /\ sepsilon_ <= ipower (iot g)) \/ cr c0 + / 8192 <= dist (cO c0) (ipole (iot g))).
  { intros g Hg. destruct (Nat.eq_dec g n) as [->|D]; [left|right; apply Far; lia]. split; [|auto]. unfold bw. rewrite Nat.eqb_refl. auto. }
  assert (X : exists L1, any_children = Ok L1 /\ Forall (fun x => isGC (fst x)) L1).
  { unfold any_children. match goal with |- context [mapM ?f (seq 0 n)] => destruct (mapM_exists f (Forall (fun x => isGC (fst x))) (seq 0 n)) as (Ls & E & G) end.
    - intros i Hi. apply in_seq in Hi. apply mapM_exists. intros k J0. pose proof (kept_moved i k ltac:(lia) J0) as J. apply In_moved in J; [|lia]. rewrite N0 by (eapply KB; eauto). set (j := pi k) in *.
      assert (K : exists c', invert_with invs i (GC (first j)) = Ok (GC c')).
      { pose proof (first_crep j ltac:(lia)) as R. pose proof (lok_lab1 i j ltac:(lia) ltac:(lia) ltac:(lia) ltac:(lia)) as L. rewrite lab1_eq in L. destruct (lab0 j) as [w s]. cbn [fst snd] in L.
        apply (step_total (S n) (S n) bw sv c0 (ch 0) iot invs B1 B2 S1 S2 BS IL IN (conj P0 eq_refl) C1f PWF (first j) i w s R L). }
      destruct K as (c' & K). rewrite K. cbn [bind]. exists (GC c', i). split; [auto|]. exists c'. auto.
    - rewrite E. cbn [bind]. exists (concat Ls). split; [auto|]. apply Forall_concat. auto. }
  destruct X as (L1 & E1 & G1). pose proof (first_children_rep L1 E1 G1) as R1.
  assert (Y : exists more, descendants invs L1 d = Ok more /\ Forall (Forall (fun x => isGC (fst x))) more).
  { apply (descendants_total (S n) (S n) bw sv c0 (ch 0) iot invs B1 B2 S1 S2 BS IL IN (conj P0 eq_refl) C1f PW PWF d L1 labs1' R1). }
  destruct Y as (more & Ed & G). destruct (isGC_fst _ G1) as (g1 & H1). destruct (isGC_fsts _ G) as (gs & H). exists L1, more, (map first' (seq 0 (n + 1)) :: g1 :: gs). split; [auto|]. split; [auto|].
  apply drawn_GCs. cbn [map]. rewrite C0, H1, H. auto.
Qed.
End Chain.
