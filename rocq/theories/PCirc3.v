(** * Proofs about examples/triangularCircularGasket.py: the packing in a circle. *)

From Coq Require Import Reals Lra Lia Psatz List Bool Permutation FinFun.
From Verif Require Import Base BaseLemmas Spec SpecLemmas SpecTriangle SpecGasket SpecApollonian ModelInternal ModelLine ModelCircle ModelTriangle ModelInversion ModelTangentCircles ModelApollonian ModelCircular PCircle PInvBase PInversion PInversion2 PTriangle PTriangle2 PTriangle3 PTriangle4 PTriangle5 PSteiner PSteiner2 PGasket1 PGasket5 PApo1 PApo2 PApo3 PApo4 PApo5 PCirc1 PCirc2.
Import ListNotations.
Local Open Scope R_scope.

(** ** places *)
Definition pv (n k : nat) : nat := if (k =? n)%nat then n else ((k + (n - 1)) mod n)%nat.
Lemma pv_lt n k : (3 <= n)%nat -> (k < n)%nat -> (pv n k < n)%nat.
Proof. intros Hn H. unfold pv. replace (k =? n)%nat with false by (symmetry; apply Nat.eqb_neq; lia). apply Nat.mod_upper_bound. lia. Qed.
Lemma nx_pv n k : (3 <= n)%nat -> (k < n)%nat -> nx n (pv n k) = k.
Proof.
  intros Hn H. unfold pv, nx. replace (k =? n)%nat with false by (symmetry; apply Nat.eqb_neq; lia). rewrite <- Nat.add_1_r, Nat.add_mod_idemp_l by lia. replace (k + (n - 1) + 1)%nat with (k + 1 * n)%nat by lia. rewrite Nat.mod_add by lia. apply Nat.mod_small; auto.
Qed.
Lemma pv_nx n k : (3 <= n)%nat -> (k < n)%nat -> pv n (nx n k) = k.
Proof. intros Hn H. pose proof (nx_lt n k H) as Hx. apply (nx_inj n); [apply pv_lt; auto|auto|]. apply nx_pv; auto. Qed.
Lemma pv_inj n j k : (3 <= n)%nat -> (j <= n)%nat -> (k <= n)%nat -> pv n j = pv n k -> j = k.
Proof.
  intros Hn Hj Hk E. destruct (Nat.eq_dec j n) as [->|Dj], (Nat.eq_dec k n) as [->|Dk]; auto.
  - pose proof (pv_lt n k Hn ltac:(lia)). unfold pv at 1 in E. rewrite Nat.eqb_refl in E. lia.
  - pose proof (pv_lt n j Hn ltac:(lia)). unfold pv at 2 in E. rewrite Nat.eqb_refl in E. lia.
  - rewrite <- (nx_pv n j), <- (nx_pv n k) by (auto; lia). f_equal. auto.
Qed.
Lemma pv_le n k : (3 <= n)%nat -> (k <= n)%nat -> (pv n k <= n)%nat.
Proof. intros Hn H. destruct (Nat.eq_dec k n) as [->|]; [unfold pv; rewrite Nat.eqb_refl; auto|]. pose proof (pv_lt n k Hn ltac:(lia)). lia. Qed.
Lemma pv_n n : pv n n = n.
Proof. unfold pv. rewrite Nat.eqb_refl. auto. Qed.

Definition kept (n i : nat) : list nat := filter (fun j => negb (j =? (i + 1) mod n)%nat && negb (j =? (i + 2) mod n)%nat) (seq 0 (n + 1)).
Lemma nx1 n i : ((i + 1) mod n)%nat = nx n i.
Proof. unfold nx. f_equal. lia. Qed.
Lemma nx2 n i : (3 <= n)%nat -> ((i + 2) mod n)%nat = nx n (nx n i).
Proof. intros Hn. unfold nx. replace (S (S i mod n)) with (S i mod n + 1)%nat by lia. rewrite Nat.add_mod_idemp_l by lia. f_equal. lia. Qed.
Lemma In_kept n i k : (3 <= n)%nat -> (i < n)%nat -> In k (kept n i) <-> (k <= n)%nat /\ k <> nx n i /\ k <> nx n (nx n i).
Proof.
  intros Hn Hi. unfold kept. rewrite filter_In, in_seq, andb_true_iff, !negb_true_iff, !Nat.eqb_neq, nx1, nx2 by auto. lia.
Qed.
Lemma kept_perm n i : (3 <= n)%nat -> (i < n)%nat -> Permutation (map (pv n) (kept n i)) (moved n i).
Proof.
  intros Hn Hi. apply NoDup_Permutation.
  - assert (I : forall x y, In x (kept n i) -> In y (kept n i) -> pv n x = pv n y -> x = y) by (intros x y Hx Hy; apply In_kept in Hx, Hy; auto; apply pv_inj; lia).
    assert (N : NoDup (kept n i)) by (apply NoDup_filter, seq_NoDup). revert I N. generalize (kept n i) as l. induction l as [|x l IH]; intros I N; cbn [map]; constructor.
    + intros J. apply in_map_iff in J. destruct J as (y & E & J). inversion N; subst. apply H1. rewrite <- (I y x); auto; [right; auto|left; auto].
    + apply IH; [intros; apply I; try right; auto|inversion N; auto].
  - apply NoDup_filter, seq_NoDup.
  - intros j. rewrite (In_moved n Hn i j Hi). rewrite in_map_iff. pose proof (nx_lt n i Hi) as Hx. pose proof (nx_lt n _ Hx) as Hxx. split.
    + intros (k & <- & J). apply In_kept in J; auto. split; [apply pv_le; lia|]. split; intros E; destruct (Nat.eq_dec k n) as [->|D].
      * rewrite pv_n in E. lia.
      * apply (f_equal (nx n)) in E. rewrite nx_pv in E by (auto; lia). lia.
      * rewrite pv_n in E. lia.
      * apply (f_equal (nx n)) in E. rewrite nx_pv in E by (auto; lia). lia.
    + intros (H1 & H2 & H3). destruct (Nat.eq_dec j n) as [->|D].
      * exists n. split; [apply pv_n|]. apply In_kept; auto. lia.
      * exists (nx n j). split; [apply pv_nx; lia|]. pose proof (nx_lt n j ltac:(lia)). apply In_kept; auto. split; [lia|]. split; intros E; apply nx_inj in E; lia.
Qed.
Lemma seq_perm n : (3 <= n)%nat -> Permutation (map (pv n) (seq 0 (n + 1))) (seq 0 (n + 1)).
Proof.
  intros Hn. apply NoDup_Permutation_bis.
  - assert (I : forall x y, In x (seq 0 (n + 1)) -> In y (seq 0 (n + 1)) -> pv n x = pv n y -> x = y) by (intros x y Hx Hy; apply in_seq in Hx, Hy; apply pv_inj; lia).
    pose proof (seq_NoDup (n + 1) 0) as N. revert I N. generalize (seq 0 (n + 1)) as l. induction l as [|x l IH]; intros I N; cbn [map]; constructor.
    + intros J. apply in_map_iff in J. destruct J as (y & E & J). inversion N; subst. apply H1. rewrite <- (I y x); auto; [right; auto|left; auto].
    + apply IH; [intros; apply I; try right; auto|inversion N; auto].
  - rewrite map_length. lia.
  - intros x J. apply in_map_iff in J. destruct J as (k & <- & J). apply in_seq in J. apply in_seq. pose proof (pv_le n k Hn ltac:(lia)). lia.
Qed.

Lemma FOP_nth {X} (Q : X -> X -> Prop) d l : (forall i j, (i < j)%nat -> (j < length l)%nat -> Q (nth i l d) (nth j l d)) -> ForallOrdPairs Q l.
Proof.
  induction l as [|x l IH]; intros H; constructor.
  - apply Forall_forall. intros y J. destruct (In_nth _ _ d J) as (k & Hk & <-). apply (H 0%nat (S k)); cbn [length]; lia.
  - apply IH. intros i j Hi Hj. apply (H (S i) (S j)); cbn [length]; lia.
Qed.

(** ** the chain *)
Section Chain.
Variables (c0 : circle) (n : nat) (phi sh : R).
Hypothesis Hn : (3 <= n)%nat.
Hypothesis P0 : 0 < cr c0.
Hypothesis Hphi : Rabs phi < 1.
Local Notation ch := (chain_circle c0 n phi sh).
Local Notation ci := (chain_inner c0 n phi).

Lemma chain_nth j : (j < n)%nat -> nth j (chain_all c0 n phi sh) c0 = ch j.
Proof. intros Hj. unfold chain_all. rewrite app_nth1 by (rewrite map_length, seq_length; auto). apply nth_seq. auto. Qed.
Lemma chain_nth_n : nth n (chain_all c0 n phi sh) c0 = ci.
Proof. unfold chain_all. rewrite app_nth2; rewrite map_length, seq_length; [|lia]. rewrite Nat.sub_diag. auto. Qed.
Lemma chain_len : length (chain_all c0 n phi sh) = (n + 1)%nat.
Proof. unfold chain_all. rewrite app_length, map_length, seq_length. auto. Qed.

Lemma chain_facts : posc ci /\ inner ci c0 /\ (forall j, (j < n)%nat -> posc (ch j)) /\
  (forall j, (j < n)%nat -> dist (cO c0) (cO (ch j)) = cr c0 - cr (ch j)) /\ (forall j, (j < n)%nat -> tang (ch j) ci) /\ (forall j, (j < n)%nat -> tang (ch j) (ch (nx n j))) /\
  (forall i j, (i < n)%nat -> (j < n)%nat -> i <> j -> disj (ch i) (ch j)).
Proof.
  pose proof (chain_spec c0 n phi sh Hn P0 Hphi) as (chain & inn & E & L & Pi & Ii & Hc & Ht & Hd). rewrite <- chain_all_eq in E. unfold chain_all in E. apply app_inj_tail in E. destruct E as (E & <-).
  assert (A : forall j, (j < n)%nat -> nth j chain c0 = ch j) by (intros j Hj; rewrite <- E; apply nth_seq; auto).
  split; [exact Pi|]. split; [unfold inner; rewrite dist_sym; lra|]. split; [|split; [|split; [|split]]].
  - intros j Hj. rewrite <- A by auto. apply Hc. apply nth_In. lia.
  - intros j Hj. rewrite <- A by auto. apply Hc. apply nth_In. lia.
  - intros j Hj. rewrite <- A by auto. apply Hc. apply nth_In. lia.
  - intros j Hj. pose proof (nx_lt n j Hj). rewrite <- !A by auto. apply Ht. auto.
  - intros i j Hi Hj D. rewrite <- !A by auto. apply Hd; auto.
Qed.
Lemma chain_ci_lt : cr ci < cr c0.
Proof.
  destruct chain_facts as (Pi & Ii & Pc & T0 & Ti & _). pose proof (Pc 0%nat ltac:(lia)) as P. pose proof (T0 0%nat ltac:(lia)) as E. pose proof (Ti 0%nat ltac:(lia)) as F. unfold posc, tang, inner in *.
  pose proof (dist_triangle (cO (ch 0)) (cO c0) (cO ci)) as Q. rewrite (dist_sym (cO (ch 0)) (cO c0)) in Q. rewrite (dist_sym (cO c0) (cO ci)) in Q. pose proof (dist_nonneg (cO ci) (cO c0)). lra.
Qed.

(** the first circles *)
Lemma chain_first : Forall (fun c => 0 < cr c /\ disc_in_disc c c0) (chain_all c0 n phi sh) /\ ForallOrdPairs not_overlapping (chain_all c0 n phi sh) /\
  forall c, In c (chain_all c0 n phi sh) -> touches_three_in c0 (chain_all c0 n phi sh) c.
Proof.
  destruct chain_facts as (Pi & Ii & Pc & T0 & Ti & Tn & Dj).
  assert (Ic : forall j, (j < n)%nat -> In (ch j) (chain_all c0 n phi sh)) by (intros j Hj; rewrite <- chain_nth by auto; apply nth_In; rewrite chain_len; lia).
  assert (Sp : forall c, In c (chain_all c0 n phi sh) -> c = ci \/ exists j, (j < n)%nat /\ c = ch j).
  { intros c J. unfold chain_all in J. apply in_app_iff in J. destruct J as [J|[<-|[]]]; [|auto]. apply in_map_iff in J. destruct J as (j & <- & J). apply in_seq in J. right. exists j. split; [lia|auto]. }
  assert (Ne : forall i j, (i < n)%nat -> (j < n)%nat -> i <> j -> ch i <> ch j).
  { intros i j Hi Hj D E. pose proof (Dj i j Hi Hj D) as Q. rewrite E in Q. unfold disj in Q. rewrite (proj2 (dist_0 _ _) eq_refl) in Q. pose proof (Pc j Hj). unfold posc in *. lra. }
  split; [|split].
  - apply Forall_forall. intros c J. destruct (Sp c J) as [->|(j & Hj & ->)]; [split; [exact Pi|apply inner_disc; auto]|]. split; [apply Pc; auto|]. apply inner_disc. unfold inner. rewrite dist_sym, T0 by auto. lra.
  - apply (FOP_nth _ c0). rewrite chain_len. intros i j Hi Hj. rewrite chain_nth by lia. unfold not_overlapping. destruct (Nat.eq_dec j n) as [->|D].
    + rewrite chain_nth_n, (Ti i) by lia. lra.
    + rewrite chain_nth by lia. apply Dj; lia.
  - intros c J. destruct (Sp c J) as [->|(j & Hj & ->)].
    + left. exists (ch 0), (ch 1), (ch 2). split; [intros y [<-|[<-|[<-|[]]]]; apply Ic; lia|]. split.
      * pose proof (Ne 0%nat 1%nat ltac:(lia) ltac:(lia) ltac:(lia)). pose proof (Ne 0%nat 2%nat ltac:(lia) ltac:(lia) ltac:(lia)). pose proof (Ne 1%nat 2%nat ltac:(lia) ltac:(lia) ltac:(lia)). repeat constructor; cbn [In]; intuition congruence.
      * assert (T : forall k, (k < n)%nat -> circles_touch ci (ch k)) by (intros k Hk; unfold circles_touch, ext_tangent; rewrite dist_sym, (Ti k Hk); ring). repeat split; apply T; lia.
    + right. pose proof (nx_lt n j Hj) as Hx. pose proof (pv_lt n j Hn Hj) as Hv. pose proof (nx_pv n j Hn Hj) as Ev. exists (ch (nx n j)), (ch (pv n j)). split; [intros y [<-|[<-|[]]]; apply Ic; auto|]. split; [|split; [|split]].
      * apply Ne; auto. intros E. rewrite <- E in Ev. destruct (nx_ne2 n j Hn Hj) as (Q & _). contradiction.
      * apply (Tn j Hj).
      * unfold circles_touch, ext_tangent. pose proof (Tn (pv n j) Hv) as T. rewrite Ev in T. unfold tang in T. rewrite dist_sym, T. ring.
      * apply T0. auto.
Qed.
End Chain.
