(** * The arcs drawn for one generation. *)

From Coq Require Import Reals List Bool Arith Lia Lra Psatz Permutation Sorted.
From Verif Require Import Base BaseLemmas Spec SpecLemmas SpecHyperbolic ModelInternal ModelLine ModelCircle ModelInversion ModelHyperbolic PLine PCircle PCircle2 PApo2 PMobGasket1 PHyp1.
Import ListNotations.
Local Open Scope R_scope.

(** ** Sorting *)
Lemma insert_perm x l : Permutation (insert_r x l) (x :: l).
Proof.
  induction l as [|y l IH]; cbn [insert_r]; auto. destruct (leb x y); auto.
  rewrite IH. apply perm_swap.
Qed.

Lemma sort_perm l : Permutation (sort_r l) l.
Proof. induction l as [|x l IH]; cbn; auto. rewrite insert_perm. constructor. auto. Qed.

Lemma insert_sorted x l : StronglySorted Rle l -> StronglySorted Rle (insert_r x l).
Proof.
  induction 1 as [|y l H IH HF]; cbn [insert_r]; [repeat constructor|].
  destruct (leb x y) eqn:E.
  - apply leb_true in E. constructor; [constructor; auto|]. constructor; auto. eapply Forall_impl; [|exact HF]. intros; cbv beta in *; lra.
  - apply leb_false in E. constructor; auto. rewrite Forall_forall in *. intros z Hz. apply (Permutation_in _ (insert_perm x l)) in Hz.
    destruct Hz as [<-|Hz]; [lra|auto].
Qed.

Lemma sort_sorted l : StronglySorted Rle (sort_r l).
Proof. induction l; cbn; [constructor|apply insert_sorted; auto]. Qed.

Lemma sorted_nth l i j d : StronglySorted Rle l -> (i <= j < length l)%nat -> nth i l d <= nth j l d.
Proof.
  intros H. revert i j. induction H as [|x l H IH HF]; cbn [length]; intros i j Hij; [lia|].
  destruct i as [|i], j as [|j]; cbn [nth]; try lia; [lra| |apply IH; lia].
  rewrite Forall_forall in HF. apply HF. apply nth_In. lia.
Qed.

(** ** The points are on one side *)
Definition sided (a b : R) (l : list R) : Prop := (forall t, In t l -> 0 <= gg a b t) \/ (forall t, In t l -> gg a b t <= 0).

Lemma sin_neg_range x : - PI <= x <= 0 -> sin x <= 0.
Proof. intros H. assert (0 <= sin (- x)) by (apply sin_ge_0; lra). rewrite sin_neg in H0. lra. Qed.

Lemma consecutive_sided l i : StronglySorted Rle l -> (forall t, In t l -> - PI < t <= PI) -> (i < length l)%nat ->
  sided (nth i l 0) (nth ((i + 1) mod length l) l 0) l.
Proof.
  intros H HR Hi. pose proof (HR _ (nth_In l 0 Hi)) as Ra. set (a := nth i l 0) in *.
  destruct (Nat.eq_dec (i + 1) (length l)) as [E|E].
  - rewrite E, Nat.mod_same by lia. right. intros t Ht. destruct (In_nth l t 0 Ht) as (k & Hk & Ek).
    assert (t <= a) by (rewrite <- Ek; apply sorted_nth; auto; lia).
    assert (nth 0 l 0 <= t) by (rewrite <- Ek; apply sorted_nth; auto; lia).
    assert (L : (0 < length l)%nat) by lia. pose proof (HR _ (nth_In l 0 L)) as Rb. set (b := nth 0 l 0) in *.
    unfold gg. assert (sin ((t - a) / 2) <= 0) by (apply sin_neg_range; lra). assert (0 <= sin ((t - b) / 2)) by (apply sin_ge_0; lra).
    assert (0 <= (- sin ((t - a) / 2)) * sin ((t - b) / 2)) by (apply Rmult_le_pos; lra). lra.
  - rewrite Nat.mod_small by lia. left. intros t Ht. destruct (In_nth l t 0 Ht) as (k & Hk & Ek).
    assert (Hi1 : (i + 1 < length l)%nat) by lia. pose proof (HR _ (nth_In l 0 Hi1)) as Rb.
    assert (Hab : a <= nth (i + 1) l 0) by (apply sorted_nth; auto; lia). set (b := nth (i + 1) l 0) in *. pose proof (HR t Ht) as Rt.
    unfold gg. destruct (le_lt_dec k i) as [L|L].
    + assert (t <= a) by (rewrite <- Ek; apply sorted_nth; auto; lia).
      assert (sin ((t - a) / 2) <= 0) by (apply sin_neg_range; lra). assert (sin ((t - b) / 2) <= 0) by (apply sin_neg_range; lra).
      assert (0 <= (- sin ((t - a) / 2)) * (- sin ((t - b) / 2))) by (apply Rmult_le_pos; lra). lra.
    + assert (b <= t) by (rewrite <- Ek; apply sorted_nth; auto; lia).
      apply Rmult_le_pos; apply sin_ge_0; lra.
Qed.

(** ** Arcs whose ends are angles of a list *)
Definition ends (r : R) (l : list R) (A : arc) : Prop :=
  exists a b, arc_of r a b A /\ (exists a0, In a0 l /\ un a0 = un a) /\ (exists b0, In b0 l /\ un b0 = un b).
Definition node (r : R) (l : list R) (A : arc) : Prop :=
  exists a b, arc_of r a b A /\ (exists a0, In a0 l /\ un a0 = un a) /\ (exists b0, In b0 l /\ un b0 = un b) /\ sided a b l.

Lemma node_ends r l A : node r l A -> ends r l A.
Proof. intros (a & b & H1 & H2 & H3 & _). exists a, b. auto. Qed.

Lemma ends_incl r l l' A : incl l l' -> ends r l A -> ends r l' A.
Proof. intros HI (a & b & H1 & (a0 & I1 & E1) & (b0 & I2 & E2)). exists a, b. split; auto. split; eauto. Qed.

Lemma joins_sym A P Q : joins A P Q -> joins A Q P.
Proof. unfold joins. tauto. Qed.

Lemma node_no_cross r l A B : 0 < r -> ends r l A -> node r l B -> do_not_cross r A B /\ do_not_cross r B A.
Proof.
  intros Hr (a & b & HA & (a0 & Ia & Ea) & (b0 & Ib & Eb)) (a' & b' & HB & _ & _ & HS).
  assert (K : forall M, on_circle (aO A) (ar A) M -> on_circle (aO B) (ar B) M -> dist (0, 0) M < r ->
    (un a = un a' /\ un b = un b') \/ (un a = un b' /\ un b = un a')).
  { intros M H1 H2 H3. apply (meet_same_ends r a' b' B a b A M); auto.
    rewrite <- (gg_un a' b' a0 a Ea), <- (gg_un a' b' b0 b Eb). destruct HS as [HS|HS]; [left|right]; auto. }
  pose proof (proj2 (arc_of_line r a b A Hr HA)) as JA. pose proof (proj2 (arc_of_line r a' b' B Hr HB)) as JB.
  assert (J : (un a = un a' /\ un b = un b') \/ (un a = un b' /\ un b = un a') ->
    joins A (starting_point B) (ending_point B) /\ joins B (starting_point A) (ending_point A)).
  { unfold joins in *. intros [[E1 E2]|[E1 E2]]; rewrite E1, E2 in JA; destruct JA as [[-> ->]|[-> ->]], JB as [[-> ->]|[-> ->]]; tauto. }
  split; intros M H1 H2 H3.
  - specialize (K M H1 H2 H3). destruct (J K) as [J1 J2]. destruct (same_ends r a' b' B a b A Hr HB HA K) as [-> ->]. auto.
  - specialize (K M H2 H1 H3). destruct (J K) as [J1 J2]. destruct (same_ends r a' b' B a b A Hr HB HA K) as [-> ->]. auto.
Qed.

(** ** The arcs of a sorted list *)
Lemma Forall2_nth_eq {X Y} (P : X -> Y -> Prop) l1 l2 : Forall2 P l1 l2 -> forall i dx dy, (i < length l1)%nat -> P (nth i l1 dx) (nth i l2 dy).
Proof. induction 1 as [|x y l1 l2 H F IH]; cbn [length]; intros i dx dy Hi; [lia|]. destruct i; cbn [nth]; auto. apply IH. lia. Qed.

Lemma hyp_arcs_spec r th arcs d0 : hyp_arcs (mkCircle (0, 0) r) th = Ok arcs ->
  length arcs = length th /\ forall i, (i < length th)%nat -> arc_of r (nth i th 0) (nth ((i + 1) mod length th) th 0) (nth i arcs d0).
Proof.
  unfold hyp_arcs. intros H. apply mapM_Forall2 in H. pose proof (Forall2_len _ _ _ H) as L. rewrite seq_length in L. split; [auto|].
  intros i Hi. pose proof (Forall2_nth_eq _ _ _ H i 0%nat d0) as K. rewrite seq_length in K. specialize (K Hi). rewrite seq_nth in K by auto. cbn [Nat.add] in K.
  apply bind_Ok in K. destruct K as (o & E & K). destruct o; try discriminate. injection K as <-. exact E.
Qed.

Lemma level_nodes r l arcs : 0 < r -> (forall t, In t l -> - PI < t <= PI) -> hyp_arcs (mkCircle (0, 0) r) (sort_r l) = Ok arcs -> Forall (node r l) arcs.
Proof.
  intros Hr HR H. rewrite Forall_forall. intros A HA. destruct (In_nth arcs A A HA) as (i & Hi & <-).
  destruct (hyp_arcs_spec r (sort_r l) arcs A H) as [L K]. rewrite L in Hi. specialize (K i Hi).
  pose proof (sort_perm l) as P. assert (L0 : (0 < length (sort_r l))%nat) by lia.
  exists (nth i (sort_r l) 0), (nth ((i + 1) mod length (sort_r l)) (sort_r l) 0). split; auto.
  split; [|split].
  - exists (nth i (sort_r l) 0). split; auto. apply (Permutation_in _ P), nth_In; auto.
  - eexists. split; [|reflexivity]. apply (Permutation_in _ P), nth_In. apply Nat.mod_upper_bound. lia.
  - assert (S : sided (nth i (sort_r l) 0) (nth ((i + 1) mod length (sort_r l)) (sort_r l) 0) (sort_r l)).
    { apply consecutive_sided; auto; [apply sort_sorted|]. intros t Ht. apply HR. apply (Permutation_in _ P); auto. }
    apply Permutation_sym in P. destruct S as [S|S]; [left|right]; intros t Ht; apply S; apply (Permutation_in _ P); auto.
Qed.

(** ** The three sides *)
Definition norm_angle (t : R) : R := atan2 (snd (unit_vector_ t)) (fst (unit_vector_ t)).

Lemma norm_un t : un (norm_angle t) = un t.
Proof. unfold norm_angle, unit_vector_, un. cbn [fst snd]. destruct (unit_angle (cos t) (sin t) (cs1 t)) as [-> ->]. auto. Qed.

Lemma hyp_sides_spec r t0 t1 t2 arcs : hyp_sides (mkCircle (0, 0) r) t0 t1 t2 = Ok arcs ->
  exists A0 A1 A2, arcs = [A0; A1; A2] /\ arc_of r t0 t1 A0 /\ arc_of r t1 t2 A1 /\ arc_of r t2 t0 A2.
Proof.
  unfold hyp_sides. intros H. apply bind_Ok in H. destruct H as (os & E & H).
  apply mapM_Forall2 in E, H. inversion E as [|? o0 ? ? E0 F0]; subst. inversion F0 as [|? o1 ? ? E1 F1]; subst. inversion F1 as [|? o2 ? ? E2 F2]; subst. inversion F2; subst.
  inversion H as [|? A0 ? ? G0 H0]; subst. inversion H0 as [|? A1 ? ? G1 H1]; subst. inversion H1 as [|? A2 ? ? G2 H2]; subst. inversion H2; subst.
  destruct o0, o1, o2; try discriminate. injection G0 as ->. injection G1 as ->. injection G2 as ->. exists A0, A1, A2. auto.
Qed.

Lemma three_sided a b c l : (forall t, In t l -> un t = un a \/ un t = un b \/ un t = un c) -> sided a b l.
Proof.
  intros H. assert (Za : gg a b a = 0) by (unfold gg; replace ((a - a) / 2) with 0 by field; rewrite sin_0; ring).
  assert (Zb : gg a b b = 0) by (unfold gg; replace ((b - b) / 2) with 0 by field; rewrite sin_0; ring).
  destruct (Rle_dec 0 (gg a b c)) as [Hc|Hc]; [left|right]; intros t Ht; destruct (H t Ht) as [E|[E|E]]; rewrite (gg_un a b t _ E); lra.
Qed.

Lemma sides_nodes r t0 t1 t2 arcs : hyp_sides (mkCircle (0, 0) r) t0 t1 t2 = Ok arcs -> Forall (node r (map norm_angle [t0; t1; t2])) arcs.
Proof.
  intros H. destruct (hyp_sides_spec r t0 t1 t2 arcs H) as (A0 & A1 & A2 & -> & H0 & H1 & H2).
  assert (I : forall t, In t [t0; t1; t2] -> exists s, In s (map norm_angle [t0; t1; t2]) /\ un s = un t).
  { intros t Ht. exists (norm_angle t). split; [apply in_map; auto|apply norm_un]. }
  assert (S : forall a b c, (forall t, In t [t0; t1; t2] -> t = a \/ t = b \/ t = c) -> sided a b (map norm_angle [t0; t1; t2])).
  { intros a b c K. apply three_sided with c. intros t Ht. apply in_map_iff in Ht. destruct Ht as (x & <- & Hx). rewrite norm_un.
    destruct (K x Hx) as [->|[->| ->]]; auto. }
  repeat constructor.
  - exists t0, t1. split; [auto|]. split; [apply I; cbn; auto|]. split; [apply I; cbn; auto|]. apply S with t2. cbn. intuition.
  - exists t1, t2. split; [auto|]. split; [apply I; cbn; auto|]. split; [apply I; cbn; auto|]. apply S with t0. cbn. intuition.
  - exists t2, t0. split; [auto|]. split; [apply I; cbn; auto|]. split; [apply I; cbn; auto|]. apply S with t1. cbn. intuition.
Qed.
