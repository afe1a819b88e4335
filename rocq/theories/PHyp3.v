(** * The pictures of the hyperbolic tessellations. *)

From Coq Require Import Reals List Bool Arith Lia Lra Psatz Permutation Sorted.
From Verif Require Import Base BaseLemmas Spec SpecLemmas SpecHyperbolic ModelInternal ModelLine ModelCircle ModelInversion ModelHyperbolic PLine PCircle PCircle2 PApo2 PMobGasket1 PHyp1 PHyp2.
Import ListNotations.
Local Open Scope R_scope.

(** ** Number of points *)
Lemma next_length invs g : Forall (fun Mi => (snd Mi < 3)%nat) g -> length (next_generation invs g) = (2 * length g)%nat /\ Forall (fun Mi => (snd Mi < 3)%nat) (next_generation invs g).
Proof.
  unfold next_generation. induction 1 as [|[M i] g H F IH]; [cbn; auto|]. cbn [flat_map]. rewrite app_length. destruct IH as [L1 L2]. cbn [fst snd] in *.
  match type of L1 with length ?X = _ => set (rest := X) in * end. clearbody rest.
  destruct i as [|[|[|i]]]; [| | |lia]; cbn [Nat.eqb negb filter map app length]; (split; [lia|]); repeat (constructor; [cbn [snd]; lia|]); exact L2.
Qed.

Lemma generations_length invs n g k : Forall (fun Mi => (snd Mi < 3)%nat) g -> length g = k ->
  length (generations invs g n) = n /\ (forall d, (d < n)%nat -> length (nth d (generations invs g n) []) = (2 ^ d * k)%nat) /\
  Forall (Forall (fun Mi => (snd Mi < 3)%nat)) (generations invs g n).
Proof.
  revert g k. induction n as [|n IH]; intros g k H L; cbn [generations length]; [split; [|split]; auto; intros; lia|].
  destruct (next_length invs g H) as [L1 F1]. destruct (IH (next_generation invs g) (2 * k)%nat F1) as (E1 & E2 & E3); [lia|].
  split; [lia|]. split; [|constructor; auto]. intros [|d] Hd; cbn [nth Nat.pow]; [lia|]. rewrite E2 by lia. lia.
Qed.

Lemma generation1_length invs pts : length (generation1 invs pts) = 3%nat /\ Forall (fun Mi => (snd Mi < 3)%nat) (generation1 invs pts).
Proof. split; [reflexivity|]. unfold generation1. cbn [map]. repeat (constructor; [cbn [snd]; lia|]). constructor. Qed.

Lemma points_count r t0 t1 t2 depth arcs gens : hyp_points (mkCircle (0, 0) r) t0 t1 t2 depth = Ok (arcs, gens) ->
  hyp_sides (mkCircle (0, 0) r) t0 t1 t2 = Ok arcs /\ length gens = (depth - 1)%nat /\ (forall d, (d < depth - 1)%nat -> length (nth d gens []) = (3 * 2 ^ d)%nat).
Proof.
  unfold hyp_points. intros H. apply bind_Ok in H. destruct H as (arcs' & E & H). injection H as -> <-. split; auto.
  set (invs := map side_inversion arcs). set (pts := [unit_vector_ t0; unit_vector_ t1; unit_vector_ t2]).
  destruct (generation1_length invs pts) as [L F]. destruct (generations_length invs (depth - 1) (generation1 invs pts) 3 F L) as (E1 & E2 & _).
  split; [exact E1|]. intros d Hd. etransitivity; [exact (E2 d Hd)|lia].
Qed.

Lemma angle_range e t : angle_of e = Ok t -> - PI < t <= PI.
Proof. destruct e as [[x y]|]; cbn; [|discriminate]. intros H. injection H as <-. apply atan2_range. Qed.

Lemma Forall2_nth_In {X Y} (P : X -> Y -> Prop) l1 l2 : Forall2 P l1 l2 -> forall y, In y l2 -> exists x, In x l1 /\ P x y.
Proof. induction 1; intros z Hz; [contradiction|]. destruct Hz as [<-|Hz]; [exists x; cbn; auto|]. destruct (IHForall2 z Hz) as (w & ? & ?). exists w. cbn. auto. Qed.

Lemma angles_spec t0 t1 t2 gens Thetas : hyp_angles t0 t1 t2 gens = Ok Thetas ->
  exists rest, Thetas = map norm_angle [t0; t1; t2] :: rest /\ Forall2 (fun g th => Forall2 (fun Mi t => angle_of (fst Mi) = Ok t) g th) gens rest /\
  forall t, In t (concat Thetas) -> - PI < t <= PI.
Proof.
  unfold hyp_angles. intros H. apply bind_Ok in H. destruct H as (rest & E & H). injection H as <-. exists rest. split; [reflexivity|].
  assert (F : Forall2 (fun g th => Forall2 (fun Mi t => angle_of (fst Mi) = Ok t) g th) gens rest).
  { apply mapM_Forall2 in E. eapply Forall2_imp; [|exact E]. intros g th _ Hg. apply mapM_Forall2 in Hg. exact Hg. }
  split; auto. intros t Ht. cbn [concat] in Ht. apply in_app_or in Ht. destruct Ht as [Ht|Ht].
  - cbn [map In] in Ht. destruct Ht as [<-|[<-|[<-|[]]]]; apply atan2_range.
  - apply in_concat in Ht. destruct Ht as (th & H1 & H2). destruct (Forall2_nth_In _ _ _ F th H1) as (g & _ & Hg).
    destruct (Forall2_nth_In _ _ _ Hg t H2) as (Mi & _ & HM). apply (angle_range _ _ HM).
Qed.

Lemma concat_firstn_length (Thetas : list (list R)) d : length (nth 0 Thetas []) = 3%nat -> (d < length Thetas)%nat ->
  (forall k, (k < d)%nat -> length (nth (Datatypes.S k) Thetas []) = (3 * 2 ^ k)%nat) -> length (concat (firstn (d + 1) Thetas)) = (3 * 2 ^ d)%nat.
Proof.
  intros H0 HL H. induction d as [|d IH].
  - destruct Thetas as [|th Thetas]; cbn in *; [lia|]. rewrite app_nil_r. lia.
  - assert (E : firstn (Datatypes.S d + 1) Thetas = firstn (d + 1) Thetas ++ [nth (Datatypes.S d) Thetas []]).
    { replace (d + 1)%nat with (Datatypes.S d) by lia. replace (Datatypes.S d + 1)%nat with (Datatypes.S (Datatypes.S d)) by lia. clear IH H.
      revert d HL. clear H0. induction Thetas as [|th Thetas IH]; intros d HL; [cbn in HL; lia|]. destruct d as [|d].
      - destruct Thetas as [|th' Thetas]; [cbn in HL; lia|]. reflexivity.
      - cbn [length] in HL. specialize (IH d ltac:(lia)). change (firstn (Datatypes.S (Datatypes.S (Datatypes.S d))) (th :: Thetas)) with (th :: firstn (Datatypes.S (Datatypes.S d)) Thetas).
        rewrite IH. reflexivity. }
    rewrite E, concat_app, app_length. cbn [concat]. rewrite app_nil_r, H by lia. rewrite IH by (try lia; intros; apply H; lia). cbn [Nat.pow]. lia.
Qed.

Lemma firstn_incl (Thetas : list (list R)) i j : (i <= j)%nat -> incl (concat (firstn i Thetas)) (concat (firstn j Thetas)).
Proof.
  intros H t Ht. apply in_concat in Ht. destruct Ht as (th & H1 & H2). apply in_concat. exists th. split; auto.
  replace i with (Nat.min i j) in H1 by lia. rewrite <- firstn_firstn in H1. rewrite <- (firstn_skipn i (firstn j Thetas)). apply in_or_app. auto.
Qed.

(** ** The list of the angles of each picture *)
Definition lists_of (r t0 t1 t2 : R) (depth : nat) (l : nat -> list R) : Prop :=
  l 0%nat = map norm_angle [t0; t1; t2] /\ (forall d, incl (l d) (l (Datatypes.S d))) /\ (forall d t, In t (l d) -> - PI < t <= PI) /\
  forall d, (d < depth)%nat -> length (l d) = (3 * 2 ^ d)%nat.

Lemma lists_ok r t0 t1 t2 depth arcs gens Thetas : (2 <= depth)%nat -> hyp_points (mkCircle (0, 0) r) t0 t1 t2 depth = Ok (arcs, gens) -> hyp_angles t0 t1 t2 gens = Ok Thetas ->
  lists_of r t0 t1 t2 depth (fun d => concat (firstn (d + 1) Thetas)).
Proof.
  intros Hd Hp Ha. destruct (points_count _ _ _ _ _ _ _ Hp) as (_ & Lg & Lk). destruct (angles_spec _ _ _ _ _ Ha) as (rest & -> & F & HR).
  split; [|split; [|split]].
  - cbn [Nat.add firstn concat]. apply app_nil_r.
  - intros d. apply firstn_incl. lia.
  - intros d t Ht. apply HR. rewrite <- (firstn_skipn (d + 1) (_ :: rest)), concat_app. apply in_or_app. auto.
  - intros d Hdd. pose proof (Forall2_len _ _ _ F) as LF. apply concat_firstn_length; [reflexivity|cbn [length]; lia|].
    intros k Hk. cbn [nth]. rewrite <- (Lk k) by lia. symmetry. pose proof (Forall2_nth_eq _ _ _ F k [] []) as K. apply Forall2_len in K; [exact K|lia].
Qed.

(** ** No two arcs cross *)
Lemma nodes_no_cross r (l : nat -> list R) A B d e : 0 < r -> (forall d, incl (l d) (l (Datatypes.S d))) -> node r (l d) A -> node r (l e) B -> do_not_cross r A B.
Proof.
  intros Hr HI HA HB. assert (MI : forall i j, (i <= j)%nat -> incl (l i) (l j)).
  { intros i j H. induction H; [apply incl_refl|]. eapply incl_tran; [exact IHle|auto]. }
  destruct (le_lt_dec d e) as [L|L].
  - apply (node_no_cross r (l e) A B Hr); auto. apply (ends_incl r (l d)); [apply MI; auto|apply node_ends; auto].
  - apply (node_no_cross r (l d) B A Hr); auto. apply (ends_incl r (l e)); [apply MI; lia|apply node_ends; auto].
Qed.

Lemma un_on r t : 0 < r -> on_circle (0, 0) r (vscal r (un t)).
Proof. intros H. apply on_circle_sq; [lra|]. unfold un. unspec. pose proof (cs1 t). transitivity (r * r * (cos t * cos t + sin t * sin t)); [ring|rewrite H0; ring]. Qed.

Lemma levels_nth {Y} (f : nat -> res Y) a n ys d0 : mapM f (seq a n) = Ok ys -> length ys = n /\ forall i, (i < n)%nat -> f (a + i)%nat = Ok (nth i ys d0).
Proof.
  intros H. apply mapM_Forall2 in H. pose proof (Forall2_len _ _ _ H) as L. rewrite seq_length in L. split; auto. intros i Hi.
  pose proof (Forall2_nth_eq _ _ _ H i 0%nat d0) as K. rewrite seq_length in K. specialize (K Hi). rewrite seq_nth in K by auto. exact K.
Qed.
