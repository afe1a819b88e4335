(** * Inversions.py: the generations. *)

From Coq Require Import Reals List Bool ZArith Lra Lia.
From Verif Require Import Base BaseLemmas ModelInternal ModelLine ModelCircle ModelTriangle ModelInversion ModelSchottky ModelInversions Spec SpecLemmas SpecInversions PLine PCircle PInvBase PInversion PGasket11 PSchottky1 PSchottky4 PSchottky5 PInversions1 PInversions2 PInversions3.
Import ListNotations.
Local Open Scope R_scope.

Lemma five_circ : five_circles = map circ zstart.
Proof. unfold five_circles, zstart, circ. cbn [map va vb vk]. repeat f_equal; lra. Qed.
Lemma start_ok : inv_start = Ok five_circles.
Proof.
  unfold inv_start. cbn [mapM]. rewrite !Circle_init_pos by lra. cbn [bind app]. rewrite cos_0, sin_0, cos_PI2, sin_PI2, cos_PI, sin_PI.
  replace (3 * PI / 2) with (PI + PI / 2) by lra. rewrite Rplus_comm, neg_cos, neg_sin, cos_PI2, sin_PI2. unfold five_circles. repeat f_equal; lra.
Qed.

Definition dv := mkV 0 0 0 0.
Definition others (i : nat) : list nat := filter (fun j => negb (Nat.eqb i j)) [0; 1; 2; 3; 4]%nat.
Definition znext (L : list (zv * nat)) : list (zv * nat) :=
  flat_map (fun p => map (fun i => (zs (nth i zstart dv) (fst p), i)) (others (snd p))) L.
Fixpoint zlater (m : nat) (L : list (zv * nat)) : list (list (zv * nat)) :=
  match m with O => [] | Datatypes.S m => znext L :: zlater m (znext L) end.
Definition zgen0 : list (zv * nat) := combine zstart [0; 1; 2; 3; 4]%nat.
Definition zgens (m : nat) := zgen0 :: zlater m zgen0.

Definition R2 (N : Z) (p : gcircle * nat) (q : zv * nat) : Prop := rep N (fst p) (fst q) /\ snd p = snd q.

Lemma others_combine i : filter (fun ci : circle * nat => negb (Nat.eqb i (snd ci))) (combine five_circles (seq 0 (length five_circles))) = map (fun j => (circ (nth j zstart dv), j)) (others i).
Proof.
  rewrite five_circ. unfold others. cbn [map zstart length combine seq filter snd]. destruct (Nat.eqb i 0), (Nat.eqb i 1), (Nat.eqb i 2), (Nat.eqb i 3), (Nat.eqb i 4); reflexivity.
Qed.

Lemma moves_ok N g v is : (9 * N <= 13122)%Z -> rep N g v -> Forall (fun i => (i < 5)%nat) is ->
  exists l, mapM (fun ci => let! g := invert_on (fst ci) g in Ok (g, snd ci)) (map (fun j => (circ (nth j zstart dv), j)) is) = Ok l /\
    Forall2 (R2 (9 * N)) l (map (fun i => (zs (nth i zstart dv) v, i)) is) /\ Forall2 moved (map (fun i => (g, i)) is) l.
Proof.
  intros HN Hg F. induction F as [|i is Hi F IH]; [exists []; repeat split; constructor|]. destruct IH as (l & E & F1 & F2).
  assert (He : In (nth i zstart dv) zstart) by (apply nth_In; exact Hi). destruct (step_ok N _ v g He HN Hg) as (g' & E' & R').
  exists ((g', i) :: l). cbn [map mapM fst snd]. rewrite E'. cbn [bind]. rewrite E. cbn [bind]. split; [reflexivity|]. split; constructor; auto.
  - split; auto.
  - split; [reflexivity|]. exists (circ (nth i zstart dv)). cbn [fst snd]. split; [rewrite five_circ; apply map_nth_error, nth_error_nth'; exact Hi|]. apply (rep_image _ _ _ _ _ _ He Hg R').
Qed.
Lemma others_lt i : Forall (fun j => (j < 5)%nat) (others i).
Proof. apply Forall_forall. intros j Hj. apply filter_In in Hj. destruct Hj as (Hj & _). cbn [In] in Hj. lia. Qed.

Lemma next_ok N L Z : (9 * N <= 13122)%Z -> Forall2 (R2 N) L Z ->
  exists L', next_generation five_circles L = Ok L' /\ Forall2 (R2 (9 * N)) L' (znext Z) /\ Forall2 moved (moves L) L'.
Proof.
  intros HN F. unfold next_generation. induction F as [|(g, i) (v, j) L Z (H1 & H2) F IH]; [exists []; repeat split; constructor|].
  destruct IH as (L' & E & F1 & F2). cbn [fst snd] in H1, H2. subst j. apply bind_Ok in E. destruct E as (ll & E & EL). apply Ok_inj in EL. subst L'.
  destruct (moves_ok N g v (others i) HN H1 (others_lt i)) as (l & El & G1 & G2).
  exists (l ++ concat ll). cbn [mapM]. cbn [fst snd]. rewrite others_combine, El. cbn [bind]. rewrite E. cbn [bind]. split; [reflexivity|]. split; apply Forall2_app; auto.
Qed.

Lemma later_ok m : forall N L Z, (N * 9 ^ Z.of_nat m <= 13122)%Z -> (0 <= N)%Z -> Forall2 (R2 N) L Z ->
  exists gs, later_generations five_circles m L = Ok gs /\ Forall2 (Forall2 (R2 (N * 9 ^ Z.of_nat m))) gs (zlater m Z) /\
    (forall k g h, nth_error (L :: gs) k = Some g -> nth_error gs k = Some h -> Forall2 moved (moves g) h).
Proof.
  assert (MONO : forall N N' p q, (N <= N')%Z -> R2 N p q -> R2 N' p q).
  { intros N N' p q HN (((W1 & W2 & W3) & H) & E). split; auto. split; auto. split; auto. split; auto. lia. }
  induction m as [|m IH]; intros N L Z HN PN F.
  - exists []. split; [reflexivity|]. split; [constructor|]. intros [|k] g h _ H; discriminate.
  - rewrite Nat2Z.inj_succ, Z.pow_succ_r in * by lia. assert (P9 : (1 <= 9 ^ Z.of_nat m)%Z) by (assert (0 < 9 ^ Z.of_nat m)%Z by (apply Z.pow_pos_nonneg; lia); lia).
    destruct (next_ok N L Z) as (L' & E & F1 & F2); auto; [nia|]. destruct (IH (9 * N)%Z L' (znext Z)) as (gs & E' & F3 & F4); auto; [nia|lia|].
    exists (L' :: gs). cbn [later_generations zlater]. rewrite E. cbn [bind]. rewrite E'. cbn [bind]. split; [reflexivity|]. replace (N * (9 * 9 ^ Z.of_nat m))%Z with (9 * N * 9 ^ Z.of_nat m)%Z by ring. split.
    + constructor; auto. clear - F1 MONO PN P9. induction F1; constructor; auto. eapply MONO; [|eassumption]. nia.
    + intros [|k] g h Hg Hh.
      * cbn in Hg, Hh. injection Hg as <-. injection Hh as <-. auto.
      * cbn [nth_error] in Hg, Hh. apply (F4 k); auto.
Qed.

Definition gen0 : list (gcircle * nat) := combine (map GC five_circles) [0; 1; 2; 3; 4]%nat.
Lemma gen0_rep : Forall2 (R2 2) gen0 zgen0.
Proof.
  unfold gen0, zgen0. rewrite five_circ. cbn [map zstart combine]. assert (H : forall e i, In e zstart -> R2 2 (GC (circ e), i) (e, i)).
  { intros e i He. split; [|reflexivity]. pose proof (start_k e He) as K. split; [apply start_wf; auto|]. cbn [fst]. split; [lia|]. unfold circ. rewrite Rabs_pos_eq by (apply IZR_le; lia). reflexivity. }
  repeat constructor; apply H; cbn; tauto.
Qed.

Definition NN := 13122%Z.
Theorem gens_ok m : (m <= 4)%nat -> exists gens, inv_generations m = Ok gens /\ Forall2 (Forall2 (R2 NN)) gens (zgens m) /\
  nth_error gens 0 = Some gen0 /\ (forall k g h, nth_error gens k = Some g -> nth_error gens (Datatypes.S k) = Some h -> Forall2 moved (moves g) h).
Proof.
  intros Hm. assert (MONO : forall N p q, (N <= NN)%Z -> R2 N p q -> R2 NN p q).
  { intros N p q HN (((W1 & W2 & W3) & H) & E). split; auto. split; auto. split; auto. split; auto. lia. }
  assert (P9 : (9 ^ Z.of_nat m <= 9 ^ 4)%Z) by (apply Z.pow_le_mono_r; lia). change (9 ^ 4)%Z with 6561%Z in P9.
  destruct (later_ok m 2 gen0 zgen0) as (gs & E & F & H); [lia|lia|exact gen0_rep|].
  unfold inv_generations. rewrite start_ok. cbn [bind]. change (combine (map GC five_circles) (seq 0 (length five_circles))) with gen0. rewrite E. cbn [bind]. exists (gen0 :: gs). split; [reflexivity|]. split; [|split].
  - assert (ML : forall N l l', (N <= NN)%Z -> Forall2 (R2 N) l l' -> Forall2 (R2 NN) l l') by (intros N l l' HN Q; induction Q; constructor; auto; eapply MONO; eauto).
    constructor; [apply (ML 2%Z); [unfold NN; lia|exact gen0_rep]|]. clear - F ML P9. revert F. generalize (zlater m zgen0). intros z F. induction F; constructor; auto. eapply ML; [|eassumption]. unfold NN; lia.
  - reflexivity.
  - exact H.
Qed.
