(** * ApollonianGasket_animation.py: for which shifts the gasket exists *)

From Coq Require Import Reals Lra Lia Psatz List Bool ZArith.
From Verif Require Import Base BaseLemmas Spec SpecLemmas SpecTriangle SpecGasket SpecApollonian ModelInternal ModelLine ModelCircle ModelTriangle ModelEllipse ModelInversion ModelApollonian PLine PApo5 PCircle PInvBase PInversion PInversion2 PSteiner PSteiner2 PApo1 PApo6 PApoEx PMalApo5 PCirc2 PCirc3 PCirc6 PCirc7 PCircEx PSteinerEx2.
Import ListNotations.
Local Open Scope R_scope.

Lemma choice_fin {X} (d : X) n (Q : nat -> X -> Prop) : (forall i, (i < n)%nat -> exists x, Q i x) -> exists f, forall i, (i < n)%nat -> Q i (f i).
Proof.
  induction n as [|n IH]; intros H; [exists (fun _ => d); intros; lia|]. destruct IH as (f & F); [intros; apply H; lia|]. destruct (H n ltac:(lia)) as (x & Hx).
  exists (fun i => if (i =? n)%nat then x else f i). intros i Hi. destruct (Nat.eqb_spec i n) as [->|]; auto. apply F. lia.
Qed.

Section Anim.
Variables (R0 phi shift : R) (n : nat).
Hypothesis Hn : (3 <= n <= 6)%nat.
Hypothesis HR : 2 <= R0 <= 10.
Hypothesis Hf : 0 < Rabs phi <= 2 / 5.
Let c0 := mkCircle (0, 0) R0.
Let ch := chain_circle c0 n phi shift.

Local Lemma P0 : 0 < cr c0.
Proof. cbn [c0 cr]. lra. Qed.
Local Lemma Hp : phi <> 0.
Proof. intros Z. rewrite Z, Rabs_R0 in Hf. lra. Qed.
Local Lemma H1 : Rabs phi < 1.
Proof. lra. Qed.
Local Lemma H3 : (3 <= n)%nat.
Proof. lia. Qed.

Local Lemma upper i : 1 / 2 <= R0 - cr (ch i).
Proof.
  destruct (chain_radius c0 n phi shift i H3 P0 Hp H1) as (Pa & B & E). unfold ch. rewrite E. clear E. destruct (angle_bounds n Hn) as ((S1 & S2) & _). cbn [c0 cr].
  assert (Sq : phi * phi = Rabs phi * Rabs phi) by (symmetry; apply Rabs_sq). rewrite Sq in *. set (f := Rabs phi) in *. set (s := sin (PI / INR n)) in *. set (x := 1 + f * f - _) in *.
  assert (Bx : 9 / 25 <= x) by nra. set (a := s * (1 - f * f)) in *.
  assert (La : a <= 3 * x). { apply (Rle_trans _ (3 * ((1 - f) * (1 - f)))); [|lra]. unfold a. replace (s * (1 - f * f)) with (s * (1 + f) * (1 - f)) by ring. rewrite <- Rmult_assoc. apply Rmult_le_compat_r; nra. }
  assert (Q : 1 / 4 * R0 <= R0 - R0 * a / (a + x)); [|lra]. replace (R0 - R0 * a / (a + x)) with (R0 * (x / (a + x))) by (field; lra). rewrite Rmult_comm. apply Rmult_le_compat_l; [lra|].
  apply (Rmult_le_reg_r (a + x)); [lra|]. replace (x / (a + x) * (a + x)) with x by (field; lra). lra.
Qed.

Local Lemma on_c0 i : (i < n)%nat -> 0 < cr (ch i) /\ fst (cO (ch i)) * fst (cO (ch i)) + snd (cO (ch i)) * snd (cO (ch i)) = (R0 - cr (ch i)) * (R0 - cr (ch i)).
Proof.
  intros Hi. destruct (chain_facts c0 n phi shift H3 P0 H1) as (_ & _ & Pc & T0 & _). split; [apply (Pc i Hi)|]. specialize (T0 i Hi). fold ch in T0. cbn [c0 cO cr] in T0. rewrite <- T0.
  rewrite dist_sq. unfold dist2, vsub, sdot. cbn [fst snd]. ring.
Qed.

Local Lemma fix_iff i : (i < n)%nat -> (exists iota, from_fixing_three_circles c0 (ch i) (ch (nx n i)) = Ok iota) <-> cr (ch i) + cr (ch (nx n i)) <> R0.
Proof.
  intros Hi. pose proof (nx_lt n i Hi) as Hj. destruct (chain_facts c0 n phi shift H3 P0 H1) as (_ & _ & Pc & T0 & _ & Tn & _). fold ch in Pc, T0, Tn.
  destruct (on_c0 i Hi) as (P1 & E1). destruct (on_c0 (nx n i) Hj) as (P2 & E2). pose proof (upper i) as U1. pose proof (upper (nx n i)) as U2. pose proof (T0 i Hi) as T1. pose proof (T0 (nx n i) Hj) as T2. pose proof (Tn i Hi) as T3. pose proof (Pc i Hi) as Q1. pose proof (Pc (nx n i) Hj) as Q2.
  split.
  - intros (iota & E) Z. apply fixing_nc in E. apply E. apply (touch_in_line (cO c0) R0 (ch i) (ch (nx n i))); auto.
  - intros NE. assert (NC : ~ collinear (cO c0) (cO (ch i)) (cO (ch (nx n i)))) by (apply (tangent_nc (cO c0) R0); auto).
    destruct (ch i) as [[x y] r]. destruct (ch (nx n i)) as [[x' y'] r']. cbn [cO cr fst snd] in *. apply fixing_ok; auto; try lra.
    intros Z. apply NC. apply collinear_cross. unfold scross, vsub, c0. cbn [cO fst snd]. lra.
Qed.

Local Lemma SCok : exists ell, SteinerChain c0 (Z.of_nat n) phi shift = Ok (map GC (chain_all c0 n phi shift), ell).
Proof.
  destruct (steiner_total c0 (Z.of_nat n) phi shift ltac:(lia) P0 H1) as (cs & ell & E). { right. cbn [c0 cr]. assert (5 / 2 <= / Rabs phi) by (replace (5 / 2) with (/ (2 / 5)) by field; apply Rinv_le_contravar; lra). assert (3 <= R0 / Rabs phi - R0) by (unfold Rdiv; nra). unfold sepsilon_. nra. } pose proof (steiner_Ok c0 (Z.of_nat n) phi shift cs ell ltac:(lia) P0 H1 E) as (-> & _). rewrite Nat2Z.id in E. rewrite <- chain_all_eq in E. eauto.
Qed.

Local Lemma nth_ch i : (i < n)%nat -> nth i (chain_all c0 n phi shift) c0 = ch i.
Proof. apply chain_nth; auto using H3, P0, H1. Qed.

Lemma apo_iff depth : (exists gens, apollonian_gasket c0 (Z.of_nat n) phi shift depth = Ok gens) <->
  forall i, (i < n)%nat -> 2 * phi * cos ((2 * (INR i + shift) + 1) * PI / INR n) <> (1 + phi * phi) * cos (PI / INR n).
Proof.
  destruct SCok as (ell & SC).
  assert (W : forall i, (i < n)%nat -> (cr (ch i) + cr (ch (nx n i)) = R0 <-> 2 * phi * cos ((2 * (INR i + shift) + 1) * PI / INR n) = (1 + phi * phi) * cos (PI / INR n))).
  { intros i Hi. rewrite <- arg_half by exact H3. apply (chain_in_line c0 n phi shift i H3 Hi P0 Hp H1). }
  split.
  - intros (gens & E) i Hi Z. apply W in Z; auto. revert Z. apply fix_iff; auto. unfold apollonian_gasket in E. rewrite SC in E. cbn [bind] in E. rewrite Nat2Z.id in E.
    destruct (gasket_inversions c0 n (map GC (chain_all c0 n phi shift))) as [invs|] eqn:G; [|discriminate E]. clear E. unfold gasket_inversions in G.
    destruct (mapM _ (seq 0 n)) as [fx|] eqn:M in G; [|discriminate G]. clear G.
    destruct (PCirc5.mapM_In_Ok _ _ _ i M ltac:(apply in_seq; lia)) as (y & Ey). 
    assert (N : forall k, (k < n)%nat -> nth k (map GC (chain_all c0 n phi shift)) (GC c0) = GC (ch k)) by (intros k Hk; rewrite map_nth, nth_ch; auto).
    rewrite N in Ey by auto. replace ((i + 1) mod n)%nat with (nx n i) in Ey by (unfold nx; f_equal; lia). rewrite N in Ey by (apply nx_lt; auto). cbn [the_circle bind] in Ey.
    destruct (from_fixing_three_circles c0 (ch i) (ch (nx n i))) as [iota|]; [eauto|discriminate Ey].
  - intros NW. destruct (choice_fin (mkInv (0, 0) 1) n (fun i iota => from_fixing_three_circles c0 (ch i) (ch (nx n i)) = Ok iota)) as (iot & Fi).
    { intros i Hi. apply fix_iff; auto. intros Z. apply (NW i Hi). apply W; auto. }
    apply (apollonian_total c0 (Z.of_nat n) phi shift depth (chain_all c0 n phi shift) ell iot); auto using P0, H1; [lia| | |]; rewrite Nat2Z.id.
    + intros i Hi. fold (nx n i). rewrite !nth_ch by (auto; apply nx_lt; auto). apply Fi. auto.
    + intros i Hi. fold (nx n i). rewrite !nth_ch by (auto; apply nx_lt; auto).
      destruct (chain_lower c0 n phi shift i H3 P0 Hp H1) as (M0 & M1). destruct (chain_lower c0 n phi shift (nx n i) H3 P0 Hp H1) as (_ & M2). cbv zeta in M0, M1, M2. fold ch in M1, M2. cbn [c0 cr] in *. destruct (angle_bounds n Hn) as ((S1 & S2) & _). set (f := Rabs phi) in *. set (s := sin (PI / INR n)) in *.
      set (m := R0 * _ / _) in *. assert (M : 3 / 17 * R0 <= m).
      { unfold m. set (v := s * (1 - f) + (1 + f)). assert (Pv : 0 < v) by (unfold v; nra). apply (Rmult_le_reg_r v); [auto|]. replace (R0 * (s * (1 - f)) / v * v) with (R0 * (s * (1 - f))) by (field; lra). rewrite (Rmult_comm (3 / 17)), Rmult_assoc. apply Rmult_le_compat_l; [lra|]. unfold v. nra. }
      assert (3 / 17 * R0 * (3 / 17 * R0) <= cr (ch i) * cr (ch (nx n i))) by (apply Rmult_le_compat; lra). nra.
    + rewrite chain_nth_n by auto using H3, P0, H1. pose proof (inner_lower c0 n phi H3 P0 H1) as L. cbn [c0 cr] in L. destruct (angle_bounds n Hn) as ((S1 & S2) & _). assert (Sq : phi * phi = Rabs phi * Rabs phi) by (symmetry; apply Rabs_sq). rewrite Sq in L. set (f := Rabs phi) in *. set (s := sin (PI / INR n)) in *.
      set (t := (1 - s) / (1 + s)) in *. assert (M : 7 / 100 <= t).
      { unfold t. apply (Rmult_le_reg_r (1 + s)); [lra|]. replace ((1 - s) / (1 + s) * (1 + s)) with (1 - s) by (field; lra). lra. }
      assert (F2 : f * f <= 4 / 25) by nra. assert (5 / 100 * R0 <= R0 * t * (1 - f * f)) by (rewrite (Rmult_comm (5 / 100)), Rmult_assoc; apply Rmult_le_compat_l; [lra|]; clear - M F2; nra). unfold sepsilon_. set (ri := cr (chain_inner _ _ _)) in *. assert (1 / 10 <= ri) by lra. nra.
Qed.

Lemma apo_every_shift depth : 2 * Rabs phi < (1 + phi * phi) * cos (PI / INR n) -> exists gens, apollonian_gasket c0 (Z.of_nat n) phi shift depth = Ok gens.
Proof.
  intros Hc. apply apo_iff. intros i Hi E. pose proof (COS_bound ((2 * (INR i + shift) + 1) * PI / INR n)) as Cb. set (c := cos ((2 * (INR i + shift) + 1) * PI / INR n)) in *.
  assert (phi * c <= Rabs phi); [|lra]. apply (Rle_trans _ (Rabs (phi * c))); [apply Rle_abs|]. rewrite Rabs_mult. assert (Rabs c <= 1) by (apply Rabs_le; lra). pose proof (Rabs_pos c). nra.
Qed.
End Anim.

Lemma apo_period c0 n phi shift depth : apollonian_gasket c0 n phi (shift + IZR n) depth = apollonian_gasket c0 n phi shift depth.
Proof. unfold apollonian_gasket. rewrite steiner_period. reflexivity. Qed.

Lemma apo_animation depth shifts : (2 <= depth)%nat -> exists pics, apollonian_animation (mkCircle (0, 0) 3) 3 (1 / 4) depth shifts = Ok pics /\ length pics = length shifts /\
  forall k, (k < length shifts)%nat -> apollonian_gasket (mkCircle (0, 0) 3) 3 (1 / 4) (nth k shifts 0) depth = Ok (nth k pics []).
Proof.
  intros _. assert (T : forall shift, exists gens, apollonian_gasket (mkCircle (0, 0) 3) 3 (1 / 4) shift depth = Ok gens).
  { intros shift. apply (apo_every_shift 3 (1 / 4) shift 3); try lia; try (rewrite Rabs_pos_eq; lra); try lra. rewrite Rabs_pos_eq by lra. destruct cos3_5 as (<- & _). lra. }
  unfold apollonian_animation. induction shifts as [|s l (pics & E & L & N)].
  - exists []. cbn [mapM length]. repeat split; auto. intros; lia.
  - destruct (T s) as (g & Eg). exists (g :: pics). cbn [mapM]. rewrite Eg. cbn [bind]. rewrite E. cbn [bind length]. repeat split; auto. intros [|k] Hk; cbn [nth]; auto. apply N. lia.
Qed.

Lemma apo_not_total depth : (2 <= depth)%nat -> forall gens, apollonian_gasket (mkCircle (0, 0) 3) 3 (2 - sqrt 3) (- 1 / 2) depth <> Ok gens.
Proof.
  intros _ gens E. pose proof t3_bounds as B. unfold t3 in B. assert (Sq : sqrt 3 * sqrt 3 = 3) by (apply sqrt_sqrt; lra).
  assert (Q : exists gens, apollonian_gasket (mkCircle (0, 0) 3) (Z.of_nat 3) (2 - sqrt 3) (- 1 / 2) depth = Ok gens) by eauto.
  assert (F : 0 < Rabs (2 - sqrt 3) <= 2 / 5) by (rewrite Rabs_pos_eq; lra). pose proof (proj1 (apo_iff 3 (2 - sqrt 3) (- 1 / 2) 3 ltac:(lia) ltac:(lra) F depth) Q) as Q'. apply (Q' 0%nat); [lia|]. destruct cos3_5 as (<- & _). cbn [INR]. replace ((2 * (0 + -1 / 2) + 1) * PI / (1 + 1 + 1)) with 0 by field. rewrite cos_0. nra.
Qed.

Lemma apo_not_total_ex : exists phi shift, 0 < Rabs phi < 1 /\
  forall depth, (2 <= depth)%nat -> forall gens, apollonian_gasket (mkCircle (0, 0) 3) 3 phi shift depth <> Ok gens.
Proof.
  exists (2 - sqrt 3), (- 1 / 2). split; [|exact apo_not_total]. pose proof t3_bounds as B. unfold t3 in B. rewrite Rabs_pos_eq; lra.
Qed.
