(** * ApollonianGasketMobius.py: the theorems, and the values of the example. *)

From Coq Require Import Reals Lra Lia Psatz List Bool ZArith.
From Verif Require Import Base BaseLemmas Spec SpecLemmas SpecMobius SpecTriangle SpecGasket SpecApollonian SpecMobiusGasket ModelInternal ModelLine ModelCircle ModelTriangle ModelEllipse ModelInversion ModelMobius ModelApollonian ModelModular ModelMobiusGasket
  PLine PCircle PInvBase PInversion PInversion2 PMobius PMobius2 PMobius3 PMobius4 PSteiner PSteiner2 PApo6 PApoEx PDisc PModular1 PModular3 PMobGasket1 PMobGasket2.
Import ListNotations.
Local Open Scope R_scope.

Lemma power_domain gamma t : (Cmod2 gamma = 1 -> mobius_power gamma t = Raise ZeroDivisionError) /\ (1 < Cmod2 gamma -> mobius_power gamma t = Raise ValueError).
Proof. split; [apply power_one|apply power_big]. Qed.

Lemma power_disc gamma t M z : Cmod2 gamma < 1 -> mobius_power gamma t = Ok M ->
  (Cmod2 z < 1 -> exists w, mob_image (ma M) (mb M) (mc M) (md M) (Pt z) (Pt w) /\ Cmod2 w < 1) /\
  (Cmod2 z = 1 -> exists w, mob_image (ma M) (mb M) (mc M) (md M) (Pt z) (Pt w) /\ Cmod2 w = 1).
Proof.
  intros H E. destruct (power_keeps gamma t M H E) as ((D & K) & K2). split; intros Hz.
  - destruct (K2 z Hz) as (w & Ew & L). exists w. split; [apply transform_Ok; auto|auto].
  - destruct (K z ltac:(lra)) as (w & Ew & _ & L). exists w. split; [apply transform_Ok; auto|auto].
Qed.

Lemma dimg_spec M c c' : mdet M <> C0 -> dimg M c c' -> forall w, dist (cO c') w < cr c' <-> exists z, dist (cO c) z < cr c /\ mob_image (ma M) (mb M) (mc M) (md M) (Pt z) (Pt w).
Proof.
  intros D (P & _ & P' & H & _) w. rewrite <- opn_dist, H by auto. split; intros (z & Hz & E); exists z; (split; [apply opn_dist; auto|apply transform_Ok; auto]).
Qed.

Lemma picture_spec fuel n phi shift depth gamma t gens : (3 <= n)%Z -> Rabs phi < 1 -> (2 <= depth)%nat -> Cmod2 gamma < 1 ->
  apollonian_gasket (mkCircle (0, 0) 1) n phi shift depth = Ok gens ->
  exists M pic, mobius_power gamma t = Ok M /\ mobius_picture fuel gamma gens t = Some (Ok pic) /\ packing (Z.to_nat n) depth pic /\
    Forall2 (Forall2 (fun c c' => forall w, dist (cO c') w < cr c' <-> exists z, dist (cO c) z < cr c /\ mob_image (ma M) (mb M) (mc M) (md M) (Pt z) (Pt w))) gens pic.
Proof.
  intros Hn Hp Hd Hg E. assert (PK : packing (Z.to_nat n) depth gens) by (apply (apollonian_packing (mkCircle (0, 0) 1) n phi shift depth gens); auto; cbn [cr]; lra).
  destruct (picture_ok fuel gamma gens t Hg (proj1 (proj2 (proj2 (proj2 PK))))) as (M & pic & E1 & KD & E2 & D). exists M, pic. split; [auto|]. split; [auto|]. split; [exact (packing_moved M _ _ gens pic KD PK D)|].
  assert (DM : mdet M <> C0) by apply KD. clear -D DM. induction D as [|g p gens pic Hg D IH]; constructor; [|auto]. clear IH D. induction Hg as [|c c' g p Hc Hg IH]; constructor; [|auto]. apply dimg_spec; auto.
Qed.

Lemma picture_loop fuel n phi shift depth gamma gens t : (3 <= n)%Z -> Rabs phi < 1 -> (2 <= depth)%nat -> Cmod2 gamma < 1 ->
  apollonian_gasket (mkCircle (0, 0) 1) n phi shift depth = Ok gens ->
  mobius_picture fuel gamma gens 0 = Some (Ok gens) /\ mobius_picture fuel gamma gens (t + 2) = mobius_picture fuel gamma gens t.
Proof.
  intros Hn Hp Hd Hg E. assert (PK : packing (Z.to_nat n) depth gens) by (apply (apollonian_packing (mkCircle (0, 0) 1) n phi shift depth gens); auto; cbn [cr]; lra).
  split; [apply picture_zero|apply picture_period]; auto; apply PK.
Qed.

(** ** the values of the example *)
Lemma axis_ok1 r x y : 0 < r -> 1 / 5 <= 1 - r -> x * x + y * y = (1 - r) * (1 - r) ->
  exists l, radical_axis (mkCircle (0, 0) 1) (mkCircle (x, y) r) = Ok (Some l).
Proof.
  intros Hr Hd E. unfold radical_axis. cbn [cO cr].
  assert (Big : 1 / 10 <= Rabs y \/ 1 / 10 <= Rabs x).
  { destruct (Rle_lt_dec (1 / 10) (Rabs y)) as [|Q1]; [auto|]. destruct (Rle_lt_dec (1 / 10) (Rabs x)) as [|Q2]; [auto|]. exfalso.
    pose proof (Rabs_pos x). pose proof (Rabs_pos y). pose proof (Rabs_sq x). pose proof (Rabs_sq y). nra. }
  assert (C1 : allclose (0, 0) (x, y) = false).
  { unfold allclose, allclose1. cbn [fst snd]. apply andb_false_iff. destruct Big as [B|B]; [right|left]; apply leb_false; rewrite Rminus_0_l, Rabs_Ropp; lra. }
  rewrite C1. unfold vsub at 1. cbn [fst snd]. unfold radical_center2. cbn [cO cr]. unfold dot_, vsub. cbn [fst snd].
  replace ((x - 0) * (x - 0) + (y - 0) * (y - 0)) with ((1 - r) * (1 - r)) by lra. replace (eqb ((1 - r) * (1 - r)) 0) with false by (symmetry; apply eqb_false; nra). cbn [bind].
  match goal with |- context [Line_init ?P _ _ _] => assert (EP : P = (1 / (1 - r) * x, 1 / (1 - r) * y)) by (unfold vadd, vscal; cbn [fst snd]; f_equal; field; lra) end.
  rewrite EP. unfold Line_init. set (la := 1 / (1 - r)).
  assert (La : la * (1 - r) = 1) by (unfold la; field; lra).
  assert (Bd : forall u v, u * u + v * v = (1 - r) * (1 - r) -> Rabs (la * u) <= 2 /\ Rabs v <= 2).
  { intros u v Eu. split; apply Rabs_le.
    - assert (la * u * (la * u) + la * v * (la * v) = 1) by (transitivity (la * (1 - r) * (la * (1 - r))); [replace (la * u * (la * u) + la * v * (la * v)) with (la * la * (u * u + v * v)) by ring; rewrite Eu; ring|rewrite La; ring]). split; nra.
    - split; nra. }
  destruct (Bd x y E) as (Bx & By'). destruct (Bd y x ltac:(lra)) as (By & Bx').
  assert (C2 : allclose (la * x, la * y) (vadd (la * x, la * y) (- (y - 0), x - 0)) = false).
  { unfold allclose, allclose1, vadd. cbn [fst snd]. apply andb_false_iff. destruct Big as [B|B]; [left|right]; apply leb_false.
    - replace (la * x - (la * x + - (y - 0))) with y by ring. pose proof (Rabs_triang (la * x) (- (y - 0))) as T. rewrite Rminus_0_r, Rabs_Ropp in *. lra.
    - replace (la * y - (la * y + (x - 0))) with (- x) by ring. rewrite Rabs_Ropp. pose proof (Rabs_triang (la * y) (x - 0)) as T. rewrite Rminus_0_r in *. lra. }
  rewrite C2. cbn [bind]. eauto.
Qed.

Lemma fixing_ok1 r x y r' x' y' : 0 < r -> 0 < r' -> 1 / 5 <= 1 - r -> 1 / 5 <= 1 - r' -> x * x + y * y = (1 - r) * (1 - r) -> x' * x' + y' * y' = (1 - r') * (1 - r') ->
  x * y' - y * x' <> 0 -> exists iota, from_fixing_three_circles (mkCircle (0, 0) 1) (mkCircle (x, y) r) (mkCircle (x', y') r') = Ok iota.
Proof.
  intros. destruct (axis_ok1 r x y) as (l1 & E1); auto. destruct (axis_ok1 r' x' y') as (l2 & E2); auto. apply (fixing_three_total _ _ _ l1 l2 E1 E2). cbn [cO].
  intros C. apply collinear_cross in C. unfold scross, vsub in C. cbn [fst snd] in C. lra.
Qed.

Definition u_c0 : circle := mkCircle (0, 0) 1.
Definition u_y : R := 5 * (14 * t3 - 15) / 121.
Definition u_circles : list circle :=
  [mkCircle ((12 - 10 * t3) / 13, 0) ((25 - 10 * t3) / 13);
   mkCircle ((14 - 5 * t3) / 11, u_y) u_y;
   mkCircle ((14 - 5 * t3) / 11, - u_y) u_y].

Lemma img_eq1 c x y r : let p := (4 - fst (cO c)) * (4 - fst (cO c)) + (0 - snd (cO c)) * (0 - snd (cO c)) - cr c * cr c in
  p <> 0 -> (x - 4) * p = 15 * (fst (cO c) - 4) -> y * p = 15 * snd (cO c) -> r * p = 15 * cr c -> st_img u_c0 (1 / 4) c = mkCircle (x, y) r.
Proof.
  intros p Hp Ex Ey Er. unfold st_img, st_scale. replace (eqb (1 / 4) 0) with false by (symmetry; apply eqb_false; lra). unfold inv_scale, st_power, pow_circle, st_pole, u_c0. cbn [cO cr].
  assert (E : dist2 (cO c) (vadd (1 * (1 / (1 / 4)), 0) (0, 0)) - cr c ^ 2 = p) by (unfold p, dist2, vadd, vsub, sdot; destruct (cO c); cbn [fst snd]; field).
  rewrite E. unfold vadd, vscal, vsub. cbn [fst snd]. f_equal; [f_equal|].
  - apply (Rmult_eq_reg_r p); auto. replace (x * p) with (15 * (fst (cO c) - 4) + 4 * p) by lra. field. auto.
  - apply (Rmult_eq_reg_r p); auto. rewrite Ey. field. auto.
  - apply (Rmult_eq_reg_r p); auto. rewrite Er. field. auto.
Qed.

Lemma u_chain : exists inn ell, SteinerChain u_c0 3 (1 / 4) 0 = Ok (map GC (u_circles ++ [inn]), ell) /\ 1 / 30 <= cr inn.
Proof.
  pose proof t3_sq as Sq. pose proof t3_bounds as B.
  assert (A : Rabs (1 / 4) = 1 / 4) by (apply Rabs_pos_eq; lra).
  destruct (steiner_total u_c0 3 (1 / 4) 0) as (cs & ell & SC); [lia|cbn [u_c0 cr]; lra|rewrite A; lra|right; rewrite A; unfold u_c0, sepsilon_; cbn [cr]; lra|].
  destruct (steiner_Ok u_c0 3 (1 / 4) 0 cs ell ltac:(lia) ltac:(cbn [u_c0 cr]; lra) ltac:(rewrite A; lra) SC) as (Ecs & _). rewrite SC.
  change (Z.to_nat 3) with 3%nat in Ecs. unfold base_all in Ecs. cbn [seq map app] in Ecs.
  assert (S3 : steiner_sine 3 = t3 / 2) by (unfold steiner_sine; replace (INR 3) with 3 by (cbn [INR]; ring); apply sin_PI3).
  assert (I3 : / (1 + t3 / 2) = 4 - 2 * t3) by (apply (Rmult_eq_reg_r (1 + t3 / 2)); [|lra]; rewrite Rinv_l by lra; nra).
  assert (BR : base_radius u_c0 3 = 2 * t3 - 3) by (unfold base_radius, u_c0; cbn [cr]; rewrite S3; unfold Rdiv at 1; rewrite I3; nra).
  assert (BC : forall i co si, cos (INR i * 2 * (PI / 3)) = co -> sin (INR i * 2 * (PI / 3)) = si -> base_circle u_c0 3 0 i = mkCircle ((4 - 2 * t3) * co, (4 - 2 * t3) * si) (2 * t3 - 3)).
  { intros i co si Hc Hs. unfold base_circle. rewrite BR, S3. replace (INR 3) with 3 by (cbn [INR]; ring). rewrite Rplus_0_r. unfold unit_vector_. rewrite Hc, Hs. unfold u_c0, vadd, vscal, Rdiv. cbn [cO cr fst snd]. replace (/ (1 + t3 * / 2)) with (4 - 2 * t3) by (symmetry; exact I3).
    f_equal. f_equal; ring. }
  rewrite (BC 0%nat 1 0) in Ecs by (cbn [INR]; rewrite !Rmult_0_l; auto using cos_0, sin_0).
  rewrite (BC 1%nat (-1/2) (t3 / 2)) in Ecs. 2: { cbn [INR]. replace (1 * 2 * (PI / 3)) with (2 * (PI / 3)) by ring. apply cos_2PI3. } 2: { cbn [INR]. replace (1 * 2 * (PI / 3)) with (2 * (PI / 3)) by ring. apply sin_2PI3. }
  rewrite (BC 2%nat (-1/2) (- t3 / 2)) in Ecs.
  2: { cbn [INR]. replace ((1 + 1) * 2 * (PI / 3)) with (PI / 3 + PI) by field. rewrite neg_cos, cos_PI3. field. } 2: { cbn [INR]. replace ((1 + 1) * 2 * (PI / 3)) with (PI / 3 + PI) by field. rewrite neg_sin, sin_PI3. fold t3. field. }
  rewrite (img_eq1 (mkCircle ((4 - 2 * t3) * 1, (4 - 2 * t3) * 0) (2 * t3 - 3)) ((12 - 10 * t3) / 13) 0 ((25 - 10 * t3) / 13)) in Ecs; [|cbn [cO cr fst snd]; nra..].
  rewrite (img_eq1 (mkCircle ((4 - 2 * t3) * (-1/2), (4 - 2 * t3) * (t3/2)) (2 * t3 - 3)) ((14 - 5 * t3) / 11) u_y u_y) in Ecs; [|cbn [cO cr fst snd]; unfold u_y; nra..].
  rewrite (img_eq1 (mkCircle ((4 - 2 * t3) * (-1/2), (4 - 2 * t3) * (-t3/2)) (2 * t3 - 3)) ((14 - 5 * t3) / 11) (- u_y) u_y) in Ecs; [|cbn [cO cr fst snd]; unfold u_y; nra..].
  exists (st_img u_c0 (1 / 4) (base_inner u_c0 3)), ell. split; [rewrite Ecs; reflexivity|].
  destruct (inner_img u_c0 3 (1 / 4) ltac:(lia) ltac:(cbn [u_c0 cr]; lra) ltac:(rewrite A; lra)) as (Hr & E). cbv zeta in Hr, E. rewrite E. cbn [cr u_c0].
  assert (Rh : (1 - steiner_sine 3) / (1 + steiner_sine 3) = 7 - 4 * t3) by (rewrite S3; unfold Rdiv at 1; rewrite I3; nra). rewrite Rh in *.
  apply (Rmult_le_reg_r (1 - (1 / 4) ^ 2 * (7 - 4 * t3) ^ 2)); [nra|]. replace (1 * (7 - 4 * t3) * (1 - (1 / 4) ^ 2) / (1 - (1 / 4) ^ 2 * (7 - 4 * t3) ^ 2) * (1 - (1 / 4) ^ 2 * (7 - 4 * t3) ^ 2)) with (1 * (7 - 4 * t3) * (1 - (1 / 4) ^ 2)) by (field; nra). nra.
Qed.

Lemma u_gasket depth : exists gens, apollonian_gasket (mkCircle (0, 0) 1) 3 (1 / 4) 0 depth = Ok gens.
Proof.
  pose proof t3_sq as Sq. pose proof t3_bounds as B. destruct u_chain as (inn & ell & SC & Ri).
  assert (Ey : 38 / 100 <= u_y <= 39 / 100) by (unfold u_y; lra).
  set (r0 := (25 - 10 * t3) / 13) in *.
  assert (Er0 : 59 / 100 <= r0 <= 60 / 100) by (unfold r0; lra).
  destruct (fixing_ok1 ((25 - 10 * t3) / 13) ((12 - 10 * t3) / 13) 0 u_y ((14 - 5 * t3) / 11) u_y) as (i0 & E0); [fold r0; lra|lra|fold r0; lra|lra|nra|unfold u_y; nra| |].
  { assert (((12 - 10 * t3) / 13) * u_y < 0) by nra. lra. }
  destruct (fixing_ok1 u_y ((14 - 5 * t3) / 11) u_y u_y ((14 - 5 * t3) / 11) (- u_y)) as (i1 & E1); [lra..|unfold u_y; nra|unfold u_y; nra| |].
  { assert (0 < ((14 - 5 * t3) / 11) * u_y) by nra. lra. }
  destruct (fixing_ok1 u_y ((14 - 5 * t3) / 11) (- u_y) ((25 - 10 * t3) / 13) ((12 - 10 * t3) / 13) 0) as (i2 & E2); [lra|fold r0; lra|lra|fold r0; lra|unfold u_y; nra|nra| |].
  { assert (((12 - 10 * t3) / 13) * u_y < 0) by nra. lra. }
  apply (apollonian_total u_c0 3 (1 / 4) 0 depth (u_circles ++ [inn]) ell (fun i => match i with 0%nat => i0 | 1%nat => i1 | _ => i2 end)); auto; [lia|cbn [u_c0 cr]; lra|rewrite Rabs_pos_eq; lra| | |].
  - change (Z.to_nat 3) with 3%nat. intros [|[|[|i]]] Hi; [exact E0|exact E1|exact E2|lia].
  - change (Z.to_nat 3) with 3%nat. intros [|[|[|i]]] Hi; [| | |lia]; cbn [u_circles app nth Nat.modulo Nat.divmod fst snd Nat.sub cr u_c0]; fold r0; nra.
  - change (Z.to_nat 3) with 3%nat. cbn [u_circles app nth]. unfold sepsilon_. nra.
Qed.

(** the program, for every depth and all values of t *)
Lemma script_ok fuel depth ts : (2 <= depth)%nat -> exists pics, mobius_gasket fuel 3 (1 / 4) 0 depth (6 / 10, 4 / 10) ts = Some (Ok pics) /\ length pics = length ts /\ Forall (packing 3 depth) pics.
Proof.
  intros Hd. destruct (u_gasket depth) as (gens & E). unfold mobius_gasket. rewrite E. assert (Hg : Cmod2 (6 / 10, 4 / 10) < 1) by (unfold Cmod2; cbn [fst snd]; lra).
  assert (A : Rabs (1 / 4) < 1) by (rewrite Rabs_pos_eq; lra).
  destruct (in_turn_rel (fun (t : R) pic => packing 3 depth pic) (mobius_picture fuel (6 / 10, 4 / 10) gens) ts) as (pics & Ep & F).
  { intros t _. destruct (picture_spec fuel 3 (1 / 4) 0 depth (6 / 10, 4 / 10) t gens ltac:(lia) A Hd Hg E) as (M & pic & _ & E2 & PK & _). exists pic. split; auto. }
  exists pics. split; [exact Ep|]. split; [symmetry; exact (Forall2_len _ _ _ F)|]. clear -F. induction F; constructor; auto.
Qed.
