(** * The values of examples/ApollonianGasket.py. *)

From Coq Require Import Reals Lra Lia Psatz List Bool ZArith.
From Verif Require Import Base BaseLemmas Spec SpecLemmas SpecTriangle SpecGasket SpecApollonian ModelInternal ModelLine ModelCircle ModelTriangle ModelEllipse ModelInversion ModelApollonian PLine PCircle PInvBase PInversion PInversion2 PSteiner PSteiner2 PApo6.
Import ListNotations.
Local Open Scope R_scope.

Lemma axis_ok R0 r x y : 0 < r -> R0 <= 10 -> 1 / 2 <= R0 - r -> x * x + y * y = (R0 - r) * (R0 - r) ->
  exists l, radical_axis (mkCircle (0, 0) R0) (mkCircle (x, y) r) = Ok (Some l).
Proof.
  intros Hr HR Hd E. unfold radical_axis. cbn [cO cr].
  assert (Big : 1 / 4 <= Rabs y \/ 1 / 4 <= Rabs x).
  { destruct (Rle_lt_dec (1 / 4) (Rabs y)) as [|Q1]; [auto|]. destruct (Rle_lt_dec (1 / 4) (Rabs x)) as [|Q2]; [auto|]. exfalso.
    pose proof (Rabs_pos x). pose proof (Rabs_pos y). pose proof (Rabs_sq x). pose proof (Rabs_sq y). nra. }
  assert (C1 : allclose (0, 0) (x, y) = false).
  { unfold allclose, allclose1. cbn [fst snd]. apply andb_false_iff. destruct Big as [B|B]; [right|left]; apply leb_false; rewrite Rminus_0_l, Rabs_Ropp; lra. }
  rewrite C1. unfold vsub at 1. cbn [fst snd]. unfold radical_center2. cbn [cO cr]. unfold dot_, vsub. cbn [fst snd].
  replace ((x - 0) * (x - 0) + (y - 0) * (y - 0)) with ((R0 - r) * (R0 - r)) by lra. replace (eqb ((R0 - r) * (R0 - r)) 0) with false by (symmetry; apply eqb_false; nra). cbn [bind].
  match goal with |- context [Line_init ?P _ _ _] => assert (EP : P = (R0 / (R0 - r) * x, R0 / (R0 - r) * y)) by (unfold vadd, vscal; cbn [fst snd]; f_equal; field; lra) end.
  rewrite EP. unfold Line_init. set (la := R0 / (R0 - r)).
  assert (La : la * (R0 - r) = R0) by (unfold la; field; lra).
  assert (Bd : forall u v, u * u + v * v = (R0 - r) * (R0 - r) -> Rabs (la * u) <= 10 /\ Rabs v <= 10).
  { intros u v Eu. split; apply Rabs_le.
    - assert (la * u * (la * u) <= R0 * R0) by (rewrite <- La; pose proof (Rle_0_sqr (la * v)) as Sq; unfold Rsqr in Sq; nra). split; nra.
    - split; nra. }
  destruct (Bd x y E) as (Bx & By'). destruct (Bd y x ltac:(lra)) as (By & Bx').
  assert (C2 : allclose (la * x, la * y) (vadd (la * x, la * y) (- (y - 0), x - 0)) = false).
  { unfold allclose, allclose1, vadd. cbn [fst snd]. apply andb_false_iff. destruct Big as [B|B]; [left|right]; apply leb_false.
    - replace (la * x - (la * x + - (y - 0))) with y by ring. pose proof (Rabs_triang (la * x) (- (y - 0))) as T. rewrite Rminus_0_r, Rabs_Ropp in *. lra.
    - replace (la * y - (la * y + (x - 0))) with (- x) by ring. rewrite Rabs_Ropp. pose proof (Rabs_triang (la * y) (x - 0)) as T. rewrite Rminus_0_r in *. lra. }
  rewrite C2. cbn [bind]. eauto.
Qed.

Lemma fixing_ok R0 r x y r' x' y' : 0 < r -> 0 < r' -> R0 <= 10 -> 1 / 2 <= R0 - r -> 1 / 2 <= R0 - r' -> x * x + y * y = (R0 - r) * (R0 - r) -> x' * x' + y' * y' = (R0 - r') * (R0 - r') ->
  x * y' - y * x' <> 0 -> exists iota, from_fixing_three_circles (mkCircle (0, 0) R0) (mkCircle (x, y) r) (mkCircle (x', y') r') = Ok iota.
Proof.
  intros. destruct (axis_ok R0 r x y) as (l1 & E1); auto. destruct (axis_ok R0 r' x' y') as (l2 & E2); auto. apply (fixing_three_total _ _ _ l1 l2 E1 E2). cbn [cO].
  intros C. apply collinear_cross in C. unfold scross, vsub in C. cbn [fst snd] in C. lra.
Qed.

Definition t3 : R := sqrt 3.
Lemma t3_sq : t3 * t3 = 3.
Proof. apply sqrt_sqrt. lra. Qed.
Lemma t3_bounds : 1732 / 1000 < t3 < 17321 / 10000.
Proof. pose proof t3_sq. assert (0 <= t3) by apply sqrt_pos. split; nra. Qed.

Definition ex_c0 : circle := mkCircle (0, 0) 3.
Definition ex_y : R := 15 * (14 * t3 - 15) / 121.
Definition ex_circles : list circle :=
  [mkCircle ((36 - 30 * t3) / 13, 0) ((75 - 30 * t3) / 13);
   mkCircle ((42 - 15 * t3) / 11, ex_y) ex_y;
   mkCircle ((42 - 15 * t3) / 11, - ex_y) ex_y].

Lemma img_eq c x y r : let p := (12 - fst (cO c)) * (12 - fst (cO c)) + (0 - snd (cO c)) * (0 - snd (cO c)) - cr c * cr c in
  p <> 0 -> (x - 12) * p = 135 * (fst (cO c) - 12) -> y * p = 135 * snd (cO c) -> r * p = 135 * cr c -> st_img ex_c0 (1 / 4) c = mkCircle (x, y) r.
Proof.
  intros p Hp Ex Ey Er. unfold st_img, st_scale. replace (eqb (1 / 4) 0) with false by (symmetry; apply eqb_false; lra). unfold inv_scale, st_power, pow_circle, st_pole, ex_c0. cbn [cO cr].
  assert (E : dist2 (cO c) (vadd (3 * (1 / (1 / 4)), 0) (0, 0)) - cr c ^ 2 = p) by (unfold p, dist2, vadd, vsub, sdot; destruct (cO c); cbn [fst snd]; field).
  rewrite E. unfold vadd, vscal, vsub. cbn [fst snd]. f_equal; [f_equal|].
  - apply (Rmult_eq_reg_r p); auto. replace (x * p) with (135 * (fst (cO c) - 12) + 12 * p) by lra. field. auto.
  - apply (Rmult_eq_reg_r p); auto. rewrite Ey. field. auto.
  - apply (Rmult_eq_reg_r p); auto. rewrite Er. field. auto.
Qed.

Lemma ex_chain : exists inn ell, SteinerChain ex_c0 3 (1 / 4) 0 = Ok (map GC (ex_circles ++ [inn]), ell) /\ 1 / 10 <= cr inn.
Proof.
  pose proof t3_sq as Sq. pose proof t3_bounds as B.
  assert (A : Rabs (1 / 4) = 1 / 4) by (apply Rabs_pos_eq; lra).
  destruct (steiner_total ex_c0 3 (1 / 4) 0) as (cs & ell & SC); [lia|cbn [ex_c0 cr]; lra|rewrite A; lra|right; rewrite A; unfold ex_c0, sepsilon_; cbn [cr]; lra|].
  destruct (steiner_Ok ex_c0 3 (1 / 4) 0 cs ell ltac:(lia) ltac:(cbn [ex_c0 cr]; lra) ltac:(rewrite A; lra) SC) as (Ecs & _). rewrite SC.
  change (Z.to_nat 3) with 3%nat in Ecs. unfold base_all in Ecs. cbn [seq map app] in Ecs.
  assert (S3 : steiner_sine 3 = t3 / 2) by (unfold steiner_sine; replace (INR 3) with 3 by (cbn [INR]; ring); apply sin_PI3).
  assert (I3 : / (1 + t3 / 2) = 4 - 2 * t3) by (apply (Rmult_eq_reg_r (1 + t3 / 2)); [|lra]; rewrite Rinv_l by lra; nra).
  assert (BR : base_radius ex_c0 3 = 6 * t3 - 9) by (unfold base_radius, ex_c0; cbn [cr]; rewrite S3; unfold Rdiv at 1; rewrite I3; nra).
  assert (BC : forall i co si, cos (INR i * 2 * (PI / 3)) = co -> sin (INR i * 2 * (PI / 3)) = si -> base_circle ex_c0 3 0 i = mkCircle ((12 - 6 * t3) * co, (12 - 6 * t3) * si) (6 * t3 - 9)).
  { intros i co si Hc Hs. unfold base_circle. rewrite BR, S3. replace (INR 3) with 3 by (cbn [INR]; ring). rewrite Rplus_0_r. unfold unit_vector_. rewrite Hc, Hs. unfold ex_c0, vadd, vscal, Rdiv. cbn [cO cr fst snd]. replace (/ (1 + t3 * / 2)) with (4 - 2 * t3) by (symmetry; exact I3).
    f_equal. f_equal; ring. }
  rewrite (BC 0%nat 1 0) in Ecs by (cbn [INR]; rewrite !Rmult_0_l; auto using cos_0, sin_0).
  rewrite (BC 1%nat (-1/2) (t3 / 2)) in Ecs. 2: { cbn [INR]. replace (1 * 2 * (PI / 3)) with (2 * (PI / 3)) by ring. apply cos_2PI3. } 2: { cbn [INR]. replace (1 * 2 * (PI / 3)) with (2 * (PI / 3)) by ring. apply sin_2PI3. }
  rewrite (BC 2%nat (-1/2) (- t3 / 2)) in Ecs.
  2: { cbn [INR]. replace ((1 + 1) * 2 * (PI / 3)) with (PI / 3 + PI) by field. rewrite neg_cos, cos_PI3. field. } 2: { cbn [INR]. replace ((1 + 1) * 2 * (PI / 3)) with (PI / 3 + PI) by field. rewrite neg_sin, sin_PI3. fold t3. field. }
  rewrite (img_eq (mkCircle ((12 - 6 * t3) * 1, (12 - 6 * t3) * 0) (6 * t3 - 9)) ((36 - 30 * t3) / 13) 0 ((75 - 30 * t3) / 13)) in Ecs; [|cbn [cO cr fst snd]; nra..].
  rewrite (img_eq (mkCircle ((12 - 6 * t3) * (-1/2), (12 - 6 * t3) * (t3/2)) (6 * t3 - 9)) ((42 - 15 * t3) / 11) ex_y ex_y) in Ecs; [|cbn [cO cr fst snd]; unfold ex_y; nra..].
  rewrite (img_eq (mkCircle ((12 - 6 * t3) * (-1/2), (12 - 6 * t3) * (-t3/2)) (6 * t3 - 9)) ((42 - 15 * t3) / 11) (- ex_y) ex_y) in Ecs; [|cbn [cO cr fst snd]; unfold ex_y; nra..].
  exists (st_img ex_c0 (1 / 4) (base_inner ex_c0 3)), ell. split; [rewrite Ecs; reflexivity|].
  destruct (inner_img ex_c0 3 (1 / 4) ltac:(lia) ltac:(cbn [ex_c0 cr]; lra) ltac:(rewrite A; lra)) as (Hr & E). cbv zeta in Hr, E. rewrite E. cbn [cr ex_c0].
  assert (Rh : (1 - steiner_sine 3) / (1 + steiner_sine 3) = 7 - 4 * t3) by (rewrite S3; unfold Rdiv at 1; rewrite I3; nra). rewrite Rh in *.
  apply (Rmult_le_reg_r (1 - (1 / 4) ^ 2 * (7 - 4 * t3) ^ 2)); [nra|]. replace (3 * (7 - 4 * t3) * (1 - (1 / 4) ^ 2) / (1 - (1 / 4) ^ 2 * (7 - 4 * t3) ^ 2) * (1 - (1 / 4) ^ 2 * (7 - 4 * t3) ^ 2)) with (3 * (7 - 4 * t3) * (1 - (1 / 4) ^ 2)) by (field; nra). nra.
Qed.

Lemma ex_C96 depth : exists gens, apollonian_gasket (mkCircle (0, 0) 3) 3 (1 / 4) 0 depth = Ok gens.
Proof.
  pose proof t3_sq as Sq. pose proof t3_bounds as B. destruct ex_chain as (inn & ell & SC & Ri).
  assert (Ey : 11 / 10 <= ex_y <= 12 / 10) by (unfold ex_y; lra).
  set (r0 := (75 - 30 * t3) / 13) in *.
  assert (Er0 : 17 / 10 <= r0 <= 18 / 10) by (unfold r0; lra).
  destruct (fixing_ok 3 ((75 - 30 * t3) / 13) ((36 - 30 * t3) / 13) 0 ex_y ((42 - 15 * t3) / 11) ex_y) as (i0 & E0); [fold r0; lra|lra|lra|fold r0; lra|lra|nra|unfold ex_y; nra| |].
  { assert (((36 - 30 * t3) / 13) * ex_y < 0) by nra. lra. }
  destruct (fixing_ok 3 ex_y ((42 - 15 * t3) / 11) ex_y ex_y ((42 - 15 * t3) / 11) (- ex_y)) as (i1 & E1); [lra..|unfold ex_y; nra|unfold ex_y; nra| |].
  { assert (0 < ((42 - 15 * t3) / 11) * ex_y) by nra. lra. }
  destruct (fixing_ok 3 ex_y ((42 - 15 * t3) / 11) (- ex_y) ((75 - 30 * t3) / 13) ((36 - 30 * t3) / 13) 0) as (i2 & E2); [lra|fold r0; lra|lra|lra|fold r0; lra|unfold ex_y; nra|nra| |].
  { assert (((36 - 30 * t3) / 13) * ex_y < 0) by nra. lra. }
  apply (apollonian_total ex_c0 3 (1 / 4) 0 depth (ex_circles ++ [inn]) ell (fun i => match i with 0%nat => i0 | 1%nat => i1 | _ => i2 end)); auto; [lia|cbn [ex_c0 cr]; lra|rewrite Rabs_pos_eq; lra| | |].
  - change (Z.to_nat 3) with 3%nat. intros [|[|[|i]]] Hi; [exact E0|exact E1|exact E2|lia].
  - change (Z.to_nat 3) with 3%nat. intros [|[|[|i]]] Hi; [| | |lia]; cbn [ex_circles app nth Nat.modulo Nat.divmod fst snd Nat.sub cr ex_c0]; fold r0; nra.
  - change (Z.to_nat 3) with 3%nat. cbn [ex_circles app nth]. unfold sepsilon_. nra.
Qed.

Lemma ex_C96_hyps : (3 <= 3)%Z /\ 0 < cr (mkCircle (0, 0) 3) /\ Rabs (1 / 4) < 1 /\
  exists gens, apollonian_gasket (mkCircle (0, 0) 3) 3 (1 / 4) 0 5 = Ok gens.
Proof. split; [lia|]. split; [cbn [cr]; lra|]. split; [rewrite Rabs_pos_eq; lra|apply ex_C96]. Qed.
