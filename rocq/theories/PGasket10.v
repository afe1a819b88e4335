(** * Proofs about the triangular gasket: the whole drawing. *)

From Coq Require Import Reals Lra Lia Psatz List Bool ZArith.
From Verif Require Import Base BaseLemmas Spec SpecLemmas SpecTriangle SpecGasket ModelInternal ModelLine ModelCircle ModelTriangle ModelGasket PLine PTriangle PTriangle2 PTriangle3 PTriangle4 PTriangle5 PSteiner PGasket1 PGasket2 PGasket3 PGasket4 PGasket5 PGasket6 PGasket7 PGasket8 PGasket9.
Import ListNotations.
Local Open Scope R_scope.

Lemma malfatti_conf A B C : ~ collinear A B C -> exists P x y z r e k1 k2 k3 T,
  mconf A B C P x y z r e k1 k2 k3 /\ 0 < e * dbl A B C /\
  malfatti_circles (mkTri A B C) = Ok (Some ((mc A P r k1, mc B P r k2, mc C P r k3), T)).
Proof.
  intros N. pose proof (malfatti_spec A B C N) as (gA & gB & gC & TA & TB & TC & EM & _).
  apply not_collinear_dbl in N. destruct (Ravi_ex A B C N) as (x & y & z & S & H).
  pose proof (malfatti_eval A B C x y z S H) as K. cbv zeta in K. set (I0 := incenter A B C x y z) in *. set (r := S / (x + y + z)) in *.
  destruct K as ((D1 & D2 & D3) & T1 & T2 & T3 & E).
  set (d1 := (x + y + z - r - (dist B I0 + dist C I0 - dist A I0)) / 2) in *. set (d2 := (x + y + z - r - (dist C I0 + dist A I0 - dist B I0)) / 2) in *.
  set (d3 := (x + y + z - r - (dist A I0 + dist B I0 - dist C I0)) / 2) in *.
  assert (Hx : 0 < x /\ 0 < y /\ 0 < z) by (destruct H as (Hx & Hy & Hz & _); auto). destruct Hx as (Hx & Hy & Hz).
  replace (r * d1 / x) with (d1 / x * r) in * by (field; lra). replace (r * d2 / y) with (d2 / y * r) in * by (field; lra). replace (r * d3 / z) with (d3 / z * r) in * by (field; lra).
  change (mkCircle (mcenter A I0 (d1 / x)) (d1 / x * r)) with (mc A I0 r (d1 / x)) in *. change (mkCircle (mcenter B I0 (d2 / y)) (d2 / y * r)) with (mc B I0 r (d2 / y)) in *.
  change (mkCircle (mcenter C I0 (d3 / z)) (d3 / z * r)) with (mc C I0 r (d3 / z)) in *.
  assert (kk : forall d w, 0 < w -> 0 < d < w -> 0 < d / w < 1).
  { intros d w Hw (G1 & G2). split; [apply Rdiv_lt_0_compat; auto|]. apply (Rmult_lt_reg_r w); auto. replace (d / w * w) with d by (field; lra). lra. }
  assert (He : exists e, e * e = 1 /\ 0 < e * dbl A B C).
  { destruct (Rlt_le_dec 0 (dbl A B C)); [exists 1; lra|exists (-1); lra]. }
  destruct He as (e & He & PO).
  exists I0, x, y, z, r, e, (d1 / x), (d2 / y), (d3 / z), (TA, TB, TC). split; [|split; auto].
  - apply (mconf_ex A B C x y z S e); auto.
  - rewrite E in EM. rewrite E.
    destruct (tangency _ _ _) as [t1|] in EM |- *; cbn [bind] in EM |- *; [|discriminate]. destruct (tangency _ _ _) as [t2|] in EM |- *; cbn [bind] in EM |- *; [|discriminate].
    destruct (tangency _ _ _) as [t3|] in EM |- *; cbn [bind] in EM |- *; [|discriminate]. injection EM as _ _ _ -> -> ->. reflexivity.
Qed.

Lemma mapM_thunks (l : list hole) : mapM (fun f : unit -> res (circle * list hole) => f tt) (map (fun h _ => new_hole h) l) = mapM new_hole l.
Proof. induction l as [|h l IH]; cbn [map mapM]; [auto|]. rewrite IH. reflexivity. Qed.

Lemma draw_eval A B C depth c1 c2 c3 T : malfatti_circles (mkTri A B C) = Ok (Some ((c1, c2, c3), T)) ->
  drawTriangularGasket A B C depth = let! l := generations (first_holes A B C c1 c2 c3) (S depth) in Ok ([c1; c2; c3] ++ l).
Proof.
  intros E. unfold drawTriangularGasket. rewrite E. cbn [bind]. cbn [generations].
  change [_; _; _; _; _; _; _] with (map (fun h (_ : unit) => new_hole h) (first_holes A B C c1 c2 c3)). rewrite mapM_thunks.
  destruct (mapM new_hole (first_holes A B C c1 c2 c3)) as [first|ex]; cbn [bind]; auto. destruct (generations (concat (map snd first)) depth); reflexivity.
Qed.

Lemma tang_neq c c' : posc c -> posc c' -> tang c c' -> c <> c'.
Proof. unfold posc, tang. intros P1 P2 T <-. rewrite (proj2 (dist_0 _ _) eq_refl) in T. lra. Qed.

Lemma filled_three A B C l c : filled A B C l c -> touches_three A B C l c.
Proof.
  intros (h & D & R & O & I & T & S). unfold touches_three, circles_touch, side_touched, ext_tangent. destruct h as [c1 c2 c3|c1 c2 P Q|P Q V c1]; cbn [region okside members sides] in *.
  - left. destruct R as (P1 & P2 & P3 & PD & T12 & T23 & T13 & _). rewrite Forall_3 in T. destruct T as (T1 & T2 & T3). exists c1, c2, c3. split; auto. split; [|auto].
    pose proof (tang_neq _ _ P1 P2 T12). pose proof (tang_neq _ _ P2 P3 T23). pose proof (tang_neq _ _ P1 P3 T13).
    apply NoDup_cons; [cbn [In]; intuition congruence|]. apply NoDup_cons; [cbn [In]; intuition congruence|]. apply NoDup_cons; [cbn [In]; tauto|apply NoDup_nil].
  - right. left. destruct O as (V & O). destruct R as (_ & P1 & P2 & _ & T12 & _). rewrite Forall_2 in T. rewrite Forall_1 in S. cbn [fst snd] in S. exists c1, c2, P, Q, V.
    destruct T as (T1 & T2). pose proof (tang_neq _ _ P1 P2 T12). split; auto.
  - right. right. rewrite Forall_1 in T. rewrite Forall_2 in S. cbn [fst snd] in S. exists c1, P, Q, V. split; [apply I; cbn [In]; auto|]. destruct S. auto.
Qed.

(** what is true of the list of drawn circles *)
Lemma draw_spec A B C depth : ~ collinear A B C ->
  drawTriangularGasket A B C depth = Raise ValueError \/ exists l, drawTriangularGasket A B C depth = Ok l /\
    Forall (fun c => 0 < cr c) l /\ ForallOrdPairs not_overlapping l /\ Forall (disc_in_triangle A B C) l /\
    (2 * length l + 1 = 7 * 3 ^ (S depth))%nat /\
    forall l1 c l2, l = l1 ++ c :: l2 -> (3 <= length l1)%nat -> touches_three A B C l1 c.
Proof.
  intros N. destruct (malfatti_conf A B C N) as (P & x & y & z & r & e & k1 & k2 & k3 & T & M & PO & E).
  rewrite (draw_eval A B C depth _ _ _ _ E). destruct (first_inv _ _ _ _ _ _ _ _ _ _ _ _ M) as (p & Ep & I). cbv zeta in Ep, I.
  set (c1 := mc A P r k1) in *. set (c2 := mc B P r k2) in *. set (c3 := mc C P r k3) in *.
  assert (He : e * e = 1) by (destruct M as ((_ & _ & _ & _ & He) & _); auto).
  assert (ND : dbl A B C <> 0) by (apply not_collinear_dbl; auto). destruct (dbl_distinct _ _ _ ND) as (N1 & N2 & N3).
  assert (U : Forall (fun s => sdot (fst s) (fst s) = 1) (halfplanes e A B C)) by (apply halfplanes_unit; auto).
  destruct (inv_generations A B C (halfplanes e A B C) U (S depth) _ _ I) as [F|(new & ps & F & L & I2 & Tr)].
  - left. rewrite <- Ep, F. reflexivity.
  - right. rewrite <- Ep, F. cbn [bind]. exists ([c1; c2; c3] ++ new). split; [auto|]. destruct I2 as (J1 & J2 & J3 & _). split; [exact J1|]. split; [exact J2|]. split; [|split].
    + revert J3. apply Forall_impl. intros c W M0. apply (within_triangle e); auto.
    + assert (Lp : length p = 7%nat) by (rewrite <- (map_length fst), Ep; reflexivity). rewrite Lp in L. pose proof (gen_count_eq 7 (S depth)). rewrite app_length, L. cbn [length]. lia.
    + intros l1 c l2 El H3. apply filled_three. destruct l1 as [|u1 [|u2 [|u3 l1]]]; cbn [length] in H3; [lia|lia|lia|]. cbn [app] in El. injection El as <- <- <- El.
      exact (Tr l1 c l2 El).
Qed.
