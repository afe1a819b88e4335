(** * Proofs about examples/triangularCircularGasket.py: when the program succeeds. *)

From Coq Require Import Reals Lra Lia Psatz List Bool Permutation.
From Verif Require Import Base BaseLemmas Spec SpecLemmas SpecTriangle SpecGasket SpecApollonian ModelInternal ModelLine ModelCircle ModelTriangle ModelInversion ModelTangentCircles ModelApollonian ModelCircular PCircle PInvBase PInversion PInversion2 PTriangle PTriangle2 PTriangle3 PTriangle4 PTriangle5 PSteiner PSteiner2 PGasket1 PGasket5 PGasket11 PApo1 PApo2 PApo3 PApo4 PApo5 PApo6 PCirc1 PCirc2 PCirc3 PCirc4 PCirc5 PCirc6.
Import ListNotations.
Local Open Scope R_scope.

Section Start.
Variables (c0 : circle) (n : nat) (phi sh : R).
Hypothesis Hn : (3 <= n)%nat.
Hypothesis P0 : 0 < cr c0.
Hypothesis Hp : phi <> 0.
Hypothesis H1 : Rabs phi < 1.
Hypothesis Se : sepsilon_ <= (cr c0 / Rabs phi - cr c0) * (cr c0 / Rabs phi - cr c0).
Hypothesis Ac : / 100000000 + / 100000 * (Rabs (fst (cO c0)) + Rabs (snd (cO c0)) + cr c0) < (cr c0 / Rabs phi - cr c0) * / 2.
Local Notation ch := (chain_circle c0 n phi sh).
Local Notation ci := (chain_inner c0 n phi).
Local Notation J := (chain_J c0 n phi sh).
Local Notation K := (chain_K c0 n phi sh).

Lemma K_point i : exists P, K i = Pt P.
Proof.
  destruct (st_q c0 phi P0 Hp H1) as (Hq & Dq & _). unfold chain_K, invert. cbn [ipole].
  assert (C : allclose (st_pole c0 phi) (outer_point c0 n sh i) = false); [|rewrite C; eauto].
  pose proof (outer_on c0 n sh i P0) as On. pose proof (dist_triangle (cO c0) (outer_point c0 n sh i) (st_pole c0 phi)) as Tr. rewrite Dq, On in Tr. rewrite (dist_sym (outer_point c0 n sh i)) in Tr.
  assert (Cb : forall u v x y, u * u + v * v = cr c0 * cr c0 -> Rabs (x + u) <= Rabs x + Rabs y + cr c0).
  { intros u v x y E. pose proof (Rabs_triang x u). pose proof (Rabs_pos y). assert (Rabs u <= cr c0); [|lra]. apply Rsqr_incr_0_var; [|lra]. unfold Rsqr. rewrite Rabs_sq. pose proof (Rle_0_sqr v) as Sq. unfold Rsqr in Sq. lra. }
  pose proof (dist_sq (cO c0) (outer_point c0 n sh i)) as Q. rewrite On in Q.
  apply (allclose_far _ _ (Rabs (fst (cO c0)) + Rabs (snd (cO c0)) + cr c0) (cr c0 / Rabs phi - cr c0)); auto.
  - destruct (cO c0) as [x y], (outer_point c0 n sh i) as [p q]. unfold dist2, vsub, sdot in Q. cbn [fst snd] in *. replace p with (x + (p - x)) by ring. apply (Cb _ (q - y)). lra.
  - destruct (cO c0) as [x y], (outer_point c0 n sh i) as [p q]. unfold dist2, vsub, sdot in Q. cbn [fst snd] in *. replace q with (y + (q - y)) by ring. rewrite (Rplus_comm (Rabs x)). apply (Cb _ (p - x)). lra.
  - rewrite <- dist_sq. apply Rmult_le_compat; lra.
  - pose proof (Rabs_pos (fst (cO c0))). pose proof (Rabs_pos (snd (cO c0))). lra.
Qed.

Definition wall_of (i : nat) : option circle := match circumcircle_ext (Pt (J i)) (K (nx n i)) (K (nx n (nx n i))) with Ok w => w | Raise _ => None end.

Lemma wall_of_spec i : (i < n)%nat -> circumcircle_ext (Pt (J i)) (K (nx n i)) (K (nx n (nx n i))) = Ok (wall_of i) /\
  (wall_of i = None <-> 2 * phi * cos (arg_of n sh (nx n i) + PI / INR n) = (1 + phi * phi) * cos (PI / INR n)).
Proof.
  intros Hi. destruct (chain_facts c0 n phi sh Hn P0 H1) as (Pi & Ii & Pc & T0 & Ti & Tn & Dj). pose proof (nx_lt n i Hi) as Hx. pose proof (nx_lt n _ Hx) as Hxx.
  destruct (K_point (nx n i)) as (K1 & E1). destruct (K_point (nx n (nx n i))) as (K2 & E2). destruct (outer_contact c0 n phi sh _ K1 Hn P0 Hp H1 E1) as (A1 & B1). destruct (outer_contact c0 n phi sh _ K2 Hn P0 Hp H1 E2) as (A2 & B2).
  rewrite <- (chain_in_line c0 n phi sh (nx n i) Hn Hx P0 Hp H1). unfold wall_of. rewrite E1, E2. unfold circumcircle_ext. rewrite (J_eq c0 n phi sh Hn i).
  destruct (Req_dec (cr (ch (nx n i)) + cr (ch (nx n (nx n i)))) (cr c0)) as [Q|Q].
  - rewrite (wall_line c0 (ch (nx n i)) (ch (nx n (nx n i))) K1 K2 P0 (Pc _ Hx) (Pc _ Hxx) (T0 _ Hx) (T0 _ Hxx) (Tn _ Hx) A1 B1 A2 B2 Q). split; [auto|]. tauto.
  - destruct (wall_circle c0 (ch (nx n i)) (ch (nx n (nx n i))) K1 K2 P0 (Pc _ Hx) (Pc _ Hxx) (T0 _ Hx) (T0 _ Hxx) (Tn _ Hx) A1 B1 A2 B2 Q) as (w & ->). split; [auto|]. split; [discriminate|]. intros; contradiction.
Qed.

Lemma starting_total : exists walls, startingCircles c0 n phi sh = Ok (map GC (chain_all c0 n phi sh), walls) /\ forall i, (i < n)%nat -> nth i walls None = wall_of i.
Proof.
  destruct (base_radius_bounds c0 n Hn P0) as (B1 & B2 & B3). destruct (last_wall c0 n phi sh Hn P0 H1) as (w & lam & Ew & _). destruct (chain_facts c0 n phi sh Hn P0 H1) as (Pi & Ii & Pc & T0 & Ti & Tn & Dj).
  exists (map wall_of (seq 0 n) ++ [Some w]). split; [|intros i Hi; rewrite app_nth1 by (rewrite map_length, seq_length; auto); apply nth_seq; auto].
  unfold startingCircles, py_div. destruct (Req_EM_T phi 0) as [|_]; [contradiction|]. cbn [bind]. destruct (on_circ0 c0 phi P0 Hp H1) as (Q1 & Q2 & Q3). unfold py_sqrt. destruct (Rlt_dec _ 0) as [|_]; [lra|]. cbn [bind]. rewrite Circle_init_pos by exact Q2. cbn [bind]. rewrite Q3.
  fold (steiner_sine n). fold (base_radius c0 n).
  rewrite (mapM_seq_ok _ (fun i => (K i, GC (ch i)))). 2: { intros i Hi. rewrite pair_eq by auto. rewrite invert_img_total; auto. apply base_inside; auto. }
  cbn [bind]. rewrite Circle_init_pos by auto. cbn [bind]. change (mkCircle (cO c0) (cr c0 - 2 * base_radius c0 n)) with (base_inner c0 n). rewrite invert_img_total by (auto; apply inner_inside; auto). cbn [bind]. rewrite !map_map. cbn [fst snd].
  assert (EG : map (fun x => GC (ch x)) (seq 0 n) ++ [GC (st_img c0 phi (base_inner c0 n))] = map GC (chain_all c0 n phi sh)) by (unfold chain_all; rewrite map_app, map_map; reflexivity). rewrite EG.
  assert (NG : forall j, (j < n)%nat -> nth j (map GC (chain_all c0 n phi sh)) (GC c0) = GC (ch j)) by (intros j Hj; rewrite map_nth, chain_nth by auto; auto).
  rewrite (mapM_seq_ok _ (fun i => (Pt (J i), wall_of i))).
  2: { intros i Hi. pose proof (nx_lt n i Hi) as Hx. pose proof (nx_lt n _ Hx) as Hxx. unfold starting_wall. rewrite nx1, nx2, !NG by auto. cbn [drawn bind]. rewrite towards_ok.
    - cbn [bind]. rewrite <- (J_eq c0 n phi sh Hn i). rewrite (nth_seq K), (nth_seq K) by auto. rewrite (proj1 (wall_of_spec i Hi)). auto.
    - intros E. pose proof (Tn _ Hx) as T. unfold tang in T. rewrite E, (proj2 (dist_0 _ _) eq_refl) in T. pose proof (Pc _ Hx). pose proof (Pc _ Hxx). unfold posc in *. lra. }
  cbn [bind]. rewrite !map_map. cbn [fst snd]. rewrite !(nth_seq (fun x => Pt (J x))) by lia. unfold circumcircle_ext. rewrite Ew. auto.
Qed.
End Start.

Section Total.
Variables (c0 : circle) (n : nat) (phi shift : R).
Hypothesis Hn : (3 <= n)%nat.
Hypothesis P0 : 0 < cr c0.
Hypothesis Hp : phi <> 0.
Hypothesis H1 : Rabs phi < 1.
Hypothesis Se : sepsilon_ <= (cr c0 / Rabs phi - cr c0) * (cr c0 / Rabs phi - cr c0).
Hypothesis Ac : / 100000000 + / 100000 * (Rabs (fst (cO c0)) + Rabs (snd (cO c0)) + cr c0) < (cr c0 / Rabs phi - cr c0) * / 2.
Let sh := INR n * shift.

Lemma gasket_first : exists gens, drawCircularGasket c0 n 1 phi shift = Ok gens.
Proof.
  destruct (starting_total c0 n phi sh Hn P0 Hp H1 Se Ac) as (walls & E & _). exists [chain_all c0 n phi sh]. unfold drawCircularGasket. fold sh. rewrite E. cbn [bind map]. apply drawn_GCs. reflexivity.
Qed.

Lemma gasket_fails depth : (2 <= depth)%nat -> (exists i, (i < n)%nat /\ 2 * phi * cos (arg_of n sh i + PI / INR n) = (1 + phi * phi) * cos (PI / INR n)) ->
  forall gens, drawCircularGasket c0 n depth phi shift <> Ok gens.
Proof.
  intros Hd (i & Hi & Z) gens E. destruct (starting_total c0 n phi sh Hn P0 Hp H1 Se Ac) as (walls & Es & Wl). unfold drawCircularGasket in E. fold sh in E. rewrite Es in E. cbn [bind] in E. destruct depth as [|[|d]]; try lia.
  apply bind_Ok in E. destruct E as (more & E & _). apply bind_Ok in E. destruct E as (L1 & E & _). pose proof (pv_lt n i Hn Hi) as Hv.
  apply (Circles1_walls c0 n _ walls Hn L1 E (pv n i) Hv). rewrite Wl by auto. apply (wall_of_spec c0 n phi sh Hn P0 Hp H1 Ac (pv n i) Hv). rewrite nx_pv by auto. exact Z.
Qed.

Hypothesis Rb : let f := Rabs phi in let s := sin (PI / INR n) in let m := cr c0 * (s * (1 - f)) / (s * (1 - f) + (1 + f)) in (cr c0 + 1) / 4096 <= m * m.
Hypothesis Ri : let s := sin (PI / INR n) in let r := cr c0 * ((1 - s) / (1 + s)) * (1 - phi * phi) in sepsilon_ <= r * r.
Hypothesis Wl : forall i, (i < n)%nat -> 2 * phi * cos (arg_of n sh i + PI / INR n) <> (1 + phi * phi) * cos (PI / INR n).

Lemma inner_lower : cr c0 * ((1 - sin (PI / INR n)) / (1 + sin (PI / INR n))) * (1 - phi * phi) <= cr (chain_inner c0 n phi).
Proof using Hn P0 H1.
  destruct (inner_img c0 n phi Hn P0 H1) as (Hr & E). cbv zeta in Hr, E. unfold chain_inner. rewrite E. cbn [cr]. unfold steiner_sine in *. set (t := (1 - _) / _) in *.
  assert (F : phi * phi < 1). { rewrite <- Rabs_sq. pose proof (Rabs_pos phi). nra. } assert (F0 : 0 <= phi * phi) by nra.
  assert (D : 0 < 1 - phi ^ 2 * t ^ 2 <= 1). { simpl. rewrite !Rmult_1_r. assert (0 <= t * t < 1) by nra. split; nra. }
  apply (Rmult_le_reg_r (1 - phi ^ 2 * t ^ 2)); [lra|]. replace (cr c0 * t * (1 - phi ^ 2) / (1 - phi ^ 2 * t ^ 2) * (1 - phi ^ 2 * t ^ 2)) with (cr c0 * t * (1 - phi ^ 2)) by (field; lra). replace (phi ^ 2) with (phi * phi) in * by ring.
  assert (0 < cr c0 * t * (1 - phi * phi)) by (apply Rmult_lt_0_compat; [apply Rmult_lt_0_compat; [auto|apply Hr]|lra]). set (u := cr c0 * t * (1 - phi * phi)) in *. set (v := 1 - phi * phi * t ^ 2) in *. clearbody u v. clear - H D. nra.
Qed.

Lemma gasket_total depth : exists gens, drawCircularGasket c0 n depth phi shift = Ok gens.
Proof.
  destruct (starting_total c0 n phi sh Hn P0 Hp H1 Se Ac) as (walls & St & Ew). set (G0 := chain_all c0 n phi sh) in *.
  assert (NW : forall i, (i < n)%nat -> nth i walls None <> None). { intros i Hi E. rewrite Ew in E by auto. apply (wall_of_spec c0 n phi sh Hn P0 Hp H1 Ac i Hi) in E. revert E. apply Wl, nx_lt. auto. }
  destruct depth as [|[|d]]; [|apply gasket_first|].
  { exists [G0]. unfold drawCircularGasket. fold sh. rewrite St. cbn [bind map]. apply drawn_GCs. reflexivity. }
  destruct (walls_inv c0 n phi sh (map GC G0) walls Hn P0 St NW) as (iot & IL & IN & Fx & Es & Sw).
  destruct (ch'_facts c0 n phi sh Hn P0 H1) as (Pi & Ii & Pc & T0 & Ti & Tn & Dj). pose proof (chain_ci_lt c0 n phi sh Hn P0 H1) as Lt.
  destruct (chain_total n c0 (chain_inner c0 n phi) (fun j => chain_circle c0 n phi sh (nx n j)) iot Hn P0 Pi Ii Pc T0 Ti Tn Dj Fx Sw (wall_inversions walls) (map GC G0) IL IN (pv n) (kept n)
      (gs_GC c0 n phi sh _ walls Hn P0 St G0 eq_refl) (fun i Hi => kept_perm n i Hn Hi) (kept_bound n Hn) (gs_C0 c0 n phi sh _ walls Hn P0 St G0 eq_refl) d) as (L1 & more & gens & F1 & Ed & E).
  - intros i Hi. destruct (iot_pow n c0 (fun j => chain_circle c0 n phi sh (nx n j)) iot P0 Pc T0 Tn Fx i Hi) as (Pk & Ek & _). destruct (Fx i Hi) as (_ & E1 & E2).
    pose proof (nx_lt n i Hi) as Hx. pose proof (pole_far c0 _ _ (iot i) P0 (Pc i Hi) (Pc _ Hx) (T0 i Hi) (T0 _ Hx) (Tn i Hi) Ek E1 E2 Pk) as Kp.
    destruct (chain_lower c0 n phi sh (nx n i) Hn P0 Hp H1) as (M0 & M1). destruct (chain_lower c0 n phi sh (nx n (nx n i)) Hn P0 Hp H1) as (_ & M2). cbv zeta in Rb, M0, M1, M2. set (m := cr c0 * _ / _) in *.
    assert (R2 : m * m <= cr (chain_circle c0 n phi sh (nx n i)) * cr (chain_circle c0 n phi sh (nx n (nx n i)))) by (apply Rmult_le_compat; lra).
    unfold pow_circle in Ek. rewrite <- dist_sq in Ek. pose proof (dist_nonneg (cO c0) (ipole (iot i))) as Dn. clear - P0 Ek Kp Rb R2 Dn. set (k := ipower (iot i)) in *. set (dd := dist _ _) in *. apply Rsqr_incr_0_var; [|auto]. unfold Rsqr. nra.
  - apply (Rle_trans _ (cr (chain_inner c0 n phi) * cr (chain_inner c0 n phi))).
    + pose proof inner_lower as L. cbv zeta in Ri. apply (Rle_trans _ _ _ Ri). pose proof (steiner_sine_bounds n Hn) as Hs. unfold steiner_sine in Hs. assert (F : phi * phi < 1). { rewrite <- Rabs_sq. pose proof (Rabs_pos phi). nra. }
      assert (0 < cr c0 * ((1 - sin (PI / INR n)) / (1 + sin (PI / INR n))) * (1 - phi * phi)) by (repeat apply Rmult_lt_0_compat; try lra; apply Rinv_0_lt_compat; lra). apply Rmult_le_compat; lra.
    + apply (swap_power c0); auto.
  - exists gens. unfold drawCircularGasket. fold sh. rewrite St. cbn [bind]. change (Circles1 c0 n (map GC G0) (wall_inversions walls)) with (any_children n c0 (wall_inversions walls) (map GC G0) (kept n)). rewrite F1. cbn [bind]. rewrite Ed. cbn [bind]. auto.
Qed.
End Total.
