(** * Proofs about the triangular gasket: the depth that can be reached. *)

From Coq Require Import Reals Lra Lia Psatz List Bool ZArith.
From Verif Require Import Base BaseLemmas Spec SpecLemmas SpecTriangle SpecGasket ModelInternal ModelLine ModelCircle ModelTriangle ModelGasket PLine PTriangle PTriangle2 PTriangle3 PTriangle4 PTriangle5 PSteiner PGasket1 PGasket2 PGasket3 PGasket4 PGasket5 PGasket6 PGasket7 PGasket8 PGasket9 PGasket10 PGasket11.
Import ListNotations.
Local Open Scope R_scope.

Lemma corner_lt A B C c D : region (CLL A B C c) D -> 0 < cr c < dist A (cO c).
Proof.
  intros (Pc & PD & ED & O & _). unfold posc, ortho in *. rewrite ED in O. split; auto. apply Rsqr_incrst_0; [|lra|apply sqrt_pos]. unfold Rsqr. rewrite dist_sq, O.
  pose proof (Rmult_lt_0_compat _ _ PD PD). lra.
Qed.
Lemma ratio_lt A B C c D : region (CLL A B C c) D -> 0 < corner_ratio A c < 1.
Proof.
  intros R. pose proof (corner_lt _ _ _ _ _ R). unfold corner_ratio. split; [apply Rdiv_lt_0_compat; lra|].
  apply (Rmult_lt_reg_r (dist A (cO c) + cr c)); [lra|]. unfold Rdiv. rewrite Rmult_assoc, Rinv_l by lra. lra.
Qed.
Lemma dist_at A O t : 0 <= t -> dist A (at_line A O t) = t * dist A O.
Proof. intros Ht. apply sqrt_eq; [apply Rmult_le_pos; auto; apply sqrt_pos|]. transitivity (t * t * dist2 A O); [rewrite <- dist_sq; ring|unspec; ring]. Qed.
Lemma ratio_next A B C c D : region (CLL A B C c) D -> corner_ratio A (corner_next A c) = corner_ratio A c /\ dist A (cO (corner_next A c)) = corner_ratio A c * dist A (cO c) /\ cr (corner_next A c) = corner_ratio A c * cr c.
Proof.
  intros R. pose proof (corner_lt _ _ _ _ _ R). pose proof (ratio_lt _ _ _ _ _ R) as Rt.
  assert (E : dist A (cO (corner_next A c)) = corner_ratio A c * dist A (cO c)) by (unfold corner_next; cbn [cO]; apply dist_at; lra).
  split; [|split; [auto|reflexivity]]. unfold corner_ratio at 1. rewrite E. change (cr (corner_next A c)) with (corner_ratio A c * cr c).
  assert (G : forall k d r, k <> 0 -> d + r <> 0 -> (k * d - k * r) / (k * d + k * r) = (d - r) / (d + r)) by (intros k d r H1 H2; replace (k * d + k * r) with (k * (d + r)) by ring; field; auto).
  apply G; lra.
Qed.
Lemma region_next A B C c D : region (CLL A B C c) D -> exists D', region (CLL A B C (corner_next A c)) D'.
Proof.
  intros R. destruct (corner_step A B C c D R) as (_ & _ & _ & _ & _ & h1 & h2 & h3 & D1 & D2 & D3 & E & R1 & _). injection E as <- _ _. eauto.
Qed.

Lemma mapM_In {X Y} (f : X -> res Y) l ys x : mapM f l = Ok ys -> In x l -> exists y, f x = Ok y /\ In y ys.
Proof.
  revert ys. induction l as [|a l IH]; intros ys E I; [destruct I|]. cbn [mapM] in E. destruct (f a) as [y|] eqn:Ea; cbn [bind] in E; [|discriminate].
  destruct (mapM f l) as [ys'|]; cbn [bind] in E; [|discriminate]. injection E as <-. destruct I as [->|I]; [exists y; cbn [In]; auto|]. destruct (IH ys' eq_refl I) as (y' & E1 & I1). exists y'. cbn [In]. auto.
Qed.

Lemma gen_S hs n : generations hs (S n) = let! new := mapM new_hole hs in let! l := generations (concat (map snd new)) n in Ok (map fst new ++ l).
Proof. reflexivity. Qed.

(** while the drawing goes on, the circles of a corner are larger than 1e-8 *)
Lemma generations_corner n : forall hs new A B C c D, generations hs (S n) = Ok new -> In (CLL A B C c) hs -> region (CLL A B C c) D ->
  forall j, (j <= n)%nat -> / 100000000 < cr c * corner_ratio A c ^ j.
Proof.
  induction n as [|n IH]; intros hs new A B C c D E I R j Hj; rewrite gen_S in E; destruct (mapM new_hole hs) as [nw|] eqn:EM; cbn [bind] in E; try discriminate;
    destruct (mapM_In _ _ _ _ EM I) as ((c' & hs') & E1 & I1); cbn [new_hole] in E1;
    (assert (B0 : / 100000000 < cr c) by (destruct (Rlt_le_dec (/ 100000000) (cr c)) as [|G]; auto; rewrite (side_side_tiny _ _ _ _ _ R G) in E1; discriminate)).
  - replace j with O by lia. cbn [pow]. lra.
  - destruct j as [|j]; [cbn [pow]; lra|]. destruct (side_side_eval A B C c D R) as [F|F]; rewrite F in E1; [discriminate|]. injection E1 as <- <-.
    destruct (generations (concat (map snd nw)) (S n)) as [l|] eqn:EG; cbn [bind] in E; [|discriminate].
    destruct (region_next _ _ _ _ _ R) as (D' & R'). destruct (ratio_next _ _ _ _ _ R) as (Q1 & _ & Q2).
    assert (I2 : In (CLL A B C (corner_next A c)) (concat (map snd nw))).
    { apply in_concat. eexists. split; [apply in_map; exact I1|]. cbn [snd In]. auto. }
    pose proof (IH _ l A B C (corner_next A c) D' EG I2 R' j ltac:(lia)) as K. rewrite Q1, Q2 in K. cbn [pow]. lra.
Qed.

Lemma first_region A B C P x y z r e k1 k2 k3 : mconf A B C P x y z r e k1 k2 k3 ->
  (exists D, region (CLL A B C (mc A P r k1)) D) /\ (exists D, region (CLL B A C (mc B P r k2)) D) /\ (exists D, region (CLL C A B (mc C P r k3)) D).
Proof.
  intros M. pose proof (mconf_perm _ _ _ _ _ _ _ _ _ _ _ _ M) as M2. pose proof (mconf_perm _ _ _ _ _ _ _ _ _ _ _ _ M2) as M3. pose proof (mconf_swap _ _ _ _ _ _ _ _ _ _ _ _ M) as N1.
  split; [|split]; eexists; [exact (region_corner _ _ _ _ _ _ _ _ _ _ _ _ M)|exact (region_corner _ _ _ _ _ _ _ _ _ _ _ _ N1)|exact (region_corner _ _ _ _ _ _ _ _ _ _ _ _ M3)].
Qed.

Lemma draw_corner A B C depth l cA cB cC T : ~ collinear A B C -> malfatti_circles (mkTri A B C) = Ok (Some ((cA, cB, cC), T)) ->
  drawTriangularGasket A B C depth = Ok l -> forall j, (j <= depth)%nat ->
  / 100000000 < cr cA * corner_ratio A cA ^ j /\ / 100000000 < cr cB * corner_ratio B cB ^ j /\ / 100000000 < cr cC * corner_ratio C cC ^ j.
Proof.
  intros N EM ED j Hj. destruct (malfatti_conf A B C N) as (P & x & y & z & r & e & k1 & k2 & k3 & T' & M & PO & E). rewrite EM in E. injection E as -> -> -> ->.
  rewrite (draw_eval A B C depth _ _ _ _ EM) in ED. destruct (generations _ (S depth)) as [l'|] eqn:EG; cbn [bind] in ED; [|discriminate].
  destruct (first_region _ _ _ _ _ _ _ _ _ _ _ _ M) as ((D1 & R1) & (D2 & R2) & (D3 & R3)).
  split; [|split]; [apply (generations_corner depth _ l' A B C _ D1 EG)|apply (generations_corner depth _ l' B A C _ D2 EG)|apply (generations_corner depth _ l' C A B _ D3 EG)]; auto; unfold first_holes; cbn [In]; auto 10.
Qed.

Lemma draw_limit A B C : ~ collinear A B C -> exists n, forall depth, (n <= depth)%nat -> drawTriangularGasket A B C depth = Raise ValueError.
Proof.
  intros N. destruct (malfatti_conf A B C N) as (P & x & y & z & r & e & k1 & k2 & k3 & T & M & PO & E).
  destruct (first_region _ _ _ _ _ _ _ _ _ _ _ _ M) as ((D1 & R1) & _). pose proof (ratio_lt _ _ _ _ _ R1) as Rt. pose proof (corner_lt _ _ _ _ _ R1) as Rc.
  set (c := mc A P r k1) in *. destruct (pow_lt_1_zero (corner_ratio A c) ltac:(rewrite Rabs_right; lra) (/ 100000000 / cr c)) as (n & Hn); [apply Rdiv_lt_0_compat; lra|].
  exists n. intros depth Hd. destruct (draw_spec A B C depth N) as [F|(l & F & _)]; auto. exfalso.
  destruct (draw_corner A B C depth l _ _ _ _ N E F depth (Nat.le_refl _)) as (K & _). fold c in K. specialize (Hn depth Hd). rewrite Rabs_right in Hn by (apply Rle_ge, pow_le; lra).
  apply (Rmult_lt_compat_l (cr c)) in Hn; [|lra]. replace (cr c * (/ 100000000 / cr c)) with (/ 100000000) in Hn by (field; lra). lra.
Qed.

(** ** the tolerances are met *)
Definition tol (M : R) (n : nat) (A B C : pt) (c : circle) : Prop :=
  let t := sqrt (dist2 A (cO c) - cr c * cr c) in
  bounded M A /\ bounded M B /\ bounded M C /\ bounded M (cO c) /\ (1 + M) / 20000 <= cr c * corner_ratio A c ^ n /\
  (1 + M) / 20000 <= dist A B /\ (1 + M) / 20000 <= dist A C /\ dist A (cO c) < 10000 * t /\
  sepsilon_ <= cr c * corner_ratio A c ^ n * dist A C * (t / dist A (cO c)) /\ sepsilon_ <= cr c * corner_ratio A c ^ n * dist A B * (t / dist A (cO c)).
Definition tolh (M : R) (m : nat) (h : hole) : Prop := match m, h with S n, CLL A B C c => tol M n A B C c | _, _ => True end.

Lemma tol_ok M n A B C c D : region (CLL A B C c) D -> tol M n A B C c ->
  side_side_circle A B C c = Ok (corner_next A c, [CLL A B C (corner_next A c); CCL c (corner_next A c) A B; CCL c (corner_next A c) A C]).
Proof.
  intros R (HA & HB & HC & HO & H1 & H2 & H3 & H4 & H5 & H6). pose proof (corner_lt _ _ _ _ _ R) as L. pose proof (ratio_lt _ _ _ _ _ R) as L2.
  assert (Et : sqrt (dist2 A (cO c) - cr c * cr c) = cr D).
  { destruct R as (_ & PD & ED & O & _). unfold posc, ortho in *. rewrite ED in O. apply sqrt_eq; [lra|]. rewrite O. ring. }
  rewrite Et in *. assert (Pn : 0 <= corner_ratio A c ^ n) by (apply pow_le; lra). assert (Pn1 : corner_ratio A c ^ n <= 1) by (rewrite <- (pow1 n); apply pow_incr; lra).
  assert (Lr : cr c * corner_ratio A c ^ n <= cr c * 1) by (apply Rmult_le_compat_l; lra).
  assert (PD : 0 < cr D) by (destruct R as (_ & PD & _); auto). assert (G : 0 < cr D / dist A (cO c)) by (apply Rdiv_lt_0_compat; lra).
  assert (dd : forall V, 0 <= dist A V) by (intros; apply sqrt_pos).
  apply (side_side_total A B C c D M); auto; try lra.
  - eapply Rle_trans; [exact H5|]. apply Rmult_le_compat_r; [lra|]. apply Rmult_le_compat_r; auto. lra.
  - eapply Rle_trans; [exact H6|]. apply Rmult_le_compat_r; [lra|]. apply Rmult_le_compat_r; auto. lra.
Qed.

Lemma tol_next M n A B C c D : region (CLL A B C c) D -> tol M (S n) A B C c -> tol M n A B C (corner_next A c).
Proof.
  intros R (HA & HB & HC & HO & H1 & H2 & H3 & H4 & H5 & H6). pose proof (corner_lt _ _ _ _ _ R) as L. pose proof (ratio_lt _ _ _ _ _ R) as L2. destruct (ratio_next _ _ _ _ _ R) as (Q1 & Q2 & Q3).
  unfold tol. cbv zeta. rewrite <- (dist_sq A (cO (corner_next A c))), Q1, Q2, Q3. set (q := corner_ratio A c) in *. set (d := dist A (cO c)) in *. cbn [pow] in *.
  assert (Et : sqrt (q * d * (q * d) - q * cr c * (q * cr c)) = q * sqrt (dist2 A (cO c) - cr c * cr c)).
  { assert (P : 0 <= dist2 A (cO c) - cr c * cr c) by (rewrite <- dist_sq; fold d; assert (cr c * cr c <= d * d) by (apply Rmult_le_compat; lra); lra).
    apply sqrt_eq; [apply Rmult_le_pos; [lra|apply sqrt_pos]|]. transitivity (q * q * (sqrt (dist2 A (cO c) - cr c * cr c) * sqrt (dist2 A (cO c) - cr c * cr c))); [ring|]. rewrite sqrt_def by auto. rewrite <- dist_sq. fold d. ring. }
  rewrite Et. set (t := sqrt _) in *. replace (q * t / (q * d)) with (t / d) by (field; lra). replace (q * cr c * q ^ n) with (cr c * (q * q ^ n)) by ring.
  do 3 (split; [auto|]). split. { destruct HA, HO. unfold corner_next, bounded, at_line, vadd, vscal, vsub. cbn [cO fst snd]. fold q. split; apply seg_bound; auto; lra. }
  split; [auto|]. split; [auto|]. split; [auto|]. split; [|auto]. apply (Rmult_lt_compat_l q) in H4; lra.
Qed.

(** the holes left by the fillings of [innerSoddyCircle] and [side_circle_circle] are not corners *)
Lemma new_hole_corner h c hs P Q V c' : new_hole h = Ok (c, hs) -> In (CLL P Q V c') hs -> exists c0, h = CLL P Q V c0.
Proof.
  intros E I. destruct h as [c1 c2 c3|c1 c2 A B|A B C c0]; cbn [new_hole] in E.
  - unfold innerSoddyCircle in E. cbv zeta in E. destruct (innerSoddyRadius _ _ _); cbn [bind] in E; [|discriminate]. destruct (equal_detour_point _) as [[? ?]|]; cbn [bind] in E; [|discriminate].
    destruct (Circle_init _ _); cbn [bind] in E; [|discriminate]. injection E as <- <-. cbn [In] in I. intuition discriminate.
  - assert (S0 : forall A B cA cB, side_circle_circle_sorted A B cA cB = Ok (c, hs) -> exists c0, CCL c1 c2 A B = CLL P Q V c0); [|unfold side_circle_circle in E; destruct (ltb _ _); [destruct (S0 _ _ _ _ E)|destruct (S0 _ _ _ _ E)]; discriminate].
    clear E. intros A' B' cA cB E. unfold side_circle_circle_sorted in E. cbv zeta in E.
    repeat match type of E with (bind ?m _) = _ => destruct m as [?|]; cbn [bind] in E; [|discriminate] end. injection E as <- <-. cbn [In] in I. intuition discriminate.
  - unfold side_side_circle in E. cbv zeta in E.
    repeat match type of E with (bind ?m _) = _ => destruct m as [?|]; cbn [bind] in E; [|discriminate] end.
    destruct (intersection_line_line _ _ _) in E; [|discriminate]. destruct (intersection_line_line _ _ _) in E; [|discriminate]. destruct (incircle _) in E; cbn [bind] in E; [|discriminate].
    injection E as <- <-. cbn [In] in I. destruct I as [I|[I|[I|[]]]]; try discriminate. injection I as <- <- <- _. eauto.
Qed.

Lemma new_hole_total M m h D : region h D -> tolh M (S m) h ->
  exists c hs, new_hole h = Ok (c, hs) /\ Forall (fun h' => (exists D', region h' D') /\ tolh M m h') hs.
Proof.
  intros R Tl. assert (K : exists c hs, new_hole h = Ok (c, hs) /\ step_ok h D c hs).
  { destruct h as [c1 c2 c3|c1 c2 A B|A B C c0]; cbn [new_hole].
    - apply innerSoddy_step; auto.
    - apply side_circle_circle_step; auto.
    - do 2 eexists. split; [exact (tol_ok _ _ _ _ _ _ _ R Tl)|]. apply corner_step; auto. }
  destruct K as (c & hs & E & S0). exists c, hs. split; auto. destruct S0 as (_ & _ & _ & _ & _ & h1 & h2 & h3 & D1 & D2 & D3 & Eh & R1 & R2 & R3 & _).
  apply Forall_forall. intros h' I. split; [rewrite Eh in I; cbn [In] in I; destruct I as [<-|[<-|[<-|[]]]]; eauto|].
  destruct h' as [| |P Q V c']; destruct m as [|m]; cbn [tolh]; auto. destruct (new_hole_corner _ _ _ _ _ _ _ E I) as (c0 & ->). cbn [new_hole] in E. cbn [tolh] in Tl.
  rewrite (tol_ok _ _ _ _ _ _ _ R Tl) in E. injection E as <- <-. cbn [In] in I. destruct I as [I|[I|[I|[]]]]; try discriminate. injection I as <-. eapply tol_next; eauto.
Qed.

Lemma mapM_total {X Y} (f : X -> res (Y * list X)) (Q : X -> Prop) l : Forall (fun x => exists y xs, f x = Ok (y, xs) /\ Forall Q xs) l ->
  exists new, mapM f l = Ok new /\ Forall Q (concat (map snd new)).
Proof.
  induction l as [|x l IH]; intros F.
  - exists []. split; [reflexivity|apply Forall_nil].
  - apply Forall_cons_iff in F. destruct F as ((y & xs & E & Fx) & F). destruct (IH F) as (new & En & Fn). exists ((y, xs) :: new). cbn [mapM]. rewrite E. cbn [bind]. rewrite En. cbn [bind map snd concat].
    split; [reflexivity|]. apply Forall_app. auto.
Qed.

Lemma generations_total M m : forall hs, Forall (fun h => (exists D, region h D) /\ tolh M m h) hs -> exists l, generations hs m = Ok l.
Proof.
  induction m as [|m IH]; intros hs F; [exists []; reflexivity|]. cbn [generations].
  destruct (mapM_total new_hole (fun h => (exists D, region h D) /\ tolh M m h) hs) as (new & En & Fn).
  - revert F. apply Forall_impl. intros h ((D & R) & Tl). apply (new_hole_total M m h D); auto.
  - rewrite En. cbn [bind]. destruct (IH _ Fn) as (l & El). rewrite El. cbn [bind]. eauto.
Qed.
