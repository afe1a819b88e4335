(** * The points of the hyperbolic tessellations. *)

From Coq Require Import Reals List Bool Arith Lia Lra Psatz Permutation Sorted.
From Verif Require Import Base BaseLemmas Spec SpecLemmas SpecHyperbolic ModelInternal ModelLine ModelCircle ModelInversion ModelHyperbolic PLine PCircle PCircle2 PInvBase PInversion PApo2 PMobGasket1 PHyp1 PHyp2 PHyp3.
Import ListNotations.
Local Open Scope R_scope.

(** ** The points computed are the images *)
Lemma in_generation1 invs pts M i : In (M, i) (generation1 invs pts) <-> (i < 3)%nat /\ M = invert (nth i invs (mkInv (0, 0) 0)) (Pt (nth ((i + 2) mod 3) pts (0, 0))).
Proof.
  unfold generation1. split.
  - intros H. apply in_map_iff in H. destruct H as (j & E & H). injection E as <- <-. cbn [In] in H. split; [lia|reflexivity].
  - intros [H ->]. apply in_map_iff. exists i. split; [reflexivity|]. cbn [In]. lia.
Qed.

Lemma in_next invs g M i : In (M, i) (next_generation invs g) <-> (i < 3)%nat /\ exists M0 j, In (M0, j) g /\ i <> j /\ M = invert (nth i invs (mkInv (0, 0) 0)) M0.
Proof.
  unfold next_generation. rewrite in_flat_map. split.
  - intros ([M0 j] & H & K). apply in_map_iff in K. destruct K as (k & E & K). injection E as <- <-. apply filter_In in K. destruct K as [K1 K2]. cbn [fst snd] in *.
    split; [cbn [In] in K1; lia|]. exists M0, j. split; auto. split; auto. apply negb_true_iff, Nat.eqb_neq in K2. auto.
  - intros (H & M0 & j & K & N & ->). exists (M0, j). split; auto. apply in_map_iff. exists i. split; [reflexivity|]. apply filter_In. split; [cbn [In]; lia|].
    apply negb_true_iff, Nat.eqb_neq. auto.
Qed.

Lemma generations_next invs g n d : (Datatypes.S d < n)%nat -> nth (Datatypes.S d) (generations invs g n) [] = next_generation invs (nth d (generations invs g n) []).
Proof.
  revert g d. induction n as [|n IH]; intros g d H; [lia|]. cbn [generations]. destruct d as [|d].
  - cbn [nth]. destruct n; [lia|]. reflexivity.
  - cbn [nth]. apply IH. lia.
Qed.

Section Images.
Variables (r t0 t1 t2 : R) (depth : nat) (arcs : list arc) (gens : list (list (ept * nat))) (Thetas : list (list R)).
Hypothesis Hp : hyp_points (mkCircle (0, 0) r) t0 t1 t2 depth = Ok (arcs, gens).
Hypothesis Ha : hyp_angles t0 t1 t2 gens = Ok Thetas.
Let V := [un t0; un t1; un t2].
Let invs := map side_inversion arcs.

Lemma gens_eq : gens = generations invs (generation1 invs V) (depth - 1).
Proof. revert Hp. unfold hyp_points, invs. intros H. apply bind_Ok in H. destruct H as (arcs' & E & H). injection H as -> <-. reflexivity. Qed.

Lemma three_arcs : length arcs = 3%nat.
Proof. destruct (points_count _ _ _ _ _ _ _ Hp) as (Hs & _). destruct (hyp_sides_spec _ _ _ _ _ Hs) as (B0 & B1 & B2 & -> & _). reflexivity. Qed.

Lemma no_inf d M i : In (M, i) (nth d gens []) -> exists P, M = Pt P.
Proof.
  intros H. destruct (angles_spec _ _ _ _ _ Ha) as (rest & _ & F & _). destruct (le_lt_dec (length gens) d) as [L|L].
  - rewrite nth_overflow in H by auto. contradiction.
  - pose proof (Forall2_nth_eq _ _ _ F d [] [] L) as K. destruct (In_nth _ _ (Inf, 0%nat) H) as (k & Hk & E).
    pose proof (Forall2_nth_eq _ _ _ K k (Inf, 0%nat) 0 Hk) as Q. rewrite E in Q. cbn [fst] in Q. destruct M; [eauto|discriminate].
Qed.

Lemma invs_nth i A : nth_error arcs i = Some A -> nth i invs (mkInv (0, 0) 0) = mkInv (aO A) (ar A ^ 2).
Proof. intros H. unfold invs. erewrite nth_indep with (d' := side_inversion A); [|rewrite map_length; apply nth_error_Some; congruence]. rewrite map_nth. rewrite (nth_error_nth _ _ _ H). reflexivity. Qed.

Lemma arcs_nth i : (i < 3)%nat -> exists A, nth_error arcs i = Some A.
Proof. intros H. destruct (nth_error arcs i) eqn:E; [eauto|]. apply nth_error_None in E. rewrite three_arcs in E. lia. Qed.

Lemma vert_nth i : (i < 3)%nat -> nth_error V i = Some (nth i V (0, 0)).
Proof. intros H. apply nth_error_nth'. exact H. Qed.

Lemma images_iff d M i : (d < depth - 1)%nat -> (In (Pt M, i) (nth d gens []) <-> mirrored arcs V (Datatypes.S d) i M).
Proof.
  revert M i. induction d as [|d IH]; intros M i Hd.
  - assert (E0 : nth 0 gens [] = generation1 invs V) by (rewrite gens_eq; destruct (depth - 1)%nat; [lia|reflexivity]). rewrite E0. split.
    + rewrite in_generation1. intros [Hi H]. destruct (arcs_nth i Hi) as (A & HA). rewrite (invs_nth i A HA) in H. symmetry in H. apply invert_Pt in H. destruct H as (_ & N & EM). cbn [ipole ipower] in N, EM.
      apply (mirrored_first arcs V i A (nth ((i + 2) mod 3) V (0, 0))); auto. apply vert_nth. apply Nat.mod_upper_bound. lia.
    + intros H. inversion H as [i' A P M' HA HP HN HM | d' i' j A M' N' H' HN HA HM HE]; subst; [|inversion H'].
      assert (Hi : (i < 3)%nat) by (rewrite <- three_arcs; apply nth_error_Some; congruence).
      assert (I : In (invert (nth i invs (mkInv (0, 0) 0)) (Pt (nth ((i + 2) mod 3) V (0, 0))), i) (generation1 invs V)) by (apply in_generation1; auto).
      assert (EP : nth ((i + 2) mod 3) V (0, 0) = P) by (apply nth_error_nth; exact HP).
      destruct (no_inf 0 _ _ ltac:(rewrite E0; exact I)) as (Q & EQ). rewrite EQ in I. rewrite EP, (invs_nth i A HA) in EQ. apply invert_Pt in EQ. destruct EQ as (_ & _ & ->). exact I.
  - assert (E0 : nth (Datatypes.S d) gens [] = next_generation invs (nth d gens [])) by (rewrite gens_eq; apply generations_next; lia). rewrite E0. split.
    + rewrite in_next. intros (Hi & M0 & j & H & N & E). destruct (no_inf d _ _ H) as (Q & ->). apply IH in H; [|lia].
      destruct (arcs_nth i Hi) as (A & HA). rewrite (invs_nth i A HA) in E. symmetry in E. apply invert_Pt in E. destruct E as (_ & N' & EM). cbn [ipole ipower] in N', EM.
      apply (mirrored_next arcs V (Datatypes.S d) j i A Q M); auto.
    + intros H. inversion H as [| d' i' j A M' N' H' HN HA HM HE]; subst.
      assert (Hi : (i < 3)%nat) by (rewrite <- three_arcs; apply nth_error_Some; congruence).
      apply IH in H'; [|lia].
      assert (I : In (invert (nth i invs (mkInv (0, 0) 0)) (Pt M'), i) (next_generation invs (nth d gens []))) by (apply in_next; split; auto; exists (Pt M'), i'; auto).
      destruct (no_inf (Datatypes.S d) _ _ ltac:(rewrite E0; exact I)) as (Q & EQ). rewrite EQ in I. rewrite (invs_nth i A HA) in EQ. apply invert_Pt in EQ. destruct EQ as (_ & _ & ->). exact I.
Qed.

Lemma seen_angle M : seen_at r M (vscal r (un (atan2 (snd M) (fst M)))).
Proof.
  destruct M as [x y]. cbn [fst snd]. destruct (Req_dec (x * x + y * y) 0) as [E|E].
  - assert (x = 0 /\ y = 0) as [-> ->] by nra. left. split; auto. unfold atan2. destruct (Rlt_dec 0 0); [lra|]. 
    repeat (match goal with |- context [Rlt_dec ?a ?b] => destruct (Rlt_dec a b); try lra end). unfold un, vscal. cbn [fst snd]. rewrite ?cos_0, ?sin_0. f_equal; ring.
  - assert (N : (x, y) <> (0, 0)) by (intros Q; injection Q as -> ->; apply E; ring). right. split; auto. destruct (cos_sin_atan2 y x N) as [C1 S1]. unfold un. rewrite C1, S1.
    replace (dist (0, 0) (x, y)) with (sqrt (x * x + y * y)) by (unfold dist; f_equal; unspec; ring). unfold vscal. cbn [fst snd].
    assert (sqrt (x * x + y * y) <> 0) by (intros Q; apply E; apply sqrt_eq_0 in Q; nra). f_equal; field; auto.
Qed.

Lemma seen_unique M P Q : seen_at r M P -> seen_at r M Q -> P = Q.
Proof. intros [[A B]|[A B]] [[C D]|[C D]]; congruence. Qed.

(** the angles of the picture [d] are those of the vertices and of the images by at most [d] inversions *)
Lemma angle_points d P : (d < depth)%nat -> ((exists t, In t (concat (firstn (d + 1) Thetas)) /\ P = vscal r (un t)) <->
  (In P [vscal r (un t0); vscal r (un t1); vscal r (un t2)] \/ exists e i M, (1 <= e <= d)%nat /\ mirrored arcs V e i M /\ seen_at r M P)).
Proof.
  intros Hd. destruct (angles_spec _ _ _ _ _ Ha) as (rest & ET & F & _). rewrite ET. pose proof (Forall2_len _ _ _ F) as LF. destruct (points_count _ _ _ _ _ _ _ Hp) as (_ & Lg & _).
  replace (firstn (d + 1) (map norm_angle [t0; t1; t2] :: rest)) with (map norm_angle [t0; t1; t2] :: firstn d rest) by (replace (d + 1)%nat with (Datatypes.S d) by lia; reflexivity).
  cbn [concat].
  assert (NV : (exists t, In t (map norm_angle [t0; t1; t2]) /\ P = vscal r (un t)) <-> In P [vscal r (un t0); vscal r (un t1); vscal r (un t2)]).
  { change [vscal r (un t0); vscal r (un t1); vscal r (un t2)] with (map (fun t => vscal r (un t)) [t0; t1; t2]). split.
    - intros (t & Ht & ->). apply in_map_iff in Ht. destruct Ht as (s & <- & Hs). apply in_map_iff. exists s. rewrite norm_un. auto.
    - intros H. apply in_map_iff in H. destruct H as (s & <- & Hs). exists (norm_angle s). split; [apply in_map; auto|rewrite norm_un; auto]. }
  assert (NR : (exists t, In t (concat (firstn d rest)) /\ P = vscal r (un t)) <-> exists e i M, (1 <= e <= d)%nat /\ mirrored arcs V e i M /\ seen_at r M P).
  { split.
    - intros (t & Ht & ->). apply in_concat in Ht. destruct Ht as (th & H1 & H2). destruct (In_nth _ _ [] H1) as (k & Hk & E). rewrite firstn_length in Hk.
      assert (Ek : nth k rest [] = th). { rewrite <- E. rewrite <- (firstn_skipn d rest) at 1. rewrite app_nth1; auto. rewrite firstn_length. lia. }
      pose proof (Forall2_nth_eq _ _ _ F k [] [] ltac:(lia)) as K. rewrite Ek in K. destruct (Forall2_nth_In _ _ _ K t H2) as ([M i] & HM & Q). cbn [fst] in Q.
      destruct M as [[x y]|]; [|discriminate]. cbn [angle_of] in Q. injection Q as <-. exists (Datatypes.S k), i, (x, y). split; [lia|]. split; [apply images_iff; [lia|auto]|apply (seen_angle (x, y))].
    - intros (e & i & M & He & HM & HS). destruct e as [|k]; [lia|]. apply images_iff in HM; [|lia].
      pose proof (Forall2_nth_eq _ _ _ F k [] [] ltac:(lia)) as K. destruct (In_nth _ _ (Inf, 0%nat) HM) as (m & Hm & E).
      pose proof (Forall2_nth_eq _ _ _ K m (Inf, 0%nat) 0 Hm) as Q. rewrite E in Q. cbn [fst] in Q. destruct M as [x y]. cbn [angle_of] in Q. injection Q as Q.
      exists (atan2 y x). split; [|apply (seen_unique (x, y)); auto; apply (seen_angle (x, y))].
      apply in_concat. exists (nth k rest []). split.
      + assert (Ek : nth k (firstn d rest) [] = nth k rest []). { rewrite <- (firstn_skipn d rest) at 2. rewrite app_nth1; auto. rewrite firstn_length. lia. }
        rewrite <- Ek. apply nth_In. rewrite firstn_length. lia.
      + rewrite Q. apply nth_In. rewrite <- (Forall2_len _ _ _ K). exact Hm. }
  rewrite <- NV, <- NR. split.
  - intros (t & Ht & E). apply in_app_or in Ht. destruct Ht; [left|right]; eauto.
  - intros [(t & Ht & E)|(t & Ht & E)]; exists t; (split; [apply in_or_app; auto|auto]).
Qed.
End Images.

(** ** The inversion in an arc keeps the disc *)
Lemma inv_orthogonal r O rho M : circ_orthogonal (0, 0) r O rho -> M <> O ->
  r * r - dist2 (0, 0) (inv_pt O (rho ^ 2) M) = rho ^ 2 / dist2 O M * (r * r - dist2 (0, 0) M).
Proof.
  intros H N. pose proof (dist2_pos O M ltac:(auto)) as Hd. unfold circ_orthogonal in H. unfold inv_pt.
  set (q := rho ^ 2 / dist2 O M). assert (Eq : q * dist2 O M = rho ^ 2) by (unfold q; field; lra).
  assert (E1 : dist2 (0, 0) (vadd O (vscal q (vsub M O))) = dist2 (0, 0) O + q * (dist2 (0, 0) M - dist2 (0, 0) O - dist2 O M) + q * (q * dist2 O M)).
  { clear Eq Hd H. clearbody q. destruct O, M. unspec. ring. }
  rewrite E1, Eq, H. transitivity (- rho ^ 2 - q * dist2 (0, 0) M + q * r ^ 2 + q * rho ^ 2 + q * dist2 O M - q * rho ^ 2); [ring|rewrite Eq; ring].
Qed.

Lemma mirrored_power r sides V d i M : Forall (hyperbolic_line r) sides -> mirrored sides V d i M ->
  exists P q, In P V /\ 0 < q /\ r * r - dist2 (0, 0) M = q * (r * r - dist2 (0, 0) P).
Proof.
  intros F H. induction H as [i A P M HA HP HN HM | d i j A M N H IH HN HA HM HE].
  - rewrite Forall_forall in F. destruct (F A (nth_error_In _ _ HA)) as (Hr & HO & _). exists P, (ar A ^ 2 / dist2 (aO A) P).
    split; [apply (nth_error_In _ _ HP)|]. split; [|subst; apply inv_orthogonal; auto].
    apply Rdiv_lt_0_compat; [nra|]. apply dist2_pos; auto.
  - destruct IH as (P & q & HP & Hq & E). rewrite Forall_forall in F. destruct (F A (nth_error_In _ _ HA)) as (Hr & HO & _).
    exists P, (ar A ^ 2 / dist2 (aO A) M * q). split; auto. split.
    + apply Rmult_lt_0_compat; auto. apply Rdiv_lt_0_compat; [nra|]. apply dist2_pos; auto.
    + subst N. rewrite inv_orthogonal by auto. rewrite E. ring.
Qed.

Lemma dist_lt_sq r M : 0 < r -> 0 < r * r - dist2 (0, 0) M -> dist (0, 0) M < r.
Proof. intros Hr H. unfold dist. rewrite <- (sqrt_Rsqr r) by lra. apply sqrt_lt_1; [unspec; nra|apply Rle_0_sqr|unfold Rsqr; lra]. Qed.

Lemma mirrored_inside r sides V d i M : 0 < r -> Forall (hyperbolic_line r) sides -> mirrored sides V d i M ->
  (forall P, In P V -> dist (0, 0) P = 1) -> (1 < r -> dist (0, 0) M < r) /\ (r = 1 -> dist (0, 0) M = 1).
Proof.
  intros Hr F H HV. destruct (mirrored_power r sides V d i M F H) as (P & q & HP & Hq & E). specialize (HV P HP).
  assert (D : dist2 (0, 0) P = 1). { unfold dist in HV. assert (0 <= dist2 (0, 0) P) by (destruct P; unspec; nra). rewrite <- (sqrt_sqrt _ H0), HV. ring. }
  rewrite D in E. split; intros Hr1.
  - apply dist_lt_sq; auto. rewrite E. apply Rmult_lt_0_compat; auto. nra.
  - subst r. replace (1 * 1 - 1) with 0 in E by ring. rewrite Rmult_0_r in E. unfold dist. replace (dist2 (0, 0) M) with 1 by lra. apply sqrt_1.
Qed.
