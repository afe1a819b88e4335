(** * Proofs about the triangular gasket: one hole. *)

From Coq Require Import Reals Lra Lia Psatz List Bool ZArith.
From Verif Require Import Base BaseLemmas Spec SpecLemmas SpecTriangle ModelInternal ModelLine ModelCircle ModelAffine ModelTriangle ModelGasket PLine PInvBase PTriangle PTriangle2 PTriangle3 PTriangle4 PTriangle5 PSteiner PGasket1.
Import ListNotations.
Local Open Scope R_scope.

Lemma lnormal_swap e A B : lnormal (- e) B A = lnormal e A B.
Proof. unfold lnormal. rewrite (dist_sym B A). unfold vscal, vsub. cbn [fst snd]. f_equal; unfold Rdiv; ring. Qed.

(** [D] is the disc of the hole [h]: orthogonal to its three members *)
Definition region (h : hole) (D : circle) : Prop :=
  match h with
  | CCC c1 c2 c3 => posc c1 /\ posc c2 /\ posc c3 /\ posc D /\ tang c1 c2 /\ tang c2 c3 /\ tang c1 c3 /\
      ortho D c1 /\ ortho D c2 /\ ortho D c3
  | CCL c1 c2 A B => A <> B /\ posc c1 /\ posc c2 /\ posc D /\ tang c1 c2 /\
      (exists e, e * e = 1 /\ touch e A B c1 /\ touch e A B c2) /\
      ortho D c1 /\ ortho D c2 /\ scross (vsub B A) (vsub (cO D) A) = 0
  | CLL A B C c => posc c /\ posc D /\ cO D = A /\ ortho D c /\
      exists e, e * e = 1 /\ 0 < e * scross (vsub B A) (vsub C A) /\ touch e A B c /\ touch (- e) A C c
  end.

Definition members (h : hole) : list circle :=
  match h with CCC c1 c2 c3 => [c1; c2; c3] | CCL c1 c2 _ _ => [c1; c2] | CLL _ _ _ c => [c] end.
Definition sides (h : hole) : list (pt * pt) :=
  match h with CCC _ _ _ => [] | CCL _ _ A B => [(A, B)] | CLL A B C _ => [(A, B); (A, C)] end.

Definition corners (h : hole) : list pt := match h with CLL A _ _ _ => [A] | _ => [] end.

Definition perm3 (A B C P Q V : pt) : Prop :=
  (P = A /\ Q = B /\ V = C) \/ (P = A /\ Q = C /\ V = B) \/ (P = B /\ Q = A /\ V = C) \/
  (P = B /\ Q = C /\ V = A) \/ (P = C /\ Q = A /\ V = B) \/ (P = C /\ Q = B /\ V = A).
Lemma perm3_swap12 A B C P Q V : perm3 A B C P Q V -> perm3 A B C Q P V.
Proof. unfold perm3. tauto. Qed.
Lemma perm3_swap23 A B C P Q V : perm3 A B C P Q V -> perm3 A B C P V Q.
Proof. unfold perm3. tauto. Qed.

(** the sides of a hole are sides of the triangle ABC *)
Definition okside (A B C : pt) (h : hole) : Prop :=
  match h with
  | CCC _ _ _ => True
  | CCL _ _ P Q => exists V, perm3 A B C P Q V
  | CLL P Q V _ => perm3 A B C P Q V
  end.

Definition hp (n A : pt) (c : circle) : Prop := cr c <= sdot n (vsub (cO c) A).

Definition step_ok (h : hole) (D : circle) (c : circle) (hs : list hole) : Prop :=
  posc c /\ inner c D /\ Forall (tang c) (members h) /\ Forall (fun s => line_tangent (fst s) (snd s) (cO c) (cr c)) (sides h) /\
  (forall n A, sdot n n = 1 -> Forall (hp n A) (members h) -> Forall (fun P => 0 <= sdot n (vsub P A)) (corners h) -> hp n A c) /\
  exists h1 h2 h3 D1 D2 D3, hs = [h1; h2; h3] /\ region h1 D1 /\ region h2 D2 /\ region h3 D3 /\
    inner D1 D /\ inner D2 D /\ inner D3 D /\ disj D1 D2 /\ disj D1 D3 /\ disj D2 D3 /\
    (forall h' D', In (h', D') [(h1, D1); (h2, D2); (h3, D3)] ->
       In c (members h') /\ incl (members h') (c :: members h) /\ (forall w, In w (members h) -> In w (members h') \/ disj D' w) /\
       incl (corners h') (corners h) /\ forall A B C, okside A B C h -> okside A B C h').

Lemma vdual_comm vD v1 v2 : vdual vD v1 v2 = vdual vD v2 v1.
Proof. unfold vdual, v4add. f_equal; [f_equal|]; unfold vb, vp, vw, vadd; cbn [fst snd]; try ring. f_equal; ring. Qed.
Lemma vnew_swap12 v1 v2 v3 vD : vnew v1 v2 v3 vD = vnew v2 v1 v3 vD.
Proof. unfold vnew, v4add. f_equal; [f_equal|]; unfold vb, vp, vw, vadd; cbn [fst snd]; try ring. f_equal; ring. Qed.
Lemma vnew_swap23 v1 v2 v3 vD : vnew v1 v2 v3 vD = vnew v1 v3 v2 vD.
Proof. unfold vnew, v4add. f_equal; [f_equal|]; unfold vb, vp, vw, vadd; cbn [fst snd]; try ring. f_equal; ring. Qed.

Lemma vb_vc c : vb (vc c) = / cr c.
Proof. reflexivity. Qed.
Lemma rad_le c D : posc c -> posc D -> vb (vc D) <= vb (vc c) -> cr c <= cr D.
Proof.
  unfold posc. intros Pc PD H. rewrite !vb_vc in H. rewrite <- (Rinv_inv (cr D)), <- (Rinv_inv (cr c)). apply Rinv_le_contravar; auto.
  apply Rinv_0_lt_compat; auto.
Qed.

Lemma triple_inner v1 v2 v3 D : posc D -> triple v1 v2 v3 (vc D) ->
  exists D', posc D' /\ vc D' = vdual (vc D) v1 v2 /\ inner D' D.
Proof.
  intros PD T. pose proof (triple_child _ _ _ _ T) as ((_ & _ & _ & K) & _ & _ & _ & _ & _ & B).
  destruct (circ_vc _ B K) as (P & E & R). exists (circ (vdual (vc D) v1 v2)). split; [auto|]. split; [auto|].
  pose proof (triple_duals _ _ _ _ T) as (K1 & _ & _ & _ & Bl). cbv zeta in *. set (D' := circ _) in *. rewrite <- E in K1, Bl. apply kap_inner; auto; [|lra]. apply rad_le; auto.
Qed.

Lemma triple_geom v1 v2 v3 D c : posc D -> posc c -> triple v1 v2 v3 (vc D) -> vc c = vnew v1 v2 v3 (vc D) ->
  inner c D /\ exists D12 D23 D13, (posc D12 /\ posc D23 /\ posc D13) /\
  (vc D12 = vdual (vc D) v1 v2 /\ vc D23 = vdual (vc D) v2 v3 /\ vc D13 = vdual (vc D) v1 v3) /\
  (inner D12 D /\ inner D23 D /\ inner D13 D) /\ (disj D12 D23 /\ disj D12 D13 /\ disj D13 D23) /\
  (triple (vc c) v1 v2 (vc D12) /\ triple (vc c) v2 v3 (vc D23) /\ triple (vc c) v1 v3 (vc D13)) /\
  (kap (vc D12) v3 = 2 /\ kap (vc D23) v1 = 2 /\ kap (vc D13) v2 = 2).
Proof.
  intros PD Pc T V. pose proof (triple_swap23 _ _ _ _ T) as T13. pose proof (triple_swap23 _ _ _ _ (triple_swap12 _ _ _ _ T)) as T23.
  split.
  { pose proof (triple_new _ _ _ _ T) as (_ & _ & _ & _ & ND & NB). cbv zeta in *. rewrite <- V in *. apply kap_inner; auto; [|lra]. apply rad_le; auto. lra. }
  destruct (triple_inner _ _ _ _ PD T) as (D12 & P12 & V12 & I12). destruct (triple_inner _ _ _ _ PD T23) as (D23 & P23 & V23 & I23).
  destruct (triple_inner _ _ _ _ PD T13) as (D13 & P13 & V13 & I13). exists D12, D23, D13.
  pose proof (triple_duals _ _ _ _ T) as (_ & K12 & Ka & Kb & _). pose proof (triple_duals _ _ _ _ T23) as (_ & K23 & _ & _ & _).
  pose proof (triple_duals _ _ _ _ T13) as (_ & K13 & Kc & _ & _). cbv zeta in *.
  pose proof (triple_child _ _ _ _ T) as C12. pose proof (triple_child _ _ _ _ T23) as C23. pose proof (triple_child _ _ _ _ T13) as C13.
  rewrite (vdual_comm _ v3 v2) in Kc. rewrite (vnew_swap23 v2), (vnew_swap12 v2) in C23. rewrite (vnew_swap23 v1) in C13.
  rewrite <- V, <- ?V12, <- ?V23, <- ?V13 in *. repeat match goal with |- _ /\ _ => split end; auto.
  - apply kap_disj; auto; lra.
  - apply kap_disj; auto; lra.
  - apply kap_disj; auto; lra.
Qed.

(** ** three circles *)
Lemma Forall_3 {A} (P : A -> Prop) a b c : Forall P [a; b; c] <-> P a /\ P b /\ P c.
Proof. rewrite !Forall_cons_iff. intuition. Qed.
Lemma Forall_2 {A} (P : A -> Prop) a b : Forall P [a; b] <-> P a /\ P b.
Proof. rewrite !Forall_cons_iff. intuition. Qed.
Lemma Forall_1 {A} (P : A -> Prop) a : Forall P [a] <-> P a.
Proof. rewrite !Forall_cons_iff. intuition. Qed.

Lemma region_CCC c1 c2 c3 D : posc c1 -> posc c2 -> posc c3 -> posc D -> triple (vc c1) (vc c2) (vc c3) (vc D) -> region (CCC c1 c2 c3) D.
Proof.
  intros P1 P2 P3 PD (_ & (A & B & C) & (O1 & O2 & O3) & _). apply kap_tang in A, B, C; auto. apply kap_ortho in O1, O2, O3; auto.
  cbn [region]. tauto.
Qed.
Lemma region_CCL e c1 c2 A B D : A <> B -> e * e = 1 -> posc c1 -> posc c2 -> posc D -> triple (vc c1) (vc c2) (vl (lnormal e A B) A) (vc D) -> region (CCL c1 c2 A B) D.
Proof.
  intros N He P1 P2 PD (_ & (T & S2 & S1) & (O1 & O2 & O3) & _). rewrite kap_sym in S1. rewrite kap_sym in S2. rewrite kap_sym in O3.
  apply kap_tang in T; auto. apply kap_ortho in O1, O2; auto. apply kap_touch in S1; auto. apply kap_touch in S2; auto. apply kap_centre in O3; auto.
  cbn [region]. repeat split; auto. exists e. auto.
Qed.

Lemma hp_bary n A c1 c2 c3 c : posc c1 -> posc c2 -> posc c3 -> cr c <= cr c1 -> cr c <= cr c2 -> cr c <= cr c3 ->
  inside_triangle (cO c1) (cO c2) (cO c3) (cO c) -> hp n A c1 -> hp n A c2 -> hp n A c3 -> hp n A c.
Proof.
  unfold hp, posc. intros P1 P2 P3 L1 L2 L3 (u & v & w & U & V & W & E & ->) H1 H2 H3.
  replace (sdot n (vsub (bary u v w (cO c1) (cO c2) (cO c3)) A)) with
    (u * sdot n (vsub (cO c1) A) + v * sdot n (vsub (cO c2) A) + w * sdot n (vsub (cO c3) A))
    by (assert (u = 1 - v - w) by lra; subst u; unfold bary; unspec; ring).
  assert (0 <= u * (sdot n (vsub (cO c1) A) - cr c)) by (apply Rmult_le_pos; lra).
  assert (0 <= v * (sdot n (vsub (cO c2) A) - cr c)) by (apply Rmult_le_pos; lra).
  assert (0 <= w * (sdot n (vsub (cO c3) A) - cr c)) by (apply Rmult_le_pos; lra).
  assert (cr c = u * cr c + v * cr c + w * cr c) by (rewrite <- !Rmult_plus_distr_r, E; ring). lra.
Qed.

Lemma vnew_vb v1 v2 v3 vD : vb (vnew v1 v2 v3 vD) = vb v1 + vb v2 + vb v3 + 2 * vb vD.
Proof. unfold vnew. rewrite !vb_add. ring. Qed.

Lemma innerSoddy_step c1 c2 c3 D : region (CCC c1 c2 c3) D -> exists c hs,
  innerSoddyCircle c1 c2 c3 = Ok (c, hs) /\ step_ok (CCC c1 c2 c3) D c hs.
Proof.
  intros (P1 & P2 & P3 & PD & T12 & T23 & T13 & O1 & O2 & O3).
  destruct (innerSoddy_new c1 c2 c3 D P1 P2 P3 PD T12 T23 T13 O1 O2 O3) as (c & E & Pc & V & In0).
  pose proof (ccc_triple c1 c2 c3 D P1 P2 P3 PD T12 T23 T13 O1 O2 O3) as T.
  pose proof (triple_new _ _ _ _ T) as (_ & N1 & N2 & N3 & ND & NB). cbv zeta in *. rewrite <- V in *.
  apply kap_tang in N1, N2, N3; auto.
  destruct (triple_geom _ _ _ _ _ PD Pc T V) as (IcD & D12 & D23 & D13 & (P12 & P23 & P13) & _ & (I12 & I23 & I13) & (J1 & J2 & J3) & (C12 & C23 & C13) & K12 & K23 & K13).
  eexists c, _. split; [exact E|]. unfold step_ok. cbn [members sides]. rewrite !Forall_3.
  split; [auto|]. split; [auto|]. split; [auto|]. split; [constructor|]. split.
  - intros n A U. rewrite Forall_3. intros (Q1 & Q2 & Q3) _. apply (hp_bary n A c1 c2 c3); auto; apply rad_le; auto; rewrite V, vnew_vb, !vb_vc;
      unfold posc in *; pose proof (Rinv_0_lt_compat _ P1); pose proof (Rinv_0_lt_compat _ P2); pose proof (Rinv_0_lt_compat _ P3); pose proof (Rinv_0_lt_compat _ PD); lra.
  - exists (CCC c c1 c2), (CCC c c2 c3), (CCC c c1 c3), D12, D23, D13. split; [reflexivity|].
    split; [apply region_CCC; auto|]. split; [apply region_CCC; auto|]. split; [apply region_CCC; auto|].
    do 6 (split; [auto using disj_sym|]).
    assert (X12 : disj D12 c3) by (apply kap_disj; auto; lra). assert (X23 : disj D23 c1) by (apply kap_disj; auto; lra). assert (X13 : disj D13 c2) by (apply kap_disj; auto; lra).
    intros h' D' [Q|[Q|[Q|[]]]]; injection Q as <- <-; cbn [members]; (split; [left; auto|]); (split; [intros w; cbn [In]; tauto|]); (split; [intros w [<-|[<-|[<-|[]]]]; cbn [In]; auto|]); cbn [corners okside]; split; auto using incl_refl.
Qed.
