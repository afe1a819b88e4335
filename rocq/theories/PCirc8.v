(** * Proofs about examples/triangularCircularGasket.py: the whole picture. *)

From Coq Require Import Reals Lra Lia Psatz List Bool Permutation.
From Verif Require Import Base BaseLemmas Spec SpecLemmas SpecTriangle SpecGasket SpecApollonian ModelInternal ModelLine ModelCircle ModelTriangle ModelInversion ModelTangentCircles ModelApollonian ModelGasket ModelCircular PCircle PInvBase PInversion PTriangle PTriangle2 PTriangle3 PTriangle4 PTriangle5 PSteiner PSteiner2 PGasket1 PGasket5 PGasket10 PGasket14 PApo1 PApo2 PApo3 PApo4 PApo5 PCirc3 PCirc5.
Import ListNotations.
Local Open Scope R_scope.

Lemma disc_inner c c0 : 0 < cr c -> disc_in_disc c c0 -> dist (cO c) (cO c0) + cr c <= cr c0.
Proof.
  intros P H. pose proof (dist_nonneg (cO c) (cO c0)) as Dn. destruct (Req_dec (dist (cO c) (cO c0)) 0) as [Z|Z].
  - apply dist_0 in Z. pose proof (H (vadd (cO c) (cr c, 0))) as Q. unfold in_disk in Q.
    assert (E : dist (cO c) (vadd (cO c) (cr c, 0)) = cr c) by (apply Rsqr_inj; [apply dist_nonneg|lra|]; unfold Rsqr; rewrite dist_sq; unfold dist2, vadd, vsub, sdot; destruct (cO c); cbn [fst snd]; ring).
    rewrite <- Z, E in Q. rewrite <- Z, (proj2 (dist_0 _ _) eq_refl). lra.
  - set (d := dist (cO c) (cO c0)) in *. pose proof (H (vadd (cO c) (vscal (cr c / d) (vsub (cO c) (cO c0))))) as Q. unfold in_disk in Q. pose proof (dist_sq (cO c) (cO c0)) as Sq. fold d in Sq.
    assert (E1 : dist (cO c) (vadd (cO c) (vscal (cr c / d) (vsub (cO c) (cO c0)))) = cr c).
    { apply Rsqr_inj; [apply dist_nonneg|lra|]. unfold Rsqr. rewrite dist_sq. transitivity (cr c / d * (cr c / d) * dist2 (cO c) (cO c0)); [unfold dist2, vadd, vscal, vsub, sdot; destruct (cO c), (cO c0); cbn [fst snd]; ring|]. rewrite <- Sq. field. auto. }
    assert (E2 : dist (cO c0) (vadd (cO c) (vscal (cr c / d) (vsub (cO c) (cO c0)))) = d + cr c).
    { apply Rsqr_inj; [apply dist_nonneg|lra|]. unfold Rsqr. rewrite dist_sq. transitivity ((1 + cr c / d) * (1 + cr c / d) * dist2 (cO c) (cO c0)); [unfold dist2, vadd, vscal, vsub, sdot; destruct (cO c), (cO c0); cbn [fst snd]; ring|]. rewrite <- Sq. field. auto. }
    rewrite E1, E2 in Q. lra.
Qed.
Lemma nested_apart c c0 h : 0 < cr c -> disc_in_disc c c0 -> not_overlapping c0 h -> not_overlapping c h.
Proof. intros P H N. apply disc_inner in H; auto. unfold not_overlapping in *. pose proof (dist_triangle (cO c0) (cO c) (cO h)) as T. rewrite (dist_sym (cO c0) (cO c)) in T. lra. Qed.
Lemma no_sym c h : not_overlapping c h -> not_overlapping h c.
Proof. unfold not_overlapping. rewrite dist_sym. lra. Qed.

Lemma touches_incl A B C l l' c : incl l l' -> touches_three A B C l c -> touches_three A B C l' c.
Proof.
  intros I [(c1 & c2 & c3 & J & H)|[(c1 & c2 & P & Q & V & J & H)|(c1 & P & Q & V & J & H)]].
  - left. exists c1, c2, c3. split; [eapply incl_tran; eauto|auto].
  - right; left. exists c1, c2, P, Q, V. split; [eapply incl_tran; eauto|auto].
  - right; right. exists c1, P, Q, V. split; auto.
Qed.
Lemma touches_in_incl c0 l l' c : incl l l' -> touches_three_in c0 l c -> touches_three_in c0 l' c.
Proof.
  intros I [(c1 & c2 & c3 & J & H)|(c1 & c2 & J & H)].
  - left. exists c1, c2, c3. split; [eapply incl_tran; eauto|auto].
  - right. exists c1, c2. split; [eapply incl_tran; eauto|auto].
Qed.

Lemma gens_count n d (gens : list (list circle)) : (3 <= n)%nat -> length gens = S d -> length (nth 0 gens []) = (n + 1)%nat -> (forall i, (1 <= i < S d)%nat -> length (nth i gens []) = (n ^ i * (n - 1))%nat) ->
  length (concat gens) = (n ^ S d + 1)%nat.
Proof.
  intros Hn. revert gens. induction d as [|d IH]; intros gens L L0 Li.
  - destruct gens as [|g [|]]; try discriminate. cbn [nth concat] in *. rewrite app_nil_r, L0. simpl. lia.
  - destruct (exists_last (l := gens)) as (gs & g & ->); [intros ->; discriminate|]. rewrite app_length in L. cbn [length] in L. rewrite concat_app, app_length. cbn [concat]. rewrite app_nil_r.
    rewrite IH; [|lia| |].
    + pose proof (Li (S d) ltac:(lia)) as Q. rewrite app_nth2 in Q by lia. replace (S d - length gs)%nat with 0%nat in Q by lia. cbn [nth] in Q. rewrite Q. replace (n ^ S (S d))%nat with (n * n ^ S d)%nat by reflexivity. set (k := (n ^ S d)%nat). replace (k * (n - 1))%nat with (k * n - k)%nat by (rewrite Nat.mul_sub_distr_l; lia). assert (k <= k * n)%nat by nia. nia.
    + rewrite app_nth1 in L0 by lia. auto.
    + intros i Hi. rewrite <- (Li i) by lia. rewrite app_nth1 by lia. auto.
Qed.

Lemma holes_draw A B C depth cA cB cC T h : malfatti_circles (mkTri A B C) = Ok (Some ((cA, cB, cC), T)) -> drawTriangularGasket_holes A B C depth = Ok h -> drawTriangularGasket A B C depth = Ok (cA :: cB :: cC :: h).
Proof.
  intros E H. unfold drawTriangularGasket_holes in H. unfold drawTriangularGasket. rewrite E in *. cbn [bind] in *. apply bind_Ok in H. destruct H as (first & -> & H). cbn [bind]. apply bind_Ok in H. destruct H as (l & -> & H). injection H as <-. reflexivity.
Qed.
Lemma draw_holes A B C depth cA cB cC T l : malfatti_circles (mkTri A B C) = Ok (Some ((cA, cB, cC), T)) -> drawTriangularGasket A B C depth = Ok l -> exists h, drawTriangularGasket_holes A B C depth = Ok h.
Proof.
  intros E H. unfold drawTriangularGasket_holes. unfold drawTriangularGasket in H. rewrite E in *. cbn [bind] in *. apply bind_Ok in H. destruct H as (first & -> & H). cbn [bind]. apply bind_Ok in H. destruct H as (l' & -> & H). cbn [bind]. eauto.
Qed.

Lemma picture_spec A B C depth n1 n2 n3 depth2 phi1 phi2 phi3 shift l cA cB cC T : ~ collinear A B C -> (3 <= n1)%nat -> (3 <= n2)%nat -> (3 <= n3)%nat -> (1 <= depth2)%nat ->
  malfatti_circles (mkTri A B C) = Ok (Some ((cA, cB, cC), T)) -> circular_picture A B C depth n1 n2 n3 depth2 phi1 phi2 phi3 shift = Ok l ->
  Forall (fun c => 0 < cr c) l /\ Forall (disc_in_triangle A B C) l /\ ForallOrdPairs not_overlapping l /\
  (2 * length l + 1 = 7 * 3 ^ S depth + 2 * (n1 ^ depth2 + n2 ^ depth2 + n3 ^ depth2))%nat /\
  forall c, In c l -> touches_three A B C ([cA; cB; cC] ++ l) c \/ touches_three_in cA l c \/ touches_three_in cB l c \/ touches_three_in cC l c.
Proof.
  intros N H1 H2 H3 Hd EM E. unfold circular_picture in E. rewrite EM in E. cbn [bind] in E. apply bind_Ok in E. destruct E as (h & Eh & E). apply bind_Ok in E. destruct E as (gA & EA & E). apply bind_Ok in E. destruct E as (gB & EB & E). apply bind_Ok in E. destruct E as (gC & EC & E). injection E as <-.
  pose proof (holes_draw _ _ _ _ _ _ _ _ _ EM Eh) as Ed. destruct (draw_spec A B C depth N) as [F|(L & EL & PL & NL & TL & CL & TT)]; [rewrite Ed in F; discriminate|]. rewrite Ed in EL. injection EL as <-.
  destruct (malfatti_inside _ _ _ _ _ _ _ N EM) as (MA & MB & MC).
  inversion PL as [|? ? PA PL1]; subst. inversion PL1 as [|? ? PB PL2]; subst. inversion PL2 as [|? ? PC PLh]; subst. clear PL PL1 PL2.
  inversion TL as [|? ? _ TL1]; subst. inversion TL1 as [|? ? _ TL2]; subst. inversion TL2 as [|? ? _ TLh]; subst. clear TL TL1 TL2.
  inversion NL as [|? ? NA NL1]; subst. inversion NL1 as [|? ? NB NL2]; subst. inversion NL2 as [|? ? NC NLh]; subst. clear NL NL1 NL2.
  inversion NA as [|? ? NAB NA1]; subst. inversion NA1 as [|? ? NAC NAh]; subst. inversion NB as [|? ? NBC NBh]; subst. clear NA NA1 NB.
  destruct (circular_packing cA n1 depth2 phi1 shift gA H1 PA Hd EA) as (LA & LA0 & LAi & FA & OA & RA). destruct (circular_packing cB n2 depth2 phi2 shift gB H2 PB Hd EB) as (LB & LB0 & LBi & FB & OB & RB). destruct (circular_packing cC n3 depth2 phi3 shift gC H3 PC Hd EC) as (LC & LC0 & LCi & FC & OC & RC).
  assert (X : forall c0 g, Forall (fun c => 0 < cr c /\ disc_in_disc c c0) (concat g) -> disc_in_triangle A B C c0 -> Forall (fun c => 0 < cr c) (concat g) /\ Forall (disc_in_triangle A B C) (concat g)).
  { intros c0 g F I. split; (eapply Forall_impl; [|exact F]); intros c (Q1 & Q2); auto. intros M HM. apply I, Q2. exact HM. }
  destruct (X _ _ FA MA) as (XA1 & XA2). destruct (X _ _ FB MB) as (XB1 & XB2). destruct (X _ _ FC MC) as (XC1 & XC2).
  assert (Y : forall c0 g (l : list circle), Forall (fun c => 0 < cr c /\ disc_in_disc c c0) (concat g) -> Forall (not_overlapping c0) l -> forall c h, In h l -> In c (concat g) -> not_overlapping c h).
  { intros c0 g l' F G c h' J1 J2. rewrite Forall_forall in F, G. destruct (F c J2) as (Q1 & Q2). apply (nested_apart c c0); auto. }
  assert (Z : forall ca cb ga gb, Forall (fun c => 0 < cr c /\ disc_in_disc c ca) (concat ga) -> Forall (fun c => 0 < cr c /\ disc_in_disc c cb) (concat gb) -> not_overlapping ca cb -> forall c h, In c (concat ga) -> In h (concat gb) -> not_overlapping c h).
  { intros ca cb ga gb Fa Fb Q c h' J1 J2. rewrite Forall_forall in Fa, Fb. destruct (Fa c J1) as (Q1 & Q2). destruct (Fb h' J2) as (Q3 & Q4). apply (nested_apart c ca); auto. apply no_sym, (nested_apart h' cb); auto. apply no_sym. auto. }
  split; [rewrite !Forall_app; auto|]. split; [rewrite !Forall_app; auto|]. split; [|split].
  - rewrite !FOP_app. repeat split; auto.
    + intros c h' J1 J2. apply (Z cB cC gB gC); auto.
    + intros c h' J1 J2. rewrite in_app_iff in J2. destruct J2 as [J2|J2]; [apply (Z cA cB gA gB); auto|apply (Z cA cC gA gC); auto].
    + intros h' c J1 J2. apply no_sym. rewrite !in_app_iff in J2. destruct J2 as [J2|[J2|J2]]; [apply (Y cA gA h); auto|apply (Y cB gB h); auto|apply (Y cC gC h); auto].
  - cbn [length] in CL. rewrite !app_length. destruct depth2 as [|d]; [lia|]. rewrite (gens_count n1 d gA), (gens_count n2 d gB), (gens_count n3 d gC) by auto. clear - CL. lia.
  - intros c J. rewrite !in_app_iff in J. set (l := h ++ concat gA ++ concat gB ++ concat gC).
    assert (W : forall c0 g, incl (concat g) l -> (forall i c, In c (nth i g []) -> touches_three_in c0 (concat (firstn (S i) g)) c) -> In c (concat g) -> touches_three_in c0 l c).
    { intros c0 g I R K. apply in_concat in K. destruct K as (x & K1 & K2). destruct (In_nth _ _ [] K1) as (i & Hi & Ei). apply (touches_in_incl c0 (concat (firstn (S i) g))); [|apply R; rewrite Ei; auto].
      intros y Q. apply I. rewrite <- (firstn_skipn (S i) g), concat_app, in_app_iff. auto. }
    destruct J as [J|[J|[J|J]]].
    + left. destruct (in_split _ _ J) as (l1 & l2 & E). apply (touches_incl A B C (cA :: cB :: cC :: l1)).
      * intros y Q. cbn [In app] in *. destruct Q as [Q|[Q|[Q|Q]]]; auto. right; right; right. unfold l. rewrite E, !in_app_iff. auto.
      * apply (TT _ c l2); [rewrite E; reflexivity|cbn [length]; lia].
    + right; left. apply (W cA gA); auto. intros y Q. unfold l. rewrite !in_app_iff. auto.
    + right; right; left. apply (W cB gB); auto. intros y Q. unfold l. rewrite !in_app_iff. auto.
    + right; right; right. apply (W cC gC); auto. intros y Q. unfold l. rewrite !in_app_iff. auto.
Qed.
