(** * Packings of the unit disc moved by a Möbius transformation that preserves the disc. *)

From Coq Require Import Reals Lra Lia Psatz List Bool ZArith.
From Verif Require Import Base BaseLemmas Spec SpecLemmas SpecMobius SpecTriangle SpecGasket SpecApollonian ModelInternal ModelLine ModelCircle ModelTriangle ModelInversion ModelMobius ModelModular
  PLine PCircle PMobius PMobius2 PMobius3 PMobius4 PSteiner PDisc PModular3.
Import ListNotations.
Local Open Scope R_scope.

Definition unitc : circle := mkCircle (0, 0) 1.
Lemma unit_cls z : in_disk (cO unitc) (cr unitc) z <-> Cmod2 z <= 1.
Proof. rewrite <- cls_in_disk by (cbn [unitc cr]; lra). unfold cls, unitc, Cmod2. cbn [cO cr]. destruct z. unspec. simpl. split; intros; nra. Qed.

(** [M] is invertible, preserves the closed unit disc and its boundary *)
Definition keeps_disc (M : mobius) : Prop := mdet M <> C0 /\ forall z, Cmod2 z <= 1 -> exists w, transform M (Pt z) = Ok (Pt w) /\ Cmod2 w <= 1 /\ (Cmod2 z = 1 -> Cmod2 w = 1).

Definition dimg (M : mobius) (c c' : circle) : Prop := 0 < cr c /\ disc_in_disc c unitc /\ 0 < cr c' /\
  (forall w, opn c' w <-> exists z, opn c z /\ transform M (Pt z) = Ok (Pt w)) /\ (forall w, cls c' w <-> exists z, cls c z /\ transform M (Pt z) = Ok (Pt w)).

Section Keep.
Variable M : mobius.
Hypothesis KD : keeps_disc M.

Lemma cls_unit c z : disc_in_disc c unitc -> 0 < cr c -> cls c z -> Cmod2 z <= 1.
Proof. intros H P Hz. apply unit_cls, H. apply cls_in_disk; auto. Qed.

Lemma dimg_exists fuel c : 0 < cr c -> disc_in_disc c unitc -> exists c', transform_circle fuel M c = Some (Ok (GC c')) /\ dimg M c c'.
Proof.
  intros P D. destruct KD as (HM & K). destruct (disc_image fuel M c HM P) as (c' & E & P' & H1 & H2).
  - intros z Hz Z. apply transform_pole in Z; auto. destruct (K z (cls_unit c z D P Hz)) as (w & Ew & _). rewrite Z in Ew. discriminate.
  - exists c'. split; [exact E|]. unfold dimg. auto.
Qed.

Lemma dimg_in c c' : dimg M c c' -> disc_in_disc c' unitc.
Proof.
  intros (P & D & P' & _ & H) w Hw. apply cls_in_disk in Hw; auto. apply H in Hw. destruct Hw as (z & Hz & E). destruct KD as (HM & K). destruct (K z (cls_unit c z D P Hz)) as (w' & E' & L & _). rewrite E in E'. injection E' as <-. apply unit_cls, L.
Qed.

Lemma opn_common c d w : not_overlapping c d -> 0 < cr c -> 0 < cr d -> opn c w -> opn d w -> False.
Proof.
  intros N P P' H H'. apply opn_dist in H; auto. apply opn_dist in H'; auto. unfold not_overlapping in N. pose proof (dist_triangle (cO c) w (cO d)) as T. rewrite (dist_sym w (cO d)) in T. lra.
Qed.
Lemma dimg_overlap c c' d d' : dimg M c c' -> dimg M d d' -> not_overlapping c d -> not_overlapping c' d'.
Proof.
  intros (P & _ & P' & H & _) (Q & _ & Q' & H' & _) N. apply opn_disjoint; auto. intros w Hw Hw'. apply H in Hw. apply H' in Hw'. destruct Hw as (z & Hz & E), Hw' as (z' & Hz' & E'). destruct KD as (HM & _).
  pose proof (transform_inj M _ _ _ HM E E') as X. injection X as <-. exact (opn_common c d z N P Q Hz Hz').
Qed.
Lemma touch_point c d : circles_touch c d -> 0 < cr c -> 0 < cr d -> exists z, cls c z /\ cls d z.
Proof.
  intros T P Q. unfold circles_touch, ext_tangent in T. set (s := cr c / (cr c + cr d)). assert (Es : s * (cr c + cr d) = cr c) by (unfold s; field; lra).
  exists (vadd (cO c) (vscal s (vsub (cO d) (cO c)))). assert (S2 : dist2 (cO c) (cO d) = (cr c + cr d) * (cr c + cr d)) by (rewrite <- dist_sq, T; auto). unfold cls. split.
  - replace (dist2 (cO c) _) with (s * s * dist2 (cO c) (cO d)) by (destruct (cO c), (cO d); unspec; simpl; ring). rewrite S2. replace (s * s * ((cr c + cr d) * (cr c + cr d))) with ((s * (cr c + cr d)) * (s * (cr c + cr d))) by ring. rewrite Es. lra.
  - replace (dist2 (cO d) _) with ((1 - s) * (1 - s) * dist2 (cO c) (cO d)) by (destruct (cO c), (cO d); unspec; simpl; ring). rewrite S2. replace ((1 - s) * (1 - s) * ((cr c + cr d) * (cr c + cr d))) with (((cr c + cr d) - s * (cr c + cr d)) * ((cr c + cr d) - s * (cr c + cr d))) by ring. rewrite Es. nra.
Qed.
Lemma dimg_cls c c' z : dimg M c c' -> cls c z -> exists w, transform M (Pt z) = Ok (Pt w) /\ cls c' w /\ (Cmod2 z = 1 -> Cmod2 w = 1).
Proof.
  intros (P & D & P' & _ & H) Hz. destruct KD as (HM & K). destruct (K z (cls_unit c z D P Hz)) as (w & E & _ & B). exists w. split; [auto|]. split; [apply H; eauto|auto].
Qed.
Lemma dimg_touch c c' d d' : dimg M c c' -> dimg M d d' -> circles_touch c d -> circles_touch c' d'.
Proof.
  intros H H' T. pose proof H as (P & _ & P' & _). pose proof H' as (Q & _ & Q' & _). assert (N : not_overlapping c d) by (unfold circles_touch, ext_tangent, not_overlapping in *; lra).
  pose proof (dimg_overlap c c' d d' H H' N) as N'. destruct (touch_point c d T P Q) as (z & Z1 & Z2). destruct (dimg_cls c c' z H Z1) as (w & E & W1 & _). destruct (dimg_cls d d' z H' Z2) as (w' & E' & W2 & _). rewrite E in E'. injection E' as <-.
  pose proof (cls_common c' d' w P' Q' W1 W2). unfold circles_touch, ext_tangent, not_overlapping in *. lra.
Qed.
Lemma dimg_inside c c' : dimg M c c' -> touches_inside c unitc -> touches_inside c' unitc.
Proof.
  intros H T. pose proof H as (P & D & P' & _). unfold touches_inside in *. cbn [unitc cO cr] in *.
  destruct (ray_point (0, 0) (cO c) (cr c)) as (z & E1 & E2); [lra|]. assert (Z : cls c z) by (unfold cls; rewrite <- dist_sq, E1; lra).
  assert (S : forall x, dist (0, 0) x * dist (0, 0) x = Cmod2 x) by (intros x; rewrite dist_sq; unfold Cmod2; destruct x; unspec; simpl; ring).
  assert (N1 : Cmod2 z = 1) by (rewrite <- S, E2, T; ring). destruct (dimg_cls c c' z H Z) as (w & E & W & B). specialize (B N1).
  assert (Dw : dist (0, 0) w = 1) by (pose proof (S w); pose proof (dist_nonneg (0, 0) w); nra).
  apply cls_in_disk in W; auto. unfold in_disk in W. pose proof (dist_triangle (0, 0) (cO c') w).
  destruct (ray_point (0, 0) (cO c') (cr c')) as (q & Q1 & Q2); [lra|]. assert (Hq : in_disk (cO c') (cr c') q) by (unfold in_disk; lra).
  apply (dimg_in c c' H) in Hq. unfold in_disk in Hq. cbn [unitc cO cr] in Hq. lra.
Qed.
Lemma dimg_inj c d k : dimg M c k -> dimg M d k -> c = d.
Proof.
  intros (P & Dc & P' & H & _) (Q & Dd & Q' & H' & _). apply disc_ext; auto. destruct KD as (HM & K).
  assert (S : forall x y, 0 < cr x -> disc_in_disc x unitc -> (forall w, opn k w <-> exists z, opn x z /\ transform M (Pt z) = Ok (Pt w)) -> (forall w, opn k w <-> exists z, opn y z /\ transform M (Pt z) = Ok (Pt w)) -> forall z, opn x z -> opn y z).
  { intros x y Px Dx Hx Hy z Hz. destruct (K z (cls_unit x z Dx Px (opn_cls _ _ Hz))) as (w & E & _). assert (W : opn k w) by (apply Hx; eauto). apply Hy in W. destruct W as (z' & Hz' & E'). pose proof (transform_inj M _ _ _ HM E E') as X. injection X as <-. auto. }
  intros z. split; [apply (S c d)|apply (S d c)]; auto.
Qed.
Lemma dimg_unique c k k' : dimg M c k -> dimg M c k' -> k = k'.
Proof. intros (_ & _ & P & H & _) (_ & _ & P' & H' & _). apply disc_ext; auto. intros z. rewrite H, H'. tauto. Qed.

(** ** lists *)
Lemma Forall2_concat {X Y} (P : X -> Y -> Prop) ls ls' : Forall2 (Forall2 P) ls ls' -> Forall2 P (concat ls) (concat ls').
Proof. induction 1; cbn [concat]; [constructor|]. apply Forall2_app; auto. Qed.
Lemma Forall2_firstn {X Y} (P : X -> Y -> Prop) i ls ls' : Forall2 P ls ls' -> Forall2 P (firstn i ls) (firstn i ls').
Proof. intros H. revert i. induction H; intros [|i]; cbn [firstn]; constructor; auto. Qed.
Lemma Forall2_len {X Y} (P : X -> Y -> Prop) l l' : Forall2 P l l' -> length l = length l'.
Proof. induction 1; cbn [length]; auto. Qed.
Lemma Forall2_nth_nil {X Y} (P : X -> Y -> Prop) i ls ls' : Forall2 (Forall2 P) ls ls' -> Forall2 P (nth i ls []) (nth i ls' []).
Proof. intros H. revert i. induction H; intros [|i]; cbn [nth]; auto. Qed.
Lemma FOP_Forall2 {X Y} (P : X -> Y -> Prop) (Q : X -> X -> Prop) (Q' : Y -> Y -> Prop) l l' : (forall a b a' b', P a a' -> P b b' -> Q a b -> Q' a' b') -> Forall2 P l l' -> ForallOrdPairs Q l -> ForallOrdPairs Q' l'.
Proof.
  intros T F. induction F as [|a a' l l' Ha F IH]; intros O; [constructor|]. inversion O as [|x y O1 O2]; subst. constructor; [|auto].
  apply Forall_forall. intros b' I. destruct (Forall2_In_r _ _ _ _ F I) as (b & Ib & Hb). rewrite Forall_forall in O1. apply (T a b); auto.
Qed.

Lemma dimg_three l l' c c' : Forall2 (dimg M) l l' -> dimg M c c' -> touches_three_in unitc l c -> touches_three_in unitc l' c'.
Proof.
  intros F H.
  assert (G : forall k, In k l -> exists k', In k' l' /\ dimg M k k') by (intros k I; exact (Forall2_In_l _ _ _ _ F I)).
  assert (Ne : forall a b a' b', dimg M a a' -> dimg M b b' -> a <> b -> a' <> b') by (intros a b a' b' Ha Hb N ->; apply N; exact (dimg_inj a b b' Ha Hb)).
  intros [(c1 & c2 & c3 & I & ND & T1 & T2 & T3)|(c1 & c2 & I & N & T1 & T2 & T3)].
  - left. destruct (G c1) as (k1 & I1 & K1); [apply I; left; auto|]. destruct (G c2) as (k2 & I2 & K2); [apply I; right; left; auto|]. destruct (G c3) as (k3 & I3 & K3); [apply I; right; right; left; auto|].
    exists k1, k2, k3. split; [intros x [<-|[<-|[<-|[]]]]; auto|]. split.
    + inversion ND as [|x xs N1 ND2]; subst. inversion ND2 as [|y ys N2 ND3]; subst. constructor; [|constructor; [|constructor; [intros []|constructor]]].
      * intros [E|[E|[]]]; revert E; [apply (Ne c2 c1); auto; intros ->; apply N1; left; auto|apply (Ne c3 c1); auto; intros ->; apply N1; right; left; auto].
      * intros [E|[]]; revert E. apply (Ne c3 c2); auto. intros ->. apply N2. left; auto.
    + split; [apply (dimg_touch c c' c1 k1); auto|]. split; [apply (dimg_touch c c' c2 k2); auto|apply (dimg_touch c c' c3 k3); auto].
  - right. destruct (G c1) as (k1 & I1 & K1); [apply I; left; auto|]. destruct (G c2) as (k2 & I2 & K2); [apply I; right; left; auto|].
    exists k1, k2. split; [intros x [<-|[<-|[]]]; auto|]. split; [apply (Ne c1 c2); auto|]. split; [apply (dimg_touch c c' c1 k1); auto|]. split; [apply (dimg_touch c c' c2 k2); auto|apply (dimg_inside c c'); auto].
Qed.

Lemma picture_total fuel gens : Forall (fun c => 0 < cr c /\ disc_in_disc c unitc) (concat gens) ->
  exists pic, in_turn (map (fun circles => in_turn (map (fun circ => the_drawn (transform_circle fuel M circ)) circles)) gens) = Some (Ok pic) /\ Forall2 (Forall2 (dimg M)) gens pic.
Proof.
  intros F. apply in_turn_rel. intros cs Ics. apply in_turn_rel. intros c Ic. rewrite Forall_forall in F. destruct (F c) as (P & D); [apply in_concat; eauto|].
  destruct (dimg_exists fuel c P D) as (c' & E & H). rewrite E. cbn [the_drawn]. eauto.
Qed.
End Keep.
