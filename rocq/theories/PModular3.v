(** * The modular tessellation: which matrices are used, and what is drawn. *)

From Coq Require Import Reals Lra Lia Psatz List Bool ZArith.
From Verif Require Import Base BaseLemmas Spec SpecLemmas SpecMobius SpecTriangle SpecGasket ModelInternal ModelLine ModelCircle ModelTriangle ModelInversion ModelMobius ModelFarey ModelModular
  PMobius PMobius2 PMobius3 PMobius4 PFarey PDisc PModular1 PModular2.
Import ListNotations.

(** ** integer matrices *)
Section Z.
Local Open Scope Z_scope.
Definition pm (x y : zmat) : Prop := x = y \/ x = zopp y.
Definition zneg (m : zmat) : zmat := mkZM (- m11 m) (m12 m) (m21 m) (- m22 m).
Definition zswap (m : zmat) : zmat := mkZM (m22 m) (m12 m) (m21 m) (m11 m).
Definition base4 (m : zmat) : list zmat := [m; zadj m; zneg m; zadj (zneg m)].
Definition loop_z (m : zmat) : list zmat := base4 m ++ if m11 (zneg m) =? m22 (zneg m) then [] else [zswap (zneg m); zadj (zswap (zneg m))].
Definition near (M g : zmat) : Prop := pm g M \/ pm g (zmul M zT) \/ pm g (zmul zT M) \/ pm g (zmul (zmul zT M) zT).
Definition hits (ms : list zmat) (g : zmat) : Prop := exists m M, In m ms /\ In M (base4 m) /\ near M g.
Definition bnd (n : Z) (m : zmat) : Prop := Z.abs (m11 m) <= n /\ Z.abs (m12 m) <= n /\ Z.abs (m21 m) <= n /\ Z.abs (m22 m) <= n.

Ltac zm := unfold near, pm, base4, zneg, zswap, zadj, zopp, zmul, zT, zdet, bnd in *; cbn [m11 m12 m21 m22] in *.
Ltac zq := f_equal; ring.
Lemma zm_inj a b c d a' b' c' d' : mkZM a b c d = mkZM a' b' c' d' -> a = a' /\ b = b' /\ c = c' /\ d = d'.
Proof. intros H. injection H. auto. Qed.

Lemma loop_z_eq m : loop_matrices m = map zmob (loop_z m).
Proof.
  unfold loop_matrices, loop_z, base4. rewrite map_app. cbn [map]. rewrite !zmob_inverse. f_equal. change (m11 _) with (m11 (zneg m)) at 1. change (mkZM (- m11 m) (m12 m) (m21 m) (- m22 m)) with (zneg m).
  destruct (m11 (zneg m) =? m22 (zneg m)); cbn [map]; [reflexivity|]. reflexivity.
Qed.

Lemma pm_sym x y : pm x y -> pm y x.
Proof. destruct x, y. zm. intros [H|H]; injection H as -> -> -> ->; [left|right]; zq. Qed.
Lemma pm_trans x y z : pm x y -> pm y z -> pm x z.
Proof. destruct x, y, z. zm. intros [H|H] [K|K]; injection H as -> -> -> ->; injection K as -> -> -> ->; [left|right|right|left]; zq. Qed.
Lemma pm_mul x y : pm x y -> pm (zmul x zT) (zmul y zT) /\ pm (zmul zT x) (zmul zT y).
Proof. destruct x, y. zm. intros [H|H]; injection H as -> -> -> ->; split; ((left; zq) || (right; zq)). Qed.
Lemma near_pm M M' g : pm M M' -> near M g -> near M' g.
Proof.
  intros H. pose proof (pm_mul _ _ H) as (H1 & H2). pose proof (proj1 (pm_mul _ _ H2)) as H3. unfold near. intros [K|[K|[K|K]]].
  - left. eapply pm_trans; eauto.
  - right; left. eapply pm_trans; eauto.
  - right; right; left. eapply pm_trans; eauto.
  - right; right; right. eapply pm_trans; eauto.
Qed.
Lemma near_T M g : near (zmul zT M) g -> near M g.
Proof.
  assert (E : pm (zmul zT (zmul zT M)) M) by (destruct M; zm; right; zq). pose proof (proj1 (pm_mul _ _ E)) as E2. unfold near. intros [K|[K|[K|K]]]; auto.
  - left. eapply pm_trans; eauto.
  - right; left. eapply pm_trans; eauto.
Qed.
Lemma near_opp_T M g : near M (zmul zT g) -> near M g.
Proof.
  assert (S : forall x, pm (zmul zT g) x -> pm g (zmul zT x)).
  { intros x H. apply pm_mul in H. destruct H as (_ & H). apply (pm_trans _ (zmul zT (zmul zT g))); [|exact H]. destruct g; zm; right; zq. }
  assert (A : zmul zT (zmul M zT) = zmul (zmul zT M) zT) by (destruct M; zm; zq).
  assert (B : pm (zmul zT (zmul zT M)) M) by (destruct M; zm; right; zq).
  assert (D : pm (zmul zT (zmul (zmul zT M) zT)) (zmul M zT)) by (destruct M; zm; right; zq).
  unfold near. intros [K|[K|[K|K]]]; apply S in K.
  - auto.
  - rewrite A in K. auto.
  - left. eapply pm_trans; eauto.
  - right; left. eapply pm_trans; eauto.
Qed.

Lemma base4_det m M : zdet m = 1 -> In M (base4 m) -> zdet M = 1.
Proof. destruct m as [a b c d]. zm. intros H [<-|[<-|[<-|[<-|[]]]]]; cbn [m11 m12 m21 m22]; lia. Qed.
Lemma near_det M g : zdet M = 1 -> near M g -> zdet g = 1.
Proof. destruct M as [a b c d], g as [a' b' c' d']. zm. intros H [[K|K]|[[K|K]|[[K|K]|[K|K]]]]; apply zm_inj in K; destruct K as (-> & -> & -> & ->); (transitivity (a * d - b * c); [ring|exact H]). Qed.
Lemma hits_det ms g : (forall m, In m ms -> zdet m = 1) -> hits ms g -> zdet g = 1.
Proof. intros H (m & M & I1 & I2 & N). exact (near_det M g (base4_det m M (H m I1) I2) N). Qed.
Lemma hits_bnd n ms g : (forall m, In m ms -> bnd n m) -> hits ms g -> bnd n g.
Proof.
  intros H (m & M & I1 & I2 & N). specialize (H m I1). assert (B : bnd n M) by (destruct m as [a b c d]; zm; destruct I2 as [<-|[<-|[<-|[<-|[]]]]]; cbn [m11 m12 m21 m22]; lia). clear H I1 I2.
  destruct M as [a b c d], g as [a' b' c' d']. zm. destruct N as [[K|K]|[[K|K]|[[K|K]|[K|K]]]]; apply zm_inj in K; destruct K as (-> & -> & -> & ->); lia.
Qed.

(** the third pair of matrices adds nothing *)
Lemma loop_pm m M : In M (loop_z m) -> exists M', In M' (base4 m) /\ pm M M'.
Proof.
  unfold loop_z. rewrite in_app_iff. intros [H|H]; [exists M; split; [auto|left; auto]|]. destruct (m11 (zneg m) =? m22 (zneg m)); [destruct H|].
  destruct m as [a b c d]. destruct H as [<-|[<-|[]]].
  - exists (zadj (mkZM a b c d)). split; [unfold base4; simpl; auto|]. zm. right; zq.
  - exists (mkZM a b c d). split; [unfold base4; simpl; auto|]. zm. right; zq.
Qed.
Lemma after_pm m : (forall M, In M (base4 (loop_after m)) -> exists M', In M' (base4 m) /\ pm M M') /\ (forall M, In M (base4 m) -> exists M', In M' (base4 (loop_after m)) /\ pm M M').
Proof.
  destruct m as [a b c d]. unfold loop_after. cbn [m11 m12 m21 m22]. set (m := mkZM a b c d). destruct (- a =? - d) eqn:E.
  - assert (X : base4 (mkZM (- a) b c (- d)) = [zneg m; zadj (zneg m); m; zadj m]) by (unfold m; zm; rewrite !Z.opp_involutive; reflexivity). rewrite X. unfold base4. split; intros M H; exists M; (split; [|left; auto]); simpl in *; tauto.
  - unfold base4. split; intros M [<-|[<-|[<-|[<-|[]]]]].
    + exists (zadj m). split; [simpl; auto|]. unfold m; zm; right; zq.
    + exists m. split; [simpl; auto|]. unfold m; zm; right; zq.
    + exists (zadj (zneg m)). split; [simpl; auto|]. unfold m; zm; right; zq.
    + exists (zneg m). split; [simpl; auto|]. unfold m; zm; right; zq.
    + eexists. split; [right; left; reflexivity|]. unfold m; zm; right; zq.
    + eexists. split; [left; reflexivity|]. unfold m; zm; right; zq.
    + eexists. split; [right; right; right; left; reflexivity|]. unfold m; zm; right; zq.
    + eexists. split; [right; right; left; reflexivity|]. unfold m; zm; right; zq.
Qed.
Lemma hits_after ms g : hits (map loop_after ms) g <-> hits ms g.
Proof.
  split.
  - intros (m & M & I1 & I2 & N). apply in_map_iff in I1. destruct I1 as (m0 & <- & I1). destruct (proj1 (after_pm m0) M I2) as (M' & I3 & Q). exists m0, M'. split; [auto|]. split; [auto|]. exact (near_pm M M' g Q N).
  - intros (m & M & I1 & I2 & N). destruct (proj2 (after_pm m) M I2) as (M' & I3 & Q). exists (loop_after m), M'. split; [apply in_map; auto|]. split; [auto|]. exact (near_pm M M' g Q N).
Qed.
Lemma after_det m : zdet m = 1 -> zdet (loop_after m) = 1.
Proof. destruct m as [a b c d]. unfold loop_after. cbn [m11 m12 m21 m22]. destruct (_ =? _); zm; lia. Qed.

(** ** every matrix of determinant one with entries at most n is used *)
Lemma hits_opp ms g : hits ms (zopp g) -> hits ms g.
Proof.
  assert (S : forall x, pm (zopp g) x -> pm g x) by (intros x H; apply (pm_trans _ (zopp g)); [destruct g; zm; right; zq|exact H]).
  intros (m & M & I1 & I2 & N). exists m, M. split; [auto|]. split; [auto|]. unfold near in *. destruct N as [K|[K|[K|K]]]; apply S in K; auto.
Qed.
Lemma hits_T ms g : hits ms (zmul zT g) -> hits ms g.
Proof. intros (m & M & I1 & I2 & N). exists m, M. split; [auto|]. split; [auto|]. apply near_opp_T, N. Qed.

Section Cover.
Variables (n : Z) (L : list zmat).
Hypothesis Hn : 2 <= n.
Hypothesis HL : forall p r q s, p * s - r * q = 1 /\ 1 <= p <= n /\ 1 <= r <= n /\ 0 <= q <= p /\ 0 <= s <= r -> In (mkZM p r q s) L.
Let ms := mkZM 1 0 0 1 :: L.

Lemma dominant a b c d : a * d - b * c = 1 -> 0 < a -> 0 < d -> 0 <= b -> 0 <= c -> (b = 0 /\ c = 0 /\ a = 1 /\ d = 1) \/ (c <= a /\ d <= b /\ 1 <= b) \/ (a <= c /\ b <= d /\ 1 <= c).
Proof.
  intros H A D B C. destruct (Z.eq_dec b 0) as [->|NB].
  - assert (a = 1 /\ d = 1) as (-> & ->) by nia. destruct (Z.eq_dec c 0); [left; auto|right; right; lia].
  - destruct (Z.eq_dec c 0) as [->|NC].
    + assert (a = 1 /\ d = 1) as (-> & ->) by nia. right; left; lia.
    + right. destruct (Z_le_gt_dec c a) as [K|K].
      * destruct (Z_le_gt_dec d b) as [K2|K2]; [left; lia|right]. assert (a = c) by nia. nia.
      * right. split; [lia|]. split; [nia|lia].
Qed.

Lemma cover_pp a b c d : a * d - b * c = 1 -> 0 < a <= n -> 0 < d <= n -> 0 <= b <= n -> 0 <= c <= n -> hits ms (mkZM a b c d).
Proof.
  intros H A D B C. destruct (dominant a b c d) as [(-> & -> & -> & ->)|[(K1 & K2 & K3)|(K1 & K2 & K3)]]; try lia.
  - exists (mkZM 1 0 0 1), (mkZM 1 0 0 1). split; [left; auto|]. split; [left; auto|]. left; left; auto.
  - exists (mkZM a b c d), (mkZM a b c d). split; [right; apply HL; lia|]. split; [left; auto|]. left; left; auto.
  - exists (mkZM d c b a), (zneg (mkZM d c b a)). split; [right; apply HL; lia|]. split; [right; right; left; auto|]. right; right; right. zm. left; zq.
Qed.
Lemma cover_nn a b c d : a * d - b * c = 1 -> 0 < a <= n -> 0 < d <= n -> - n <= b <= 0 -> - n <= c <= 0 -> hits ms (mkZM a b c d).
Proof.
  intros H A D B C. destruct (dominant a (- b) (- c) d) as [(E1 & E2 & -> & ->)|[(K1 & K2 & K3)|(K1 & K2 & K3)]]; try lia.
  - assert (b = 0) by lia. assert (c = 0) by lia. subst. exists (mkZM 1 0 0 1), (mkZM 1 0 0 1). split; [left; auto|]. split; [left; auto|]. left; left; auto.
  - exists (mkZM a (- b) (- c) d), (zneg (mkZM a (- b) (- c) d)). split; [right; apply HL; lia|]. split; [right; right; left; auto|]. left. zm. right; zq.
  - exists (mkZM d (- c) (- b) a), (mkZM d (- c) (- b) a). split; [right; apply HL; lia|]. split; [left; auto|]. right; right; right. zm. right; zq.
Qed.
Lemma cover_bc a b c d : a * d - b * c = 1 -> 0 <= b * c -> bnd n (mkZM a b c d) -> hits ms (mkZM a b c d).
Proof.
  intros H BC B. zm. assert (AD : 1 <= a * d) by lia.
  assert (P : forall a b c d, a * d - b * c = 1 -> 0 <= b * c -> bnd n (mkZM a b c d) -> 0 < a -> hits ms (mkZM a b c d)).
  { clear a b c d H BC B AD. intros a b c d H BC B A. zm. assert (D : 0 < d) by nia. assert ((0 <= b /\ 0 <= c) \/ (b <= 0 /\ c <= 0)) as [(X & Y)|(X & Y)] by nia; [apply cover_pp|apply cover_nn]; lia. }
  destruct (Z_lt_le_dec 0 a); [apply P; auto; zm; lia|]. apply hits_opp. zm. apply P; zm; lia.
Qed.
Lemma cover g : zdet g = 1 -> bnd n g -> hits ms g.
Proof.
  destruct g as [a b c d]. intros H B. destruct (Z_le_gt_dec 0 (b * c)) as [K|K].
  - apply cover_bc; auto.
  - apply hits_T. zm. assert (X : mkZM (0 * a + -1 * c) (0 * b + -1 * d) (1 * a + 0 * c) (1 * b + 0 * d) = mkZM (- c) (- d) a b) by zq. rewrite X. apply cover_bc; zm; [lia|nia|lia].
Qed.
End Cover.
End Z.

Local Open Scope R_scope.

(** ** one computation after the other *)
Lemma in_turn_rel {X A} (P : X -> A -> Prop) (f : X -> option (res A)) xs : (forall x, In x xs -> exists a, f x = Some (Ok a) /\ P x a) -> exists l, in_turn (map f xs) = Some (Ok l) /\ Forall2 P xs l.
Proof.
  induction xs as [|x xs IH]; intros H; [exists []; split; [reflexivity|constructor]|]. destruct (H x (or_introl eq_refl)) as (a & Ea & Pa). destruct IH as (l & El & Pl); [intros; apply H; right; auto|].
  exists (a :: l). cbn [map in_turn]. rewrite Ea, El. split; [reflexivity|constructor; auto].
Qed.
Lemma Forall2_In_l {X A} (P : X -> A -> Prop) xs l x : Forall2 P xs l -> In x xs -> exists a, In a l /\ P x a.
Proof. induction 1 as [|y b ys bs H HF IH]; intros I; [destruct I|]. destruct I as [<-|I]; [exists b; split; [left|]; auto|]. destruct (IH I) as (a & I2 & K). exists a. split; [right|]; auto. Qed.
Lemma Forall2_In_r {X A} (P : X -> A -> Prop) xs l a : Forall2 P xs l -> In a l -> exists x, In x xs /\ P x a.
Proof. induction 1 as [|y b ys bs H HF IH]; intros I; [destruct I|]. destruct I as [<-|I]; [exists y; split; [left|]; auto|]. destruct (IH I) as (x & I2 & K). exists x. split; [right|]; auto. Qed.

Definition pairs (m : zmat) : list zmat := [m; zmul zT m].
Definition two_of (G : mobius) (m : zmat) (l : list circle) : Prop := exists c1 c2, l = [c1; c2] /\ img_of G m c1 /\ img_of G (zmul m zT) c2.

Lemma img_unique G m c c' : img_of G m c -> img_of G m c' -> c = c'.
Proof. intros (P & O & _) (P' & O' & _). apply disc_ext; auto. intros z. rewrite O, O'. tauto. Qed.
Lemma img_pm G m m' c : zdet m = 1%Z -> zdet m' = 1%Z -> pm m m' -> (img_of G m c <-> img_of G m' c).
Proof. intros D D' [->| ->]; [tauto|]. apply img_opp; auto. Qed.

Section Frame.
Variables (fuel : nat) (arg : C -> R) (eig : mobius -> C * C * mobius).
Hypothesis HA : is_arg arg.
Hypothesis HE : eig_ok eig mobR.

Lemma draw_two_ok u Ru m : gpower arg eig mobR u = Ok Ru -> half_to_disc (matmul mobPhi Ru) -> zdet m = 1%Z -> exists l, draw_two fuel arg eig circTI (zmob m) u = Some (Ok l) /\ two_of (matmul mobPhi Ru) m l.
Proof.
  intros E HG Dm. unfold draw_two. rewrite E. change (compose (compose (zmob m) Ru true) mobPhi true) with (matmul mobPhi (matmul Ru (zmob m))). rewrite <- matmul_assoc.
  destruct (img_of_exists fuel _ m HG Dm) as (c1 & E1 & H1). destruct (img_of_TI fuel _ m HG Dm) as (c2 & E2 & H2). rewrite E1, E2. cbn [the_drawn in_turn]. exists [c1; c2]. split; [reflexivity|]. exists c1, c2. auto.
Qed.

Lemma flat_draw u zs : flat_map (fun M => draw_pair fuel arg eig circTI M u) (map zmob zs) = map (fun m => draw_two fuel arg eig circTI (zmob m) u) (flat_map pairs zs).
Proof.
  induction zs as [|m zs IH]; [reflexivity|]. cbn [map flat_map]. rewrite IH. unfold draw_pair at 1, pairs at 2. cbn [app map]. change (compose (zmob m) mobT true) with (matmul mobT (zmob m)). rewrite mobT_z, zmob_mul. reflexivity.
Qed.
Lemma flat_loop ms : flat_map loop_matrices ms = map zmob (flat_map loop_z ms).
Proof. induction ms as [|m ms IH]; [reflexivity|]. cbn [flat_map]. rewrite IH, loop_z_eq, map_app. reflexivity. Qed.

Lemma loop_z_det m M : zdet m = 1%Z -> In M (loop_z m) -> zdet M = 1%Z.
Proof.
  intros D I. destruct (loop_pm m M I) as (M' & I' & Q). pose proof (base4_det m M' D I') as D'. apply (near_det M'); auto. left; auto.
Qed.

Lemma frame_ok u Ru ms : gpower arg eig mobR u = Ok Ru -> half_to_disc (matmul mobPhi Ru) -> (forall m, In m ms -> zdet m = 1%Z) ->
  exists l, draw_frame fuel arg eig circTI ms u = Some (Ok l) /\ (forall c, In c l <-> exists g, hits ms g /\ img_of (matmul mobPhi Ru) g c) /\
    exists ls, l = concat ls /\ Forall2 (two_of (matmul mobPhi Ru)) (flat_map pairs (flat_map loop_z ms)) ls.
Proof.
  intros E HG HD. set (G := matmul mobPhi Ru) in *.
  assert (DZ : forall m, In m (flat_map pairs (flat_map loop_z ms)) -> zdet m = 1%Z).
  { intros m I. apply in_flat_map in I. destruct I as (M & I & J). apply in_flat_map in I. destruct I as (m0 & I0 & I1). pose proof (loop_z_det m0 M (HD m0 I0) I1) as DM.
    destruct J as [<-|[<-|[]]]; [auto|apply zmul_det; auto]. }
  destruct (in_turn_rel (two_of G) (fun m => draw_two fuel arg eig circTI (zmob m) u) (flat_map pairs (flat_map loop_z ms))) as (ls & El & Fl).
  { intros m I. apply draw_two_ok; auto. }
  exists (concat ls). unfold draw_frame. rewrite flat_loop, flat_draw, El. split; [reflexivity|]. split; [|exists ls; auto]. intros c. split.
  - intros I. apply in_concat in I. destruct I as (l & Il & Ic). destruct (Forall2_In_r _ _ _ _ Fl Il) as (m & Im & c1 & c2 & -> & K1 & K2).
    apply in_flat_map in Im. destruct Im as (M & I & J). apply in_flat_map in I. destruct I as (m0 & I0 & I1). destruct (loop_pm m0 M I1) as (M' & I' & Q).
    assert (X : forall g, near M g -> hits ms g) by (intros g N; exists m0, M'; split; [auto|]; split; [auto|]; exact (near_pm M M' g Q N)).
    destruct J as [<-|[<-|[]]]; destruct Ic as [<-|[<-|[]]].
    + exists M. split; [apply X; left; left; auto|auto].
    + exists (zmul M zT). split; [apply X; right; left; left; auto|auto].
    + exists (zmul zT M). split; [apply X; right; right; left; left; auto|auto].
    + exists (zmul (zmul zT M) zT). split; [apply X; right; right; right; left; auto|auto].
  - intros (g & (m0 & M & I0 & I1 & N) & Hg). pose proof (base4_det m0 M (HD m0 I0) I1) as DM. pose proof (near_det M g DM N) as Dg.
    assert (J : In M (flat_map loop_z ms)) by (apply in_flat_map; exists m0; split; [auto|]; unfold loop_z; apply in_app_iff; auto).
    assert (J1 : In M (flat_map pairs (flat_map loop_z ms))) by (apply in_flat_map; exists M; split; [auto|left; auto]).
    assert (J2 : In (zmul zT M) (flat_map pairs (flat_map loop_z ms))) by (apply in_flat_map; exists M; split; [auto|right; left; auto]).
    destruct (Forall2_In_l _ _ _ _ Fl J1) as (l1 & L1 & a1 & a2 & -> & A1 & A2). destruct (Forall2_In_l _ _ _ _ Fl J2) as (l2 & L2 & b1 & b2 & -> & B1 & B2).
    assert (DT : zdet zT = 1%Z) by reflexivity.
    assert (W : forall k c', zdet k = 1%Z -> pm g k -> img_of G k c' -> c = c') by (intros k c' Dk Q Hk; apply (img_unique G k); [apply (img_pm G g k c Dg Dk Q)|]; auto).
    apply in_concat. destruct N as [N|[N|[N|N]]].
    + rewrite (W _ a1 DM N A1). exists [a1; a2]. simpl; auto.
    + rewrite (W _ a2 (zmul_det _ _ DM DT) N A2). exists [a1; a2]. simpl; auto.
    + rewrite (W _ b1 (zmul_det _ _ DT DM) N B1). exists [b1; b2]. simpl; auto.
    + rewrite (W _ b2 (zmul_det _ _ (zmul_det _ _ DT DM) DT) N B2). exists [b1; b2]. simpl; auto.
Qed.

Lemma two_unique G m l l' : two_of G m l -> two_of G m l' -> l = l'.
Proof. intros (c1 & c2 & -> & H1 & H2) (c1' & c2' & -> & H1' & H2'). rewrite (img_unique _ _ _ _ H1 H1'), (img_unique _ _ _ _ H2 H2'). auto. Qed.
Lemma Forall2_unique {X A} (P : X -> A -> Prop) xs l l' : (forall x a a', P x a -> P x a' -> a = a') -> Forall2 P xs l -> Forall2 P xs l' -> l = l'.
Proof. intros U F. revert l'. induction F as [|x a xs l H F IH]; intros l' F'; inversion F'; subst; [auto|]. f_equal; [eapply U; eauto|auto]. Qed.

(** R^3 = -1 *)
Lemma R3 : exists F : R -> mobius, (forall t, gpower arg eig mobR t = Ok (F t)) /\ forall t, F (t + 3) = mscal (RtoC (-1)) (F t).
Proof.
  assert (HD : gpower_domain mobR).
  { left. replace ((ma mobR + md mobR) * (ma mobR + md mobR) - RtoC 4 * mdet mobR)%C with (RtoC (-3)) by (rewrite mobR_eq; unfold mdet; cbn [ma mb mc md]; unC; f_equal; ring). unfold RtoC. rewrite cabs_real. rewrite Rabs_left by lra. unfold sepsilon_. lra. }
  destruct (gpower_group arg eig mobR HA HE mobR_det HD) as (F & HF & Hadd & H0 & H1). exists F. split; [exact HF|]. intros t. replace (t + 3) with (t + (1 + (1 + 1))) by ring. rewrite <- !Hadd, H1, mobR_eq.
  destruct (F t) as [a b c d]. unfold matmul, mscal. cbn [ma mb mc md]. apply mob_eq; cbn [ma mb mc md]; unC; f_equal; ring.
Qed.

Lemma img_scal G k m c : k <> C0 -> mdet G <> C0 -> (img_of (mscal k G) m c <-> img_of G m c).
Proof.
  intros Hk HG. assert (T : forall P, transform (mscal k G) P = transform G P) by (intros; apply transform_scal; auto).
  assert (S : forall (D : pt -> Prop) (w : pt), (exists z v, D z /\ transform (zmob m) (Pt z) = Ok (Pt v) /\ transform (mscal k G) (Pt v) = Ok (Pt w)) <-> (exists z v, D z /\ transform (zmob m) (Pt z) = Ok (Pt v) /\ transform G (Pt v) = Ok (Pt w))).
  { intros D w. split; intros (z & v & H1 & H2 & H3); exists z, v; [rewrite T in H3|rewrite T]; auto. }
  unfold img_of. split; (intros (A & B & B'); split; [exact A|]; split; intros w; [rewrite B|rewrite B']; [|]; first [apply S|symmetry; apply S]).
Qed.
Lemma matmul_scal A k B : matmul A (mscal k B) = mscal k (matmul A B).
Proof. unfold matmul, mscal. cbn [ma mb mc md]. apply mob_eq; cbn [ma mb mc md]; cring. Qed.

Lemma frame_period u ms : (forall m, In m ms -> zdet m = 1%Z) -> draw_frame fuel arg eig circTI ms (u + 3) = draw_frame fuel arg eig circTI ms u.
Proof.
  intros HD. destruct (G_ok arg eig u HA HE) as (Ru & E & _ & _ & HG). destruct (G_ok arg eig (u + 3) HA HE) as (Ru' & E' & _ & _ & HG').
  destruct (frame_ok u Ru ms E HG HD) as (l & -> & _ & ls & -> & Fl). destruct (frame_ok (u + 3) Ru' ms E' HG' HD) as (l' & -> & _ & ls' & -> & Fl').
  assert (X : Ru' = mscal (RtoC (-1)) Ru). { destruct R3 as (F & HF & H3). rewrite HF in E, E'. apply Ok_inj in E. apply Ok_inj in E'. subst. apply H3. }
  do 3 f_equal. apply (Forall2_unique (two_of (matmul mobPhi Ru)) _ _ _ (two_unique _)) with (2 := Fl).
  assert (S : forall m l0, two_of (matmul mobPhi Ru') m l0 -> two_of (matmul mobPhi Ru) m l0).
  { intros m l0 (c1 & c2 & -> & K1 & K2). exists c1, c2. split; [auto|]. rewrite X, matmul_scal in K1, K2. assert (K : RtoC (-1) <> C0) by (apply RtoC_neq; lra). destruct HG as (DG & _). apply img_scal in K1; auto. apply img_scal in K2; auto. }
  clear -Fl' S. induction Fl'; constructor; auto.
Qed.

(** the pictures of the animation *)
Lemma frames_ok us ms : (forall m, In m ms -> zdet m = 1%Z) -> exists pics, in_turn (draw_frames fuel arg eig circTI ms us) = Some (Ok pics) /\
  Forall2 (fun u pic => exists l, draw_frame fuel arg eig circTI ms u = Some (Ok l) /\ forall c, In c pic <-> In c l) us pics.
Proof.
  revert ms. induction us as [|u us IH]; intros ms HD; [exists []; split; [reflexivity|constructor]|].
  assert (HD' : forall m, In m (map loop_after ms) -> zdet m = 1%Z) by (intros m I; apply in_map_iff in I; destruct I as (m0 & <- & I); apply after_det; auto).
  destruct (IH _ HD') as (pics & Ep & Fp). destruct (G_ok arg eig u HA HE) as (Ru & E & _ & _ & HG). destruct (frame_ok u Ru ms E HG HD) as (l & El & Hl & _).
  exists (l :: pics). cbn [draw_frames in_turn]. rewrite El, Ep. split; [reflexivity|]. constructor; [exists l; split; [auto|tauto]|].
  clear -Fp HD HD' HA HE. induction Fp as [|v p us pics (l' & E' & H') F IH]; constructor; [|auto]. clear IH. destruct (G_ok arg eig v HA HE) as (Rv & E & _ & _ & HG).
  destruct (frame_ok v Rv ms E HG HD) as (l & El & Hl & _). destruct (frame_ok v Rv (map loop_after ms) E HG HD') as (l2 & El2 & Hl2 & _). rewrite E' in El2. injection El2 as <-.
  exists l. split; [auto|]. intros c. rewrite H', Hl2, Hl. split; intros (g & K1 & K2); exists g; (split; [apply hits_after|]); auto.
Qed.
End Frame.
