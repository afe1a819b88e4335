(** * Proofs about the examples on Steiner chains: the pictures *)

From Coq Require Import Reals Lra Lia Psatz List Bool ZArith PeanoNat.
From Verif Require Import Base BaseLemmas Spec SpecLemmas SpecTriangle SpecGasket SpecApollonian SpecSteinerEx ModelInternal ModelLine ModelCircle ModelAffine ModelEllipse ModelTransfo
  ModelTriangle ModelInversion ModelApollonian ModelSteinerEx PLine PCircle PCircle2 PInvBase PAffine PEllipse PEllipse2 PEllipse3 PEllipse4 PTriangle6 PSteiner PSteiner2 PSteinerEx1 PSteinerEx2 PSteinerEx3 PSteinerEx4.
Import ListNotations.
Local Open Scope R_scope.

Lemma chain_pos c0 n cs : is_chain_in c0 n cs -> Forall (fun c => 0 < cr c) cs.
Proof. intros H. eapply Forall_impl; [|exact (chain_inside _ _ _ H)]. intros c [P _]. auto. Qed.
Lemma inner_pos c0 n chain inner : circle_chain c0 n chain inner -> 0 < cr inner.
Proof. intros C. pose proof (chain_pos c0 n (chain ++ [inner]) ltac:(exists chain, inner; auto)) as P. apply Forall_app in P. destruct P as [_ P]. inversion P; auto. Qed.
Lemma nested_pos c0 n n' blue red : circle_nested c0 n n' blue red -> Forall (fun c => 0 < cr c) blue /\ Forall (Forall (fun c => 0 < cr c)) red.
Proof.
  intros (chain & inner & -> & C & L & N & _). split; [apply (chain_pos c0 n); exists chain, inner; auto|].
  apply Forall_forall. intros cs I. destruct (In_nth _ _ [] I) as (k & Hk & <-). rewrite L in Hk. destruct (N k Hk) as (a & b & E & K). eapply chain_pos. exists a, b. split; [exact E|exact K].
Qed.

Section Pictures.
Variables (c0 : circle) (ell0 : ellipse) (n : Z) (phi : R).
Hypothesis Hn : (3 <= n)%Z.
Hypothesis H0 : 0 < cr c0.
Hypothesis H1 : Rabs phi < 1.
Hypothesis He : epos ell0.
Let m := Z.to_nat n.
Let Hm : (0 < m)%nat. Proof. unfold m. lia. Qed.

Lemma elliptical_ok shift es : elliptical_chain c0 ell0 n phi shift = Ok es ->
  exists cs ell, SteinerChain c0 n phi shift = Ok (map GC cs, ell) /\ Forall2 (fun c e => scaled_copy (cr c / cr c0) ell0 e) cs es /\
    exists chain inner, es = chain ++ [inner] /\ ell_chain ell0 m chain inner.
Proof.
  intros H. unfold elliptical_chain in H. destruct (e2e c0 ell0 H0 He) as (f & Ef & Hd & Hc & Hf). rewrite Ef in H. cbn [bind] in H. apply bind_Ok in H. destruct H as ([gs ell] & Hs & H).
  destruct (images_GC f _ _ H) as (cs & ->). exists cs, ell. split; auto. destruct (steiner_closed _ _ _ _ _ _ Hn H0 H1 Hs) as (chain & inner & -> & C).
  pose proof (images c0 ell0 f H0 He Hd Hc Hf _ _ (chain_pos c0 m _ ltac:(exists chain, inner; auto)) H) as F. split; [eapply Forall2_imp; [|exact F]; intros ? ? [_ K]; exact K|].
  apply F2_app_inv in F. destruct F as (chain' & inner' & -> & F & [Ei _]). exists chain', inner'. split; auto.
  eapply (carry_chain (erel f)); [..|exact C].
  - intros; eapply erel_inside; eauto.
  - intros; eapply erel_touch_in; eauto.
  - intros; eapply erel_touch; eauto.
  - intros; eapply erel_apart; eauto.
  - auto.
  - apply erel0; auto.
  - eapply Forall2_imp; [|exact F]. intros ? ? [K _]. exact K.
  - exact Ei.
Qed.

Lemma elliptical_total shift : steiner_safe (cr c0) phi -> exists es, elliptical_chain c0 ell0 n phi shift = Ok es.
Proof.
  intros S. unfold elliptical_chain. destruct (e2e c0 ell0 H0 He) as (f & Ef & Hd & Hc & Hf). rewrite Ef. cbn [bind]. destruct (steiner_total c0 n phi shift Hn H0 H1 S) as (cs & ell & E). rewrite E. cbn [bind].
  destruct (steiner_closed _ _ _ _ _ _ Hn H0 H1 E) as (chain & inner & -> & C). apply images_ok; auto. apply (chain_pos c0 m). exists chain, inner. auto.
Qed.

(** ** spheres *)
Lemma spheres_of cs sp : mapM sphere_of (map GC cs) = Ok sp -> sp = map (fun c => mkSphere (cO c, 0) (cr c)) cs.
Proof.
  revert sp. induction cs as [|c cs IH]; intros sp H; cbn [map mapM] in H; [apply Ok_inj in H; subst; auto|]. cbn [sphere_of drawn bind] in H. apply bind_Ok in H. destruct H as (s & E & H). apply Ok_inj in H. subst. cbn [map]. f_equal. auto.
Qed.
Lemma spheres_ok cs : mapM sphere_of (map GC cs) = Ok (map (fun c => mkSphere (cO c, 0) (cr c)) cs).
Proof. induction cs as [|c cs IH]; cbn [map mapM]; auto. cbn [sphere_of drawn bind]. rewrite IH. auto. Qed.
Lemma spheres_GC gs sp : mapM sphere_of gs = Ok sp -> exists cs, gs = map GC cs.
Proof.
  revert sp. induction gs as [|g gs IH]; intros sp H; cbn [mapM] in H; [exists []; auto|]. apply bind_Ok in H. destruct H as (s & Hs & H). apply bind_Ok in H. destruct H as (sp' & Hsp & _).
  destruct g as [c|]; [|discriminate]. destruct (IH _ Hsp) as (cs & ->). exists (c :: cs). auto.
Qed.

Definition solid_of (h : R) (c : circle) (e : ellipse) : solid := (e, h * cr c).
Lemma solids_of f h cs es : 0 < h -> det2 (afA f) <> 0 -> affine_transform f (cO c0) = eO ell0 -> (forall M, eform ell0 (affine_transform f M) = cform c0 M) -> Forall2 (fun c e => erel f c e /\ scaled_copy (cr c / cr c0) ell0 e) cs es ->
  exists sols, map fst sols = es /\ Forall2 (srel f h) cs sols /\
    Forall2 (fun s so => sphere_image (transform3 (mat_Tr f h)) (sO s) (sr s) so) (map (fun c => mkSphere (cO c, 0) (cr c)) cs) sols.
Proof.
  intros Hh Hd Hc Hf F. induction F as [|c e cs es [Er _] F (sols & E & F1 & F2)]; [exists []; repeat constructor|]. exists ((e, h * cr c) :: sols). cbn [map fst]. split; [congruence|].
  pose proof (erel_srel c0 ell0 f Hd Hc Hf h Hh c e Er) as S. split; constructor; auto. apply (srel_image c0 ell0); auto.
Qed.

Lemma scene3_ok h shift Center spheres Tr : 0 < h -> scene3 c0 ell0 h n phi shift = Ok (Center, spheres, Tr) ->
  exists sols, elliptical_chain c0 ell0 n phi shift = Ok (map fst sols) /\
    Forall2 (fun s so => sphere_image (transform3 Tr) (sO s) (sr s) so) spheres sols /\
    exists chain inner, sols = chain ++ [inner] /\ sol_chain (ell0, h * cr c0) m chain inner /\ Center = (eO (fst inner), 0).
Proof.
  intros Hh H. unfold scene3 in H. unfold elliptical_chain. destruct (e2e c0 ell0 H0 He) as (f & Ef & Hd & Hc & Hf). rewrite Ef in H |- *. cbn [bind] in H |- *. apply bind_Ok in H. destruct H as ([gs ell] & Hs & H).
  rewrite Hs. cbn [bind]. apply bind_Ok in H. destruct H as (e & Hl & H). apply bind_Ok in H. destruct H as (sp & Hsp & H). apply Ok_inj in H. injection H as <- -> <-.
  destruct (spheres_GC _ _ Hsp) as (cs & ->). apply spheres_of in Hsp. subst spheres. destruct (steiner_closed _ _ _ _ _ _ Hn H0 H1 Hs) as (chain & inner & -> & C).
  pose proof (chain_pos c0 m _ ltac:(exists chain, inner; auto)) as P. destruct (images_ok f Hd _ P) as (es & Hes). pose proof (images c0 ell0 f H0 He Hd Hc Hf _ _ P Hes) as F.
  destruct (solids_of f h _ _ Hh Hd Hc Hf F) as (sols & <- & Fs & Fi). exists sols. split; auto. split; auto.
  pose proof Fs as Fs'. apply F2_app_inv in Fs. destruct Fs as (chain' & inner' & -> & Fc & Fin). exists chain', inner'. split; auto. split.
  - eapply (carry_chain (srel f h)); [..|exact C].
    + intros; eapply (srel_inside c0 ell0); eauto.
    + intros; eapply (srel_touch_in c0 ell0); eauto.
    + intros; eapply (srel_touch c0 ell0); eauto.
    + intros; eapply (srel_apart c0 ell0); eauto.
    + auto.
    + apply (erel_srel c0 ell0); auto. apply erel0; auto.
    + exact Fc.
    + exact Fin.
  - rewrite map_app in Hl. cbn [map] in Hl. rewrite last_last in Hl. rewrite map_app in F. cbn [map] in F. apply F2_app_inv in F. destruct F as (a & b & E & _ & [(_ & _ & Q & _) _]). apply app_inj_tail in E. destruct E as [_ E].
    assert (Pi : 0 < cr inner) by (apply (inner_pos _ _ _ _ C)). destruct (image_erel f Hd inner Pi) as (e' & E' & (_ & _ & Q' & _) & _). rewrite Hl in E'. apply Ok_inj in E'. subst e'. congruence.
Qed.
Lemma scene3_total h shift : steiner_safe (cr c0) phi -> exists r, scene3 c0 ell0 h n phi shift = Ok r.
Proof.
  intros S. unfold scene3. destruct (e2e c0 ell0 H0 He) as (f & Ef & Hd & Hc & Hf). rewrite Ef. cbn [bind]. destruct (steiner_total c0 n phi shift Hn H0 H1 S) as (cs & ell & E). rewrite E. cbn [bind].
  destruct (steiner_closed _ _ _ _ _ _ Hn H0 H1 E) as (chain & inner & -> & C). rewrite map_app. cbn [map]. rewrite last_last. destruct (image_erel f Hd inner (inner_pos _ _ _ _ C)) as (e & Ee & _). rewrite Ee. cbn [bind].
  change [GC inner] with (map GC [inner]). rewrite <- map_app, spheres_ok. cbn [bind]. eauto.
Qed.

(** the focus does not depend on the shift *)
Lemma scene3_center h shift shift' C1 C2 s1 s2 T1 T2 : scene3 c0 ell0 h n phi shift = Ok (C1, s1, T1) -> scene3 c0 ell0 h n phi shift' = Ok (C2, s2, T2) -> C1 = C2 /\ T1 = T2.
Proof.
  unfold scene3. destruct (e2e c0 ell0 H0 He) as (f & Ef & Hd & Hc & Hf). rewrite Ef. cbn [bind]. intros A B.
  apply bind_Ok in A. destruct A as ([gs ell] & Hs & A). apply bind_Ok in A. destruct A as (e & Hl & A). apply bind_Ok in A. destruct A as (sp & Hsp & A). apply Ok_inj in A. injection A as <- <- <-.
  apply bind_Ok in B. destruct B as ([gs' ell'] & Hs' & B). apply bind_Ok in B. destruct B as (e' & Hl' & B). apply bind_Ok in B. destruct B as (sp' & Hsp' & B). apply Ok_inj in B. injection B as <- <- <-.
  destruct (spheres_GC _ _ Hsp) as (cs & ->). destruct (spheres_GC _ _ Hsp') as (cs' & ->). apply (steiner_iff c0 n phi shift cs) in Hs; auto. apply (steiner_iff c0 n phi shift' cs') in Hs'; auto.
  destruct Hs as (_ & -> & _). destruct Hs' as (_ & -> & _). rewrite last_img in Hl, Hl'. rewrite Hl in Hl'. apply Ok_inj in Hl'. subst. auto.
Qed.

(** ** nested *)
Variables (n' : Z) (phi' : R).
Hypothesis Hn' : (3 <= n')%Z.
Hypothesis H1' : Rabs phi' < 1.
Let m' := Z.to_nat n'.
Let Hm' : (0 < m')%nat. Proof. unfold m'. lia. Qed.

Lemma map2_GC (F : gcircle -> Prop) chains : Forall (fun gs => exists cs, gs = map GC cs) chains -> exists red, chains = map (map GC) red.
Proof. induction 1 as [|gs l (cs & ->) Q (red & ->)]; [exists []; auto|exists (cs :: red); auto]. Qed.
Lemma mapM2_GC rd : mapM (mapM drawn) (map (map GC) rd) = Ok rd.
Proof. induction rd as [|cs rd IH]; cbn [map mapM]; auto. rewrite mapM_GC. cbn [bind]. rewrite IH. auto. Qed.

Lemma nested_drawn_of shift shift' circles red : nested_chains c0 n phi shift n' phi' shift' = Ok (circles, map (map GC) red) ->
  exists blue, circles = map GC blue /\ nested_drawn c0 n phi shift n' phi' shift' = Ok (blue, c0, red) /\ circle_nested c0 m m' blue red.
Proof.
  intros H. destruct (nested_chains_Ok _ _ _ _ _ _ _ _ _ Hn H0 H) as (chain & inner & ell & -> & _). exists (chain ++ [inner]). split; auto.
  assert (D : nested_drawn c0 n phi shift n' phi' shift' = Ok (chain ++ [inner], c0, red)). { unfold nested_drawn. rewrite H. cbn [bind]. rewrite mapM_GC. cbn [bind]. rewrite mapM2_GC. auto. }
  split; auto. apply (nested_ok _ _ _ _ _ _ _ _ _ _ Hn H0 H1 Hn' H1' D).
Qed.

Lemma images2 f red reds : det2 (afA f) <> 0 -> affine_transform f (cO c0) = eO ell0 -> (forall M, eform ell0 (affine_transform f M) = cform c0 M) ->
  Forall (Forall (fun c => 0 < cr c)) red -> mapM (mapM (image_ellipse f)) (map (map GC) red) = Ok reds ->
  Forall2 (Forall2 (fun c e => erel f c e /\ scaled_copy (cr c / cr c0) ell0 e)) red reds.
Proof.
  intros Hd Hc Hf P. revert reds. induction P as [|cs red Pc P IH]; intros reds H; cbn [map mapM] in H; [apply Ok_inj in H; subst; constructor|].
  apply bind_Ok in H. destruct H as (es & Hx & H). apply bind_Ok in H. destruct H as (es' & Hs & H). apply Ok_inj in H. subst reds. constructor; auto. apply images; auto.
Qed.
Lemma images2_ok f red : det2 (afA f) <> 0 -> Forall (Forall (fun c => 0 < cr c)) red -> exists reds, mapM (mapM (image_ellipse f)) (map (map GC) red) = Ok reds.
Proof.
  intros Hd. induction 1 as [|cs red Pc P (es & IH)]; [exists []; auto|]. destruct (images_ok f Hd cs Pc) as (e & E). exists (e :: es). cbn [map mapM]. rewrite E. cbn [bind]. rewrite IH. auto.
Qed.
Lemma mapM_mapM_GC {X} (F : gcircle -> res X) chains r : (forall gs es, mapM F gs = Ok es -> exists cs, gs = map GC cs) -> mapM (mapM F) chains = Ok r -> exists red, chains = map (map GC) red.
Proof.
  intros K. revert r. induction chains as [|gs l IH]; intros r H; cbn [mapM] in H; [exists []; auto|]. apply bind_Ok in H. destruct H as (x & Hx & H). apply bind_Ok in H. destruct H as (xs & Hs & _).
  destruct (K _ _ Hx) as (cs & ->). destruct (IH _ Hs) as (red & ->). exists (cs :: red). auto.
Qed.

Lemma elliptical_nested_ok shift shift' blue red : elliptical_nested c0 ell0 n phi shift n' phi' shift' = Ok (blue, red) ->
  exists cblue cred, nested_drawn c0 n phi shift n' phi' shift' = Ok (cblue, c0, cred) /\
    Forall2 (fun c e => scaled_copy (cr c / cr c0) ell0 e) cblue blue /\ Forall2 (Forall2 (fun c e => scaled_copy (cr c / cr c0) ell0 e)) cred red /\
    ell_nested ell0 m m' blue red.
Proof.
  intros H. unfold elliptical_nested in H. destruct (e2e c0 ell0 H0 He) as (f & Ef & Hd & Hc & Hf). rewrite Ef in H. cbn [bind] in H. apply bind_Ok in H. destruct H as ([circles chains] & Hs & H).
  apply bind_Ok in H. destruct H as (bl & Hb & H). apply bind_Ok in H. destruct H as (rd & Hr & H). apply Ok_inj in H. injection H as -> ->.
  destruct (mapM_mapM_GC _ _ _ (images_GC f) Hr) as (cred & ->). destruct (nested_drawn_of _ _ _ _ Hs) as (cblue & -> & D & N). exists cblue, cred. split; auto.
  destruct (nested_pos _ _ _ _ _ N) as [P1 P2]. pose proof (images c0 ell0 f H0 He Hd Hc Hf _ _ P1 Hb) as F1. pose proof (images2 f _ _ Hd Hc Hf P2 Hr) as F2.
  split; [eapply Forall2_imp; [|exact F1]; intros ? ? [_ K]; exact K|]. split; [eapply Forall2_imp; [|exact F2]; intros ? ? Q; eapply Forall2_imp; [|exact Q]; intros ? ? [_ K]; exact K|].
  eapply (carry_nested (erel f)); [..|exact N].
  - intros; eapply erel_inside; eauto.
  - intros; eapply erel_touch_in; eauto.
  - intros; eapply erel_touch; eauto.
  - intros; eapply erel_apart; eauto.
  - auto.
  - auto.
  - apply erel0; auto.
  - eapply Forall2_imp; [|exact F1]. intros ? ? [K _]. exact K.
  - eapply Forall2_imp; [|exact F2]. intros ? ? Q. eapply Forall2_imp; [|exact Q]. intros ? ? [K _]. exact K.
Qed.

Lemma elliptical_nested_total shift shift' : steiner_safe (cr c0) phi -> steiner_safe (least_radius (cr c0) n phi) phi' -> exists r, elliptical_nested c0 ell0 n phi shift n' phi' shift' = Ok r.
Proof.
  intros S S'. destruct (nested_total c0 n phi shift n' phi' shift' Hn H0 H1 Hn' H1' S S') as (blue & red & D & N). unfold elliptical_nested. destruct (e2e c0 ell0 H0 He) as (f & Ef & Hd & Hc & Hf). rewrite Ef. cbn [bind].
  rewrite N. cbn [bind]. destruct (nested_ok _ _ _ _ _ _ _ _ _ _ Hn H0 H1 Hn' H1' D) as [_ C]. destruct (nested_pos _ _ _ _ _ C) as [P1 P2].
  destruct (images_ok f Hd _ P1) as (b & Eb). destruct (images2_ok f _ Hd P2) as (r & Er). rewrite Eb. cbn [bind]. rewrite Er. cbn [bind]. eauto.
Qed.

Lemma solids_of2 f h css ess : 0 < h -> det2 (afA f) <> 0 -> affine_transform f (cO c0) = eO ell0 -> (forall M, eform ell0 (affine_transform f M) = cform c0 M) -> Forall2 (Forall2 (fun c e => erel f c e /\ scaled_copy (cr c / cr c0) ell0 e)) css ess ->
  exists sols, map (map fst) sols = ess /\ Forall2 (Forall2 (srel f h)) css sols /\
    Forall2 (Forall2 (fun s so => sphere_image (transform3 (mat_Tr f h)) (sO s) (sr s) so)) (map (map (fun c => mkSphere (cO c, 0) (cr c))) css) sols.
Proof.
  intros Hh Hd Hc Hf F. induction F as [|cs es css ess Fc F (sols & E & F1 & F2)]; [exists []; repeat constructor|]. destruct (solids_of f h cs es Hh Hd Hc Hf Fc) as (so & E' & G1 & G2).
  exists (so :: sols). cbn [map]. split; [congruence|]. split; constructor; auto.
Qed.
Lemma spheres_of2 css sp : mapM (mapM sphere_of) (map (map GC) css) = Ok sp -> sp = map (map (fun c => mkSphere (cO c, 0) (cr c))) css.
Proof.
  revert sp. induction css as [|cs css IH]; intros sp H; cbn [map mapM] in H; [apply Ok_inj in H; subst; auto|]. rewrite spheres_ok in H. cbn [bind] in H. apply bind_Ok in H. destruct H as (s & E & H). apply Ok_inj in H. subst. cbn [map]. f_equal. auto.
Qed.

Lemma nested_scene3_ok h shift shift' Center spheres Tr : 0 < h -> nested_scene3 c0 ell0 h n phi shift n' phi' shift' = Ok (Center, spheres, Tr) ->
  exists big small, elliptical_nested c0 ell0 n phi shift n' phi' shift' = Ok (map fst big, map (map fst) small) /\
    Forall2 (Forall2 (fun s so => sphere_image (transform3 Tr) (sO s) (sr s) so)) spheres small /\
    sol_nested (ell0, h * cr c0) m m' big small /\ Center = (eO (last (map fst big) ell0), 0).
Proof.
  intros Hh H. unfold nested_scene3 in H. unfold elliptical_nested. destruct (e2e c0 ell0 H0 He) as (f & Ef & Hd & Hc & Hf). rewrite Ef in H |- *. cbn [bind] in H |- *. apply bind_Ok in H. destruct H as ([circles chains] & Hs & H).
  rewrite Hs. cbn [bind]. apply bind_Ok in H. destruct H as (e & Hl & H). apply bind_Ok in H. destruct H as (sp & Hsp & H). apply Ok_inj in H. injection H as <- -> <-.
  destruct (mapM_mapM_GC _ _ _ spheres_GC Hsp) as (cred & ->). apply spheres_of2 in Hsp. subst spheres. destruct (nested_drawn_of _ _ _ _ Hs) as (cblue & -> & D & N). destruct (nested_pos _ _ _ _ _ N) as [P1 P2].
  destruct (images_ok f Hd _ P1) as (b & Eb). destruct (images2_ok f _ Hd P2) as (r & Er). rewrite Eb. cbn [bind]. rewrite Er. cbn [bind].
  pose proof (images c0 ell0 f H0 He Hd Hc Hf _ _ P1 Eb) as F1. pose proof (images2 f _ _ Hd Hc Hf P2 Er) as F2.
  destruct (solids_of f h _ _ Hh Hd Hc Hf F1) as (big & E1 & G1 & _). destruct (solids_of2 f h _ _ Hh Hd Hc Hf F2) as (small & E2 & G2 & G3). exists big, small. subst b r. split; auto. split; auto. split.
  - eapply (carry_nested (srel f h)); [..|exact N].
    + intros; eapply (srel_inside c0 ell0); eauto.
    + intros; eapply (srel_touch_in c0 ell0); eauto.
    + intros; eapply (srel_touch c0 ell0); eauto.
    + intros; eapply (srel_apart c0 ell0); eauto.
    + auto.
    + auto.
    + apply (erel_srel c0 ell0); auto. apply erel0; auto.
    + exact G1.
    + exact G2.
  - destruct N as (chain & inner & -> & C & _). rewrite map_app in Hl. cbn [map] in Hl. rewrite last_last in Hl.
    apply F2_app_inv in F1. destruct F1 as (a & b & E & _ & [(_ & _ & Q & _) _]). rewrite E, last_last.
    destruct (image_erel f Hd inner (inner_pos _ _ _ _ C)) as (e' & E' & (_ & _ & Q' & _) & _). rewrite Hl in E'. apply Ok_inj in E'. subst e'. congruence.
Qed.
Lemma nested_scene3_total h shift shift' : steiner_safe (cr c0) phi -> steiner_safe (least_radius (cr c0) n phi) phi' -> exists r, nested_scene3 c0 ell0 h n phi shift n' phi' shift' = Ok r.
Proof.
  intros S S'. destruct (nested_total c0 n phi shift n' phi' shift' Hn H0 H1 Hn' H1' S S') as (blue & red & D & N). unfold nested_scene3. destruct (e2e c0 ell0 H0 He) as (f & Ef & Hd & Hc & Hf). rewrite Ef. cbn [bind].
  rewrite N. cbn [bind]. destruct (nested_ok _ _ _ _ _ _ _ _ _ _ Hn H0 H1 Hn' H1' D) as [_ (chain & inner & -> & C & _)]. rewrite map_app. cbn [map]. rewrite last_last.
  destruct (image_erel f Hd inner (inner_pos _ _ _ _ C)) as (e & Ee & _). rewrite Ee. cbn [bind].
  assert (M : exists r, mapM (mapM sphere_of) (map (map GC) red) = Ok r). { clear. induction red as [|cs red (r & IH)]; [exists []; auto|]. eexists. cbn [map mapM]. rewrite spheres_ok. cbn [bind]. rewrite IH. cbn [bind]. reflexivity. }
  destruct M as (r & Er). rewrite Er. cbn [bind]. eauto.
Qed.
Lemma nested_scene3_center h s1 s1' s2 s2' C1 C2 p1 p2 T1 T2 : nested_scene3 c0 ell0 h n phi s1 n' phi' s1' = Ok (C1, p1, T1) -> nested_scene3 c0 ell0 h n phi s2 n' phi' s2' = Ok (C2, p2, T2) -> C1 = C2 /\ T1 = T2.
Proof.
  unfold nested_scene3. destruct (e2e c0 ell0 H0 He) as (f & Ef & Hd & Hc & Hf). rewrite Ef. cbn [bind]. intros A B.
  apply bind_Ok in A. destruct A as ([gs ch] & Hs & A). apply bind_Ok in A. destruct A as (e & Hl & A). apply bind_Ok in A. destruct A as (sp & Hsp & A). apply Ok_inj in A. injection A as <- <- <-.
  apply bind_Ok in B. destruct B as ([gs' ch'] & Hs' & B). apply bind_Ok in B. destruct B as (e' & Hl' & B). apply bind_Ok in B. destruct B as (sp' & Hsp' & B). apply Ok_inj in B. injection B as <- <- <-.
  destruct (nested_chains_Ok _ _ _ _ _ _ _ _ _ Hn H0 Hs) as (c1 & i1 & e1 & -> & S1 & _). destruct (nested_chains_Ok _ _ _ _ _ _ _ _ _ Hn H0 Hs') as (c2 & i2 & e2 & -> & S2 & _).
  apply steiner_iff in S1; auto. apply steiner_iff in S2; auto. destruct S1 as (_ & E1 & _). destruct S2 as (_ & E2 & _). rewrite E1 in Hl. rewrite E2 in Hl'. rewrite last_img in Hl, Hl'. rewrite Hl in Hl'. apply Ok_inj in Hl'. subst. auto.
Qed.
End Pictures.

(** ** the ellipse of the centres *)
Lemma focal_sum x y a c : 0 < a -> c * c < a * a -> (x / a) ^ 2 + (y / sqrt (a * a - c * c)) ^ 2 = 1 ->
  sqrt ((x + c) * (x + c) + y * y) + sqrt ((x - c) * (x - c) + y * y) = 2 * a.
Proof.
  intros Ha Hc H. assert (Pb : 0 < a * a - c * c) by lra. assert (Sb : sqrt (a * a - c * c) * sqrt (a * a - c * c) = a * a - c * c) by (apply sqrt_sqrt; lra).
  assert (Nb : 0 < sqrt (a * a - c * c)) by (apply sqrt_lt_R0; auto). set (b := sqrt (a * a - c * c)) in *. clearbody b.
  assert (E : y * y = (a * a - c * c) * (1 - x / a * (x / a))).
  { replace (y * y) with (b * b * (y / b) ^ 2) by (field; lra). replace ((y / b) ^ 2) with (1 - (x / a) ^ 2) by lra. rewrite Sb. field. lra. }
  set (t := x / a) in *. assert (Ex : x = a * t) by (unfold t; field; lra). clearbody t. subst x.
  assert (T : t * t <= 1). { assert (0 <= (y / b) ^ 2) by (apply pow2_ge_0). simpl in H. nra. }
  assert (Q : (c * t) * (c * t) <= a * a) by nra. assert (- a <= c * t <= a) by (split; [apply Ropp_le_cancel|]; apply Rsqr_incr_0_var; unfold Rsqr; lra || nra).
  replace ((a * t + c) * (a * t + c) + y * y) with ((a + c * t) * (a + c * t)) by (rewrite E; ring).
  replace ((a * t - c) * (a * t - c) + y * y) with ((a - c * t) * (a - c * t)) by (rewrite E; ring).
  rewrite !sqrt_square by lra. ring.
Qed.

Lemma angle_ne x y : 0 <= x -> x < y -> y < 2 * PI -> cos x = cos y -> sin x = sin y -> False.
Proof.
  intros Px Lt Py Hc Hs. assert (C : cos (y - x) = 1). { rewrite cos_minus, <- Hc, <- Hs. pose proof (sin2_cos2 x) as Q. unfold Rsqr in Q. lra. }
  replace (y - x) with (2 * ((y - x) / 2)) in C by field. rewrite cos_2a_sin in C. pose proof (sin_gt_0 ((y - x) / 2) ltac:(lra) ltac:(lra)). nra.
Qed.
Lemma path_ne e n path : 0 < ea e -> 0 < eb e -> (0 < n)%Z -> ellipse_path e n = Ok path -> NoDup path.
Proof.
  intros Ha Hb Hn H. destruct (ellipse_path_spec e n Ha Hb Hn) as (p & E & L & _ & K). rewrite H in E. apply Ok_inj in E. subst p. apply (NoDup_nth path (0, 0)).
  assert (Pn : 0 < IZR n) by (apply IZR_lt; lia).
  assert (A : forall i j, (i < j)%nat -> (j < length path)%nat -> nth i path (0, 0) = nth j path (0, 0) -> False).
  { intros i j Lij Lj Q. rewrite L in Lj. destruct (K i ltac:(lia)) as [A1 A2]. destruct (K j Lj) as [B1 B2]. rewrite Q in A1, A2. rewrite A1 in B1. rewrite A2 in B2. apply Rmult_eq_reg_l in B1; [|lra]. apply Rmult_eq_reg_l in B2; [|lra].
    pose proof PI_RGT_0. pose proof (pos_INR i). pose proof (lt_INR _ _ Lij). assert (Jn : INR j < IZR n). { rewrite <- (Z2Nat.id n) by lia. rewrite <- INR_IZR_INZ. apply lt_INR. lia. }
    apply (angle_ne (2 * PI * INR i / IZR n) (2 * PI * INR j / IZR n)); auto.
    - apply Rmult_le_pos; [nra|]. left. apply Rinv_0_lt_compat. auto.
    - unfold Rdiv. apply Rmult_lt_compat_r; [apply Rinv_0_lt_compat; auto|nra].
    - apply (Rmult_lt_reg_r (IZR n)); auto. unfold Rdiv. rewrite Rmult_assoc, Rinv_l, Rmult_1_r by lra. nra. }
  intros i j Li Lj Q. destruct (Nat.lt_trichotomy i j) as [Lt|[Eq|Gt]]; auto; exfalso; [apply (A i j); auto|apply (A j i); auto].
Qed.

Lemma with_ellipse_ok c0 n phi shift cs path : (3 <= n)%Z -> 0 < cr c0 -> Rabs phi < 1 -> chain_with_ellipse c0 n phi shift = Ok (cs, path) ->
  exists chain inner, cs = chain ++ [inner] /\ circle_chain c0 (Z.to_nat n) chain inner /\ length path = 100%nat /\ NoDup path /\
    (forall M, In M path -> dist (cO c0) M + dist (cO inner) M = cr c0 + cr inner) /\
    (forall c, In c chain -> dist (cO c0) (cO c) + dist (cO inner) (cO c) = cr c0 + cr inner).
Proof.
  intros Hn H0 H1 H. unfold chain_with_ellipse in H. apply bind_Ok in H. destruct H as ([gs ell] & Hs & H). apply bind_Ok in H. destruct H as (pth & Hp & H). apply bind_Ok in H. destruct H as (cs' & Hd & H).
  apply Ok_inj in H. injection H as -> ->. apply mapM_drawn in Hd. subst gs.
  destruct (steiner_closed _ _ _ _ _ _ Hn H0 H1 Hs) as (chain & inner & -> & C). exists chain, inner. split; auto. split; auto.
  destruct (steiner_ellipse _ _ _ _ _ _ Hn H0 H1 Hs) as (Pa & Pb & _). destruct (ellipse_path_spec ell 100 Pa Pb ltac:(lia)) as (p & E & L & Fo & _). rewrite Hp in E. apply Ok_inj in E. subst p.
  split; [exact L|]. split; [apply (path_ne ell 100); auto; lia|].
  apply steiner_iff in Hs; auto. destruct Hs as (_ & Ecs & Ee). unfold base_all in Ecs. rewrite map_app in Ecs. apply app_inj_tail in Ecs. destruct Ecs as [_ Ei].
  destruct (finish_ok c0 (Z.to_nat n) phi shift ltac:(lia) H0 H1) as (Pin & Lc & Y & _). rewrite <- Ei in *. split.
  - intros M I. rewrite Forall_forall in Fo. pose proof (Fo M I) as O. unfold on_ellipse, ell_form, ell_th in O. rewrite Ee in O. unfold st_ell in O. rewrite <- Ei in O. cbn [eO ea eb edeg ealpha] in O.
    unfold radians, deg in O. replace (0 * PI / 180) with 0 in O by field.
    assert (Q : (fst (cO inner) - fst (cO c0)) / 2 * ((fst (cO inner) - fst (cO c0)) / 2) < (cr inner + cr c0) / 2 * ((cr inner + cr c0) / 2)) by lra.
    assert (Pa' : 0 < (cr inner + cr c0) / 2) by lra. pose proof (focal_sum _ _ _ _ Pa' Q O) as F. unfold fx, fy in F. rewrite cos_0, sin_0 in F. unfold midpoint in F. cbn [fst snd] in F.
    transitivity (2 * ((cr inner + cr c0) / 2)); [|field]. rewrite <- F. unfold dist. f_equal; f_equal; unspec; rewrite ?Y; field.
  - intros c I. destruct C as (_ & _ & C & _). destruct (C c I) as (A & B). unfold circle_touch_in in A. unfold circles_touch, ext_tangent in B. destruct A as [_ A]. rewrite A, (dist_sym (cO inner) (cO c)), B. ring.
Qed.

(** ** the animations are closed *)
Lemma chains_period c0 n phi shift n' phi' shift' : nested_chains c0 n phi (shift + IZR n) n' phi' (shift' - IZR n') = nested_chains c0 n phi shift n' phi' shift'.
Proof.
  unfold nested_chains. rewrite steiner_period. destruct (SteinerChain c0 n phi shift) as [[circles ell]|]; cbn [bind]; auto.
  erewrite mapM_ext; [reflexivity|]. intros g. cbv beta. destruct (drawn g); cbn [bind]; auto. rewrite steiner_period_neg. auto.
Qed.
Lemma all_period c0 ell0 h n phi shift n' phi' shift' :
  nested_drawn c0 n phi (shift + IZR n) n' phi' (shift' - IZR n') = nested_drawn c0 n phi shift n' phi' shift' /\
  elliptical_chain c0 ell0 n phi (shift + IZR n) = elliptical_chain c0 ell0 n phi shift /\
  elliptical_nested c0 ell0 n phi (shift + IZR n) n' phi' (shift' - IZR n') = elliptical_nested c0 ell0 n phi shift n' phi' shift' /\
  scene3 c0 ell0 h n phi (shift + IZR n) = scene3 c0 ell0 h n phi shift /\
  nested_scene3 c0 ell0 h n phi (shift + IZR n) n' phi' (shift' - IZR n') = nested_scene3 c0 ell0 h n phi shift n' phi' shift'.
Proof.
  split; [apply nested_period|]. unfold elliptical_chain, elliptical_nested, scene3, nested_scene3. rewrite steiner_period, chains_period. auto.
Qed.

(** ** the values of the scripts *)
Lemma safe_of r0 phi : 3 / 10 <= r0 -> Rabs phi <= 3 / 5 -> steiner_safe r0 phi.
Proof.
  intros Hr Hp. unfold steiner_safe. destruct (Req_dec phi 0) as [|N]; [auto|right]. apply Rabs_pos_lt in N. set (p := Rabs phi) in *. clearbody p.
  assert (r0 * (5 / 3) <= r0 / p). { apply (Rmult_le_reg_r p); auto. replace (r0 / p * p) with r0 by (field; lra). nra. }
  assert (sepsilon_ <= 1 / 25) by (unfold sepsilon_; lra). nra.
Qed.
Lemma least_of r0 n phi : (3 <= n <= 6)%Z -> 0 < r0 -> Rabs phi < 1 -> r0 * (1 - Rabs phi) / 4 <= least_radius r0 n phi.
Proof.
  intros Hn Hr Hp. unfold least_radius. cbv zeta. pose proof (Rabs_pos phi). set (p := Rabs phi) in *. clearbody p. pose proof PI_RGT_0.
  assert (N1 : 3 <= IZR n) by (apply IZR_le; lia). assert (N2 : IZR n <= 6) by (apply IZR_le; lia).
  assert (S : 1 / 2 <= sin (PI / IZR n)). { rewrite <- sin_PI6. apply sin_incr_1; try lra.
    - apply Rle_trans with 0; [lra|]. apply Rmult_le_pos; [lra|]. left. apply Rinv_0_lt_compat. lra.
    - apply (Rmult_le_reg_r (IZR n)); [lra|]. replace (PI / IZR n * IZR n) with PI by (field; lra). nra.
    - apply (Rmult_le_reg_r (IZR n)); [lra|]. replace (PI / IZR n * IZR n) with PI by (field; lra). nra. }
  pose proof (SIN_bound (PI / IZR n)). set (s := sin (PI / IZR n)) in *. clearbody s.
  assert (D : 0 < 1 + p + s * (1 - p) <= 2) by nra. apply (Rmult_le_reg_r (1 + p + s * (1 - p))); [lra|]. replace (r0 * s * (1 - p) / (1 + p + s * (1 - p)) * (1 + p + s * (1 - p))) with (r0 * s * (1 - p)) by (field; lra).
  assert (0 <= r0 * (1 - p)) by nra. assert (r0 * (1 - p) / 4 * (1 + p + s * (1 - p)) <= r0 * (1 - p) / 4 * 2) by (apply Rmult_le_compat_l; lra). nra.
Qed.
Ltac small := unfold Rabs; destruct (Rcase_abs _); lra.

Lemma scripts_ok : let c0 := mkCircle (3, 0) 3 in let c1 := mkCircle (7, 0) 3 in let e0 := mkEllipse (-4, 0) 4 (5 / 2) 140 true in let e1 := mkEllipse (0, 0) 4 (5 / 2) 140 true in
  forall shift shift',
  (exists blue red, nested_drawn c0 3 (- (1 / 2)) shift 3 (- (2 / 5)) shift' = Ok (blue, c0, red)) /\
  (exists es, elliptical_chain c0 e0 3 (- (1 / 5)) shift = Ok es) /\
  (forall h, exists s, scene3 c0 e0 h 3 (- (1 / 5)) shift = Ok s) /\
  (exists es, elliptical_nested c1 e1 3 (- (3 / 20)) shift 3 (- (2 / 5)) shift' = Ok es) /\
  (exists s, nested_scene3 c1 e1 (3 / 4) 3 (- (3 / 20)) shift 3 (- (2 / 5)) shift' = Ok s) /\
  (exists s, nested_scene3 c1 e1 (3 / 4) 5 (- (3 / 20)) shift 3 (- (2 / 5)) shift' = Ok s) /\
  (exists s, nested_scene3 c1 e1 (3 / 4) 5 (- (3 / 20)) shift 3 (- (1 / 5)) shift' = Ok s) /\
  (exists s, chain_with_ellipse c0 3 (3 / 5) shift = Ok s).
Proof.
  intros c0 c1 e0 e1 shift shift'. assert (K : forall c n p p', cr c = 3 -> (3 <= n <= 6)%Z -> Rabs p <= 1 / 2 -> Rabs p' <= 3 / 5 -> steiner_safe (cr c) p /\ steiner_safe (least_radius (cr c) n p) p').
  { intros c n p p' -> Hn Hp Hp'. split; [apply safe_of; lra|]. apply safe_of; auto. apply Rle_trans with (3 * (1 - Rabs p) / 4); [lra|]. apply least_of; lra || lia || auto. }
  repeat split.
  - destruct (K c0 3%Z (- (1 / 2)) (- (2 / 5)) eq_refl ltac:(lia) ltac:(small) ltac:(small)) as [S S'].
    destruct (nested_total c0 3 (- (1 / 2)) shift 3 (- (2 / 5)) shift' ltac:(lia) ltac:(cbn; lra) ltac:(small) ltac:(lia) ltac:(small) S S') as (b & r & E & _). eauto.
  - apply elliptical_total; try lia; try (cbn; lra); try small; [split; cbn; lra|apply safe_of; [cbn; lra|small]].
  - intros h. apply scene3_total; try lia; try (cbn; lra); try small; [split; cbn; lra|apply safe_of; [cbn; lra|small]].
  - destruct (K c1 3%Z (- (3 / 20)) (- (2 / 5)) eq_refl ltac:(lia) ltac:(small) ltac:(small)) as [S S']. apply elliptical_nested_total; auto; try lia; try (cbn; lra); try small; split; cbn; lra.
  - destruct (K c1 3%Z (- (3 / 20)) (- (2 / 5)) eq_refl ltac:(lia) ltac:(small) ltac:(small)) as [S S']. apply nested_scene3_total; auto; try lia; try (cbn; lra); try small; split; cbn; lra.
  - destruct (K c1 5%Z (- (3 / 20)) (- (2 / 5)) eq_refl ltac:(lia) ltac:(small) ltac:(small)) as [S S']. apply nested_scene3_total; auto; try lia; try (cbn; lra); try small; split; cbn; lra.
  - destruct (K c1 5%Z (- (3 / 20)) (- (1 / 5)) eq_refl ltac:(lia) ltac:(small) ltac:(small)) as [S S']. apply nested_scene3_total; auto; try lia; try (cbn; lra); try small; split; cbn; lra.
  - destruct (steiner_total c0 3 (3 / 5) shift ltac:(lia) ltac:(cbn; lra) ltac:(small) ltac:(apply safe_of; [cbn; lra|small])) as (cs & ell & E). unfold chain_with_ellipse. rewrite E. cbn [bind].
    destruct (steiner_ellipse c0 3 (3 / 5) shift cs ell ltac:(lia) ltac:(cbn; lra) ltac:(small) E) as (Pa & Pb & _). destruct (ellipse_path_spec ell 100 Pa Pb ltac:(lia)) as (p & Ep & _). rewrite Ep. cbn [bind]. rewrite mapM_GC. cbn [bind]. eauto.
Qed.

Lemma homogeneous_ok c0 ell0 h n phi shift n' phi' shift' :
  (forall Center spheres Tr, scene3 c0 ell0 h n phi shift = Ok (Center, spheres, Tr) -> homogeneous Tr) /\
  (forall Center spheres Tr, nested_scene3 c0 ell0 h n phi shift n' phi' shift' = Ok (Center, spheres, Tr) -> homogeneous Tr).
Proof.
  assert (K : forall f, homogeneous (mat_Tr f h)). { intros f. eexists [_; _; _]. split; [reflexivity|]. split; [reflexivity|]. repeat constructor. }
  split; intros Center spheres Tr H; [unfold scene3 in H|unfold nested_scene3 in H];
  repeat match type of H with bind ?e _ = _ => destruct e; cbn [bind] in H; [|discriminate H] | (let '(_, _) := ?p in _) = _ => destruct p end; inversion H; apply K.
Qed.
