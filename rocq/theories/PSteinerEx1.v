(** * Proofs about the examples on Steiner chains: circles *)

From Coq Require Import Reals Lra Lia Psatz List Bool ZArith PeanoNat.
From Verif Require Import Base BaseLemmas Spec SpecLemmas SpecTriangle SpecGasket SpecApollonian SpecSteinerEx ModelInternal ModelLine ModelCircle ModelEllipse
  ModelTriangle ModelInversion ModelApollonian ModelSteinerEx PLine PCircle PCircle2 PInvBase PAffine PInversion PInversion2 PEllipse PSteiner PSteiner2 PGasket5 PApo2 PApo3 PCirc3 PCirc8.
Import ListNotations.
Local Open Scope R_scope.

(** ** lists *)
Lemma mapM_drawn l cs : mapM drawn l = Ok cs -> l = map GC cs.
Proof.
  revert cs. induction l as [|g l IH]; intros cs H; cbn [mapM] in H.
  - apply Ok_inj in H. subst. auto.
  - apply bind_Ok in H. destruct H as (c & Hc & H). apply bind_Ok in H. destruct H as (cs' & Hcs & H). apply Ok_inj in H. subst cs. destruct g; [|discriminate]. apply Ok_inj in Hc. subst. cbn [map]. f_equal; auto.
Qed.
Lemma mapM_GC cs : mapM drawn (map GC cs) = Ok cs.
Proof. induction cs as [|c cs IH]; cbn [map mapM]; auto. cbn [drawn bind]. rewrite IH. auto. Qed.

Lemma mapM_drawn_then {X} (F : circle -> res X) l r : mapM (fun g => let! c := drawn g in F c) l = Ok r -> exists cs, l = map GC cs /\ mapM F cs = Ok r.
Proof.
  revert r. induction l as [|g l IH]; intros r H; cbn [mapM] in H.
  - exists []. split; auto.
  - apply bind_Ok in H. destruct H as (x & Hx & H). apply bind_Ok in H. destruct H as (xs & Hxs & H). apply Ok_inj in H. subst r.
    apply bind_Ok in Hx. destruct Hx as (c & Hc & Hx). destruct g; [|discriminate]. apply Ok_inj in Hc. subst c0. destruct (IH _ Hxs) as (cs & -> & Hcs).
    exists (c :: cs). split; auto. cbn [mapM]. rewrite Hx, Hcs. auto.
Qed.

Lemma Forall2_nth {A B} (P : A -> B -> Prop) l l' : Forall2 P l l' -> forall d d' i, (i < length l)%nat -> P (nth i l d) (nth i l' d').
Proof.
  induction 1; intros d d' i Hi; cbn [length] in Hi; [lia|]. destruct i; cbn [nth]; auto. apply IHForall2; lia.
Qed.
Lemma Forall2_len {A B} (P : A -> B -> Prop) l l' : Forall2 P l l' -> length l = length l'.
Proof. induction 1; cbn [length]; auto. Qed.
Lemma Forall2_In_l {A B} (P : A -> B -> Prop) l l' y : Forall2 P l l' -> In y l' -> exists x, In x l /\ P x y.
Proof. induction 1; intros [<-|I] || intros []; [exists x; split; [left|]; auto|]. destruct (IHForall2 I) as (z & Hz & K). exists z; split; [right|]; auto. Qed.

Lemma Forall2_imp {A B} (P Q : A -> B -> Prop) l l' : (forall x y, P x y -> Q x y) -> Forall2 P l l' -> Forall2 Q l l'.
Proof. intros H. induction 1; constructor; auto. Qed.

(** ** one chain *)
Lemma steiner_closed c0 n phi shift cs ell : (3 <= n)%Z -> 0 < cr c0 -> Rabs phi < 1 ->
  SteinerChain c0 n phi shift = Ok (map GC cs, ell) ->
  exists chain inner, cs = chain ++ [inner] /\ circle_chain c0 (Z.to_nat n) chain inner.
Proof.
  intros Hn H0 H1 H. destruct (steiner_spec _ _ _ _ _ _ Hn H0 H1 H) as (chain & inner & E & L & P & I & F & T & D).
  exists chain, inner. split; auto. split; auto. split; [split; auto; intros M K; unfold in_disk in *; pose proof (dist_triangle (cO c0) (cO inner) M); lra|].
  split; [intros c Hc; destruct (F c Hc) as (F1 & F2 & F3); split; [split; [split; [exact F1|]|exact F2]|exact F3];
    unfold ext_tangent in F3; pose proof (dist_triangle (cO c) (cO c0) (cO inner)) as Q; rewrite (dist_sym (cO c) (cO c0)) in Q; lra|]. split; [exact T|].
  apply FOP_app. split; [|split; [repeat constructor|]].
  - apply (FOP_nth _ c0). rewrite L. intros i j Hi Hj. apply D; lia.
  - intros c y Hc [<-|[]]. destruct (F c Hc) as (_ & _ & K). unfold not_overlapping. unfold ext_tangent in K. lra.
Qed.

Lemma steiner_shape c0 n phi shift gs ell : (3 <= n)%Z -> 0 < cr c0 ->
  SteinerChain c0 n phi shift = Ok (gs, ell) -> length gs = S (Z.to_nat n) /\ exists inner, last gs (GC c0) = GC inner.
Proof.
  intros Hn H0 H. rewrite steiner_eq in H by auto. apply bind_Ok in H. destruct H as (gs' & Hg & H).
  unfold st_finish in H. destruct (last gs' (GC c0)) as [inner|] eqn:El; [|discriminate]. apply bind_Ok in H. destruct H as (b & _ & H). apply bind_Ok in H. destruct H as (e & _ & H). apply Ok_inj in H.
  assert (gs' = gs) by congruence. subst gs'. split; [|eauto]. unfold st_circles in Hg. destruct (eqb phi 0).
  - apply Ok_inj in Hg. subst gs. unfold base_all. rewrite map_length, app_length, map_length, seq_length. cbn [length]. lia.
  - apply mapM_Ok_Forall2 in Hg. apply Forall2_len in Hg. rewrite <- Hg. unfold base_all. rewrite app_length, map_length, seq_length. cbn [length]. lia.
Qed.

Lemma firstn_last {A} (l : list A) n d : length l = S n -> l = firstn n l ++ [last l d].
Proof.
  intros H. destruct (exists_last (l := l)) as (l' & a & ->); [intros ->; discriminate|]. rewrite last_last. rewrite app_length in H. cbn [length] in H.
  replace n with (length l') by lia. rewrite firstn_app, Nat.sub_diag, firstn_all, firstn_O, app_nil_r. auto.
Qed.

(** ** nested chains *)
Definition is_chain_in (c0 : circle) (n : nat) (cs : list circle) : Prop := exists chain inner, cs = chain ++ [inner] /\ circle_chain c0 n chain inner.

Lemma chain_inside c0 n cs : is_chain_in c0 n cs -> Forall (circle_inside c0) cs.
Proof.
  intros (chain & inner & -> & L & I & F & _). apply Forall_app. split; [|apply Forall_cons; [exact I|apply Forall_nil]].
  apply Forall_forall. intros c Hc. destruct (F c Hc) as (((P & _) & T) & _). split; auto. intros M K. unfold in_disk in *. pose proof (dist_triangle (cO c0) (cO c) M). lra.
Qed.
Lemma inside_trans c0 c d : circle_inside c0 c -> circle_inside c d -> circle_inside c0 d.
Proof. intros [_ H] [P K]. split; auto. intros M J. auto. Qed.
Lemma nested_apart2 c d c' d' : circle_inside c c' -> circle_inside d d' -> not_overlapping c d -> not_overlapping c' d'.
Proof.
  intros [P1 I1] [P2 I2] H. apply (nested_apart c' c d') ; auto. unfold not_overlapping. rewrite Rplus_comm, dist_sym. apply (nested_apart d' d c); auto.
  unfold not_overlapping. rewrite Rplus_comm, dist_sym. auto.
Qed.

Lemma nested_all c0 n' chain css : Forall (circle_inside c0) chain -> ForallOrdPairs not_overlapping chain -> Forall2 (fun c cs => is_chain_in c n' cs) chain css ->
  Forall (circle_inside c0) (concat css) /\ ForallOrdPairs not_overlapping (concat css) /\
  forall x, In x (concat css) -> exists c, In c chain /\ circle_inside c x.
Proof.
  intros I D F. induction F as [|c cs chain css Hc F IH]; cbn [concat].
  - split; [constructor|]. split; [constructor|]. intros x [].
  - inversion I as [|? ? I1 I2]; inversion D as [|? ? D1 D2]; subst. destruct (IH I2 D2) as (J1 & J2 & J3). pose proof (chain_inside _ _ _ Hc) as K.
    split; [|split].
    + apply Forall_app. split; auto. eapply Forall_impl; [|exact K]. intros d Hd. apply (inside_trans c0 c d); auto.
    + apply FOP_app. split; [destruct Hc as (ch & inn & -> & _ & _ & _ & _ & Q); exact Q|]. split; auto.
      intros x y Hx Hy. destruct (J3 y Hy) as (d & Hd & Hdy). rewrite Forall_forall in D1, K. apply (nested_apart2 c d); auto.
    + intros x Hx. apply in_app_or in Hx. destruct Hx as [Hx|Hx].
      * exists c. split; [left; auto|]. rewrite Forall_forall in K. auto.
      * destruct (J3 x Hx) as (d & Hd & K'). exists d. split; [right|]; auto.
Qed.

Lemma nested_chains_Ok c0 n phi shift n' phi' shift' circles chains : (3 <= n)%Z -> 0 < cr c0 ->
  nested_chains c0 n phi shift n' phi' shift' = Ok (circles, chains) ->
  exists chain inner ell, circles = map GC (chain ++ [inner]) /\ SteinerChain c0 n phi shift = Ok (map GC (chain ++ [inner]), ell) /\ length chain = Z.to_nat n /\
    Forall2 (fun c gs => exists ell', SteinerChain c n' phi' shift' = Ok (gs, ell')) chain chains.
Proof.
  intros Hn H0 H. unfold nested_chains in H. apply bind_Ok in H. destruct H as ([gs ell] & Hs & H). apply bind_Ok in H. destruct H as (ch & Hc & H). apply Ok_inj in H.
  injection H as -> ->. destruct (steiner_shape _ _ _ _ _ _ Hn H0 Hs) as (L & inner & El). apply mapM_drawn_then in Hc. destruct Hc as (chain & Ec & Hc).
  assert (E : circles = map GC (chain ++ [inner])). { rewrite (firstn_last circles (Z.to_nat n) (GC c0) L), Ec, El, map_app. auto. }
  assert (Lc : length chain = Z.to_nat n). { rewrite E, map_length, app_length in L. cbn [length] in L. lia. }
  exists chain, inner, ell. split; auto. split; [congruence|]. split; auto.
  apply mapM_Ok_Forall2 in Hc. eapply Forall2_imp; [|exact Hc]. intros c gs. cbv beta. intros K. apply bind_Ok in K. destruct K as ([gs' ell'] & K1 & K2). apply Ok_inj in K2. subst. eauto.
Qed.

Lemma nested_ok c0 n phi shift n' phi' shift' blue c red : (3 <= n)%Z -> 0 < cr c0 -> Rabs phi < 1 -> (3 <= n')%Z -> Rabs phi' < 1 ->
  nested_drawn c0 n phi shift n' phi' shift' = Ok (blue, c, red) -> c = c0 /\ circle_nested c0 (Z.to_nat n) (Z.to_nat n') blue red.
Proof.
  intros Hn H0 H1 Hn' H1' H. unfold nested_drawn in H. apply bind_Ok in H. destruct H as ([circles chains] & H & K). apply bind_Ok in K. destruct K as (bl & Kb & K). apply bind_Ok in K. destruct K as (rd & Kr & K). apply Ok_inj in K.
  injection K as -> <- ->. split; auto. destruct (nested_chains_Ok _ _ _ _ _ _ _ _ _ Hn H0 H) as (chain & inner & ell & -> & Hs & L & F).
  apply mapM_drawn in Kb. assert (blue = chain ++ [inner]).
  { revert Kb. generalize (chain ++ [inner]). clear. intros l. revert l. induction blue as [|b bl IH]; intros [|x l] E; try discriminate; auto. injection E as -> E. f_equal. auto. }
  subst blue. destruct (steiner_closed _ _ _ _ _ _ Hn H0 H1 Hs) as (ch & inn & E & C). apply app_inj_tail in E. destruct E as [<- <-].
  assert (F2 : Forall2 (fun c cs => is_chain_in c (Z.to_nat n') cs) chain red).
  { apply mapM_Ok_Forall2 in Kr. pose proof (chain_inside c0 (Z.to_nat n) (chain ++ [inner]) ltac:(exists chain, inner; split; auto)) as I. apply Forall_app in I. destruct I as [I _].
    clear - F Kr I H1' Hn'. revert red Kr. induction F as [|c gs chain chains (ell' & Hc) F IH]; intros red Kr; inversion Kr; subst; constructor.
    - inversion I as [|? ? I1 I2]; subst. apply mapM_drawn in H1. subst gs. destruct (steiner_closed _ _ _ _ _ _ Hn' (proj1 I1) H1' Hc) as (a & b & -> & K). exists a, b. auto.
    - apply IH; auto. inversion I; auto. }
  exists chain, inner. split; auto. split; auto. split; [rewrite <- (Forall2_len _ _ _ F2); auto|].
  split; [intros k Hk; apply (Forall2_nth _ _ _ F2); lia|].
  pose proof (chain_inside c0 (Z.to_nat n) (chain ++ [inner]) ltac:(exists chain, inner; split; auto)) as I. apply Forall_app in I. destruct I as [I I'].
  pose proof C as (_ & _ & _ & _ & D). apply FOP_app in D. destruct D as (D & _ & D').
  destruct (nested_all c0 (Z.to_nat n') chain red I D F2) as (A1 & A2 & A3). split; auto.
  apply FOP_app. split; auto. split; [repeat constructor|]. intros x y Hx [<-|[]]. destruct (A3 x Hx) as (d & Hd & [Pd Id]). apply (nested_apart x d inner); auto. apply D'; [auto|left; auto].
Qed.
