(** * The search returns the smallest ellipse: the invariant. *)

From Coq Require Import Reals Lra Lia Psatz List Bool Permutation PeanoNat.
From Verif Require Import Base BaseLemmas Spec SpecLemmas SpecBoundary4 SpecLowner ModelInternal ModelLine ModelCircle ModelAffine ModelEllipse ModelBoundary4 ModelLowner
  PEllipse PEllipse4 PEllipse5 PEllipse6 PBoundary4b PBoundary4d PBoundary4e PLowner1 PLowner2 PLowner3.
Import ListNotations.
Local Open Scope R_scope.

Section Search.
Variable argsort : list R -> list nat.
Variable roots : R -> R -> R -> R -> list R.
Variable eigh : mat2 -> eigh_res.
Variable eigvals : mat2 -> R * R.
Variable ch : list bool -> nat.
Hypothesis Hsort : is_argsort argsort.
Hypothesis Hroots : is_roots roots.
Hypothesis Heigh : forall S, is_eigh S (eigh S).
Hypothesis Hev : forall M, is_eigvals M (eigvals M).

Notation lj := (lowner_full true argsort roots eigh eigvals ch).
Notation stop := (lj_stop true argsort roots eigh eigvals).

Definition good5 (l : list pt) : Prop := forall O a b th, through_five l O a b th -> not_diagonal a b th.
Definition feasible (ip bp : list pt) : Prop := exists O a b th, feas O a b th ip bp.

Lemma five_best ip P1 P2 P3 P4 P5 e : NoDup [P1; P2; P3; P4; P5] -> good5 [P1; P2; P3; P4; P5] -> feasible ip [P1; P2; P3; P4; P5] ->
  ellipse_from_five_points eigvals P1 P2 P3 P4 P5 = Ok e -> best e ip [P1; P2; P3; P4; P5].
Proof.
  intros ND HG (O & a & b & th & Ha & Hb & Hi & Ho) H.
  assert (K : forall O a b th, 0 < a -> 0 < b -> Forall (on_ellipse O a b th) [P1; P2; P3; P4; P5] ->
    0 < eb e <= ea e /\ forall M, ell_form (eO e) (ea e) (eb e) (ell_th e) M = ell_form O a b th M).
  { clear O a b th Ha Hb Hi Ho. intros O a b th Ha Hb Ho. set (e0 := mkEllipse O a b th false).
    assert (ET : ell_th e0 = th) by reflexivity.
    pose proof H as H'. rewrite (from_five_of_ellipse eigvals e0 P1 P2 P3 P4 P5 Hev Ha Hb ND) in H' by exact Ho.
    pose proof (own_equation_same eigvals e0 e Hev Ha Hb) as S. unfold feq in H'. apply S in H'; [exact H'|].
    apply (HG O a b th). split; [auto|]. split; [auto|]. exists [P1; P2; P3; P4; P5]. split; [reflexivity|]. split; [auto|]. split; [apply incl_refl|auto]. }
  destruct (K O a b th Ha Hb Ho) as [Hax HF]. split; [auto|]. split; [|split].
  - eapply Forall_impl; [|exact Hi]. intros M. unfold in_ellipse. rewrite HF. auto.
  - eapply Forall_impl; [|exact Ho]. intros M. unfold on_ellipse. rewrite HF. auto.
  - intros O' a' b' th' (Ha' & Hb' & _ & Ho'). destruct (K O' a' b' th' Ha' Hb' Ho') as [_ HF']. apply Req_le. apply (form_area (eO e) (ea e) (eb e) (ell_th e) O' a' b' th'); auto; lra.
Qed.

Lemma stop_best bp e : (length bp <= 4)%nat -> ((4 <= length bp)%nat -> NoDup bp) -> feasible [] bp -> stop bp = Ok (Some e) -> best e [] bp.
Proof.
  intros Hb ND HF H. destruct bp as [|P1 [|P2 [|P3 [|P4 [|]]]]]; cbn [length] in Hb; try lia; cbn [lj_stop] in H; try discriminate.
  - destruct (from_boundary3 eigh P1 P2 P3) as [e'|] eqn:E; cbn [bind] in H; [|discriminate]. injection H as ->.
    destruct (from_boundary3_on eigh P1 P2 P3 e Heigh E) as (_ & _ & Hax & Hon). split; [auto|]. split; [constructor|]. split; [auto|].
    intros O a b th (Ha & Hb' & _ & Ho). apply (from_boundary3_minimal eigh P1 P2 P3 e O a b th Heigh E Ha Hb'). eapply Forall_impl; [|exact Ho]. apply on_in.
  - destruct (from_boundary4 true argsort roots eigh P1 P2 P3 P4) as [e'|] eqn:E; cbn [bind] in H; [|discriminate]. injection H as ->.
    destruct HF as (O & a & b & th & Ha & Hb' & _ & Ho). pose proof (four_on_convex O a b th P1 P2 P3 P4 Ha Hb' (ND ltac:(cbn; lia)) Ho) as CP.
    destruct (boundary4_smallest_set argsort roots eigh P1 P2 P3 P4 Hsort Hroots Heigh CP) as (e0 & E0 & Hax & Hon & Hmin). rewrite E in E0. injection E0 as <-.
    split; [auto|]. split; [constructor|]. split; [exact Hon|]. intros O' a' b' th' (Ha' & Hb'' & _ & Ho'). apply (Hmin O' a' b' th' Ha' Hb'' Ho').
Qed.

Lemma nodup_snoc (l : list pt) p : NoDup l -> ~ In p l -> NoDup (l ++ [p]).
Proof. intros H1 H2. apply (Permutation_NoDup (Permutation_cons_append l p)). constructor; auto. Qed.

Lemma nodup3 P1 P2 P3 e : from_boundary3 eigh P1 P2 P3 = Ok e -> NoDup [P1; P2; P3].
Proof.
  intros H. destruct (from_boundary3_on eigh P1 P2 P3 e Heigh H) as (K & _).
  assert (P1 <> P2) by (intros ->; apply K; unfold br, scross, vsub; cbn [fst snd]; ring). assert (P1 <> P3) by (intros ->; apply K; unfold br, scross, vsub; cbn [fst snd]; ring). assert (P2 <> P3) by (intros ->; apply K; unfold br, scross, vsub; cbn [fst snd]; ring).
  repeat constructor; cbn [In]; intuition congruence.
Qed.

Lemma lj_best n : forall path ip bp e, length ip = n -> (length bp <= 5)%nat -> ((4 <= length bp)%nat -> NoDup bp) -> good5 (ip ++ bp) -> feasible ip bp ->
  lj n path ip bp = Ok (Some e) -> best e ip bp.
Proof.
  induction n as [|n IH]; intros path ip bp e Hi Hb ND HG HF H; (destruct (Nat.eq_dec (length bp) 5) as [E5|N5]; [rewrite lj_full in H by lia|]).
  1, 3: (destruct bp as [|P1 [|P2 [|P3 [|P4 [|P5 [|]]]]]]; cbn [length] in E5; try lia; cbn [lj_stop] in H;
    destruct (ellipse_from_five_points eigvals P1 P2 P3 P4 P5) as [e'|] eqn:E; cbn [bind] in H; [|discriminate]; injection H as ->;
    apply five_best; auto; [apply ND; cbn; lia|]; intros O a b th K; apply (HG O a b th); eapply through_five_incl; [|exact K]; apply incl_appr, incl_refl).
  - destruct ip; [|discriminate]. apply stop_best; auto; lia.
  - destruct (lj_step true argsort roots eigh eigvals ch n path ip bp Hi ltac:(lia)) as (p & ip' & HP & HL & E). rewrite E in H. clear E.
    assert (I1 : incl (ip' ++ bp) (ip ++ bp)). { apply incl_app; [apply incl_appl|apply incl_appr, incl_refl]. intros x Hx. apply (Permutation_in _ (Permutation_sym HP)). right. auto. }
    assert (I2 : incl (ip' ++ bp ++ [p]) (ip ++ bp)).
    { apply incl_app; [intros x Hx; apply I1, in_or_app; auto|]. apply incl_app; [apply incl_appr, incl_refl|]. intros x [<-|[]]. apply in_or_app. left. apply (Permutation_in _ (Permutation_sym HP)). left. auto. }
    assert (G1 : good5 (ip' ++ bp)) by (intros O a b th K; exact (HG O a b th (through_five_incl _ _ O a b th I1 K))).
    assert (G2 : good5 (ip' ++ bp ++ [p])) by (intros O a b th K; exact (HG O a b th (through_five_incl _ _ O a b th I2 K))).
    assert (HF1 : feasible ip' bp). { destruct HF as (O & a & b & th & K). apply (feas_perm _ _ _ _ _ _ _ HP) in K. destruct K as (K1 & K2 & K3 & K4). exists O, a, b, th. inversion_clear K3. repeat split; auto. }
    (* back to [ip] *)
    assert (back : best e ip' (bp ++ [p]) -> (forall O a b th, feas O a b th ip bp -> exists O' a' b' th', feas O' a' b' th' ip' (bp ++ [p]) /\ a' * b' <= a * b) -> best e ip bp).
    { intros (B1 & B2 & B3 & B4) SL. apply Forall_app in B3. destruct B3 as [B3 B3']. split; [auto|]. split; [|split; [auto|]].
      - apply (Permutation_Forall (Permutation_sym HP)). constructor; [|auto]. inversion_clear B3'. apply on_in. auto.
      - intros O a b th K. destruct (SL O a b th K) as (O' & a' & b' & th' & K' & L). specialize (B4 O' a' b' th' K'). lra. }
    destruct (lj n (true :: path) ip' bp) as [[e1|]|x] eqn:E1; cbn [bind] in H; [| |discriminate].
    + pose proof (IH (true :: path) ip' bp e1 HL Hb ND G1 HF1 E1) as B1. pose proof B1 as (Hax1 & Hin1 & Hon1 & Hmin1).
      destruct (ellipse_contains e1 p) eqn:Ec.
      * injection H as <-. apply ellipse_contains_spec in Ec; [|lra..]. split; [auto|]. split; [|split; [auto|]].
        -- apply (Permutation_Forall (Permutation_sym HP)). constructor; auto.
        -- intros O a b th K. apply Hmin1 with O th. apply (feas_perm _ _ _ _ _ _ _ HP) in K. destruct K as (K1 & K2 & K3 & K4). inversion_clear K3. repeat split; auto.
      * assert (Np : ~ in_ellipse (eO e1) (ea e1) (eb e1) (ell_th e1) p). { intros K. apply ellipse_contains_spec in K; [congruence|lra..]. }
        assert (Dp : ~ In p bp). { intros K. rewrite Forall_forall in Hon1. apply Np, on_in, Hon1, K. }
        destruct (lj_two true argsort roots eigh eigvals ch n Heigh (true :: path) ip' bp e1 HL Hb ND E1) as (M & N & HMN & IM & IN).
        assert (SL : forall O a b th, feas O a b th ip bp -> exists O' a' b' th', feas O' a' b' th' ip' (bp ++ [p]) /\ a' * b' <= a * b).
        { intros O a b th K. apply (feas_perm _ _ _ _ _ _ _ HP) in K. apply (slide O a b th e1 p ip' bp B1 Np); [|auto]. exists M, N. auto. }
        apply back; [|exact SL]. apply (IH (false :: path)); auto.
        -- rewrite app_length. cbn [length]. lia.
        -- rewrite app_length. cbn [length]. intros L4. apply nodup_snoc; [|auto]. destruct (Nat.eq_dec (length bp) 3) as [E3|N3]; [|apply ND; lia].
           destruct bp as [|P1 [|P2 [|P3 [|]]]]; cbn [length] in E3; try lia. destruct (lj_base3 true argsort roots eigh eigvals ch n (true :: path) ip' P1 P2 P3 (Some e1) HL E1) as [e3 E3']. eapply nodup3; eauto.
        -- destruct HF as (O & a & b & th & K). destruct (SL O a b th K) as (O' & a' & b' & th' & K' & _). exists O', a', b', th'. exact K'.
    + pose proof (lj_count true argsort roots eigh eigvals ch n (true :: path) ip' bp None HL Hb E1) as C1. assert (C : (length ip' + length bp <= 2)%nat) by (apply C1; auto).
      pose proof (lj_count true argsort roots eigh eigvals ch n (false :: path) ip' (bp ++ [p]) (Some e) HL ltac:(rewrite app_length; cbn [length]; lia) H) as C2.
      assert (C3 : (length ip' + length (bp ++ [p]) = 3)%nat). { rewrite app_length in *. cbn [length] in *. destruct (Nat.le_gt_cases (length ip' + (length bp + 1)) 2) as [Q|Q]; [apply C2 in Q; discriminate|lia]. }
      destruct (lj_three true argsort roots eigh eigvals ch n (false :: path) ip' (bp ++ [p]) e HL C3 H) as (P1 & P2 & P3 & Q & F).
      destruct (from_boundary3_on eigh P1 P2 P3 e Heigh F) as (_ & _ & Hax & Hon). apply (Permutation_Forall (Permutation_sym Q)) in Hon. apply Forall_app in Hon. destruct Hon as [Hon1 Hon2]. apply Forall_app in Hon2. destruct Hon2 as [Hon2 Hon3].
      split; [auto|]. split; [|split; [auto|]].
      * apply (Permutation_Forall (Permutation_sym HP)). inversion_clear Hon3. constructor; [apply on_in; auto|]. eapply Forall_impl; [|exact Hon1]. apply on_in.
      * intros O a b th K. apply (feas_perm _ _ _ _ _ _ _ HP) in K. destruct K as (Ka & Kb & Ki & Ko). inversion_clear Ki as [|? ? Kp Ki']. apply (from_boundary3_minimal eigh P1 P2 P3 e O a b th Heigh F Ka Kb).
        apply (Permutation_Forall Q). apply Forall_app. split; [auto|]. apply Forall_app. split; [eapply Forall_impl; [|exact Ko]; apply on_in|]. constructor; auto.
Qed.
End Search.
