(** * The search for the smallest ellipse: when it succeeds, uniqueness, the other numpy. *)

From Coq Require Import Reals Lra Lia Psatz List Bool Permutation PeanoNat.
From Verif Require Import Base BaseLemmas Spec SpecLemmas SpecBoundary4 SpecLowner ModelInternal ModelLine ModelCircle ModelAffine ModelEllipse ModelBoundary4 ModelLowner
  PEllipse PEllipse4 PEllipse5 PEllipse6 PBoundary4b PBoundary4d PBoundary4e PLowner1 PLowner2 PLowner3 PLowner4.
Import ListNotations.
Local Open Scope R_scope.

(** a circle around all the points *)
Lemma big_circle l : exists r, 0 < r /\ Forall (in_ellipse (0, 0) r r 0) l.
Proof.
  assert (K : exists s, 1 <= s /\ Forall (fun P => fst P * fst P + snd P * snd P <= s) l).
  { induction l as [|[x y] l (s & Hs & IH)]; [exists 1; split; [lra|constructor]|]. exists (s + (x * x + y * y)). pose proof (sqnn x). pose proof (sqnn y). split; [lra|]. constructor; [cbn [fst snd]; lra|]. eapply Forall_impl; [|exact IH]. intros P HP; cbv beta in *; lra. }
  destruct K as (s & Hs & HF). exists s. split; [lra|]. eapply Forall_impl; [|exact HF]. intros [x y] H. cbn [fst snd] in H. unfold in_ellipse, ell_form, fx, fy. rewrite cos_0, sin_0. cbn [fst snd].
  replace (((1 * (x - 0) + 0 * (y - 0)) / s) ^ 2 + ((- 0 * (x - 0) + 1 * (y - 0)) / s) ^ 2) with ((x * x + y * y) / (s * s)) by (field; lra).
  apply Rmult_le_reg_r with (s * s); [nra|]. unfold Rdiv. rewrite Rmult_assoc, Rinv_l by nra. nra.
Qed.

(** the smallest ellipse is unique *)
Lemma best_unique e l O a b th : best e l [] -> (exists M N, M <> N /\ In M l /\ In N l) -> 0 < a -> 0 < b -> Forall (in_ellipse O a b th) l ->
  ea e * eb e = a * b -> forall M, ell_form (eO e) (ea e) (eb e) (ell_th e) M = ell_form O a b th M.
Proof.
  intros (Hax & Hin & _ & Hm) (M & N & HMN & IM & IN) Ha Hb HF Ea.
  assert (L : forall X, In X l -> (1 - / 2) * ell_form (eO e) (ea e) (eb e) (ell_th e) X + / 2 * ell_form O a b th X <= 1).
  { intros X IX. rewrite Forall_forall in Hin, HF. pose proof (Hin X IX) as G1. pose proof (HF X IX) as G2. unfold in_ellipse in *. lra. }
  destruct (pencil (eO e) (ea e) (eb e) (ell_th e) O a b th (/ 2) M N ltac:(lra) ltac:(lra) Ha Hb ltac:(lra) HMN (L M IM) (L N IN)) as (O' & a' & b' & th' & k & Pa & Pb & Pk & HK & _ & HU).
  apply HU; [lra|auto|]. apply (Hm O' a' b' th'). split; [auto|]. split; [auto|]. split; [|constructor].
  apply Forall_forall. intros X IX. unfold in_ellipse. pose proof (HK X). pose proof (L X IX). apply Rmult_le_reg_l with k; lra.
Qed.

Section Search.
Variable argsort : list R -> list nat.
Variable roots : R -> R -> R -> R -> list R.
Variable eigh : mat2 -> eigh_res.
Variable eigvals : mat2 -> R * R.
Variable ch : list bool -> nat.
Hypothesis Hsort : is_argsort argsort.
Hypothesis Hroots : is_roots roots.
Hypothesis Heigh : forall S, is_eigh S (eigh S).
Hypothesis Hev : forall M, is_eigvals M (eigvals M).

Notation lj := (lowner_full true argsort roots eigh eigvals ch).
Notation stop := (lj_stop true argsort roots eigh eigvals).

(** the exceptions *)
Definition aligned_in (l : list pt) : Prop := exists A B C l', Permutation l (A :: B :: C :: l') /\ collinear A B C.
Definition far_in (l : list pt) : Prop := exists O a b th, through_five l O a b th /\ a ^ 2 + b ^ 2 <= dist2 (0, 0) O.
Definition exn_ok (l : list pt) (x : exn) : Prop := (x = LinAlgError /\ aligned_in l) \/ (x = ValueError /\ far_in l).

Lemma exn_more l l' p x : Permutation l' (p :: l) -> exn_ok l x -> exn_ok l' x.
Proof.
  intros HP [(-> & A & B & C & q & Q & K)|(-> & O & a & b & th & T & K)]; [left|right]; (split; [auto|]).
  - exists A, B, C, (p :: q). split; [|auto]. eapply perm_trans; [exact HP|]. eapply perm_trans; [apply perm_skip, Q|]. eapply perm_trans; [apply perm_swap|]. apply perm_skip. eapply perm_trans; [apply perm_swap|]. apply perm_skip, perm_swap.
  - exists O, a, b, th. split; [|auto]. eapply through_five_incl; [|exact T]. intros y Hy. apply (Permutation_in _ (Permutation_sym HP)). right. auto.
Qed.
Lemma exn_perm l l' x : Permutation l' l -> exn_ok l x -> exn_ok l' x.
Proof.
  intros HP [(-> & A & B & C & q & Q & K)|(-> & O & a & b & th & T & K)]; [left|right]; (split; [auto|]).
  - exists A, B, C, q. split; [|auto]. eapply perm_trans; eauto.
  - exists O, a, b, th. split; [|auto]. eapply through_five_incl; [|exact T]. intros y Hy. apply (Permutation_in _ (Permutation_sym HP)). auto.
Qed.

Lemma stop_exn ip bp x : (length bp <= 5)%nat -> ((4 <= length bp)%nat -> NoDup bp) -> ((4 <= length bp)%nat -> feasible ip bp) -> stop bp = Raise x -> exn_ok bp x.
Proof.
  intros Hb ND HF H. destruct bp as [|P1 [|P2 [|P3 [|P4 [|P5 [|]]]]]]; cbn [length] in *; try lia; cbn [lj_stop] in H; try discriminate.
  - destruct (from_boundary3_cases eigh P1 P2 P3 Heigh) as [[K E]|(_ & e & E & _)]; rewrite E in H; cbn [bind] in H; [|discriminate]. injection H as <-. left. split; [auto|]. exists P1, P2, P3, []. split; [auto|]. apply collinear_cross. exact K.
  - destruct (HF ltac:(lia)) as (O & a & b & th & Ha & Hb' & _ & Ho). pose proof (four_on_convex O a b th P1 P2 P3 P4 Ha Hb' (ND ltac:(lia)) Ho) as CP.
    destruct (boundary4_smallest_set argsort roots eigh P1 P2 P3 P4 Hsort Hroots Heigh CP) as (e0 & E0 & _). rewrite E0 in H. discriminate.
  - destruct (HF ltac:(lia)) as (O & a & b & th & Ha & Hb' & _ & Ho). set (e0 := mkEllipse O a b th false).
    rewrite (from_five_of_ellipse eigvals e0 P1 P2 P3 P4 P5 Hev Ha Hb' (ND ltac:(lia))) in H by exact Ho.
    pose proof (own_equation_ok eigvals e0 Hev Ha Hb') as K. destruct K as [K1 K2]. unfold feq in *. destruct (ellipse_equation e0) as [[[[[A B] C] D] E] F].
    destruct (Rlt_or_le (dist2 (0, 0) O) (a ^ 2 + b ^ 2)) as [L|L].
    + apply K1 in L. destruct L as [e' E']. rewrite E' in H. discriminate.
    + pose proof (proj2 K2 L) as E'. rewrite E' in H. cbn [bind] in H. injection H as <-. right. split; [auto|]. exists O, a, b, th. split; [|auto]. split; [auto|]. split; [auto|]. exists [P1; P2; P3; P4; P5]. split; [reflexivity|]. split; [apply ND; lia|]. split; [apply incl_refl|auto].
Qed.

Lemma lj_exn n : forall path ip bp x, length ip = n -> (length bp <= 5)%nat -> ((4 <= length bp)%nat -> NoDup bp) -> good5 (ip ++ bp) -> ((4 <= length ip + length bp)%nat -> feasible ip bp) ->
  lj n path ip bp = Raise x -> exn_ok (ip ++ bp) x.
Proof.
  assert (stop' : forall ip bp x, (length bp <= 5)%nat -> ((4 <= length bp)%nat -> NoDup bp) -> ((4 <= length ip + length bp)%nat -> feasible ip bp) -> stop bp = Raise x -> exn_ok (ip ++ bp) x).
  { intros ip bp x Hb ND HF H. assert (K : exn_ok bp x) by (eapply stop_exn; eauto; intros; apply HF; lia). clear H HF ND Hb. induction ip as [|p ip IH]; [auto|]. eapply exn_more; [|exact IH]. cbn [app]. apply Permutation_refl. }
  induction n as [|n IH]; intros path ip bp x Hi Hb ND HG HF H; (destruct (Nat.eq_dec (length bp) 5) as [E5|N5]; [rewrite lj_full in H by lia; apply stop'; auto|]).
  - apply stop'; auto.
  - destruct (lj_step true argsort roots eigh eigvals ch n path ip bp Hi ltac:(lia)) as (p & ip' & HP & HL & E). rewrite E in H. clear E.
    assert (I1 : incl (ip' ++ bp) (ip ++ bp)). { apply incl_app; [apply incl_appl|apply incl_appr, incl_refl]. intros y Hy. apply (Permutation_in _ (Permutation_sym HP)). right. auto. }
    assert (I2 : incl (ip' ++ bp ++ [p]) (ip ++ bp)).
    { apply incl_app; [intros y Hy; apply I1, in_or_app; auto|]. apply incl_app; [apply incl_appr, incl_refl|]. intros y [<-|[]]. apply in_or_app. left. apply (Permutation_in _ (Permutation_sym HP)). left. auto. }
    assert (G1 : good5 (ip' ++ bp)) by (intros O a b th K; exact (HG O a b th (through_five_incl _ _ O a b th I1 K))).
    assert (G2 : good5 (ip' ++ bp ++ [p])) by (intros O a b th K; exact (HG O a b th (through_five_incl _ _ O a b th I2 K))).
    assert (HF1 : feasible ip bp -> feasible ip' bp). { intros (O & a & b & th & K). apply (feas_perm _ _ _ _ _ _ _ HP) in K. destruct K as (K1 & K2 & K3 & K4). exists O, a, b, th. inversion_clear K3. repeat split; auto. }
    assert (Q1 : Permutation (ip ++ bp) (p :: ip' ++ bp)) by (apply (Permutation_app_tail bp HP)).
    assert (Q2 : Permutation (ip ++ bp) (ip' ++ bp ++ [p])). { eapply perm_trans; [exact Q1|]. rewrite app_assoc. apply Permutation_cons_append. }
    destruct (lj n (true :: path) ip' bp) as [[e1|]|y] eqn:E1; cbn [bind] in H.
    + destruct (ellipse_contains e1 p) eqn:Ec; [discriminate|].
      pose proof (lj_count true argsort roots eigh eigvals ch n (true :: path) ip' bp (Some e1) HL Hb E1) as C1.
      assert (C : (3 <= length ip' + length bp)%nat). { destruct (Nat.le_gt_cases (length ip' + length bp) 2) as [Q|Q]; [apply C1 in Q; discriminate|lia]. }
      assert (HF0 : feasible ip bp) by (apply HF; lia).
      pose proof (lj_best argsort roots eigh eigvals ch Hsort Hroots Heigh Hev n (true :: path) ip' bp e1 HL Hb ND G1 (HF1 HF0) E1) as B1. pose proof B1 as (Hax1 & Hin1 & Hon1 & Hmin1).
      assert (Np : ~ in_ellipse (eO e1) (ea e1) (eb e1) (ell_th e1) p). { intros K. apply ellipse_contains_spec in K; [congruence|lra..]. }
      assert (Dp : ~ In p bp). { intros K. rewrite Forall_forall in Hon1. apply Np, on_in, Hon1, K. }
      eapply exn_perm; [exact Q2|]. apply (IH (false :: path)); auto.
      * rewrite app_length. cbn [length]. lia.
      * rewrite app_length. cbn [length]. intros L4. apply nodup_snoc; [|auto]. destruct (Nat.eq_dec (length bp) 3) as [E3|N3]; [|apply ND; lia].
        destruct bp as [|P1 [|P2 [|P3 [|]]]]; cbn [length] in E3; try lia. destruct (lj_base3 true argsort roots eigh eigvals ch n (true :: path) ip' P1 P2 P3 (Some e1) HL E1) as [e3 E3']. eapply nodup3; eauto.
      * intros _. destruct HF0 as (O & a & b & th & K). apply (feas_perm _ _ _ _ _ _ _ HP) in K.
        destruct (lj_two true argsort roots eigh eigvals ch n Heigh (true :: path) ip' bp e1 HL Hb ND E1) as (M & N & HMN & IM & IN).
        destruct (slide O a b th e1 p ip' bp B1 Np) as (O' & a' & b' & th' & K' & _); [exists M, N; auto|auto|]. exists O', a', b', th'. exact K'.
    + pose proof (lj_count true argsort roots eigh eigvals ch n (true :: path) ip' bp None HL Hb E1) as C1. assert (C : (length ip' + length bp <= 2)%nat) by (apply C1; auto).
      eapply exn_perm; [exact Q2|]. apply (IH (false :: path)); auto; rewrite app_length; cbn [length]; lia.
    + injection H as ->. eapply exn_more; [exact Q1|]. apply (IH (true :: path)); auto. intros L. apply HF1, HF. lia.
Qed.

Notation LJ := (LownerJohn_full true argsort roots eigh eigvals ch).

Lemma feasible_all points : feasible points [].
Proof. destruct (big_circle points) as (r & Pr & HF). exists (0, 0), r, r, 0. repeat split; auto. Qed.

Lemma full_smallest points e : good5 points -> LJ points = Ok (Some e) ->
  0 < eb e <= ea e /\ smallest_enclosing (eO e) (ea e) (eb e) (ell_th e) points.
Proof.
  intros HG H. unfold LownerJohn_full in H. rewrite <- (app_nil_r points) in HG.
  pose proof (lj_best argsort roots eigh eigvals ch Hsort Hroots Heigh Hev (length points) [] points [] e eq_refl ltac:(cbn; lia) ltac:(cbn; lia) HG (feasible_all points) H) as B.
  destruct (lj_two true argsort roots eigh eigvals ch (length points) Heigh [] points [] e eq_refl ltac:(cbn; lia) ltac:(cbn; lia) H) as (M & N & HMN & IM & IN). rewrite app_nil_r in IM, IN.
  pose proof B as (Hax & Hin & _ & Hm). split; [auto|]. split; [lra|]. split; [lra|]. split; [auto|]. intros O a b th Ha Hb HF.
  assert (L : ea e * eb e <= a * b) by (apply (Hm O a b th); repeat split; auto). pose proof PI_RGT_0. split.
  - rewrite !Rmult_assoc. apply Rmult_le_compat_l; lra.
  - intros E X. assert (E' : ea e * eb e = a * b) by (rewrite !Rmult_assoc in E; apply Rmult_eq_reg_l with PI; lra).
    unfold in_ellipse. rewrite (best_unique e points O a b th B); [tauto|exists M, N; auto|auto..].
Qed.

Lemma full_cases points : good5 points -> (LJ points = Ok None <-> (length points < 3)%nat) /\ (forall x, LJ points = Raise x -> exn_ok points x).
Proof.
  intros HG. split.
  - split.
    + intros H. pose proof (lj_count true argsort roots eigh eigvals ch (length points) [] points [] None eq_refl ltac:(cbn; lia) H) as K. cbn [length] in K. assert (length points + 0 <= 2)%nat by (apply K; auto). lia.
    + intros L. destruct (LJ points) as [r|x] eqn:E.
      * pose proof (lj_count true argsort roots eigh eigvals ch (length points) [] points [] r eq_refl ltac:(cbn; lia) E) as K. cbn [length] in K. f_equal. apply K. lia.
      * exfalso. assert (K : exn_ok points x). { pose proof (lj_exn (length points) [] points [] x eq_refl ltac:(cbn; lia) ltac:(cbn; lia)) as K. rewrite app_nil_r in K. apply K; auto. intros _. apply feasible_all. }
        destruct K as [(_ & A & B & C & l' & Q & _)|(_ & O & a & b & th & (_ & _ & q & Q1 & Q2 & Q3 & _) & _)].
        -- apply Permutation_length in Q. cbn [length] in Q. lia.
        -- pose proof (NoDup_incl_length Q2 Q3). lia.
  - intros x H. pose proof (lj_exn (length points) [] points [] x eq_refl ltac:(cbn; lia) ltac:(cbn; lia)) as K. rewrite app_nil_r in K. apply K; auto. intros _. apply feasible_all.
Qed.
End Search.
