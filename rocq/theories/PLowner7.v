(** * The search for the smallest ellipse: when it returns. *)

From Coq Require Import Reals Lra Lia List Bool Permutation PeanoNat.
From Verif Require Import Base BaseLemmas Spec SpecLemmas SpecBoundary4 SpecLowner ModelInternal ModelLine ModelCircle ModelAffine ModelEllipse ModelBoundary4 ModelLowner
  PEllipse6 PEllipseEx PBoundary4e PLowner3 PLowner4 PLowner5 PLowner6.
Import ListNotations.
Local Open Scope R_scope.

Section Search.
Variable argsort : list R -> list nat.
Variable roots : R -> R -> R -> R -> list R.
Variable eigh : mat2 -> eigh_res.
Variable eigvals : mat2 -> R * R.
Variable ch : list bool -> nat.
Hypothesis Hsort : is_argsort argsort.
Hypothesis Hroots : is_roots roots.
Hypothesis Heigh : forall S, is_eigh S (eigh S).
Hypothesis Hev : forall M, is_eigvals M (eigvals M).

Notation LJ := (LownerJohn_full true argsort roots eigh eigvals ch).

Lemma full_returns points : (3 <= length points)%nat -> no_three_aligned points ->
  (forall O a b th, through_five points O a b th -> not_diagonal a b th /\ dist2 (0, 0) O < a ^ 2 + b ^ 2) ->
  exists e, LJ points = Ok (Some e).
Proof.
  intros HL NA H5. assert (HG : good5 points) by (intros O a b th H; apply (H5 O a b th H)).
  destruct (full_cases argsort roots eigh eigvals ch Hsort Hroots Heigh Hev points HG) as [HN HX].
  destruct (LJ points) as [[e|]|x] eqn:E; [exists e; auto| |]; exfalso.
  - assert (length points < 3)%nat by (apply HN; auto). lia.
  - destruct (HX x eq_refl) as [(_ & A & B & C & l & Q & K)|(_ & O & a & b & th & K1 & K2)].
    + exact (NA A B C l Q K).
    + destruct (H5 O a b th K1). lra.
Qed.

Lemma full_boundary ip bp e : (length bp <= 5)%nat -> NoDup bp ->
  (forall O a b th, through_five (ip ++ bp) O a b th -> not_diagonal a b th) ->
  (exists O a b th, 0 < a /\ 0 < b /\ Forall (in_ellipse O a b th) ip /\ Forall (on_ellipse O a b th) bp) ->
  lowner_full true argsort roots eigh eigvals ch (length ip) [] ip bp = Ok (Some e) ->
  0 < eb e <= ea e /\ Forall (in_ellipse (eO e) (ea e) (eb e) (radians (edeg e) (ealpha e))) ip /\
  Forall (on_ellipse (eO e) (ea e) (eb e) (radians (edeg e) (ealpha e))) bp /\
  forall O a b th, 0 < a -> 0 < b -> Forall (in_ellipse O a b th) ip -> Forall (on_ellipse O a b th) bp -> PI * ea e * eb e <= PI * a * b.
Proof.
  intros HL ND HG HF H. destruct (lj_best argsort roots eigh eigvals ch Hsort Hroots Heigh Hev (length ip) [] ip bp e eq_refl HL (fun _ => ND) HG HF H) as (B1 & B2 & B3 & B4).
  split; [auto|]. split; [auto|]. split; [auto|]. intros O a b th Ha Hb Hi Ho. pose proof PI_RGT_0. rewrite !Rmult_assoc. apply Rmult_le_compat_l; [lra|]. apply (B4 O a b th). repeat split; auto.
Qed.

(** three points on a line, among three *)
Lemma full_aligned A B C : collinear A B C -> LJ [A; B; C] = Raise LinAlgError.
Proof.
  intros K. assert (HG : good5 [A; B; C]). { intros O a b th (_ & _ & q & Q1 & Q2 & Q3 & _). pose proof (NoDup_incl_length Q2 Q3). cbn [length] in H. lia. }
  destruct (full_cases argsort roots eigh eigvals ch Hsort Hroots Heigh Hev [A; B; C] HG) as [HN HX].
  destruct (LJ [A; B; C]) as [[e|]|x] eqn:E.
  - exfalso. unfold LownerJohn_full in E. destruct (lj_source argsort roots eigh eigvals ch true 3 [] [A; B; C] [] e eq_refl E) as (bp & rest & Q & Hs). rewrite app_nil_r in Q.
    pose proof (Permutation_length Q) as HL. rewrite app_length in HL. cbn [length] in HL.
    destruct bp as [|P1 [|P2 [|P3 [|]]]]; cbn [length] in HL; try lia; cbn [lj_stop] in Hs; try discriminate. destruct rest; cbn [length] in HL; [|lia]. rewrite app_nil_r in Q.
    destruct (from_boundary3_cases eigh P1 P2 P3 Heigh) as [[_ E3]|(N & _)]; [rewrite E3 in Hs; discriminate|]. apply N. apply collinear_cross.
    destruct K as (P & v & a & b & c & EA & EB & EC).
    assert (G : forall X, In X [P1; P2; P3] -> exists t, X = vadd P (vscal t v)).
    { intros X HX'. apply (Permutation_in _ (Permutation_sym Q)) in HX'. destruct HX' as [<-|[<-|[<-|[]]]]; eauto. }
    destruct (G P1 ltac:(cbn; auto)) as [t1 E1]. destruct (G P2 ltac:(cbn; auto)) as [t2 E2]. destruct (G P3 ltac:(cbn; auto)) as [t3 E3]. exists P, v, t1, t2, t3. auto.
  - exfalso. assert (3 < 3)%nat by (apply HN; reflexivity). lia.
  - destruct (HX x eq_refl) as [(-> & _)|(_ & O & a & b & th & (_ & _ & q & Q1 & Q2 & Q3 & _) & _)]; [auto|]. pose proof (NoDup_incl_length Q2 Q3). cbn [length] in H. lia.
Qed.
End Search.

Lemma oracles : exists argsort roots eigh eigvals, is_argsort argsort /\ is_roots roots /\
  (forall S, is_eigh S (eigh S)) /\ (forall M, is_eigvals M (eigvals M)).
Proof.
  destruct argsort_exists as [a Ha]. destruct roots_exist as [r Hr]. destruct eigh_exists as [g Hg]. destruct eigvals_exists as [v Hv]. exists a, r, g, v. auto.
Qed.
