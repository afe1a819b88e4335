(** * The [show] methods: proofs *)

From Coq Require Import Reals List Bool String Lra.
From Verif Require Import Base BaseLemmas Spec SpecLemmas ModelInternal ModelLine ModelCircle ModelEllipse ModelInversion ModelTriangle ModelAffine ModelTransfo ModelMobius ModelShow SpecShow PLine PTriangle.
Import ListNotations.
Local Open Scope R_scope.
Local Open Scope string_scope.

Lemma line_show_last l M cc : lA l <> lB l -> on_line (lA l) (lB l) M -> exists s b,
  outcome (line_show l) = Ok tt /\ last (printed (line_show l)) [] = [Str s] /\ line_includes l M true cc = Ok b /\
  (s = "Infinite line passing through A and B." /\ b = true \/
   s = "Segment joining A and B." /\ (b = true <-> on_segment (lA l) (lB l) M) \/
   s = "Half-line with origin A and passing through B." /\ (b = true <-> on_open_ray (lA l) (lB l) M) \/
   s = "Half-line with origin B and passing through A." /\ (b = true <-> on_open_ray (lB l) (lA l) M)).
Proof.
  intros N H. destruct (includes_strict l M cc N H) as (b & E & K). unfold line_show. cbn [printed outcome last].
  eexists; exists b. split; [reflexivity|]. split; [reflexivity|]. split; [exact E|].
  destruct (lextA l), (lextB l); cbn [andb]; tauto.
Qed.

Lemma flat_iff A B C f : flatness (mkTri A B C) = Ok f -> f = 1 <-> collinear A B C.
Proof. intros H. apply (flatness_spec (mkTri A B C) f H). Qed.


Lemma triangle_show_spec A B C :
  let s := triangle_show (mkTri A B C) in
  let head := [[Str "Triangle:"]; [Str "A: "; Tup A]; [Str "B: "; Tup B]; [Str "C: "; Tup C]] in
  let u := vsub B A in let v := vsub C A in
  (A = B \/ A = C -> s = mkShown head (Raise ZeroDivisionError)) /\
  (A <> B -> A <> C -> collinear A B C -> s = mkShown (head ++ [[Str "The triangle is flat."]])%list (Ok tt)) /\
  (~ collinear A B C -> 100 * scross u v ^ 2 < sdot u u * sdot v v ->
     exists f, s = mkShown (head ++ [[Str "The triangle is almost flat (flatness: "; Num f; Str ")."]])%list (Ok tt) /\
       f * (sdot u u * sdot v v) = sdot u v ^ 2) /\
  (~ collinear A B C -> sdot u u * sdot v v <= 100 * scross u v ^ 2 -> s = mkShown head (Ok tt)).
Proof.
  assert (Hcase : forall f, flatness (mkTri A B C) = Ok f -> f = 1 <-> collinear A B C) by (intros f; apply flat_iff).
  cbv zeta. unfold triangle_show. cbn [tA tB tC]. destruct (flatness (mkTri A B C)) as [f|e] eqn:E.
  - destruct (flatness_spec (mkTri A B C) f E) as (N1 & N2 & Hf & Hcol & Hfeq). cbn [tA tB tC] in *.
    set (u := vsub B A) in *. set (v := vsub C A) in *.
    assert (LG : sdot u v ^ 2 + scross u v ^ 2 = sdot u u * sdot v v) by (unfold sdot, scross; ring).
    assert (Du : dist2 A B = sdot u u) by reflexivity. assert (Dv : dist2 A C = sdot v v) by reflexivity. rewrite Du, Dv in Hfeq.
    assert (Pu : 0 < sdot u u) by (rewrite <- Du; apply dist2_pos; auto). assert (Pv : 0 < sdot v v) by (rewrite <- Dv; apply dist2_pos; auto).
    assert (Puv : 0 < sdot u u * sdot v v) by (apply Rmult_lt_0_compat; auto).
    repeat split.
    + intros [X|X]; congruence.
    + intros _ _ Hc. apply Hcol in Hc. subst f. unfold eqb. destruct (Req_EM_T 1 1); [reflexivity|congruence].
    + intros Hc L. exists f. split; auto. unfold eqb, ltb. destruct (Req_EM_T f 1); [tauto|]. destruct (Rlt_dec (99 / 100) f); [reflexivity|]. exfalso. nra.
    + intros Hc L. unfold eqb, ltb. destruct (Req_EM_T f 1); [tauto|]. destruct (Rlt_dec (99 / 100) f); [|reflexivity]. exfalso. nra.
  - destruct (proj1 (flatness_raise (mkTri A B C) e) E) as (-> & X). cbn [tA tB tC] in X.
    assert (Hcol : collinear A B C).
    { destruct X as [<-|<-].
      - exists A, (vsub C A), 0, 0, 1. unfold vadd, vscal, vsub. destruct A, C; cbn. repeat split; f_equal; ring.
      - exists A, (vsub B A), 0, 1, 0. unfold vadd, vscal, vsub. destruct A, B; cbn. repeat split; f_equal; ring. }
    repeat split; try tauto.
Qed.

Lemma projection_show_raises p : outcome (projection_show p) = Raise AttributeError /\
  tl (printed (projection_show p)) = [[Str "A: "; Arr (lA (pD p))]; [Str "B: "; Arr (lB (pD p))]].
Proof. split; reflexivity. Qed.

Lemma shear_show_vectors s : exists v2, In [Str "first vector: "; Tup (sw s)] (printed (shear_show s)) /\ In [Str "second vector: "; Tup v2] (printed (shear_show s)) /\
  sdot (sw s) v2 = 0 /\ scross (sw s) v2 = sratio s * sdot (sw s) (sw s) /\ sdot v2 v2 = sratio s ^ 2 * sdot (sw s) (sw s).
Proof.
  destruct s as [Q [x y] r a d]. unfold shear_show. cbn [sw sratio printed]. exists (- r * y, r * x). cbn [In sQ sangle sdeg].
  split; [tauto|]. split; [tauto|]. unfold sdot, scross. cbn. repeat split; ring.
Qed.

Lemma show_units :
  (forall e, exists s, last (printed (ellipse_show e)) [] = [Str "angle: "; Num (ealpha e); Str s] /\
     (s = "degrees" \/ s = "degree" <-> edeg e = true) /\ (s = "radians" \/ s = "radian" <-> edeg e = false) /\ (s = "degree" \/ s = "radian" <-> ealpha e = 1)) /\
  (forall r, exists s, last (printed (rotation_show r)) [] = [Str "angle: "; Num (rtheta r); Str s] /\
     (s = "degrees" \/ s = "degree" <-> rdeg r = true) /\ (s = "radians" \/ s = "radian" <-> rdeg r = false) /\ (s = "degree" \/ s = "radian" <-> rtheta r = 1)) /\
  (forall h, exists s, last (printed (shear_show h)) [] = [Str "angle: "; Num (sangle h); Str s] /\
     (s = "degrees" \/ s = "degree" <-> sdeg h = true) /\ (s = "radians" \/ s = "radian" <-> sdeg h = false) /\ (s = "degree" \/ s = "radian" <-> sangle h = 1 \/ sangle h = 0)).
Proof.
  split; [|split].
  - intros e. eexists. split; [reflexivity|]. unfold eqb. destruct (edeg e), (Req_EM_T (ealpha e) 1); cbn; intuition (try discriminate; auto).
  - intros e. eexists. split; [reflexivity|]. unfold eqb. destruct (rdeg e), (Req_EM_T (rtheta e) 1); cbn; intuition (try discriminate; auto).
  - intros [Q [x y] r a d]. eexists. split; [reflexivity|]. unfold eqb. cbn [sangle sdeg].
    destruct d, (Req_EM_T a 1), (Req_EM_T a 0); cbn; intuition (try discriminate; auto).
Qed.

Lemma ex_C77_line : let l := mkLine (0, 0) (1, 0) false true in lA l <> lB l /\ on_line (lA l) (lB l) (3, 0).
Proof.
  cbn. split.
  - intros K. injection K. intros. lra.
  - exists 3. unfold at_line, vadd, vscal, vsub; cbn. f_equal; ring.
Qed.

(** ** what is printed determines the object *)
Lemma tri_head T : exists tl, printed (triangle_show T) = [Str "Triangle:"] :: [Str "A: "; Tup (tA T)] :: [Str "B: "; Tup (tB T)] :: [Str "C: "; Tup (tC T)] :: tl.
Proof. unfold triangle_show. destruct (flatness T) as [f|]; [destruct (eqb f 1); [|destruct (ltb _ f)]|]; cbn [printed app]; eauto. Qed.

Lemma show_identifies :
  (forall l l', printed (line_show l) = printed (line_show l') -> l = l') /\
  (forall c c', printed (circle_show c) = printed (circle_show c') -> c = c') /\
  (forall e e', printed (ellipse_show e) = printed (ellipse_show e') -> e = e') /\
  (forall i i', printed (inversion_show i) = printed (inversion_show i') -> i = i') /\
  (forall T T', printed (triangle_show T) = printed (triangle_show T') -> T = T') /\
  (forall f f', printed (affine_show f) = printed (affine_show f') -> f = f') /\
  (forall m m', printed (mobius_show m) = printed (mobius_show m') -> m = m') /\
  (forall l l', printed (reflection_show l) = printed (reflection_show l') -> lA l = lA l' /\ lB l = lB l') /\
  (forall r r', printed (rotation_show r) = printed (rotation_show r') -> r = r') /\
  (forall s s', sw s <> (0, 0) -> printed (shear_show s) = printed (shear_show s') -> s = s') /\
  (forall s s', printed (scalingxy_show s) = printed (scalingxy_show s') -> s = s') /\
  (forall h h', printed (homothety_show h) = printed (homothety_show h') -> h = h') /\
  (forall s s', printed (scaling_show s) = printed (scaling_show s') -> s = s').
Proof.
  repeat split.
  - intros [A B a b] [A' B' a' b'] E. cbn in E. injection E. intros. subst. auto.
  - intros [A B] [A' B'] E. cbn in E. injection E. intros. subst. auto.
  - intros [O a b al d] [O' a' b' al' d'] E. unfold ellipse_show in E. cbn [printed edeg ealpha eO ea eb] in E. injection E. intros U E1 E2 E3 E4. subst. f_equal. revert U. destruct d, d'; auto; destruct (eqb al' 1); discriminate.
  - intros [A B] [A' B'] E. cbn in E. injection E. intros. subst. auto.
  - intros T T' E. destruct (tri_head T) as (tl & H), (tri_head T') as (tl' & H'). rewrite H, H' in E. injection E. intros _ E1 E2 E3. clear - E1 E2 E3. destruct T as [A B C], T' as [A' B' C']. cbn in E1, E2, E3. subst. auto.
  - intros [A B] [A' B'] E. cbn in E. injection E. intros. subst. auto.
  - intros m m' E. cbn in E. injection E. auto.
  - intros. unfold reflection_show in H. cbn in H. injection H. auto.
  - intros. unfold reflection_show in H. cbn in H. injection H. auto.
  - intros [O a d] [O' a' d'] E. unfold rotation_show in E. cbn [printed rdeg rtheta rO] in E. injection E. intros U E1 E2. subst. f_equal. revert U. destruct d, d'; auto; destruct (eqb a' 1); discriminate.
  - intros [Q [x y] r a d] [Q' [x' y'] r' a' d'] N E. unfold shear_show in E. cbn [printed sdeg sangle sQ sw sratio] in *. injection E. intros U E1 E2 E3 E4 E5 E6. subst.
    f_equal; [|revert U; destruct d, d'; auto; destruct (eqb a' 1 || eqb a' 0); discriminate].
    destruct (Req_dec x' 0) as [->|Nx]; [|apply (Rmult_eq_reg_r x'); auto]. assert (Ny : y' <> 0) by (intros ->; auto). apply (Rmult_eq_reg_r y'); [lra|auto].
  - intros [A B] [A' B'] E. cbn in E. injection E. intros. subst. auto.
  - intros [A B] [A' B'] E. cbn in E. injection E. intros. subst. auto.
  - intros [A B C] [A' B' C'] E. cbn in E. injection E. intros. subst. auto.
Qed.

Lemma show_labels :
  (forall l, NoDup (labels (line_show l))) /\ (forall c, NoDup (labels (circle_show c))) /\
  (forall e, NoDup (labels (ellipse_show e))) /\ (forall i, NoDup (labels (inversion_show i))) /\
  (forall T, NoDup (labels (triangle_show T))) /\ (forall f, NoDup (labels (affine_show f))) /\
  (forall m, NoDup (labels (mobius_show m))) /\ (forall l, NoDup (labels (reflection_show l))) /\
  (forall r, NoDup (labels (rotation_show r))) /\ (forall s, NoDup (labels (shear_show s))) /\
  (forall s, NoDup (labels (scalingxy_show s))) /\ (forall h, NoDup (labels (homothety_show h))) /\
  (forall s, NoDup (labels (scaling_show s))).
Proof.
  Ltac nodup_str := repeat constructor; cbn [In]; intuition discriminate.
  repeat split; intros.
  - unfold labels. cbn [line_show printed map hd]. destruct (lextA l), (lextB l); cbn [andb]; nodup_str.
  - unfold labels. cbn [circle_show printed map hd]. nodup_str.
  - unfold labels. cbn [ellipse_show printed map hd]. nodup_str.
  - unfold labels. cbn [inversion_show printed map hd]. nodup_str.
  - unfold labels, triangle_show. destruct (flatness T) as [f|]; [destruct (eqb f 1); [|destruct (ltb _ f)]|]; cbn [printed app map hd]; nodup_str.
  - unfold labels. cbn [affine_show printed map hd]. nodup_str.
  - unfold labels. cbn [mobius_show printed map hd]. nodup_str.
  - unfold labels, reflection_show. cbn. nodup_str.
  - unfold labels. cbn [rotation_show printed map hd]. nodup_str.
  - unfold labels, shear_show. destruct (sw s). cbn [printed map hd]. nodup_str.
  - unfold labels. cbn [scalingxy_show printed map hd]. nodup_str.
  - unfold labels. cbn [homothety_show printed map hd]. nodup_str.
  - unfold labels. cbn [scaling_show printed map hd]. nodup_str.
Qed.
