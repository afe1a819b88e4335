(** * Argument validation: proofs *)

From Coq Require Import Reals List Bool ZArith Lia Lra.
From Verif Require Import Base BaseLemmas ModelPy SpecPy ModelLine ModelCircle ModelEllipse ModelTransfo.
Import ListNotations.
Local Open Scope R_scope.

Lemma is_number_iff v : is_number_ v = true <-> num_arg v.
Proof.
  split.
  - destruct v as [|[]| | | | | | | | | | | ]; try discriminate; intros _; eexists; constructor.
  - intros [x H]. inversion H; reflexivity.
Qed.

Lemma real_number_fun v x y : real_number v x -> real_number v y -> x = y.
Proof. intros H. inversion H; subst; intros K; inversion K; subst; auto. Qed.

Lemma num_arg_iff v : error_if_not_number_ v = Ok tt <-> num_arg v.
Proof. unfold error_if_not_number_. rewrite <- is_number_iff. destruct (is_number_ v); split; intros; auto; discriminate. Qed.

Lemma num_err v : error_if_not_number_ v = Ok tt \/ error_if_not_number_ v = Raise ValueError.
Proof. unfold error_if_not_number_. destruct (is_number_ v); auto. Qed.

Lemma pair_of_elements v a b : pair_of v a b -> is_vector_ v = true /\ elements v = [a; b].
Proof. intros [->|[->| ->]]; auto. Qed.

Lemma is_point_iff v : is_point_ v = true <-> exists p, point_arg v p.
Proof.
  unfold is_point_. split.
  - intros H. apply andb_prop in H. destruct H as [H1 H2]. destruct (elements v) as [|a [|b [|c l]]] eqn:E; try discriminate.
    apply andb_prop in H2. destruct H2 as [Ha Hb]. apply is_number_iff in Ha, Hb. destruct Ha as [x Ha], Hb as [y Hb].
    exists (x, y), a, b. split; auto. destruct v; try discriminate; cbn in E; subst; unfold pair_of; auto.
  - intros (p & a & b & H & Ha & Hb). destruct (pair_of_elements v a b H) as [-> ->]. cbn [andb].
    apply andb_true_intro. split; apply is_number_iff; eexists; eauto.
Qed.

Lemma point_err_iff v : error_if_not_point_ v = Ok tt <-> exists p, point_arg v p.
Proof. unfold error_if_not_point_. rewrite <- is_point_iff. destruct (is_point_ v); split; intros; auto; discriminate. Qed.

Lemma point_err v : error_if_not_point_ v = Ok tt \/ error_if_not_point_ v = Raise ValueError.
Proof. unfold error_if_not_point_. destruct (is_point_ v); auto. Qed.

Lemma bool_err_iff v : error_if_not_boolean_ v = Ok tt <-> bool_arg v.
Proof. unfold bool_arg. destruct v as [|[]| | | | | | | | | | | ]; cbn; split; intros H; auto; try discriminate; destruct H; discriminate. Qed.

Lemma bool_err v : error_if_not_boolean_ v = Ok tt \/ error_if_not_boolean_ v = Raise ValueError.
Proof. destruct v; cbn; auto. Qed.

Lemma leb_false_lt x : leb x 0 = false <-> 0 < x.
Proof. unfold leb. destruct (Rle_dec x 0); split; intros; auto; try discriminate; lra. Qed.

Lemma xle0_iff x : xle0 x = false <-> not_le0 x.
Proof. destruct x; cbn; try (split; intros; auto; discriminate). apply leb_false_lt. split; [discriminate|tauto]. Qed.

Lemma pos_iff v : num_arg v -> (error_if_not_positive_ v = Ok tt <-> pos_arg v).
Proof.
  intros [x H]. assert (E : py_le0 v = Ok (xle0 x)).
  { inversion H; subst; cbn [py_le0 xle0 negb]; auto.
    - f_equal. symmetry. unfold leb. destruct (Rle_dec 0 0); auto; lra.
    - f_equal. symmetry. unfold leb. destruct (Rle_dec 1 0); auto; lra.
    - f_equal. unfold leb. destruct (Rle_dec (IZR z) 0) as [K|K].
      + apply Z.leb_le. apply le_IZR; auto.
      + apply Z.leb_gt. apply lt_IZR. lra. }
  unfold error_if_not_positive_. rewrite E. cbn [bind]. split.
  - intros K. exists x. split; auto. apply xle0_iff. destruct (xle0 x); auto; discriminate.
  - intros (y & Hy & K). rewrite (real_number_fun v x y H Hy). apply xle0_iff in K. rewrite K. auto.
Qed.

Lemma pos_err v : num_arg v -> error_if_not_positive_ v = Ok tt \/ error_if_not_positive_ v = Raise ValueError.
Proof. intros [x H]. unfold error_if_not_positive_. inversion H; subst; cbn [py_le0 bind]; match goal with |- context [if ?b then _ else _] => destruct b end; auto. Qed.

Lemma pos_num v : pos_arg v -> num_arg v.
Proof. intros (x & H & _). exists x; auto. Qed.

Lemma to_float_spec v x : real_number v x ->
  (to_float v = Ok x /\ ~ (exists z, v = VInt z /\ (2 ^ 1024 - 2 ^ 970 <= Z.abs z)%Z)) \/
  (to_float v = Raise OverflowError /\ exists z, v = VInt z /\ (2 ^ 1024 - 2 ^ 970 <= Z.abs z)%Z).
Proof.
  intros H. inversion H; subst; cbn [to_float]; try (left; split; auto; intros (z' & E & _); discriminate).
  unfold max_int. destruct (Z.abs z <? 2 ^ 1024 - 2 ^ 970)%Z eqn:E.
  - left. split; auto. intros (z' & E' & K). injection E' as <-. apply Z.ltb_lt in E. apply Zle_not_lt in K. auto.
  - right. split; auto. exists z. split; auto. apply Z.ltb_ge in E. auto.
Qed.

Lemma as_point_spec v p : point_arg v p -> (as_point v = Ok p /\ ~ huge v) \/ (as_point v = Raise OverflowError /\ huge v).
Proof.
  intros (a & b & H & Ha & Hb). destruct (pair_of_elements v a b H) as [_ E]. unfold as_point. rewrite E.
  assert (Hh : huge v <-> exists z, (a = VInt z \/ b = VInt z) /\ (2 ^ 1024 - 2 ^ 970 <= Z.abs z)%Z).
  { split.
    - intros (a' & b' & z & H' & K). destruct (pair_of_elements v a' b' H') as [_ E']. rewrite E in E'. injection E' as <- <-. exists z; auto.
    - intros (z & K). exists a, b, z. auto. }
  destruct (to_float_spec a (fst p) Ha) as [[-> Na]|[-> (z & Ka & La)]]; cbn [bind].
  - destruct (to_float_spec b (snd p) Hb) as [[-> Nb]|[-> (z & Kb & Lb)]]; cbn [bind].
    + left. split; [destruct p; auto|]. rewrite Hh. intros (z & [K|K] & L); [apply Na|apply Nb]; eauto.
    + right. split; auto. apply Hh. eauto.
  - right. split; auto. apply Hh. eauto.
Qed.

Lemma point_arg_fun v p q : point_arg v p -> point_arg v q -> p = q.
Proof.
  intros (a & b & H & Ha & Hb) (a' & b' & H' & Ha' & Hb'). destruct (pair_of_elements v a b H) as [_ E], (pair_of_elements v a' b' H') as [_ E']. rewrite E in E'. injection E' as <- <-.
  rewrite (surjective_pairing p), (surjective_pairing q). f_equal; eapply real_number_fun; eauto.
Qed.

Lemma outcome_bad {A} (valid big : Prop) (made : A -> Prop) : ~ valid -> outcome (Raise ValueError) valid big made.
Proof.
  intros N. split.
  - intros o. split; [discriminate|tauto].
  - intros e. split; [intros E; injection E as <-; auto|]. intros [[_ ->]|[K _]]; [auto|tauto].
Qed.

Lemma outcome_big {A} (valid big : Prop) (made : A -> Prop) : valid -> big -> outcome (Raise OverflowError) valid big made.
Proof.
  intros V B. split.
  - intros o. split; [discriminate|tauto].
  - intros e. split; [intros E; injection E as <-; auto|]. intros [[K _]|[_ [_ ->]]]; [tauto|auto].
Qed.

Lemma outcome_ok {A} (o : A) (valid big : Prop) (made : A -> Prop) : valid -> ~ big -> made o -> (forall o', made o' -> o' = o) -> outcome (Ok o) valid big made.
Proof.
  intros V B M U. split.
  - intros o'. split; [intros E; injection E as <-; auto|]. intros (_ & _ & K). f_equal. symmetry. auto.
  - intros e. split; [discriminate|]. tauto.
Qed.

Ltac guard_point v H := destruct (point_err v) as [H|H]; rewrite H; cbn [bind];
  [apply (proj1 (point_err_iff v)) in H | apply outcome_bad; intros K; assert (X : error_if_not_point_ v = Ok tt) by (apply point_err_iff; tauto); rewrite H in X; discriminate].
Ltac guard_num v H := destruct (num_err v) as [H|H]; rewrite H; cbn [bind];
  [apply (proj1 (num_arg_iff v)) in H | apply outcome_bad; intros K; assert (X : error_if_not_number_ v = Ok tt) by (apply num_arg_iff; first [tauto | apply pos_num; tauto]); rewrite H in X; discriminate].
Ltac guard_pos v Hn H := destruct (pos_err v Hn) as [H|H]; rewrite H; cbn [bind];
  [apply (proj1 (pos_iff v Hn)) in H | apply outcome_bad; intros K; assert (X : error_if_not_positive_ v = Ok tt) by (apply (pos_iff v Hn); tauto); rewrite H in X; discriminate].
Ltac guard_bool v H := destruct (bool_err v) as [H|H]; rewrite H; cbn [bind];
  [apply (proj1 (bool_err_iff v)) in H | apply outcome_bad; intros K; assert (X : error_if_not_boolean_ v = Ok tt) by (apply bool_err_iff; tauto); rewrite H in X; discriminate].
Ltac conv v p Hp E B := destruct (as_point_spec v p Hp) as [[E B]|[E B]]; rewrite E; cbn [bind].

Lemma Circle_py_spec center radius :
  outcome (Circle_py center radius) ((exists p, point_arg center p) /\ pos_arg radius) (huge center)
    (fun o => point_arg center (pcO o) /\ pcr o = radius).
Proof.
  unfold Circle_py. guard_point center H1. guard_num radius H2. guard_pos radius H2 H3. pose proof H1 as [p Hp]. conv center p Hp E B.
  - apply outcome_ok; auto. intros [O r] [K1 K2]. cbn in *. subst. f_equal. eapply point_arg_fun; eauto.
  - apply outcome_big; auto.
Qed.

Lemma Arc_py_spec center radius alpha1 alpha2 degrees :
  outcome (Arc_py center radius alpha1 alpha2 degrees)
    ((exists p, point_arg center p) /\ pos_arg radius /\ num_arg alpha1 /\ num_arg alpha2 /\ bool_arg degrees) (huge center)
    (fun o => point_arg center (paO o) /\ par o = radius /\ pa1 o = alpha1 /\ pa2 o = alpha2 /\ padeg o = degrees).
Proof.
  unfold Arc_py. guard_point center H1. guard_num radius H2. guard_pos radius H2 H3. guard_num alpha1 H4. guard_num alpha2 H5. guard_bool degrees H6.
  pose proof H1 as [p Hp]. conv center p Hp E B.
  - apply outcome_ok; auto 10. intros [] (K1 & K2 & K3 & K4 & K5). cbn in *. subst. f_equal. eapply point_arg_fun; eauto.
  - apply outcome_big; auto 10.
Qed.

Lemma Ellipse_py_spec center rmajor rminor alpha degrees :
  outcome (Ellipse_py center rmajor rminor alpha degrees)
    ((exists p, point_arg center p) /\ pos_arg rmajor /\ pos_arg rminor /\ num_arg alpha /\ bool_arg degrees) (huge center)
    (fun o => point_arg center (peO o) /\ pea o = rmajor /\ peb o = rminor /\ pealpha o = alpha /\ pedeg o = degrees).
Proof.
  unfold Ellipse_py. guard_point center H1. guard_num rmajor H2. guard_pos rmajor H2 H3. guard_num rminor H4. guard_pos rminor H4 H4'. guard_num alpha H5. guard_bool degrees H6.
  pose proof H1 as [p Hp]. conv center p Hp E B.
  - apply outcome_ok; auto 10. intros [] (K1 & K2 & K3 & K4 & K5). cbn in *. subst. f_equal. eapply point_arg_fun; eauto.
  - apply outcome_big; auto 10.
Qed.

Lemma Inversion_py_spec pole power :
  outcome (Inversion_py pole power) ((exists p, point_arg pole p) /\ num_arg power) (huge pole)
    (fun o => point_arg pole (ppP o) /\ ppn1 o = power).
Proof.
  unfold Inversion_py. guard_point pole H1. guard_num power H2. pose proof H1 as [p Hp]. conv pole p Hp E B.
  - apply outcome_ok; auto. intros [] [K1 K2]. cbn in *. subst. f_equal. eapply point_arg_fun; eauto.
  - apply outcome_big; auto.
Qed.

Lemma Homothety_py_spec center scale :
  outcome (Homothety_py center scale) ((exists p, point_arg center p) /\ num_arg scale) (huge center)
    (fun o => point_arg center (ppP o) /\ ppn1 o = scale).
Proof. exact (Inversion_py_spec center scale). Qed.

Lemma Triangle_py_spec A B C :
  outcome (Triangle_py A B C) ((exists p, point_arg A p) /\ (exists p, point_arg B p) /\ (exists p, point_arg C p)) (huge A \/ huge B \/ huge C)
    (fun o => point_arg A (ptA o) /\ point_arg B (ptB o) /\ point_arg C (ptC o)).
Proof.
  unfold Triangle_py. guard_point A H1. guard_point B H2. guard_point C H3.
  pose proof H1 as [p Hp]. conv A p Hp Ec1 Bc1; [|apply outcome_big; auto]. pose proof H2 as [q Hq]. conv B q Hq Ec2 Bc2; [|apply outcome_big; auto].
  pose proof H3 as [r Hr]. conv C r Hr Ec3 Bc3; [|apply outcome_big; auto].
  apply outcome_ok; auto; [tauto|]. intros [] (K1 & K2 & K3). cbn in *. f_equal; eapply point_arg_fun; eauto.
Qed.

Lemma Rotation_py_spec center theta degrees :
  outcome (Rotation_py center theta degrees) ((exists p, point_arg center p) /\ num_arg theta /\ bool_arg degrees) (huge center)
    (fun o => point_arg center (prO o) /\ prtheta o = theta /\ prdeg o = degrees).
Proof.
  unfold Rotation_py. guard_point center H1. guard_num theta H2. guard_bool degrees H3. pose proof H1 as [p Hp]. conv center p Hp E B.
  - apply outcome_ok; auto. intros [] (K1 & K2 & K3). cbn in *. subst. f_equal. eapply point_arg_fun; eauto.
  - apply outcome_big; auto.
Qed.

Lemma ScalingXY_py_spec center sx sy :
  outcome (ScalingXY_py center sx sy) ((exists p, point_arg center p) /\ num_arg sx /\ num_arg sy) (huge center)
    (fun o => point_arg center (pxyO o) /\ pxysx o = sx /\ pxysy o = sy).
Proof.
  unfold ScalingXY_py. guard_point center H1. guard_num sx H2. guard_num sy H3. pose proof H1 as [p Hp]. conv center p Hp E B.
  - apply outcome_ok; auto. intros [] (K1 & K2 & K3). cbn in *. subst. f_equal. eapply point_arg_fun; eauto.
  - apply outcome_big; auto.
Qed.

Lemma Scaling_py_spec center direction scale :
  outcome (Scaling_py center direction scale) ((exists p, point_arg center p) /\ (exists p, point_arg direction p) /\ num_arg scale) (huge center \/ huge direction)
    (fun o => point_arg center (pscO o) /\ point_arg direction (pscw o) /\ pscs o = scale).
Proof.
  unfold Scaling_py. change (error_if_not_vector_ direction) with (error_if_not_point_ direction).
  guard_point center H1. guard_point direction H2. guard_num scale H3. pose proof H1 as [p Hp]. conv center p Hp E B; [|apply outcome_big; auto].
  pose proof H2 as [q Hq]. conv direction q Hq E' B'; [|apply outcome_big; auto].
  apply outcome_ok; auto; [tauto|]. intros [] (K1 & K2 & K3). cbn in *. subst. f_equal; eapply point_arg_fun; eauto.
Qed.

Lemma num_val_spec v x : real_number v x -> num_val v = x.
Proof. intros H. inversion H; auto. Qed.

Lemma angle_iff v b : num_arg v -> (num_le v (- b) || num_ge v b = false <-> angle_arg v b).
Proof.
  intros [x H]. unfold num_le, num_ge. rewrite (num_val_spec v x H). rewrite orb_false_iff. split.
  - intros K. exists x. split; auto. destruct x as [x| | |]; try (destruct K; discriminate); auto. unfold leb in K. destruct (Rle_dec x (- b)), (Rle_dec b x); try (destruct K; discriminate). lra.
  - intros (y & Hy & K). rewrite (real_number_fun v x y H Hy). destruct y as [y| | |]; try tauto. unfold leb. destruct (Rle_dec y (- b)), (Rle_dec b y); auto; lra.
Qed.

Lemma Shear_py_spec vertex vector ratio angle degrees :
  outcome (Shear_py vertex vector ratio angle degrees)
    ((exists p, point_arg vertex p) /\ (exists p, point_arg vector p) /\ pos_arg ratio /\ bool_arg degrees /\
     (degrees = VBool true -> angle_arg angle 90) /\ (degrees = VBool false -> angle_arg angle (PI / 2)))
    (huge vertex \/ huge vector)
    (fun o => point_arg vertex (psQ o) /\ point_arg vector (psw o) /\ psratio o = ratio /\ psangle o = angle /\ psdeg o = degrees).
Proof.
  unfold Shear_py. guard_point vertex H1. guard_point vector H2. guard_num ratio H3. guard_pos ratio H3 H4.
  destruct (num_err angle) as [H5|H5]; rewrite H5; cbn [bind].
  2:{ apply outcome_bad. intros (_ & _ & _ & [D|D] & K1 & K2); subst.
      - destruct (K1 eq_refl) as (x & K & _). assert (X : error_if_not_number_ angle = Ok tt) by (apply num_arg_iff; exists x; auto). rewrite H5 in X. discriminate.
      - destruct (K2 eq_refl) as (x & K & _). assert (X : error_if_not_number_ angle = Ok tt) by (apply num_arg_iff; exists x; auto). rewrite H5 in X. discriminate. }
  apply (proj1 (num_arg_iff angle)) in H5. guard_bool degrees H6.
  set (bound := match degrees with VBool true => 90 | _ => PI / 2 end).
  assert (Hb : angle_arg angle bound <-> (degrees = VBool true -> angle_arg angle 90) /\ (degrees = VBool false -> angle_arg angle (PI / 2))).
  { unfold bound. destruct H6 as [-> | ->]; split; intros K; auto; try (split; intros; auto; discriminate); destruct K as [K1 K2]; [apply K1|apply K2]; auto. }
  destruct (num_le angle (- bound) || num_ge angle bound) eqn:E.
  - apply outcome_bad. intros (_ & _ & _ & _ & K). apply Hb, (angle_iff angle bound H5) in K. rewrite K in E. discriminate.
  - apply (angle_iff angle bound H5), Hb in E. pose proof H1 as [p Hp]. conv vertex p Hp Ec1 Bc1; [|apply outcome_big; auto 10].
    pose proof H2 as [q Hq]. conv vector q Hq Ec2 Bc2; [|apply outcome_big; auto 10].
    apply outcome_ok; auto 10; [tauto|]. intros [] (K1 & K2 & K3 & K4 & K5). cbn in *. subst. f_equal; eapply point_arg_fun; eauto.
Qed.

(** ** Lines *)

Lemma xclose_iff x y : xclose x y = true <-> xclose_spec x y.
Proof.
  destruct x, y; cbn; try (split; intros; auto; discriminate); try (split; [discriminate|tauto]); try tauto.
  unfold allclose1, leb. match goal with |- (if ?d then _ else _) = true <-> _ => destruct d as [K|K] end; split; intros; auto; try discriminate; exfalso; apply K; lra.
Qed.

Lemma Line_py_spec A B extendA extendB :
  (forall o, Line_py A B extendA extendB = Ok o <->
     exists p q, point_arg A p /\ point_arg B q /\ ~ huge A /\ ~ huge B /\ ~ (xclose_spec (fst p) (fst q) /\ xclose_spec (snd p) (snd q)) /\ o = mkPLine p q extendA extendB) /\
  (forall e, Line_py A B extendA extendB = Raise e <->
     (~ ((exists p, point_arg A p) /\ (exists q, point_arg B q)) /\ e = ValueError) \/
     (exists p q, point_arg A p /\ point_arg B q /\ ~ huge A /\ ~ huge B /\ xclose_spec (fst p) (fst q) /\ xclose_spec (snd p) (snd q) /\ e = ValueError) \/
     (exists p q, point_arg A p /\ point_arg B q /\ (huge A \/ huge B) /\ e = OverflowError)).
Proof.
  unfold Line_py.
  assert (bad : ~ ((exists p, point_arg A p) /\ (exists q, point_arg B q)) -> forall (r : res pline), r = Raise ValueError ->
    (forall o, r = Ok o <-> exists p q, point_arg A p /\ point_arg B q /\ ~ huge A /\ ~ huge B /\ ~ (xclose_spec (fst p) (fst q) /\ xclose_spec (snd p) (snd q)) /\ o = mkPLine p q extendA extendB) /\
    (forall e, r = Raise e <-> (~ ((exists p, point_arg A p) /\ (exists q, point_arg B q)) /\ e = ValueError) \/
     (exists p q, point_arg A p /\ point_arg B q /\ ~ huge A /\ ~ huge B /\ xclose_spec (fst p) (fst q) /\ xclose_spec (snd p) (snd q) /\ e = ValueError) \/
     (exists p q, point_arg A p /\ point_arg B q /\ (huge A \/ huge B) /\ e = OverflowError))).
  { intros N r ->. split.
    - intros o. split; [discriminate|]. intros (p & q & Hp & Hq & _). exfalso. apply N. eauto.
    - intros e. split; [intros E; injection E as <-; auto|]. intros [[_ ->]|[(p & q & Hp & Hq & _)|(p & q & Hp & Hq & _)]]; auto; exfalso; apply N; eauto. }
  destruct (point_err A) as [H1|H1]; rewrite H1; cbn [bind].
  2:{ apply bad; auto. intros [K _]. apply (proj2 (point_err_iff A)) in K. rewrite H1 in K. discriminate. }
  destruct (point_err B) as [H2|H2]; rewrite H2; cbn [bind].
  2:{ apply bad; auto. intros [_ K]. apply (proj2 (point_err_iff B)) in K. rewrite H2 in K. discriminate. }
  apply (proj1 (point_err_iff A)) in H1. apply (proj1 (point_err_iff B)) in H2. clear bad.
  destruct H1 as [p Hp], H2 as [q Hq].
  conv A p Hp EcA BcA.
  2:{ split.
      - intros o. split; [discriminate|]. intros (p' & q' & _ & _ & K & _). tauto.
      - intros e. split.
        + intros E. injection E as <-. right. right. exists p, q. auto.
        + intros [[K _]|[(p' & q' & _ & _ & K & _)|(p' & q' & _ & _ & _ & ->)]]; auto; [exfalso; apply K; eauto|tauto]. }
  conv B q Hq EcB BcB.
  2:{ split.
      - intros o. split; [discriminate|]. intros (p' & q' & _ & _ & _ & K & _). tauto.
      - intros e. split.
        + intros E. injection E as <-. right. right. exists p, q. auto.
        + intros [[K _]|[(p' & q' & _ & _ & _ & K & _)|(p' & q' & _ & _ & _ & ->)]]; auto; [exfalso; apply K; eauto|tauto]. }
  assert (X : xallclose p q = true <-> xclose_spec (fst p) (fst q) /\ xclose_spec (snd p) (snd q)).
  { unfold xallclose. rewrite andb_true_iff, !xclose_iff. tauto. }
  destruct (xallclose p q).
  - split.
    + intros o. split; [discriminate|]. intros (p' & q' & Hp' & Hq' & _ & _ & K & _). rewrite (point_arg_fun A p' p), (point_arg_fun B q' q) in K by auto. tauto.
    + intros e. split.
      * intros E. injection E as <-. right. left. exists p, q. tauto.
      * intros [[K ->]|[(p' & q' & _ & _ & _ & _ & _ & _ & ->)|(p' & q' & _ & _ & [K|K] & _)]]; auto; tauto.
  - assert (X' : ~ (xclose_spec (fst p) (fst q) /\ xclose_spec (snd p) (snd q))) by (intros K; apply X in K; discriminate).
    split.
    + intros o. split.
      * intros E. injection E as <-. exists p, q. auto 10.
      * intros (p' & q' & Hp' & Hq' & _ & _ & _ & ->). rewrite (point_arg_fun A p' p), (point_arg_fun B q' q) by auto. auto.
    + intros e. split; [discriminate|]. intros [[K _]|[(p' & q' & Hp' & Hq' & _ & _ & K1 & K2 & _)|(p' & q' & _ & _ & [K|K] & _)]]; try tauto.
      * exfalso. apply K. eauto.
      * rewrite (point_arg_fun A p' p), (point_arg_fun B q' q) in K1, K2 by auto. tauto.
Qed.

(** ** Agreement with the models on real numbers *)

Lemma Circle_py_agrees center radius x y r : point_arg center (Fin x, Fin y) -> ~ huge center -> real_number radius (Fin r) ->
  Circle_py center radius = match Circle_init (x, y) r with Ok _ => Ok (mkPCircle (Fin x, Fin y) radius) | Raise e => Raise e end.
Proof.
  intros Hc Hh Hr. destruct (Circle_py_spec center radius) as [S1 S2]. unfold Circle_init. destruct (leb r 0) eqn:E.
  - apply S2. left. split; auto. intros [_ (x' & K1 & K2)]. rewrite (real_number_fun _ _ _ K1 Hr) in K2. apply xle0_iff in K2. cbn in K2. congruence.
  - apply S1. split; [split; [eauto|]|]; auto. exists (Fin r). split; auto. apply xle0_iff. auto.
Qed.

Lemma Line_py_agrees A B eA eB x y x' y' (b c : bool) : point_arg A (Fin x, Fin y) -> point_arg B (Fin x', Fin y') -> ~ huge A -> ~ huge B ->
  Line_py A B eA eB = match Line_init (x, y) (x', y') b c with Ok _ => Ok (mkPLine (Fin x, Fin y) (Fin x', Fin y') eA eB) | Raise e => Raise e end.
Proof.
  intros HA HB NA NB. unfold Line_py.
  destruct (point_err A) as [H1|H1]; rewrite H1; cbn [bind].
  2:{ assert (X : error_if_not_point_ A = Ok tt) by (apply point_err_iff; eauto). rewrite H1 in X. discriminate. }
  destruct (point_err B) as [H2|H2]; rewrite H2; cbn [bind].
  2:{ assert (X : error_if_not_point_ B = Ok tt) by (apply point_err_iff; eauto). rewrite H2 in X. discriminate. }
  conv A (Fin x, Fin y) HA EA BA; [|tauto]. conv B (Fin x', Fin y') HB EB BB; [|tauto].
  unfold Line_init, allclose, xallclose. cbn [fst snd xclose]. destruct (allclose1 x x' && allclose1 y y'); auto.
Qed.

Lemma Ellipse_py_agrees center rmajor rminor alpha (d : bool) x y a b t : point_arg center (Fin x, Fin y) -> ~ huge center ->
  real_number rmajor (Fin a) -> real_number rminor (Fin b) -> real_number alpha (Fin t) ->
  Ellipse_py center rmajor rminor alpha (VBool d) =
  match Ellipse_init (x, y) a b t d with Ok _ => Ok (mkPEllipse (Fin x, Fin y) rmajor rminor alpha (VBool d)) | Raise e => Raise e end.
Proof.
  intros Hc Hh Ha Hb Ht. destruct (Ellipse_py_spec center rmajor rminor alpha (VBool d)) as [S1 S2]. unfold Ellipse_init.
  assert (neg : forall v w, real_number v (Fin w) -> leb w 0 = true -> ~ pos_arg v).
  { intros v w Hv E (x' & K1 & K2). rewrite (real_number_fun _ _ _ K1 Hv) in K2. apply xle0_iff in K2. cbn in K2. congruence. }
  assert (pos : forall v w, real_number v (Fin w) -> leb w 0 = false -> pos_arg v).
  { intros v w Hv E. exists (Fin w). split; auto. apply xle0_iff. auto. }
  destruct (leb a 0) eqn:E1; [|destruct (leb b 0) eqn:E2].
  - apply S2. left. split; auto. intros (_ & K & _). exact (neg _ _ Ha E1 K).
  - apply S2. left. split; auto. intros (_ & _ & K & _). exact (neg _ _ Hb E2 K).
  - apply S1. cbn. split; [|auto 10]. split; [eauto|]. split; [exact (pos _ _ Ha E1)|]. split; [exact (pos _ _ Hb E2)|]. split; [exists (Fin t); auto|]. destruct d; unfold bool_arg; auto.
Qed.

Lemma Arc_py_agrees center radius alpha1 alpha2 (d : bool) x y r t1 t2 : point_arg center (Fin x, Fin y) -> ~ huge center ->
  real_number radius (Fin r) -> real_number alpha1 (Fin t1) -> real_number alpha2 (Fin t2) ->
  Arc_py center radius alpha1 alpha2 (VBool d) =
  match Arc_init (x, y) r t1 t2 d with Ok _ => Ok (mkPArc (Fin x, Fin y) radius alpha1 alpha2 (VBool d)) | Raise e => Raise e end.
Proof.
  intros Hc Hh Hr H1 H2. destruct (Arc_py_spec center radius alpha1 alpha2 (VBool d)) as [S1 S2]. unfold Arc_init.
  destruct (leb r 0) eqn:E.
  - apply S2. left. split; auto. intros (_ & (x' & K1 & K2) & _). rewrite (real_number_fun _ _ _ K1 Hr) in K2. apply xle0_iff in K2. cbn in K2. congruence.
  - apply S1. cbn. split; [|auto 10]. split; [eauto|]. split; [exists (Fin r); split; auto; apply xle0_iff; auto|]. split; [eexists; eauto|]. split; [eexists; eauto|]. destruct d; unfold bool_arg; auto.
Qed.

Lemma Shear_py_agrees vertex vector ratio angle (d : bool) x y x' y' r t : point_arg vertex (Fin x, Fin y) -> point_arg vector (Fin x', Fin y') ->
  ~ huge vertex -> ~ huge vector -> real_number ratio (Fin r) -> real_number angle (Fin t) ->
  Shear_py vertex vector ratio angle (VBool d) =
  match Shear_init (x, y) (x', y') r t d with Ok _ => Ok (mkPShear (Fin x, Fin y) (Fin x', Fin y') ratio angle (VBool d)) | Raise e => Raise e end.
Proof.
  intros Hv Hw Nv Nw Hr Ht. destruct (Shear_py_spec vertex vector ratio angle (VBool d)) as [S1 S2]. unfold Shear_init.
  destruct (leb r 0) eqn:E.
  { apply S2. left. split; auto. intros (_ & _ & (z & K1 & K2) & _). rewrite (real_number_fun _ _ _ K1 Hr) in K2. apply xle0_iff in K2. cbn in K2. congruence. }
  assert (Hp : pos_arg ratio) by (exists (Fin r); split; auto; apply xle0_iff; auto).
  assert (A : forall b, num_le angle (- b) || num_ge angle b = leb t (- b) || leb b t).
  { intros b. unfold num_le, num_ge. rewrite (num_val_spec _ _ Ht). auto. }
  assert (Hn : num_arg angle) by (exists (Fin t); auto).
  assert (Hb : bool_arg (VBool d)) by (destruct d; unfold bool_arg; auto).
  assert (E2 : (if d then leb t (-90) || leb 90 t else leb t (- PI / 2) || leb (PI / 2) t) = num_le angle (- (if d then 90 else PI / 2)) || num_ge angle (if d then 90 else PI / 2)).
  { rewrite A. destruct d; [f_equal; f_equal; lra|]. f_equal. f_equal. lra. }
  rewrite E2. destruct (num_le angle (- (if d then 90 else PI / 2)) || num_ge angle (if d then 90 else PI / 2)) eqn:E3.
  - apply S2. left. split; auto. intros (_ & _ & _ & _ & K1 & K2). destruct d.
    + specialize (K1 eq_refl). apply (angle_iff angle 90 Hn) in K1. congruence.
    + specialize (K2 eq_refl). apply (angle_iff angle (PI / 2) Hn) in K2. congruence.
  - apply S1. cbn. split; [|tauto]. split; [eauto|]. split; [eauto|]. split; [auto|]. split; [auto|]. apply (angle_iff angle _ Hn) in E3. destruct d; split; intros X; auto; discriminate.
Qed.

(** ** Method arguments *)

Lemma ept_arg_spec M r : ept_arg M = Ok r <->
  (r = None /\ (M = VFloat PInf \/ M = VFloat NInf)) \/
  (exists a b p, r = Some [a; b] /\ pair_of M a b /\ real_number a (fst p) /\ real_number b (snd p)).
Proof.
  unfold ept_arg. destruct (is_inf_ M) eqn:E.
  - split.
    + intros K. injection K as <-. left. split; auto. destruct M as [| | |[]| | | | | | | | |]; try discriminate; auto.
    + intros [[-> _]|(a & b & p & _ & H & _)]; auto. destruct H as [->|[->| ->]]; discriminate.
  - destruct (point_err M) as [H|H]; rewrite H; cbn [bind].
    + apply point_err_iff in H. destruct H as (p & a & b & H & Ha & Hb). destruct (pair_of_elements M a b H) as [_ E']. rewrite E'. split.
      * intros K. injection K as <-. right. exists a, b, p. auto.
      * intros [[_ [->| ->]]|(a' & b' & _ & -> & H' & _)]; try discriminate. destruct (pair_of_elements M a' b' H') as [_ E'']. rewrite E' in E''. rewrite E''. auto.
    + split; [discriminate|]. intros [[_ [->| ->]]|(a & b & p & _ & H' & Ha & Hb)]; try discriminate.
      assert (X : error_if_not_point_ M = Ok tt) by (apply point_err_iff; exists p, a, b; auto). rewrite H in X. discriminate.
Qed.

Lemma ept_arg_raise M e : ept_arg M = Raise e <-> e = ValueError /\ ~ (exists p, point_arg M p) /\ M <> VFloat PInf /\ M <> VFloat NInf.
Proof.
  split.
  - intros K. assert (e = ValueError).
    { unfold ept_arg in K. destruct (is_inf_ M); [discriminate|]. destruct (point_err M) as [H|H]; rewrite H in K; cbn [bind] in K; congruence. }
    split; auto. split; [|split].
    + intros (p & a & b & H' & Ha & Hb). assert (X : ept_arg M = Ok (Some [a; b])) by (apply ept_arg_spec; right; exists a, b, p; auto). congruence.
    + intros ->. discriminate.
    + intros ->. discriminate.
  - intros (-> & N & N1 & N2). unfold ept_arg. destruct (is_inf_ M) eqn:E.
    + destruct M as [| | |[]| | | | | | | | |]; try discriminate; tauto.
    + destruct (point_err M) as [H|H]; rewrite H; cbn [bind]; auto. apply point_err_iff in H. tauto.
Qed.

Lemma int_arg_Ok v n : int_arg v = Ok n <-> (0 < n)%Z /\ (v = VInt n \/ (v = VBool true /\ n = 1%Z)).
Proof.
  destruct v as [|b|z| | | | | | | | | | ]; cbn [int_arg]; try (split; [discriminate|intros (_ & [K|[K _]]); discriminate]).
  - unfold error_if_not_positive_. cbn [py_le0 bind]. destruct b; cbn [negb bind].
    + split; [intros K; injection K as <-; split; [lia|auto]|]. intros (_ & [K|[_ ->]]); auto. discriminate.
    + split; [discriminate|]. intros (_ & [K|[K _]]); discriminate.
  - unfold error_if_not_positive_. cbn [py_le0 bind]. destruct (z <=? 0)%Z eqn:E; cbn [bind].
    + split; [discriminate|]. intros (L & [K|[K _]]); [|discriminate]. injection K as ->. apply Z.leb_le in E. lia.
    + split; [intros K; injection K as <-; apply Z.leb_gt in E; auto|]. intros (L & [K|[K _]]); [|discriminate]. injection K as ->. auto.
Qed.

Lemma int_arg_raise v e : int_arg v = Raise e -> e = ValueError.
Proof.
  destruct v as [|b|z| | | | | | | | | | ]; cbn [int_arg]; try congruence.
  - unfold error_if_not_positive_. cbn [py_le0 bind]. destruct b; cbn [negb bind]; congruence.
  - unfold error_if_not_positive_. cbn [py_le0 bind]. destruct (z <=? 0)%Z; cbn [bind]; congruence.
Qed.

(** ** Examples *)

Lemma nan_radius : exists center radius c, Circle_py center radius = Ok c /\
  ~ (exists x, real_number radius x /\ (x = PInf \/ exists r, x = Fin r /\ 0 < r)).
Proof.
  exists (VTuple [VInt 0; VInt 0]), (VFloat NaN), (mkPCircle (Fin 0, Fin 0) (VFloat NaN)). split; [reflexivity|].
  intros (x & H & K). inversion H; subst. destruct K as [K|(r & K & _)]; discriminate.
Qed.

Lemma ex_circle_ok : Circle_py (VList [VInt 3; VFloat (Fin (1 / 2))]) (VInt 2) = Ok (mkPCircle (Fin 3, Fin (1 / 2)) (VInt 2)).
Proof. reflexivity. Qed.

Lemma ex_circle_bool : Circle_py (VTuple [VInt 3; VBool true]) (VBool true) = Ok (mkPCircle (Fin 3, Fin 1) (VBool true)).
Proof. reflexivity. Qed.
