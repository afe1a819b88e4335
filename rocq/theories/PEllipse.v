(** * Proofs about Ellipse: equation, path, diameters, normal, shape matrix,
    angles, random points, intersection with a line. *)

From Coq Require Import Reals Lra Lia Psatz List Bool ZArith.
From Verif Require Import Base BaseLemmas Spec SpecLemmas ModelInternal ModelLine ModelCircle ModelAffine ModelEllipse ModelTransfo
  PLine PCircle PInvBase PCircle2 PAffine PTransfo.
Import ListNotations.
Local Open Scope R_scope.

Definition ell_th (e : ellipse) : R := radians (edeg e) (ealpha e).

Lemma ell_angle_eq e : ell_angle e = ell_th e.
Proof. unfold ell_angle, ell_th, radians, deg. destruct (edeg e); auto. field. Qed.

Lemma Ellipse_init_Ok O a b al d e : Ellipse_init O a b al d = Ok e <-> 0 < a /\ 0 < b /\ e = mkEllipse O a b al d.
Proof.
  unfold Ellipse_init. destruct (leb a 0) eqn:E1; [apply leb_true in E1; split; [discriminate|lra]|]. apply leb_false in E1.
  destruct (leb b 0) eqn:E2; [apply leb_true in E2; split; [discriminate|lra]|]. apply leb_false in E2.
  split; [intros H; injection H as <-; auto|]. intros (_ & _ & ->). auto.
Qed.

Lemma Ellipse_init_pos O a b al d : 0 < a -> 0 < b -> Ellipse_init O a b al d = Ok (mkEllipse O a b al d).
Proof. intros. apply Ellipse_init_Ok. auto. Qed.

(** ** frames *)

Lemma fx_ell t O a b th : fx O th (ellipse_point_ t O a b th) = a * cos t.
Proof.
  unfold fx, ellipse_point_; cbn [fst snd]. pose proof (cs1 th) as H.
  transitivity ((cos th * cos th + sin th * sin th) * (a * cos t)); [ring|rewrite H; ring].
Qed.

Lemma fy_ell t O a b th : fy O th (ellipse_point_ t O a b th) = b * sin t.
Proof.
  unfold fy, ellipse_point_; cbn [fst snd]. pose proof (cs1 th) as H.
  transitivity ((cos th * cos th + sin th * sin th) * (b * sin t)); [ring|rewrite H; ring].
Qed.

(** the point with given frame coordinates *)
Definition frame_pt (O : pt) (th X Y : R) : pt :=
  (fst O + (cos th * X - sin th * Y), snd O + (sin th * X + cos th * Y)).

Lemma frame_pt_eq O th M : frame_pt O th (fx O th M) (fy O th M) = M.
Proof.
  destruct M as [x y]. unfold frame_pt, fx, fy; cbn [fst snd]. pose proof (cs1 th) as H.
  set (c := cos th) in *. set (s := sin th) in *. f_equal.
  - transitivity (fst O + (c * c + s * s) * (x - fst O)); [ring|rewrite H; ring].
  - transitivity (snd O + (c * c + s * s) * (y - snd O)); [ring|rewrite H; ring].
Qed.

Lemma frame_inj O th M N : fx O th M = fx O th N -> fy O th M = fy O th N -> M = N.
Proof. intros H1 H2. rewrite <- (frame_pt_eq O th M), <- (frame_pt_eq O th N), H1, H2. auto. Qed.

Lemma fx_frame O th X Y : fx O th (frame_pt O th X Y) = X.
Proof.
  unfold fx, frame_pt; cbn [fst snd]. pose proof (cs1 th) as H.
  transitivity ((cos th * cos th + sin th * sin th) * X); [ring|rewrite H; ring].
Qed.
Lemma fy_frame O th X Y : fy O th (frame_pt O th X Y) = Y.
Proof.
  unfold fy, frame_pt; cbn [fst snd]. pose proof (cs1 th) as H.
  transitivity ((cos th * cos th + sin th * sin th) * Y); [ring|rewrite H; ring].
Qed.

Lemma frame_vec O th u v : fx O th u * fx O th v + fy O th u * fy O th v = sdot (vsub u O) (vsub v O).
Proof.
  unfold fx, fy. pose proof (cs1 th) as H. set (c := cos th) in *. set (s := sin th) in *. unspec.
  transitivity ((c * c + s * s) * ((fst u - fst O) * (fst v - fst O) + (snd u - snd O) * (snd v - snd O))); [ring|rewrite H; ring].
Qed.

Lemma ell_form_poly O a b th M : 0 < a -> 0 < b ->
  a * a * (b * b) * (ell_form O a b th M - 1) = b * b * (fx O th M * fx O th M) + a * a * (fy O th M * fy O th M) - a * a * (b * b).
Proof. intros. unfold ell_form. field. lra. Qed.

Lemma on_ellipse_poly O a b th M : 0 < a -> 0 < b ->
  (on_ellipse O a b th M <-> b * b * (fx O th M * fx O th M) + a * a * (fy O th M * fy O th M) = a * a * (b * b)).
Proof.
  intros Ha Hb. pose proof (ell_form_poly O a b th M Ha Hb) as H. unfold on_ellipse.
  assert (0 < a * a * (b * b)) by (apply Rmult_lt_0_compat; nra). split; intros K; [rewrite K in H; lra|].
  assert (E : a * a * (b * b) * (ell_form O a b th M - 1) = 0) by lra. apply Rmult_integral in E. lra.
Qed.

Lemma ellipse_point_on t O a b th : 0 < a -> 0 < b -> on_ellipse O a b th (ellipse_point_ t O a b th).
Proof.
  intros. apply on_ellipse_poly; auto. rewrite fx_ell, fy_ell. pose proof (cs1 t) as H1.
  transitivity (a * a * (b * b) * (cos t * cos t + sin t * sin t)); [ring|rewrite H1; ring].
Qed.

(** ** C22 equation *)

Lemma equation_spec e M : 0 < ea e -> 0 < eb e ->
  conic_eval (ellipse_equation e) M = (ea e * eb e) ^ 2 * (ell_form (eO e) (ea e) (eb e) (ell_th e) M - 1).
Proof.
  intros Ha Hb. replace ((ea e * eb e) ^ 2) with (ea e * ea e * (eb e * eb e)) by ring. rewrite ell_form_poly by auto.
  unfold ellipse_equation, conic_eval. rewrite ell_angle_eq. set (th := ell_th e). destruct (eO e) as [x0 y0], M as [x y].
  unfold fx, fy. cbn [fst snd]. pose proof (cs1 th) as H. set (c := cos th) in *. set (s := sin th) in *.
  replace (1 - s * s) with (c * c) by lra. ring.
Qed.

Lemma equation_on e M : 0 < ea e -> 0 < eb e ->
  (conic_eval (ellipse_equation e) M = 0 <-> on_ellipse (eO e) (ea e) (eb e) (ell_th e) M).
Proof.
  intros Ha Hb. rewrite equation_spec by auto. unfold on_ellipse. assert (0 < (ea e * eb e) ^ 2) by (apply pow_lt; nra).
  split; [|intros ->; ring]. intros E. apply Rmult_integral in E. lra.
Qed.

Lemma equation_neg e M : 0 < ea e -> 0 < eb e ->
  (conic_eval (ellipse_equation e) M < 0 <-> ell_form (eO e) (ea e) (eb e) (ell_th e) M < 1).
Proof.
  intros Ha Hb. rewrite equation_spec by auto. assert (0 < (ea e * eb e) ^ 2) by (apply pow_lt; nra). split; intros; nra.
Qed.

Lemma ellipse_contains_spec e M : 0 < ea e -> 0 < eb e ->
  (ellipse_contains e M = true <-> in_ellipse (eO e) (ea e) (eb e) (ell_th e) M).
Proof.
  intros Ha Hb. unfold ellipse_contains. rewrite leb_true, equation_spec by auto. unfold in_ellipse.
  assert (0 < (ea e * eb e) ^ 2) by (apply pow_lt; nra). split; intros; nra.
Qed.

Lemma ellipse_includes_spec e M : 0 < ea e -> 0 < eb e ->
  (on_ellipse (eO e) (ea e) (eb e) (ell_th e) M -> ellipse_includes e M = true) /\
  (ellipse_includes e M = true ->
     (ea e * eb e) ^ 2 * Rabs (ell_form (eO e) (ea e) (eb e) (ell_th e) M - 1) <= / 500000000).
Proof.
  intros Ha Hb. unfold ellipse_includes. rewrite equation_spec by auto. assert (Hp : 0 < (ea e * eb e) ^ 2) by (apply pow_lt; nra).
  split; intros H.
  - unfold on_ellipse in H. rewrite H. replace (_ * (1 - 1) + 1) with 1 by ring. apply isclose_refl.
  - replace ((ea e * eb e) ^ 2 * Rabs _) with (Rabs ((ea e * eb e) ^ 2 * (ell_form (eO e) (ea e) (eb e) (ell_th e) M - 1))).
    + set (v := (ea e * eb e) ^ 2 * _) in *. clearbody v. unfold isclose in H. apply leb_true in H. revert H.
      unfold Rmax. destruct Rle_dec; split_Rabs; lra.
    + rewrite Rabs_mult, (Rabs_right ((ea e * eb e) ^ 2)) by lra. auto.
Qed.

Lemma ellipse_includes_centre e : 0 < ea e -> 0 < eb e -> (ea e * eb e) ^ 2 <= / 1000000000 ->
  ellipse_includes e (eO e) = true /\ ~ on_ellipse (eO e) (ea e) (eb e) (ell_th e) (eO e).
Proof.
  intros Ha Hb H. assert (E : ell_form (eO e) (ea e) (eb e) (ell_th e) (eO e) = 0) by (unfold ell_form, fx, fy; field; lra).
  assert (Hp : 0 < (ea e * eb e) ^ 2) by (apply pow_lt; nra).
  unfold on_ellipse. rewrite E. split; [|lra]. unfold ellipse_includes. rewrite equation_spec, E by auto.
  unfold isclose. apply leb_true. unfold Rmax. destruct Rle_dec; split_Rabs; lra.
Qed.

(** ** C23 path, diameter, normal *)

Lemma linspace_succ_nth k n : (k < n)%nat -> nth k (linspace 0 (2 * PI) (n + 1)) 0 = 2 * PI * INR k / INR n.
Proof.
  intros H. unfold linspace. destruct n as [|n]; [lia|].
  replace (S n + 1)%nat with (S (S n)) by lia.
  rewrite (nth_indep _ 0 (0 + INR 0 * ((2 * PI - 0) / (INR (S (S n)) - 1)))) by (rewrite map_length, seq_length; lia).
  rewrite (map_nth (fun i => 0 + INR i * ((2 * PI - 0) / (INR (S (S n)) - 1)))). rewrite seq_nth by lia.
  replace (INR (S (S n)) - 1) with (INR (S n)) by (rewrite (S_INR (S n)); ring). replace (0 + k)%nat with k by lia.
  field. rewrite S_INR. pose proof (pos_INR n). lra.
Qed.

Lemma linspace_length a b n : length (linspace a b n) = n.
Proof. unfold linspace. destruct n as [|[|n]]; auto. rewrite map_length, seq_length. auto. Qed.

Lemma nth_firstn {A} (l : list A) n k d : (k < n)%nat -> nth k (firstn n l) d = nth k l d.
Proof.
  revert n k. induction l as [|x l IH]; intros [|n] [|k] H; cbn; auto; try lia. apply IH. lia.
Qed.

Lemma ellipse_path_spec e n : 0 < ea e -> 0 < eb e -> (0 < n)%Z ->
  exists path, ellipse_path e n = Ok path /\ length path = Z.to_nat n /\
    Forall (on_ellipse (eO e) (ea e) (eb e) (ell_th e)) path /\
    forall k, (k < Z.to_nat n)%nat ->
      fx (eO e) (ell_th e) (nth k path (0, 0)) = ea e * cos (2 * PI * INR k / IZR n) /\
      fy (eO e) (ell_th e) (nth k path (0, 0)) = eb e * sin (2 * PI * INR k / IZR n).
Proof.
  intros Ha Hb Hn. unfold ellipse_path. rewrite (proj2 (Z.leb_gt n 0)) by auto.
  replace (if edeg e then ealpha e * PI / 180 else ealpha e) with (ell_th e) by reflexivity.
  eexists. split; [reflexivity|]. split; [|split].
  - rewrite map_length, firstn_length, linspace_length. lia.
  - apply Forall_forall. intros M HM. apply in_map_iff in HM. destruct HM as (t & <- & _). apply ellipse_point_on; auto.
  - intros k Hk. rewrite (nth_indep _ (0, 0) (ellipse_point_ 0 (eO e) (ea e) (eb e) (ell_th e))) by (rewrite map_length, firstn_length, linspace_length; lia).
    rewrite (map_nth (fun t => ellipse_point_ t (eO e) (ea e) (eb e) (ell_th e))). rewrite nth_firstn by auto.
    rewrite linspace_succ_nth by auto. rewrite fx_ell, fy_ell. rewrite INR_IZR_INZ with (n := Z.to_nat n). rewrite Z2Nat.id by lia. auto.
Qed.

Lemma ellipse_path_raises e n : (n <= 0)%Z -> ellipse_path e n = Raise ValueError.
Proof. intros H. unfold ellipse_path. rewrite (proj2 (Z.leb_le n 0)) by auto. auto. Qed.

(** a line through the point M of the ellipse with direction v is tangent at M *)

Lemma fx_line O th M N k : fx O th (vadd M (vscal k (vsub N O))) = fx O th M + k * fx O th N.
Proof. unfold fx. unpt. ring. Qed.
Lemma fy_line O th M N k : fy O th (vadd M (vscal k (vsub N O))) = fy O th M + k * fy O th N.
Proof. unfold fy. unpt. ring. Qed.

(** the tangent direction at eccentric angle t is that of the point at t + pi/2 *)
Lemma tangent_at t O a b th j : 0 < a -> 0 < b -> j <> 0 ->
  ell_tangent O a b th (ellipse_point_ t O a b th) (vscal j (vsub (ellipse_point_ (t + PI / 2) O a b th) O)).
Proof.
  intros Ha Hb Hj. split; [apply ellipse_point_on; auto|]. split.
  - intros E. assert (HN : ellipse_point_ (t + PI / 2) O a b th = O).
    { destruct (ellipse_point_ _ _ _ _ _) as [x y], O as [u v]. unpt. injection E as E1 E2.
      apply Rmult_integral in E1. apply Rmult_integral in E2. f_equal; lra. }
    pose proof (ellipse_point_on (t + PI / 2) O a b th Ha Hb) as K. rewrite HN in K. apply on_ellipse_poly in K; auto.
    assert (0 < a * a * (b * b)) by (apply Rmult_lt_0_compat; nra). unfold fx, fy in K. 
    replace (fst O - fst O) with 0 in K by ring. replace (snd O - snd O) with 0 in K by ring. nra.
  - intros k K. replace (vscal k (vscal j (vsub (ellipse_point_ (t + PI / 2) O a b th) O))) with (vscal (k * j) (vsub (ellipse_point_ (t + PI / 2) O a b th) O)) in K by (unpt; f_equal; ring).
    apply on_ellipse_poly in K; auto. rewrite fx_line, fy_line, !fx_ell, !fy_ell in K.
    rewrite cos_plus, sin_plus, cos_PI2, sin_PI2 in K. pose proof (cs1 t) as Ht.
    assert (E : a * a * (b * b) * ((k * j) * (k * j)) = 0).
    { transitivity (a * a * (b * b) * (cos t * cos t + sin t * sin t) * (1 + (k * j) * (k * j)) - a * a * (b * b)); [rewrite Ht; ring|].
      apply Rminus_diag_eq. etransitivity; [|exact K]. ring. }
    apply Rmult_integral in E. destruct E as [E|E]; [assert (0 < a * a * (b * b)) by (apply Rmult_lt_0_compat; nra); lra|].
    apply sq0 in E. apply Rmult_integral in E. destruct E; auto. contradiction.
Qed.

Lemma ellipse_diameter_spec e t conj ls : 0 < ea e -> 0 < eb e -> ellipse_diameter e t conj = Ok ls ->
  exists l rest, ls = l :: rest /\
    on_ellipse (eO e) (ea e) (eb e) (ell_th e) (lA l) /\ on_ellipse (eO e) (ea e) (eb e) (ell_th e) (lB l) /\
    midpoint (lA l) (lB l) = eO e /\ lextA l = false /\ lextB l = false /\
    fx (eO e) (ell_th e) (lA l) = ea e * cos t /\ fy (eO e) (ell_th e) (lA l) = eb e * sin t /\
    if conj then exists l', rest = [l'] /\
      on_ellipse (eO e) (ea e) (eb e) (ell_th e) (lA l') /\ on_ellipse (eO e) (ea e) (eb e) (ell_th e) (lB l') /\
      midpoint (lA l') (lB l') = eO e /\ lextA l' = false /\ lextB l' = false /\
      ell_tangent (eO e) (ea e) (eb e) (ell_th e) (lA l) (vsub (lB l') (lA l')) /\
      ell_tangent (eO e) (ea e) (eb e) (ell_th e) (lB l) (vsub (lB l') (lA l')) /\
      ell_tangent (eO e) (ea e) (eb e) (ell_th e) (lA l') (vsub (lB l) (lA l)) /\
      ell_tangent (eO e) (ea e) (eb e) (ell_th e) (lB l') (vsub (lB l) (lA l))
    else rest = [].
Proof.
  intros Ha Hb. unfold ellipse_diameter. rewrite ell_angle_eq. set (O := eO e). set (a := ea e) in *. set (b := eb e) in *. set (th := ell_th e).
  clearbody O a b th.
  assert (Hmid : forall s, midpoint (ellipse_point_ s O a b th) (ellipse_point_ (s + PI) O a b th) = O).
  { intros s. destruct O as [x y]. unfold ellipse_point_, midpoint; cbn [fst snd]. rewrite neg_cos, neg_sin. f_equal; field. }
  assert (Hq : forall s, vsub (ellipse_point_ (s + PI) O a b th) (ellipse_point_ s O a b th) = vscal (-2) (vsub (ellipse_point_ s O a b th) O)).
  { intros s. destruct O as [x y]. unfold ellipse_point_. unpt. rewrite neg_cos, neg_sin. f_equal; ring. }
  assert (Hp2 : forall s, vsub (ellipse_point_ (s + PI) O a b th) O = vscal (-1) (vsub (ellipse_point_ s O a b th) O)).
  { intros s. destruct O as [x y]. unfold ellipse_point_. unpt. rewrite neg_cos, neg_sin. f_equal; ring. }
  assert (Hper : ellipse_point_ (t - PI / 2) O a b th = ellipse_point_ (t + PI / 2 + PI) O a b th).
  { replace (t + PI / 2 + PI) with (t - PI / 2 + IZR 1 * (2 * PI)) by field. unfold ellipse_point_. rewrite cos_period_Z, sin_period_Z. auto. }
  intros H. apply bind_Ok in H. destruct H as (l & El & H). apply Line_init_Ok in El. destruct El as [_ ->].
  assert (Hdir : vsub (ellipse_point_ (t - PI / 2) O a b th) (ellipse_point_ (t + PI / 2) O a b th) = vscal (-2) (vsub (ellipse_point_ (t + PI / 2) O a b th) O)).
  { rewrite Hper, Hq. auto. }
  destruct conj.
  - apply bind_Ok in H. destruct H as (l' & El' & H). apply Line_init_Ok in El'. destruct El' as [_ ->]. injection H as <-.
    eexists _, _. split; [reflexivity|]. cbn [lA lB lextA lextB].
    split; [apply ellipse_point_on; auto|]. split; [apply ellipse_point_on; auto|]. split; [apply Hmid|]. do 2 (split; auto).
    split; [apply fx_ell|]. split; [apply fy_ell|].
    eexists. split; [reflexivity|]. cbn [lA lB lextA lextB].
    split; [apply ellipse_point_on; auto|]. split; [apply ellipse_point_on; auto|]. split; [rewrite Hper; apply Hmid|]. do 2 (split; auto).
    split; [|split; [|split]].
    + rewrite Hdir. apply tangent_at; auto; lra.
    + rewrite Hdir. replace (vscal (-2) (vsub (ellipse_point_ (t + PI / 2) O a b th) O)) with (vscal 2 (vsub (ellipse_point_ (t + PI + PI / 2) O a b th) O)).
      * apply tangent_at; auto; lra.
      * replace (t + PI + PI / 2) with (t + PI / 2 + PI) by ring. rewrite Hp2. unpt. f_equal; ring.
    + rewrite Hq. replace (vscal (-2) (vsub (ellipse_point_ t O a b th) O)) with (vscal 2 (vsub (ellipse_point_ (t + PI / 2 + PI / 2) O a b th) O)).
      * apply tangent_at; auto; lra.
      * replace (t + PI / 2 + PI / 2) with (t + PI) by field. rewrite Hp2. unpt. f_equal; ring.
    + rewrite Hq. replace (vscal (-2) (vsub (ellipse_point_ t O a b th) O)) with (vscal (-2) (vsub (ellipse_point_ (t - PI / 2 + PI / 2) O a b th) O)).
      * apply tangent_at; auto; lra.
      * replace (t - PI / 2 + PI / 2) with t by field. auto.
  - injection H as <-. eexists _, _. split; [reflexivity|]. cbn [lA lB lextA lextB].
    split; [apply ellipse_point_on; auto|]. split; [apply ellipse_point_on; auto|]. split; [apply Hmid|]. do 2 (split; auto).
    split; [apply fx_ell|]. split; [apply fy_ell|]. auto.
Qed.

Lemma ellipse_diameter_cases e t conj :
  (exists ls, ellipse_diameter e t conj = Ok ls) \/ ellipse_diameter e t conj = Raise ValueError.
Proof.
  unfold ellipse_diameter, Line_init. destruct allclose; cbn [bind]; auto. destruct conj; eauto. destruct allclose; cbn [bind]; eauto.
Qed.

Lemma ellipse_diameter_raises e t : 
  (ellipse_diameter e t false = Raise ValueError <->
   allclose (ellipse_point_ t (eO e) (ea e) (eb e) (ell_th e)) (ellipse_point_ (t + PI) (eO e) (ea e) (eb e) (ell_th e)) = true).
Proof.
  unfold ellipse_diameter, Line_init. rewrite ell_angle_eq. destruct allclose; cbn [bind]; split; auto; discriminate.
Qed.

(** normal *)
Lemma ellipse_normal_spec e t : 0 < ea e -> 0 < eb e ->
  let P := ellipse_point_ t (eO e) (ea e) (eb e) (ell_th e) in
  let n := ellipse_normal e t in
  sdot n n = 1 /\
  (forall v, ell_tangent (eO e) (ea e) (eb e) (ell_th e) P v -> sdot n v = 0) /\
  forall k, 0 < k -> 1 < ell_form (eO e) (ea e) (eb e) (ell_th e) (vadd P (vscal k n)).
Proof.
  intros Ha Hb P n. unfold n, ellipse_normal. rewrite ell_angle_eq. clear n. set (O := eO e) in *. set (a := ea e) in *. set (b := eb e) in *. set (th := ell_th e) in *.
  clearbody O a b th. pose proof (cs1 t) as Ht. pose proof (cs1 th) as Hth.
  set (w := (sin th * (- a * sin t) + cos th * (b * cos t), - cos th * (- a * sin t) + sin th * (b * cos t))).
  assert (Hw : sdot w w = a * a * (sin t * sin t) + b * b * (cos t * cos t)).
  { unfold w, sdot; cbn [fst snd]. transitivity ((cos th * cos th + sin th * sin th) * (a * a * (sin t * sin t) + b * b * (cos t * cos t))); [ring|rewrite Hth; ring]. }
  assert (Hpos : 0 < sdot w w).
  { rewrite Hw. destruct (Req_dec (cos t) 0) as [E|E].
    - rewrite E in *. assert (sin t * sin t = 1) by lra. rewrite H. nra.
    - pose proof (sqpos _ E). pose proof (sqnn (a * sin t)). assert (0 < b * b) by nra. nra. }
  assert (Hl : vlength_ w = sqrt (sdot w w)).
  { unfold vlength_, dot_. f_equal. }
  rewrite Hl. set (L := sqrt (sdot w w)). assert (HL : 0 < L) by (apply sqrt_lt_R0; auto). assert (HLL : L * L = sdot w w) by (apply sqrt_sqrt; lra).
  assert (Hfx : forall k M, fx O th (vadd M (vscal k w)) = fx O th M + k * (b * cos t)).
  { intros k M. unfold fx, w. unpt. transitivity (cos th * (fst M - fst O) + sin th * (snd M - snd O) + k * (b * cos t * (cos th * cos th + sin th * sin th))); [ring|rewrite Hth; ring]. }
  assert (Hfy : forall k M, fy O th (vadd M (vscal k w)) = fy O th M + k * (a * sin t)).
  { intros k M. unfold fy, w. unpt. transitivity (- sin th * (fst M - fst O) + cos th * (snd M - snd O) + k * (a * sin t * (cos th * cos th + sin th * sin th))); [ring|rewrite Hth; ring]. }
  split; [|split].
  - transitivity (/ L * / L * sdot w w); [unfold sdot; unpt; ring|]. rewrite <- HLL. field. lra.
  - intros v (Hon & Hv & Huniq).
    (* second intersection of the line with the ellipse *)
    set (X := cos th * fst v + sin th * snd v). set (Y := - sin th * fst v + cos th * snd v).
    assert (Hwv : sdot w v = b * cos t * X + a * sin t * Y).
    { unfold X, Y, w, sdot; cbn [fst snd]. ring. }
    assert (HXY : X * X + Y * Y <> 0).
    { intros K. apply Hv. assert (EX : X * X + Y * Y = fst v * fst v + snd v * snd v).
      { unfold X, Y. transitivity ((cos th * cos th + sin th * sin th) * (fst v * fst v + snd v * snd v)); [ring|rewrite Hth; ring]. }
      rewrite EX in K. pose proof (sqnn (fst v)). pose proof (sqnn (snd v)). destruct v as [x y]; cbn [fst snd] in *. f_equal; apply sq0; lra. }
    assert (Hq : 0 < b * b * (X * X) + a * a * (Y * Y)).
    { destruct (Req_dec X 0) as [E|E]; [destruct (Req_dec Y 0) as [E2|E2]; [rewrite E, E2 in HXY; exfalso; apply HXY; ring|]|].
      - rewrite E. pose proof (sqpos _ E2). assert (0 < a * a * (Y * Y)) by (apply Rmult_lt_0_compat; [apply Rmult_lt_0_compat; auto|auto]). lra.
      - pose proof (sqpos _ E). pose proof (sqnn (a * Y)). assert (0 < b * b * (X * X)) by (apply Rmult_lt_0_compat; [apply Rmult_lt_0_compat; auto|auto]).
        replace (a * a * (Y * Y)) with (a * Y * (a * Y)) by ring. lra. }
    set (q := b * b * (X * X) + a * a * (Y * Y)) in *.
    assert (Hsol : on_ellipse O a b th (vadd P (vscal (- (2 * a * b * sdot w v) / q) v))).
    { apply on_ellipse_poly; auto. set (k := - (2 * a * b * sdot w v) / q).
      assert (E1 : fx O th (vadd P (vscal k v)) = a * cos t + k * X).
      { rewrite <- (fx_ell t O a b th). fold P. unfold fx, X. unpt. ring. }
      assert (E2 : fy O th (vadd P (vscal k v)) = b * sin t + k * Y).
      { rewrite <- (fy_ell t O a b th). fold P. unfold fy, Y. unpt. ring. }
      rewrite E1, E2. transitivity (a * a * (b * b) * (cos t * cos t + sin t * sin t) + k * (2 * a * b * (b * cos t * X + a * sin t * Y) + k * q)); [unfold q; ring|].
      rewrite <- Hwv, Ht. unfold k. field. lra. }
    apply Huniq in Hsol. assert (E : 2 * a * b * sdot w v = 0).
    { apply (f_equal (fun x => - x * q)) in Hsol. revert Hsol. generalize (2 * a * b * sdot w v). intros z Hz. replace z with (- (- z / q) * q); [rewrite Hz; ring|field; lra]. }
    assert (E' : sdot w v = 0).
    { apply Rmult_integral in E. destruct E as [E|E]; auto. assert (0 < a * b) by nra. lra. }
    transitivity (/ L * sdot w v); [unfold sdot; unpt; ring|rewrite E'; ring].
  - intros k Hk. replace (vscal k (vscal (/ L) w)) with (vscal (k / L) w) by (unpt; f_equal; unfold Rdiv; ring).
    assert (Hj : 0 < k / L) by (apply Rdiv_lt_0_compat; auto). set (j := k / L) in *. clearbody j.
    assert (H1 := ell_form_poly O a b th (vadd P (vscal j w)) Ha Hb). rewrite Hfx, Hfy in H1. unfold P in H1 at 2 3 4 5. rewrite fx_ell, fy_ell in H1.
    set (F := ell_form O a b th (vadd P (vscal j w))) in *. clearbody F.
    assert (E : a * a * (b * b) * (F - 1) = 2 * (j * (a * b)) * sdot w w - 2 * (j * (a * b)) * sdot w w + (a * a * (b * b)) * (cos t * cos t + sin t * sin t - 1) + 2 * j * (a * b) * (b * b * (cos t * cos t) + a * a * (sin t * sin t)) + j * j * (b * b * (b * b) * (cos t * cos t) + a * a * (a * a) * (sin t * sin t))) by (rewrite H1; ring).
    assert (Hab : 0 < a * a * (b * b)) by (apply Rmult_lt_0_compat; nra).
    assert (0 < 2 * j * (a * b)) by (assert (0 < a * b) by nra; nra).
    assert (0 <= j * j * (b * b * (b * b) * (cos t * cos t) + a * a * (a * a) * (sin t * sin t))).
    { apply Rmult_le_pos; [apply sqnn|]. pose proof (sqnn (b * b * cos t)). pose proof (sqnn (a * a * sin t)). nra. }
    rewrite Hw in Hpos. assert (0 < 2 * j * (a * b) * (b * b * (cos t * cos t) + a * a * (sin t * sin t))) by (apply Rmult_lt_0_compat; lra).
    rewrite Ht in E. assert (0 < a * a * (b * b) * (F - 1)) by lra. destruct (Rlt_le_dec 1 F); auto. nra.
Qed.

(** ** C24 shape matrix *)

Lemma shape_matrix_dets e : 0 < ea e -> 0 < eb e ->
  let '(A, B, C, D, E, F) := ellipse_equation e in
  A * C - B * B / 4 = (ea e * eb e) ^ 2 /\
  - det3 (mkM3 A (B / 2) (D / 2) (B / 2) C (E / 2) (D / 2) (E / 2) F) = (ea e * eb e) ^ 2 * (ea e * eb e) ^ 2.
Proof.
  intros Ha Hb. unfold ellipse_equation. rewrite ell_angle_eq. set (th := ell_th e). pose proof (cs1 th) as H. set (c := cos th) in *. set (s := sin th) in *.
  replace (1 - s * s) with (c * c) by lra. set (a := ea e) in *. set (b := eb e) in *. destruct (eO e) as [x y]; cbn [fst snd].
  assert (E1 : (a ^ 2 * (s * s) + b ^ 2 * (c * c)) * (a ^ 2 * (c * c) + b ^ 2 * (s * s)) - 2 * (b ^ 2 - a ^ 2) * s * c * (2 * (b ^ 2 - a ^ 2) * s * c) / 4 = (a * b) ^ 2).
  { transitivity ((a * b) ^ 2 * ((c * c + s * s) * (c * c + s * s))); [field|rewrite H; ring]. }
  split; auto.
  set (A := a ^ 2 * (s * s) + b ^ 2 * (c * c)) in *. set (C := a ^ 2 * (c * c) + b ^ 2 * (s * s)) in *. set (B := 2 * (b ^ 2 - a ^ 2) * s * c) in *.
  unfold det3; cbn. transitivity ((A * C - B * B / 4) * (a * b) ^ 2); [field|]. rewrite E1. ring.
Qed.

Definition quad2 (S : mat2) (u : pt) : R := m11 S * fst u * fst u + (m12 S + m21 S) * fst u * snd u + m22 S * snd u * snd u.

Lemma shape_matrix_spec e : 0 < ea e -> 0 < eb e ->
  exists S, shape_matrix e = Ok S /\ m12 S = m21 S /\
    forall M, quad2 S (vsub M (eO e)) = ell_form (eO e) (ea e) (eb e) (ell_th e) M.
Proof.
  intros Ha Hb. pose proof (shape_matrix_dets e Ha Hb) as H. pose proof (equation_spec e) as HE. unfold shape_matrix.
  assert (Hp : 0 < (ea e * eb e) ^ 2) by (apply pow_lt; nra).
  destruct (ellipse_equation e) as [[[[[A B] C] D] E] F] eqn:EQ. destruct H as [H1 H2].
  unfold np_div. rewrite H1, H2. destruct (eqb ((ea e * eb e) ^ 2) 0) eqn:Q; [apply eqb_true in Q; lra|].
  replace ((ea e * eb e) ^ 2 * (ea e * eb e) ^ 2 / (ea e * eb e) ^ 2) with ((ea e * eb e) ^ 2) by (field; nra).
  destruct Req_EM_T; [lra|]. cbn [bind]. rewrite Q. eexists. split; [reflexivity|]. cbn [m11 m12 m21 m22]. split; auto.
  intros M. specialize (HE M Ha Hb).
  assert (HM : conic_eval (A, B, C, D, E, F) M + (ea e * eb e) ^ 2 = A * (fst M - fst (eO e)) * (fst M - fst (eO e)) + B * (fst M - fst (eO e)) * (snd M - snd (eO e)) + C * (snd M - snd (eO e)) * (snd M - snd (eO e))).
  { revert EQ. unfold ellipse_equation. intros EQ. injection EQ as <- <- <- <- <- <-. unfold conic_eval. destruct M as [u v]; cbn [fst snd]. ring. }
  set (k := (ea e * eb e) ^ 2) in *. unfold quad2; cbn [m11 m12 m21 m22 fst snd vsub].
  apply Rmult_eq_reg_l with k; [|lra]. transitivity (conic_eval (A, B, C, D, E, F) M + k); [rewrite HM; field; lra|]. rewrite HE. ring.
Qed.

(** ** C20 random points *)

Lemma quad2_pos_det S : m12 S = m21 S -> (forall u, u <> (0, 0) -> 0 < quad2 S u) -> 0 < m11 S /\ 0 < det2 S.
Proof.
  intros Hs H. assert (H1 : 0 < m11 S).
  { specialize (H (1, 0)). unfold quad2 in H; cbn [fst snd] in H. assert ((1, 0) <> ((0, 0) : pt)) by (intros K; injection K; lra). specialize (H H0). lra. }
  split; auto. assert (K : ((- m12 S, m11 S) : pt) <> (0, 0)) by (intros K; injection K; lra).
  specialize (H _ K). unfold quad2 in H; cbn [fst snd] in H. rewrite <- Hs in H. unfold det2. rewrite <- Hs.
  assert (0 < m11 S * (m11 S * m22 S - m12 S * m12 S)) by (eapply Rlt_le_trans; [exact H|right; ring]).
  destruct (Rlt_le_dec 0 (m11 S * m22 S - m12 S * m12 S)); auto. nra.
Qed.

Lemma cholesky_spec S : m12 S = m21 S -> 0 < m11 S -> 0 < det2 S ->
  exists L, cholesky S = Ok L /\ 0 < m11 L /\ 0 < m22 L /\ m12 L = 0 /\
    m11 L * m11 L = m11 S /\ m11 L * m21 L = m21 S /\ m21 L * m21 L + m22 L * m22 L = m22 S.
Proof.
  intros Hs H1 H2. unfold cholesky. rewrite (proj2 (leb_false _ _)) by auto.
  assert (Hq : 0 < sqrt (m11 S)) by (apply sqrt_lt_R0; auto). assert (Hqq : sqrt (m11 S) * sqrt (m11 S) = m11 S) by (apply sqrt_sqrt; lra).
  set (l := sqrt (m11 S)) in *.
  assert (Hd : m22 S - m21 S / l * (m21 S / l) = det2 S / m11 S).
  { unfold det2. rewrite Hs, <- Hqq. field. lra. }
  assert (0 < det2 S / m11 S) by (apply Rdiv_lt_0_compat; auto).
  rewrite (proj2 (leb_false _ _)) by (rewrite Hd; auto). eexists. split; [reflexivity|]. cbn [m11 m12 m21 m22].
  split; auto. split; [apply sqrt_lt_R0; rewrite Hd; auto|]. do 2 (split; auto). split; [field; lra|].
  rewrite sqrt_sqrt by (rewrite Hd; lra). ring.
Qed.

Lemma solve_spec S L x : 0 < m11 L -> 0 < m22 L -> m12 L = 0 -> m12 S = m21 S ->
  m11 L * m11 L = m11 S -> m11 L * m21 L = m21 S -> m21 L * m21 L + m22 L * m22 L = m22 S ->
  exists y, solve_ut L x = Ok y /\ quad2 S y = sdot x x.
Proof.
  intros H1 H2 H3 Hs E1 E2 E3. unfold solve_ut, inv2. unfold det2; cbn [m11 m12 m21 m22]. rewrite H3.
  assert (0 < m11 L * m22 L - m21 L * 0) by nra. rewrite (proj2 (eqb_false _ _)) by lra. cbn [bind]. eexists. split; [reflexivity|].
  unfold quad2, mv2; cbn [m11 m12 m21 m22 fst snd]. rewrite Hs, <- E1, <- E2, <- E3. destruct x as [u v]. unfold sdot; cbn [fst snd]. field. split; lra.
Qed.

Lemma shape_posdef e S : 0 < ea e -> 0 < eb e -> (forall M, quad2 S (vsub M (eO e)) = ell_form (eO e) (ea e) (eb e) (ell_th e) M) ->
  forall u, u <> (0, 0) -> 0 < quad2 S u.
Proof.
  intros Ha Hb H u Hu. replace u with (vsub (vadd (eO e) u) (eO e)) by (destruct u; unpt; f_equal; ring). rewrite H.
  set (M := vadd (eO e) u). unfold ell_form. 
  assert (Hn : fx (eO e) (ell_th e) M <> 0 \/ fy (eO e) (ell_th e) M <> 0).
  { destruct (Req_dec (fx (eO e) (ell_th e) M) 0) as [E1|E1]; auto. destruct (Req_dec (fy (eO e) (ell_th e) M) 0) as [E2|E2]; auto.
    exfalso. apply Hu. assert (E : M = eO e).
    { apply (frame_inj (eO e) (ell_th e)); rewrite ?E1, ?E2; unfold fx, fy; ring. }
    unfold M in E. destruct u as [x y]. revert E. destruct (eO e) as [p q]. unpt. intros E. injection E as X Y. f_equal; lra. }
  set (X := fx (eO e) (ell_th e) M) in *. set (Y := fy (eO e) (ell_th e) M) in *.
  assert (N : X / ea e <> 0 \/ Y / eb e <> 0).
  { destruct Hn as [N|N]; [left|right]; intros K; apply N; [replace X with (X / ea e * ea e) by (field; lra)|replace Y with (Y / eb e * eb e) by (field; lra)]; rewrite K; ring. }
  rewrite <- !Rsqr_pow2. unfold Rsqr. pose proof (sqnn (X / ea e)). pose proof (sqnn (Y / eb e)).
  destruct N as [N|N]; apply sqpos in N; lra.
Qed.

Lemma runif_on_Ok r g p : runif_on_circle1_ r g = Ok p -> sdot p p = r * r.
Proof.
  intros H. assert (Hg : g <> (0, 0)).
  { intros ->. unfold runif_on_circle1_ in H. rewrite (proj2 (eqb_true _ 0)) in H; [discriminate|].
    unfold vlength_, dot_; cbn [fst snd]. replace (0 * 0 + 0 * 0) with 0 by ring. apply sqrt_0. }
  destruct (runif_on_spec r g Hg) as (q & E & K). rewrite E in H. injection H as <-. auto.
Qed.

Lemma runif_in_Ok u g p : 0 <= u < 1 -> runif_in_circle1_ 1 u g = Ok p -> sdot p p < 1.
Proof.
  intros Hu H. unfold runif_in_circle1_ in H. apply bind_Ok in H. destruct H as (q & E & H). apply runif_on_Ok in E. injection H as <-.
  rewrite sqrt_sqrt in E by lra. replace (sdot (vscal 1 q) (vscal 1 q)) with (sdot q q) by (unfold sdot; unpt; ring). lra.
Qed.

(** the Cholesky step of the library, on the shape matrix *)
Lemma ellipse_random_one e S : 0 < ea e -> 0 < eb e -> shape_matrix e = Ok S -> exists L,
  cholesky S = Ok L /\ 
  (forall x, exists y, solve_ut L x = Ok y /\ ell_form (eO e) (ea e) (eb e) (ell_th e) (vadd y (eO e)) = sdot x x) /\
  (forall y, exists x, solve_ut L x = Ok y).
Proof.
  intros Ha Hb HS'. destruct (shape_matrix_spec e Ha Hb) as (S' & HS & Hsym & Hq). rewrite HS in HS'. injection HS' as <-.
  pose proof (shape_posdef e S' Ha Hb Hq) as Hpd. destruct (quad2_pos_det S' Hsym Hpd) as [Hp1 Hp2].
  destruct (cholesky_spec S' Hsym Hp1 Hp2) as (L & HL & L1 & L2 & L3 & L4 & L5 & L6). 
  exists L. split; auto. split.
  - intros x. destruct (solve_spec S' L x L1 L2 L3 Hsym L4 L5 L6) as (z & Hz & Qz). exists z. split; auto. rewrite <- Hq, <- Qz.
    f_equal. destruct z, (eO e). unpt. f_equal; ring.
  - intros y. exists (m11 L * fst y + m21 L * snd y, m22 L * snd y).
    unfold solve_ut, inv2. unfold det2; cbn [m11 m12 m21 m22]. rewrite L3.
    assert (0 < m11 L * m22 L - m21 L * 0) by nra. rewrite (proj2 (eqb_false _ _)) by lra. cbn [bind]. f_equal.
    destruct y as [u v]. unfold mv2; cbn [m11 m12 m21 m22 fst snd]. f_equal; field; lra.
Qed.

Lemma ellipse_random_spec e n w draws ps : 0 < ea e -> 0 < eb e ->
  Forall (fun d => 0 <= fst d < 1) draws ->
  ellipse_random_points e n w draws = Ok ps ->
  length ps = length draws /\
  match w with
  | WhereOn => Forall (on_ellipse (eO e) (ea e) (eb e) (ell_th e)) ps
  | WhereIn => Forall (in_ellipse (eO e) (ea e) (eb e) (ell_th e)) ps
  | WhereOther => False
  end.
Proof.
  intros Ha Hb Hd. unfold ellipse_random_points. destruct (n <=? 0)%Z; [discriminate|].
  destruct (shape_matrix_spec e Ha Hb) as (S & HS & _). rewrite HS. cbn [bind].
  destruct (ellipse_random_one e S Ha Hb HS) as (L & HL & Hone & _).
  assert (one : forall rx y, (let! x := rx in let! L := cholesky S in let! y := solve_ut L x in Ok (vadd y (eO e))) = Ok y ->
     exists x, rx = Ok x /\ ell_form (eO e) (ea e) (eb e) (ell_th e) y = sdot x x).
  { intros rx y H. apply bind_Ok in H. destruct H as (x & -> & H). exists x. split; auto. rewrite HL in H. cbn [bind] in H.
    destruct (Hone x) as (z & Hz & Qz). rewrite Hz in H. cbn [bind] in H. injection H as <-. auto. }
  destruct w; try discriminate; intros H; apply mapM_Ok_Forall2 in H; pose proof (Forall2_len _ _ _ H) as HLen; (split; [auto|]).
  - clear HLen. induction H as [|d y ds ys E F IH]; constructor.
    + apply one in E. destruct E as (x & Ex & K). unfold in_ellipse. rewrite K. inversion Hd; subst.
      apply runif_in_Ok in Ex; auto; lra.
    + apply IH. inversion Hd; auto.
  - clear HLen. induction H as [|d y ds ys E F IH]; constructor.
    + apply one in E. destruct E as (x & Ex & K). unfold on_ellipse. rewrite K. apply runif_on_Ok in Ex. lra.
    + apply IH. inversion Hd; auto.
Qed.

Lemma ellipse_random_total e n w draws : 0 < ea e -> 0 < eb e -> (0 < n)%Z -> w <> WhereOther ->
  Forall (fun d => snd d <> (0, 0)) draws -> exists ps, ellipse_random_points e n w draws = Ok ps.
Proof.
  intros Ha Hb Hn Hw Hd. unfold ellipse_random_points. rewrite (proj2 (Z.leb_gt n 0)) by auto.
  destruct (shape_matrix_spec e Ha Hb) as (S & HS & _). rewrite HS. cbn [bind].
  destruct (ellipse_random_one e S Ha Hb HS) as (L & HL & Hone & _).
  destruct w; [| |contradiction]; apply mapM_total; (eapply Forall_impl; [|exact Hd]); intros [u g] Hg; cbn [fst snd] in *.
  - destruct (runif_on_spec (sqrt u) g Hg) as (p & E & _). unfold runif_in_circle1_. rewrite E. cbn [bind]. rewrite HL. cbn [bind].
    destruct (Hone (vscal 1 p)) as (y & -> & _). cbn [bind]. eauto.
  - destruct (runif_on_spec 1 g Hg) as (p & E & _). rewrite E. cbn [bind]. rewrite HL. cbn [bind]. destruct (Hone p) as (y & -> & _). cbn [bind]. eauto.
Qed.

Lemma ellipse_random_raises e n w draws : 0 < ea e -> 0 < eb e -> (n <= 0)%Z \/ w = WhereOther -> ellipse_random_points e n w draws = Raise ValueError.
Proof.
  intros Ha Hb H. unfold ellipse_random_points. destruct (n <=? 0)%Z eqn:E; auto. destruct H as [H| ->]; [apply Z.leb_gt in E; lia|].
  destruct (shape_matrix_spec e Ha Hb) as (S & HS & _). rewrite HS. auto.
Qed.

Lemma ellipse_random_onto e M : 0 < ea e -> 0 < eb e ->
  (ell_form (eO e) (ea e) (eb e) (ell_th e) M < 1 -> exists u g, 0 <= u < 1 /\ g <> (0, 0) /\ ellipse_random_points e 1 WhereIn [(u, g)] = Ok [M]) /\
  (on_ellipse (eO e) (ea e) (eb e) (ell_th e) M -> exists g, g <> (0, 0) /\ forall u, ellipse_random_points e 1 WhereOn [(u, g)] = Ok [M]).
Proof.
  intros Ha Hb. destruct (shape_matrix_spec e Ha Hb) as (S & HS & _).
  destruct (ellipse_random_one e S Ha Hb HS) as (L & HL & Hone & Honto).
  destruct (Honto (vsub M (eO e))) as (x & Hx). destruct (Hone x) as (y & Hy & Hf). rewrite Hx in Hy. injection Hy as <-.
  replace (vadd (vsub M (eO e)) (eO e)) with M in Hf by (destruct M, (eO e); unpt; f_equal; ring).
  assert (Hdist : dist2 (0, 0) x = sdot x x) by (unspec; ring).
  destruct (circle_random_onto (mkCircle (0, 0) 1) x ltac:(cbn; lra)) as [C1 C2]. cbn [cO cr] in C1, C2.
  assert (Hres : forall rp, (let! p := rp in Ok (vadd p (0, 0))) = Ok x -> rp = Ok x).
  { intros rp H. apply bind_Ok in H. destruct H as (p & -> & H). injection H as H. f_equal. rewrite <- H. destruct p; unpt; f_equal; ring. }
  assert (Hfin : forall rp, rp = Ok x -> (let! x := rp in let! L := cholesky S in let! y := solve_ut L x in Ok (vadd y (eO e))) = Ok M).
  { intros rp ->. cbn [bind]. rewrite HL. cbn [bind]. rewrite Hx. cbn [bind]. f_equal. destruct M, (eO e); unpt; f_equal; ring. }
  split; intros HM.
  - rewrite Hf in HM. destruct C1 as (u & g & Hu & Hg & E).
    { unfold dist. rewrite Hdist. rewrite <- sqrt_1. apply sqrt_lt_1; [rewrite <- Hdist; apply dist2_nonneg|lra|auto]. }
    exists u, g. split; auto. split; auto. unfold circle_random_points, ellipse_random_points in *. cbn [Z.leb Z.compare mapM fst snd cO cr] in *.
    rewrite HS. cbn [bind]. apply bind_Ok in E. destruct E as (z & Ez & E). cbn [bind] in E. injection E as ->. apply Hres in Ez. rewrite (Hfin _ Ez). auto.
  - unfold on_ellipse in HM. rewrite Hf in HM. destruct C2 as (g & Hg & E).
    { unfold on_circle, dist. rewrite Hdist, HM. apply sqrt_1. }
    exists g. split; auto. intros u. specialize (E u). unfold circle_random_points, ellipse_random_points in *. cbn [Z.leb Z.compare mapM fst snd cO cr] in *.
    rewrite HS. cbn [bind]. apply bind_Ok in E. destruct E as (z & Ez & E). cbn [bind] in E. injection E as ->. apply Hres in Ez. rewrite (Hfin _ Ez). auto.
Qed.
