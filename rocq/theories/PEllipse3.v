(** * Proofs about Ellipse: from equations, five points, shape matrices, and
    affine images. *)

From Coq Require Import Reals Lra Lia Psatz List Bool ZArith.
From Verif Require Import Base BaseLemmas Spec SpecLemmas ModelInternal ModelLine ModelCircle ModelAffine ModelEllipse ModelTransfo
  PLine PCircle PInvBase PCircle2 PAffine PTransfo PEllipse PEllipse2.
Import ListNotations.
Local Open Scope R_scope.

(** the quadratic form in the basis of the eigenvectors *)
Lemma eig_form A B C c s l x y : c * c + s * s = 1 -> A * c + B / 2 * s = l * c -> B / 2 * c + C * s = l * s ->
  A * x * x + B * x * y + C * y * y = l * ((c * x + s * y) * (c * x + s * y)) + (A + C - l) * ((- s * x + c * y) * (- s * x + c * y)).
Proof.
  intros H H1 H2. set (X := c * x + s * y). set (Y := - s * x + c * y).
  assert (Ex : x = c * X - s * Y) by (unfold X, Y; transitivity ((c * c + s * s) * x); [rewrite H; ring|ring]).
  assert (Ey : y = s * X + c * Y) by (unfold X, Y; transitivity ((c * c + s * s) * y); [rewrite H; ring|ring]).
  clearbody X Y. rewrite Ex, Ey. clear Ex Ey.
  assert (q11 : A * c * c + B * c * s + C * s * s = l).
  { transitivity (c * (A * c + B / 2 * s) + s * (B / 2 * c + C * s)); [field|]. rewrite H1, H2. transitivity (l * (c * c + s * s)); [ring|rewrite H; ring]. }
  assert (q12 : - A * c * s + B / 2 * (c * c - s * s) + C * s * c = 0).
  { transitivity (- s * (A * c + B / 2 * s) + c * (B / 2 * c + C * s)); [field|]. rewrite H1, H2. ring. }
  assert (q22 : A * s * s - B * c * s + C * c * c = A + C - l).
  { rewrite <- q11. transitivity ((A + C) * (c * c + s * s) - (A * c * c + B * c * s + C * s * s)); [ring|rewrite H; ring]. }
  transitivity ((A * c * c + B * c * s + C * s * s) * (X * X) + 2 * (- A * c * s + B / 2 * (c * c - s * s) + C * s * c) * (X * Y) + (A * s * s - B * c * s + C * c * c) * (Y * Y)); [field|].
  rewrite q11, q12, q22. ring.
Qed.

(** a conic with centre (x0, y0), a direction th that is an eigenvector of the
    smaller eigenvalue, and the corresponding semi-axes *)
Lemma conic_ell_form A B C l K O a b th M : 0 < a -> 0 < b ->
  A * cos th + B / 2 * sin th = l * cos th -> B / 2 * cos th + C * sin th = l * sin th ->
  l * (a * a) = K -> (A + C - l) * (b * b) = K ->
  A * (fst M - fst O) * (fst M - fst O) + B * (fst M - fst O) * (snd M - snd O) + C * (snd M - snd O) * (snd M - snd O) = K * ell_form O a b th M.
Proof.
  intros Ha Hb H1 H2 E1 E2. rewrite (eig_form A B C (cos th) (sin th) l) by (auto; apply cs1).
  unfold ell_form. fold (fx O th M). fold (fy O th M). rewrite <- (Rsqr_pow2 (_ / a)), <- (Rsqr_pow2 (_ / b)). unfold Rsqr.
  transitivity (K * (fx O th M / a * (fx O th M / a)) + K * (fy O th M / b * (fy O th M / b))); [|ring]. rewrite <- E1 at 1. rewrite <- E2. field. lra.
Qed.

Definition conic_k (A B C D E F : R) : R := A * E * E + C * D * D - B * D * E + (B * B - 4 * A * C) * F.

Lemma conic_centre A B C D E F M : 
  let Delta := B * B - 4 * A * C in Delta <> 0 ->
  let x0 := (2 * C * D - B * E) / Delta in let y0 := (2 * A * E - B * D) / Delta in
  conic_eval (A, B, C, D, E, F) M = A * (fst M - x0) * (fst M - x0) + B * (fst M - x0) * (snd M - y0) + C * (snd M - y0) * (snd M - y0) + conic_k A B C D E F / Delta.
Proof. intros Delta H x0 y0. destruct M as [x y]. unfold conic_eval, x0, y0, conic_k, Delta in *; cbn [fst snd]. field. auto. Qed.

Lemma ell_form_PI O a b th n M : ell_form O a b (th + IZR n * PI) M = ell_form O a b th M.
Proof.
  assert (E : cos (th + IZR n * PI) = cos th /\ sin (th + IZR n * PI) = sin th \/ cos (th + IZR n * PI) = - cos th /\ sin (th + IZR n * PI) = - sin th).
  { destruct (Zeven_odd_dec n) as [H|H]; [apply Zeven_ex in H; destruct H as [m ->]; left; apply cs_PI_even|apply Zodd_ex in H; destruct H as [m ->]; right; apply cs_PI_odd]. }
  unfold ell_form, fx, fy. unfold Rdiv. destruct E as [[-> ->]|[-> ->]]; ring.
Qed.

Lemma ell_form_pymod_PI O a b th M : ell_form O a b (pymod th PI) M = ell_form O a b th M.
Proof.
  destruct (pymod_eq th PI) as [n Hn]. rewrite Hn. rewrite <- (ell_form_PI O a b _ n M). f_equal. ring.
Qed.
Lemma ell_form_pymod_180 O a b th M : ell_form O a b (radians true (pymod (th * 180 / PI) 180)) M = ell_form O a b th M.
Proof.
  destruct (pymod_eq (th * 180 / PI) 180) as [n Hn]. rewrite Hn. unfold radians, deg. rewrite <- (ell_form_PI O a b _ n M). f_equal. field. apply PI_neq0.
Qed.

(** ** C54 *)

Lemma inv3_affine f : det2 (afA f) <> 0 -> exists g, inv3 (affine_mat3 f) = Ok (affine_mat3 g) /\ det2 (afA g) <> 0 /\
  (forall P, affine_transform g (affine_transform f P) = P).
Proof.
  intros H. unfold inv3. rewrite det3_affine, (proj2 (eqb_false _ _) H).
  destruct f as [[a b c d] [x y]]. cbn [affine_mat3 afA afb m11 m12 m21 m22 n11 n12 n13 n21 n22 n23 n31 n32 n33 fst snd] in *. 
  unfold det2 in *; cbn [m11 m12 m21 m22] in *. set (D := a * d - b * c) in *.
  exists (mkAffine (mkM2 (d / D) (- b / D) (- c / D) (a / D)) ((b * y - x * d) / D, (x * c - a * y) / D)).
  split; [|split].
  - f_equal. unfold affine_mat3; cbn [afA afb m11 m12 m21 m22 fst snd]. f_equal; unfold D in *; try (field; auto); try (f_equal; ring).
  - cbn [afA m11 m12 m21 m22]. intros K. apply H. assert (E : d / D * (a / D) - - b / D * (- c / D) = D / (D * D)) by (unfold D; field; auto). rewrite E in K.
    apply (f_equal (fun z => z * (D * D))) in K. rewrite Rmult_0_l in K. rewrite <- K. field. auto.
  - intros [u v]. unfold affine_transform, mv2, vadd; cbn [afA afb m11 m12 m21 m22 fst snd]. unfold D in *. f_equal; field; auto.
Qed.

Definition conic_mat (k : conic) : mat3 := let '(A, B, C, D, E, F) := k in mkM3 A (B / 2) (D / 2) (B / 2) C (E / 2) (D / 2) (E / 2) F.
Definition mat_conic (Y : mat3) : conic := (n11 Y, 2 * n12 Y, n22 Y, 2 * n13 Y, 2 * n23 Y, n33 Y).

Lemma mm3_mk p11 p12 p13 p21 p22 p23 p31 p32 p33 q11 q12 q13 q21 q22 q23 q31 q32 q33 :
  mm3 (mkM3 p11 p12 p13 p21 p22 p23 p31 p32 p33) (mkM3 q11 q12 q13 q21 q22 q23 q31 q32 q33) = mkM3 (p11 * q11 + p12 * q21 + p13 * q31) (p11 * q12 + p12 * q22 + p13 * q32) (p11 * q13 + p12 * q23 + p13 * q33) (p21 * q11 + p22 * q21 + p23 * q31) (p21 * q12 + p22 * q22 + p23 * q32) (p21 * q13 + p22 * q23 + p23 * q33) (p31 * q11 + p32 * q21 + p33 * q31) (p31 * q12 + p32 * q22 + p33 * q32) (p31 * q13 + p32 * q23 + p33 * q33).
Proof. reflexivity. Qed.
Lemma tr3_mk p11 p12 p13 p21 p22 p23 p31 p32 p33 : tr3 (mkM3 p11 p12 p13 p21 p22 p23 p31 p32 p33) = mkM3 p11 p21 p31 p12 p22 p32 p13 p23 p33.
Proof. reflexivity. Qed.
Lemma affine_mat3_mk a b c d x y : affine_mat3 (mkAffine (mkM2 a b c d) (x, y)) = mkM3 a b x c d y 0 0 1.
Proof. reflexivity. Qed.
Lemma mat_conic_mk p11 p12 p13 p21 p22 p23 p31 p32 p33 : mat_conic (mkM3 p11 p12 p13 p21 p22 p23 p31 p32 p33) = (p11, 2 * p12, p22, 2 * p13, 2 * p23, p33).
Proof. reflexivity. Qed.

Lemma conic_half (k : conic) : exists A B C D E F, k = (A, 2 * B, C, 2 * D, 2 * E, F) /\ conic_mat k = mkM3 A B D B C E D E F.
Proof.
  destruct k as [[[[[A B] C] D] E] F]. exists A, (B / 2), C, (D / 2), (E / 2), F. split; [|auto].
  replace (2 * (B / 2)) with B by field. replace (2 * (D / 2)) with D by field. replace (2 * (E / 2)) with E by field. auto.
Qed.

Lemma conic_pullback k g P : conic_eval (mat_conic (mm3 (mm3 (tr3 (affine_mat3 g)) (conic_mat k)) (affine_mat3 g))) P = conic_eval k (affine_transform g P).
Proof.
  destruct (conic_half k) as (A & B & C & D & E & F & -> & ->). destruct g as [[a b c d] [x y]], P as [u v].
  rewrite affine_mat3_mk, tr3_mk, !mm3_mk, mat_conic_mk. unfold affine_transform, mv2, vadd, conic_eval; cbn [afA afb m11 m12 m21 m22 fst snd]. ring.
Qed.

Definition c_disc (k : conic) : R := let '(A, B, C, D, E, F) := k in B * B - 4 * A * C.
Definition c_k (k : conic) : R := let '(A, B, C, D, E, F) := k in conic_k A B C D E F.

Lemma disc_pullback k g : c_disc (mat_conic (mm3 (mm3 (tr3 (affine_mat3 g)) (conic_mat k)) (affine_mat3 g))) = det2 (afA g) ^ 2 * c_disc k.
Proof.
  destruct (conic_half k) as (A & B & C & D & E & F & -> & ->). destruct g as [[a b c d] [x y]].
  rewrite affine_mat3_mk, tr3_mk, !mm3_mk, mat_conic_mk. unfold c_disc, det2; cbn [afA m11 m12 m21 m22]. ring.
Qed.
Lemma k_pullback k g : c_k (mat_conic (mm3 (mm3 (tr3 (affine_mat3 g)) (conic_mat k)) (affine_mat3 g))) = det2 (afA g) ^ 2 * c_k k.
Proof.
  destruct (conic_half k) as (A & B & C & D & E & F & -> & ->). destruct g as [[a b c d] [x y]].
  rewrite affine_mat3_mk, tr3_mk, !mm3_mk, mat_conic_mk. unfold c_k, conic_k, det2; cbn [afA m11 m12 m21 m22]. ring.
Qed.

(** the last part of [transform_ellipse] *)
Definition ell_of_conic (k : conic) (degrees : bool) : res (option ellipse) :=
  let '(A, B, C, D, E, F) := k in
    let Delta := B * B - 4 * A * C in
    let! s := py_sqrt ((A - C) ^ 2 + B * B) in
    let k := 2 * (A * E * E + C * D * D - B * D * E + Delta * F) in
    let! sa := np_sqrt (k * ((A + C) + s)) in
    let! sb := np_sqrt (k * ((A + C) + - s)) in
    let! a := np_div (- sa) Delta in
    let! b := np_div (- sb) Delta in
    let! x0 := np_div (2 * C * D - B * E) Delta in
    let! y0 := np_div (2 * A * E - B * D) Delta in
    let theta := atan2 (C - A - s) B in
    let theta := if degrees then pymod (theta * 180 / PI) 180 else pymod theta PI in
    let! e' := Ellipse_init (x0, y0) a b theta degrees in
    Ok (Some e').

Lemma atan2_dir p q : exists r, 0 <= r /\ r * cos (atan2 q p) = p /\ r * sin (atan2 q p) = q.
Proof.
  destruct (pt_eq_dec (p, q) (0, 0)) as [E|E].
  - injection E as -> ->. exists 0. split; [lra|]. split; ring.
  - destruct (cos_sin_atan2 q p E) as [H1 H2]. pose proof (sum_sq_pos p q E) as K. assert (0 < sqrt (p * p + q * q)) by (apply sqrt_lt_R0; lra).
    exists (sqrt (p * p + q * q)). split; [lra|]. rewrite H1, H2. split; field; lra.
Qed.
Lemma atan2_00 : atan2 0 0 = 0.
Proof. unfold atan2. destruct (Rlt_dec 0 0); [lra|]. destruct (Rlt_dec 0 0); [lra|]. auto. Qed.

Lemma ell_of_conic_spec A B C D E F d : 
  B * B - 4 * A * C < 0 -> 0 < A + C -> 0 < conic_k A B C D E F ->
  exists e, ell_of_conic (A, B, C, D, E, F) d = Ok (Some e) /\ 0 < eb e <= ea e /\ edeg e = d /\
    0 <= ealpha e < (if d then 180 else PI) /\
    exists K, 0 < K /\ forall M, conic_eval (A, B, C, D, E, F) M = K * (ell_form (eO e) (ea e) (eb e) (ell_th e) M - 1).
Proof.
  intros HD HT Hk. unfold ell_of_conic. assert (Hs0 : 0 <= (A - C) ^ 2 + B * B) by (pose proof (pow2_ge_0 (A - C)); pose proof (sqnn B); lra).
  unfold py_sqrt. destruct (Rlt_dec ((A - C) ^ 2 + B * B) 0); [lra|]. cbn [bind].
  pose proof (sqrt_pos ((A - C) ^ 2 + B * B)) as Hs. pose proof (sqrt_sqrt _ Hs0) as Hss. set (s := sqrt _) in *. clearbody s.
  fold (conic_k A B C D E F). set (k := conic_k A B C D E F) in *.
  assert (Hl : 0 < A + C + - s). { assert (s * s < (A + C) * (A + C)) by nra. nra. }
  unfold np_sqrt. assert (P1 : 0 < 2 * k * (A + C + s)) by (apply Rmult_lt_0_compat; lra). assert (P2 : 0 < 2 * k * (A + C + - s)) by (apply Rmult_lt_0_compat; lra).
  destruct (Rlt_dec (2 * k * (A + C + s)) 0); [lra|]. destruct (Rlt_dec (2 * k * (A + C + - s)) 0); [lra|]. cbn [bind].
  set (Dl := B * B - 4 * A * C) in *. unfold np_div. destruct (Req_EM_T Dl 0); [lra|]. cbn [bind].
  set (sa := sqrt (2 * k * (A + C + s))) in *. set (sb := sqrt (2 * k * (A + C + - s))) in *.
  assert (Hsa : 0 < sa) by (apply sqrt_lt_R0; auto). assert (Hsb : 0 < sb) by (apply sqrt_lt_R0; auto).
  assert (Hsaa : sa * sa = 2 * k * (A + C + s)) by (apply sqrt_sqrt; lra). assert (Hsbb : sb * sb = 2 * k * (A + C + - s)) by (apply sqrt_sqrt; lra).
  assert (Hle : sb <= sa) by (apply sqrt_le_1; try lra; apply Rmult_le_compat_l; lra).
  clearbody sa sb.
  assert (Ha : 0 < - sa / Dl). { replace (- sa / Dl) with (sa / - Dl) by (field; lra). apply Rdiv_lt_0_compat; lra. }
  assert (Hb : 0 < - sb / Dl). { replace (- sb / Dl) with (sb / - Dl) by (field; lra). apply Rdiv_lt_0_compat; lra. }
  rewrite Ellipse_init_pos by auto. cbn [bind]. eexists. split; [reflexivity|]. cbn [ea eb edeg ealpha eO].
  split. { split; auto. replace (- sb / Dl) with (sb * / - Dl) by (field; lra). replace (- sa / Dl) with (sa * / - Dl) by (field; lra). apply Rmult_le_compat_r; auto. left. apply Rinv_0_lt_compat. lra. }
  split; auto. split. { destruct d; apply pymod_range; [lra|apply PI_RGT_0]. }
  assert (Hth : forall M, ell_form ((2 * C * D - B * E) / Dl, (2 * A * E - B * D) / Dl) (- sa / Dl) (- sb / Dl) 
        (radians d (if d then pymod (atan2 (C - A - s) B * 180 / PI) 180 else pymod (atan2 (C - A - s) B) PI)) M = 
      ell_form ((2 * C * D - B * E) / Dl, (2 * A * E - B * D) / Dl) (- sa / Dl) (- sb / Dl) (atan2 (C - A - s) B) M).
  { intros M. destruct d; [apply ell_form_pymod_180|apply ell_form_pymod_PI]. }
  exists (- (k / Dl)). split. { replace (- (k / Dl)) with (k / - Dl) by (field; lra). apply Rdiv_lt_0_compat; lra. }
  intros M. rewrite conic_centre by (fold Dl; lra). fold Dl. fold k. unfold ell_th; cbn [ealpha edeg]. rewrite Hth.
  transitivity (- (k / Dl) * ell_form ((2 * C * D - B * E) / Dl, (2 * A * E - B * D) / Dl) (- sa / Dl) (- sb / Dl) (atan2 (C - A - s) B) M + k / Dl); [|ring].
  f_equal. 
  assert (HDl : Dl = - ((A + C + s) * (A + C + - s))) by (unfold Dl; nra).
  assert (Hdir : A * cos (atan2 (C - A - s) B) + B / 2 * sin (atan2 (C - A - s) B) = (A + C - s) / 2 * cos (atan2 (C - A - s) B) /\
                 B / 2 * cos (atan2 (C - A - s) B) + C * sin (atan2 (C - A - s) B) = (A + C - s) / 2 * sin (atan2 (C - A - s) B)).
  { destruct (pt_eq_dec (B, C - A - s) (0, 0)) as [Z|Z].
    - injection Z as Z1 Z2. rewrite Z1, Z2, atan2_00, cos_0, sin_0. split; lra.
    - destruct (atan2_dir B (C - A - s)) as (r & Hr & R1 & R2). assert (r <> 0). { intros ->. apply Z. f_equal; lra. }
      set (c := cos _) in *. set (z := sin _) in *. clearbody c z. split; (apply Rmult_eq_reg_l with r; [|auto]).
      + transitivity (A * (r * c) + B / 2 * (r * z)); [ring|]. transitivity ((A + C - s) / 2 * (r * c)); [|ring]. rewrite R1, R2. field.
      + transitivity (B / 2 * (r * c) + C * (r * z)); [ring|]. transitivity ((A + C - s) / 2 * (r * z)); [|ring]. rewrite R1, R2. nra. }
  destruct Hdir as [Hd1 Hd2].
  apply (conic_ell_form A B C ((A + C - s) / 2) _ ((2 * C * D - B * E) / Dl, (2 * A * E - B * D) / Dl)); auto.
  - transitivity ((A + C - s) / 2 * (sa * sa) / (Dl * Dl)); [field; lra|]. rewrite Hsaa. rewrite HDl. field. lra.
  - transitivity ((A + C + s) / 2 * (sb * sb) / (Dl * Dl)); [field; lra|]. rewrite Hsbb. rewrite HDl. field. lra.
Qed.

Lemma transform_ellipse_eq f arg : det2 (afA f) <> 0 ->
  affine_transform_ellipse f arg =
    let! e := match arg with ACircle c => circle_as_ellipse c | AEllipse e => Ok e end in
    let! Mat := inv3 (affine_mat3 f) in
    ell_of_conic (mat_conic (mm3 (mm3 (tr3 Mat) (conic_mat (ellipse_equation e))) Mat)) (edeg e).
Proof.
  intros H. unfold affine_transform_ellipse. rewrite (proj2 (eqb_false _ _) H).
  destruct (match arg with ACircle c => circle_as_ellipse c | AEllipse e => Ok e end) as [e|]; cbn [bind]; auto.
Qed.

Lemma circle_as_ellipse_spec c : 0 < cr c -> circle_as_ellipse c = Ok (mkEllipse (cO c) (cr c) (cr c) 0 true) /\
  forall M, on_circle (cO c) (cr c) M <-> on_ellipse (cO c) (cr c) (cr c) (radians true 0) M.
Proof.
  intros H. split; [apply Ellipse_init_pos; auto|]. intros M. rewrite on_circle_sq by lra. rewrite on_ellipse_poly by auto.
  replace (radians true 0) with 0 by (unfold radians, deg; field). unfold fx, fy. rewrite cos_0, sin_0.
  replace (cr c * cr c * _ + _) with (cr c * cr c * dist2 (cO c) M) by (unspec; ring). assert (0 < cr c * cr c) by nra.
  split; [intros ->; auto|]. intros K. apply Rmult_eq_reg_l with (cr c * cr c); lra.
Qed.

Lemma transform_ellipse_spec f arg : pos_ce arg -> det2 (afA f) <> 0 ->
  exists e, affine_transform_ellipse f arg = Ok (Some e) /\ 0 < eb e <= ea e /\
    edeg e = match arg with ACircle _ => true | AEllipse e0 => edeg e0 end /\
    0 <= ealpha e < (if edeg e then 180 else PI) /\
    forall M, on_ce arg M <-> on_ellipse (eO e) (ea e) (eb e) (ell_th e) (affine_transform f M).
Proof.
  intros Hp Hd. rewrite transform_ellipse_eq by auto.
  assert (He : exists e0, match arg with ACircle c => circle_as_ellipse c | AEllipse e => Ok e end = Ok e0 /\ 0 < ea e0 /\ 0 < eb e0 /\
     edeg e0 = match arg with ACircle _ => true | AEllipse e0 => edeg e0 end /\
     forall M, on_ce arg M <-> on_ellipse (eO e0) (ea e0) (eb e0) (ell_th e0) M).
  { destruct arg as [c|e]; cbn [pos_ce on_ce] in *.
    - destruct (circle_as_ellipse_spec c Hp) as [H1 H2]. rewrite H1. eexists. split; [reflexivity|]. cbn [ea eb edeg eO]. do 3 (split; auto).
    - exists e. tauto. }
  destruct He as (e0 & -> & Ha & Hb & Hdeg & Hon). cbn [bind]. rewrite <- Hdeg. destruct (inv3_affine f Hd) as (g & -> & Hdg & Hgf). cbn [bind].
  pose proof (conic_pullback (ellipse_equation e0) g) as HP. pose proof (disc_pullback (ellipse_equation e0) g) as HD. pose proof (k_pullback (ellipse_equation e0) g) as HK.
  set (Y := mat_conic _) in *. clearbody Y. 
  pose proof (shape_matrix_dets e0 Ha Hb) as Hsm. pose proof (fun M => equation_spec e0 M Ha Hb) as Heq.
  assert (Hdg2 : 0 < det2 (afA g) ^ 2) by nra. assert (Hab : 0 < (ea e0 * eb e0) ^ 2) by (apply pow_lt; nra).
  assert (H1 : c_disc Y < 0).
  { rewrite HD. destruct (ellipse_equation e0) as [[[[[A B] C] D] E] F]. cbn [c_disc]. destruct Hsm as [S1 _]. 
    replace (B * B - 4 * A * C) with (-4 * (A * C - B * B / 4)) by field. rewrite S1. nra. }
  assert (H2 : 0 < c_k Y).
  { rewrite HK. destruct (ellipse_equation e0) as [[[[[A B] C] D] E] F]. cbn [c_k]. destruct Hsm as [_ S2]. 
    apply Rmult_lt_0_compat; auto.
    replace (conic_k A B C D E F) with (4 * - det3 (mkM3 A (B / 2) (D / 2) (B / 2) C (E / 2) (D / 2) (E / 2) F)) by (unfold conic_k, det3; cbn; field).
    rewrite S2. apply Rmult_lt_0_compat; [lra|]. apply Rmult_lt_0_compat; auto. }
  destruct Y as [[[[[A B] C] D] E] F]. cbn [c_disc c_k] in *.
  assert (H3 : 0 < A + C).
  { assert (HAC : 0 < A * C) by nra. destruct (Rlt_le_dec 0 (A + C)) as [|N]; auto. exfalso.
    assert (HA : A < 0) by nra.
    assert (E2 : 2 * A = conic_eval (A, B, C, D, E, F) (1, 0) + conic_eval (A, B, C, D, E, F) (-1, 0) - 2 * conic_eval (A, B, C, D, E, F) (0, 0)) by (unfold conic_eval; ring).
    rewrite !HP, !Heq in E2. clear - HA E2 Hab Ha Hb. set (m := (ea e0 * eb e0) ^ 2) in *. clearbody m.
    assert (Hx : fx (eO e0) (ell_th e0) (affine_transform g (0, 0)) = (fx (eO e0) (ell_th e0) (affine_transform g (1, 0)) + fx (eO e0) (ell_th e0) (affine_transform g (-1, 0))) / 2).
    { unfold affine_transform, mv2, vadd, fx; cbn [fst snd]. field. }
    assert (Hy : fy (eO e0) (ell_th e0) (affine_transform g (0, 0)) = (fy (eO e0) (ell_th e0) (affine_transform g (1, 0)) + fy (eO e0) (ell_th e0) (affine_transform g (-1, 0))) / 2).
    { unfold affine_transform, mv2, vadd, fy; cbn [fst snd]. field. }
    unfold ell_form in E2. rewrite Hx, Hy in E2. set (X1 := fx _ _ (affine_transform g (1, 0))) in *. set (X2 := fx _ _ (affine_transform g (-1, 0))) in *.
    set (Y1 := fy _ _ (affine_transform g (1, 0))) in *. set (Y2 := fy _ _ (affine_transform g (-1, 0))) in *. clearbody X1 X2 Y1 Y2.
    assert (E3 : 2 * A = m * (((X1 - X2) / ea e0) ^ 2 / 2 + ((Y1 - Y2) / eb e0) ^ 2 / 2)) by (rewrite E2; field; lra).
    pose proof (pow2_ge_0 ((X1 - X2) / ea e0)). pose proof (pow2_ge_0 ((Y1 - Y2) / eb e0)). 
    assert (0 <= m * (((X1 - X2) / ea e0) ^ 2 / 2 + ((Y1 - Y2) / eb e0) ^ 2 / 2)) by (apply Rmult_le_pos; lra). lra. }
  destruct (ell_of_conic_spec A B C D E F (edeg e0) H1 H3 H2) as (e & Ee & Eb & Ed & Eal & K & HKpos & Hcon).
  exists e. rewrite Ee. split; auto. split; auto. split; auto. rewrite Ed. split; auto.
  intros M. rewrite Hon. rewrite <- equation_on by auto. rewrite <- (Hgf M) at 1. rewrite <- HP, Hcon. unfold on_ellipse.
  split; [|intros ->; ring]. intros Z. apply Rmult_integral in Z. lra.
Qed.
