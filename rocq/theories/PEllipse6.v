(** * Proofs about Ellipse: centre and matrix, three boundary points,
    Loewner-John ellipse. *)

From Coq Require Import Reals Lra Lia Psatz List Bool ZArith Permutation.
From Verif Require Import Base BaseLemmas Spec SpecLemmas ModelInternal ModelLine ModelCircle ModelAffine ModelEllipse ModelTransfo
  PLine PCircle PInvBase PCircle2 PAffine PTransfo PEllipse PEllipse2 PEllipse3 PEllipse4 PEllipse5.
Import ListNotations.
Local Open Scope R_scope.

(** ** C29 *)

Definition lowq (S : mat2) (u : pt) : R := m11 S * fst u * fst u + 2 * m21 S * fst u * snd u + m22 S * snd u * snd u.

(** what eigh gives *)
Lemma eigh_facts S r : is_eigh S r ->
  ev0 r <= ev1 r /\ ev1 r = m11 S + m22 S - ev0 r /\
  (forall u, lowq S u = ev0 r * (sdot (evec0 r) u * sdot (evec0 r) u) + ev1 r * (scross (evec0 r) u * scross (evec0 r) u)) /\
  m11 S * fst (evec0 r) + m21 S * snd (evec0 r) = ev0 r * fst (evec0 r) /\
  m21 S * fst (evec0 r) + m22 S * snd (evec0 r) = ev0 r * snd (evec0 r) /\
  fst (evec0 r) * fst (evec0 r) + snd (evec0 r) * snd (evec0 r) = 1.
Proof.
  unfold is_eigh. destruct r as [l0 l1 [c s] [c' s']]. cbn [ev0 ev1 evec0 evec1]. unfold mv2, vscal, dot_; cbn [m11 m12 m21 m22 fst snd].
  intros (L & E0 & E1 & N0 & N1 & N2). injection E0 as A1 A2. injection E1 as B1 B2.
  assert (F : forall u, lowq S u = l0 * ((c * fst u + s * snd u) * (c * fst u + s * snd u)) + (m11 S + m22 S - l0) * ((- s * fst u + c * snd u) * (- s * fst u + c * snd u))).
  { intros [x y]. unfold lowq; cbn [fst snd]. apply (eig_form (m11 S) (2 * m21 S) (m22 S) c s l0 x y); lra. }
  assert (El : l1 = m11 S + m22 S - l0).
  { assert (Q : lowq S (c', s') = l1).
    { unfold lowq; cbn [fst snd]. transitivity (c' * (m11 S * c' + m21 S * s') + s' * (m21 S * c' + m22 S * s')); [ring|]. rewrite B1, B2. transitivity (l1 * (c' * c' + s' * s')); [ring|rewrite N1; ring]. }
    rewrite F in Q; cbn [fst snd] in Q.
    assert (K : (- s * c' + c * s') * (- s * c' + c * s') = 1).
    { transitivity ((c * c + s * s) * (c' * c' + s' * s') - (c * c' + s * s') * (c * c' + s * s')); [ring|rewrite N0, N1, N2; ring]. }
    rewrite K, N2 in Q. lra. }
  split; [lra|]. split; [auto|]. split; [|repeat split; lra].
  intros u. rewrite F, <- El. unspec. destruct u. cbn [fst snd]. ring.
Qed.

(** shape of the result *)
Lemma from_cm_cases eigh c S : is_eigh S (eigh S) ->
  (0 < ev0 (eigh S) /\ from_center_and_matrix eigh c S =
     Ok (mkEllipse c (1 / sqrt (ev0 (eigh S))) (1 / sqrt (ev1 (eigh S))) (pymod (atan2 (snd (evec0 (eigh S))) (fst (evec0 (eigh S))) * 180 / PI) 180) true)) \/
  (ev0 (eigh S) <= 0 /\ from_center_and_matrix eigh c S = Raise ValueError).
Proof.
  intros H. destruct (eigh_facts _ _ H) as (L & _). unfold from_center_and_matrix. destruct (leb (ev0 (eigh S)) 0) eqn:E0.
  - apply leb_true in E0. right. auto.
  - apply leb_false in E0. left. split; auto. rewrite (proj2 (leb_false (ev1 _) 0)) by lra. cbn [orb]. unfold Ellipse_init.
    assert (0 < sqrt (ev0 (eigh S))) by (apply sqrt_lt_R0; auto). assert (0 < sqrt (ev1 (eigh S))) by (apply sqrt_lt_R0; lra).
    rewrite !(proj2 (leb_false _ 0)); auto; apply Rdiv_lt_0_compat; lra.
Qed.

Lemma from_cm_spec eigh c S e : is_eigh S (eigh S) -> from_center_and_matrix eigh c S = Ok e ->
  eO e = c /\ 0 < eb e <= ea e /\ edeg e = true /\ 0 <= ealpha e < 180 /\
  forall M, lowq S (vsub M c) = ell_form (eO e) (ea e) (eb e) (ell_th e) M.
Proof.
  intros H HE. destruct (eigh_facts _ _ H) as (L & El & _ & V1 & V2 & N). destruct (from_cm_cases eigh c S H) as [[P E]|[_ E]]; [|congruence].
  rewrite E in HE. injection HE as <-. cbn [eO ea eb edeg ealpha]. set (r := eigh S) in *.
  assert (S0 : 0 < sqrt (ev0 r)) by (apply sqrt_lt_R0; auto). assert (S1 : 0 < sqrt (ev1 r)) by (apply sqrt_lt_R0; lra).
  assert (Sle : sqrt (ev0 r) <= sqrt (ev1 r)) by (apply sqrt_le_1; lra).
  pose proof (sqrt_sqrt (ev0 r) ltac:(lra)) as Q0. pose proof (sqrt_sqrt (ev1 r) ltac:(lra)) as Q1.
  split; [auto|]. split. { split; [apply Rdiv_lt_0_compat; lra|]. unfold Rdiv. rewrite !Rmult_1_l. apply Rinv_le_contravar; lra. }
  split; [auto|]. split. { apply pymod_range. lra. }
  intros M. unfold ell_th; cbn [edeg ealpha]. rewrite ell_form_pymod_180.
  unfold lowq, vsub; cbn [fst snd]. 
  assert (Nz : (fst (evec0 r), snd (evec0 r)) <> (0, 0)). { intros K. injection K as K1 K2. rewrite K1, K2 in N. lra. }
  destruct (cos_sin_atan2 (snd (evec0 r)) (fst (evec0 r)) Nz) as [C1 C2]. rewrite N, sqrt_1 in C1, C2.
  rewrite <- (Rmult_1_l (ell_form _ _ _ _ _)). rewrite <- (conic_ell_form (m11 S) (2 * m21 S) (m22 S) (ev0 r) 1).
  - ring.
  - apply Rdiv_lt_0_compat; lra.
  - apply Rdiv_lt_0_compat; lra.
  - rewrite C1, C2. transitivity (m11 S * fst (evec0 r) + m21 S * snd (evec0 r)); [field|]. rewrite V1. field.
  - rewrite C1, C2. transitivity (m21 S * fst (evec0 r) + m22 S * snd (evec0 r)); [field|]. rewrite V2. field.
  - rewrite <- Q0 at 1. field. lra.
  - rewrite <- El, <- Q1 at 1. field. lra.
Qed.

Lemma from_cm_iff eigh c S : is_eigh S (eigh S) ->
  ((exists e, from_center_and_matrix eigh c S = Ok e) <-> (forall u, u <> (0, 0) -> 0 < lowq S u)) /\
  (~ (forall u, u <> (0, 0) -> 0 < lowq S u) <-> from_center_and_matrix eigh c S = Raise ValueError).
Proof.
  intros H. destruct (eigh_facts _ _ H) as (L & El & F & _ & _ & N). set (r := eigh S) in *.
  assert (K : 0 < ev0 r <-> (forall u, u <> (0, 0) -> 0 < lowq S u)).
  { split.
    - intros P [x y] Hu. rewrite F.
      assert (Z : sdot (evec0 r) (x, y) * sdot (evec0 r) (x, y) + scross (evec0 r) (x, y) * scross (evec0 r) (x, y) = x * x + y * y).
      { unspec. set (c1 := fst (evec0 r)) in *. set (s1 := snd (evec0 r)) in *. transitivity ((c1 * c1 + s1 * s1) * (x * x + y * y)); [ring|rewrite N; ring]. }
      pose proof (sum_sq_pos x y Hu). pose proof (sqnn (sdot (evec0 r) (x, y))). pose proof (sqnn (scross (evec0 r) (x, y))).
      set (p := sdot _ _ * sdot _ _) in *. set (q := scross _ _ * scross _ _) in *. nra.
    - intros Q. specialize (Q (evec0 r)). rewrite F in Q. 
      assert (Z1 : sdot (evec0 r) (evec0 r) = 1) by (unspec; lra). assert (Z2 : scross (evec0 r) (evec0 r) = 0) by (unspec; ring).
      rewrite Z1, Z2 in Q. assert (evec0 r <> (0, 0)). { intros K. rewrite K in N. cbn in N. lra. } specialize (Q H0). lra. }
  destruct (from_cm_cases eigh c S H) as [[P E]|[P E]]; fold r in P; rewrite E.
  - split; split; intros J; eauto; try tauto; try discriminate.
  - split; split; intros J; auto.
    + destruct J; discriminate.
    + exfalso. apply K in J. lra.
    + intros Q. apply K in Q. lra.
Qed.

(** [np.linalg.eigh] exists *)
Lemma eigh_exists : exists eigh : mat2 -> eigh_res, forall S, is_eigh S (eigh S).
Proof.
  assert (H : forall S, { r | is_eigh S r }).
  { intros S. set (A := m11 S). set (b := m21 S). set (C := m22 S).
    set (d := sqrt ((A - C) * (A - C) + 4 * (b * b))).
    assert (Hd : 0 <= d) by apply sqrt_pos. assert (Hdd : d * d = (A - C) * (A - C) + 4 * (b * b)) by (apply sqrt_sqrt; pose proof (sqnn (A - C)); pose proof (sqnn b); lra).
    set (l0 := (A + C - d) / 2). set (l1 := (A + C + d) / 2).
    destruct (Req_EM_T b 0) as [Hb|Hb].
    - destruct (Rle_dec A C).
      + exists (mkEigh A C (1, 0) (0, 1)). unfold is_eigh, mv2, vscal, dot_; cbn [ev0 ev1 evec0 evec1 m11 m12 m21 m22 fst snd]. fold A b C. rewrite Hb.
        repeat split; try lra; f_equal; ring.
      + exists (mkEigh C A (0, 1) (1, 0)). unfold is_eigh, mv2, vscal, dot_; cbn [ev0 ev1 evec0 evec1 m11 m12 m21 m22 fst snd]. fold A b C. rewrite Hb.
        repeat split; try lra; f_equal; ring.
    - set (n := sqrt (b * b + (l0 - A) * (l0 - A))).
      assert (Hb2 : 0 < b * b) by (apply sqpos; auto).
      assert (Hn : 0 < n) by (apply sqrt_lt_R0; pose proof (sqnn (l0 - A)); lra).
      assert (Hnn : n * n = b * b + (l0 - A) * (l0 - A)) by (apply sqrt_sqrt; pose proof (sqnn (l0 - A)); lra).
      assert (Hch : (l0 - A) * (l0 - C) = b * b) by (unfold l0; nra).
      exists (mkEigh l0 l1 (b / n, (l0 - A) / n) (- (l0 - A) / n, b / n)).
      unfold is_eigh, mv2, vscal, dot_; cbn [ev0 ev1 evec0 evec1 m11 m12 m21 m22 fst snd]. fold A b C.
      assert (El1 : l1 = A + C - l0) by (unfold l0, l1; field).
      repeat split.
      + unfold l0, l1; lra.
      + f_equal.
        * field; lra.
        * transitivity ((b * b + C * (l0 - A)) / n); [field; lra|]. rewrite <- Hch. field; lra.
      + rewrite El1. f_equal.
        * transitivity ((b * b - A * (l0 - A)) / n); [field; lra|]. rewrite <- Hch. field; lra.
        * field; lra.
      + transitivity ((b * b + (l0 - A) * (l0 - A)) / (n * n)); [field; lra|]. rewrite Hnn. apply Rinv_r. rewrite <- Hnn. nra.
      + transitivity ((b * b + (l0 - A) * (l0 - A)) / (n * n)); [field; lra|]. rewrite Hnn. apply Rinv_r. rewrite <- Hnn. nra.
      + field; lra. }
  exists (fun S => proj1_sig (H S)). intros S. apply (proj2_sig (H S)).
Qed.

(** composition with shape_matrix *)
Lemma shape_matrix_roundtrip eigh e : (forall S, is_eigh S (eigh S)) -> 0 < ea e -> 0 < eb e -> exists S e',
  shape_matrix e = Ok S /\ from_center_and_matrix eigh (eO e) S = Ok e' /\ eO e' = eO e /\ 0 < eb e' <= ea e' /\
  forall M, ell_form (eO e') (ea e') (eb e') (ell_th e') M = ell_form (eO e) (ea e) (eb e) (ell_th e) M.
Proof.
  intros Hs Ha Hb. destruct (shape_matrix_spec e Ha Hb) as (S & HS & Hsym & HF).
  assert (Hlq : forall u, lowq S u = quad2 S u) by (intros u; unfold lowq, quad2; rewrite Hsym; ring).
  pose proof (shape_posdef e S Ha Hb HF) as Hpd.
  destruct (proj2 (proj1 (from_cm_iff eigh (eO e) S (Hs S)))) as (e' & He').
  { intros u Hu. rewrite Hlq. auto. }
  destruct (from_cm_spec eigh (eO e) S e' (Hs S) He') as (E1 & E2 & _ & _ & E3).
  exists S, e'. repeat split; auto; try lra. intros M. rewrite <- E3, Hlq. apply HF.
Qed.

(** ** C30 *)

Definition scatter (P1 P2 P3 c : pt) : mat2 :=
  let s1 := vsub P1 c in let s2 := vsub P2 c in let s3 := vsub P3 c in
  let xy := fst s1 * snd s1 + fst s2 * snd s2 + fst s3 * snd s3 in
  mkM2 (fst s1 * fst s1 + fst s2 * fst s2 + fst s3 * fst s3) xy xy (snd s1 * snd s1 + snd s2 * snd s2 + snd s3 * snd s3).

Lemma scatter_det P1 P2 P3 : 3 * det2 (scatter P1 P2 P3 (centroid P1 P2 P3)) = br P1 P2 P3 * br P1 P2 P3.
Proof. destruct P1, P2, P3. unfold scatter, det2, br, centroid, vsub, scross; cbn [m11 m12 m21 m22 fst snd]. field. Qed.

Lemma scatter_psd P1 P2 P3 c u : quad2 (scatter P1 P2 P3 c) u = (sdot (vsub P1 c) u) ^ 2 + (sdot (vsub P2 c) u) ^ 2 + (sdot (vsub P3 c) u) ^ 2.
Proof. destruct P1, P2, P3, c, u. unfold quad2, scatter; unspec; cbn [m11 m12 m21 m22 fst snd]. ring. Qed.

Lemma from_boundary3_cases eigh P1 P2 P3 : (forall S, is_eigh S (eigh S)) ->
  (br P1 P2 P3 = 0 /\ from_boundary3 eigh P1 P2 P3 = Raise LinAlgError) \/
  (br P1 P2 P3 <> 0 /\ exists e, from_boundary3 eigh P1 P2 P3 = Ok e /\ eO e = centroid P1 P2 P3 /\ 0 < eb e <= ea e /\
    let S := scatter P1 P2 P3 (centroid P1 P2 P3) in
    0 < det2 S /\
    forall M, let x := fst M - fst (eO e) in let y := snd M - snd (eO e) in
      ell_form (eO e) (ea e) (eb e) (ell_th e) M = 3 / 2 * (m22 S * x * x - 2 * m21 S * x * y + m11 S * y * y) / det2 S).
Proof.
  intros Hs. pose proof (scatter_det P1 P2 P3) as HD. unfold from_boundary3.
  change ((fst P1 + fst P2 + fst P3) / 3, (snd P1 + snd P2 + snd P3) / 3) with (centroid P1 P2 P3).
  match goal with |- context [inv2 ?M] => change (inv2 M) with (inv2 (scatter P1 P2 P3 (centroid P1 P2 P3))) end.
  assert (Ho : m12 (scatter P1 P2 P3 (centroid P1 P2 P3)) = m21 (scatter P1 P2 P3 (centroid P1 P2 P3))) by reflexivity.
  assert (H22 : 0 <= m22 (scatter P1 P2 P3 (centroid P1 P2 P3))) by (cbn [m22 scatter]; repeat apply Rplus_le_le_0_compat; apply sqnn).
  assert (H11 : 0 <= m11 (scatter P1 P2 P3 (centroid P1 P2 P3))) by (cbn [m11 scatter]; repeat apply Rplus_le_le_0_compat; apply sqnn).
  set (S := scatter P1 P2 P3 (centroid P1 P2 P3)) in *.
  unfold inv2. destruct (Req_dec (br P1 P2 P3) 0) as [Z|Z].
  - left. split; auto. rewrite (proj2 (eqb_true (det2 S) 0)); [reflexivity|]. rewrite Z in HD. lra.
  - right. split; auto. pose proof (sqpos _ Z). assert (Hd : 0 < det2 S) by lra. rewrite (proj2 (eqb_false (det2 S) 0)) by lra. cbn [bind m11 m12 m21 m22].
    set (J := mkM2 _ _ _ _).
    assert (HJ : forall u, lowq J u = 3 / 2 * (m22 S * fst u * fst u - 2 * m21 S * fst u * snd u + m11 S * snd u * snd u) / det2 S).
    { intros u. unfold lowq, J; cbn [m11 m12 m21 m22]. field. lra. }
    assert (Hp : forall u, u <> (0, 0) -> 0 < lowq J u).
    { intros [x y] Hu. rewrite HJ; cbn [fst snd]. 
      assert (Hdd : m11 S * m22 S - m21 S * m21 S = det2 S) by (unfold det2; rewrite Ho; ring).
      set (A := m22 S) in *. set (B := m21 S) in *. set (C := m11 S) in *.
      assert (HA : 0 < A) by (destruct (Rle_lt_or_eq_dec _ _ H22) as [|E]; auto; rewrite <- E in Hdd; pose proof (sqnn B); lra).
      assert (HC : 0 < C) by (destruct (Rle_lt_or_eq_dec _ _ H11) as [|E]; auto; rewrite <- E in Hdd; pose proof (sqnn B); lra).
      apply Rdiv_lt_0_compat; auto. apply Rmult_lt_0_compat; [lra|].
      apply Rmult_lt_reg_l with A; auto. rewrite Rmult_0_r.
      replace (A * (A * x * x - 2 * B * x * y + C * y * y)) with ((A * x - B * y) * (A * x - B * y) + det2 S * (y * y)) by (rewrite <- Hdd; ring).
      destruct (Req_dec y 0) as [Y|Y].
      - subst y. assert (X : x <> 0) by (intros ->; auto). pose proof (sqpos (A * x)). assert (A * x <> 0) by (apply Rmult_integral_contrapositive; split; auto; lra). specialize (H0 H1). lra.
      - pose proof (sqpos y Y). pose proof (sqnn (A * x - B * y)). assert (0 < det2 S * (y * y)) by (apply Rmult_lt_0_compat; auto). lra. }
    destruct (proj2 (proj1 (from_cm_iff eigh (centroid P1 P2 P3) J (Hs J))) Hp) as (e & He).
    destruct (from_cm_spec eigh _ J e (Hs J) He) as (E1 & E2 & _ & _ & E3).
    exists e. split; [auto|]. split; [auto|]. split; [auto|]. split; [auto|]. intros M. cbv zeta. rewrite <- E3, HJ, E1. unfold vsub; cbn [fst snd]. reflexivity.
Qed.

Lemma from_boundary3_on eigh P1 P2 P3 e : (forall S, is_eigh S (eigh S)) -> from_boundary3 eigh P1 P2 P3 = Ok e ->
  br P1 P2 P3 <> 0 /\ eO e = centroid P1 P2 P3 /\ 0 < eb e <= ea e /\
  Forall (on_ellipse (eO e) (ea e) (eb e) (ell_th e)) [P1; P2; P3].
Proof.
  intros Hs H. destruct (from_boundary3_cases eigh P1 P2 P3 Hs) as [[_ E]|(Z & e' & E & C & K & D & F)]; [congruence|].
  rewrite E in H. injection H as <-. split; [auto|]. split; [auto|]. split; [auto|].
  repeat constructor; unfold on_ellipse; rewrite F; rewrite C; (apply Rmult_eq_reg_r with (det2 (scatter P1 P2 P3 (centroid P1 P2 P3))); [|lra]);
  (match goal with |- ?a / ?d * ?d = _ => replace (a / d * d) with a by (field; lra) end);
  clear; destruct P1, P2, P3; unfold scatter, det2, centroid, vsub; cbn [m11 m12 m21 m22 fst snd]; field.
Qed.

(** the area: ell_form determines a * b *)
Lemma ell_form_frame O a b th M : ell_form O a b th M = (fx O th M / a) ^ 2 + (fy O th M / b) ^ 2.
Proof. reflexivity. Qed.

Lemma br_frame O th P Q S : br P Q S = (fx O th Q - fx O th P) * (fy O th S - fy O th P) - (fy O th Q - fy O th P) * (fx O th S - fx O th P).
Proof.
  unfold br, fx, fy. pose proof (cs1 th) as H. set (c := cos th) in *. set (s := sin th) in *. unspec.
  transitivity ((c * c + s * s) * ((fst Q - fst P) * (snd S - snd P) - (snd Q - snd P) * (fst S - fst P))); [rewrite H; ring|ring].
Qed.

(** area lower bound for an ellipse containing three points *)
Lemma three_area O a b th P Q S : 0 < a -> 0 < b -> in_ellipse O a b th P -> in_ellipse O a b th Q -> in_ellipse O a b th S ->
  4 * (br P Q S * br P Q S) <= 27 * (a * b * (a * b)).
Proof.
  intros Ha Hb. unfold in_ellipse. rewrite !ell_form_frame, (br_frame O th).
  set (x1 := fx O th P / a). set (y1 := fy O th P / b). set (x2 := fx O th Q / a). set (y2 := fy O th Q / b). set (x3 := fx O th S / a). set (y3 := fy O th S / b).
  replace (fx O th P) with (a * x1) by (unfold x1; field; lra). replace (fy O th P) with (b * y1) by (unfold y1; field; lra).
  replace (fx O th Q) with (a * x2) by (unfold x2; field; lra). replace (fy O th Q) with (b * y2) by (unfold y2; field; lra).
  replace (fx O th S) with (a * x3) by (unfold x3; field; lra). replace (fy O th S) with (b * y3) by (unfold y3; field; lra).
  clearbody x1 y1 x2 y2 x3 y3. intros H1 H2 H3.
  set (d := (x2 - x1) * (y3 - y1) - (y2 - y1) * (x3 - x1)).
  replace (((a * x2 - a * x1) * (b * y3 - b * y1) - (b * y2 - b * y1) * (a * x3 - a * x1))) with (a * b * d) by (unfold d; ring).
  assert (K : 4 * (d * d) <= 27).
  { set (X := x1 * x1 + x2 * x2 + x3 * x3). set (Y := y1 * y1 + y2 * y2 + y3 * y3). set (Z := x1 * y1 + x2 * y2 + x3 * y3).
    set (sx := x1 + x2 + x3). set (sy := y1 + y2 + y3).
    assert (HXY : X + Y <= 3) by (unfold X, Y; lra).
    assert (E : d * d = 3 * ((X - sx * sx / 3) * (Y - sy * sy / 3) - (Z - sx * sy / 3) * (Z - sx * sy / 3))) by (unfold d, X, Y, Z, sx, sy; field).
    assert (EX : 0 <= X - sx * sx / 3).
    { replace (X - sx * sx / 3) with (((x1 - x2) * (x1 - x2) + (x1 - x3) * (x1 - x3) + (x2 - x3) * (x2 - x3)) / 3) by (unfold X, sx; field). pose proof (sqnn (x1 - x2)). pose proof (sqnn (x1 - x3)). pose proof (sqnn (x2 - x3)). lra. }
    assert (EY : 0 <= Y - sy * sy / 3).
    { replace (Y - sy * sy / 3) with (((y1 - y2) * (y1 - y2) + (y1 - y3) * (y1 - y3) + (y2 - y3) * (y2 - y3)) / 3) by (unfold Y, sy; field). pose proof (sqnn (y1 - y2)). pose proof (sqnn (y1 - y3)). pose proof (sqnn (y2 - y3)). lra. }
    pose proof (sqnn sx). pose proof (sqnn sy). pose proof (sqnn (Z - sx * sy / 3)).
    set (X' := X - sx * sx / 3) in *. set (Y' := Y - sy * sy / 3) in *. assert (X' + Y' <= 3) by (unfold X', Y'; lra).
    pose proof (sqnn (X' - Y')). assert ((X' + Y') * (X' + Y') <= 9) by nra. nra. }
  replace (4 * (a * b * d * (a * b * d))) with (a * b * (a * b) * (4 * (d * d))) by ring. assert (0 < a * b * (a * b)) by (apply sqpos; nra). nra.
Qed.

Lemma three_area_centroid a b th P Q S : let O := centroid P Q S in 0 < a -> 0 < b -> on_ellipse O a b th P -> on_ellipse O a b th Q -> on_ellipse O a b th S ->
  4 * (br P Q S * br P Q S) = 27 * (a * b * (a * b)).
Proof.
  intros O Ha Hb. unfold on_ellipse. rewrite !ell_form_frame, (br_frame O th).
  assert (Sx : fx O th P + fx O th Q + fx O th S = 0) by (unfold O, centroid, fx; cbn [fst snd]; field).
  assert (Sy : fy O th P + fy O th Q + fy O th S = 0) by (unfold O, centroid, fy; cbn [fst snd]; field).
  assert (Sx' : fx O th S / a = - (fx O th P / a) - fx O th Q / a) by (replace (fx O th S) with (- fx O th P - fx O th Q) by lra; field; lra).
  assert (Sy' : fy O th S / b = - (fy O th P / b) - fy O th Q / b) by (replace (fy O th S) with (- fy O th P - fy O th Q) by lra; field; lra).
  rewrite Sx', Sy'. replace (fx O th S) with (- fx O th P - fx O th Q) by lra. replace (fy O th S) with (- fy O th P - fy O th Q) by lra.
  set (x1 := fx O th P / a). set (y1 := fy O th P / b). set (x2 := fx O th Q / a). set (y2 := fy O th Q / b).
  replace (fx O th P) with (a * x1) by (unfold x1; field; lra). replace (fy O th P) with (b * y1) by (unfold y1; field; lra).
  replace (fx O th Q) with (a * x2) by (unfold x2; field; lra). replace (fy O th Q) with (b * y2) by (unfold y2; field; lra).
  clearbody x1 y1 x2 y2. intros H1 H2 H3.
  assert (Hd : x1 * x2 + y1 * y2 = - (1 / 2)) by lra.
  set (c := x1 * y2 - x2 * y1). assert (Hc : c * c = 3 / 4).
  { transitivity ((x1 * x1 + y1 * y1) * (x2 * x2 + y2 * y2) - (x1 * x2 + y1 * y2) * (x1 * x2 + y1 * y2)); [unfold c; ring|]. rewrite Hd. replace (x1 * x1 + y1 * y1) with 1 by lra. replace (x2 * x2 + y2 * y2) with 1 by lra. field. }
  transitivity (36 * (a * b * (a * b)) * (c * c)); [unfold c; ring|]. rewrite Hc. field.
Qed.

(** from_boundary3 has the smallest area among the ellipses containing the points *)
Lemma from_boundary3_minimal eigh P1 P2 P3 e O a b th : (forall S, is_eigh S (eigh S)) -> from_boundary3 eigh P1 P2 P3 = Ok e ->
  0 < a -> 0 < b -> Forall (in_ellipse O a b th) [P1; P2; P3] -> ea e * eb e <= a * b.
Proof.
  intros Hs H Ha Hb HF. destruct (from_boundary3_on eigh P1 P2 P3 e Hs H) as (_ & EO & Hp & Hon).
  inversion HF as [|? ? F1 HF1]; subst. inversion HF1 as [|? ? F2 HF2]; subst. inversion HF2 as [|? ? F3 _]; subst.
  inversion Hon as [|? ? G1 Hon1]; subst. inversion Hon1 as [|? ? G2 Hon2]; subst. inversion Hon2 as [|? ? G3 _]; subst.
  pose proof (three_area O a b th P1 P2 P3 Ha Hb F1 F2 F3) as K1.
  rewrite EO in G1, G2, G3. pose proof (three_area_centroid (ea e) (eb e) (ell_th e) P1 P2 P3 ltac:(lra) ltac:(lra) G1 G2 G3) as K2.
  assert (0 < a * b) by nra. assert (0 < ea e * eb e) by nra. destruct (Rle_dec (ea e * eb e) (a * b)) as [|N]; auto. exfalso. apply Rnot_le_lt in N.
  assert (a * b * (a * b) < ea e * eb e * (ea e * eb e)) by nra. lra.
Qed.

(** ** C31 *)

Lemma delete_nth_perm {A} (d : A) (l : list A) i : (i < length l)%nat -> Permutation l (nth i l d :: delete_nth i l).
Proof.
  revert i. induction l as [|x l IH]; cbn [length]; [lia|]. intros [|i] H.
  - cbn. unfold delete_nth. cbn. apply Permutation_refl.
  - unfold delete_nth. cbn [nth firstn skipn app]. change (firstn i l ++ skipn (S i) l) with (delete_nth i l).
    eapply perm_trans; [apply perm_skip, (IH i); lia|apply perm_swap].
Qed.

Lemma delete_nth_length {A} (l : list A) i : (i < length l)%nat -> length (delete_nth i l) = pred (length l).
Proof.
  intros H. destruct l as [|x l]; [cbn in H; lia|]. pose proof (Permutation_length (delete_nth_perm x (x :: l) i H)). cbn [length] in *. lia.
Qed.

Lemma lowner_john_four eigh eigvals b4 ch n : forall path ip bp, length bp = 4%nat -> exists x,
  lowner_john eigh eigvals b4 ch n path ip bp = Raise x /\ (x = AttributeError \/ x = LinAlgError).
Proof.
  induction n as [|n IH]; intros path ip bp Hb.
  - destruct bp as [|b1 [|b2 [|b3 [|b4' [|b5 bp]]]]]; try discriminate. cbn. exists (b4_raise (b4 [b1; b2; b3; b4'])). split; auto. destruct (b4 _); cbn; auto.
  - cbn [lowner_john]. rewrite Hb. cbn [Nat.leb]. edestruct (IH (true :: path)) as (x & -> & Hx); [exact Hb|]. cbn [bind]. eauto.
Qed.

(** the invariant *)
Lemma lowner_john_inv eigh eigvals b4 ch n : (forall S, is_eigh S (eigh S)) -> forall path ip bp, length ip = n -> (length bp <= 4)%nat ->
  match lowner_john eigh eigvals b4 ch n path ip bp with
  | Ok (Some e) => (3 <= length ip + length bp)%nat /\ 
     Forall (fun P => ellipse_contains e P = true) (ip ++ bp) /\
     exists P1 P2 P3 rest, Permutation (ip ++ bp) (P1 :: P2 :: P3 :: rest) /\ from_boundary3 eigh P1 P2 P3 = Ok e
  | Ok None => (length ip + length bp < 3)%nat
  | Raise x => (3 <= length ip + length bp)%nat /\ (x = AttributeError \/ x = LinAlgError)
  end.
Proof.
  intros Hs. induction n as [|n IH]; intros path ip bp Hi Hb.
  - destruct ip; [|discriminate]. cbn [app length plus].
    destruct bp as [|P1 [|P2 [|P3 [|P4 [|P5 bp]]]]]; cbn [length] in Hb; try (cbn; lia).
    + cbn. destruct (from_boundary3_cases eigh P1 P2 P3 Hs) as [[_ ->]|(_ & e & E & _)]; cbn [bind]; [split; [lia|auto]|]. rewrite E. cbn [bind].
      split; [lia|]. destruct (from_boundary3_on eigh P1 P2 P3 e Hs E) as (_ & _ & Hp & Hon). split.
      * eapply Forall_impl; [|exact Hon]. intros P HP. apply ellipse_contains_spec; try lra. unfold in_ellipse. rewrite HP. lra.
      * exists P1, P2, P3, []. auto.
    + cbn. split; [lia|]. destruct (b4 _); cbn; auto.
  - destruct (Nat.eq_dec (length bp) 4) as [E4|N4].
    { destruct (lowner_john_four eigh eigvals b4 ch (S n) path ip bp E4) as (x & -> & Hx). split; auto. lia. }
    cbn [lowner_john]. replace (5 <=? length bp)%nat with false by (symmetry; apply Nat.leb_gt; lia).
    set (i := Nat.modulo (ch path) (length ip)). assert (Hii : (i < length ip)%nat) by (apply Nat.mod_upper_bound; lia).
    pose proof (delete_nth_perm (0, 0) ip i Hii) as HP. pose proof (delete_nth_length ip i Hii) as HL.
    set (p := nth i ip (0, 0)) in *. set (ip' := delete_nth i ip) in *. rewrite Hi in HL; cbn [pred] in HL.
    assert (second : match lowner_john eigh eigvals b4 ch n (false :: path) ip' (bp ++ [p]) with
      | Ok (Some e) => (3 <= length ip + length bp)%nat /\ Forall (fun P => ellipse_contains e P = true) (ip ++ bp) /\
         exists P1 P2 P3 rest, Permutation (ip ++ bp) (P1 :: P2 :: P3 :: rest) /\ from_boundary3 eigh P1 P2 P3 = Ok e
      | Ok None => (length ip + length bp < 3)%nat
      | Raise x => (3 <= length ip + length bp)%nat /\ (x = AttributeError \/ x = LinAlgError) end).
    { assert (HP' : Permutation (ip' ++ bp ++ [p]) (ip ++ bp)).
      { rewrite app_assoc. eapply perm_trans; [apply Permutation_app_comm|]. cbn [app]. apply (Permutation_app_tail bp) in HP. cbn [app] in HP. apply Permutation_sym, HP. }
      specialize (IH (false :: path) ip' (bp ++ [p]) HL). rewrite app_length in IH; cbn [length] in IH. specialize (IH ltac:(lia)).
      destruct (lowner_john eigh eigvals b4 ch n (false :: path) ip' (bp ++ [p])) as [[e|]|x].
      - destruct IH as (I1 & I2 & P1 & P2 & P3 & rest & I3 & I4). split; [lia|]. split; [eapply Permutation_Forall; [exact HP'|exact I2]|].
        exists P1, P2, P3, rest. split; auto. eapply perm_trans; [apply Permutation_sym, HP'|exact I3].
      - lia.
      - destruct IH. split; [lia|auto]. }
    pose proof (IH (true :: path) ip' bp HL Hb) as I1.
    destruct (lowner_john eigh eigvals b4 ch n (true :: path) ip' bp) as [[e|]|x]; cbn [bind].
    + destruct (ellipse_contains e p) eqn:Ec; [|exact second].
      destruct I1 as (J1 & J2 & P1 & P2 & P3 & rest & J3 & J4). split; [lia|]. split.
      * assert (HP' : Permutation (p :: ip' ++ bp) (ip ++ bp)) by (apply (Permutation_app_tail bp) in HP; apply Permutation_sym, HP).
        eapply Permutation_Forall; [exact HP'|]. constructor; auto.
      * exists P1, P2, P3, (p :: rest). split; auto. apply (Permutation_app_tail bp) in HP. eapply perm_trans; [exact HP|]. cbn [app].
        eapply perm_trans; [apply perm_skip, J3|]. eapply perm_trans; [apply perm_swap|]. apply perm_skip. eapply perm_trans; [apply perm_swap|]. apply perm_skip. apply perm_swap.
    + exact second.
    + destruct I1. split; [lia|auto].
Qed.

(** C31: the result of LownerJohnEllipse *)
Lemma LownerJohn_Some eigh eigvals b4 ch points e : (forall S, is_eigh S (eigh S)) -> LownerJohnEllipse eigh eigvals b4 ch points = Ok (Some e) ->
  0 < eb e <= ea e /\ Forall (in_ellipse (eO e) (ea e) (eb e) (ell_th e)) points /\
  (exists P1 P2 P3 rest, Permutation points (P1 :: P2 :: P3 :: rest) /\ eO e = centroid P1 P2 P3 /\ Forall (on_ellipse (eO e) (ea e) (eb e) (ell_th e)) [P1; P2; P3]) /\
  forall O a b th, 0 < a -> 0 < b -> Forall (in_ellipse O a b th) points -> ea e * eb e <= a * b.
Proof.
  intros Hs H. pose proof (lowner_john_inv eigh eigvals b4 ch (length points) Hs [] points [] eq_refl ltac:(cbn; lia)) as I.
  unfold LownerJohnEllipse in H. rewrite H in I. rewrite app_nil_r in I. destruct I as (_ & I2 & P1 & P2 & P3 & rest & I3 & I4).
  destruct (from_boundary3_on eigh P1 P2 P3 e Hs I4) as (_ & EO & Hp & Hon). split; [auto|]. split.
  { eapply Forall_impl; [|exact I2]. intros P HP. apply ellipse_contains_spec in HP; auto; lra. }
  split; [exists P1, P2, P3, rest; auto|].
  intros O a b th Ha Hb HF. apply (from_boundary3_minimal eigh P1 P2 P3 e O a b th Hs I4 Ha Hb).
  apply (Permutation_Forall I3) in HF. inversion HF as [|? ? F1 HF1]; subst. inversion HF1 as [|? ? F2 HF2]; subst. inversion HF2 as [|? ? F3 _]; subst. auto.
Qed.

Lemma LownerJohn_None eigh eigvals b4 ch points : (forall S, is_eigh S (eigh S)) ->
  (LownerJohnEllipse eigh eigvals b4 ch points = Ok None <-> (length points < 3)%nat) /\
  (forall x, LownerJohnEllipse eigh eigvals b4 ch points = Raise x -> x = AttributeError \/ x = LinAlgError).
Proof.
  intros Hs. pose proof (lowner_john_inv eigh eigvals b4 ch (length points) Hs [] points [] eq_refl ltac:(cbn; lia)) as I. cbn [length] in I. rewrite Nat.add_0_r in I.
  unfold LownerJohnEllipse. destruct (lowner_john _ _ _ _ _ _ _ _) as [[e|]|x]; (split; [split; intros K; try discriminate; auto; try lia|intros y K; try discriminate; injection K as <-; tauto]).
Qed.

(** the corners of a rectangle *)
Lemma LownerJohn_rectangle eigh eigvals b4 ch u v : (forall S, is_eigh S (eigh S)) -> 0 < u -> 0 < v ->
  exists x, LownerJohnEllipse eigh eigvals b4 ch [(u, v); (- u, v); (- u, - v); (u, - v)] = Raise x /\ (x = AttributeError \/ x = LinAlgError).
Proof.
  intros Hs Hu Hv. set (pts := [(u, v); (- u, v); (- u, - v); (u, - v)]).
  destruct (LownerJohnEllipse eigh eigvals b4 ch pts) as [[e|]|x] eqn:E.
  - exfalso. destruct (LownerJohn_Some _ _ _ _ _ _ Hs E) as (Hp & Hin & (P1 & P2 & P3 & rest & HP & EO & Hon) & _).
    (* the fourth point is outside the Steiner ellipse of the other three *)
    pose proof (Permutation_length HP) as HL. cbn [length pts] in HL. destruct rest as [|P4 [|? ?]]; try discriminate. clear HL.
    assert (Hsum : fst P1 + fst P2 + fst P3 + fst P4 = 0 /\ snd P1 + snd P2 + snd P3 + snd P4 = 0).
    { assert (G : forall f : pt -> R, fold_right (fun P acc => f P + acc) 0 pts = fold_right (fun P acc => f P + acc) 0 [P1; P2; P3; P4]).
      { intros f. clear - HP. induction HP; cbn [fold_right]; [reflexivity|rewrite IHHP; ring|ring|rewrite IHHP1; auto]. }
      pose proof (G fst) as G1. pose proof (G snd) as G2. cbn in G1, G2. split; lra. }
    assert (I4 : In P4 pts) by (eapply Permutation_in; [apply Permutation_sym, HP|cbn; auto]).
    assert (Iop : In (- fst P4, - snd P4) pts /\ P4 <> (0, 0)).
    { unfold pts in *. cbn [In] in I4. destruct I4 as [<-|[<-|[<-|[<-|[]]]]]; cbn [fst snd]; rewrite ?Ropp_involutive; (split; [cbn; auto 6|intros K; injection K; lra]). }
    destruct Iop as [Iop N4]. apply (Permutation_in _ HP) in Iop.
    assert (I3 : In (- fst P4, - snd P4) [P1; P2; P3]).
    { cbn [In] in Iop |- *. destruct Iop as [|[|[|[K|[]]]]]; auto. exfalso. apply N4. destruct P4 as [p q]. cbn [fst snd] in K. injection K as K1 K2. f_equal; lra. }
    rewrite Forall_forall in Hon. specialize (Hon _ I3). unfold on_ellipse in Hon.
    assert (H4 : in_ellipse (eO e) (ea e) (eb e) (ell_th e) P4) by (rewrite Forall_forall in Hin; auto).
    unfold in_ellipse in H4.
    assert (K : ell_form (eO e) (ea e) (eb e) (ell_th e) P4 = 4 * ell_form (eO e) (ea e) (eb e) (ell_th e) (- fst P4, - snd P4)).
    { rewrite !ell_form_frame. destruct Hsum as [S1 S2].
      assert (X1 : fst (eO e) = - fst P4 / 3) by (rewrite EO; cbn; lra). assert (X2 : snd (eO e) = - snd P4 / 3) by (rewrite EO; cbn; lra).
      unfold fx, fy. rewrite X1, X2. cbn [fst snd]. field. lra. }
    lra.
  - apply (LownerJohn_None eigh eigvals b4 ch pts Hs) in E. cbn in E. lia.
  - exists x. split; auto. apply (LownerJohn_None eigh eigvals b4 ch pts Hs). exact E.
Qed.
