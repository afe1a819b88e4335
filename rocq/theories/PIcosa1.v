(** * Proofs about ApollonianIcosahedralGasket.py: the transformation of a face *)

From Coq Require Import Reals Lra Lia Psatz List Bool Nsatz.
From Verif Require Import Base BaseLemmas Spec SpecLemmas SpecTriangle SpecGasket SpecSteinerEx SpecIcosa ModelInternal ModelLine ModelCircle ModelTriangle ModelGasket ModelSteinerEx ModelIcosa PLine.
Import ListNotations.
Local Open Scope R_scope.

Ltac un3 := unfold vec3, add3, mul3, inner3, det3, sub3, cross3, dot3, vadd, vscal in *; cbn [fst snd] in *.

Ltac eq3 := apply f_equal2; [apply f_equal2|].

Lemma np_div_ok x y : y <> 0 -> np_div x y = Ok (x / y).
Proof. intros N. unfold np_div. destruct (Req_EM_T y 0); [contradiction|auto]. Qed.
Lemma div3_ok v x : x <> 0 -> div3 v x = Ok (mul3 (/ x) v).
Proof. intros N. unfold div3. rewrite !np_div_ok by auto. cbn [bind]. unfold mul3, vscal. destruct v as [[a b] c]. cbn [fst snd]. unfold Rdiv. apply f_equal. eq3; ring. Qed.
Lemma div3_0 v : div3 v 0 = Raise NonFinite.
Proof. unfold div3, np_div. destruct (Req_EM_T 0 0); [auto|contradiction]. Qed.

Lemma inner_pos v : 0 <= inner3 v v.
Proof. unfold inner3. nra. Qed.
Lemma inner_0 v : inner3 v v = 0 -> v = ((0, 0), 0).
Proof. destruct v as [[a b] c]. unfold inner3. cbn [fst snd]. intros H. assert (a = 0) by nra. assert (b = 0) by nra. assert (c = 0) by nra. subst. auto. Qed.
Lemma dot_inner u v : dot3 u v = inner3 u v.
Proof. auto. Qed.
Lemma sub_vec A B : sub3 B A = vec3 A B.
Proof. un3. eq3; ring. Qed.

Lemma cross_collinear A B C : cross3 (vec3 A B) (vec3 A C) = ((0, 0), 0) <-> collinear3 A B C.
Proof.
  unfold collinear3. set (u := vec3 A B). set (v := vec3 A C). clearbody u v. destruct u as [[u1 u2] u3], v as [[v1 v2] v3]. un3. split.
  - intros H. injection H as H1 H2 H3. destruct (Req_dec u1 0) as [E1|N1].
    + destruct (Req_dec u2 0) as [E2|N2].
      * destruct (Req_dec u3 0) as [E3|N3].
        -- exists 1, 0. split; [left; lra|]. subst. eq3; ring.
        -- exists v3, (- u3). split; [right; lra|]. eq3; lra.
      * exists v2, (- u2). split; [right; lra|]. eq3; lra.
    + exists v1, (- u1). split; [right; lra|]. eq3; lra.
  - intros (a & b & N & H). injection H as H1 H2 H3. destruct N as [N|N].
    + assert (u1 = - (b / a) * v1) by (apply (Rmult_eq_reg_l a); [field_simplify; lra|auto]).
      assert (u2 = - (b / a) * v2) by (apply (Rmult_eq_reg_l a); [field_simplify; lra|auto]).
      assert (u3 = - (b / a) * v3) by (apply (Rmult_eq_reg_l a); [field_simplify; lra|auto]). subst. eq3; ring.
    + assert (v1 = - (a / b) * u1) by (apply (Rmult_eq_reg_l b); [field_simplify; lra|auto]).
      assert (v2 = - (a / b) * u2) by (apply (Rmult_eq_reg_l b); [field_simplify; lra|auto]).
      assert (v3 = - (a / b) * u3) by (apply (Rmult_eq_reg_l b); [field_simplify; lra|auto]). subst. eq3; ring.
Qed.

(** ** an orthonormal frame *)
Definition frame (p q n : v3) : Prop := inner3 p p = 1 /\ inner3 n n = 1 /\ inner3 p n = 0 /\ q = cross3 n p.
Definition place (A p q n : v3) (M : v3) : v3 := add3 (add3 (add3 A (mul3 (fst (fst M)) p)) (mul3 (snd (fst M)) q)) (mul3 (snd M) n).

Section Frame.
Variables (A p q n : v3).
Hypothesis F : frame p q n.
Lemma frame_q : inner3 q q = 1 /\ inner3 p q = 0 /\ inner3 q n = 0.
Proof.
  destruct F as (Hp & Hn & Hpn & ->). destruct p as [[p1 p2] p3], n as [[n1 n2] n3]. un3. repeat split; try ring.
  transitivity ((n1 * n1 + n2 * n2 + n3 * n3) * (p1 * p1 + p2 * p2 + p3 * p3) - (p1 * n1 + p2 * n2 + p3 * n3) * (p1 * n1 + p2 * n2 + p3 * n3)); [ring|]. rewrite Hp, Hn, Hpn. ring.
Qed.
Lemma vec_place M N : vec3 (place A p q n M) (place A p q n N) = place ((0, 0), 0) p q n (vec3 M N).
Proof. unfold place. destruct A as [[a1 a2] a3], p as [[p1 p2] p3], q as [[q1 q2] q3], n as [[n1 n2] n3], M as [[x y] z], N as [[x' y'] z']. un3. eq3; ring. Qed.
Lemma inner_place u v : inner3 (place ((0, 0), 0) p q n u) (place ((0, 0), 0) p q n v) = inner3 u v.
Proof.
  destruct frame_q as (Hq & Hpq & Hqn). destruct F as (Hp & Hn & Hpn & _).
  transitivity (fst (fst u) * fst (fst v) * inner3 p p + snd (fst u) * snd (fst v) * inner3 q q + snd u * snd v * inner3 n n
    + (fst (fst u) * snd (fst v) + snd (fst u) * fst (fst v)) * inner3 p q + (fst (fst u) * snd v + snd u * fst (fst v)) * inner3 p n + (snd (fst u) * snd v + snd u * snd (fst v)) * inner3 q n).
  - unfold place. un3. ring.
  - rewrite Hp, Hq, Hn, Hpq, Hpn, Hqn. unfold inner3. ring.
Qed.
Lemma dist_place M N : dist3 (place A p q n M) (place A p q n N) = dist3 M N.
Proof. unfold dist3. rewrite vec_place, inner_place. auto. Qed.
Lemma inner_n u : inner3 (place ((0, 0), 0) p q n u) n = snd u.
Proof.
  destruct frame_q as (_ & _ & Hqn). destruct F as (_ & Hn & Hpn & _). transitivity (fst (fst u) * inner3 p n + snd (fst u) * inner3 q n + snd u * inner3 n n); [unfold place; un3; ring|]. rewrite Hn, Hpn, Hqn. ring.
Qed.
Lemma frame_det : det3 p q n = 1.
Proof.
  destruct F as (Hp & Hn & Hpn & ->). destruct p as [[p1 p2] p3], n as [[n1 n2] n3]. un3.
  transitivity ((n1 * n1 + n2 * n2 + n3 * n3) * (p1 * p1 + p2 * p2 + p3 * p3) - (p1 * n1 + p2 * n2 + p3 * n3) * (p1 * n1 + p2 * n2 + p3 * n3)); [ring|]. rewrite Hp, Hn, Hpn. ring.
Qed.
Lemma det_place u v w : det3 (place ((0, 0), 0) p q n u) (place ((0, 0), 0) p q n v) (place ((0, 0), 0) p q n w) = det3 u v w.
Proof. transitivity (det3 p q n * det3 u v w); [unfold place; un3; ring|]. rewrite frame_det. ring. Qed.
Lemma place_surj Q : exists M, place A p q n M = Q.
Proof.
  set (w := vec3 A Q). exists ((inner3 p w, inner3 q w), inner3 n w). assert (E : add3 A w = Q) by (unfold w; destruct A as [[? ?] ?], Q as [[? ?] ?]; un3; eq3; ring).
  rewrite <- E. clearbody w. destruct F as (Hp & Hn & Hpn & ->). unfold place. destruct A as [[a1 a2] a3], p as [[p1 p2] p3], n as [[n1 n2] n3], w as [[w1 w2] w3]. un3.
  clear E F. eq3; nsatz.
Qed.
Lemma place_motion : motion3 (place A p q n).
Proof.
  split; [exact dist_place|]. split; [exact place_surj|]. intros. rewrite !vec_place. apply det_place.
Qed.
End Frame.

(** ** the matrix *)
Lemma transfo_ok A B C : ~ collinear3 A B C -> exists Mat p q n L x y, transfoMatrix A B C = Ok (Mat, (L, 0), (x, y)) /\ frame p q n /\
  0 < L /\ 0 < y /\ L = dist3 A B /\ (forall M, transform3 Mat M = place A p q n M) /\ place A p q n ((L, 0), 0) = B /\ place A p q n ((x, y), 0) = C.
Proof.
  intros NC. unfold transfoMatrix. rewrite !sub_vec. set (u := vec3 A B) in *. set (v := vec3 A C) in *.
  set (m := cross3 u v). set (N := vlength3 m). assert (PN : 0 < N).
  { unfold N, vlength3. apply sqrt_lt_R0. rewrite dot_inner. destruct (inner_pos m) as [K|K]; auto. symmetry in K. apply inner_0 in K. exfalso. apply NC. apply cross_collinear. exact K. }
  rewrite div3_ok by lra. cbn [bind]. set (n := mul3 (/ N) m). set (L := vlength3 u).
  assert (PL : 0 < L). { unfold L, vlength3. apply sqrt_lt_R0. rewrite dot_inner. destruct (inner_pos u) as [K|K]; auto. symmetry in K. apply inner_0 in K. exfalso. apply NC. exists 1, 0. split; [left; lra|]. fold u v. rewrite K. un3. eq3; ring. }
  assert (L2 : L * L = inner3 u u) by (unfold L, vlength3; rewrite sqrt_sqrt; auto; apply inner_pos). assert (N2 : N * N = inner3 m m) by (unfold N, vlength3; rewrite sqrt_sqrt; auto; apply inner_pos).
  assert (Fr : frame (mul3 (/ L) u) (cross3 n (mul3 (/ L) u)) n).
  { repeat split.
    - transitivity (inner3 u u / (L * L)); [unfold mul3, vscal, inner3; cbn [fst snd]; field; lra|]. rewrite L2. field. nra.
    - transitivity (inner3 m m / (N * N)); [unfold n, mul3, vscal, inner3; cbn [fst snd]; field; lra|]. rewrite N2. field. nra.
    - transitivity (/ (L * N) * inner3 u m); [unfold n, mul3, vscal, inner3; cbn [fst snd]; field; lra|]. replace (inner3 u m) with 0; [ring|]. unfold m. clear. destruct u as [[? ?] ?], v as [[? ?] ?]. un3. ring. }
  assert (Eq : vlength3 (cross3 n u) = L).
  { destruct (frame_q _ _ _ Fr) as (Q & _ & _). unfold vlength3. rewrite dot_inner. rewrite <- (sqrt_square L) by lra. f_equal. transitivity (L * L * inner3 (cross3 n (mul3 (/ L) u)) (cross3 n (mul3 (/ L) u))); [|rewrite Q; ring].
    clear - PL. destruct n as [[? ?] ?], u as [[? ?] ?]. un3. field. lra. }
  rewrite Eq. fold L. rewrite !div3_ok by lra. cbn [bind].
  assert (Ex : mul3 (/ L) (cross3 n u) = cross3 n (mul3 (/ L) u)) by (clear; destruct n as [[? ?] ?], u as [[? ?] ?]; un3; eq3; ring). rewrite Ex.
  set (p := mul3 (/ L) u) in *. set (q := cross3 n p) in *.
  assert (EP : mat_dot3 (transpose3 (column_stack3 p q n)) u = [L; 0; 0]).
  { destruct (frame_q _ _ _ Fr) as (_ & Q & _). destruct Fr as (Pp & _ & Pn & _). assert (Eu : u = mul3 L p) by (unfold p; destruct u as [[? ?] ?]; un3; eq3; field; lra). rewrite Eu. clearbody p q n L. clear - Q Pp Pn.
    cbv [mat_dot3 transpose3 column_stack3 map List.nth row_dot combine fold_right]. un3.
    apply f_equal2; [|apply f_equal2; [|apply f_equal2; auto]]; [transitivity (L * (fst (fst p) * fst (fst p) + snd (fst p) * snd (fst p) + snd p * snd p)); [ring|rewrite Pp; ring]|..].
    - transitivity (L * (fst (fst p) * fst (fst q) + snd (fst p) * snd (fst q) + snd p * snd q)); [ring|rewrite Q; ring].
    - transitivity (L * (fst (fst p) * fst (fst n) + snd (fst p) * snd (fst n) + snd p * snd n)); [ring|rewrite Pn; ring]. }
  assert (EQ : mat_dot3 (transpose3 (column_stack3 p q n)) v = [inner3 p v; inner3 q v; 0]).
  { cbv [mat_dot3 transpose3 column_stack3 map List.nth row_dot combine fold_right]. cbn [fst snd]. unfold inner3.
    apply f_equal2; [ring|apply f_equal2; [ring|apply f_equal2; auto]]. transitivity (/ N * inner3 m v); [unfold n, mul3, vscal, inner3; cbn [fst snd]; ring|]. replace (inner3 m v) with 0; [ring|]. unfold m. clear. destruct u as [[? ?] ?], v as [[? ?] ?]. un3. ring. }
  rewrite EP, EQ. cbn [List.nth]. eexists. exists p, q, n, L, (inner3 p v), (inner3 q v). split; [reflexivity|]. split; auto. split; auto.
  assert (Eu : u = mul3 L p) by (unfold p; destruct u as [[? ?] ?]; un3; eq3; field; lra).
  assert (EA : forall X, add3 A (vec3 A X) = X) by (intros X; destruct A as [[? ?] ?], X as [[? ?] ?]; un3; eq3; ring).
  split.
  { assert (E : inner3 q v = / L * (/ N * (N * N))). { rewrite N2. unfold q, p, n, m. clear. destruct u as [[? ?] ?], v as [[? ?] ?]. un3. ring. }
    rewrite E. apply Rmult_lt_0_compat; [apply Rinv_0_lt_compat; auto|]. apply Rmult_lt_0_compat; [apply Rinv_0_lt_compat; auto|nra]. }
  split; [reflexivity|]. split.
  { intros M. destruct A as [[a1 a2] a3], M as [[x y] z]. unfold transform3, hstack, vstack, column_stack3. cbv [app combine map List.nth row_dot fold_right]. cbn [fst snd]. unfold place. un3. eq3; ring. }
  split.
  - rewrite <- (EA B). fold u. rewrite Eu. unfold place. destruct A as [[? ?] ?], p as [[? ?] ?], q as [[? ?] ?], n as [[? ?] ?]. un3. eq3; ring.
  - destruct (place_surj A p q n Fr C) as ([[x y] z] & EC). assert (Ev : v = place ((0, 0), 0) p q n ((x, y), z)). { unfold v. rewrite <- EC. unfold place. destruct A as [[? ?] ?]. un3. eq3; ring. }
    destruct (frame_q _ _ _ Fr) as (Q & Ppq & Qn). destruct Fr as (Pp & Pn & Ppn & _).
    assert (Z : z = 0). { pose proof (inner_n p q n ltac:(repeat split; auto) ((x, y), z)) as K. cbn [snd] in K. rewrite <- K, <- Ev. transitivity (/ N * inner3 v m); [unfold n, mul3, vscal, inner3; cbn [fst snd]; ring|]. replace (inner3 v m) with 0; [ring|]. unfold m. clear. destruct u as [[? ?] ?], v as [[? ?] ?]. un3. ring. }
    assert (X : inner3 p v = x). { rewrite Ev. transitivity (x * inner3 p p + y * inner3 p q + z * inner3 p n); [unfold place; un3; ring|]. rewrite Pp, Ppq, Ppn. ring. }
    assert (Y : inner3 q v = y). { rewrite Ev. transitivity (x * inner3 p q + y * inner3 q q + z * inner3 q n); [unfold place; un3; ring|]. rewrite Ppq, Q, Qn. ring. }
    rewrite X, Y. subst z. exact EC.
Qed.

Lemma transfo_flat A B C : collinear3 A B C -> transfoMatrix A B C = Raise NonFinite.
Proof.
  intros H. apply cross_collinear in H. unfold transfoMatrix. rewrite !sub_vec, H. replace (vlength3 ((0, 0), 0)) with 0; [rewrite div3_0; auto|]. unfold vlength3, dot3. cbn [fst snd]. replace (0 * 0 + 0 * 0 + 0 * 0) with 0 by ring. rewrite sqrt_0. auto.
Qed.
