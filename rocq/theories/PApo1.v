(** * Proofs about gaskets made by inversions: reflections of the Lorentz form, walls and
    seeds, words of reflections. *)

From Coq Require Import Reals Lra Lia Psatz List Bool.
From Verif Require Import Base BaseLemmas Spec SpecLemmas ModelCircle PGasket1.
Import ListNotations.
Local Open Scope R_scope.

(** ** reflections *)
Definition v4scal (k : R) (u : v4) : v4 := (k * vb u, vscal k (vp u), k * vw u).
Definition refl (b x : v4) : v4 := v4add x (v4scal (2 * kap x b) b).

Lemma kap_scal_l k u v : kap (v4scal k u) v = k * kap u v.
Proof. unfold kap, v4scal, vb, vp, vw, sdot, vscal; simpl; field. Qed.
Lemma kap_scal_r k u v : kap u (v4scal k v) = k * kap u v.
Proof. rewrite (kap_sym u), kap_scal_l, (kap_sym v). auto. Qed.
Lemma v4_eq (u v : v4) : vb u = vb v -> vp u = vp v -> vw u = vw v -> u = v.
Proof. destruct u as [[? ?] ?], v as [[? ?] ?]. unfold vb, vp, vw. simpl. congruence. Qed.
Lemma kap_refl_l b x y : kap (refl b x) y = kap x y + 2 * kap x b * kap b y.
Proof. unfold refl. rewrite kap_add_l, kap_scal_l. auto. Qed.
Lemma kap_refl_wall b x : kap b b = -1 -> kap (refl b x) b = - kap x b.
Proof. intros H. rewrite kap_refl_l, H. ring. Qed.
Lemma kap_refl2 b x y : kap b b = -1 -> kap (refl b x) (refl b y) = kap x y.
Proof. intros H. rewrite kap_refl_l, (kap_sym x), (kap_sym b (refl b y)), !kap_refl_l, H, (kap_sym y x), (kap_sym b x). ring. Qed.
Lemma refl_opp b x : refl (v4scal (-1) b) x = refl b x.
Proof. unfold refl. rewrite kap_scal_r. destruct x as [[? [? ?]] ?], b as [[? [? ?]] ?]. unfold v4add, v4scal, vadd, vscal, vb, vp, vw. simpl. f_equal; [f_equal; [|f_equal]|]; ring. Qed.
Lemma refl_scal b k x : refl b (v4scal k x) = v4scal k (refl b x).
Proof. unfold refl. rewrite kap_scal_l. destruct x as [[? [? ?]] ?], b as [[? [? ?]] ?]. unfold v4add, v4scal, vadd, vscal, vb, vp, vw. simpl. f_equal; [f_equal; [|f_equal]|]; ring. Qed.
Lemma refl_fix b x : kap x b = 0 -> refl b x = x.
Proof. unfold refl. intros ->. destruct x as [[? [? ?]] ?], b as [[? [? ?]] ?]. unfold v4add, v4scal, vadd, vscal, vb, vp, vw. simpl. f_equal; [f_equal; [|f_equal]|]; ring. Qed.

Lemma ge1 x f k : 1 <= x -> 1 <= f -> 0 <= k -> 1 <= x + 2 * f * k.
Proof. intros. assert (0 <= f * k) by (apply Rmult_le_pos; lra). lra. Qed.
Lemma ge1' f k : 1 <= f -> 1 <= k -> 1 <= -1 + 2 * f * k.
Proof. intros. assert (0 <= (f - 1) * (k - 1)) by (apply Rmult_le_pos; lra). nra. Qed.

(** ** words of reflections *)
Section Walls.
(** [m] walls, [N] seeds *)
Variables (m N : nat) (b sv : nat -> v4).
Hypothesis B1 : forall g, (g < m)%nat -> kap (b g) (b g) = -1.
Hypothesis B2 : forall g h, (g < m)%nat -> (h < m)%nat -> g <> h -> 1 <= kap (b g) (b h).
Hypothesis S1 : forall s, (s < N)%nat -> kap (sv s) (sv s) = -1.
Hypothesis S2 : forall s t, (s < N)%nat -> (t < N)%nat -> s <> t -> 1 <= kap (sv s) (sv t).
Hypothesis BS : forall g s, (g < m)%nat -> (s < N)%nat -> kap (sv s) (b g) = 0 \/ 1 <= kap (sv s) (b g).

Definition act (w : list nat) (x : v4) : v4 := fold_right (fun g y => refl (b g) y) x w.

(** neighbouring letters are different *)
Fixpoint reduced (w : list nat) : Prop :=
  match w with
  | [] => True
  | g :: w' => (g < m)%nat /\ match w' with [] => True | h :: _ => g <> h end /\ reduced w'
  end.
(** the last letter moves the seed *)
Fixpoint moves (w : list nat) (s : nat) : Prop :=
  match w with
  | [] => True
  | [g] => 1 <= kap (sv s) (b g)
  | _ :: w' => moves w' s
  end.
Definition label_ok (w : list nat) (s : nat) := (s < N)%nat /\ reduced w /\ moves w s.

Lemma BS0 g s : (g < m)%nat -> (s < N)%nat -> 0 <= kap (sv s) (b g).
Proof. intros H K. destruct (BS g s H K); lra. Qed.

Lemma label_tl g w s : label_ok (g :: w) s -> label_ok w s.
Proof. intros (H1 & H2 & H3). split; [auto|]. split; [apply H2|]. destruct w; cbn [moves] in *; auto. Qed.

(** a word that starts with [h] puts the seed beyond the wall [h], and on the near side of
    the others *)
Lemma pingpong s : (s < N)%nat -> forall w h, reduced (h :: w) -> moves (h :: w) s ->
  exists t, 1 <= t /\ kap (act (h :: w) (sv s)) (b h) = - t /\
    forall g, (g < m)%nat -> g <> h -> t <= kap (act (h :: w) (sv s)) (b g).
Proof.
  intros Hs. induction w as [|k w IH]; intros h (Hh & Hd & Hw) Hm.
  - cbn [moves] in Hm. exists (kap (sv s) (b h)). split; [auto|]. cbn [act fold_right]. rewrite kap_refl_wall by auto. split; [auto|].
    intros g Hg Hgh. rewrite kap_refl_l. pose proof (BS0 g s Hg Hs). pose proof (B2 h g Hh Hg (not_eq_sym Hgh)). nra.
  - assert (Hm' : moves (k :: w) s) by (cbn [moves] in Hm; destruct w; auto).
    destruct (IH k Hw Hm') as (t & T1 & T2 & T3). set (x := act (k :: w) (sv s)) in *.
    change (act (h :: k :: w) (sv s)) with (refl (b h) x). assert (Hk : (k < m)%nat) by apply Hw.
    pose proof (T3 h Hh Hd) as T4. exists (kap x (b h)). split; [lra|]. rewrite kap_refl_wall by auto. split; [auto|].
    intros g Hg Hgh. rewrite kap_refl_l. pose proof (B2 h g Hh Hg (not_eq_sym Hgh)) as Q.
    destruct (Nat.eq_dec g k) as [->|Hgk].
    + rewrite T2. nra.
    + pose proof (T3 g Hg Hgk). nra.
Qed.

(** before the letter [g] is put in front of a word *)
Lemma front g w s : label_ok (g :: w) s -> 1 <= kap (act w (sv s)) (b g).
Proof.
  intros (Hs & Hr & Hm). destruct w as [|h w]; [exact Hm|].
  destruct Hr as (Hg & Hd & Hr). assert (Hm' : moves (h :: w) s) by (cbn [moves] in Hm; destruct w; auto).
  destruct (pingpong s Hs w h Hr Hm') as (t & T1 & T2 & T3). pose proof (T3 g Hg Hd). lra.
Qed.
(** a word that starts with another letter, or no letter *)
Lemma near g w s : label_ok w s -> (g < m)%nat -> (forall h w', w = h :: w' -> g <> h) -> 0 <= kap (act w (sv s)) (b g).
Proof.
  intros (Hs & Hr & Hm) Hg Hd. destruct w as [|h w]; [apply BS0; auto|].
  destruct (pingpong s Hs w h Hr Hm) as (t & T1 & T2 & T3). pose proof (T3 g Hg (Hd h w eq_refl)). lra.
Qed.
Lemma near1 g h w s : label_ok (h :: w) s -> (g < m)%nat -> g <> h -> 1 <= kap (act (h :: w) (sv s)) (b g).
Proof.
  intros (Hs & Hr & Hm) Hg Hd. destruct (pingpong s Hs w h Hr Hm) as (t & T1 & T2 & T3). pose proof (T3 g Hg Hd). lra.
Qed.

Lemma act_self w s : label_ok w s -> kap (act w (sv s)) (act w (sv s)) = -1.
Proof.
  induction w as [|g w IH]; intros H; [apply S1; apply H|]. cbn [act fold_right]. rewrite kap_refl2.
  - apply IH. apply (label_tl g). auto.
  - apply B1. apply H.
Qed.

Lemma packing_seed w s t : label_ok w s -> (t < N)%nat -> (w <> [] \/ s <> t) -> 1 <= kap (act w (sv s)) (sv t).
Proof.
  intros Hl Ht. induction w as [|g w IH]; intros Hd.
  - destruct Hd as [Hd|Hd]; [congruence|]. apply S2; auto. apply Hl.
  - pose proof (front _ _ _ Hl) as F. cbn [act fold_right]. fold (act w (sv s)). rewrite kap_refl_l.
    assert (Hg : (g < m)%nat) by apply Hl. pose proof (BS0 g t Hg Ht) as K. rewrite (kap_sym (b g)).
    destruct w as [|h w].
    + cbn [act fold_right] in *. destruct (Nat.eq_dec s t) as [<-|Hst].
      * rewrite S1 by exact Ht. exact (ge1' _ _ F F).
      * exact (ge1 _ _ _ (S2 s t (proj1 Hl) Ht Hst) F K).
    + exact (ge1 _ _ _ (IH (label_tl _ _ _ Hl) (or_introl (fun e => @nil_cons _ h w (eq_sym e)))) F K).
Qed.

(** different labels: products at least 1 *)
Lemma packing u s v t : label_ok u s -> label_ok v t -> (u, s) <> (v, t) -> 1 <= kap (act u (sv s)) (act v (sv t)).
Proof.
  remember (length u + length v)%nat as n eqn:En. assert (L : (length u + length v <= n)%nat) by lia. clear En.
  revert u s v t L. induction n as [n IH] using (well_founded_induction Wf_nat.lt_wf). intros u s v t L Hu Hv Hd.
  destruct u as [|g u].
  { destruct v as [|h v].
    - apply (packing_seed [] s t Hu (proj1 Hv)). right. congruence.
    - rewrite kap_sym. apply (packing_seed (h :: v) t s Hv (proj1 Hu)). left. discriminate. }
  destruct v as [|h v].
  { apply (packing_seed (g :: u) s t Hu (proj1 Hv)). left. discriminate. }
  cbn [length] in L. assert (Hg : (g < m)%nat) by apply Hu.
  destruct (Nat.eq_dec g h) as [<-|Hgh].
  - cbn [act fold_right]. rewrite kap_refl2 by exact (B1 g Hg). apply (IH (n - 1)%nat ltac:(lia) u s v t ltac:(lia) (label_tl _ _ _ Hu) (label_tl _ _ _ Hv)). congruence.
  - cbn [act fold_right]. fold (act u (sv s)). fold (act v (sv t)). rewrite kap_refl_l.
    pose proof (front _ _ _ Hu) as F1. pose proof (near1 g h v t Hv Hg Hgh) as F2. cbn [act fold_right] in F2. fold (act v (sv t)) in F2.
    rewrite (kap_sym (b g)).
    assert (D : {(u, s) = (h :: v, t)} + {(u, s) <> (h :: v, t)}) by (repeat decide equality).
    destruct D as [D|D].
    + injection D as -> ->. pose proof (act_self (h :: v) t Hv) as A. cbn [act fold_right] in A. fold (act v (sv t)) in A.
      cbn [act fold_right] in *. fold (act v (sv t)) in *. rewrite A. exact (ge1' _ _ F1 F2).
    + pose proof (IH (n - 1)%nat ltac:(lia) u s (h :: v) t ltac:(cbn [length]; lia) (label_tl _ _ _ Hu) Hv D) as Q.
      cbn [act fold_right] in Q. fold (act u (sv s)) in Q. fold (act v (sv t)) in Q. exact (ge1 _ _ _ Q F1 (Rle_trans _ _ _ Rle_0_1 F2)).
Qed.

Lemma act_app u v x : act (u ++ v) x = act u (act v x).
Proof. apply fold_right_app. Qed.
Lemma act_iso w x y : reduced w -> kap (act w x) (act w y) = kap x y.
Proof.
  induction w as [|g w IH]; intros H; [auto|]. cbn [act fold_right]. rewrite kap_refl2.
  - apply IH. apply H.
  - apply B1. apply H.
Qed.
End Walls.

(** ** three mutually tangent vectors and a unit vector orthogonal to them: coordinates *)
Definition det3 a b c d e f g h i : R := a * (e * i - f * h) - b * (d * i - f * g) + c * (d * h - e * g).
Definition det4 (u v w x : v4) : R :=
  let r (u : v4) := (vb u, fst (vp u), snd (vp u), vw u) in
  vb u * det3 (fst (vp v)) (snd (vp v)) (vw v) (fst (vp w)) (snd (vp w)) (vw w) (fst (vp x)) (snd (vp x)) (vw x)
  - fst (vp u) * det3 (vb v) (snd (vp v)) (vw v) (vb w) (snd (vp w)) (vw w) (vb x) (snd (vp x)) (vw x)
  + snd (vp u) * det3 (vb v) (fst (vp v)) (vw v) (vb w) (fst (vp w)) (vw w) (vb x) (fst (vp x)) (vw x)
  - vw u * det3 (vb v) (fst (vp v)) (snd (vp v)) (vb w) (fst (vp w)) (snd (vp w)) (vb x) (fst (vp x)) (snd (vp x)).
Definition gram4 (u v w x : v4) : R :=
  kap u u * det3 (kap v v) (kap v w) (kap v x) (kap w v) (kap w w) (kap w x) (kap x v) (kap x w) (kap x x)
  - kap u v * det3 (kap v u) (kap v w) (kap v x) (kap w u) (kap w w) (kap w x) (kap x u) (kap x w) (kap x x)
  + kap u w * det3 (kap v u) (kap v v) (kap v x) (kap w u) (kap w v) (kap w x) (kap x u) (kap x v) (kap x x)
  - kap u x * det3 (kap v u) (kap v v) (kap v w) (kap w u) (kap w v) (kap w w) (kap x u) (kap x v) (kap x w).

Lemma gram_det u v w x : gram4 u v w x = - (det4 u v w x) ^ 2 / 4.
Proof.
  destruct u as [[? [? ?]] ?], v as [[? [? ?]] ?], w as [[? [? ?]] ?], x as [[? [? ?]] ?].
  unfold gram4, det4, det3, kap, sdot, vb, vp, vw. simpl. field.
Qed.

Lemma cramer u v w x z : kap u z = 0 -> kap v z = 0 -> kap w z = 0 -> kap x z = 0 -> det4 u v w x <> 0 -> z = (0, (0, 0), 0).
Proof.
  destruct u as [[u0 [u1 u2]] u3], v as [[v0 [v1 v2]] v3], w as [[w0 [w1 w2]] w3], x as [[x0 [x1 x2]] x3], z as [[z0 [z1 z2]] z3].
  unfold kap, sdot, vb, vp, vw. simpl. intros E1 E2 E3 E4 D.
  assert (F1 : u3 * z0 - 2 * u1 * z1 - 2 * u2 * z2 + u0 * z3 = 0) by lra.
  assert (F2 : v3 * z0 - 2 * v1 * z1 - 2 * v2 * z2 + v0 * z3 = 0) by lra.
  assert (F3 : w3 * z0 - 2 * w1 * z1 - 2 * w2 * z2 + w0 * z3 = 0) by lra.
  assert (F4 : x3 * z0 - 2 * x1 * z1 - 2 * x2 * z2 + x0 * z3 = 0) by lra.
  clear E1 E2 E3 E4. unfold det4, vb, vp, vw in D. simpl in D. set (d := _ - _) in D.
  assert (G0 : d * z0 = 0).
  { transitivity (- (det3 v0 v1 v2 w0 w1 w2 x0 x1 x2) * (u3 * z0 - 2 * u1 * z1 - 2 * u2 * z2 + u0 * z3) + det3 u0 u1 u2 w0 w1 w2 x0 x1 x2 * (v3 * z0 - 2 * v1 * z1 - 2 * v2 * z2 + v0 * z3)
      - det3 u0 u1 u2 v0 v1 v2 x0 x1 x2 * (w3 * z0 - 2 * w1 * z1 - 2 * w2 * z2 + w0 * z3) + det3 u0 u1 u2 v0 v1 v2 w0 w1 w2 * (x3 * z0 - 2 * x1 * z1 - 2 * x2 * z2 + x0 * z3)).
    - unfold d, det3. ring.
    - rewrite F1, F2, F3, F4. ring. }
  assert (G3 : d * z3 = 0).
  { transitivity ((det3 v1 v2 v3 w1 w2 w3 x1 x2 x3) * (u3 * z0 - 2 * u1 * z1 - 2 * u2 * z2 + u0 * z3) - det3 u1 u2 u3 w1 w2 w3 x1 x2 x3 * (v3 * z0 - 2 * v1 * z1 - 2 * v2 * z2 + v0 * z3)
      + det3 u1 u2 u3 v1 v2 v3 x1 x2 x3 * (w3 * z0 - 2 * w1 * z1 - 2 * w2 * z2 + w0 * z3) - det3 u1 u2 u3 v1 v2 v3 w1 w2 w3 * (x3 * z0 - 2 * x1 * z1 - 2 * x2 * z2 + x0 * z3)).
    - unfold d, det3. ring.
    - rewrite F1, F2, F3, F4. ring. }
  assert (G1 : 2 * d * z1 = 0).
  { transitivity ((det3 v0 v2 v3 w0 w2 w3 x0 x2 x3) * (u3 * z0 - 2 * u1 * z1 - 2 * u2 * z2 + u0 * z3) - det3 u0 u2 u3 w0 w2 w3 x0 x2 x3 * (v3 * z0 - 2 * v1 * z1 - 2 * v2 * z2 + v0 * z3)
      + det3 u0 u2 u3 v0 v2 v3 x0 x2 x3 * (w3 * z0 - 2 * w1 * z1 - 2 * w2 * z2 + w0 * z3) - det3 u0 u2 u3 v0 v2 v3 w0 w2 w3 * (x3 * z0 - 2 * x1 * z1 - 2 * x2 * z2 + x0 * z3)).
    - unfold d, det3. ring.
    - rewrite F1, F2, F3, F4. ring. }
  assert (G2 : 2 * d * z2 = 0).
  { transitivity (-((det3 v0 v1 v3 w0 w1 w3 x0 x1 x3) * (u3 * z0 - 2 * u1 * z1 - 2 * u2 * z2 + u0 * z3) - det3 u0 u1 u3 w0 w1 w3 x0 x1 x3 * (v3 * z0 - 2 * v1 * z1 - 2 * v2 * z2 + v0 * z3)
      + det3 u0 u1 u3 v0 v1 v3 x0 x1 x3 * (w3 * z0 - 2 * w1 * z1 - 2 * w2 * z2 + w0 * z3) - det3 u0 u1 u3 v0 v1 v3 w0 w1 w3 * (x3 * z0 - 2 * x1 * z1 - 2 * x2 * z2 + x0 * z3))).
    - unfold d, det3. ring.
    - rewrite F1, F2, F3, F4. ring. }
  apply Rmult_integral in G0, G1, G2, G3. assert (2 * d <> 0) by lra. f_equal; [f_equal; [|f_equal]|]; tauto.
Qed.

(** three mutually tangent vectors and [d] orthogonal to them *)
Definition frame (v1 v2 v3 d : v4) : Prop :=
  (kap v1 v1 = -1 /\ kap v2 v2 = -1 /\ kap v3 v3 = -1 /\ kap d d = -1) /\
  (kap v1 v2 = 1 /\ kap v2 v3 = 1 /\ kap v1 v3 = 1) /\ (kap d v1 = 0 /\ kap d v2 = 0 /\ kap d v3 = 0).

Lemma frame_expand v1 v2 v3 d x : frame v1 v2 v3 d ->
  x = v4add (v4add (v4scal ((kap x v2 + kap x v3) / 2) v1) (v4scal ((kap x v1 + kap x v3) / 2) v2))
            (v4add (v4scal ((kap x v1 + kap x v2) / 2) v3) (v4scal (- kap x d) d)).
Proof.
  intros ((A1 & A2 & A3 & A4) & (B1 & B2 & B3) & C1 & C2 & C3).
  set (y := v4add _ _). assert (Z : v4add x (v4scal (-1) y) = (0, (0, 0), 0)).
  { assert (Q : forall u, kap u (v4add x (v4scal (-1) y)) = kap x u -
      ((kap x v2 + kap x v3) / 2 * kap v1 u + (kap x v1 + kap x v3) / 2 * kap v2 u + ((kap x v1 + kap x v2) / 2 * kap v3 u + - kap x d * kap d u))).
    { intros u. rewrite kap_sym. unfold y. rewrite kap_add_l, kap_scal_l, !kap_add_l, !kap_scal_l. ring. }
    apply (cramer v1 v2 v3 d); try (rewrite Q).
    - rewrite A1, (kap_sym v2 v1), B1, (kap_sym v3 v1), B3, C1. field.
    - rewrite A2, B1, (kap_sym v3 v2), B2, C2. field.
    - rewrite A3, B2, B3, C3. field.
    - rewrite A4, (kap_sym v1 d), (kap_sym v2 d), (kap_sym v3 d), C1, C2, C3. field.
    - intros D. pose proof (gram_det v1 v2 v3 d) as G. rewrite D in G. unfold gram4, det3 in G.
      rewrite (kap_sym v2 v1), (kap_sym v3 v1), (kap_sym v3 v2), (kap_sym v1 d), (kap_sym v2 d), (kap_sym v3 d), A1, A2, A3, A4, B1, B2, B3, C1, C2, C3 in G. lra. }
  apply v4_eq.
  - apply (f_equal vb) in Z. unfold v4add, v4scal, vb, vp, vw in *. simpl in *. lra.
  - apply (f_equal vp) in Z. destruct x as [[? [? ?]] ?], y as [[? [? ?]] ?]. unfold v4add, v4scal, vb, vp, vw, vadd, vscal in *. simpl in *. injection Z as Z1 Z2. f_equal; lra.
  - apply (f_equal vw) in Z. unfold v4add, v4scal, vb, vp, vw in *. simpl in *. lra.
Qed.

Lemma frame_kap v1 v2 v3 d x y : frame v1 v2 v3 d -> kap x y =
  (kap x v1 * (kap y v2 + kap y v3) + kap x v2 * (kap y v1 + kap y v3) + kap x v3 * (kap y v1 + kap y v2)) / 2 - kap x d * kap y d.
Proof.
  intros F. rewrite (frame_expand v1 v2 v3 d x F) at 1. rewrite !kap_add_l, !kap_scal_l, (kap_sym v1 y), (kap_sym v2 y), (kap_sym v3 y), (kap_sym d y). field.
Qed.

Lemma frame_norm v1 v2 v3 d x : frame v1 v2 v3 d -> kap x x = -1 ->
  kap x d * kap x d = 1 + (kap x v1 * kap x v2 + kap x v2 * kap x v3 + kap x v1 * kap x v3).
Proof. intros F H. pose proof (frame_kap v1 v2 v3 d x x F) as E. rewrite H in E. lra. Qed.

(** a vector beyond the three *)
Lemma frame_beyond v1 v2 v3 d x : frame v1 v2 v3 d -> kap x x = -1 ->
  1 <= kap x v1 -> 1 <= kap x v2 -> 1 <= kap x v3 -> 0 < kap x d -> 2 <= kap x d.
Proof. intros F H K1 K2 K3 P. pose proof (frame_norm _ _ _ _ x F H). nra. Qed.
Lemma frame_side v1 v2 v3 d x y : frame v1 v2 v3 d -> kap x y = 1 ->
  1 <= kap x v1 -> 1 <= kap x v2 -> 1 <= kap x v3 -> 1 <= kap y v1 -> 1 <= kap y v2 -> 1 <= kap y v3 ->
  2 <= kap x d * kap y d.
Proof. intros F H K1 K2 K3 L1 L2 L3. pose proof (frame_kap _ _ _ _ x y F) as E. rewrite H in E. nra. Qed.
