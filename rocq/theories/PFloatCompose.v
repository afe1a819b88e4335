(** * Composition of affine maps, in binary64: proofs *)

From Coq Require Import Reals ZArith Lia Lra Psatz Bool SpecFloat.
From Verif Require Import SpecF64 Base Spec BaseLemmas SpecLemmas ModelFloat ModelFloatTransfo ModelFloatAsAffine ModelFloatCompose PFloat PFloat2 PFloat3 PFloat4 PFloatCircle PFloatGrid PFloatEx PFloatTransfo PFloatAsAffine.
Local Open Scope R_scope.

Lemma sum3_grid w x y z t e f a b c d q g h : fin x -> fin y -> fin z -> fin t -> fin e -> fin f -> SF2R x = IZR a * bp g -> SF2R y = IZR b * bp h -> SF2R z = IZR c * bp g -> SF2R t = IZR d * bp h ->
  SF2R e * SF2R f = IZR q * bp (g + h) -> (Z.abs (a * b) < 2 ^ 53)%Z -> (Z.abs (c * d) < 2 ^ 53)%Z -> (Z.abs (a * b + c * d) < 2 ^ 53)%Z -> (Z.abs q < 2 ^ 53)%Z -> (Z.abs (a * b + c * d + q) < 2 ^ 53)%Z -> (-1074 <= g + h <= 970)%Z ->
  fin (sum3 w x y z t e f) /\ SF2R (sum3 w x y z t e f) = IZR (a * b + c * d + q) * bp (g + h).
Proof.
  intros Fx Fy Fz Ft Fe Ff Ex Ey Ez Et Eq H1 H2 H3 H4 H5 G. destruct w as [m []]; unfold sum3; cbn [fst snd]; destruct (sum2_grid m x y z t a b c d g h Fx Fy Fz Ft Ex Ey Ez Et H1 H2 H3 G) as (F & E).
  - assert (E' : SF2R e * SF2R f + SF2R (sum2 m x y z t) = IZR (a * b + c * d + q) * bp (g + h)) by (rewrite Eq, E, (plus_IZR _ q); ring).
    apply rounds_repr; auto; try lia. rewrite <- E'. apply ffma; auto. rewrite E'. apply grid_big; auto; lia.
  - assert (M : fin (SF64mul e f) /\ SF2R (SF64mul e f) = IZR q * bp (g + h)). { apply rounds_repr; auto; try lia. rewrite <- Eq. apply fmul; auto. rewrite Eq. apply grid_big; auto; lia. }
    destruct M as (Fm & Em). apply add_grid; auto.
Qed.

(** An entry of the product: a row of P and a column of Q. *)
Lemma entry_grid w g h K N r b c l B x2 y2 z2 t2 : (-1074 <= g + h <= 970)%Z -> (0 <= K)%Z -> (0 <= N)%Z -> fin2 r -> fin2 c -> fin b -> fin l ->
  SF2R (fst r) = IZR x2 * bp g -> SF2R (snd r) = IZR z2 * bp g -> SF2R (fst c) = IZR y2 * bp h -> SF2R (snd c) = IZR t2 * bp h -> (Z.abs x2 <= K)%Z -> (Z.abs z2 <= K)%Z -> (Z.abs y2 <= N)%Z -> (Z.abs t2 <= N)%Z ->
  SF2R b * SF2R l = IZR B * bp (g + h) -> (Z.abs B <= N)%Z -> (2 * (K * N) + N < 2 ^ 53)%Z ->
  on_grid (g + h) (2 * (K * N) + Z.abs B) (sum3 w (fst r) (fst c) (snd r) (snd c) b l) /\
  SF2R (sum3 w (fst r) (fst c) (snd r) (snd c) b l) = SF2R (fst r) * SF2R (fst c) + SF2R (snd r) * SF2R (snd c) + SF2R b * SF2R l.
Proof.
  intros G HK HN (R0 & R1) (C0 & C1) Fb Fl Ex Ez Ey Et Bx Bz By Bt Eb BB H. assert (X1 : (Z.abs (x2 * y2) <= K * N)%Z) by (apply zb; lia). assert (X2 : (Z.abs (z2 * t2) <= K * N)%Z) by (apply zb; lia).
  destruct (sum3_grid w (fst r) (fst c) (snd r) (snd c) b l x2 y2 z2 t2 B g h R0 C0 R1 C1 Fb Fl Ex Ey Ez Et Eb ltac:(lia) ltac:(lia) ltac:(lia) ltac:(lia) ltac:(lia) G) as (F & E).
  split; [split; [exact F|exists (x2 * y2 + z2 * t2 + B)%Z; split; [lia|exact E]]|]. rewrite E, Eb, Ex, Ey, Ez, Et, !plus_IZR, !mult_IZR, bp_add. ring.
Qed.

Definition map_grid (g K N : Z) (f : affine_map64) : Prop := on_grid2 0 K (a64_row1 f) /\ on_grid2 0 K (a64_row2 f) /\ on_grid2 g N (a64_b f).
Definition map_value (f : affine_map64) (X : pt) : pt := vadd (sdot (P2R (a64_row1 f)) X, sdot (P2R (a64_row2 f)) X) (P2R (a64_b f)).

Lemma entry0 w g K N r b c : (-1074 <= g <= 970)%Z -> (0 <= K)%Z -> (2 * (K * K) + K < 2 ^ 53)%Z -> on_grid2 0 K r -> on_grid g N b -> on_grid2 0 K c ->
  let z := sum3 w (fst r) (fst c) (snd r) (snd c) b f0 in on_grid 0 (2 * (K * K)) z /\ SF2R z = SF2R (fst r) * SF2R (fst c) + SF2R (snd r) * SF2R (snd c).
Proof.
  intros G HK H ((R0 & x & Bx & Ex) & (R1 & y & By & Ey)) (Fb & _) ((C0 & u & Bu & Eu) & (C1 & v & Bv & Ev)) z.
  destruct (entry_grid w 0 0 K K r b c f0 0 x u y v ltac:(lia) HK HK (conj R0 R1) (conj C0 C1) Fb fin_f0 Ex Ey Eu Ev Bx By Bu Bv ltac:(rewrite val_f0; ring) ltac:(lia) H) as (A & B).
  fold z in A, B. change (0 + 0)%Z with 0%Z in A. change (Z.abs 0) with 0%Z in A. rewrite Z.add_0_r in A. rewrite val_f0 in B. split; [exact A|]. rewrite B. ring.
Qed.

Lemma entry1 w g K N r b c : (-1074 <= g <= 970)%Z -> (0 <= K)%Z -> (0 <= N)%Z -> (2 * (K * N) + N < 2 ^ 53)%Z -> on_grid2 0 K r -> on_grid g N b -> on_grid2 g N c ->
  let z := sum3 w (fst r) (fst c) (snd r) (snd c) b f1 in on_grid g ((2 * K + 1) * N) z /\ SF2R z = SF2R (fst r) * SF2R (fst c) + SF2R (snd r) * SF2R (snd c) + SF2R b.
Proof.
  intros G HK HN H ((R0 & x & Bx & Ex) & (R1 & y & By & Ey)) (Fb & n & Bn & En) ((C0 & u & Bu & Eu) & (C1 & v & Bv & Ev)) z.
  destruct (entry_grid w 0 g K N r b c f1 n x u y v ltac:(lia) HK HN (conj R0 R1) (conj C0 C1) Fb fin_f1 Ex Ey Eu Ev Bx By Bu Bv ltac:(rewrite val_f1, Rmult_1_r; exact En) Bn H) as ((F & p & Bp & Ep) & B).
  fold z in F, Ep, B. change (0 + g)%Z with g in Ep. rewrite val_f1, Rmult_1_r in B. split; [|exact B]. split; [exact F|]. exists p. split; [lia|exact Ep].
Qed.

Lemma matmul64_ok w g K N P Q : (-1074 <= g <= 970)%Z -> (1 <= K)%Z -> (0 <= N)%Z -> (3 * (K * K) < 2 ^ 53)%Z -> (3 * (K * N) < 2 ^ 53)%Z -> map_grid g K N P -> map_grid g K N Q ->
  map_grid g (2 * (K * K)) ((2 * K + 1) * N) (matmul64 w P Q) /\ forall X, map_value (matmul64 w P Q) X = map_value P (map_value Q X).
Proof.
  intros G HK HN H1 H2 (P1 & P2 & Pb) (Q1 & Q2 & Qb). assert (K0 : (0 <= K)%Z) by lia. assert (H1' : (2 * (K * K) + K < 2 ^ 53)%Z) by nia. assert (H2' : (2 * (K * N) + N < 2 ^ 53)%Z) by nia.
  pose proof (conj (proj1 Q1) (proj1 Q2) : on_grid2 0 K (fst (a64_row1 Q), fst (a64_row2 Q))) as C1. pose proof (conj (proj2 Q1) (proj2 Q2) : on_grid2 0 K (snd (a64_row1 Q), snd (a64_row2 Q))) as C2.
  destruct (entry0 (w 0%nat) g K N _ _ _ G K0 H1' P1 (proj1 Pb) C1) as (A0 & B0). destruct (entry0 (w 1%nat) g K N _ _ _ G K0 H1' P1 (proj1 Pb) C2) as (A1 & B1).
  destruct (entry0 (w 2%nat) g K N _ _ _ G K0 H1' P2 (proj2 Pb) C1) as (A2 & B2). destruct (entry0 (w 3%nat) g K N _ _ _ G K0 H1' P2 (proj2 Pb) C2) as (A3 & B3).
  destruct (entry1 (w 4%nat) g K N _ _ _ G K0 HN H2' P1 (proj1 Pb) Qb) as (A4 & B4). destruct (entry1 (w 5%nat) g K N _ _ _ G K0 HN H2' P2 (proj2 Pb) Qb) as (A5 & B5).
  cbn [fst snd] in *. split.
  - split; [|split]; split; assumption.
  - intros [X Y]. unfold map_value, matmul64. cbv zeta. cbn [a64_row1 a64_row2 a64_b fst snd]. unfold P2R, vadd, sdot. cbn [fst snd]. rewrite B0, B1, B2, B3, B4, B5. f_equal; ring.
Qed.

Lemma transform_value m1 m2 g K N f M : (0 <= K)%Z -> (0 <= N)%Z -> ((2 * K + 1) * N < 2 ^ 53)%Z -> (-1074 <= g <= 970)%Z -> map_grid g K N f -> on_grid2 g N M ->
  P2R (affine_transform64 m1 m2 f M) = map_value f (P2R M) /\ on_grid2 g ((2 * K + 1) * N) (affine_transform64 m1 m2 f M).
Proof.
  intros HK HN HB HG (G1 & G2 & Gb) GM. split; [exact (affine_transform64_grid m1 m2 g K N f M HK HN HB HG G1 G2 Gb GM)|].
  assert (A : forall m r b, on_grid2 0 K r -> on_grid g N b -> on_grid g ((2 * K + 1) * N) (SF64add (sum2 m (fst r) (fst M) (snd r) (snd M)) b)).
  { intros m r b ((R0 & x & Bx & Ex) & (R1 & y & By & Ey)) (Fb & n & Bn & En). destruct GM as ((C0 & u & Bu & Eu) & (C1 & v & Bv & Ev)).
    assert (X1 : (Z.abs (x * u) <= K * N)%Z) by (apply zb; lia). assert (X2 : (Z.abs (y * v) <= K * N)%Z) by (apply zb; lia).
    destruct (sum2_grid m _ _ _ _ _ _ _ _ 0 g R0 C0 R1 C1 Ex Eu Ey Ev ltac:(nia) ltac:(nia) ltac:(nia) ltac:(lia)) as (F3 & H3). change (0 + g)%Z with g in H3.
    destruct (add_grid _ b _ _ _ F3 Fb H3 En ltac:(nia) ltac:(lia)) as (F4 & H4). split; [exact F4|]. exists (x * u + y * v + n)%Z. split; [nia|exact H4]. }
  split; [apply (A m1 (a64_row1 f)); [exact G1|exact (proj1 Gb)]|apply (A m2 (a64_row2 f)); [exact G2|exact (proj2 Gb)]].
Qed.

Lemma compose64_grid w m1 m2 m3 m4 m5 m6 g K N f h M : (-1074 <= g <= 970)%Z -> (1 <= K)%Z -> (0 <= N)%Z -> (5 * (K * K) * ((2 * K + 1) * N) < 2 ^ 53)%Z -> (3 * (K * K) < 2 ^ 53)%Z ->
  on_grid2 0 K (a64_row1 f) -> on_grid2 0 K (a64_row2 f) -> on_grid2 g N (a64_b f) -> on_grid2 0 K (a64_row1 h) -> on_grid2 0 K (a64_row2 h) -> on_grid2 g N (a64_b h) -> on_grid2 g N M ->
  P2R (affine_transform64 m1 m2 (compose64 w f h true) M) = P2R (affine_transform64 m3 m4 h (affine_transform64 m5 m6 f M)) /\
  P2R (affine_transform64 m1 m2 (compose64 w f h false) M) = P2R (affine_transform64 m3 m4 f (affine_transform64 m5 m6 h M)).
Proof.
  intros G HK HN HB HK2 F1 F2 Fb H1 H2 Hb GM. assert (Gf : map_grid g K N f) by (split; [|split]; assumption). assert (Gh : map_grid g K N h) by (split; [|split]; assumption).
  assert (KK : (K <= K * K)%Z) by nia. set (T := ((2 * K + 1) * N)%Z) in *. assert (T0 : (0 <= T)%Z) by (unfold T; nia). assert (NT : (N <= T)%Z) by (unfold T; nia). assert (KN : (3 * (K * N) < 2 ^ 53)%Z) by (unfold T in HB; nia).
  assert (W : forall N' P, (N <= N')%Z -> on_grid2 g N P -> on_grid2 g N' P) by (intros N' P L ((A0 & x & Bx & Ex) & (A1 & y & By & Ey)); split; (split; [assumption|]); [exists x|exists y]; split; auto; lia).
  assert (V : forall P Q, map_grid g K N P -> map_grid g K N Q -> P2R (affine_transform64 m1 m2 (matmul64 w P Q) M) = P2R (affine_transform64 m3 m4 P (affine_transform64 m5 m6 Q M))).
  { intros P Q GP GQ. destruct (matmul64_ok w g K N P Q G HK HN HK2 KN GP GQ) as (GR & E). fold T in GR.
    destruct (transform_value m1 m2 g (2 * (K * K)) T _ M ltac:(lia) T0 ltac:(nia) G GR (W _ _ NT GM)) as (E1 & _).
    destruct (transform_value m5 m6 g K N Q M ltac:(lia) HN ltac:(fold T; nia) G GQ GM) as (E2 & G2). fold T in G2.
    assert (GP' : map_grid g K T P) by (destruct GP as (A & B & C); split; [|split]; auto).
    destruct (transform_value m3 m4 g K T P _ ltac:(lia) T0 ltac:(nia) G GP' G2) as (E3 & _). rewrite E1, E3, E2. apply E. }
  split; unfold compose64; apply V; assumption.
Qed.

Lemma compose64_refuted w m1 m2 m3 m4 m5 m6 : exists f h M, moderate (a64_row1 f) /\ moderate (a64_row2 f) /\ moderate (a64_b f) /\ moderate (a64_row1 h) /\ moderate (a64_row2 h) /\ moderate (a64_b h) /\ moderate M /\
  P2R (affine_transform64 m1 m2 (compose64 w f h true) M) <> P2R (affine_transform64 m3 m4 h (affine_transform64 m5 m6 f M)).
Proof.
  exists (Affine64 (fz 1, fz 0) (fz 0, fz 1) (fq 2 10, fz 0)), (Affine64 (fz 1, fz 0) (fz 0, fz 1) (fq 3 10, fz 0)), (fq 1 10, fz 0).
  assert (A : forall q, SFabs q = q -> fin q -> SFleb q (fz 1) = true -> moderate (q, fz 0)).
  { intros q Hq Fq L. assert (F1' : fin (fz 1) /\ SF2R (fz 1) = 1) by (apply fz_ok; lia). destruct F1' as (F1' & V1). assert (Z0 : fin (fz 0) /\ SF2R (fz 0) = 0) by (apply fz_ok; lia). destruct Z0 as (Fz0 & Vz0).
    apply (fle q (fz 1) Fq F1') in L. rewrite V1 in L. destruct (fabs q Fq) as (_ & E). rewrite Hq in E. assert (1 <= bp 500) by (rewrite <- bp_0; apply bp_le; lia). split; split; cbn [fst snd]; auto; [rewrite <- E; lra|rewrite Vz0, Rabs_R0; lra]. }
  cbn [a64_row1 a64_row2 a64_b]. assert (B0 : moderate (fz 1, fz 0)) by (apply (fzm 1 0); lia). assert (B1 : moderate (fz 0, fz 1)) by (apply (fzm 0 1); lia).
  split; [exact B0|]. split; [exact B1|]. split; [apply A; [vm_compute; reflexivity|split; vm_compute; reflexivity|vm_compute; reflexivity]|]. split; [exact B0|]. split; [exact B1|]. split; [apply A; [vm_compute; reflexivity|split; vm_compute; reflexivity|vm_compute; reflexivity]|]. split; [apply A; [vm_compute; reflexivity|split; vm_compute; reflexivity|vm_compute; reflexivity]|].
  assert (S0 : forall v, sum3 v (fz 1) (fz 1) (fz 0) (fz 0) (fq 3 10) f0 = fz 1) by (intros [[] []]; vm_compute; reflexivity).
  assert (S1' : exists e, forall v, sum3 v (fz 1) (fz 0) (fz 0) (fz 1) (fq 3 10) f0 = S754_zero e) by (exists false; intros [[] []]; vm_compute; reflexivity). destruct S1' as (e & S1').
  assert (S4 : forall v, sum3 v (fz 1) (fq 2 10) (fz 0) (fz 0) (fq 3 10) f1 = fq 5 10) by (intros [[] []]; vm_compute; reflexivity).
  assert (T1 : forall m, sum2 m (fz 1) (fq 1 10) (S754_zero e) (fz 0) = fq 1 10) by (intros []; destruct e; vm_compute; reflexivity).
  assert (T2 : forall m, sum2 m (fz 1) (fq 1 10) (fz 0) (fz 0) = fq 1 10) by (intros []; vm_compute; reflexivity).
  assert (T3 : forall m, SF64add (sum2 m (fz 0) (fq 1 10) (fz 1) (fz 0)) (fz 0) = fz 0) by (intros []; vm_compute; reflexivity).
  assert (T4 : forall m, sum2 m (fz 1) (SF64add (fq 1 10) (fq 2 10)) (fz 0) (fz 0) = SF64add (fq 1 10) (fq 2 10)) by (intros []; vm_compute; reflexivity).
  intro E. apply (f_equal fst) in E. unfold affine_transform64, affine64, compose64, matmul64, fp_map2, P2R in E. cbv zeta in E. cbn [a64_row1 a64_row2 a64_b fst snd] in E. rewrite S0, S1', S4, T1, T2, T3, T4 in E. revert E.
  apply sf_neq; [split; vm_compute; reflexivity|split; vm_compute; reflexivity|vm_compute; reflexivity].
Qed.
