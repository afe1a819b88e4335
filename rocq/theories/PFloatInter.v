(** * Where a line meets a circle, and projections, in binary64: lemmas *)

From Coq Require Import Reals ZArith Lia Lra Psatz Bool SpecFloat.
From Verif Require Import SpecF64 Base Spec BaseLemmas SpecLemmas ModelInternal ModelLine ModelCircle ModelFloat ModelFloatInter PFloat PFloat2 PFloat3 PFloat4 PFloatCircle PFloatGrid PFloatEx PFloatTransfo PCircle.
Local Open Scope R_scope.

(** ** Errors of the coordinates *)

Lemma sq_abs_le x k : 0 <= k -> x * x <= k * k -> Rabs x <= k.
Proof. intros Hk H. apply Rsqr_le_abs_0 in H. rewrite (Rabs_right k) in H by lra. exact H. Qed.

Lemma u_mul x : 0 <= x -> 0 <= u64 * x <= x / 1000.
Proof. intros H. pose proof u_bounds as U. split; [apply Rmult_le_pos; lra|]. replace (x / 1000) with (/ 1000 * x) by field. apply Rmult_le_compat_r; lra. Qed.

Lemma two_coord (b : bool) p x s d o P X Sg L r : fin p -> fin x -> fin s -> fin d -> fin o ->
  SF2R p = P -> SF2R x = X -> Rabs (SF2R s - Sg) <= u64 * Sg -> SF2R d = L -> 0 <= Sg -> 0 < L -> 0 < r ->
  Rabs (P) <= r * L -> Rabs X * Sg <= r * L -> Rabs (if b then P + X * Sg else P - X * Sg) <= r * L ->
  r * L <= bp 900 -> r <= bp 900 -> Rabs (SF2R o) <= bp 900 -> eta64 <= u64 * r / 1000 -> eta64 <= u64 * (r * L) / 1000 ->
  let q := SF64div (if b then SF64add p (SF64mul x s) else SF64sub p (SF64mul x s)) d in
  let N := if b then P + X * Sg else P - X * Sg in
  fin (SF64add q o) /\ Rabs (SF2R (SF64add q o) - (N / L + SF2R o)) <= 6 * u64 * (r + Rabs (SF2R o)).
Proof.
  intros Fp Fx Fs Fd Fo Ep Ex Es Ed HS HL Hr BP BX BN B1 B2 B3 E1 E2 q N. pose proof u_bounds as U. pose proof (bp_pos 900) as P900.
  assert (T : 100 * bp 900 <= bp 1023). { apply Rle_trans with (bp 7 * bp 900); [apply Rmult_le_compat_r; [lra|rewrite bp_IZR by lia; cbn; lra]|rewrite <- bp_add; apply bp_le; lia]. }
  set (K := r * L) in *. assert (HK : 0 < K) by (apply Rmult_lt_0_compat; auto).
  pose proof (u_mul K ltac:(lra)) as UK. pose proof (u_mul (u64 * K) ltac:(lra)) as UUK. pose proof (u_mul r ltac:(lra)) as UR. pose proof (u_mul (u64 * r) ltac:(lra)) as UUR.
  set (ux := Rabs X * Sg) in *. assert (Hux : 0 <= ux) by (apply Rmult_le_pos; auto; apply Rabs_pos).
  (* the product *)
  assert (M1 : Rabs (X * SF2R s - X * Sg) <= u64 * K).
  { rewrite <- Rmult_minus_distr_l, Rabs_mult. apply Rle_trans with (Rabs X * (u64 * Sg)); [apply Rmult_le_compat_l; auto; apply Rabs_pos|]. replace (Rabs X * (u64 * Sg)) with (u64 * ux) by (unfold ux; ring). apply Rmult_le_compat_l; lra. }
  assert (AX : Rabs (X * Sg) <= K) by (rewrite Rabs_mult, (Rabs_right Sg) by lra; exact BX).
  assert (M2 : Rabs (X * SF2R s) <= K + u64 * K). { apply abs_bounds in M1, AX. apply Rabs_le. lra. }
  assert (Rm : rounds (SF64mul x s) (X * SF2R s)) by (rewrite <- Ex; apply fmul; auto; rewrite Ex; lra).
  set (m := SF64mul x s) in *. pose proof (rounds_fin _ _ Rm) as Fm. pose proof (rounds_err_le _ _ _ Rm M2) as Em. rewrite Rmult_plus_distr_l in Em.
  assert (M3 : Rabs (SF2R m - X * Sg) <= 2002 / 1000 * (u64 * K)). { apply abs_bounds in M1, Em. apply Rabs_le. lra. }
  (* the sum *)
  set (w := if b then SF64add p m else SF64sub p m) in *. set (W := if b then P + SF2R m else P - SF2R m).
  assert (BW : Rabs (W - N) <= 2002 / 1000 * (u64 * K)). { unfold W, N. apply abs_bounds in M3. destruct b; apply Rabs_le; lra. }
  assert (BW2 : Rabs W <= K + 2002 / 1000 * (u64 * K)). { fold N in BN. apply abs_bounds in BW, BN. apply Rabs_le. lra. }
  assert (Ew : fin w /\ Rabs (SF2R w - W) <= u64 * Rabs W).
  { unfold w, W in *. destruct b.
    - destruct (fadd p m Fp Fm) as (R1 & R2); [rewrite Ep; lra|]. rewrite Ep in R2. split; [eapply rounds_fin; eauto|exact R2].
    - destruct (fsub p m Fp Fm) as (R1 & R2); [rewrite Ep; lra|]. rewrite Ep in R2. split; [eapply rounds_fin; eauto|exact R2]. }
  destruct Ew as (Fw & Ew). assert (Ew' : Rabs (SF2R w - W) <= u64 * (K + 2002 / 1000 * (u64 * K))) by (eapply Rle_trans; [exact Ew|apply Rmult_le_compat_l; lra]).
  rewrite Rmult_plus_distr_l in Ew'. replace (u64 * (2002 / 1000 * (u64 * K))) with (2002 / 1000 * (u64 * (u64 * K))) in Ew' by ring.
  assert (M4 : Rabs (SF2R w - N) <= 301 / 100 * (u64 * K)). { apply abs_bounds in BW, Ew'. apply Rabs_le. lra. }
  (* the quotient *)
  assert (Q1 : Rabs (SF2R w / L - N / L) <= 301 / 100 * (u64 * r)).
  { replace (SF2R w / L - N / L) with ((SF2R w - N) * / L) by (field; lra). rewrite Rabs_mult, (Rabs_right (/ L)) by (left; apply Rinv_0_lt_compat; auto).
    apply Rle_trans with (301 / 100 * (u64 * K) * / L); [apply Rmult_le_compat_r; auto; left; apply Rinv_0_lt_compat; auto|]. right. unfold K. field. lra. }
  assert (Q0 : Rabs (N / L) <= r).
  { unfold Rdiv. rewrite Rabs_mult, (Rabs_right (/ L)) by (left; apply Rinv_0_lt_compat; auto). apply Rle_trans with (K * / L); [apply Rmult_le_compat_r; auto; left; apply Rinv_0_lt_compat; auto|]. right. unfold K. field. lra. }
  assert (Q2 : Rabs (SF2R w / L) <= r + 301 / 100 * (u64 * r)). { apply abs_bounds in Q0, Q1. apply Rabs_le. lra. }
  assert (Rq : rounds q (SF2R w / L)). { unfold q. rewrite <- Ed. apply fdiv; auto; rewrite Ed; lra. }
  pose proof (rounds_fin _ _ Rq) as Fq. pose proof (rounds_err_le _ _ _ Rq Q2) as Eq. rewrite Rmult_plus_distr_l in Eq. replace (u64 * (301 / 100 * (u64 * r))) with (301 / 100 * (u64 * (u64 * r))) in Eq by ring.
  assert (Q3 : Rabs (SF2R q - N / L) <= 402 / 100 * (u64 * r)). { apply abs_bounds in Q1, Eq. apply Rabs_le. lra. }
  assert (Q4 : Rabs (SF2R q) <= r + 402 / 100 * (u64 * r)). { apply abs_bounds in Q0, Q3. apply Rabs_le. lra. }
  set (oo := SF2R o) in *. pose proof (Rabs_pos oo) as Po. pose proof (u_mul (Rabs oo) Po) as UO.
  assert (S1 : Rabs (SF2R q + oo) <= r + 402 / 100 * (u64 * r) + Rabs oo) by (eapply Rle_trans; [apply Rabs_triang|lra]).
  destruct (fadd q o Fq Fo) as (R1 & R2). { fold oo. lra. } fold oo in R2. split; [eapply rounds_fin; eauto|].
  assert (R3 : Rabs (SF2R (SF64add q o) - (SF2R q + oo)) <= u64 * (r + 402 / 100 * (u64 * r) + Rabs oo)) by (eapply Rle_trans; [exact R2|apply Rmult_le_compat_l; lra]).
  rewrite !Rmult_plus_distr_l in R3. replace (u64 * (402 / 100 * (u64 * r))) with (402 / 100 * (u64 * (u64 * r))) in R3 by ring.
  apply abs_bounds in R3, Q3. rewrite Rmult_assoc, Rmult_plus_distr_l. apply Rabs_le. lra.
Qed.

Lemma one_coord D y d o DR Y L r : fin D -> fin y -> fin d -> fin o -> SF2R D = DR -> SF2R y = Y -> SF2R d = L -> 0 < L -> 0 < r ->
  Rabs (DR * Y) <= r * L -> r <= bp 900 -> Rabs (SF2R o) <= bp 900 -> Rabs (DR / L) <= bp 900 -> eta64 <= u64 * r / 1000 -> eta64 * Rabs Y <= u64 * r / 1000 ->
  let z := SF64mul (SF64div D d) y in
  fin (SF64add z o) /\ Rabs (SF2R (SF64add z o) - (DR / L * Y + SF2R o)) <= 6 * u64 * (r + Rabs (SF2R o)).
Proof.
  intros FD Fy Fd Fo ED EY EL HL Hr BK B2 B3 BQ E1 E2 z. pose proof u_bounds as U. pose proof (bp_pos 900) as P900.
  assert (T : 100 * bp 900 <= bp 1023). { apply Rle_trans with (bp 7 * bp 900); [apply Rmult_le_compat_r; [lra|rewrite bp_IZR by lia; cbn; lra]|rewrite <- bp_add; apply bp_le; lia]. }
  pose proof (u_mul r ltac:(lra)) as UR. pose proof (u_mul (u64 * r) ltac:(lra)) as UUR.
  assert (Rq : rounds (SF64div D d) (DR / L)) by (rewrite <- ED, <- EL; apply fdiv; auto; rewrite ?ED, EL; lra).
  set (q := SF64div D d) in *. pose proof (rounds_fin _ _ Rq) as Fq. pose proof (rounds_err _ _ Rq) as Eq.
  assert (Q0 : Rabs (DR / L * Y) <= r).
  { replace (DR / L * Y) with (DR * Y * / L) by (field; lra). rewrite Rabs_mult, (Rabs_right (/ L)) by (left; apply Rinv_0_lt_compat; auto). apply Rle_trans with (r * L * / L); [apply Rmult_le_compat_r; auto; left; apply Rinv_0_lt_compat; auto|]. right. field. lra. }
  assert (Q1 : Rabs (SF2R q * Y - DR / L * Y) <= u64 * r + u64 * r / 1000).
  { rewrite <- Rmult_minus_distr_r, Rabs_mult. apply Rle_trans with ((u64 * Rabs (DR / L) + eta64) * Rabs Y); [apply Rmult_le_compat_r; auto; apply Rabs_pos|].
    rewrite Rmult_plus_distr_r, Rmult_assoc, <- Rabs_mult. apply Rplus_le_compat; auto. apply Rmult_le_compat_l; lra. }
  assert (Q2 : Rabs (SF2R q * Y) <= r + 2 * (u64 * r)). { apply abs_bounds in Q0, Q1. apply Rabs_le. lra. }
  assert (Rz : rounds z (SF2R q * Y)) by (unfold z; rewrite <- EY; apply fmul; auto; rewrite EY; lra).
  pose proof (rounds_fin _ _ Rz) as Fz. pose proof (rounds_err_le _ _ _ Rz Q2) as Ez. rewrite Rmult_plus_distr_l in Ez. replace (u64 * (2 * (u64 * r))) with (2 * (u64 * (u64 * r))) in Ez by ring.
  assert (Q3 : Rabs (SF2R z - DR / L * Y) <= 3 * (u64 * r)). { apply abs_bounds in Q1, Ez. apply Rabs_le. lra. }
  assert (Q4 : Rabs (SF2R z) <= r + 3 * (u64 * r)). { apply abs_bounds in Q0, Q3. apply Rabs_le. lra. }
  set (oo := SF2R o) in *. pose proof (Rabs_pos oo) as Po. pose proof (u_mul (Rabs oo) Po) as UO.
  assert (S1 : Rabs (SF2R z + oo) <= r + 3 * (u64 * r) + Rabs oo) by (eapply Rle_trans; [apply Rabs_triang|lra]).
  destruct (fadd z o Fz Fo) as (R1 & R2). { fold oo. lra. } fold oo in R2. split; [eapply rounds_fin; eauto|].
  assert (R3 : Rabs (SF2R (SF64add z o) - (SF2R z + oo)) <= u64 * (r + 3 * (u64 * r) + Rabs oo)) by (eapply Rle_trans; [exact R2|apply Rmult_le_compat_l; lra]).
  rewrite !Rmult_plus_distr_l in R3. replace (u64 * (3 * (u64 * r))) with (3 * (u64 * (u64 * r))) in R3 by ring.
  apply abs_bounds in R3, Q3. rewrite Rmult_assoc, Rmult_plus_distr_l. apply Rabs_le. lra.
Qed.

(** ** Exact data *)

Lemma gv_add g M N x y a b : (M + N < 2 ^ 53)%Z -> (-1074 <= g <= 970)%Z -> gv g M x a -> gv g N y b -> gv g (M + N) (SF64add x y) (a + b).
Proof. intros H G (F1 & B1 & E1) (F2 & B2 & E2). destruct (add_grid x y a b g F1 F2 E1 E2 ltac:(lia) G) as (F & E). split; auto. split; auto. lia. Qed.

Lemma val_fsepsilon : fin fsepsilon /\ SF2R fsepsilon = sepsilon_.
Proof. split; [split; reflexivity|]. unfold fsepsilon, sepsilon_. rewrite val_lit. cbn. lra. Qed.

Definition gvs g M N x y a b (H1 : gv g M x a) (H2 : gv g N y b) G H := gv_sub g M N x y a b H G H1 H2.
Definition gva g M N x y a b (H1 : gv g M x a) (H2 : gv g N y b) G H := gv_add g M N x y a b H G H1 H2.
Definition gvm g h M N x y a b (H1 : gv g M x a) (H2 : gv h N y b) G H := gv_mul g h M N x y a b H G H1 H2.

Lemma gv_opp g M x a : gv g M x a -> gv g M (SFopp x) (- a).
Proof. intros (F & B & E). destruct (fopp x F) as (F' & E'). split; auto. split; [lia|]. rewrite E', E, opp_IZR. ring. Qed.

Lemma tangent_on D L x y O r : 0 < r -> 0 < L -> L = x * x + y * y -> r * r * L - D * D = 0 -> on_circle O r (vadd (D / L * y, D / L * - x) O).
Proof.
  intros Hr HL E H. destruct O as (a & b). apply on_circle_sq; [lra|]. unfold dist2, sdot, vsub, vadd. cbn [fst snd]. apply Rmult_eq_reg_r with L; [|lra]. transitivity (D * D * (x * x + y * y) / L); [field; lra|]. rewrite <- E. transitivity (D * D); [field; lra|lra].
Qed.

Definition near64 (c : circle64) (P : fpt) (X : pt) : Prop :=
  fin2 P /\ Rabs (SF2R (fst P) - fst X) <= 6 * u64 * (SF2R (c64_radius c) + Rabs (SF2R (fst (c64_center c)))) /\
  Rabs (SF2R (snd P) - snd X) <= 6 * u64 * (SF2R (c64_radius c) + Rabs (SF2R (snd (c64_center c)))).

Lemma icl64_ok g c A B : (-6 <= g <= 100)%Z -> on_grid2 g 2048 (c64_center c) -> on_grid2 g 2048 A -> on_grid2 g 2048 B ->
  on_grid g 4096 (c64_radius c) -> 0 < SF2R (c64_radius c) -> P2R A <> P2R B ->
  let common X := on_line (P2R A) (P2R B) X /\ on_circle (P2R (c64_center c)) (SF2R (c64_radius c)) X in
  match intersection_circle_line64 c A B with
  | INone64 => forall X, ~ common X
  | IOne64 P => exists X, common X /\ (forall Y, common Y -> Y = X) /\ near64 c P X
  | ITwo64 P Q => exists X Y, X <> Y /\ common X /\ common Y /\ (forall Z, common Z -> Z = X \/ Z = Y) /\ near64 c P X /\ near64 c Q Y
  end.
Proof.
  intros Hg (Go0 & Go1) (Ga0 & Ga1) (Gb0 & Gb1) Gr Pr NAB common. destruct c as (O & r). cbn [c64_center c64_radius] in *.
  apply gv_of in Go0, Go1, Ga0, Ga1, Gb0, Gb1, Gr. destruct Go0 as (o0 & Go0), Go1 as (o1 & Go1), Ga0 as (a0 & Ga0), Ga1 as (a1 & Ga1), Gb0 as (b0 & Gb0), Gb1 as (b1 & Gb1), Gr as (kr & Gr).
  assert (R1 : (-1074 <= g <= 970)%Z) by lia. assert (R2 : (-1074 <= g + g <= 970)%Z) by lia. assert (R3 : (-1074 <= g + g + g <= 970)%Z) by lia. assert (R4 : (-1074 <= g + g + (g + g) <= 970)%Z) by lia.
  pose proof (gvs _ _ _ _ _ _ _ Ga0 Go0 R1 eq_refl) as X1. pose proof (gvs _ _ _ _ _ _ _ Ga1 Go1 R1 eq_refl) as Y1. pose proof (gvs _ _ _ _ _ _ _ Gb0 Go0 R1 eq_refl) as X2. pose proof (gvs _ _ _ _ _ _ _ Gb1 Go1 R1 eq_refl) as Y2.
  change (2048 + 2048)%Z with 4096%Z in *.
  unfold intersection_circle_line64, circle_line_intersection64. cbn [c64_center c64_radius]. cbn zeta. unfold fp_sub, fp_add, fp_map2. cbn [fst snd].
  set (x1 := SF64sub (fst A) (fst O)) in *. set (y1 := SF64sub (snd A) (snd O)) in *. set (x2 := SF64sub (fst B) (fst O)) in *. set (y2 := SF64sub (snd B) (snd O)) in *.
  pose proof (gvs _ _ _ _ _ _ _ X2 X1 R1 eq_refl) as Gdx. pose proof (gvs _ _ _ _ _ _ _ Y2 Y1 R1 eq_refl) as Gdy. change (4096 + 4096)%Z with 8192%Z in *.
  set (dx := SF64sub x2 x1) in *. set (dy := SF64sub y2 y1) in *.
  pose proof (gva _ _ _ _ _ _ _ (gvm _ _ _ _ _ _ _ _ Gdx Gdx R2 eq_refl) (gvm _ _ _ _ _ _ _ _ Gdy Gdy R2 eq_refl) R2 eq_refl) as Gd.
  pose proof (gv_det g g 4096 4096 (x1, y1) (x2, y2) _ _ _ _ eq_refl R2 X1 Y1 X2 Y2) as GD.
  set (dr2 := SF64add (SF64mul dx dx) (SF64mul dy dy)) in *. set (D := det64 (x1, y1) (x2, y2)) in *.
  pose proof (gvs _ _ _ _ _ _ _ (gvm _ _ _ _ _ _ _ _ (gvm _ _ _ _ _ _ _ _ Gr Gr R2 eq_refl) Gd R4 eq_refl) (gvm _ _ _ _ _ _ _ _ GD GD R4 eq_refl) R4 eq_refl) as GDel.
  set (Delta := SF64sub (SF64mul (SF64mul r r) dr2) (SF64mul D D)) in *.
  pose proof (gvm _ _ _ _ _ _ _ _ GD Gdy R3 eq_refl) as GDdy.
  assert (GnD : fin (SFopp D) /\ SF2R (SFopp D) = - SF2R D) by (apply fopp; apply GD).
  (* real values *)
  set (rR := SF2R r) in *. set (dxR := fst (P2R B) - fst (P2R A)). set (dyR := snd (P2R B) - snd (P2R A)).
  assert (Vdx : SF2R dx = dxR). { destruct Gdx as (_ & _ & E), Ga0 as (_ & _ & Ea), Gb0 as (_ & _ & Eb). rewrite E. unfold dxR, P2R. cbn [fst]. rewrite Ea, Eb, !minus_IZR. ring. }
  assert (Vdy : SF2R dy = dyR). { destruct Gdy as (_ & _ & E), Ga1 as (_ & _ & Ea), Gb1 as (_ & _ & Eb). rewrite E. unfold dyR, P2R. cbn [snd]. rewrite Ea, Eb, !minus_IZR. ring. }
  assert (Vd : SF2R dr2 = dxR * dxR + dyR * dyR). { rewrite <- Vdx, <- Vdy. destruct Gd as (_ & _ & E), Gdx as (_ & _ & Ex), Gdy as (_ & _ & Ey). rewrite E, Ex, Ey, bp_add, plus_IZR, !mult_IZR. ring. }
  assert (VD : SF2R D = SF2R x1 * SF2R y2 - SF2R x2 * SF2R y1). { destruct GD as (_ & _ & E), X1 as (_ & _ & E1), X2 as (_ & _ & E2), Y1 as (_ & _ & E3), Y2 as (_ & _ & E4). rewrite E, E1, E2, E3, E4, bp_add, minus_IZR, !mult_IZR. ring. }
  assert (VDel : SF2R Delta = rR * rR * SF2R dr2 - SF2R D * SF2R D). { unfold rR. destruct GDel as (_ & _ & E), Gr as (_ & _ & Er), Gd as (_ & _ & Ed), GD as (_ & _ & ED). rewrite E, Er, Ed, ED, !bp_add, minus_IZR, !mult_IZR. ring. }
  set (LR := SF2R dr2) in *. set (DR := SF2R D) in *. set (DelR := SF2R Delta) in *.
  assert (E : circle_line_intersection_ (vsub (P2R A) (P2R O)) (vsub (P2R B) (P2R O)) rR =
    if ltb DelR 0 then Ok INone else if eqb LR 0 then Raise NonFinite else if ltb DelR sepsilon_ then Ok (IOne (DR / LR * dyR, DR / LR * (- dxR))) else
    let sgn := if ltb dyR 0 then -1 else 1 in
    Ok (ITwo ((DR * dyR + sgn * dxR * sqrt DelR) / LR, (- DR * dxR + Rabs dyR * sqrt DelR) / LR) ((DR * dyR - sgn * dxR * sqrt DelR) / LR, (- DR * dxR - Rabs dyR * sqrt DelR) / LR))).
  { unfold circle_line_intersection_. 
    replace (fst (vsub (P2R B) (P2R O)) - fst (vsub (P2R A) (P2R O))) with dxR by (unfold dxR, vsub, P2R; cbn [fst snd]; ring).
    replace (snd (vsub (P2R B) (P2R O)) - snd (vsub (P2R A) (P2R O))) with dyR by (unfold dyR, vsub, P2R; cbn [fst snd]; ring).
    rewrite <- Vd. fold LR.
    replace (det2x2_ (vsub (P2R A) (P2R O)) (vsub (P2R B) (P2R O))) with DR.
    2:{ rewrite VD. unfold det2x2_, vsub, P2R. cbn [fst snd]. destruct X1 as (_ & _ & E1), X2 as (_ & _ & E2), Y1 as (_ & _ & E3), Y2 as (_ & _ & E4), Go0 as (_ & _ & E5), Go1 as (_ & _ & E6), Ga0 as (_ & _ & E7), Ga1 as (_ & _ & E8), Gb0 as (_ & _ & E9), Gb1 as (_ & _ & E10).
        rewrite E1, E2, E3, E4, E5, E6, E7, E8, E9, E10, !minus_IZR. ring. }
    rewrite <- VDel. fold DelR. reflexivity. }
  assert (PL : 0 < LR).
  { rewrite Vd. destruct (Req_dec dxR 0) as [Zx|Zx]; [destruct (Req_dec dyR 0) as [Zy|Zy]|]; [|pose proof (Rsqr_pos_lt _ Zy); unfold Rsqr in *; nra|pose proof (Rsqr_pos_lt _ Zx); unfold Rsqr in *; nra].
    exfalso. apply NAB. clear - Zx Zy. unfold dxR, P2R in Zx. unfold dyR, P2R in Zy. cbn [fst snd] in Zx, Zy. unfold P2R. f_equal; lra. }
  pose proof (icl_spec (mkCircle (P2R O) rR) (mkLine (P2R A) (P2R B) true true) NAB Pr) as Sp. unfold intersection_circle_line in Sp. cbn [cO cr lA lB] in Sp. rewrite E in Sp. rewrite (proj2 (eqb_false LR 0)) in Sp by lra. cbn zeta in Sp.
  assert (Fd : fin dr2) by apply Gd. assert (FD : fin D) by apply GD. assert (FDl : fin Delta) by apply GDel. assert (Fo0 : fin (fst O)) by apply Go0. assert (Fo1 : fin (snd O)) by apply Go1. assert (Fdx : fin dx) by apply Gdx. assert (Fdy : fin dy) by apply Gdy.
  destruct val_fsepsilon as (Fe & Ve).
  assert (T0 : SFltb Delta f0 = ltb DelR 0) by (apply eq_iff_eq_true; rewrite (flt _ _ FDl fin_f0), val_f0, ltb_true; reflexivity).
  assert (T1 : SFltb Delta fsepsilon = ltb DelR sepsilon_) by (apply eq_iff_eq_true; rewrite (flt _ _ FDl Fe), Ve, ltb_true; reflexivity).
  rewrite T0, T1. destruct (ltb DelR 0) eqn:H0; [cbn [bind] in Sp; intros X (L1 & L2); exact (Sp X L1 L2)|]. apply ltb_false in H0.
  (* sizes *)
  pose proof (bp_pos g) as Pg. pose proof u_bounds as U. pose proof u64_val as Uv. pose proof eta64_small as Et.
  assert (Bg : / 64 <= bp g). { apply Rle_trans with (bp (-6)); [right; change (bp (-6)) with (/ bp 6); rewrite bp_IZR by lia; reflexivity|apply bp_le; lia]. }
  assert (Bg2 : bp g <= bp 100) by (apply bp_le; lia).
  assert (Sz : forall N x k, gv g N x k -> (0 <= N <= 8192)%Z -> Rabs (SF2R x) <= bp 113).
  { intros N x k (_ & Bk & Ek) HN. rewrite Ek, Rabs_mult, (Rabs_right (bp g)) by lra. change (bp 113) with (bp (13 + 100)). rewrite bp_add. apply Rmult_le_compat; try lra; [apply Rabs_pos|]. rewrite <- abs_IZR, bp_IZR by lia. apply IZR_le. change (2 ^ 13)%Z with 8192%Z. lia. }
  pose proof (Sz _ _ _ Go0 ltac:(lia)) as So0. pose proof (Sz _ _ _ Go1 ltac:(lia)) as So1. pose proof (Sz _ _ _ Gdx ltac:(lia)) as Sdx. pose proof (Sz _ _ _ Gdy ltac:(lia)) as Sdy. pose proof (Sz _ _ _ Gr ltac:(lia)) as Sr. fold rR in Sr. rewrite (Rabs_right rR) in Sr by lra. rewrite Vdx in Sdx. rewrite Vdy in Sdy. clear Sz.
  assert (B900 : bp 113 <= bp 900) by (apply bp_le; lia).
  assert (Rmin : / 64 <= rR). { apply Rle_trans with (1 := Bg). destruct Gr as (_ & _ & Ek). unfold rR in *. rewrite Ek in *. assert (1 <= kr)%Z. { apply Znot_gt_le. intros K. assert (IZR kr <= 0) by (apply (IZR_le kr 0); lia). assert (IZR kr * bp g <= 0) by nra. lra. } apply IZR_le in H. nra. }
  assert (Lmin : / 4096 <= LR).
  { destruct Gd as (_ & _ & Ek). unfold LR in *. set (kd := (_ + _)%Z) in Ek. rewrite Ek in *. assert (P2 : 0 < bp (g + g)) by apply bp_pos. assert (1 <= kd)%Z. { apply Znot_gt_le. intros K. assert (IZR kd <= 0) by (apply (IZR_le kd 0); lia). nra. } apply IZR_le in H. apply Rle_trans with (1 * bp (g + g)); [rewrite bp_add; nra|]. apply Rmult_le_compat_r; lra. }
  assert (E1 : eta64 <= u64 * rR / 1000). { rewrite Uv. lra. }
  assert (RLmin : / 262144 <= rR * LR). { apply Rle_trans with (/ 64 * / 4096); [lra|]. apply Rmult_le_compat; lra. }
  assert (E2 : eta64 <= u64 * (rR * LR) / 1000). { rewrite Uv. lra. }
  assert (RL : rR * LR <= bp 900).
  { apply Rle_trans with (bp 113 * (2 * (bp 113 * bp 113))).
    - apply Rmult_le_compat; try lra. rewrite Vd. apply abs_sq in Sdx, Sdy. lra.
    - apply Rle_trans with (bp (113 + (1 + (113 + 113)))); [rewrite !bp_add; right; change (bp 1) with (2 * 1); ring|apply bp_le; lia]. }
  assert (Hdel : DelR = rR * rR * LR - DR * DR) by exact VDel. assert (HL : LR = dxR * dxR + dyR * dyR) by exact Vd.
  assert (RK : 0 <= rR * LR) by (apply Rmult_le_pos; lra). pose proof (sqrt_pos DelR) as Ps. pose proof (sqrt_sqrt DelR H0) as SS. set (sg := sqrt DelR) in *.
  assert (D2 : DR * DR <= rR * rR * LR) by lra.
  assert (KK : rR * LR * (rR * LR) = rR * rR * LR * LR) by ring.
  assert (q1 : forall w, w * w <= LR -> Rabs (DR * w) <= rR * LR). { intros w Hw. apply sq_abs_le; [auto|]. rewrite KK. replace (DR * w * (DR * w)) with (DR * DR * (w * w)) by ring. apply Rmult_le_compat; try nra. }
  assert (q2 : forall w, w * w <= LR -> Rabs w * sg <= rR * LR). { intros w Hw. replace (Rabs w * sg) with (Rabs (w * sg)) by (rewrite Rabs_mult, (Rabs_right sg) by lra; ring). apply sq_abs_le; [auto|]. rewrite KK. replace (w * sg * (w * sg)) with (sg * sg * (w * w)) by ring. rewrite SS. apply Rmult_le_compat; try nra. }
  assert (q3 : forall w v, w * w + v * v = LR -> Rabs (DR * v + w * sg) <= rR * LR). { intros w v Hw. apply sq_abs_le; [auto|]. rewrite KK. apply Rle_trans with ((DR * DR + sg * sg) * (v * v + w * w)); [pose proof (Rle_0_sqr (DR * w - sg * v)) as Q; unfold Rsqr in Q; nra|]. rewrite SS, Hdel. right. rewrite <- Hw. ring. }
  pose proof (Rle_0_sqr dxR) as Qx. pose proof (Rle_0_sqr dyR) as Qy. unfold Rsqr in Qx, Qy.
  destruct (ltb DelR sepsilon_) eqn:H1.
  - apply ltb_true in H1. cbn [bind] in Sp.
    assert (Z0 : DelR = 0).
    { destruct GDel as (_ & _ & Ek). unfold DelR in *. set (k := (_ - _)%Z) in Ek. rewrite Ek in *. assert (P4 : / 16777216 <= bp (g + g + (g + g))). { apply Rle_trans with (bp (-24)); [right; change (bp (-24)) with (/ bp 24); rewrite bp_IZR by lia; reflexivity|apply bp_le; lia]. }
      unfold sepsilon_ in H1. assert (K1 : (k < 1)%Z). { apply lt_IZR. apply Rnot_le_lt. intros K. nra. } assert (K2 : (-1 < k)%Z). { apply lt_IZR. apply Rnot_le_lt. intros K. nra. } replace k with 0%Z by lia. ring. }
    destruct Sp as (S1 & S2 & S3 & S4). set (X := vadd _ (P2R O)) in *.
    assert (OC : on_circle (P2R O) rR X) by (apply tangent_on; auto; rewrite <- Hdel; exact Z0).
    destruct (proj1 S4 OC) as (M & M1 & M2 & M3). exists X. split; [split; auto|]. split; [intros Y (L1 & L2); rewrite (M3 Y L1 L2), (M3 X S1 OC); reflexivity|].
    assert (EY : forall w, Rabs w <= bp 113 -> eta64 * Rabs w <= u64 * rR / 1000).
    { intros w Hw. apply Rle_trans with (bp (-1075) * bp 113); [apply Rmult_le_compat_l; [left; apply bp_pos|exact Hw]|]. rewrite <- bp_add. apply Rle_trans with (bp (-100)); [apply bp_le; lia|]. apply Rle_trans with (/ 1267650600228229401496703205376); [right; change (bp (-100)) with (/ bp 100); rewrite bp_IZR by lia; reflexivity|]. rewrite Uv. lra. }
    assert (BQ : Rabs (DR / LR) <= bp 900).
    { unfold Rdiv. rewrite Rabs_mult, (Rabs_right (/ LR)) by (left; apply Rinv_0_lt_compat; auto). apply Rle_trans with (bp 250 * bp 12).
      - apply Rmult_le_compat; [apply Rabs_pos|left; apply Rinv_0_lt_compat; auto| |].
        + destruct GD as (_ & Bk & Ek). unfold DR. rewrite Ek, Rabs_mult, (Rabs_right (bp (g + g))) by (left; apply bp_pos). rewrite <- abs_IZR. change (bp 250) with (bp (50 + 200)). rewrite (bp_add 50). apply Rmult_le_compat; [apply IZR_le; lia|left; apply bp_pos|rewrite bp_IZR by lia; apply IZR_le; lia|apply bp_le; lia].
        + rewrite bp_IZR by lia. change (IZR (2 ^ 12)) with 4096. rewrite <- (Rinv_inv 4096). apply Rinv_le_contravar; lra.
      - rewrite <- bp_add. apply bp_le. lia. }
    destruct (fopp dx Fdx) as (Fndx & Vndx). rewrite Vdx in Vndx.
    destruct (one_coord D dy dr2 (fst O) DR dyR LR rR FD Fdy Fd Fo0 eq_refl Vdy eq_refl PL Pr (q1 dyR ltac:(lra)) ltac:(lra) ltac:(lra) BQ E1 (EY _ Sdy)) as (N1 & N2).
    destruct (one_coord D (SFopp dx) dr2 (snd O) DR (- dxR) LR rR FD Fndx Fd Fo1 eq_refl Vndx eq_refl PL Pr (q1 (- dxR) ltac:(lra)) ltac:(lra) ltac:(lra) BQ E1 (EY (- dxR) ltac:(rewrite Rabs_Ropp; exact Sdx))) as (N3 & N4).
    unfold near64. cbn [c64_center c64_radius fst snd]. split; [split; [exact N1|exact N3]|]. split; [exact N2|exact N4].
  - apply ltb_false in H1. cbn [bind] in Sp. destruct (fsqrt Delta FDl H0) as (Rs & Es). fold DelR in Es. fold sg in Es. pose proof (rounds_fin _ _ Rs) as Fs. set (sf := SF64sqrt Delta) in *.
    set (sgn := if ltb dyR 0 then -1 else 1) in *. set (sgf := if SFltb dy f0 then SFopp f1 else f1).
    assert (Gs : exists k, gv 0 1 sgf k /\ IZR k = sgn).
    { unfold sgf, sgn. assert (T2 : SFltb dy f0 = ltb dyR 0) by (apply eq_iff_eq_true; rewrite (flt _ _ Fdy fin_f0), val_f0, ltb_true, Vdy; reflexivity). rewrite T2.
      assert (G1 : gv 0 1 f1 1) by (split; [exact fin_f1|split; [cbn; lia|rewrite val_f1, bp_0; ring]]). destruct (ltb dyR 0); [exists (-1)%Z; split; [exact (gv_opp _ _ _ _ G1)|reflexivity]|exists 1%Z; split; [exact G1|reflexivity]]. }
    destruct Gs as (ks & Gs & Eks). pose proof (gvm _ _ _ _ _ _ _ _ Gs Gdx (ltac:(lia) : (-1074 <= 0 + g <= 970)%Z) eq_refl) as Gsx. pose proof (gvm _ _ _ _ _ _ _ _ (gv_opp _ _ _ _ GD) Gdx R3 eq_refl) as GDdx.
    assert (Sgn : sgn * sgn = 1 /\ sgn * dyR = Rabs dyR). { unfold sgn. destruct (ltb dyR 0) eqn:K; [apply ltb_true in K; rewrite Rabs_left by lra|apply ltb_false in K; rewrite Rabs_right by lra]; split; ring. }
    destruct Sgn as (Sg2 & Sgy).
    set (sx := SF64mul sgf dx) in *. set (Ddy := SF64mul D dy) in *. set (Ddx := SF64mul (SFopp D) dx) in *.
    assert (Vsx : SF2R sx = sgn * dxR). { rewrite <- Vdx. destruct Gsx as (_ & _ & Ek), Gdx as (_ & _ & Ed). rewrite Ek, Ed, mult_IZR, Eks, bp_add, bp_0. ring. }
    assert (VDdy : SF2R Ddy = DR * dyR). { rewrite <- Vdy. unfold DR. destruct GDdy as (_ & _ & Ek), Gdy as (_ & _ & Ed), GD as (_ & _ & ED). rewrite Ek, Ed, ED, mult_IZR, bp_add. ring. }
    assert (VDdx : SF2R Ddx = - DR * dxR). { rewrite <- Vdx. unfold DR. destruct GDdx as (_ & _ & Ek), Gdx as (_ & _ & Ed), GD as (_ & _ & ED). rewrite Ek, Ed, ED, mult_IZR, opp_IZR, bp_add. ring. }
    destruct (fabs dy Fdy) as (Fay & Vay). rewrite Vdy in Vay. assert (Fsx : fin sx) by apply Gsx. assert (FDdy : fin Ddy) by apply GDdy. assert (FDdx : fin Ddx) by apply GDdx.
    assert (sxx : sgn * dxR * (sgn * dxR) = dxR * dxR) by (transitivity (sgn * sgn * (dxR * dxR)); [ring|rewrite Sg2; ring]). assert (ayy : Rabs dyR * Rabs dyR = dyR * dyR) by (rewrite <- Rabs_mult; apply Rabs_right; lra).
    assert (nDx : - DR * dxR = DR * - dxR) by ring.
    destruct Sp as (S0 & S1 & S2 & S3 & S4 & S5). set (X := vadd ((DR * dyR + sgn * dxR * sg) / LR, _) (P2R O)) in *. set (Y := vadd _ (P2R O)) in S0, S2, S4, S5.
    destruct (two_coord true Ddy sx sf dr2 (fst O) (DR * dyR) (sgn * dxR) sg LR rR FDdy Fsx Fs Fd Fo0 VDdy Vsx Es eq_refl Ps PL Pr (q1 dyR ltac:(lra)) (q2 (sgn * dxR) ltac:(lra)) (q3 (sgn * dxR) dyR ltac:(lra)) RL ltac:(lra) ltac:(lra) E1 E2) as (N1 & N2).
    destruct (two_coord true Ddx (SFabs dy) sf dr2 (snd O) (- DR * dxR) (Rabs dyR) sg LR rR FDdx Fay Fs Fd Fo1 VDdx Vay Es eq_refl Ps PL Pr ltac:(rewrite nDx; apply q1; lra) (q2 (Rabs dyR) ltac:(lra)) ltac:(rewrite nDx; apply q3; lra) RL ltac:(lra) ltac:(lra) E1 E2) as (N3 & N4).
    destruct (two_coord false Ddy sx sf dr2 (fst O) (DR * dyR) (sgn * dxR) sg LR rR FDdy Fsx Fs Fd Fo0 VDdy Vsx Es eq_refl Ps PL Pr (q1 dyR ltac:(lra)) (q2 (sgn * dxR) ltac:(lra)) ltac:(replace (DR * dyR - sgn * dxR * sg) with (DR * dyR + (- (sgn * dxR)) * sg) by ring; apply q3; lra) RL ltac:(lra) ltac:(lra) E1 E2) as (N5 & N6).
    destruct (two_coord false Ddx (SFabs dy) sf dr2 (snd O) (- DR * dxR) (Rabs dyR) sg LR rR FDdx Fay Fs Fd Fo1 VDdx Vay Es eq_refl Ps PL Pr ltac:(rewrite nDx; apply q1; lra) (q2 (Rabs dyR) ltac:(lra)) ltac:(replace (- DR * dxR - Rabs dyR * sg) with (DR * - dxR + (- Rabs dyR) * sg) by ring; apply q3; lra) RL ltac:(lra) ltac:(lra) E1 E2) as (N7 & N8).
    exists X, Y. split; [exact S0|]. split; [split; auto|]. split; [split; auto|]. split; [intros W (L1 & L2); auto|].
    unfold near64. cbn [c64_center c64_radius fst snd]. split; (split; [split|split]); [exact N1|exact N3|exact N2|exact N4|exact N5|exact N7|exact N6|exact N8].
Qed.

(** ** Projections *)

Lemma projection64_ok g A B M : (-300 <= g <= 200)%Z -> on_grid2 g 20000 A -> on_grid2 g 20000 B -> on_grid2 g 20000 M -> P2R A <> P2R B ->
  exists P X, projection64 A B M = Some P /\ on_line (P2R A) (P2R B) X /\ orthogonal (vsub X (P2R M)) (vsub (P2R B) (P2R A)) /\
    rounds (fst P) (fst X) /\ rounds (snd P) (snd X).
Proof.
  intros Hg GA GB GM NAB. set (v := fp_sub B A). set (M' := fp_add M ((- snd v)%f64, fst v)).
  assert (W : forall N Q, (N <= 65536)%Z -> on_grid2 g N Q -> on_grid2 g 65536 Q). { intros N Q HN ((F0 & n0 & B0 & E0) & (F1 & n1 & B1 & E1)). split; (split; [auto|]); [exists n0|exists n1]; split; auto; lia. }
  assert (GM' : on_grid2 g 60000 M' /\ P2R M' = vadd (P2R M) (- (SF2R (snd B) - SF2R (snd A)), SF2R (fst B) - SF2R (fst A))).
  { destruct GA as (Ga0 & Ga1), GB as (Gb0 & Gb1), GM as (Gm0 & Gm1). apply gv_of in Ga0, Ga1, Gb0, Gb1, Gm0, Gm1. destruct Ga0 as (a0 & Ga0), Ga1 as (a1 & Ga1), Gb0 as (b0 & Gb0), Gb1 as (b1 & Gb1), Gm0 as (m0 & Gm0), Gm1 as (m1 & Gm1).
    assert (R1 : (-1074 <= g <= 970)%Z) by lia.
    pose proof (gva _ _ _ _ _ _ _ Gm0 (gv_opp _ _ _ _ (gvs _ _ _ _ _ _ _ Gb1 Ga1 R1 eq_refl)) R1 eq_refl) as H0. pose proof (gva _ _ _ _ _ _ _ Gm1 (gvs _ _ _ _ _ _ _ Gb0 Ga0 R1 eq_refl) R1 eq_refl) as H1.
    change (fst M') with (SF64add (fst M) (- (snd B - snd A))%f64) in *. destruct H0 as (F0 & B0 & E0), H1 as (F1 & B1 & E1). split.
    - split; (split; [assumption|]); [exists (m0 + - (b1 - a1))%Z|exists (m1 + (b0 - a0))%Z]; split; auto; lia.
    - destruct Ga0 as (_ & _ & A0), Ga1 as (_ & _ & A1), Gb0 as (_ & _ & C0), Gb1 as (_ & _ & C1), Gm0 as (_ & _ & D0), Gm1 as (_ & _ & D1).
      unfold P2R, vadd. cbn [fst snd]. change (fst M') with (SF64add (fst M) (- (snd B - snd A))%f64). change (snd M') with (SF64add (snd M) (fst B - fst A)%f64). rewrite E0, E1, A0, A1, C0, C1, D0, D1, !plus_IZR, opp_IZR, !minus_IZR. f_equal; ring. }
  destruct GM' as (GM' & VM'). destruct (intersection64_grid g A B M M' Hg (W 20000%Z _ ltac:(lia) GA) (W 20000%Z _ ltac:(lia) GB) (W 20000%Z _ ltac:(lia) GM) (W 60000%Z _ ltac:(lia) GM')) as (_ & K).
  rewrite VM' in K. destruct K as (P & X & K1 & K2 & K3 & K4 & K5).
  - unfold scross, vsub, vadd, P2R. cbn [fst snd]. intros Z. apply NAB. unfold P2R. 
    set (x := SF2R (fst B) - SF2R (fst A)) in *. set (y := SF2R (snd B) - SF2R (snd A)) in *. assert (Q : x * x + y * y = 0) by lra. assert (x = 0) by nra. assert (y = 0) by nra. f_equal; unfold x, y in *; lra.
  - exists P, X. split; [exact K1|]. split; [apply on_line_cross; auto|]. split; [|auto]. unfold orthogonal. revert K3. unfold scross, sdot, vsub, vadd, P2R. cbn [fst snd]. lra.
Qed.

Lemma bp500_big : 131072 <= bp 500.
Proof. apply Rle_trans with (bp 17); [unfold bp; simpl; lra|apply bp_le; lia]. Qed.

(** The decimals: a tangent line is missed.  Large integers: a line that does not meet the
    circle is said to be tangent. *)
Lemma tangent_missed : exists c A B, moderate (c64_center c) /\ moderate A /\ moderate B /\ 0 < SF2R (c64_radius c) /\ P2R A <> P2R B /\
  (exists X, on_line (P2R A) (P2R B) X /\ on_circle (P2R (c64_center c)) (SF2R (c64_radius c)) X) /\ intersection_circle_line64 c A B = INone64.
Proof.
  set (t := fq 1 10). assert (Ft : fin t) by (split; reflexivity). assert (V : SF2R t = 3602879701896397 / 36028797018963968). { replace t with (S754_finite false 7205759403792794 (-56)) by reflexivity. rewrite val_lit. change (2 ^ 56)%Z with 72057594037927936%Z. lra. }
  assert (V2 : SF2R (fq 17 10) = 7656119366529843 / 4503599627370496). { replace (fq 17 10) with (S754_finite false 7656119366529843 (-52)) by reflexivity. rewrite val_lit. change (2 ^ 52)%Z with 4503599627370496%Z. lra. }
  exists (Circle64 (fz 0, fz 0) t), (t, fz 0), (t, fq 17 10). cbn [c64_center c64_radius]. split; [apply fzm; lia|]. split; [apply fq_moderate1|]. split; [|split; [rewrite V; lra|split; [|split; [|reflexivity]]]].
  - pose proof bp500_big as N. split; split; cbn [fst snd]; try (split; reflexivity); [rewrite V|rewrite V2]; apply abs_le; lra.
  - unfold P2R. cbn [fst snd]. rewrite V2. change (SF2R (fz 0)) with 0. intros Q. injection Q as Q. lra.
  - exists (SF2R t, 0). split; [exists 0; unfold at_line, vadd, vscal, vsub, P2R; cbn [fst snd]; change (SF2R (fz 0)) with 0; f_equal; ring|]. apply on_circle_sq; [rewrite V; lra|]. unfold dist2, sdot, vsub, P2R. cbn [fst snd]. change (SF2R (fz 0)) with 0. ring.
Qed.

Lemma disjoint_tangent : exists c A B P, on_grid2 0 200000000 (c64_center c) /\ on_grid2 0 200000000 A /\ on_grid2 0 200000000 B /\ on_grid 0 200000000 (c64_radius c) /\
  P2R A <> P2R B /\ (forall X, on_line (P2R A) (P2R B) X -> SF2R (c64_radius c) < dist (P2R (c64_center c)) X) /\ intersection_circle_line64 c A B = IOne64 P.
Proof.
  exists (Circle64 (fz 0, fz 0) (fz 93222358)), (fz 131836323, fz 0), (fz 131836324, fz 1). eexists. cbn [c64_center c64_radius]. do 3 (split; [apply fz_grid2; lia|]). split; [apply fz_grid; lia|]. rewrite !fz_P2R by lia.
  split; [intros Q; injection Q as Q; lra|]. split; [|vm_compute; reflexivity]. intros X (t & ->). rewrite (proj2 (fz_ok 93222358 ltac:(lia))). unfold dist. rewrite <- (sqrt_square 93222358) by lra. apply sqrt_lt_1_alt. split; [lra|].
  unfold dist2, sdot, at_line, vadd, vscal, vsub. cbn [fst snd]. pose proof (Rle_0_sqr (2 * t + 131836323)) as Q. unfold Rsqr in Q. lra.
Qed.
