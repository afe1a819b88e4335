(** * Binary64: the operations round the exact results to nearest *)

From Coq Require Import Reals ZArith Lia Lra Bool SpecFloat.
From Verif Require Import SpecF64 ModelFloat PFloat.
Local Open Scope R_scope.

Lemma align_ok m e e' : (e' <= e)%Z -> IZR (Zpos (fst (shl_align m e e'))) * bp e' = IZR (Zpos m) * bp e /\ Zpos (fst (shl_align m e e')) = (Zpos m * 2 ^ (e - e'))%Z.
Proof.
  intros H. unfold shl_align. destruct (e' - e)%Z as [|p|p] eqn:E; [| lia |].
  - cbn [fst]. replace e' with e by lia. rewrite Z.sub_diag. split; [auto|]. change (2 ^ 0)%Z with 1%Z. lia.
  - cbn [fst]. rewrite shift_pos_correct. assert (Ep : (e - e' = Zpos p)%Z) by lia. rewrite Ep. change (Z.pow_pos 2 p) with (2 ^ Zpos p)%Z. split; [|ring].
    rewrite mult_IZR. replace e with (e' + Zpos p)%Z by lia. rewrite bp_add, (bp_IZR (Zpos p)) by lia. ring.
Qed.

Lemma binary_round_ok s m e : let z := binary_round prec emax s m e in
  (is_finite z = true -> rounds z (sgnR s * (IZR (Zpos m) * bp e)) /\
    ((-1074 <= e)%Z -> Rabs (SF2R z - sgnR s * (IZR (Zpos m) * bp e)) <= u64 * (IZR (Zpos m) * bp e))) /\
  valid64 z /\ z <> S754_nan /\ (IZR (Zpos m) * bp e <= bp 1023 -> is_finite z = true).
Proof.
  cbv zeta. unfold binary_round.
  set (f := fexp64 (Zpos (digits2_pos m) + e)). pose proof (fexp64_eq (Zpos (digits2_pos m) + e)) as Ef. fold f in Ef.
  assert (K : exists mz ez, shl_align m e f = (mz, ez) /\ IZR (Zpos mz) * bp ez = IZR (Zpos m) * bp e /\ (ez <= fexp64 (Zdigits2 (Zpos mz) + ez))%Z /\ ((-1074 <= e)%Z -> (-1074 <= ez)%Z)).
  { destruct (Z_le_gt_dec f e) as [L|L].
    - destruct (align_ok m e f L) as (A1 & A2). unfold shl_align in *. destruct (f - e)%Z as [|p|p] eqn:E; [| lia |]; cbn [fst] in *.
      + exists m, e. repeat split; auto. change (Zdigits2 (Zpos m)) with (Zpos (digits2_pos m)). fold f. lia.
      + exists (shift_pos p m), f. repeat split; auto; [|lia]. rewrite A2. rewrite Zdigits_shift by lia. change (Zdigits2 (Zpos m)) with (Zpos (digits2_pos m)).
        replace (Zpos (digits2_pos m) + (e - f) + f)%Z with (Zpos (digits2_pos m) + e)%Z by ring. fold f. lia.
    - exists m, e. unfold shl_align. destruct (f - e)%Z as [|p|p] eqn:E; try lia; repeat split; auto; change (Zdigits2 (Zpos m)) with (Zpos (digits2_pos m)); fold f; lia. }
  destruct K as (mz & ez & -> & Ev & Hf & He).
  assert (I : inb (IZR (Zpos m) * bp e) (Zpos mz) ez loc_Exact) by (cbn; auto).
  split; [|split; [|split]].
  - intros F. destruct (round_aux_rounds s _ (Zpos mz) ez loc_Exact ltac:(lia) I Hf F) as (R1 & R2). split; auto.
  - apply (round_aux_ok s _ (Zpos mz) ez loc_Exact ltac:(lia) I Hf).
  - apply (round_aux_ok s _ (Zpos mz) ez loc_Exact ltac:(lia) I Hf).
  - apply (round_aux_finite s _ (Zpos mz) ez loc_Exact ltac:(lia) I Hf).
Qed.

Lemma rounds_zero s : rounds (S754_zero s) 0.
Proof.
  pose proof (bp_pos (-1075)) as T. fold eta64 in T. unfold rounds. cbn [SF2R]. replace (0 - 0) with 0 by ring. rewrite Rabs_R0. repeat split; auto; try lra.
  intros. apply Rabs_pos.
Qed.

(** a number is its own rounding *)
Lemma rounds_self z : valid64 z -> is_finite z = true -> rounds z (SF2R z).
Proof.
  intros V F. pose proof (bp_pos (-1075)) as T. fold eta64 in T. pose proof (bp_pos (-53)) as U. fold u64 in U. pose proof (Rabs_pos (SF2R z)).
  unfold rounds. replace (SF2R z - SF2R z) with 0 by ring. rewrite Rabs_R0. repeat split; auto; try nra. intros. apply Rabs_pos.
Qed.

Lemma normalize_ok m e s0 : let z := binary_normalize prec emax m e s0 in let r := IZR m * bp e in
  (is_finite z = true -> rounds z r /\ ((-1074 <= e)%Z -> Rabs (SF2R z - r) <= u64 * Rabs r)) /\
  valid64 z /\ z <> S754_nan /\ (Rabs r <= bp 1023 -> is_finite z = true).
Proof.
  cbv zeta. pose proof (bp_pos e) as Hb. pose proof (bp_pos (-53)) as U. fold u64 in U.
  destruct m as [|m|m]; cbn [binary_normalize].
  - rewrite Rmult_0_l. repeat split; try discriminate; try apply rounds_zero. intros _. cbn [SF2R]. rewrite Rminus_0_r, Rabs_R0. lra.
  - assert (Hm : 0 < IZR (Zpos m)) by (apply IZR_lt; lia). destruct (binary_round_ok false m e) as (R1 & R2 & R3 & R4). cbn [sgnR] in R1. rewrite Rmult_1_l in R1.
    rewrite (Rabs_right (IZR (Zpos m) * bp e)) by nra. split; [exact R1|]. auto.
  - assert (Hm : 0 < IZR (Zpos m)) by (apply IZR_lt; lia). destruct (binary_round_ok true m e) as (R1 & R2 & R3 & R4). cbn [sgnR] in R1.
    replace (-1 * (IZR (Zpos m) * bp e)) with (IZR (Zneg m) * bp e) in R1 by (change (Zneg m) with (- Zpos m)%Z; rewrite opp_IZR; ring).
    assert (Ea : Rabs (IZR (Zneg m) * bp e) = IZR (Zpos m) * bp e) by (change (Zneg m) with (- Zpos m)%Z; rewrite opp_IZR; rewrite Rabs_left; nra).
    rewrite Ea. split; [exact R1|]. auto.
Qed.

(** ** Addition and subtraction: the error is relative, with no underflow term *)

Lemma cond_opp_val s m e e' : (e' <= e)%Z -> IZR (cond_Zopp s (Zpos (fst (shl_align m e e')))) * bp e' = sgnR s * (IZR (Zpos m) * bp e).
Proof.
  intros H. destruct (align_ok m e e' H) as (A & _). rewrite <- A. destruct s; cbn [cond_Zopp sgnR]; rewrite ?opp_IZR; ring.
Qed.

Lemma valid_exp s m e : valid64 (S754_finite s m e) -> (-1074 <= e <= 971)%Z.
Proof. intros V. apply canonical_iff in V. destruct V as (V & W). rewrite fexp64_eq in V. lia. Qed.


Lemma self_err x : Rabs (x - x) <= u64 * Rabs x.
Proof. replace (x - x) with 0 by ring. rewrite Rabs_R0. pose proof (bp_pos (-53)) as U. fold u64 in U. pose proof (Rabs_pos x). nra. Qed.

Lemma add_ok x y : valid64 x -> valid64 y -> let z := SF64add x y in
  valid64 z /\
  (is_finite z = true -> is_finite x = true /\ is_finite y = true /\ rounds z (SF2R x + SF2R y) /\
     Rabs (SF2R z - (SF2R x + SF2R y)) <= u64 * Rabs (SF2R x + SF2R y)) /\
  (is_finite x = true -> is_finite y = true -> Rabs (SF2R x + SF2R y) <= bp 1023 -> is_finite z = true).
Proof.
  intros Vx Vy. cbv zeta. unfold SF64add.
  destruct x as [sx|sx| |sx mx ex]; destruct y as [sy|sy| |sy my ey]; cbn [SFadd is_finite]; try (repeat split; auto; discriminate).
  - destruct (Bool.eqb sx sy); cbn [is_finite SF2R]; rewrite ?Rplus_0_l; (repeat split; auto; try apply rounds_zero; try apply self_err).
  - change (SF2R (S754_zero sx)) with 0. rewrite ?Rplus_0_l. split; [exact Vy|]. split; [|auto]. intros _. split; [auto|]. split; [auto|]. split; [apply rounds_self; auto|apply self_err].
  - destruct (Bool.eqb sx sy); cbn; (repeat split; auto; discriminate).
  - change (SF2R (S754_zero sy)) with 0. rewrite ?Rplus_0_r. split; [exact Vx|]. split; [|auto]. intros _. split; [auto|]. split; [auto|]. split; [apply rounds_self; auto|apply self_err].
  - pose proof (valid_exp _ _ _ Vx). pose proof (valid_exp _ _ _ Vy). set (ez := Z.min ex ey).
    match goal with |- context [binary_normalize prec emax ?m ez false] => destruct (normalize_ok m ez false) as (N1 & N2 & N3 & N4); assert (E : IZR m * bp ez = SF2R (S754_finite sx mx ex) + SF2R (S754_finite sy my ey)) end.
    { rewrite plus_IZR, Rmult_plus_distr_r, !cond_opp_val by lia. reflexivity. }
    rewrite E in *. split; [exact N2|]. split.
    + intros F. destruct (N1 F) as (R1 & R2). split; [auto|]. split; [auto|]. split; [exact R1|]. apply R2. lia.
    + auto.
Qed.

Lemma opp_value x : SF2R (SFopp x) = - SF2R x.
Proof. destruct x; cbn; try ring. rewrite sgnR_opp. ring. Qed.

Lemma opp_valid x : valid64 x -> valid64 (SFopp x).
Proof. destruct x; cbn; auto. Qed.

Lemma opp_finite x : is_finite (SFopp x) = is_finite x.
Proof. destruct x; reflexivity. Qed.

Lemma sub_add_opp x y : SF64sub x y = SF64add x (SFopp y).
Proof.
  unfold SF64sub, SF64add. destruct x as [sx|sx| |sx mx ex]; destruct y as [sy|sy| |sy my ey]; cbn; auto.
  f_equal. unfold Z.sub. f_equal. destruct sy; cbn; auto.
Qed.

Lemma sub_ok x y : valid64 x -> valid64 y -> let z := SF64sub x y in
  valid64 z /\
  (is_finite z = true -> is_finite x = true /\ is_finite y = true /\ rounds z (SF2R x - SF2R y) /\
     Rabs (SF2R z - (SF2R x - SF2R y)) <= u64 * Rabs (SF2R x - SF2R y)) /\
  (is_finite x = true -> is_finite y = true -> Rabs (SF2R x - SF2R y) <= bp 1023 -> is_finite z = true).
Proof.
  intros Vx Vy. cbv zeta. rewrite sub_add_opp. destruct (add_ok x (SFopp y) Vx (opp_valid y Vy)) as (A & B & C).
  rewrite opp_value, opp_finite in *. unfold Rminus. auto.
Qed.

(** ** Multiplication *)

Lemma mul_exp mx ex my ey : bounded prec emax mx ex = true -> bounded prec emax my ey = true ->
  (ex + ey <= fexp64 (Zdigits2 (Zpos (mx * my)) + (ex + ey)))%Z.
Proof.
  intros Bx By. apply canonical_iff in Bx. apply canonical_iff in By. destruct Bx as (Bx & _), By as (By & _).
  rewrite fexp64_eq in *. pose proof (digits_bounds mx) as Dx. pose proof (digits_bounds my) as Dy.
  assert (L : (Zpos (digits2_pos mx) + Zpos (digits2_pos my) - 1 <= Zdigits2 (Zpos (mx * my)))%Z).
  { replace (Zpos (digits2_pos mx) + Zpos (digits2_pos my) - 1)%Z with (Zpos (digits2_pos mx) - 1 + (Zpos (digits2_pos my) - 1) + 1)%Z by ring.
    apply Zdigits_ge; [|lia]. rewrite Z.pow_add_r, Pos2Z.inj_mul by lia. apply Z.mul_le_mono_nonneg; try lia; apply Z.pow_nonneg; lia. }
  lia.
Qed.

Lemma xorb_sgn a b : sgnR (xorb a b) = sgnR a * sgnR b.
Proof. destruct a, b; cbn; ring. Qed.

Lemma mul_ok x y : valid64 x -> valid64 y -> let z := SF64mul x y in
  valid64 z /\
  (is_finite z = true -> is_finite x = true /\ is_finite y = true /\ rounds z (SF2R x * SF2R y)) /\
  (is_finite x = true -> is_finite y = true -> Rabs (SF2R x * SF2R y) <= bp 1023 -> is_finite z = true).
Proof.
  intros Vx Vy. cbv zeta. unfold SF64mul.
  destruct x as [sx|sx| |sx mx ex]; destruct y as [sy|sy| |sy my ey]; cbn [SFmul is_finite]; try (repeat split; auto; discriminate);
    try (cbn [SF2R]; rewrite ?Rmult_0_l, ?Rmult_0_r; repeat split; auto; apply rounds_zero).
  pose proof (mul_exp mx ex my ey Vx Vy) as He.
  set (r := IZR (Zpos (mx * my)) * bp (ex + ey)). assert (I : inb r (Zpos (mx * my)) (ex + ey) loc_Exact) by reflexivity.
  assert (E : SF2R (S754_finite sx mx ex) * SF2R (S754_finite sy my ey) = sgnR (xorb sx sy) * r).
  { cbn [SF2R]. unfold r. rewrite Pos2Z.inj_mul, mult_IZR, bp_add, xorb_sgn. ring. }
  assert (Hr : 0 <= r). { unfold r. pose proof (bp_pos (ex + ey)). assert (0 < IZR (Zpos (mx * my))) by (apply IZR_lt; lia). nra. }
  assert (Hp : (0 <= Zpos (mx * my))%Z) by lia.
  rewrite E. split; [apply (round_aux_ok _ r _ _ _ Hp I He)|]. split.
  - intros F. split; [auto|]. split; [auto|]. apply (round_aux_rounds _ r _ _ _ Hp I He F).
  - intros _ _ L. rewrite sgnR_abs, Rabs_right in L by lra. apply (round_aux_finite _ r _ _ _ Hp I He L).
Qed.

(** ** Division *)

Lemma new_location_ok k n q e : (0 < n)%Z -> (0 <= k < n)%Z -> inb ((IZR q + IZR k / IZR n) * bp e) q e (new_location n k).
Proof.
  intros Hn Hk. pose proof (bp_pos e) as Hb. assert (Hn' : 0 < IZR n) by (apply IZR_lt; auto).
  assert (T : IZR k / IZR n * IZR n = IZR k) by (field; lra). set (t := IZR k / IZR n) in *.
  assert (K0 : 0 <= IZR k) by (apply IZR_le; lia). assert (K1 : IZR k + 1 <= IZR n) by (rewrite <- plus_IZR; apply IZR_le; lia).
  assert (C : forall c, (k <> 0)%Z -> match c with Lt => (2 * k < n)%Z | Eq => (2 * k = n)%Z | Gt => (2 * k > n)%Z end -> inb ((IZR q + t) * bp e) q e (loc_Inexact c)).
  { intros c Nk Hc. assert (1 <= IZR k) by (apply IZR_le; lia). cbn [inb]. assert (0 < t < 1) by (split; nra). split; [split; nra|].
    destruct c.
    - assert (2 * IZR k = IZR n) by (rewrite <- mult_IZR; f_equal; auto). assert (t = / 2) by nra. rewrite H2. reflexivity.
    - assert (2 * IZR k < IZR n) by (rewrite <- mult_IZR; apply IZR_lt; auto). assert (t < / 2) by nra. nra.
    - assert (IZR n < 2 * IZR k) by (rewrite <- mult_IZR; apply IZR_lt; lia). assert (/ 2 < t) by nra. nra. }
  assert (Z0 : (k = 0)%Z -> inb ((IZR q + t) * bp e) q e loc_Exact).
  { intros ->. cbn [inb]. assert (t = 0) by nra. rewrite H. ring. }
  unfold new_location. destruct (Z.even n) eqn:Ev.
  - unfold new_location_even. destruct (Zeq_bool k 0) eqn:Ek.
    + apply Zeq_bool_eq in Ek. auto.
    + apply Zeq_bool_neq in Ek. apply C; auto. destruct (Z.compare_spec (2 * k) n); lia.
  - unfold new_location_odd. destruct (Zeq_bool k 0) eqn:Ek.
    + apply Zeq_bool_eq in Ek. auto.
    + apply Zeq_bool_neq in Ek. rewrite <- Z.negb_odd in Ev. apply negb_false_iff in Ev. apply Z.odd_spec in Ev. destruct Ev as (j & Ej).
      destruct (Z.compare_spec (2 * k + 1) n); apply C; auto; lia.
Qed.

Lemma shiftl_cases m s : (0 <= s)%Z -> match s with Zpos _ => Z.shiftl m s | Z0 => m | Zneg _ => 0%Z end = (m * 2 ^ s)%Z.
Proof. intros H. destruct s; [change (2 ^ 0)%Z with 1%Z; ring|apply Z.shiftl_mul_pow2; lia|lia]. Qed.

Lemma div_core_ok m1 e1 m2 e2 q e l : (0 < m1)%Z -> (0 < m2)%Z -> SFdiv_core_binary prec emax m1 e1 m2 e2 = (q, e, l) ->
  (0 <= q)%Z /\ inb (IZR m1 * bp e1 / (IZR m2 * bp e2)) q e l /\ (e <= fexp64 (Zdigits2 q + e))%Z.
Proof.
  intros H1 H2. unfold SFdiv_core_binary. set (f := fexp64 (Zdigits2 m1 + e1 - (Zdigits2 m2 + e2))). set (e' := Z.min f (e1 - e2)).
  assert (Hs : (0 <= e1 - e2 - e')%Z) by lia. rewrite (shiftl_cases m1 _ Hs). set (s := (e1 - e2 - e')%Z) in *. set (m' := (m1 * 2 ^ s)%Z).
  pose proof (Z_div_mod m' m2 ltac:(lia)) as D. destruct (Z.div_eucl m' m2) as [q0 r]. destruct D as (Em & Hr).
  intros K. injection K as <- <- <-.
  assert (P2 : (0 < 2 ^ s)%Z) by (apply Z.pow_pos_nonneg; lia). assert (Hm' : (0 < m')%Z) by (unfold m'; nia).
  assert (Hq : (0 <= q0)%Z) by nia.
  split; auto. split.
  - assert (Ex : IZR m1 * bp e1 / (IZR m2 * bp e2) = (IZR q0 + IZR r / IZR m2) * bp e').
    { assert (Hm2 : 0 < IZR m2) by (apply IZR_lt; auto). pose proof (bp_pos e2) as Hb2. pose proof (bp_pos e') as Hb'.
      assert (V : IZR m1 * bp s = IZR q0 * IZR m2 + IZR r). { rewrite (bp_IZR s) by lia. rewrite <- mult_IZR. fold m'. rewrite Em, plus_IZR, mult_IZR. ring. }
      assert (E1 : bp e1 = bp s * bp e2 * bp e') by (rewrite <- !bp_add; f_equal; lia). rewrite E1.
      replace (IZR m1 * (bp s * bp e2 * bp e')) with (IZR m1 * bp s * bp e2 * bp e') by ring. rewrite V. field. split; lra. }
    rewrite Ex. apply new_location_ok; lia.
  - assert (Dq : (Zdigits2 m1 + s - Zdigits2 m2 <= Zdigits2 q0)%Z).
    { destruct (Zdigits_pos m1 H1) as (A1 & B1). destruct (Zdigits_pos m2 H2) as (A2 & B2).
      destruct (Z_le_gt_dec (Zdigits2 m1 + s - 1 - Zdigits2 m2) (-1)) as [L|L].
      { assert (0 <= Zdigits2 q0)%Z by (destruct q0; cbn; lia). lia. }
      replace (Zdigits2 m1 + s - Zdigits2 m2)%Z with (Zdigits2 m1 + s - 1 - Zdigits2 m2 + 1)%Z by ring. apply Zdigits_ge; [|lia].
      assert (Eq : q0 = (m' / m2)%Z) by (apply Z.div_unique with r; [left; lia|lia]). rewrite Eq. apply Z.div_le_lower_bound; [lia|].
      apply Z.le_trans with (2 ^ Zdigits2 m2 * 2 ^ (Zdigits2 m1 + s - 1 - Zdigits2 m2))%Z; [apply Z.mul_le_mono_nonneg_r; [apply Z.pow_nonneg; lia|lia]|].
      rewrite <- Z.pow_add_r by lia. replace (Zdigits2 m2 + (Zdigits2 m1 + s - 1 - Zdigits2 m2))%Z with (Zdigits2 m1 - 1 + s)%Z by ring. rewrite Z.pow_add_r by lia. unfold m'. nia. }
    apply Z.le_trans with f; [lia|]. unfold f. rewrite !fexp64_eq. lia.
Qed.

Lemma div_ok x y : valid64 x -> valid64 y -> let z := SF64div x y in
  valid64 z /\
  (is_finite z = true -> is_finite y = true -> is_finite x = true /\ SF2R y <> 0 /\ rounds z (SF2R x / SF2R y)) /\
  (is_finite x = true -> is_finite y = true -> SF2R y <> 0 -> Rabs (SF2R x / SF2R y) <= bp 1023 -> is_finite z = true).
Proof.
  intros Vx Vy. cbv zeta. unfold SF64div.
  assert (Ny : forall s m e, SF2R (S754_finite s m e) <> 0).
  { intros s m e. cbn [SF2R]. pose proof (bp_pos e). assert (0 < IZR (Zpos m)) by (apply IZR_lt; lia). destruct s; cbn [sgnR]; nra. }
  destruct x as [sx|sx| |sx mx ex]; destruct y as [sy|sy| |sy my ey]; cbn [SFdiv is_finite]; try (repeat split; auto; discriminate);
    try (split; [reflexivity|]; split; [discriminate|]; cbn [SF2R]; intros; lra).
  - split; [reflexivity|]. split; [|auto]. intros _ _. split; [auto|]. split; [apply Ny|]. change (SF2R (S754_zero sx)) with 0. unfold Rdiv. rewrite Rmult_0_l. apply rounds_zero.
  - destruct (SFdiv_core_binary prec emax (Zpos mx) ex (Zpos my) ey) as [[q e] l] eqn:E.
    destruct (div_core_ok (Zpos mx) ex (Zpos my) ey q e l ltac:(lia) ltac:(lia) E) as (Hq & I & He).
    set (r := IZR (Zpos mx) * bp ex / (IZR (Zpos my) * bp ey)) in *.
    assert (Er : SF2R (S754_finite sx mx ex) / SF2R (S754_finite sy my ey) = sgnR (xorb sx sy) * r).
    { cbn [SF2R]. unfold r. rewrite xorb_sgn. pose proof (bp_pos ey). assert (0 < IZR (Zpos my)) by (apply IZR_lt; lia). destruct sx, sy; cbn [sgnR]; field; split; lra. }
    assert (Hr : 0 <= r). { destruct (inb_bounds r q e l Hq I). pose proof (bp_pos e). assert (0 <= IZR q) by (apply IZR_le; auto). nra. }
    rewrite Er. split; [apply (round_aux_ok _ r _ _ _ Hq I He)|]. split.
    + intros F _. split; [auto|]. split; [apply Ny|]. apply (round_aux_rounds _ r _ _ _ Hq I He F).
    + intros _ _ _ L. rewrite sgnR_abs, Rabs_right in L by lra. apply (round_aux_finite _ r _ _ _ Hq I He L).
Qed.

(** ** Square root *)

Lemma sqrt_core_ok m e0 q e l : (0 < m)%Z -> SFsqrt_core_binary prec emax m e0 = (q, e, l) ->
  (0 <= q)%Z /\ inb (sqrt (IZR m * bp e0)) q e l /\ (e <= fexp64 (Zdigits2 q + e))%Z.
Proof.
  intros Hm. unfold SFsqrt_core_binary. set (f := fexp64 (Z.div2 (Zdigits2 m + e0 + 1))). set (e' := Z.min f (Z.div2 e0)).
  assert (Hd : (2 * Z.div2 e0 <= e0)%Z) by (rewrite Z.div2_div; pose proof (Z.mul_div_le e0 2 ltac:(lia)); lia).
  assert (Hs : (0 <= e0 - 2 * e')%Z) by lia. rewrite (shiftl_cases m _ Hs). set (s := (e0 - 2 * e')%Z) in *. set (m' := (m * 2 ^ s)%Z).
  assert (P2 : (0 < 2 ^ s)%Z) by (apply Z.pow_pos_nonneg; lia). assert (Hm' : (0 < m')%Z) by (unfold m'; nia).
  pose proof (Z.sqrtrem_spec m' ltac:(lia)) as S. destruct (Z.sqrtrem m') as [q0 r]. destruct S as (Em & Hr).
  intros K. injection K as <- <- <-.
  assert (Hq : (0 <= q0)%Z) by lia. split; auto. split.
  - pose proof (bp_pos e') as Hb'. assert (Ex : sqrt (IZR m * bp e0) = sqrt (IZR m') * bp e').
    { replace (IZR m * bp e0) with (IZR m' * (bp e' * bp e')).
      { rewrite sqrt_mult_alt by (apply IZR_le; lia). rewrite sqrt_square by lra. reflexivity. }
      unfold m'. rewrite mult_IZR, <- (bp_IZR s) by lia. rewrite Rmult_assoc, <- !bp_add. f_equal. f_equal. lia. }
    rewrite Ex. set (w := sqrt (IZR m')). assert (Hw : w * w = IZR q0 * IZR q0 + IZR r) by (unfold w; rewrite sqrt_sqrt by (apply IZR_le; lia); rewrite Em, plus_IZR, mult_IZR; ring).
    assert (Hw0 : 0 <= w) by apply sqrt_pos. assert (Hq' : 0 <= IZR q0) by (apply IZR_le; auto).
    assert (Hr' : 0 <= IZR r <= 2 * IZR q0) by (rewrite <- mult_IZR; split; apply IZR_le; lia).
    assert (B : IZR q0 <= w < IZR q0 + 1) by (split; nra).
    destruct (Zeq_bool r 0) eqn:Er.
    + apply Zeq_bool_eq in Er. subst r. cbn [inb]. f_equal. nra.
    + apply Zeq_bool_neq in Er. assert (1 <= IZR r) by (apply IZR_le; lia). assert (IZR q0 < w) by nra. cbn [inb]. split; [split; nra|].
      destruct (Z.leb r q0) eqn:Lr.
      * apply Z.leb_le in Lr. assert (IZR r <= IZR q0) by (apply IZR_le; auto). assert (w < IZR q0 + / 2) by nra. nra.
      * apply Z.leb_gt in Lr. assert (IZR q0 + 1 <= IZR r) by (rewrite <- plus_IZR; apply IZR_le; lia). assert (IZR q0 + / 2 < w) by nra. nra.
  - assert (Dq : (Z.div2 (Zdigits2 m + e0 + 1) <= Zdigits2 q0 + e')%Z).
    { destruct (Zdigits_pos m Hm) as (A1 & B1). rewrite Z.div2_div. set (h := ((Zdigits2 m - 1 + s) / 2)%Z).
      pose proof (Z.mul_div_le (Zdigits2 m - 1 + s) 2 ltac:(lia)) as H1. fold h in H1. assert (Hh : (0 <= h)%Z) by (apply Z.div_pos; lia).
      assert (L : (2 ^ h <= q0)%Z).
      { assert (2 ^ h * 2 ^ h <= m')%Z.
        { rewrite <- Z.pow_add_r by lia. apply Z.le_trans with (2 ^ (Zdigits2 m - 1 + s))%Z; [apply Z.pow_le_mono_r; lia|]. rewrite Z.pow_add_r by lia. unfold m'. nia. }
        assert (0 < 2 ^ h)%Z by (apply Z.pow_pos_nonneg; lia). nia. }
      pose proof (Zdigits_ge q0 h L Hh) as L2.
      assert (E : ((Zdigits2 m + e0 + 1) / 2 = h + 1 + e')%Z).
      { unfold h, s. rewrite <- (Z.div_add_l (1 + e') 2) || idtac. replace (Zdigits2 m + e0 + 1)%Z with (Zdigits2 m - 1 + (e0 - 2 * e') + (1 + e') * 2)%Z by ring. rewrite Z.div_add by lia. ring. }
      lia. }
    apply Z.le_trans with f; [lia|]. unfold f. rewrite !fexp64_eq. lia.
Qed.

Lemma sqrt_ok x : valid64 x -> let z := SF64sqrt x in
  valid64 z /\
  (is_finite z = true -> is_finite x = true /\ 0 <= SF2R x /\ rounds z (sqrt (SF2R x))) /\
  (is_finite x = true -> 0 <= SF2R x -> is_finite z = true).
Proof.
  intros Vx. cbv zeta. unfold SF64sqrt. destruct x as [sx|sx| |sx mx ex]; cbn [SFsqrt is_finite]; try (destruct sx; repeat split; auto; discriminate); try (repeat split; auto; discriminate).
  - change (SF2R (S754_zero sx)) with 0. rewrite sqrt_0. split; [auto|]. split; [|auto]. intros _. split; [auto|]. split; [lra|]. apply rounds_zero.
  - destruct sx.
    + split; [reflexivity|]. split; [discriminate|]. intros _ H. exfalso. cbn [SF2R sgnR] in H. pose proof (bp_pos ex). assert (0 < IZR (Zpos mx)) by (apply IZR_lt; lia). nra.
    + destruct (SFsqrt_core_binary prec emax (Zpos mx) ex) as [[q e] l] eqn:E.
      destruct (sqrt_core_ok (Zpos mx) ex q e l ltac:(lia) E) as (Hq & I & He).
      assert (Ev : SF2R (S754_finite false mx ex) = IZR (Zpos mx) * bp ex) by (cbn [SF2R sgnR]; ring). rewrite Ev.
      pose proof (bp_pos ex) as Hb. assert (Hm : 0 < IZR (Zpos mx)) by (apply IZR_lt; lia). pose proof (bp_pos 1023) as H1023.
      set (r := sqrt (IZR (Zpos mx) * bp ex)) in *. split; [apply (round_aux_ok _ r _ _ _ Hq I He)|]. split.
      * intros F. split; [auto|]. split; [nra|]. destruct (round_aux_rounds _ r _ _ _ Hq I He F) as (R1 & _). cbn [sgnR] in R1. rewrite Rmult_1_l in R1. exact R1.
      * intros _ _. apply (round_aux_finite _ r _ _ _ Hq I He). unfold r.
        destruct (finite_value (S754_finite false mx ex) Vx eq_refl) as (k & e1 & E1 & B1 & B2). rewrite <- Ev, E1.
        apply Rle_trans with (sqrt (bp 1023 * bp 1023)); [|rewrite sqrt_square by lra; lra]. apply sqrt_le_1_alt.
        assert (bp e1 <= bp 971) by (apply bp_le; lia). pose proof (bp_pos e1). assert (IZR k <= IZR (2 ^ 53)) by (apply IZR_le; lia).
        apply Rle_trans with (IZR (2 ^ 53) * bp 971).
        { assert (0 < IZR (2 ^ 53)) by (apply IZR_lt; lia). nra. }
        rewrite <- bp_IZR, <- !bp_add by lia. apply bp_le. lia.
Qed.

(** ** Comparison *)

Lemma finite_lt m1 e1 m2 e2 : bounded prec emax m1 e1 = true -> bounded prec emax m2 e2 = true -> (e1 < e2)%Z ->
  IZR (Zpos m1) * bp e1 < IZR (Zpos m2) * bp e2.
Proof.
  intros B1 B2 L. apply canonical_iff in B1. apply canonical_iff in B2. destruct B1 as (B1 & _), B2 as (B2 & _). rewrite fexp64_eq in *.
  pose proof (digits_bounds m1) as D1. pose proof (digits_bounds m2) as D2. pose proof (bp_pos e1). pose proof (bp_pos e2).
  apply Rlt_le_trans with (bp (53 + e1)).
  - rewrite bp_add, (bp_IZR 53) by lia. apply Rmult_lt_compat_r; auto. apply IZR_lt. apply Z.lt_le_trans with (2 ^ Zpos (digits2_pos m1))%Z; [lia|]. apply Z.pow_le_mono_r; lia.
  - apply Rle_trans with (bp (52 + e2)); [apply bp_le; lia|]. rewrite bp_add, (bp_IZR 52) by lia. apply Rmult_le_compat_r; [lra|]. apply IZR_le.
    apply Z.le_trans with (2 ^ (Zpos (digits2_pos m2) - 1))%Z; [|lia]. apply Z.pow_le_mono_r; lia.
Qed.

Lemma compare_ok x y : valid64 x -> valid64 y -> is_finite x = true -> is_finite y = true ->
  match SFcompare x y with
  | Some Lt => SF2R x < SF2R y
  | Some Eq => SF2R x = SF2R y
  | Some Gt => SF2R y < SF2R x
  | None => False
  end.
Proof.
  intros Vx Vy Fx Fy.
  assert (P : forall m e, 0 < IZR (Zpos m) * bp e) by (intros m e; pose proof (bp_pos e); assert (0 < IZR (Zpos m)) by (apply IZR_lt; lia); nra).
  destruct x as [sx|sx| |sx mx ex]; destruct y as [sy|sy| |sy my ey]; try discriminate; cbn [SFcompare SF2R].
  - reflexivity.
  - pose proof (P my ey). destruct sy; cbn [sgnR]; lra.
  - pose proof (P mx ex). destruct sx; cbn [sgnR]; lra.
  - pose proof (P mx ex) as Px. pose proof (P my ey) as Py. pose proof (bp_pos ex) as Hbx.
    assert (Lt1 : (ex < ey)%Z -> IZR (Zpos mx) * bp ex < IZR (Zpos my) * bp ey) by (apply finite_lt; auto).
    assert (Lt2 : (ey < ex)%Z -> IZR (Zpos my) * bp ey < IZR (Zpos mx) * bp ex) by (apply finite_lt; auto).
    destruct sx, sy; cbn [sgnR]; try lra.
    + destruct (Z.compare_spec ex ey) as [Ee|Le|Le]; [|specialize (Lt1 Le); lra|specialize (Lt2 Le); lra]. subst ey.
      destruct (Pos.compare_cont Eq mx my) eqn:C; cbn [CompOpp].
      * apply Pos.compare_eq in C. subst. reflexivity.
      * apply (proj1 (Pos.compare_lt_iff mx my)) in C. assert (IZR (Zpos mx) < IZR (Zpos my)) by (apply IZR_lt; lia). nra.
      * apply (proj1 (Pos.compare_gt_iff mx my)) in C. assert (IZR (Zpos my) < IZR (Zpos mx)) by (apply IZR_lt; lia). nra.
    + destruct (Z.compare_spec ex ey) as [Ee|Le|Le]; [|specialize (Lt1 Le); lra|specialize (Lt2 Le); lra]. subst ey.
      destruct (Pos.compare_cont Eq mx my) eqn:C.
      * apply Pos.compare_eq in C. subst. reflexivity.
      * apply (proj1 (Pos.compare_lt_iff mx my)) in C. assert (IZR (Zpos mx) < IZR (Zpos my)) by (apply IZR_lt; lia). nra.
      * apply (proj1 (Pos.compare_gt_iff mx my)) in C. assert (IZR (Zpos my) < IZR (Zpos mx)) by (apply IZR_lt; lia). nra.
Qed.

Lemma leb_ok x y : valid64 x -> valid64 y -> is_finite x = true -> is_finite y = true -> (SFleb x y = true <-> SF2R x <= SF2R y).
Proof. intros Vx Vy Fx Fy. pose proof (compare_ok x y Vx Vy Fx Fy) as H. unfold SFleb. destruct (SFcompare x y) as [[]|]; split; intros; auto; try lra; try discriminate; tauto. Qed.

Lemma ltb_ok x y : valid64 x -> valid64 y -> is_finite x = true -> is_finite y = true -> (SFltb x y = true <-> SF2R x < SF2R y).
Proof. intros Vx Vy Fx Fy. pose proof (compare_ok x y Vx Vy Fx Fy) as H. unfold SFltb. destruct (SFcompare x y) as [[]|]; split; intros; auto; try lra; try discriminate; tauto. Qed.

Lemma eqb_ok x y : valid64 x -> valid64 y -> is_finite x = true -> is_finite y = true -> (SFeqb x y = true <-> SF2R x = SF2R y).
Proof. intros Vx Vy Fx Fy. pose proof (compare_ok x y Vx Vy Fx Fy) as H. unfold SFeqb. destruct (SFcompare x y) as [[]|]; split; intros; auto; try lra; try discriminate; tauto. Qed.
