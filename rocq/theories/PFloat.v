(** * Binary64 arithmetic (Coq's [SpecFloat]): values, validity, rounding errors *)

From Coq Require Import Reals ZArith Lia Lra Bool SpecFloat.
From Verif Require Import SpecF64.
Local Open Scope R_scope.

Lemma abs_bounds x a : Rabs x <= a -> - a <= x <= a.
Proof. intros H. pose proof (Rle_abs x). pose proof (Rle_abs (- x)). rewrite Rabs_Ropp in H1. lra. Qed.

(** ** Powers of two *)


Lemma bp_pos e : 0 < bp e.
Proof. apply powerRZ_lt. lra. Qed.

Lemma bp_add a b : bp (a + b) = bp a * bp b.
Proof. apply powerRZ_add. lra. Qed.

Lemma bp_succ e : bp (e + 1) = 2 * bp e.
Proof. rewrite bp_add. change (bp 1) with (powerRZ 2 1). rewrite powerRZ_1. ring. Qed.

Lemma bp_0 : bp 0 = 1. Proof. reflexivity. Qed.

Lemma bp_IZR n : (0 <= n)%Z -> bp n = IZR (2 ^ n).
Proof.
  intros H. unfold bp. destruct n as [|p|p]; [reflexivity| |lia].
  cbn [powerRZ]. rewrite pow_IZR, positive_nat_Z. reflexivity.
Qed.

Lemma bp_le a b : (a <= b)%Z -> bp a <= bp b.
Proof.
  intros H. replace b with (a + (b - a))%Z by ring. rewrite bp_add. rewrite (bp_IZR (b - a)) by lia.
  assert (1 <= IZR (2 ^ (b - a))). { apply IZR_le. pose proof (Z.pow_pos_nonneg 2 (b - a) ltac:(lia) ltac:(lia)). lia. }
  pose proof (bp_pos a). nra.
Qed.

Lemma bp_lt a b : (a < b)%Z -> bp a < bp b.
Proof. intros H. apply Rlt_le_trans with (bp (a + 1)); [rewrite bp_succ; pose proof (bp_pos a); lra|apply bp_le; lia]. Qed.

Lemma bp_le_inv a b : bp a <= bp b -> (a <= b)%Z.
Proof. intros H. destruct (Z_le_gt_dec a b); auto. assert (bp b < bp a) by (apply bp_lt; lia). lra. Qed.

Lemma bp_lt_inv a b : bp a < bp b -> (a < b)%Z.
Proof. intros H. destruct (Z_lt_le_dec a b); auto. assert (bp b <= bp a) by (apply bp_le; lia). lra. Qed.

(** ** Digits *)

Lemma digits_bounds p : (2 ^ (Zpos (digits2_pos p) - 1) <= Zpos p < 2 ^ Zpos (digits2_pos p))%Z.
Proof.
  induction p as [p IH|p IH|]; cbn [digits2_pos].
  - rewrite Pos2Z.inj_succ. replace (Z.succ (Zpos (digits2_pos p)) - 1)%Z with (Zpos (digits2_pos p) - 1 + 1)%Z by lia.
    unfold Z.succ. rewrite !Z.pow_add_r by lia. lia.
  - rewrite Pos2Z.inj_succ. replace (Z.succ (Zpos (digits2_pos p)) - 1)%Z with (Zpos (digits2_pos p) - 1 + 1)%Z by lia.
    unfold Z.succ. rewrite !Z.pow_add_r by lia. lia.
  - cbn. lia.
Qed.

Lemma Zdigits_pos m : (0 < m)%Z -> (2 ^ (Zdigits2 m - 1) <= m < 2 ^ Zdigits2 m)%Z /\ (0 < Zdigits2 m)%Z.
Proof. destruct m as [|p|p]; [lia| |lia]. intros _. split; [apply digits_bounds|cbn; lia]. Qed.

Lemma Zdigits_unique m d : (0 < d)%Z -> (2 ^ (d - 1) <= m < 2 ^ d)%Z -> Zdigits2 m = d.
Proof.
  intros Hd H. assert (Hm : (0 < m)%Z). { pose proof (Z.pow_pos_nonneg 2 (d - 1) ltac:(lia) ltac:(lia)). lia. }
  destruct (Zdigits_pos m Hm) as (B & P).
  destruct (Z.lt_trichotomy (Zdigits2 m) d) as [L|[L|L]]; auto; exfalso.
  - assert (2 ^ Zdigits2 m <= 2 ^ (d - 1))%Z by (apply Z.pow_le_mono_r; lia). lia.
  - assert (2 ^ d <= 2 ^ (Zdigits2 m - 1))%Z by (apply Z.pow_le_mono_r; lia). lia.
Qed.

Lemma Zdigits_le m d : (0 <= m < 2 ^ d)%Z -> (0 <= d)%Z -> (Zdigits2 m <= d)%Z.
Proof.
  intros H Hd. destruct (Z.eq_dec m 0) as [->|N]; [cbn; lia|]. destruct (Zdigits_pos m ltac:(lia)) as (B & P).
  destruct (Z_le_gt_dec (Zdigits2 m) d); auto. assert (2 ^ d <= 2 ^ (Zdigits2 m - 1))%Z by (apply Z.pow_le_mono_r; lia). lia.
Qed.

Lemma Zdigits_ge m d : (2 ^ d <= m)%Z -> (0 <= d)%Z -> (d + 1 <= Zdigits2 m)%Z.
Proof.
  intros H Hd. assert (0 < m)%Z by (pose proof (Z.pow_pos_nonneg 2 d ltac:(lia) ltac:(lia)); lia). destruct (Zdigits_pos m ltac:(lia)) as (B & P).
  destruct (Z_le_gt_dec (d + 1) (Zdigits2 m)); auto. assert (2 ^ Zdigits2 m <= 2 ^ d)%Z by (apply Z.pow_le_mono_r; lia). lia.
Qed.

Lemma Zdigits_shift m n : (0 < m)%Z -> (0 <= n)%Z -> Zdigits2 (m * 2 ^ n) = (Zdigits2 m + n)%Z.
Proof.
  intros Hm Hn. destruct (Zdigits_pos m Hm) as (B & P). apply Zdigits_unique; [lia|].
  replace (Zdigits2 m + n - 1)%Z with (Zdigits2 m - 1 + n)%Z by ring. rewrite !Z.pow_add_r by lia.
  pose proof (Z.pow_pos_nonneg 2 n ltac:(lia) ltac:(lia)). nia.
Qed.

Lemma Zdigits_div m n : (0 <= m)%Z -> (0 <= n)%Z -> (n < Zdigits2 m)%Z -> Zdigits2 (m / 2 ^ n) = (Zdigits2 m - n)%Z.
Proof.
  intros Hm Hn Hd. assert (0 < m)%Z by (destruct (Z.eq_dec m 0) as [->|]; [cbn in Hd; lia|lia]). destruct (Zdigits_pos m ltac:(lia)) as (B & P).
  pose proof (Z.pow_pos_nonneg 2 n ltac:(lia) ltac:(lia)) as Pn. apply Zdigits_unique; [lia|]. split.
  - apply Z.div_le_lower_bound; auto. rewrite <- Z.pow_add_r by lia. replace (n + (Zdigits2 m - n - 1))%Z with (Zdigits2 m - 1)%Z by ring. lia.
  - apply Z.div_lt_upper_bound; auto. rewrite <- Z.pow_add_r by lia. replace (n + (Zdigits2 m - n))%Z with (Zdigits2 m)%Z by ring. lia.
Qed.

(** ** Location of a real number between two consecutive multiples of a power of two *)

Definition inb (x : R) (m e : Z) (l : location) : Prop :=
  match l with
  | loc_Exact => x = IZR m * bp e
  | loc_Inexact c => IZR m * bp e < x < (IZR m + 1) * bp e /\
      match c with Lt => x < (IZR m + / 2) * bp e | Eq => x = (IZR m + / 2) * bp e | Gt => (IZR m + / 2) * bp e < x end
  end.

Lemma shr_1_ok x mrs e : (0 <= shr_m mrs)%Z -> inb x (shr_m mrs) e (loc_of_shr_record mrs) ->
  inb x (shr_m (shr_1 mrs)) (e + 1) (loc_of_shr_record (shr_1 mrs)) /\ shr_m (shr_1 mrs) = (shr_m mrs / 2)%Z.
Proof.
  intros Hm H. pose proof (bp_pos e) as Hb. destruct mrs as [m r s]. cbn [shr_m] in *.
  assert (D : m = (2 * (m / 2) + m mod 2)%Z) by (apply Z.div_mod; lia).
  destruct m as [|[p|p|]|p]; try lia.
  - cbn. split; [|reflexivity]. destruct r, s; cbn [orb loc_of_shr_record inb] in *; rewrite ?bp_succ; try lra.
  - assert (E : (Zpos p~1 / 2 = Zpos p)%Z) by (symmetry; apply Z.div_unique with 1%Z; lia). rewrite E.
    cbn [shr_1 shr_m]. split; [|reflexivity].
    assert (V : IZR (Zpos p~1) = 2 * IZR (Zpos p) + 1) by (rewrite (Pos2Z.inj_xI p), plus_IZR, mult_IZR; ring).
    destruct r, s; cbn [orb loc_of_shr_record inb] in *; rewrite ?bp_succ; rewrite V in H; try lra; nra.
  - assert (E : (Zpos p~0 / 2 = Zpos p)%Z) by (symmetry; apply Z.div_unique with 0%Z; lia). rewrite E.
    cbn [shr_1 shr_m]. split; [|reflexivity].
    assert (V : IZR (Zpos p~0) = 2 * IZR (Zpos p)) by (rewrite (Pos2Z.inj_xO p), mult_IZR; ring).
    destruct r, s; cbn [orb loc_of_shr_record inb] in *; rewrite ?bp_succ; rewrite V in H; try lra; nra.
  - cbn [shr_1 shr_m]. split; [|reflexivity]. destruct r, s; cbn [orb loc_of_shr_record inb] in *; rewrite ?bp_succ; try lra.
Qed.

Lemma iter_shr_ok p : forall x mrs e, (0 <= shr_m mrs)%Z -> inb x (shr_m mrs) e (loc_of_shr_record mrs) ->
  inb x (shr_m (iter_pos shr_1 p mrs)) (e + Zpos p) (loc_of_shr_record (iter_pos shr_1 p mrs)) /\
  shr_m (iter_pos shr_1 p mrs) = (shr_m mrs / 2 ^ Zpos p)%Z.
Proof.
  assert (DP : forall m a b, (0 <= a)%Z -> (0 <= b)%Z -> (m / 2 ^ a / 2 ^ b = m / 2 ^ (a + b))%Z).
  { intros m a b Ha Hb. rewrite Z.pow_add_r by lia. apply Z.div_div; [apply Z.pow_nonzero; lia|apply Z.pow_pos_nonneg; lia]. }
  assert (NN : forall m a, (0 <= m)%Z -> (0 <= m / 2 ^ a)%Z \/ (a < 0)%Z).
  { intros m a Hm. destruct (Z_lt_le_dec a 0); auto. left. apply Z.div_pos; auto. apply Z.pow_pos_nonneg; lia. }
  induction p as [p IH|p IH|]; intros x mrs e Hm H; cbn [iter_pos].
  - destruct (shr_1_ok x mrs e Hm H) as (H1 & E1).
    assert (Hm1 : (0 <= shr_m (shr_1 mrs))%Z) by (rewrite E1; apply Z.div_pos; lia).
    destruct (IH x (shr_1 mrs) (e + 1)%Z Hm1 H1) as (H2 & E2).
    assert (Hm2 : (0 <= shr_m (iter_pos shr_1 p (shr_1 mrs)))%Z) by (rewrite E2; apply Z.div_pos; [lia|apply Z.pow_pos_nonneg; lia]).
    destruct (IH x (iter_pos shr_1 p (shr_1 mrs)) (e + 1 + Zpos p)%Z Hm2 H2) as (H3 & E3). split.
    + replace (e + Zpos p~1)%Z with (e + 1 + Zpos p + Zpos p)%Z by lia. exact H3.
    + rewrite E3, E2, E1, DP by lia. replace (shr_m mrs / 2)%Z with (shr_m mrs / 2 ^ 1)%Z by reflexivity. rewrite DP by lia. f_equal. f_equal. lia.
  - destruct (IH x mrs e Hm H) as (H2 & E2).
    assert (Hm2 : (0 <= shr_m (iter_pos shr_1 p mrs))%Z) by (rewrite E2; apply Z.div_pos; [lia|apply Z.pow_pos_nonneg; lia]).
    destruct (IH x (iter_pos shr_1 p mrs) (e + Zpos p)%Z Hm2 H2) as (H3 & E3). split.
    + replace (e + Zpos p~0)%Z with (e + Zpos p + Zpos p)%Z by lia. exact H3.
    + rewrite E3, E2, DP by lia. f_equal. f_equal. lia.
  - destruct (shr_1_ok x mrs e Hm H) as (H1 & E1). split; auto.
Qed.

(** ** Binary64 *)

Notation fexp64 := (fexp prec emax).
Notation emin64 := (-1074)%Z.

Lemma fexp64_eq e : fexp64 e = Z.max (e - 53) (-1074).
Proof. reflexivity. Qed.

Lemma record_of_loc m l : shr_m (shr_record_of_loc m l) = m /\ loc_of_shr_record (shr_record_of_loc m l) = l.
Proof. destruct l as [|[]]; auto. Qed.

Lemma shr_fexp_ok x m e l mrs e' : (0 <= m)%Z -> inb x m e l -> (e <= fexp64 (Zdigits2 m + e))%Z -> shr_fexp prec emax m e l = (mrs, e') ->
  e' = fexp64 (Zdigits2 m + e) /\ inb x (shr_m mrs) e' (loc_of_shr_record mrs) /\ shr_m mrs = (m / 2 ^ (e' - e))%Z.
Proof.
  intros Hm H He. unfold shr_fexp, shr. destruct (record_of_loc m l) as (E1 & E2).
  remember (fexp64 (Zdigits2 m + e)) as f. destruct (f - e)%Z as [|p|p] eqn:Ef.
  - intros K. injection K as <- <-. rewrite E1, E2. replace f with e by lia. repeat split; auto. rewrite Z.sub_diag. cbn. rewrite Z.div_1_r. auto.
  - intros K. injection K as <- <-. destruct (iter_shr_ok p x (shr_record_of_loc m l) e) as (H1 & H2); rewrite ?E1, ?E2; auto.
    repeat split; auto; [lia|]. rewrite H2, E1. f_equal. f_equal. lia.
  - lia.
Qed.

(** shifting by a non-positive amount does nothing *)
Lemma shr_fexp_id m e : (fexp64 (Zdigits2 m + e) <= e)%Z -> shr_fexp prec emax m e loc_Exact = (Build_shr_record m false false, e).
Proof. intros H. unfold shr_fexp, shr. destruct (fexp64 (Zdigits2 m + e) - e)%Z eqn:E; auto; lia. Qed.

Lemma round_ne_ok x m e l : (0 <= m)%Z -> inb x m e l ->
  Rabs (IZR (round_nearest_even m l) * bp e - x) <= / 2 * bp e /\ (m <= round_nearest_even m l <= m + 1)%Z /\
  (l = loc_Exact -> IZR (round_nearest_even m l) * bp e = x).
Proof.
  intros Hm H. pose proof (bp_pos e) as Hb. destruct l as [|[]]; cbn [round_nearest_even inb] in *.
  - subst x. replace (_ - _) with 0 by ring. rewrite Rabs_R0. repeat split; try lia; lra.
  - destruct H as (H1 & H2). destruct (Z.even m); rewrite ?plus_IZR; (repeat split; try lia; try discriminate); apply Rabs_le; nra.
  - destruct H as (H1 & H2). repeat split; try lia; try discriminate. apply Rabs_le; nra.
  - destruct H as (H1 & H2). rewrite plus_IZR. repeat split; try lia; try discriminate. apply Rabs_le; nra.
Qed.

(** ** Values *)




Lemma canonical_iff m e : bounded prec emax m e = true <-> (fexp64 (Zpos (digits2_pos m) + e) = e /\ (e <= 971)%Z).
Proof.
  unfold bounded, canonical_mantissa. rewrite andb_true_iff, <- Zle_is_le_bool. split.
  - intros (A & B). apply Zeq_bool_eq in A. split; auto.
  - intros (A & B). split; auto. apply Zeq_is_eq_bool. auto.
Qed.

(** ** The rounding function of [SpecFloat] rounds to nearest *)

Lemma round_aux_ok s x m e l : (0 <= m)%Z -> inb x m e l -> (e <= fexp64 (Zdigits2 m + e))%Z ->
  let z := binary_round_aux prec emax s m e l in
  let f := fexp64 (Zdigits2 m + e) in
  valid64 z /\ z <> S754_nan /\
  (is_finite z = true -> exists y, SF2R z = sgnR s * y /\ 0 <= y /\ Rabs (y - x) <= / 2 * bp f /\ (forall k, Rabs (y - x) <= Rabs (IZR k * bp f - x)) /\
     (l = loc_Exact -> f = e -> y = x)) /\
  (is_finite z = false -> IZR (2 ^ 53) * bp 971 <= x + / 2 * bp f).
Proof.
  intros Hm H He. cbv zeta. unfold binary_round_aux.
  destruct (shr_fexp prec emax m e l) as [mrs e'] eqn:E1. destruct (shr_fexp_ok x m e l mrs e' Hm H He E1) as (Ee & Hin & Em).
  assert (He' : (0 <= e' - e)%Z) by lia.
  assert (Hm' : (0 <= shr_m mrs)%Z) by (rewrite Em; apply Z.div_pos; auto; apply Z.pow_pos_nonneg; lia).
  destruct (round_ne_ok x (shr_m mrs) e' (loc_of_shr_record mrs) Hm' Hin) as (Herr & Hr & Hex).
  set (m2 := round_nearest_even (shr_m mrs) (loc_of_shr_record mrs)) in *. rewrite <- Ee in *.
  assert (D1 : (shr_m mrs < 2 ^ 53)%Z).
  { rewrite Em. apply Z.div_lt_upper_bound; [apply Z.pow_pos_nonneg; lia|]. rewrite <- Z.pow_add_r by lia.
    destruct (Z.eq_dec m 0) as [->|Nm]; [apply Z.pow_pos_nonneg; lia|].
    destruct (Zdigits_pos m ltac:(lia)) as (B & P). apply Z.lt_le_trans with (2 ^ Zdigits2 m)%Z; [lia|]. apply Z.pow_le_mono_r; [lia|].
    rewrite fexp64_eq in Ee. lia. }
  assert (Cexact : l = loc_Exact -> e' = e -> loc_of_shr_record mrs = loc_Exact).
  { intros -> Eq. unfold shr_fexp, shr in E1. rewrite <- Ee, Eq, Z.sub_diag in E1. injection E1 as <-. reflexivity. }
  assert (Near : forall k, Rabs (IZR m2 * bp e' - x) <= Rabs (IZR k * bp e' - x)).
  { intros k. destruct (Z.eq_dec k m2) as [->|Nk]; [lra|]. pose proof (bp_pos e') as Hb. apply Rle_trans with (/ 2 * bp e'); auto.
    apply abs_bounds in Herr. destruct (Z_lt_le_dec k m2) as [Lk|Lk].
    - assert (IZR k + 1 <= IZR m2) by (rewrite <- plus_IZR; apply IZR_le; lia). rewrite Rabs_left1 by nra. nra.
    - assert (IZR m2 + 1 <= IZR k) by (rewrite <- plus_IZR; apply IZR_le; lia). rewrite Rabs_right by nra. nra. }
  destruct (Z.eq_dec m2 (2 ^ 53)) as [Eq|Nq].
  - (* the mantissa becomes 2^53: renormalised *)
    assert (Dg : Zdigits2 m2 = 54%Z) by (rewrite Eq; reflexivity).
    assert (F2 : fexp64 (Zdigits2 m2 + e') = (e' + 1)%Z) by (rewrite Dg, fexp64_eq; rewrite fexp64_eq in Ee; lia).
    assert (Sh : shr_fexp prec emax m2 e' loc_Exact = (Build_shr_record (2 ^ 52) false false, (e' + 1)%Z)).
    { unfold shr_fexp, shr. rewrite F2. replace (e' + 1 - e')%Z with 1%Z by ring. rewrite Eq. reflexivity. }
    rewrite Sh. cbn [shr_m]. change (2 ^ 52)%Z with 4503599627370496%Z.
    assert (V : IZR m2 * bp e' = IZR 4503599627370496 * bp (e' + 1)) by (rewrite Eq, bp_succ; change (2 ^ 53)%Z with (4503599627370496 * 2)%Z; rewrite mult_IZR; ring).
    change (emax - prec)%Z with 971%Z. destruct (Z.leb (e' + 1) 971) eqn:Lb.
    + apply Z.leb_le in Lb. repeat split; try discriminate.
      * unfold valid64, valid_binary. apply canonical_iff. split; auto. rewrite fexp64_eq. change (Z.pos (digits2_pos 4503599627370496)) with 53%Z. rewrite fexp64_eq in Ee. lia.
      * intros _. exists (IZR m2 * bp e'). split; [cbn [SF2R]; rewrite V; reflexivity|]. split.
        { pose proof (bp_pos e'). assert (0 <= IZR m2) by (apply IZR_le; lia). nra. }
        repeat split; auto.
    + apply Z.leb_gt in Lb. repeat split; try discriminate. intros _.
      apply abs_bounds in Herr. assert (bp 971 <= bp e') by (apply bp_le; lia). pose proof (bp_pos 971).
      rewrite Eq in Herr. assert (0 < IZR (2 ^ 53)) by (apply IZR_lt; lia). nra.
  - assert (B2 : (0 <= m2 < 2 ^ 53)%Z) by lia.
    assert (Dg : (Zdigits2 m2 <= 53)%Z) by (apply Zdigits_le; lia).
    assert (Fl : (fexp64 (Zdigits2 m2 + e') <= e')%Z) by (rewrite fexp64_eq in Ee |- *; lia).
    rewrite (shr_fexp_id m2 e' Fl). cbn [shr_m]. destruct m2 as [|p|p] eqn:Em2; [| |lia].
    + repeat split; try discriminate. intros _. exists 0. cbn [SF2R]. split; [ring|]. split; [lra|]. rewrite Rmult_0_l in *. repeat split; auto.
    + change (emax - prec)%Z with 971%Z. destruct (Z.leb e' 971) eqn:Lb.
      * apply Z.leb_le in Lb. repeat split; try discriminate.
        { unfold valid64, valid_binary. apply canonical_iff. split; auto. change (Z.pos (digits2_pos p)) with (Zdigits2 (Zpos p)).
          rewrite fexp64_eq in *.
          destruct (Z_le_gt_dec (Zdigits2 m + e - 53) (-1074)) as [Sub|Nor]; [lia|].
          assert (Zdigits2 (m / 2 ^ (e' - e)) = 53)%Z. { rewrite Zdigits_div; try lia. }
          rewrite <- Em in H0. assert (0 < shr_m mrs)%Z by (destruct (Z.eq_dec (shr_m mrs) 0) as [Z0|]; [rewrite Z0 in H0; cbn in H0; lia|lia]).
          destruct (Zdigits_pos (shr_m mrs) H1) as (Bd & _). rewrite H0 in Bd.
          assert (53 <= Zdigits2 (Zpos p))%Z by (apply (Zdigits_ge (Zpos p) 52); lia). lia. }
        { intros _. exists (IZR (Zpos p) * bp e'). split; [reflexivity|]. split.
          { pose proof (bp_pos e'). assert (0 <= IZR (Zpos p)) by (apply IZR_le; lia). nra. }
          repeat split; auto. }
      * apply Z.leb_gt in Lb. repeat split; try discriminate. intros _.
        (* digits of p are 53 and the exponent is at least 972 *)
        assert (Sub : (Zdigits2 m + e - 53 = e')%Z) by (rewrite fexp64_eq in Ee; lia).
        assert (Q : Zdigits2 (shr_m mrs) = 53%Z) by (rewrite Em, Zdigits_div; lia).
        assert (0 < shr_m mrs)%Z by (destruct (Z.eq_dec (shr_m mrs) 0) as [Z0|]; [rewrite Z0 in Q; cbn in Q; lia|lia]).
        destruct (Zdigits_pos (shr_m mrs) H0) as (Bd & _). rewrite Q in Bd. change (53 - 1)%Z with 52%Z in Bd.
        apply abs_bounds in Herr. assert (L2 : bp 972 <= bp e') by (apply bp_le; lia). change 972%Z with (971 + 1)%Z in L2. rewrite bp_succ in L2.
        pose proof (bp_pos 971). assert (IZR (2 ^ 52) <= IZR (Zpos p)) by (apply IZR_le; lia).
        assert (E53 : IZR (2 ^ 53) = 2 * IZR (2 ^ 52)) by (rewrite <- mult_IZR; reflexivity). assert (0 < IZR (2 ^ 52)) by (apply IZR_lt; lia). nra.
Qed.

(** ** [rounds z r]: z is a binary64 number nearest to the real number r *)



Lemma sgnR_abs s x : Rabs (sgnR s * x) = Rabs x.
Proof. destruct s; cbn [sgnR]; [replace (-1 * x) with (- x) by ring; apply Rabs_Ropp|f_equal; ring]. Qed.

Lemma sgnR_sq s : sgnR s * sgnR s = 1.
Proof. destruct s; cbn; ring. Qed.

Lemma sgnR_opp s : sgnR (negb s) = - sgnR s.
Proof. destruct s; cbn; ring. Qed.

Lemma inb_bounds x m e l : (0 <= m)%Z -> inb x m e l -> IZR m * bp e <= x < (IZR m + 1) * bp e.
Proof. intros Hm H. pose proof (bp_pos e). destruct l as [|c]; cbn in H; [subst; nra|lra]. Qed.

Lemma inb_digits x m e l : (0 < m)%Z -> inb x m e l -> bp (Zdigits2 m - 1 + e) <= x < bp (Zdigits2 m + e).
Proof.
  intros Hm H. destruct (inb_bounds x m e l ltac:(lia) H) as (B1 & B2). destruct (Zdigits_pos m Hm) as (D & P). pose proof (bp_pos e) as Hb.
  rewrite !bp_add, (bp_IZR (Zdigits2 m - 1)), (bp_IZR (Zdigits2 m)) by lia. assert (IZR (2 ^ (Zdigits2 m - 1)) <= IZR m) by (apply IZR_le; lia).
  assert (IZR m + 1 <= IZR (2 ^ Zdigits2 m)) by (rewrite <- plus_IZR; apply IZR_le; lia). nra.
Qed.

(** the values of the finite numbers *)
Lemma finite_value w : valid64 w -> is_finite w = true -> exists k e, SF2R w = IZR k * bp e /\ (Z.abs k < 2 ^ 53)%Z /\ (-1074 <= e <= 971)%Z.
Proof.
  destruct w as [s|s| |s m e]; cbn [is_finite]; try discriminate; intros V _.
  - exists 0%Z, 0%Z. cbn. repeat split; try lia. ring.
  - apply canonical_iff in V. destruct V as (V & W). rewrite fexp64_eq in V.
    exists (if s then Zneg m else Zpos m), e. assert (D := digits_bounds m).
    assert (Zpos m < 2 ^ 53)%Z. { apply Z.lt_le_trans with (2 ^ Zpos (digits2_pos m))%Z; [lia|]. apply Z.pow_le_mono_r; lia. }
    repeat split; try lia; [|destruct s; lia]. destruct s; cbn [SF2R sgnR]; [|ring]. change (Zneg m) with (- Zpos m)%Z. rewrite opp_IZR. ring.
Qed.

Lemma round_aux_rounds s x m e l : (0 <= m)%Z -> inb x m e l -> (e <= fexp64 (Zdigits2 m + e))%Z ->
  let z := binary_round_aux prec emax s m e l in is_finite z = true -> rounds z (sgnR s * x) /\
   (l = loc_Exact -> (-1074 <= e)%Z -> Rabs (SF2R z - sgnR s * x) <= u64 * x).
Proof.
  intros Hm H He z Hf. destruct (round_aux_ok s x m e l Hm H He) as (V & _ & F & _). fold z in V, F.
  destruct (F Hf) as (y & Ez & Hy & Herr & Near & Hex). clear F.
  set (f := fexp64 (Zdigits2 m + e)) in *. pose proof (fexp64_eq (Zdigits2 m + e)) as Ef. fold f in Ef.
  destruct (inb_bounds x m e l Hm H) as (B1 & B2). pose proof (bp_pos e) as Hb. pose proof (bp_pos f) as Hbf.
  assert (Hm0 : 0 <= IZR m) by (apply IZR_le; auto). assert (Hx : 0 <= x) by nra.
  assert (Eabs : Rabs (SF2R z - sgnR s * x) = Rabs (y - x)) by (rewrite Ez, <- Rmult_minus_distr_l, sgnR_abs; auto).
  assert (Ebp : forall a, / 2 * bp (a + 1) = bp a) by (intros a; rewrite bp_succ; field).
  (* the error when the exponent is not the smallest *)
  assert (Rel : (0 < m)%Z -> f = (Zdigits2 m + e - 53)%Z -> Rabs (y - x) <= u64 * x).
  { intros Pm Eq. destruct (inb_digits x m e l Pm H) as (D1 & D2). apply Rle_trans with (/ 2 * bp f); auto.
    replace f with (-53 + (Zdigits2 m - 1 + e) + 1)%Z by lia. rewrite Ebp, bp_add. apply Rmult_le_compat_l; [apply Rlt_le, bp_pos|auto]. }
  assert (Gen : Rabs (y - x) <= u64 * x + eta64).
  { pose proof (bp_pos (-53)) as U. fold u64 in U. pose proof (bp_pos (-1075)) as T. fold eta64 in T.
    destruct (Z.eq_dec f (-1074)) as [E0|E0].
    - apply Rle_trans with eta64; [|nra]. unfold eta64. rewrite <- Ebp. change (-1075 + 1)%Z with (-1074)%Z. rewrite <- E0. auto.
    - destruct (Z.eq_dec m 0) as [->|Nm]; [cbn in Ef, He; cbn [Zdigits2] in *; lia|]. assert (Rabs (y - x) <= u64 * x) by (apply Rel; lia). lra. }
  split.
  - split; [exact V|]. split; [exact Hf|]. rewrite !Eabs, sgnR_abs, (Rabs_right x) by lra. split; [|split].
    + intros w Vw Fw. assert (Ew : Rabs (SF2R w - sgnR s * x) = Rabs (sgnR s * SF2R w - x)).
      { rewrite <- (sgnR_abs s (SF2R w - sgnR s * x)). f_equal. transitivity (sgnR s * SF2R w - sgnR s * sgnR s * x); [ring|]. rewrite sgnR_sq. ring. }
      rewrite Ew. destruct (finite_value w Vw Fw) as (k & ew & E & Bk & Be).
      set (v := sgnR s * SF2R w). destruct (Rlt_le_dec v 0) as [Lv|Lv].
      { apply Rle_trans with (Rabs (IZR 0 * bp f - x)); [apply Near|]. rewrite Rmult_0_l. replace (0 - x) with (- x) by ring. rewrite Rabs_Ropp, Rabs_right, Rabs_left by lra. lra. }
      destruct (Z_le_gt_dec f ew) as [Lf|Lf].
      { assert (Ev : v = IZR ((if s then -k else k) * 2 ^ (ew - f)) * bp f).
        { unfold v. rewrite E. replace ew with (ew - f + f)%Z at 1 by ring. rewrite bp_add, (bp_IZR (ew - f)), mult_IZR by lia. destruct s; cbn [sgnR]; rewrite ?opp_IZR; ring. }
        rewrite Ev. apply Near. }
      assert (Pm : (0 < m)%Z) by (destruct (Z.eq_dec m 0) as [->|]; [cbn [Zdigits2] in *; lia|lia]).
      destruct (inb_digits x m e l Pm H) as (D1 & D2).
      assert (EL : bp (Zdigits2 m - 1 + e) = IZR (2 ^ 52) * bp f).
      { rewrite <- bp_IZR, <- bp_add by lia. f_equal. lia. }
      assert (Lv' : v <= bp (Zdigits2 m - 1 + e)).
      { apply Rle_trans with (bp (53 + ew)); [|apply bp_le; lia]. unfold v. rewrite E, bp_add, (bp_IZR 53) by lia. pose proof (bp_pos ew).
        assert (- IZR (2 ^ 53) <= IZR k <= IZR (2 ^ 53)) by (rewrite <- opp_IZR; split; apply IZR_le; lia). destruct s; cbn [sgnR]; nra. }
      apply Rle_trans with (Rabs (IZR (2 ^ 52) * bp f - x)); [apply Near|]. rewrite <- EL. rewrite !Rabs_left1 by lra. lra.
    + exact Gen.
    + intros Lx. assert (Pm : (0 < m)%Z).
      { destruct (Z.eq_dec m 0) as [->|]; [|lia]. exfalso. cbn [Zdigits2] in *. assert (bp e <= bp (-1074)) by (apply bp_le; lia).
        assert (bp (-1074) < bp (-1022)) by (apply bp_lt; lia). lra. }
      apply Rel; auto. destruct (inb_digits x m e l Pm H) as (D1 & D2). assert (-1022 < Zdigits2 m + e)%Z by (apply bp_lt_inv; lra). lia.
  - intros El Le. rewrite Eabs. destruct (Z.eq_dec f e) as [E0|E0].
    + rewrite (Hex El E0). replace (x - x) with 0 by ring. rewrite Rabs_R0. pose proof (bp_pos (-53)) as U. fold u64 in U. nra.
    + apply Rel; [|lia]. destruct (Z.eq_dec m 0) as [->|]; [cbn [Zdigits2] in *; lia|lia].
Qed.

(** no overflow below 2^1023 *)
Lemma round_aux_finite s x m e l : (0 <= m)%Z -> inb x m e l -> (e <= fexp64 (Zdigits2 m + e))%Z -> x <= bp 1023 ->
  is_finite (binary_round_aux prec emax s m e l) = true.
Proof.
  intros Hm H He Hx. destruct (round_aux_ok s x m e l Hm H He) as (_ & _ & _ & F).
  destruct (is_finite (binary_round_aux prec emax s m e l)) eqn:E; auto. exfalso. specialize (F eq_refl).
  set (f := fexp64 (Zdigits2 m + e)) in *. pose proof (fexp64_eq (Zdigits2 m + e)) as Ef. fold f in Ef.
  assert (Lf : (f <= 971)%Z).
  { destruct (Z.eq_dec m 0) as [->|Nm]; [cbn [Zdigits2] in *; lia|]. destruct (inb_digits x m e l ltac:(lia) H) as (D1 & D2).
    assert (Zdigits2 m - 1 + e <= 1023)%Z by (apply bp_le_inv; lra). lia. }
  assert (bp f <= bp 971) by (apply bp_le; auto). pose proof (bp_pos 971).
  assert (E1 : bp 1023 = IZR (2 ^ 52) * bp 971) by (rewrite <- bp_IZR, <- bp_add by lia; reflexivity).
  assert (E2 : IZR (2 ^ 53) = 2 * IZR (2 ^ 52)) by (rewrite <- mult_IZR; reflexivity).
  assert (1 <= IZR (2 ^ 52)) by (apply IZR_le; lia). rewrite E1 in Hx. rewrite E2 in F. nra.
Qed.
