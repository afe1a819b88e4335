(** * Farey sequences and unimodular matrices *)

From Coq Require Import List Bool ZArith Lia Sorting.Sorted Znumtheory.
From Verif Require Import Base ModelFarey.
Import ListNotations.
Local Open Scope Z_scope.

(** ** Sorted lists without repetition *)

Section Sorted.
  Context {A : Type} (cmp : A -> A -> comparison) (D : A -> Prop).
  Hypothesis cmp_eq : forall x y, D x -> D y -> cmp x y = Eq -> x = y.
  Hypothesis cmp_refl : forall x, D x -> cmp x x = Eq.
  Hypothesis cmp_anti : forall x y, D x -> D y -> cmp x y = Gt -> cmp y x = Lt.
  Hypothesis cmp_trans : forall x y z, D x -> D y -> D z -> cmp x y = Lt -> cmp y z = Lt -> cmp x z = Lt.
  Let lt x y := cmp x y = Lt.

  Lemma In_insert x l z : D x -> Forall D l -> (In z (insert cmp x l) <-> z = x \/ In z l).
  Proof.
    intros Hx. induction l as [|y l IH]; intros Hl; cbn [insert].
    - simpl. intuition.
    - inversion Hl as [|? ? Hy Hl']; subst. destruct (cmp x y) eqn:E.
      + apply cmp_eq in E; auto. subst. simpl. intuition.
      + simpl. intuition.
      + cbn [In]. rewrite IH by auto. intuition.
  Qed.

  Lemma insert_D x l : D x -> Forall D l -> Forall D (insert cmp x l).
  Proof. intros Hx Hl. apply Forall_forall. intros z Hz. apply In_insert in Hz; auto. destruct Hz as [->|Hz]; auto. rewrite Forall_forall in Hl. auto. Qed.

  Lemma insert_sorted x l : D x -> Forall D l -> StronglySorted lt l -> StronglySorted lt (insert cmp x l).
  Proof.
    intros Hx. induction l as [|y l IH]; intros Hl Hs; cbn [insert].
    - repeat constructor.
    - inversion Hl as [|? ? Hy Hl']; subst. inversion Hs as [|? ? Hs' Hf]; subst. destruct (cmp x y) eqn:E.
      + auto.
      + constructor; auto. constructor; auto. rewrite Forall_forall in *. intros z Hz. apply (cmp_trans x y z); auto. apply Hf; auto.
      + constructor; auto. rewrite Forall_forall. intros z Hz. apply In_insert in Hz; auto. destruct Hz as [->|Hz]; [apply cmp_anti; auto|].
        rewrite Forall_forall in Hf. apply Hf; auto.
  Qed.

  Lemma sorted_set_spec l : Forall D l -> Forall D (sorted_set cmp l) /\ StronglySorted lt (sorted_set cmp l) /\ forall z, In z (sorted_set cmp l) <-> In z l.
  Proof.
    induction l as [|x l IH]; intros H.
    - repeat split; auto; constructor.
    - inversion H as [|? ? Hx Hl]; subst. destruct (IH Hl) as (H1 & H2 & H3). unfold sorted_set in *. cbn [fold_right].
      split; [apply insert_D; auto|]. split; [apply insert_sorted; auto|]. intros z. rewrite In_insert, H3 by auto. simpl. intuition.
  Qed.

  Lemma sorted_NoDup l : Forall D l -> StronglySorted lt l -> NoDup l.
  Proof.
    intros Hl Hs. induction Hs as [|x l Hs IH Hf]; constructor.
    - intros K. rewrite Forall_forall in Hf. apply Hf in K. inversion Hl; subst. unfold lt in K. rewrite cmp_refl in K by auto. discriminate.
    - apply IH. inversion Hl; auto.
  Qed.

  (** consecutive elements of a sorted list *)
  Lemma consecutive l x y : Forall D l -> StronglySorted lt l ->
    (In (x, y) (combine l (tl l)) <-> In x l /\ In y l /\ lt x y /\ forall z, In z l -> ~ (lt x z /\ lt z y)).
  Proof.
    intros Hl Hs. induction Hs as [|a l Hs IH Hf].
    - simpl. tauto.
    - inversion Hl as [|? ? Ha Hl']; subst. specialize (IH Hl'). rewrite Forall_forall in Hf, Hl'.
      assert (irr : forall u, D u -> ~ lt u u) by (intros u Hu K; unfold lt in K; rewrite cmp_refl in K by auto; discriminate).
      destruct l as [|b l].
      + simpl. split; [tauto|]. intros ([->|[]] & [->|[]] & K & _). exact (irr _ Ha K).
      + cbn [tl combine]. change (In (x, y) ((a, b) :: combine (b :: l) (tl (b :: l))) <-> In x (a :: b :: l) /\ In y (a :: b :: l) /\ lt x y /\ (forall z, In z (a :: b :: l) -> ~ (lt x z /\ lt z y))).
        cbn [In] in IH |- *. rewrite IH. clear IH.
        assert (Hfl : forall z, b = z \/ In z l -> b = z \/ lt b z).
        { intros z [K|K]; auto. right. inversion Hs as [|? ? _ Hb]; subst. rewrite Forall_forall in Hb. auto. }
        assert (Hb : lt a b) by (apply Hf; left; auto).
        split.
        * intros [E|(Hx & Hy & L & N)].
          -- injection E as <- <-. split; [auto|]. split; [auto|]. split; [auto|]. intros z Hz [L1 L2].
             destruct Hz as [->|Hz]; [exact (irr _ Ha L1)|]. destruct (Hfl z Hz) as [->|K]; [apply (irr z); auto; apply Hl'; left; auto|].
             apply (irr b); [apply Hl'; left; auto|]. apply (cmp_trans b z b); auto; apply Hl'; simpl; auto.
          -- split; [auto|]. split; [auto|]. split; [auto|]. intros z [->|Hz] [L1 L2]; [|apply (N z); auto].
             assert (lt z x) by (apply Hf; simpl; auto). apply (irr z Ha). apply (cmp_trans z x z); auto; apply Hl'; simpl; auto.
        * intros (Hx & Hy & L & N). destruct Hx as [->|Hx].
          -- left. f_equal. destruct Hy as [->|Hy]; [exfalso; exact (irr _ Ha L)|]. destruct (Hfl y Hy) as [->|K]; auto. exfalso. apply (N b); auto.
          -- right. destruct Hy as [->|Hy].
             ++ exfalso. assert (lt y x) by (apply Hf; simpl; auto). apply (irr y Ha). apply (cmp_trans y x y); auto; apply Hl'; simpl; auto.
             ++ split; [auto|]. split; [auto|]. split; [auto|]. intros z Hz. apply N. auto.
  Qed.
End Sorted.

(** ** Fractions *)

Lemma In_range a b z : In z (range a b) <-> a <= z < b.
Proof.
  unfold range. rewrite in_map_iff. split.
  - intros (i & <- & Hi). apply in_seq in Hi. lia.
  - intros H. exists (Z.to_nat (z - a)). split; [lia|]. apply in_seq. lia.
Qed.

(** reduced fractions with a positive denominator *)
Definition fr_ok (f : Z * Z) : Prop := 0 <= fst f /\ 0 < snd f /\ Z.gcd (fst f) (snd f) = 1.

Lemma fr_eq a b c d : 0 <= a -> 0 < b -> 0 <= c -> 0 < d -> Z.gcd a b = 1 -> Z.gcd c d = 1 -> a * d = c * b -> a = c /\ b = d.
Proof.
  intros Ha Hb Hc Hd G1 G2 E.
  assert (D1 : (b | d)). { apply (Gauss b a d); [exists c; lia|]. apply Zgcd_1_rel_prime. rewrite Z.gcd_comm. auto. }
  assert (D2 : (d | b)). { apply (Gauss d c b); [exists a; lia|]. apply Zgcd_1_rel_prime. rewrite Z.gcd_comm. auto. }
  assert (b = d) by (apply Z.divide_antisym_nonneg; auto; lia). subst d. split; auto. nia.
Qed.

Lemma frc_eq x y : fr_ok x -> fr_ok y -> fr_compare x y = Eq -> x = y.
Proof.
  destruct x as [a b], y as [c d]. unfold fr_ok, fr_compare. cbn [fst snd]. intros (H1 & H2 & H3) (H4 & H5 & H6) E. apply Z.compare_eq in E.
  destruct (fr_eq a b c d) as [-> ->]; auto.
Qed.

Lemma frc_refl x : fr_ok x -> fr_compare x x = Eq.
Proof. intros _. apply Z.compare_refl. Qed.

Lemma frc_anti x y : fr_ok x -> fr_ok y -> fr_compare x y = Gt -> fr_compare y x = Lt.
Proof. intros _ _. unfold fr_compare. rewrite Z.compare_gt_iff, Z.compare_lt_iff. auto. Qed.

Lemma frc_trans x y z : fr_ok x -> fr_ok y -> fr_ok z -> fr_compare x y = Lt -> fr_compare y z = Lt -> fr_compare x z = Lt.
Proof.
  destruct x as [a b], y as [c d], z as [e f]. unfold fr_ok, fr_compare. cbn [fst snd]. rewrite !Z.compare_lt_iff. intros (H1 & H2 & _) (H3 & H4 & _) (H5 & H6 & _) L1 L2.
  apply (Z.mul_lt_mono_pos_l d); auto. apply Z.le_lt_trans with (f * (c * b) - 0); nia.
Qed.

Lemma Fr_ok m k : 0 <= m -> 0 < k -> fr_ok (Fr m k).
Proof.
  intros Hm Hk. unfold fr_ok, Fr. cbn [fst snd]. assert (Hg : 0 < Z.gcd m k). { pose proof (Z.gcd_nonneg m k). assert (Z.gcd m k <> 0) by (intros E; apply Z.gcd_eq_0_r in E; lia). lia. }
  split; [apply Z.div_pos; lia|]. split.
  - apply Z.div_str_pos. split; auto. apply Z.divide_pos_le; auto. apply Z.gcd_divide_r.
  - apply Z.gcd_div_gcd; lia.
Qed.

Lemma Fr_reduced m k : Z.gcd m k = 1 -> Fr m k = (m, k).
Proof. intros H. unfold Fr. rewrite H, !Z.div_1_r. auto. Qed.

Lemma Fr_le m k : 0 <= m <= k -> 0 < k -> let f := Fr m k in fst f <= snd f /\ snd f <= k /\ (0 < m -> 0 < fst f).
Proof.
  intros Hm Hk. unfold Fr. cbn [fst snd]. assert (Hg : 0 < Z.gcd m k). { pose proof (Z.gcd_nonneg m k). assert (Z.gcd m k <> 0) by (intros E; apply Z.gcd_eq_0_r in E; lia). lia. }
  split; [apply Z.div_le_mono; lia|]. split.
  - apply Z.div_le_upper_bound; auto. nia.
  - intros K. apply Z.div_str_pos. split; auto. apply Z.divide_pos_le; auto. apply Z.gcd_divide_l.
Qed.

Definition frs (n : Z) : list (Z * Z) := flat_map (fun k => map (fun m => Fr m k) (range 1 (k + 1))) (range 1 (n + 1)).

Lemma frs_spec n : Forall fr_ok (frs n) /\ forall a b, In (a, b) (frs n) <-> 1 <= a <= b /\ b <= n /\ Z.gcd a b = 1.
Proof.
  assert (E : forall f, In f (frs n) <-> exists k m, 1 <= m <= k /\ k <= n /\ f = Fr m k).
  { intros f. unfold frs. rewrite in_flat_map. split.
    - intros (k & Hk & Hf). apply in_map_iff in Hf. destruct Hf as (m & <- & Hm). apply In_range in Hk, Hm. exists k, m. split; [lia|]. split; [lia|auto].
    - intros (k & m & H1 & H2 & ->). exists k. split; [apply In_range; lia|]. apply in_map_iff. exists m. split; auto. apply In_range. lia. }
  split.
  - apply Forall_forall. intros f Hf. apply E in Hf. destruct Hf as (k & m & H1 & H2 & ->). apply Fr_ok; lia.
  - intros a b. rewrite E. split.
    + intros (k & m & H1 & H2 & K). pose proof (Fr_ok m k ltac:(lia) ltac:(lia)) as (_ & _ & G). pose proof (Fr_le m k ltac:(lia) ltac:(lia)) as (L1 & L2 & L3). cbv zeta in *. rewrite <- K in *. cbn [fst snd] in *.
      specialize (L3 ltac:(lia)). split; [lia|]. split; [lia|auto].
    + intros (H1 & H2 & G). exists b, a. split; [lia|]. split; [lia|]. rewrite Fr_reduced; auto.
Qed.

(** the Farey sequence of order n: strictly increasing, exactly the reduced fractions in [0, 1] with denominator at most n *)
Lemma farey_spec n : 1 <= n -> Forall fr_ok (farey_ n) /\ StronglySorted (fun x y => fr_compare x y = Lt) (farey_ n) /\
  forall a b, In (a, b) (farey_ n) <-> 0 <= a <= b /\ 1 <= b <= n /\ Z.gcd a b = 1.
Proof.
  intros Hn. destruct (frs_spec n) as [F1 F2].
  destruct (sorted_set_spec fr_compare fr_ok frc_eq frc_anti frc_trans (frs n) F1) as (S1 & S2 & S3).
  unfold farey_. fold (frs n). change (Fr 0 1) with (0, 1).
  assert (I : forall a b, In (a, b) ((0, 1) :: sorted_set fr_compare (frs n)) <-> 0 <= a <= b /\ 1 <= b <= n /\ Z.gcd a b = 1).
  { intros a b. cbn [In]. rewrite S3, F2. split.
    - intros [E|(H1 & H2 & H3)]; [injection E as <- <-; repeat split; try lia; reflexivity|lia].
    - intros (H1 & H2 & H3). destruct (Z.eq_dec a 0) as [->|Ha]; [|right; lia].
      left. cbn [Z.gcd] in H3. rewrite Z.abs_eq in H3 by lia. subst b. reflexivity. }
  split; [|split; auto].
  - constructor; auto. split; [reflexivity|]. split; reflexivity.
  - constructor; auto. apply Forall_forall. intros [a b] Hz. apply S3, F2 in Hz. unfold fr_compare. cbn [fst snd]. apply Z.compare_lt_iff. lia.
Qed.

(** ** Farey neighbours *)

(** a fraction strictly between two neighbours has a large denominator *)
Lemma between_large p q r s u v : 0 < p -> 0 < r -> p * s - r * q = 1 -> q * u < v * p -> v * r < s * u -> p + r <= u.
Proof.
  intros Hp Hr E L1 L2. assert (u = p * (s * u - v * r) + r * (v * p - q * u)).
  { transitivity (u * (p * s - r * q)); [rewrite E; ring|ring]. }
  nia.
Qed.

(** the successor of q / p in the sequence of order n *)
Lemma successor p q n : 0 <= q < p -> p <= n -> Z.gcd q p = 1 ->
  exists u v, n - p < u <= n /\ 0 < u /\ 0 < v <= u /\ p * v - u * q = 1 /\ Z.gcd v u = 1.
Proof.
  intros Hq Hp G. destruct (Z.gcd_bezout p q 1) as (x & y & E). { rewrite Z.gcd_comm. auto. }
  (* x p + y q = 1 : v = x + t q, u = - y + t p *)
  set (t := (n + y) / p). set (u := - y + t * p). set (v := x + t * q).
  assert (Eu : n - p < u <= n). { unfold u, t. pose proof (Z.div_mod (n + y) p ltac:(lia)). pose proof (Z.mod_pos_bound (n + y) p ltac:(lia)). nia. }
  assert (Euv : p * v - u * q = 1) by (unfold u, v; nia).
  exists u, v. split; [auto|]. split; [lia|]. split; [nia|]. split; [auto|].
  apply Zgcd_1_rel_prime. apply bezout_rel_prime. apply (Bezout_intro _ _ _ p (- q)). lia.
Qed.

Lemma neighbours n p q r s : 1 <= n ->
  (In ((q, p), (s, r)) (combine (farey_ n) (tl (farey_ n))) <->
   p * s - r * q = 1 /\ 1 <= p <= n /\ 1 <= r <= n /\ 0 <= q <= p /\ 0 <= s <= r /\ n < p + r).
Proof.
  intros Hn. destruct (farey_spec n Hn) as (F1 & F2 & F3).
  rewrite (consecutive fr_compare fr_ok frc_eq frc_refl frc_trans _ _ _ F1 F2). rewrite !F3.
  unfold fr_compare at 1. cbn [fst snd]. rewrite Z.compare_lt_iff. split.
  - intros ((Q1 & P1 & G1) & (S1 & R1 & G2) & L & N).
    assert (Hqp : q < p) by nia.
    destruct (successor p q n) as (u & v & U1 & U2 & V1 & E & G); auto; try lia.
    assert (Huv : In (v, u) (farey_ n)) by (apply F3; lia).
    assert (L1 : q * u < v * p) by lia.
    assert (L2 : s * u <= v * r).
    { destruct (Z_lt_le_dec (v * r) (s * u)) as [K|K]; auto. exfalso. apply (N (v, u) Huv). unfold fr_compare. cbn [fst snd]. rewrite !Z.compare_lt_iff. auto. }
    destruct (Z.eq_dec (s * u) (v * r)) as [K|K].
    + destruct (fr_eq s r v u) as [-> ->]; auto; try lia.
    + exfalso. assert (p + u <= r) by (apply (between_large p q u v r s); lia). lia.
  - intros (E & P1 & R1 & Q1 & S1 & K).
    assert (G1 : Z.gcd q p = 1) by (apply Zgcd_1_rel_prime, bezout_rel_prime, (Bezout_intro _ _ _ (- r) s); lia).
    assert (G2 : Z.gcd s r = 1) by (apply Zgcd_1_rel_prime, bezout_rel_prime, (Bezout_intro _ _ _ p (- q)); lia).
    split; [lia|]. split; [lia|]. split; [lia|]. intros [v u] Hz. apply F3 in Hz. unfold fr_compare. cbn [fst snd]. rewrite !Z.compare_lt_iff. intros [L1 L2].
    assert (p + r <= u) by (apply (between_large p q r s u v); lia). lia.
Qed.

(** ** Rows and matrices *)

Lemma stack_spec n row : 1 <= n -> (In row (farey_stack_ n) <-> exists p q r s, row = [p; q; r; s] /\
  p * s - r * q = 1 /\ 1 <= p <= n /\ 1 <= r <= n /\ 0 <= q <= p /\ 0 <= s <= r /\ n < p + r).
Proof.
  intros Hn. unfold farey_stack_. set (f := fun f : Z * Z => [snd f; fst f]).
  assert (E : combine (map f (farey_ n)) (tl (map f (farey_ n))) = map (fun p => (f (fst p), f (snd p))) (combine (farey_ n) (tl (farey_ n)))).
  { generalize (farey_ n). intros l. destruct l as [|a l]; auto. cbn [map tl]. revert a. induction l as [|b l IH]; intros a; auto.
    cbn [map combine fst snd]. f_equal. apply IH. }
  rewrite E, map_map, in_map_iff. cbn [fst snd]. split.
  - intros ([[q p] [s r]] & <- & H). apply neighbours in H; auto. exists p, q, r, s. split; [reflexivity|auto].
  - intros (p & q & r & s & -> & H). exists ((q, p), (s, r)). split; [reflexivity|]. apply neighbours; auto.
Qed.

Lemma row_eq u : forall v, row_compare u v = Eq -> u = v.
Proof. induction u as [|x u IH]; intros [|y v]; cbn [row_compare]; try discriminate; auto. destruct (x ?= y) eqn:E; try discriminate. apply Z.compare_eq in E. intros K. f_equal; auto. Qed.

Lemma row_refl u : row_compare u u = Eq.
Proof. induction u as [|x u IH]; cbn [row_compare]; auto. rewrite Z.compare_refl. auto. Qed.

Lemma row_anti u : forall v, row_compare u v = Gt -> row_compare v u = Lt.
Proof.
  induction u as [|x u IH]; intros [|y v]; cbn [row_compare]; try discriminate; auto. rewrite (Z.compare_antisym x y).
  destruct (x ?= y) eqn:E; cbn [CompOpp]; auto; discriminate.
Qed.

Lemma row_trans u : forall v w, row_compare u v = Lt -> row_compare v w = Lt -> row_compare u w = Lt.
Proof.
  induction u as [|x u IH]; intros [|y v] [|z w]; cbn [row_compare]; try discriminate; auto.
  destruct (x ?= y) eqn:E1; try discriminate; destruct (y ?= z) eqn:E2; try discriminate; intros H1 H2.
  - apply Z.compare_eq in E1, E2. subst. rewrite Z.compare_refl. eapply IH; eauto.
  - apply Z.compare_eq in E1. subst. rewrite E2. auto.
  - apply Z.compare_eq in E2. subst. rewrite E1. auto.
  - rewrite Z.compare_lt_iff in E1, E2. assert (K : x < z) by lia. apply Z.compare_lt_iff in K. rewrite K. auto.
Qed.

Lemma rows_spec n row : In row (concat (map farey_stack_ (range 1 (n + 1)))) <-> exists p q r s, row = [p; q; r; s] /\
  p * s - r * q = 1 /\ 1 <= p <= n /\ 1 <= r <= n /\ 0 <= q <= p /\ 0 <= s <= r.
Proof.
  rewrite in_concat. split.
  - intros (l & Hl & Hr). apply in_map_iff in Hl. destruct Hl as (i & <- & Hi). apply In_range in Hi. apply stack_spec in Hr; [|lia].
    destruct Hr as (p & q & r & s & -> & H1 & H2 & H3 & H4 & H5 & H6). exists p, q, r, s. repeat split; auto; lia.
  - intros (p & q & r & s & -> & H1 & H2 & H3 & H4 & H5). exists (farey_stack_ (Z.max p r)). split.
    + apply in_map. apply In_range. lia.
    + apply stack_spec; [lia|]. exists p, q, r, s. repeat split; auto; lia.
Qed.

Lemma mapM_reshape rows : (forall row, In row rows -> exists p q r s, row = [p; q; r; s]) ->
  exists ms, mapM reshapeF rows = Ok ms /\ length ms = length rows /\
    (forall M, In M ms <-> In [m11 M; m21 M; m12 M; m22 M] rows) /\
    map (fun M => [m11 M; m21 M; m12 M; m22 M]) ms = rows.
Proof.
  induction rows as [|row rows IH]; intros H.
  - exists []. simpl. intuition.
  - destruct IH as (ms & E & L & K & K2); [intros; apply H; right; auto|]. destruct (H row) as (p & q & r & s & ->); [left; auto|].
    exists (mkZM p r q s :: ms). cbn [mapM reshapeF bind]. rewrite E. cbn [bind]. split; auto. split; [simpl; auto|]. split; [|cbn [map m11 m12 m21 m22]; f_equal; auto].
    intros M. cbn [In]. rewrite K. split.
    + intros [<-|X]; auto.
    + intros [X|X]; auto. left. injection X as -> -> -> ->. destruct M; reflexivity.
Qed.

Lemma unimodular_spec n : 2 <= n -> exists L, unimodular_matrices n = Ok (mkZM 1 0 0 1 :: L) /\ NoDup (mkZM 1 0 0 1 :: L) /\
  (forall p r q s, In (mkZM p r q s) L <-> p * s - r * q = 1 /\ 1 <= p <= n /\ 1 <= r <= n /\ 0 <= q <= p /\ 0 <= s <= r) /\
  StronglySorted (fun M N => row_compare [m11 M; m21 M; m12 M; m22 M] [m11 N; m21 N; m12 N; m22 N] = Lt) L.
Proof.
  intros Hn. unfold unimodular_matrices. destruct (n <? 1) eqn:E1; [apply Z.ltb_lt in E1; lia|]. destruct (n =? 1) eqn:E2; [apply Z.eqb_eq in E2; lia|].
  set (rows := concat (map farey_stack_ (range 1 (n + 1)))).
  destruct (sorted_set_spec row_compare (fun _ => True) (fun x y _ _ => row_eq x y) (fun x y _ _ => row_anti x y) (fun x y z _ _ _ => row_trans x y z) rows) as (S1 & S2 & S3).
  { apply Forall_forall. auto. }
  destruct (mapM_reshape (sorted_set row_compare rows)) as (ms & E & _ & K & K2).
  { intros row Hr. apply S3, rows_spec in Hr. destruct Hr as (p & q & r & s & -> & _). eauto. }
  exists ms. rewrite E. cbn [bind]. split; auto.
  assert (I : forall p r q s, In (mkZM p r q s) ms <-> p * s - r * q = 1 /\ 1 <= p <= n /\ 1 <= r <= n /\ 0 <= q <= p /\ 0 <= s <= r).
  { intros. rewrite K, S3. unfold rows. rewrite rows_spec. cbn [m11 m12 m21 m22]. split.
    - intros (p' & q' & r' & s' & X & H). injection X as <- <- <- <-. auto.
    - intros H. exists p, q, r, s. auto. }
  split; [|split; auto].
  - constructor.
    + intros X. apply I in X. lia.
    + apply (NoDup_map_inv (fun M => [m11 M; m21 M; m12 M; m22 M])). rewrite K2.
      apply (sorted_NoDup row_compare (fun _ => True) (fun x _ => row_refl x)); auto.
  - clear - S2 K2. rewrite <- K2 in S2. clear K2. induction ms as [|M ms IH]; constructor; cbn [map] in S2; inversion S2 as [|? ? Hs Hf]; subst; auto.
    apply Forall_forall. intros N HN. rewrite Forall_forall in Hf. apply Hf. apply (in_map (fun M => [m11 M; m21 M; m12 M; m22 M])). auto.
Qed.

Lemma unimodular_one : unimodular_matrices 1 = Ok [mkZM 1 0 0 1].
Proof. reflexivity. Qed.

Lemma unimodular_raise n e : unimodular_matrices n = Raise e <-> n < 1 /\ e = ValueError.
Proof.
  split.
  - intros H. destruct (Z_lt_le_dec n 1) as [K|K].
    + unfold unimodular_matrices in H. destruct (n <? 1) eqn:E1; [injection H as <-; auto|apply Z.ltb_ge in E1; lia].
    + exfalso. destruct (Z.eq_dec n 1) as [->|N]; [rewrite unimodular_one in H; discriminate|]. destruct (unimodular_spec n) as (L & E & _); [lia|]. rewrite E in H. discriminate.
  - intros [K ->]. unfold unimodular_matrices. destruct (n <? 1) eqn:E1; auto. apply Z.ltb_ge in E1. lia.
Qed.

Lemma unimodular_missing n ms : unimodular_matrices n = Ok ms -> ~ In (mkZM 1 0 1 1) ms.
Proof.
  intros H K. destruct (Z_lt_le_dec n 2) as [L|L].
  - assert (n = 1 \/ n < 1) as [->|N] by lia.
    + rewrite unimodular_one in H. injection H as <-. destruct K as [K|[]]. discriminate.
    + assert (E : unimodular_matrices n = Raise ValueError) by (apply unimodular_raise; auto). rewrite E in H. discriminate.
  - destruct (unimodular_spec n L) as (L' & E & _ & S & _). rewrite E in H. injection H as <-. destruct K as [K|K]; [discriminate|]. apply S in K. lia.
Qed.

(** all entries are at most n and all determinants are one *)
Lemma unimodular_sound n ms M : unimodular_matrices n = Ok ms -> In M ms ->
  m11 M * m22 M - m12 M * m21 M = 1 /\ 0 <= m11 M <= n /\ 0 <= m12 M <= n /\ 0 <= m21 M <= n /\ 0 <= m22 M <= n.
Proof.
  intros H K. destruct (Z_lt_le_dec n 2) as [L|L].
  - assert (n = 1 \/ n < 1) as [->|N] by lia.
    + rewrite unimodular_one in H. injection H as <-. destruct K as [<-|[]]. cbn [m11 m12 m21 m22]. lia.
    + assert (E : unimodular_matrices n = Raise ValueError) by (apply unimodular_raise; auto). rewrite E in H. discriminate.
  - destruct (unimodular_spec n L) as (L' & E & _ & S & _). rewrite E in H. injection H as <-. destruct K as [<-|K]; [cbn [m11 m12 m21 m22]; lia|].
    destruct M as [p r q s]. apply S in K. cbn [m11 m12 m21 m22]. lia.
Qed.

(** each list extends the previous one *)
Lemma unimodular_mono n n' ms ms' M : 1 <= n <= n' -> unimodular_matrices n = Ok ms -> unimodular_matrices n' = Ok ms' -> In M ms -> In M ms'.
Proof.
  intros Hn H H' K. destruct (Z.eq_dec n 1) as [->|N].
  - rewrite unimodular_one in H. injection H as <-. destruct K as [<-|[]]. destruct (Z.eq_dec n' 1) as [->|N'].
    + rewrite unimodular_one in H'. injection H' as <-. left; auto.
    + destruct (unimodular_spec n') as (L' & E & _); [lia|]. rewrite E in H'. injection H' as <-. left; auto.
  - destruct (unimodular_spec n) as (L & E & _ & S & _); [lia|]. destruct (unimodular_spec n') as (L' & E' & _ & S' & _); [lia|].
    rewrite E in H. rewrite E' in H'. injection H as <-. injection H' as <-. destruct K as [<-|K]; [left; auto|]. right. destruct M as [p r q s]. apply S in K. apply S'. lia.
Qed.

Lemma farey_sequence n : 1 <= n ->
  StronglySorted (fun x y => fst x * snd y < fst y * snd x) (farey_ n) /\
  (forall a b, In (a, b) (farey_ n) <-> 0 <= a <= b /\ 1 <= b <= n /\ Z.gcd a b = 1).
Proof.
  intros Hn. destruct (farey_spec n Hn) as (_ & F2 & F3). split; auto.
Qed.
