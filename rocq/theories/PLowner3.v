(** * The search returns the smallest ellipse, where [np.float] exists. *)

From Coq Require Import Reals Lra Lia Psatz List Bool Permutation PeanoNat.
From Verif Require Import Base BaseLemmas Spec SpecLemmas SpecBoundary4 SpecLowner ModelInternal ModelLine ModelCircle ModelAffine ModelEllipse ModelBoundary4 ModelLowner
  PEllipse PEllipse4 PEllipse5 PEllipse6 PBoundary4b PBoundary4d PBoundary4e PLowner1 PLowner2.
Import ListNotations.
Local Open Scope R_scope.

Section Search.
Variable npfloat : bool.
Variable argsort : list R -> list nat.
Variable roots : R -> R -> R -> R -> list R.
Variable eigh : mat2 -> eigh_res.
Variable eigvals : mat2 -> R * R.
Variable ch : list bool -> nat.

Notation lj := (lowner_full npfloat argsort roots eigh eigvals ch).
Notation stop := (lj_stop npfloat argsort roots eigh eigvals).

(** one step *)
Lemma lj_step n path ip bp : length ip = S n -> (length bp < 5)%nat -> exists p ip', Permutation ip (p :: ip') /\ length ip' = n /\
  lj (S n) path ip bp = let! r := lj n (true :: path) ip' bp in
    match r with Some e => if ellipse_contains e p then Ok (Some e) else lj n (false :: path) ip' (bp ++ [p]) | None => lj n (false :: path) ip' (bp ++ [p]) end.
Proof.
  intros Hi Hb. cbn [lowner_full]. replace (5 <=? length bp)%nat with false by (symmetry; apply Nat.leb_gt; lia).
  set (i := Nat.modulo (ch path) (length ip)). assert (Hii : (i < length ip)%nat) by (apply Nat.mod_upper_bound; lia).
  pose proof (delete_nth_perm (0, 0) ip i Hii) as HP. pose proof (delete_nth_length ip i Hii) as HL.
  exists (nth i ip (0, 0)), (delete_nth i ip). split; [auto|]. split; [lia|]. reflexivity.
Qed.

Lemma lj_full n path ip bp : (5 <= length bp)%nat -> lj n path ip bp = stop bp.
Proof. intros H. destruct n; [reflexivity|]. cbn [lowner_full]. replace (5 <=? length bp)%nat with true by (symmetry; apply Nat.leb_le; lia). reflexivity. Qed.

Ltac stopcases bp Hb := destruct bp as [|? [|? [|? [|? [|? [|? ?]]]]]]; cbn [length] in Hb; try lia.

Lemma stop_count bp r : (length bp <= 5)%nat -> stop bp = Ok r -> (r = None <-> (length bp <= 2)%nat).
Proof.
  intros Hb H. stopcases bp Hb; cbn [lj_stop length] in *;
  try (injection H as <-; split; [lia|auto]);
  match type of H with bind ?e _ = _ => destruct e; cbn [bind] in H; [injection H as <-; split; [discriminate|lia]|discriminate] end.
Qed.

(** None: fewer than three points *)
Lemma lj_count n : forall path ip bp r, length ip = n -> (length bp <= 5)%nat -> lj n path ip bp = Ok r -> (r = None <-> (length ip + length bp <= 2)%nat).
Proof.
  induction n as [|n IH]; intros path ip bp r Hi Hb H.
  - rewrite Hi. cbn [plus]. apply stop_count; auto.
  - destruct (Nat.eq_dec (length bp) 5) as [E5|N5].
    + rewrite lj_full in H by lia. rewrite (stop_count bp r Hb H). lia.
    + destruct (lj_step n path ip bp Hi ltac:(lia)) as (p & ip' & HP & HL & E). rewrite E in H. clear E.
      assert (second : lj n (false :: path) ip' (bp ++ [p]) = Ok r -> (r = None <-> (length ip + length bp <= 2)%nat)).
      { intros K. apply IH in K; [|auto|rewrite app_length; cbn [length]; lia]. rewrite K, app_length. cbn [length]. lia. }
      destruct (lj n (true :: path) ip' bp) as [[e|]|x] eqn:E1; cbn [bind] in H; [|auto|discriminate].
      destruct (ellipse_contains e p); [|auto]. injection H as <-. apply IH in E1; [|auto|lia]. split; [discriminate|]. intros K. apply E1. lia.
Qed.

(** three points in all *)
Lemma lj_three n : forall path ip bp e, length ip = n -> (length ip + length bp = 3)%nat -> lj n path ip bp = Ok (Some e) ->
  exists P1 P2 P3, Permutation (ip ++ bp) [P1; P2; P3] /\ from_boundary3 eigh P1 P2 P3 = Ok e.
Proof.
  induction n as [|n IH]; intros path ip bp e Hi Hs H.
  - destruct ip; [|discriminate]. cbn [length plus app] in *. destruct bp as [|P1 [|P2 [|P3 [|]]]]; cbn [length] in Hs; try lia.
    exists P1, P2, P3. split; [auto|]. cbn [lowner_full lj_stop] in H. destruct (from_boundary3 eigh P1 P2 P3); cbn [bind] in H; [congruence|discriminate].
  - destruct (lj_step n path ip bp Hi ltac:(lia)) as (p & ip' & HP & HL & E). rewrite E in H. clear E.
    destruct (lj n (true :: path) ip' bp) as [r|x] eqn:E1; cbn [bind] in H; [|discriminate].
    pose proof (lj_count n (true :: path) ip' bp r HL ltac:(lia) E1) as K. assert (r = None) by (apply K; lia). subst r.
    destruct (IH (false :: path) ip' (bp ++ [p]) e HL ltac:(rewrite app_length; cbn [length]; lia) H) as (P1 & P2 & P3 & Q & F). exists P1, P2, P3. split; [|auto].
    eapply perm_trans; [|exact Q]. rewrite app_assoc. eapply perm_trans; [|apply Permutation_cons_append]. apply (Permutation_app_tail bp HP).
Qed.

(** three boundary points *)
Lemma lj_base3 n : forall path ip P1 P2 P3 r, length ip = n -> lj n path ip [P1; P2; P3] = Ok r -> exists e, from_boundary3 eigh P1 P2 P3 = Ok e.
Proof.
  induction n as [|n IH]; intros path ip P1 P2 P3 r Hi H.
  - cbn [lowner_full lj_stop] in H. destruct (from_boundary3 eigh P1 P2 P3); cbn [bind] in H; [eauto|discriminate].
  - destruct (lj_step n path ip [P1; P2; P3] Hi ltac:(cbn; lia)) as (p & ip' & HP & HL & E). rewrite E in H. clear E.
    destruct (lj n (true :: path) ip' [P1; P2; P3]) as [r1|x] eqn:E1; cbn [bind] in H; [|discriminate]. eapply IH; eauto.
Qed.

(** two different points *)
Lemma lj_two n : (forall S, is_eigh S (eigh S)) -> forall path ip bp e, length ip = n -> (length bp <= 5)%nat -> ((4 <= length bp)%nat -> NoDup bp) ->
  lj n path ip bp = Ok (Some e) -> exists M N, M <> N /\ In M (ip ++ bp) /\ In N (ip ++ bp).
Proof.
  intros HE. assert (three : forall P1 P2 P3 e, from_boundary3 eigh P1 P2 P3 = Ok e -> P1 <> P2).
  { intros P1 P2 P3 e H. destruct (from_boundary3_on eigh P1 P2 P3 e HE H) as (K & _). intros ->. apply K. unfold br, scross, vsub; cbn [fst snd]. ring. }
  assert (nd : forall P1 P2 (l : list pt), NoDup (P1 :: P2 :: l) -> P1 <> P2) by (intros P1 P2 l H ->; inversion_clear H as [|? ? K _]; apply K; left; auto).
  assert (many : forall ip bp : list pt, (4 <= length bp)%nat -> NoDup bp -> exists M N, M <> N /\ In M (ip ++ bp) /\ In N (ip ++ bp)).
  { intros ip bp Hb H. destruct bp as [|P1 [|P2 l]]; cbn [length] in Hb; try lia. exists P1, P2. split; [eapply nd; eauto|]. split; apply in_or_app; right; cbn; auto. }
  induction n as [|n IH]; intros path ip bp e Hi Hb ND H.
  - destruct (le_lt_dec 4 (length bp)) as [K|K]; [auto|]. destruct ip; [|discriminate]. cbn [app]. cbn [lowner_full] in H.
    destruct bp as [|P1 [|P2 [|P3 [|]]]]; cbn [length] in K; try lia; try discriminate. exists P1, P2. cbn [In]. split; [|auto]. cbn [lj_stop] in H.
    destruct (from_boundary3 eigh P1 P2 P3) eqn:E; cbn [bind] in H; [|discriminate]. eapply three; eauto.
  - destruct (le_lt_dec 4 (length bp)) as [K|K]; [auto|].
    destruct (lj_step n path ip bp Hi ltac:(lia)) as (p & ip' & HP & HL & E). rewrite E in H. clear E.
    destruct (lj n (true :: path) ip' bp) as [[e1|]|x] eqn:E1; cbn [bind] in H; [| |discriminate].
    + destruct (IH (true :: path) ip' bp e1 HL Hb ND E1) as (M & N & HMN & I1 & I2). exists M, N. split; [auto|].
      assert (S : forall X, In X (ip' ++ bp) -> In X (ip ++ bp)). { intros X IX. apply in_app_or in IX. apply in_or_app. destruct IX; [left|right]; auto. apply (Permutation_in _ (Permutation_sym HP)). right. auto. }
      split; auto.
    + pose proof (lj_count n (true :: path) ip' bp None HL Hb E1) as C1. assert (C : (length ip' + length bp <= 2)%nat) by (apply C1; auto).
      pose proof (lj_count n (false :: path) ip' (bp ++ [p]) (Some e) HL ltac:(rewrite app_length; cbn [length]; lia) H) as C2. rewrite app_length in C2. cbn [length] in C2.
      assert (C3 : (length ip' + length (bp ++ [p]) = 3)%nat). { rewrite app_length. cbn [length]. destruct (Nat.le_gt_cases (length ip' + (length bp + 1)) 2) as [Q|Q]; [apply C2 in Q; discriminate|lia]. }
      destruct (lj_three n (false :: path) ip' (bp ++ [p]) e HL C3 H) as (P1 & P2 & P3 & Q & F). exists P1, P2. split; [eapply three; eauto|].
      assert (S : forall X, In X (ip' ++ bp ++ [p]) -> In X (ip ++ bp)).
      { intros X IX. rewrite !in_app_iff in IX. rewrite in_app_iff. destruct IX as [IX|[IX|[IX|[]]]]; [left|right; auto|left]; apply (Permutation_in _ (Permutation_sym HP)); [right; auto|left; auto]. }
      split; apply S; apply (Permutation_in _ (Permutation_sym Q)); cbn; auto.
Qed.
End Search.

(** ** ellipses containing [ip] and passing through [bp] *)
Definition feas (O : pt) (a b th : R) (ip bp : list pt) : Prop :=
  0 < a /\ 0 < b /\ Forall (in_ellipse O a b th) ip /\ Forall (on_ellipse O a b th) bp.
Definition best (e : ellipse) (ip bp : list pt) : Prop :=
  0 < eb e <= ea e /\ Forall (in_ellipse (eO e) (ea e) (eb e) (ell_th e)) ip /\ Forall (on_ellipse (eO e) (ea e) (eb e) (ell_th e)) bp /\
  forall O a b th, feas O a b th ip bp -> ea e * eb e <= a * b.

Lemma on_in O a b th M : on_ellipse O a b th M -> in_ellipse O a b th M.
Proof. unfold on_ellipse, in_ellipse. lra. Qed.
Lemma feas_perm O a b th ip ip' bp : Permutation ip ip' -> feas O a b th ip bp -> feas O a b th ip' bp.
Proof. intros HP (H1 & H2 & H3 & H4). repeat split; auto. eapply Permutation_Forall; eauto. Qed.

(** a point outside the smallest ellipse of the others: an ellipse with this point on it, not larger *)
Lemma slide O1 a1 b1 th1 e p ip bp : best e ip bp -> ~ in_ellipse (eO e) (ea e) (eb e) (ell_th e) p -> (exists M N, M <> N /\ In M (ip ++ bp) /\ In N (ip ++ bp)) ->
  feas O1 a1 b1 th1 (p :: ip) bp -> exists O a b th, feas O a b th ip (bp ++ [p]) /\ a * b <= a1 * b1.
Proof.
  intros (Hax & Hin & Hon & Hm) Hp (M & N & HMN & IM & IN) (Ha & Hb & Hi & Ho). inversion_clear Hi as [|? ? Hp1 Hi1].
  set (f1 := ell_form O1 a1 b1 th1). set (f2 := ell_form (eO e) (ea e) (eb e) (ell_th e)).
  assert (V1 : f1 p <= 1) by exact Hp1. assert (V2 : 1 < f2 p) by (unfold in_ellipse in Hp; fold f2 in Hp; lra).
  set (t := (1 - f1 p) / (f2 p - f1 p)). assert (Pd : 0 < f2 p - f1 p) by lra.
  assert (Ht : 0 <= t < 1). { split; [apply Rmult_le_pos; [lra|left; apply Rinv_0_lt_compat; auto]|]. unfold t. apply Rmult_lt_reg_r with (f2 p - f1 p); [auto|]. unfold Rdiv. rewrite Rmult_assoc, Rinv_l by lra. lra. }
  assert (Et : (1 - t) * f1 p + t * f2 p = 1) by (unfold t; field; lra).
  assert (F12 : forall X, In X (ip ++ bp) -> (1 - t) * f1 X + t * f2 X <= 1).
  { intros X IX. apply in_app_or in IX. assert (f1 X <= 1 /\ f2 X <= 1) as [L1 L2].
    { destruct IX as [IX|IX]; (split; [|]).
      - rewrite Forall_forall in Hi1. apply (Hi1 X IX).
      - rewrite Forall_forall in Hin. apply (Hin X IX).
      - rewrite Forall_forall in Ho. apply on_in, (Ho X IX).
      - rewrite Forall_forall in Hon. apply on_in, (Hon X IX). }
    assert ((1 - t) * f1 X <= (1 - t) * 1) by (apply Rmult_le_compat_l; lra). assert (t * f2 X <= t * 1) by (apply Rmult_le_compat_l; lra). lra. }
  destruct (pencil O1 a1 b1 th1 (eO e) (ea e) (eb e) (ell_th e) t M N Ha Hb ltac:(lra) ltac:(lra) ltac:(lra) HMN (F12 M IM) (F12 N IN)) as (O & a & b & th & k & Pa & Pb & Pk & HF & HA & _).
  fold f1 f2 in HF. assert (L1 : ea e * eb e <= a1 * b1) by (apply (Hm O1 a1 b1 th1); repeat split; auto).
  exists O, a, b, th. split; [|apply HA; lra]. split; [auto|]. split; [auto|]. split.
  - apply Forall_forall. intros X IX. unfold in_ellipse. pose proof (F12 X (in_or_app _ _ _ (or_introl IX))). pose proof (HF X). apply Rmult_le_reg_l with k; lra.
  - apply Forall_app. split.
    + apply Forall_forall. intros X IX. unfold on_ellipse. rewrite Forall_forall in Ho, Hon. pose proof (Ho X IX) as G1. pose proof (Hon X IX) as G2. unfold on_ellipse in G1, G2. fold f1 in G1. fold f2 in G2.
      pose proof (HF X) as G. cbv beta in G. rewrite G1, G2 in G. apply Rmult_eq_reg_l with k; lra.
    + constructor; [|constructor]. unfold on_ellipse. pose proof (HF p) as G. cbv beta in G. rewrite Et in G. apply Rmult_eq_reg_l with k; lra.
Qed.

(** equal forms: equal areas *)
Lemma form_area O a b th O' a' b' th' : 0 < a -> 0 < b -> 0 < a' -> 0 < b' -> (forall M, ell_form O a b th M = ell_form O' a' b' th' M) -> a * b = a' * b'.
Proof.
  intros Ha Hb Ha' Hb' H. destruct (ell_quad O a b th Ha Hb) as (A & B & C & P & D & F). destruct (ell_quad O' a' b' th' Ha' Hb') as (A' & B' & C' & P' & D' & F').
  assert (G : forall x y, qf A B C x y = qf A' B' C' x y).
  { intros x y. pose proof (H (x, y)) as G1. pose proof (H (- x, - y)) as G2. pose proof (H (0, 0)) as G3. rewrite F, F' in G1. rewrite F, F' in G2. rewrite F, F' in G3. cbn [fst snd] in *. unfold qf. lra. }
  pose proof (G 1 0) as G1. pose proof (G 0 1) as G2. pose proof (G 1 1) as G3. unfold qf in *. assert (A = A') by lra. assert (C = C') by lra. assert (B = B') by lra. subst A' B' C'.
  set (s := a * b) in *. set (s' := a' * b') in *. assert (0 < s) by (apply Rmult_lt_0_compat; auto). assert (0 < s') by (apply Rmult_lt_0_compat; auto).
  assert (E : (A * C - B * B) * ((s - s') * (s + s')) = 0) by (transitivity ((A * C - B * B) * (s * s) - (A * C - B * B) * (s' * s')); [ring|lra]).
  destruct (Rmult_integral _ _ E) as [Z|Z]; [rewrite Z in D; lra|]. destruct (Rmult_integral _ _ Z); lra.
Qed.

Lemma through_five_incl l l' O a b th : incl l l' -> through_five l O a b th -> through_five l' O a b th.
Proof. intros HI (Ha & Hb & q & H1 & H2 & H3 & H4). split; [auto|]. split; [auto|]. exists q. split; [auto|]. split; [auto|]. split; [|auto]. intros x Hx. apply HI, H3, Hx. Qed.
