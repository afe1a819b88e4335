(** * Schottky.py: the circles that the program computes. *)

From Coq Require Import Reals Lra Lia Psatz List Bool ZArith.
From Verif Require Import Base BaseLemmas Spec SpecLemmas SpecMobius SpecTriangle SpecGasket SpecApollonian ModelInternal ModelLine ModelCircle ModelTriangle ModelInversion ModelMobius ModelModular ModelSchottky SpecSchottky
  PLine PCircle PMobius PMobius2 PMobius3 PMobius4 PMobius5 PSteiner PInversion PDisc PModular1 PModular3 PSchottky1 PSchottky2 PSchottky3.
Import ListNotations.
Local Open Scope R_scope.

Lemma same_circle c c' : 0 < cr c -> 0 < cr c' -> (forall w, on_circle (cO c) (cr c) w -> on_circle (cO c') (cr c') w) -> c = c'.
Proof.
  destruct c as [[x y] r], c' as [[x' y'] r']. cbn [cO cr]. intros H H' E.
  assert (K : forall a b, a * a + b * b = r * r -> (x + a - x') * (x + a - x') + (y + b - y') * (y + b - y') = r' * r').
  { intros a b Hab. assert (L : on_circle (x, y) r (x + a, y + b)) by (apply on_circle_sq; [lra|]; unspec; lra). apply E in L. apply on_circle_sq in L; [|lra]. revert L. unspec. intros L. lra. }
  pose proof (K r 0 ltac:(ring)) as K1. pose proof (K (- r) 0 ltac:(ring)) as K2. pose proof (K 0 r ltac:(ring)) as K3. pose proof (K 0 (- r) ltac:(ring)) as K4. clear E K.
  assert (x = x') by (apply (Rmult_eq_reg_r r); [|lra]; nra). assert (y = y') by (apply (Rmult_eq_reg_r r); [|lra]; nra). subst x' y'. assert (r = r') by nra. subst. reflexivity.
Qed.

(** lines *)
Lemma tl_A_scal k M g D0 : tl_A (mscal (RtoC k) M) g D0 = k * k * tl_A M g D0.
Proof. unfold tl_A, mscal, mod2_. cbn [mc md]. destruct (mc M), (md M), g. unC. ring. Qed.

Lemma line_image M l c : mdet M <> C0 -> lA l <> lB l -> 0 < cr c -> sepsilon_ * cr c < sqrt (Cmod2 (mdet M)) ->
  (forall e f, transform M e = Ok f -> (match e with Pt z => on_line (lA l) (lB l) z | Inf => True end <-> exists w, f = Pt w /\ on_circle (cO c) (cr c) w)) ->
  transform_line M l = Ok (GC c).
Proof.
  intros HD HL Hr Hs R. set (A := tl_A M (nrm l) (off2 l)).
  assert (Hc : mc M <> C0). { intros K. apply transform_inf_inf in K; auto. apply R in K. destruct K as (K & _). destruct (K I) as (w & E & _). discriminate E. }
  assert (HA : A <> 0).
  { set (pl := (- md M / mc M)%C). assert (T : transform M (Pt pl) = Ok Inf). { apply transform_pole; auto. unfold pl. cfield. auto. }
    intros K. unfold A in K. rewrite (tl_A_pole M _ _ pl HD T) in K. apply Rmult_integral in K. destruct K as [K|K]; [pose proof (Cmod2_pos _ Hc); lra|]. apply line_eq in K; auto. apply (R _ _ T) in K. destruct K as (w & E & _). discriminate E. }
  assert (P : 0 < Rabs A) by (apply Rabs_pos_lt; auto). set (k := 1 + / Rabs A). assert (Pi : 0 < / Rabs A) by (apply Rinv_0_lt_compat; auto). assert (Hk : 1 < k) by (unfold k; lra).
  assert (Hk0 : RtoC k <> C0) by (apply RtoC_neq; lra). assert (HD' : mdet (mscal (RtoC k) M) <> C0) by (rewrite mscal_det; repeat apply Cmul_neq0; auto).
  assert (EA : tl_A (mscal (RtoC k) M) (nrm l) (off2 l) = k * k * A) by apply tl_A_scal.
  assert (EB : Rabs (k * k * A) = k * k * Rabs A) by (rewrite !Rabs_mult, (Rabs_right k) by lra; reflexivity).
  assert (L : sepsilon_ < Rabs (tl_A (mscal (RtoC k) M) (nrm l) (off2 l))).
  { rewrite EA, EB. assert (k * Rabs A = Rabs A + 1) by (unfold k; field; lra). unfold sepsilon_. nra. }
  pose proof (transform_line_far _ l HD' HL L) as F. destruct (transform_line_GC _ l _ HD' HL F) as (Pc & _ & R'). cbn [cO cr] in *.
  assert (E1 : c = mkCircle (- tl_g (mscal (RtoC k) M) (nrm l) (off2 l) / RtoC (tl_A (mscal (RtoC k) M) (nrm l) (off2 l)))%C (sqrt (Cmod2 (mdet (mscal (RtoC k) M))) / Rabs (tl_A (mscal (RtoC k) M) (nrm l) (off2 l)))).
  { apply same_circle; auto. intros w Hw. cbn [cO cr]. destruct (transform_total (inverse M) (Pt w)) as (e & T); [rewrite mdet_inverse; auto|]. apply transform_inverse in T; auto. assert (T' : transform (mscal (RtoC k) M) e = Ok (Pt w)) by (rewrite transform_scal; auto).
    assert (Q : exists w0, Pt w = Pt w0 /\ on_circle (cO c) (cr c) w0) by eauto. apply (R _ _ T) in Q. apply (R' _ _ T') in Q. destruct Q as (w0 & E & Q). injection E as <-. exact Q. }
  assert (E2 : cr c = sqrt (Cmod2 (mdet M)) / Rabs A).
  { rewrite E1. cbn [cr]. rewrite EA, EB, mscal_det, !Cmod2_mul, Cmod2_RtoC. replace (k * k * (k * k) * Cmod2 (mdet M)) with ((k * k) * (k * k) * Cmod2 (mdet M)) by ring. rewrite sqrt_mult, sqrt_square by (try apply Cmod2_nonneg; nra). field. split; lra. }
  assert (L2 : sepsilon_ < Rabs A). { apply (Rmult_lt_reg_r (cr c)); [auto|]. apply (Rlt_le_trans _ _ _ Hs). rewrite E2. right. field. lra. }
  pose proof (transform_line_far _ l HD HL L2) as F2. destruct (transform_line_GC _ l _ HD HL F2) as (Pc2 & _ & R2). rewrite F2. do 2 f_equal. symmetry. apply same_circle; auto. intros w Hw.
  destruct (transform_total (inverse M) (Pt w)) as (e & T); [rewrite mdet_inverse; auto|]. apply transform_inverse in T; auto.
  assert (Q : exists w0, Pt w = Pt w0 /\ on_circle (cO c) (cr c) w0) by eauto. apply (R _ _ T) in Q. apply (R2 _ _ T) in Q. destruct Q as (w0 & E & Q). injection E as <-. exact Q.
Qed.

Lemma circle_image fuel M c0 c : mdet M <> C0 -> 0 < cr c0 -> 0 < cr c ->
  (forall e f, transform M e = Ok f -> ((exists z, e = Pt z /\ on_circle (cO c0) (cr c0) z) <-> exists w, f = Pt w /\ on_circle (cO c) (cr c) w)) ->
  transform_circle fuel M c0 = Some (Ok (GC c)).
Proof.
  intros HD H0 Hr R. destruct (transform_circle_circle fuel M c0 HD H0) as (c' & F & Pc & R').
  { intros z T K. assert (Q : exists z0, Pt z = Pt z0 /\ on_circle (cO c0) (cr c0) z0) by eauto. apply (R _ _ T) in Q. destruct Q as (w & E & _). discriminate E. }
  rewrite F. do 3 f_equal. symmetry. apply same_circle; auto. intros w Hw. destruct (transform_total (inverse M) (Pt w)) as (e & T); [rewrite mdet_inverse; auto|]. apply transform_inverse in T; auto.
  assert (Q : exists w0, Pt w = Pt w0 /\ on_circle (cO c) (cr c) w0) by eauto. apply (R _ _ T) in Q. apply (R' _ _ T) in Q. destruct Q as (w0 & E & Q). injection E as <-. exact Q.
Qed.

Section Theta.
Variable theta : R.
Hypothesis Hs : 0 < 1 + sin theta.
Hypothesis Hx : rb theta <= fst (ob theta).
Hypothesis Hr : 1 <= rb theta <= 3.
Notation r := (rb theta).
Notation p := (ob theta).
Notation hf := (hform theta).
Notation rcl := (region_cl theta).
Notation G := (gmat theta).

(** the objects of the program *)
Definition gobj (x : letter) : gcircle :=
  match x with La => GL (mkLine (-1, 0) (1, 0) true true) | Lb => GC (mkCircle p r) | LA => GC (mkCircle oA rA) | LB => GC (mkCircle (oB theta) r) end.

Lemma hdisc_on c Q : 0 < cr c -> (hdisc (cO c) (cr c) Q = 0 <-> exists z, Q = Pt z /\ on_circle (cO c) (cr c) z).
Proof using.
  intros H. split.
  - intros E. destruct (ept_cases Q) as [->|(z & ->)]; [rewrite hdisc_inf in E; lra|]. exists z. split; [auto|]. rewrite hdisc_pt in E. apply on_circle_sq; lra.
  - intros (z & -> & Hz). rewrite hdisc_pt. apply on_circle_sq in Hz; lra.
Qed.

Lemma gobj_image fuel M y c : 1 <= Cmod2 (mdet M) -> 0 < cr c <= 3 ->
  (forall P Q, transform M P = Ok Q -> (hf y P = 0 <-> exists w, Q = Pt w /\ on_circle (cO c) (cr c) w)) ->
  transform_gc fuel M (gobj y) = Some (Ok (GC c)).
Proof using Hs.
  clear Hr Hx. intros HD Hc R. assert (HD0 : mdet M <> C0) by (intros K; rewrite K in HD; unfold Cmod2, C0 in HD; cbn in HD; lra).
  pose proof (rb_pos theta Hs) as Pr. pose proof rA_pos as PA. destruct y; cbn [gobj transform_gc hform] in *.
  - f_equal. apply line_image; cbn [lA lB]; auto; [intros K; injection K; lra|lra| |].
    + apply (Rlt_le_trans _ 1); [unfold sepsilon_; lra|]. rewrite <- sqrt_1. apply sqrt_le_1_alt; auto.
    + intros e f T. rewrite <- (R _ _ T). destruct e as [z|]; [rewrite himag_pt|rewrite himag_inf]; [|tauto]. split.
      * intros (t & ->). unspec. lra.
      * intros K. exists ((fst z + 1) / 2). destruct z as [x y]. cbn [fst snd] in *. unspec. f_equal; lra.
  - apply circle_image; cbn [cO cr]; auto; [lra|]. intros e f T. rewrite <- (R _ _ T). symmetry. exact (hdisc_on (mkCircle p r) e Pr).
  - apply circle_image; cbn [cO cr]; auto; [lra|]. intros e f T. rewrite <- (R _ _ T). symmetry. exact (hdisc_on (mkCircle oA rA) e PA).
  - apply circle_image; cbn [cO cr]; auto; [lra|]. intros e f T. rewrite <- (R _ _ T). symmetry. exact (hdisc_on (mkCircle (oB theta) r) e Pr).
Qed.

(** boundary of a region *)
Lemma bd_bound w c Q : bd theta w c -> ((rcl w Q /\ ~ region theta w Q) <-> exists z, Q = Pt z /\ on_circle (cO c) (cr c) z).
Proof using.
  intros (H & B1 & B2). rewrite B1, B2. split.
  - intros ((z & -> & Hz) & N). exists z. split; [auto|]. apply on_circle_sq; [lra|]. unfold cls in Hz. destruct (Rle_lt_or_eq_dec _ _ Hz) as [L|L]; [exfalso; apply N; exists z; split; auto|auto].
  - intros (z & -> & Hz). apply on_circle_sq in Hz; [|lra]. split; [exists z; split; [auto|unfold cls; lra]|]. intros (z' & E & O). injection E as <-. unfold opn in O. lra.
Qed.

Lemma chainM_snoc Ms M P : chainM transform (Ms ++ [M]) P = let! Q := chainM transform Ms P in transform M Q.
Proof using.
  revert P. induction Ms as [|M1 Ms IH]; intros P; cbn [app chainM].
  - cbn [bind]. destruct (transform M P); reflexivity.
  - destruct (transform M1 P); cbn [bind]; [apply IH|reflexivity].
Qed.

(** images by a sequence of letters *)
Lemma chain_region u : forall y P Q, chainM transform (map G u) P = Ok Q -> (region theta (rev u ++ [y]) Q <-> hf y P < 0) /\ (rcl (rev u ++ [y]) Q <-> hf y P <= 0).
Proof using Hs.
  clear Hr Hx. induction u as [|x u IH] using rev_ind; intros y P Q E.
  - cbn in E. injection E as <-. cbn [rev app region region_cl]. rewrite letter_disc_h by auto. tauto.
  - rewrite map_app in E. cbn [map] in E. rewrite chainM_snoc in E. apply bind_Ok in E. destruct E as (P' & E1 & E2). apply gen_map_transform in E2; auto. rewrite rev_app_distr. cbn [rev app]. destruct (IH y P P' E1) as (I1 & I2).
    assert (W : exists z w, rev u ++ [y] = z :: w) by (destruct (rev u); cbn [app]; eauto). destruct W as (z & w & W). rewrite <- I1, <- I2, W, region_cons, region_cl_cons.
    split; split; intros K; try (exists P'; split; assumption); destruct K as (P2 & K & E3); rewrite <- (gen_map_inj theta Hs x _ _ _ E3 E2); exact K.
Qed.

Lemma chain_boundary u y c P Q : bd theta (rev u ++ [y]) c -> chainM transform (map G u) P = Ok Q -> (hf y P = 0 <-> exists w, Q = Pt w /\ on_circle (cO c) (cr c) w).
Proof using Hs.
  clear Hr Hx. intros B E. rewrite <- (bd_bound _ _ Q B). destruct (chain_region u y P Q E) as (-> & ->). split; [intros; lra|intros (K1 & K2)]. lra.
Qed.
(** when the last letter is the inverse of the first one *)
Lemma chain_boundary_inv x u c P Q : bd theta (rev (x :: u)) c -> chainM transform (map G (x :: u)) P = Ok Q -> (hf (linv x) P = 0 <-> exists w, Q = Pt w /\ on_circle (cO c) (cr c) w).
Proof using Hs.
  clear Hr Hx. intros B E. cbn [map chainM] in E. apply bind_Ok in E. destruct E as (P' & E1 & E2). cbn [rev] in B. rewrite <- (chain_boundary u x c P' Q B E2). apply gen_map_transform in E1; auto. destruct (gen_map_h theta Hs x P P' E1) as (k & Hk & E). rewrite E. split; [intros ->; ring|]. intros K. assert (k * hf (linv x) P = 0) by lra. apply Rmult_integral in H. destruct H; [lra|auto].
Qed.

Lemma dets u : Forall (fun M => mdet M <> C0) (map G u).
Proof using Hs. apply Forall_forall. intros M H. apply in_map_iff in H. destruct H as (x & <- & _). apply gmat_det0; auto. Qed.

Lemma det_compose A B : mdet (compose A B true) = (mdet B * mdet A)%C.
Proof using. unfold compose, matmul, mdet. destruct A as [a b c d], B as [a' b' c' d']. cbn. cring. Qed.
Lemma gmat_big x : 1 <= Cmod2 (mdet (G x)).
Proof using Hr. clear - Hr. rewrite gmat_det, Cmod2_RtoC. destruct x; try lra; assert (1 <= r * r) by nra; nra. Qed.
Lemma fold_big u : forall M, 1 <= Cmod2 (mdet M) -> 1 <= Cmod2 (mdet (fold_left (fun acc M => compose acc M true) (map G u) M)).
Proof using Hr.
  induction u as [|x u IH]; intros M H; cbn [map fold_left]; [auto|]. apply IH. rewrite det_compose, Cmod2_mul. pose proof (gmat_big x). clear - H H0. nra.
Qed.

Lemma fold_image fuel x u y c : 0 < cr c <= 3 ->
  (forall P Q, chainM transform (map G (x :: u)) P = Ok Q -> (hf y P = 0 <-> exists w, Q = Pt w /\ on_circle (cO c) (cr c) w)) ->
  transform_gc fuel (fold_left (fun acc M => compose acc M true) (map G u) (G x)) (gobj y) = Some (Ok (GC c)).
Proof using Hs Hr.
  intros Hc H. apply gobj_image; [apply fold_big, gmat_big|auto|]. intros P Q E. apply H. cbn [map chainM]. rewrite <- transform_fold; auto; [apply gmat_det0; auto|apply dets].
Qed.

(** words *)
Lemma reduced_app_l u v : reduced (u ++ v) -> reduced u.
Proof using. induction u as [|x u IH]; [intros; exact I|]. cbn [app]. intros (N & R). split; [|apply IH; auto]. destruct u; [exact I|exact N]. Qed.
Lemma reduced_snoc2 u x y : reduced (u ++ [x]) -> y <> linv x -> reduced (u ++ [x; y]).
Proof using.
  induction u as [|z u IH]; cbn [app]; intros R N; [repeat split; auto|]. destruct R as (N' & R). split; [|apply IH; auto]. destruct u; exact N'.
Qed.
Lemma reduced_rev w : reduced w -> reduced (rev w).
Proof using.
  induction w as [|x w IH]; intros R; [exact I|]. cbn [rev]. destruct w as [|y w]; [repeat split; auto|]. destruct R as (N & R). specialize (IH R). cbn [rev] in *. rewrite <- app_assoc. cbn [app]. apply reduced_snoc2; [exact IH|]. intros K. apply N. rewrite K, linv_linv. reflexivity.
Qed.

Lemma letter_eqb_spec x y : letter_eqb x y = true <-> x = y.
Proof using. destruct x, y; cbn; split; intros; congruence. Qed.

Lemma drawn_snoc x u y : drawn_word (x :: u ++ [y]) = rev (x :: u) ++ (if letter_eqb y (linv x) then [] else [y]).
Proof using. unfold drawn_word. change (x :: u ++ [y]) with ((x :: u) ++ [y]). rewrite removelast_last, last_last. reflexivity. Qed.

Lemma drawn_reduced w : reduced w -> reduced (drawn_word w).
Proof using.
  destruct w as [|x w]; [intros; exact I|]. destruct w as [|y w] using rev_ind; [intros _; cbn; destruct (letter_eqb x (linv x)); repeat split; auto|]. clear IHw. intros R. rewrite drawn_snoc. assert (R1 : reduced (rev (x :: w))) by (apply reduced_rev, (reduced_app_l _ [y]); exact R).
  destruct (letter_eqb y (linv x)) eqn:E; [rewrite app_nil_r; auto|]. cbn [rev] in *. rewrite <- app_assoc. cbn [app]. apply reduced_snoc2; auto. intros K. apply letter_eqb_spec in K. congruence.
Qed.
Lemma drawn_length w : (1 <= length w)%nat -> length (drawn_word w) = length w \/ (length (drawn_word w) = length w - 1)%nat.
Proof using.
  destruct w as [|x w]; cbn [length]; [lia|]. intros _. destruct w as [|y w] using rev_ind; [cbn; destruct (letter_eqb x (linv x)); cbn; auto|]. rewrite drawn_snoc, app_length, rev_length. cbn [length]. rewrite app_length. cbn [length]. destruct (letter_eqb y (linv x)); cbn [length]; [right|left]; lia.
Qed.

(** two letters *)
Lemma two_image fuel x y : y <> linv x -> exists c, transform_gc fuel (G x) (gobj y) = Some (Ok (GC c)) /\ bd theta [x; y] c.
Proof using Hs Hx Hr.
  intros N. assert (R : reduced [x; y]) by (repeat split; auto). destruct (word_disc theta Hs Hx [x; y]) as (c & B); [cbn; lia|auto|]. exists c. split; [|auto]. apply (fold_image fuel x [] y c).
  - split; [apply B|]. pose proof (radius_bound theta Hs Hx [x; y] c ltac:(lra) ltac:(cbn; lia) R B). lra.
  - intros P Q E. apply (chain_boundary [x] y c P Q B E).
Qed.

Lemma word_image fuel s n w : (2 <= n)%nat -> (forall x, Mobs s x = G x) -> (forall x, Circles s x = gobj x) -> length (transfo2seq w) = n -> reduced (transfo2seq w) ->
  (2 <= length (drawn_word (transfo2seq w)))%nat -> exists c, schottky_circle fuel s n w = Some (Ok (GC c)) /\ bd theta (drawn_word (transfo2seq w)) c.
Proof using Hs Hx Hr.
  intros Hn EM EC L R L2. unfold schottky_circle. rewrite EC, (map_ext _ _ EM). set (q := transfo2seq w) in *. clearbody q. clear w. destruct q as [|x q]; [cbn in L; lia|]. destruct q as [|y u] using rev_ind; [cbn in L; lia|]. clear IHu.
  change (x :: u ++ [y]) with ((x :: u) ++ [y]) in L. rewrite app_length in L. cbn [length] in L. replace (n - 1)%nat with (length (map G (x :: u))) by (rewrite map_length; cbn [length]; lia). change (x :: u ++ [y]) with ((x :: u) ++ [y]) at 1 2. rewrite map_app, last_last. rewrite firstn_app, firstn_all, Nat.sub_diag. cbn [firstn]. rewrite app_nil_r. cbn [map reduce].
  destruct (word_disc theta Hs Hx (drawn_word (x :: u ++ [y])) L2 (drawn_reduced _ R)) as (c & B). exists c. split; [|auto]. apply fold_image.
  - split; [apply B|]. pose proof (radius_bound theta Hs Hx _ c ltac:(lra) L2 (drawn_reduced _ R) B). lra.
  - intros P Q E. rewrite drawn_snoc in B. destruct (letter_eqb y (linv x)) eqn:K.
    + apply letter_eqb_spec in K. subst y. rewrite app_nil_r in B. apply (chain_boundary_inv x u); auto.
    + apply (chain_boundary (x :: u) y); auto.
Qed.
End Theta.
