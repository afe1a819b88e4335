(** * Sharing and in-place modification: proofs *)

From Coq Require Import Reals List Bool Arith Lia Lra.
From Verif Require Import Base BaseLemmas ModelInternal ModelLine ModelCircle ModelEllipse ModelInversion ModelAffine ModelTransfo ModelHeap Spec SpecLemmas PLine PEllipse PEllipse2.
Import ListNotations.
Local Open Scope R_scope.

Lemma cell_write h l xs l' : cell (write h l xs) l' = if (l' =? l)%nat then xs else cell h l'.
Proof. reflexivity. Qed.

Lemma asarray_cell h a : let (h', l) := asarray h a in cell h' l = values h a.
Proof. destruct a as [l|xs]; cbn; auto. rewrite Nat.eqb_refl. auto. Qed.

(** the arrays that existed before keep their content *)
Lemma asarray_old h a l : (l < next h)%nat -> cell (fst (asarray h a)) l = cell h l.
Proof. destruct a as [l'|xs]; cbn; auto. intros H. destruct (l =? next h)%nat eqn:E; auto. apply Nat.eqb_eq in E. lia. Qed.

Lemma asarray_next h a : (next h <= next (fst (asarray h a)))%nat.
Proof. destruct a; cbn; lia. Qed.

Lemma check_Ok h a : check_point h a = Ok tt <-> exists x y, values h a = [x; y].
Proof.
  unfold check_point. destruct (values h a) as [|x [|y [|z l]]]; cbn; split; try discriminate.
  - intros (x & y & E). discriminate.
  - intros (x' & y & E). discriminate.
  - intros _. eauto.
  - auto.
  - intros (x' & y' & E). discriminate.
Qed.

Lemma check_cases h a : check_point h a = Ok tt \/ check_point h a = Raise ValueError.
Proof. unfold check_point. destruct (_ =? 2)%nat; auto. Qed.

(** ** Circles *)

Lemma Circle_h_eq h center radius h' c : Circle_h h center radius = Ok (h', c) ->
  (exists x y, values h center = [x; y]) /\ 0 < radius /\ h' = fst (asarray h center) /\ c = mkHC (snd (asarray h center)) radius.
Proof.
  unfold Circle_h. destruct (check_cases h center) as [E|E]; rewrite E; cbn [bind]; [|discriminate]. apply check_Ok in E.
  unfold leb. destruct (Rle_dec radius 0); [discriminate|]. destruct (asarray h center) as [h1 l]. intros K. injection K as <- <-. repeat split; auto; lra.
Qed.

Lemma Circle_h_value h center radius h' c : Circle_h h center radius = Ok (h', c) ->
  Circle_init (as_pt (values h center)) radius = Ok (circle_of h' c).
Proof.
  intros H. destruct (Circle_h_eq _ _ _ _ _ H) as (_ & Hr & -> & ->). unfold Circle_init, leb. destruct (Rle_dec radius 0); [lra|].
  f_equal. unfold circle_of. cbn [hcO hcr]. f_equal. pose proof (asarray_cell h center) as E. destruct (asarray h center) as [h1 l]. cbn [fst snd]. rewrite E. auto.
Qed.

Lemma Circle_h_shares h l radius h' c xs : Circle_h h (AFloat l) radius = Ok (h', c) ->
  circle_of (write h' l xs) c = mkCircle (as_pt xs) radius.
Proof. intros H. destruct (Circle_h_eq _ _ _ _ _ H) as (_ & _ & -> & ->). unfold circle_of. cbn. rewrite Nat.eqb_refl. auto. Qed.

Lemma Circle_h_copies h center radius h' c l xs : (l < next h)%nat -> Circle_h h (ASeq center) radius = Ok (h', c) ->
  circle_of (write h' l xs) c = circle_of h' c.
Proof.
  intros Hl H. destruct (Circle_h_eq _ _ _ _ _ H) as (_ & _ & -> & ->). unfold circle_of. cbn. rewrite Nat.eqb_refl.
  destruct (next h =? l)%nat eqn:E; auto. apply Nat.eqb_eq in E. lia.
Qed.

(** ** Lines *)

Lemma Line_h_eq h A B eA eB h' ln : Line_h h A B eA eB = Ok (h', ln) ->
  h' = fst (asarray (fst (asarray h A)) B) /\ ln = mkHL (snd (asarray h A)) (snd (asarray (fst (asarray h A)) B)) eA eB /\
  allclose (as_pt (cell h' (hlA ln))) (as_pt (cell h' (hlB ln))) = false.
Proof.
  unfold Line_h. destruct (check_cases h A) as [E|E]; rewrite E; cbn [bind]; [|discriminate]. destruct (check_cases h B) as [E'|E']; rewrite E'; cbn [bind]; [|discriminate].
  destruct (asarray h A) as [h1 a]. cbn [fst snd]. destruct (asarray h1 B) as [h2 b]. cbn [fst snd]. destruct (allclose _ _) eqn:K; [discriminate|].
  intros X. injection X as <- <-. auto.
Qed.

Lemma Line_h_value h A B eA eB h' ln : (forall l, A = AFloat l -> (l < next h)%nat) -> (forall l, B = AFloat l -> (l < next h)%nat) ->
  Line_h h A B eA eB = Ok (h', ln) ->
  Line_init (as_pt (values h A)) (as_pt (values h B)) eA eB = Ok (line_of h' ln).
Proof.
  intros HA HB H. destruct (Line_h_eq _ _ _ _ _ _ _ H) as (E1 & E2 & K).
  assert (EA : cell h' (hlA ln) = values h A).
  { subst. cbn [hlA]. pose proof (asarray_cell h A) as E. pose proof (asarray_next h A) as N. destruct A as [l|xs]; cbn in *.
    - destruct B as [l'|ys]; cbn; auto. specialize (HA l eq_refl). destruct (l =? next h)%nat eqn:E3; auto. apply Nat.eqb_eq in E3. lia.
    - destruct B as [l'|ys]; cbn; auto. rewrite Nat.eqb_refl. destruct (next h) ; auto. destruct (S n =? S (S n))%nat eqn:E3; auto. apply Nat.eqb_eq in E3. lia. }
  assert (EB : cell h' (hlB ln) = values h B).
  { subst. cbn [hlB]. pose proof (asarray_cell (fst (asarray h A)) B) as E. destruct B as [l'|ys].
    - cbn. specialize (HB l' eq_refl). apply asarray_old; auto.
    - cbn. rewrite Nat.eqb_refl. auto. }
  rewrite EA, EB in K. unfold Line_init. rewrite K. f_equal. unfold line_of. rewrite EA, EB. subst ln. auto.
Qed.

Lemma Line_h_shares h a b eA eB h' ln xs : a <> b -> Line_h h (AFloat a) (AFloat b) eA eB = Ok (h', ln) ->
  line_of (write h' a xs) ln = mkLine (as_pt xs) (as_pt (cell h b)) eA eB /\
  line_of (write h' b xs) ln = mkLine (as_pt (cell h a)) (as_pt xs) eA eB.
Proof.
  intros N H. destruct (Line_h_eq _ _ _ _ _ _ _ H) as (-> & -> & _). unfold line_of. cbn. rewrite !Nat.eqb_refl.
  destruct (b =? a)%nat eqn:E; [apply Nat.eqb_eq in E; congruence|]. destruct (a =? b)%nat eqn:E'; [apply Nat.eqb_eq in E'; congruence|]. auto.
Qed.

(** ** Objects made from objects *)

Lemma on_circle_h_shares h c h' i xs : on_circle_h h c = Ok (h', i) ->
  h' = h /\ inversion_of h' i = inversion_on_circle (circle_of h c) /\
  circle_of (write h' (hcO c) xs) c = mkCircle (as_pt xs) (hcr c) /\
  inversion_of (write h' (hcO c) xs) i = mkInv (as_pt xs) (hcr c ^ 2).
Proof.
  unfold on_circle_h, Inversion_h. destruct (check_cases h (AFloat (hcO c))) as [E|E]; rewrite E; cbn [bind asarray]; [|discriminate].
  intros K. injection K as <- <-. unfold inversion_of, circle_of, inversion_on_circle. cbn. rewrite Nat.eqb_refl. auto.
Qed.

Lemma invert_inf_h_value h i : Pt (as_pt (cell h (invert_inf_h i))) = invert (inversion_of h i) Inf.
Proof. reflexivity. Qed.

Lemma invert_inf_h_shares h i xs : inversion_of (write h (invert_inf_h i) xs) i = mkInv (as_pt xs) (hik i).
Proof. unfold inversion_of. cbn. rewrite Nat.eqb_refl. auto. Qed.

Lemma Reflection_h_shares h l h' l' xs : hlA l <> hlB l -> Reflection_h h l = Ok (h', l') ->
  h' = h /\ line_of (write h' (hlA l) xs) l' = mkLine (as_pt xs) (as_pt (cell h (hlB l))) true true.
Proof.
  intros N H. split; [destruct (Line_h_eq _ _ _ _ _ _ _ H) as (-> & _); reflexivity|]. apply (Line_h_shares _ _ _ _ _ _ _ xs N H).
Qed.

(** ** Ellipse.point_from_angle *)

Lemma point_from_radians_eq e theta (d : bool) : point_from_radians e (if d then theta * (PI / 180) else theta) = ellipse_point_from_angle e theta d.
Proof. destruct d; reflexivity. Qed.

Lemma pfa_points h e theta (d : bool) : snd (point_from_angle_h h e theta d) = squeeze (map (fun x => ellipse_point_from_angle e x d) (values h theta)).
Proof.
  unfold point_from_angle_h. pose proof (asarray_cell h theta) as E. destruct (asarray h theta) as [h1 l]. destruct d; cbn [snd].
  - rewrite cell_write, Nat.eqb_refl, E, map_map. reflexivity.
  - rewrite E. reflexivity.
Qed.

Lemma pfa_writes h e l l' (d : bool) : cell (fst (point_from_angle_h h e (AFloat l) d)) l' =
  if d && (l' =? l)%nat then map (fun x => x * (PI / 180)) (cell h l) else cell h l'.
Proof. destruct d; cbn; auto. Qed.

Lemma pfa_pure h e xs (d : bool) l : (l < next h)%nat -> cell (fst (point_from_angle_h h e (ASeq xs) d)) l = cell h l.
Proof.
  intros H. destruct d; cbn; [|destruct (l =? next h)%nat eqn:E; auto; apply Nat.eqb_eq in E; lia].
  destruct (l =? next h)%nat eqn:E; auto; apply Nat.eqb_eq in E; lia.
Qed.

(** k successive calls with the same array *)
Lemma pfa_calls k h e l : cell (Nat.iter k (fun h => fst (point_from_angle_h h e (AFloat l) true)) h) l = map (fun x => x * (PI / 180) ^ k) (cell h l).
Proof.
  induction k as [|k IH].
  - cbn. rewrite <- (map_id (cell h l)) at 1. apply map_ext. intros x. ring.
  - unfold Nat.iter in *. cbn [nat_rect]. rewrite pfa_writes, Nat.eqb_refl. cbn [andb]. rewrite IH, map_map. apply map_ext. intros x. cbn [pow]. ring.
Qed.

Lemma pfa_second h e l : snd (point_from_angle_h (fst (point_from_angle_h h e (AFloat l) true)) e (AFloat l) true) =
  squeeze (map (fun x => ellipse_point_from_angle e (x * (PI / 180)) true) (cell h l)).
Proof. rewrite pfa_points. cbn [values]. rewrite pfa_writes, Nat.eqb_refl. cbn [andb]. rewrite map_map. reflexivity. Qed.

Lemma Line_h_copies h xs ys eA eB h' ln l zs : (l < next h)%nat -> Line_h h (ASeq xs) (ASeq ys) eA eB = Ok (h', ln) ->
  line_of (write h' l zs) ln = line_of h' ln.
Proof.
  intros Hl H. destruct (Line_h_eq _ _ _ _ _ _ _ H) as (-> & -> & _). unfold line_of. cbn.
  destruct (next h =? l)%nat eqn:E; [apply Nat.eqb_eq in E; lia|].
  destruct l as [|l]; auto. destruct (next h =? l)%nat eqn:E'; auto. apply Nat.eqb_eq in E'; lia.
Qed.

(** the same array given twice is refused; two arrays may become equal afterwards *)
Lemma Line_h_same h l eA eB x y : cell h l = [x; y] -> Line_h h (AFloat l) (AFloat l) eA eB = Raise ValueError.
Proof.
  intros E. unfold Line_h, check_point. cbn [values]. rewrite E. cbn [length Nat.eqb bind asarray]. rewrite E.
  assert (K : allclose (as_pt [x; y]) (as_pt [x; y]) = true).
  { unfold allclose, allclose1, leb. cbn. replace (x - x) with 0 by ring. replace (y - y) with 0 by ring. rewrite Rabs_R0.
    pose proof (Rabs_pos x). pose proof (Rabs_pos y). destruct (Rle_dec _ _); [|lra]. destruct (Rle_dec _ _); [auto|lra]. }
  rewrite K. auto.
Qed.

Lemma Line_h_degenerate h a b eA eB h' ln : a <> b -> Line_h h (AFloat a) (AFloat b) eA eB = Ok (h', ln) ->
  let ln' := line_of (write h' a (cell h' b)) ln in lA ln' = lB ln'.
Proof.
  intros N H. destruct (Line_h_eq _ _ _ _ _ _ _ H) as (-> & -> & _). unfold line_of. cbn. rewrite Nat.eqb_refl.
  destruct (b =? a)%nat eqn:E; [apply Nat.eqb_eq in E; congruence|]. auto.
Qed.

Lemma pfa_twice h e l : 0 < ea e -> 0 < eb e -> cell h l = [90] ->
  snd (point_from_angle_h (fst (point_from_angle_h h e (AFloat l) true)) e (AFloat l) true) <> snd (point_from_angle_h h e (AFloat l) true).
Proof.
  intros Ha Hb E. rewrite pfa_second, pfa_points. cbn [values]. rewrite E. cbn [map]. cbn [squeeze]. intros K. apply (f_equal (fun q => match q with OnePoint p => p | _ => (0, 0) end)) in K. cbv beta iota in K.
  pose proof PI_RGT_0 as Hpi. pose proof PI_4 as Hpi4.
  destruct (point_from_angle_spec e 90 true (PI / 2) 0 Ha Hb) as (_ & k & Hk & Hx & _); [unfold radians, deg; field | lra | lra |].
  destruct (point_from_angle_spec e (90 * (PI / 180)) true (PI / 2 * (PI / 180)) 0 Ha Hb) as (_ & k' & Hk' & Hx' & _); [unfold radians, deg; field | split; nra | nra |].
  rewrite K in Hx'. cbv zeta in Hx, Hx'. rewrite Hx in Hx'.
  replace (radians true 90) with (PI / 2) in Hx' by (unfold radians, deg; field). rewrite cos_PI2 in Hx'.
  assert (L : PI / 2 * (PI / 180) < PI / 2) by nra. assert (L0 : 0 < PI / 2 * (PI / 180)) by nra.
  assert (C : 0 < cos (radians true (90 * (PI / 180)))).
  { replace (radians true (90 * (PI / 180))) with (PI / 2 * (PI / 180)) by (unfold radians, deg; field). apply cos_gt_0; lra. }
  assert (B : ltb PI (PI / 2 * (PI / 180)) = false) by (unfold ltb; destruct (Rlt_dec _ _); auto; lra).
  rewrite B in Hx'. cbn [andb] in Hx'. nra.
Qed.

Lemma pfa_one h e x (d : bool) : snd (point_from_angle_h h e (ASeq [x]) d) = OnePoint (ellipse_point_from_angle e x d).
Proof. rewrite pfa_points. reflexivity. Qed.

Lemma pfa_many h e theta (d : bool) : length (values h theta) <> 1%nat ->
  snd (point_from_angle_h h e theta d) = Points (map (fun x => ellipse_point_from_angle e x d) (values h theta)).
Proof. rewrite pfa_points. destruct (values h theta) as [|x [|y l]]; cbn; congruence. Qed.

Lemma pfa_array_of_one h e theta (d : bool) x : values h theta = [x] ->
  snd (point_from_angle_h h e theta d) = OnePoint (ellipse_point_from_angle e x d).
Proof. intros E. rewrite pfa_points, E. reflexivity. Qed.

Lemma ex_C75 : let h := mkHeap 2 (fun l => if (l =? 0)%nat then [1; 2] else [5; 7]) in
  (exists h' c, Circle_h h (AFloat 0) 3 = Ok (h', c)) /\ (exists h' c, Circle_h h (ASeq [1; 2]) 3 = Ok (h', c)) /\
  (exists h' ln, Line_h h (AFloat 0) (AFloat 1) true true = Ok (h', ln)) /\ (exists h' ln, Line_h h (ASeq [1; 2]) (ASeq [5; 7]) true true = Ok (h', ln)) /\
  (exists h' i, on_circle_h h (mkHC 0 3) = Ok (h', i)) /\ (exists h' l', Reflection_h h (mkHL 0 1 false false) = Ok (h', l')).
Proof.
  assert (K : allclose (as_pt [1; 2]) (as_pt [5; 7]) = false).
  { unfold allclose, allclose1, leb. cbn. destruct (Rle_dec _ _) as [H|]; auto. exfalso. rewrite Rabs_left in H by lra. rewrite Rabs_right in H by lra. lra. }
  intros h. repeat split.
  - unfold Circle_h, leb. cbn. destruct (Rle_dec 3 0); [lra|]. eauto.
  - unfold Circle_h, leb. cbn. destruct (Rle_dec 3 0); [lra|]. eauto.
  - unfold Line_h. cbn -[allclose as_pt]. rewrite K. eauto.
  - unfold Line_h. cbn -[allclose as_pt]. rewrite K. eauto.
  - cbn. eauto.
  - unfold Reflection_h, Line_h. cbn -[allclose as_pt]. rewrite K. eauto.
Qed.

Lemma ex_C76 : let h := mkHeap 1 (fun _ => [90]) in let e := mkEllipse (1, 2) 3 2 30 true in
  cell h 0 = [90] /\ 0 < ea e /\ 0 < eb e /\ (0 < next h)%nat /\ length (values h (ASeq [10; 20])) <> 1%nat.
Proof. cbn. repeat split; auto; try lra; lia. Qed.

(** ** Reflections *)

Lemma reflection_h_cases h l p h' q : (p < next h)%nat -> (hlA l < next h)%nat -> (hlB l < next h)%nat ->
  reflection_transform_h h l (AFloat p) = Ok (h', q) ->
  let P := as_pt (cell h p) in
  (h' = h /\ q = p /\ line_includes (line_of h l) P false true = Ok true) \/
  (q = next h /\ next h' = S (next h) /\ (forall i, (i < next h)%nat -> cell h' i = cell h i) /\ line_includes (line_of h l) P false true = Ok false).
Proof.
  intros Hp HA HB. unfold reflection_transform_h. destruct (check_cases h (AFloat p)) as [E|E]; rewrite E; cbn [bind asarray]; [|discriminate].
  destruct (line_includes (line_of h l) (as_pt (cell h p)) false true) as [[]|] eqn:F; cbn [bind]; [| |discriminate].
  - intros K. injection K as <- <-. left. auto.
  - destruct (reflection_transform_pt _ _) as [Q|]; cbn [bind]; [|discriminate]. unfold alloc. intros K. injection K as <- <-. right. repeat split; auto.
    intros i Hi. cbn. destruct (i =? next h)%nat eqn:X; auto. apply Nat.eqb_eq in X. lia.
Qed.

Lemma reflection_h_value h l p h' q : reflection_transform_h h l (AFloat p) = Ok (h', q) ->
  reflection_transform_pt (line_of h l) (as_pt (cell h p)) = Ok (as_pt (cell h' q)).
Proof.
  unfold reflection_transform_h. destruct (check_cases h (AFloat p)) as [E|E]; rewrite E; cbn [bind asarray]; [|discriminate].
  destruct (line_includes (line_of h l) (as_pt (cell h p)) false true) as [[]|] eqn:F; cbn [bind]; [| |discriminate].
  - intros K. injection K as <- <-. unfold reflection_transform_pt. rewrite F. reflexivity.
  - destruct (reflection_transform_pt _ _) as [Q|]; cbn [bind]; [|discriminate]. unfold alloc. intros K. injection K as <- <-. cbn. rewrite Nat.eqb_refl. destruct Q. reflexivity.
Qed.

Lemma reflection_h_on_line h l p x y : lA (line_of h l) <> lB (line_of h l) -> cell h p = [x; y] ->
  on_line (lA (line_of h l)) (lB (line_of h l)) (x, y) -> reflection_transform_h h l (AFloat p) = Ok (h, p).
Proof.
  intros N E H. unfold reflection_transform_h, check_point. cbn [values asarray]. rewrite E. cbn [length Nat.eqb bind].
  assert (F : line_includes (line_of h l) (as_pt [x; y]) false true = Ok true).
  { unfold line_includes. change (as_pt [x; y]) with (x, y). rewrite (collinear_on_line _ _ _ N H). reflexivity. }
  rewrite F. reflexivity.
Qed.

Lemma reflect_circle_h_shares h l c x y : lA (line_of h l) <> lB (line_of h l) -> cell h (hcO c) = [x; y] -> 0 < hcr c ->
  on_line (lA (line_of h l)) (lB (line_of h l)) (x, y) -> reflect_circle_h h l c = Ok (h, c).
Proof.
  intros N E Hr H. unfold reflect_circle_h. rewrite (reflection_h_on_line h l (hcO c) x y N E H). cbn [bind].
  unfold Circle_h, check_point. cbn [values]. rewrite E. cbn [length Nat.eqb bind]. unfold leb. destruct (Rle_dec (hcr c) 0); [lra|]. destruct c; reflexivity.
Qed.

Lemma reflection_h_line h a b eA eB h' ln p x y : a <> b -> Line_h h (AFloat a) (AFloat b) eA eB = Ok (h', ln) -> cell h p = [x; y] ->
  on_line (as_pt (cell h a)) (as_pt (cell h b)) (x, y) -> reflection_transform_h h' ln (AFloat p) = Ok (h', p).
Proof.
  intros N H E L. destruct (Line_h_eq _ _ _ _ _ _ _ H) as (-> & -> & K). cbn in K. cbn [asarray fst snd]. apply (reflection_h_on_line _ _ _ x y); auto.
  unfold line_of. cbn. intros X. rewrite X in K. rewrite allclose_refl in K. discriminate.
Qed.

Lemma ex_C75_reflection : let h := mkHeap 3 (fun l => match l with 0%nat => [1; 2] | 1%nat => [5; 7] | _ => [9; 12] end) in let l := mkHL 0 1 true true in
  lA (line_of h l) <> lB (line_of h l) /\ cell h 2 = [9; 12] /\ on_line (lA (line_of h l)) (lB (line_of h l)) (9, 12).
Proof.
  cbn. repeat split; try lra.
  - intros K. injection K. intros. lra.
  - exists 2. unfold as_pt, at_line, vadd, vscal, vsub; cbn. f_equal; ring.
Qed.
