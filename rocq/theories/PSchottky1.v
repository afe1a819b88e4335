(** * Schottky.py: the words. *)

From Coq Require Import Lia List Bool ZArith Permutation.
From Verif Require Import Base ModelSchottky SpecSchottky.
Import ListNotations.

Definition enc (x : letter) : symb * Z := match x with La => (Sa, 1%Z) | LA => (Sa, (-1)%Z) | Lb => (Sb, 1%Z) | LB => (Sb, (-1)%Z) end.
Definition enc1 (x : letter) : fword := [enc x].
Definition letters : list letter := [La; LA; Lb; LB].

Lemma letter_dec (x y : letter) : {x = y} + {x <> y}.
Proof. decide equality. Defined.
Lemma linv_linv x : linv (linv x) = x.
Proof. destruct x; reflexivity. Qed.
Lemma symb_eqb_spec x y : symb_eqb x y = true <-> x = y.
Proof. destruct x, y; cbn; split; congruence. Qed.
Lemma fword_eqb_spec u : forall v, fword_eqb u v = true <-> u = v.
Proof.
  induction u as [|(x, i) u IH]; intros [|(y, j) v]; cbn; try (split; congruence).
  rewrite !andb_true_iff, symb_eqb_spec, Z.eqb_eq, IH. split; [intros ((-> & ->) & ->); auto|intros E; injection E; auto].
Qed.

(** ** normal words *)
Fixpoint normal (u : fword) : Prop :=
  match u with
  | [] => True
  | (x, i) :: u' => i <> 0%Z /\ match u' with (y, _) :: _ => x <> y | [] => True end /\ normal u'
  end.

Lemma normal_snoc u x i : normal (u ++ [(x, i)]) <-> i <> 0%Z /\ normal u /\ match rev u with (y, _) :: _ => x <> y | [] => True end.
Proof.
  induction u as [|(y, j) u IH]; [cbn; tauto|]. cbn [app normal rev]. rewrite IH. destruct u as [|(z, k) u].
  - cbn. intuition congruence.
  - cbn [app rev]. destruct (rev u ++ [(z, k)]) as [|(t, m) l] eqn:E; [destruct (rev u); discriminate|]. cbn [app]. tauto.
Qed.

Lemma seq_app u v : transfo2seq (u ++ v) = transfo2seq u ++ transfo2seq v.
Proof. apply flat_map_app. Qed.
Lemma seq_length u : Z.of_nat (length (transfo2seq u)) = total u.
Proof.
  induction u as [|(x, i) u IH]; [reflexivity|]. unfold transfo2seq, total in *. cbn [flat_map map fold_right fst snd]. rewrite app_length, repeat_length, Nat2Z.inj_add, IH, Z2Nat.id by apply Z.abs_nonneg. reflexivity.
Qed.

Lemma fmul_snoc u x i y j : fmul (u ++ [(x, i)]) [(y, j)] = if symb_eqb x y then if Z.eqb (i + j) 0 then u else u ++ [(x, (i + j)%Z)] else u ++ [(x, i); (y, j)].
Proof.
  unfold fmul. rewrite rev_app_distr. cbn [rev app zero_mul_simp]. destruct (symb_eqb x y); [destruct (Z.eqb (i + j) 0)|]; cbn [rev]; rewrite ?rev_involutive, <- ?app_assoc; reflexivity.
Qed.
Lemma fmul_nil y j : fmul [] [(y, j)] = [(y, j)].
Proof. reflexivity. Qed.

Lemma seq_one x : transfo2seq (enc1 x) = [x].
Proof. destruct x; reflexivity. Qed.
Lemma repeat_snoc {A} (a : A) k : repeat a (S k) = repeat a k ++ [a].
Proof. induction k; [reflexivity|]. cbn [repeat app] in *. rewrite IHk at 1. reflexivity. Qed.

(** one more letter *)
Lemma fmul_letter u x : normal u -> normal (fmul u (enc1 x)) /\
  ((exists s, transfo2seq u = s ++ [linv x] /\ transfo2seq (fmul u (enc1 x)) = s) \/
   ((forall s, transfo2seq u <> s ++ [linv x]) /\ transfo2seq (fmul u (enc1 x)) = transfo2seq u ++ [x])).
Proof.
  intros Hu. destruct (rev u) as [|(y, i) l] eqn:E.
  - assert (u = []) by (rewrite <- (rev_involutive u), E; reflexivity). subst u. unfold enc1. destruct (enc x) as (z, j) eqn:Ez. rewrite fmul_nil. rewrite <- Ez. split.
    + rewrite Ez. cbn. destruct x; injection Ez as <- <-; repeat split; lia.
    + right. split; [intros [|] X; discriminate|]. apply seq_one.
  - assert (Eu : u = rev l ++ [(y, i)]) by (rewrite <- (rev_involutive u), E; reflexivity). subst u. set (v := rev l) in *. clearbody v. clear E l.
    apply normal_snoc in Hu. destruct Hu as (Hi & Hv & Hl). unfold enc1. destruct (enc x) as (z, j) eqn:Ez. rewrite fmul_snoc.
    assert (Hj : j = 1%Z \/ j = (-1)%Z) by (destruct x; injection Ez as <- <-; auto).
    assert (Kx : key z j = x) by (destruct x; injection Ez as <- <-; reflexivity).
    assert (Kl : key z (- j) = linv x) by (destruct x; injection Ez as <- <-; reflexivity).
    assert (Sx : transfo2seq [(z, j)] = [x]) by (rewrite <- Ez; apply seq_one).
    assert (Lst : forall k, transfo2seq (v ++ [(y, i)]) <> k ++ [key y (- i)]).
    { intros k X. rewrite seq_app in X. cbn in X. rewrite app_nil_r in X. replace (Z.to_nat (Z.abs i)) with (S (Z.to_nat (Z.abs i) - 1)) in X by lia. rewrite repeat_snoc, app_assoc in X. apply app_inj_tail in X. destruct X as (_ & X).
      unfold key in X. destruct y; destruct (Z.ltb_spec i 0), (Z.ltb_spec (- i) 0); try discriminate; lia. }
    assert (Sgn : forall a b, (0 < a * b)%Z -> key y a = key y b) by (intros a b Q; unfold key; destruct (Z.ltb_spec a 0), (Z.ltb_spec b 0); auto; exfalso; nia).
    destruct (symb_eqb y z) eqn:Eyz.
    + apply symb_eqb_spec in Eyz. subst z. destruct (Z.eqb_spec (i + j) 0) as [Q|Q].
      * split; [exact Hv|]. left. exists (transfo2seq v). split; [|reflexivity]. rewrite seq_app. f_equal. cbn. rewrite app_nil_r. replace (Z.to_nat (Z.abs i)) with 1%nat by lia. cbn. f_equal. rewrite <- Kl. f_equal. lia.
      * split; [apply normal_snoc; auto|]. destruct (Z.ltb_spec (i * j) 0) as [Sg|Sg].
        -- left. exists (transfo2seq (v ++ [(y, (i + j)%Z)])). split; [|reflexivity]. rewrite !seq_app, <- app_assoc. f_equal. cbn. rewrite !app_nil_r, <- Kl, (Sgn (i + j)%Z i), (Sgn (- j)%Z i) by nia. rewrite <- repeat_snoc. f_equal. nia.
        -- right. split; [intros s X; apply (Lst s); rewrite X; do 2 f_equal; rewrite <- Kl; apply Sgn; nia|]. rewrite !seq_app, <- app_assoc. f_equal. cbn. rewrite !app_nil_r, <- Kx, (Sgn (i + j)%Z i), (Sgn j i) by nia. rewrite <- repeat_snoc. f_equal. nia.
    + assert (Hyz : y <> z) by (intros X; rewrite (proj2 (symb_eqb_spec y z) X) in Eyz; discriminate). change (v ++ [(y, i); (z, j)]) with (v ++ [(y, i)] ++ [(z, j)]). rewrite app_assoc. split.
      * apply normal_snoc. split; [lia|]. split; [apply normal_snoc; auto|]. rewrite rev_app_distr. cbn. congruence.
      * right. split; [|rewrite (seq_app _ [(z, j)]), Sx; reflexivity]. intros s X. rewrite seq_app in X. cbn in X. rewrite app_nil_r in X. replace (Z.to_nat (Z.abs i)) with (S (Z.to_nat (Z.abs i) - 1)) in X by lia. rewrite repeat_snoc, app_assoc in X. apply app_inj_tail in X. destruct X as (_ & X).
        rewrite <- Kl in X. unfold key in X. destruct y, z; try congruence; destruct (Z.ltb_spec i 0), (Z.ltb_spec (- j) 0); discriminate.
Qed.

Lemma reduced_snoc s x : reduced (s ++ [x]) <-> reduced s /\ forall t, s <> t ++ [linv x].
Proof.
  induction s as [|y s IH].
  - cbn. split; [intros _; split; [auto|intros [|] X; discriminate]|auto].
  - cbn [app reduced]. rewrite IH. destruct s as [|z s].
    + cbn. split.
      * intros (Q & _). split; [auto|]. intros t X. destruct t as [|t0 [|]]; try discriminate. injection X as X. apply Q. rewrite X, linv_linv. reflexivity.
      * intros (_ & Q). split; [intros X; apply (Q []); rewrite X, linv_linv; reflexivity|]. split; [auto|intros [|] X; discriminate].
    + cbn [app]. split.
      * intros (Q1 & Q2 & Q3). split; [auto|]. intros t X. destruct t as [|t0 t]; [discriminate|]. injection X as _ X. exact (Q3 t X).
      * intros ((Q1 & Q2) & Q3). split; [auto|]. split; [auto|]. intros t X. apply (Q3 (y :: t)). rewrite X. reflexivity.
Qed.

(** the whole product *)
Lemma fold_words w : forall u, normal u -> reduced (transfo2seq u) -> let v := fold_left fmul (map enc1 w) u in
  normal v /\ (length (transfo2seq v) <= length (transfo2seq u) + length w)%nat /\
  (length (transfo2seq v) = (length (transfo2seq u) + length w)%nat -> transfo2seq v = transfo2seq u ++ w /\ reduced (transfo2seq u ++ w)) /\
  (reduced (transfo2seq u ++ w) -> transfo2seq v = transfo2seq u ++ w).
Proof.
  induction w as [|x w IH]; intros u Hu Hr; cbn [map fold_left length].
  - rewrite app_nil_r, Nat.add_0_r. repeat split; auto.
  - destruct (fmul_letter u x Hu) as (Hn & [(s & E1 & E2)|(E1 & E2)]).
    + assert (Rs : reduced (transfo2seq (fmul u (enc1 x)))) by (rewrite E2; rewrite E1 in Hr; apply reduced_snoc in Hr; tauto).
      destruct (IH _ Hn Rs) as (I1 & I2 & I3 & I4). rewrite E2 in I2. rewrite E1, app_length in *. cbn [length] in *. split; [auto|]. split; [lia|]. split; [intros X; exfalso; lia|].
      intros R. exfalso. change (x :: w) with ([x] ++ w) in R. rewrite app_assoc in R. assert (R' : reduced ((s ++ [linv x]) ++ [x])). { clear - R. remember ((s ++ [linv x]) ++ [x]) as l. clear Heql. induction l as [|y l IH]; [cbn; auto|]. cbn [app reduced] in *. destruct R as (R1 & R2). split; [destruct l; auto|auto]. }
      apply reduced_snoc in R'. destruct R' as (_ & R'). exact (R' s eq_refl).
    + assert (Rs : reduced (transfo2seq (fmul u (enc1 x)))) by (rewrite E2; apply reduced_snoc; auto).
      destruct (IH _ Hn Rs) as (I1 & I2 & I3 & I4). rewrite E2 in *. rewrite app_length in *. cbn [length] in *. rewrite <- app_assoc in *. cbn [app] in *. split; [auto|]. split; [lia|]. split; [intros X; apply I3; lia|auto].
Qed.

Lemma multiply_word w : w <> [] -> exists v, multiply (map enc1 w) = Ok v /\ (total v = Z.of_nat (length w) <-> reduced w) /\ (reduced w -> transfo2seq v = w).
Proof.
  intros Hw. destruct w as [|x w]; [congruence|]. cbn [map]. unfold multiply. cbn [reduce]. eexists. split; [reflexivity|].
  assert (N1 : normal (enc1 x)) by (destruct x; cbn; repeat split; discriminate). assert (S1 : transfo2seq (enc1 x) = [x]) by apply seq_one.
  destruct (fold_words w (enc1 x) N1) as (_ & L & A & B); [rewrite S1; cbn; auto|]. rewrite S1 in *. cbn [app length] in *. split.
  - rewrite <- seq_length. split; [intros X; apply A; lia|]. intros R. rewrite (B R). reflexivity.
  - exact B.
Qed.

(** ** unique_with *)
Lemma filter_le {A} (g : A -> bool) l : (length (filter g l) <= length l)%nat.
Proof. induction l as [|x l IH]; cbn; [lia|]. destruct (g x); cbn; lia. Qed.
Section Unique.
Context {A : Type} (f : A -> A -> bool) (Hf : forall x y, f x y = true <-> x = y).

Lemma delete_spec L i : NoDup (firstn i L) -> (forall x, In x (firstn i L) -> ~ In x (skipn i L)) ->
  let L' := delete_after f L i in NoDup (firstn (S i) L') /\ (forall x, In x (firstn (S i) L') -> ~ In x (skipn (S i) L')) /\ (forall x, In x L' <-> In x L) /\ (length L' <= length L)%nat.
Proof using Hf.
  intros H1 H2 L'. unfold L', delete_after. destruct (nth_error L i) as [x|] eqn:E.
  - assert (Hl : (i < length L)%nat) by (apply nth_error_Some; congruence). destruct (nth_error_split L i E) as (p & q & -> & Hp). subst i.
    assert (Fp : firstn (length p) (p ++ x :: q) = p) by (rewrite firstn_app, Nat.sub_diag, firstn_all; cbn; apply app_nil_r). assert (Sp : skipn (length p) (p ++ x :: q) = x :: q) by (rewrite skipn_app, Nat.sub_diag, skipn_all; reflexivity). rewrite Fp in H1, H2. rewrite Sp in H2.
    replace (p ++ x :: q) with ((p ++ [x]) ++ q) by (rewrite <- app_assoc; reflexivity). assert (Ls : S (length p) = length (p ++ [x])) by (rewrite app_length; cbn; lia). rewrite Ls.
    assert (F : forall m, firstn (length (p ++ [x])) ((p ++ [x]) ++ m) = p ++ [x]) by (intros m; rewrite firstn_app, Nat.sub_diag, firstn_all; cbn; apply app_nil_r). assert (K : forall m, skipn (length (p ++ [x])) ((p ++ [x]) ++ m) = m) by (intros m; rewrite skipn_app, Nat.sub_diag, skipn_all; reflexivity). rewrite !F, !K.
    assert (N : NoDup (p ++ [x])). { apply NoDup_Add with (a := x) (l := p); [rewrite <- (app_nil_r p) at 1; apply Add_app|]. split; [auto|]. intros X. apply (H2 x X). left. reflexivity. }
    assert (In' : forall y, In y (p ++ [x]) \/ In y q <-> In y (p ++ [x]) \/ In y (filter (fun y => negb (f x y)) q)).
    { intros y. rewrite filter_In. split; [|tauto]. intros [Q|Q]; [auto|]. destruct (f x y) eqn:Fx; [left; apply Hf in Fx; subst y; apply in_or_app; right; left; reflexivity|right; split; [auto|reflexivity]]. }
    split; [exact N|]. split.
    + intros y Hy X. apply filter_In in X. destruct X as (X1 & X2). apply in_app_or in Hy. destruct Hy as [Hy|[<-|[]]]; [apply (H2 y Hy); right; auto|]. rewrite (proj2 (Hf x x) eq_refl) in X2. discriminate.
    + split; [intros y; rewrite (in_app_iff (p ++ [x]) q), (in_app_iff (p ++ [x])); symmetry; exact (In' y)|]. rewrite !app_length. pose proof (filter_le (fun y => negb (f x y)) q). lia.
  - apply nth_error_None in E. rewrite firstn_all2 in H1 by lia. rewrite firstn_all2, skipn_all2 by lia. split; [auto|]. split; [intros x _ []|]. split; [tauto|lia].
Qed.

Lemma unique_loop k : forall i L, NoDup (firstn i L) -> (forall x, In x (firstn i L) -> ~ In x (skipn i L)) ->
  let L' := fold_left (delete_after f) (seq i k) L in NoDup (firstn (i + k) L') /\ (forall x, In x (firstn (i + k) L') -> ~ In x (skipn (i + k) L')) /\ (forall x, In x L' <-> In x L) /\ (length L' <= length L)%nat.
Proof using Hf.
  induction k as [|k IH]; intros i L H1 H2; cbn [seq fold_left].
  - rewrite Nat.add_0_r. repeat split; auto; tauto.
  - destruct (delete_spec L i H1 H2) as (D1 & D2 & D3 & D4). destruct (IH (S i) _ D1 D2) as (I1 & I2 & I3 & I4). replace (i + S k)%nat with (S i + k)%nat by lia. split; [auto|]. split; [auto|]. split; [intros x; rewrite I3; apply D3|lia].
Qed.

Lemma unique_with_spec L : NoDup (unique_with f L) /\ forall x, In x (unique_with f L) <-> In x L.
Proof using Hf.
  destruct (unique_loop (length L - 1) 0 L) as (I1 & I2 & I3 & I4); [constructor|intros x []|]. fold (unique_with f L) in *. cbn [Nat.add] in *. split; [|exact I3].
  set (m := (length L - 1)%nat) in *. set (U := unique_with f L) in *. rewrite <- (firstn_skipn m U). assert (Hs : (length (skipn m U) <= 1)%nat) by (rewrite skipn_length; lia).
  destruct (skipn m U) as [|y [|z q]]; [rewrite app_nil_r; auto| |cbn in Hs; lia]. apply NoDup_Add with (a := y) (l := firstn m U); [rewrite <- (app_nil_r (firstn m U)) at 1; apply Add_app|]. split; [auto|]. intros X. apply (I2 y X). left. reflexivity.
Qed.
End Unique.

(** ** the list Gn *)
Lemma product_In {A} (l : list A) n : forall w, In w (product l n) <-> length w = n /\ Forall (fun x => In x l) w.
Proof.
  induction n as [|n IH]; intros w; cbn [product].
  - split; [intros [<-|[]]; auto|]. intros (H & _). destruct w; [left; reflexivity|discriminate].
  - rewrite in_flat_map. split.
    + intros (x & Hx & H). apply in_map_iff in H. destruct H as (v & <- & Hv). apply IH in Hv. destruct Hv as (H1 & H2). cbn. split; [lia|constructor; auto].
    + intros (H1 & H2). destruct w as [|x w]; [discriminate|]. inversion H2; subst. exists x. split; [auto|]. apply in_map_iff. exists w. split; [auto|]. apply IH. cbn in H1. split; [lia|auto].
Qed.
Lemma product_map {A B} (g : A -> B) l n : product (map g l) n = map (map g) (product l n).
Proof.
  induction n as [|n IH]; [reflexivity|]. cbn [product]. rewrite IH. generalize (product l n). intros p. clear. induction l as [|x l IH]; [reflexivity|]. cbn [map flat_map]. rewrite IH, map_app, !map_map. reflexivity.
Qed.
Lemma letters_all x : In x letters.
Proof. destruct x; cbn; auto. Qed.

Lemma mapM_rel {A B} (f : A -> res B) (P : A -> B -> Prop) l : (forall x, In x l -> exists y, f x = Ok y /\ P x y) -> exists l', mapM f l = Ok l' /\ Forall2 P l l'.
Proof.
  induction l as [|x l IH]; intros H; [exists []; split; [reflexivity|constructor]|]. destruct (H x) as (y & E & Hy); [left; auto|]. destruct IH as (l' & E' & F); [intros z Hz; apply H; right; auto|]. exists (y :: l'). cbn. rewrite E. cbn. rewrite E'. cbn. split; [reflexivity|constructor; auto].
Qed.
Lemma F2_In_l {A B} (P : A -> B -> Prop) l l' x : Forall2 P l l' -> In x l -> exists y, In y l' /\ P x y.
Proof. induction 1; intros []; [subst; eexists; split; [left; reflexivity|auto]|]. destruct IHForall2 as (z & Hz & Q); auto. exists z. split; [right; auto|auto]. Qed.
Lemma F2_In_r {A B} (P : A -> B -> Prop) l l' y : Forall2 P l l' -> In y l' -> exists x, In x l /\ P x y.
Proof. induction 1; intros []; [subst; eexists; split; [left; reflexivity|auto]|]. destruct IHForall2 as (z & Hz & Q); auto. exists z. split; [right; auto|auto]. Qed.

Lemma Gn_spec n : (1 <= n)%nat -> exists l, Gn n = Ok l /\ NoDup (map transfo2seq l) /\ forall w, In w (map transfo2seq l) <-> length w = n /\ reduced w.
Proof.
  intros Hn. unfold Gn. change elems with (map enc1 letters). rewrite product_map.
  destruct (mapM_rel multiply (fun m v => exists w, m = map enc1 w /\ length w = n /\ multiply m = Ok v) (map (map enc1) (product letters n))) as (l & E & F).
  { intros m Hm. apply in_map_iff in Hm. destruct Hm as (w & <- & Hw). apply product_In in Hw. destruct Hw as (Hw & _). destruct (multiply_word w) as (v & Ev & _); [destruct w; [cbn in Hw; lia|discriminate]|]. exists v. split; [auto|]. exists w. auto. }
  rewrite E. cbn [bind]. eexists. split; [reflexivity|]. destruct (unique_with_spec fword_eqb (fun x y => fword_eqb_spec x y) l) as (U1 & U2). set (U := unique_with fword_eqb l) in *.
  assert (Src : forall v, In v (filter (fun t => Z.eqb (total t) (Z.of_nat n)) U) -> exists w, length w = n /\ reduced w /\ multiply (map enc1 w) = Ok v /\ transfo2seq v = w).
  { intros v Hv. apply filter_In in Hv. destruct Hv as (V1 & V2). apply Z.eqb_eq in V2. apply U2 in V1. destruct (F2_In_r _ _ _ _ F V1) as (m & _ & w & -> & Lw & Ew). destruct (multiply_word w) as (v' & Ev & Q1 & Q2); [destruct w; [cbn in Lw; lia|discriminate]|]. rewrite Ew in Ev. injection Ev as <-. exists w. rewrite Lw in Q1. split; [auto|]. split; [apply Q1; auto|]. split; [auto|apply Q2, Q1, V2]. }
  split.
  - assert (N : NoDup (filter (fun t => Z.eqb (total t) (Z.of_nat n)) U)) by (apply NoDup_filter; auto). revert N Src. generalize (filter (fun t => Z.eqb (total t) (Z.of_nat n)) U). clear. induction l as [|v l IH]; intros N Src; [constructor|]. inversion N; subst. cbn [map]. constructor.
    + intros X. apply in_map_iff in X. destruct X as (v' & E & H). destruct (Src v) as (w & _ & _ & E1 & S1); [left; auto|]. destruct (Src v') as (w' & _ & _ & E2 & S2); [right; auto|]. assert (V : Ok v = Ok v') by (rewrite <- E1, <- E2; congruence). injection V as <-. auto.
    + apply IH; auto. intros v' H. apply Src. right. auto.
  - intros w. rewrite in_map_iff. split.
    + intros (v & <- & Hv). destruct (Src v Hv) as (w & L & R & _ & S). rewrite S. auto.
    + intros (L & R). assert (Hw : w <> []) by (destruct w; [cbn in L; lia|discriminate]). destruct (multiply_word w Hw) as (v & Ev & Q1 & Q2). exists v. split; [auto|]. apply filter_In. split; [|apply Z.eqb_eq; rewrite <- L; tauto]. apply U2.
      destruct (F2_In_l _ _ _ (map enc1 w) F) as (v' & I & w' & _ & _ & E'); [apply in_map, product_In; split; [auto|apply Forall_forall; intros; apply letters_all]|]. rewrite Ev in E'. injection E' as <-. exact I.
Qed.

(** the number of words *)
Fixpoint red_words (n : nat) : list (list letter) :=
  match n with
  | 0 => map (fun x => [x]) letters
  | S n => flat_map (fun w => map (fun x => x :: w) (filter (fun x => if letter_dec (hd La w) (linv x) then false else true) letters)) (red_words n)
  end.
Lemma red_words_In n : forall w, In w (red_words n) <-> length w = S n /\ reduced w.
Proof.
  induction n as [|n IH]; intros w; cbn [red_words].
  - rewrite in_map_iff. split; [intros (x & <- & _); cbn; auto|]. intros (H & _). destruct w as [|x [|]]; try discriminate. exists x. split; [auto|apply letters_all].
  - rewrite in_flat_map. split.
    + intros (v & Hv & H). apply in_map_iff in H. destruct H as (x & <- & Hx). apply filter_In in Hx. destruct Hx as (_ & Hx). apply IH in Hv. destruct Hv as (H1 & H2). cbn [length reduced]. split; [lia|]. split; [|auto]. destruct v as [|y v]; [auto|]. cbn [hd] in Hx. destruct (letter_dec y (linv x)); [discriminate|auto].
    + intros (H1 & H2). destruct w as [|x w]; [discriminate|]. cbn in H1. destruct H2 as (H2 & H3). exists w. split; [apply IH; split; [lia|auto]|]. apply in_map_iff. exists x. split; [auto|]. apply filter_In. split; [apply letters_all|]. destruct w as [|y w]; [discriminate|]. cbn [hd]. destruct (letter_dec y (linv x)); [contradiction|auto].
Qed.
Lemma red_words_NoDup n : NoDup (red_words n) /\ length (red_words n) = (4 * 3 ^ n)%nat.
Proof.
  induction n as [|n (IH1 & IH2)]; cbn [red_words].
  - split; [|reflexivity]. cbn. repeat constructor; cbn; intuition discriminate.
  - assert (L3 : forall w, length (filter (fun x => if letter_dec (hd La w) (linv x) then false else true) letters) = 3%nat) by (intros w; destruct (hd La w); reflexivity).
    split.
    + revert IH1. generalize (red_words n). clear. induction l as [|w l IH]; intros N; [constructor|]. inversion N; subst. cbn [flat_map]. assert (N1 : NoDup (map (fun x => x :: w) (filter (fun x => if letter_dec (hd La w) (linv x) then false else true) letters))).
      { apply FinFun.Injective_map_NoDup; [intros x y E; injection E; auto|]. apply NoDup_filter. cbn. repeat constructor; cbn; intuition discriminate. }
      specialize (IH H2). revert N1. generalize (filter (fun x => if letter_dec (hd La w) (linv x) then false else true) letters). intros fl. induction fl as [|x fl IHf]; intros N1; [exact IH|]. cbn [map app] in *. inversion N1; subst. constructor; [|auto]. intros X. apply in_app_or in X. destruct X as [X|X]; [auto|]. apply in_flat_map in X. destruct X as (v & Hv & X). apply in_map_iff in X. destruct X as (y & E & _). injection E as _ E. subst v. contradiction.
    + rewrite flat_map_concat_map. cbn [Nat.pow]. transitivity (3 * length (red_words n))%nat; [|rewrite IH2; lia]. generalize (red_words n). clear - L3. induction l as [|w l IH]; [reflexivity|]. cbn [map concat]. rewrite app_length, map_length, L3, IH. cbn [length]. lia.
Qed.

Lemma Gn_words n : (1 <= n)%nat -> exists l, Gn n = Ok l /\ NoDup (map transfo2seq l) /\ (forall w, In w (map transfo2seq l) <-> length w = n /\ reduced w) /\ length l = (4 * 3 ^ (n - 1))%nat.
Proof.
  intros Hn. destruct (Gn_spec n Hn) as (l & E & N & I). exists l. split; [auto|]. split; [auto|]. split; [auto|]. destruct n as [|n]; [lia|]. cbn [Nat.sub]. rewrite Nat.sub_0_r. destruct (red_words_NoDup n) as (N' & L'). rewrite <- L', <- (map_length transfo2seq). apply Permutation_length, NoDup_Permutation; auto. intros w. rewrite I, red_words_In. tauto.
Qed.
Lemma Gn_zero : Gn 0 = Raise TypeError.
Proof. reflexivity. Qed.
