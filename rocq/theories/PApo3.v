(** * Proofs about gaskets made by inversions: the generations and their labels. *)

From Coq Require Import Reals Lra Lia Psatz List Bool FinFun.
From Verif Require Import Base BaseLemmas Spec SpecLemmas SpecTriangle SpecGasket SpecApollonian ModelInternal ModelLine ModelCircle ModelTriangle ModelInversion ModelApollonian PInvBase PInversion PInversion2 PTriangle PTriangle2 PTriangle3 PTriangle4 PTriangle5 PSteiner PGasket1 PGasket5 PApo1 PApo2.
Import ListNotations.
Local Open Scope R_scope.

Definition label := (list nat * nat)%type.

Lemma NoDup_app2 {X} (l1 l2 : list X) : NoDup l1 -> NoDup l2 -> (forall y, In y l1 -> In y l2 -> False) -> NoDup (l1 ++ l2).
Proof.
  intros N1 N2 H. induction N1 as [|a l1 Na N1 IH]; [auto|]. cbn [app]. constructor.
  - rewrite in_app_iff. intros [I|I]; [auto|]. apply (H a); [left; auto|auto].
  - apply IH. intros y I J. apply (H y); [right; auto|auto].
Qed.
Lemma NoDup_flat_map {X Y} (f : X -> list Y) l : NoDup l -> (forall x, In x l -> NoDup (f x)) ->
  (forall x x' y, In x l -> In x' l -> In y (f x) -> In y (f x') -> x = x') -> NoDup (flat_map f l).
Proof.
  induction l as [|a l IH]; intros N H1 H2; cbn [flat_map]; [constructor|]. inversion N as [|? ? Na Nl]; subst. apply NoDup_app2.
  - apply H1. left; auto.
  - apply IH; auto; [intros; apply H1; right; auto|]. intros x x' y I I' J J'. apply (H2 x x' y); auto; right; auto.
  - intros y I J. apply in_flat_map in J. destruct J as (x & Ix & J). assert (a = x) by (apply (H2 a x y); auto; [left; auto|right; auto]). subst. auto.
Qed.

Lemma vc_inj c c' : posc c -> posc c' -> vc c = vc c' -> c = c'.
Proof.
  intros P P' E. unfold vc, posc in *. destruct c as [[x y] r], c' as [[x' y'] r']. cbn [cO cr] in *. injection E as Er Ex Ey _. assert (r = r') by (rewrite <- (Rinv_inv r), Er, Rinv_inv; auto). subst r'.
  unfold vscal in *. cbn [fst snd] in *. apply Rmult_eq_reg_l in Ex; [|apply Rinv_neq_0_compat; lra]. apply Rmult_eq_reg_l in Ey; [|apply Rinv_neq_0_compat; lra]. congruence.
Qed.

Section Gens.
(** [m] walls (inversions), [N] seeds; the seed 0 is the outside of the circle [co] *)
Variables (m N : nat) (b sv : nat -> v4) (off : nat -> nat) (co c1 : circle) (iot : nat -> inversion) (invs : list (option inversion)).
Hypothesis B1 : forall g, (g < m)%nat -> kap (b g) (b g) = -1.
Hypothesis B2 : forall g h, (g < m)%nat -> (h < m)%nat -> g <> h -> 1 <= kap (b g) (b h).
Hypothesis S1 : forall s, (s < N)%nat -> kap (sv s) (sv s) = -1.
Hypothesis S2 : forall s t, (s < N)%nat -> (t < N)%nat -> s <> t -> 1 <= kap (sv s) (sv t).
Hypothesis BS : forall g s, (g < m)%nat -> (s < N)%nat -> kap (sv s) (b g) = 0 \/ 1 <= kap (sv s) (b g).
Hypothesis IL : length invs = m.
Hypothesis IN : forall g, (g < m)%nat -> nth g invs None = Some (iot g) /\ 0 < ipower (iot g) /\ forall x, refl (b g) x = refl (wv (iot g)) x.
Hypothesis CO : posc co /\ sv 0%nat = v4scal (-1) (vc co).
Hypothesis C1 : (1 < N)%nat /\ posc c1 /\ sv 1%nat = vc c1 /\ inner c1 co.
Hypothesis PW : forall g, (g < m)%nat -> b g = wv (iot g) \/ 0 < pow_circle (cO co) (cr co) (ipole (iot g)).
(** the level of a label *)
Hypothesis OFF : forall g s t, (g < m)%nat -> (s < N)%nat -> (t < N)%nat -> 1 <= kap (sv s) (b g) -> 1 <= kap (sv t) (b g) -> (off t <= off s)%nat.
Hypothesis OFF1 : forall s, (s < N)%nat -> (off s <= 1)%nat.

Local Notation act := (act b).
Local Notation reduced := (reduced m).
Local Notation moves := (moves b sv).
Local Notation label_ok := (label_ok m N b sv).

Definition level (l : label) : nat := (length (fst l) + off (snd l))%nat.
Definition vec (l : label) : v4 := act (fst l) (sv (snd l)).
Definition lok (l : label) : Prop := label_ok (fst l) (snd l).
(** the circle of a label *)
Definition crep (c : circle) (l : label) : Prop := posc c /\ vc c = vec l /\ lok l.
Definition rep (ck : gcircle * nat) (l : label) : Prop :=
  exists c w, fst ck = GC c /\ fst l = snd ck :: w /\ crep c l.

Lemma crep_inside c l : crep c l -> inner c co.
Proof.
  intros (P & E & L). destruct l as [w s]. unfold vec, lok in *. cbn [fst snd] in *. destruct CO as (Pco & E0). destruct C1 as (N1 & P1 & E1 & I1).
  assert (D : {(w, s) = ([], 1%nat)} + {(w, s) <> ([], 1%nat)}) by (repeat decide equality). destruct D as [D|D].
  - injection D as -> ->. cbn [act fold_right] in E. change (vc c = sv 1%nat) in E. rewrite E1 in E.
    assert (c = c1) by (apply vc_inj; auto).
    subst c. auto.
  - pose proof (packing m N b sv B1 B2 S1 S2 BS w s [] 0%nat L ltac:(split; [lia|split; exact I])) as K0.
    assert (Q1 : 1 <= kap (vc c) (vc c1)).
    { rewrite E, <- E1. apply (packing m N b sv B1 B2 S1 S2 BS w s [] 1%nat L); [split; [auto|split; exact I]|auto]. }
    assert (NZ : (w, s) <> ([], 0%nat)).
    { intros Z. injection Z as -> ->. change (act [] (sv 0%nat)) with (sv 0%nat) in E. rewrite E0 in E. apply (f_equal vb) in E. unfold posc, vc, v4scal, vb in *. cbn [fst snd] in E.
      pose proof (Rinv_0_lt_compat _ P). pose proof (Rinv_0_lt_compat _ Pco). lra. }
    specialize (K0 NZ). rewrite <- E in K0. change (act [] (sv 0%nat)) with (sv 0%nat) in K0. rewrite E0, kap_scal_r in K0.
    destruct (kap_inner_cases c co P Pco ltac:(lra)) as [|I2]; [auto|]. exfalso. apply (inner_disj_absurd c1 co c P1 I1 I2). apply kap_disj; auto.
Qed.

Lemma crep_pow c g w s : crep c (w, s) -> lok (g :: w, s) -> 0 < pow_circle (cO c) (cr c) (ipole (iot g)).
Proof.
  intros H L. assert (Hg : (g < m)%nat) by apply L. destruct (IN g Hg) as (_ & Pk & _). destruct (PW g Hg) as [E|E].
  - pose proof (front m N b sv B1 B2 BS g w s L) as F. destruct H as (P & Ev & _). apply pow_beyond; auto. rewrite Ev, <- E. exact F.
  - apply (pow_outside c co); auto; [apply H|apply CO|]. apply (crep_inside c (w, s)). auto.
Qed.

Lemma crep_step c g w s c' : crep c (w, s) -> lok (g :: w, s) -> invert_with invs g (GC c) = Ok (GC c') -> crep c' (g :: w, s).
Proof.
  intros H L E. assert (Hg : (g < m)%nat) by apply L. destruct (IN g Hg) as (En & Pk & Er). unfold invert_with in E. rewrite En in E. cbn [the_circle bind] in E.
  destruct (invert_refl (iot g) c c' (proj1 H) Pk (crep_pow c g w s H L) E) as (P' & E'). split; [auto|]. split; [|auto].
  rewrite E', <- Er. unfold vec. cbn [fst snd PApo1.act fold_right]. f_equal. apply H.
Qed.

Definition others (k : nat) : list nat := filter (fun j => negb (j =? k)%nat) (seq 0 m).
Definition kids (l : label) : list label := map (fun j => (j :: fst l, snd l)) (others (hd 0%nat (fst l))).

Lemma In_others k j : In j (others k) <-> (j < m)%nat /\ j <> k.
Proof. unfold others. rewrite filter_In, in_seq, negb_true_iff, Nat.eqb_neq. lia. Qed.
Lemma length_others k : (k < m)%nat -> length (others k) = (m - 1)%nat.
Proof.
  intros H. assert (NoDup (k :: others k)).
  { constructor; [rewrite In_others; lia|]. apply NoDup_filter, seq_NoDup. }
  assert (E : length (k :: others k) = length (seq 0 m)).
  { apply Nat.le_antisymm; apply NoDup_incl_length; auto; try apply seq_NoDup.
    - intros j [<-|I]; [rewrite in_seq; lia|]. apply In_others in I. rewrite in_seq. lia.
    - intros j I. rewrite in_seq in I. destruct (Nat.eq_dec j k) as [->|]; [left; auto|right; apply In_others; lia]. }
  rewrite seq_length in E. cbn [length] in E. lia.
Qed.

Lemma lok_cons j g w s : lok (g :: w, s) -> (j < m)%nat -> j <> g -> lok (j :: g :: w, s).
Proof.
  intros (H1 & H2 & H3) Hj Hd. split; [exact H1|]. split; [|exact H3]. cbn [PApo1.reduced fst] in *. tauto.
Qed.

Definition isGC (g : gcircle) : Prop := exists c, g = GC c.

Lemma children_rep L labs L' : Forall2 rep L labs -> children invs L = Ok L' -> Forall (fun x => isGC (fst x)) L' ->
  Forall2 rep L' (flat_map kids labs).
Proof.
  intros F E G. unfold children in E. destruct (mapM _ L) as [Ls|] eqn:Em; cbn [bind] in E; [|discriminate]. injection E as <-.
  apply mapM_Forall2 in Em. rewrite flat_map_concat_map. apply Forall2_concat. rewrite Forall_concat in G.
  clear - F Em G B1 B2 S1 S2 BS IL IN CO C1 PW. revert Ls Em G. induction F as [|ck l L labs R F IH]; intros Ls Em G; inversion Em; subst; constructor; [|apply IH; auto; inversion G; auto].
  inversion G as [|? ? G1 G2]; subst. destruct l as [w s]. destruct R as (c & w' & Ec & Ew & H). cbn [fst snd] in *. subst w. apply mapM_Forall2 in H1. unfold kids. cbn [fst snd hd].
  rewrite IL in H1. fold (others (snd ck)) in H1.
  assert (A : Forall (fun j => (j < m)%nat /\ j <> snd ck) (others (snd ck))) by (apply Forall_forall; intros j; apply In_others).
  revert A G1. clear - H1 Ec H B1 B2 S1 S2 BS IL IN CO C1 PW. induction H1 as [|j x js xs Ej F IH]; intros A G1; cbn [map]; constructor.
  - inversion A; inversion G1; subst. destruct H6 as (c' & Ec'). destruct (invert_with invs j (fst ck)) as [g|] eqn:Ei; cbn [bind] in Ej; [|discriminate]. injection Ej as <-. cbn [fst snd] in *. subst g.
    rewrite Ec in Ei. exists c', (snd ck :: w'). split; [auto|]. split; [auto|]. apply (crep_step c); auto. apply lok_cons; try tauto. apply H.
  - inversion A; inversion G1; subst. apply IH; auto.
Qed.

Fixpoint labgens (d : nat) (labs : list label) : list (list label) :=
  match d with
  | O => []
  | S d => let k := flat_map kids labs in k :: labgens d k
  end.

Lemma descendants_rep d : forall L labs Ls, Forall2 rep L labs -> descendants invs L d = Ok Ls -> Forall (Forall (fun x => isGC (fst x))) Ls ->
  Forall2 (Forall2 rep) Ls (labgens d labs).
Proof.
  induction d as [|d IH]; intros L labs Ls F E G; cbn [descendants labgens] in *; [injection E as <-; constructor|].
  destruct (children invs L) as [L'|] eqn:Ec; cbn [bind] in E; [|discriminate]. destruct (descendants invs L' d) as [Ls'|] eqn:Ed; cbn [bind] in E; [|discriminate]. injection E as <-.
  inversion G; subst. pose proof (children_rep _ _ _ F Ec H1) as F'. constructor; [auto|]. apply (IH L'); auto.
Qed.

(** ** the labels *)
Lemma kids_In l l' : In l' (kids l) <-> exists j, (j < m)%nat /\ j <> hd 0%nat (fst l) /\ l' = (j :: fst l, snd l).
Proof.
  unfold kids. rewrite in_map_iff. split.
  - intros (j & <- & I). apply In_others in I. exists j. tauto.
  - intros (j & H1 & H2 & ->). exists j. split; [auto|]. apply In_others. auto.
Qed.
Lemma kids_level l l' : In l' (kids l) -> level l' = S (level l).
Proof. intros I. apply kids_In in I. destruct I as (j & _ & _ & ->). unfold level. cbn [fst snd length]. lia. Qed.

Lemma kids_NoDup l : NoDup (kids l).
Proof.
  unfold kids. apply FinFun.Injective_map_NoDup; [|apply NoDup_filter, seq_NoDup]. intros j j' E. congruence.
Qed.
Lemma flat_kids_NoDup labs : NoDup labs -> NoDup (flat_map kids labs).
Proof.
  intros H. apply NoDup_flat_map; [auto|intros; apply kids_NoDup|]. intros x x' y _ _ I I'. apply kids_In in I, I'.
  destruct I as (j & _ & _ & ->), I' as (j' & _ & _ & E). injection E as _ E1 E2. destruct x, x'. cbn [fst snd] in *. congruence.
Qed.
Lemma flat_kids_length labs : Forall (fun l => (hd 0%nat (fst l) < m)%nat) labs -> length (flat_map kids labs) = ((m - 1) * length labs)%nat.
Proof.
  induction 1 as [|l labs H F IH]; cbn [flat_map length]; [lia|]. rewrite app_length, IH. unfold kids. rewrite map_length, length_others by auto. lia.
Qed.

(** the labels of the level [k] *)
Definition level_labels (k : nat) (labs : list label) : Prop :=
  NoDup labs /\ forall l, In l labs <-> lok l /\ level l = k.

Lemma level_kids k labs : (forall s, (s < N)%nat -> (off s < k)%nat) -> level_labels k labs -> level_labels (S k) (flat_map kids labs).
Proof.
  intros K (H1 & H2). split; [apply flat_kids_NoDup; auto|]. intros l. rewrite in_flat_map. split.
  - intros (l' & I & J). pose proof (kids_level _ _ J) as E. apply H2 in I. destruct I as (L & E'). split; [|lia]. apply kids_In in J. destruct J as (j & J1 & J2 & ->).
    destruct l' as [[|g w] s]; unfold level in E'; cbn [fst snd length hd] in *; [exfalso; specialize (K s (proj1 L)); lia|]. apply lok_cons; auto.
  - intros (L & E). destruct l as [w s]. pose proof (K s (proj1 L)). unfold level in E. cbn [fst snd length] in E. destruct w as [|j [|g w]]; cbn [length] in E; [exfalso; lia|exfalso; lia|].
    exists (g :: w, s). split.
    + apply H2. split; [|unfold level; cbn [fst snd length]; lia]. apply (label_tl m N b sv j). auto.
    + apply kids_In. exists j. cbn [fst snd hd]. destruct L as (_ & R & _). cbn [fst PApo1.reduced] in R. tauto.
Qed.
Lemma level_gens d : forall k labs, (forall s, (s < N)%nat -> (off s < k)%nat) -> level_labels k labs ->
  forall i, (i < d)%nat -> level_labels (S k + i) (nth i (labgens d labs) []).
Proof.
  induction d as [|d IH]; intros k labs K H i Hi; [lia|]. pose proof (level_kids k labs K H) as H'. cbn [labgens]. destruct i as [|i]; cbn [nth].
  - rewrite Nat.add_0_r. auto.
  - replace (S k + S i)%nat with (S (S k) + i)%nat by lia. apply IH; auto; [|lia]. intros s Hs. specialize (K s Hs). lia.
Qed.
Lemma labgens_length d labs : length (labgens d labs) = d.
Proof. revert labs. induction d as [|d IH]; intros labs; cbn [labgens length]; auto. Qed.
Lemma labgens_sizes d : forall labs, Forall (fun l => (hd 0%nat (fst l) < m)%nat) labs ->
  map (@length label) (labgens d labs) = map (fun i => ((m - 1) ^ S i * length labs)%nat) (seq 0 d).
Proof.
  induction d as [|d IH]; intros labs F; [auto|]. cbn [labgens map seq]. rewrite flat_kids_length by auto. f_equal; [cbn [Nat.pow]; lia|].
  rewrite IH.
  - rewrite flat_kids_length by auto. rewrite <- seq_shift, map_map. apply map_ext. intros i. cbn [Nat.pow]. lia.
  - apply Forall_forall. intros l I. apply in_flat_map in I. destruct I as (l' & _ & J). apply kids_In in J. destruct J as (j & H & _ & ->). exact H.
Qed.

(** all labels of the levels k, ..., k+d *)
Lemma level_all_In k labs d : (forall s, (s < N)%nat -> (off s < k)%nat) -> level_labels k labs ->
  forall l, In l (concat (labs :: labgens d labs)) <-> lok l /\ (k <= level l <= k + d)%nat.
Proof.
  intros K H l. rewrite in_concat. split.
  - intros (x & [<-|I] & J); [apply H in J; split; [tauto|lia]|]. apply (In_nth _ _ []) in I. destruct I as (i & Hi & <-). rewrite labgens_length in Hi.
    apply (proj2 (level_gens d k labs K H i Hi)) in J. split; [tauto|lia].
  - intros (L & E). destruct (Nat.eq_dec (level l) k) as [E1|E1]; [exists labs; split; [left; auto|]; apply H; auto|].
    exists (nth (level l - S k) (labgens d labs) []). assert (Hi : (level l - S k < d)%nat) by lia. split; [right; apply nth_In; rewrite labgens_length; auto|].
    apply (proj2 (level_gens d k labs K H _ Hi)). split; [auto|lia].
Qed.
Lemma level_all_NoDup d : forall k labs, (forall s, (s < N)%nat -> (off s < k)%nat) -> level_labels k labs -> NoDup (concat (labs :: labgens d labs)).
Proof.
  induction d as [|d IH]; intros k labs K H; cbn [labgens concat].
  - rewrite app_nil_r. apply H.
  - assert (K' : forall s, (s < N)%nat -> (off s < S k)%nat) by (intros s Hs; specialize (K s Hs); lia). pose proof (level_kids k labs K H) as H'. apply NoDup_app2; [apply H|apply (IH (S k)); auto|].
    intros y I J. apply H in I. apply (level_all_In (S k) _ d K' H') in J. lia.
Qed.

(** ** neighbours *)
Lemma reduced_app u v : reduced (u ++ v) -> reduced u.
Proof.
  induction u as [|g u IH]; [intros; exact I|]. cbn [app PApo1.reduced]. intros (H1 & H2 & H3). split; [auto|]. split; [|auto]. destruct u; [exact I|]. cbn [app] in H2. auto.
Qed.
Lemma moves_last w g t : moves (w ++ [g]) t <-> 1 <= kap (sv t) (b g).
Proof. induction w as [|h w IH]; [reflexivity|]. rewrite <- IH. cbn [app PApo1.moves]. destruct (w ++ [g]) eqn:E; [destruct w; discriminate|reflexivity]. Qed.

Lemma drop t : (t < N)%nat -> forall w, reduced w -> exists u v, w = u ++ v /\ lok (u, t) /\ act w (sv t) = act u (sv t) /\
  (v = [] -> w = [] \/ exists w' g, w = w' ++ [g] /\ (g < m)%nat /\ 1 <= kap (sv t) (b g)).
Proof.
  intros Ht. induction w as [|g w IH] using rev_ind; intros R.
  - exists [], []. split; [auto|]. split; [split; [auto|split; exact I]|]. auto.
  - assert (Hg : (g < m)%nat).
    { clear - R. induction w as [|h w IH]; [apply R|]. apply IH. apply R. }
    destruct (BS g t Hg Ht) as [E|E].
    + destruct (IH (reduced_app _ _ R)) as (u & v & E1 & L & A & _). exists u, (v ++ [g]). split; [rewrite app_assoc, <- E1; auto|]. split; [auto|]. split.
      * rewrite act_app. cbn [PApo1.act fold_right]. rewrite refl_fix by auto. exact A.
      * intros Z. destruct v; discriminate.
    + exists (w ++ [g]), []. split; [rewrite app_nil_r; auto|]. split; [split; [auto|]; split; [auto|]; apply moves_last; auto|]. split; [auto|]. intros _. right. eauto.
Qed.

Hypothesis OFF2 : forall s t, (1 <= s < N)%nat -> (t < N)%nat -> (off t <= off s)%nat.

Lemma neighbour c w s t : crep c (w, s) -> (t < N)%nat -> kap (sv s) (sv t) = 1 ->
  exists u, lok (u, t) /\ (level (u, t) <= level (w, s))%nat /\ vec (u, t) = act w (sv t) /\ kap (vc c) (vec (u, t)) = 1.
Proof.
  intros (P & E & L) Ht K. pose proof L as (Hs & R & Mv). cbn [fst snd] in *. destruct (drop t Ht w R) as (u & v & E1 & Lu & A & V). exists u. split; [auto|]. split; [|split; [symmetry; exact A|]].
  - unfold level. cbn [fst snd]. destruct v as [|x v].
    + rewrite app_nil_r in E1. subst u. destruct (V eq_refl) as [->|(w' & g & Ew & Hg & Hm)].
      * destruct s as [|s].
        -- exfalso. change (vc c = sv 0%nat) in E. destruct CO as (Pco & E0). rewrite E0 in E. apply (f_equal vb) in E. unfold posc, vc, v4scal, vb in *. cbn [fst snd] in E.
           pose proof (Rinv_0_lt_compat _ P). pose proof (Rinv_0_lt_compat _ Pco). lra.
        -- pose proof (OFF2 (S s) t ltac:(lia) Ht). lia.
      * rewrite Ew in Mv. apply moves_last in Mv. pose proof (OFF g s t Hg Hs Ht Mv Hm). lia.
    + rewrite E1, app_length. cbn [length]. pose proof (OFF1 t Ht). lia.
  - rewrite E. unfold vec. cbn [fst snd]. rewrite <- A. rewrite (act_iso m b B1); auto.
Qed.

Lemma crep_disj c c' l l' : crep c l -> crep c' l' -> l <> l' -> disj c c'.
Proof.
  intros (P & E & L) (P' & E' & L') D. apply kap_disj; auto. rewrite E, E'. destruct l as [u s], l' as [v t]. exact (packing m N b sv B1 B2 S1 S2 BS u s v t L L' D).
Qed.

(** ** from labels to the statement *)
Lemma inner_disc c c0 : inner c c0 -> disc_in_disc c c0.
Proof. unfold inner, disc_in_disc, in_disk. intros H M HM. pose proof (dist_triangle M (cO c) (cO c0)). rewrite (dist_sym M (cO c0)), (dist_sym M (cO c)) in *. pose proof (dist_sym (cO c0) M). lra. Qed.

Lemma crep_touch c c' l l' : crep c l -> crep c' l' -> kap (vc c) (vec l') = 1 -> circles_touch c c'.
Proof.
  intros (P & E & L) (P' & E' & L') K. rewrite <- E' in K. apply kap_tang in K; auto.
Qed.

(** three seeds tangent to the seed of the label *)
Lemma touch_three l0 c w s t1 t2 t3 : crep c (w, s) -> (t1 < N)%nat -> (t2 < N)%nat -> (t3 < N)%nat ->
  t1 <> t2 -> t1 <> t3 -> t2 <> t3 -> kap (sv s) (sv t1) = 1 -> kap (sv s) (sv t2) = 1 -> kap (sv s) (sv t3) = 1 ->
  (forall l, lok l -> (level l <= level (w, s))%nat -> l <> ([], 0%nat) -> exists c', In c' l0 /\ crep c' l) ->
  touches_three_in co l0 c.
Proof.
  intros H H1 H2 H3 D12 D13 D23 K1 K2 K3 All.
  assert (Nb : forall t, (t < N)%nat -> kap (sv s) (sv t) = 1 -> (t = 0%nat /\ touches_inside c co) \/ exists u c', In c' l0 /\ crep c' (u, t) /\ circles_touch c c').
  { intros t Ht K. destruct (neighbour c w s t H Ht K) as (u & Lu & Lv & _ & Ku).
    assert (D : {(u, t) = ([], 0%nat)} + {(u, t) <> ([], 0%nat)}) by (repeat decide equality). destruct D as [D|D].
    - left. injection D as -> ->. split; [auto|]. change (vec ([], 0%nat)) with (sv 0%nat) in Ku. rewrite (proj2 CO), kap_scal_r in Ku. apply kap_inner_tang; [apply H|apply CO| |lra].
      exact (crep_inside c (w, s) H).
    - right. destruct (All (u, t) Lu Lv D) as (c' & I & R). exists u, c'. split; [auto|]. split; [auto|]. apply (crep_touch c c' (w, s) (u, t)); auto. }
  assert (Df : forall c' c'' u v t t', t <> t' -> crep c' (u, t) -> crep c'' (v, t') -> c' <> c'').
  { intros c' c'' u v t t' D R R' E. subst c''. pose proof (crep_disj c' c' (u, t) (v, t') R R' ltac:(congruence)) as Q. unfold disj in Q. rewrite (proj2 (dist_0 _ _) eq_refl) in Q. destruct R as (P & _). unfold posc in P. lra. }
  destruct (Nb t1 H1 K1) as [(Z1 & I1)|(u1 & x1 & I1 & R1 & T1)], (Nb t2 H2 K2) as [(Z2 & I2)|(u2 & x2 & I2 & R2 & T2)], (Nb t3 H3 K3) as [(Z3 & I3)|(u3 & x3 & I3 & R3 & T3)]; try lia.
  - right. exists x2, x3. split; [intros y [<-|[<-|[]]]; auto|]. split; [apply (Df _ _ _ _ _ _ D23 R2 R3)|auto].
  - right. exists x1, x3. split; [intros y [<-|[<-|[]]]; auto|]. split; [apply (Df _ _ _ _ _ _ D13 R1 R3)|auto].
  - right. exists x1, x2. split; [intros y [<-|[<-|[]]]; auto|]. split; [apply (Df _ _ _ _ _ _ D12 R1 R2)|auto].
  - left. exists x1, x2, x3. split; [intros y [<-|[<-|[<-|[]]]]; auto|]. split; [|auto].
    pose proof (Df _ _ _ _ _ _ D12 R1 R2). pose proof (Df _ _ _ _ _ _ D13 R1 R3). pose proof (Df _ _ _ _ _ _ D23 R2 R3).
    repeat constructor; cbn [In]; intuition congruence.
Qed.

(** the lists of circles of the levels k, ..., k+d, and three seeds tangent to each seed *)
Lemma final_packing (k : nat) (Gs : list (list circle)) (Ls : list (list label)) :
  Forall2 (Forall2 crep) Gs Ls -> (forall i, (i < length Ls)%nat -> level_labels (k + i) (nth i Ls [])) ->
  (forall l, lok l -> (level l < k)%nat -> l = ([], 0%nat)) ->
  (forall s, (s < N)%nat -> exists t1 t2 t3, (t1 < N)%nat /\ (t2 < N)%nat /\ (t3 < N)%nat /\ t1 <> t2 /\ t1 <> t3 /\ t2 <> t3 /\
     kap (sv s) (sv t1) = 1 /\ kap (sv s) (sv t2) = 1 /\ kap (sv s) (sv t3) = 1) ->
  Forall (fun c => 0 < cr c /\ disc_in_disc c co) (concat Gs) /\ ForallOrdPairs not_overlapping (concat Gs) /\
  forall i c, In c (nth i Gs []) -> touches_three_in co (concat (firstn (S i) Gs)) c.
Proof.
  intros F Lv Low T3. pose proof (Forall2_concat _ _ _ F) as FC. split; [|split].
  - apply Forall_forall. intros c I. destruct (Forall2_In_l _ _ _ _ FC I) as (l & _ & R). split; [apply R|]. apply inner_disc. exact (crep_inside c l R).
  - apply (Forall2_FOP crep not_overlapping _ _ FC).
    + clear F FC. assert (Q : forall Ls k, (forall i, (i < length Ls)%nat -> level_labels (k + i) (nth i Ls [])) -> NoDup (concat Ls) /\ forall l, In l (concat Ls) -> (k <= level l)%nat).
      { clear. induction Ls as [|L Ls IH]; intros k Lv; cbn [concat]; [split; [constructor|intros l []]|]. pose proof (Lv 0%nat ltac:(cbn [length]; lia)) as (N0 & L0). cbn [nth] in *. rewrite Nat.add_0_r in L0.
        destruct (IH (S k)) as (N1 & L1). { intros i Hi. replace (S k + i)%nat with (k + S i)%nat by lia. apply (Lv (S i)). cbn [length]. lia. }
        split.
        - apply NoDup_app2; auto. intros l I J. apply L0 in I. apply L1 in J. lia.
        - intros l I. apply in_app_iff in I. destruct I as [I|I]; [apply L0 in I; lia|apply L1 in I; lia]. }
      apply (Q Ls k Lv).
    + intros c c' a a' R R' D. exact (crep_disj c c' a a' R R' D).
  - intros i c I.
    assert (LG : length Gs = length Ls) by (clear - F; induction F; cbn [length]; auto).
    assert (Hi : (i < length Ls)%nat). { destruct (Nat.lt_ge_cases i (length Ls)) as [|G]; [auto|]. rewrite nth_overflow in I by lia. destruct I. }
    assert (FN : forall j, Forall2 crep (nth j Gs []) (nth j Ls [])).
    { clear - F. induction F as [|G L Gs Ls E F IH]; intros [|j]; cbn [nth]; auto; constructor. }
    destruct (Forall2_In_l _ _ _ _ (FN i) I) as ((w, s) & Il & R). destruct (T3 s (proj1 (proj2 (proj2 R)))) as (t1 & t2 & t3 & H1 & H2 & H3 & D12 & D13 & D23 & K1 & K2 & K3).
    apply (touch_three _ c w s t1 t2 t3); auto. intros l Lo Le Nz.
    assert (Lk : (k <= level l)%nat) by (destruct (Nat.lt_ge_cases (level l) k) as [Q|]; [exfalso; apply Nz; apply Low; auto|auto]).
    apply (Lv i Hi) in Il. assert (Hj : (level l - k < length Ls)%nat) by lia.
    assert (J : In l (nth (level l - k) Ls [])) by (apply (Lv _ Hj); split; [auto|lia]).
    destruct (Forall2_In_r _ _ _ _ (FN (level l - k)%nat) J) as (c' & Ic & R'). exists c'. split; [|auto]. apply in_concat. exists (nth (level l - k) Gs []). split; [|auto].
    assert (E : nth (level l - k) Gs [] = nth (level l - k) (firstn (S i) Gs) []).
    { assert (Q : forall (X : Type) (d : X) a n l, (a < n)%nat -> nth a l d = nth a (firstn n l) d).
      { clear. intros X d a n l. revert a n. induction l as [|x l IH]; intros a n H; [destruct a, n; reflexivity|]. destruct n; [lia|]. destruct a; cbn [nth firstn]; auto. apply IH. lia. }
      apply Q. lia. }
    rewrite E. apply nth_In. rewrite firstn_length. lia.
Qed.

(** ** when nothing is raised *)
Hypothesis PWF : forall g, (g < m)%nat -> (b g = wv (iot g) /\ sepsilon_ <= ipower (iot g)) \/ cr co + / 8192 <= dist (cO co) (ipole (iot g)).

Lemma step_total c g w s : crep c (w, s) -> lok (g :: w, s) -> exists c', invert_with invs g (GC c) = Ok (GC c').
Proof.
  intros H L. assert (Hg : (g < m)%nat) by apply L. destruct (IN g Hg) as (En & Pk & Er). unfold invert_with. rewrite En. cbn [the_circle bind].
  assert (Q : sepsilon_ < pow_circle (cO c) (cr c) (ipole (iot g))).
  { destruct (PWF g Hg) as [(E & K)|K].
    - pose proof (front m N b sv B1 B2 BS g w s L) as F. destruct H as (P & Ev & _). apply (Rle_lt_trans _ _ _ K). apply pow_beyond_far; auto. rewrite Ev, <- E. exact F.
    - pose proof (pow_outside_far c co (ipole (iot g)) (/ 8192) (proj1 H) (crep_inside c (w, s) H) ltac:(lra) K). unfold sepsilon_. lra. }
  rewrite invert_circle_far; [eauto|apply H|lra|]. pose proof sepsilon_pos. rewrite Rabs_pos_eq; lra.
Qed.

Lemma mapM_exists {X Y} (f : X -> res Y) (Q : Y -> Prop) l : (forall x, In x l -> exists y, f x = Ok y /\ Q y) -> exists ys, mapM f l = Ok ys /\ Forall Q ys.
Proof.
  induction l as [|a l IH]; intros H; cbn [mapM]; [exists []; auto|]. destruct (H a (or_introl eq_refl)) as (y & E & Hy). rewrite E. cbn [bind].
  destruct IH as (ys & E' & F); [intros x I; apply H; right; auto|]. rewrite E'. cbn [bind]. exists (y :: ys). auto.
Qed.

Lemma children_total L labs : Forall2 rep L labs -> exists L', children invs L = Ok L' /\ Forall (fun x => isGC (fst x)) L'.
Proof.
  intros F. unfold children. match goal with |- context [mapM ?f L] => destruct (mapM_exists f (Forall (fun x => isGC (fst x))) L) as (Ls & E & G) end.
  - intros ck I. destruct (Forall2_In_l _ _ _ _ F I) as ((w, s) & _ & (c & w' & Ec & Ew & R)). cbn [fst snd] in *. subst w. apply mapM_exists. intros j J. rewrite IL in J. fold (others (snd ck)) in J. apply In_others in J.
    rewrite Ec. destruct (step_total c j (snd ck :: w') s R (lok_cons j _ _ _ (proj2 (proj2 R)) (proj1 J) (proj2 J))) as (c' & E). rewrite E. cbn [bind]. exists (GC c', j). split; [auto|]. exists c'. auto.
  - rewrite E. cbn [bind]. exists (concat Ls). split; [auto|]. apply Forall_concat. auto.
Qed.
Lemma descendants_total d : forall L labs, Forall2 rep L labs -> exists Ls, descendants invs L d = Ok Ls /\ Forall (Forall (fun x => isGC (fst x))) Ls.
Proof.
  induction d as [|d IH]; intros L labs F; cbn [descendants]; [exists []; auto|]. destruct (children_total L labs F) as (L' & E & G). rewrite E. cbn [bind].
  destruct (IH L' _ (children_rep L labs L' F E G)) as (Ls & E' & G'). rewrite E'. cbn [bind]. exists (L' :: Ls). auto.
Qed.
End Gens.
