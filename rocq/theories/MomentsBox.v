(** Polynomials with a bound on the degree in each variable, on the unit square and cube: division by linear factors,
    integrals and positivity. *)
From Coquelicot Require Import Coquelicot.
From Coq Require Import String Arith ZArith Reals Lia Lra Bool List FunctionalExtensionality.
From Verif Require Import Base PolyLib PolySetsModel PolySetsProofs PolyVec LinAlg UnisolvenceProofs LagrangeUnisolvence LagrangeKey LegendreJacobi LegendreIntSpec LegendreIntegrals KmvProofs MomentsInt MomentsParts MomentsRT.
From Verif Require ReferencesModel CiarletProofs.
Import PolyVec ListNotations.
Local Open Scope R_scope.

(** * Boxes *)
Definition box (d : nat) (b : nat -> nat) : sfun -> Prop := poly_space (fun m => length m = d /\ forall i, (i < d)%nat -> (nth i m 0 <= b i)%nat).
Lemma box_weaken d b b' f : (forall i, (i < d)%nat -> (b i <= b' i)%nat) -> box d b f -> box d b' f.
Proof. intros H. apply poly_space_weaken. intros m [L B]. split; [exact L|]. intros i Hi. specialize (H i Hi). specialize (B i Hi). lia. Qed.
Lemma mdeg_bound m : forall N, (forall i, (i < length m)%nat -> (nth i m 0 <= N)%nat) -> (mdeg m <= length m * N)%nat.
Proof.
  induction m as [|a m IH]; intros N H; [cbn; lia|]. cbn [mdeg length]. pose proof (H 0%nat ltac:(cbn; lia)) as H0. cbn [nth] in H0.
  specialize (IH N (fun i Hi => H (S i) ltac:(cbn; lia))). nia.
Qed.
Lemma box_degree d b N f : (forall i, (i < d)%nat -> (b i <= N)%nat) -> box d b f -> degree_space d (d * N) f.
Proof.
  intros H. apply poly_space_weaken. intros m [L B]. split; [exact L|]. rewrite <- L. apply mdeg_bound. intros i Hi. rewrite L in Hi. specialize (H i Hi). specialize (B i Hi). lia.
Qed.
Lemma degree_box d n f : degree_space d n f -> box d (fun _ => n) f.
Proof.
  apply poly_space_weaken. intros m [L D]. split; [exact L|]. intros i Hi.
  assert (G : forall m i, (nth i m 0 <= mdeg m)%nat) by (clear; induction m as [|a m IH]; intros [|i]; cbn; try lia; specialize (IH i); lia). specialize (G m i). lia.
Qed.
Fixpoint set_at (i j : nat) (m : mono) : mono :=
  match m, i with [], _ => [] | _ :: m', O => j :: m' | e :: m', S i' => e :: set_at i' j m' end.
Lemma set_at_length i j m : length (set_at i j m) = length m.
Proof. revert i. induction m as [|a m IH]; intros [|i]; cbn; auto. Qed.
Lemma set_at_nth i j m : forall k, (i < length m)%nat -> nth k (set_at i j m) 0%nat = if (k =? i)%nat then j else nth k m 0%nat.
Proof.
  revert i. induction m as [|a m IH]; intros i k H; [cbn in H; lia|]. destruct i as [|i], k as [|k]; cbn [set_at nth]; try reflexivity. rewrite IH by (cbn in H; lia). reflexivity.
Qed.
Lemma set_at_self i m : (i < length m)%nat -> set_at i (nth i m 0%nat) m = m.
Proof. revert i. induction m as [|a m IH]; intros i H; [cbn in H; lia|]. destruct i as [|i]; cbn [set_at nth]; [reflexivity|]. rewrite IH by (cbn in H; lia). reflexivity. Qed.
Lemma meval_set m : forall i j k v, (i < length m)%nat -> meval_from k (set_at i j m) v = v (k + i)%nat ^ j * meval_from k m (upd v (k + i) 1).
Proof.
  induction m as [|a m IH]; intros i j k v H; [cbn in H; lia|]. destruct i as [|i]; cbn [set_at meval_from].
  - rewrite Nat.add_0_r, upd_same, pow1, meval_from_upd_const by lia. req; ring.
  - rewrite upd_other by lia. rewrite IH by (cbn in H; lia). replace (S k + i)%nat with (k + S i)%nat by lia. req; ring.
Qed.

(** division by v_i - s *)
Lemma pow_div x s k : x ^ k - s ^ k = (x - s) * sum k (fun j => s ^ (k - 1 - j) * x ^ j).
Proof.
  induction k as [|k IH]; [cbn; ring|]. rewrite sum_S. replace (S k - 1 - 0)%nat with k by lia.
  rewrite (sum_ext k _ (fun j => x * (s ^ (k - 1 - j) * x ^ j))); [|intros j Hj; cbv beta; replace (S k - 1 - S j)%nat with (k - 1 - j)%nat by lia; cbn [pow]; req; ring].
  rewrite sum_scal. rewrite Rmult_plus_distr_l. replace ((x - s) * (x * sum k (fun j => s ^ (k - 1 - j) * x ^ j))) with (x * (x ^ k - s ^ k)) by (rewrite IH; ring). cbn [pow]. ring.
Qed.
Lemma box_div d b i s f : (i < d)%nat -> box d b f ->
  exists h, box d (fun j => if (j =? i)%nat then (b i - 1)%nat else b j) h /\ (b i = 0%nat -> forall v, h v = 0) /\ forall v, f v - f (upd v i s) = (v i - s) * h v.
Proof.
  intros Hi. revert f. apply poly_ind.
  - exists (fun _ => 0). split; [apply poly_space_zero|]. split; [reflexivity|intros; ring].
  - intros c m g [Lm Bm] (G & HG & Z & HP). set (k := nth i m 0%nat).
    assert (Hk : (k <= b i)%nat) by (apply Bm, Hi).
    exists (fun v => c * sum k (fun j => s ^ (k - 1 - j) * meval (set_at i j m) v) + G v). split; [|split].
    + apply (poly_space_add _ (fun v => c * sum k (fun j => s ^ (k - 1 - j) * meval (set_at i j m) v)) G); [|exact HG]. apply (poly_space_scale _ c (fun v => sum k (fun j => s ^ (k - 1 - j) * meval (set_at i j m) v))).
      apply sum_poly. intros j Hj. apply poly_space_scale, poly_space_mono. rewrite set_at_length. split; [exact Lm|]. intros a Ha. rewrite set_at_nth by lia.
      destruct (Nat.eqb_spec a i); [lia|apply Bm, Ha].
    + intros B v. rewrite (Z B). replace k with 0%nat by lia. cbn. ring.
    + intros v. rewrite Rmult_plus_distr_l, <- HP.
      assert (E : (v i - s) * (c * sum k (fun j => s ^ (k - 1 - j) * meval (set_at i j m) v)) = c * (v i ^ k - s ^ k) * meval m (upd v i 1)).
      { rewrite (pow_div (v i) s k). rewrite (sum_ext k _ (fun j => meval m (upd v i 1) * (s ^ (k - 1 - j) * v i ^ j))); [rewrite sum_scal; req; ring|].
        intros j _. unfold meval. rewrite (meval_set m i j 0 v) by lia. cbn [Nat.add]. req; ring. }
      rewrite E. rewrite <- (upd_id v i) at 1. rewrite (meval_power m i v (v i)), (meval_power m i v s). fold k. req; ring.
  - intros f g E (G & HG & Z & HP). exists G. split; [exact HG|]. split; [exact Z|]. intros v. rewrite <- !E. apply HP.
Qed.
Lemma box_factor d b i s f : (i < d)%nat -> box d b f -> (forall v, v i = s -> f v = 0) ->
  exists h, box d (fun j => if (j =? i)%nat then (b i - 1)%nat else b j) h /\ (b i = 0%nat -> forall v, h v = 0) /\ forall v, f v = (v i - s) * h v.
Proof.
  intros Hi Hf Z. destruct (box_div d b i s f Hi Hf) as (h & Hh & Zh & E). exists h. split; [exact Hh|]. split; [exact Zh|]. intros v. rewrite <- E, (Z (upd v i s)); [ring|apply upd_same].
Qed.
Lemma linear_factor_zero d n i s g : (i < d)%nat -> degree_space d n g -> (forall v, (v i - s) * g v = 0) -> forall v, g v = 0.
Proof.
  intros Hi Hg Z. apply (simplex_lattice_zero (fun k => INR k + s + 1) d n g); [|exact Hg|].
  - intros a b Hab E. assert (a = b) by (apply INR_eq; lra). lia.
  - intros m Lm Dm. specialize (Z (as_point (map (fun k => INR k + s + 1) m))). apply Rmult_integral in Z. destruct Z as [Z|Z]; [|exact Z]. exfalso.
    unfold as_point in Z. rewrite (CiarletProofs.nth_map_lt (fun k => INR k + s + 1) m i 0%nat) in Z by lia. pose proof (pos_INR (nth i m 0%nat)). lra.
Qed.
Lemma box_bounded d b f : box d b f -> exists n, degree_space d n f.
Proof.
  intros H. exists (d * fold_right Nat.max 0 (map b (seq 0 d)))%nat. apply (box_degree d b); [|exact H]. intros i Hi.
  assert (G : forall l x, In x l -> (x <= fold_right Nat.max 0 l)%nat) by (clear; induction l as [|a l IH]; intros x Hx; [destruct Hx|]; destruct Hx as [->|Hx]; cbn; [lia|specialize (IH x Hx); lia]).
  apply G, in_map, in_seq. lia.
Qed.
(** vanishing at both ends of a variable *)
Lemma box_ends d b i f : (i < d)%nat -> box d b f -> (forall v, v i = 0 -> f v = 0) -> (forall v, v i = 1 -> f v = 0) ->
  exists h, box d (fun j => if (j =? i)%nat then (b i - 2)%nat else b j) h /\ ((b i < 2)%nat -> forall v, h v = 0) /\ forall v, f v = v i * (1 - v i) * h v.
Proof.
  intros Hi Hf Z0 Z1. destruct (box_factor d b i 0 f Hi Hf Z0) as (g & Hg & Zg & Eg).
  assert (G1 : forall v, v i = 1 -> g v = 0). { intros v Hv. specialize (Eg v). rewrite (Z1 v Hv), Hv in Eg. lra. }
  destruct (box_factor d _ i 1 g Hi Hg G1) as (h & Hh & Zh & Eh). rewrite Nat.eqb_refl in Hh, Zh. exists (fun v => - h v). split; [|split].
  - apply (poly_space_ext _ (fun v => -1 * h v)); [intros; ring|]. apply poly_space_scale. eapply box_weaken; [|exact Hh]. intros j _. cbv beta. destruct (Nat.eqb_spec j i); lia.
  - intros B v. rewrite Zh by lia. ring.
  - intros v. rewrite Eg, Eh. ring.
Qed.
(** the zeros of a multiple of v_i(1 - v_i) in another variable *)
Lemma box_zeros d b i j s f h : (i < d)%nat -> (j < d)%nat -> i <> j -> box d b h -> (forall v, f v = v i * (1 - v i) * h v) -> (forall v, v j = s -> f v = 0) -> forall v, v j = s -> h v = 0.
Proof.
  intros Hi Hj Hij Hh E Z. destruct (box_bounded d b h Hh) as [n Hn].
  assert (D : degree_space d n (fun v => h (upd v j s))) by (apply (upd_space d n j h (fun _ => s) Hn); apply degree_const).
  assert (Z2 : forall v, h (upd v j s) = 0).
  { apply (linear_factor_zero d n i 1 _ Hi D). apply (linear_factor_zero d (1 + n) i 0 (fun v => (v i - 1) * h (upd v j s)) Hi).
    - apply (degree_mul d 1 n (fun v => v i - 1) (fun v => h (upd v j s))); [|exact D]. apply (degree_minus d 1 (fun v => v i) (fun _ => 1)); [apply degree_var, Hi|apply degree_const].
    - intros v. pose proof (E (upd v j s)) as Ev. rewrite (Z (upd v j s) (upd_same _ _ _)) in Ev. rewrite upd_other in Ev by exact Hij. rewrite Rminus_0_r.
      transitivity (- (v i * (1 - v i) * h (upd v j s))); [ring|]. rewrite <- Ev. ring. }
  intros v Hv. rewrite <- (Z2 v), <- Hv, upd_id. reflexivity.
Qed.

(** * Integrals *)
Definition unit_limit (k : nat) : ReferencesModel.limit := (k, (fun _ => 0), (fun _ => 1)).
Definition blims (d : nat) : list ReferencesModel.limit := match d with 1 => [unit_limit 0] | 2 => [unit_limit 1; unit_limit 0] | _ => [unit_limit 2; unit_limit 1; unit_limit 0] end%nat.
(** limits that are good and contain the simplex *)
Definition domain_lims (d : nat) (lims : list ReferencesModel.limit) : Prop :=
  good_lims d lims /\ (forall v, inside (slims d) v -> inside lims v) /\ (forall n F, degree_space d n F -> exists I, forall v, iterated_integral lims F v I).
Lemma slims_domain d : (1 <= d <= 3)%nat -> domain_lims d (slims d).
Proof. intros Hd. split; [apply slims_good, Hd|]. split; [auto|]. intros n F HF. exact (simplex_integral d n F Hd HF). Qed.
Lemma blims_good d : (1 <= d <= 3)%nat -> good_lims d (blims d).
Proof.
  intros Hd. assert (C : d = 1%nat \/ d = 2%nat \/ d = 3%nat) by lia. destruct C as [->|[->| ->]]; cbn [blims]; unfold unit_limit; cbn [good_lims inside];
    repeat match goal with |- _ /\ _ => split end;
    try match goal with |- forall e s, _ <-> _ => intros; rewrite ?upd_other by lia; tauto end;
    try match goal with |- forall e, _ -> _ < _ => intros; lra end; try lia; try apply degree_const; try (intros; reflexivity).
Qed.
Lemma box_step k p ls F G v I : (forall e s, F (upd e k s) = s ^ p * G e) -> iterated_integral ls (fun e => / INR (S p) * G e) v I -> iterated_integral (unit_limit k :: ls) F v I.
Proof.
  intros E H. exists (fun e => / INR (S p) * G e). split; [|exact H]. intros e. eapply is_RInt_eq; [apply (int_scal (G e)), (int_pow p 1)| |].
  - intros s _. cbv beta. rewrite (E e s). req; ring.
  - rewrite pow1. req; field. apply not_0_INR. discriminate.
Qed.
Lemma box_mono d m : (1 <= d <= 3)%nat -> length m = d -> exists I, forall v, iterated_integral (blims d) (meval m) v I.
Proof.
  intros Hd L. assert (C : d = 1%nat \/ d = 2%nat \/ d = 3%nat) by lia. destruct C as [->|[->| ->]].
  - destruct m as [|a [|]]; try discriminate L. eexists. intros v. apply (box_step 0 a _ _ (fun _ => 1)); [intros e s; unfold meval; cbn [meval_from]; rewrite upd_same; ring|]. reflexivity.
  - destruct m as [|a [|b [|]]]; try discriminate L. eexists. intros v.
    apply (box_step 1 b _ _ (fun e => e 0%nat ^ a)); [intros e s; unfold meval; cbn [meval_from]; rewrite upd_same, upd_other by lia; ring|].
    apply (box_step 0 a _ _ (fun _ => / INR (S b))); [intros e s; rewrite upd_same; ring|]. reflexivity.
  - destruct m as [|a [|b [|c [|]]]]; try discriminate L. eexists. intros v.
    apply (box_step 2 c _ _ (fun e => e 0%nat ^ a * e 1%nat ^ b)); [intros e s; unfold meval; cbn [meval_from]; rewrite upd_same, !upd_other by lia; ring|].
    apply (box_step 1 b _ _ (fun e => / INR (S c) * e 0%nat ^ a)); [intros e s; rewrite upd_same, !upd_other by lia; ring|].
    apply (box_step 0 a _ _ (fun _ => / INR (S b) * / INR (S c))); [intros e s; rewrite upd_same; ring|]. reflexivity.
Qed.
Lemma blims_domain d : (1 <= d <= 3)%nat -> domain_lims d (blims d).
Proof.
  intros Hd. split; [apply blims_good, Hd|]. split.
  - intros v H. assert (C : d = 1%nat \/ d = 2%nat \/ d = 3%nat) by lia. destruct C as [->|[->| ->]]; cbn [slims blims] in *; unfold seg_lims, tri_lims, tet_lims, unit_limit in *; cbn [inside] in *; lra.
  - intros n. apply poly_ind.
    + exists 0. intros v. apply iterated_zero.
    + intros c m g [L _] [J HJ]. destruct (box_mono d m Hd L) as [I HI]. exists (c * I + J). intros v. apply iterated_lin; [apply HI|apply HJ].
    + intros f g E [I HI]. exists I. intros v. apply (iterated_ext' _ f); [exact E|apply HI].
Qed.
Lemma domain_positive d lims n F : (1 <= d <= 3)%nat -> domain_lims d lims -> degree_space d n F -> (forall e, inside lims e -> 0 <= F e) -> iterated_integral lims F (fun _ => 0) 0 -> forall v, F v = 0.
Proof.
  intros Hd (GL & IL & EL) HF Hp H0. apply (simplex_inside_zero d n F Hd HF). intros e He. apply (zero_iterated d lims GL n F HF Hp); [|apply IL, He].
  intros v. destruct (EL n F HF) as [I HI]. rewrite (iterated_uniq _ _ _ _ _ H0 (HI (fun _ => 0))). apply HI.
Qed.
Lemma inside_box d e i : (1 <= d <= 3)%nat -> inside (blims d) e -> (i < d)%nat -> 0 < e i < 1.
Proof.
  intros Hd H Hi. assert (C : d = 1%nat \/ d = 2%nat \/ d = 3%nat) by lia. destruct C as [->|[->| ->]]; cbn [blims] in H; unfold unit_limit in H; cbn [inside] in H;
    do 3 (destruct i as [|i]; [first [lia|lra]|]); lia.
Qed.

Lemma sum_nonneg N : forall g, (forall i, (i < N)%nat -> 0 <= g i) -> 0 <= sum N g.
Proof. induction N as [|N IH]; intros g H; [cbn; lra|]. rewrite sum_S. pose proof (H 0%nat ltac:(lia)). specialize (IH (fun i => g (S i)) (fun i Hi => H (S i) ltac:(lia))). cbv beta in IH. lra. Qed.
(** * Fields that are positive multiples of test fields *)
Lemma weighted_zero d n (f w h : nat -> sfun) : (1 <= d <= 3)%nat ->
  (forall c, (c < d)%nat -> degree_space d n (h c)) -> (forall c, (c < d)%nat -> degree_space d n (f c)) ->
  (forall c v, (c < d)%nat -> f c v = w c v * h c v) -> (forall c v, (c < d)%nat -> inside (blims d) v -> 0 < w c v) ->
  iterated_integral (blims d) (fun v => sum d (fun c => f c v * h c v)) (fun _ => 0) 0 -> forall c v, (c < d)%nat -> f c v = 0.
Proof.
  intros Hd Hh Hf E Hw H0.
  assert (N : forall v c, inside (blims d) v -> (c < d)%nat -> 0 <= f c v * h c v).
  { intros v c Hv Hc. rewrite (E c v Hc). specialize (Hw c v Hc Hv). nra. }
  assert (Z : forall v, sum d (fun c => f c v * h c v) = 0).
  { apply (domain_positive d (blims d) (n + n)); [exact Hd|apply blims_domain, Hd| | |exact H0].
    - apply sum_poly. intros c Hc. apply degree_mul; [apply Hf, Hc|apply Hh, Hc].
    - intros v Hv. specialize (N v). apply sum_nonneg. intros c Hc. apply N; assumption. }
  assert (ZI : forall v, inside (blims d) v -> forall c, (c < d)%nat -> f c v = 0).
  { intros v Hv c Hc. pose proof (sum_nonneg_zero d (fun c => f c v * h c v) (fun i Hi => N v i Hv Hi) (Z v) c Hc) as P. cbv beta in P. specialize (Hw c v Hc Hv). rewrite (E c v Hc) in P |- *. nra. }
  intros c v Hc. apply (simplex_inside_zero d n (f c) Hd (Hf c Hc)). intros e He. apply ZI; [|exact Hc]. apply (blims_domain d Hd), He.
Qed.
