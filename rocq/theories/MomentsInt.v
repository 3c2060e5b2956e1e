(** Integrals of polynomials over boxes and simplices: existence, positivity, integration by parts. *)
From Coquelicot Require Import Coquelicot.
From Coq Require Import String Arith ZArith Reals Lia Lra Bool List FunctionalExtensionality.
From Verif Require Import Base PolyLib PolySetsModel PolySetsProofs PolyVec LinAlg UnisolvenceProofs LagrangeKey LegendreJacobi LegendreIntSpec LegendreIntegrals KmvProofs.
From Verif Require ReferencesModel.
Import ListNotations.
Local Open Scope R_scope.

(** * Polynomials in one of the variables *)
Lemma meval_from_power m : forall i k e s, meval_from i m (upd e (i + k) s) = s ^ nth k m 0%nat * meval_from i m (upd e (i + k) 1).
Proof.
  induction m as [|a m IH]; intros i k e s; [destruct k; cbn; ring|]. destruct k as [|k]; cbn [meval_from nth].
  - rewrite Nat.add_0_r, !upd_same, pow1. rewrite !meval_from_upd_const by lia. req; ring.
  - rewrite !upd_other by lia. replace (i + S k)%nat with (S i + k)%nat by lia. rewrite (IH (S i) k e s). req; ring.
Qed.
Lemma meval_power m k e s : meval m (upd e k s) = s ^ nth k m 0%nat * meval m (upd e k 1).
Proof. exact (meval_from_power m 0 k e s). Qed.
Lemma upd_upd e k a b : upd (upd e k a) k b = upd e k b.
Proof. apply functional_extensionality. intros j. unfold upd. destruct (Nat.eq_dec j k); reflexivity. Qed.
Lemma upd_id e k : upd e k (e k) = e.
Proof. apply functional_extensionality. intros j. apply upd_self. Qed.

Lemma degree_sum_rpoly d n p : Forall (fun t => length (snd t) = d /\ (mdeg (snd t) <= n)%nat) p -> degree_space d n (reval p).
Proof. intros H. exists p. split; [exact H|reflexivity]. Qed.
Lemma reval_cons c m p v : reval ((c, m) :: p) v = c * meval m v + reval p v.
Proof. reflexivity. Qed.
(** an induction principle for polynomials *)
Lemma poly_ind (ok : mono -> Prop) (Q : sfun -> Prop) :
  Q (fun _ => 0) -> (forall c m g, ok m -> Q g -> Q (fun v => c * meval m v + g v)) ->
  (forall f g, (forall v, f v = g v) -> Q f -> Q g) -> forall f, poly_space ok f -> Q f.
Proof.
  intros H0 H1 H2 f (p & Hp & E). apply (H2 (reval p)); [intros v; symmetry; apply E|]. clear f E.
  induction Hp as [|[c m] p Hm _ IH]; [exact H0|]. exact (H1 c m (reval p) Hm IH).
Qed.

Lemma antiderivative d n k F : (k < d)%nat -> degree_space d n F ->
  exists A, degree_space d (S n) A /\ forall e c, is_RInt (fun s => F (upd e k s)) 0 c (A (upd e k c)).
Proof.
  intros Hk. revert F. apply poly_ind.
  - exists (fun _ => 0). split; [apply poly_space_zero|]. intros e c. apply int_zero.
  - intros c m g [Lm Dm] (A & HA & HI). exists (fun v => c * / INR (S (nth k m 0%nat)) * (v k * meval m v) + A v). split.
    + apply (poly_space_add _ (fun v => c * / INR (S (nth k m 0%nat)) * (v k * meval m v)) A); [|exact HA]. apply (poly_space_scale _ _ (fun v => v k * meval m v)).
      apply (degree_mul d 1 n (fun v => v k) (meval m)); [apply degree_var, Hk|]. apply poly_space_mono. auto.
    + intros e x. apply (int_plus (fun s => c * meval m (upd e k s)) (fun s => g (upd e k s))); [|apply HI].
      eapply is_RInt_eq; [apply (int_scal (c * meval m (upd e k 1))), (int_pow (nth k m 0%nat) x)| |].
      * intros s _. cbv beta. rewrite (meval_power m k e s). req; ring.
      * rewrite (meval_power m k e x), upd_same. cbn [pow]. req; field. apply not_0_INR. discriminate.
  - intros f g E (A & HA & HI). exists A. split; [exact HA|]. intros e c. eapply is_RInt_eq; [apply HI| |reflexivity]. intros s _. apply E.
Qed.
Lemma upd_space d n k A (b : sfun) : degree_space d n A -> degree_space d 1 b -> degree_space d n (fun e => A (upd e k (b e))).
Proof.
  intros HA Hb. apply (poly_space_ext _ (fun e => A (fun j => (if Nat.eq_dec j k then b else fun w : point => w j) e))); [|apply (degree_subst d n d A (fun j => if Nat.eq_dec j k then b else fun w => w j) HA)].
  - intros v. f_equal. apply functional_extensionality. intros j. unfold upd. destruct (Nat.eq_dec j k); reflexivity.
  - intros j Hj. destruct (Nat.eq_dec j k); [exact Hb|apply degree_var, Hj].
Qed.
Lemma inner_integral d n k F lo hi : (k < d)%nat -> degree_space d n F -> degree_space d 1 lo -> degree_space d 1 hi ->
  exists G, degree_space d (S n) G /\ forall e, is_RInt (fun s => F (upd e k s)) (lo e) (hi e) (G e).
Proof.
  intros Hk HF Hl Hh. destruct (antiderivative d n k F Hk HF) as (A & HA & HI).
  exists (fun e => A (upd e k (hi e)) + - (1) * A (upd e k (lo e))). split.
  - apply (poly_space_add _ (fun e => A (upd e k (hi e))) (fun e => - (1) * A (upd e k (lo e)))); [apply upd_space; assumption|].
    apply (poly_space_scale _ (- (1)) (fun e => A (upd e k (lo e)))). apply upd_space; assumption.
  - intros e. pose proof (is_RInt_swap _ _ _ _ (HI e (lo e))) as H1. pose proof (HI e (hi e)) as H2.
    pose proof (is_RInt_Chasles _ _ _ _ _ _ H1 H2) as H3. eapply is_RInt_eq; [exact H3|intros; reflexivity|].
    unfold plus, opp. cbn. req; ring.
Qed.
Lemma poly_line_derivable d n k F e s : degree_space d n F -> exists l, derivable_pt_lim (fun x => F (upd e k x)) s l.
Proof.
  revert F. apply poly_ind.
  - exists 0. apply derivable_pt_lim_const.
  - intros c m g _ (l & Hl). pose proof (meval_partial m k (upd e k s)) as H. unfold is_partial in H. rewrite upd_same in H. eexists.
    apply (derivable_pt_lim_plus (fun x => c * meval m (upd e k x)) (fun x => g (upd e k x))); [|exact Hl].
    apply (derivable_pt_lim_scal (fun x => meval m (upd e k x))). eapply derivable_pt_lim_ext; [|exact H]. intros x. cbv beta. rewrite upd_upd. reflexivity.
  - intros f g E (l & Hl). exists l. eapply derivable_pt_lim_ext; [|exact Hl]. intros x. apply E.
Qed.
Lemma poly_line_continuous d n k F e s : degree_space d n F -> continuous (fun x => F (upd e k x)) s.
Proof.
  intros H. destruct (poly_line_derivable d n k F e s H) as [l Hl]. apply (@ex_derive_continuous R_AbsRing R_NormedModule). exists l. apply is_derive_Reals. exact Hl.
Qed.

(** a non-negative continuous function whose integral is zero vanishes *)
Lemma is_RInt_nonneg (f : R -> R) a b I : a <= b -> is_RInt f a b I -> (forall x, a < x < b -> 0 <= f x) -> 0 <= I.
Proof.
  intros H HI Hp. apply (is_RInt_le (fun _ => 0) f a b 0 I H); [apply int_zero|exact HI|exact Hp].
Qed.
Lemma zero_integral (f : R -> R) a b : (forall x, continuous f x) -> is_RInt f a b 0 -> (forall x, a < x < b -> 0 <= f x) -> forall s, a < s < b -> f s = 0.
Proof.
  intros Hc HI Hp s Hs.
  assert (H : forall x, a < x < b -> is_RInt f a x 0).
  { intros x Hx. destruct (ex_int f a x Hc) as [I1 H1]. destruct (ex_int f x b Hc) as [I2 H2].
    pose proof (is_RInt_Chasles _ _ _ _ _ _ H1 H2) as H3. pose proof (is_RInt_uniq _ _ _ _ _ HI H3) as E. unfold plus in E. cbn in E.
    assert (0 <= I1) by (apply (is_RInt_nonneg f a x); [lra|exact H1|intros; apply Hp; lra]).
    assert (0 <= I2) by (apply (is_RInt_nonneg f x b); [lra|exact H2|intros; apply Hp; lra]).
    assert (I1 = 0) by lra. subst I1. exact H1. }
  assert (D : is_derive (fun _ : R => 0) s (f s)).
  { apply (is_derive_RInt f (fun _ => 0) a s); [|apply Hc].
    assert (P : 0 < Rmin (s - a) (b - s)) by (apply Rmin_pos; lra).
    exists (mkposreal _ P). intros y Hy. unfold ball in Hy. cbn in Hy. unfold AbsRing_ball, abs, minus, plus, opp in Hy. cbn in Hy.
    apply H. pose proof (Rmin_l (s - a) (b - s)). pose proof (Rmin_r (s - a) (b - s)). apply Rabs_def2 in Hy. lra. }
  pose proof (is_derive_unique _ _ _ D) as E. rewrite Derive_const in E. symmetry. exact E.
Qed.

(** * Positivity of iterated integrals *)
(** the points inside the limits *)
Fixpoint inside (lims : list ReferencesModel.limit) (e : point) : Prop :=
  match lims with [] => True | (k, lo, hi) :: ls => lo e < e k < hi e /\ inside ls e end.
Fixpoint good_lims (d : nat) (lims : list ReferencesModel.limit) : Prop :=
  match lims with
  | [] => True
  | (k, lo, hi) :: ls => (k < d)%nat /\ degree_space d 1 lo /\ degree_space d 1 hi /\ (forall e s, lo (upd e k s) = lo e) /\ (forall e s, hi (upd e k s) = hi e) /\
      (forall e s, inside ls (upd e k s) <-> inside ls e) /\ (forall e, inside ls e -> lo e < hi e) /\ good_lims d ls
  end.
Lemma iterated_uniq lims : forall F v I J, iterated_integral lims F v I -> iterated_integral lims F v J -> I = J.
Proof.
  induction lims as [|[[k lo] hi] ls IH]; intros F v I J; cbn [iterated_integral]; [congruence|].
  intros (G & A & B) (G' & A' & B'). apply (IH G v I J B). apply (iterated_ext' ls G' G); [|exact B']. intros e. exact (is_RInt_uniq _ _ _ _ _ (A' e) (A e)).
Qed.
Lemma zero_iterated d lims : good_lims d lims -> forall n F, degree_space d n F -> (forall e, inside lims e -> 0 <= F e) ->
  (forall v, iterated_integral lims F v 0) -> forall e, inside lims e -> F e = 0.
Proof.
  induction lims as [|[[k lo] hi] ls IH]; cbn [iterated_integral good_lims inside]; [intros _ n F _ _ H e _; apply H|].
  intros (Hk & Dl & Dh & Hl & Hh & Hi & Hlt & Hg) n F HF Hp HZ e [He Hin].
  destruct (inner_integral d n k F lo hi Hk HF Dl Dh) as (G & HG & HI).
  assert (In' : forall e s, inside ls e -> lo e < s < hi e -> 0 <= F (upd e k s)).
  { intros e' s H1 H2. apply Hp. rewrite Hl, Hh, upd_same. split; [exact H2|]. apply Hi. exact H1. }
  assert (Z : G e = 0).
  { apply (IH Hg (S n) G HG); [| |exact Hin].
    - intros e' H'. apply (is_RInt_nonneg (fun s => F (upd e' k s)) (lo e') (hi e')); [apply Rlt_le, Hlt, H'|apply HI|]. intros s Hs. apply In'; assumption.
    - intros v. destruct (HZ v) as (G' & HG' & Hv). apply (iterated_ext' ls G' G); [|exact Hv]. intros e'. exact (is_RInt_uniq _ _ _ _ _ (HG' e') (HI e')). }
  specialize (HI e). rewrite Z in HI.
  pose proof (zero_integral _ _ _ (fun x => poly_line_continuous d n k F e x HF) HI (fun s Hs => In' e s Hin Hs) (e k) He) as R. cbv beta in R. rewrite upd_id in R. exact R.
Qed.
Lemma iterated_exists d lims : good_lims d lims -> forall n F v, degree_space d n F -> exists I, iterated_integral lims F v I.
Proof.
  induction lims as [|[[k lo] hi] ls IH]; cbn [iterated_integral good_lims]; [intros _ n F v _; eexists; reflexivity|].
  intros (Hk & Dl & Dh & _ & _ & _ & _ & Hg) n F v HF. destruct (inner_integral d n k F lo hi Hk HF Dl Dh) as (G & HG & HI).
  destruct (IH Hg (S n) G v HG) as [I H]. exists I, G. split; assumption.
Qed.

(** * Simplices *)
Definition seg_lims : list ReferencesModel.limit := [(0%nat, (fun _ => 0), (fun _ => 1))].
Definition slims (d : nat) : list ReferencesModel.limit := match d with 1 => seg_lims | 2 => tri_lims | _ => tet_lims end%nat.
Lemma degree_minus d n f g : degree_space d n f -> degree_space d n g -> degree_space d n (fun v => f v - g v).
Proof.
  intros Hf Hg. apply (poly_space_ext _ (fun v => f v + - (1) * g v)); [intros v; ring|]. apply (poly_space_add _ f (fun v => - (1) * g v)); [exact Hf|]. apply poly_space_scale, Hg.
Qed.
Lemma slims_good d : (1 <= d <= 3)%nat -> good_lims d (slims d).
Proof.
  intros Hd. assert (C : d = 1%nat \/ d = 2%nat \/ d = 3%nat) by lia. destruct C as [->|[->| ->]]; cbn [slims]; unfold seg_lims, tri_lims, tet_lims; cbn [good_lims inside];
    repeat match goal with |- _ /\ _ => split end;
    try match goal with |- forall e s, _ <-> _ => intros; rewrite ?upd_other by lia; tauto end;
    try match goal with |- forall e, _ -> _ < _ => intros; lra end; try lia; try apply degree_const; try (intros; reflexivity); try (intros; rewrite ?upd_other by lia; reflexivity).
  - apply (degree_minus 2 1 (fun _ => 1) (fun v => v 0%nat)); [apply degree_const|apply degree_var; lia].
  - apply (degree_minus 3 1 (fun v => 1 - v 1%nat) (fun v => v 2%nat)); [|apply degree_var; lia]. apply (degree_minus 3 1 (fun _ => 1) (fun v => v 1%nat)); [apply degree_const|apply degree_var; lia].
  - apply (degree_minus 3 1 (fun _ => 1) (fun v => v 2%nat)); [apply degree_const|apply degree_var; lia].
Qed.

(** factorials *)
Fixpoint fprod (m : mono) : R := match m with [] => 1 | e :: m' => INR (fact e) * fprod m' end.
Definition rfact (n : nat) : R := INR (fact n).
Lemma rfact_neq n : rfact n <> 0.
Proof. apply INR_fact_neq_0. Qed.
Lemma rfact_S n : rfact (S n) = INR (S n) * rfact n.
Proof. unfold rfact. rewrite fact_simpl, mult_INR. reflexivity. Qed.
Lemma beta_rfact i k : beta i k = rfact i * rfact k / rfact (i + k + 1).
Proof. pose proof (beta_fact k i) as H. unfold rfact. rewrite <- H. field. apply INR_fact_neq_0. Qed.
Lemma simplex_mono d m v : (1 <= d <= 3)%nat -> length m = d -> iterated_integral (slims d) (meval m) v (fprod m / rfact (mdeg m + d)).
Proof.
  intros Hd L. assert (C : d = 1%nat \/ d = 2%nat \/ d = 3%nat) by lia. destruct C as [->|[->| ->]]; cbn [slims].
  - destruct m as [|a [|]]; try discriminate L. unfold seg_lims. cbn [iterated_integral]. exists (fun _ => / INR (S a)). split.
    + intros e. eapply is_RInt_eq; [apply (int_pow a 1)| |]; [intros x _; unfold meval; cbn [meval_from]; rewrite upd_same; req; ring|rewrite pow1; unfold Rdiv; req; ring].
    + cbn [fprod mdeg]. rewrite Nat.add_0_r, Nat.add_1_r, rfact_S. unfold rfact. field. split; [apply INR_fact_neq_0|apply not_0_INR; discriminate].
  - destruct m as [|a [|b [|]]]; try discriminate L. pose proof (tri_mono a b v) as H.
    replace (fprod [a; b] / rfact (mdeg [a; b] + 2)) with (/ INR (S b) * beta a (S b)); [exact H|].
    rewrite beta_rfact, rfact_S. cbn [fprod mdeg]. replace (a + S b + 1)%nat with (a + (b + 0) + 2)%nat by lia. unfold rfact. field. split; [apply INR_fact_neq_0|apply not_0_INR; discriminate].
  - destruct m as [|a [|b [|c [|]]]]; try discriminate L. pose proof (tet_mono a b c v) as H.
    replace (fprod [a; b; c] / rfact (mdeg [a; b; c] + 3)) with (/ INR (S a) * beta b (S a) * beta c (a + b + 2)); [exact H|].
    rewrite !beta_rfact, rfact_S. cbn [fprod mdeg]. replace (c + (a + b + 2) + 1)%nat with (a + (b + (c + 0)) + 3)%nat by lia. replace (b + S a + 1)%nat with (a + b + 2)%nat by lia.
    unfold rfact. field. repeat split; try apply INR_fact_neq_0. apply not_0_INR; discriminate.
Qed.
(** the integral of a polynomial does not depend on the values of other variables *)
Lemma simplex_integral d n F : (1 <= d <= 3)%nat -> degree_space d n F -> exists I, forall v, iterated_integral (slims d) F v I.
Proof.
  intros Hd. revert F. apply poly_ind.
  - exists 0. intros v. apply iterated_zero.
  - intros c m g [Lm _] [I H]. exists (c * (fprod m / rfact (mdeg m + d)) + I). intros v. apply iterated_lin; [apply simplex_mono; assumption|apply H].
  - intros f g E [I H]. exists I. intros v. apply (iterated_ext' _ f g); [exact E|apply H].
Qed.
Lemma simplex_inside_zero d n f : (1 <= d <= 3)%nat -> degree_space d n f -> (forall e, inside (slims d) e -> f e = 0) -> forall v, f v = 0.
Proof.
  intros Hd Hf H. set (q := fun k : nat => (INR k + 1) / INR (n + d + 1)).
  assert (P : 0 < INR (n + d + 1)) by (apply lt_0_INR; lia).
  assert (Q : forall k, 0 < q k) by (intros k; apply Rdiv_lt_0_compat; [pose proof (pos_INR k); lra|exact P]).
  apply (simplex_lattice_zero q d n f); [|exact Hf|].
  - intros i j Hij E. unfold q in E. assert (X : INR i + 1 = INR j + 1) by (apply (Rmult_eq_reg_r (/ INR (n + d + 1))); [exact E|apply Rinv_neq_0_compat; lra]).
    assert (i = j) by (apply INR_eq; lra). lia.
  - intros m Lm Dm. apply H.
    assert (S : forall l, INR (l + d) < INR (n + d + 1) -> INR (l + d) / INR (n + d + 1) < 1).
    { intros l Hl. apply (Rmult_lt_reg_r (INR (n + d + 1))); [exact P|]. unfold Rdiv. rewrite Rmult_assoc, Rinv_l by lra. lra. }
    specialize (S (mdeg m) ltac:(apply lt_INR; lia)).
    assert (C : d = 1%nat \/ d = 2%nat \/ d = 3%nat) by lia. destruct C as [->|[->| ->]]; cbn [slims]; unfold seg_lims, tri_lims, tet_lims; cbn [inside].
    + destruct m as [|a [|]]; try discriminate Lm. cbn [map as_point nth]. cbn [mdeg] in S. rewrite Nat.add_0_r, plus_INR in S. change (INR 1) with 1 in S. specialize (Q a). unfold as_point; cbn [nth]. unfold q in *. lra.
    + destruct m as [|a [|b [|]]]; try discriminate Lm. unfold as_point. cbn [map nth]. cbn [mdeg] in S. rewrite !plus_INR in S. change (INR 2) with 2 in S. change (INR 0) with 0 in S.
      pose proof (Q a). pose proof (Q b). assert (E : q a + q b = (INR a + (INR b + 0) + 2) / INR (n + 2 + 1)) by (unfold q; field; lra). rewrite !plus_INR in E. change (INR 2) with 2 in E. rewrite <- E in S. lra.
    + destruct m as [|a [|b [|c [|]]]]; try discriminate Lm. unfold as_point. cbn [map nth]. cbn [mdeg] in S. rewrite !plus_INR in S. replace (INR 3) with 3 in S by (simpl; lra). change (INR 0) with 0 in S.
      pose proof (Q a). pose proof (Q b). pose proof (Q c). assert (E : q a + q b + q c = (INR a + (INR b + (INR c + 0)) + 3) / INR (n + 3 + 1)) by (unfold q; field; lra).
      rewrite !plus_INR in E. replace (INR 3) with 3 in E by (simpl; lra). rewrite <- E in S. lra.
Qed.
(** a polynomial that is not negative on the simplex and has integral zero is zero *)
Lemma simplex_positive d n F : (1 <= d <= 3)%nat -> degree_space d n F -> (forall e, inside (slims d) e -> 0 <= F e) -> (exists v, iterated_integral (slims d) F v 0) -> forall v, F v = 0.
Proof.
  intros Hd HF Hp [v0 H0]. apply (simplex_inside_zero d n F Hd HF). apply (zero_iterated d (slims d) (slims_good d Hd) n F HF Hp).
  intros v. destruct (simplex_integral d n F Hd HF) as [I HI]. rewrite (iterated_uniq _ _ _ _ _ H0 (HI v0)). apply HI.
Qed.
Lemma inside_pos d e i : (1 <= d <= 3)%nat -> inside (slims d) e -> (i < d)%nat -> 0 < e i.
Proof.
  intros Hd H Hi. assert (C : d = 1%nat \/ d = 2%nat \/ d = 3%nat) by lia. destruct C as [->|[->| ->]]; cbn [slims] in H; unfold seg_lims, tri_lims, tet_lims in H; cbn [inside] in H;
    do 3 (destruct i as [|i]; [first [lia|lra]|]); lia.
Qed.
