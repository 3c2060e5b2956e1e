(** Polynomials of bounded superlinear degree that vanish on the boundary of the unit interval, square or cube. *)
From Coquelicot Require Import Coquelicot.
From Coq Require Import String Arith ZArith Reals Lia Lra Bool List FunctionalExtensionality.
From Verif Require Import Base PolyLib PolySetsModel PolySetsProofs PolyVec LinAlg UnisolvenceProofs LagrangeUnisolvence LagrangeKey LegendreJacobi LegendreIntSpec LegendreIntegrals KmvProofs MomentsInt MomentsParts MomentsRT MomentsBox
  PointsSpec SerendipitySpec.
From Verif Require ReferencesModel CiarletProofs.
Import PolyVec ListNotations.
Local Open Scope R_scope.

(** m' is m with the exponent of variable i lowered by at least k *)
Definition lowered (d i k : nat) (ok : mono -> Prop) (m' : mono) : Prop :=
  length m' = d /\ exists m, ok m /\ length m = d /\ (nth i m' 0 + k <= nth i m 0)%nat /\ forall j, j <> i -> nth j m' 0%nat = nth j m 0%nat.
Lemma poly_div d (ok : mono -> Prop) i s (f : sfun) : (i < d)%nat -> (forall m, ok m -> length m = d) -> poly_space ok f ->
  exists h, poly_space (lowered d i 1 ok) h /\ forall v, f v - f (upd v i s) = (v i - s) * h v.
Proof.
  intros Hi Hl. revert f. apply poly_ind.
  - exists (fun _ => 0). split; [apply poly_space_zero|]. intros; ring.
  - intros c m g Om (G & HG & HP). pose proof (Hl m Om) as Lm. set (k := nth i m 0%nat).
    exists (fun v => c * sum k (fun j => s ^ (k - 1 - j) * meval (set_at i j m) v) + G v). split.
    + apply (poly_space_add _ (fun v => c * sum k (fun j => s ^ (k - 1 - j) * meval (set_at i j m) v)) G); [|exact HG]. apply (poly_space_scale _ c (fun v => sum k (fun j => s ^ (k - 1 - j) * meval (set_at i j m) v))).
      apply sum_poly. intros j Hj. apply poly_space_scale, poly_space_mono. split; [rewrite set_at_length; exact Lm|]. exists m. split; [exact Om|]. split; [exact Lm|]. split.
      * rewrite set_at_nth, Nat.eqb_refl by lia. fold k. lia.
      * intros a Ha. rewrite set_at_nth by lia. rewrite (proj2 (Nat.eqb_neq a i) Ha). reflexivity.
    + intros v. rewrite Rmult_plus_distr_l, <- HP.
      assert (E : (v i - s) * (c * sum k (fun j => s ^ (k - 1 - j) * meval (set_at i j m) v)) = c * (v i ^ k - s ^ k) * meval m (upd v i 1)).
      { rewrite (pow_div (v i) s k). rewrite (sum_ext k _ (fun j => meval m (upd v i 1) * (s ^ (k - 1 - j) * v i ^ j))); [rewrite sum_scal; req; ring|].
        intros j _. unfold meval. rewrite (meval_set m i j 0 v) by lia. cbn [Nat.add]. req; ring. }
      rewrite E. rewrite <- (upd_id v i) at 1. rewrite (meval_power m i v (v i)), (meval_power m i v s). fold k. req; ring.
  - intros f g E (G & HG & HP). exists G. split; [exact HG|]. intros v. rewrite <- !E. apply HP.
Qed.
Lemma poly_ends d (ok : mono -> Prop) i (f : sfun) : (i < d)%nat -> (forall m, ok m -> length m = d) -> poly_space ok f -> (forall v, v i = 0 -> f v = 0) -> (forall v, v i = 1 -> f v = 0) ->
  exists h, poly_space (lowered d i 2 ok) h /\ forall v, f v = v i * (1 - v i) * h v.
Proof.
  intros Hi Hl Hf Z0 Z1. destruct (poly_div d ok i 0 f Hi Hl Hf) as (g & Hg & Eg).
  assert (Fg : forall v, f v = v i * g v) by (intros v; rewrite <- (Rminus_0_r (f v)), <- (Z0 (upd v i 0) (upd_same _ _ _)), Eg; ring).
  assert (G1 : forall v, v i = 1 -> g v = 0). { intros v Hv. specialize (Fg v). rewrite (Z1 v Hv), Hv in Fg. lra. }
  destruct (poly_div d _ i 1 g Hi (fun m H => proj1 H) Hg) as (h & Hh & Eh). exists (fun v => - h v). split.
  - apply (poly_space_ext _ (fun v => -1 * h v)); [intros; ring|]. apply poly_space_scale. eapply poly_space_weaken; [|exact Hh].
    intros m (L & m1 & (L1 & m2 & O2 & L2 & B2 & E2) & _ & B1 & E1). split; [exact L|]. exists m2. split; [exact O2|]. split; [exact L2|]. split; [lia|]. intros j Hj. rewrite (E1 j Hj). apply E2, Hj.
  - intros v. rewrite Fg. assert (E : g v = (v i - 1) * h v) by (rewrite <- Eh, (G1 (upd v i 1) (upd_same _ _ _)); ring). rewrite E. ring.
Qed.
(** zeros pass to the quotient *)
Lemma poly_zeros d N i j s f h : (i < d)%nat -> (j < d)%nat -> i <> j -> degree_space d N h -> (forall v, f v = v i * (1 - v i) * h v) -> (forall v, v j = s -> f v = 0) -> forall v, v j = s -> h v = 0.
Proof. intros Hi Hj Hij Hh. apply (box_zeros d (fun _ => N) i j s f h Hi Hj Hij). apply degree_box, Hh. Qed.

(** all variables from k on divided out *)
Definition bubble (k : nat) (v : point) : R := (fix go j := match j with O => 1 | S j' => go j' * (v j' * (1 - v j')) end) k.
Lemma bubble_S k v : bubble (S k) v = bubble k v * (v k * (1 - v k)). Proof. reflexivity. Qed.
Definition reduced (d k n : nat) (m' : mono) : Prop :=
  length m' = d /\ exists m, length m = d /\ (superlinear m <= n)%nat /\ (forall i, (i < k)%nat -> (nth i m' 0 + 2 <= nth i m 0)%nat) /\ forall j, (k <= j)%nat -> nth j m' 0%nat = nth j m 0%nat.
Lemma superlinear_entry m : (mdeg m <= superlinear m + length m)%nat.
Proof. induction m as [|a m IH]; [reflexivity|]. cbn [mdeg superlinear length]. destruct a as [|[|a]]; lia. Qed.
Lemma mdeg_le m m' : length m = length m' -> (forall i, (nth i m 0 <= nth i m' 0)%nat) -> (mdeg m <= mdeg m')%nat.
Proof.
  revert m'. induction m as [|a m IH]; intros [|a' m'] L H; try discriminate L; [reflexivity|]. cbn [mdeg]. pose proof (H 0%nat) as H0. cbn [nth] in H0.
  specialize (IH m' ltac:(cbn in L; lia) (fun i => H (S i))). lia.
Qed.
Lemma reduced_degree d k n m : reduced d k n m -> (mdeg m <= n + d)%nat.
Proof.
  intros (L & m0 & L0 & S0 & B & E). pose proof (superlinear_entry m0). assert (mdeg m <= mdeg m0)%nat; [|lia]. apply mdeg_le; [lia|].
  intros i. destruct (Nat.lt_ge_cases i k) as [H1|H1]; [specialize (B i H1); lia|rewrite (E i H1); lia].
Qed.
Lemma reduced_space d k n f : poly_space (reduced d k n) f -> degree_space d (n + d) f.
Proof. apply poly_space_weaken. intros m H. split; [apply H|apply (reduced_degree d k n m H)]. Qed.
Lemma divide_out d n f : serendipity_space d n f -> (forall i v, (i < d)%nat -> v i = 0 \/ v i = 1 -> f v = 0) ->
  forall k, (k <= d)%nat -> exists h, poly_space (reduced d k n) h /\ (forall v, f v = bubble k v * h v) /\ (forall i v, (k <= i < d)%nat -> v i = 0 \/ v i = 1 -> h v = 0).
Proof.
  intros Hf Z. induction k as [|k IH]; intros Hk.
  - exists f. split; [|split; [intros v; cbn; ring|intros i v Hi; apply Z; lia]]. eapply poly_space_weaken; [|exact Hf]. intros m [L S]. split; [exact L|]. exists m. repeat split; try assumption; lia.
  - destruct (IH ltac:(lia)) as (h & Hh & E & Zh).
    destruct (poly_ends d (reduced d k n) k h ltac:(lia) (fun m H => proj1 H) Hh) as (g & Hg & Eg); [intros v Hv; apply (Zh k v); [lia|tauto]|intros v Hv; apply (Zh k v); [lia|tauto]|].
    assert (Hg' : poly_space (reduced d (S k) n) g).
    { eapply poly_space_weaken; [|exact Hg]. intros m (L & m1 & (L1 & m2 & L2 & S2 & B2 & E2) & _ & B1 & E1). split; [exact L|]. exists m2. split; [exact L2|]. split; [exact S2|]. split.
      - intros i Hi. destruct (Nat.eq_dec i k) as [->|N]; [rewrite <- (E2 k) by lia; exact B1|]. rewrite (E1 i N). apply B2. lia.
      - intros j Hj. rewrite (E1 j) by lia. apply E2. lia. }
    exists g. split; [exact Hg'|]. split; [intros v; rewrite bubble_S, E, Eg; ring|].
    intros i v Hi [Hv|Hv].
    + apply (poly_zeros d (n + d) k i 0 h g); try lia; [apply (reduced_space d (S k)), Hg'|exact Eg|intros w Hw; apply (Zh i w); [lia|tauto]|exact Hv].
    + apply (poly_zeros d (n + d) k i 1 h g); try lia; [apply (reduced_space d (S k)), Hg'|exact Eg|intros w Hw; apply (Zh i w); [lia|tauto]|exact Hv].
Qed.
Lemma superlinear_full m : (forall i, (i < length m)%nat -> (2 <= nth i m 0)%nat) -> superlinear m = mdeg m.
Proof.
  induction m as [|a m IH]; intros H; [reflexivity|]. cbn [superlinear mdeg]. rewrite IH by (intros i Hi; apply (H (S i)); cbn; lia). specialize (H 0%nat ltac:(cbn; lia)). cbn [nth] in H. destruct a as [|[|a]]; lia.
Qed.
Lemma mdeg_shift k m : forall m', length m = length m' -> (forall i, (i < length m)%nat -> (nth i m 0 + k <= nth i m' 0)%nat) -> (mdeg m + k * length m <= mdeg m')%nat.
Proof.
  induction m as [|a m IH]; intros [|a' m'] L H; try discriminate L; [cbn; lia|]. cbn [mdeg length]. pose proof (H 0%nat ltac:(cbn; lia)) as H0. cbn [nth] in H0.
  specialize (IH m' ltac:(cbn in L; lia) (fun i Hi => H (S i) ltac:(cbn; lia))). lia.
Qed.
Lemma reduced_full d n m : reduced d d n m -> (mdeg m + 2 * d <= n)%nat.
Proof.
  intros (L & m0 & L0 & S0 & B & _). rewrite superlinear_full in S0 by (intros i Hi; specialize (B i ltac:(lia)); lia). pose proof (mdeg_shift 2 m m0 ltac:(lia)) as H. rewrite L in H. specialize (H B). lia.
Qed.
Lemma bubble_positive d v : (1 <= d <= 3)%nat -> inside (blims d) v -> 0 < bubble d v.
Proof.
  intros Hd Hv. assert (G : forall k, (k <= d)%nat -> 0 < bubble k v); [|apply G; lia]. induction k as [|k IH]; intros Hk; [cbn; lra|]. rewrite bubble_S. pose proof (inside_box d v k Hd Hv ltac:(lia)).
  apply Rmult_lt_0_compat; [apply IH; lia|]. apply Rmult_lt_0_compat; lra.
Qed.
Lemma bubble_space d k : (k <= d)%nat -> degree_space d (2 * k) (bubble k).
Proof.
  induction k as [|k IH]; intros Hk; [apply (degree_const d 0)|]. replace (2 * S k)%nat with (2 * k + 2)%nat by lia. apply (degree_mul d (2 * k) 2 (bubble k) (fun v => v k * (1 - v k))); [apply IH; lia|].
  apply (degree_mul d 1 1 (fun v => v k) (fun v => 1 - v k)); [apply degree_var; lia|]. apply (degree_minus d 1 (fun _ => 1) (fun v => v k)); [apply degree_const|apply degree_var; lia].
Qed.
(** a function that vanishes on the boundary and whose moments inside vanish is zero *)
Lemma serendipity_zero d n f : (1 <= d <= 3)%nat -> serendipity_space d n f -> (forall i v, (i < d)%nat -> v i = 0 \/ v i = 1 -> f v = 0) ->
  ((2 * d <= n)%nat -> forall q, P_space d (n - 2 * d) q -> iterated_integral (blims d) (fun v => f v * q v) (fun _ => 0) 0) -> forall v, f v = 0.
Proof.
  intros Hd Hf Z HI. destruct (divide_out d n f Hf Z d ltac:(lia)) as (h & Hh & E & _).
  destruct (Nat.lt_ge_cases n (2 * d)) as [Hn|Hn].
  - assert (Zh : forall v, h v = 0).
    { destruct Hh as (p & Hp & Eh). destruct p as [|t p]; [intros v; rewrite Eh; reflexivity|]. inversion Hp as [|t' p' Ht _]; subst. apply reduced_full in Ht. lia. }
    intros v. rewrite E, Zh. ring.
  - assert (Ph : P_space d (n - 2 * d) h). { eapply poly_space_weaken; [|exact Hh]. intros m Hm. split; [apply Hm|]. apply reduced_full in Hm. lia. }
    specialize (HI Hn h Ph). set (N := (n - 2 * d)%nat) in *.
    assert (Fd : degree_space d (2 * d + N) f) by (apply (poly_space_ext _ (fun v => bubble d v * h v)); [intros; symmetry; apply E|apply (degree_mul d (2 * d) N (bubble d) h); [apply bubble_space; lia|exact Ph]]).
    assert (Q : forall v, f v * h v = 0).
    { apply (domain_positive d (blims d) (2 * d + N + N)); [exact Hd|apply blims_domain, Hd|apply degree_mul; assumption| |exact HI]. intros v Hv. rewrite E. pose proof (bubble_positive d v Hd Hv). nra. }
    apply (simplex_inside_zero d (2 * d + N) f Hd Fd). intros v Hv. assert (Hv' : inside (blims d) v) by (apply (blims_domain d Hd), Hv). specialize (Q v). pose proof (bubble_positive d v Hd Hv') as B. rewrite E in Q |- *.
    assert (h v * h v = 0) by (apply (Rmult_eq_reg_l (bubble d v)); [lra|lra]). assert (h v = 0) by nra. rewrite H0. ring.
Qed.
