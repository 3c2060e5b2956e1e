(** Fields of serendipity spaces that vanish. *)
From Coquelicot Require Import Coquelicot.
From Coq Require Import String Arith ZArith Reals Lia Lra Bool List FunctionalExtensionality.
From Verif Require Import Base PolyLib PolySetsModel PolySetsProofs PolyVec LinAlg UnisolvenceProofs LagrangeUnisolvence LagrangeKey LegendreJacobi LegendreIntSpec LegendreIntegrals KmvProofs MomentsInt MomentsParts MomentsRT MomentsBox
  PointsModel PointsSpec SerendipitySpec SerendipityKernel SerendipityFieldSpec.
From Verif Require ReferencesModel CiarletProofs.
Import PolyVec ListNotations.
Local Open Scope R_scope.

Definition scaled (t : R) (v : point) : point := fun i => t * v i.
Lemma meval_scaled m t v : meval m (scaled t v) = t ^ mdeg m * meval m v.
Proof.
  unfold meval. generalize 0%nat. induction m as [|e m IH]; intros i; cbn [meval_from mdeg]; [cbn; ring|]. rewrite IH, pow_add. unfold scaled at 1. rewrite Rpow_mult_distr. ring.
Qed.
Lemma homogeneous_scaled d n h t v : H_space d n h -> h (scaled t v) = t ^ n * h v.
Proof.
  revert h. apply (poly_ind _ (fun h => h (scaled t v) = t ^ n * h v)).
  - ring.
  - intros c m g [_ D] IH. cbv beta. rewrite IH, meval_scaled, D. ring.
  - intros f g E IH. rewrite <- !E. exact IH.
Qed.
Lemma below_bounded d n r v : below d n r -> exists C, forall t, 1 <= t -> Rabs (r (scaled t v)) * t <= C * t ^ n.
Proof.
  revert r. apply (poly_ind _ (fun r => exists C, forall t, 1 <= t -> Rabs (r (scaled t v)) * t <= C * t ^ n)).
  - exists 0. intros t Ht. rewrite Rabs_R0. lra.
  - intros c m g [_ D] (C & IH). exists (Rabs (c * meval m v) + C). intros t Ht. specialize (IH t Ht). cbv beta. rewrite meval_scaled.
    assert (A : Rabs (c * (t ^ mdeg m * meval m v)) * t <= Rabs (c * meval m v) * t ^ n).
    { replace (c * (t ^ mdeg m * meval m v)) with (t ^ mdeg m * (c * meval m v)) by ring. rewrite Rabs_mult, (Rabs_right (t ^ mdeg m)) by (apply Rle_ge, pow_le; lra).
      assert (B : t ^ mdeg m * t <= t ^ n). { replace (t ^ mdeg m * t) with (t ^ S (mdeg m)) by (cbn; ring). apply Rle_pow; [exact Ht|lia]. } pose proof (Rabs_pos (c * meval m v)). nra. }
    pose proof (Rabs_triang (c * (t ^ mdeg m * meval m v)) (g (scaled t v))). nra.
  - intros f g E (C & IH). exists C. intros t Ht. rewrite <- E. apply IH, Ht.
Qed.
Lemma homogeneous_below d n h r : H_space d n h -> below d n r -> (forall v, h v = r v) -> forall v, h v = 0.
Proof.
  intros Hh Hr E v. destruct (below_bounded d n r v Hr) as (C & B). destruct (Req_dec (h v) 0) as [|N]; [assumption|exfalso].
  assert (A : 0 < Rabs (h v)) by (apply Rabs_pos_lt, N). set (t := 1 + Rabs C / Rabs (h v)). assert (Ht : 1 <= t) by (unfold t; assert (0 <= Rabs C / Rabs (h v)) by (apply Rmult_le_pos; [apply Rabs_pos|left; apply Rinv_0_lt_compat, A]); lra).
  specialize (B t Ht). rewrite <- E, (homogeneous_scaled d n h t v Hh), Rabs_mult, (Rabs_right (t ^ n)) in B by (apply Rle_ge, pow_le; lra).
  assert (P : 0 < t ^ n) by (apply pow_lt; lra). assert (Q : Rabs (h v) * t <= C). { apply (Rmult_le_reg_l (t ^ n)); [exact P|]. lra. }
  assert (Z : Rabs (h v) * t = Rabs (h v) + Rabs C) by (unfold t; field; lra). pose proof (Rle_abs C). lra.
Qed.
(** the terms of a homogeneous polynomial without a variable *)
Lemma homogeneous_cut d n i h : H_space d n h -> H_space d n (fun v => h (upd v i 0)).
Proof.
  revert h. apply (poly_ind _ (fun h => H_space d n (fun v => h (upd v i 0)))).
  - apply poly_space_zero.
  - intros c m g Om IH. apply (poly_space_add _ (fun v => c * meval m (upd v i 0)) (fun v => g (upd v i 0))); [|exact IH]. apply (poly_space_scale _ c (fun v => meval m (upd v i 0))).
    destruct (Nat.eq_dec (nth i m 0%nat) 0) as [Z|Z].
    + apply (poly_space_ext _ (meval m)); [|apply poly_space_mono, Om]. intros v. rewrite <- (upd_id v i) at 1. rewrite (meval_power m i v (v i)), (meval_power m i v 0), Z. reflexivity.
    + apply (poly_space_ext _ (fun _ => 0)); [|apply poly_space_zero]. intros v. rewrite (meval_power m i v 0), pow_i by lia. ring.
  - intros f g E IH. exact (poly_space_ext _ _ _ (fun v => E (upd v i 0)) IH).
Qed.
Lemma lowered_below d i n m : (i < d)%nat -> lowered d i 1 (fun m => length m = d /\ (mdeg m <= n)%nat) m -> (mdeg m < n)%nat.
Proof.
  intros Hi (L & m0 & [L0 D0] & _ & B & E). assert (G : forall m m0 i, length m = length m0 -> (i < length m)%nat -> (nth i m 0 + 1 <= nth i m0 0)%nat -> (forall j, j <> i -> nth j m 0%nat = nth j m0 0%nat) -> (mdeg m < mdeg m0)%nat).
  { clear. induction m as [|a m IH]; intros [|b m0] i L Hi B E; try discriminate L; [cbn in Hi; lia|]. cbn [mdeg]. destruct i as [|i].
    - cbn [nth] in B. assert (mdeg m <= mdeg m0)%nat; [|lia]. apply mdeg_le; [cbn in L; lia|]. intros j. specialize (E (S j) ltac:(lia)). cbn [nth] in E. lia.
    - pose proof (E 0%nat ltac:(lia)) as E0. cbn [nth] in E0. specialize (IH m0 i ltac:(cbn in L; lia) ltac:(cbn in Hi; lia) B (fun j Hj => E (S j) ltac:(lia))). lia. }
  specialize (G m m0 i ltac:(lia) ltac:(lia) B E). lia.
Qed.
Lemma divided d i n (f : sfun) : (i < d)%nat -> degree_space d n f -> exists g, below d n g /\ forall v, f v = f (upd v i 0) + v i * g v.
Proof.
  intros Hi Hf. destruct (poly_div d (fun m => length m = d /\ (mdeg m <= n)%nat) i 0 f Hi (fun m H => proj1 H) Hf) as (g & Hg & E). exists g. split.
  - eapply poly_space_weaken; [|exact Hg]. intros m Hm. split; [apply Hm|apply (lowered_below d i n m Hi Hm)].
  - intros v. specialize (E v). lra.
Qed.
Lemma below_upd d n i s g : (i < d)%nat -> below d n g -> below d n (fun v => g (upd v i s)).
Proof.
  intros Hi Hg. destruct n as [|n]; [apply (poly_space_ext _ (fun _ => 0)); [intros v; symmetry; apply (below_zero d g Hg)|apply poly_space_zero]|].
  apply below_S. apply below_S in Hg. apply (upd_space d n i g (fun _ => s) Hg). apply (degree_const d 1).
Qed.
(** a polynomial of degree n plus a variable times a homogeneous one of degree n, zero where the variable is 0 or 1 *)
Lemma ends_cut d n i (p G : sfun) : (i < d)%nat -> degree_space d n p -> H_space d n G ->
  (forall v, v i = 0 -> p v + v i * G v = 0) -> (forall v, v i = 1 -> p v + v i * G v = 0) -> forall v, v i = 0 -> G v = 0.
Proof.
  intros Hi Hp HG Z0 Z1 v Hv. destruct (divided d i n p Hi Hp) as (p' & Hp' & Ep).
  assert (DG : degree_space d n G) by (eapply poly_space_weaken; [|exact HG]; intros m [L D]; split; [exact L|lia]). destruct (divided d i n G Hi DG) as (G' & HG' & EG).
  assert (Q : forall w, G (upd w i 0) = 0).
  { apply (homogeneous_below d n (fun w => G (upd w i 0)) (fun w => -1 * (p' (upd w i 1) + G' (upd w i 1)))).
    - apply homogeneous_cut, HG.
    - apply (poly_space_scale _ (-1) (fun w => p' (upd w i 1) + G' (upd w i 1))). apply (poly_space_add _ (fun w => p' (upd w i 1)) (fun w => G' (upd w i 1))); apply below_upd; assumption.
    - intros w. specialize (Z1 (upd w i 1) (upd_same _ _ _)). rewrite Ep, EG in Z1. rewrite !upd_upd, !upd_same in Z1.
      pose proof (Z0 (upd w i 0) (upd_same _ _ _)) as Z. rewrite upd_same in Z. lra. }
  specialize (Q v). rewrite <- Hv, upd_id, Hv in Q. exact Q.
Qed.
(** on the cube *)
Lemma without_homogeneous i n h : H_without i n h -> H_space 3 n h.
Proof. apply poly_space_weaken. tauto. Qed.
Lemma without_upd i n h v s : H_without i n h -> h (upd v i s) = h v.
Proof.
  revert h. apply (poly_ind _ (fun h => h (upd v i s) = h v)).
  - reflexivity.
  - intros c m g (_ & _ & Z) IH. cbv beta. rewrite IH. f_equal. f_equal. rewrite <- (upd_id v i) at 2. rewrite (meval_power m i v (v i)), (meval_power m i v s), Z. reflexivity.
  - intros f g E IH. rewrite <- !E. exact IH.
Qed.
Definition pt3 (x y z : R) : point := fun i => match i with O => x | S O => y | S (S O) => z | _ => 0 end.
Lemma pt3_eta d n h v : (d <= 3)%nat -> degree_space d n h -> h v = h (pt3 (v 0%nat) (v 1%nat) (v 2%nat)).
Proof. intros Hd Hh. apply (degree_local d n h _ _ Hh). intros [|[|[|i]]] Hi; try reflexivity; lia. Qed.
Lemma H_degree d n h : H_space d n h -> degree_space d n h.
Proof. apply poly_space_weaken. intros m [L D]. split; [exact L|lia]. Qed.
Ltac at3 D := apply (degree_local 3 _ _ _ _ D); let i := fresh in let H := fresh in intros [|[|[|i]]] H; try lia; first [reflexivity | cbn; ring | unfold scaled, pt3; ring].
Lemma without_0 n h x y z : H_without 0 n h -> h (pt3 x y z) = h (pt3 0 y z).
Proof. intros H. pose proof (H_degree _ _ _ (without_homogeneous _ _ _ H)) as D. rewrite <- (without_upd 0 n h (pt3 x y z) 0 H). at3 D. Qed.
Lemma without_1 n h x y z : H_without 1 n h -> h (pt3 x y z) = h (pt3 x 0 z).
Proof. intros H. pose proof (H_degree _ _ _ (without_homogeneous _ _ _ H)) as D. rewrite <- (without_upd 1 n h (pt3 x y z) 0 H). at3 D. Qed.
Lemma without_2 n h x y z : H_without 2 n h -> h (pt3 x y z) = h (pt3 x y 0).
Proof. intros H. pose proof (H_degree _ _ _ (without_homogeneous _ _ _ H)) as D. rewrite <- (without_upd 2 n h (pt3 x y z) 0 H). at3 D. Qed.
Lemma H_axes n h : (1 <= n)%nat -> H_space 3 n h -> h (pt3 0 0 0) = 0 /\ (forall s, h (pt3 s 0 0) = s ^ n * h (pt3 1 0 0)) /\ (forall s, h (pt3 0 s 0) = s ^ n * h (pt3 0 1 0)) /\ (forall s, h (pt3 0 0 s) = s ^ n * h (pt3 0 0 1)).
Proof.
  intros Hn H. pose proof (H_degree _ _ _ H) as D. split; [|repeat split; intros s].
  - transitivity (h (scaled 0 (pt3 1 1 1))); [at3 D|]. rewrite (homogeneous_scaled 3 n h 0 _ H), pow_i by lia. ring.
  - rewrite <- (homogeneous_scaled 3 n h s _ H). at3 D.
  - rewrite <- (homogeneous_scaled 3 n h s _ H). at3 D.
  - rewrite <- (homogeneous_scaled 3 n h s _ H). at3 D.
Qed.
Lemma two_relations n a b : (1 <= n)%nat -> INR (n + 2) * a = b \/ INR (n + 2) * a = - b -> INR (n + 2) * b = a \/ INR (n + 2) * b = - a -> a = 0 /\ b = 0.
Proof.
  intros Hn H1 H2. assert (B : 3 <= INR (n + 2)) by (replace 3 with (INR 3) by (cbn; ring); apply le_INR; lia). set (k := INR (n + 2)) in *. assert (Q : (k * k - 1) * a = 0 \/ (k * k + 1) * a = 0).
  { destruct H1 as [<-|H1]; [|assert (b = - (k * a)) by lra; subst b]; (destruct H2 as [H2|H2]; [left|right]; nra) || (destruct H2 as [H2|H2]; [right|left]; nra). }
  assert (a = 0) by (destruct Q as [Q|Q]; apply Rmult_integral in Q; destruct Q as [Q|Q]; nra). subst a. split; [reflexivity|]. destruct H1; nra.
Qed.
Lemma rigid3 n h1 h2 h3 : (1 <= n)%nat -> H_without 0 n h1 -> H_without 1 n h2 -> H_without 2 n h3 ->
  (forall v, v 0%nat = 0 -> - INR (n + 2) * h1 v - h2 v + h3 v = 0) -> (forall v, v 1%nat = 0 -> h1 v + INR (n + 2) * h2 v + h3 v = 0) ->
  (forall v, v 2%nat = 0 -> h1 v - h2 v - INR (n + 2) * h3 v = 0) -> forall v, h1 v = 0 /\ h2 v = 0 /\ h3 v = 0.
Proof.
  intros Hn H1 H2 H3 A B C. pose proof (without_homogeneous _ _ _ H1) as G1. pose proof (without_homogeneous _ _ _ H2) as G2. pose proof (without_homogeneous _ _ _ H3) as G3.
  destruct (H_axes n h1 Hn G1) as (O1 & X1 & Y1 & Z1). destruct (H_axes n h2 Hn G2) as (O2 & X2 & Y2 & Z2). destruct (H_axes n h3 Hn G3) as (O3 & X3 & Y3 & Z3).
  assert (P : 3 <= INR (n + 2)) by (replace 3 with (INR 3) by (cbn; ring); apply le_INR; lia).
  pose proof (A (pt3 0 1 0) eq_refl) as Ay. pose proof (A (pt3 0 0 1) eq_refl) as Az. pose proof (B (pt3 1 0 0) eq_refl) as Bx. pose proof (B (pt3 0 0 1) eq_refl) as Bz. pose proof (C (pt3 1 0 0) eq_refl) as Cx. pose proof (C (pt3 0 1 0) eq_refl) as Cy.
  rewrite (without_1 n h2 _ _ _ H2), O2 in Ay, Cy. rewrite (without_2 n h3 _ _ _ H3), O3 in Az, Bz. rewrite (without_0 n h1 _ _ _ H1), O1 in Bx, Cx.
  destruct (two_relations n (h1 (pt3 0 1 0)) (h3 (pt3 0 1 0)) Hn) as [E1 E2]; [lra|lra|]. destruct (two_relations n (h1 (pt3 0 0 1)) (h2 (pt3 0 0 1)) Hn) as [E3 E4]; [lra|lra|]. destruct (two_relations n (h2 (pt3 1 0 0)) (h3 (pt3 1 0 0)) Hn) as [E5 E6]; [lra|lra|].
  assert (V : forall x y z, h1 (pt3 x y z) = 0 /\ h2 (pt3 x y z) = 0 /\ h3 (pt3 x y z) = 0).
  { intros x y z. split; [|split].
    - rewrite (without_0 n h1 _ _ _ H1). specialize (A (pt3 0 y z) eq_refl). rewrite (without_1 n h2 _ _ _ H2), Z2, E4, (without_2 n h3 _ _ _ H3), Y3, E2 in A. nra.
    - rewrite (without_1 n h2 _ _ _ H2). specialize (B (pt3 x 0 z) eq_refl). rewrite (without_0 n h1 _ _ _ H1), Z1, E3, (without_2 n h3 _ _ _ H3), X3, E6 in B. nra.
    - rewrite (without_2 n h3 _ _ _ H3). specialize (C (pt3 x y 0) eq_refl). rewrite (without_0 n h1 _ _ _ H1), Y1, E1, (without_1 n h2 _ _ _ H2), X2, E5 in C. nra. }
  intros v. rewrite (pt3_eta 3 n h1 v ltac:(lia) (H_degree _ _ _ G1)), (pt3_eta 3 n h2 v ltac:(lia) (H_degree _ _ _ G2)), (pt3_eta 3 n h3 v ltac:(lia) (H_degree _ _ _ G3)). apply V.
Qed.

(** a field of degree n whose component c vanishes where variable ax c is 0 or 1 *)
Lemma low_zero d n (ax : nat -> nat) (f : nat -> sfun) : (1 <= d <= 3)%nat -> (forall c, (c < d)%nat -> (ax c < d)%nat) -> (forall c, (c < d)%nat -> degree_space d n (f c)) ->
  (forall c v, (c < d)%nat -> v (ax c) = 0 \/ v (ax c) = 1 -> f c v = 0) ->
  (forall psi : nat -> sfun, (2 <= n)%nat -> (forall c, (c < d)%nat -> P_space d (n - 2) (psi c)) -> iterated_integral (blims d) (fun v => sum d (fun c => f c v * psi c v)) (fun _ => 0) 0) ->
  forall c v, (c < d)%nat -> f c v = 0.
Proof.
  intros Hd Hax Hf Z HI.
  assert (H : exists h : nat -> sfun, forall c, (c < d)%nat -> poly_space (fun m => length m = d /\ (mdeg m + 2 <= n)%nat) (h c) /\ forall v, f c v = v (ax c) * (1 - v (ax c)) * h c v).
  { assert (X : forall N, (N <= d)%nat -> exists h : nat -> sfun, forall c, (c < N)%nat -> poly_space (fun m => length m = d /\ (mdeg m + 2 <= n)%nat) (h c) /\ forall v, f c v = v (ax c) * (1 - v (ax c)) * h c v); [|apply (X d); lia].
    induction N as [|N IH]; intros HN; [exists (fun _ _ => 0); intros; lia|]. destruct (IH ltac:(lia)) as (h & Hh).
    destruct (poly_ends d (fun m => length m = d /\ (mdeg m <= n)%nat) (ax N) (f N)) as (g & Hg & Eg); [apply Hax; lia|tauto|apply Hf; lia|intros v Hv; apply Z; [lia|tauto]|intros v Hv; apply Z; [lia|tauto]|].
    exists (fun c => if (c =? N)%nat then g else h c). intros c Hc. destruct (Nat.eqb_spec c N) as [->|Ne]; [|apply Hh; lia]. split; [|exact Eg].
    eapply poly_space_weaken; [|exact Hg]. intros m (L & m0 & [L0 D0] & _ & B & E). split; [exact L|].
    assert (G : forall m m0 i, length m = length m0 -> (nth i m 0 + 2 <= nth i m0 0)%nat -> (forall j, j <> i -> nth j m 0%nat = nth j m0 0%nat) -> (mdeg m + 2 <= mdeg m0)%nat).
    { clear. induction m as [|a m IH]; intros [|b m0] i L B E; try discriminate L; [destruct i; cbn in B; lia|]. cbn [mdeg]. destruct i as [|i].
      - cbn [nth] in B. assert (mdeg m <= mdeg m0)%nat; [|lia]. apply mdeg_le; [cbn in L; lia|]. intros j. specialize (E (S j) ltac:(lia)). cbn [nth] in E. lia.
      - pose proof (E 0%nat ltac:(lia)) as E0. cbn [nth] in E0. specialize (IH m0 i ltac:(cbn in L; lia) B (fun j Hj => E (S j) ltac:(lia))). lia. }
    specialize (G m m0 (ax N) ltac:(lia) B E). lia. }
  destruct H as (h & Hh). destruct (Nat.lt_ge_cases n 2) as [Hn|Hn].
  - intros c v Hc. destruct (Hh c Hc) as [(q & Hq & Eq) E]. rewrite E, Eq. destruct q as [|t q]; [cbn; ring|]. inversion Hq as [|? ? [_ Ht] _]; subst. lia.
  - assert (Ph : forall c, (c < d)%nat -> P_space d (n - 2) (h c)) by (intros c Hc; eapply poly_space_weaken; [|apply (Hh c Hc)]; intros m [L D]; split; [exact L|lia]).
    apply (weighted_zero d n f (fun c v => v (ax c) * (1 - v (ax c))) h Hd); [intros c Hc; apply (degree_weaken d (n - 2)); [lia|apply Ph, Hc]|exact Hf|intros c v Hc; apply Hh, Hc| |apply HI; assumption].
    intros c v Hc Hv. pose proof (inside_box d v (ax c) Hd Hv (Hax c Hc)). apply Rmult_lt_0_compat; lra.
Qed.
