(** The basis functions of the Taylor element in closed form. *)
From Coquelicot Require Import Coquelicot.
From Coq Require Import String Arith Bool ZArith Reals Lia Lra List FunctionalExtensionality Permutation.
From Verif Require Import Base PolyLib PolySetsModel PolySetsProofs PropertiesPolySets PolyVec QuadratureModel ReferencesModel ReferencesSpec ReferencesProofs ReferencesGeometry CiarletModel CiarletProofs
  LinAlg ElementModel LagrangeModel UnisolvenceProofs LagrangeProofs LagrangeKey LagrangeUnisolvence
  LegendreJacobi LegendreIntSpec LegendreIntegrals KmvProofs MomentsInt MomentsParts
  PointsModel PointsSpec PointsProofs PointsElements PointsCR MomentElementsModel MomentElementsSpec MomentElementsProofs TaylorModel TaylorSpec TaylorProofs TaylorElement.
Import PolyVec ListNotations.
Local Open Scope R_scope.

Definition shift (m : mono) (p : point) : sfun := fun v => meval m (fun j => v j - p j).
Lemma D_shift c m p k : D k (fun v => c * shift m p v) = fun v => c * INR (nth k m 0%nat) * shift (dec_at k m) p v.
Proof.
  apply D_is. intros v. rewrite Rmult_assoc. apply partial_scal. unfold shift, is_partial.
  eapply derivable_pt_lim_ext with (f := fun t => meval m (upd (fun j => v j - p j) k (t - p k))).
  { intros t. f_equal. apply functional_extensionality. intros j. unfold upd. destruct (Nat.eq_dec j k) as [->|]; reflexivity. }
  rewrite <- (Rmult_1_r (INR (nth k m 0%nat) * _)). apply (derivable_pt_lim_comp (fun t => t - p k) (fun t => meval m (upd (fun j => v j - p j) k t))).
  - rewrite <- (Rminus_0_r 1). apply (derivable_pt_lim_minus id (fun _ => p k)); [apply derivable_pt_lim_id|apply Ranalysis1.derivable_pt_lim_const].
  - exact (meval_partial m k (fun j => v j - p j)).
Qed.
Fixpoint coef (ks : list nat) (m : mono) : R := match ks with [] => 1 | k :: l => INR (nth k m 0%nat) * coef l (dec_at k m) end.
Fixpoint lower (ks : list nat) (m : mono) : mono := match ks with [] => m | k :: l => lower l (dec_at k m) end.
Lemma Ds_shift ks p : forall c m, Ds ks (fun v => c * shift m p v) = fun v => c * coef ks m * shift (lower ks m) p v.
Proof.
  induction ks as [|k ks IH]; intros c m; cbn [Ds coef lower]; [apply functional_extensionality; intros v; ring|].
  rewrite D_shift, IH. apply functional_extensionality. intros v. ring.
Qed.
Lemma dec_at_same m : forall k, nth k (dec_at k m) 0%nat = (nth k m 0 - 1)%nat.
Proof. induction m as [|a m IH]; intros [|k]; cbn; auto. Qed.
Lemma lower_nth ks k : forall m, nth k (lower ks m) 0%nat = (nth k m 0 - count_occ Nat.eq_dec ks k)%nat.
Proof.
  induction ks as [|j ks IH]; intros m; cbn [lower count_occ]; [lia|]. rewrite IH. destruct (Nat.eq_dec j k) as [->|N]; [rewrite dec_at_same; lia|rewrite dec_at_nth by congruence; reflexivity].
Qed.
Lemma lower_length ks : forall m, length (lower ks m) = length m.
Proof. induction ks as [|k ks IH]; intros m; [reflexivity|]. cbn [lower]. rewrite IH. apply dec_at_length. Qed.
Lemma coef_zero ks k : forall m, (nth k m 0 < count_occ Nat.eq_dec ks k)%nat -> coef ks m = 0.
Proof.
  induction ks as [|j ks IH]; intros m; cbn [coef count_occ]; [lia|]. destruct (Nat.eq_dec j k) as [->|N].
  - intros H. destruct (Nat.eq_dec (nth k m 0%nat) 0) as [->|Z]; [cbn; ring|]. rewrite IH; [ring|]. rewrite dec_at_same. lia.
  - intros H. rewrite IH; [ring|]. rewrite dec_at_nth by congruence. exact H.
Qed.
Lemma factorials_dec m : forall k, (1 <= nth k m 0)%nat -> factorials m = INR (nth k m 0%nat) * factorials (dec_at k m).
Proof.
  induction m as [|a m IH]; intros k H; [destruct k; cbn in H; lia|]. destruct k as [|k]; cbn [nth dec_at factorials] in *.
  - destruct a as [|a]; [lia|]. replace (S a - 1)%nat with a by lia. rewrite fact_simpl, mult_INR. ring.
  - rewrite (IH k H). ring.
Qed.
Lemma coef_factorials ks : forall m, (forall k, (count_occ Nat.eq_dec ks k <= nth k m 0)%nat) -> coef ks m * factorials (lower ks m) = factorials m.
Proof.
  induction ks as [|j ks IH]; intros m H; cbn [coef lower]; [ring|]. assert (H1 : (1 <= nth j m 0)%nat) by (specialize (H j); cbn [count_occ] in H; destruct (Nat.eq_dec j j); [lia|congruence]).
  rewrite Rmult_assoc, IH; [symmetry; apply factorials_dec, H1|]. intros k. specialize (H k). cbn [count_occ] in H. destruct (Nat.eq_dec j k) as [->|N]; [rewrite dec_at_same; lia|rewrite dec_at_nth by congruence; exact H].
Qed.
Lemma factorials_zeros n : factorials (repeat 0%nat n) = 1.
Proof. induction n as [|n IH]; [reflexivity|]. cbn [repeat factorials]. rewrite IH. cbn. ring. Qed.
Lemma factorials_pos m : factorials m <> 0.
Proof. induction m as [|a m IH]; cbn [factorials]; [lra|]. apply Rmult_integral_contrapositive. split; [apply INR_fact_neq_0|exact IH]. Qed.
Lemma meval_origin m k : (1 <= nth k m 0)%nat -> forall v, (forall j, v j = 0) -> meval m v = 0.
Proof.
  intros H v Hv. unfold meval. generalize 0%nat at 1. revert k H. induction m as [|a m IH]; intros k H s; [destruct k; cbn in H; lia|]. cbn [meval_from]. destruct k as [|k]; cbn [nth] in H.
  - rewrite Hv, pow_ne_zero by lia. ring.
  - rewrite (IH k H). ring.
Qed.
Lemma all_zero m : (forall k, nth k m 0%nat = 0%nat) -> m = repeat 0%nat (length m).
Proof. induction m as [|a m IH]; intros H; [reflexivity|]. cbn [length repeat]. f_equal; [exact (H 0%nat)|]. apply IH. intros k. exact (H (S k)). Qed.
Lemma differ (a b : list nat) : length a = length b -> a <> b -> exists k, nth k a 0%nat <> nth k b 0%nat.
Proof.
  revert b. induction a as [|x a IH]; intros [|y b] L N; try discriminate L; [congruence|]. destruct (Nat.eq_dec x y) as [->|E]; [|exists 0%nat; exact E].
  destruct (IH b) as [k Hk]; [cbn in L; lia|congruence|]. exists (S k). exact Hk.
Qed.
Lemma Ds_value alpha beta p c : length alpha = length beta -> Ds (spread 0 beta) (fun v => c * shift alpha p v) p = if list_eq_dec Nat.eq_dec beta alpha then c * factorials alpha else 0.
Proof.
  intros L. rewrite Ds_shift. assert (C : forall k, count_occ Nat.eq_dec (spread 0 beta) k = nth k beta 0%nat) by (intros k; rewrite spread_count, Nat.sub_0_r; reflexivity).
  destruct (list_eq_dec Nat.eq_dec beta alpha) as [->|N].
  - pose proof (coef_factorials (spread 0 alpha) alpha ltac:(intros k; rewrite C; lia)) as F.
    assert (Z : lower (spread 0 alpha) alpha = repeat 0%nat (length alpha)) by (rewrite <- (lower_length (spread 0 alpha) alpha); apply all_zero; intros k; rewrite lower_nth, C; lia).
    rewrite Z in F |- *. rewrite factorials_zeros in F. unfold shift. rewrite meval_zeros, <- F. ring.
  - destruct (differ alpha beta L ltac:(congruence)) as [k Hk]. destruct (Nat.lt_ge_cases (nth k alpha 0%nat) (nth k beta 0%nat)) as [H|H].
    + rewrite (coef_zero _ k) by (rewrite C; exact H). ring.
    + unfold shift. rewrite (meval_origin (lower (spread 0 beta) alpha) k); [ring| |intros j; ring]. rewrite lower_nth, C. lia.
Qed.
Lemma shift_space d n alpha p : length alpha = d -> (mdeg alpha <= n)%nat -> degree_space d n (shift alpha p).
Proof.
  intros L H. apply (degree_subst d n d (meval alpha) (fun j v => v j - p j)); [apply poly_space_mono; split; assumption|].
  intros j Hj. apply degree_minus; [apply degree_var, Hj|apply degree_const].
Qed.
Lemma fprod_factorials m : fprod m = factorials m.
Proof. induction m as [|a m IH]; [reflexivity|]. cbn. rewrite IH. reflexivity. Qed.
Lemma sum_head n F : sum (S n) F = F 0%nat + sum n (fun i => F (S i)).
Proof. exact (eq_trans (sum_split 1 n F) ltac:(cbn [sum]; rewrite Rplus_0_l; reflexivity)). Qed.

Lemma taylor_functions_ok c vs r n : simplex c -> points (nvert c) (tdim c) vs -> map_det c vs <> 0 -> make_reference c vs = Ok r ->
  taylor_functions r (make_taylor r n).
Proof.
  intros Hc Hp HD Hr. destruct (taylor_made c vs r n Hc Hp HD Hr) as (ms & m & Hq & HM & Em & Dm & Lm & One). pose proof (simplex_type c vs r Hc Hr) as T. pose proof (simplex_dim c Hc) as Hd.
  destruct (simplex_cell c vs r Hc Hp Hr) as (Ev & La & _ & _ & _ & _ & _ & Mid). destruct (taylor_dual c vs r n Hc Hp HD Hr) as (poly & dofs & phi & E & B & Ld & Lf & _ & _ & X).
  rewrite HM in E. injection E as <- <-. unfold taylor_functions. rewrite T. set (d := tdim c) in *. set (p := midpoint r) in *. set (q := env_of p).
  cbn [length] in Ld. rewrite map_length in Ld. destruct phi as [|phi0 phi]; [cbn [length] in Lf; lia|].
  assert (Lp : length phi = length (multi d n)) by (cbn [length] in Lf; lia). rewrite <- Ld in X.
  set (lift := fun (g : sfun) (cv : nat * point) => match fst cv with O => g (snd cv) | _ => 0 end).
  assert (LW : forall g, degree_space d n g -> fields 1 (P_space d n) (lift g)) by (intros g Hg; split; [intros [|k] Hk; [exact Hg|lia]|intros [|k] v Hk; [lia|reflexivity]]).
  (* a function with known derivatives *)
  assert (Y : forall g, degree_space d n g -> exists I, taylor_value (Mean m) (lift g) I /\
    forall v, g v = I * phi0 (0%nat, v) + sum (length (multi d n)) (fun i => Ds (spread 0 (nth i (multi d n) [])) g q * nth i phi (fun _ => 0) (0%nat, v))).
  { intros g Hg. destruct (X (lift g) (LW g Hg)) as (a & Va & Fa). exists (a 0%nat). split; [exact (Va 0%nat (Mean m) eq_refl)|].
    intros v. refine (eq_trans (Fa (0%nat, v)) _). rewrite sum_head. cbn [nth]. f_equal. apply sum_ext. intros i Hi. f_equal.
    assert (N : nth_error (Mean m :: map (fun alpha => DerivativeAt p alpha (d, 0%nat)) (multi d n)) (S i) = Some (DerivativeAt p (nth i (multi d n) []) (d, 0%nat))).
    { cbn [nth_error]. apply (map_nth_error (fun alpha => DerivativeAt p alpha (d, 0%nat)) i (multi d n)). apply nth_error_nth', Hi. }
    pose proof (Va (S i) _ N) as V1. pose proof (taylor_value_eval d (DerivativeAt p (nth i (multi d n) []) (d, 0%nat)) (lift g) I (ex_intro (fun n => degree_space d n g) n Hg)) as V2.
    rewrite (taylor_value_uniq _ (lift g) (lift g) _ _ (fun _ => eq_refl) V1 V2). cbn [taylor_eval]. exact (f_equal (fun h => h q) (derivatives_Ds (nth i (multi d n) []) (lift g))). }
  assert (Len : forall i, (i < length (multi d n))%nat -> length (nth i (multi d n) []) = d /\ (1 <= mdeg (nth i (multi d n) []) <= n)%nat) by (intros i Hi; apply multi_in, nth_In, Hi).
  assert (P0 : forall v, phi0 (0%nat, v) = INR (fact d)).
  { destruct (Y (fun v => 1 * shift (repeat 0%nat d) q v)) as (I & VI & FI).
    { apply (poly_space_scale _ 1 (shift (repeat 0%nat d) q)). destruct (zeros d). apply shift_space; lia. }
    assert (EI : I = / INR (fact d)).
    { cbn [taylor_value] in VI. rewrite Lm, Dm in VI. pose proof (simplex_mono d (repeat 0%nat d) (fun _ => 0) Hd (proj1 (zeros d))) as S.
      rewrite fprod_factorials, factorials_zeros, (proj2 (zeros d)) in S. cbn [Nat.add] in S. unfold rfact in S. unfold Rdiv in S. rewrite Rmult_1_l in S. refine (iterated_uniq _ _ _ _ _ VI _). eapply iterated_ext'; [|exact S].
      intros t. cbv beta. rewrite Rmult_assoc, One. unfold lift. cbn [fst snd]. unfold shift. rewrite !meval_zeros. ring. }
    intros v. specialize (FI v). rewrite (sum_zero (length (multi d n))) in FI.
    - unfold shift in FI. rewrite meval_zeros in FI. rewrite EI in FI. pose proof (INR_fact_neq_0 d) as Z. apply (Rmult_eq_reg_l (/ INR (fact d))); [|apply Rinv_neq_0_compat, Z]. rewrite Rinv_l by exact Z. lra.
    - intros i Hi. destruct (Len i Hi) as [L1 L2]. rewrite (Ds_value (repeat 0%nat d) (nth i (multi d n) []) q 1) by (rewrite L1; apply zeros).
      destruct (list_eq_dec Nat.eq_dec (nth i (multi d n) []) (repeat 0%nat d)) as [Q|_]; [|ring]. rewrite Q, (proj2 (zeros d)) in L2. lia. }
  eexists _, m, (multi d n), p, phi0, phi. split; [exact HM|]. split; [exact B|]. split; [rewrite Ev; exact Mid|]. split; [exact P0|]. split; [exact Lp|].
  intros i alpha Hi. assert (Li : (i < length (multi d n))%nat) by (apply nth_error_Some; rewrite Hi; discriminate). pose proof (nth_error_nth _ _ [] Hi) as Na. destruct (Len i Li) as [L1 L2]. rewrite Na in L1, L2.
  destruct (Y (fun v => / factorials alpha * shift alpha q v)) as (I & _ & FI); [apply (poly_space_scale _ (/ factorials alpha) (shift alpha q)), shift_space; [exact L1|lia]|].
  exists (nth i phi (fun _ => 0)), (I * INR (fact d)). split; [apply nth_error_nth'; rewrite Lp; exact Li|]. intros v. specialize (FI v). cbv beta in FI. rewrite P0 in FI.
  rewrite (sum_single _ _ i Li) in FI.
  - rewrite Na, (Ds_value alpha alpha q) in FI by reflexivity. destruct (list_eq_dec Nat.eq_dec alpha alpha) as [_|Q]; [|congruence]. rewrite Rinv_l, Rmult_1_l in FI by apply factorials_pos.
    unfold shift in FI. unfold Rdiv. change (fun j : nat => v j - nth j p 0) with (fun j : nat => v j - q j). lra.
  - intros j Hj N. destruct (Len j Hj) as [L3 _]. rewrite (Ds_value alpha (nth j (multi d n) []) q) by congruence. destruct (list_eq_dec Nat.eq_dec (nth j (multi d n) []) alpha) as [Q|_]; [|ring].
    exfalso. apply N. apply (proj1 (NoDup_nth (multi d n) []) (multi_nodup d n) j i Hj Li). congruence.
Qed.
