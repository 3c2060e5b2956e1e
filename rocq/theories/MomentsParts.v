(** Partial derivatives, factors of polynomials, and integration by parts on the simplex. *)
From Coquelicot Require Import Coquelicot.
From Coq Require Import String Arith ZArith Reals Lia Lra Bool List FunctionalExtensionality.
From Verif Require Import Base PolyLib PolySetsModel PolySetsProofs PolyVec LinAlg UnisolvenceProofs LagrangeUnisolvence LagrangeKey LegendreJacobi LegendreIntSpec LegendreIntegrals KmvProofs MomentsInt.
From Verif Require ReferencesModel CiarletProofs.
Import ListNotations.
Local Open Scope R_scope.

(** * Partial derivatives *)
Lemma dec_at_length i m : length (dec_at i m) = length m.
Proof. revert i. induction m as [|a m IH]; intros [|i]; cbn; auto. Qed.
Lemma dec_at_deg m : forall i, (1 <= nth i m 0)%nat -> mdeg (dec_at i m) = (mdeg m - 1)%nat /\ (1 <= mdeg m)%nat.
Proof.
  induction m as [|a m IH]; intros i H; [destruct i; cbn in H; lia|]. destruct i as [|i]; cbn [nth dec_at mdeg] in *; [split; lia|]. destruct (IH i H). split; lia.
Qed.
Lemma partial_ext i f g v l : (forall v, f v = g v) -> is_partial i f v l -> is_partial i g v l.
Proof. intros E. apply derivable_pt_lim_ext. intros x. apply E. Qed.
Lemma partial_plus i f g v a b : is_partial i f v a -> is_partial i g v b -> is_partial i (fun v => f v + g v) v (a + b).
Proof. exact (derivable_pt_lim_plus (fun t => f (upd v i t)) (fun t => g (upd v i t)) (v i) a b). Qed.
Lemma partial_scal i f v a c : is_partial i f v a -> is_partial i (fun v => c * f v) v (c * a).
Proof. exact (derivable_pt_lim_scal (fun t => f (upd v i t)) c (v i) a). Qed.
Lemma partial_mult i f g v a b : is_partial i f v a -> is_partial i g v b -> is_partial i (fun v => f v * g v) v (a * g v + f v * b).
Proof.
  intros H1 H2. pose proof (derivable_pt_lim_mult (fun t => f (upd v i t)) (fun t => g (upd v i t)) (v i) a b H1 H2) as H. cbv beta in H. rewrite upd_id in H. exact H.
Qed.
Lemma partial_var i v : is_partial i (fun v => v i) v 1.
Proof. unfold is_partial. eapply derivable_pt_lim_ext; [|apply derivable_pt_lim_id]. intros x. symmetry. apply upd_same. Qed.
Lemma partial_other i j v : i <> j -> is_partial i (fun v => v j) v 0.
Proof. intros H. unfold is_partial. eapply derivable_pt_lim_ext; [|apply (derivable_pt_lim_const (v j))]. intros x. symmetry. apply upd_other. auto. Qed.
(** polynomials of degree less than n: only zero if n is 0 *)
Definition below (d n : nat) : sfun -> Prop := poly_space (fun m => length m = d /\ (mdeg m < n)%nat).
Lemma below_degree d n f : below d n f -> degree_space d (n - 1) f.
Proof. apply poly_space_weaken. intros m [H1 H2]. split; [exact H1|lia]. Qed.
Lemma below_S d n f : below d (S n) f <-> degree_space d n f.
Proof. split; apply poly_space_weaken; intros m [H1 H2]; (split; [exact H1|lia]). Qed.
Lemma below_zero d f : below d 0 f -> forall v, f v = 0.
Proof. intros ([|t p] & Hp & E) v; [exact (E v)|]. apply Forall_inv in Hp. lia. Qed.
Lemma poly_partial d n i f : degree_space d n f -> exists g, below d n g /\ forall v, is_partial i f v (g v).
Proof.
  revert f. apply poly_ind.
  - exists (fun _ => 0). split; [apply poly_space_zero|]. intros v. apply (derivable_pt_lim_const 0 (v i)).
  - intros c m g [Lm Dm] (G & HG & HP). exists (fun v => c * (INR (nth i m 0%nat) * meval (dec_at i m) v) + G v). split.
    + apply (poly_space_add _ (fun v => c * (INR (nth i m 0%nat) * meval (dec_at i m) v)) G); [|exact HG]. apply (poly_space_scale _ c (fun v => INR (nth i m 0%nat) * meval (dec_at i m) v)).
      destruct (Nat.eq_dec (nth i m 0%nat) 0) as [E|E].
      * rewrite E. apply (poly_space_ext _ (fun _ => 0)); [intros v; cbn; ring|apply poly_space_zero].
      * apply poly_space_scale, poly_space_mono. rewrite dec_at_length. destruct (dec_at_deg m i ltac:(lia)) as [-> ?]. split; [exact Lm|lia].
    + intros v. apply (partial_plus i (fun v => c * meval m v) g); [|apply HP]. apply partial_scal, meval_partial.
  - intros f g E (G & HG & HP). exists G. split; [exact HG|]. intros v. apply (partial_ext i f g v _ E), HP.
Qed.

(** * Factors *)
Fixpoint inc_at (i : nat) (m : mono) : mono :=
  match m, i with [], _ => [] | e :: m', O => S e :: m' | e :: m', S i' => e :: inc_at i' m' end.
Lemma inc_at_spec m : forall i, (i < length m)%nat -> length (inc_at i m) = length m /\ mdeg (inc_at i m) = S (mdeg m) /\ fprod (inc_at i m) = INR (S (nth i m 0%nat)) * fprod m /\
  forall k v, meval_from k (inc_at i m) v = v (k + i)%nat * meval_from k m v.
Proof.
  induction m as [|a m IH]; intros i H; [cbn in H; lia|]. destruct i as [|i]; cbn [inc_at length mdeg fprod nth meval_from].
  - repeat split; try lia; [rewrite fact_simpl, mult_INR; ring|]. intros k v. rewrite Nat.add_0_r. cbn [pow]. ring.
  - destruct (IH i ltac:(cbn in H; lia)) as (A & B & C & D). repeat split; [lia|lia|rewrite C; ring|]. intros k v. rewrite D. replace (S k + i)%nat with (k + S i)%nat by lia. ring.
Qed.
Lemma meval_inc m i v : (i < length m)%nat -> meval (inc_at i m) v = v i * meval m v.
Proof. intros H. exact (proj2 (proj2 (proj2 (inc_at_spec m i H))) 0%nat v). Qed.
Lemma inc_dec m : forall i, (1 <= nth i m 0)%nat -> inc_at i (dec_at i m) = m.
Proof. induction m as [|a m IH]; intros i H; [destruct i; cbn in H; lia|]. destruct i as [|i]; cbn [nth dec_at inc_at] in *; f_equal; [lia|apply IH, H]. Qed.

(** a polynomial that vanishes where a variable is zero is a multiple of that variable *)
Lemma factor_var d n i f : (i < d)%nat -> degree_space d n f -> (forall v, v i = 0 -> f v = 0) ->
  exists g, degree_space d (n - 1) g /\ forall v, f v = v i * g v.
Proof.
  intros Hi Hf Z.
  assert (S : exists g, degree_space d (n - 1) g /\ forall v, f v - f (upd v i 0) = v i * g v).
  { clear Z. revert f Hf. apply poly_ind.
    - exists (fun _ => 0). split; [apply poly_space_zero|intros; ring].
    - intros c m g [Lm Dm] (G & HG & HP). destruct (Nat.eq_dec (nth i m 0%nat) 0) as [E|E].
      + exists G. split; [exact HG|]. intros v. rewrite <- HP. rewrite <- (upd_id v i) at 1. rewrite (meval_power m i v (v i)), (meval_power m i v 0), E. cbn [pow]. ring.
      + exists (fun v => c * meval (dec_at i m) v + G v). destruct (dec_at_deg m i ltac:(lia)) as [D _]. split.
        * apply (poly_space_add _ (fun v => c * meval (dec_at i m) v) G); [|exact HG]. apply poly_space_scale, poly_space_mono. rewrite dec_at_length, D. split; [exact Lm|lia].
        * intros v. rewrite Rmult_plus_distr_l, <- HP. rewrite (meval_power m i v 0). rewrite <- (inc_dec m i) at 1 by lia. rewrite meval_inc by (rewrite dec_at_length; lia).
          destruct (nth i m 0%nat) as [|k]; [congruence|]. cbn [pow]. ring.
    - intros f g E (G & HG & HP). exists G. split; [exact HG|]. intros v. rewrite <- !E. apply HP. }
  destruct S as (g & Hg & E). exists g. split; [exact Hg|]. intros v. rewrite <- E, (Z (upd v i 0)); [ring|apply upd_same].
Qed.
Lemma var_factor_zero d n i g : (i < d)%nat -> degree_space d n g -> (forall v, v i * g v = 0) -> forall v, g v = 0.
Proof.
  intros Hi Hg Z. apply (simplex_lattice_zero (fun k => INR k + 1) d n g); [|exact Hg|].
  - intros a b Hab E. assert (a = b) by (apply INR_eq; lra). lia.
  - intros m Lm Dm. specialize (Z (as_point (map (fun k => INR k + 1) m))). apply Rmult_integral in Z. destruct Z as [Z|Z]; [|exact Z]. exfalso.
    unfold as_point in Z. rewrite (CiarletProofs.nth_map_lt (fun k => INR k + 1) m i 0%nat) in Z by lia. pose proof (pos_INR (nth i m 0%nat)). lra.
Qed.

(** * Integration by parts *)
(** the points of the facet where the sum of the variables is 1 *)
Definition slant (d : nat) (t : point) : point :=
  match d with
  | 2%nat => fun j => match j with O => t 0%nat | S O => 1 - t 0%nat | _ => 0 end
  | _ => fun j => match j with O => t 0%nat | S O => t 1%nat | S (S O) => 1 - t 0%nat - t 1%nat | _ => 0 end
  end.
Lemma slant_mono d m v : (2 <= d <= 3)%nat -> length m = d -> iterated_integral (slims (d - 1)) (fun t => meval m (slant d t)) v (fprod m / rfact (mdeg m + (d - 1))).
Proof.
  intros Hd L. assert (C : d = 2%nat \/ d = 3%nat) by lia. destruct C as [->| ->]; cbn [slims Nat.sub].
  - destruct m as [|a [|b [|]]]; try discriminate L. unfold seg_lims. cbn [iterated_integral]. exists (fun _ => beta a b). split.
    + intros e. eapply is_RInt_eq; [apply (beta_int b a)| |reflexivity]. intros x _. unfold meval. cbn [meval_from slant]. rewrite !upd_same. req; ring.
    + cbn [fprod mdeg]. rewrite beta_rfact. replace (a + (b + 0) + 1)%nat with (a + b + 1)%nat by lia. unfold rfact. field. apply INR_fact_neq_0.
  - destruct m as [|a [|b [|c [|]]]]; try discriminate L. unfold tri_lims. cbn [iterated_integral].
    exists (fun e => beta b c * (e 0%nat ^ a * (1 - e 0%nat) ^ (b + c + 1))). split.
    + intros e. eapply is_RInt_eq; [apply (int_scal (e 0%nat ^ a)), (beta_scaled c b (1 - e 0%nat))| |req; ring].
      intros x _. unfold meval. cbn [meval_from slant]. rewrite !upd_same, !upd_other by lia. req; ring.
    + exists (fun _ => beta b c * beta a (b + c + 1)). split.
      * intros e. eapply is_RInt_eq; [apply (int_scal (beta b c)), (beta_int (b + c + 1) a)| |reflexivity]. intros x _. cbv beta. rewrite !upd_same. reflexivity.
      * rewrite !beta_rfact. cbn [fprod mdeg]. replace (a + (b + c + 1) + 1)%nat with (a + (b + (c + 0)) + 2)%nat by lia. unfold rfact. field. split; apply INR_fact_neq_0.
Qed.
Lemma by_parts d n i w v : (2 <= d <= 3)%nat -> (i < d)%nat -> degree_space d n w ->
  exists g J, (forall v, is_partial i (fun v => v i * w v) v (g v)) /\ degree_space d n g /\
    iterated_integral (slims d) g v J /\ iterated_integral (slims (d - 1)) (fun t => slant d t i * w (slant d t)) v J.
Proof.
  intros Hd Hi. revert w. apply poly_ind.
  - exists (fun _ => 0), 0. split; [|split; [apply poly_space_zero|split; [apply iterated_zero|]]].
    + intros u. apply (partial_ext i (fun _ => 0)); [intros; ring|]. apply (derivable_pt_lim_const 0 (u i)).
    + apply (iterated_ext' _ (fun _ => 0)); [intros; ring|]. apply iterated_zero.
  - intros c m w [Lm Dm] (g & J & HP & Hg & H1 & H2).
    exists (fun v => (c * INR (S (nth i m 0%nat))) * meval m v + g v), (c * (fprod (inc_at i m) / rfact (mdeg (inc_at i m) + (d - 1))) + J).
    destruct (inc_at_spec m i ltac:(lia)) as (A & B & C & _). split; [|split; [|split]].
    + intros u. apply (partial_ext i (fun v => c * meval (inc_at i m) v + v i * w v)); [intros x; rewrite meval_inc by lia; ring|].
      apply (partial_plus i (fun v => c * meval (inc_at i m) v) (fun v => v i * w v)); [|apply HP]. rewrite Rmult_assoc. apply partial_scal.
      pose proof (meval_partial (inc_at i m) i u) as Q.
      assert (N : nth i (inc_at i m) 0%nat = S (nth i m 0%nat) /\ dec_at i (inc_at i m) = m).
      { clear - Lm Hi. assert (H : (i < length m)%nat) by lia. clear - H. revert i H. induction m as [|a m IH]; intros [|i] H; cbn in *; try lia; [split; [reflexivity|f_equal; lia]|].
        destruct (IH i ltac:(lia)) as [E1 E2]. split; [exact E1|f_equal; exact E2]. }
      destruct N as [N1 N2]. rewrite N1, N2 in Q. exact Q.
    + apply (poly_space_add _ (fun v => c * INR (S (nth i m 0%nat)) * meval m v) g); [|exact Hg]. apply poly_space_scale, poly_space_mono. auto.
    + replace (c * (fprod (inc_at i m) / rfact (mdeg (inc_at i m) + (d - 1)))) with (c * INR (S (nth i m 0%nat)) * (fprod m / rfact (mdeg m + d))).
      * apply iterated_lin; [|exact H1]. apply simplex_mono; [lia|exact Lm].
      * rewrite C, B. replace (S (mdeg m) + (d - 1))%nat with (mdeg m + d)%nat by lia. unfold Rdiv. ring.
    + apply (iterated_ext' _ (fun t => c * meval (inc_at i m) (slant d t) + slant d t i * w (slant d t))); [intros e; rewrite meval_inc by lia; ring|].
      apply iterated_lin; [|exact H2]. apply slant_mono; [exact Hd|congruence].
  - intros f g E (h & J & HP & Hg & H1 & H2). exists h, J. split; [|split; [exact Hg|split; [exact H1|]]].
    + intros u. apply (partial_ext i (fun v => v i * f v)); [intros x; rewrite E; reflexivity|apply HP].
    + apply (iterated_ext' _ (fun t => slant d t i * f (slant d t))); [intros e; rewrite E; reflexivity|exact H2].
Qed.
