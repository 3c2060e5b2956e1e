(** The Taylor element: derivatives of polynomials, and the dual basis. *)
From Coquelicot Require Import Coquelicot.
From Coq Require Import String Arith Bool ZArith Reals Lia Lra List FunctionalExtensionality Permutation.
From Verif Require Import Base PolyLib PolySetsModel PolySetsProofs PropertiesPolySets PolyVec QuadratureModel ReferencesModel ReferencesSpec ReferencesProofs ReferencesGeometry CiarletModel CiarletProofs
  LinAlg ElementModel LagrangeModel UnisolvenceProofs LagrangeProofs LagrangeKey LagrangeUnisolvence
  LegendreJacobi LegendreIntSpec LegendreIntegrals KmvProofs MomentsInt MomentsParts
  PointsModel PointsSpec PointsProofs PointsElements MomentElementsModel MomentElementsSpec MomentElementsProofs TaylorModel TaylorSpec.
From Verif Require PropertiesLagrange PropertiesReferences.
Import PolyVec ListNotations.
Local Open Scope R_scope.

(** * Derivatives of polynomials *)
Definition D (k : nat) (f : sfun) : sfun := fun v => Derive (fun s => f (upd v k s)) (v k).
Lemma D_is k f g : (forall v, is_partial k f v (g v)) -> D k f = g.
Proof. intros H. apply functional_extensionality. intros v. apply is_derive_unique, is_derive_Reals, H. Qed.
Definition ispoly (d : nat) (f : sfun) : Prop := exists n, degree_space d n f.
Lemma D_below d n k f : degree_space d n f -> below d n (D k f) /\ forall v, is_partial k f v (D k f v).
Proof. intros H. destruct (poly_partial d n k f H) as (g & B & P). rewrite (D_is k f g P). split; assumption. Qed.
Lemma D_poly d k f : ispoly d f -> ispoly d (D k f) /\ forall v, is_partial k f v (D k f v).
Proof. intros [n H]. destruct (D_below d n k f H) as [B P]. split; [|exact P]. exists (n - 1)%nat. apply below_degree, B. Qed.
Lemma dec_at_nth m : forall j k, j <> k -> nth j (dec_at k m) 0%nat = nth j m 0%nat.
Proof. induction m as [|a m IH]; intros j k H; [destruct k; reflexivity|]. destruct k as [|k], j as [|j]; cbn; try congruence. apply IH. congruence. Qed.
Lemma dec_at_comm m : forall j k, dec_at j (dec_at k m) = dec_at k (dec_at j m).
Proof. induction m as [|a m IH]; intros j k; [destruct j, k; reflexivity|]. destruct k as [|k], j as [|j]; cbn; try reflexivity. f_equal. apply IH. Qed.
Lemma D_comm d j k f : ispoly d f -> D j (D k f) = D k (D j f).
Proof.
  intros [n H]. destruct (Nat.eq_dec j k) as [->|N]; [reflexivity|].
  assert (G : exists Fj Fk E, (forall v, is_partial j f v (Fj v)) /\ (forall v, is_partial k f v (Fk v)) /\ (forall v, is_partial j Fk v (E v)) /\ (forall v, is_partial k Fj v (E v))).
  { revert f H. apply poly_ind.
    - exists (fun _ => 0), (fun _ => 0), (fun _ => 0). repeat split; intros v; apply (derivable_pt_lim_const 0).
    - intros c m g _ (Fj & Fk & E & H1 & H2 & H3 & H4).
      exists (fun v => c * (INR (nth j m 0%nat) * meval (dec_at j m) v) + Fj v), (fun v => c * (INR (nth k m 0%nat) * meval (dec_at k m) v) + Fk v),
        (fun v => c * (INR (nth j m 0%nat) * (INR (nth k m 0%nat) * meval (dec_at j (dec_at k m)) v)) + E v). repeat split; intros v.
      + apply (partial_plus j (fun v => c * meval m v) g); [apply partial_scal, meval_partial|apply H1].
      + apply (partial_plus k (fun v => c * meval m v) g); [apply partial_scal, meval_partial|apply H2].
      + apply (partial_plus j (fun v => c * (INR (nth k m 0%nat) * meval (dec_at k m) v)) Fk); [|apply H3]. apply partial_scal.
        replace (INR (nth j m 0%nat) * (INR (nth k m 0%nat) * meval (dec_at j (dec_at k m)) v)) with (INR (nth k m 0%nat) * (INR (nth j (dec_at k m) 0%nat) * meval (dec_at j (dec_at k m)) v)) by (rewrite dec_at_nth by exact N; ring).
        apply partial_scal, meval_partial.
      + apply (partial_plus k (fun v => c * (INR (nth j m 0%nat) * meval (dec_at j m) v)) Fj); [|apply H4]. apply partial_scal, partial_scal.
        rewrite dec_at_comm. rewrite <- (dec_at_nth m k j) by (intros X; apply N; symmetry; exact X). apply meval_partial.
    - intros f g E (Fj & Fk & H & H1 & H2 & H3 & H4). exists Fj, Fk, H. repeat split; intros v; [apply (partial_ext j f g v _ E), H1|apply (partial_ext k f g v _ E), H2|apply H3|apply H4]. }
  destruct G as (Fj & Fk & E & H1 & H2 & H3 & H4). rewrite (D_is k f Fk H2), (D_is j f Fj H1), (D_is j Fk E H3), (D_is k Fj E H4). reflexivity.
Qed.
Lemma D_lin d k a u v : ispoly d u -> ispoly d v -> D k (fun x => a * u x + v x) = fun x => a * D k u x + D k v x.
Proof.
  intros Hu Hv. apply D_is. intros x. apply (partial_plus k (fun x => a * u x) v); [apply partial_scal|]; apply (D_poly d); assumption.
Qed.
Lemma lin_poly d a u v : ispoly d u -> ispoly d v -> ispoly d (fun x => a * u x + v x).
Proof.
  intros [n Hn] [m Hm]. exists (n + m)%nat. apply (poly_space_add _ (fun x => a * u x) v); [apply (poly_space_scale _ a u)|].
  - revert Hn. apply poly_space_weaken. intros e [H1 H2]. split; [exact H1|lia].
  - revert Hm. apply poly_space_weaken. intros e [H1 H2]. split; [exact H1|lia].
Qed.

(** successive derivatives *)
Fixpoint Ds (ks : list nat) (f : sfun) : sfun := match ks with [] => f | k :: ks' => Ds ks' (D k f) end.
Lemma Ds_app a b f : Ds (a ++ b) f = Ds b (Ds a f).
Proof. revert f. induction a as [|k a IH]; intros f; [reflexivity|]. apply IH. Qed.
Lemma Ds_poly d ks : forall f, ispoly d f -> ispoly d (Ds ks f).
Proof. induction ks as [|k ks IH]; intros f H; [exact H|]. apply IH, D_poly, H. Qed.
Lemma Ds_perm d ks ks' : Permutation ks ks' -> forall f, ispoly d f -> Ds ks f = Ds ks' f.
Proof.
  induction 1 as [|k l l' _ IH|j k l|l1 l2 l3 _ IH1 _ IH2]; intros f H; [reflexivity| | |].
  - cbn [Ds]. apply IH, D_poly, H.
  - cbn [Ds]. rewrite (D_comm d k j f H). reflexivity.
  - rewrite (IH1 f H). apply IH2, H.
Qed.
Lemma Ds_lin d ks a : forall u v, ispoly d u -> ispoly d v -> Ds ks (fun x => a * u x + v x) = fun x => a * Ds ks u x + Ds ks v x.
Proof.
  induction ks as [|k ks IH]; intros u v Hu Hv; [reflexivity|]. cbn [Ds]. rewrite (D_lin d k a u v Hu Hv). apply IH; apply D_poly; assumption.
Qed.
Lemma Ds_successive d ks : forall f, ispoly d f -> successive ks f (Ds ks f).
Proof.
  induction ks as [|k ks IH]; intros f H; [intros v; reflexivity|]. exists (D k f). destruct (D_poly d k f H) as [P Q]. split; [exact Q|]. apply IH, P.
Qed.
(** the variables of a multi-index *)
Fixpoint spread (s : nat) (alpha : list nat) : list nat := match alpha with [] => [] | a :: l => repeat s a ++ spread (S s) l end.
Lemma spread_count alpha : forall s k, count_occ Nat.eq_dec (spread s alpha) k = if (k <? s)%nat then 0%nat else nth (k - s) alpha 0%nat.
Proof.
  induction alpha as [|a l IH]; intros s k; cbn [spread].
  - cbn [count_occ]. destruct (k <? s)%nat, (k - s)%nat; reflexivity.
  - rewrite count_occ_app, IH. destruct (Nat.eq_dec s k) as [->|N].
    + rewrite count_occ_repeat_eq by reflexivity. rewrite (proj2 (Nat.ltb_lt k (S k))), (proj2 (Nat.ltb_ge k k)), Nat.sub_diag by lia. cbn [nth]. lia.
    + rewrite count_occ_repeat_neq by congruence. destruct (Nat.ltb_spec k s) as [H|H]; [rewrite (proj2 (Nat.ltb_lt k (S s))) by lia; reflexivity|].
      rewrite (proj2 (Nat.ltb_ge k (S s))) by lia. replace (k - s)%nat with (S (k - S s)) by lia. reflexivity.
Qed.
Lemma spread_perm alpha ks : (forall k, count_occ Nat.eq_dec ks k = nth k alpha 0%nat) -> Permutation ks (spread 0 alpha).
Proof. intros H. apply (Permutation_count_occ Nat.eq_dec). intros k. rewrite H, spread_count. rewrite Nat.sub_0_r. reflexivity. Qed.
Lemma spread_inc alpha i : (i < length alpha)%nat -> Permutation (i :: spread 0 alpha) (spread 0 (inc_at i alpha)).
Proof.
  intros H. apply spread_perm. intros k. cbn [count_occ]. rewrite spread_count. cbn [Nat.ltb Nat.leb]. rewrite Nat.sub_0_r.
  revert i k H. induction alpha as [|a l IH]; intros i k H; [cbn in H; lia|]. destruct i as [|i], k as [|k]; cbn [inc_at nth]; try reflexivity.
  rewrite <- (IH i k) by (cbn in H; lia). destruct (Nat.eq_dec (S i) (S k)), (Nat.eq_dec i k); congruence.
Qed.

(** * The degrees of freedom *)
Lemma diff_D k f : (fun v => diff k f (0%nat, v)) = D k (fun v => f (0%nat, v)).
Proof.
  apply functional_extensionality. intros v. unfold diff, D. cbn [fst snd]. apply Derive_ext. intros s. rewrite with_value_upd. reflexivity.
Qed.
Lemma iter_Ds n k f : (fun v => Nat.iter n (diff k) f (0%nat, v)) = Ds (repeat k n) (fun v => f (0%nat, v)).
Proof.
  induction n as [|n IH]; [reflexivity|]. change (Nat.iter (S n) (diff k) f) with (diff k (Nat.iter n (diff k) f)). rewrite diff_D, IH.
  replace (repeat k (S n)) with (repeat k n ++ [k]) by (symmetry; apply (repeat_cons n k)). rewrite Ds_app. reflexivity.
Qed.
Lemma derivatives_Ds alpha f : (fun v => derivatives alpha f (0%nat, v)) = Ds (spread 0 alpha) (fun v => f (0%nat, v)).
Proof.
  assert (G : forall s f, (fun v => fold_left (fun g ij => Nat.iter (snd ij) (diff (fst ij)) g) (combine (seq s (length alpha)) alpha) f (0%nat, v)) = Ds (spread s alpha) (fun v => f (0%nat, v))).
  { induction alpha as [|a l IH]; intros s g; [reflexivity|]. cbn [length seq combine fold_left fst snd spread]. rewrite Ds_app, IH, iter_Ds. reflexivity. }
  apply G.
Qed.

(** A polynomial all of whose derivatives vanish at a point is zero. *)
Lemma line_constant d f k : ispoly d f -> (forall v, D k f v = 0) -> forall v s, f (upd v k s) = f v.
Proof.
  intros H Z v s. pose proof (proj2 (D_poly d k f H)) as P.
  assert (Q : forall x, is_derive (fun s => f (upd v k s)) x 0).
  { intros x. apply is_derive_Reals. specialize (P (upd v k x)). rewrite Z in P. unfold is_partial in P. rewrite upd_same in P. eapply derivable_pt_lim_ext; [|exact P]. intros y. cbv beta. rewrite MomentsInt.upd_upd. reflexivity. }
  destruct (MVT_gen (fun s => f (upd v k s)) (v k) s (fun _ => 0)) as (c & _ & E).
  - intros x _. apply Q.
  - intros x _. apply continuity_pt_filterlim, (ex_derive_continuous (fun s => f (upd v k s))). exists 0. apply Q.
  - cbv beta in E. rewrite upd_id in E. lra.
Qed.
Lemma gradient_zero d n f p : degree_space d n f -> (forall k v, (k < d)%nat -> D k f v = 0) -> forall v, f v = f p.
Proof.
  intros H Z v. assert (G : forall e, (e <= d)%nat -> exists w, (forall j, (j < e)%nat -> w j = p j) /\ f w = f v).
  { induction e as [|e IH]; intros He; [exists v; split; [lia|reflexivity]|]. destruct (IH ltac:(lia)) as (w & W & E). exists (upd w e (p e)). split.
    - intros j Hj. destruct (Nat.eq_dec j e) as [->|N]; [apply upd_same|]. rewrite upd_other by exact N. apply W. lia.
    - rewrite <- E. apply (line_constant d); [exists n; exact H|]. intros x. apply Z. lia. }
  destruct (G d (le_n _)) as (w & W & E). rewrite <- E. apply (degree_local d n f w p H W).
Qed.
Lemma jet_zero d p : forall n f, degree_space d n f -> (forall alpha, length alpha = d -> (mdeg alpha <= n)%nat -> Ds (spread 0 alpha) f p = 0) -> forall v, f v = 0.
Proof.
  assert (Z0 : forall f, Ds (spread 0 (repeat 0%nat d)) f = f).
  { intros f. assert (E : forall s, spread s (repeat 0%nat d) = []) by (induction d as [|e IH]; intros s; [reflexivity|]; cbn; apply IH). rewrite E. reflexivity. }
  assert (L0 : length (repeat 0%nat d) = d /\ mdeg (repeat 0%nat d) = 0%nat) by (split; [apply repeat_length|]; clear Z0; induction d as [|e IH]; [reflexivity|exact IH]).
  assert (V : forall n f, (forall alpha, length alpha = d -> (mdeg alpha <= n)%nat -> Ds (spread 0 alpha) f p = 0) -> f p = 0).
  { intros n f H. refine (eq_trans (eq_sym (f_equal (fun g : sfun => g p) (Z0 f))) _). apply H; [apply L0|]. rewrite (proj2 L0). lia. }
  induction n as [|n IH]; intros f Hf H v.
  - apply (constant_zero (fun m => length m = d /\ (mdeg m <= 0)%nat) f p); [intros m [_ E]; lia|exact Hf|]. exact (V 0%nat f H).
  - rewrite (gradient_zero d (S n) f p Hf); [exact (V (S n) f H)|]. intros k w Hk. destruct (D_below d (S n) k f Hf) as [B _]. apply below_S in B.
    apply (IH (D k f) B). intros alpha La Da. change (Ds (spread 0 alpha) (D k f)) with (Ds (k :: spread 0 alpha) f).
    rewrite (Ds_perm d _ _ (spread_inc alpha k ltac:(lia)) f (ex_intro (fun m => degree_space d m f) _ Hf)). destruct (inc_at_spec alpha k ltac:(lia)) as (I1 & I2 & _). apply H; lia.
Qed.
(** If only the derivatives of the orders 1, ..., n vanish, it is constant. *)
Lemma jet_constant d p n f : degree_space d n f -> (forall alpha, length alpha = d -> (1 <= mdeg alpha <= n)%nat -> Ds (spread 0 alpha) f p = 0) -> forall v, f v = f p.
Proof.
  intros Hf H. apply (gradient_zero d n f p Hf). intros k v Hk. destruct (D_below d n k f Hf) as [B _]. destruct n as [|n]; [exact (below_zero d _ B v)|]. apply below_S in B.
  apply (jet_zero d p n (D k f) B). intros alpha La Da. change (Ds (spread 0 alpha) (D k f)) with (Ds (k :: spread 0 alpha) f).
  rewrite (Ds_perm d _ _ (spread_inc alpha k ltac:(lia)) f (ex_intro (fun m => degree_space d m f) _ Hf)). destruct (inc_at_spec alpha k ltac:(lia)) as (I1 & I2 & _). apply H; lia.
Qed.
