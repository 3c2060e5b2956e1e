(** Fields on the simplex with vanishing normal components: Raviart-Thomas fields are determined by their moments. *)
From Coquelicot Require Import Coquelicot.
From Coq Require Import String Arith ZArith Reals Lia Lra Bool List FunctionalExtensionality.
From Verif Require Import Base PolyLib PolySetsModel PolySetsProofs PolyVec LinAlg UnisolvenceProofs LagrangeUnisolvence LagrangeKey LegendreJacobi LegendreIntSpec LegendreIntegrals KmvProofs MomentsInt MomentsParts.
From Verif Require ReferencesModel CiarletProofs.
Import ListNotations.
Local Open Scope R_scope.

Lemma sum_poly ok N (F : nat -> sfun) : (forall i, (i < N)%nat -> poly_space ok (F i)) -> poly_space ok (fun v : point => sum N (fun i => F i v)).
Proof.
  intros H. induction N as [|N IH]; [apply poly_space_zero|]. apply (poly_space_add ok (fun v => sum N (fun i => F i v)) (F N)); [apply IH; auto|apply H; lia].
Qed.
Lemma sum_partial k N (F G : nat -> sfun) v : (forall i, (i < N)%nat -> is_partial k (F i) v (G i v)) -> is_partial k (fun v => sum N (fun i => F i v)) v (sum N (fun i => G i v)).
Proof.
  induction N as [|N IH]; intros H; [apply (derivable_pt_lim_const 0 (v k))|]. apply (partial_plus k (fun v => sum N (fun i => F i v)) (F N)); [apply IH; auto|apply H; lia].
Qed.
Lemma iterated_sum lims v N (F : nat -> sfun) (J : nat -> R) : (forall i, (i < N)%nat -> iterated_integral lims (F i) v (J i)) -> iterated_integral lims (fun e => sum N (fun i => F i e)) v (sum N J).
Proof.
  induction N as [|N IH]; intros H; [apply iterated_zero|]. cbn [sum]. replace (sum N J + J N) with (1 * sum N J + J N) by ring.
  apply (iterated_ext' _ (fun e => 1 * sum N (fun i => F i e) + F N e)); [intros e; ring|]. apply (iterated_lin lims (fun e => sum N (fun i => F i e)) (F N)); [apply IH; auto|apply H; lia].
Qed.
Lemma sum_nonneg_zero N g : (forall i, (i < N)%nat -> 0 <= g i) -> sum N g = 0 -> forall i, (i < N)%nat -> g i = 0.
Proof.
  assert (P : forall N, (forall i, (i < N)%nat -> 0 <= g i) -> 0 <= sum N g).
  { clear N; intros K; induction K as [|M IH]; intros H; [apply Rle_refl|]. cbn [sum]. specialize (IH (fun i Hi => H i (Nat.lt_lt_succ_r _ _ Hi))). specialize (H M (Nat.lt_succ_diag_r M)). lra. }
  induction N as [|M IH]; intros H Z i Hi; [lia|]. cbn [sum] in Z. assert (H' : forall i, (i < M)%nat -> 0 <= g i) by (intros; apply H; lia).
  specialize (P M H'). pose proof (H M (Nat.lt_succ_diag_r M)). assert (sum M g = 0) by lra. destruct (Nat.eq_dec i M) as [->|]; [lra|]. apply IH; [exact H'|assumption|lia].
Qed.
(** spaces without common monomials *)
Lemma disjoint_spaces d (ok1 ok2 : mono -> Prop) f : (forall m, ok1 m -> length m = d) -> (forall m, ok2 m -> length m = d) -> (forall m, ok1 m -> ok2 m -> False) ->
  poly_space ok1 f -> poly_space ok2 f -> forall v, f v = 0.
Proof.
  intros L1 L2 D (p & Hp & Ep) (q & Hq & Eq) v.
  assert (C0 : forall (ok : mono -> Prop) p m, Forall (fun t : R * mono => ok (snd t)) p -> ~ ok m -> coef p m = 0).
  { clear. intros ok p m H N. induction H as [|[c b] p Hb _ IH]; [reflexivity|]. cbn [coef fold_right fst snd] in *. fold (coef p m). rewrite IH. destruct (mono_eq_dec b m) as [->|]; [contradiction|ring]. }
  assert (Z : forall m, length m = d -> coef p m = 0).
  { intros m Lm. assert (E : coef (p ++ rscale (- (1)) q) m = 0).
    { apply (poly_identity d); [|intros u; rewrite reval_app, reval_rscale, <- Ep, <- Eq; ring|exact Lm]. apply Forall_app. split.
      - eapply Forall_impl; [|exact Hp]. intros t. apply L1.
      - unfold rscale. apply Forall_map. eapply Forall_impl; [|exact Hq]. intros t. apply L2. }
    rewrite coef_app, coef_rscale in E. destruct (Req_dec (coef p m) 0) as [|N]; [assumption|]. exfalso.
    assert (N1 : ~ ~ ok1 m) by (intros X; apply N, (C0 ok1 p m Hp X)). assert (N2 : ~ ~ ok2 m) by (intros X; apply N; rewrite (C0 ok2 q m Hq X) in E; lra).
    apply N1. intros X1. apply N2. intros X2. exact (D m X1 X2). }
  rewrite Ep. rewrite (reval_coefs (nodup mono_eq_dec (map snd p)) p v); [|apply NoDup_nodup|].
  - assert (G : forall S, (forall m, In m S -> length m = d) -> fold_right (fun m acc => coef p m * meval m v + acc) 0 S = 0).
    { induction S as [|m S IH]; intros H; [reflexivity|]. cbn [fold_right]. rewrite Z, IH; [ring| |apply H; left; reflexivity]. intros; apply H; right; assumption. }
    apply G. intros m Hm. apply nodup_In, in_map_iff in Hm. destruct Hm as (t & <- & Ht). rewrite Forall_forall in Hp. apply L1, Hp, Ht.
  - apply Forall_forall. intros t Ht. apply nodup_In, in_map, Ht.
Qed.

(** * The divergence of a field with vanishing normal components *)
Lemma divergence_zero d n (f g r : nat -> sfun) q : (2 <= d <= 3)%nat ->
  (forall c, (c < d)%nat -> degree_space d n (f c)) -> (forall c v, (c < d)%nat -> v c = 0 -> f c v = 0) ->
  (forall t, sum d (fun c => f c (slant d t)) = 0) ->
  (forall c v, (c < d)%nat -> is_partial c (f c) v (g c v)) -> degree_space d n q -> (forall v, q v = sum d (fun c => g c v)) ->
  (forall c v, (c < d)%nat -> is_partial c q v (r c v)) ->
  iterated_integral (slims d) (fun v => sum d (fun c => f c v * r c v)) (fun _ => 0) 0 -> forall v, q v = 0.
Proof.
  intros Hd Hf Hz Hs Hg Hq Eq Hr HI.
  assert (W : forall c, exists w, (c < d)%nat -> degree_space d (n - 1) w /\ forall v, f c v = v c * w v).
  { intros c. destruct (lt_dec c d) as [Hc|Hc]; [|exists (fun _ => 0); intros; lia]. destruct (factor_var d n c (f c) Hc (Hf c Hc) (fun v => Hz c v Hc)) as (w & H). exists w. intros _. exact H. }
  assert (P : forall c, (c < d)%nat -> exists J, iterated_integral (slims d) (fun v => g c v * q v + f c v * r c v) (fun _ => 0) J /\
    iterated_integral (slims (d - 1)) (fun t => f c (slant d t) * q (slant d t)) (fun _ => 0) J).
  { intros c Hc. destruct (W c) as (w & Hw). destruct (Hw Hc) as [Dw Ew].
    destruct (by_parts d (n - 1 + n) c (fun v => w v * q v) (fun _ => 0) Hd Hc (degree_mul _ _ _ _ _ Dw Hq)) as (h & J & HP & _ & H1 & H2). exists J. split.
    - apply (iterated_ext' _ h); [|exact H1]. intros v. apply (is_partial_unique c (fun v => v c * (w v * q v)) v); [apply HP|].
      apply (partial_ext c (fun v => f c v * q v)); [intros u; rewrite Ew; ring|]. apply partial_mult; [apply Hg, Hc|apply Hr, Hc].
    - apply (iterated_ext' _ (fun t => slant d t c * (w (slant d t) * q (slant d t)))); [intros t; rewrite Ew; ring|exact H2]. }
  assert (P' : exists J, forall c, (c < d)%nat -> iterated_integral (slims d) (fun v => g c v * q v + f c v * r c v) (fun _ => 0) (J c) /\
    iterated_integral (slims (d - 1)) (fun t => f c (slant d t) * q (slant d t)) (fun _ => 0) (J c)).
  { clear - P. induction d as [|d IH]; [exists (fun _ => 0); intros; lia|]. revert P. generalize (slims (S d)) (slims (S d - 1)) (slant (S d)). clear IH. intros l1 l2 sl P.
    assert (X : forall N, (N <= S d)%nat -> exists J, forall c, (c < N)%nat -> iterated_integral l1 (fun v => g c v * q v + f c v * r c v) (fun _ => 0) (J c) /\ iterated_integral l2 (fun t => f c (sl t) * q (sl t)) (fun _ => 0) (J c)).
    { induction N as [|N IHN]; intros HN; [exists (fun _ => 0); intros; lia|]. destruct (IHN ltac:(lia)) as [J HJ]. destruct (P N ltac:(lia)) as [x Hx].
      exists (fun c => if Nat.eq_dec c N then x else J c). intros c Hc. destruct (Nat.eq_dec c N) as [->|]; [exact Hx|apply HJ; lia]. }
    exact (X (S d) (le_n _)). }
  destruct P' as [J HJ].
  pose proof (iterated_sum (slims d) (fun _ => 0) d (fun c v => g c v * q v + f c v * r c v) J (fun c Hc => proj1 (HJ c Hc))) as S1.
  pose proof (iterated_sum (slims (d - 1)) (fun _ => 0) d (fun c t => f c (slant d t) * q (slant d t)) J (fun c Hc => proj2 (HJ c Hc))) as S2.
  assert (J0 : sum d J = 0).
  { apply (iterated_uniq (slims (d - 1)) (fun _ => 0) (fun _ => 0)); [|apply iterated_zero]. apply (iterated_ext' _ (fun t => sum d (fun c => f c (slant d t) * q (slant d t)))); [|exact S2].
    intros t. rewrite sum_scal_r, Hs. ring. }
  rewrite J0 in S1.
  assert (S3 : iterated_integral (slims d) (fun v => q v * q v) (fun _ => 0) 0).
  { pose proof (iterated_lin (slims d) _ _ _ _ _ (- (1)) HI S1) as X. replace (- (1) * 0 + 0) with 0 in X by ring.
    eapply iterated_ext'; [|exact X]. intros v. cbv beta. rewrite sum_plus, sum_scal_r, <- Eq. ring. }
  intros v. pose proof (simplex_positive d (n + n) (fun v => q v * q v) ltac:(lia) (degree_mul _ _ _ _ _ Hq Hq) (fun e _ => Rle_0_sqr (q e)) (ex_intro _ (fun _ => 0) S3) v) as X. cbv beta in X.
  apply Rmult_integral in X. tauto.
Qed.

(** * Raviart-Thomas fields *)
(** P_{n-1}^d + x * (homogeneous polynomials of degree n-1) *)
Definition rt_fields (d n : nat) (f : nat -> sfun) : Prop :=
  exists (p : nat -> sfun) (h : sfun), (forall c, (c < d)%nat -> degree_space d (n - 1) (p c)) /\ poly_space (fun m => length m = d /\ mdeg m = (n - 1)%nat) h /\
    forall c v, (c < d)%nat -> f c v = p c v + v c * h v.
Lemma euler d n h : poly_space (fun m => length m = d /\ mdeg m = n) h -> exists k : nat -> sfun, (forall c v, (c < d)%nat -> is_partial c h v (k c v)) /\ forall v, sum d (fun c => v c * k c v) = INR n * h v.
Proof.
  revert h. apply poly_ind.
  - exists (fun _ _ => 0). split; [intros c v _; apply (derivable_pt_lim_const 0 (v c))|]. intros v. rewrite sum_zero by (intros; ring). ring.
  - intros a m g [Lm Dm] (k & H1 & H2). exists (fun c v => a * (INR (nth c m 0%nat) * meval (dec_at c m) v) + k c v). split.
    + intros c v Hc. apply (partial_plus c (fun v => a * meval m v) g); [|apply H1, Hc]. apply partial_scal, meval_partial.
    + intros v. rewrite (sum_ext d _ (fun c => a * (v c * (INR (nth c m 0%nat) * meval (dec_at c m) v)) + v c * k c v)) by (intros; ring). rewrite sum_plus, sum_scal, H2.
      assert (E : sum d (fun c => v c * (INR (nth c m 0%nat) * meval (dec_at c m) v)) = INR n * meval m v); [|rewrite E; ring].
      rewrite (sum_ext d _ (fun c => INR (nth c m 0%nat) * meval m v)).
      * rewrite sum_scal_r. f_equal. subst d n. clear. induction m as [|e m IH]; [reflexivity|]. cbn [length mdeg]. rewrite sum_S. cbn [nth]. rewrite IH, plus_INR. reflexivity.
      * intros c Hc. destruct (Nat.eq_dec (nth c m 0%nat) 0) as [E|E]; [rewrite E; cbn; ring|]. rewrite <- (inc_dec m c) at 4 by lia. rewrite meval_inc by (rewrite dec_at_length; lia). ring.
  - intros f g E (k & H1 & H2). exists k. split; [intros c v Hc; apply (partial_ext c f g v _ E), H1, Hc|]. intros v. rewrite H2, E. reflexivity.
Qed.
Lemma rt_zero d n (f : nat -> sfun) : (2 <= d <= 3)%nat -> (1 <= n)%nat -> rt_fields d n f ->
  (forall c v, (c < d)%nat -> v c = 0 -> f c v = 0) -> (forall t, sum d (fun c => f c (slant d t)) = 0) ->
  (forall psi : nat -> sfun, (2 <= n)%nat -> (forall c, (c < d)%nat -> degree_space d (n - 2) (psi c)) -> iterated_integral (slims d) (fun v => sum d (fun c => f c v * psi c v)) (fun _ => 0) 0) ->
  forall c v, (c < d)%nat -> f c v = 0.
Proof.
  intros Hd Hn (p & h & Dp & Dh & Ef) Hz Hs Hm.
  assert (Dh' : degree_space d (n - 1) h) by (eapply poly_space_weaken; [|exact Dh]; intros m [H1 H2]; split; [exact H1|lia]).
  assert (Df : forall c, (c < d)%nat -> degree_space d n (f c)).
  { intros c Hc. apply (poly_space_ext _ (fun v => p c v + v c * h v)); [intros v; symmetry; apply Ef, Hc|]. apply (poly_space_add _ (p c) (fun v => v c * h v)).
    - apply (degree_weaken d (n - 1) n); [lia|apply Dp, Hc].
    - replace n with (1 + (n - 1))%nat by lia. apply (degree_mul d 1 (n - 1) (fun v => v c) h); [apply degree_var, Hc|exact Dh']. }
  assert (Pp : exists pp : nat -> sfun, forall c, (c < d)%nat -> below d (n - 1) (pp c) /\ forall v, is_partial c (p c) v (pp c v)).
  { clear - Dp. assert (X : forall N, (N <= d)%nat -> exists pp : nat -> sfun, forall c, (c < N)%nat -> below d (n - 1) (pp c) /\ forall v, is_partial c (p c) v (pp c v)).
    { induction N as [|N IH]; intros HN; [exists (fun _ _ => 0); intros; lia|]. destruct (IH ltac:(lia)) as [pp H]. destruct (poly_partial d (n - 1) N (p N) (Dp N ltac:(lia))) as (g & Hg).
      exists (fun c => if Nat.eq_dec c N then g else pp c). intros c Hc. destruct (Nat.eq_dec c N) as [->|]; [exact Hg|apply H; lia]. }
    exact (X d (le_n _)). }
  destruct Pp as [pp Hpp]. destruct (euler d (n - 1) h Dh) as (k & Hk & Ek).
  set (g := fun c v => pp c v + (1 * h v + v c * k c v)).
  assert (Hg : forall c v, (c < d)%nat -> is_partial c (f c) v (g c v)).
  { intros c v Hc. apply (partial_ext c (fun v => p c v + v c * h v)); [intros u; symmetry; apply Ef, Hc|]. apply (partial_plus c (p c) (fun v => v c * h v)); [apply Hpp, Hc|].
    apply (partial_mult c (fun v => v c) h v 1 (k c v)); [apply partial_var|apply Hk, Hc]. }
  set (q := fun v => sum d (fun c => pp c v) + (INR d + INR (n - 1)) * h v).
  assert (Eq : forall v, q v = sum d (fun c => g c v)).
  { intros v. unfold q, g. rewrite !sum_plus, Ek. replace (sum d (fun _ => 1 * h v)) with (INR d * h v); [ring|]. clear. induction d as [|d IH]; [cbn; ring|]. rewrite S_INR. cbn [sum]. rewrite <- IH. ring. }
  assert (Dq : degree_space d (n - 1) q).
  { apply (poly_space_add _ (fun v => sum d (fun c => pp c v)) (fun v => (INR d + INR (n - 1)) * h v)); [|apply poly_space_scale, Dh'].
    apply sum_poly. intros c Hc. eapply poly_space_weaken; [|exact (proj1 (Hpp c Hc))]. intros m [H1 H2]. split; [exact H1|lia]. }
  assert (R : exists r : nat -> sfun, forall c, (c < d)%nat -> below d (n - 1) (r c) /\ forall v, is_partial c q v (r c v)).
  { clear - Dq. assert (X : forall N, (N <= d)%nat -> exists r : nat -> sfun, forall c, (c < N)%nat -> below d (n - 1) (r c) /\ forall v, is_partial c q v (r c v)).
    { induction N as [|N IH]; intros HN; [exists (fun _ _ => 0); intros; lia|]. destruct (IH ltac:(lia)) as [r H]. destruct (poly_partial d (n - 1) N q Dq) as (x & Hx).
      exists (fun c => if Nat.eq_dec c N then x else r c). intros c Hc. destruct (Nat.eq_dec c N) as [->|]; [exact Hx|apply H; lia]. }
    exact (X d (le_n _)). }
  destruct R as [r Hr].
  assert (Zq : forall v, q v = 0).
  { apply (divergence_zero d n f g r q Hd Df Hz Hs Hg (degree_weaken _ _ _ _ (Nat.le_sub_l n 1) Dq) Eq (fun c v Hc => proj2 (Hr c Hc) v)).
    destruct (le_lt_dec 2 n) as [H2|H2].
    - apply Hm; [exact H2|]. intros c Hc. replace (n - 2)%nat with (n - 1 - 1)%nat by lia. apply below_degree, Hr, Hc.
    - assert (n = 1%nat) by lia. subst n. apply (iterated_ext' _ (fun _ => 0)); [|apply iterated_zero]. intros v. symmetry. apply sum_zero. intros c Hc.
      rewrite (below_zero d (r c) (proj1 (Hr c Hc)) v). ring. }
  assert (Zh : forall v, h v = 0).
  { apply (disjoint_spaces d (fun m => length m = d /\ mdeg m = (n - 1)%nat) (fun m => length m = d /\ (mdeg m < n - 1)%nat)); try tauto; [intros m [_ ?] [_ ?]; lia|].
    assert (N : INR d + INR (n - 1) <> 0) by (pose proof (lt_0_INR d ltac:(lia)); pose proof (pos_INR (n - 1)); lra).
    apply (poly_space_ext _ (fun v => - / (INR d + INR (n - 1)) * sum d (fun c => pp c v))).
    - intros v. specialize (Zq v). unfold q in Zq. replace (sum d (fun c => pp c v)) with (- ((INR d + INR (n - 1)) * h v)) by lra. field. exact N.
    - apply (poly_space_scale _ _ (fun v => sum d (fun c => pp c v))), sum_poly. intros c Hc. exact (proj1 (Hpp c Hc)). }
  assert (Ep : forall c v, (c < d)%nat -> f c v = p c v) by (intros c v Hc; rewrite Ef, Zh by exact Hc; ring).
  assert (Df' : forall c, (c < d)%nat -> degree_space d (n - 1) (f c)).
  { intros c Hc. apply (poly_space_ext _ (p c)); [intros v; symmetry; apply Ep, Hc|apply Dp, Hc]. }
  destruct (le_lt_dec 2 n) as [H2|H2].
  - assert (W : exists w : nat -> sfun, forall c, (c < d)%nat -> degree_space d (n - 1 - 1) (w c) /\ forall v, f c v = v c * w c v).
    { assert (X : forall N, (N <= d)%nat -> exists w : nat -> sfun, forall c, (c < N)%nat -> degree_space d (n - 1 - 1) (w c) /\ forall v, f c v = v c * w c v).
      { induction N as [|N IH]; intros HN; [exists (fun _ _ => 0); intros; lia|]. destruct (IH ltac:(lia)) as [w H]. destruct (factor_var d (n - 1) N (f N) ltac:(lia) (Df' N ltac:(lia)) (fun v => Hz N v ltac:(lia))) as (x & Hx).
        exists (fun c => if Nat.eq_dec c N then x else w c). intros c Hc. destruct (Nat.eq_dec c N) as [->|]; [exact Hx|apply H; lia]. }
      exact (X d (le_n _)). }
    destruct W as [w Hw]. specialize (Hm w H2 ltac:(intros c Hc; replace (n - 2)%nat with (n - 1 - 1)%nat by lia; apply Hw, Hc)).
    assert (Dt : forall c, (c < d)%nat -> degree_space d (n - 1 + (n - 1 - 1)) (fun v => f c v * w c v)) by (intros c Hc; apply (degree_mul d (n - 1) (n - 1 - 1) (f c) (w c)); [apply Df', Hc|apply Hw, Hc]).
    assert (Z : forall v, sum d (fun c => f c v * w c v) = 0).
    { apply (simplex_positive d (n - 1 + (n - 1 - 1)) (fun v => sum d (fun c => f c v * w c v)) ltac:(lia)); [apply sum_poly; exact Dt| |exists (fun _ => 0); exact Hm].
      intros e He. assert (P : forall N, (N <= d)%nat -> 0 <= sum N (fun c => f c e * w c e)); [|apply P; lia].
      induction N as [|N IH]; intros HN; [apply Rle_refl|]. cbn [sum]. specialize (IH ltac:(lia)). rewrite (proj2 (Hw N ltac:(lia))). pose proof (inside_pos d e N ltac:(lia) He ltac:(lia)).
      assert (0 <= e N * w N e * w N e) by (rewrite Rmult_assoc; apply Rmult_le_pos; [lra|apply Rle_0_sqr]). lra. }
    assert (Zw : forall c, (c < d)%nat -> forall v, w c v = 0).
    { intros c Hc. apply (simplex_inside_zero d (n - 1 - 1) (w c) ltac:(lia) (proj1 (Hw c Hc))). intros e He.
      assert (X : f c e * w c e = 0).
      { apply (sum_nonneg_zero d (fun c => f c e * w c e)); [|apply Z|exact Hc]. intros i Hi. rewrite (proj2 (Hw i Hi)). pose proof (inside_pos d e i ltac:(lia) He Hi).
        rewrite Rmult_assoc. apply Rmult_le_pos; [lra|apply Rle_0_sqr]. }
      rewrite (proj2 (Hw c Hc)) in X. pose proof (inside_pos d e c ltac:(lia) He Hc). rewrite Rmult_assoc in X. apply Rmult_integral in X. destruct X as [X|X]; [lra|]. apply Rmult_integral in X. tauto. }
    intros c v Hc. rewrite (proj2 (Hw c Hc)), Zw by exact Hc. ring.
  - assert (n = 1%nat) by lia. subst n. intros c v Hc. destruct (poly_partial d 0 c (f c) (Df' c Hc)) as (x & Hx & _).
    rewrite <- (Hz c (upd v c 0) Hc (upd_same _ _ _)).
    assert (K : forall g, degree_space d 0 g -> forall u w, g u = g w).
    { clear. intros g (l & Hl & E) u w. rewrite !E. clear E. induction Hl as [|[a m] l [Lm Dm] _ IH]; [reflexivity|]. rewrite !reval_cons, IH. cbn [snd] in Dm. assert (D0 : mdeg m = 0%nat) by lia. do 2 f_equal.
      clear - D0. unfold meval. generalize 0%nat as i. induction m as [|e m IH]; intros i; [reflexivity|]. cbn [meval_from mdeg] in *. replace e with 0%nat by lia. cbn [pow]. rewrite (IH ltac:(lia)). reflexivity. }
    apply K, Df', Hc.
Qed.
