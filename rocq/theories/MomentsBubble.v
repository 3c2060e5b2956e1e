(** Fields with vanishing traces that are orthogonal to a Nedelec or Raviart-Thomas space are zero. *)
From Coquelicot Require Import Coquelicot.
From Coq Require Import String Arith Bool ZArith Reals Lia Lra List FunctionalExtensionality.
From Verif Require Import Base PolyLib PolySetsModel PolySetsProofs RTNedelecProofs PropertiesPolySets PolyVec QuadratureModel ReferencesModel ReferencesSpec ReferencesProofs ReferencesGeometry CiarletModel CiarletProofs
  LinAlg ElementModel LagrangeModel UnisolvenceProofs LagrangeProofs LagrangeKey LagrangeUnisolvence PropertiesLagrange PropertiesCiarlet
  LegendreJacobi LegendreIntSpec LegendreIntegrals KmvProofs MomentsInt MomentsParts MomentsRT
  PointsModel PointsSpec PointsProofs PointsElements MomentElementsModel MomentElementsSpec MomentElementsProofs MomentsFacets MomentsRaviart MomentsRTDual MomentsNedelec.
Import PolyVec ListNotations.
Local Open Scope R_scope.

(** * Factors *)
Lemma degree0_const d f v w : degree_space d 0 f -> f v = f w.
Proof.
  revert f. apply (poly_ind (fun m => length m = d /\ (mdeg m <= 0)%nat) (fun f => f v = f w)); [reflexivity| |intros f g E H; rewrite <- !E; exact H].
  intros c m g [L D] E. rewrite E. f_equal. f_equal. assert (G : forall m u s, (mdeg m <= 0)%nat -> meval_from s m u = 1).
  { clear. induction m as [|a m IH]; intros u s D; [reflexivity|]. cbn [meval_from mdeg] in *. replace a with 0%nat by lia. rewrite IH by lia. cbn [pow]. ring. }
  unfold meval. rewrite !G by exact D. reflexivity.
Qed.
Lemma below_var d n i f : (i < d)%nat -> below d (S n) f -> (forall v, v i = 0 -> f v = 0) -> exists g, below d n g /\ forall v, f v = v i * g v.
Proof.
  intros Hi Hf Z. apply below_S in Hf. destruct n as [|n].
  - exists (fun _ => 0). split; [apply poly_space_zero|]. intros v. rewrite (degree0_const d f v (fun _ => 0) Hf), Z by reflexivity. ring.
  - destruct (factor_var d (S n) i f Hi Hf Z) as (g & Hg & E). replace (S n - 1)%nat with n in Hg by lia. exists g. split; [apply below_S, Hg|exact E].
Qed.
Definition lam (d : nat) (v : point) : R := 1 - sum d v.
Lemma lam_space d : degree_space d 1 (lam d).
Proof. apply (degree_minus d 1 (fun _ => 1) (fun v => sum d v)); [apply degree_const|]. apply (sum_poly _ d (fun i v => v i)). intros i Hi. apply degree_var, Hi. Qed.
Lemma sum_upd d v j t : (j < d)%nat -> sum d (upd v j t) = sum d v - v j + t.
Proof.
  intros Hj. replace (sum d v) with (sum d (fun i => upd v j t i + (if (i =? j)%nat then v j - t else 0))).
  - rewrite sum_plus, (sum_single d (fun i => if (i =? j)%nat then v j - t else 0) j Hj); [rewrite Nat.eqb_refl; ring|]. intros k _ E. apply Nat.eqb_neq in E. rewrite E. reflexivity.
  - apply sum_ext. intros i _. unfold upd. destruct (Nat.eq_dec i j) as [->|E]; [rewrite Nat.eqb_refl; ring|]. apply Nat.eqb_neq in E. rewrite E. ring.
Qed.
(** the reflection that exchanges the last barycentric coordinate with that of vertex 0 *)
Definition flip (d : nat) (v : point) : point := upd v 0 (lam d v).
Lemma flip_flip d v : (1 <= d)%nat -> flip d (flip d v) = v.
Proof.
  intros Hd. unfold flip. rewrite upd_upd. replace (lam d (upd v 0 (lam d v))) with (v 0%nat); [apply upd_id|]. unfold lam. rewrite sum_upd by lia. ring.
Qed.
Lemma flip_degree d n f : degree_space d n f -> degree_space d n (fun v => f (flip d v)).
Proof. intros H. apply (upd_space d n 0 f (lam d) H), lam_space. Qed.
Lemma flip_below d n f : below d n f -> below d n (fun v => f (flip d v)).
Proof.
  intros H. destruct n as [|n]; [|apply below_S, flip_degree, below_S, H]. apply (poly_space_ext _ (fun _ => 0)); [intros v; symmetry; apply (below_zero d f H)|apply poly_space_zero].
Qed.
Lemma below_lam d n f : (1 <= d)%nat -> below d (S n) f -> (forall v, sum d v = 1 -> f v = 0) -> exists g, below d n g /\ forall v, f v = lam d v * g v.
Proof.
  intros Hd Hf Z. destruct (below_var d n 0 (fun v => f (flip d v)) ltac:(lia) (flip_below d _ f Hf)) as (g & Hg & E).
  - intros v Hv. apply Z. unfold flip, lam. rewrite sum_upd by lia. rewrite Hv. ring.
  - exists (fun v => g (flip d v)). split; [apply flip_below, Hg|]. intros v. specialize (E (flip d v)). rewrite flip_flip in E by exact Hd. rewrite E. f_equal.
Qed.
(** on the slanted facet, a coordinate that is replaced by the others *)
Definition put (d j : nat) (v : point) : point := upd v j (lam d v + v j).
Lemma put_sum d j v : (j < d)%nat -> sum d (put d j v) = 1.
Proof. intros H. unfold put, lam. rewrite sum_upd by exact H. ring. Qed.
Lemma put_id d j v : sum d v = 1 -> put d j v = v.
Proof. intros H. unfold put, lam. rewrite H. replace (1 - 1 + v j) with (v j) by ring. apply upd_id. Qed.
Lemma put_degree d n j f : (j < d)%nat -> degree_space d n f -> degree_space d n (fun v => f (put d j v)).
Proof. intros Hj H. apply (upd_space d n j f (fun v => lam d v + v j) H). apply (poly_space_add _ (lam d) (fun v => v j)); [apply lam_space|apply degree_var, Hj]. Qed.
Lemma put_below d n j f : (j < d)%nat -> below d n f -> below d n (fun v => f (put d j v)).
Proof.
  intros Hj H. destruct n as [|n]; [|apply below_S, put_degree, below_S, H; exact Hj]. apply (poly_space_ext _ (fun _ => 0)); [intros v; symmetry; apply (below_zero d f H)|apply poly_space_zero].
Qed.
Lemma slant_factor_zero d n i f : (2 <= d)%nat -> (i < d)%nat -> degree_space d n f -> (forall v, sum d v = 1 -> v i * f v = 0) -> forall v, sum d v = 1 -> f v = 0.
Proof.
  intros Hd Hi Hf Z v Hv. set (j := if (i =? 0)%nat then 1%nat else 0%nat). assert (Hj : (j < d)%nat /\ i <> j) by (unfold j; destruct (Nat.eqb_spec i 0); split; lia). destruct Hj as [Hj E].
  rewrite <- (put_id d j v Hv). revert v Hv. intros v _. revert v. apply (var_factor_zero d n i (fun v => f (put d j v)) Hi (put_degree d n j f Hj Hf)). intros v.
  specialize (Z (put d j v) (put_sum d j v Hj)). unfold put at 1 in Z. unfold upd in Z. destruct (Nat.eq_dec i j); [contradiction|exact Z].
Qed.
Lemma below_weaken d n k f : (n <= k)%nat -> below d n f -> below d k f.
Proof. intros L. apply poly_space_weaken. intros m [A B]. split; [exact A|lia]. Qed.
Lemma below_mul d n k f g : below d n f -> degree_space d k g -> below d (n + k) (fun v => f v * g v).
Proof.
  intros Hf Hg. destruct n as [|n]; [|apply below_S in Hf; apply (below_S d (n + k)), degree_mul; assumption].
  apply (poly_space_ext _ (fun _ => 0)); [intros v; rewrite (below_zero d f Hf v); ring|apply poly_space_zero].
Qed.
Lemma below_some d n f : below d n f -> exists k, degree_space d k f.
Proof. intros H. exists (n - 1)%nat. apply below_degree, H. Qed.

(** * Nedelec and Raviart-Thomas fields *)
Definition nedelec_fields (d n : nat) (f : nat -> sfun) : Prop :=
  (forall c, (c < d)%nat -> degree_space d n (f c)) /\ degree_space d n (fun v => sum d (fun c => v c * f c v)).
Lemma nedelec_of_fields d n f : (1 <= n)%nat -> nedelec_fields d n f -> nedelec_space d n (fun ct => if (fst ct <? d)%nat then f (fst ct) (snd ct) else 0).
Proof.
  intros Hn [Hf HO]. destruct (finite_choice (((fun _ => 0), (fun _ => 0)) : sfun * sfun) d (fun c ab => below d n (fst ab) /\ poly_space (fun m => length m = d /\ mdeg m = n) (snd ab) /\ forall v, f c v = fst ab v + snd ab v)) as [ab Hab].
  { intros c Hc. destruct (split_degree d n (f c) (Hf c Hc)) as (a & b & R). exists (a, b). exact R. }
  exists (fun c => fst (ab c)), (fun c => snd (ab c)). split; [|split; [|split; [|split]]].
  - intros c Hc. apply below_degree, Hab, Hc.
  - intros c Hc. apply Hab, Hc.
  - apply (disjoint_spaces d (fun m => length m = d /\ mdeg m = S n) (fun m => length m = d /\ (mdeg m <= n)%nat)); [tauto|tauto|intros m [_ A] [_ B]; lia| |].
    + apply sum_poly. intros c Hc. destruct (Hab c Hc) as (_ & H & _). clear -H Hc. revert H. generalize (snd (ab c)). clear ab. apply poly_ind.
      * apply (poly_space_ext _ (fun _ => 0)); [intros; ring|apply poly_space_zero].
      * intros a m g [L D] IH. apply (poly_space_ext _ (fun v => a * meval (inc_at c m) v + v c * g v)); [intros v; rewrite meval_inc by lia; ring|].
        apply (poly_space_add _ (fun v => a * meval (inc_at c m) v) (fun v => v c * g v)); [|exact IH]. apply poly_space_scale, poly_space_mono.
        destruct (inc_at_spec m c ltac:(lia)) as (A & B & _). split; lia.
      * intros g h E. apply poly_space_ext. intros v. rewrite E. reflexivity.
    + apply (poly_space_ext _ (fun v => sum d (fun c => v c * f c v) - sum d (fun c => v c * fst (ab c) v))).
      * intros v. assert (E : sum d (fun c => v c * f c v) = sum d (fun c => v c * fst (ab c) v) + sum d (fun c => v c * snd (ab c) v)); [|lra].
        rewrite <- sum_plus. apply sum_ext. intros c Hc. destruct (Hab c Hc) as (_ & _ & ->). ring.
      * apply (degree_minus d n (fun v => sum d (fun c => v c * f c v)) (fun v => sum d (fun c => v c * fst (ab c) v))); [exact HO|]. apply sum_poly. intros c Hc. destruct (Hab c Hc) as (H & _).
        apply (degree_weaken d (1 + (n - 1))); [lia|]. apply (degree_mul d 1 (n - 1) (fun v => v c) (fst (ab c))); [apply degree_var, Hc|apply below_degree, H].
  - intros c v Hc. cbn [fst snd]. destruct (Nat.ltb_spec c d); [|lia]. apply (Hab c Hc).
  - intros c v Hc. cbn [fst snd]. destruct (Nat.ltb_spec c d); [lia|reflexivity].
Qed.
Lemma fields_of_nedelec d n f : (1 <= n)%nat -> nedelec_space d n f -> nedelec_fields d n (fun c v => f (c, v)).
Proof.
  intros Hn (p & s & Hp & Hs & HO & E & _). split.
  - intros c Hc. apply (poly_space_ext _ (fun v => p c v + s c v)); [intros v; symmetry; apply E, Hc|].
    apply (poly_space_add _ (p c) (s c)); [apply (degree_weaken d (n - 1)); [lia|apply Hp, Hc]|]. generalize (Hs c Hc). apply poly_space_weaken. intros m [A B]. split; [exact A|lia].
  - apply (poly_space_ext _ (fun v => sum d (fun c => v c * p c v))).
    + intros v. rewrite (sum_ext d (fun c => v c * f (c, v)) (fun c => v c * p c v + v c * s c v)) by (intros c Hc; rewrite E by exact Hc; ring). rewrite sum_plus, HO. ring.
    + apply sum_poly. intros c Hc. apply (degree_weaken d (1 + (n - 1))); [lia|]. apply (degree_mul d 1 (n - 1) (fun v => v c) (p c)); [apply degree_var, Hc|apply Hp, Hc].
Qed.
Lemma rt_of_fields d k (p : nat -> sfun) h : (forall c, (c < d)%nat -> degree_space d k (p c)) -> degree_space d k h ->
  rt_space d (S k) (fun ct => if (fst ct <? d)%nat then p (fst ct) (snd ct) + snd ct (fst ct) * h (snd ct) else 0).
Proof.
  intros Hp Hh. destruct (split_degree d k h Hh) as (a & b & Ha & Hb & E). exists (fun c v => p c v + v c * a v), b. replace (S k - 1)%nat with k by lia. split; [|split; [exact Hb|split]].
  - intros c Hc. apply (poly_space_add _ (p c) (fun v => v c * a v)); [apply Hp, Hc|]. apply (poly_space_ext _ (fun v => a v * v c)); [intros; ring|].
    apply (below_S d k). replace (S k) with (k + 1)%nat by lia. apply (below_mul d k 1 a (fun v => v c) Ha). apply degree_var, Hc.
  - intros c v Hc. cbn [fst snd]. destruct (Nat.ltb_spec c d); [|lia]. rewrite E. ring.
  - intros c v Hc. cbn [fst snd]. destruct (Nat.ltb_spec c d); [lia|reflexivity].
Qed.

(** * Normal components *)
Lemma inside_lam d e : (1 <= d <= 3)%nat -> inside (slims d) e -> 0 < lam d e.
Proof.
  intros Hd H. assert (C : d = 1%nat \/ d = 2%nat \/ d = 3%nat) by lia. unfold lam. destruct C as [->|[->| ->]]; cbn [slims] in H; unfold seg_lims, tri_lims, tet_lims in H; cbn [inside] in H; cbn [sum]; lra.
Qed.
Lemma bdm_zero d n (g : nat -> sfun) : (1 <= d <= 3)%nat -> (1 <= n)%nat -> (forall c, (c < d)%nat -> degree_space d n (g c)) ->
  (forall c v, (c < d)%nat -> v c = 0 -> g c v = 0) -> (forall v, sum d v = 1 -> sum d (fun c => g c v) = 0) ->
  (forall psi : nat -> sfun, (2 <= n)%nat -> nedelec_fields d (n - 1) psi -> iterated_integral (slims d) (fun v => sum d (fun c => g c v * psi c v)) (fun _ => 0) 0) ->
  forall c v, (c < d)%nat -> g c v = 0.
Proof.
  intros Hd Hn Hg Hz Hs HO.
  destruct (finite_choice ((fun _ => 0) : sfun) d (fun c q => below d n q /\ forall v, g c v = v c * q v)) as [q Hq].
  { intros c Hc. apply (below_var d n c (g c) Hc); [apply below_S, Hg, Hc|intros v; apply Hz, Hc]. }
  destruct (below_lam d n (fun v => sum d (fun c => g c v)) ltac:(lia)) as (r & Hr & Er); [apply below_S, sum_poly; exact Hg|exact Hs|].
  assert (Z : forall v, sum d (fun c => v c * (q c v) ^ 2) + lam d v * r v ^ 2 = sum d (fun c => g c v * (q c v + r v))).
  { intros v. rewrite (sum_ext d (fun c => g c v * (q c v + r v)) (fun c => v c * q c v ^ 2 + g c v * r v)) by (intros c Hc; rewrite (proj2 (Hq c Hc)); ring).
    rewrite sum_plus, sum_scal_r, Er. ring. }
  assert (XT : forall v, sum d (fun c => v c * (q c v + r v)) = r v).
  { intros v. rewrite (sum_ext d (fun c => v c * (q c v + r v)) (fun c => g c v + v c * r v)) by (intros c Hc; rewrite (proj2 (Hq c Hc)); ring). rewrite sum_plus, sum_scal_r, Er. unfold lam. ring. }
  destruct (Nat.eq_dec n 1) as [->|Hn1].
  - assert (R0 : forall v, r v = 0).
    { intros v. apply below_S in Hr. rewrite (degree0_const d r v (fun _ => 0) Hr), <- XT. apply sum_zero. intros; ring. }
    intros c v Hc. destruct (Hq c Hc) as [Hb E]. rewrite E. apply below_S in Hb. rewrite (degree0_const d (q c) v (fun i => if (i =? c)%nat then 1 else 0) Hb).
    specialize (XT (fun i => if (i =? c)%nat then 1 else 0)). rewrite R0, (sum_single d _ c Hc), Nat.eqb_refl in XT; [|intros k _ Hk; apply Nat.eqb_neq in Hk; rewrite Hk; ring].
    replace (q c (fun i => if (i =? c)%nat then 1 else 0)) with 0 by lra. ring.
  - assert (F0 : forall v, sum d (fun c => v c * (q c v) ^ 2) + lam d v * r v ^ 2 = 0).
    { apply (simplex_positive d (1 + 2 * n) (fun v => sum d (fun c => v c * (q c v) ^ 2) + lam d v * r v ^ 2) Hd).
      - assert (Sq : forall a b, degree_space d 1 a -> below d n b -> degree_space d (1 + 2 * n) (fun v => a v * b v ^ 2)).
        { intros a b Ha Hb. apply degree_mul; [exact Ha|]. apply degree_pow. apply (degree_weaken d (n - 1)); [lia|apply below_degree, Hb]. }
        apply (poly_space_add _ (fun v => sum d (fun c => v c * (q c v) ^ 2)) (fun v => lam d v * r v ^ 2)); [apply sum_poly; intros c Hc; apply (Sq (fun v => v c) (q c)); [apply degree_var, Hc|apply Hq, Hc]|apply Sq; [apply lam_space|exact Hr]].
      - intros e He. apply Rplus_le_le_0_compat; [|apply Rmult_le_pos; [left; apply inside_lam; assumption|apply pow2_ge_0]].
        assert (P : forall c, (c < d)%nat -> 0 <= e c * q c e ^ 2) by (intros c Hc; apply Rmult_le_pos; [left; apply (inside_pos d); assumption|apply pow2_ge_0]).
        clear -P. induction d as [|d IH]; [apply Rle_refl|]. cbn [sum]. apply Rplus_le_le_0_compat; [apply IH; intros; apply P; lia|apply P; lia].
      - exists (fun _ => 0). eapply iterated_ext'; [|apply (HO (fun c v => q c v + r v)); [lia|]].
        + intros v. rewrite Z. reflexivity.
        + split.
          * intros c Hc. apply (poly_space_add _ (q c) r); [apply below_degree, Hq, Hc|apply below_degree, Hr].
          * apply (poly_space_ext _ r); [intros v; symmetry; apply XT|apply below_degree, Hr]. }
    intros c v Hc. destruct (Hq c Hc) as [Hb E]. rewrite E. enough (Q : q c v = 0) by (rewrite Q; ring). revert v E. intros v _. revert v.
    apply (simplex_inside_zero d (n - 1) (q c) Hd (below_degree d n _ Hb)). intros e He. specialize (F0 e).
    assert (P : forall c, (c < d)%nat -> 0 <= e c * q c e ^ 2) by (intros k Hk; apply Rmult_le_pos; [left; apply (inside_pos d); assumption|apply pow2_ge_0]).
    assert (S0 : sum d (fun c => e c * q c e ^ 2) = 0).
    { assert (0 <= lam d e * r e ^ 2) by (apply Rmult_le_pos; [left; apply inside_lam; assumption|apply pow2_ge_0]).
      assert (0 <= sum d (fun c => e c * q c e ^ 2)); [|lra]. clear -P. induction d as [|d IH]; [apply Rle_refl|]. cbn [sum]. apply Rplus_le_le_0_compat; [apply IH; intros; apply P; lia|apply P; lia]. }
    pose proof (sum_nonneg_zero d _ P S0 c Hc) as Q. cbv beta in Q. pose proof (inside_pos d e c Hd He Hc). apply Rmult_integral in Q. destruct Q as [Q|Q]; [lra|]. apply Rsqr_0_uniq. unfold Rsqr. nra.
Qed.

(** * Tangential components in three dimensions *)
Lemma curl_factors n (f : nat -> sfun) : (forall c, (c < 3)%nat -> below 3 (S n) (f c)) ->
  (forall i c v, (i < 3)%nat -> (c < 3)%nat -> i <> c -> v i = 0 -> f c v = 0) -> (forall v, sum 3 v = 1 -> f 0%nat v = f 1%nat v /\ f 0%nat v = f 2%nat v) ->
  exists c0 c1 c2 b, below 3 (n - 2) c0 /\ below 3 (n - 2) c1 /\ below 3 (n - 2) c2 /\ below 3 (n - 2) b /\
    (forall v, f 0%nat v = v 1%nat * v 2%nat * (lam 3 v * c0 v + v 0%nat * b v)) /\
    (forall v, f 1%nat v = v 0%nat * v 2%nat * (lam 3 v * c1 v + v 1%nat * b v)) /\
    (forall v, f 2%nat v = v 0%nat * v 1%nat * (lam 3 v * c2 v + v 2%nat * b v)).
Proof.
  intros Hf Hz Hs.
  assert (Two : forall c i j, (c < 3)%nat -> (i < 3)%nat -> (j < 3)%nat -> i <> c -> j <> c -> i <> j -> exists a, below 3 (n - 1) a /\ forall v, f c v = v i * v j * a v).
  { intros c i j Hc Hi Hj E1 E2 E3. destruct (below_var 3 n i (f c) Hi (Hf c Hc)) as (g & Hg & Eg); [intros v Hv; apply (Hz i c v); assumption|].
    destruct n as [|n].
    - exists (fun _ => 0). split; [apply poly_space_zero|]. intros v. rewrite Eg, (below_zero 3 g Hg v). ring.
    - replace (S n - 1)%nat with n by lia. destruct (below_var 3 n j g Hj Hg) as (a & Ha & Ea).
      + intros v Hv. apply below_S in Hg.
        assert (Q : forall v, (fun v => g (upd v j 0)) v = 0); [|assert (UU : upd v j 0 = v) by (rewrite <- Hv; apply upd_id); specialize (Q v); cbv beta in Q; rewrite UU in Q; exact Q].
        apply (var_factor_zero 3 n i (fun v => g (upd v j 0)) Hi); [apply (upd_space 3 n j g (fun _ => 0) Hg), degree_const|].
        intros w. assert (Y : upd w j 0 i * g (upd w j 0) = 0); [|unfold upd at 1 in Y; destruct (Nat.eq_dec i j); [lia|exact Y]].
        rewrite <- Eg. apply (Hz j c); auto. unfold upd. destruct (Nat.eq_dec j j); [reflexivity|lia].
      + exists a. split; [exact Ha|]. intros v. rewrite Eg, Ea. ring. }
  destruct (Two 0 1 2)%nat as (a0 & H0 & E0); [lia..|]. destruct (Two 1 0 2)%nat as (a1 & H1 & E1); [lia..|]. destruct (Two 2 0 1)%nat as (a2 & H2 & E2); [lia..|].
  clear Two Hz. destruct (Nat.eq_dec n 0) as [->|Hn0].
  { exists (fun _ => 0), (fun _ => 0), (fun _ => 0), (fun _ => 0). do 4 (split; [apply poly_space_zero|]).
    repeat split; intros v; [rewrite E0, (below_zero 3 a0 H0 v)|rewrite E1, (below_zero 3 a1 H1 v)|rewrite E2, (below_zero 3 a2 H2 v)]; ring. }
  destruct (Nat.eq_dec n 1) as [->|Hn1].
  { exists (fun _ => 0), (fun _ => 0), (fun _ => 0), (fun _ => 0). do 4 (split; [apply poly_space_zero|]).
    repeat split; intros v; [rewrite E0, (below_zero 3 a0 H0 v)|rewrite E1, (below_zero 3 a1 H1 v)|rewrite E2, (below_zero 3 a2 H2 v)]; ring. }
  assert (EN : exists k, n = S (S k)) by (exists (n - 2)%nat; lia). destruct EN as [k ->]. replace (S (S k) - 1)%nat with (S k) in * by lia. replace (S (S k) - 2)%nat with k by lia.
  assert (D0 : degree_space 3 k a0) by (apply below_S, H0). assert (D1 : degree_space 3 k a1) by (apply below_S, H1). assert (D2 : degree_space 3 k a2) by (apply below_S, H2).
  assert (P1 : forall v, sum 3 v = 1 -> v 1%nat * a0 v = v 0%nat * a1 v).
  { intros v Hv. enough (Q : v 1%nat * a0 v - v 0%nat * a1 v = 0) by lra. revert v Hv. apply (slant_factor_zero 3 (1 + k) 2 (fun v => v 1%nat * a0 v - v 0%nat * a1 v)); [lia|lia| |].
    - apply (degree_minus 3 (1 + k) (fun v => v 1%nat * a0 v) (fun v => v 0%nat * a1 v)); apply degree_mul; try assumption; apply degree_var; lia.
    - intros v Hv. destruct (Hs v Hv) as [A _]. rewrite E0, E1 in A. lra. }
  assert (P2 : forall v, sum 3 v = 1 -> v 2%nat * a0 v = v 0%nat * a2 v).
  { intros v Hv. enough (Q : v 2%nat * a0 v - v 0%nat * a2 v = 0) by lra. revert v Hv. apply (slant_factor_zero 3 (1 + k) 1 (fun v => v 2%nat * a0 v - v 0%nat * a2 v)); [lia|lia| |].
    - apply (degree_minus 3 (1 + k) (fun v => v 2%nat * a0 v) (fun v => v 0%nat * a2 v)); apply degree_mul; try assumption; apply degree_var; lia.
    - intros v Hv. destruct (Hs v Hv) as [_ A]. rewrite E0, E2 in A. lra. }
  destruct (below_var 3 k 0 (fun v => a0 (put 3 2 v))) as (b & Hb & Eb); [lia|apply put_below; [lia|exact H0]| |].
  { intros v Hv. assert (Q : forall v, (fun v => a0 (put 3 2 (upd v 0 0))) v = 0); [|assert (UU : upd v 0 0 = v) by (rewrite <- Hv; apply upd_id); specialize (Q v); cbv beta in Q; rewrite UU in Q; exact Q].
    apply (var_factor_zero 3 k 1 (fun v => a0 (put 3 2 (upd v 0 0)))); [lia|apply (upd_space 3 k 0 (fun v => a0 (put 3 2 v)) (fun _ => 0)); [apply put_degree; [lia|exact D0]|apply degree_const]|].
    intros w. pose proof (P1 (put 3 2 (upd w 0 0)) ltac:(apply put_sum; lia)) as Q. change (put 3 2 (upd w 0 0) 1%nat) with (w 1%nat) in Q. change (put 3 2 (upd w 0 0) 0%nat) with 0 in Q. lra. }
  assert (L : forall j a, (j < 3)%nat -> below 3 (S k) a -> (forall v, sum 3 v = 1 -> v 0%nat * (a v - v j * b v) = 0) -> exists c, below 3 k c /\ forall v, a v = lam 3 v * c v + v j * b v).
  { intros j a Hj Ha HZ. assert (Hjb : below 3 (S k) (fun v => v j * b v)).
    { apply (poly_space_ext _ (fun v => b v * v j)); [intros; ring|]. replace (S k) with (k + 1)%nat by lia. apply (below_mul 3 k 1 b (fun v => v j) Hb), degree_var, Hj. }
    assert (Hab : below 3 (S k) (fun v => a v - v j * b v)) by (apply below_S, degree_minus; apply below_S; assumption).
    destruct (below_lam 3 k (fun v => a v - v j * b v)) as (c & Hc & Ec); [lia|exact Hab| |].
    - apply (slant_factor_zero 3 k 0 (fun v => a v - v j * b v)); [lia|lia|apply below_S, Hab|exact HZ].
    - exists c. split; [exact Hc|]. intros v. specialize (Ec v). cbv beta in Ec. lra. }
  assert (B0 : forall v, sum 3 v = 1 -> a0 v = v 0%nat * b v).
  { intros v Hv. specialize (Eb v). cbv beta in Eb. rewrite put_id in Eb by exact Hv. exact Eb. }
  destruct (L 0%nat a0 ltac:(lia) H0) as (c0 & Hc0 & Ec0); [intros v Hv; rewrite (B0 v Hv); ring|].
  destruct (L 1%nat a1 ltac:(lia) H1) as (c1 & Hc1 & Ec1); [intros v Hv; rewrite Rmult_minus_distr_l, <- (P1 v Hv), (B0 v Hv); ring|].
  destruct (L 2%nat a2 ltac:(lia) H2) as (c2 & Hc2 & Ec2); [intros v Hv; rewrite Rmult_minus_distr_l, <- (P2 v Hv), (B0 v Hv); ring|].
  exists c0, c1, c2, b. do 4 (split; [assumption|]). repeat split; intros v; [rewrite E0, Ec0|rewrite E1, Ec1|rewrite E2, Ec2]; ring.
Qed.
Lemma curl_positive n (f : nat -> sfun) (t : nat -> sfun) b :
  (forall c, (c < 3)%nat -> degree_space 3 n (t c)) -> degree_space 3 n b -> (forall v, b v = sum 3 (fun c => t c v)) ->
  (forall v, f 0%nat v = v 1%nat * v 2%nat * (lam 3 v * t 0%nat v + v 0%nat * b v)) ->
  (forall v, f 1%nat v = v 0%nat * v 2%nat * (lam 3 v * t 1%nat v + v 1%nat * b v)) ->
  (forall v, f 2%nat v = v 0%nat * v 1%nat * (lam 3 v * t 2%nat v + v 2%nat * b v)) ->
  iterated_integral (slims 3) (fun v => sum 3 (fun c => f c v * t c v)) (fun _ => 0) 0 ->
  forall c v, (c < 3)%nat -> f c v = 0.
Proof.
  intros Ht Hb Eb F0 F1 F2 HI. assert (H3 : (1 <= 3 <= 3)%nat) by lia.
  set (F := fun v => lam 3 v * (v 1%nat * v 2%nat * t 0%nat v ^ 2 + v 0%nat * v 2%nat * t 1%nat v ^ 2 + v 0%nat * v 1%nat * t 2%nat v ^ 2) + v 0%nat * v 1%nat * v 2%nat * b v ^ 2).
  assert (EF : forall v, F v = sum 3 (fun c => f c v * t c v)).
  { intros v. unfold F. cbn [sum]. rewrite F0, F1, F2, (Eb v). cbn [sum]. ring. }
  assert (V : forall i, (i < 3)%nat -> degree_space 3 1 (fun v => v i)) by (intros i Hi; apply degree_var, Hi).
  assert (P : forall e, inside (slims 3) e -> 0 < e 0%nat /\ 0 < e 1%nat /\ 0 < e 2%nat /\ 0 < lam 3 e).
  { intros e He. repeat split; [apply (inside_pos 3)|apply (inside_pos 3)|apply (inside_pos 3)|apply inside_lam]; try assumption; lia. }
  assert (Z : forall v, F v = 0).
  { apply (simplex_positive 3 (1 + (1 + 1 + 2 * n) + 1) F H3).
    - assert (T : forall i j q, (i < 3)%nat -> (j < 3)%nat -> degree_space 3 n q -> degree_space 3 (1 + 1 + 2 * n) (fun v => v i * v j * q v ^ 2)).
      { intros i j q Hi Hj Hq. apply (degree_mul 3 (1 + 1) (2 * n) (fun v => v i * v j) (fun v => q v ^ 2)); [apply (degree_mul 3 1 1 (fun v => v i) (fun v => v j)); apply V; assumption|apply degree_pow, Hq]. }
      unfold F. apply (poly_space_add _ (fun v => lam 3 v * (v 1%nat * v 2%nat * t 0%nat v ^ 2 + v 0%nat * v 2%nat * t 1%nat v ^ 2 + v 0%nat * v 1%nat * t 2%nat v ^ 2)) (fun v => v 0%nat * v 1%nat * v 2%nat * b v ^ 2)).
      + apply (degree_weaken 3 (1 + (1 + 1 + 2 * n))); [lia|]. apply degree_mul; [apply lam_space|].
        apply (poly_space_add _ (fun v => v 1%nat * v 2%nat * t 0%nat v ^ 2 + v 0%nat * v 2%nat * t 1%nat v ^ 2) (fun v => v 0%nat * v 1%nat * t 2%nat v ^ 2)); [|apply T; try lia; apply Ht; lia].
        apply (poly_space_add _ (fun v => v 1%nat * v 2%nat * t 0%nat v ^ 2) (fun v => v 0%nat * v 2%nat * t 1%nat v ^ 2)); apply T; try lia; apply Ht; lia.
      + apply (degree_weaken 3 (1 + (1 + 1 + 2 * n))); [lia|]. apply (poly_space_ext _ (fun v => v 0%nat * (v 1%nat * v 2%nat * b v ^ 2))); [intros; ring|].
        apply (degree_mul 3 1 (1 + 1 + 2 * n) (fun v => v 0%nat) (fun v => v 1%nat * v 2%nat * b v ^ 2)); [apply V; lia|apply T; [lia|lia|exact Hb]].
    - intros e He. destruct (P e He) as (A0 & A1 & A2 & A3). unfold F.
      assert (Q : forall a b x, 0 < a -> 0 < b -> 0 <= a * b * x ^ 2) by (intros a0 b0 x Ha Hb0; apply Rmult_le_pos; [apply Rmult_le_pos; lra|apply pow2_ge_0]).
      apply Rplus_le_le_0_compat; [apply Rmult_le_pos; [lra|]; repeat apply Rplus_le_le_0_compat; apply Q; assumption|]. rewrite Rmult_assoc, Rmult_assoc, <- (Rmult_assoc (e 1%nat)). apply Rmult_le_pos; [lra|apply Q; assumption].
    - exists (fun _ => 0). eapply iterated_ext'; [|exact HI]. intros v. symmetry. apply EF. }
  assert (T0 : forall c, (c < 3)%nat -> forall v, t c v = 0).
  { intros c Hc. apply (simplex_inside_zero 3 n (t c) H3 (Ht c Hc)). intros e He. destruct (P e He) as (A0 & A1 & A2 & A3). specialize (Z e). unfold F in Z.
    assert (Q : forall a b x, 0 < a -> 0 < b -> 0 <= a * b * x ^ 2) by (intros a0 b0 x Ha Hb0; apply Rmult_le_pos; [apply Rmult_le_pos; lra|apply pow2_ge_0]).
    pose proof (Q (e 1%nat) (e 2%nat) (t 0%nat e) A1 A2) as Q0. pose proof (Q (e 0%nat) (e 2%nat) (t 1%nat e) A0 A2) as Q1. pose proof (Q (e 0%nat) (e 1%nat) (t 2%nat e) A0 A1) as Q2.
    assert (Qb : 0 <= e 0%nat * e 1%nat * e 2%nat * b e ^ 2) by (rewrite Rmult_assoc, Rmult_assoc, <- (Rmult_assoc (e 1%nat)); apply Rmult_le_pos; [lra|apply Q; assumption]).
    set (X0 := e 1%nat * e 2%nat * t 0%nat e ^ 2) in *. set (X1 := e 0%nat * e 2%nat * t 1%nat e ^ 2) in *. set (X2 := e 0%nat * e 1%nat * t 2%nat e ^ 2) in *.
    assert (XX : X0 + X1 + X2 = 0).
    { assert (M : 0 <= lam 3 e * (X0 + X1 + X2)) by (apply Rmult_le_pos; lra). assert (M0 : lam 3 e * (X0 + X1 + X2) = 0) by lra. apply Rmult_integral in M0. lra. }
    assert (K : forall a b x, 0 < a -> 0 < b -> a * b * x ^ 2 = 0 -> x = 0).
    { intros a0 b0 x Ha Hb0 E. apply Rmult_integral in E. destruct E as [E|E]; [apply Rmult_integral in E; lra|]. apply Rsqr_0_uniq. unfold Rsqr. nra. }
    destruct c as [|[|[|c]]]; [apply (K (e 1%nat) (e 2%nat))|apply (K (e 0%nat) (e 2%nat))|apply (K (e 0%nat) (e 1%nat))|lia]; try assumption; [change (X0 = 0)|change (X1 = 0)|change (X2 = 0)]; lra. }
  assert (B0 : forall v, b v = 0) by (intros v; rewrite Eb; apply sum_zero; intros c Hc; apply T0, Hc).
  intros c v Hc. destruct c as [|[|[|c]]]; [rewrite F0|rewrite F1|rewrite F2|lia]; rewrite T0, B0 by lia; ring.
Qed.

(** the field that is tested with *)
Lemma curl_test k (f : nat -> sfun) c0 c1 c2 b :
  (forall v, f 0%nat v = v 1%nat * v 2%nat * (lam 3 v * c0 v + v 0%nat * b v)) ->
  (forall v, f 1%nat v = v 0%nat * v 2%nat * (lam 3 v * c1 v + v 1%nat * b v)) ->
  (forall v, f 2%nat v = v 0%nat * v 1%nat * (lam 3 v * c2 v + v 2%nat * b v)) ->
  degree_space 3 k c0 -> degree_space 3 k c1 -> degree_space 3 k c2 -> degree_space 3 k b ->
  iterated_integral (slims 3) (fun v => sum 3 (fun c => f c v * ((match c with O => c0 v | S O => c1 v | _ => c2 v end) - v c * (c0 v + c1 v + c2 v - b v)))) (fun _ => 0) 0 ->
  forall c v, (c < 3)%nat -> f c v = 0.
Proof.
  intros F0 F1 F2 H0 H1 H2 Hb HI.
  assert (HS : degree_space 3 k (fun v => c0 v + c1 v + c2 v - b v)).
  { apply (degree_minus 3 k (fun v => c0 v + c1 v + c2 v) b); [|exact Hb]. apply (poly_space_add _ (fun v => c0 v + c1 v) c2); [|exact H2]. apply (poly_space_add _ c0 c1); assumption. }
  assert (Hx : forall a g, degree_space 3 1 a -> degree_space 3 k g -> degree_space 3 (S k) (fun v => a v * g v)) by (intros a g Ha Hg; apply (degree_mul 3 1 k); assumption).
  apply (curl_positive (S k) f (fun c v => (match c with O => c0 v | S O => c1 v | _ => c2 v end) - v c * (c0 v + c1 v + c2 v - b v)) (fun v => b v + lam 3 v * (c0 v + c1 v + c2 v - b v))).
  - intros c Hc. apply (degree_minus 3 (S k) (fun v => match c with O => c0 v | S O => c1 v | _ => c2 v end) (fun v => v c * (c0 v + c1 v + c2 v - b v))).
    + apply (degree_weaken 3 k); [lia|]. destruct c as [|[|c]]; assumption.
    + apply (Hx (fun v => v c) (fun v => c0 v + c1 v + c2 v - b v)); [apply degree_var, Hc|exact HS].
  - apply (poly_space_add _ b (fun v => lam 3 v * (c0 v + c1 v + c2 v - b v))); [apply (degree_weaken 3 k); [lia|exact Hb]|]. apply (Hx (lam 3) (fun v => c0 v + c1 v + c2 v - b v)); [apply lam_space|exact HS].
  - intros v. unfold lam. cbn [sum]. ring.
  - intros v. rewrite F0. ring.
  - intros v. rewrite F1. ring.
  - intros v. rewrite F2. ring.
  - exact HI.
Qed.
Definition curl_traces (f : nat -> sfun) : Prop :=
  (forall i c v, (i < 3)%nat -> (c < 3)%nat -> i <> c -> v i = 0 -> f c v = 0) /\ (forall v, sum 3 v = 1 -> f 0%nat v = f 1%nat v /\ f 0%nat v = f 2%nat v).
Lemma nedelec2_zero n (f : nat -> sfun) : (forall c, (c < 3)%nat -> degree_space 3 n (f c)) -> curl_traces f ->
  (forall (p : nat -> sfun) h, (3 <= n)%nat -> (forall c, (c < 3)%nat -> degree_space 3 (n - 3) (p c)) -> degree_space 3 (n - 3) h ->
     iterated_integral (slims 3) (fun v => sum 3 (fun c => f c v * (p c v + v c * h v))) (fun _ => 0) 0) ->
  forall c v, (c < 3)%nat -> f c v = 0.
Proof.
  intros Hf [T1 T2] HO. destruct (curl_factors n f (fun c Hc => proj2 (below_S 3 n (f c)) (Hf c Hc)) T1 T2) as (c0 & c1 & c2 & b & H0 & H1 & H2 & Hb & F0 & F1 & F2).
  destruct (Nat.lt_ge_cases n 3) as [Hn|Hn].
  - replace (n - 2)%nat with 0%nat in * by lia. intros c v Hc. destruct c as [|[|[|c]]]; [rewrite F0, (below_zero 3 c0 H0 v)|rewrite F1, (below_zero 3 c1 H1 v)|rewrite F2, (below_zero 3 c2 H2 v)|lia]; rewrite (below_zero 3 b Hb v); ring.
  - assert (D : forall g, below 3 (n - 2) g -> degree_space 3 (n - 3) g) by (intros g Hg; apply below_degree in Hg; replace (n - 2 - 1)%nat with (n - 3)%nat in Hg by lia; exact Hg).
    apply (curl_test (n - 3) f c0 c1 c2 b F0 F1 F2); try (apply D; assumption).
    eapply iterated_ext'; [|apply (HO (fun c v => match c with O => c0 v | S O => c1 v | _ => c2 v end) (fun v => - (1) * (c0 v + c1 v + c2 v - b v)) Hn)].
    + intros v. apply sum_ext. intros c _. cbv beta. ring.
    + intros [|[|c]] _; apply D; assumption.
    + apply (poly_space_scale _ (- (1)) (fun v => c0 v + c1 v + c2 v - b v)). apply (degree_minus 3 (n - 3) (fun v => c0 v + c1 v + c2 v) b); [|apply D, Hb].
      apply (poly_space_add _ (fun v => c0 v + c1 v) c2); [|apply D, H2]. apply (poly_space_add _ c0 c1); apply D; assumption.
Qed.
Lemma nedelec1_zero n (f : nat -> sfun) : nedelec_fields 3 n f -> curl_traces f ->
  (forall p : nat -> sfun, (3 <= n)%nat -> (forall c, (c < 3)%nat -> degree_space 3 (n - 3) (p c)) ->
     iterated_integral (slims 3) (fun v => sum 3 (fun c => f c v * p c v)) (fun _ => 0) 0) ->
  forall c v, (c < 3)%nat -> f c v = 0.
Proof.
  intros [Hf HX] [T1 T2] HO. destruct (curl_factors n f (fun c Hc => proj2 (below_S 3 n (f c)) (Hf c Hc)) T1 T2) as (c0 & c1 & c2 & b & H0 & H1 & H2 & Hb & F0 & F1 & F2).
  destruct (Nat.lt_ge_cases n 3) as [Hn|Hn].
  - replace (n - 2)%nat with 0%nat in * by lia. intros c v Hc. destruct c as [|[|[|c]]]; [rewrite F0, (below_zero 3 c0 H0 v)|rewrite F1, (below_zero 3 c1 H1 v)|rewrite F2, (below_zero 3 c2 H2 v)|lia]; rewrite (below_zero 3 b Hb v); ring.
  - assert (D : forall g, below 3 (n - 2) g -> degree_space 3 (n - 3) g) by (intros g Hg; apply below_degree in Hg; replace (n - 2 - 1)%nat with (n - 3)%nat in Hg by lia; exact Hg).
    assert (HS : degree_space 3 (n - 3) (fun v => c0 v + c1 v + c2 v - b v)).
    { apply (degree_minus 3 (n - 3) (fun v => c0 v + c1 v + c2 v) b); [|apply D, Hb]. apply (poly_space_add _ (fun v => c0 v + c1 v) c2); [|apply D, H2]. apply (poly_space_add _ c0 c1); apply D; assumption. }
    destruct (split_degree 3 (n - 3) _ HS) as (lo & hi & Hlo & Hhi & ES).
    assert (V : forall i, (i < 3)%nat -> degree_space 3 1 (fun v => v i)) by (intros i Hi; apply degree_var, Hi).
    assert (XF : forall v, sum 3 (fun c => v c * f c v) = v 0%nat * v 1%nat * v 2%nat * (lam 3 v * (lo v + hi v) + b v)).
    { intros v. rewrite <- ES. unfold lam. cbn [sum]. rewrite F0, F1, F2. unfold lam. cbn [sum]. ring. }
    assert (Tri : forall k g, degree_space 3 k g -> degree_space 3 (1 + (1 + (1 + k))) (fun v => v 0%nat * v 1%nat * v 2%nat * g v)).
    { intros k g Hg. apply (poly_space_ext _ (fun v => v 0%nat * (v 1%nat * (v 2%nat * g v)))); [intros; ring|].
      apply (degree_mul 3 1 (1 + (1 + k)) (fun v => v 0%nat) (fun v => v 1%nat * (v 2%nat * g v))); [apply V; lia|]. apply (degree_mul 3 1 (1 + k) (fun v => v 1%nat) (fun v => v 2%nat * g v)); [apply V; lia|].
      apply (degree_mul 3 1 k (fun v => v 2%nat) g); [apply V; lia|exact Hg]. }
    assert (DH : degree_space 3 (n - 3) hi) by (revert Hhi; apply poly_space_weaken; intros m [A B]; split; [exact A|lia]).
    assert (Top : forall v, v 0%nat * v 1%nat * v 2%nat * (sum 3 v * hi v) = 0).
    { apply (disjoint_spaces 3 (fun m => length m = 3%nat /\ mdeg m = S n) (fun m => length m = 3%nat /\ (mdeg m <= n)%nat)); [tauto|tauto|intros m [_ A] [_ B]; lia| |].
      - assert (HM : forall i k g, (i < 3)%nat -> poly_space (fun m => length m = 3%nat /\ mdeg m = k) g -> poly_space (fun m => length m = 3%nat /\ mdeg m = S k) (fun v => v i * g v)).
        { intros i k g Hi. revert g. apply poly_ind.
          - apply (poly_space_ext _ (fun _ => 0)); [intros; ring|apply poly_space_zero].
          - intros a m g [L' D'] IH. apply (poly_space_ext _ (fun v => a * meval (inc_at i m) v + v i * g v)); [intros v; rewrite meval_inc by lia; ring|].
            apply (poly_space_add _ (fun v => a * meval (inc_at i m) v) (fun v => v i * g v)); [|exact IH]. apply poly_space_scale, poly_space_mono. destruct (inc_at_spec m i ltac:(lia)) as (A & B & _). split; lia.
          - intros g h E. apply poly_space_ext. intros v. rewrite E. reflexivity. }
        apply (poly_space_ext _ (fun v => v 0%nat * (v 1%nat * (v 2%nat * (v 0%nat * hi v + v 1%nat * hi v + v 2%nat * hi v))))); [intros v; cbn [sum]; ring|].
        replace (S n) with (S (S (S (S (n - 3))))) by lia. apply (HM 0%nat _ (fun v => v 1%nat * (v 2%nat * (v 0%nat * hi v + v 1%nat * hi v + v 2%nat * hi v)))); [lia|].
        apply (HM 1%nat _ (fun v => v 2%nat * (v 0%nat * hi v + v 1%nat * hi v + v 2%nat * hi v))); [lia|]. apply (HM 2%nat _ (fun v => v 0%nat * hi v + v 1%nat * hi v + v 2%nat * hi v)); [lia|].
        apply (poly_space_add _ (fun v => v 0%nat * hi v + v 1%nat * hi v) (fun v => v 2%nat * hi v)); [|apply HM; [lia|exact Hhi]]. apply (poly_space_add _ (fun v => v 0%nat * hi v) (fun v => v 1%nat * hi v)); apply HM; try exact Hhi; lia.
      - apply (poly_space_ext _ (fun v => v 0%nat * v 1%nat * v 2%nat * (lam 3 v * lo v + hi v + b v) - sum 3 (fun c => v c * f c v))); [intros v; rewrite XF; unfold lam; ring|].
        apply (degree_minus 3 n (fun v => v 0%nat * v 1%nat * v 2%nat * (lam 3 v * lo v + hi v + b v)) (fun v => sum 3 (fun c => v c * f c v))); [|exact HX].
        apply (degree_weaken 3 (1 + (1 + (1 + (n - 3))))); [lia|]. apply (Tri (n - 3)%nat (fun v => lam 3 v * lo v + hi v + b v)).
        apply (poly_space_add _ (fun v => lam 3 v * lo v + hi v) b); [|apply D, Hb]. apply (poly_space_add _ (fun v => lam 3 v * lo v) hi); [|exact DH].
        apply below_S. replace (S (n - 3)) with (n - 3 + 1)%nat by lia. apply (poly_space_ext _ (fun v => lo v * lam 3 v)); [intros; ring|]. apply (below_mul 3 (n - 3) 1 lo (lam 3) Hlo), lam_space. }
    assert (Hi0 : forall v, hi v = 0).
    { apply (simplex_inside_zero 3 (n - 3) hi ltac:(lia) DH). intros e He. specialize (Top e).
      pose proof (inside_pos 3 e 0 ltac:(lia) He ltac:(lia)). pose proof (inside_pos 3 e 1 ltac:(lia) He ltac:(lia)). pose proof (inside_pos 3 e 2 ltac:(lia) He ltac:(lia)).
      apply Rmult_integral in Top. destruct Top as [E|E]; [apply Rmult_integral in E; destruct E as [E|E]; [apply Rmult_integral in E; lra|lra]|]. apply Rmult_integral in E. cbn [sum] in E. lra. }
    apply (curl_test (n - 3) f c0 c1 c2 b F0 F1 F2); try (apply D; assumption).
    apply (HO (fun c v => (match c with O => c0 v | S O => c1 v | _ => c2 v end) - v c * (c0 v + c1 v + c2 v - b v)) Hn). intros c Hc.
    apply (degree_minus 3 (n - 3) (fun v => match c with O => c0 v | S O => c1 v | _ => c2 v end) (fun v => v c * (c0 v + c1 v + c2 v - b v))); [destruct c as [|[|c]]; apply D; assumption|].
    apply (poly_space_ext _ (fun v => lo v * v c)); [intros v; rewrite ES, Hi0; ring|]. apply below_S. replace (S (n - 3)) with (n - 3 + 1)%nat by lia. apply (below_mul 3 (n - 3) 1 lo (fun v => v c) Hlo), V, Hc.
Qed.
