(** The Taylor element on every interval, triangle and tetrahedron. *)
From Coquelicot Require Import Coquelicot.
From Coq Require Import String Arith Bool ZArith Reals Lia Lra List FunctionalExtensionality Permutation.
From Verif Require Import Base PolyLib PolySetsModel PolySetsProofs PropertiesPolySets PolyVec QuadratureModel ReferencesModel ReferencesSpec ReferencesProofs ReferencesGeometry CiarletModel CiarletProofs
  LinAlg ElementModel LagrangeModel UnisolvenceProofs LagrangeProofs LagrangeKey LagrangeUnisolvence
  LegendreJacobi LegendreIntSpec LegendreIntegrals KmvProofs MomentsInt MomentsParts
  PointsModel PointsSpec PointsProofs PointsElements PointsCR MomentElementsModel MomentElementsSpec MomentElementsProofs TaylorModel TaylorSpec TaylorProofs.
From Verif Require PropertiesLagrange.
Import PolyVec ListNotations.
Local Open Scope R_scope.

(** * The cell *)
Lemma simplex_jacobian c vs r : simplex c -> points (nvert c) (tdim c) vs -> make_reference c vs = Ok r -> jacobian r = Ok (Rabs (map_det c vs)).
Proof.
  intros Hc Hp Hr. pose proof (simplex_type c vs r Hc Hr) as T. pose proof (volume_scales c vs r ltac:(destruct Hc as [->|[->| ->]]; exact I) Hp Hr) as V. unfold volume in V. rewrite T in V.
  destruct Hc as [->|[->| ->]]; cbn [default_volume] in V; destruct (jacobian r) as [j|]; cbn [rmap] in V; try discriminate V; apply (f_equal (fun x => match x with Ok y => y | Err _ => 0 end)) in V; f_equal; lra.
Qed.
Lemma simplex_cell c vs r : simplex c -> points (nvert c) (tdim c) vs -> make_reference c vs = Ok r ->
  r_vertices r = vs /\ length (r_axes r) = tdim c /\ integration_limits c = Ok (slims (tdim c)) /\ sub_entity_types c (tdim c) = Ok (Same c) /\
  (exists E, sub_entities r (tdim c) = Ok [E]) /\ sub_entity r (tdim c) 0 false = Ok r /\ sub_entity (default c) (tdim c) 0 false = Ok (default c) /\
  is_mean vs (midpoint r).
Proof.
  intros Hc Hp Hr. destruct Hc as [->|[->| ->]]; unfold nvert, tdim in Hp; cbn [reference_vertices length] in Hp; split_points Hp; injection Hr as <-;
    (split; [reflexivity|]; split; [reflexivity|]; split; [reflexivity|]; split; [reflexivity|]; split; [eexists; reflexivity|]; split; [reflexivity|]; split; [reflexivity|]);
    intros i; unfold midpoint; cbn [r_vertices zip_star map combine fst snd length]; unfold rsum, sumR; cbn [fold_left fold_right map length];
    cbn [ReferencesModel.zip_star map combine fst snd length fold_left]; destruct i as [|[|[|i]]]; cbn [nth]; try (destruct i; cbn [nth]); unfold Rdiv; ring.
Qed.
Lemma default_det c : simplex c -> Rabs (map_det c (reference_vertices c)) = 1.
Proof. intros [->|[->| ->]]; unfold map_det, edge_det2, edge_det3, co; cbn; match goal with |- Rabs ?x = 1 => replace x with 1 by ring end; apply Rabs_R1. Qed.

(** * The degrees of freedom *)
Lemma taylor_mean c vs r : simplex c -> points (nvert c) (tdim c) vs -> map_det c vs <> 0 -> make_reference c vs = Ok r ->
  exists m, moments_on r (tdim c) (fun r => lagrange_basis_functions r 0 "equispaced") scaled_moment = Ok [m] /\
    mo_entity m = (tdim c, 0%nat) /\ mo_domain m = r /\ mo_limits m = slims (tdim c) /\ forall t, mo_f m (0%nat, t) * mo_jacobian m = 1.
Proof.
  intros Hc Hp HD Hr. pose proof (simplex_type c vs r Hc Hr) as T. destruct (simplex_cell c vs r Hc Hp Hr) as (Ev & La & Li & St & (E & Se) & Sub & Sub0 & _).
  destruct (default_simplex c Hc) as (Hp0 & HD0 & Hr0). destruct (PropertiesLagrange.C19_lagrange_order_zero c _ _ Hc Hp0 Hr0 "equispaced" ltac:(discriminate)) as (p & phi & _ & _ & B & One).
  pose proof (simplex_jacobian c vs r Hc Hp Hr) as J. assert (HJ : Rabs (map_det c vs) <> 0) by (apply Rabs_no_R0, HD).
  assert (M : exists m, scaled_moment r phi (tdim c, 0%nat) = Ok m /\ mo_entity m = (tdim c, 0%nat) /\ mo_domain m = r /\ mo_limits m = slims (tdim c) /\ forall t, mo_f m (0%nat, t) * mo_jacobian m = 1).
  { unfold scaled_moment. cbn [fst snd]. rewrite Sub. cbn [rbind]. unfold make_moment. rewrite T, Li. cbn [rbind]. rewrite J. cbn [rmap].
    unfold is_default. destruct (pts_eq_dec (r_vertices r) (reference_vertices (r_type r))) as [Q|_].
    - eexists. split; [reflexivity|]. split; [reflexivity|]. split; [reflexivity|]. split; [reflexivity|]. intros t. cbn [mo_f mo_jacobian snd]. rewrite One. rewrite T, Ev in Q. rewrite Q, (default_det c Hc). ring.
    - rewrite Sub0. cbn [rbind]. rewrite (volume_default c) by (destruct Hc as [->|[->| ->]]; exact I). cbn [rbind]. rewrite (volume_scales c vs r ltac:(destruct Hc as [->|[->| ->]]; exact I) Hp Hr). cbn [rbind].
      eexists. split; [reflexivity|]. split; [reflexivity|]. split; [reflexivity|]. split; [reflexivity|]. intros t. cbn [mo_f mo_jacobian snd]. rewrite One.
      assert (V0 : default_volume c <> 0) by (destruct Hc as [->|[->| ->]]; cbn; lra). field. split; assumption. }
  destruct M as (m & Em & Fm). exists m. split; [|exact Fm].
  rewrite (moments_on_ok r (tdim c) _ scaled_moment c [E] [phi] (fun _ _ => m)); [reflexivity|rewrite T; exact St|exact Se|exact B| |].
  - intros i Hi. cbn [length] in Hi. assert (i = 0%nat) by lia. subst i. exists r. split; [exact Sub|exact T].
  - intros i f Hi [<-|[]]. cbn [length] in Hi. assert (i = 0%nat) by lia. subst i. exact Em.
Qed.
Definition multi (d n : nat) : list (list nat) := filter (fun i => (1 <=? list_sum i)%nat && (list_sum i <=? n)%nat) (product (repeat (range (n + 1)) d)).
Lemma list_sum_mdeg m : list_sum m = mdeg m.
Proof. induction m as [|a m IH]; [reflexivity|]. cbn. rewrite <- IH. reflexivity. Qed.
Lemma mdeg_entries m n : (mdeg m <= n)%nat -> Forall (fun e => (e < n + 1)%nat) m.
Proof. induction m as [|a m IH]; intros H; [constructor|]. cbn [mdeg] in H. constructor; [lia|apply IH; lia]. Qed.
Lemma multi_in d n a : In a (multi d n) <-> length a = d /\ (1 <= mdeg a <= n)%nat.
Proof.
  unfold multi. rewrite filter_In, in_product_range, andb_true_iff, !Nat.leb_le, list_sum_mdeg. split; [tauto|]. intros [L H]. split; [|exact H]. split; [exact L|]. apply mdeg_entries. lia.
Qed.
Lemma multi_nodup d n : NoDup (multi d n).
Proof. apply NoDup_filter, NoDup_product, Forall_forall. intros l Hl. apply repeat_spec in Hl. subst l. apply NoDup_range. Qed.
Lemma zeros d : length (repeat 0%nat d) = d /\ mdeg (repeat 0%nat d) = 0%nat.
Proof. split; [apply repeat_length|]. induction d as [|e IH]; [reflexivity|exact IH]. Qed.
Lemma mdeg_zero m : mdeg m = 0%nat -> m = repeat 0%nat (length m).
Proof. induction m as [|a m IH]; intros H; [reflexivity|]. cbn [mdeg] in H. cbn [length repeat]. f_equal; [lia|apply IH; lia]. Qed.
Lemma multi_length d n ms : NoDup ms -> (forall m, In m ms <-> length m = d /\ (mdeg m <= n)%nat) -> length ms = S (length (multi d n)).
Proof.
  intros ND H. change (S (length (multi d n))) with (length (repeat 0%nat d :: multi d n)). apply Permutation_length, NoDup_Permutation; [exact ND| |].
  - constructor; [|apply multi_nodup]. rewrite multi_in. destruct (zeros d). lia.
  - intros m. rewrite H. cbn [In]. rewrite multi_in. destruct (zeros d) as [Z1 Z2]. split.
    + intros [L E]. destruct (Nat.eq_dec (mdeg m) 0) as [Z|Z]; [left|right; split; [exact L|lia]]. rewrite (mdeg_zero m Z), L. reflexivity.
    + intros [<-|[L E]]; [split; [exact Z1|lia]|split; [exact L|lia]].
Qed.

(** * Values *)
Definition good_taylor (d : nat) (l : taylor_dof) : Prop :=
  match l with
  | Mean m => (1 <= d <= 3)%nat /\ mo_limits m = slims d /\ length (r_axes (mo_domain m)) = d /\ forall t, mo_f m (0%nat, t) * mo_jacobian m = 1
  | DerivativeAt p alpha _ => True
  end.
Lemma taylor_value_eval d l f : good_taylor d l -> ispoly d (fun v => f (0%nat, v)) -> taylor_value l f (taylor_eval l f).
Proof.
  destruct l as [m|p alpha e]; cbn [good_taylor taylor_value taylor_eval].
  - intros (Hd & Hl & La & One) [n Hn]. rewrite Hl.
    destruct (simplex_integral d n (fun t => f (0%nat, point_of (mo_domain m) t)) Hd (pulled_back (mo_domain m) d d n (fun v => f (0%nat, v)) La Hn)) as [I HI].
    assert (H : iterated_integral (slims d) (fun t => f (0%nat, point_of (mo_domain m) t) * mo_f m (0%nat, t) * mo_jacobian m) (fun _ => 0) I).
    { eapply iterated_ext'; [|apply HI]. intros t. cbv beta. rewrite Rmult_assoc, One. symmetry. apply Rmult_1_r. }
    replace (integral (slims d) (fun t => f (0%nat, domain_point (mo_domain m) t) * mo_f m (0%nat, t) * mo_jacobian m) (fun _ => 0)) with I; [exact H|].
    symmetry. apply integral_value. eapply iterated_ext'; [|exact H]. intros t. cbv beta. rewrite domain_point_spec. reflexivity.
  - intros _ Hf ks Hk. exists (Ds ks (fun v => f (0%nat, v))). split; [apply (Ds_successive d), Hf|].
    rewrite (Ds_perm d ks (spread 0 alpha) (spread_perm alpha ks Hk) _ Hf), <- derivatives_Ds. reflexivity.
Qed.
Lemma successive_unique ks : forall f f' g g', (forall v, f v = f' v) -> successive ks f g -> successive ks f' g' -> forall v, g v = g' v.
Proof.
  induction ks as [|k ks IH]; intros f f' g g' E; cbn [successive].
  - intros H H' v. rewrite <- H, <- H'. apply E.
  - intros (h & P & S) (h' & P' & S'). apply (IH h h' g g'); [|exact S|exact S']. intros v. apply (is_partial_unique k f' v); [|apply P']. apply (partial_ext k f f' v _ E), P.
Qed.
Lemma taylor_value_uniq l f f' I J : (forall v, f (0%nat, v) = f' (0%nat, v)) -> taylor_value l f I -> taylor_value l f' J -> I = J.
Proof.
  intros E. destruct l as [m|p alpha e]; cbn [taylor_value].
  - intros H H'. refine (iterated_uniq _ _ _ _ _ _ H'). eapply iterated_ext'; [|exact H]. intros t. cbv beta. rewrite E. reflexivity.
  - intros H H'. assert (K : forall k, count_occ Nat.eq_dec (spread 0 alpha) k = nth k alpha 0%nat) by (intros k; rewrite spread_count, Nat.sub_0_r; reflexivity).
    destruct (H _ K) as (g & S & <-). destruct (H' _ K) as (g' & S' & <-). apply (successive_unique _ _ _ _ _ E S S').
Qed.
Lemma taylor_linear d (W : component_fn -> Prop) l : good_taylor d l -> (forall f, W f -> ispoly d (fun v => f (0%nat, v))) -> linear_on W (taylor_eval l).
Proof.
  intros G P. split.
  - intros a u v Hu Hv. destruct l as [m|p alpha e].
    + pose proof (taylor_value_eval d (Mean m) u G (P u Hu)) as U. pose proof (taylor_value_eval d (Mean m) v G (P v Hv)) as V.
      pose proof (taylor_value_eval d (Mean m) (fun x => a * u x + v x) G (lin_poly d a _ _ (P u Hu) (P v Hv))) as S.
      apply (iterated_uniq _ _ _ _ _ S). eapply iterated_ext'; [|apply (iterated_lin _ _ _ _ _ _ a U V)]. intros t. cbv beta. ring.
    + cbn [taylor_eval]. pose proof (derivatives_Ds alpha (fun x => a * u x + v x)) as S. rewrite (Ds_lin d _ a _ _ (P u Hu) (P v Hv)), <- !derivatives_Ds in S.
      exact (f_equal (fun g => g (env_of p)) S).
  - intros u v E Hu. apply (taylor_value_uniq l u v); [intros x; apply E|apply (taylor_value_eval d); [exact G|apply P, Hu]|apply (taylor_value_eval d); [exact G|]].
    destruct (P u Hu) as [n Hn]. exists n. revert Hn. apply poly_space_ext. intros x. apply E.
Qed.

(** * The element *)
Lemma taylor_made c vs r n : simplex c -> points (nvert c) (tdim c) vs -> map_det c vs <> 0 -> make_reference c vs = Ok r ->
  exists ms m, polynomial_set_1d (tdim c) n = Ok ms /\
    make_taylor r n = Ok (map one_field ms, Mean m :: map (fun alpha => DerivativeAt (midpoint r) alpha (tdim c, 0%nat)) (multi (tdim c) n)) /\
    mo_entity m = (tdim c, 0%nat) /\ mo_domain m = r /\ mo_limits m = slims (tdim c) /\ forall t, mo_f m (0%nat, t) * mo_jacobian m = 1.
Proof.
  intros Hc Hp HD Hr. pose proof (simplex_type c vs r Hc Hr) as T. destruct (taylor_mean c vs r Hc Hp HD Hr) as (m & Em & Fm).
  destruct (polynomial_set_1d_ok (tdim c) n (simplex_dim c Hc)) as (ms & Hq & _). exists ms, m. split; [exact Hq|]. split; [|exact Fm].
  unfold make_taylor. rewrite T, Em. cbn [rbind]. rewrite Hq. cbn [rbind]. unfold taylor_derivatives. rewrite T. reflexivity.
Qed.
Lemma taylor_dual c vs r n : simplex c -> points (nvert c) (tdim c) vs -> map_det c vs <> 0 -> make_reference c vs = Ok r ->
  dual_taylor (make_taylor r n) (fields 1 (P_space (tdim c) n)) (P_dim (tdim c) n).
Proof.
  intros Hc Hp HD Hr. destruct (taylor_made c vs r n Hc Hp HD Hr) as (ms & m & Hq & HM & _ & Dm & Lm & One). pose proof (simplex_dim c Hc) as Hd.
  destruct (simplex_cell c vs r Hc Hp Hr) as (_ & La & _). destruct (polynomial_set_1d_ok (tdim c) n Hd) as (ms' & Hq' & ND & Hin & _). assert (ms' = ms) by congruence. subst ms'. clear Hq'.
  set (d := tdim c) in *. set (dofs := Mean m :: map (fun alpha => DerivativeAt (midpoint r) alpha (d, 0%nat)) (multi d n)) in *. set (W := fields 1 (P_space d n)).
  pose proof (P_dim_length _ _ _ Hq) as LP. pose proof (multi_length d n ms ND Hin) as LM.
  assert (LD : length dofs = P_dim d n) by (unfold dofs; cbn [length]; rewrite map_length, <- LM; exact LP).
  assert (G : forall l, In l dofs -> good_taylor d l).
  { intros l [<-|Hl]; [|apply in_map_iff in Hl; destruct Hl as (a & <- & _); exact I]. split; [exact Hd|]. split; [exact Lm|]. split; [rewrite Dm; exact La|exact One]. }
  assert (PW : forall f, W f -> ispoly d (fun v => f (0%nat, v))) by (intros f [Hf _]; exists n; apply Hf; lia).
  assert (F0 : forall m v, field (one_field m) (0%nat, v) = meval m v) by (intros m' v; unfold field, one_field; cbn [fst snd nth]; unfold zeval; cbn [map fold_right fst snd]; lra).
  destruct (square_element W (map field (map one_field ms)) (map taylor_eval dofs)) as (phi & E & L & Du & Wp & X).
  - apply fields_subspace. split; [apply poly_space_zero|split]; [|intros u v Q; apply poly_space_ext, Q]. intros a u v Hu Hv. apply (poly_space_add _ (fun x => a * u x) v); [apply (poly_space_scale _ a u), Hu|exact Hv].
  - apply Forall_map, Forall_forall. intros l Hl. exact (taylor_linear d W l (G l Hl) PW).
  - apply Forall_map, Forall_map, Forall_forall. intros e He. split.
    + intros [|k] Hk; [|lia]. apply (poly_space_ext _ (meval e)); [intros v; symmetry; apply F0|]. apply poly_space_mono, Hin, He.
    + intros [|k] v Hk; [lia|]. apply field_beyond. cbn. lia.
  - intros a Ha. rewrite !map_length. intros i Hi. apply (comb_indep d ms a ND (fun e He => proj1 (proj1 (Hin e) He))); [|exact Hi]. intros v. specialize (Ha (0%nat, v)). unfold combination in Ha. rewrite !map_length in Ha. rewrite <- Ha.
    apply sum_ext. intros b Hb. f_equal. rewrite (CiarletProofs.nth_map_lt field (map one_field ms) b (one_field [])) by (rewrite map_length; exact Hb). rewrite (map_nth one_field). symmetry. apply F0.
  - rewrite !map_length, LD. exact LP.
  - intros f Wf Z. assert (Z' : forall l, In l dofs -> taylor_eval l f = 0) by (intros l Hl; apply Z, in_map, Hl). clear Z. destruct Wf as [Hf Hz]. specialize (Hf 0%nat ltac:(lia)).
    assert (K : forall v, f (0%nat, v) = f (0%nat, env_of (midpoint r))).
    { apply (jet_constant d (env_of (midpoint r)) n (fun v => f (0%nat, v)) Hf). intros alpha L1 L2. rewrite <- derivatives_Ds. apply (Z' (DerivativeAt (midpoint r) alpha (d, 0%nat))). right. apply in_map_iff. exists alpha. split; [reflexivity|]. apply multi_in. split; assumption. }
    assert (C : f (0%nat, env_of (midpoint r)) = 0).
    { pose proof (taylor_value_eval d (Mean m) f (G _ (or_introl eq_refl)) (ex_intro (fun n => degree_space d n _) n Hf)) as V. rewrite (Z' _ (or_introl eq_refl)) in V. cbn [taylor_value] in V. rewrite Lm, Dm in V.
      pose proof (simplex_mono d (repeat 0%nat d) (fun _ => 0) Hd (proj1 (zeros d))) as S. pose proof (iterated_lin _ _ _ _ _ _ (f (0%nat, env_of (midpoint r))) S (iterated_zero (slims d) (fun _ => 0))) as S'.
      set (k := f (0%nat, env_of (midpoint r))) in *. assert (Q : k * (fprod (repeat 0%nat d) / rfact (mdeg (repeat 0%nat d) + d)) + 0 = 0).
      { refine (iterated_uniq _ _ _ _ _ S' _). eapply iterated_ext'; [|exact V]. intros t. cbv beta. rewrite Rmult_assoc, One, K.
        assert (M1 : meval (repeat 0%nat d) t = 1) by (apply meval_zeros). rewrite M1. ring. }
      assert (F : fprod (repeat 0%nat d) / rfact (mdeg (repeat 0%nat d) + d) <> 0).
      { assert (F1 : forall e, fprod (repeat 0%nat e) = 1) by (induction e as [|e IH]; [reflexivity|]; cbn [repeat fprod]; rewrite IH; cbn; lra). rewrite F1. unfold Rdiv. rewrite Rmult_1_l. apply Rinv_neq_0_compat, rfact_neq. }
      rewrite Rplus_0_r in Q. apply Rmult_integral in Q. destruct Q as [Q|Q]; [exact Q|contradiction]. }
    intros [[|k] v]; [rewrite K; exact C|apply Hz; lia].
  - rewrite map_length in L, Du, X. rewrite LD in *. exists (map one_field ms), dofs, phi. split; [exact HM|]. split; [exact E|]. split; [exact LD|]. split; [exact L|].
    rewrite Forall_forall in Wp.
    assert (V : forall i l f, nth_error dofs i = Some l -> W f -> taylor_value l f (nth i (map taylor_eval dofs) (fun _ => 0) f)).
    { intros i l f Hl Wf. rewrite (nth_error_nth (map taylor_eval dofs) i (fun _ => 0) (map_nth_error taylor_eval i dofs Hl)). apply (taylor_value_eval d); [apply G, (nth_error_In _ _ Hl)|apply PW, Wf]. }
    split; [|split].
    + unfold component_fn in *. intros i j l g Hl Hg. assert (Hi : (i < P_dim d n)%nat) by (rewrite <- LD; apply nth_error_Some; rewrite Hl; discriminate).
      assert (Hj : (j < P_dim d n)%nat) by (rewrite <- L; apply nth_error_Some; rewrite Hg; discriminate).
      specialize (Du i j Hi Hj). rewrite (nth_error_nth phi j _ Hg) in Du. rewrite <- Du. apply V; [exact Hl|]. apply Wp, (nth_error_In _ _ Hg).
    + exact Wp.
    + intros f Wf. exists (fun i => nth i (map taylor_eval dofs) (fun _ => 0) f). split; [intros i l Hl; apply V; assumption|]. apply X, Wf.
Qed.
Lemma taylor_dofs_ok c vs r n : simplex c -> points (nvert c) (tdim c) vs -> map_det c vs <> 0 -> make_reference c vs = Ok r ->
  exists poly dofs, make_taylor r n = Ok (poly, dofs) /\ taylor_dofs r n dofs.
Proof.
  intros Hc Hp HD Hr. destruct (taylor_made c vs r n Hc Hp HD Hr) as (ms & m & Hq & HM & Em & Dm & Lm & One). pose proof (simplex_type c vs r Hc Hr) as T.
  destruct (simplex_cell c vs r Hc Hp Hr) as (Ev & _ & Li & _ & _ & _ & _ & Mid). eexists _, _. split; [exact HM|]. unfold taylor_dofs. rewrite T.
  exists m, (multi (tdim c) n), (midpoint r), (slims (tdim c)). split; [reflexivity|]. split; [exact Em|]. split; [exact Li|]. split; [|split; [rewrite Ev; exact Mid|split; [apply multi_nodup|apply multi_in]]].
  intros f I H. cbn [taylor_value]. rewrite Lm, Dm. eapply iterated_ext'; [|exact H]. intros t. cbv beta. rewrite Rmult_assoc, One. symmetry. apply Rmult_1_r.
Qed.
