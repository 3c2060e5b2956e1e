(** The remaining families of FamiliesModel on quadrilaterals, hexahedra and prisms. *)
From Coq Require Import String ZArith Arith Bool Reals Lia List Permutation.
From Verif Require Import Base PolyLib PolySetsModel PolySetsProofs RTNedelecProofs QuadratureModel ReferencesModel
  ReferencesSpec ReferencesProofs MomentsModel ElementModel LagrangeModel LagrangeProofs LagrangeKey LagrangeUnisolvence
  PropertiesLagrange QProofs QDofs PropertiesQ FamiliesModel FamiliesSpec FamiliesMoments FamiliesBuilt FamiliesSimplex FamiliesSimplex2 FamiliesTensor FamiliesTensor2.
Import ListNotations.
Local Open Scope string_scope.
Local Open Scope nat_scope.
Local Open Scope list_scope.


Ltac on_all := repeat first [apply Forall_app; split | apply Forall_flat_map'; intros ? ? | apply Forall_cons; [apply on_ok; simpl; lia|]
  | apply Forall_nil | apply on_map; simpl; lia].

(** * Arbogast-Correa *)
Lemma ac_first n : length (flat_map (fun i => flat_map (fun j => if 0 <? i + j then [on "IntegralAgainst" (Some "contravariant") 2 0] else [])
             (range (n + 1 - i))) (range (n + 1))) + 1 = tri (n + 1).
Proof.
  replace (n + 1) with (S n) by lia. unfold range at 2. cbn [seq flat_map].
  rewrite app_length. 
  assert (A : length (flat_map (fun j => if 0 <? 0 + j then [on "IntegralAgainst" (Some "contravariant") 2 0] else []) (range (S n - 0))) = n).
  { cbn [Nat.sub]. unfold range. cbn [seq flat_map Nat.add Nat.ltb Nat.leb app]. rewrite <- seq_shift, flat_map_concat_map, map_map, <- flat_map_concat_map.
    cbn [Nat.ltb Nat.leb]. rewrite (const_flat _ _ 1) by reflexivity. rewrite seq_length. lia. }
  rewrite A. rewrite <- seq_shift, flat_map_concat_map, map_map, <- flat_map_concat_map.
  rewrite (tri_flat _ n 1).
  - pose proof (tri_closed n). pose proof (tri_closed (S n)). nia.
  - intros i Hi. cbn [Nat.add]. cbn [Nat.ltb Nat.leb]. rewrite (const_flat _ _ 1) by reflexivity. rewrite length_range. lia.
Qed.
Lemma ac_second n : length (flat_map (fun i => map (fun j : nat => on "IntegralAgainst" (Some "contravariant") 2 0) (range2 1 (n - i)))
             (range2 1 (n - 1))) = tri (n - 2).
Proof.
  destruct n as [|[|[|n]]]; [reflexivity|reflexivity|reflexivity|]. replace (S (S (S n)) - 1) with (S (S n)) by lia.
  rewrite (tri_flat_from_1 _ (S n) 1); [replace (S (S (S n)) - 2) with (S n) by lia; lia|].
  intros i Hi. rewrite map_length, length_range2. lia.
Qed.
Lemma ac_built k n : 4 <= k ->
  built (construct k ArbogastCorrea (default CQuadrilateral) n "equispaced")
    (match n with 0 => 4 | _ => tri (n + 1) * 2 + 2 + (n + 1) end) CQuadrilateral.
Proof.
  intros Hk. destruct k as [|k]; [lia|]. destruct (default_shaped CQuadrilateral ltac:(kt)) as [D S]. assert (T := proj1 (proj2 S)).
  cbn [construct]. unfold default_cell. rewrite D, T. cbn [tdim].
  eapply (bind_poly _ (match n with 0 => 4 | _ => tri (n + 1) * 2 + 2 + (n + 1) end)).
  { unfold ac_poly. destruct n as [|n]; [eexists; split; reflexivity|]. destruct (polynomial_vector_sized 2 2 (Datatypes.S n) ltac:(lia)) as (l & -> & L).
    cbn [rbind Nat.eqb]. destruct (serdiv_sized 2 (Datatypes.S n) ltac:(lia) ltac:(lia)) as (l' & -> & L'). eexists. split; [reflexivity|].
    rewrite !app_length, map_length, length_range, L, L'. cbn [pdim]. lia. }
  intros p0 L0. eapply bind_moments; [apply make_by_codimension; [exact S|yes S CInterval n 4 dpc_interval|apply slot_none]|].
  intros ds L F. apply built_ciarlet; [exact L0| |apply Forall_app; split; [exact F|]; apply Forall_app; split].
  - rewrite !app_length, L, ac_second. pose proof (ac_first n) as A.
    revert A. generalize (length (flat_map (fun i => flat_map (fun j => if 0 <? i + j then [on "IntegralAgainst" (Some "contravariant") 2 0] else [])
             (range (n + 1 - i))) (range (n + 1)))). intros a A. clear -A.
    destruct n as [|[|n]]; [cbn [Nat.sub] in *; change (tri (0 + 1)) with 1 in A; change (tri 0) with 0; lia|
      cbn [Nat.sub] in *; change (tri (1 + 1)) with 3 in *; change (tri 0) with 0; lia|]. replace (Datatypes.S (Datatypes.S n) - 2) with n by lia. numbers.
  - apply Forall_flat_map'. intros i _. apply Forall_flat_map'. intros j _. destruct (0 <? i + j); on_all.
  - apply Forall_flat_map'. intros i _. on_all.
Qed.

(** * Trimmed serendipity *)
Lemma ts_hcurl_quadrilateral_sized n : 1 <= n -> sized (ts_hcurl_poly 2 n) (tri n * 2 + n + match n with 1 => 1 | _ => 2 end).
Proof.
  intros Hn. unfold ts_hcurl_poly. destruct n as [|n]; [lia|]. cbn [Nat.sub]. rewrite Nat.sub_0_r.
  destruct (polynomial_vector_sized 2 2 n ltac:(lia)) as (l & -> & L). eexists. split; [reflexivity|].
  cbn [Nat.eqb]. rewrite !app_length, map_length, length_range, L. cbn [pdim]. replace (n + 1) with (S n) by lia. destruct n as [|n]; cbn [Nat.eqb length]; lia.
Qed.
Lemma ts_hdiv_quadrilateral_sized n : 1 <= n -> sized (ts_hdiv_poly 2 n) (tri n * 2 + n + match n with 1 => 1 | _ => 2 end).
Proof.
  intros Hn. unfold ts_hdiv_poly. destruct n as [|n]; [lia|]. cbn [Nat.sub]. rewrite Nat.sub_0_r.
  destruct (polynomial_vector_sized 2 2 n ltac:(lia)) as (l & -> & L). eexists. split; [reflexivity|].
  cbn [Nat.eqb]. rewrite !app_length, map_length, length_range, L. cbn [pdim]. replace (n + 1) with (S n) by lia. destruct n as [|n]; cbn [Nat.eqb length]; lia.
Qed.
Lemma ts_hdiv_hexahedron_sized n : 1 <= n -> sized (ts_hdiv_poly 3 n) (tet n * 3 + tri n + match n with 1 => 2 | _ => 3 * n end).
Proof.
  intros Hn. unfold ts_hdiv_poly. destruct n as [|n]; [lia|]. replace (S n - 1) with n by lia.
  destruct (polynomial_vector_sized 3 3 n ltac:(lia)) as (l & -> & L). eexists. split; [reflexivity|].
  cbn [Nat.eqb]. rewrite !app_length, map_length, L. rewrite (tri_flat _ (S n) 1); [|intros i Hi; rewrite map_length, length_range; lia].
  cbn [pdim]. replace (n + 1) with (S n) by lia. destruct n as [|n]; [reflexivity|].
  rewrite (const_flat _ _ 3) by reflexivity. rewrite length_range. lia.
Qed.

Lemma ts_hcurl_quadrilateral_built k n : 4 <= k -> 1 <= n ->
  built (construct k TrimmedSerendipityHcurl (default CQuadrilateral) n "equispaced") (tri n * 2 + n + match n with 1 => 1 | _ => 2 end) CQuadrilateral.
Proof.
  intros Hk Hn. destruct k as [|k]; [lia|]. destruct (default_shaped CQuadrilateral ltac:(kt)) as [D S]. assert (T := proj1 (proj2 S)).
  cbn [construct]. unfold default_cell. rewrite D, T. cbn [tdim].
  eapply bind_poly; [apply ts_hcurl_quadrilateral_sized; lia|]. intros p0 L0.
  destruct n as [|[|[|n]]]; [lia| | |].
  - eapply bind_moments; [apply make_by_dimension; [yes S CInterval 0 4 dpc_interval|no S|above S]|]. intros ds L F.
    eapply bind_count; [exact S|lia|]. cbn [Nat.leb]. rewrite app_nil_r. apply built_ciarlet; [exact L0|exact L|exact F].
  - eapply bind_moments; [apply make_by_dimension; [yes S CInterval 1 4 dpc_interval|no S|above S]|]. intros ds L F.
    eapply bind_count; [exact S|lia|]. cbn [Nat.leb]. apply built_ciarlet; [exact L0|rewrite app_length, L; reflexivity|].
    apply Forall_app; split; [exact F|]. apply entity_map_on. simpl; lia.
  - eapply bind_moments; [apply make_by_dimension; [yes S CInterval (2 + n) 4 dpc_interval|yes S CQuadrilateral n 1 vdpc_quadrilateral|above S]|]. intros ds L F.
    eapply bind_count; [exact S|lia|]. cbn [Nat.leb]. apply built_ciarlet; [exact L0| |].
    + rewrite app_length, L, entity_map_length, length_range. cbn [shape length]. clear. numbers.
    + apply Forall_app; split; [exact F|]. apply entity_map_on. simpl; lia.
Qed.
Lemma ts_hdiv_quadrilateral_built k n : 4 <= k -> 1 <= n ->
  built (construct k TrimmedSerendipityHdiv (default CQuadrilateral) n "equispaced") (tri n * 2 + n + match n with 1 => 1 | _ => 2 end) CQuadrilateral.
Proof.
  intros Hk Hn. destruct k as [|k]; [lia|]. destruct (default_shaped CQuadrilateral ltac:(kt)) as [D S]. assert (T := proj1 (proj2 S)).
  cbn [construct]. unfold default_cell. rewrite D, T. cbn [tdim Nat.eqb].
  eapply bind_poly; [apply ts_hdiv_quadrilateral_sized; lia|]. intros p0 L0.
  destruct n as [|[|[|n]]]; [lia| | |].
  - eapply bind_moments; [apply make_by_codimension; [exact S|yes S CInterval 0 4 dpc_interval|no S]|]. intros ds L F.
    cbn [Nat.leb]. rewrite app_nil_r. apply built_ciarlet; [exact L0|exact L|exact F].
  - eapply bind_moments; [apply make_by_codimension; [exact S|yes S CInterval 1 4 dpc_interval|no S]|]. intros ds L F.
    cbn [Nat.leb]. apply built_ciarlet; [exact L0|rewrite app_length, L; reflexivity|].
    apply Forall_app; split; [exact F|]. apply on_map. simpl; lia.
  - eapply bind_moments; [apply make_by_codimension; [exact S|yes S CInterval (2 + n) 4 dpc_interval|yes S CQuadrilateral n 1 vdpc_quadrilateral]|]. intros ds L F.
    cbn [Nat.leb]. apply built_ciarlet; [exact L0| |].
    + rewrite app_length, L, map_length, length_range. clear. numbers.
    + apply Forall_app; split; [exact F|]. apply on_map. simpl; lia.
Qed.
Lemma ts_hdiv_hexahedron_built k n : 4 <= k -> 1 <= n ->
  built (construct k TrimmedSerendipityHdiv (default CHexahedron) n "equispaced") (tet n * 3 + tri n + match n with 1 => 2 | _ => 3 * n end) CHexahedron.
Proof.
  intros Hk Hn. destruct k as [|k]; [lia|]. destruct (default_shaped CHexahedron ltac:(kt)) as [D S]. assert (T := proj1 (proj2 S)).
  cbn [construct]. unfold default_cell. rewrite D, T. cbn [tdim Nat.eqb].
  eapply bind_poly; [apply ts_hdiv_hexahedron_sized; lia|]. intros p0 L0.
  assert (X : length (flat_map (fun i => map (fun _ : nat => on "IntegralAgainst" (Some "covariant") 3 0) (range (n - i))) (range n)) = tri n).
  { rewrite (tri_flat _ n 1); [lia|]. intros i Hi. rewrite map_length, length_range. lia. }
  assert (Y : Forall (fun d => on_cell CHexahedron (f_entity d)) (flat_map (fun i => map (fun _ : nat => on "IntegralAgainst" (Some "covariant") 3 0) (range (n - i))) (range n))).
  { apply Forall_flat_map'. intros i _. apply on_map. simpl; lia. }
  destruct n as [|[|[|n]]]; [lia| | |].
  - eapply bind_moments; [apply make_by_codimension; [exact S|yes S CQuadrilateral 0 6 dpc_quadrilateral|no S]|]. intros ds L F.
    cbn [Nat.leb]. rewrite app_nil_r. apply built_ciarlet; [exact L0|exact L|exact F].
  - eapply bind_moments; [apply make_by_codimension; [exact S|yes S CQuadrilateral 1 6 dpc_quadrilateral|no S]|]. intros ds L F.
    cbn [Nat.leb]. apply built_ciarlet; [exact L0|rewrite app_length, L, X; reflexivity|].
    apply Forall_app; split; [exact F|exact Y].
  - eapply bind_moments; [apply make_by_codimension; [exact S|yes S CQuadrilateral (2 + n) 6 dpc_quadrilateral|yes S CHexahedron n 1 vdpc_hexahedron]|]. intros ds L F.
    cbn [Nat.leb]. apply built_ciarlet; [exact L0| |].
    + rewrite app_length, L, X. clear. numbers.
    + apply Forall_app; split; [exact F|exact Y].
Qed.

(** The constructor of the trimmed serendipity Hcurl element on the hexahedron: the numbers agree up to order 3 only. *)
Lemma ts_hcurl_hexahedron_built k n : 4 <= k -> 1 <= n <= 3 ->
  built (construct k TrimmedSerendipityHcurl (default CHexahedron) n "equispaced") (match n with 1 => 12 | 2 => 36 | _ => 66 end) CHexahedron.
Proof.
  intros Hk Hn. destruct k as [|k]; [lia|]. destruct (default_shaped CHexahedron ltac:(kt)) as [D S]. assert (T := proj1 (proj2 S)).
  cbn [construct]. unfold default_cell. rewrite D, T. cbn [tdim].
  destruct n as [|[|[|[|n]]]]; [lia| | | |lia].
  - eapply (bind_poly _ 12); [eexists; split; reflexivity|]. intros p0 L0.
    eapply bind_moments; [apply make_by_dimension; [yes S CInterval 0 12 dpc_interval|no S|no S]|]. intros ds L F.
    eapply bind_count; [exact S|lia|]. cbn [Nat.leb]. rewrite app_nil_r. apply built_ciarlet; [exact L0|exact L|exact F].
  - eapply (bind_poly _ 36); [eexists; split; reflexivity|]. intros p0 L0.
    eapply bind_moments; [apply make_by_dimension; [yes S CInterval 1 12 dpc_interval|no S|no S]|]. intros ds L F.
    eapply bind_count; [exact S|lia|]. cbn [Nat.leb]. apply built_ciarlet; [exact L0|rewrite app_length, L; reflexivity|].
    apply Forall_app; split; [exact F|]. apply entity_map_on. simpl; lia.
  - eapply (bind_poly _ 66); [eexists; split; reflexivity|]. intros p0 L0.
    eapply bind_moments; [apply make_by_dimension; [yes S CInterval 2 12 dpc_interval|yes S CQuadrilateral 0 6 vdpc_quadrilateral|no S]|]. intros ds L F.
    eapply bind_count; [exact S|lia|]. cbn [Nat.leb]. apply built_ciarlet; [exact L0|rewrite app_length, L; reflexivity|].
    apply Forall_app; split; [exact F|]. apply entity_map_on. simpl; lia.
Qed.

Lemma ts_hcurl_hexahedron_sized n : 3 <= n -> sized (ts_hcurl_poly 3 n) (tet n * 3 + (3 * n + 2 * tri (n - 1)) + 3 + 3 * n + 3 * n).
Proof.
  intros Hn. unfold ts_hcurl_poly. cbn [Nat.eqb].
  destruct (polynomial_vector_sized 3 3 (n - 1) ltac:(lia)) as (l & -> & L). eexists. split; [reflexivity|].
  rewrite (proj2 (Nat.eqb_neq n 1)) by lia. rewrite !app_length, L. cbn [pdim]. replace (n - 1 + 1) with n by lia.
  assert (A : length (flat_map (fun i => flat_map (fun j => flat_map (fun dim =>
        if (i =? 0) || negb (dim =? 0) then [x_cross dim [i; j; n - 1 - i - j]] else [])
        (range 3)) (range (n - i))) (range n)) = 3 * n + 2 * tri (n - 1)).
  { destruct n as [|n]; [lia|]. unfold range at 3. cbn [seq flat_map]. rewrite app_length.
    rewrite (const_flat _ _ 3) by reflexivity. rewrite length_range. rewrite <- seq_shift, flat_map_concat_map, map_map, <- flat_map_concat_map.
    change (seq 0 n) with (range n). rewrite (tri_flat _ n 2); [cbn [Nat.sub]; rewrite Nat.sub_0_r; lia|].
    intros i Hi. rewrite (const_flat _ _ 2) by reflexivity. rewrite length_range. lia. }
  assert (B : length (flat_map (fun i => mono_grad 3 [1; i; n - i] ::
           (if negb (i =? 1) then
             mono_grad 3 [i; 1; n - i] ::
             (if negb (n - i =? 1) then [mono_grad 3 [i; n - i; 1]] else [])
            else [])) (range (n + 1))) = 3 * n).
  { assert (G : forall a m, 2 <= a -> a + m <= n - 1 -> length (flat_map (fun i => mono_grad 3 [1; i; n - i] ::
           (if negb (i =? 1) then
             mono_grad 3 [i; 1; n - i] ::
             (if negb (n - i =? 1) then [mono_grad 3 [i; n - i; 1]] else [])
            else [])) (seq a m)) = 3 * m).
    { intros a m. revert a. induction m as [|m IH]; intros a Ha Hm; [reflexivity|]. cbn [seq flat_map]. rewrite app_length, IH by lia.
      rewrite (proj2 (Nat.eqb_neq a 1)), (proj2 (Nat.eqb_neq (n - a) 1)) by lia. cbn [negb length]. lia. }
    replace (n + 1) with (2 + ((n - 3) + 2)) by lia. unfold range. rewrite seq_app, flat_map_app, app_length. cbn [Nat.add].
    rewrite seq_app, flat_map_app, app_length, (G 2 (n - 3)) by lia. replace (2 + (n - 3)) with (n - 1) by lia. cbn [seq flat_map].
    rewrite !app_length. cbn [Nat.eqb negb length]. rewrite Nat.sub_0_r.
    rewrite (proj2 (Nat.eqb_neq n 1)), (proj2 (Nat.eqb_neq (n - 1) 1)) by lia.
    replace (n - (n - 1)) with 1 by lia. replace (S (n - 1)) with n by lia. rewrite Nat.sub_diag. rewrite (proj2 (Nat.eqb_neq (n - 1) 0)) by lia.
    cbn [Nat.eqb negb length]. lia. }
  assert (C : length (flat_map (ts_loop n) (range n)) = 3 * n).
  { rewrite (const_flat _ _ 3); [rewrite length_range; lia|]. intros i. unfold ts_loop. rewrite app_length.
    rewrite (proj2 (Nat.ltb_lt 1 n)) by lia. reflexivity. }
  rewrite B, C. cbn [length].
  match goal with |- _ + (length ?t + _) = _ => transitivity (tet n * 3 + ((3 * n + 2 * tri (n - 1)) + (3 + (3 * n + 3 * n)))) end; [|lia].
  f_equal. f_equal. exact A.
Qed.
Lemma ts_hcurl_hexahedron_fails k n : 4 <= k -> 4 <= n ->
  construct k TrimmedSerendipityHcurl (default CHexahedron) n "equispaced" = Err AssertionError.
Proof.
  intros Hk Hn. destruct k as [|k]; [lia|]. destruct (default_shaped CHexahedron ltac:(kt)) as [D S]. assert (T := proj1 (proj2 S)).
  cbn [construct]. unfold default_cell. rewrite D, T. cbn [tdim].
  destruct (ts_hcurl_hexahedron_sized n ltac:(lia)) as (p0 & -> & L0). cbn [rbind].
  assert (M : exists m ds, rmap (map of_moment) (make_integral_moment_dofs cls string "equispaced" cls_min_order (dcount k) (default CHexahedron)
      (by_dimension (Some (moment_data "TangentIntegralMoment" DPC (Z.of_nat n - 1)%Z None "equispaced"))
                                   (Some (moment_data "IntegralMoment" VectorDPC (Z.of_nat n - 3)%Z (Some "contravariant") "equispaced"))
                                   (Some (moment_data "IntegralMoment" VectorDPC (Z.of_nat n - 5)%Z (Some "contravariant") "equispaced")))) = Ok ds /\
      length ds = m /\ m + 6 * n < tet n * 3 + (3 * n + 2 * tri (n - 1)) + 3 + 3 * n + 3 * n).
  { destruct n as [|[|[|[|[|n]]]]]; [lia|lia|lia|lia| |].
    - assert (X : moments_res CHexahedron (make_integral_moment_dofs cls string "equispaced" cls_min_order (dcount k) (default CHexahedron)
      (by_dimension (Some (moment_data "TangentIntegralMoment" DPC (Z.of_nat 4 - 1)%Z None "equispaced"))
                                   (Some (moment_data "IntegralMoment" VectorDPC (Z.of_nat 4 - 3)%Z (Some "contravariant") "equispaced"))
                                   (Some (moment_data "IntegralMoment" VectorDPC (Z.of_nat 4 - 5)%Z (Some "contravariant") "equispaced")))) (12 * (3 + 1) + 6 * (tri (1 + 1) * 2) + 0)).
      { apply make_by_dimension; [yes S CInterval 3 12 dpc_interval|yes S CQuadrilateral 1 6 vdpc_quadrilateral|no S]. }
      destruct X as (ds & E & L & _). exists 84, ds. split; [exact E|]. split; [exact L|]. apply Nat.ltb_lt. reflexivity.
    - assert (X : moments_res CHexahedron (make_integral_moment_dofs cls string "equispaced" cls_min_order (dcount k) (default CHexahedron)
      (by_dimension (Some (moment_data "TangentIntegralMoment" DPC (Z.of_nat (5 + n) - 1)%Z None "equispaced"))
                                   (Some (moment_data "IntegralMoment" VectorDPC (Z.of_nat (5 + n) - 3)%Z (Some "contravariant") "equispaced"))
                                   (Some (moment_data "IntegralMoment" VectorDPC (Z.of_nat (5 + n) - 5)%Z (Some "contravariant") "equispaced")))) (12 * (4 + n + 1) + 6 * (tri (2 + n + 1) * 2) + 1 * (tet (n + 1) * 3))).
      { apply make_by_dimension; [yes S CInterval (4 + n) 12 dpc_interval|yes S CQuadrilateral (2 + n) 6 vdpc_quadrilateral|yes S CHexahedron n 1 vdpc_hexahedron]. }
      destruct X as (ds & E & L & _). exists (12 * (4 + n + 1) + 6 * (tri (2 + n + 1) * 2) + 1 * (tet (n + 1) * 3)), ds. split; [exact E|]. split; [exact L|].
      clear. replace (Datatypes.S (Datatypes.S (Datatypes.S (Datatypes.S (Datatypes.S n)))) - 1) with (4 + n) by lia. numbers. }
  destruct M as (m & ds & E & L & M).
  change (make_integral_moment_dofs cls string "equispaced" cls_min_order _ (default CHexahedron) _) with
   (make_integral_moment_dofs cls string "equispaced" cls_min_order (dcount k) (default CHexahedron)
      (by_dimension (Some (moment_data "TangentIntegralMoment" DPC (Z.of_nat n - 1)%Z None "equispaced"))
                                   (Some (moment_data "IntegralMoment" VectorDPC (Z.of_nat n - 3)%Z (Some "contravariant") "equispaced"))
                                   (Some (moment_data "IntegralMoment" VectorDPC (Z.of_nat n - 5)%Z (Some "contravariant") "equispaced")))).
  rewrite E. cbn [rbind]. change (sub_entity_count (default CHexahedron) 2) with (@Ok nat 6). cbn [rbind].
  rewrite (proj2 (Nat.leb_le 2 n)) by lia. unfold ciarlet. rewrite app_length, entity_map_length, length_range, L, L0.
  rewrite (proj2 (Nat.eqb_neq _ _)) by lia. reflexivity.
Qed.
