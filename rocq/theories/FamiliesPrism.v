(** The families of FamiliesModel on prisms, the tensor product Regge element and the Huang-Zhang element. *)
From Coq Require Import String ZArith Arith Bool Reals Lia List Permutation.
From Verif Require Import Base PolyLib PolySetsModel PolySetsProofs RTNedelecProofs QuadratureModel ReferencesModel
  ReferencesSpec ReferencesProofs MomentsModel ElementModel LagrangeModel LagrangeProofs LagrangeKey LagrangeUnisolvence
  PropertiesLagrange QProofs QDofs PropertiesQ FamiliesModel FamiliesSpec FamiliesMoments FamiliesBuilt FamiliesSimplex FamiliesSimplex2 FamiliesTensor FamiliesTensor2 FamiliesTensor3.
Import ListNotations.
Local Open Scope string_scope.
Local Open Scope nat_scope.
Local Open Scope list_scope.


(** * Huang-Zhang *)
Lemma hz_built k n : 2 <= k -> 2 <= n ->
  built (construct k HuangZhang (default CQuadrilateral) n "equispaced") (2 * (n * (n + 1))) CQuadrilateral.
Proof.
  intros Hk Hn. destruct k as [|k]; [lia|]. destruct (default_shaped CQuadrilateral ltac:(kt)) as [D S]. assert (T := proj1 (proj2 S)).
  cbn [construct]. unfold default_cell, asserted. rewrite D, T.
  destruct n as [|[|n]]; [lia|lia|].
  eapply bind_moments; [apply make_by_codimension; [exact S|yes S CInterval (1 + n) 4 lag_interval|apply slot_none]|]. intros d1 L1 F1.
  eapply bind_moments; [apply make_by_codimension; [exact S|yes S CInterval n 4 lag_interval|apply slot_none]|]. intros d2 L2 F2.
  replace (Datatypes.S (Datatypes.S n) - 2) with n by lia. replace (Datatypes.S (Datatypes.S n) - 1) with (Datatypes.S n) by lia.
  apply built_ciarlet.
  - rewrite app_length, (const_flat _ _ (Datatypes.S (Datatypes.S n))), (const_flat _ _ (Datatypes.S (Datatypes.S n) + 1)) by (intros; rewrite map_length, length_range; reflexivity).
    rewrite !length_range. lia.
  - rewrite !app_length, L1, L2, (const_flat _ _ (n * 2)) by (intros; rewrite (const_flat _ _ 2) by reflexivity; rewrite length_range; reflexivity).
    rewrite length_range. nia.
  - apply Forall_app; split; [exact F1|]. apply Forall_app; split; [exact F2|]. apply Forall_flat_map'. intros i _. apply Forall_flat_map'. intros j _.
    repeat (apply Forall_cons; [apply on_ok; simpl; lia|]). constructor.
Qed.

(** * Regge elements on quadrilaterals and hexahedra *)
Lemma flat3 {A B C D} (l1 : list A) (l2 : list B) (l3 : list C) (f : A -> B -> C -> list D) m : (forall a b c, length (f a b c) = m) ->
  length (flat_map (fun a => flat_map (fun b => flat_map (fun c => f a b c) l3) l2) l1) = length l1 * (length l2 * (length l3 * m)).
Proof. intros H. apply const_flat. intros a. apply const_flat. intros b. apply const_flat. intros c. apply H. Qed.
Lemma flat2 {A B D} (l1 : list A) (l2 : list B) (f : A -> B -> list D) m : (forall a b, length (f a b) = m) ->
  length (flat_map (fun a => flat_map (fun b => f a b) l2) l1) = length l1 * (length l2 * m).
Proof. intros H. apply const_flat. intros a. apply const_flat. intros b. apply H. Qed.
Lemma flat2m {A B D} (l1 : list A) (l2 : list B) (f : A -> B -> D) :
  length (flat_map (fun a => map (fun b => f a b) l2) l1) = length l1 * length l2.
Proof. apply const_flat. intros a. apply map_length. Qed.

Lemma regge_tp_poly_length c n : two_three c ->
  length (regge_tp_poly (tdim c) n) = match c with CQuadrilateral => (n + 1) * (3 * n + 5) | _ => 3 * ((n + 1) * (n + 2) * (2 * n + 3)) end.
Proof.
  intros [->| ->]; cbn [tdim regge_tp_poly]; rewrite app_length.
  - rewrite (flat2 _ _ _ 2) by reflexivity. rewrite flat2m, !length_range. lia.
  - rewrite !(flat3 _ _ _ _ 3) by reflexivity. rewrite !length_range. lia.
Qed.
Lemma regge_tp_built k c r n : 2 <= k -> two_three c -> shaped c r ->
  built (construct k ReggeTP r n "integral")
    (match c with CQuadrilateral => (n + 1) * (3 * n + 5) | _ => 3 * ((n + 1) * (n + 2) * (2 * n + 3)) end) c.
Proof.
  intros Hk Hc S. destruct k as [|k]; [lia|]. assert (T := proj1 (proj2 S)).
  cbn [construct]. change ("integral" =? "integral")%string with true. cbv iota.
  eapply bind_fe; [apply lag_interval; lia|]. intros e L _. unfold regge_tp_dofs.
  destruct (proj2 (proj2 (proj2 S)) 1 ltac:(lia)) as [-> _]. destruct (proj2 (proj2 (proj2 S)) 2 ltac:(lia)) as [-> _]. cbn [rbind]. rewrite T, L.
  assert (Y : forall m, m <= nth 2 (entity_numbers c) 0 -> Forall (fun d => on_cell c (f_entity d)) (flat_map (fun f_n =>
           flat_map (fun i : nat => map (fun j : nat => on "IntegralAgainst" (Some "double_covariant") 2 f_n) (range (n + 1))) (range (n + 1))
           ++ flat_map (fun i : nat => flat_map (fun j : nat => [on "IntegralAgainst" (Some "double_covariant") 2 f_n; on "IntegralAgainst" (Some "double_covariant") 2 f_n]) (range (n + 1))) (range2 1 (n + 1)))
         (range m))).
  { intros m Hm. apply Forall_flat_map'. intros f Hf. apply in_range in Hf. apply Forall_app; split.
    - apply Forall_flat_map'. intros i _. apply on_map. lia.
    - apply Forall_flat_map'. intros i _. apply Forall_flat_map'. intros j _. repeat (apply Forall_cons; [apply on_ok; lia|]). constructor. }
  assert (X : forall m, length (flat_map (fun f_n =>
           flat_map (fun i : nat => map (fun j : nat => on "IntegralAgainst" (Some "double_covariant") 2 f_n) (range (n + 1))) (range (n + 1))
           ++ flat_map (fun i : nat => flat_map (fun j : nat => [on "IntegralAgainst" (Some "double_covariant") 2 f_n; on "IntegralAgainst" (Some "double_covariant") 2 f_n]) (range (n + 1))) (range2 1 (n + 1)))
         (range m)) = m * ((n + 1) * (n + 1) + n * ((n + 1) * 2))).
  { intros m. rewrite (const_flat _ _ ((n + 1) * (n + 1) + n * ((n + 1) * 2))); [rewrite length_range; reflexivity|]. intros f.
    rewrite app_length, flat2m, (flat2 _ _ _ 2) by reflexivity. rewrite !length_range, length_range2. lia. }
  apply built_ciarlet; [apply regge_tp_poly_length, Hc| |].
  - rewrite !app_length, entity_map_length, X, length_range. destruct Hc as [->| ->]; cbn [shape repeat length tdim Nat.eqb].
    + nia.
    + rewrite app_length, !(flat3 _ _ _ _ 3) by reflexivity. rewrite !length_range, length_range2. nia.
  - apply Forall_app; split; [apply entity_map_on; destruct Hc as [->| ->]; simpl; lia|]. apply Forall_app; split; [apply Y; destruct Hc as [->| ->]; simpl; lia|].
    destruct Hc as [->| ->]; cbn [tdim Nat.eqb]; [constructor|].
    apply Forall_app; split; (apply Forall_flat_map'; intros i _; apply Forall_flat_map'; intros j _; apply Forall_flat_map'; intros l _;
      repeat (apply Forall_cons; [apply on_ok; simpl; lia|]); constructor).
Qed.

(** * Prisms *)
Lemma prism_interior n : length (filter (fun ii => nth 0 ii 0 + nth 1 ii 0 <? n) (product (repeat (range2 1 n) 3))) = choose 2 n * (n - 1).
Proof.
  transitivity (length (flat_map (fun ij => map (fun l => ij ++ [l]) (range2 1 n)) (simplex_tuples n 2))).
  - apply same_length.
    + apply NoDup_filter, NoDup_product. apply Forall_forall. intros l Hl. apply repeat_spec in Hl. subst. apply NoDup_range2.
    + apply NoDup_flat_map.
      * apply NoDup_filter, NoDup_product. apply Forall_forall. intros l Hl. apply repeat_spec in Hl. subst. apply NoDup_range2.
      * intros a _. apply FinFun.Injective_map_NoDup; [|apply NoDup_range2]. intros x y E. apply app_inj_tail in E. tauto.
      * intros a b x _ _ Ha Hb. apply in_map_iff in Ha, Hb. destruct Ha as (u & <- & _). destruct Hb as (v & E & _). apply app_inj_tail in E. symmetry; tauto.
    + intros m. rewrite filter_In, in_product, in_flat_map, Nat.ltb_lt. cbn [repeat length]. split.
      * intros [[L H] S]. destruct m as [|a [|b [|c [|]]]]; try discriminate L. cbn [nth] in S.
        pose proof (H 0 0 ltac:(lia)) as H0. pose proof (H 1 0 ltac:(lia)) as H1. pose proof (H 2 0 ltac:(lia)) as H2. cbn [nth] in H0, H1, H2.
        exists [a; b]. split; [|apply in_map_iff; exists c; split; [reflexivity|exact H2]].
        unfold simplex_tuples, tuples. rewrite filter_In, in_product, Nat.ltb_lt. cbn [repeat length]. split.
        -- split; [reflexivity|]. intros i d Hi. destruct i as [|[|i]]; [exact H0|exact H1|lia].
        -- cbn. lia.
      * intros (ij & H & Hm). apply in_map_iff in Hm. destruct Hm as (l & <- & Hl).
        unfold simplex_tuples, tuples in H. rewrite filter_In, in_product, Nat.ltb_lt in H. cbn [repeat length] in H. destruct H as [[L H] S].
        destruct ij as [|a [|b [|]]]; try discriminate L. pose proof (H 0 0 ltac:(lia)) as H0. pose proof (H 1 0 ltac:(lia)) as H1. cbn [nth] in H0, H1.
        split; [split; [reflexivity|]|cbn in *; lia]. intros i d Hi. destruct i as [|[|[|i]]]; [exact H0|exact H1|exact Hl|lia].
  - rewrite (const_flat _ _ (n - 1)) by (intros; rewrite map_length; apply length_range2). rewrite length_simplex_tuples. reflexivity.
Qed.
Lemma filter_true {A} (l : list A) : filter (fun _ => true) l = l.
Proof. induction l as [|a l IH]; [reflexivity|]. cbn [filter]. rewrite IH. reflexivity. Qed.

Lemma prism_built k n : 1 <= k -> exists K, built (construct k LagrangePrism (default CPrism) n "equispaced") K CPrism /\ 2 * K = (n + 1) * (n + 1) * (n + 2).
Proof.
  intros Hk. destruct k as [|k]; [lia|]. destruct (default_shaped CPrism ltac:(kt)) as [D S]. assert (T := proj1 (proj2 S)).
  cbn [construct]. unfold default_cell. rewrite D, T. cbn [tdim].
  destruct (prism_polynomial_set_1d_ok n) as (poly & -> & _ & Lp). exists (length poly). split; [|exact Lp].
  unfold prism_dofs. rewrite T. cbn [tdim]. destruct n as [|n].
  { cbn [Nat.eqb rbind]. apply built_ciarlet; [apply map_length|cbn [length]; lia|]. constructor; [apply on_ok; simpl; lia|constructor]. }
  cbn [Nat.eqb]. change ("equispaced" =? "lobatto")%string with false. cbv iota.
  change (get_quadrature "equispaced" (Datatypes.S n + 1)) with (Ok (equispaced (Datatypes.S n + 1))). cbn [rbind].
  change (sub_entity_count (default CPrism) 1) with (@Ok nat 9). change (sub_entity_count (default CPrism) 2) with (@Ok nat 5). cbn [rbind].
  set (g := fun e_n => rbind (sub_entity (default CPrism) 2 e_n false) (fun entity =>
      Ok (map (fun _ : list nat => on "PointEvaluation" (Some "identity") 2 e_n) (filter (fun ii => (length (r_vertices entity) =? 4) || (list_sum ii <? Datatypes.S n))
           (product (repeat (range2 1 (Datatypes.S n)) 2)))))).
  assert (G : exists ds, rmap (@concat fdof) (map_r g (range 5)) = Ok ds /\
      length ds = list_sum [choose 2 (Datatypes.S n); n * n; n * n; n * n; choose 2 (Datatypes.S n)] /\ Forall (fun d => on_cell CPrism (f_entity d)) ds).
  { apply map_r_collect. change (range 5) with [0; 1; 2; 3; 4].
    assert (Q : forall e, e < 5 -> (match e with 0 | 4 => false | _ => true end) = true -> exists ds, g e = Ok ds /\ length ds = n * n /\ Forall (fun d => on_cell CPrism (f_entity d)) ds).
    { intros e He Hq. destruct (proj2 (proj2 (proj2 (proj2 S)) 2 ltac:(lia)) e CQuadrilateral) as (s & Es & _ & Ls).
      { destruct e as [|[|[|[|e]]]]; try discriminate Hq; try reflexivity. destruct e; [discriminate Hq|lia]. }
      unfold g. rewrite Es. cbn [rbind]. eexists. split; [reflexivity|]. split.
      - rewrite map_length. rewrite Ls. change (nvert CQuadrilateral =? 4) with true. cbn [orb]. rewrite filter_true, length_product. cbn [repeat fold_right].
        rewrite length_range2. replace (Datatypes.S n - 1) with n by lia. lia.
      - apply on_map. simpl. exact He. }
    assert (R : forall e, e = 0 \/ e = 4 -> exists ds, g e = Ok ds /\ length ds = choose 2 (Datatypes.S n) /\ Forall (fun d => on_cell CPrism (f_entity d)) ds).
    { intros e He. destruct (proj2 (proj2 (proj2 (proj2 S)) 2 ltac:(lia)) e CTriangle) as (s & Es & _ & Ls).
      { destruct He as [->| ->]; reflexivity. }
      unfold g. rewrite Es. cbn [rbind]. eexists. split; [reflexivity|]. split.
      - rewrite map_length. rewrite Ls. change (nvert CTriangle =? 4) with false. cbn [orb]. exact (length_simplex_tuples (Datatypes.S n) 2).
      - apply on_map. destruct He as [->| ->]; simpl; lia. }
    repeat first [apply Forall2_cons; [first [apply R; tauto|apply Q; [lia|reflexivity]]|]|apply Forall2_nil]. }
  destruct G as (ds & E & L & F). destruct (map_r g (range 5)) as [faces|]; [|discriminate E]. cbn [rmap] in E. injection E as E. cbn [rbind]. rewrite E.
  change (length (r_vertices (default CPrism))) with 6.
  apply built_ciarlet; [apply map_length| |].
  - rewrite !app_length, !map_length, !length_range, prism_interior, L.
    rewrite (const_flat _ _ n) by (intros; rewrite map_length, length_range2; lia). rewrite length_range.
    pose proof (choose_2 n) as C. revert C. generalize (choose 2 (Datatypes.S n)). intros x C. replace (Datatypes.S n - 1) with n by lia.
    cbn [list_sum fold_right]. clear -C Lp. destruct n as [|n]; [lia|]. replace (Datatypes.S n - 1) with n in C by lia. nia.
  - apply Forall_app; split; [|apply Forall_app; split; [|apply Forall_app; split; [exact F|apply on_map; simpl; lia]]].
    + apply Forall_map, Forall_forall. intros i Hi. apply in_range in Hi. apply on_ok. exact Hi.
    + apply entity_map_on. simpl; lia.
Qed.
Lemma vprism_built k n : 2 <= k -> exists K, built (construct k VectorLagrangePrism (default CPrism) n "equispaced") K CPrism /\ 2 * K = 3 * ((n + 1) * (n + 1) * (n + 2)).
Proof.
  intros Hk. destruct k as [|k]; [lia|]. destruct (prism_built k n ltac:(lia)) as (K & (e & E & _ & L & F) & HK). exists (K * 3). split; [|lia].
  cbn [construct]. rewrite E. cbn [rbind]. change (tdim (r_type (default CPrism))) with 3. unfold prism_polynomial_set_vector.
  destruct (prism_polynomial_set_1d_ok n) as (poly & -> & _ & Lp). cbn [rmap rbind].
  apply built_ciarlet; [rewrite length_vectorise; lia|rewrite per_direction_length, L; reflexivity|apply per_direction_on, F].
Qed.

Lemma nedelec_prism_sized n : n = 1 \/ n = 2 -> sized (nedelec_prism_poly n) (match n with 1 => 9 | _ => 36 end).
Proof. intros [->| ->]; eexists; split; reflexivity. Qed.
Lemma nedelec_prism_built k n : 5 <= k -> n = 1 \/ n = 2 ->
  built (construct k NedelecPrism (default CPrism) n "equispaced") (match n with 1 => 9 | _ => 36 end) CPrism.
Proof.
  intros Hk Hn. destruct k as [|k]; [lia|]. destruct (default_shaped CPrism ltac:(kt)) as [D S]. assert (T := proj1 (proj2 S)).
  cbn [construct]. unfold default_cell. rewrite D. eapply bind_poly; [apply nedelec_prism_sized, Hn|]. intros p0 L0.
  destruct Hn as [->| ->].
  - eapply bind_moments.
    + apply (make_by_dimension _ _ _ _ _ _ (9 * (0 + 1)) 0 0).
      * yes S CInterval 0 9 lag_interval.
      * apply (slot_some (dcount k) CPrism (default CPrism) 2 _ [0; 0; 0; 0; 0] S ltac:(simpl; lia)). cbn [shape].
        repeat first [apply Forall2_nil|apply Forall2_cons; [eexists _, _; split; [reflexivity|]; split; [reflexivity|]; left; split; [simpl; lia|reflexivity]|]].
      * apply slot_none.
    + intros ds L F. cbn [Nat.leb]. apply built_ciarlet; [exact L0|exact L|exact F].
  - eapply bind_moments.
    + apply (make_by_dimension _ _ _ _ _ _ (9 * (1 + 1)) 16 0).
      * yes S CInterval 1 9 lag_interval.
      * apply (slot_some (dcount k) CPrism (default CPrism) 2 _ [2; 4; 4; 4; 2] S ltac:(simpl; lia)). cbn [shape].
        assert (A1 : rmap (fun e => length (fe_dofs e)) (construct k VectorLagrange (default CTriangle) 0 "equispaced") = Ok 2).
        { destruct (vlag_triangle k 0 ltac:(lia)) as (e & -> & _ & Le & _). cbn [rmap]. rewrite Le. reflexivity. }
        assert (A2 : rmap (fun e => length (fe_dofs e)) (construct k QRaviartThomas (default CQuadrilateral) 1 "equispaced") = Ok 4).
        { destruct (qrt_quadrilateral k 1 ltac:(lia) ltac:(lia)) as (e & -> & _ & Le & _). cbn [rmap]. rewrite Le. reflexivity. }
        repeat first [apply Forall2_nil|apply Forall2_cons; [eexists _, _; split; [reflexivity|]; split; [reflexivity|]; right; split; [simpl; lia|first [exact A1|exact A2]]|]].
      * apply slot_none.
    + intros ds L F. cbn [Nat.leb Nat.ltb Nat.sub].
      eapply bind_fe; [apply vlag_triangle; lia|]. intros e1 M1 _. eapply bind_fe; [apply lag_interval; lia|]. intros e2 M2 _.
      apply built_ciarlet; [exact L0|rewrite app_length, repeat_map_length, L, M1, M2; reflexivity|].
      apply Forall_app; split; [exact F|]. apply repeat_map_on. simpl; lia.
Qed.
