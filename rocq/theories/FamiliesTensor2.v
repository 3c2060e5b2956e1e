(** The families of FamiliesModel on quadrilaterals, hexahedra and prisms. *)
From Coq Require Import String ZArith Arith Bool Reals Lia List Permutation.
From Verif Require Import Base PolyLib PolySetsModel PolySetsProofs RTNedelecProofs QuadratureModel ReferencesModel
  ReferencesSpec ReferencesProofs MomentsModel ElementModel LagrangeModel LagrangeProofs LagrangeKey LagrangeUnisolvence
  PropertiesLagrange QProofs QDofs PropertiesQ FamiliesModel FamiliesSpec FamiliesMoments FamiliesBuilt FamiliesSimplex FamiliesSimplex2 FamiliesTensor.
Import ListNotations.
Local Open Scope string_scope.
Local Open Scope nat_scope.
Local Open Scope list_scope.


(** * Serendipity spaces *)
Lemma serendipity_1 n : 1 <= n -> length (serendipity_set_1d 1 n) = 0.
Proof.
  intros Hn. destruct (serendipity_set_1d 1 n) as [|m l] eqn:E; [reflexivity|exfalso].
  assert (I : In m (serendipity_set_1d 1 n)) by (rewrite E; left; reflexivity). apply serendipity_set_1d_in in I; [|lia].
  destruct I as (L & H1 & H2). destruct m as [|a [|]]; try discriminate L. cbn in H1, H2. destruct (Nat.eqb_spec a 1); lia.
Qed.
Lemma serendipity_2 n : 1 <= n -> length (serendipity_set_1d 2 n) = if n =? 1 then 1 else 2.
Proof.
  intros Hn. destruct (Nat.eqb_spec n 1) as [->|N]; [reflexivity|].
  transitivity (length [[1; n]; [n; 1]]); [|reflexivity]. apply same_length.
  - apply serendipity_set_1d_nodup. lia.
  - constructor; [|constructor; [intros []|constructor]]. intros [E|[]]. injection E as E. lia.
  - intros m. rewrite serendipity_set_1d_in by lia. cbn [In]. split.
    + intros (L & H1 & H2). destruct m as [|a [|b [|]]]; try discriminate L. cbn in H1, H2.
      destruct (Nat.eqb_spec a 1); destruct (Nat.eqb_spec b 1); subst; try lia.
      * left. f_equal. f_equal. lia.
      * right. left. f_equal. lia.
    + intros [<-|[<-|[]]]; (split; [reflexivity|]); cbn; destruct (Nat.eqb_spec n 1); lia.
Qed.
Lemma serendipity_3 n : 3 <= n -> length (serendipity_set_1d 3 n) = 3 * n + 3.
Proof.
  intros Hn.
  set (A := 0 :: n :: range2 2 (n - 1)).
  set (f := fun a => [[1; a; n - a]; [a; 1; n - a]; [a; n - a; 1]]).
  set (B := [[1; 1; n - 1]; [1; n - 1; 1]; [n - 1; 1; 1]; [1; 1; n]; [1; n; 1]; [n; 1; 1]]).
  assert (InA : forall a, In a A <-> a <= n /\ a <> 1 /\ n - a <> 1).
  { intros a. unfold A. cbn [In]. rewrite in_range2. lia. }
  transitivity (length (flat_map f A ++ B)).
  - apply same_length.
    + apply serendipity_set_1d_nodup. lia.
    + apply NoDup_app_intro.
      * apply NoDup_flat_map.
        -- unfold A. constructor; [cbn [In]; rewrite in_range2; lia|]. constructor; [rewrite in_range2; lia|]. apply NoDup_range2.
        -- intros a Ha. apply InA in Ha. unfold f. repeat constructor; cbn [In]; intros H; 
             repeat destruct H as [H|H]; try contradiction; injection H; lia.
        -- intros a b x Ha Hb Hx Hy. apply InA in Ha, Hb. unfold f in Hx, Hy. cbn [In] in Hx, Hy.
           destruct Hx as [<-|[<-|[<-|[]]]]; destruct Hy as [H|[H|[H|[]]]]; injection H; lia.
      * unfold B. repeat constructor; cbn [In]; intros H; repeat destruct H as [H|H]; try contradiction; injection H; lia.
      * intros x Hx Hy. apply in_flat_map in Hx. destruct Hx as (a & Ha & Hx). apply InA in Ha. unfold f in Hx. unfold B in Hy. cbn [In] in Hx, Hy.
        destruct Hx as [<-|[<-|[<-|[]]]]; repeat destruct Hy as [H|Hy]; try contradiction; injection H; lia.
    + intros m. rewrite serendipity_set_1d_in by lia. rewrite in_app_iff, in_flat_map. split.
      * intros (L & H1 & H2). destruct m as [|a [|b [|c [|]]]]; try discriminate L. cbn in H1, H2.
        destruct (Nat.eqb_spec a 1); destruct (Nat.eqb_spec b 1); destruct (Nat.eqb_spec c 1); subst; try lia.
        -- right. unfold B. cbn [In]. assert (c = n \/ c = n - 1) as [->| ->] by lia; tauto.
        -- right. unfold B. cbn [In]. assert (b = n \/ b = n - 1) as [->| ->] by lia; tauto.
        -- left. exists b. split; [apply InA; lia|]. left. f_equal. f_equal. f_equal. lia.
        -- right. unfold B. cbn [In]. assert (a = n \/ a = n - 1) as [->| ->] by lia; tauto.
        -- left. exists a. split; [apply InA; lia|]. right. left. f_equal. f_equal. f_equal. lia.
        -- left. exists a. split; [apply InA; lia|]. right. right. left. f_equal. f_equal. lia.
      * intros [(a & Ha & H)|H].
        -- apply InA in Ha. unfold f in H. cbn [In] in H. destruct H as [<-|[<-|[<-|[]]]]; (split; [reflexivity|]); cbn;
             destruct (Nat.eqb_spec a 1); destruct (Nat.eqb_spec (n - a) 1); lia.
        -- unfold B in H. cbn [In] in H. repeat destruct H as [<-|H]; try contradiction; (split; [reflexivity|]); cbn;
             destruct (Nat.eqb_spec n 1); destruct (Nat.eqb_spec (n - 1) 1); lia.
  - rewrite app_length, (const_flat f A 3) by reflexivity. unfold A, B. cbn [length]. rewrite length_range2. lia.
Qed.
Definition ser3 n := match n with 1 => 4 | 2 => 10 | _ => 3 * n + 3 end.
Lemma serendipity_3' n : 1 <= n -> length (serendipity_set_1d 3 n) = ser3 n.
Proof. intros Hn. destruct n as [|[|[|n]]]; [lia|reflexivity|reflexivity|]. apply serendipity_3. lia. Qed.

Lemma serendipity_built k c n : 3 <= k -> 1 <= n -> tensor c ->
  built (construct k Serendipity (default c) n "equispaced")
    (match c with CInterval => n + 1 | CQuadrilateral => tri (n + 1) + (if n =? 1 then 1 else 2) | _ => tet (n + 1) + ser3 n end) c.
Proof.
  intros Hk Hn Hc. destruct k as [|k]; [lia|]. destruct (default_shaped c ltac:(kt)) as [D S]. assert (T := proj1 (proj2 S)).
  assert (Td := tensor_dim c Hc).
  cbn [construct]. rewrite T. unfold map_polyset_from_default. rewrite D.
  eapply bind_poly; [apply polynomial_sized; exact Td|]. intros p0 L0. cbn [rbind].
  rewrite (proj1 (proj2 (proj2 S))).
  assert (FV : Forall (fun d => on_cell c (f_entity d)) (map (on "PointEvaluation" (Some "identity") 0) (range (nvert c)))).
  { apply Forall_map, Forall_forall. intros i Hi. apply in_range in Hi. apply on_ok. destruct Hc as [->|[->| ->]]; exact Hi. }
  Ltac done L0 FV := let ds := fresh "ds" in let L := fresh "L" in let F := fresh "F" in intros ds L F; apply built_ciarlet;
    [rewrite map_length, app_length, L0; cbn [tdim]; rewrite ?serendipity_1, ?serendipity_2, ?serendipity_3' by lia; cbn [pdim]; try reflexivity; lia
    |rewrite app_length, map_length, length_range, L; unfold ser3; change (nvert CInterval) with 2; change (nvert CQuadrilateral) with 4; change (nvert CHexahedron) with 8; clear; numbers
    |apply Forall_app; split; assumption].
  destruct Hc as [->|[->| ->]].
  - destruct n as [|[|n]]; [lia| |].
    + eapply bind_moments; [apply make_by_dimension|].
      * no S.
      * above S.
      * above S.
      * done L0 FV.
    + eapply bind_moments; [apply make_by_dimension|].
      * yes S CInterval n 1 dpc_interval.
      * above S.
      * above S.
      * done L0 FV.
  - destruct n as [|[|[|[|n]]]]; [lia| | | |].
    + eapply bind_moments; [apply make_by_dimension|].
      * no S.
      * no S.
      * above S.
      * done L0 FV.
    + eapply bind_moments; [apply make_by_dimension|].
      * yes S CInterval 0 4 dpc_interval.
      * no S.
      * above S.
      * done L0 FV.
    + eapply bind_moments; [apply make_by_dimension|].
      * yes S CInterval 1 4 dpc_interval.
      * no S.
      * above S.
      * done L0 FV.
    + eapply bind_moments; [apply make_by_dimension|].
      * yes S CInterval (2 + n) 4 dpc_interval.
      * yes S CQuadrilateral n 1 dpc_quadrilateral.
      * above S.
      * done L0 FV.
  - destruct n as [|[|[|[|[|[|n]]]]]]; [lia| | | | | |].
    + eapply bind_moments; [apply make_by_dimension|].
      * no S.
      * no S.
      * no S.
      * done L0 FV.
    + eapply bind_moments; [apply make_by_dimension|].
      * yes S CInterval 0 12 dpc_interval.
      * no S.
      * no S.
      * done L0 FV.
    + eapply bind_moments; [apply make_by_dimension|].
      * yes S CInterval 1 12 dpc_interval.
      * no S.
      * no S.
      * done L0 FV.
    + eapply bind_moments; [apply make_by_dimension|].
      * yes S CInterval 2 12 dpc_interval.
      * yes S CQuadrilateral 0 6 dpc_quadrilateral.
      * no S.
      * done L0 FV.
    + eapply bind_moments; [apply make_by_dimension|].
      * yes S CInterval 3 12 dpc_interval.
      * yes S CQuadrilateral 1 6 dpc_quadrilateral.
      * no S.
      * done L0 FV.
    + eapply bind_moments; [apply make_by_dimension|].
      * yes S CInterval (4 + n) 12 dpc_interval.
      * yes S CQuadrilateral (2 + n) 6 dpc_quadrilateral.
      * yes S CHexahedron n 1 dpc_hexahedron.
      * done L0 FV.
Qed.

Ltac go S := first [exact S | idtac].
(** the end of a construction where the degrees of freedom are the moments *)
Ltac fin3 := let ds := fresh "ds" in let L := fresh "L" in let F := fresh "F" in intros ds L F;
  apply built_ciarlet; [lens; unfold ser3; numbers|rewrite L; clear; unfold ser3; numbers|exact F].

Lemma sercurl_sized d n : 2 <= d <= 3 -> 1 <= n ->
  sized (Hcurl_serendipity d d n) (match d with 2 => 2 | _ => match n with 1 => 12 | _ => 6 * n + 6 end end).
Proof.
  intros Hd Hn. unfold Hcurl_serendipity. rewrite Nat.eqb_refl. destruct d as [|[|[|[|d]]]]; try lia; eexists; (split; [reflexivity|]); [reflexivity|].
  rewrite app_length, map_length, serendipity_3' by lia. destruct n as [|[|n]]; [lia|reflexivity|].
  cbn [Nat.eqb]. rewrite (const_flat _ _ 3) by reflexivity. rewrite length_range. unfold ser3.
  destruct n as [|n]; cbn [Nat.add]; lia.
Qed.
Lemma serdiv_sized d n : 2 <= d <= 3 -> 1 <= n -> sized (Hdiv_serendipity d d n) (match d with 2 => 2 | _ => 3 * (n + 1) end).
Proof.
  intros Hd Hn. unfold Hdiv_serendipity. rewrite Nat.eqb_refl. destruct d as [|[|[|[|d]]]]; try lia; eexists; (split; [reflexivity|]); [reflexivity|].
  rewrite (proj2 (Nat.eqb_neq n 0)) by lia. rewrite map_length, (const_flat _ _ 3) by reflexivity. rewrite length_range. lia.
Qed.

Lemma sercurl_built k c n : 4 <= k -> 1 <= n -> two_three c ->
  built (construct k SerendipityCurl (default c) n "equispaced")
    (match c with CQuadrilateral => tri (n + 1) * 2 + 2 | _ => tet (n + 1) * 3 + match n with 1 => 12 | _ => 6 * n + 6 end end) c.
Proof.
  intros Hk Hn Hc. destruct k as [|k]; [lia|]. destruct (default_shaped c ltac:(tt3)) as [D S]. assert (T := proj1 (proj2 S)).
  assert (Td : 2 <= tdim c <= 3) by (destruct Hc as [->| ->]; simpl; lia).
  cbn [construct]. unfold default_cell. rewrite D, T.
  eapply bind_poly; [apply polynomial_vector_sized; lia|]. intros p0 L0.
  eapply bind_poly; [apply sercurl_sized; lia|]. intros p1 L1.
  destruct Hc as [->| ->].
  - destruct n as [|[|n]]; [lia| |].
    + eapply bind_moments; [apply make_by_dimension|].
      * yes S CInterval 1 4 dpc_interval.
      * no S.
      * above S.
      * fin3.
    + eapply bind_moments; [apply make_by_dimension|].
      * yes S CInterval (2 + n) 4 dpc_interval.
      * yes S CQuadrilateral n 1 vdpc_quadrilateral.
      * above S.
      * fin3.
  - destruct n as [|[|[|[|n]]]]; [lia| | | |].
    + eapply bind_moments; [apply make_by_dimension|].
      * yes S CInterval 1 12 dpc_interval.
      * no S.
      * no S.
      * fin3.
    + eapply bind_moments; [apply make_by_dimension|].
      * yes S CInterval 2 12 dpc_interval.
      * yes S CQuadrilateral 0 6 vdpc_quadrilateral.
      * no S.
      * fin3.
    + eapply bind_moments; [apply make_by_dimension|].
      * yes S CInterval 3 12 dpc_interval.
      * yes S CQuadrilateral 1 6 vdpc_quadrilateral.
      * no S.
      * fin3.
    + eapply bind_moments; [apply make_by_dimension|].
      * yes S CInterval (4 + n) 12 dpc_interval.
      * yes S CQuadrilateral (2 + n) 6 vdpc_quadrilateral.
      * yes S CHexahedron n 1 vdpc_hexahedron.
      * fin3.
Qed.

Lemma serdiv_built k c n : 4 <= k -> 1 <= n -> two_three c ->
  built (construct k SerendipityDiv (default c) n "equispaced")
    (match c with CQuadrilateral => tri (n + 1) * 2 + 2 | _ => tet (n + 1) * 3 + 3 * (n + 1) end) c.
Proof.
  intros Hk Hn Hc. destruct k as [|k]; [lia|]. destruct (default_shaped c ltac:(tt3)) as [D S]. assert (T := proj1 (proj2 S)).
  assert (Td : 2 <= tdim c <= 3) by (destruct Hc as [->| ->]; simpl; lia).
  cbn [construct]. unfold default_cell. rewrite D, T.
  eapply bind_poly; [apply polynomial_vector_sized; lia|]. intros p0 L0.
  eapply bind_poly; [apply serdiv_sized; lia|]. intros p1 L1.
  destruct n as [|[|n]]; [lia| |]; destruct Hc as [->| ->].
  all: eapply bind_moments; [apply make_by_codimension; [exact S| |]|].
  - yes S CInterval 1 4 dpc_interval.
  - no S.
  - fin3.
  - yes S CQuadrilateral 1 6 dpc_quadrilateral.
  - no S.
  - fin3.
  - yes S CInterval (2 + n) 4 dpc_interval.
  - yes S CQuadrilateral n 1 vdpc_quadrilateral.
  - fin3.
  - yes S CQuadrilateral (2 + n) 6 dpc_quadrilateral.
  - yes S CHexahedron n 1 vdpc_hexahedron.
  - fin3.
Qed.

Lemma bddf_built k n : 4 <= k -> 1 <= n ->
  built (construct k BDDF (default CHexahedron) n "equispaced") (tet (n + 1) * 3 + 3 * (n + 1)) CHexahedron.
Proof.
  intros Hk Hn. destruct k as [|k]; [lia|]. destruct (default_shaped CHexahedron ltac:(kt)) as [D S]. assert (T := proj1 (proj2 S)).
  cbn [construct]. unfold default_cell. rewrite D, T.
  eapply (bind_poly _ (tet (n + 1) * 3 + 3 * (n + 1))).
  { unfold bddf_polyset, asserted. cbn [tdim]. destruct (polynomial_vector_sized 3 3 n ltac:(lia)) as (l & -> & L). eexists. split; [reflexivity|].
    rewrite app_length, map_length, app_length, L, (const_flat _ _ 3) by reflexivity. rewrite length_range2. cbn [length pdim]. lia. }
  intros p0 L0. destruct n as [|[|n]]; [lia| |].
  all: eapply bind_moments; [apply make_by_codimension; [exact S| |]|].
  - yes S CQuadrilateral 1 6 dpc_quadrilateral.
  - no S.
  - fin3.
  - yes S CQuadrilateral (2 + n) 6 dpc_quadrilateral.
  - yes S CHexahedron n 1 vdpc_hexahedron.
  - fin3.
Qed.

Lemma tri_flat_from_1 {B} (f : nat -> list B) m k : (forall i, i < m -> length (f (S i)) = (m - i) * k) ->
  length (flat_map f (range2 1 (S m))) = tri m * k.
Proof.
  intros H. rewrite <- (tri_flat (fun i => f (S i)) m k H). unfold range2, range. replace (S m - 1) with m by lia.
  rewrite <- seq_shift, !flat_map_concat_map, map_map. reflexivity.
Qed.
Lemma bdfm_tensor_built k c n : 4 <= k -> 1 <= n -> two_three c ->
  built (construct k BDFM (default c) n "equispaced") (match c with CQuadrilateral => tri n * 2 + 2 * n | _ => tet n * 3 + tri n * 3 end) c.
Proof.
  intros Hk Hn Hc. destruct k as [|k]; [lia|]. destruct (default_shaped c ltac:(tt3)) as [D S]. assert (T := proj1 (proj2 S)).
  cbn [construct]. unfold default_cell. rewrite D, T.
  eapply (bind_poly _ (match c with CQuadrilateral => tri n * 2 + 2 * n | _ => tet n * 3 + tri n * 3 end)).
  { unfold bdfm_polyset. destruct n as [|n]; [lia|]. cbn [Nat.sub]. rewrite Nat.sub_0_r. destruct Hc as [->| ->]; cbn [tdim].
    - destruct (polynomial_vector_sized 2 2 n ltac:(lia)) as (l & -> & L). eexists. split; [reflexivity|].
      rewrite app_length, L, (const_flat _ _ 2) by reflexivity. rewrite length_range2. cbn [pdim]. replace (n + 1) with (Datatypes.S n) by lia. lia.
    - destruct (polynomial_vector_sized 3 3 n ltac:(lia)) as (l & -> & L). eexists. split; [reflexivity|].
      replace (Datatypes.S n + 1) with (Datatypes.S (Datatypes.S n)) by lia.
      rewrite app_length, L, (tri_flat_from_1 _ (Datatypes.S n) 3); [cbn [pdim]; replace (n + 1) with (Datatypes.S n) by lia; reflexivity|].
      intros i Hi. rewrite (const_flat _ _ 3) by reflexivity. rewrite length_range. lia. }
  intros p0 L0. destruct n as [|[|n]]; [lia| |]; destruct Hc as [->| ->].
  all: eapply bind_moments; [apply make_by_codimension; [exact S| |]|].
  - yes S CInterval 0 4 dpc_interval.
  - no S.
  - fin3.
  - yes S CQuadrilateral 0 6 dpc_quadrilateral.
  - no S.
  - fin3.
  - yes S CInterval (1 + n) 4 dpc_interval.
  - yes S CQuadrilateral n 1 vdpc_quadrilateral.
  - fin3.
  - yes S CQuadrilateral (1 + n) 6 dpc_quadrilateral.
  - yes S CHexahedron n 1 vdpc_hexahedron.
  - fin3.
Qed.

Lemma abf_built k n : n + 4 <= k ->
  built (construct k ArnoldBoffiFalk (default CQuadrilateral) n "equispaced") (2 * ((n + 1) * (n + 3))) CQuadrilateral.
Proof.
  intros Hk. destruct k as [|k]; [lia|]. destruct (default_shaped CQuadrilateral ltac:(kt)) as [D S]. assert (T := proj1 (proj2 S)).
  cbn [construct]. unfold default_cell, asserted. rewrite D, T.
  assert (P : length (flat_map (fun i => map (fun j => [[(1%Z, [i; j])]; []]) (range (n + 1))) (range (n + 3))
               ++ flat_map (fun i => map (fun j => [[]; [(1%Z, [i; j])]]) (range (n + 3))) (range (n + 1))) = 2 * ((n + 1) * (n + 3))).
  { rewrite app_length, (const_flat _ _ (n + 1)), (const_flat _ _ (n + 3)) by (intros; rewrite map_length, length_range; reflexivity).
    rewrite !length_range. lia. }
  assert (E : forall m ds K, length ds = m -> m + (n + 1) * 2 = K -> 2 * ((n + 1) * (n + 3)) = K -> Forall (fun d => on_cell CQuadrilateral (f_entity d)) ds ->
    built (ciarlet (flat_map (fun i => map (fun j => [[(1%Z, [i; j])]; []]) (range (n + 1))) (range (n + 3))
               ++ flat_map (fun i => map (fun j => [[]; [(1%Z, [i; j])]]) (range (n + 3))) (range (n + 1)))
        (ds ++ flat_map (fun _ => [on "IntegralOfDivergenceAgainst" (Some "contravariant") 2 0;
                                     on "IntegralOfDivergenceAgainst" (Some "contravariant") 2 0]) (range (n + 1)))) K CQuadrilateral).
  { intros m ds K L <- L' F. apply built_ciarlet; [transitivity (2 * ((n + 1) * (n + 3))); [exact P|exact L']|rewrite app_length, L, (const_flat _ _ 2) by reflexivity; rewrite length_range; reflexivity|].
    apply Forall_app; split; [exact F|]. apply Forall_flat_map'. intros i _. repeat (apply Forall_cons; [apply on_ok; simpl; lia|]). constructor. }
  destruct n as [|n].
  - eapply bind_moments.
    + apply make_by_dimension; [yes S CInterval 0 4 lag_interval|no S|above S].
    + intros ds L F. apply (E _ ds _ L); [reflexivity|reflexivity|exact F].
  - eapply bind_moments.
    + apply make_by_dimension; [yes S CInterval (1 + n) 4 lag_interval|yes S CQuadrilateral (1 + n) 1 qn_quadrilateral|above S].
    + intros ds L F. apply (E _ ds _ L); [clear; nia|reflexivity|exact F].
Qed.
