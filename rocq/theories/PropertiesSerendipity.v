(** C81: the scalar serendipity element on intervals, quadrilaterals and hexahedra. *)
From Coq Require Import String Arith Bool Reals Lia Lra List.
From Verif Require Import Base PolyLib QuadratureModel ReferencesModel ReferencesSpec CiarletModel LinAlg ElementModel UnisolvenceProofs PointsModel PointsSpec
  MomentElementsModel QFieldSpec QFieldGeometry QFieldProofs PropertiesQField SerendipityModel SerendipitySpec SerendipityProofs.
Import ListNotations.
Local Open Scope string_scope.
Local Open Scope R_scope.
Local Open Scope list_scope.

(** * C81: the element of every order on the unit interval (d = 1), square and cube can be created, its space consists of the
    polynomials of superlinear degree at most n, and get_basis_functions returns the basis of it that is dual to the degrees of
    freedom. *)
Theorem C81_serendipity_dual : forall d n variant, (1 <= d <= 3)%nat -> (1 <= n)%nat -> rules_exist variant (n - 1) ->
  dual_scalar (make_serendipity (default (box_of d)) n variant) (fields 1 (serendipity_space d n)) (serendipity_dim d n).
Proof. intros d n variant Hd Hn (_ & _ & Hv). exact (serendipity_dual d n variant Hd Hn Hv). Qed.
Print Assumptions C81_serendipity_dual.
(** every order of the equispaced variant; numbers of degrees of freedom; a function of the space of order 2 that is of degree 3 *)
Example C81_dual_case : (forall n, rules_exist "equispaced" (n - 1)) /\ serendipity_dim 2 3 = 12%nat /\ serendipity_dim 2 4 = 17%nat /\ serendipity_dim 3 2 = 20%nat /\ serendipity_dim 3 6 = 105%nat /\
  serendipity_space 2 2 (fun v => v 0%nat * v 0%nat * v 1%nat) /\ box_of 2 = CQuadrilateral.
Proof.
  split; [intros n; split; [discriminate|]; split; [discriminate|]; intros k _; eexists; reflexivity|]. do 4 (split; [reflexivity|]). split; [|reflexivity].
  apply (poly_space_ext _ (meval [2; 1]%nat)); [intros v; cbn; ring|]. apply poly_space_mono. split; [reflexivity|cbn; lia].
Qed.
(** * C81: the values on a vertex, edge or face depend on the degrees of freedom of it and of the sub-entities it contains only. *)
Theorem C81_serendipity_continuous : forall d n variant, (1 <= d <= 3)%nat -> (1 <= n)%nat -> rules_exist variant (n - 1) ->
  scalar_continuous (default (box_of d)) (make_serendipity (default (box_of d)) n variant) (fields 1 (serendipity_space d n)).
Proof. intros d n variant Hd Hn (_ & _ & Hv). exact (serendipity_conforming d n variant Hd Hn Hv). Qed.
Print Assumptions C81_serendipity_continuous.
(** order 1 on the square: x y vanishes at the vertices of edge 0, as it does on all of the edge, and not on edge 2 *)
Example C81_continuous_case : exists poly dofs, make_serendipity (default CQuadrilateral) 1 "equispaced" = Ok (poly, dofs) /\ length dofs = 4%nat /\
  sub_entities (default CQuadrilateral) 1 = Ok [[0; 1]; [0; 2]; [1; 3]; [2; 3]]%nat /\
  (forall d e, In d dofs -> scalar_entity d = (0%nat, e) -> (e <= 1)%nat -> scalar_value d (fun x => snd x 0%nat * snd x 1%nat) 0) /\
  in_affine_hull (map (fun i => nth i (r_vertices (default CQuadrilateral)) []) [0; 1]%nat) [1/3; 0] /\ in_affine_hull (map (fun i => nth i (r_vertices (default CQuadrilateral)) []) [1; 3]%nat) [1; 1/2].
Proof.
  eexists _, _. split; [reflexivity|]. split; [reflexivity|]. split; [reflexivity|]. split; [|split].
  - intros d e H E He. cbn in H. repeat (destruct H as [<-|H]; [cbn in E |- *; injection E as <-; first [lra|exfalso; lia]|]). destruct H.
  - exists [2/3; 1/3]. split; [reflexivity|]. split; [cbn; lra|]. intros [|[|j]] Hj; cbn in *; try lra; lia.
  - exists [1/2; 1/2]. split; [reflexivity|]. split; [cbn; lra|]. intros [|[|j]] Hj; cbn in *; try lra; lia.
Qed.
