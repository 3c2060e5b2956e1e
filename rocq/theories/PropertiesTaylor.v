(** Taylor elements (taylor.py) of every order on every interval, triangle and tetrahedron. *)
From Coquelicot Require Import Coquelicot.
From Coq Require Import String Arith Bool Reals Lra Lia List.
From Verif Require Import Base PolyLib PolySetsModel PolyVec ReferencesModel ReferencesSpec ReferencesProofs ReferencesGeometry
  LinAlg LagrangeProofs LegendreIntSpec PointsModel PointsSpec MomentElementsModel MomentElementsSpec TaylorModel TaylorSpec TaylorProofs TaylorElement TaylorFunctions.
From Verif Require LegendreIntegrals.
Import ListNotations.
Open Scope R_scope.

(** For every order n and every cell that is not degenerate, create_element succeeds with dim P_n degrees of freedom;
    get_basis_functions returns polynomials of degree n, the basis that is dual to the degrees of freedom, and every polynomial
    of degree n is the combination of the basis functions with its degrees of freedom. *)
Theorem C86_taylor_basis : forall c vs r n, simplex c -> points (nvert c) (tdim c) vs -> map_det c vs <> 0 -> make_reference c vs = Ok r ->
  dual_taylor (make_taylor r n) (fields 1 (P_space (tdim c) n)) (P_dim (tdim c) n).
Proof. exact taylor_dual. Qed.
Print Assumptions C86_taylor_basis.
(** The triangle with vertices (1, 1), (3, 1), (2, 4) and order 3. *)
Example C86_taylor_basis_example : exists r, make_reference CTriangle [[1; 1]; [3; 1]; [2; 4]] = Ok r /\
  dual_taylor (make_taylor r 3) (fields 1 (P_space 2 3)) 10.
Proof.
  eexists. split; [reflexivity|]. apply (C86_taylor_basis CTriangle [[1; 1]; [3; 1]; [2; 4]]).
  - right; left; reflexivity.
  - split; [reflexivity|repeat constructor].
  - unfold map_det, edge_det2, co. cbn [nth]. lra.
  - reflexivity.
Qed.

(** The degrees of freedom are the integral of the function pulled back to the reference cell, and each derivative of order 1 to n at the mean of
    the vertices once; all of them are inside the cell. *)
Theorem C86_taylor_functionals : forall c vs r n, simplex c -> points (nvert c) (tdim c) vs -> map_det c vs <> 0 -> make_reference c vs = Ok r ->
  exists poly dofs, make_taylor r n = Ok (poly, dofs) /\ taylor_dofs r n dofs.
Proof. exact taylor_dofs_ok. Qed.
Print Assumptions C86_taylor_functionals.
(** The interval from 1 to 4 and order 2: the derivatives of orders 1 and 2 at 5 / 2. *)
Example C86_taylor_functionals_example : exists r poly m p, make_reference CInterval [[1]; [4]] = Ok r /\
  make_taylor r 2 = Ok (poly, [Mean m; DerivativeAt p [1%nat] (1, 0)%nat; DerivativeAt p [2%nat] (1, 0)%nat]) /\ nth 0 p 0 = 5 / 2 /\
  (forall f I, iterated_integral [(0%nat, fun _ => 0, fun _ => 1)] (fun t => f (0%nat, fun i => nth i [1] 0 + (0 + nth i [3] 0 * t 0%nat))) (fun _ => 0) I -> taylor_value (Mean m) f I).
Proof.
  destruct (C86_taylor_functionals CInterval [[1]; [4]] {| r_type := CInterval; r_vertices := [[1]; [4]]; r_origin := [1]; r_axes := [[4 - 1]] |} 2) as (poly & dofs & E & D).
  - left; reflexivity.
  - split; [reflexivity|repeat constructor].
  - unfold map_det, co. cbn [nth]. lra.
  - reflexivity.
  - destruct (taylor_made CInterval [[1]; [4]] {| r_type := CInterval; r_vertices := [[1]; [4]]; r_origin := [1]; r_axes := [[4 - 1]] |} 2) as (ms & m' & _ & E' & _);
      [left; reflexivity|split; [reflexivity|repeat constructor]|unfold map_det, co; cbn [nth]; lra|reflexivity|].
    rewrite E in E'. injection E' as _ E'. subst dofs. destruct D as (m & alphas & p & lims & Ed & _ & El & Hm & Hp & _). injection El as <-.
    change (multi (tdim CInterval) 2) with [[1%nat]; [2%nat]] in Ed. cbn [map] in Ed. destruct alphas as [|a [|b [|x l]]]; try discriminate Ed. injection Ed as -> Ep <- _ <-. rewrite <- Ep in Hp.
    eexists _, poly, m, _. split; [reflexivity|]. split; [exact E|]. split; [rewrite (Hp 0%nat); cbn; lra|].
    intros f I HI. apply Hm. eapply Verif.LegendreIntegrals.iterated_ext'; [|exact HI]. intros t. cbv beta. do 2 f_equal. apply FunctionalExtensionality.functional_extensionality. intros i. unfold point_of. cbn. destruct i as [|[|i]]; cbn; ring.
Qed.

(** The first basis function is constant, and the basis function of the derivative with the multi-index alpha is the
    monomial (x - midpoint)^alpha / alpha! minus a constant. *)
Theorem C86_taylor_functions : forall c vs r n, simplex c -> points (nvert c) (tdim c) vs -> map_det c vs <> 0 -> make_reference c vs = Ok r ->
  taylor_functions r (make_taylor r n).
Proof. exact taylor_functions_ok. Qed.
Print Assumptions C86_taylor_functions.
(** The tetrahedron with vertices (0, 0, 0), (2, 0, 0), (1, 1, 0), (0, 0, 3) and order 4. *)
Example C86_taylor_functions_example : exists r, make_reference CTetrahedron [[0; 0; 0]; [2; 0; 0]; [1; 1; 0]; [0; 0; 3]] = Ok r /\ taylor_functions r (make_taylor r 4).
Proof.
  eexists. split; [reflexivity|]. apply (C86_taylor_functions CTetrahedron [[0; 0; 0]; [2; 0; 0]; [1; 1; 0]; [0; 0; 3]]).
  - right; right; reflexivity.
  - split; [reflexivity|repeat constructor].
  - unfold map_det, edge_det3, co. cbn [nth]. lra.
  - reflexivity.
Qed.
