(** Property C87, continued: the Bernardi-Raugel element of order 2. *)
From Coq Require Import Arith Bool Reals Lia Lra List.
From Verif Require Import Base PolyLib LinAlg UnisolvenceProofs ReferencesModel ReferencesSpec LegendreIntSpec PointsModel PointsSpec MomentElementsModel MomentElementsSpec
  TransitionSpec BernardiModel BernardiSpec Bernardi2Model Bernardi2Spec Bernardi2Element.
Import ListNotations.
Open Scope R_scope.

(** The basis functions returned are the basis, dual to the 37 degrees of freedom, of the space of the quadratic fields, the
    bubbles of the faces and the bubbles of the cell. *)
Theorem C87_bernardi_raugel_quadratic_basis : dual_br2 (make_bernardi_raugel2 (default CTetrahedron)) br2_space 37.
Proof. exact br2_dual. Qed.
Print Assumptions C87_bernardi_raugel_quadratic_basis.
(** A field of the space that is not a polynomial of degree 2. *)
Example C87_bernardi_raugel_quadratic_basis_case : let f := fun cv : nat * point => if (fst cv =? 1)%nat then snd cv 0%nat * snd cv 1%nat * snd cv 2%nat * (1 - snd cv 0%nat - snd cv 1%nat - snd cv 2%nat) else 0 in
  br2_space f /\ f (1%nat, fun _ => 1 / 4) = 1 / 256.
Proof.
  intros f. split; [|unfold f; cbn; lra]. exists (fun _ _ => 0), (fun _ => 0), (fun c => if (c =? 1)%nat then 1 else 0). split; [intros; apply poly_space_zero|]. split.
  - intros [|[|[|c]]] v Hc; try lia; unfold f, bubble; cbn; ring.
  - intros c v Hc. unfold f. destruct c as [|[|c]]; try lia. reflexivity.
Qed.

(** The normal component on a face is determined by the degrees of freedom of that face. *)
Theorem C87_bernardi_raugel_quadratic_conforming : br2_conforming (make_bernardi_raugel2 (default CTetrahedron)) br2_space.
Proof. exact br2_normal. Qed.
Print Assumptions C87_bernardi_raugel_quadratic_conforming.
(** The quadratic field (xy, 0, 0) has no normal component on the face x = 0 but on the face x + y + z = 1. *)
Example C87_bernardi_raugel_quadratic_conforming_case : let f := fun cv : nat * point => if (fst cv =? 0)%nat then snd cv 0%nat * snd cv 1%nat else 0 in
  (forall v, on_facet 3 1 v -> sum 3 (fun c => f (c, v) * facet_direction 1 c) = 0) /\ exists v, on_facet 3 0 v /\ sum 3 (fun c => f (c, v) * facet_direction 0 c) <> 0.
Proof.
  intros f. split.
  - intros v Hv. cbn in Hv. unfold f. cbn. rewrite Hv. ring.
  - exists (fun _ => 1 / 3). unfold f. cbn. split; lra.
Qed.

(** Each degree of freedom is the normal component at a vertex or at the middle of an edge of a face, or its integral over the
    face, or the tangential component at the middle of an edge, or the integral of the divergence times a coordinate. *)
Theorem C87_bernardi_raugel_quadratic_functionals : exists poly dofs, make_bernardi_raugel2 (default CTetrahedron) = Ok (poly, dofs) /\ length dofs = 37%nat /\
  forall l, In l dofs -> br2_functionals l.
Proof. exact br2_functionals_ok. Qed.
Print Assumptions C87_bernardi_raugel_quadratic_functionals.
(** The middle of the first edge. *)
Example C87_bernardi_raugel_quadratic_functionals_case : tet_edge 0 = (2, 3)%nat /\ middle_point 2 3 0%nat = 0 /\ middle_point 2 3 1%nat = 1 / 2 /\ middle_point 2 3 2%nat = 1 / 2.
Proof. split; [reflexivity|]. unfold middle_point, env_of. cbn. repeat split; lra. Qed.

(** On any other cell than the default ones the constructor raises NonDefaultReferenceError, and on the triangle an assertion
    fails: there the element exists only for order 1. *)
Theorem C87_bernardi_raugel_quadratic_cells : (forall r, r_vertices r <> reference_vertices (r_type r) -> make_bernardi_raugel2 r = Err NotImplementedError) /\
  make_bernardi_raugel2 (default CTriangle) = Err AssertionError.
Proof.
  split; [|exact br2_triangle]. intros r H. unfold make_bernardi_raugel2, only_default, is_default. destruct (pts_eq_dec _ _) as [E|E]; [contradiction|reflexivity].
Qed.
Print Assumptions C87_bernardi_raugel_quadratic_cells.
(** A tetrahedron with another vertex. *)
Example C87_bernardi_raugel_quadratic_cells_case : exists r, make_reference CTetrahedron [[0; 0; 0]; [1; 0; 0]; [0; 1; 0]; [0; 0; 2]] = Ok r /\ r_vertices r <> reference_vertices (r_type r).
Proof. eexists. split; [reflexivity|]. cbn. intros E. injection E as E. lra. Qed.
