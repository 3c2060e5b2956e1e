(** Property C87: Bernardi-Raugel elements of order 1. *)
From Coq Require Import Arith Bool Reals Lia Lra List.
From Verif Require Import Base PolyLib LinAlg UnisolvenceProofs ReferencesModel ReferencesSpec LegendreIntSpec PointsModel PointsSpec MomentElementsModel MomentElementsSpec MomentsFacets
  TransitionSpec BernardiModel BernardiSpec BernardiProofs.
Import ListNotations.
Open Scope R_scope.

(** The cells on which the element is defined. *)
Definition br_cell (d : nat) (c : cell_type) : Prop := (d = 2%nat /\ c = CTriangle) \/ (d = 3%nat /\ c = CTetrahedron).

(** The basis functions returned are the basis, dual to the (d + 1)^2 degrees of freedom, of the space of the linear fields and
    the bubbles of the facets. *)
Theorem C87_bernardi_raugel_basis : forall d c, br_cell d c -> dual_br (make_bernardi_raugel (default c)) (br_space d) ((d + 1) * (d + 1)).
Proof. intros d c [[-> ->]|[-> ->]]; [apply (br_dual 2); lia|apply (br_dual 3); lia]. Qed.
Print Assumptions C87_bernardi_raugel_basis.
(** The element on the tetrahedron has 16 basis functions. *)
Example C87_bernardi_raugel_basis_case : exists poly dofs phi, make_bernardi_raugel (default CTetrahedron) = Ok (poly, dofs) /\ br_basis (poly, dofs) = Ok phi /\ length dofs = 16%nat /\ length phi = 16%nat.
Proof.
  destruct (C87_bernardi_raugel_basis 3 CTetrahedron (or_intror (conj eq_refl eq_refl))) as (poly & dofs & phi & H1 & H2 & H3 & H4 & _). exists poly, dofs, phi. auto.
Qed.

(** The normal component on a facet is determined by the degrees of freedom of that facet. *)
Theorem C87_bernardi_raugel_conforming : forall d c, br_cell d c -> br_conforming (make_bernardi_raugel (default c)) d (br_space d).
Proof. intros d c [[-> ->]|[-> ->]]; [apply (br_normal 2); lia|apply (br_normal 3); lia]. Qed.
Print Assumptions C87_bernardi_raugel_conforming.
(** The bubble of the second facet of the triangle is in the space and not zero; it has no normal component on the first. *)
Example C87_bernardi_raugel_conforming_case : let f := fun cv : nat * point => if (fst cv =? 0)%nat then snd cv 1%nat * (1 - snd cv 0%nat - snd cv 1%nat) else 0 in
  br_space 2 f /\ f (0%nat, fun _ => 1 / 4) <> 0 /\ forall v, on_facet 2 0 v -> sum 2 (fun c => f (c, v) * facet_direction 0 c) = 0.
Proof.
  intros f. split; [|split].
  - exists (fun _ _ => 0), (fun i => if (i =? 1)%nat then 1 else 0). split; [intros; apply poly_space_zero|]. split.
    + intros [|[|c]] v Hc; try lia; unfold f, bubble; cbn; ring.
    + intros c v Hc. unfold f. destruct c; [lia|]. reflexivity.
  - unfold f. cbn. lra.
  - intros v Hv. cbn in Hv. unfold f. cbn. replace (1 - v 0%nat - v 1%nat) with 0 by lra. ring.
Qed.

(** Every degree of freedom belongs to a facet, and is the value of the normal component at one of its vertices or the
    integral of the normal component over it. *)
Theorem C87_bernardi_raugel_functionals : forall d c, br_cell d c -> exists poly dofs, make_bernardi_raugel (default c) = Ok (poly, dofs) /\
  forall l, In l dofs -> exists i, (i < d + 1)%nat /\ br_entity l = ((d - 1)%nat, i) /\ br_functionals d i l.
Proof. intros d c [[-> ->]|[-> ->]]; [apply (br_dof_values 2); lia|apply (br_dof_values 3); lia]. Qed.
Print Assumptions C87_bernardi_raugel_functionals.
(** The facets of the tetrahedron and a point of the first. *)
Example C87_bernardi_raugel_functionals_case : others 3 0 = [1; 2; 3]%nat /\ others 3 2 = [0; 1; 3]%nat /\
  forall c, (c < 3)%nat -> facet_point 3 0 (fun _ => 1 / 3) c = 1 / 3.
Proof. split; [reflexivity|]. split; [reflexivity|]. intros [|[|[|c]]] Hc; try lia; unfold facet_point; cbn; lra. Qed.

(** On any other cell than the default ones the constructor raises NonDefaultReferenceError. *)
Theorem C87_bernardi_raugel_default_only : forall r, r_vertices r <> reference_vertices (r_type r) -> make_bernardi_raugel r = Err NotImplementedError.
Proof.
  intros r H. unfold make_bernardi_raugel, only_default. unfold is_default. destruct (pts_eq_dec _ _) as [E|E]; [contradiction|reflexivity].
Qed.
Print Assumptions C87_bernardi_raugel_default_only.
(** A triangle with another vertex. *)
Example C87_bernardi_raugel_default_only_case : exists r, make_reference CTriangle [[0; 0]; [2; 0]; [0; 1]] = Ok r /\ r_vertices r <> reference_vertices (r_type r).
Proof. eexists. split; [reflexivity|]. cbn. intros E. injection E as E. lra. Qed.
