(** Hermite elements on every simplex: the three cells. *)
From Coquelicot Require Import Coquelicot.
From Coq Require Import String Reals ZArith Arith Bool Lia Lra List.
From Verif Require LinAlg CiarletModel CiarletProofs.
From Verif Require Import Base PolyLib PolySetsModel PolySetsProofs ReferencesModel ReferencesSpec ReferencesProofs ReferencesGeometry GeometryModel UnisolvenceProofs LagrangeProofs LagrangeKey BubbleProofs.
From Verif Require Import FunctionsModel FunctionsSpec FunctionalsModel FunctionalsSpec FunctionalsProofs FunctionalsValues MacroModel MacroUnisolvence NodalModel NodalSpec NodalProofs NodalElements HermiteProofs.
Import ListNotations.
Local Open Scope R_scope.

Definition mid_of (l : list pt) : pt := map (fun col => rsum col * 1 / INR (length col)) (zip_star l).
Definition mids (c : cell_type) (vs : list pt) : list pt :=
  match c, vs with
  | CTriangle, _ => [mid_of vs]
  | CTetrahedron, [v0; v1; v2; v3] => [mid_of [v1; v2; v3]; mid_of [v0; v2; v3]; mid_of [v0; v1; v3]; mid_of [v0; v1; v2]]
  | _, _ => []
  end.
Definition cubics (c : cell_type) : list mono := match polynomial_set_1d (tdim c) 3 with Ok l => l | _ => [] end.

Lemma default_kernel c : simplex c ->
  trivial_left (length (cubics c)) (values_of (map read (hermite_list c (reference_vertices c) (mids c (reference_vertices c)))) (map mono_expr (cubics c))).
Proof.
  intros [->|[->| ->]].
  - change (length (cubics CInterval)) with 4%nat. solve_kernel 4%nat.
  - change (length (cubics CTriangle)) with 10%nat. solve_kernel 10%nat.
  - change (length (cubics CTetrahedron)) with 20%nat. solve_kernel 20%nat.
Qed.

Ltac placed_list := unfold place, param, whole, nvert, env_of; cbn; repeat (apply (f_equal2 (@cons R)) || apply (f_equal2 (@cons (list R))) || reflexivity); cbn; unfold co; cbn; try field; try lra.
Lemma placed_vertices c vs : simplex c -> points (nvert c) (tdim c) vs -> map (place c vs) (reference_vertices c) = vs.
Proof.
  intros [->|[->| ->]] Hp; unfold nvert, tdim in Hp; cbn [reference_vertices length] in Hp; split_points Hp; placed_list.
Qed.
Lemma placed_mids c vs : simplex c -> points (nvert c) (tdim c) vs -> map (place c vs) (mids c (reference_vertices c)) = mids c vs.
Proof.
  intros [->|[->| ->]] Hp; unfold nvert, tdim in Hp; cbn [reference_vertices length] in Hp; split_points Hp; placed_list.
Qed.
Definition edge (c : cell_type) (vs : list pt) (j : nat) : list R := map (fun k => co vs (S j) k - co vs 0 k) (range (tdim c)).
Lemma placed_along c vs v j h : simplex c -> points (nvert c) (tdim c) vs -> In v (reference_vertices c) -> (j < tdim c)%nat ->
  place c vs (along v (unit_vector (tdim c) j) h) = along (place c vs v) (edge c vs j) h.
Proof.
  intros [->|[->| ->]] Hp Hv Hj; unfold nvert, tdim in Hp; cbn [reference_vertices length] in Hp; split_points Hp; cbn [reference_vertices tdim] in *;
    repeat (destruct Hv as [<-|Hv]); try contradiction; destruct j as [|[|[|j]]]; try lia;
    unfold along, unit_vector, unit_index, edge; placed_list.
Qed.

Lemma hermite_closed c vs r : simplex c -> points (nvert c) (tdim c) vs -> make_reference c vs = Ok r ->
  exists dofs, make_hermite r 3 = Ok (map mono_expr (cubics c), dofs) /\ map fst dofs = hermite_list c vs (mids c vs).
Proof.
  intros [->|[->| ->]] Hp Hr; unfold nvert, tdim in Hp; cbn [reference_vertices length] in Hp; split_points Hp; injection Hr as <-; eexists; split; reflexivity.
Qed.

Theorem hermite_dual c vs r : simplex c -> points (nvert c) (tdim c) vs -> map_det c vs <> 0 -> make_reference c vs = Ok r ->
  creates_dual_basis (make_hermite r 3) (tdim c) (length (cubics c)).
Proof.
  intros Hc Hp HD Hr. destruct (hermite_closed c vs r Hc Hp Hr) as (dofs & E & F).
  assert (El : polynomial_set_1d (tdim c) 3 = Ok (cubics c)) by (destruct Hc as [->|[->| ->]]; reflexivity).
  assert (Ll : length (hermite_list c vs (mids c vs)) = length (cubics c)).
  { clear -Hc Hp. destruct Hc as [->|[->| ->]]; unfold nvert, tdim in Hp; cbn [reference_vertices length] in Hp; split_points Hp; reflexivity. }
  assert (Fm : Forall (fun m => length m = tdim c) (mids c (reference_vertices c))) by (clear -Hc; destruct Hc as [->|[->| ->]]; repeat (apply Forall_cons; [reflexivity|]); apply Forall_nil).
  apply (element_dual _ _ _ _ _ E).
  - apply (basis_nonempty c vs _ (mids c vs) El Ll).
  - apply map_length.
  - rewrite <- (map_length fst), F. exact Ll.
  - clear -Hc. destruct Hc as [->|[->| ->]]; solve_scalar.
  - rewrite F. apply hermite_simple; [apply Hp|].
    rewrite <- (placed_mids c vs Hc Hp). apply Forall_forall. intros x Hx. apply in_map_iff in Hx. destruct Hx as (u & <- & _). unfold place. rewrite map_length. unfold range. apply seq_length.
  - rewrite F. apply (hermite_kernel c vs r Hc Hp HD Hr (cubics c) (mids c (reference_vertices c)) (mids c vs) El Ll (placed_vertices c vs Hc Hp) (placed_mids c vs Hc Hp) Fm).
    + intros v j h Hv Hj. exists (edge c vs j). split; [unfold edge; rewrite map_length; unfold range; apply seq_length|].
      split; [|intros h']; apply placed_along; assumption.
    + apply default_kernel, Hc.
Qed.
