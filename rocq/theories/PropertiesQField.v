(** C78: the H(div) and H(curl) elements on quadrilaterals and hexahedra. *)
From Coq Require Import String Arith Bool Reals Lia Lra List.
From Verif Require Import Base PolyLib QuadratureModel ReferencesModel ReferencesSpec CiarletModel LinAlg ElementModel UnisolvenceProofs PointsModel PointsSpec
  MomentElementsModel MomentElementsSpec QFieldSpec QFieldGeometry QFieldProofs QFieldDual.
Import ListNotations.
Local Open Scope string_scope.
Local Open Scope R_scope.
Local Open Scope list_scope.

Definition tensor_cell (d : nat) := match d with 2%nat => CQuadrilateral | _ => CHexahedron end.
(** the quadrature rules that the variant needs up to order n exist *)
Definition rules_exist (variant : string) (n : nat) : Prop :=
  variant <> "legendre" /\ variant <> "lobatto" /\ forall k, (2 <= k <= n)%nat -> exists rule, get_quadrature variant k = Ok rule.

(** * C78: Qdiv of every order on the square (d = 2) and the cube (d = 3) can be created, its space is the Raviart-Thomas space of
    the cube, get_basis_functions returns the basis of it that is dual to the degrees of freedom, and the normal component on a
    facet depends on the degrees of freedom of the facet only. *)
Theorem C78_qdiv : forall d n variant, (2 <= d <= 3)%nat -> (1 <= n)%nat -> rules_exist variant n ->
  dual_moments (make_q_field true n variant (default (tensor_cell d))) (qdiv_space d n) (d * n ^ (d - 1) * (n + 1)) /\
  q_normal_conforming (make_q_field true n variant (default (tensor_cell d))) d (qdiv_space d n).
Proof.
  intros d n variant Hd Hn (_ & _ & Hv). destruct n as [|n]; [lia|]. assert (C : d = 2%nat \/ d = 3%nat) by lia.
  destruct C as [->| ->]; exact (proj1 (q_fields_all n variant Hv _ Hd)).
Qed.
Print Assumptions C78_qdiv.
(** every order of the equispaced variant, and the first two of gll; a field of the space, none of its normal components on the
    facets where a coordinate is 0 *)
Example C78_qdiv_case : (forall n, rules_exist "equispaced" n) /\ rules_exist "gll" 2 /\ qdiv_space 2 1 (fun x => if (fst x <? 2)%nat then snd x (fst x) else 0) /\
  (forall v, on_box_facet 2 1 v -> v 0%nat = 0) /\ ~ on_box_facet 2 2 (fun _ => 0) /\ (3 * 2 ^ (3 - 1) * (2 + 1) = 36)%nat.
Proof.
  split; [intros n; split; [discriminate|]; split; [discriminate|]; intros k _; eexists; reflexivity|].
  split; [split; [discriminate|]; split; [discriminate|]; intros k Hk; assert (k = 2%nat) by lia; subst k; eexists; reflexivity|].
  split; [|split; [intros v H; exact H|split; [intros H; cbv in H; lra|reflexivity]]].
  split.
  - intros c Hc. apply (poly_space_ext _ (meval (if (c =? 0)%nat then [1; 0] else [0; 1])%nat)).
    + intros v. destruct c as [|[|c]]; [| |lia]; cbn; ring.
    + apply poly_space_mono. destruct c as [|[|c]]; [| |lia]; (split; [reflexivity|]); intros [|[|i]] Hi; cbn; lia.
  - intros c v Hc. cbn [fst]. destruct (Nat.ltb_spec c 2); [lia|reflexivity].
Qed.

(** * C78: Qcurl: the tangential components on an edge, and on a face of the cube, depend on the degrees of freedom of the edge,
    and of the face and its edges, only. *)
Theorem C78_qcurl : forall n variant, (1 <= n)%nat -> rules_exist variant n ->
  (dual_moments (make_q_field false n variant (default CQuadrilateral)) (qcurl_space 2 n) (2 * (n + 1) * n) /\
   q_tangential_conforming2 (make_q_field false n variant (default CQuadrilateral)) (qcurl_space 2 n)) /\
  (dual_moments (make_q_field false n variant (default CHexahedron)) (qcurl_space 3 n) (3 * (n + 1) ^ 2 * n) /\
   q_tangential_conforming3 (make_q_field false n variant (default CHexahedron)) (qcurl_space 3 n)).
Proof.
  intros n variant Hn (_ & _ & Hv). destruct n as [|n]; [lia|].
  destruct (q_fields_all n variant Hv 2 ltac:(lia)) as (_ & A & B & _). destruct (q_fields_all n variant Hv 3 ltac:(lia)) as (_ & A' & _ & B').
  split; (split; [|auto]).
  - replace (2 * (S n + 1) * S n)%nat with (curl_dim 2 (S n)); [exact A|]. unfold curl_dim. cbn [Nat.sub]. rewrite Nat.pow_1_r. reflexivity.
  - exact A'.
Qed.
Print Assumptions C78_qcurl.
(** the rotation about the third axis; the vertices of edge 4 of the cube are on the facet where the first coordinate is 1 *)
Example C78_qcurl_case : qcurl_space 3 1 (fun x => match fst x with O => - snd x 1%nat | S O => snd x 0%nat | _ => 0 end) /\
  on_box_facet 3 3 (box_vertex (fst (hex_edge 4))) /\ on_box_facet 3 3 (box_vertex (snd (hex_edge 4))) /\ ~ on_box_facet 3 3 (box_vertex (fst (hex_edge 0))) /\ (3 * (2 + 1) ^ 2 * 2 = 54)%nat.
Proof.
  split; [|split; [reflexivity|split; [reflexivity|split; [intros H; cbv in H; lra|reflexivity]]]]. split.
  - intros c Hc. destruct c as [|[|[|c]]]; [| | |lia].
    + apply (poly_space_ext _ (fun v => - (1) * meval [0; 1; 0]%nat v)); [intros v; cbn; ring|]. apply poly_space_scale, poly_space_mono. split; [reflexivity|]. intros [|[|[|i]]] Hi; cbn; lia.
    + apply (poly_space_ext _ (meval [1; 0; 0]%nat)); [intros v; cbn; ring|]. apply poly_space_mono. split; [reflexivity|]. intros [|[|[|i]]] Hi; cbn; lia.
    + apply poly_space_zero.
  - intros c v Hc. destruct c as [|[|[|c]]]; try lia. reflexivity.
Qed.

(** * C78: on a cell with other vertices both elements are refused. *)
Theorem C78_rejected : forall div n variant r, (1 <= n)%nat -> r_vertices r <> reference_vertices (r_type r) -> make_q_field div n variant r = Err NotImplementedError.
Proof.
  intros div n variant r Hn H. destruct n as [|n]; [lia|]. cbn [make_q_field]. unfold only_default, is_default. destruct (pts_eq_dec _ _); [contradiction|reflexivity].
Qed.
Print Assumptions C78_rejected.
Example C78_rejected_case : exists r, make_reference CQuadrilateral [[0; 0]; [2; 0]; [0; 1]; [2; 1]] = Ok r /\ r_vertices r <> reference_vertices (r_type r).
Proof.
  eexists. split; [reflexivity|]. cbn [r_vertices r_type reference_vertices]. intros H. assert (E := f_equal (fun l => nth 0 (nth 1 l []) 0) H). cbn in E. lra.
Qed.
