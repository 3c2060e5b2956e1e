(** What the Bernardi-Raugel element of order 2 on the tetrahedron is required to satisfy. *)
From Coq Require Import Arith Bool Reals List.
From Verif Require Import Base PolyLib PolyVec LinAlg ReferencesModel ReferencesSpec LegendreIntSpec PointsModel PointsSpec MomentElementsModel MomentElementsSpec TransitionSpec
  BernardiModel BernardiSpec Bernardi2Model.
Import ListNotations.
Open Scope R_scope.

(** The fields: a quadratic polynomial in every component, plus for each face a multiple of its direction times the product of
    the barycentric coordinates of its vertices, plus a vector times the product of all barycentric coordinates. *)
Definition br2_space (f : component_fn) : Prop :=
  exists (p : nat -> sfun) (k m : nat -> R), (forall c, (c < 3)%nat -> P_space 3 2 (p c)) /\
    (forall c v, (c < 3)%nat -> f (c, v) = p c v + sum 4 (fun i => k i * bubble 3 (others 3 i) v * facet_direction i c) + m c * bubble 3 [0; 1; 2; 3]%nat v) /\
    (forall c v, (3 <= c)%nat -> f (c, v) = 0).
(** [value] is the value of the functional at the field; in a moment of the divergence, the derivatives are given by g. *)
Definition br2_value (l : br2_dof) (f : component_fn) (value : R) : Prop :=
  match l with
  | BrLow l => br_value l f value
  | BrDiv m => exists g : nat -> sfun, (forall c v, (c < 3)%nat -> is_partial c (fun v => f (c, v)) v (g c v)) /\
      iterated_integral (mo_limits m) (fun t => sum 3 (fun c => g c (point_of (mo_domain m) t)) * mo_f m (0%nat, t) * mo_jacobian m) (fun _ => 0) value
  end.
(** The element could be created, with K degrees of freedom; get_basis_functions returns the basis of the space W that is
    dual to the degrees of freedom, and W is determined by the degrees of freedom. *)
Definition dual_br2 (made : res br2_element) (W : component_fn -> Prop) (K : nat) : Prop :=
  exists poly dofs phi, made = Ok (poly, dofs) /\ br2_basis (poly, dofs) = Ok phi /\ length dofs = K /\ length phi = K /\
  (forall i j l g, nth_error dofs i = Some l -> nth_error phi j = Some g -> br2_value l g (if (i =? j)%nat then 1 else 0)) /\
  (forall g, In g phi -> W g) /\
  (forall f, W f -> exists a, (forall i l, nth_error dofs i = Some l -> br2_value l f (a i)) /\
     forall x, f x = sum K (fun i => a i * nth i phi (fun _ => 0) x)).
(** H(div) conformity: if the degrees of freedom of a face vanish, so does the normal component there. *)
Definition br2_conforming (made : res br2_element) (W : component_fn -> Prop) : Prop :=
  exists poly dofs, made = Ok (poly, dofs) /\
  forall i f, (i < 4)%nat -> W f -> (forall l, In l dofs -> br2_entity l = (2, i)%nat -> br2_value l f 0) ->
    forall v, on_facet 3 i v -> sum 3 (fun c => f (c, v) * facet_direction i c) = 0.
(** The middle of two vertices of the reference tetrahedron. *)
Definition middle_point (a b : nat) : point := env_of (map (fun c => (vertex a c + vertex b c) / 2) (seq 0 3)).
(** The functionals besides those of order 1: the values of the component in the direction N, the direction of the face or its
    negative, at the middles of the edges of a face; the component along an edge at its middle; the integral over the cell of
    the divergence times a coordinate. *)
Definition br2_functionals (l : br2_dof) : Prop :=
  (exists l' i, (i < 4)%nat /\ l = BrLow l' /\ br2_entity l = (2, i)%nat /\
     exists s, (s = 1 \/ s = -1) /\
     ((exists a, In a (others 3 i) /\ forall f value, br2_value l f value <-> value = s * sum 3 (fun c => f (c, env_of (map (vertex a) (seq 0 3))) * facet_direction i c)) \/
      (exists a b, In a (others 3 i) /\ In b (others 3 i) /\ (a < b)%nat /\ forall f value, br2_value l f value <-> value = s * sum 3 (fun c => f (c, middle_point a b) * facet_direction i c)) \/
      (exists lims, integration_limits CTriangle = Ok lims /\ forall f value, br2_space f ->
         (br2_value l f value <-> iterated_integral lims (fun t => s * sum 3 (fun c => f (c, facet_point 3 i t) * facet_direction i c)) (fun _ => 0) value)))) \/
  (exists a b e, (e < 6)%nat /\ tet_edge e = (a, b) /\ br2_entity l = (1, e)%nat /\
     forall f value, br2_value l f value <-> value = sum 3 (fun c => f (c, middle_point a b) * (vertex b c - vertex a c))) \/
  (exists k lims, (k < 3)%nat /\ br2_entity l = (3, 0)%nat /\ integration_limits CTetrahedron = Ok lims /\
     forall f value, br2_space f -> (br2_value l f value <-> exists g : nat -> sfun, (forall c v, (c < 3)%nat -> is_partial c (fun v => f (c, v)) v (g c v)) /\
       iterated_integral lims (fun t => sum 3 (fun c => g c t) * t k) (fun _ => 0) value)).
