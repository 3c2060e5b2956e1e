(** What the elements of MomentElementsModel.v are required to satisfy. *)
From Coq Require Import Arith Reals List.
From Verif Require Import Base PolyLib LinAlg ReferencesModel ReferencesSpec LegendreIntSpec PointsModel PointsSpec MomentElementsModel.
Import ListNotations.
Open Scope R_scope.

(** The point of a domain with coordinates t: its origin plus the axes times t. *)
Definition point_of (domain : reference) (t : point) : point :=
  fun i => nth i (r_origin domain) 0 + sum (length (r_axes domain)) (fun j => nth i (nth j (r_axes domain) []) 0 * t j).
(** [value] is the integral over the domain of the scalar product of the field with the function of the moment. *)
Definition moment_value (m : moment_dof) (f : component_fn) (value : R) : Prop :=
  iterated_integral (mo_limits m)
    (fun t => sum (gdim (mo_domain m)) (fun c => f (c, point_of (mo_domain m) t) * mo_f m (c, t)) * mo_jacobian m) (fun _ => 0) value.

(** The element could be created, with K degrees of freedom; get_basis_functions returns the basis of the space W that is
    dual to the degrees of freedom, and W is determined by the degrees of freedom. *)
Definition dual_moments (made : res moment_element) (W : component_fn -> Prop) (K : nat) : Prop :=
  exists poly dofs phi, made = Ok (poly, dofs) /\ moment_basis (poly, dofs) = Ok phi /\ length dofs = K /\ length phi = K /\
  (forall i j d g, nth_error dofs i = Some d -> nth_error phi j = Some g -> moment_value d g (if (i =? j)%nat then 1 else 0)) /\
  (forall g, In g phi -> W g) /\
  (forall f, W f -> exists a, (forall i d, nth_error dofs i = Some d -> moment_value d f (a i)) /\
     forall x, f x = sum K (fun i => a i * nth i phi (fun _ => 0) x)).

(** Raviart-Thomas fields: a polynomial of degree at most n - 1 in every component, plus the position times a homogeneous
    polynomial of degree n - 1. *)
Definition rt_space (d n : nat) (f : component_fn) : Prop :=
  exists (p : nat -> sfun) (h : sfun), (forall c, (c < d)%nat -> P_space d (n - 1) (p c)) /\ poly_space (fun m => length m = d /\ mdeg m = (n - 1)%nat) h /\
    (forall c v, (c < d)%nat -> f (c, v) = p c v + v c * h v) /\ (forall c v, (d <= c)%nat -> f (c, v) = 0).

(** The directions of the facets of the reference simplex: facet 0 is where the sum of the coordinates is 1, facet i + 1 where
    coordinate i is 0. *)
Definition facet_direction (i c : nat) : R := match i with O => 1 | S j => if (c =? j)%nat then 1 else 0 end.
(** The points of the facets. *)
Definition on_facet (d i : nat) (v : point) : Prop := match i with O => sum d v = 1 | S j => v j = 0 end.
(** H(div) conformity: if the degrees of freedom of a facet vanish, so does the normal component there. *)
Definition normal_conforming (made : res moment_element) (d : nat) (W : component_fn -> Prop) : Prop :=
  exists poly dofs, made = Ok (poly, dofs) /\
  forall i f, (i < d + 1)%nat -> W f -> (forall m, In m dofs -> mo_entity m = ((d - 1)%nat, i) -> moment_value m f 0) ->
    forall v, on_facet d i v -> sum d (fun c => f (c, v) * facet_direction i c) = 0.
(** The dimension of this space. *)
Definition rt_dim (d n : nat) : nat := match d with 2 => n * (n + 2) | _ => n * (n + 1) * (n + 3) / 2 end%nat.

(** Nedelec fields of the first kind: a polynomial of degree at most n - 1 in every component, plus a field that is
    homogeneous of degree n and orthogonal to the position everywhere. *)
Definition nedelec_space (d n : nat) (f : component_fn) : Prop :=
  exists p s : nat -> sfun, (forall c, (c < d)%nat -> P_space d (n - 1) (p c)) /\ (forall c, (c < d)%nat -> poly_space (fun m => length m = d /\ mdeg m = n) (s c)) /\
    (forall v, sum d (fun c => v c * s c v) = 0) /\
    (forall c v, (c < d)%nat -> f (c, v) = p c v + s c v) /\ (forall c v, (d <= c)%nat -> f (c, v) = 0).
(** H(curl) conformity on the triangle: if the degrees of freedom of an edge vanish, so does the tangential component there. *)
Definition tangential_conforming2 (made : res moment_element) (W : component_fn -> Prop) : Prop :=
  exists poly dofs, made = Ok (poly, dofs) /\
  forall i f, (i < 3)%nat -> W f -> (forall m, In m dofs -> mo_entity m = (1%nat, i) -> moment_value m f 0) ->
    forall v, on_facet 2 i v -> f (1%nat, v) * facet_direction i 0 - f (0%nat, v) * facet_direction i 1 = 0.

(** The vertices of the reference tetrahedron, and the vertices of its edges in their order. *)
Definition vertex (a c : nat) : R := match a with O => 0 | S i => if (c =? i)%nat then 1 else 0 end.
Definition tet_edge (e : nat) : nat * nat := nth e [(2, 3); (1, 3); (1, 2); (0, 3); (0, 2); (0, 1)]%nat (0, 0)%nat.
(** The points of the line through two vertices; [vanishes_along] says that the tangential component of the field vanishes
    on it. *)
Definition on_line (a b : nat) (s : R) : point := fun c => vertex a c + s * (vertex b c - vertex a c).
Definition vanishes_along (f : component_fn) (a b : nat) : Prop := forall s, sum 3 (fun c => f (c, on_line a b s) * (vertex b c - vertex a c)) = 0.
(** H(curl) conformity on the tetrahedron: if the degrees of freedom of an edge vanish, so does the tangential component there;
    if those of a face and of its edges (those that do not meet the vertex opposite to the face) vanish, so do the tangential
    components on the face. *)
Definition tangential_conforming3 (made : res moment_element) (W : component_fn -> Prop) : Prop :=
  exists poly dofs, made = Ok (poly, dofs) /\
  (forall e f, (e < 6)%nat -> W f -> (forall m, In m dofs -> mo_entity m = (1%nat, e) -> moment_value m f 0) ->
     vanishes_along f (fst (tet_edge e)) (snd (tet_edge e))) /\
  (forall i f, (i < 4)%nat -> W f -> (forall m, In m dofs -> mo_entity m = (2%nat, i) -> moment_value m f 0) ->
     (forall e m, (e < 6)%nat -> fst (tet_edge e) <> i -> snd (tet_edge e) <> i -> In m dofs -> mo_entity m = (1%nat, e) -> moment_value m f 0) ->
     forall v u, on_facet 3 i v -> sum 3 (fun c => u c * facet_direction i c) = 0 -> sum 3 (fun c => f (c, v) * u c) = 0).
