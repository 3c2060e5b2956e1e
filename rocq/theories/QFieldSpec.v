(** What the H(div) and H(curl) elements on quadrilaterals and hexahedra (make_q_field of MomentElementsModel.v) are required to
    satisfy. *)
From Coq Require Import Arith Bool Reals List.
From Verif Require Import Base PolyLib LinAlg ReferencesModel ReferencesSpec PointsModel PointsSpec MomentElementsModel MomentElementsSpec.
Import ListNotations.
Open Scope R_scope.

(** The space of Raviart-Thomas fields on the cube: component c is a polynomial of degree at most n in variable c and at most
    n - 1 in each other variable. *)
Definition qdiv_space (d n : nat) (f : component_fn) : Prop :=
  (forall c, (c < d)%nat -> poly_space (fun m => length m = d /\ forall i, (i < d)%nat -> (nth i m 0 <= if i =? c then n else n - 1)%nat) (fun v => f (c, v))) /\
  (forall c v, (d <= c)%nat -> f (c, v) = 0).
(** The space of Nedelec fields on the cube: component c is a polynomial of degree at most n - 1 in variable c and at most n in
    each other variable. *)
Definition qcurl_space (d n : nat) (f : component_fn) : Prop :=
  (forall c, (c < d)%nat -> poly_space (fun m => length m = d /\ forall i, (i < d)%nat -> (nth i m 0 <= if i =? c then n - 1 else n)%nat) (fun v => f (c, v))) /\
  (forall c v, (d <= c)%nat -> f (c, v) = 0).

(** The facets of the unit square and cube in their order: the variable that is fixed on the facet, and its value.  On facets 0 to
    d - 1 the last to the first variable is 0, on facets d to 2d - 1 the first to the last is 1. *)
Definition box_facet (d i : nat) : nat * R := if (i <? d)%nat then ((d - 1 - i)%nat, 0) else ((i - d)%nat, 1).
Definition on_box_facet (d i : nat) (v : point) : Prop := v (fst (box_facet d i)) = snd (box_facet d i).
(** H(div) conformity: if the degrees of freedom of a facet vanish, so does the normal component there. *)
Definition q_normal_conforming (made : res moment_element) (d : nat) (W : component_fn -> Prop) : Prop :=
  exists poly dofs, made = Ok (poly, dofs) /\
  forall i f, (i < 2 * d)%nat -> W f -> (forall m, In m dofs -> mo_entity m = ((d - 1)%nat, i) -> moment_value m f 0) ->
    forall v, on_box_facet d i v -> f (fst (box_facet d i), v) = 0.
(** H(curl) conformity on the square: if the degrees of freedom of an edge vanish, so does the tangential component there. *)
Definition q_tangential_conforming2 (made : res moment_element) (W : component_fn -> Prop) : Prop :=
  exists poly dofs, made = Ok (poly, dofs) /\
  forall i f, (i < 4)%nat -> W f -> (forall m, In m dofs -> mo_entity m = (1%nat, i) -> moment_value m f 0) ->
    forall v, on_box_facet 2 i v -> f ((1 - fst (box_facet 2 i))%nat, v) = 0.

(** The vertices of the cube, and the vertices of its edges in their order. *)
Definition box_vertex (a c : nat) : R := if Nat.testbit a c then 1 else 0.
Definition hex_edge (e : nat) : nat * nat :=
  nth e [(0, 1); (0, 2); (0, 4); (1, 3); (1, 5); (2, 3); (2, 6); (3, 7); (4, 5); (4, 6); (5, 7); (6, 7)]%nat (0, 0)%nat.
Definition on_box_line (a b : nat) (s : R) : point := fun c => box_vertex a c + s * (box_vertex b c - box_vertex a c).
(** H(curl) conformity on the cube: if the degrees of freedom of an edge vanish, so does the tangential component there; if those
    of a face and of the edges with both vertices on the face vanish, so do both tangential components on the face. *)
Definition q_tangential_conforming3 (made : res moment_element) (W : component_fn -> Prop) : Prop :=
  exists poly dofs, made = Ok (poly, dofs) /\
  (forall e f, (e < 12)%nat -> W f -> (forall m, In m dofs -> mo_entity m = (1%nat, e) -> moment_value m f 0) ->
     forall s, sum 3 (fun c => f (c, on_box_line (fst (hex_edge e)) (snd (hex_edge e)) s) * (box_vertex (snd (hex_edge e)) c - box_vertex (fst (hex_edge e)) c)) = 0) /\
  (forall i f, (i < 6)%nat -> W f -> (forall m, In m dofs -> mo_entity m = (2%nat, i) -> moment_value m f 0) ->
     (forall e m, (e < 12)%nat -> on_box_facet 3 i (box_vertex (fst (hex_edge e))) -> on_box_facet 3 i (box_vertex (snd (hex_edge e))) ->
        In m dofs -> mo_entity m = (1%nat, e) -> moment_value m f 0) ->
     forall c v, (c < 3)%nat -> c <> fst (box_facet 3 i) -> on_box_facet 3 i v -> f (c, v) = 0).
