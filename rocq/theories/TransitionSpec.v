(** What the transition element is required to satisfy. *)
From Coq Require Import Arith Reals List.
From Verif Require Import Base PolyLib LinAlg ReferencesModel ReferencesSpec PointsSpec.
Import ListNotations.
Open Scope R_scope.

(** The barycentric coordinates of the reference simplex in d dimensions. *)
Definition bary (d i : nat) (v : point) : R :=
  match i with O => 1 - sum d v | S j => v j end.
(** The product of the barycentric coordinates of some vertices. *)
Definition bubble (d : nat) (E : list nat) (v : point) : R := fold_right (fun i a => bary d i v * a) 1 E.
(** The coordinates of a point with respect to the vertices of a sub-entity other than the first one. *)
Definition coords (d : nat) (E : list nat) (v : point) : point := fun i => bary d (nth (S i) E 0%nat) v.

(** A sub-entity of dimension k with number e, its vertices and its order. *)
Record block := { b_dim : nat; b_number : nat; b_vertices : list nat; b_order : nat }.
(** The sub-entities of the triangle and of the tetrahedron (all but the vertices) with their orders. *)
Definition blocks (c : cell_type) (order : nat) (eo fo : list nat) : list block :=
  let edge e E := {| b_dim := 1; b_number := e; b_vertices := E; b_order := nth e eo 0%nat |} in
  let face e E := {| b_dim := 2; b_number := e; b_vertices := E; b_order := nth e fo 0%nat |} in
  match c with
  | CTriangle => [edge 0 [1; 2]; edge 1 [0; 2]; edge 2 [0; 1]; {| b_dim := 2; b_number := 0; b_vertices := [0; 1; 2]; b_order := order |}]
  | CTetrahedron =>
      [edge 0 [2; 3]; edge 1 [1; 3]; edge 2 [1; 2]; edge 3 [0; 3]; edge 4 [0; 2]; edge 5 [0; 1];
       face 0 [1; 2; 3]; face 1 [0; 2; 3]; face 2 [0; 1; 3]; face 3 [0; 1; 2];
       {| b_dim := 3; b_number := 0; b_vertices := [0; 1; 2; 3]; b_order := order |}]
  | _ => []
  end%nat.
(** What a sub-entity of dimension k and order n contributes besides its bubble: polynomials of degree n - k - 1. *)
Definition inner_space (k n : nat) (q : sfun) : Prop :=
  if (k <? n)%nat then P_space k (n - k - 1) q else forall v, q v = 0.
(** The space: sums of a linear function and, for each sub-entity, of its bubble times a polynomial in its coordinates. *)
Definition transition_space (d : nat) (bs : list block) (f : sfun) : Prop :=
  exists a (q : list nat -> sfun), P_space d 1 a /\
  (forall b, In b bs -> inner_space (b_dim b) (b_order b) (q (b_vertices b))) /\
  forall v, f v = a v + sumR (map (fun b => bubble d (b_vertices b) v * q (b_vertices b) (coords d (b_vertices b) v)) bs).
(** The number of inner degrees of freedom of a sub-entity of dimension k and order n. *)
Definition inner_count (k n : nat) : nat :=
  match k with
  | 1 => n - 1
  | 2 => (n - 1) * (n - 2) / 2
  | _ => (n - 1) * (n - 2) * (n - 3) / 6
  end%nat.

(** The element is defined on triangles and tetrahedra. *)
Definition transition_cell (c : cell_type) : Prop := c = CTriangle \/ c = CTetrahedron.
(** One order for each edge, and on tetrahedra one for each face; on triangles the argument for the faces is None. *)
Definition proper_orders (c : cell_type) (eo fo : list nat) : Prop :=
  length eo = length (edges c) /\ (c = CTetrahedron -> length fo = 4%nat).
Definition face_argument (c : cell_type) (fo : list nat) : option (list nat) := match c with CTriangle => None | _ => Some fo end.
(** The points of the plane through the points of vs with the numbers of E: the first plus a combination of the differences. *)
Definition on_entity (vs : list (list R)) (E : list nat) (s : point) : point :=
  let co i j := nth j (nth i vs []) 0 in
  fun j => co (nth 0 E 0%nat) j + sum (length E - 1) (fun i => s i * (co (nth (S i) E 0%nat) j - co (nth 0 E 0%nat) j)).
(** The space on the cell with the vertices vs: the functions of the space on the reference cell, moved by the affine map. *)
Definition transition_space_on (c : cell_type) (vs : list (list R)) (bs : list block) (f : sfun) : Prop :=
  exists g, transition_space (tdim c) bs g /\
  forall X v, (forall j, (j < tdim c)%nat -> v j = on_entity vs (seq 0 (S (tdim c))) X j) -> f v = g X.
