(** What the constructors of FamiliesModel should give: the dimension of each space in closed form and the
    sub-entities that a cell has, written without the model's functions. *)
From Coq Require Import ZArith Arith List.
From Verif Require Import Base ReferencesModel FamiliesModel.
Import ListNotations.
Local Open Scope nat_scope.

(** The numbers of vertices, edges, faces and volumes of the cells. *)
Definition entity_numbers (c : cell_type) : list nat :=
  match c with
  | CInterval => [2; 1]
  | CTriangle => [3; 3; 1] | CQuadrilateral => [4; 4; 1]
  | CTetrahedron => [4; 6; 4; 1] | CHexahedron => [8; 12; 6; 1] | CPrism => [6; 9; 5; 1]
  | _ => []
  end.
(** (dimension, number) is a sub-entity of the cell. *)
Definition on_cell (c : cell_type) (e : Z * nat) : Prop :=
  exists d, fst e = Z.of_nat d /\ snd e < nth d (entity_numbers c) 0.

(** Six times the dimension of the space of the given order (three of the dimensions are thirds or sixths of
    products).  Subtractions that would be negative are 0. *)
Definition six_dim (f : family) (c : cell_type) (n : nat) : nat :=
  let p : nat := match c with
    | CInterval => 6 * (n + 1)
    | CTriangle | CQuadrilateral => 3 * ((n + 1) * (n + 2))
    | _ => (n + 1) * (n + 2) * (n + 3)
    end in
  match f, c with
  | (Lagrange | DPC | Taylor), _ => p
  | VectorLagrange, CInterval => p
  | (VectorLagrange | VectorDPC | NedelecSecondKind | BDM), (CTriangle | CQuadrilateral) => 2 * p
  | (VectorLagrange | VectorDPC | NedelecSecondKind | BDM), _ => 3 * p
  | MatrixLagrange, CTriangle => 4 * p
  | MatrixLagrange, _ => 9 * p
  | (SymmetricMatrixLagrange | Regge | HellanHerrmannJohnson), CTriangle => 3 * p
  | (SymmetricMatrixLagrange | Regge | HellanHerrmannJohnson), _ => 6 * p
  | (RaviartThomas | NedelecFirstKind), CTriangle => 6 * (n * (n + 2))
  | RaviartThomas, _ => 3 * (n * (n + 1) * (n + 3))
  | NedelecFirstKind, _ => 3 * (n * (n + 2) * (n + 3))
  | BDFM, CTriangle => 6 * (n * (n + 3) - 1)
  | BDFM, CTetrahedron => 12 * (n * (n + 1)) + 3 * ((n - 1) * (n + 1) * (n + 2))
  | BDFM, CQuadrilateral => 6 * (n * (n + 3))
  | BDFM, _ => 3 * (n * (n + 1) * (n + 5))
  | Q, CQuadrilateral => 6 * (n + 1) ^ 2
  | Q, _ => 6 * (n + 1) ^ 3
  | VectorQ, CQuadrilateral => 12 * (n + 1) ^ 2
  | VectorQ, _ => 18 * (n + 1) ^ 3
  | (QNedelec | QRaviartThomas), CQuadrilateral => 12 * (n * (n + 1))
  | QNedelec, _ => 18 * (n * (n + 1) ^ 2)
  | QRaviartThomas, _ => 18 * (n ^ 2 * (n + 1))
  | Serendipity, CInterval => p
  | Serendipity, CQuadrilateral => 24 * n + 3 * ((n - 3) * (n - 2))
  | Serendipity, _ => 48 + 72 * (n - 1) + 18 * ((n - 3) * (n - 2)) + (n - 5) * (n - 4) * (n - 3)
  | (SerendipityCurl | SerendipityDiv), CQuadrilateral => 24 * (n + 1) + 6 * ((n - 1) * n)
  | SerendipityCurl, _ => 72 * (n + 1) + 36 * ((n - 1) * n) + 3 * ((n - 3) * (n - 2) * (n - 1))
  | (SerendipityDiv | BDDF), _ => 18 * ((n + 1) * (n + 2)) + 3 * ((n - 1) * n * (n + 1))
  | (TrimmedSerendipityHcurl | TrimmedSerendipityHdiv), CQuadrilateral =>
      match n with 1 => 24 | _ => 6 * (n * n + 2 * n + 2) end
  | TrimmedSerendipityHcurl, _ => match n with 1 => 72 | 2 => 216 | _ => 396 end
  | TrimmedSerendipityHdiv, _ =>
      match n with 1 => 36 | _ => 21 * (n * (n + 1)) + 3 * ((n - 2) * (n - 1) * n) end
  | ArnoldBoffiFalk, _ => 12 * ((n + 1) * (n + 3))
  | ArbogastCorrea, _ => match n with 0 => 24 | _ => 6 * (n * n + 4 * n + 5) end
  | MardalTaiWinther, CTriangle => 54
  | MardalTaiWinther, _ => 144
  | NedelecPrism, _ => 9 * (n * (n + 1) * (n + 2))
  | LagrangePrism, _ => 3 * ((n + 1) * (n + 1) * (n + 2))
  | VectorLagrangePrism, _ => 9 * ((n + 1) * (n + 1) * (n + 2))
  | ReggeTP, CQuadrilateral => 6 * ((n + 1) * (3 * n + 5))
  | ReggeTP, _ => 18 * ((n + 1) * (n + 2) * (2 * n + 3))
  | HuangZhang, _ => 12 * (n * (n + 1))
  | ArnoldWinther, _ => 9 * (n * (n + 1)) + 6 * (n + 3)
  | NonConformingArnoldWinther, _ => 90
  end.

(** What is claimed of an element: it exists, the number of functions is the dimension of the space, there are as many
    degrees of freedom, and each of them is on a sub-entity that the cell has. *)
Definition good_element (x : res fe) (f : family) (c : cell_type) (n : nat) : Prop :=
  exists e, x = Ok e /\ 6 * length (fe_poly e) = six_dim f c n /\ length (fe_dofs e) = length (fe_poly e) /\
    Forall (fun d => on_cell c (f_entity d)) (fe_dofs e).
Definition admissible (f : family) (n : nat) : Prop :=
  min_order f <= n /\ match max_order f with Some m => n <= m | None => True end.
