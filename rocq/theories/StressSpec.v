(** What the functions given to the Arnold-Winther, nonconforming Arnold-Winther and Mardal-Tai-Winther elements
    (FamiliesModel.v) are required to be. *)
From Coq Require Import Arith Reals List.
From Verif Require Import Base PolyLib PolyVec PolySetsModel ReferencesSpec LinAlg CiarletProofs PointsModel PointsSpec.
Import ListNotations.
Open Scope R_scope.

(** The list X is a basis of the space W of fields. *)
Definition basis_of_fields (X : list vpoly) (W : component_fn -> Prop) : Prop :=
  (forall F, In F X -> W (field F)) /\
  (forall c, (forall x, sum (length X) (fun i => c i * field (nth i X []) x) = 0) -> forall i, (i < length X)%nat -> c i = 0) /\
  (forall f, W f -> exists c, forall x, f x = sum (length X) (fun i => c i * field (nth i X []) x)).

(** Symmetric 2 x 2 matrices (components 0, 1 are the first row and 2, 3 the second) whose entries are polynomials of degree at
    most n in the plane. *)
Definition symmetric_fields (n : nat) (f : component_fn) : Prop :=
  (forall c, (c < 4)%nat -> P_space 2 n (fun v => f (c, v))) /\ (forall v, f (1%nat, v) = f (2%nat, v)) /\ (forall c v, (4 <= c)%nat -> f (c, v) = 0).
(** The polynomial of degree at most n that is the divergence of a pair of functions. *)
Definition divergence_in (n : nat) (f g : sfun) : Prop :=
  exists h, P_space 2 n h /\ forall v, exists a b, is_partial 0 f v a /\ is_partial 1 g v b /\ h v = a + b.
(** The Arnold-Winther space of order n: degree n, with a (row-wise) divergence of degree n - 2. *)
Definition arnold_winther_space (n : nat) (f : component_fn) : Prop :=
  symmetric_fields n f /\ divergence_in (n - 2) (fun v => f (0%nat, v)) (fun v => f (1%nat, v)) /\ divergence_in (n - 2) (fun v => f (2%nat, v)) (fun v => f (3%nat, v)).

(** The edges of the triangle with vertices (0, 0), (1, 0), (0, 1): the points at parameter t, and a normal. *)
Definition triangle_edge (e : nat) (t : R) : point := fun i =>
  match e, i with
  | O, O => 1 - t | O, S O => t
  | S O, O => 0 | S O, S O => t
  | S (S O), O => t | S (S O), S O => 0
  | _, _ => 0 end.
Definition edge_normal (e i : nat) : R :=
  match e, i with O, _ => 1 | S O, O => 1 | S (S O), S O => 1 | _, _ => 0 end.
(** A function of one parameter of the form p + q t. *)
Definition affine (f : R -> R) : Prop := exists p q, forall t, f t = p + q * t.
(** The nonconforming Arnold-Winther space: degree 2, with a normal-normal component of degree 1 on every edge. *)
Definition nonconforming_space (f : component_fn) : Prop :=
  symmetric_fields 2 f /\
  forall e, (e < 3)%nat -> affine (fun t => sum 2 (fun i => sum 2 (fun j => edge_normal e i * f ((2 * i + j)%nat, triangle_edge e t) * edge_normal e j))).
(** The Mardal-Tai-Winther space on the triangle: fields of degree 3, with constant divergence, and a normal component of degree 1
    on every edge. *)
Definition mardal_tai_winther_space (f : component_fn) : Prop :=
  (forall c, (c < 2)%nat -> P_space 2 3 (fun v => f (c, v))) /\ (forall c v, (2 <= c)%nat -> f (c, v) = 0) /\
  divergence_in 0 (fun v => f (0%nat, v)) (fun v => f (1%nat, v)) /\
  forall e, (e < 3)%nat -> affine (fun t => sum 2 (fun i => edge_normal e i * f (i, triangle_edge e t))).
