(** What the elements of PointsModel.v are required to satisfy. *)
From Coq Require Import Arith Reals List.
From Verif Require Import Base PolyLib LinAlg ReferencesModel ReferencesSpec PointsModel.
Import ListNotations.
Open Scope R_scope.

(** The value of a degree of freedom: the scalar product of the vector with the value at the point. *)
Definition dof_value (d : dot_dof) (f : component_fn) : R :=
  let '(p, u, _) := d in sum (length u) (fun c => nth c u 0 * f (c, fun i => nth i p 0)).

(** Fields with N components, all in the space V. *)
Definition fields (N : nat) (V : sfun -> Prop) (f : component_fn) : Prop :=
  (forall c, (c < N)%nat -> V (fun v => f (c, v))) /\ (forall c v, (N <= c)%nat -> f (c, v) = 0).
(** Symmetric matrices of size d, with all entries in the space V. *)
Definition symmetric_matrices (d : nat) (V : sfun -> Prop) (f : component_fn) : Prop :=
  fields (d * d) V f /\ forall i j v, (i < d)%nat -> (j < d)%nat -> f ((d * i + j)%nat, v) = f ((d * j + i)%nat, v).

(** The element could be created, with K degrees of freedom; get_basis_functions returns the basis of the space W that is
    dual to the degrees of freedom, and W is determined by the degrees of freedom. *)
Definition dual_element (made : res vector_element) (W : component_fn -> Prop) (K : nat) : Prop :=
  exists poly dofs phi, made = Ok (poly, dofs) /\ element_basis (poly, dofs) = Ok phi /\ length dofs = K /\ length phi = K /\
  (forall i j d g, nth_error dofs i = Some d -> nth_error phi j = Some g -> dof_value d g = if (i =? j)%nat then 1 else 0) /\
  (forall g, In g phi -> W g) /\
  (forall f, W f -> forall x, f x = sum K (fun i => dof_value (nth i dofs ([], [], (0, 0)%nat)) f * nth i phi (fun _ => 0) x)).

(** Every degree of freedom is at a point inside its entity. *)
Definition located (r : reference) (made : res vector_element) : Prop :=
  exists poly dofs, made = Ok (poly, dofs) /\
  forall p u k e, In (p, u, (k, e)) dofs ->
    exists tab E, sub_entities r k = Ok tab /\ nth_error tab e = Some E /\
      in_interior (map (fun i => nth i (r_vertices r) []) E) p.
(** Conformity: a field of the space W whose degrees of freedom on the closure of a sub-entity vanish, vanishes on that
    sub-entity. *)
Definition continuous (r : reference) (made : res vector_element) (W : component_fn -> Prop) : Prop :=
  exists poly dofs, made = Ok (poly, dofs) /\
  forall k e tab E f, sub_entities r k = Ok tab -> nth_error tab e = Some E -> W f ->
    (forall p u k' e' tab' E', In (p, u, (k', e')) dofs -> sub_entities r k' = Ok tab' -> nth_error tab' e' = Some E' -> incl E' E ->
       dof_value (p, u, (k', e')) f = 0) ->
    forall c p, length p = tdim (r_type r) -> in_affine_hull (map (fun i => nth i (r_vertices r) []) E) p -> f (c, fun i => nth i p 0) = 0.

(** The number of polynomials of degree at most n in d variables. *)
Definition P_dim (d n : nat) : nat :=
  match d with
  | 1 => n + 1
  | 2 => (n + 1) * (n + 2) / 2
  | _ => (n + 1) * (n + 2) * (n + 3) / 6
  end%nat.
(** Polynomials of degree at most n in d variables. *)
Definition P_space (d n : nat) : sfun -> Prop := poly_space (fun m => length m = d /\ (mdeg m <= n)%nat).
(** Polynomials of degree at most n in each of d variables. *)
Definition Q_space (d n : nat) : sfun -> Prop := poly_space (fun m => length m = d /\ Forall (fun e => (e <= n)%nat) m).
(** Polynomials on prisms: of degree at most n in the first two variables together, and of degree at most n in the third. *)
Definition prism_space (n : nat) : sfun -> Prop :=
  poly_space (fun m => exists i j k, m = [i; j; k] /\ (i + j <= n)%nat /\ (k <= n)%nat).
(** The sums of a polynomial of degree at most n and of multiples of x^i y^(n-i) (x + y) for 0 < i < n. *)
Definition ccr_space (n : nat) (f : sfun) : Prop :=
  exists p c, P_space 2 n p /\
  forall v, f v = p v + sum (n - 1) (fun k => c k * (v 0%nat ^ (k + 1) * v 1%nat ^ (n - (k + 1)) * (v 0%nat + v 1%nat))).
