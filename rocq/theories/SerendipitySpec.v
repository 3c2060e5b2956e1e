(** What the serendipity element (SerendipityModel.v) is required to satisfy. *)
From Coq Require Import Arith Reals List.
From Verif Require Import Base PolyLib LinAlg ReferencesModel ReferencesSpec LegendreIntSpec PointsModel PointsSpec MomentElementsModel MomentElementsSpec SerendipityModel.
Import ListNotations.
Open Scope R_scope.

(** [value] is the value at the point, or the integral over the domain of the product of the function with the function of the
    moment. *)
Definition scalar_value (d : scalar_dof) (f : component_fn) (value : R) : Prop :=
  match d with
  | Value p _ => f (0%nat, fun i => nth i p 0) = value
  | Moment m => iterated_integral (mo_limits m) (fun t => f (0%nat, point_of (mo_domain m) t) * mo_f m (0%nat, t) * mo_jacobian m) (fun _ => 0) value
  end.
(** The element could be created, with K degrees of freedom; get_basis_functions returns the basis of the space W that is
    dual to the degrees of freedom, and W is determined by the degrees of freedom. *)
Definition dual_scalar (made : res scalar_moment_element) (W : component_fn -> Prop) (K : nat) : Prop :=
  exists poly dofs phi, made = Ok (poly, dofs) /\ scalar_basis (poly, dofs) = Ok phi /\ length dofs = K /\ length phi = K /\
  (forall i j d g, nth_error dofs i = Some d -> nth_error phi j = Some g -> scalar_value d g (if (i =? j)%nat then 1 else 0)) /\
  (forall g, In g phi -> W g) /\
  (forall f, W f -> exists a, (forall i d, nth_error dofs i = Some d -> scalar_value d f (a i)) /\
     forall x, f x = sum K (fun i => a i * nth i phi (fun _ => 0) x)).
(** Conformity: a function of the space W whose degrees of freedom on the closure of a sub-entity vanish, vanishes on that
    sub-entity. *)
Definition scalar_continuous (r : reference) (made : res scalar_moment_element) (W : component_fn -> Prop) : Prop :=
  exists poly dofs, made = Ok (poly, dofs) /\
  forall k e tab E f, sub_entities r k = Ok tab -> nth_error tab e = Some E -> W f ->
    (forall d k' e' tab' E', In d dofs -> scalar_entity d = (k', e') -> sub_entities r k' = Ok tab' -> nth_error tab' e' = Some E' -> incl E' E -> scalar_value d f 0) ->
    forall p, length p = tdim (r_type r) -> in_affine_hull (map (fun i => nth i (r_vertices r) []) E) p -> f (0%nat, fun i => nth i p 0) = 0.

(** The superlinear degree of a monomial: its degree, not counting the variables that enter linearly. *)
Fixpoint superlinear (m : mono) : nat :=
  match m with [] => 0 | a :: m' => match a with 1 => 0 | _ => a end + superlinear m' end%nat.
(** Polynomials in d variables of superlinear degree at most n. *)
Definition serendipity_space (d n : nat) : sfun -> Prop := poly_space (fun m => length m = d /\ (superlinear m <= n)%nat).
(** The dimension of this space: the numbers of vertices, and of edges, faces and volumes times the dimensions of the
    polynomials of degree n - 2, n - 4 and n - 6 on them. *)
Definition serendipity_dim (d n : nat) : nat :=
  let P k e := (if 2 * k <=? n then e * P_dim k (n - 2 * k) else 0)%nat in
  match d with
  | 1 => 2 + P 1 1
  | 2 => 4 + (P 1 4 + P 2 1)
  | _ => 8 + (P 1 12 + (P 2 6 + P 3 1))
  end%nat.
