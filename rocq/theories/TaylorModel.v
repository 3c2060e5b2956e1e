(** Model of the Taylor element (symfem/elements/taylor.py) with its degrees of freedom, on every interval, triangle and
    tetrahedron.

    Simplified: sympy's integration is the iterated Riemann integral and sympy's differentiation is the derivative of the
    function on the reals; a scalar function is a function with one component. *)
From Coquelicot Require Import Coquelicot.
From Coq Require Import String Arith Bool ZArith Reals List.
From Verif Require Import Base PolyLib PolySetsModel ReferencesModel CiarletModel ElementModel LagrangeModel PointsModel MomentElementsModel.
Import ListNotations.
Open Scope R_scope.

(** functions.py:674-683: ScalarFunction.diff: the derivative with respect to the variable x[k] *)
Definition diff (k : nat) (f : component_fn) : component_fn :=
  fun cv => Derive (fun s => f (fst cv, fun i => if (i =? k)%nat then s else snd cv i)) (snd cv k).
(** functionals.py:411-413: for i, j in zip(x, self.derivative), differentiate j times with respect to i *)
Definition derivatives (alpha : list nat) (f : component_fn) : component_fn :=
  fold_left (fun g ij => Nat.iter (snd ij) (diff (fst ij)) g) (enumerate alpha) f.

(** functionals.py:1220-1276: IntegralMoment of a scalar function with mapping "identity"; functionals.py:377-401:
    DerivativePointEvaluation *)
Inductive taylor_dof :=
| Mean (m : moment_dof)
| DerivativeAt (p : pt) (alpha : list nat) (entity : entity).
(** BaseFunctional.entity *)
Definition taylor_entity (d : taylor_dof) : entity := match d with Mean m => mo_entity m | DerivativeAt _ _ e => e end.
(** functionals.py:1278-1304 with the product of scalar functions; functionals.py:403-414 *)
Definition taylor_eval (d : taylor_dof) (f : component_fn) : R :=
  match d with
  | Mean m => integral (mo_limits m) (fun t => f (0%nat, domain_point (mo_domain m) t) * mo_f m (0%nat, t) * mo_jacobian m) (fun _ => 0)
  | DerivativeAt p alpha _ => derivatives alpha f (0%nat, env_of p)
  end.

(** functionals.py:1243-1276 for a scalar function: identity_inverse_transpose does not change the function
    (mappings.py:197-215); on a reference that is not the default one it is multiplied by the quotient of the volumes *)
Definition scaled_moment (reference : reference) (f : fn point) (entity : entity) : res moment_dof :=
  rbind (sub_entity reference (fst entity) (snd entity) false) (fun domain =>
  if is_default reference then make_moment domain entity (fun ct => f (snd ct))
  else
    rbind (sub_entity (default (r_type reference)) (fst entity) (snd entity) false) (fun id_def =>
    rbind (volume id_def) (fun v0 =>
    rbind (volume domain) (fun v =>
    make_moment domain entity (fun ct => f (snd ct) * (v0 / v)))))).

(** taylor.py:32-40: the derivatives of the orders 1, ..., order at the midpoint *)
Definition taylor_derivatives (reference : reference) (order : nat) : list taylor_dof :=
  let tdim := tdim (r_type reference) in
  map (fun i => DerivativeAt (midpoint reference) i (tdim, 0%nat))
      (filter (fun i => (1 <=? list_sum i)%nat && (list_sum i <=? order)%nat) (product (repeat (range (order + 1)) tdim))).
(** The result of the constructor: the polynomials and the degrees of freedom passed to CiarletElement. *)
Definition taylor_element := (list vpoly * list taylor_dof)%type.
(** taylor.py:21-45; Lagrange.min_order is 0 *)
Definition make_taylor (reference : reference) (order : nat) : res taylor_element :=
  let tdim := tdim (r_type reference) in
  rbind (moments_on reference tdim (fun r => lagrange_basis_functions r 0 "equispaced") scaled_moment) (fun cells =>
  rbind (polynomial_set_1d tdim order) (fun poly =>
  Ok (map one_field poly, map Mean cells ++ taylor_derivatives reference order))).
(** CiarletElement.get_basis_functions of such an element (finite_element.py:592-623, 676-740) *)
Definition taylor_basis (e : taylor_element) : res (list component_fn) :=
  get_basis_functions (map field (fst e)) (map taylor_eval (snd e)).
