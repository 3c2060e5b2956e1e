(** Model of the scalar serendipity element of symfem/elements/serendipity.py (32-95) on default cells, with the values of
    its degrees of freedom.

    Simplified as in MomentElementsModel.v; a scalar function is a function with one component. *)
From Coquelicot Require Import Coquelicot.
From Coq Require Import String Arith Bool ZArith Reals List.
From Verif Require Import Base PolyLib PolySetsModel QuadratureModel ReferencesModel CiarletModel ElementModel LagrangeModel PointsModel MomentElementsModel.
Import ListNotations.
Open Scope R_scope.

(** functionals.py:245-265: PointEvaluation, and functionals.py:1220-1276: IntegralMoment of a scalar function *)
Inductive scalar_dof :=
| Value (p : pt) (entity : entity)
| Moment (m : moment_dof).
(** BaseFunctional.entity *)
Definition scalar_entity (d : scalar_dof) : entity := match d with Value _ e => e | Moment m => mo_entity m end.
(** functionals.py:267-276: the value at the point; functionals.py:1278-1304 with the product of scalar functions
    (functions.py: ScalarFunction.dot) *)
Definition scalar_eval (d : scalar_dof) (f : component_fn) : R :=
  match d with
  | Value p _ => f (0%nat, env_of p)
  | Moment m => integral (mo_limits m) (fun t => f (0%nat, domain_point (mo_domain m) t) * mo_f m (0%nat, t) * mo_jacobian m) (fun _ => 0)
  end.
(** functionals.py:1220-1263: a scalar function is not mapped *)
Definition scalar_moment (reference : reference) (f : component_fn) (entity : entity) : res moment_dof :=
  rbind (sub_entity reference (fst entity) (snd entity) false) (fun domain => make_moment domain entity f).

(** The result of the constructor: the polynomials and the degrees of freedom passed to CiarletElement. *)
Definition scalar_moment_element := (list vpoly * list scalar_dof)%type.
(** CiarletElement.get_basis_functions of such an element (finite_element.py:592-623, 676-740) *)
Definition scalar_basis (e : scalar_moment_element) : res (list component_fn) :=
  get_basis_functions (map field (fst e)) (map scalar_eval (snd e)).

(** the basis functions of DPC(reference, order, variant) *)
Definition dpc_basis (order : nat) (variant : string) (reference : reference) : res (list component_fn) :=
  rbind (make_dpc reference order variant) element_basis.
(** serendipity.py:35-59; the order is at least 1 and DPC.min_order is 0: below the orders 2, 4 and 6 there are no moments on
    edges, faces and volumes.  On default cells map_polyset_from_default is the identity (references.py:666-675). *)
Definition make_serendipity (reference : reference) (order : nat) (variant : string) : res scalar_moment_element :=
  let tdim := tdim (r_type reference) in
  rbind (polynomial_set_1d tdim order) (fun poly =>
  rbind (unless_below order 2 (moments_on reference 1 (dpc_basis (order - 2) variant) scalar_moment)) (fun edges =>
  rbind (unless_below order 4 (moments_on reference 2 (dpc_basis (order - 4) variant) scalar_moment)) (fun faces =>
  rbind (unless_below order 6 (moments_on reference 3 (dpc_basis (order - 6) variant) scalar_moment)) (fun volumes =>
  Ok (map one_field (poly ++ serendipity_set_1d tdim order),
      map (fun vp => Value (snd vp) (0%nat, fst vp)) (enumerate (r_vertices reference)) ++ map Moment (edges ++ faces ++ volumes)))))).
