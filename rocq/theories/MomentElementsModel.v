(** Model of elements whose degrees of freedom are integral moments, on default cells: symfem/elements/rt.py,
    symfem/elements/nedelec.py, symfem/elements/bdm.py, the H(div) and H(curl) elements of symfem/elements/q.py
    (240-355), with the constructors and values of the moments they use (symfem/functionals.py, symfem/moments.py).

    Simplified: the cell is the default one, so that the mapping to other cells (functionals.py:1265-1276) is the
    identity; sympy's integration is the iterated Riemann integral; a vector function is the function of its component
    number and the point; the variant "legendre" of the elements that are integrated against is not modelled. *)
From Coquelicot Require Import Coquelicot.
From Coq Require Import String Arith Bool ZArith Reals List.
From Verif Require Import Base PolyLib PolySetsModel QuadratureModel ReferencesModel CiarletModel ElementModel LagrangeModel PointsModel.
Import ListNotations.
Open Scope R_scope.

(** the iterated integral over the limits, innermost first (functions.py:784-815: sympy.integrate) *)
Fixpoint integral (limits : list limit) (F : point -> R) (v : point) : R :=
  match limits with
  | [] => F v
  | (k, lo, hi) :: ls => integral ls (fun e => RInt (fun s => F (fun i => if (i =? k)%nat then s else e i)) (lo e) (hi e)) v
  end.

(** functionals.py:1220-1276: an IntegralMoment has a domain, with its limits of integration and its jacobian, and a function
    on the domain in the variables t. *)
Record moment_dof := { mo_domain : reference; mo_limits : list limit; mo_jacobian : R; mo_f : component_fn; mo_entity : entity }.

(** functionals.py:1284-1288: origin + sum of axes times t *)
Definition domain_point (domain : reference) (t : point) : point :=
  fun i => nth i (r_origin domain) 0 + rsum (map (fun ja => nth i (snd ja) 0 * t (fst ja)) (enumerate (r_axes domain))).
(** functionals.py:1278-1304: dot with f at the point of the domain, integrated over the domain
    (functions.py:784-815: the integrand times the jacobian) *)
Definition moment_eval (m : moment_dof) (f : component_fn) : R :=
  integral (mo_limits m)
    (fun t => rsum (map (fun c => f (c, domain_point (mo_domain m) t) * mo_f m (c, t)) (range (gdim (mo_domain m)))) * mo_jacobian m)
    (fun _ => 0).

(** functionals.py:1238-1246 on a default reference; the errors of limits and jacobian are raised when the functional is
    evaluated *)
Definition make_moment (domain : reference) (entity : entity) (f : component_fn) : res moment_dof :=
  rbind (integration_limits (r_type domain)) (fun limits =>
  rmap (fun j => {| mo_domain := domain; mo_limits := limits; mo_jacobian := j; mo_f := f; mo_entity := entity |}) (jacobian domain)).
(** functionals.py:1251-1256 and mappings.py:116-139: a function with as many components as the domain has dimensions is
    mapped by the contravariant map of the domain, whose determinant is the norm of the cross product of the columns
    (functions.py:1776-1777); the map of an affine domain has the axes as columns *)
Definition mapped (domain : reference) (j : R) (f : component_fn) : component_fn :=
  fun ct => rsum (map (fun ka => nth (fst ct) (snd ka) 0 / j * f (fst ka, snd ct)) (enumerate (r_axes domain))).
(** functionals.py:1220-1263: IntegralMoment of a function with tdim(domain) components *)
Definition integral_moment (reference : reference) (f : component_fn) (entity : entity) : res moment_dof :=
  rbind (sub_entity reference (fst entity) (snd entity) false) (fun domain =>
  if (tdim (r_type domain) =? gdim reference)%nat then make_moment domain entity f
  else rbind (jacobian domain) (fun j => make_moment domain entity (mapped domain j f))).
(** functionals.py:1578-1608 *)
Definition normal_moment (reference : reference) (scalar_f : fn point) (entity : entity) : res moment_dof :=
  rbind (sub_entity reference (fst entity) (snd entity) false) (fun domain =>
  rbind (normal domain) (fun n => make_moment domain entity (fun ct => scalar_f (snd ct) * nth (fst ct) n 0))).
(** functionals.py:1515-1545 *)
Definition tangent_moment (reference : reference) (scalar_f : fn point) (entity : entity) : res moment_dof :=
  rbind (sub_entity reference (fst entity) (snd entity) false) (fun domain =>
  rbind (tangent domain) (fun n => make_moment domain entity (fun ct => scalar_f (snd ct) * nth (fst ct) n 0))).

(** moments.py:84-112 for one dimension: the moments against all basis functions of the element on the default reference of
    each sub-entity *)
Definition moments_on {A} (reference : reference) (dim : nat) (basis_functions : ReferencesModel.reference -> res (list A))
    (moment : ReferencesModel.reference -> A -> entity -> res moment_dof) : res (list moment_dof) :=
  rbind (sub_entity_types (r_type reference) dim) (fun sub_type =>
  match sub_type with
  | NoType => Ok []
  | _ =>
    rbind (sub_entities reference dim) (fun vs =>
    rmap (@concat moment_dof) (map_r (fun i =>
      rbind (sub_entity reference dim i false) (fun sub_ref =>
      rbind (basis_functions (default (r_type sub_ref))) (map_r (fun f => moment reference f (dim, i)))))
      (range (length vs))))
  end).
(** moments.py:106-107: no moments if the order is smaller than min_order *)
Definition unless_below (order min_order : nat) (dofs : res (list moment_dof)) : res (list moment_dof) :=
  if (order <? min_order)%nat then Ok [] else dofs.

(** The result of a constructor: the polynomials and the degrees of freedom passed to CiarletElement. *)
Definition moment_element := (list vpoly * list moment_dof)%type.
(** CiarletElement.get_basis_functions of such an element (finite_element.py:592-623, 676-740) *)
Definition moment_basis (e : moment_element) : res (list component_fn) :=
  get_basis_functions (map field (fst e)) (map moment_eval (snd e)).

(** the basis functions of VectorLagrange(reference, order, variant) *)
Definition vector_lagrange_basis (order : nat) (variant : string) (reference : reference) : res (list component_fn) :=
  rbind (make_vector_lagrange reference order variant) element_basis.

(** rt.py:23-49; the order is at least 1.  VectorLagrange.min_order is 0: below order 2 the order of the moments inside the
    cell is negative *)
Definition make_raviart_thomas (reference : reference) (order : nat) (variant : string) : res moment_element :=
  let tdim := tdim (r_type reference) in
  rbind (polynomial_set_vector tdim tdim (order - 1)) (fun poly =>
  rbind (Hdiv_polynomials tdim tdim order) (fun extra =>
  rbind (moments_on reference (tdim - 1) (fun r => lagrange_basis_functions r (order - 1) variant) normal_moment) (fun facets =>
  rbind (unless_below order 2 (moments_on reference tdim (vector_lagrange_basis (order - 2) variant) integral_moment)) (fun cells =>
  Ok (poly ++ extra, facets ++ cells))))).

(** nedelec.py:23-46 (NedelecFirstKind); the order is at least 1 *)
Definition make_nedelec_first (reference : reference) (order : nat) (variant : string) : res moment_element :=
  let tdim := tdim (r_type reference) in
  rbind (polynomial_set_vector tdim tdim (order - 1)) (fun poly =>
  rbind (Hcurl_polynomials tdim tdim order) (fun extra =>
  rbind (moments_on reference 1 (fun r => lagrange_basis_functions r (order - 1) variant) tangent_moment) (fun edges =>
  rbind (unless_below order 2 (moments_on reference 2 (vector_lagrange_basis (order - 2) variant) integral_moment)) (fun faces =>
  rbind (unless_below order 3 (moments_on reference 3 (vector_lagrange_basis (order - 3) variant) integral_moment)) (fun volumes =>
  Ok (poly ++ extra, edges ++ faces ++ volumes)))))).

(** nedelec.py:86-108 (NedelecSecondKind); the order is at least 1 and RaviartThomas.min_order is 1 *)
Definition make_nedelec_second (reference : reference) (order : nat) (variant : string) : res moment_element :=
  let tdim := tdim (r_type reference) in
  let rt order r := rbind (make_raviart_thomas r order variant) moment_basis in
  rbind (polynomial_set_vector tdim tdim order) (fun poly =>
  rbind (moments_on reference 1 (fun r => lagrange_basis_functions r order variant) tangent_moment) (fun edges =>
  rbind (unless_below order 2 (moments_on reference 2 (rt (order - 1)%nat) integral_moment)) (fun faces =>
  rbind (unless_below order 3 (moments_on reference 3 (rt (order - 2)%nat) integral_moment)) (fun volumes =>
  Ok (poly, edges ++ faces ++ volumes))))).

(** bdm.py:24-45; the order is at least 1 and NedelecFirstKind.min_order is 1 *)
Definition make_bdm (reference : reference) (order : nat) (variant : string) : res moment_element :=
  let tdim := tdim (r_type reference) in
  let n1 order r := rbind (make_nedelec_first r order variant) moment_basis in
  only_default reference (
  rbind (polynomial_set_vector tdim tdim order) (fun poly =>
  rbind (moments_on reference (tdim - 1) (fun r => lagrange_basis_functions r order variant) normal_moment) (fun facets =>
  rbind (unless_below order 2 (moments_on reference tdim (n1 (order - 1)%nat) integral_moment)) (fun cells =>
  Ok (poly, facets ++ cells))))).

(** q.py:240-268 (Nedelec, div = false) and q.py:299-324 (RaviartThomas, div = true); the order is S order' and min_order
    is 1 *)
Fixpoint make_q_field (div : bool) (order : nat) (variant : string) (reference : reference) {struct order} : res moment_element :=
  match order with
  | O => Err ValueError
  | S order' =>
    let tdim := tdim (r_type reference) in
    let other r := rbind (make_q_field (negb div) order' variant r) moment_basis in
    only_default reference (
    if div then
      rbind (Hdiv_quolynomials tdim tdim order) (fun extra =>
      rbind (moments_on reference (tdim - 1) (fun r => q_basis_functions r order' variant) normal_moment) (fun facets =>
      rbind (unless_below order' 1 (moments_on reference tdim other integral_moment)) (fun cells =>
      Ok (quolynomial_set_vector tdim tdim order' ++ extra, facets ++ cells))))
    else
      rbind (Hcurl_quolynomials tdim tdim order) (fun extra =>
      rbind (moments_on reference 1 (fun r => q_basis_functions r order' variant) tangent_moment) (fun edges =>
      rbind (unless_below order' 1 (moments_on reference 2 other integral_moment)) (fun faces =>
      rbind (unless_below order' 1 (moments_on reference 3 other integral_moment)) (fun volumes =>
      Ok (quolynomial_set_vector tdim tdim order' ++ extra, edges ++ faces ++ volumes))))))
  end.
