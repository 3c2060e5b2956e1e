(** Bernardi-Raugel elements of order 1. *)
From Coq Require Import String Arith Bool Reals List.
From Verif Require Import Base PolyLib PolySetsModel ReferencesModel CiarletModel ElementModel LagrangeModel LegendreModel PointsModel MomentElementsModel.
Import ListNotations.
Open Scope R_scope.

(** The functionals used by bernardi_raugel.py at order 1: DotPointEvaluation (functionals.py:770-806) and
    NormalIntegralMoment (functionals.py:1578-1608). *)
Inductive br_dof := BrPoint (d : dot_dof) | BrMoment (m : moment_dof).
(** functionals.py: eval of the two classes *)
Definition br_eval (l : br_dof) : component_fn -> R := match l with BrPoint d => dot_eval d | BrMoment m => moment_eval m end.
(** functionals.py:87-115: the entity of a functional *)
Definition br_entity (l : br_dof) : entity := match l with BrPoint d => snd d | BrMoment m => mo_entity m end.
(** The result of the constructor: the polynomials and the degrees of freedom passed to CiarletElement. *)
Definition br_element := (list component_fn * list br_dof)%type.
(** CiarletElement.get_basis_functions of such an element (finite_element.py:592-623, 676-740) *)
Definition br_basis (e : br_element) : res (list component_fn) := get_basis_functions (fst e) (map br_eval (snd e)).

(** bernardi_raugel.py:48-52: the product of the functions with the numbers of the vertices of the facet, times each entry of
    the normal *)
Definition br_bubble (lambda : list (fn point)) (vertices : list nat) (n : pt) : component_fn :=
  fun cv => fold_left (fun bubble j => bubble * nth j lambda (fun _ => 0) (snd cv)) vertices 1 * nth (fst cv) n 0.
(** bernardi_raugel.py:46-52: the bubbles of all facets *)
Definition br_bubbles (reference : reference) (lambda : list (fn point)) : res (list component_fn) :=
  let dim := (tdim (r_type reference) - 1)%nat in
  rbind (sub_entities reference dim) (fun facets =>
  map_r (fun ie => rbind (sub_entity reference dim (fst ie) false) (fun sub_e =>
    rmap (br_bubble lambda (snd ie)) (normal sub_e))) (enumerate facets)).
(** bernardi_raugel.py:56-67: the point evaluations at the vertices of all facets, in the direction of the normal times the
    jacobian *)
Definition br_points (reference : reference) : res (list br_dof) :=
  let dim := (tdim (r_type reference) - 1)%nat in
  rbind (sub_entities reference dim) (fun facets =>
  rmap (@concat br_dof) (map_r (fun i => rbind (sub_entity reference dim i false) (fun facet =>
    rbind (normal facet) (fun n => rmap (fun j => map (fun v => BrPoint (v, map (fun a => a * j) n, (dim, i))) (r_vertices facet)) (jacobian facet))))
    (range (length facets)))).
(** bernardi_raugel.py:31-72, 112 with order = 1 (lines 74-111 add to the elements of order 2 on tetrahedra and are not
    modelled); the element is defined on triangles and tetrahedra (bernardi_raugel.py:131-133) *)
Definition make_bernardi_raugel (reference : reference) : res br_element :=
  let tdim := tdim (r_type reference) in
  only_default reference (
  rbind (polynomial_set_vector tdim tdim 1) (fun poly =>
  rbind (lagrange_basis_functions reference 1 "equispaced") (fun lambda =>
  rbind (br_bubbles reference lambda) (fun bubbles =>
  rbind (br_points reference) (fun points =>
  rbind (moments_on reference (tdim - 1) (fun r => lagrange_basis_functions r 0 "equispaced") normal_moment) (fun moments =>
  Ok (map field poly ++ bubbles, points ++ map BrMoment moments))))))).
