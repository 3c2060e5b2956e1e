(** The Bernardi-Raugel element of order 2 on the tetrahedron.
    Simplified: sympy's differentiation is the derivative of the function (see TaylorModel.v). *)
From Coquelicot Require Import Coquelicot.
From Coq Require Import String Arith Bool Reals List.
From Verif Require Import Base PolyLib PolySetsModel ReferencesModel CiarletModel ElementModel LagrangeModel LegendreModel PointsModel MomentElementsModel TaylorModel BernardiModel.
Import ListNotations.
Open Scope R_scope.

(** The functionals of the element of order 1 and DivergenceIntegralMoment (functionals.py:1456-1478), whose scalar function
    is stored as component 0. *)
Inductive br2_dof := BrLow (l : br_dof) | BrDiv (m : moment_dof).
(** functions.py: VectorFunction.div: the sum of the derivatives of the components *)
Definition div (dim : nat) (f : component_fn) (v : point) : R := rsum (map (fun c => diff c f (c, v)) (range dim)).
(** functionals.py:1480-1495: the divergence at the point of the domain times the function, integrated over the domain *)
Definition div_eval (m : moment_dof) (f : component_fn) : R :=
  integral (mo_limits m) (fun t => div (gdim (mo_domain m)) f (domain_point (mo_domain m) t) * mo_f m (0%nat, t) * mo_jacobian m) (fun _ => 0).
(** functionals.py: eval of the classes *)
Definition br2_eval (l : br2_dof) : component_fn -> R := match l with BrLow l => br_eval l | BrDiv m => div_eval m end.
(** functionals.py:87-115: the entity of a functional *)
Definition br2_entity (l : br2_dof) : entity := match l with BrLow l => br_entity l | BrDiv m => mo_entity m end.
(** The result of the constructor: the polynomials and the degrees of freedom passed to CiarletElement. *)
Definition br2_element := (list component_fn * list br2_dof)%type.
(** CiarletElement.get_basis_functions of such an element (finite_element.py:592-623, 676-740) *)
Definition br2_basis (e : br2_element) : res (list component_fn) := get_basis_functions (fst e) (map br2_eval (snd e)).

(** bernardi_raugel.py:77-84: the product of the four functions in one component *)
Definition br2_interior (lambda : list (fn point)) : list component_fn :=
  map (fun i => fun cv : nat * point => if (fst cv =? i)%nat
    then nth 0 lambda (fun _ => 0) (snd cv) * nth 1 lambda (fun _ => 0) (snd cv) * nth 2 lambda (fun _ => 0) (snd cv) * nth 3 lambda (fun _ => 0) (snd cv) else 0) (range 3).
(** bernardi_raugel.py:89, 102-104: the middle of two points *)
Definition middle (v1 v2 : pt) : pt := map (fun ij => (fst ij + snd ij) / 2) (combine v1 v2).
(** bernardi_raugel.py:86-95: the component along each edge at its middle *)
Definition br2_edges (reference : reference) : list br_dof :=
  map (fun ne => let v1 := nth (nth 0 (snd ne) 0%nat) (r_vertices reference) [] in let v2 := nth (nth 1 (snd ne) 0%nat) (r_vertices reference) [] in
    BrPoint (middle v1 v2, map (fun ij => snd ij - fst ij) (combine v1 v2), (1%nat, fst ne))) (enumerate (edges (r_type reference))).
(** bernardi_raugel.py:96-109: the component in the direction of the normal times the jacobian at the middles of the edges of
    each face *)
Definition br2_faces (reference : reference) : res (list br_dof) :=
  rbind (sub_entities reference 2) (fun faces =>
  rmap (@concat br_dof) (map_r (fun f_n => rbind (sub_entity reference 2 f_n false) (fun face =>
    rbind (normal face) (fun n => rbind (jacobian face) (fun j =>
    map_r (fun e_n => rmap (fun edge => BrPoint (middle (nth 0 (r_vertices edge) []) (nth 1 (r_vertices edge) []), map (fun a => a * j) n, (2%nat, f_n)))
      (sub_entity face 1 e_n false)) (range 3)))))
    (range (length faces)))).
(** bernardi_raugel.py:113-118: the moments of the divergence against the coordinates *)
Definition br2_divs (reference : reference) : res (list moment_dof) :=
  map_r (fun i => rbind (sub_entity reference 3 0 false) (fun domain => make_moment domain (3, 0)%nat (fun ct => snd ct i))) (range 3).
(** bernardi_raugel.py:31-119 with order = 2 *)
Definition make_bernardi_raugel2 (reference : reference) : res br2_element :=
  let tdim := tdim (r_type reference) in
  only_default reference (
  rbind (polynomial_set_vector tdim tdim 2) (fun poly =>
  rbind (lagrange_basis_functions reference 1 "equispaced") (fun lambda =>
  rbind (br_bubbles reference lambda) (fun bubbles =>
  rbind (br_points reference) (fun points =>
  rbind (moments_on reference (tdim - 1) (fun r => lagrange_basis_functions r 0 "equispaced") normal_moment) (fun moments =>
  match r_type reference with
  | CTetrahedron =>
    rbind (br2_faces reference) (fun faces =>
    rbind (br2_divs reference) (fun divs =>
    Ok (map field poly ++ bubbles ++ br2_interior lambda,
        map BrLow (points ++ map BrMoment moments ++ br2_edges reference ++ faces) ++ map BrDiv divs)))
  | _ => Err AssertionError
  end)))))).
