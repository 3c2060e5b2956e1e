(** Model of /repo/symfem/elements/bubble.py (scalar elements): the bubble element and the bubble enriched Lagrange
    element.  Quadrilaterals and hexahedra are the default ones (the Q element of LagrangeModel). *)
From Coq Require Import String Arith Bool Reals List.
From Verif Require Import Base PolyLib PolySetsModel ReferencesModel CiarletModel ElementModel LagrangeModel.
Import ListNotations.
Open Scope R_scope.

(** create_element(reference.name, "Lagrange", order, vertices, variant).get_basis_functions(): the class of that name
    is Q on quadrilaterals and hexahedra (q.py:141, lagrange.py:105). *)
Definition lagrange_functions (reference : reference) (order : nat) (variant : string) : res (list (fn point)) :=
  match r_type reference with
  | CQuadrilateral | CHexahedron => q_basis_functions reference order variant
  | _ => lagrange_basis_functions reference order variant
  end.

Definition fmul (f g : fn point) : fn point := fun v => f v * g v.

(** bubble.py:34-45: the product of all the functions, or of two opposite ones *)
Definition bubble_function (c : cell_type) (basis : list (fn point)) : res (fn point) :=
  let pair i j := rbind (get basis i) (fun f => rbind (get basis j) (fun g => Ok (fmul (fmul (fun _ => 1) f) g))) in
  match c with
  | CQuadrilateral => pair 0%nat 3%nat
  | CHexahedron => pair 0%nat 7%nat
  | _ => Ok (fold_left fmul basis (fun _ => 1))
  end.

(** bubble.py:47-54.  The order of the other factor; create.py:201-220 with min_order (bubble.py:109-115) rejects
    the orders for which it would be negative (ValueError). *)
Definition bubble_order (c : cell_type) (order : nat) : res nat :=
  let minus k := if (order <? k)%nat then Err ValueError else Ok (order - k)%nat in
  match c with
  | CInterval | CQuadrilateral | CHexahedron => minus 2%nat
  | CTriangle => minus 3%nat
  | CTetrahedron => minus 4%nat
  | _ => Err ValueError
  end.

(** bubble.py:63-70: the sum of a tuple on simplices, its maximum on the other cells *)
Definition bubble_size (c : cell_type) (i : list nat) : nat :=
  match c with CInterval | CTriangle | CTetrahedron => list_sum i | _ => list_max i end.

(** bubble.py:72-75 *)
Definition bubble_dofs (reference : reference) (order : nat) : res (list point_dof) :=
  let tdim := tdim (r_type reference) in
  map_r (fun i => rmap (fun p => (p, (tdim, 0%nat))) (get_point reference (map (fun j => INR j / INR order) (rev i))))
    (filter (fun i => bubble_size (r_type reference) i <? order)%nat (product (repeat (range2 1 order) tdim))).

(** bubble.py:24-79 with the assertion of finite_element.py:615: the polynomial set and the degrees of freedom *)
Definition make_bubble (reference : reference) (order : nat) (variant : string) : res (list (fn point) * list point_dof) :=
  rbind (bubble_order (r_type reference) order) (fun o =>
  rbind (lagrange_functions reference 1 "equispaced") (fun basis =>
  rbind (bubble_function (r_type reference) basis) (fun bubble =>
  rbind (lagrange_functions reference o variant) (fun pn =>
  rbind (bubble_dofs reference order) (fun dofs =>
  let poly := map (fmul bubble) pn in
  if (length poly =? length dofs)%nat then Ok (poly, dofs) else Err AssertionError))))).

(** bubble.py:124-142, the triangle only (bubble.py:169): the polynomial set and the degrees of freedom *)
Definition make_enriched (reference : reference) (order : nat) (variant : string) : res (list (fn point) * list point_dof) :=
  match r_type reference with
  | CTriangle =>
      if (order <? 1)%nat then Err ValueError else
      rbind (lagrange_dofs reference order variant) (fun ld =>
      rbind (lagrange_poly reference order) (fun lp =>
      rbind (make_bubble reference (order + 2) variant) (fun b =>
      let poly := map meval lp ++ fst b in
      let dofs := ld ++ snd b in
      if (length poly =? length dofs)%nat then Ok (poly, dofs) else Err AssertionError)))
  | _ => Err ValueError
  end.
