(** Model of the other elements whose degrees of freedom are values at points or components of values at points:
    symfem/elements/dpc.py, the vector and matrix valued elements of symfem/elements/lagrange.py (115-345) and
    symfem/elements/q.py (173-238), symfem/elements/lagrange_prism.py and
    symfem/elements/conforming_crouzeix_raviart.py.

    Simplified: the variants "legendre" and "lobatto", whose degrees of freedom are integrals, are not modelled; a
    scalar function is a function with one component, and a matrix is the list of its entries, row after row. *)
From Coq Require Import String Arith Bool ZArith Reals List.
From Verif Require Import Base PolyLib PolySetsModel QuadratureModel ReferencesModel CiarletModel ElementModel LagrangeModel.
Import ListNotations.
Open Scope R_scope.

(** functions with several components: the value of a component at a point *)
Definition component_fn := fn (nat * point).
(** The function given by a list of polynomials (functions.py: VectorFunction, MatrixFunction; see above) *)
Definition field (F : vpoly) : component_fn := fun cp => zeval (nth (fst cp) F []) (snd cp).

(** functionals.py:770-793: DotPointEvaluation(reference, point, vector, entity) *)
Definition dot_dof := (pt * list R * entity)%type.
(** functionals.py:795-806: the scalar product of the value at the point with the vector
    (functions.py: VectorFunction.dot, MatrixFunction.dot add the products of the entries) *)
Definition dot_eval (d : dot_dof) : component_fn -> R :=
  fun f => let '(p, vector, _) := d in
  rsum (map (fun jc => f (fst jc, env_of p) * snd jc) (enumerate vector)).

(** lagrange.py:140-143, 208-211; q.py:196-199; dpc.py:117-120; lagrange_prism.py:164-167 *)
Definition directions (n : nat) : list (list R) :=
  map (fun i => map (fun j => if (i =? j)%nat then 1 else 0) (range n)) (range n).
(** for p in scalar_space.dofs: for d in directions: ... (lagrange.py:144-149, 212-214, 308-310; q.py:200-202;
    dpc.py:121-123; lagrange_prism.py:168-170) *)
Definition dot_dofs (scalar_dofs : list point_dof) (directions : list (list R)) : list dot_dof :=
  flat_map (fun p => map (fun d => (fst p, d, snd p)) directions) scalar_dofs.
(** the same point evaluations for functions with one component (lagrange.py:130-132, 278-279) *)
Definition one_component (scalar_dofs : list point_dof) : list dot_dof := dot_dofs scalar_dofs [[1]].
(** a polynomial as a field with one component *)
Definition one_field (m : mono) : vpoly := [[(1%Z, m)]].

(** The result of a constructor: the polynomials and the degrees of freedom passed to CiarletElement. *)
Definition vector_element := (list vpoly * list dot_dof)%type.
(** CiarletElement.get_basis_functions of such an element (finite_element.py:592-623, 676-740) *)
Definition element_basis (e : vector_element) : res (list component_fn) :=
  get_basis_functions (map field (fst e)) (map dot_eval (snd e)).

(** lagrange.py:118-157 *)
Definition make_vector_lagrange (reference : reference) (order : nat) (variant : string) : res vector_element :=
  rbind (lagrange_dofs reference order variant) (fun scalar_dofs =>
  let tdim := tdim (r_type reference) in
  if (tdim =? 1)%nat then
    rmap (fun poly => (map one_field poly, one_component scalar_dofs)) (polynomial_set_1d tdim order)
  else
    rmap (fun poly => (poly, dot_dofs scalar_dofs (directions tdim))) (polynomial_set_vector tdim tdim order)).

(** lagrange.py:195-227 *)
Definition make_matrix_lagrange (reference : reference) (order : nat) (variant : string) : res vector_element :=
  rbind (lagrange_dofs reference order variant) (fun scalar_dofs =>
  let tdim := tdim (r_type reference) in
  let ds := if (tdim =? 1)%nat then [[1]] else directions (tdim ^ 2) in
  rmap (fun poly => (poly, dot_dofs scalar_dofs ds)) (polynomial_set_vector tdim (tdim ^ 2) order)).

(** lagrange.py:291: ((a[0], a[1]), (a[1], a[2])) *)
Definition symmetric_2 : list nat := [0; 1; 1; 2]%nat.
(** lagrange.py:295-298 *)
Definition symmetric_3 : list nat := [0; 1; 2; 1; 3; 4; 2; 4; 5]%nat.
(** the matrix with these components of the vector as entries *)
Definition arrange (entries : list nat) (a : vpoly) : vpoly := map (fun k => nth k a []) entries.
(** lagrange.py:292 *)
Definition symmetric_directions_2 : list (list R) := [[1; 0; 0; 0]; [0; 1; 0; 0]; [0; 0; 0; 1]].
(** lagrange.py:299-306 *)
Definition symmetric_directions_3 : list (list R) :=
  [[1; 0; 0; 0; 0; 0; 0; 0; 0]; [0; 1; 0; 0; 0; 0; 0; 0; 0]; [0; 0; 1; 0; 0; 0; 0; 0; 0];
   [0; 0; 0; 0; 1; 0; 0; 0; 0]; [0; 0; 0; 0; 0; 1; 0; 0; 0]; [0; 0; 0; 0; 0; 0; 0; 0; 1]].
(** lagrange.py:265-320.  For a point tdim is 0: the assertion of line 294 fails. *)
Definition make_symmetric_matrix_lagrange (reference : reference) (order : nat) (variant : string) : res vector_element :=
  rbind (lagrange_dofs reference order variant) (fun scalar_dofs =>
  match tdim (r_type reference) with
  | 1%nat => rmap (fun poly => (map one_field poly, one_component scalar_dofs)) (polynomial_set_1d 1 order)
  | 2%nat => rmap (fun poly => (map (arrange symmetric_2) poly, dot_dofs scalar_dofs symmetric_directions_2))
                (polynomial_set_vector 2 3 order)
  | 3%nat => rmap (fun poly => (map (arrange symmetric_3) poly, dot_dofs scalar_dofs symmetric_directions_3))
                (polynomial_set_vector 3 6 order)
  | _ => Err AssertionError
  end).

(** if reference.vertices != reference.reference_vertices: raise NonDefaultReferenceError(), a NotImplementedError
    (q.py:184-185, dpc.py:109-110, lagrange_prism.py:38-39, conforming_crouzeix_raviart.py:31-32;
    references.py:22-25) *)
Definition only_default {A} (reference : reference) (k : res A) : res A :=
  if is_default reference then k else Err NotImplementedError.

(** q.py:176-206.  Q elements are not defined on intervals, for which lines 190-194 are meant. *)
Definition make_vector_q (reference : reference) (order : nat) (variant : string) : res vector_element :=
  only_default reference (rmap (fun scalar_dofs =>
  let tdim := tdim (r_type reference) in
  if (tdim =? 1)%nat then (map one_field (quolynomial_set_1d tdim order), one_component scalar_dofs)
  else (quolynomial_set_vector tdim tdim order, dot_dofs scalar_dofs (directions tdim)))
  (q_dofs reference order variant)).

(** dpc.py:51-55: the points of an order other than 0 *)
Definition dpc_tuples (order tdim : nat) : list (list nat) :=
  filter (fun i => list_sum i <=? order)%nat (product (repeat (range (order + 1)) tdim)).
(** dpc.py:35-57 *)
Definition dpc_dofs (reference : reference) (order : nat) (variant : string) : res (list point_dof) :=
  let tdim := tdim (r_type reference) in
  match r_type reference with
  | CInterval => rmap (map (fun d => (fst d, (tdim, 0%nat)))) (lagrange_dofs reference order variant)
  | _ =>
    rmap (map (fun p => (p, (tdim, 0%nat))))
      (if (order =? 0)%nat then rmap (fun p => [p]) (get_point reference (repeat (1 / 2) tdim))
       else map_r (fun i => get_point reference (map (fun j => INR j / INR order) (rev i))) (dpc_tuples order tdim))
  end.
(** dpc.py:26-63 on default cells, where map_polyset_from_default is the identity (references.py:666-675) *)
Definition make_dpc (reference : reference) (order : nat) (variant : string) : res vector_element :=
  rbind (dpc_dofs reference order variant) (fun dofs =>
  rmap (fun poly => (map one_field poly, one_component dofs)) (polynomial_set_1d (tdim (r_type reference)) order)).
(** dpc.py:101-128 *)
Definition make_vector_dpc (reference : reference) (order : nat) (variant : string) : res vector_element :=
  only_default reference (rbind (dpc_dofs reference order variant) (fun scalar_dofs =>
  let tdim := tdim (r_type reference) in
  let ds := if (tdim =? 1)%nat then [[1]] else directions tdim in
  rmap (fun poly => (poly, dot_dofs scalar_dofs ds)) (polynomial_set_vector tdim tdim order))).

(** lagrange_prism.py:76-90: the points of a face *)
Definition prism_face_dofs (reference : reference) (order : nat) (points : list R) : res (list point_dof) :=
  rbind (sub_entity_count reference 2) (fun count =>
  rmap (@concat point_dof) (map_r (fun e_n =>
    rbind (sub_entity reference 2 e_n false) (fun entity =>
    map_r (fun ii => rmap (fun p => (p, (2%nat, e_n))) (q_place points entity ii))
      (filter (fun ii => (length (r_vertices entity) =? 4)%nat || (list_sum ii <? order)%nat) (tuples order 2))))
    (range count))).
(** lagrange_prism.py:92-104; the tuple is not reversed here, unlike in the loop over the faces *)
Definition prism_interior_dofs (reference : reference) (order : nat) (points : list R) : res (list point_dof) :=
  map_r (fun ii => rmap (fun p => (p, (3, 0)%nat)) (q_place points reference (rev ii)))
    (filter (fun ii => nth 0 ii 0 + nth 1 ii 0 <? order)%nat (tuples order 3)).
(** lagrange_prism.py:41-104 *)
Definition prism_dofs (reference : reference) (order : nat) (variant : string) : res (list point_dof) :=
  let tdim := tdim (r_type reference) in
  if (order =? 0)%nat then Ok [(repeat (1 / INR (tdim + 1)) tdim, (tdim, 0%nat))]
  else if (variant =? "lobatto")%string then Err NotImplementedError
  else
    rbind (get_quadrature variant (order + 1)) (fun rule =>
    rbind (entity_point_dofs reference 1 (tuples order 1) (q_place (fst rule))) (fun edges =>
    rbind (prism_face_dofs reference order (fst rule)) (fun faces =>
    rbind (prism_interior_dofs reference order (fst rule)) (fun interior =>
    Ok (vertex_dofs reference ++ edges ++ faces ++ interior))))).
(** lagrange_prism.py:30-109 *)
Definition make_prism_lagrange (reference : reference) (order : nat) (variant : string) : res vector_element :=
  only_default reference (rbind (prism_dofs reference order variant) (fun dofs =>
  rmap (fun poly => (map one_field poly, one_component dofs)) (prism_polynomial_set_1d (tdim (r_type reference)) order))).
(** lagrange_prism.py:147-174; the scalar element raises on other cells than the default one, and on cells of dimension
    1 its polynomials do (lines 159-162 are not reached) *)
Definition make_prism_vector_lagrange (reference : reference) (order : nat) (variant : string) : res vector_element :=
  rbind (make_prism_lagrange reference order variant) (fun _ =>
  rbind (prism_dofs reference order variant) (fun scalar_dofs =>
  let tdim := tdim (r_type reference) in
  rmap (fun poly => (poly, dot_dofs scalar_dofs (directions tdim))) (prism_polynomial_set_vector tdim tdim order))).

(** conforming_crouzeix_raviart.py:38: x[0]**i * x[1]**(order - i) * (x[0] + x[1]) *)
Definition ccr_extra (order i : nat) : vpoly := [[(1%Z, [i + 1; order - i]%nat); (1%Z, [i; order - i + 1]%nat)]].
(** conforming_crouzeix_raviart.py:44-50: the points of an edge; the rational number of Rational((order-p)*a + p*b, order) *)
Definition ccr_edge_dofs (reference : reference) (order : nat) (edges : list (list nat)) : list point_dof :=
  flat_map (fun ie => let '(i, edge) := ie in
    map (fun p => (map (fun ab => (INR (order - p) * fst ab + INR p * snd ab) / INR order)
                       (combine (nth (nth 0 edge 0%nat) (r_vertices reference) []) (nth (nth 1 edge 0%nat) (r_vertices reference) [])),
                   (1%nat, i))) (range2 1 order)) (enumerate edges).
(** conforming_crouzeix_raviart.py:51-57 *)
Definition ccr_interior_dofs (order : nat) : list point_dof :=
  flat_map (fun i => map (fun j => ([INR (3 * i - 1) / INR (3 * order); INR (3 * j - 1) / INR (3 * order)], (2, 0)%nat))
                         (range2 1 (order + 1 - i))) (range2 1 order).
(** conforming_crouzeix_raviart.py:24-59 *)
Definition make_conforming_cr (reference : reference) (order : nat) : res vector_element :=
  only_default reference (
  match r_type reference with
  | CTriangle =>
    rbind (polynomial_set_1d 2 order) (fun poly =>
    rbind (sub_entities reference 1) (fun edges =>
    Ok (map one_field poly ++ map (ccr_extra order) (range2 1 order),
        one_component (vertex_dofs reference ++
          (if (2 <=? order)%nat then ccr_edge_dofs reference order edges ++ ccr_interior_dofs order else [])))))
  | _ => Err AssertionError
  end).
