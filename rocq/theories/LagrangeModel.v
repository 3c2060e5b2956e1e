(** Model of the point evaluation elements Lagrange and Q: /repo/symfem/elements/lagrange.py and
    /repo/symfem/elements/q.py (constructors, polynomial spaces, tensor factorisation).

    A point evaluation (functionals.py:245-276) is the pair of its point and its entity; on a function it gives
    the value at the point.  The variants "legendre" and "lobatto", whose degrees of freedom are integrals, are
    not modelled here. *)
From Coq Require Import String Arith Bool Reals List.
From Verif Require Import Base PolyLib PolySetsModel QuadratureModel ReferencesModel CiarletModel ElementModel.
Import ListNotations.
Open Scope R_scope.

(** functionals.py:245-276: PointEvaluation(reference, point, entity) *)
Definition point_dof := (pt * entity)%type.
(** functionals.py:262-276: the functional *)
Definition point_eval (d : point_dof) : fn point -> R := fun f => f (env_of (fst d)).

(** lagrange.py:68-69 and q.py:72-73 *)
Definition vertex_dofs (reference : reference) : list point_dof :=
  map (fun nv => (snd nv, (0%nat, fst nv))) (enumerate (r_vertices reference)).

(** lagrange.py:71-76 and q.py:75-87: the loop over the sub-entities of one dimension; [indices] are the tuples i
    that pass the test of the inner loop, [place] gives the point of a tuple. *)
Definition entity_point_dofs (reference : reference) (edim : nat) (indices : list (list nat))
    (place : ReferencesModel.reference -> list nat -> res pt) : res (list point_dof) :=
  rbind (sub_entity_count reference edim) (fun count =>
  rmap (@concat point_dof) (map_r (fun e_n =>
    rbind (sub_entity reference edim e_n false) (fun entity =>
    map_r (fun i => rmap (fun p => (p, (edim, e_n))) (place entity i)) indices)) (range count))).

(** lagrange.py:68-76 and q.py:72-87 *)
Definition point_dofs (reference : reference) (indices : nat -> list (list nat))
    (place : ReferencesModel.reference -> list nat -> res pt) : res (list point_dof) :=
  rbind (entity_point_dofs reference 1 (indices 1%nat) place) (fun d1 =>
  rbind (entity_point_dofs reference 2 (indices 2%nat) place) (fun d2 =>
  rbind (entity_point_dofs reference 3 (indices 3%nat) place) (fun d3 =>
  Ok (vertex_dofs reference ++ d1 ++ d2 ++ d3)))).

(** lagrange.py:73: product(range(1, order), repeat=edim) *)
Definition tuples (order edim : nat) : list (list nat) := product (repeat (range2 1 order) edim).
(** lagrange.py:74 *)
Definition simplex_tuples (order edim : nat) : list (list nat) :=
  filter (fun i => list_sum i <? order)%nat (tuples order edim).
(** lagrange.py:75 *)
Definition lagrange_place (points : list R) (entity : reference) (i : list nat) : res pt :=
  rbind (map_r (get points) (rev i)) (get_point entity).

(** lagrange.py:66 *)
Definition tensor_cell (c : cell_type) : bool :=
  match c with CInterval | CQuadrilateral | CHexahedron => true | _ => false end.

(** lagrange.py:31-76 (variants other than legendre and lobatto) *)
Definition lagrange_dofs (reference : reference) (order : nat) (variant : string) : res (list point_dof) :=
  let tdim := tdim (r_type reference) in
  if (order =? 0)%nat then
    rmap (fun p => [(p, (tdim, 0%nat))]) (get_point reference (repeat (1 / INR (tdim + 1)) tdim))
  else
    rbind (get_quadrature variant (order + 1)) (fun rule =>
    if negb (variant =? "equispaced")%string && negb (tensor_cell (r_type reference)) then Err AssertionError
    else point_dofs reference (simplex_tuples order) (lagrange_place (fst rule))).

(** lagrange.py:78-79 *)
Definition lagrange_poly (reference : reference) (order : nat) : res (list mono) :=
  polynomial_set_1d (tdim (r_type reference)) order.

(** q.py:81-84: zip stops at the shorter of the axes and the reversed tuple *)
Definition q_place (points : list R) (entity : reference) (i : list nat) : res pt :=
  rbind (map_r (get points) (rev i)) (fun bs =>
  map_r (fun jo => rmap (fun l => snd jo + rsum l)
           (map_r (fun ab => rmap (fun aj => aj * snd ab) (get (fst ab) (fst jo))) (combine (r_axes entity) bs)))
        (enumerate (r_origin entity))).

(** q.py:37-87 (variants other than legendre and lobatto) *)
Definition q_dofs (reference : reference) (order : nat) (variant : string) : res (list point_dof) :=
  let tdim := tdim (r_type reference) in
  if (order =? 0)%nat then
    rmap (fun p => [(p, (tdim, 0%nat))]) (get_point reference (repeat (1 / 2) tdim))
  else
    rbind (get_quadrature variant (order + 1)) (fun rule =>
    point_dofs reference (tuples order) (q_place (fst rule))).

(** q.py:89-91 on default cells, where map_polyset_from_default is the identity (references.py:666-675) *)
Definition q_poly (reference : reference) (order : nat) : list mono :=
  quolynomial_set_1d (tdim (r_type reference)) order.

(** The basis functions of a point evaluation element (finite_element.py:640-740 through CiarletModel). *)
Definition point_basis_functions (poly : list mono) (dofs : list point_dof) : res (list (fn point)) :=
  get_basis_functions (map meval poly) (map point_eval dofs).

(** create_element(cell, "Lagrange", order, variant).get_basis_functions() on a simplex *)
Definition lagrange_basis_functions (reference : reference) (order : nat) (variant : string) : res (list (fn point)) :=
  rbind (lagrange_dofs reference order variant) (fun dofs =>
  rbind (lagrange_poly reference order) (fun poly => point_basis_functions poly dofs)).

(** create_element(cell, "Q", order, variant).get_basis_functions() on a default quadrilateral or hexahedron *)
Definition q_basis_functions (reference : reference) (order : nat) (variant : string) : res (list (fn point)) :=
  rbind (q_dofs reference order variant) (fun dofs => point_basis_functions (q_poly reference order) dofs).

(** q.py:110-137: the permutation of get_tensor_factorisation.  On other cells the variable perm is unbound
    (UnboundLocalError, here RuntimeError). *)
Definition q_perm (c : cell_type) (order : nat) : res (list nat) :=
  let n := (order - 1)%nat in
  if (order =? 0)%nat then Ok [0%nat]
  else match c with
  | CQuadrilateral => Ok (
      [0; 2] ++ map (fun i => 4 + n + i) (range n)
      ++ [1; 3] ++ map (fun i => 4 + 2 * n + i) (range n)
      ++ flat_map (fun i => [4 + i; 4 + 3 * n + i] ++ map (fun j => 4 + i + (4 + j) * n) (range n)) (range n))
  | CHexahedron => Ok (
      [0; 4] ++ map (fun i => 8 + 2 * n + i) (range n)
      ++ [2; 6] ++ map (fun i => 8 + 6 * n + i) (range n)
      ++ flat_map (fun i =>
           [8 + n + i; 8 + 9 * n + i] ++ map (fun j => 8 + 12 * n + 2 * n ^ 2 + i + n * j) (range n)) (range n)
      ++ [1; 5] ++ map (fun i => 8 + 4 * n + i) (range n)
      ++ [3; 7] ++ map (fun i => 8 + 7 * n + i) (range n)
      ++ flat_map (fun i =>
           [8 + 3 * n + i; 8 + 10 * n + i] ++ map (fun j => 8 + 12 * n + 3 * n ^ 2 + i + n * j) (range n)) (range n)
      ++ flat_map (fun i =>
           [8 + i; 8 + 8 * n + i] ++ map (fun j => 8 + 12 * n + n ^ 2 + i + n * j) (range n)
           ++ [8 + 5 * n + i; 8 + 11 * n + i] ++ map (fun j => 8 + 12 * n + 4 * n ^ 2 + i + n * j) (range n)
           ++ flat_map (fun j =>
                [8 + 12 * n + i + n * j; 8 + 12 * n + 5 * n ^ 2 + i + n * j]
                ++ map (fun k => 8 + 12 * n + 6 * n ^ 2 + i + n * j + n ^ 2 * k) (range n)) (range n)) (range n))
  | _ => Err RuntimeError
  end%nat.

(** finite_element.py:553-560: the products of the factors' basis functions, each in its own variable x_i
    (i.subs(x[0], x_i)), in the order of itertools.product. *)
Definition in_variable (i : nat) (f : fn point) : fn point := fun v => f (fun _ => v i).
Definition tensor_products (bases : list (list (fn point))) : list (fn point) :=
  map (fun k => fold_left (fun acc f => fun v => acc v * f v) k (fun _ => 1))
      (product (map (fun nb => map (in_variable (fst nb)) (snd nb)) (enumerate bases))).

(** finite_element.py:558-563: basis[p] = product for p, k in zip(perm, ...); then [basis[i] for i in
    range(len(basis))].  A dictionary: a later entry replaces an earlier one with the same key, and a missing key
    is a KeyError. *)
Definition scatter (perm : list nat) (fs : list (fn point)) : res (list (fn point)) :=
  let basis := combine perm fs in
  let keys := nodup Nat.eq_dec (map fst basis) in
  map_r (fun i => match find (fun kv => fst kv =? i)%nat (rev basis) with
                  | Some kv => Ok (snd kv)
                  | None => Err KeyError
                  end) (range (length keys)).

(** Q(...).get_basis_functions(use_tensor_factorisation=True): q.py:96-139 with finite_element.py:543-563 *)
Definition q_basis_functions_tensor (c : cell_type) (order : nat) : res (list (fn point)) :=
  rbind (lagrange_basis_functions (default CInterval) order "equispaced") (fun basis =>
  rbind (q_perm c order) (fun perm => scatter perm (tensor_products (repeat basis (tdim c))))).
