(** Dual elements on the barycentric polygon: symfem/elements/dual.py. *)
From Coq Require Import String Arith ZArith Bool Reals List.
From Verif Require Import Base PolyLib ReferencesModel GeometryModel PiecewiseModel CiarletModel ElementModel LagrangeModel BubbleModel.
Import ListNotations.
Open Scope R_scope.

(** l[i] with a possibly negative index *)
Definition py_index (len : nat) (i : Z) : res nat :=
  if ((0 <=? i) && (i <? Z.of_nat len))%Z then Ok (Z.to_nat i)
  else if ((- Z.of_nat len <=? i) && (i <? 0))%Z then Ok (Z.to_nat (i + Z.of_nat len))
  else Err IndexError.
(** l[i] = v *)
Definition set_nth {A} (l : list A) (i : nat) (v : A) : list A := firstn i l ++ v :: skipn (S i) l.
(** row[i][k] = v *)
Definition set2 (row : list (list R)) (i : Z) (k : nat) (v : R) : res (list (list R)) :=
  rbind (py_index (length row) i) (fun i =>
  rbind (get row i) (fun c => if (k <? length c)%nat then Ok (set_nth row i (set_nth c k v)) else Err IndexError)).
Fixpoint sets (row : list (list R)) (items : list (Z * nat * R)) : res (list (list R)) :=
  match items with [] => Ok row | (i, k, v) :: items' => rbind (set2 row i k v) (fun row => sets row items') end.

(** dual.py:228-247.  Iteration j of the loop only assigns to dual_coefficients[j], so the loop is written row by row. *)
Definition dual_row (n j : nat) : res (list (list R)) :=
  let z := (2 * Z.of_nat j)%Z in
  sets (map (fun _ => [1 / INR n; 0; 0]) (range (2 * n)))
    [((z - 1)%Z, 2%nat, 1); (z, 1%nat, 1); ((z - 2)%Z, 2%nat, 1 / 2); ((z - 1)%Z, 1%nat, 1 / 2); (z, 2%nat, 1 / 2); ((z + 1)%Z, 1%nat, 1 / 2)].
Definition dual_coefficients (n order : nat) : res (list (list (list R))) :=
  if (order =? 0)%nat then Ok [map (fun _ => [1]) (range (2 * n))] else map_r (dual_row n) (range n).
(** dual.py:231, 249 *)
Definition dual_entities (n order : nat) : list (nat * nat) :=
  if (order =? 0)%nat then [(2, 0)%nat] else map (fun i => (0, 2 * i)%nat) (range n).
(** dual.py:132-146 *)
Definition dual_entity_dofs (n order entity_dim entity_number : nat) : list nat :=
  map fst (filter (fun ie : nat * (nat * nat) => ((fst (snd ie) =? entity_dim) && (snd (snd ie) =? entity_number))%nat)
    (combine (range (length (dual_entities n order))) (dual_entities n order))).

(** A function given by a value on each sub-triangle (the dictionary of dual.py:104, 125; the keys are the sub-triangles,
    which differ if there are at least three triangles). *)
Definition pieces A := list (list pt * (point -> A)).

(** dual.py:103-125 for one list of coefficients and scalar functions: the functions of the fine space mapped to the
    sub-triangle (mapping "identity": composition with the inverse map, mappings.py:51-74), times the coefficients. *)
Definition sub_triangles (reference : reference) : list (list pt) :=
  map (fun vw => [r_origin reference; fst vw; snd vw]) (combine (r_vertices reference) (skipn 1 (r_vertices reference) ++ firstn 1 (r_vertices reference))).
Definition dual_function (reference : reference) (phi : list (fn point)) (coeff_list : list (list R)) : res (pieces R) :=
  map_r (fun cc => rmap (fun inv => (snd cc, fun e => fold_left (fun s ab => s + fst ab * snd ab (env_of (inv e))) (combine (fst cc) phi) 0))
                        (get_inverse_map_to (default CTriangle) (snd cc)))
        (combine coeff_list (sub_triangles reference)).

(** create_element with the orders of dual.py:275-276, DualCiarletElement.__init__ (51-52: NonDefaultReferenceError is a
    NotImplementedError) and get_basis_functions (97-131) of Dual *)
Definition dual_functions (reference : reference) (order : nat) : res (list (pieces R)) :=
  match r_type reference with
  | CDualPolygon n =>
      if (1 <? order)%nat then Err ValueError else
      rbind (dual_coefficients n order) (fun cs =>
      if negb (is_default reference) then Err NotImplementedError else
      rbind (lagrange_functions (default CTriangle) order "equispaced") (fun phi =>
      rbind (map_r (dual_function reference phi) cs) (fun bfs =>
      if (length bfs =? length (dual_entities n order))%nat then Ok bfs else Err AssertionError)))
  | _ => Err ValueError
  end.

(** PiecewiseFunction.get_piece and evaluation at a point: piecewise_functions.py:129-160 (see PiecewiseModel.v), here for
    pieces that are functions of the point *)
Fixpoint value_at {A} (f : pieces A) (p : pt) : res A :=
  match f with
  | [] => Err NotImplementedError
  | (cell, g) :: rest => rbind (in_cell false 2 p cell) (fun b => if b then Ok (g (env_of p)) else value_at rest p)
  end.

(** * Buffa-Christiansen *)
(** dual.py:296-306; N = 2 * number_of_triangles, the loops written row by row as above *)
Definition bc_row (n j : nat) : res (list (list R)) :=
  let N := (2 * n)%nat in
  let z := (2 * Z.of_nat j)%Z in
  sets (map (fun _ => [0; 0; 0]) (range N))
    ((z, 0%nat, -1 / 2) :: ((z - 1)%Z, 0%nat, -1 / 2) ::
     flat_map (fun i => let val := (INR i + 1 - INR (N / 2)) / INR N in
       [(Z.of_nat ((2 * j + i) mod N), 2%nat, val); (Z.of_nat ((2 * j + i + 1) mod N), 1%nat, val)]) (range (N - 1))).
Definition bc_coefficients (n : nat) : res (list (list (list R))) := map_r (bc_row n) (range n).

Definition vfn := point -> R * R.
(** rt.py:32-34 for the triangle and order 1: the polynomial set *)
Definition rt_poly : list vfn := [fun _ => (1, 0); fun _ => (0, 1); fun v => (v 0%nat, v 1%nat)].
(** rt.py:36-38, the normal integral moments against the constant 1 (Lagrange of order 0) on facet e of the default
    triangle: the integrand of functionals.py:1578-1608 and 1275-1307 as a function of the parameter of the facet *)
Definition rt_integrand (e : nat) (f : vfn) : res (R -> R) :=
  rbind (sub_entity (default CTriangle) 1 e false) (fun domain =>
  rbind (get (r_axes domain) 0) (fun axis =>
  rbind (normal domain) (fun nrm =>
  rbind (jacobian domain) (fun jac =>
  Ok (fun t => let v := f (env_of (map (fun oa => fst oa + snd oa * t) (combine (r_origin domain) axis))) in
               (fst v * nth 0 nrm 0 + snd v * nth 1 nrm 0) * jac))))).

(** dual.py:103-125 for vector functions: each function of the fine space is mapped by "contravariant"
    (mappings.py:116-140: the jacobian of the map times the function, divided by its determinant, composed with the
    inverse map), times the coefficients.  The jacobian of the affine map has the columns v1 - v0, v2 - v0. *)
Definition contravariant_on (cell : list pt) (inv : env -> pt) (f : vfn) : vfn := fun e =>
  let v0 := nth 0 cell [] in let v1 := nth 1 cell [] in let v2 := nth 2 cell [] in
  let a := vsub v1 v0 in let b := vsub v2 v0 in
  let det := nth 0 a 0 * nth 1 b 0 - nth 0 b 0 * nth 1 a 0 in
  let w := f (env_of (inv e)) in
  ((nth 0 a 0 * fst w + nth 0 b 0 * snd w) / det, (nth 1 a 0 * fst w + nth 1 b 0 * snd w) / det).
Definition bc_function (reference : reference) (phi : list vfn) (coeff_list : list (list R)) : res (pieces (R * R)) :=
  map_r (fun cc => rmap (fun inv => (snd cc, fun e =>
      (fold_left (fun s ab => s + fst ab * fst (contravariant_on (snd cc) inv (snd ab) e)) (combine (fst cc) phi) 0,
       fold_left (fun s ab => s + fst ab * snd (contravariant_on (snd cc) inv (snd ab) e)) (combine (fst cc) phi) 0)))
    (get_inverse_map_to (default CTriangle) (snd cc)))
    (combine coeff_list (sub_triangles reference)).
(** dual.py:285-324 and 97-131; [phi]: the basis functions of the Raviart-Thomas element of order 1 on the default triangle *)
Definition bc_functions (reference : reference) (order : nat) (phi : list vfn) : res (list (pieces (R * R))) :=
  match r_type reference with
  | CDualPolygon n =>
      if negb (order =? 1)%nat then Err ValueError else
      rbind (bc_coefficients n) (fun cs =>
      if negb (is_default reference) then Err NotImplementedError else
      rbind (map_r (bc_function reference phi) cs) (fun bfs =>
      if (length bfs =? length (dual_entities n 1))%nat then Ok bfs else Err AssertionError))
  | _ => Err ValueError
  end.
