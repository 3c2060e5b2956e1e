(** Model of elements given by a fixed list of functions and of values, derivatives and weighted values at points:
    symfem/elements/bell.py, hermite.py, argyris.py, morley.py, fortin_soulie.py, rannacher_turek.py, bfs.py and
    kmv.py, and of CiarletElement.get_basis_functions (finite_element.py:676-737) on symbolic functions. *)
From Coq Require Import String Reals ZArith Arith Bool List.
From Verif Require Import Base PolySetsModel.
From Verif Require ReferencesModel CiarletModel MomentsModel.
From Verif Require Import FunctionsModel FunctionalsModel MacroModel.
Import ListNotations.
Local Open Scope R_scope.

Local Notation x0 := (ESym "x"%string).
Local Notation x1 := (ESym "y"%string).
Local Notation x2 := (ESym "z"%string).

(** x[0]**i * x[1]**j * x[2]**k for the exponents of polysets.py:12-40, 168-187 (PolySetsModel.v) *)
Fixpoint power_product (vars : list sym) (m : list nat) : expr :=
  match vars, m with
  | v :: vars', k :: m' => EMul (EPow (ESym v) k) (power_product vars' m')
  | _, _ => ENum 1
  end.
Definition mono_expr (m : list nat) : expr := power_product x_symbols m.

(** polynomial_set_1d(dim, order) as sympy expressions: polysets.py:12-40 *)
Definition polys (dim order : nat) : res (list expr) := rmap (map mono_expr) (polynomial_set_1d dim order).
(** quolynomial_set_1d(dim, order) as sympy expressions: polysets.py:168-187 *)
Definition quolys (dim order : nat) : list expr := map mono_expr (quolynomial_set_1d dim order).

(** reference.vertices != reference.reference_vertices: NonDefaultReferenceError, a NotImplementedError
    (references.py:22-25) *)
Definition default_only {A} (reference : ReferencesModel.reference) (k : res A) : res A :=
  if ReferencesModel.is_default reference then k else Err NotImplementedError.
(** assert condition *)
Definition asserting {A} (condition : bool) (k : res A) : res A := if condition then k else Err AssertionError.
(** reference.name == "triangle" *)
Definition named (reference : ReferencesModel.reference) (name : string) : bool :=
  String.eqb (MomentsModel.cell_name (ReferencesModel.r_type reference)) name.
(** reference.tdim *)
Definition tdim_of (reference : ReferencesModel.reference) : nat := ReferencesModel.tdim (ReferencesModel.r_type reference).

(** tuple(1 if i == j else 0 for j in range(tdim)): hermite.py:37, argyris.py:43, bfs.py:37 *)
Definition unit_index (tdim i : nat) : list nat := map (fun j => if (i =? j)%nat then 1%nat else 0%nat) (range tdim).

(** bell.py:31-38 *)
Definition bell_dofs (vertices : list (list R)) : list tagged :=
  flat_map (fun nv => (PointEvaluation (nums (snd nv)), (0%nat, fst nv)) ::
     map (fun k => (DerivativePointEvaluation (nums (snd nv)) k, (0%nat, fst nv)))
         [[1; 0]; [0; 1]; [2; 0]; [1; 1]; [0; 2]]%nat) (numbered vertices).
(** bell.py:41-45 *)
Definition bell_poly (tdim : nat) : res (list expr) :=
  rmap (fun p => p ++ [x0 ** 5 - x1 ** 5; x0 ** 3 * x1 ** 2 - x0 ** 2 * x1 ** 3; #5 * x0 ** 2 * x1 ** 3 - x0 ** 5]%py)
       (polys tdim 4).
(** bell.py:21-47 *)
Definition make_bell (reference : ReferencesModel.reference) (order : nat) : res (list expr * list tagged) :=
  asserting (named reference "triangle") (asserting (order =? 5)%nat (
  rbind (bell_poly (tdim_of reference)) (fun poly =>
  ciarlet poly (bell_dofs (ReferencesModel.r_vertices reference))))).

(** hermite.py:30-40, bfs.py:30-40: the value and the first derivatives at a vertex *)
Definition first_derivatives (tdim : nat) (n : nat) (v : list R) : list tagged :=
  (PointEvaluation (nums v), (0%nat, n)) ::
  map (fun i => (DerivativePointEvaluation (nums v) (unit_index tdim i), (0%nat, n))) (range tdim).
(** the midpoints of the sub-entities of dimension dim: hermite.py:41-43, rannacher_turek.py:33-35 *)
Definition midpoint_evaluations (reference : ReferencesModel.reference) (dim : nat) : res (list tagged) :=
  rbind (ReferencesModel.sub_entity_count reference dim) (fun n =>
  ReferencesModel.map_r (fun e_n =>
    rmap (fun sub => (PointEvaluation (nums (ReferencesModel.midpoint sub)), (dim, e_n)))
         (ReferencesModel.sub_entity reference dim e_n false)) (range n)).
(** hermite.py:21-48 *)
Definition make_hermite (reference : ReferencesModel.reference) (order : nat) : res (list expr * list tagged) :=
  asserting (order =? 3)%nat (
  rbind (midpoint_evaluations reference 2) (fun mid =>
  rbind (polys (tdim_of reference) order) (fun poly =>
  ciarlet poly (flat_map (fun nv => first_derivatives (tdim_of reference) (fst nv) (snd nv))
                         (numbered (ReferencesModel.r_vertices reference)) ++ mid)))).

(** argyris.py:40-53 *)
Definition argyris_vertex (tdim : nat) (n : nat) (v : list R) : list tagged :=
  (PointEvaluation (nums v), (0%nat, n)) ::
  map (fun i => (PointDirectionalDerivativeEvaluation (nums v) (nums (map INR (unit_index tdim i))), (0%nat, n))) (range tdim) ++
  flat_map (fun i => map (fun j => (PointComponentSecondDerivativeEvaluation (nums v) (i, j), (0%nat, n))) (range (i + 1)))
           (range tdim).
(** argyris.py:27-65; the normal derivatives of lines 54-61 are those of hct.py:46-52 (MacroModel.v) *)
Definition make_argyris (reference : ReferencesModel.reference) (order : nat) : res (list expr * list tagged) :=
  asserting (order =? 5)%nat (asserting (named reference "triangle") (default_only reference (
  rbind (normal_dofs reference) (fun normals =>
  rbind (polys (tdim_of reference) order) (fun poly =>
  ciarlet poly (flat_map (fun nv => argyris_vertex (tdim_of reference) (fst nv) (snd nv))
                         (numbered (ReferencesModel.r_vertices reference)) ++ normals)))))).

(** point evaluations at the vertices: morley.py:33-34 *)
Definition vertex_evaluations (reference : ReferencesModel.reference) : list tagged :=
  map (fun nv => (PointEvaluation (nums (snd nv)), (0%nat, fst nv))) (numbered (ReferencesModel.r_vertices reference)).
(** morley.py:21-45 *)
Definition make_morley (reference : ReferencesModel.reference) (order : nat) : res (list expr * list tagged) :=
  default_only reference (asserting (order =? 2)%nat (asserting (named reference "triangle") (
  rbind (normal_dofs reference) (fun normals =>
  rbind (polys (tdim_of reference) order) (fun poly =>
  ciarlet poly (vertex_evaluations reference ++ normals)))))).

(** fortin_soulie.py:23-48 *)
Definition make_fortin_soulie (reference : ReferencesModel.reference) (order : nat) : res (list expr * list tagged) :=
  asserting (named reference "triangle") (asserting (order =? 2)%nat (default_only reference (
  rbind (polys (tdim_of reference) order) (fun poly =>
  ciarlet poly
    [(PointEvaluation (nums [2 / 3; 1 / 3]), (1, 0)%nat);
     (PointEvaluation (nums [1 / 3; 2 / 3]), (1, 0)%nat);
     (PointEvaluation (nums [0; 1 / 3]), (1, 1)%nat);
     (PointEvaluation (nums [0; 2 / 3]), (1, 1)%nat);
     (PointEvaluation (nums [1 / 2; 0]), (1, 2)%nat);
     (PointEvaluation (nums [1 / 3; 1 / 3]), (2, 0)%nat)])))).

(** rannacher_turek.py:21-43.  For a point tdim - 1 is negative: sub_entities raises ValueError (references.py:533-553). *)
Definition make_rannacher_turek (reference : ReferencesModel.reference) (order : nat) : res (list expr * list tagged) :=
  asserting (order =? 1)%nat (default_only reference (
  if (tdim_of reference =? 0)%nat then Err ValueError else
  rbind (midpoint_evaluations reference (tdim_of reference - 1)) (fun dofs =>
  ciarlet (if named reference "quadrilateral" then [#1; x0; x1; x0 ** 2 - x1 ** 2]%py
           else [#1; x0; x1; x2; x0 ** 2 - x1 ** 2; x1 ** 2 - x2 ** 2]%py) dofs))).

(** bfs.py:21-51 *)
Definition make_bfs (reference : ReferencesModel.reference) (order : nat) : res (list expr * list tagged) :=
  asserting (order =? 3)%nat (
  ciarlet (quolys (tdim_of reference) order)
    (flat_map (fun nv => first_derivatives (tdim_of reference) (fst nv) (snd nv) ++
       (if (tdim_of reference =? 2)%nat
        then [(DerivativePointEvaluation (nums (snd nv)) [1; 1]%nat, (0%nat, fst nv))] else []))
     (numbered (ReferencesModel.r_vertices reference)))).

(** kmv.py:21-37; for mf < 3 the range of line 35 is empty *)
Definition kmv_tri_polyset (m mf : nat) : res (list expr) :=
  rmap (fun poly => poly ++ map (fun p => (x0 ** p * x1 ** (mf - 3 - p) * (x0 * x1 * (#1 - x0 - x1)))%py) (range (mf - 2)))
       (polys 2 m).
(** kmv.py:40-66.  Line 64 has the exponent mf - 4 - i - j with mf where mi is meant; it is only used with mf = mi. *)
Definition kmv_tet_polyset (m mf mi : nat) : res (list expr) :=
  rmap (fun poly => poly ++
    flat_map (fun axes : expr * expr =>
      let b := (fst axes * snd axes * (#1 - fst axes - snd axes))%py in
      flat_map (fun i => map (fun j => (x0 ** i * x1 ** j * x2 ** (mf - 3 - i - j) * b)%py) (range (mf - 2 - i))) (range (mf - 2)))
      [(x0, x1); (x0, x2); (x1, x2); (esub x1 x0, esub x2 x0)] ++
    flat_map (fun i => map (fun j => (x0 ** i * x1 ** j * x2 ** (mf - 4 - i - j) * (x0 * x1 * x2 * (#1 - x0 - x1 - x2)))%py)
                           (range (mi - 3 - i))) (range (mi - 3)))
       (polys 3 m).

(** A point, its weight and its entity; WeightedPointEvaluation(reference, point, weight, entity) *)
Definition weighted := (list R * R * (nat * nat))%type.
Definition weighted_dof (w : weighted) : tagged :=
  (WeightedPointEvaluation (nums (fst (fst w))) (ENum (snd (fst w))), snd w).
(** tuple(f(i, j) for i, j in zip(p, q)) *)
Definition zip2 (f : R -> R -> R) (p q : list R) : list R := map (fun ij => f (fst ij) (snd ij)) (combine p q).
(** tuple(a + beta * (b - a) + beta * (c - a) for a, b, c in zip(p, q, r)): kmv.py:153, 200 *)
Definition inner_point (beta : R) (p q r : list R) : list R :=
  map (fun abc => fst (fst abc) + beta * (snd (fst abc) - fst (fst abc)) + beta * (snd abc - fst (fst abc))) (combine (combine p q) r).
(** reference.vertices[i] *)
Definition vertex (vertices : list (list R)) (i : nat) : list R := nth i vertices [].
(** the points (a, b, c) of kmv.py:149, 195 *)
Definition rotations : list (nat * nat * nat) := [(0, 1, 2); (1, 2, 0); (2, 0, 1)]%nat.

(** kmv.py:82-86, 90-94, 123-129, ...: the vertices with a weight *)
Definition kmv_vertices (vertices : list (list R)) (w : R) : list weighted :=
  map (fun nv => (snd nv, w, (0%nat, fst nv))) (numbered vertices).
(** kmv.py:96-105, 183-191: the midpoints of the edges *)
Definition kmv_midpoints (vertices : list (list R)) (edges : list (list nat)) (w : R) : list weighted :=
  map (fun ne => (zip2 (fun i j => (i + j) / 2) (vertex vertices (nth 0 (snd ne) 0%nat)) (vertex vertices (nth 1 (snd ne) 0%nat)), w, (1%nat, fst ne)))
      (numbered edges).
(** kmv.py:130-152: two points on every edge *)
Definition kmv_edge_points (vertices : list (list R)) (edges : list (list nat)) (alpha w : R) : list weighted :=
  flat_map (fun ne =>
    let a := vertex vertices (nth 0 (snd ne) 0%nat) in let b := vertex vertices (nth 1 (snd ne) 0%nat) in
    [(zip2 (fun i j => i + (j - i) * alpha) a b, w, (1%nat, fst ne)); (zip2 (fun i j => j + (i - j) * alpha) a b, w, (1%nat, fst ne))])
    (numbered edges).
(** kmv.py:149-160, 193-206: three points in a triangle *)
Definition kmv_face_points (vertices : list (list R)) (face : list nat) (alpha w : R) (entity : nat * nat) : list weighted :=
  map (fun abc : nat * nat * nat => let (ab, c) := abc in
         (inner_point alpha (vertex vertices (nth (fst ab) face 0%nat)) (vertex vertices (nth (snd ab) face 0%nat)) (vertex vertices (nth c face 0%nat)), w, entity))
      rotations.

(** kmv.py:130, 148 *)
Definition kmv_alpha3 : R := 1 / 2 - sqrt (411 - 84 * (7 - sqrt 7)) / 42.
Definition kmv_beta3 : R := (1 - 1 / sqrt 7) / 3.

(** kmv.py:79-225: the points with weights and the functions *)
Definition kmv_rule (reference : ReferencesModel.reference) (order : nat) : res (list weighted * res (list expr)) :=
  let vs := ReferencesModel.r_vertices reference in
  let edges := ReferencesModel.edges (ReferencesModel.r_type reference) in
  let faces := ReferencesModel.faces (ReferencesModel.r_type reference) in
  if named reference "triangle" then
    match order with
    | 1%nat => Ok (kmv_vertices vs (1 / 6), kmv_tri_polyset 1 1)
    | 2%nat => Ok (kmv_vertices vs (1 / 40) ++ kmv_midpoints vs edges (1 / 15) ++ [([1 / 3; 1 / 3], 9 / 40, (2, 0)%nat)], kmv_tri_polyset 2 3)
    | 3%nat => Ok (kmv_vertices vs (1 / 90 - sqrt 7 / 720) ++ kmv_edge_points vs edges kmv_alpha3 (7 / 720 - sqrt 7 / 180) ++
                   kmv_face_points vs [0; 1; 2]%nat kmv_beta3 (49 / 360 - 7 * sqrt 7 / 720) (2, 0)%nat, kmv_tri_polyset 3 4)
    | _ => Err NotImplementedError
    end
  else if named reference "tetrahedron" then
    match order with
    | 1%nat => Ok (kmv_vertices vs (1 / 24), kmv_tet_polyset 1 1 1)
    | 2%nat => Ok (kmv_vertices vs ((13 - 3 * sqrt 13) / 10080) ++ kmv_midpoints vs edges ((4 - sqrt 13) / 315) ++
                   flat_map (fun nf => kmv_face_points vs (snd nf) ((7 - sqrt 13) / 18) ((29 + 17 * sqrt 13) / 10080) (2%nat, fst nf)) (numbered faces) ++
                   [([1 / 4; 1 / 4; 1 / 4], 16 / 315, (3, 0)%nat)], kmv_tet_polyset 2 4 4)
    | _ => Err NotImplementedError
    end
  else Err NotImplementedError.
(** kmv.py:72-228 *)
Definition make_kmv (reference : ReferencesModel.reference) (order : nat) : res (list expr * list tagged) :=
  default_only reference (
  rbind (kmv_rule reference order) (fun wp =>
  rbind (snd wp) (fun poly => ciarlet poly (map weighted_dof (fst wp))))).

(** finite_element.py:730-735: ScalarFunction(minv[i, 0]) * pb[0], then the other products added one by one *)
Definition function_row (row : list R) (pb : list expr) : expr :=
  match row, pb with
  | c0 :: cs, p0 :: ps => fold_left (fun sf cd => EAdd sf (EMul (ENum (fst cd)) (snd cd))) (combine cs ps) (EMul (ENum c0) p0)
  | _, _ => ENum 0
  end.
(** finite_element.py:725-737 given the matrix of get_dual_matrix() (lines 700-705); an empty element is not modelled
    (minv[0, 0] would raise) *)
Definition element_functions (dual_matrix : list (list R)) (pb : list expr) : res (list expr) :=
  rmap (fun minv => map (fun i => function_row (nth i minv []) pb) (range (length pb))) (CiarletModel.inv_LU dual_matrix).
