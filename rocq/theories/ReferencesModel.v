(** Model of /repo/symfem/references.py: reference cells, their tables, maps, membership tests,
    integration limits, volumes, tangents, normals and lattices.

    Simplifications: coordinates are real numbers (sympy expressions without free symbols);
    the symbolic maps returned by get_map_to and get_inverse_map_to are functions of the values of
    the symbols x = (x, y, z) (symbols.py:9); division by zero is the real division of Coq where
    sympy gives nan or zoo (only in tangent, normal, Interval and Triangle inverse maps and lattices,
    where the theorems exclude it). *)
From Coq Require Import String Reals Arith Bool Lia List.
From Verif Require Import Base.
Import ListNotations.
Open Scope R_scope.

Definition pt := list R.

(** Values of the three symbols x. *)
Definition env := nat -> R.
Definition env_of (p : pt) : env := fun i => nth i p 0.

(** references.py:763, 892, 1036, 1221, 1414, 1623, 1875, 2102, 2307 (classes). *)
Inductive cell_type :=
| CPoint | CInterval | CTriangle | CTetrahedron | CQuadrilateral | CHexahedron | CPrism | CPyramid
| CDualPolygon (n : nat).

(** references.py:774, 903, 1047, 1232, 1425, 1646, 1896, 2115, 2345 *)
Definition tdim (c : cell_type) : nat :=
  match c with
  | CPoint => 0 | CInterval => 1 | CTriangle | CQuadrilateral | CDualPolygon _ => 2
  | CTetrahedron | CHexahedron | CPrism | CPyramid => 3
  end%nat.

(** references.py:778, 907, 1051, 1240, 1429, 1654-1663, 1904, 2123, 2323-2334 *)
Definition reference_vertices (c : cell_type) : list pt :=
  match c with
  | CPoint => [[]]
  | CInterval => [[0]; [1]]
  | CTriangle => [[0; 0]; [1; 0]; [0; 1]]
  | CTetrahedron => [[0; 0; 0]; [1; 0; 0]; [0; 1; 0]; [0; 0; 1]]
  | CQuadrilateral => [[0; 0]; [1; 0]; [0; 1]; [1; 1]]
  | CHexahedron => [[0; 0; 0]; [1; 0; 0]; [0; 1; 0]; [1; 1; 0];
                    [0; 0; 1]; [1; 0; 1]; [0; 1; 1]; [1; 1; 1]]
  | CPrism => [[0; 0; 0]; [1; 0; 0]; [0; 1; 0]; [0; 0; 1]; [1; 0; 1]; [0; 1; 1]]
  | CPyramid => [[0; 0; 0]; [1; 0; 0]; [0; 1; 0]; [1; 1; 0]; [0; 0; 1]]
  | CDualPolygon n =>
      flat_map (fun tri =>
        let angle := PI * 2 * INR tri / INR n in
        let next_angle := PI * 2 * INR (tri + 1) / INR n in
        [[cos angle; sin angle];
         [(cos next_angle + cos angle) / 2; (sin next_angle + sin angle) / 2]]) (range n)
  end.

(** references.py:780, 909, 1053, 1242, 1431, 1665-1678, 1906, 2125, 2351-2353 *)
Definition edges (c : cell_type) : list (list nat) :=
  match c with
  | CPoint => []
  | CInterval => [[0; 1]]
  | CTriangle => [[1; 2]; [0; 2]; [0; 1]]
  | CTetrahedron => [[2; 3]; [1; 3]; [1; 2]; [0; 3]; [0; 2]; [0; 1]]
  | CQuadrilateral => [[0; 1]; [0; 2]; [1; 3]; [2; 3]]
  | CHexahedron => [[0; 1]; [0; 2]; [0; 4]; [1; 3]; [1; 5]; [2; 3]; [2; 6]; [3; 7]; [4; 5];
                    [4; 6]; [5; 7]; [6; 7]]
  | CPrism => [[0; 1]; [0; 2]; [0; 3]; [1; 2]; [1; 4]; [2; 5]; [3; 4]; [3; 5]; [4; 5]]
  | CPyramid => [[0; 1]; [0; 2]; [0; 4]; [1; 3]; [1; 4]; [2; 3]; [2; 4]; [3; 4]]
  | CDualPolygon n => map (fun i => [i; (i + 1) mod (2 * n)]) (range (2 * n))
  end%nat.

(** references.py:781, 910, 1054, 1243, 1432, 1679-1686, 1907, 2126, 2354 *)
Definition faces (c : cell_type) : list (list nat) :=
  match c with
  | CPoint | CInterval => []
  | CTriangle => [[0; 1; 2]]
  | CTetrahedron => [[1; 2; 3]; [0; 2; 3]; [0; 1; 3]; [0; 1; 2]]
  | CQuadrilateral => [[0; 1; 2; 3]]
  | CHexahedron => [[0; 1; 2; 3]; [0; 1; 4; 5]; [0; 2; 4; 6]; [1; 3; 5; 7]; [2; 3; 6; 7];
                    [4; 5; 6; 7]]
  | CPrism => [[0; 1; 2]; [0; 1; 3; 4]; [0; 2; 3; 5]; [1; 2; 4; 5]; [3; 4; 5]]
  | CPyramid => [[0; 1; 2; 3]; [0; 1; 4]; [0; 2; 4]; [1; 3; 4]; [2; 3; 4]]
  | CDualPolygon n => [range (2 * n)]
  end%nat.

(** references.py:782, 911, 1055, 1244, 1433, 1687, 1908, 2127, 2355 *)
Definition volumes (c : cell_type) : list (list nat) :=
  match c with
  | CTetrahedron => [[0; 1; 2; 3]]
  | CHexahedron => [[0; 1; 2; 3; 4; 5; 6; 7]]
  | CPrism => [[0; 1; 2; 3; 4; 5]]
  | CPyramid => [[0; 1; 2; 3; 4]]
  | _ => []
  end%nat.

(** references.py:783, 912, 1056, 1245, 1434, 1688, 1909-1914, 2128-2133, 2356: the entry
    sub_entity_types[dim], a name, a list of names, or None; indexing past 3 is an IndexError. *)
Inductive entity_types := Same (c : cell_type) | Each (cs : list cell_type) | NoType.
Definition sub_entity_types (c : cell_type) (dim : nat) : res entity_types :=
  match dim with
  | 0 => Ok (Same CPoint)
  | 1 => Ok (match c with CPoint => NoType | _ => Same CInterval end)
  | 2 => Ok (match c with
             | CPoint | CInterval => NoType
             | CTriangle | CTetrahedron => Same CTriangle
             | CQuadrilateral | CHexahedron => Same CQuadrilateral
             | CPrism => Each [CTriangle; CQuadrilateral; CQuadrilateral; CQuadrilateral; CTriangle]
             | CPyramid => Each [CQuadrilateral; CTriangle; CTriangle; CTriangle; CTriangle]
             | CDualPolygon n => Same (CDualPolygon n)
             end)
  | 3 => Ok (match c with
             | CTetrahedron => Same CTetrahedron
             | CHexahedron => Same CHexahedron
             | CPrism => Same CPrism
             | CPyramid => Same CPyramid
             | _ => NoType
             end)
  | _ => Err IndexError
  end%nat.

(** references.py:98-108, 111-121: zip truncates to the shorter argument. *)
Definition vsub (v w : pt) : pt := map (fun ij => fst ij - snd ij) (combine v w).
Definition vadd (v w : pt) : pt := map (fun ij => fst ij + snd ij) (combine v w).
(** references.py:124-137 *)
Definition vdot (v w : pt) : R :=
  fold_left (fun out ij => out + fst ij * snd ij) (combine v w) 0.
(** references.py:140-153 *)
Definition vcross (v w : pt) : res pt :=
  match v, w with
  | [v0; v1; v2], [w0; w1; w2] =>
      Ok [v1 * w2 - v2 * w1; v2 * w0 - v0 * w2; v0 * w1 - v1 * w0]
  | _, _ => Err AssertionError
  end.
(** references.py:156-166 *)
Definition vnorm (v : pt) : R := sqrt (vdot v v).
(** references.py:169-180 *)
Definition vnormalise (v : pt) : pt := map (fun i => i / vnorm v) v.

(** A cell: type, vertices, and the origin and axes stored by the constructor. *)
Record reference := { r_type : cell_type; r_vertices : list pt; r_origin : pt; r_axes : list pt }.
Definition gdim (r : reference) : nat := length (r_origin r).

(** references.py:766-786, 895-915, 1039-1058, 1224-1247, 1417-1436, 1626-1690, 1878-1916,
    2105-2135, 2312-2357: the constructors (without vertices: the default cell, see [default]).
    For a dual polygon vertices[0] is the origin. *)
Definition make_reference (c : cell_type) (vs : list pt) : res reference :=
  match c, vs with
  | CPoint, [v0] => Ok {| r_type := c; r_vertices := vs; r_origin := v0; r_axes := [] |}
  | CInterval, [v0; v1] =>
      Ok {| r_type := c; r_vertices := vs; r_origin := v0; r_axes := [vsub v1 v0] |}
  | CTriangle, [v0; v1; v2] =>
      Ok {| r_type := c; r_vertices := vs; r_origin := v0; r_axes := [vsub v1 v0; vsub v2 v0] |}
  | CTetrahedron, [v0; v1; v2; v3] =>
      Ok {| r_type := c; r_vertices := vs; r_origin := v0;
            r_axes := [vsub v1 v0; vsub v2 v0; vsub v3 v0] |}
  | CQuadrilateral, [v0; v1; v2; v3] =>
      Ok {| r_type := c; r_vertices := vs; r_origin := v0; r_axes := [vsub v1 v0; vsub v2 v0] |}
  | CHexahedron, [v0; v1; v2; v3; v4; v5; v6; v7] =>
      Ok {| r_type := c; r_vertices := vs; r_origin := v0;
            r_axes := [vsub v1 v0; vsub v2 v0; vsub v4 v0] |}
  | CPrism, [v0; v1; v2; v3; v4; v5] =>
      Ok {| r_type := c; r_vertices := vs; r_origin := v0;
            r_axes := [vsub v1 v0; vsub v2 v0; vsub v3 v0] |}
  | CPyramid, [v0; v1; v2; v3; v4] =>
      Ok {| r_type := c; r_vertices := vs; r_origin := v0;
            r_axes := [vsub v1 v0; vsub v2 v0; vsub v4 v0] |}
  | CDualPolygon n, v0 :: vs' =>
      if (length vs' =? 2 * n)%nat
      then Ok {| r_type := c; r_vertices := vs'; r_origin := v0; r_axes := [] |}
      else Err AssertionError
  | _, _ => Err AssertionError
  end.

(** default_reference() and the default arguments of the constructors
    (references.py:766, 788-794, 895, 1039, 1224, 1417, 1626-1638, 1878-1888, 2105, 2337-2338). *)
Definition default (c : cell_type) : reference :=
  match c with
  | CDualPolygon _ =>
      {| r_type := c; r_vertices := reference_vertices c; r_origin := [0; 0]; r_axes := [] |}
  | _ => match make_reference c (reference_vertices c) with
         | Ok r => r
         | Err _ => {| r_type := c; r_vertices := []; r_origin := []; r_axes := [] |}
         end
  end.

(** self.vertices == self.reference_vertices *)
Definition pts_eq_dec : forall a b : list pt, {a = b} + {a <> b} := list_eq_dec (list_eq_dec Req_EM_T).
Definition is_default (r : reference) : bool :=
  if pts_eq_dec (r_vertices r) (reference_vertices (r_type r)) then true else false.

(** references.py:530-553 *)
Definition sub_entities (r : reference) (dim : nat) : res (list (list nat)) :=
  match dim with
  | 0 => Ok (map (fun i => [i]) (range (length (r_vertices r))))
  | 1 => Ok (edges (r_type r))
  | 2 => Ok (faces (r_type r))
  | 3 => Ok (volumes (r_type r))
  | _ => Err ValueError
  end%nat.
(** references.py:541-543: codim given instead of dim; a negative dim raises ValueError. *)
Definition sub_entities_codim (r : reference) (codim : nat) : res (list (list nat)) :=
  if (codim <=? tdim (r_type r))%nat then sub_entities r (tdim (r_type r) - codim) else Err ValueError.
(** references.py:555-567 *)
Definition sub_entity_count (r : reference) (dim : nat) : res nat := rmap (@length _) (sub_entities r dim).

(** l[n] *)
Definition get {A} (l : list A) (n : nat) : res A :=
  match nth_error l n with Some a => Ok a | None => Err IndexError end.
Fixpoint map_r {A B} (f : A -> res B) (l : list A) : res (list B) :=
  match l with
  | [] => Ok []
  | a :: l' => rbind (f a) (fun b => rmap (cons b) (map_r f l'))
  end.

(** references.py:569-598 with create_reference (create.py:64-101).  For the dual polygon itself
    create_reference would receive vertices without the origin; that branch is not reached because
    dim == tdim returns self unless reference_vertices=True. *)
Definition sub_entity (r : reference) (dim n : nat) (use_reference_vertices : bool) : res reference :=
  rbind (sub_entity_types (r_type r) dim) (fun et =>
  rbind (match et with
         | Same c => Ok c
         | Each cs => get cs n
         | NoType => Err AssertionError
         end) (fun c =>
  let build (vs : list pt) :=
    rbind (sub_entities r dim) (fun tab =>
    rbind (get tab n) (fun entity =>
    rbind (map_r (get vs) entity) (fun evs => make_reference c evs))) in
  if use_reference_vertices then build (reference_vertices (r_type r))
  else if (tdim (r_type r) =? dim)%nat then Ok r
  else build (r_vertices r))).

(** references.py:354-360, 1258-1268, 1708-1720, 1933-1945, 2146-2158 *)
Definition z_ordered_entities (r : reference) : list (list (nat * nat)) :=
  match r_type r with
  | CTetrahedron =>
      [[(2, 0); (2, 1); (2, 3); (1, 0); (1, 2); (1, 4); (0, 2)]; [(3, 0)];
       [(2, 2); (1, 1); (1, 3); (1, 5); (0, 0); (0, 1); (0, 3)]]
  | CHexahedron =>
      [[(2, 4); (2, 0); (1, 5); (2, 2); (1, 6); (1, 1); (0, 2)]; [(3, 0)];
       [(2, 3); (1, 3); (1, 7); (0, 3)];
       [(2, 1); (1, 0); (1, 2); (1, 4); (0, 0); (0, 1)];
       [(2, 5); (1, 8); (1, 9); (1, 10); (1, 11); (0, 4); (0, 5); (0, 6); (0, 7)]]
  | CPrism =>
      [[(2, 0); (2, 3); (1, 3)]; [(2, 2); (1, 1); (1, 5); (0, 2)]; [(3, 0)];
       [(2, 1); (1, 0); (1, 2); (1, 4); (0, 0); (0, 1)];
       [(2, 4); (1, 6); (1, 7); (1, 8); (0, 3); (0, 4); (0, 5)]]
  | CPyramid =>
      [[(2, 0); (2, 4); (1, 5)]; [(2, 2); (1, 1); (1, 6); (0, 2)]; [(3, 0)];
       [(2, 3); (1, 3); (1, 7); (0, 3)];
       [(2, 1); (1, 0); (1, 2); (1, 4); (0, 0); (0, 1); (0, 4)]]
  | c =>
      [flat_map (fun i => map (fun j => (i, j))
                            (range (match sub_entity_count r i with Ok k => k | Err _ => 0 end)))
                (rev (range (tdim c + 1)))]
  end%nat.

(** references.py:362-368, 1116-1122, 1500-1506, 2465-2476 *)
Definition z_ordered_entities_extra_dim (r : reference) : list (list (nat * nat)) :=
  match r_type r with
  | CTriangle => [[(1, 0); (1, 1)]; [(0, 2)]; [(2, 0); (1, 2); (0, 0); (0, 1)]]
  | CQuadrilateral =>
      [[(1, 3); (1, 1); (0, 2)]; [(2, 0)]; [(1, 2); (0, 3); (1, 0); (0, 0); (0, 1)]]
  | CDualPolygon number_of_triangles =>
      let N := 2 * number_of_triangles in
      let n := (number_of_triangles + 1) / 2 * 2 in
      [map (fun i => (1, i)) (range n) ++ map (fun i => (0, i)) (range2 1 n);
       [(2, 0)] ++ map (fun i => (1, i)) (range2 n N) ++ [(0, 0)] ++ map (fun i => (0, i)) (range2 n N)]
  | _ => z_ordered_entities r
  end%nat.

(** references.py:370-384: pt starts at the origin; the assertion compares lengths.  Axes with fewer
    coordinates than the origin, which no constructor call on proper vertices gives, are not modelled. *)
Definition get_point (r : reference) (coords : pt) : res pt :=
  if (length coords =? length (r_axes r))%nat
  then Ok (fold_left (fun p ab => map (fun ij => fst ij + snd ij * snd ab) (combine p (fst ab)))
                     (combine (r_axes r) coords) (r_origin r))
  else Err AssertionError.

(** references.py:465-471 *)
Fixpoint zip_star (vs : list pt) : list (list R) :=
  match vs with
  | [] => []
  | [v] => map (fun a => [a]) v
  | v :: vs' => map (fun ac => fst ac :: snd ac) (combine v (zip_star vs'))
  end.
Definition rsum (l : list R) : R := fold_left Rplus l 0.
Definition midpoint (r : reference) : pt :=
  map (fun col => rsum col * 1 / INR (length col)) (zip_star (r_vertices r)).

(** functions.py:1240-1249, 776-782 *)
Definition fnorm (v : pt) : R := sqrt (fold_left (fun a i => a + i ^ 2) v 0).
(** functions.py:1183-1204: cross of two vectors, a scalar in 2D and a vector in 3D. *)
Inductive scalar_or_vector := Scal (a : R) | Vect (v : pt).
Definition fcross (v w : pt) : res scalar_or_vector :=
  match v, w with
  | [v0; v1], [w0; w1] => Ok (Scal (v0 * w1 - v1 * w0))
  | [v0; v1; v2], [w0; w1; w2] =>
      Ok (Vect [v1 * w2 - v2 * w1; v2 * w0 - v0 * w2; v0 * w1 - v1 * w0])
  | _, _ => Err AssertionError
  end.
Definition fabs (s : scalar_or_vector) : R :=
  match s with Scal a => Rabs a | Vect v => fnorm v end.
(** functions.py:1161-1181 and 723-739 *)
Definition fdot (s : scalar_or_vector) (w : pt) : res R :=
  match s with
  | Scal _ => Err NotImplementedError
  | Vect v => if (length v =? length w)%nat
              then Ok (fold_left (fun out ij => out + fst ij * snd ij) (combine v w) 0)
              else Err AssertionError
  end.

(** references.py:473-492 *)
Definition jacobian (r : reference) : res R :=
  if (length (r_axes r) =? tdim (r_type r))%nat then
    match tdim (r_type r), r_axes r with
    | 1%nat, [a0] => Ok (fnorm a0)
    | 2%nat, [a0; a1] => rmap fabs (fcross a0 a1)
    | 3%nat, [a0; a1; a2] => rbind (fcross a0 a1) (fun s => rmap Rabs (fdot s a2))
    | _, _ => Err ValueError
    end
  else Err AssertionError.

(** references.py:870-876, 1014-1020, 1193-1199, 1386-1392, 1601-1607, 1853-1859, 2074-2080,
    2279-2285, 2419-2425 *)
Definition volume (r : reference) : res R :=
  match r_type r with
  | CPoint => Ok 0
  | CInterval | CQuadrilateral | CHexahedron => jacobian r
  | CTriangle | CPrism => rmap (Rmult (1 / 2)) (jacobian r)
  | CTetrahedron => rmap (Rmult (1 / 6)) (jacobian r)
  | CPyramid => rmap (Rmult (1 / 3)) (jacobian r)
  | CDualPolygon _ => Err NotImplementedError
  end.

(** references.py:502-512: the vector is divided by its norm twice (the second norm is 1). *)
Definition tangent (r : reference) : res pt :=
  if (tdim (r_type r) =? 1)%nat then
    match r_axes r with
    | a0 :: _ => let norm := sqrt (fold_left (fun a i => a + i ^ 2) a0 0) in
                 Ok (vnormalise (map (fun i => i / norm) a0))
    | [] => Err IndexError
    end
  else Err RuntimeError.

(** references.py:514-528 *)
Definition normal (r : reference) : res pt :=
  match tdim (r_type r), gdim r, r_axes r with
  | 1%nat, 2%nat, [a] => Ok (vnormalise [- nth 1 a 0; nth 0 a 0])
  | 2%nat, 3%nat, [a; b] => rmap vnormalise (vcross a b)
  | _, _, _ => Err RuntimeError
  end.

(** Python comparisons and lazy conjunction. *)
Definition rle (a b : R) : bool := if Rle_dec a b then true else false.
Definition and_then (a : res bool) (b : res bool) : res bool :=
  match a with Ok true => b | _ => a end.

(** sympy.Matrix(...).inv() for 2x2 and 3x3 matrices given by columns; a singular matrix raises
    NonInvertibleMatrixError, a ValueError.  The result is the list of rows. *)
Definition det2 (c0 c1 : R * R) : R := fst c0 * snd c1 - fst c1 * snd c0.
Definition inv2 (c0 c1 : R * R) : res (list pt) :=
  let d := det2 c0 c1 in
  if Req_EM_T d 0 then Err ValueError
  else Ok [[snd c1 / d; - fst c1 / d]; [- snd c0 / d; fst c0 / d]].
Definition det3 (a b c : R * R * R) : R :=
  match a, b, c with
  | (a0, a1, a2), (b0, b1, b2), (c0, c1, c2) =>
      a0 * (b1 * c2 - b2 * c1) - b0 * (a1 * c2 - a2 * c1) + c0 * (a1 * b2 - a2 * b1)
  end.
Definition inv3 (a b c : R * R * R) : res (list pt) :=
  let d := det3 a b c in
  if Req_EM_T d 0 then Err ValueError
  else match a, b, c with
  | (a0, a1, a2), (b0, b1, b2), (c0, c1, c2) =>
      Ok [[(b1 * c2 - b2 * c1) / d; (b2 * c0 - b0 * c2) / d; (b0 * c1 - b1 * c0) / d];
          [(c1 * a2 - c2 * a1) / d; (c2 * a0 - c0 * a2) / d; (c0 * a1 - c1 * a0) / d];
          [(a1 * b2 - a2 * b1) / d; (a2 * b0 - a0 * b2) / d; (a0 * b1 - a1 * b0) / d]]
  end.
(** v[0], v[1] and v[0], v[1], v[2] *)
Definition first2 (v : pt) : res (R * R) :=
  match v with a :: b :: _ => Ok (a, b) | _ => Err IndexError end.
Definition first3 (v : pt) : res (R * R * R) :=
  match v with a :: b :: c :: _ => Ok (a, b, c) | _ => Err IndexError end.
Definition matrix2_inv (v1 v2 : pt) : res (list pt) :=
  rbind (first2 v1) (fun c0 => rbind (first2 v2) (fun c1 => inv2 c0 c1)).
Definition matrix3_inv (v1 v2 v3 : pt) : res (list pt) :=
  rbind (first3 v1) (fun c0 => rbind (first3 v2) (fun c1 => rbind (first3 v3) (fun c2 => inv3 c0 c1 c2))).

(** tuple(x) *)
Definition xs (e : env) : pt := [e 0%nat; e 1%nat; e 2%nat].

(** The body shared by get_map_to and _compute_map_to_self: references.py:979 and 1002, 1148 and
    1174, 1334-1337 and 1366-1369, 1532-1535 and 1571-1574, 1788-1794 and 1825-1831, 2013-2017 and
    2048-2052, 2216-2221 and 2252-2257, 840 and 860.  A wrong number of vertices is a ValueError of
    the tuple unpacking. *)
Definition map_body (c : cell_type) (vs : list pt) : res (env -> pt) :=
  let cols := zip_star vs in
  let unpack (k : nat) (f : list R -> env -> R) :=
    if forallb (fun col => (length col =? k)%nat) cols
    then Ok (fun e => map (fun col => f col e) cols) else Err ValueError in
  let v (k : nat) (col : list R) := nth k col 0 in
  match c with
  | CPoint => rmap (fun p _ => p) (get vs 0)
  | CInterval => unpack 2%nat (fun w e => v 0%nat w + (v 1%nat w - v 0%nat w) * e 0%nat)
  | CTriangle =>
      unpack 3%nat (fun w e => v 0%nat w + (v 1%nat w - v 0%nat w) * e 0%nat
                           + (v 2%nat w - v 0%nat w) * e 1%nat)
  | CTetrahedron =>
      unpack 4%nat (fun w e => v 0%nat w + (v 1%nat w - v 0%nat w) * e 0%nat
                           + (v 2%nat w - v 0%nat w) * e 1%nat + (v 3%nat w - v 0%nat w) * e 2%nat)
  | CQuadrilateral =>
      unpack 4%nat (fun w e =>
        (1 - e 1%nat) * ((1 - e 0%nat) * v 0%nat w + e 0%nat * v 1%nat w)
        + e 1%nat * ((1 - e 0%nat) * v 2%nat w + e 0%nat * v 3%nat w))
  | CHexahedron =>
      unpack 8%nat (fun w e =>
        (1 - e 2%nat)
        * ((1 - e 1%nat) * ((1 - e 0%nat) * v 0%nat w + e 0%nat * v 1%nat w)
           + e 1%nat * ((1 - e 0%nat) * v 2%nat w + e 0%nat * v 3%nat w))
        + e 2%nat
        * ((1 - e 1%nat) * ((1 - e 0%nat) * v 4%nat w + e 0%nat * v 5%nat w)
           + e 1%nat * ((1 - e 0%nat) * v 6%nat w + e 0%nat * v 7%nat w)))
  | CPrism =>
      unpack 6%nat (fun w e =>
        (1 - e 2%nat) * (v 0%nat w + e 0%nat * (v 1%nat w - v 0%nat w) + e 1%nat * (v 2%nat w - v 0%nat w))
        + e 2%nat * (v 3%nat w + e 0%nat * (v 4%nat w - v 3%nat w) + e 1%nat * (v 5%nat w - v 3%nat w)))
  | CPyramid =>
      unpack 5%nat (fun w e =>
        (1 - e 2%nat)
        * ((1 - e 1%nat) * ((1 - e 0%nat) * v 0%nat w + e 0%nat * v 1%nat w)
           + e 1%nat * ((1 - e 0%nat) * v 2%nat w + e 0%nat * v 3%nat w))
        + e 2%nat * v 4%nat w)
  | CDualPolygon _ => Err NotImplementedError
  end.

(** references.py:969-979 and the other get_map_to (see [map_body]); 2381-2390. *)
Definition get_map_to (r : reference) (vs : list pt) : res (env -> pt) :=
  match r_type r with
  | CDualPolygon _ => Err NotImplementedError
  | c => if is_default r then map_body c vs else Err AssertionError
  end.
(** references.py:419-428 with the _compute_map_to_self (see [map_body]); the memo holds the same value. *)
Definition get_map_to_self (r : reference) : res (env -> pt) := map_body (r_type r) (r_vertices r).

(** for a, b, c, d in faces: assert _vadd(vertices[a], vertices[d]) == _vadd(vertices[b], vertices[c]) *)
Definition parallelogram_ok (vs : list pt) (f : list nat) : res bool :=
  match f with
  | [a; b; c; d] =>
      rbind (get vs a) (fun va => rbind (get vs d) (fun vd =>
      rbind (get vs b) (fun vb => rbind (get vs c) (fun vc =>
      Ok (if list_eq_dec Req_EM_T (vadd va vd) (vadd vb vc) then true else false)))))
  | _ => Err ValueError
  end.
Fixpoint assert_parallelograms (vs : list pt) (fs : list (list nat)) : res unit :=
  match fs with
  | [] => Ok tt
  | f :: fs' => rbind (parallelogram_ok vs f)
                      (fun b => if b : bool then assert_parallelograms vs fs' else Err AssertionError)
  end.
Definition assert_gdim (vs : list pt) (d : nat) : res unit :=
  rbind (get vs 0) (fun v0 => if (length v0 =? d)%nat then Ok tt else Err AssertionError).

(** mat.row(i) dot p for the first k rows *)
Definition apply_rows (k : nat) (rows : list pt) (v0 : pt) : env -> pt :=
  fun e => map (fun row => vdot row (vsub (xs e) v0)) (firstn k rows).
Definition affine_inverse (k : nat) (vs : list pt) (i1 i2 i3 : nat) : res (env -> pt) :=
  rbind (get vs 0) (fun v0 => rbind (get vs i1) (fun v1 => rbind (get vs i2) (fun v2 =>
  rbind (get vs i3) (fun v3 =>
  rmap (fun rows => apply_rows k rows v0) (matrix3_inv (vsub v1 v0) (vsub v2 v0) (vsub v3 v0)))))).
Definition interval_inverse (vs : list pt) : res (env -> pt) :=
  rbind (get vs 0) (fun v0 => rbind (get vs 1) (fun v1 =>
  let v := vsub v1 v0 in
  Ok (fun e => [vdot (vsub (xs e) v0) v * 1 / vdot v v]))).
Definition planar_inverse (vs : list pt) : res (env -> pt) :=
  rbind (get vs 0) (fun v0 => rbind (get vs 1) (fun v1 => rbind (get vs 2) (fun v2 =>
  rmap (fun rows => apply_rows 2 rows v0) (matrix2_inv (vsub v1 v0) (vsub v2 v0))))).
(** references.py:1553-1563 and 1589-1599; [d] is len(self.vertices[0]). *)
Definition quad_inverse (d : nat) (vs : list pt) : res (env -> pt) :=
  rbind (get vs 0) (fun v0 => rbind (get vs 1) (fun v1 => rbind (get vs 2) (fun v2 =>
  rbind (assert_parallelograms vs [[0; 1; 2; 3]%nat]) (fun _ =>
  match d with
  | 2%nat => rmap (fun rows => apply_rows 2 rows v0) (matrix2_inv (vsub v1 v0) (vsub v2 v0))
  | 3%nat => rbind (vcross (vsub v1 v0) (vsub v2 v0)) (fun v3 =>
           rmap (fun rows => apply_rows 2 rows v0) (matrix3_inv (vsub v1 v0) (vsub v2 v0) v3))
  | _ => Err RuntimeError
  end)))).

Definition self_dim (r : reference) : nat := match r_vertices r with v :: _ => length v | [] => 0 end.

(** references.py:842-852, 981-994, 1150-1166, 1339-1358, 1537-1563, 1796-1817, 2019-2040,
    2223-2244, 2392-2401 *)
Definition get_inverse_map_to (r : reference) (vs : list pt) : res (env -> pt) :=
  match r_type r with
  | CDualPolygon _ => Err NotImplementedError
  | c =>
    if is_default r then
      match c with
      | CPoint => rmap (fun p _ => p) (get (r_vertices r) 0)
      | CInterval => interval_inverse vs
      | CTriangle => rbind (assert_gdim vs 2) (fun _ => planar_inverse vs)
      | CTetrahedron => rbind (assert_gdim vs 3) (fun _ => affine_inverse 3 vs 1 2 3)
      | CQuadrilateral => quad_inverse (self_dim r) vs
      | CHexahedron =>
          rbind (assert_gdim vs 3) (fun _ =>
          rbind (assert_parallelograms vs (faces CHexahedron)) (fun _ => affine_inverse 3 vs 1 2 4))
      | CPrism =>
          rbind (assert_gdim vs 3) (fun _ =>
          rbind (assert_parallelograms vs (firstn 3 (skipn 1 (faces CPrism)))) (fun _ =>
          affine_inverse 3 vs 1 2 3))
      | CPyramid =>
          rbind (assert_gdim vs 3) (fun _ =>
          rbind (assert_parallelograms vs (firstn 1 (faces CPyramid))) (fun _ =>
          affine_inverse 3 vs 1 2 4))
      | CDualPolygon _ => Err NotImplementedError
      end
    else Err AssertionError
  end.

(** references.py:438-447 with 862-868, 1004-1012, 1176-1191, 1371-1384, 1576-1599, 1833-1851,
    2054-2072, 2259-2277, 2411-2417 *)
Definition get_inverse_map_to_self (r : reference) : res (env -> pt) :=
  let vs := r_vertices r in
  match r_type r with
  | CPoint => rmap (fun p _ => p) (get (reference_vertices CPoint) 0)
  | CInterval => interval_inverse vs
  | CTriangle =>
      if (self_dim r =? 2)%nat then planar_inverse vs
      else Ok (fun e => map (fun a => vdot (vsub (xs e) (r_origin r)) a * 1 / vnorm a) (r_axes r))
  | CTetrahedron => affine_inverse 3 vs 1 2 3
  | CQuadrilateral => quad_inverse (self_dim r) vs
  | CHexahedron =>
      rbind (assert_gdim vs 3) (fun _ =>
      rbind (assert_parallelograms vs (faces CHexahedron)) (fun _ => affine_inverse 3 vs 1 2 4))
  | CPrism =>
      rbind (assert_gdim vs 3) (fun _ =>
      rbind (assert_parallelograms vs (firstn 3 (skipn 1 (faces CPrism)))) (fun _ =>
      affine_inverse 3 vs 1 2 3))
  | CPyramid =>
      rbind (assert_gdim vs 3) (fun _ =>
      rbind (assert_parallelograms vs (firstn 1 (faces CPyramid))) (fun _ =>
      affine_inverse 3 vs 1 2 4))
  | CDualPolygon _ => Err NotImplementedError
  end.

(** references.py:878-889, 1022-1033, 1201-1218, 1394-1411, 1609-1620, 1861-1872, 2082-2099,
    2287-2304, 2359-2368.  A degenerate triangle divides by 0 (sympy: nan, comparison raises
    TypeError). *)
Definition cmp (p : pt) (i : nat) (f : R -> bool) : res bool := rmap f (get p i).
Definition contains (r : reference) (p : pt) : res bool :=
  match r_type r with
  | CPoint => Ok (if in_dec (list_eq_dec Req_EM_T) p (r_vertices r) then true else false)
  | CInterval =>
      if is_default r then and_then (cmp p 0 (rle 0)) (cmp p 0 (fun a => rle a 1))
      else Err NotImplementedError
  | CTriangle =>
      if is_default r
      then and_then (cmp p 0 (rle 0)) (and_then (cmp p 1 (rle 0)) (Ok (rle (rsum p) 1)))
      else if (gdim r =? 2)%nat then
        let po := vsub p (r_origin r) in
        let a (i j : nat) := nth j (nth i (r_axes r) []) 0 in
        let det := a 0%nat 0%nat * a 1%nat 1%nat - a 0%nat 1%nat * a 1%nat 0%nat in
        rbind (first2 po) (fun q =>
        if Req_EM_T det 0 then Err TypeError
        else
          let t0 := (a 1%nat 1%nat * fst q - a 1%nat 0%nat * snd q) / det in
          let t1 := (a 0%nat 0%nat * snd q - a 0%nat 1%nat * fst q) / det in
          Ok (rle 0 t0 && rle 0 t1 && rle (t0 + t1) 1))
      else Err NotImplementedError
  | CTetrahedron =>
      if is_default r
      then and_then (cmp p 0 (rle 0)) (and_then (cmp p 1 (rle 0))
            (and_then (cmp p 2 (rle 0)) (Ok (rle (rsum p) 1))))
      else
        let po := vsub p (r_origin r) in
        rbind (get (r_axes r) 0) (fun a0 => rbind (get (r_axes r) 1) (fun a1 =>
        rbind (get (r_axes r) 2) (fun a2 =>
        rbind (matrix3_inv a0 a1 a2) (fun minv =>
        rbind (first3 po) (fun _ =>
        let tt_ (i : nat) := vdot (nth i minv []) po in
        Ok (rle 0 (tt_ 0%nat) && rle 0 (tt_ 1%nat) && rle (tt_ 2%nat) 0
            && rle (tt_ 0%nat + tt_ 1%nat + tt_ 2%nat) 1))))))
  | CQuadrilateral =>
      if is_default r
      then and_then (cmp p 0 (rle 0)) (and_then (cmp p 0 (fun a => rle a 1))
            (and_then (cmp p 1 (rle 0)) (cmp p 1 (fun a => rle a 1))))
      else Err NotImplementedError
  | CHexahedron =>
      if is_default r
      then and_then (cmp p 0 (rle 0)) (and_then (cmp p 0 (fun a => rle a 1))
            (and_then (cmp p 1 (rle 0)) (and_then (cmp p 1 (fun a => rle a 1))
            (and_then (cmp p 2 (rle 0)) (cmp p 2 (fun a => rle a 1))))))
      else Err NotImplementedError
  | CPrism =>
      if is_default r
      then and_then (cmp p 0 (rle 0)) (and_then (cmp p 1 (rle 0))
            (and_then (cmp p 2 (rle 0)) (and_then (cmp p 2 (fun a => rle a 1))
            (Ok (rle (nth 0 p 0 + nth 1 p 0) 1)))))
      else Err NotImplementedError
  | CPyramid =>
      if is_default r
      then and_then (cmp p 0 (rle 0)) (and_then (cmp p 1 (rle 0))
            (and_then (cmp p 2 (rle 0)) (Ok (rle (nth 0 p 0 + nth 2 p 0) 1
                                              && rle (nth 1 p 0 + nth 2 p 0) 1))))
      else Err NotImplementedError
  | CDualPolygon _ => Err NotImplementedError
  end.

(** references.py:600-612 *)
Definition at_vertex (r : reference) (p : pt) : bool :=
  if in_dec (list_eq_dec Req_EM_T) p (r_vertices r) then true else false.

(** v0 - point of two VectorFunctions: functions.py:1012-1016 *)
Definition fsub (v w : pt) : res pt :=
  if (length v =? length w)%nat then Ok (vsub v w) else Err AssertionError.

(** references.py:614-632 *)
Definition edge_test (vs : list pt) (e : list nat) (p : pt) : res bool :=
  match e with
  | [i; j] =>
      rbind (get vs i) (fun v0 => rbind (get vs j) (fun v1 =>
      rbind (fsub v0 p) (fun a => rbind (fsub v1 p) (fun b =>
      rmap (fun s => if Req_EM_T (fabs s) 0 then true else false) (fcross a b)))))
  | _ => Err IndexError
  end.
Fixpoint first_true (l : list (res bool)) : res bool :=
  match l with
  | [] => Ok false
  | Ok true :: _ => Ok true
  | Ok false :: l' => first_true l'
  | Err e :: _ => Err e
  end.
Definition on_edge (r : reference) (p : pt) : res bool :=
  first_true (map (fun e => edge_test (r_vertices r) e p) (edges (r_type r))).

(** references.py:634-653: the truth value of a ScalarFunction calls __len__, which raises
    TypeError (functions.py:476-478). *)
Definition face_test (vs : list pt) (f : list nat) (p : pt) : res bool :=
  match f with
  | i :: j :: k :: _ =>
      rbind (get vs i) (fun v0 => rbind (get vs j) (fun v1 => rbind (get vs k) (fun v2 =>
      rbind (fsub v0 p) (fun a => rbind (fsub v1 p) (fun b =>
      rbind (fcross a b) (fun s => rbind (fsub v2 p) (fun c =>
      rbind (fdot s c) (fun _ => Err TypeError))))))))
  | _ => Err IndexError
  end.
Definition on_face (r : reference) (p : pt) : res bool :=
  first_true (map (fun f => face_test (r_vertices r) f p) (faces (r_type r))).

(** references.py:819-828, 958-967, 1124-1136, 1309-1322, 1508-1520, 1763-1776, 1988-2001,
    2191-2204, 2370-2379: the triples (variable, lower, upper), innermost integral first.  A point
    cell substitutes values instead of integrating and is not modelled here. *)
Definition limit := (nat * (env -> R) * (env -> R))%type.
Definition integration_limits (c : cell_type) : res (list limit) :=
  let zero := fun _ : env => 0 in
  let one := fun _ : env => 1 in
  match c with
  | CInterval => Ok [(0%nat, zero, one)]
  | CTriangle => Ok [(1%nat, zero, fun e => 1 - e 0%nat); (0%nat, zero, one)]
  | CTetrahedron => Ok [(0%nat, zero, fun e => 1 - e 1%nat - e 2%nat);
                        (1%nat, zero, fun e => 1 - e 2%nat); (2%nat, zero, one)]
  | CQuadrilateral => Ok [(1%nat, zero, one); (0%nat, zero, one)]
  | CHexahedron => Ok [(2%nat, zero, one); (1%nat, zero, one); (0%nat, zero, one)]
  | CPrism => Ok [(2%nat, zero, one); (1%nat, zero, fun e => 1 - e 0%nat); (0%nat, zero, one)]
  | CPyramid => Ok [(0%nat, zero, fun e => 1 - e 2%nat); (1%nat, zero, fun e => 1 - e 2%nat);
                    (2%nat, zero, one)]
  | CPoint | CDualPolygon _ => Err NotImplementedError
  end.

(** references.py:925-939, 1068-1084, 1278-1295, 1455-1471, 1730-1749, 1955-1974, 796-805,
    2168-2177, 2435-2451. *)
Definition half (n i : nat) : R := INR (2 * i + 1) / INR (2 * (n + 1)).
Definition combine3 (o a0 a1 : pt) : list (R * R * R) := combine (combine o a0) a1.
(** references.py:1068-1084: the lattice of a triangle with this origin and these axes. *)
Definition triangle_lattice (origin : pt) (axes : list pt) (n : nat) : list pt :=
  flat_map (fun i => map (fun j =>
    map (fun oa => nth 0 oa 0
          + (INR (2 * i + 1) * nth 1 oa 0 + INR (2 * j + 1) * nth 2 oa 0) / 2 / INR (n + 1))
        (zip_star (origin :: axes))) (range (n - i))) (range n).
Definition make_lattice (r : reference) (n : nat) : res (list pt) :=
  match r_type r with
  | CInterval =>
      Ok (map (fun i => map (fun col => nth 0 col 0 + (nth 1 col 0 - nth 0 col 0) * half n i)
                            (zip_star (r_vertices r))) (range n))
  | CTriangle =>
      Ok (triangle_lattice (r_origin r) (r_axes r) n)
  | CTetrahedron =>
      Ok (flat_map (fun i => flat_map (fun j => map (fun k =>
            map (fun oa => nth 0 oa 0
                  + (INR (2 * i + 1) * nth 1 oa 0 + INR (2 * j + 1) * nth 2 oa 0
                     + INR (2 * k + 1) * nth 3 oa 0) / 2 / INR (n + 1))
                (zip_star (r_origin r :: r_axes r))) (range (n - i - j))) (range (n - i))) (range n))
  | CQuadrilateral =>
      Ok (flat_map (fun i => map (fun j =>
            map (fun oa => nth 0 oa 0
                  + (INR (2 * i + 1) * nth 1 oa 0 + INR (2 * j + 1) * nth 2 oa 0) / 2 / INR (n + 1))
                (zip_star (r_origin r :: r_axes r))) (range (n + 1))) (range (n + 1)))
  | CHexahedron =>
      if is_default r then
        Ok (flat_map (fun i => flat_map (fun j => map (fun k => [half n i; half n j; half n k])
              (range (n + 1))) (range (n + 1))) (range (n + 1)))
      else Err AssertionError
  | CPrism =>
      if is_default r then
        Ok (flat_map (fun i => flat_map (fun j => map (fun k => [half n i; half n j; half n k])
              (range (n + 1))) (range (n + 1 - i))) (range (n + 1)))
      else Err AssertionError
  | CDualPolygon _ =>
      if is_default r then
        Ok (flat_map (fun v12 => triangle_lattice (r_origin r)
                                   [vsub (fst v12) (r_origin r); vsub (snd v12) (r_origin r)] (n / 2))
              (combine (r_vertices r) (tl (r_vertices r) ++ firstn 1 (r_vertices r))))
      else Err AssertionError
  | CPoint | CPyramid => Err NotImplementedError
  end.

(** references.py:1096-1100, 1483-1487, 951-954: the grid indices of the closed lattice in the
    order of the points, and the points themselves. *)
Definition grid_indices (c : cell_type) (n : nat) : list (nat * nat) :=
  match c with
  | CInterval => map (fun i => (i, 0)) (range n)
  | CTriangle => flat_map (fun i => map (fun j => (i, j)) (range (n - i))) (range n)
  | CQuadrilateral => flat_map (fun i => map (fun j => (i, j)) (range n)) (range n)
  | _ => []
  end%nat.
Definition lattice_lines_points (r : reference) (n : nat) : list pt :=
  match r_type r with
  | CInterval =>
      map (fun i => map (fun col => nth 0 col 0
                           + (nth 1 col 0 - nth 0 col 0) * (INR i / INR (n - 1)))
                        (zip_star (r_vertices r))) (range n)
  | c =>
      map (fun ij => map (fun oa => nth 0 oa 0
                           + (INR (fst ij) * nth 1 oa 0 + INR (snd ij) * nth 2 oa 0) / INR (n - 1))
                         (zip_star (r_origin r :: r_axes r))) (grid_indices c n)
  end.

(** references.py:1101-1105: rows; [s] is the running start. range(n - 1, 0, -1) is rev (range2 1 n). *)
Fixpoint tri_rows (js : list nat) (s : nat) : list (nat * nat) :=
  match js with
  | [] => []
  | j :: js' => map (fun i => (i, i + 1)) (range2 s (s + j)) ++ tri_rows js' (s + j + 1)
  end%nat.
(** references.py:1106-1113: for i in range(n, k, -1) with the running index s. *)
Fixpoint tri_col (is : list nat) (k s : nat) : list (nat * nat) :=
  match is with
  | [] => []
  | i :: is' =>
      (if i =? k + 1 then [] else [(s, s + i)])
      ++ (if k =? 0 then [] else [(s, s + i - 1)])
      ++ tri_col is' k (s + i)
  end%nat.
Definition lattice_lines_pairs (c : cell_type) (n : nat) : list (nat * nat) :=
  match c with
  | CInterval => map (fun i => (i, i + 1)) (range (n - 1))
  | CTriangle =>
      tri_rows (rev (range2 1 n)) 0
      ++ flat_map (fun k => tri_col (rev (range2 (k + 1) (n + 1))) k k) (range (n + 1))
  | CQuadrilateral =>
      flat_map (fun i => flat_map (fun j =>
        let node := i * n + j in
        (if j =? n - 1 then [] else [(node, node + 1)])
        ++ (if i =? n - 1 then []
            else (node, node + n) :: (if j =? 0 then [] else [(node, node + n - 1)])))
        (range n)) (range n)
  | _ => []
  end%nat.
(** references.py:941-956, 1086-1114, 1473-1498; 807-817, 1297-1307, 1751-1761, 1976-1986,
    2179-2189, 2453-2463 raise NotImplementedError. *)
Definition make_lattice_with_lines (r : reference) (n : nat) : res (list pt * list (nat * nat)) :=
  match r_type r with
  | CInterval | CTriangle | CQuadrilateral =>
      Ok (lattice_lines_points r n, lattice_lines_pairs (r_type r) n)
  | _ => Err NotImplementedError
  end.

(** references.py:250-254 *)
Definition cell_type_eq_dec (a b : cell_type) : {a = b} + {a <> b}.
Proof. decide equality. apply Nat.eq_dec. Defined.
Definition same_class (a b : cell_type) : bool :=
  match a, b with
  | CDualPolygon _, CDualPolygon _ => true
  | _, _ => if cell_type_eq_dec a b then true else false
  end.
Definition ref_eqb (a b : reference) : bool :=
  same_class (r_type a) (r_type b) && (if pts_eq_dec (r_vertices a) (r_vertices b) then true else false).
