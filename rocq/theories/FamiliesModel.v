(** Model of the constructors of the element families built from integral moments and point evaluations: how many
    functions their polynomial sets have, how many degrees of freedom they define and on which sub-entities.

    Files of /repo/symfem/elements: lagrange.py, rt.py, nedelec.py, bdm.py, bdfm.py, q.py, dpc.py, serendipity.py,
    trimmed_serendipity.py, abf.py, ac.py, bddf.py, mtw.py, nedelec_prism.py, lagrange_prism.py, regge.py, hhj.py,
    huang_zhang.py, aw.py, taylor.py.

    Simplified: of a degree of freedom only its class, its entity and its mapping are kept, not the function it
    integrates against nor its point (LagrangeModel keeps the points).  The variants "legendre" and "lobatto" of
    the Lagrange elements are not modelled.  make_integral_moment_dofs also computes the basis functions of the
    elements it takes the moments against; that they exist is not part of this model.  A matrix valued polynomial
    is the list of its entries, row by row. *)
From Coq Require Import String ZArith Arith Bool Reals List.
From Verif Require Import Base PolyLib PolySetsModel QuadratureModel ReferencesModel CiarletModel MomentsModel ElementModel
  LagrangeModel.
Import ListNotations.
Local Open Scope string_scope.
Local Open Scope nat_scope.

(** The classes, by their names in the files above; QNedelec and QRaviartThomas are the classes Nedelec and
    RaviartThomas of q.py, NedelecPrism is the class Nedelec of nedelec_prism.py, LagrangePrism and
    VectorLagrangePrism are the classes Lagrange and VectorLagrange of lagrange_prism.py. *)
Inductive family :=
| Lagrange | VectorLagrange | MatrixLagrange | SymmetricMatrixLagrange
| RaviartThomas | NedelecFirstKind | NedelecSecondKind | BDM | BDFM
| Q | VectorQ | QNedelec | QRaviartThomas | DPC | VectorDPC
| Serendipity | SerendipityCurl | SerendipityDiv | TrimmedSerendipityHcurl | TrimmedSerendipityHdiv
| ArnoldBoffiFalk | ArbogastCorrea | BDDF | MardalTaiWinther | NedelecPrism | LagrangePrism | VectorLagrangePrism
| Regge | ReggeTP | HellanHerrmannJohnson | HuangZhang | ArnoldWinther | NonConformingArnoldWinther | Taylor.

(** The attribute min_order: lagrange.py:109, 186, 256, 349; rt.py:76; nedelec.py:71, 127; bdm.py:73; bdfm.py:135;
    q.py:167, 235, 295, 354; dpc.py:92, 157; serendipity.py:89, 151, 210; trimmed_serendipity.py:141, 242; abf.py:98;
    ac.py:99; bddf.py:99; mtw.py:119; nedelec_prism.py:120; lagrange_prism.py:138, 203; regge.py:196, 424; hhj.py:143;
    huang_zhang.py:97; aw.py:153, 254; taylor.py:62 *)
Definition min_order (f : family) : nat :=
  match f with
  | Lagrange | VectorLagrange | MatrixLagrange | SymmetricMatrixLagrange | Q | VectorQ | DPC | VectorDPC
  | ArnoldBoffiFalk | ArbogastCorrea | LagrangePrism | VectorLagrangePrism | Regge | ReggeTP
  | HellanHerrmannJohnson | Taylor => 0
  | RaviartThomas | NedelecFirstKind | NedelecSecondKind | BDM | BDFM | QNedelec | QRaviartThomas
  | Serendipity | SerendipityCurl | SerendipityDiv | TrimmedSerendipityHcurl | TrimmedSerendipityHdiv
  | BDDF | NedelecPrism => 1
  | HuangZhang | NonConformingArnoldWinther => 2
  | MardalTaiWinther | ArnoldWinther => 3
  end.

(** The attribute max_order (None: there is none): mtw.py:120, nedelec_prism.py:121, aw.py:255 *)
Definition max_order (f : family) : option nat :=
  match f with
  | MardalTaiWinther => Some 3 | NedelecPrism => Some 2 | NonConformingArnoldWinther => Some 2 | _ => None
  end.

(** The attribute references: lagrange.py:108, 185, 255, 348; rt.py:75; nedelec.py:70, 126; bdm.py:72; bdfm.py:134;
    q.py:166, 234, 294, 353; dpc.py:91, 156; serendipity.py:88, 150, 209; trimmed_serendipity.py:140, 241; abf.py:97;
    ac.py:98; bddf.py:98; mtw.py:118; nedelec_prism.py:119; lagrange_prism.py:137, 202; regge.py:195, 423; hhj.py:142;
    huang_zhang.py:96; aw.py:152, 253; taylor.py:61 *)
Definition references (f : family) : list cell_type :=
  match f with
  | Lagrange | VectorLagrange | Taylor => [CInterval; CTriangle; CTetrahedron]
  | MatrixLagrange | SymmetricMatrixLagrange | RaviartThomas | NedelecFirstKind | NedelecSecondKind | BDM
  | MardalTaiWinther | Regge | HellanHerrmannJohnson => [CTriangle; CTetrahedron]
  | BDFM => [CTriangle; CQuadrilateral; CHexahedron; CTetrahedron]
  | Q | VectorQ | QNedelec | QRaviartThomas | VectorDPC | SerendipityCurl | SerendipityDiv
  | TrimmedSerendipityHcurl | TrimmedSerendipityHdiv | ReggeTP => [CQuadrilateral; CHexahedron]
  | DPC | Serendipity => [CInterval; CQuadrilateral; CHexahedron]
  | ArnoldBoffiFalk | ArbogastCorrea | HuangZhang => [CQuadrilateral]
  | BDDF => [CHexahedron]
  | NedelecPrism | LagrangePrism | VectorLagrangePrism => [CPrism]
  | ArnoldWinther | NonConformingArnoldWinther => [CTriangle]
  end.

(** A degree of freedom: its class, the attributes entity and mapping. *)
Record fdof := { f_class : string; f_entity : Z * nat; f_mapping : option string }.
(** What an element object holds: the attributes _basis and dofs (finite_element.py:596-640). *)
Record fe := { fe_poly : list vpoly; fe_dofs : list fdof }.

(** finite_element.py:615 *)
Definition ciarlet (poly : list vpoly) (dofs : list fdof) : res fe :=
  if length poly =? length dofs then Ok {| fe_poly := poly; fe_dofs := dofs |} else Err AssertionError.

(** [if reference.vertices != reference.reference_vertices: raise NonDefaultReferenceError()], a
    NotImplementedError (references.py:36-37): bdm.py:32-33 and the other files. *)
Definition default_cell {A} (r : reference) (k : res A) : res A := if is_default r then k else Err NotImplementedError.
(** assert *)
Definition asserted {A} (b : bool) (k : res A) : res A := if b then k else Err AssertionError.

(** references.py:666-675: on other cells than the default one the polynomials are composed with the inverse of the
    map to the cell.  Simplified: the polynomials are returned as they are before the composition. *)
Definition map_polyset_from_default (r : reference) (poly : list vpoly) : res (list vpoly) :=
  if is_default r then Ok poly else rmap (fun _ => poly) (get_inverse_map_to_self r).

(** The scalar polynomial of a monomial, as a vector with one entry. *)
Definition scalar (m : mono) : vpoly := [[(1%Z, m)]].
(** Field with one monomial entry: (0, ..., m, ..., 0) *)
Definition unit_entry (dim i : nat) (m : mono) : vpoly := map (fun j => if i =? j then [(1%Z, m)] else []) (range dim).
(** Products of polynomials, for the sets that are written as products. *)
Definition mono_mul (a b : mono) : mono := map (fun ij => fst ij + snd ij) (combine a b).
Definition zmul (p q : zpoly) : zpoly :=
  flat_map (fun s => map (fun t => ((fst s * fst t)%Z, mono_mul (snd s) (snd t))) q) p.
Definition zscale (c : Z) (p : zpoly) : zpoly := map (fun t => ((c * fst t)%Z, snd t)) p.
(** ScalarFunction(m).grad(dim): functions.py:527-540 *)
Definition mono_grad (dim : nat) (m : mono) : vpoly := map (fun i => zdiff i [(1%Z, m)]) (range dim).

(** A point evaluation of LagrangeModel. *)
Definition of_point (d : point_dof) : fdof :=
  {| f_class := "PointEvaluation"; f_entity := (Z.of_nat (fst (snd d)), snd (snd d)); f_mapping := Some "identity" |}.
(** A functional with the given class and mapping on an entity. *)
Definition on (cls : string) (mapping : option string) (dim e : nat) : fdof :=
  {| f_class := cls; f_entity := (Z.of_nat dim, e); f_mapping := mapping |}.
(** The same degree of freedom once for every direction: lagrange.py:145-153, 213-214, 309-310; q.py:200-202;
    dpc.py:121-123 *)
Definition per_direction (directions : nat) (d : fdof) : list fdof :=
  map (fun _ => {| f_class := "DotPointEvaluation"; f_entity := f_entity d; f_mapping := Some "identity" |}) (range directions).

(** Symmetric matrices from the vectors of polynomial_set_vector: ((p0, p1), (p1, p2)), lagrange.py:290, regge.py:49,
    hhj.py:49, aw.py:43; for 3 by 3 matrices lagrange.py:295, hhj.py:56 and (with other indices) regge.py:54 *)
Definition sym_entries (ix : list nat) (p : vpoly) : vpoly := map (fun i => nth i p []) ix.
Definition sym2 : list nat := [0; 1; 1; 2].
Definition sym3 : list nat := [0; 1; 2; 1; 3; 4; 2; 4; 5].
Definition sym3_regge : list nat := [0; 1; 3; 1; 2; 4; 3; 4; 5].

(** The class of a functional or of an element, as given to make_integral_moment_dofs; keyword arguments are
    {"variant": variant}. *)
Definition cls := (family + string)%type.
Definition moment_data (functional : string) (element : family) (order : Z) (mapping : option string) (variant : string)
    : mval cls string :=
  MTuple cls string (
    [MType cls string (inr functional); MType cls string (inl element); MInt cls string order] ++
    match mapping with Some m => [MStr cls string m] | None => [] end ++
    [MDict cls string [] variant])%list.
(** A functional class has no min_order (AttributeError, here TypeError). *)
Definition cls_min_order (c : cls) : res Z :=
  match c with inl f => Ok (Z.of_nat (min_order f)) | inr _ => Err TypeError end.
Definition no_moments : moment_args cls string :=
  {| vertices := None; edges_ := None; faces_ := None; volumes_ := None; cells := None; facets := None; ridges := None; peaks := None |}.
Definition by_dimension e f v : moment_args cls string :=
  {| vertices := None; edges_ := e; faces_ := f; volumes_ := v; cells := None; facets := None; ridges := None; peaks := None |}.
Definition by_codimension f c : moment_args cls string :=
  {| vertices := None; edges_ := None; faces_ := None; volumes_ := None; cells := c; facets := f; ridges := None; peaks := None |}.
Definition class_name (c : cls) : string := match c with inr s => s | inl _ => "" end.
Definition of_moment (d : dof cls string) : fdof :=
  {| f_class := class_name (d_class cls string d); f_entity := d_entity cls string d; f_mapping := d_mapping cls string d |}.

(** * Polynomial sets *)

(** bdfm.py:24-70; other cells: only the first set *)
Definition bdfm_polyset (c : cell_type) (order : nat) : res (list vpoly) :=
  let dim := tdim c in
  let x i : zpoly := [(1%Z, map (fun j => if i =? j then 1 else 0) (range dim))] in
  let mono m : zpoly := [(1%Z, m)] in
  rbind (polynomial_set_vector dim dim (order - 1)) (fun pset =>
  Ok (pset ++
    match c with
    | CQuadrilateral =>
        flat_map (fun i => let j := order - i in [[mono [i; j]; []]; [[]; mono [j; i]]]) (range2 1 (order + 1))
    | CTriangle =>
        flat_map (fun i => let p := mono [i; order - 2 - i] in
          [[zmul (zmul (x 0) (x 0 ++ x 1)) p; []]; [[]; zmul (zmul (x 1) (x 0 ++ x 1)) p]]) (range (order - 1))
        ++ [[zmul (x 0) (mono [order - 1; 0]); zmul (x 1) (mono [order - 1; 0])]]
    | CHexahedron =>
        flat_map (fun i => flat_map (fun j => let k := order - i - j in
          [[mono [i; j; k]; []; []]; [[]; mono [j; i; k]; []]; [[]; []; mono [j; k; i]]])
          (range (order + 1 - i))) (range2 1 (order + 1))
    | CTetrahedron =>
        let s := (x 0 ++ x 1 ++ x 2)%list in
        flat_map (fun i => flat_map (fun j => let p := mono [i; j; order - 2 - i - j] in
          [[zmul (zmul (x 0) s) p; []; []]; [[]; zmul (zmul (x 1) s) p; []]; [[]; []; zmul (zmul (x 2) s) p]])
          (range (order - i - 1))) (range (order - 1))
        ++ map (fun i => let p := mono [i; order - 1 - i; 0] in [zmul (x 0) p; zmul (x 1) p; zmul (x 2) p]) (range order)
        ++ map (fun i => let p := mono [i; order - 1 - i; 0] in [zmul p (x 0 ++ x 1); []; zmul (x 1) p]) (range2 1 order)
    | _ => []
    end)%list).

(** trimmed_serendipity.py:42-94.  VectorFunction(tuple(x)).cross of a vector with the one entry p in place dim. *)
Definition x_cross (dim : nat) (p : mono) : vpoly :=
  let up i := [(1%Z, mono_mul p (map (fun j => if i =? j then 1 else 0) (range 3)))] in
  match dim with
  | 0 => [[]; up 2; zneg (up 1)]
  | 1 => [zneg (up 2); []; up 0]
  | _ => [up 1; zneg (up 0); []]
  end.
(** trimmed_serendipity.py:87-94 and 182-187: the fields built from p = x0 x1^i x2^(order-1-i) and its permutations *)
Definition ts_loop (order i : nat) : list vpoly :=
  [ [[]; [((-1)%Z, [1; i; 1 + (order - 1 - i)])]; [(1%Z, [1; 1 + i; order - 1 - i])]];
    [[((-1)%Z, [i; 1; 1 + (order - 1 - i)])]; []; [(1%Z, [1 + i; 1; order - 1 - i])]] ]
  ++ (if 1 <? order then
    [ [[((-1)%Z, [i; 1 + (order - 1 - i); 1])]; [(1%Z, [1 + i; order - 1 - i; 1])]; []] ] else []).
Definition ts_hcurl_poly (tdim order : nat) : res (list vpoly) :=
  rbind (polynomial_set_vector tdim tdim (order - 1)) (fun p0 =>
  Ok (p0 ++
    if tdim =? 2 then
      map (fun j => [[(1%Z, [j; order - j])]; [((-1)%Z, [j + 1; order - 1 - j])]]) (range order)
      ++ (if order =? 1 then [[[(1%Z, [0; 1])]; [(1%Z, [1; 0])]]]
          else [ [[(1%Z, [0; order])]; [(Z.of_nat order, [1; order - 1])]];
                 [[(Z.of_nat order, [order - 1; 1])]; [(1%Z, [order; 0])]] ])
    else
      flat_map (fun i => flat_map (fun j => flat_map (fun dim =>
        if (i =? 0) || negb (dim =? 0) then [x_cross dim [i; j; order - 1 - i - j]] else [])
        (range 3)) (range (order - i))) (range order)
      ++ (if order =? 1 then [mono_grad 3 [1; 1; order]]
          else [mono_grad 3 [1; 1; order]; mono_grad 3 [1; order; 1]; mono_grad 3 [order; 1; 1]])
      ++ flat_map (fun i =>
           mono_grad 3 [1; i; order - i] ::
           (if negb (i =? 1) then
             mono_grad 3 [i; 1; order - i] ::
             (if negb (order - i =? 1) then [mono_grad 3 [i; order - i; 1]] else [])
            else [])) (range (order + 1))
      ++ flat_map (ts_loop order) (range order))%list).
(** trimmed_serendipity.py:161-187 *)
Definition ts_hdiv_poly (tdim order : nat) : res (list vpoly) :=
  rbind (polynomial_set_vector tdim tdim (order - 1)) (fun p0 =>
  Ok (p0 ++
    if tdim =? 2 then
      map (fun j => [[(1%Z, [j + 1; order - 1 - j])]; [(1%Z, [j; order - j])]]) (range order)
      ++ (if order =? 1 then [[[(1%Z, [1; 0])]; [((-1)%Z, [0; 1])]]]
          else [ [[(Z.of_nat order, [1; order - 1])]; [((-1)%Z, [0; order])]];
                 [[((-1)%Z, [order; 0])]; [(Z.of_nat order, [order - 1; 1])]] ])
    else
      flat_map (fun i => map (fun j => let k := order - 1 - i - j in
        [[(1%Z, [1 + i; j; k])]; [(1%Z, [i; 1 + j; k])]; [(1%Z, [i; j; 1 + k])]]) (range (order - i))) (range order)
      ++ map vcurl (flat_map (ts_loop order) (range order)))%list).

(** bddf.py:33-44 *)
Definition bddf_polyset (c : cell_type) (order : nat) : res (list vpoly) :=
  asserted (match c with CHexahedron => true | _ => false end)
  (rbind (polynomial_set_vector (tdim c) (tdim c) order) (fun pset =>
  Ok (pset ++ map vcurl (
    [ [[]; []; [(1%Z, [order + 1; 1; 0])]]; [[]; [(1%Z, [1; 0; order + 1])]; []]; [[(1%Z, [0; order + 1; 1])]; []; []] ]
    ++ flat_map (fun i => [ [[]; []; [(1%Z, [1; i + 1; order - i])]]; [[]; [(1%Z, [i + 1; order - i; 1])]; []];
                            [[(1%Z, [order - i; 1; i + 1])]; []; []] ]) (range2 1 (order + 1))))%list)).

(** ac.py:35-44 *)
Definition ac_poly (tdim order : nat) : res (list vpoly) :=
  rbind (polynomial_set_vector tdim tdim order) (fun p0 =>
  if order =? 0 then Ok (p0 ++ [[[(1%Z, [1; 0])]; []]; [[]; [(1%Z, [0; 1])]]])%list
  else rbind (Hdiv_serendipity tdim tdim order) (fun p1 =>
    Ok (p0 ++ p1 ++ map (fun i => [[(1%Z, [i + 1; order - i])]; [(1%Z, [i; 1 + order - i])]]) (range (order + 1)))%list)).

(** mtw.py:49-71 *)
Definition mtw_triangle_poly : list vpoly :=
  [ [[(1%Z, [0; 0])]; []]; [[(1%Z, [1; 0])]; []]; [[(1%Z, [0; 1])]; []];
    [[]; [(1%Z, [0; 0])]]; [[]; [(1%Z, [1; 0])]]; [[]; [(1%Z, [0; 1])]];
    [[(1%Z, [2; 0]); (2%Z, [1; 1])]; [((-2)%Z, [1; 1]); ((-1)%Z, [0; 2])]];
    [[((-1)%Z, [3; 0]); (2%Z, [2; 0]); (3%Z, [1; 2])]; [(3%Z, [2; 1]); ((-4)%Z, [1; 1]); ((-1)%Z, [0; 3])]];
    [[(2%Z, [2; 1]); (1%Z, [2; 0]); (3%Z, [1; 2])]; [((-2)%Z, [1; 2]); ((-2)%Z, [1; 1]); ((-1)%Z, [0; 3])]] ].
(** mtw.py:79-85 *)
Definition mtw_tetrahedron_poly : res (list vpoly) :=
  rmap (fun p1 => p1 ++ map (fun p => vcurl (map (fun i => zmul i
      [(1%Z, [1; 1; 1]); ((-1)%Z, [2; 1; 1]); ((-1)%Z, [1; 2; 1]); ((-1)%Z, [1; 1; 2])]) p)) p1)%list
    (polynomial_set_vector 3 3 1).

(** nedelec_prism.py:39-49 *)
Definition nedelec_prism_poly (order : nat) : res (list vpoly) :=
  rbind (polynomial_set_vector 2 2 (order - 1)) (fun a =>
  rbind (Hcurl_polynomials 2 2 order) (fun b =>
  rbind (polynomial_set_1d 1 order) (fun js =>
  rbind (polynomial_set_1d 2 order) (fun is =>
  rbind (polynomial_set_1d 1 (order - 1)) (fun js' =>
  let times (p : zpoly) (j : mono) : zpoly := map (fun t => (fst t, snd t ++ j)%list) p in
  Ok (flat_map (fun i => map (fun j => [times (nth 0 i []) j; times (nth 1 i []) j; []]) js) (a ++ b)
      ++ flat_map (fun i => map (fun j => [[]; []; [(1%Z, i ++ j)]]) js') is)%list))))).

(** regge.py:215-260 *)
Definition regge_tp_poly (tdim order : nat) : list vpoly :=
  let m a : zpoly := [(1%Z, a)] in
  match tdim with
  | 2 =>
      flat_map (fun i => flat_map (fun j => [[m [i; j]; []; []; []]; [[]; []; []; m [j; i]]]) (range (order + 2))) (range (order + 1))
      ++ flat_map (fun i => map (fun j => [[]; m [i; j]; m [i; j]; []]) (range (order + 1))) (range (order + 1))
  | 3 =>
      flat_map (fun i => flat_map (fun j => flat_map (fun k =>
        [ [m [i; j; k]; []; []; []; []; []; []; []; []]; [[]; []; []; []; m [j; i; k]; []; []; []; []];
          [[]; []; []; []; []; []; []; []; m [j; k; i]] ])
        (range (order + 2))) (range (order + 2))) (range (order + 1))
      ++ flat_map (fun i => flat_map (fun j => flat_map (fun k =>
        [ [[]; m [i; j; k]; []; m [i; j; k]; []; []; []; []; []]; [[]; []; m [i; k; j]; []; []; []; m [i; k; j]; []; []];
          [[]; []; []; []; []; m [k; i; j]; []; m [k; i; j]; []] ])
        (range (order + 2))) (range (order + 1))) (range (order + 1))
  | _ => []
  end%list.

(** aw.py:42-62 *)
Definition aw_poly (tdim order : nat) : res (list vpoly) :=
  let z := Z.of_nat in
  rbind (polynomial_set_vector tdim 3 (order - 1)) (fun p0 =>
  Ok (map (sym_entries sym2) p0
      ++ map (fun k =>
           let b : zpoly := [((- (z k * z (order - k + 2)%nat))%Z, [k - 1; order - k + 1])] in
           [[((z (order - k + 1)%nat * z (order - k + 2)%nat)%Z, [k; order - k])]; b; b; [((z k * (z k - 1))%Z, [k - 2; order - k + 2])]])
         (range (order + 1))
      ++ [ [[]; [(1%Z, [order; 0])]; [(1%Z, [order; 0])]; [((- z order)%Z, [order - 1; 1])]]; [[]; []; []; [(1%Z, [order; 0])]] ])%list).
(** aw.py:173-185 *)
Definition naw_poly (tdim order : nat) : res (list vpoly) :=
  rbind (polynomial_set_vector tdim 3 (order - 1)) (fun p0 =>
  Ok (map (sym_entries sym2) p0 ++
    [ [[]; [(1%Z, [0; 2])]; [(1%Z, [0; 2])]; [((-2)%Z, [0; 2])]];
      [[((-2)%Z, [2; 0])]; [(1%Z, [2; 0])]; [(1%Z, [2; 0])]; []];
      [[((-2)%Z, [1; 1])]; [(1%Z, [1; 1])]; [(1%Z, [1; 1])]; []];
      [[(1%Z, [2; 0]); (1%Z, [1; 1])]; []; []; []];
      [[(1%Z, [2; 0])]; []; []; [(1%Z, [1; 1])]];
      [[(1%Z, [2; 0])]; []; []; [((-1)%Z, [0; 2])]] ])%list).

(** * Degrees of freedom that are not moments *)

(** dpc.py:36-57 *)
Definition dpc_points (tdim order : nat) : list (list nat) :=
  filter (fun i => list_sum i <=? order) (product (repeat (range (order + 1)) tdim)).
Definition dpc_dofs (r : reference) (order : nat) (variant : string) : res (list fdof) :=
  let tdim := tdim (r_type r) in
  match r_type r with
  | CInterval => rmap (map (fun _ => on "PointEvaluation" (Some "identity") tdim 0)) (lagrange_dofs r order variant)
  | _ =>
      rmap (map (fun _ => on "PointEvaluation" (Some "identity") tdim 0))
        (if order =? 0 then rmap (fun p => [p]) (get_point r (repeat (1 / 2)%R tdim))
         else map_r (fun i => get_point r (map (fun j => (INR j / INR order)%R) (rev i))) (dpc_points tdim order))
  end.

(** lagrange_prism.py:46-104 (the points are not kept); default cells only *)
Definition prism_dofs (r : reference) (order : nat) (variant : string) : res (list fdof) :=
  let pe := on "PointEvaluation" (Some "identity") in
  if order =? 0 then Ok [pe (tdim (r_type r)) 0]
  else if (variant =? "lobatto")%string then Err NotImplementedError else
    rbind (get_quadrature variant (order + 1)) (fun _ =>
    rbind (sub_entity_count r 1) (fun n1 =>
    rbind (sub_entity_count r 2) (fun n2 =>
    rbind (map_r (fun e_n =>
      rbind (sub_entity r 2 e_n false) (fun entity =>
      Ok (map (fun _ => pe 2 e_n) (filter (fun ii => (length (r_vertices entity) =? 4)%nat || (list_sum ii <? order)%nat)
           (product (repeat (range2 1 order) 2)))))) (range n2)) (fun faces =>
    Ok (map (fun v_n => pe 0 v_n) (range (length (r_vertices r)))
        ++ flat_map (fun e_n => map (fun _ => pe 1 e_n) (range2 1 order)) (range n1)
        ++ concat faces
        ++ map (fun _ => pe 3 0) (filter (fun ii => nth 0 ii 0 + nth 1 ii 0 <? order)%nat (product (repeat (range2 1 order) 3))))%list)))).

(** regge.py:59-92: for every sub-entity of dimension edim, every tuple and every edge of the sub-entity *)
Definition regge_point_dofs (r : reference) (order edim : nat) : res (list fdof) :=
  rbind (sub_entity_types (r_type r) edim) (fun _ =>
  rbind (sub_entity_count r edim) (fun count =>
  rmap (@concat fdof) (map_r (fun e_n =>
    rbind (sub_entity r edim e_n false) (fun entity =>
    Ok (flat_map (fun _ => map (fun _ => on "PointInnerProduct" (Some "double_covariant") edim e_n) (edges (r_type entity)))
          (filter (fun i => list_sum i <? order + 2) (product (repeat (range2 1 (order + 2)) edim)))))) (range count)))).

(** regge.py:276-370 *)
Definition regge_tp_dofs (r : reference) (order edge_count : nat) : res (list fdof) :=
  let ia := on "IntegralAgainst" (Some "double_covariant") in
  rbind (sub_entity_count r 1) (fun n1 =>
  rbind (sub_entity_count r 2) (fun n2 =>
  Ok (flat_map (fun e_n => map (fun _ => on "InnerProductIntegralMoment" (Some "double_covariant") 1 e_n) (range edge_count)) (range n1)
      ++ flat_map (fun f_n =>
           flat_map (fun i => map (fun j => ia 2 f_n) (range (order + 1))) (range (order + 1))
           ++ flat_map (fun i => flat_map (fun j => [ia 2 f_n; ia 2 f_n]) (range (order + 1))) (range2 1 (order + 1)))
         (range n2)
      ++ (if tdim (r_type r) =? 3 then
           flat_map (fun i => flat_map (fun j => flat_map (fun k => [ia 3 0; ia 3 0; ia 3 0])
             (range (order + 1))) (range (order + 1))) (range2 1 (order + 1))
           ++ flat_map (fun i => flat_map (fun j => flat_map (fun k => [ia 3 0; ia 3 0; ia 3 0])
             (range2 1 (order + 1))) (range2 1 (order + 1))) (range (order + 1))
         else []))%list)).

(** aw.py:100-104.  sympy.Poly(p, x, y).degree() is the degree in x of the basis function with the coefficients [row]. *)
Definition degree_in_x (poly : list mono) (row : list R) : nat :=
  list_max (map (fun cm => if Req_EM_T (fst cm) 0 then 0 else nth 0 (snd cm) 0) (combine row poly)).
(** How many basis functions of Lagrange(reference, k, variant) the loop of aw.py:102 keeps; their coefficients are
    the rows of the inverse of the dual matrix (finite_element.py:711-740). *)
Definition aw_extra (r : reference) (k : nat) (variant : string) : res nat :=
  rbind (lagrange_dofs r k variant) (fun dofs =>
  rbind (lagrange_poly r k) (fun poly =>
  rbind (inv_LU (dual_matrix (map meval poly) (map point_eval dofs))) (fun minv =>
  Ok (length (filter (fun row => degree_in_x poly row =? k) minv))))).

(** * The constructors *)

(** [construct fuel f r order variant] is f(r, order, variant).  The fuel bounds the depth of nested constructor calls
    (a python RecursionError, a RuntimeError). *)
Fixpoint construct (fuel : nat) (f : family) (r : reference) (order : nat) (variant : string) {struct fuel} : res fe :=
  match fuel with
  | 0 => Err RuntimeError
  | S fuel' =>
  let dof_count (c : cls) (ct : cell_type) (o : Z) (kw : string) : res nat :=
    match c with
    | inl f' => rmap (fun e => length (fe_dofs e)) (construct fuel' f' (default ct) (Z.to_nat o) kw)
    | inr _ => Err TypeError
    end in
  let moments a : res (list fdof) :=
    rmap (map of_moment) (make_integral_moment_dofs cls string "equispaced" cls_min_order dof_count r a) in
  let md functional element (o : Z) mapping := Some (moment_data functional element o mapping variant) in
  let c := r_type r in
  let tdim := ReferencesModel.tdim c in
  let n := Z.of_nat order in
  let is_triangle := match c with CTriangle => true | _ => false end in
  let is_quadrilateral := match c with CQuadrilateral => true | _ => false end in
  match f with
  (* lagrange.py:31-81 *)
  | Lagrange =>
      rbind (lagrange_dofs r order variant) (fun dofs =>
      rbind (lagrange_poly r order) (fun poly => ciarlet (map scalar poly) (map of_point dofs)))
  (* lagrange.py:118-158 *)
  | VectorLagrange =>
      rbind (construct fuel' Lagrange r order variant) (fun scalar_space =>
      if tdim =? 1 then rbind (polynomial_set_1d tdim order) (fun poly => ciarlet (map scalar poly) (fe_dofs scalar_space))
      else rbind (polynomial_set_vector tdim tdim order) (fun poly =>
        ciarlet poly (flat_map (per_direction tdim) (fe_dofs scalar_space))))
  (* lagrange.py:195-228 *)
  | MatrixLagrange =>
      rbind (construct fuel' Lagrange r order variant) (fun scalar_space =>
      rbind (polynomial_set_vector tdim (tdim ^ 2) order) (fun poly =>
      ciarlet poly (flat_map (per_direction (if tdim =? 1 then 1 else tdim ^ 2)) (fe_dofs scalar_space))))
  (* lagrange.py:265-321 *)
  | SymmetricMatrixLagrange =>
      rbind (construct fuel' Lagrange r order variant) (fun scalar_space =>
      match tdim with
      | 1 => rbind (polynomial_set_1d 1 order) (fun poly => ciarlet (map scalar poly) (fe_dofs scalar_space))
      | 2 => rbind (polynomial_set_vector 2 3 order) (fun poly =>
          ciarlet (map (sym_entries sym2) poly) (flat_map (per_direction 3) (fe_dofs scalar_space)))
      | 3 => rbind (polynomial_set_vector 3 6 order) (fun poly =>
          ciarlet (map (sym_entries sym3) poly) (flat_map (per_direction 6) (fe_dofs scalar_space)))
      | _ => Err AssertionError
      end)
  (* rt.py:23-48 *)
  | RaviartThomas =>
      rbind (polynomial_set_vector tdim tdim (order - 1)) (fun p0 =>
      rbind (Hdiv_polynomials tdim tdim order) (fun p1 =>
      rbind (moments (by_codimension (md "NormalIntegralMoment" Lagrange (n - 1)%Z None)
                                     (md "IntegralMoment" VectorLagrange (n - 2)%Z (Some "contravariant")))) (fun dofs =>
      ciarlet (p0 ++ p1) dofs)))
  (* nedelec.py:24-43 *)
  | NedelecFirstKind =>
      rbind (polynomial_set_vector tdim tdim (order - 1)) (fun p0 =>
      rbind (Hcurl_polynomials tdim tdim order) (fun p1 =>
      rbind (moments (by_dimension (md "TangentIntegralMoment" Lagrange (n - 1)%Z None)
                                   (md "IntegralMoment" VectorLagrange (n - 2)%Z (Some "covariant"))
                                   (md "IntegralMoment" VectorLagrange (n - 3)%Z (Some "covariant")))) (fun dofs =>
      ciarlet (p0 ++ p1) dofs)))
  (* nedelec.py:80-99 *)
  | NedelecSecondKind =>
      rbind (polynomial_set_vector tdim tdim order) (fun poly =>
      rbind (moments (by_dimension (md "TangentIntegralMoment" Lagrange n None)
                                   (md "IntegralMoment" RaviartThomas (n - 1)%Z (Some "covariant"))
                                   (md "IntegralMoment" RaviartThomas (n - 2)%Z (Some "covariant")))) (fun dofs =>
      ciarlet poly dofs))
  (* bdm.py:24-45 *)
  | BDM =>
      default_cell r (
      rbind (polynomial_set_vector tdim tdim order) (fun poly =>
      rbind (moments (by_codimension (md "NormalIntegralMoment" Lagrange n None)
                                     (md "IntegralMoment" NedelecFirstKind (n - 1)%Z None))) (fun dofs =>
      ciarlet poly dofs)))
  (* bdfm.py:76-104 *)
  | BDFM =>
      default_cell r (
      rbind (bdfm_polyset c order) (fun poly =>
      rbind (moments (match c with
                      | CTriangle | CTetrahedron =>
                          by_codimension (md "NormalIntegralMoment" Lagrange (n - 1)%Z None)
                                         (md "IntegralMoment" NedelecFirstKind (n - 1)%Z None)
                      | _ =>
                          by_codimension (md "NormalIntegralMoment" DPC (n - 1)%Z None)
                                         (md "IntegralMoment" VectorDPC (n - 2)%Z None)
                      end)) (fun dofs =>
      ciarlet poly dofs)))
  (* q.py:37-94 *)
  | Q =>
      rbind (q_dofs r order variant) (fun dofs =>
      rbind (map_polyset_from_default r (map scalar (quolynomial_set_1d tdim order))) (fun poly =>
      ciarlet poly (map of_point dofs)))
  (* q.py:176-207 *)
  | VectorQ =>
      default_cell r (
      rbind (construct fuel' Q r order variant) (fun scalar_space =>
      if tdim =? 1 then ciarlet (map scalar (quolynomial_set_1d tdim order)) (fe_dofs scalar_space)
      else ciarlet (quolynomial_set_vector tdim tdim order) (flat_map (per_direction tdim) (fe_dofs scalar_space))))
  (* q.py:244-267 *)
  | QNedelec =>
      default_cell r (
      rbind (Hcurl_quolynomials tdim tdim order) (fun p1 =>
      rbind (moments (by_dimension (md "TangentIntegralMoment" Q (n - 1)%Z None)
                                   (md "IntegralMoment" QRaviartThomas (n - 1)%Z (Some "covariant"))
                                   (md "IntegralMoment" QRaviartThomas (n - 1)%Z (Some "covariant")))) (fun dofs =>
      ciarlet (quolynomial_set_vector tdim tdim (order - 1) ++ p1) dofs)))
  (* q.py:304-326 *)
  | QRaviartThomas =>
      default_cell r (
      rbind (Hdiv_quolynomials tdim tdim order) (fun p1 =>
      rbind (moments (by_codimension (md "NormalIntegralMoment" Q (n - 1)%Z None)
                                     (md "IntegralMoment" QNedelec (n - 1)%Z (Some "contravariant")))) (fun dofs =>
      ciarlet (quolynomial_set_vector tdim tdim (order - 1) ++ p1) dofs)))
  (* dpc.py:26-64 *)
  | DPC =>
      rbind (match c with CInterval => rmap (fun _ => tt) (construct fuel' Lagrange r order variant) | _ => Ok tt end) (fun _ =>
      rbind (dpc_dofs r order variant) (fun dofs =>
      rbind (polynomial_set_1d tdim order) (fun p0 =>
      rbind (map_polyset_from_default r (map scalar p0)) (fun poly => ciarlet poly dofs))))
  (* dpc.py:101-129 *)
  | VectorDPC =>
      default_cell r (
      rbind (construct fuel' DPC r order variant) (fun scalar_space =>
      rbind (polynomial_set_vector tdim tdim order) (fun poly =>
      ciarlet poly (flat_map (per_direction (if tdim =? 1 then 1 else tdim)) (fe_dofs scalar_space)))))
  (* serendipity.py:35-59 *)
  | Serendipity =>
      rbind (polynomial_set_1d tdim order) (fun p0 =>
      rbind (map_polyset_from_default r (map scalar (p0 ++ serendipity_set_1d tdim order))) (fun poly =>
      rbind (moments (by_dimension (md "IntegralMoment" DPC (n - 2)%Z None) (md "IntegralMoment" DPC (n - 4)%Z None)
                                   (md "IntegralMoment" DPC (n - 6)%Z None))) (fun dofs =>
      ciarlet poly (map (on "PointEvaluation" (Some "identity") 0) (range (length (r_vertices r))) ++ dofs))))
  (* serendipity.py:98-121 *)
  | SerendipityCurl =>
      default_cell r (
      rbind (polynomial_set_vector tdim tdim order) (fun p0 =>
      rbind (Hcurl_serendipity tdim tdim order) (fun p1 =>
      rbind (moments (by_dimension (md "TangentIntegralMoment" DPC n None)
                                   (md "IntegralMoment" VectorDPC (n - 2)%Z (Some "covariant"))
                                   (md "IntegralMoment" VectorDPC (n - 4)%Z (Some "covariant")))) (fun dofs =>
      ciarlet (p0 ++ p1) dofs))))
  (* serendipity.py:160-182 *)
  | SerendipityDiv =>
      default_cell r (
      rbind (polynomial_set_vector tdim tdim order) (fun p0 =>
      rbind (Hdiv_serendipity tdim tdim order) (fun p1 =>
      rbind (moments (by_codimension (md "NormalIntegralMoment" DPC n None)
                                     (md "IntegralMoment" VectorDPC (n - 2)%Z (Some "contravariant")))) (fun dofs =>
      ciarlet (p0 ++ p1) dofs))))
  (* trimmed_serendipity.py:31-113 *)
  | TrimmedSerendipityHcurl =>
      default_cell r (
      rbind (ts_hcurl_poly tdim order) (fun poly =>
      rbind (moments (by_dimension (md "TangentIntegralMoment" DPC (n - 1)%Z None)
                                   (md "IntegralMoment" VectorDPC (n - 3)%Z (Some "contravariant"))
                                   (md "IntegralMoment" VectorDPC (n - 5)%Z (Some "contravariant")))) (fun dofs =>
      rbind (sub_entity_count r 2) (fun n2 =>
      ciarlet poly (dofs ++ if 2 <=? order then
          flat_map (fun f_n => map (fun _ => on "IntegralAgainst" (Some "contravariant") 2 f_n) (range order)) (range n2)
        else [])))))
  (* trimmed_serendipity.py:150-214 *)
  | TrimmedSerendipityHdiv =>
      default_cell r (
      rbind (ts_hdiv_poly tdim order) (fun poly =>
      rbind (moments (by_codimension (md "NormalIntegralMoment" DPC (n - 1)%Z None)
                                     (md "IntegralMoment" VectorDPC (n - 3)%Z (Some "covariant")))) (fun dofs =>
      ciarlet poly (dofs ++ if 2 <=? order then
          (if tdim =? 2 then map (fun _ => on "IntegralAgainst" (Some "covariant") tdim 0) (range order)
           else flat_map (fun i => map (fun _ => on "IntegralAgainst" (Some "covariant") tdim 0) (range (order - i))) (range order))
        else []))))
  (* abf.py:29-70 *)
  | ArnoldBoffiFalk =>
      asserted is_quadrilateral (default_cell r (
      rbind (moments (by_dimension (md "NormalIntegralMoment" Lagrange n None) (md "IntegralMoment" QNedelec n None) None)) (fun dofs =>
      ciarlet (flat_map (fun i => map (fun j => [[(1%Z, [i; j])]; []]) (range (order + 1))) (range (order + 3))
               ++ flat_map (fun i => map (fun j => [[]; [(1%Z, [i; j])]]) (range (order + 3))) (range (order + 1)))
        (dofs ++ flat_map (fun _ => [on "IntegralOfDivergenceAgainst" (Some "contravariant") 2 0;
                                     on "IntegralOfDivergenceAgainst" (Some "contravariant") 2 0]) (range (order + 1))))))
  (* ac.py:24-68 *)
  | ArbogastCorrea =>
      default_cell r (
      rbind (ac_poly tdim order) (fun poly =>
      rbind (moments (by_codimension (md "NormalIntegralMoment" DPC n None) None)) (fun dofs =>
      ciarlet poly (dofs
        ++ flat_map (fun i => flat_map (fun j => if 0 <? i + j then [on "IntegralAgainst" (Some "contravariant") 2 0] else [])
             (range (order + 1 - i))) (range (order + 1))
        ++ flat_map (fun i => map (fun j => on "IntegralAgainst" (Some "contravariant") 2 0) (range2 1 (order - i)))
             (range2 1 (order - 1))))))
  (* bddf.py:50-71 *)
  | BDDF =>
      default_cell r (
      rbind (bddf_polyset c order) (fun poly =>
      rbind (moments (by_codimension (md "NormalIntegralMoment" DPC n None) (md "IntegralMoment" VectorDPC (n - 2)%Z None))) (fun dofs =>
      ciarlet poly dofs)))
  (* mtw.py:31-91 *)
  | MardalTaiWinther =>
      asserted (order =? 3) (default_cell r (
      rbind (moments (by_codimension (md "NormalIntegralMoment" Lagrange 1%Z (Some "contravariant")) None)) (fun dofs =>
      match c with
      | CTriangle =>
          rbind (moments (by_codimension (md "TangentIntegralMoment" Lagrange 0%Z (Some "contravariant")) None)) (fun dofs' =>
          ciarlet mtw_triangle_poly (dofs ++ dofs'))
      | CTetrahedron =>
          rbind mtw_tetrahedron_poly (fun poly =>
          rbind (moments (by_codimension (md "IntegralMoment" NedelecFirstKind 1%Z (Some "contravariant")) None)) (fun dofs' =>
          ciarlet poly (dofs ++ dofs')))
      | _ => Err AssertionError
      end)))
  (* nedelec_prism.py:26-92 *)
  | NedelecPrism =>
      default_cell r (
      rbind (nedelec_prism_poly order) (fun poly =>
      rbind (moments (by_dimension (md "TangentIntegralMoment" Lagrange (n - 1)%Z None)
               (Some (MDict cls string
                 [("triangle", moment_data "IntegralMoment" VectorLagrange (n - 2)%Z (Some "covariant") variant);
                  ("quadrilateral", moment_data "IntegralMoment" QRaviartThomas (n - 1)%Z (Some "covariant") variant)] ""))
               None)) (fun dofs =>
      if 2 <=? order then
        rbind (construct fuel' VectorLagrange (default CTriangle) (order - 2) variant) (fun space1 =>
        rbind (construct fuel' Lagrange (default CInterval) (order - 2) variant) (fun space2 =>
        if 2 <? order then Err NotImplementedError else
        ciarlet poly (dofs ++ flat_map (fun _ => map (fun _ => on "IntegralAgainst" (Some "covariant") 3 0) (fe_dofs space2))
                                (fe_dofs space1))))
      else ciarlet poly dofs)))
  (* lagrange_prism.py:30-110 *)
  | LagrangePrism =>
      default_cell r (
      rbind (prism_dofs r order variant) (fun dofs =>
      rbind (prism_polynomial_set_1d tdim order) (fun poly => ciarlet (map scalar poly) dofs)))
  (* lagrange_prism.py:147-175 *)
  | VectorLagrangePrism =>
      rbind (construct fuel' LagrangePrism r order variant) (fun scalar_space =>
      rbind (prism_polynomial_set_vector tdim tdim order) (fun poly =>
      ciarlet poly (flat_map (per_direction tdim) (fe_dofs scalar_space))))
  (* regge.py:36-168 *)
  | Regge =>
      rbind (match tdim with
             | 2 => rmap (map (sym_entries sym2)) (polynomial_set_vector tdim 3 order)
             | 3 => rmap (map (sym_entries sym3_regge)) (polynomial_set_vector tdim 6 order)
             | _ => Ok []
             end) (fun poly =>
      if (variant =? "point")%string then
        rbind (regge_point_dofs r order 1) (fun d1 =>
        rbind (regge_point_dofs r order 2) (fun d2 =>
        rbind (regge_point_dofs r order 3) (fun d3 => ciarlet poly (d1 ++ d2 ++ d3))))
      else if (variant =? "integral")%string then
        rbind (construct fuel' Lagrange (default CInterval) order "equispaced") (fun space =>
        rbind (sub_entity_count r 1) (fun n1 =>
        let d1 := flat_map (fun e_n => map (fun _ => on "InnerProductIntegralMoment" (Some "double_covariant") 1 e_n) (fe_dofs space)) (range n1) in
        match tdim with
        | 2 =>
            rbind (if 0 <? order then
                     moments (by_codimension None (Some (moment_data "IntegralMoment" Regge (n - 1)%Z (Some "double_covariant") "integral")))
                   else Ok []) (fun d2 => ciarlet poly (d1 ++ d2))
        | 3 =>
            rbind (if 0 <? order then
                     rbind (construct fuel' Regge (default CTriangle) (order - 1) "integral") (fun rspace =>
                     rbind (sub_entity_count r 2) (fun n2 =>
                     Ok (flat_map (fun f_n => map (fun _ => on "IntegralMoment" (Some "double_covariant") 2 f_n) (fe_dofs rspace)) (range n2))))
                   else Ok []) (fun d2 =>
            rbind (if 1 <? order then
                     moments (by_codimension None (Some (moment_data "IntegralMoment" Regge (n - 2)%Z (Some "double_covariant") "integral")))
                   else Ok []) (fun d3 => ciarlet poly (d1 ++ d2 ++ d3)))
        | _ => ciarlet poly d1
        end))
      else Err ValueError)
  (* regge.py:205-396 *)
  | ReggeTP =>
      if (variant =? "integral")%string then
        rbind (construct fuel' Lagrange (default CInterval) order "equispaced") (fun space =>
        rbind (regge_tp_dofs r order (length (fe_dofs space))) (fun dofs => ciarlet (regge_tp_poly tdim order) dofs))
      else Err ValueError
  (* hhj.py:31-115 *)
  | HellanHerrmannJohnson =>
      default_cell r (asserted (match c with CTriangle | CTetrahedron => true | _ => false end) (
      rbind (if tdim =? 2 then rmap (map (sym_entries sym2)) (polynomial_set_vector tdim 3 order)
             else rmap (map (sym_entries sym3)) (polynomial_set_vector tdim 6 order)) (fun poly =>
      let directions := if tdim =? 2 then 3 else 4 in
      let directions_extra := if tdim =? 2 then 0 else 2 in
      rbind (moments (by_codimension (md "NormalInnerProductIntegralMoment" Lagrange n None) None)) (fun dofs =>
      rbind (if 0 <? order then
               rbind (construct fuel' Lagrange r (order - 1) variant) (fun space =>
               Ok (flat_map (fun _ => map (fun _ => on "IntegralMoment" (Some "double_contravariant") tdim 0) (range directions)) (fe_dofs space)))
             else Ok []) (fun cell_dofs =>
      rbind (construct fuel' Lagrange r order variant) (fun space_extra =>
      ciarlet poly (dofs ++ cell_dofs ++
        flat_map (fun _ => map (fun _ => on "IntegralMoment" (Some "double_contravariant") tdim 0) (range directions_extra)) (fe_dofs space_extra))))))))
  (* huang_zhang.py:28-69 *)
  | HuangZhang =>
      asserted is_quadrilateral (default_cell r (
      rbind (moments (by_codimension (md "NormalIntegralMoment" Lagrange (n - 1)%Z None) None)) (fun d1 =>
      rbind (moments (by_codimension (md "TangentIntegralMoment" Lagrange (n - 2)%Z None) None)) (fun d2 =>
      ciarlet (flat_map (fun i => map (fun j => [[(1%Z, [i; j])]; []]) (range order)) (range (order + 1))
               ++ flat_map (fun i => map (fun j => [[]; [(1%Z, [i; j])]]) (range (order + 1))) (range order))
        (d1 ++ d2 ++ flat_map (fun i => flat_map (fun j => [on "IntegralAgainst" (Some "identity") 2 0; on "IntegralAgainst" (Some "identity") 2 0])
                       (range (order - 2))) (range (order - 1)))))))
  (* aw.py:31-125 *)
  | ArnoldWinther =>
      asserted is_triangle (
      rbind (aw_poly tdim order) (fun poly =>
      rbind (sub_entity_count r 1) (fun n1 =>
      rbind (construct fuel' Lagrange (default CInterval) (order - 2) variant) (fun sub_e =>
      rbind (construct fuel' Lagrange r (order - 3) variant) (fun sub_c =>
      rbind (if 4 <=? order then aw_extra r (order - 4) variant else Ok 0) (fun extra =>
      ciarlet poly (
        flat_map (fun v_n => map (fun _ => on "PointInnerProduct" (Some "double_contravariant") 0 v_n) (range 3)) (range (length (r_vertices r)))
        ++ flat_map (fun e_n => flat_map (fun _ => map (fun _ => on "InnerProductIntegralMoment" (Some "double_contravariant") 1 e_n) (range 2))
             (fe_dofs sub_e)) (range n1)
        ++ flat_map (fun _ => map (fun _ => on "IntegralMoment" (Some "double_contravariant") 2 0) (range 3)) (fe_dofs sub_c)
        ++ map (fun _ => on "IntegralMoment" (Some "double_contravariant") 2 0) (range extra))))))))
  (* aw.py:162-226 *)
  | NonConformingArnoldWinther =>
      asserted is_triangle (
      rbind (naw_poly tdim order) (fun poly =>
      rbind (sub_entity_count r 1) (fun n1 =>
      rbind (construct fuel' Lagrange (default CInterval) 1 variant) (fun sub_e =>
      rbind (construct fuel' Lagrange r 0 variant) (fun sub_c =>
      ciarlet poly (
        flat_map (fun e_n => flat_map (fun _ => map (fun _ => on "InnerProductIntegralMoment" (Some "double_contravariant") 1 e_n) (range 2))
             (fe_dofs sub_e)) (range n1)
        ++ flat_map (fun _ => map (fun _ => on "IntegralMoment" None 2 0) (range 3)) (fe_dofs sub_c)))))))
  (* taylor.py:20-42 *)
  | Taylor =>
      rbind (make_integral_moment_dofs cls string "equispaced" cls_min_order dof_count r
               (by_codimension None (Some (moment_data "IntegralMoment" Lagrange 0%Z None "equispaced")))) (fun d0 =>
      rbind (polynomial_set_1d tdim order) (fun poly =>
      ciarlet (map scalar poly) (map of_moment d0 ++
        map (fun _ => on "DerivativePointEvaluation" None tdim 0)
          (filter (fun i => (1 <=? list_sum i) && (list_sum i <=? order)) (product (repeat (range (order + 1)) tdim))))))
  end
  end.

(** The default of the keyword argument variant: regge.py:36, 205 and the constructors cited above. *)
Definition default_variant (f : family) : string :=
  match f with Regge => "point" | ReggeTP => "integral" | _ => "equispaced" end.

(** create_element with the default variant: create.py:185-196 *)
Definition create (f : family) (r : reference) (order : nat) (variant : string) : res fe :=
  if negb (tdim (r_type r) =? gdim r) then Err ValueError
  else if negb (existsb (fun c => if cell_type_eq_dec c (r_type r) then true else false) (references f)) then Err ValueError
  else if order <? min_order f then Err ValueError
  else if match max_order f with Some m => m <? order | None => false end then Err ValueError
  else construct (order + 4) f r order variant.
