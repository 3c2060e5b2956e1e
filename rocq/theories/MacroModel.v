(** Model of the macro elements on a triangle with explicit pieces: symfem/elements/hct.py, rhct.py and
    alfeld_sorokina.py, of P1Macro (p1_macro.py) and the P1-iso-P2 elements (p1_iso_p2.py), and of degrees of
    freedom (functionals.py) applied to piecewise functions. *)
From Coquelicot Require Import Coquelicot.
From Coq Require Import String Reals ZArith Arith Bool List.
From Verif Require Import Base.
From Verif Require ReferencesModel.
From Verif Require Import GeometryModel FunctionsModel FunctionalsModel PiecewiseModel.
Import ListNotations.
Local Open Scope R_scope.

(** python's arithmetic on sympy expressions *)
Declare Scope py_scope.
Delimit Scope py_scope with py.
Infix "+" := EAdd : py_scope.
Infix "*" := EMul : py_scope.
Infix "-" := esub : py_scope.
Notation "a ** n" := (EPow a n) (at level 30, right associativity) : py_scope.
Notation "# n" := (ENum (IZR n)) (at level 5, n at level 0) : py_scope.
Local Notation x0 := (ESym "x"%string).
Local Notation x1 := (ESym "y"%string).

(** hct.py:54, rhct.py:44, alfeld_sorokina.py:47 *)
Definition centre (vertices : list pt) : pt :=
  map (fun i => ReferencesModel.rsum i / INR (length i)) (ReferencesModel.zip_star vertices).

(** hct.py:56-60, rhct.py:46-50, alfeld_sorokina.py:49-53 *)
Definition sub_cells (vertices : list pt) : list (list pt) :=
  let v i := nth i vertices [] in
  let mid := centre vertices in
  [[v 0%nat; v 1%nat; mid]; [v 1%nat; v 2%nat; mid]; [v 2%nat; v 0%nat; mid]].

(** tuple(ScalarFunction(p) for _ in range(3)) *)
Definition same (f : func) : list func := [f; f; f].

(** hct.py:62-122 *)
Definition hct_pieces : list (list func) :=
  (map (fun p => same (FS p))
     [ENum 1; x0; x1; x0 ** 2; x0 * x1; x1 ** 2; x0 ** 3; x0 ** 2 * x1; x0 * x1 ** 2; x1 ** 3]%py ++
  [[FS (#(-23) * x0 ** 3 + #24 * x0 ** 2 * x1 - #12 * x0 * x1 ** 2 + #36 * x1 ** 2)%py;
    FS (#(-28) * x0 ** 3 + #12 * x0 ** 2 * x1 + #9 * x0 ** 2 - #3 * x0 + #32 * x1 ** 3 + #12 * x1 - #1)%py;
    FS (#(-15) * x0 ** 2 - #33 * x0 * x1 ** 2 + #30 * x0 * x1 + #22 * x1 ** 3 + #21 * x1 ** 2)%py];
   [FS (#22 * x0 ** 3 - #21 * x0 ** 2 * x1 - #12 * x0 * x1 ** 2 + #30 * x0 * x1 - #24 * x1 ** 2)%py;
    FS (#32 * x0 ** 3 + #12 * x0 ** 2 * x1 - #21 * x0 ** 2 + #12 * x0 - #28 * x1 ** 3 - #3 * x1 - #1)%py;
    FS (#15 * x0 ** 2 + #12 * x0 * x1 ** 2 - #23 * x1 ** 3 - #9 * x1 ** 2)%py]])%list.

(** rhct.py:52-91 *)
Definition rhct_pieces : list (list func) :=
  (map (fun p => same (FS p)) [ENum 1; x0; x1; x0 ** 2; x0 * x1; x1 ** 2; x0 ** 3 - x1 ** 3]%py ++
  [[FS (#4 * x0 ** 3 - #3 * x0 * x1 ** 2 + #2 * x0 * x1 + #4 * x1 ** 2)%py;
    FS (#7 * x0 ** 3 + #12 * x0 ** 2 * x1 - #7 * x0 ** 2 + #9 * x0 * x1 ** 2 - #14 * x0 * x1 + #5 * x0 + #4 * x1 - #1)%py;
    FS (#3 * x0 ** 3 + x0 ** 2 - #2 * x1 ** 3 + #5 * x1 ** 2)%py];
   [FS (#25 * x0 ** 3 - #24 * x0 * x1 ** 2 + #30 * x0 * x1 - #24 * x1 ** 2)%py;
    FS (#35 * x0 ** 3 + #33 * x0 ** 2 * x1 - #21 * x0 ** 2 - #12 * x0 * x1 ** 2 + #12 * x0 - #28 * x1 ** 3 - #3 * x1 - #1)%py;
    FS (#3 * x0 ** 3 + #21 * x0 ** 2 * x1 + #15 * x0 ** 2 - #23 * x1 ** 3 - #9 * x1 ** 2)%py]])%list.

(** alfeld_sorokina.py:55-124 *)
Definition as_pieces : list (list func) :=
  (map (fun p => same (FV [p; ENum 0])) [ENum 1; x0; x1; x0 ** 2; x0 * x1; x1 ** 2]%py ++
   map (fun p => same (FV [ENum 0; p])) [ENum 1; x0; x1; x0 ** 2; x0 * x1; x1 ** 2]%py ++
  [[FV [#4 * x0 + #12 * x1 ** 2 - #4 * x1; #6 * x0 * x1 - #4 * x1]%py;
    FV [#3 * x0 ** 2 + #2 * x0 + #4 * x1 - #1; #(-3) * x0 ** 2 + #4 * x0 - #2 * x1 - #1]%py;
    FV [#3 * x0 ** 2 + #6 * x0 * x1 + #3 * x1 ** 2; #9 * x0 ** 2 - #4 * x0 - #3 * x1 ** 2]%py];
   [FV [#144 * x0 * x1 + #10 * x0 + #12 * x1 ** 2 - #10 * x1; #(-30) * x0 * x1 + #36 * x1 ** 2 - #10 * x1]%py;
    FV [#(-69) * x0 ** 2 + #104 * x0 + #46 * x1 - #25; #24 * x0 ** 2 - #26 * x0 + #4 * x1 + #2]%py;
    FV [#39 * x0 ** 2 + #96 * x0 * x1 + #21 * x1 ** 2; #(-10) * x0 + #6 * x1 ** 2]%py];
   [FV [#(-14) * x0 + #12 * x1 ** 2 + #14 * x1; #42 * x0 * x1 - #108 * x1 ** 2 + #14 * x1]%py;
    FV [#3 * x0 ** 2 - #16 * x0 + #22 * x1 - #1; #24 * x0 ** 2 + #144 * x0 * x1 - #50 * x0 - #92 * x1 + #26]%py;
    FV [#(-33) * x0 ** 2 + #24 * x0 * x1 + #21 * x1 ** 2; #14 * x0 - #66 * x1 ** 2]%py]])%list.

(** hct.py:124-125, rhct.py:93-94, alfeld_sorokina.py:126-127.  map_polyset_from_default (hct.py:126, rhct.py:95)
    returns the same list on the default triangle (references.py:672-673), the only one that gets there. *)
Definition macro_polys (subs : list (list pt)) (piece_list : list (list func)) : res (list piecewise) :=
  ReferencesModel.map_r (fun p => make_pw (combine subs (map PFun p)) 2) piece_list.

(** degrees of freedom with their entities *)
Definition tagged := (functional * (nat * nat))%type.

(** a point or direction of numbers as a list of sympy numbers *)
Definition nums (p : list R) : list expr := map ENum p.

(** enumerate(l) *)
Definition numbered {A} (l : list A) : list (nat * A) := combine (seq 0 (length l)) l.

(** hct.py:41-45, rhct.py:39-42 *)
Definition hermite_dofs (vertices : list pt) : list tagged :=
  flat_map (fun nv => [(PointEvaluation (nums (snd nv)), (0%nat, fst nv));
                       (DerivativePointEvaluation (nums (snd nv)) [1%nat; 0%nat], (0%nat, fst nv));
                       (DerivativePointEvaluation (nums (snd nv)) [0%nat; 1%nat], (0%nat, fst nv))]) (numbered vertices).

(** hct.py:46-52, with functionals.py:565-587 *)
Definition normal_dofs (reference : reference) : res (list tagged) :=
  rbind (ReferencesModel.sub_entity_count reference 1) (fun n =>
  ReferencesModel.map_r (fun e_n =>
    rbind (ReferencesModel.sub_entity reference 1 e_n false) (fun sub_ref =>
    rmap (fun normal => (PointDirectionalDerivativeEvaluation (nums (ReferencesModel.midpoint sub_ref)) (nums normal), (1%nat, e_n)))
         (ReferencesModel.normal sub_ref))) (range n)).

(** alfeld_sorokina.py:36-45 *)
Definition as_dofs (reference : reference) : res (list tagged) :=
  rbind (ReferencesModel.sub_entity_count reference 1) (fun n =>
  rmap (fun edges =>
    flat_map (fun nv => [(DotPointEvaluation (nums (snd nv)) (FV (nums [1; 0])), (0%nat, fst nv));
                         (DotPointEvaluation (nums (snd nv)) (FV (nums [0; 1])), (0%nat, fst nv));
                         (PointDivergenceEvaluation (nums (snd nv)), (0%nat, fst nv))])
             (numbered (ReferencesModel.r_vertices reference)) ++ concat edges)
   (ReferencesModel.map_r (fun e_n =>
      rmap (fun sub_ref => [(DotPointEvaluation (nums (ReferencesModel.midpoint sub_ref)) (FV (nums [1; 0])), (1%nat, e_n));
                            (DotPointEvaluation (nums (ReferencesModel.midpoint sub_ref)) (FV (nums [0; 1])), (1%nat, e_n))])
           (ReferencesModel.sub_entity reference 1 e_n false)) (range n))).

(** CiarletElement.__init__: finite_element.py:615 *)
Definition ciarlet {A B} (basis : list A) (dofs : list B) : res (list A * list B) :=
  if Nat.eqb (length basis) (length dofs) then Ok (basis, dofs) else Err AssertionError.

(** hct.py:36-39, rhct.py:31-34, alfeld_sorokina.py:30-33; NonDefaultReferenceError is a NotImplementedError
    (references.py:22-25) *)
Definition only_default {A} (lowest : nat) (reference : reference) (order : nat) (k : res A) : res A :=
  if negb (Nat.eqb order lowest) then Err AssertionError
  else match ReferencesModel.r_type reference with
       | ReferencesModel.CTriangle =>
           if pts_eq_dec (ReferencesModel.r_vertices reference) (ReferencesModel.reference_vertices ReferencesModel.CTriangle)
           then k else Err NotImplementedError
       | _ => Err AssertionError
       end.

(** hct.py:29-128 *)
Definition make_hct (reference : reference) (order : nat) : res (list piecewise * list tagged) :=
  only_default 3 reference order (
  rbind (normal_dofs reference) (fun normals =>
  rbind (macro_polys (sub_cells (ReferencesModel.r_vertices reference)) hct_pieces) (fun poly =>
  ciarlet poly (hermite_dofs (ReferencesModel.r_vertices reference) ++ normals)))).

(** rhct.py:23-97 *)
Definition make_rhct (reference : reference) (order : nat) : res (list piecewise * list tagged) :=
  only_default 3 reference order (
  rbind (macro_polys (sub_cells (ReferencesModel.r_vertices reference)) rhct_pieces) (fun poly =>
  ciarlet poly (hermite_dofs (ReferencesModel.r_vertices reference)))).

(** alfeld_sorokina.py:23-129 *)
Definition make_as (reference : reference) (order : nat) : res (list piecewise * list tagged) :=
  only_default 2 reference order (
  rbind (as_dofs reference) (fun dofs =>
  rbind (macro_polys (sub_cells (ReferencesModel.r_vertices reference)) as_pieces) (fun poly =>
  ciarlet poly dofs))).

(** What _eval_symbolic returns for a piecewise function: a function, or the integrals that are added up. *)
Inductive pw_outcome := PwValue (f : substituted) | PwIntegrals (l : list outcome).

(** .dot on the result of subs *)
Definition sub_dot (s : substituted) (v : pyval) : res substituted :=
  match s with SFun f => rmap SFun (f_dot f v) | SPw a => rmap SPw (pw_dot a v) end.

(** .integral on the result of subs: piecewise_functions.py:443-465 or functions.py:784-815 *)
Definition sub_integral (s : substituted) (domain : reference) : res (list outcome) :=
  match s with SFun f => rmap (fun o => [o]) (f_integral f domain) | SPw a => pw_integral a domain end.

(** functionals.py:411-413 on a piecewise function *)
Fixpoint pw_diffs_along (a : piecewise) (dirs : list (sym * nat)) : res piecewise :=
  match dirs with
  | [] => Ok a
  | (i, j) :: dirs' => rbind (iterate j (fun f => pw_diff f i) a) (fun f => pw_diffs_along f dirs')
  end.

(** function.subs(x, point) *)
Definition pw_at (a : piecewise) (point : list expr) : res substituted :=
  pw_subs false a (VarList x_symbols) (PSeq (map PExpr point)).

(** _eval_symbolic (and dot) on a piecewise function, for the classes that the macro elements use (None for the
    others, which are not modelled): functionals.py:268-277, 405-414, 504-513, 795-806, 879-896, 989-1016 and
    1279-1307.  get_piece asserts nothing about the length of the point. *)
Definition eval_pw (d : functional) (a : piecewise) : option (res pw_outcome) :=
  match d with
  | PointEvaluation point => Some (rmap PwValue (pw_at a point))
  | DerivativePointEvaluation point derivative =>
      Some (rbind (pw_diffs_along a (zip x_symbols derivative)) (fun f => rmap PwValue (pw_at f point)))
  | PointDirectionalDerivativeEvaluation point direction =>
      Some (rbind (pw_directional_derivative a direction) (fun f => rmap PwValue (pw_at f point)))
  | DotPointEvaluation point vector =>
      Some (rbind (pw_at a point) (fun v1 =>
            rbind (at_point vector point) (fun v2 => rmap PwValue (sub_dot v1 (PFun v2)))))
  | PointDivergenceEvaluation point =>
      Some (rbind (get_piece false a (map number point)) (fun f =>
            rbind (f_div f) (fun g => rmap (fun h => PwValue (SFun h)) (at_point g point))))
  | IntegralMoment domain f =>
      Some (rbind (pw_at a (point_of domain)) (fun v1 =>
            rbind (sub_dot v1 (PFun f)) (fun integrand => rmap PwIntegrals (sub_integral integrand domain))))
  | _ => None
  end.

(** The map of references.py:1004-1012 (interval), 1176-1187 (triangle, plane) and 1576-1588 with 1589-1594
    (quadrilateral, plane) as sympy expressions, for cells whose vertices have as many coordinates as the cell has
    dimensions (others: Err TypeError, not modelled here); as functions these maps are in ReferencesModel.v
    (get_inverse_map_to_self). *)
Definition difference (v0 : pt) : list expr := zip_with (fun s a => esub (ESym s) (ENum a)) x_symbols v0.
Definition edot (row : pt) (v : list expr) : expr :=
  fold_left EAdd (zip_with (fun a e => EMul (ENum a) e) row v) (ENum 0).
Definition inverse_exprs (r : reference) : res (list expr) :=
  let vs := ReferencesModel.r_vertices r in
  if negb (Nat.eqb (ReferencesModel.self_dim r) (ReferencesModel.tdim (ReferencesModel.r_type r))) then Err TypeError else
  match ReferencesModel.r_type r with
  | ReferencesModel.CInterval =>
      rbind (ReferencesModel.get vs 0) (fun v0 => rbind (ReferencesModel.get vs 1) (fun v1 =>
      let v := ReferencesModel.vsub v1 v0 in
      Ok [EDiv (EMul (edot v (difference v0)) (ENum 1)) (ENum (ReferencesModel.vdot v v))]))
  | ReferencesModel.CTriangle | ReferencesModel.CQuadrilateral =>
      rbind (ReferencesModel.get vs 0) (fun v0 => rbind (ReferencesModel.get vs 1) (fun v1 => rbind (ReferencesModel.get vs 2) (fun v2 =>
      rbind (match ReferencesModel.r_type r with
             | ReferencesModel.CQuadrilateral => ReferencesModel.assert_parallelograms vs [[0; 1; 2; 3]%nat]
             | _ => Ok tt
             end) (fun _ =>
      rmap (fun rows => map (fun row => edot row (difference v0)) (firstn 2 rows))
           (ReferencesModel.matrix2_inv (ReferencesModel.vsub v1 v0) (ReferencesModel.vsub v2 v0))))))
  | _ => Err TypeError
  end.

(** invmap[0] and invmap[1] *)
Definition with_inverse {A} (r : reference) (k : expr -> expr -> res A) : res A :=
  rbind (inverse_exprs r) (fun m => match m with [a; b] => k a b | _ => Err IndexError end).

(** {tuple(reference.get_point(pt) for pt in q): pieces[i] if i in pieces else 0 for i, q in enumerate(cells)}
    (p1_iso_p2.py:106-114, 188-196; p1_macro.py:39-55) *)
Definition placed_cells (r : reference) (cells : list (list pt)) : res (list (list pt)) :=
  ReferencesModel.map_r (ReferencesModel.map_r (ReferencesModel.get_point r)) cells.
Definition pieces_on (cells : list (list pt)) (tdim : nat) (pieces : list (nat * expr)) : res piecewise :=
  make_pw (map (fun iq => (snd iq, match find (fun ie => Nat.eqb (fst ie) (fst iq)) pieces with
                                   | Some ie => PExpr (snd ie)
                                   | None => PInt 0
                                   end)) (numbered cells)) tdim.

(** Point evaluations at the vertices, at the midpoints of the edges and, with [inside], at the midpoint of the cell
    (p1_iso_p2.py:42-46, 116-121, 198-204). *)
Definition midpoint_dofs (r : reference) (n_edges : nat) (inside : list tagged) : res (list tagged) :=
  rmap (fun edges => map (fun nv => (PointEvaluation (nums (snd nv)), (0%nat, fst nv))) (numbered (ReferencesModel.r_vertices r)) ++ edges ++ inside)
  (ReferencesModel.map_r (fun e_n =>
     rmap (fun entity => (PointEvaluation (nums (ReferencesModel.midpoint entity)), (1%nat, e_n)))
          (ReferencesModel.sub_entity r 1 e_n false)) (range n_edges)).

(** p1_iso_p2.py:25-48 *)
Definition make_iso_interval (r : reference) : res (list piecewise * list tagged) :=
  rbind (placed_cells r [[[0]; [1 / 2]]; [[1 / 2]; [1]]]) (fun cells =>
  rbind (inverse_exprs r) (fun m => rbind (ReferencesModel.get m 0) (fun x =>
  rbind (ReferencesModel.map_r (pieces_on cells 1)
    [[(0%nat, #1 - #2 * x); (1%nat, #0)];
     [(0%nat, #2 * x); (1%nat, #2 - #2 * x)];
     [(0%nat, #0); (1%nat, #2 * x - #1)]]%py) (fun poly =>
  rbind (midpoint_dofs r 1 []) (fun dofs => ciarlet poly dofs))))).

(** p1_iso_p2.py:78-123 *)
Definition make_iso_triangle (r : reference) : res (list piecewise * list tagged) :=
  with_inverse r (fun x y =>
  let c := (#1 - x - y)%py in
  rbind (placed_cells r [[[0; 0]; [1 / 2; 0]; [0; 1 / 2]];
                         [[1; 0]; [1 / 2; 1 / 2]; [1 / 2; 0]];
                         [[0; 1]; [0; 1 / 2]; [1 / 2; 1 / 2]];
                         [[0; 1 / 2]; [1 / 2; 1 / 2]; [1 / 2; 0]]]) (fun cells =>
  rbind (ReferencesModel.map_r (pieces_on cells 2)
    [[(0%nat, #2 * c - #1)];
     [(1%nat, #2 * x - #1)];
     [(2%nat, #2 * y - #1)];
     [(0%nat, #2 * x); (1%nat, #2 * c); (3%nat, #1 - #2 * y)];
     [(0%nat, #2 * y); (2%nat, #2 * c); (3%nat, #1 - #2 * x)];
     [(1%nat, #2 * y); (2%nat, #2 * x); (3%nat, #1 - #2 * c)]]%py) (fun poly =>
  rbind (midpoint_dofs r 3 []) (fun dofs => ciarlet poly dofs)))).

(** p1_iso_p2.py:154-206 *)
Definition make_iso_quadrilateral (r : reference) : res (list piecewise * list tagged) :=
  with_inverse r (fun x y =>
  rbind (placed_cells r [[[0; 0]; [1 / 2; 0]; [0; 1 / 2]; [1 / 2; 1 / 2]];
                         [[1 / 2; 0]; [1; 0]; [1 / 2; 1 / 2]; [1; 1 / 2]];
                         [[0; 1 / 2]; [1 / 2; 1 / 2]; [0; 1]; [1 / 2; 1]];
                         [[1 / 2; 1 / 2]; [1; 1 / 2]; [1 / 2; 1]; [1; 1]]]) (fun cells =>
  rbind (ReferencesModel.map_r (pieces_on cells 2)
    [[(0%nat, (#1 - #2 * x) * (#1 - #2 * y))];
     [(1%nat, (#2 * x - #1) * (#1 - #2 * y))];
     [(2%nat, (#1 - #2 * x) * (#2 * y - #1))];
     [(3%nat, (#2 * x - #1) * (#2 * y - #1))];
     [(0%nat, #2 * x * (#1 - #2 * y)); (1%nat, #2 * (#1 - x) * (#1 - #2 * y))];
     [(0%nat, #2 * (#1 - #2 * x) * y); (2%nat, #2 * (#1 - #2 * x) * (#1 - y))];
     [(1%nat, #2 * (#2 * x - #1) * y); (3%nat, #2 * (#2 * x - #1) * (#1 - y))];
     [(2%nat, #2 * x * (#2 * y - #1)); (3%nat, #2 * (#1 - x) * (#2 * y - #1))];
     [(0%nat, #4 * x * y); (1%nat, #4 * (#1 - x) * y); (2%nat, #4 * x * (#1 - y)); (3%nat, #4 * (#1 - x) * (#1 - y))]]%py) (fun poly =>
  rbind (midpoint_dofs r 4 [(PointEvaluation (nums (ReferencesModel.midpoint r)), (2%nat, 0%nat))]) (fun dofs => ciarlet poly dofs)))).

(** functionals.py:945-980 IntegralAgainst.__init__ with f_in = 1 on the cell itself *)
Definition integral_against_one (r : reference) : res functional :=
  rmap (fun j => IntegralMoment r (FS (EDiv (ENum 1) (ENum j)))) (ReferencesModel.jacobian r).

(** p1_macro.py:25-62 *)
Definition make_p1_macro (r : reference) : res (list piecewise * list tagged) :=
  rbind (placed_cells r [[[0; 0]; [1; 0]; [1 / 3; 1 / 3]]; [[1; 0]; [0; 1]; [1 / 3; 1 / 3]]; [[0; 1]; [0; 0]; [1 / 3; 1 / 3]]]) (fun cells =>
  with_inverse r (fun i0 i1 =>
  rbind (ReferencesModel.map_r (pieces_on cells 2)
    [[(0%nat, #1); (1%nat, #1); (2%nat, #1)];
     [(0%nat, x0); (1%nat, x0); (2%nat, x0)];
     [(0%nat, x1); (1%nat, x1); (2%nat, x1)];
     [(0%nat, #3 * i1); (1%nat, #3 * (#1 - i0 - i1)); (2%nat, #3 * i0)]]%py) (fun poly =>
  rbind (integral_against_one r) (fun moment =>
  ciarlet poly (map (fun nv => (PointEvaluation (nums (snd nv)), (0%nat, fst nv))) (numbered (ReferencesModel.r_vertices r)) ++ [(moment, (2%nat, 0%nat))]))))).
