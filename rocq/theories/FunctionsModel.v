(** Model of symfem/functions.py: scalar, vector and matrix functions, their arithmetic, substitution,
    differential operators, iteration and maximum_degree.

    sympy itself is outside the modelled code.  A sympy expression is the tree [expr] below; sympy's operators
    build trees, [Expr.subs] of a symbol replaces its occurrences and [Expr.diff] is the usual symbolic
    derivative.  sympy's automatic simplification is not modelled: it does not change the value at points where
    the tree is defined. *)
From Coq Require Import String Reals ZArith Arith Bool List.
From Coq Require DecimalString.
From Verif Require Import Base.
Import ListNotations.
Local Open Scope R_scope.

(** sympy.core.symbol.Symbol: identified by its name (symfem/symbols.py:9-10). *)
Definition sym := string.

(** sympy.core.expr.Expr as used by symfem/functions.py (numbers, symbols, +, *, /, integer powers, abs and
    sqrt).  Simplified: numbers are real numbers; other sympy functions (sin, Piecewise, ...) do not occur. *)
Inductive expr :=
| ENum (c : R)
| ESym (s : sym)
| EAdd (a b : expr)
| EMul (a b : expr)
| EDiv (a b : expr)
| EPow (a : expr) (n : nat)
| ESqrt (a : expr)
| EAbs (a : expr).

(** Expr.__neg__ and Expr.__sub__ as used in functions.py:566-580, 626-628 (sympy represents -a by -1*a). *)
Definition eneg (a : expr) : expr := EMul (ENum (-1)) a.
Definition esub (a b : expr) : expr := EAdd a (eneg b).

(** Expr.__pow__ with an integer exponent, functions.py:622-624 (negative exponents are reciprocals).
    Simplified: exponents that are not integers are not modelled. *)
Definition epow (a : expr) (n : Z) : expr :=
  match n with
  | Zneg p => EDiv (ENum 1) (EPow a (Pos.to_nat p))
  | _ => EPow a (Z.to_nat n)
  end.

(** symfem/symbols.py:9: x = (x, y, z). *)
Definition x_symbols : list sym := ["x"%string; "y"%string; "z"%string].

(** functions.py: ScalarFunction._f (531), VectorFunction._vec (937) and MatrixFunction._mat (1342). *)
Inductive func :=
| FS (f : expr)
| FV (vec : list expr)
| FM (mat : list (list expr)).

(** Python values that reach the operators: ints, sympy expressions, functions, lists/tuples,
    sympy.Matrix (given by its rows) and anything else (None, a string, ...). *)
Inductive pyval :=
| PInt (z : Z)
| PExpr (e : expr)
| PFun (f : func)
| PSeq (l : list pyval)
| PMat (rows : list (list expr))
| POther.

(** A python binary operator: [None] stands for the value NotImplemented. *)
Definition slot := option (res func).

Fixpoint map_res {A B} (f : A -> res B) (l : list A) : res (list B) :=
  match l with
  | [] => Ok []
  | a :: l' => rbind (f a) (fun b => rmap (cons b) (map_res f l'))
  end.

(** sympy's conversion of the other operand of an Expr operator; ScalarFunction is converted by
    AnyFunction._sympy_ (functions.py:484-486).  Anything that is not an Expr afterwards is a TypeError. *)
Definition as_expr (v : pyval) : res expr :=
  match v with
  | PInt z => Ok (ENum (IZR z))
  | PExpr e => Ok e
  | PFun (FS f) => Ok f
  | _ => Err TypeError
  end.

(** functions.py:1381 MatrixFunction._shape. *)
Definition mat_shape (m : list (list expr)) : nat * nat :=
  (length m, match m with [] => 0%nat | r :: _ => length r end).

(** functions.py:1366-1385 MatrixFunction.__init__: all rows must have the length of the first one. *)
Definition mk_mat (m : list (list expr)) : res func :=
  if forallb (fun r => Nat.eqb (length r) (snd (mat_shape m))) m then Ok (FM m) else Err AssertionError.

(** zip: stops at the end of the shorter sequence. *)
Fixpoint zip {A B} (l : list A) (l' : list B) : list (A * B) :=
  match l, l' with a :: t, b :: t' => (a, b) :: zip t t' | _, _ => [] end.

Definition zip_with {A B C} (f : A -> B -> C) (l : list A) (l' : list B) : list C :=
  map (fun p => f (fst p) (snd p)) (zip l l').

Definition shape_eqb (a b : nat * nat) : bool := Nat.eqb (fst a) (fst b) && Nat.eqb (snd a) (snd b).

(** The list/tuple branch of VectorFunction.__add__ / __radd__ / __sub__ / __rsub__,
    functions.py:999-1000, 1008-1009, 1017-1018, 1026-1027: [op] combines one component of the vector with one
    item of the list. *)
Definition vec_seq_op (op : expr -> expr -> expr) (vec : list expr) (l : list pyval) : res func :=
  rmap FV (map_res (fun p => rmap (op (fst p)) (as_expr (snd p))) (zip vec l)).

(** The list/tuple branch of MatrixFunction.__add__ etc., functions.py:1435-1440, 1462-1467, 1489-1494,
    1516-1521. *)
Definition mat_seq_row (op : expr -> expr -> expr) (ncols : nat) (p : list expr * pyval) : res (list expr) :=
  match snd p with
  | PSeq j =>
      if Nat.eqb (length j) ncols
      then map_res (fun q => rmap (op (fst q)) (as_expr (snd q))) (zip (fst p) j)
      else Err AssertionError
  | _ => Err AssertionError
  end.

Definition mat_seq_op (op : expr -> expr -> expr) (m : list (list expr)) (l : list pyval) : res func :=
  rbind (map_res (mat_seq_row op (snd (mat_shape m))) (zip m l)) mk_mat.

(** The sympy.Matrix branch of MatrixFunction.__add__ etc., functions.py:1441-1449, 1468-1476, 1495-1503,
    1522-1530.  [entry m i j] is m[i][j]; [None] is an index out of range. *)
Definition entry (m : list (list expr)) (i j : nat) : option expr :=
  match nth_error m i with Some r => nth_error r j | None => None end.

Definition entry_op (op : expr -> expr -> expr) (m m' : list (list expr)) (i j : nat) : res expr :=
  match entry m i j, entry m' i j with Some a, Some b => Ok (op a b) | _, _ => Err IndexError end.

Definition mat_sympy_op (op : expr -> expr -> expr) (m m' : list (list expr)) : res func :=
  if Nat.eqb (fst (mat_shape m')) (fst (mat_shape m)) && Nat.eqb (snd (mat_shape m')) (snd (mat_shape m)) then
    rbind (map_res (fun i => map_res (entry_op op m m' i) (range (snd (mat_shape m))))
             (range (fst (mat_shape m)))) mk_mat
  else Err AssertionError.

(** The MatrixFunction branch, functions.py:1427-1434, 1454-1461, 1481-1488, 1508-1515. *)
Definition mat_mat_op (op : expr -> expr -> expr) (m m' : list (list expr)) : res func :=
  if shape_eqb (mat_shape m) (mat_shape m') then mk_mat (zip_with (zip_with op) m m') else Err AssertionError.

(** __add__, __sub__ of the three classes: functions.py:550-556, 566-572, 994-1001, 1012-1019, 1425-1450,
    1479-1504.  [op a b] is the sympy operation with [a] from self and [b] from other. *)
Definition additive (op : expr -> expr -> expr) (self : func) (other : pyval) : slot :=
  match self, other with
  | FS f, PFun (FS g) => Some (Ok (FS (op f g)))
  | FS f, PInt z => Some (Ok (FS (op f (ENum (IZR z)))))
  | FS f, PExpr e => Some (Ok (FS (op f e)))
  | FS _, _ => None
  | FV v, PFun (FV w) =>
      Some (if Nat.eqb (length v) (length w) then Ok (FV (zip_with op v w)) else Err AssertionError)
  | FV v, PSeq l => Some (vec_seq_op op v l)
  | FV _, _ => None
  | FM m, PFun (FM m') => Some (mat_mat_op op m m')
  | FM m, PSeq l => Some (mat_seq_op op m l)
  | FM m, PMat m' => Some (mat_sympy_op op m m')
  | FM _, _ => None
  end.

Definition f_add := additive EAdd.
Definition f_sub := additive esub.

(** __radd__, __rsub__: functions.py:558-564, 574-580, 1003-1010, 1021-1028, 1452-1477, 1506-1531: the same
    branches with the operands of each scalar operation exchanged. *)
Definition f_radd := additive (fun a b => EAdd b a).
Definition f_rsub := additive (fun a b => esub b a).

(** __mul__, __truediv__: functions.py:598-604, 582-588, 1046-1052, 1034-1040, 1549-1555, 1537-1543. *)
Definition scaling (op : expr -> expr -> expr) (self : func) (other : pyval) : slot :=
  match other with
  | PFun (FS _) | PInt _ | PExpr _ =>
      match as_expr other with
      | Ok e =>
          Some (match self with
                | FS f => Ok (FS (op f e))
                | FV v => Ok (FV (map (fun i => op i e) v))
                | FM m => mk_mat (map (map (fun i => op i e)) m)
                end)
      | Err _ => None
      end
  | _ => None
  end.

Definition f_mul := scaling EMul.
Definition f_truediv := scaling EDiv.

(** __rmul__: functions.py:606-612, 1054-1060, 1557-1563. *)
Definition f_rmul := scaling (fun a b => EMul b a).

(** __rtruediv__: functions.py:590-596; NotImplemented for vectors and matrices (1042-1044, 1545-1547). *)
Definition f_rtruediv (self : func) (other : pyval) : slot :=
  match self with FS _ => scaling (fun a b => EDiv b a) self other | _ => None end.

(** __neg__: functions.py:626-628, 1030-1032, 1533-1535. *)
Definition f_neg (self : func) : res func :=
  match self with
  | FS f => Ok (FS (eneg f))
  | FV v => Ok (FV (map eneg v))
  | FM m => mk_mat (map (map eneg) m)
  end.

(** __pow__ with an int: functions.py:622-624, 1076-1082, 1589-1595.  Simplified: only int exponents. *)
Definition f_pow (self : func) (n : Z) : res func :=
  match self with
  | FS f => Ok (FS (epow f n))
  | FV v => Ok (FV (map (fun i => epow i n) v))
  | FM m => mk_mat (map (map (fun i => epow i n)) m)
  end.

(** MatrixFunction.row and .col: functions.py:1403-1412, 1414-1423. *)
Definition opt_res {A} (o : option A) : res A := match o with Some a => Ok a | None => Err IndexError end.
Definition mat_row (m : list (list expr)) (n : nat) : res (list expr) :=
  map_res (fun i => opt_res (entry m n i)) (range (snd (mat_shape m))).
Definition mat_col (m : list (list expr)) (n : nat) : res (list expr) :=
  map_res (fun i => opt_res (entry m i n)) (range (fst (mat_shape m))).

(** VectorFunction.dot with a VectorFunction: functions.py:1171-1176. *)
Definition vec_dot (v w : list expr) : res expr :=
  if Nat.eqb (length v) (length w)
  then Ok (fold_left (fun out p => EAdd out (EMul (fst p) (snd p))) (zip v w) (ENum 0))
  else Err AssertionError.

(** VectorFunction.__matmul__ (functions.py:1062-1067) and __rmatmul__ (1069-1074),
    MatrixFunction.__matmul__ (1565-1575) and __rmatmul__ (1577-1587), ScalarFunction (614-620). *)
Definition f_matmul (self : func) (other : pyval) : slot :=
  match self, other with
  | FV v, PFun (FM m) =>
      Some (if Nat.eqb (snd (mat_shape m)) (length v)
            then rmap FV (map_res (fun i => rbind (mat_col m i) (fun c => vec_dot c v))
                            (range (fst (mat_shape m))))
            else Err AssertionError)
  | FM m, PFun (FM m') =>
      Some (if Nat.eqb (fst (mat_shape m')) (snd (mat_shape m))
            then rbind (map_res (fun i =>
                          map_res (fun j => rbind (mat_row m i) (fun r =>
                                            rbind (mat_col m' j) (fun c => vec_dot r c)))
                            (range (snd (mat_shape m')))) (range (fst (mat_shape m)))) mk_mat
            else Err AssertionError)
  | _, _ => None
  end.

Definition f_rmatmul (self : func) (other : pyval) : slot :=
  match self, other with
  | FV v, PFun (FM m) =>
      Some (if Nat.eqb (snd (mat_shape m)) (length v)
            then rmap FV (map_res (fun i => rbind (mat_row m i) (fun r => vec_dot r v))
                            (range (fst (mat_shape m))))
            else Err AssertionError)
  | _, _ => None
  end.

(** Python's dispatch of a binary operator (language reference 3.3.8): the left operand's method, then the
    reflected method of the right operand if the classes differ, else TypeError.  When the left operand is a
    sympy Expr and the right one a ScalarFunction, sympy converts the latter (functions.py:484-486) and
    returns an Expr; ints and lists have no method for these operands.  Simplified: sympy.Matrix as a left
    operand is not modelled (reported as TypeError). *)
Definition same_class (f g : func) : bool :=
  match f, g with FS _, FS _ | FV _, FV _ | FM _, FM _ => true | _, _ => false end.

Definition finish (s : slot) : res pyval :=
  match s with Some r => rmap PFun r | None => Err TypeError end.

Definition binop (op rop : func -> pyval -> slot) (eop : expr -> expr -> expr) (a b : pyval) : res pyval :=
  match a, b with
  | PFun f, _ =>
      match op f b with
      | Some r => rmap PFun r
      | None => match b with
                | PFun g => if same_class f g then Err TypeError else finish (rop g a)
                | _ => Err TypeError
                end
      end
  | PExpr e, PFun (FS g) => Ok (PExpr (eop e g))
  | PInt _, PFun g | PExpr _, PFun g | PSeq _, PFun g => finish (rop g a)
  | _, _ => Err TypeError
  end.

Definition py_add := binop f_add f_radd EAdd.
Definition py_sub := binop f_sub f_rsub esub.
Definition py_mul := binop f_mul f_rmul EMul.
Definition py_truediv := binop f_truediv f_rtruediv EDiv.
(** [@]: sympy's Expr.__matmul__ does not exist, so a left Expr goes to the reflected method. *)
Definition py_matmul (a b : pyval) : res pyval :=
  match a, b with
  | PFun f, _ =>
      match f_matmul f b with
      | Some r => rmap PFun r
      | None => match b with
                | PFun g => if same_class f g then Err TypeError else finish (f_rmatmul g a)
                | _ => Err TypeError
                end
      end
  | PInt _, PFun g | PExpr _, PFun g | PSeq _, PFun g => finish (f_rmatmul g a)
  | _, _ => Err TypeError
  end.

(** parse_function_input: functions.py:1827-1853; VectorFunction.__init__ (953-965) and
    MatrixFunction.__init__ require scalar components. *)
Definition item_expr (v : pyval) : res expr :=
  match v with
  | PInt z => Ok (ENum (IZR z))
  | PExpr e => Ok e
  | PFun (FS f) => Ok f
  | _ => Err AssertionError
  end.
Definition is_seq (v : pyval) : bool := match v with PSeq _ => true | _ => false end.

Definition parse_function_input (v : pyval) : res func :=
  match v with
  | PFun f => Ok f
  | PInt z => Ok (FS (ENum (IZR z)))
  | PExpr e => Ok (FS e)
  | PSeq [] => Err IndexError
  | PSeq ((i0 :: _) as l) =>
      if is_seq i0
      then rbind (map_res (fun i => match i with PSeq r => Ok r | _ => Err AssertionError end) l) (fun rows =>
           rbind (map_res (map_res item_expr) rows) mk_mat)
      else rmap FV (map_res item_expr l)
  | PMat _ | POther => Err ValueError
  end.

(** .dot of the three classes: functions.py:723-739, 1161-1181, 1682-1703. *)
Definition mat_dot (m m' : list (list expr)) : res expr :=
  if shape_eqb (mat_shape m) (mat_shape m') then
    fold_left (fun out ij => rbind out (fun o => rmap (EAdd o) (entry_op EMul m m' (fst ij) (snd ij))))
      (flat_map (fun i => map (pair i) (range (fst (mat_shape m)))) (range (fst (mat_shape m))))
      (Ok (ENum 0))
  else Err AssertionError.

Definition f_dot (self : func) (other_in : pyval) : res func :=
  rbind (parse_function_input other_in) (fun other =>
  match self, other with
  | FS f, FS g => Ok (FS (EMul f g))
  | FV v, FV w => rmap FS (vec_dot v w)
  | FM m, FM m' => rmap FS (mat_dot m m')
  | _, _ => Err NotImplementedError
  end).

(** .cross of the three classes: functions.py:741-750, 1183-1204, 1705-1714. *)
Definition f_cross (self : func) (other_in : pyval) : res func :=
  match self with
  | FV v =>
      rbind (parse_function_input other_in) (fun other =>
      match other with
      | FV w =>
          match v, w with
          | [v0; v1], [w0; w1] => Ok (FS (esub (EMul v0 w1) (EMul v1 w0)))
          | [v0; v1; v2], [w0; w1; w2] =>
              Ok (FV [esub (EMul v1 w2) (EMul v2 w1); esub (EMul v2 w0) (EMul v0 w2);
                      esub (EMul v0 w1) (EMul v1 w0)])
          | _, _ => Err AssertionError
          end
      | _ => Err AssertionError
      end)
  | _ => Err ValueError
  end.

(** .norm: functions.py:776-782, 1240-1249, 1740-1746. *)
Definition f_norm (self : func) : res func :=
  match self with
  | FS f => Ok (FS (EAbs f))
  | FV v => Ok (FS (ESqrt (fold_left (fun a i => EAdd a (EPow i 2)) v (ENum 0))))
  | FM _ => Err NotImplementedError
  end.

(** MatrixFunction.transpose: functions.py:1780-1788 (sympy.Matrix.transpose exchanges rows and columns). *)
Definition f_transpose (m : list (list expr)) : res func :=
  rbind (map_res (mat_col m) (range (snd (mat_shape m)))) mk_mat.

(** Expr.subs(s, v) of sympy for a symbol s. *)
Fixpoint esubs (s : sym) (v : expr) (e : expr) : expr :=
  match e with
  | ENum c => ENum c
  | ESym s' => if String.eqb s s' then v else ESym s'
  | EAdd a b => EAdd (esubs s v a) (esubs s v b)
  | EMul a b => EMul (esubs s v a) (esubs s v b)
  | EDiv a b => EDiv (esubs s v a) (esubs s v b)
  | EPow a n => EPow (esubs s v a) n
  | ESqrt a => ESqrt (esubs s v a)
  | EAbs a => EAbs (esubs s v a)
  end.

(** f"DUMMY_{i}", functions.py:664. *)
Definition dummy (i : nat) : sym :=
  String.append "DUMMY_" (DecimalString.NilEmpty.string_of_uint (Nat.to_uint i)).

(** The argument [vars] of subs: one symbol or a list/tuple of symbols (symbols.py:15). *)
Inductive axis_vars := VarOne (s : sym) | VarList (l : list sym).

(** ScalarFunction.subs: functions.py:649-672.  A function given as [values] is first turned into its sympy
    form (660-661): an Expr, a tuple or a Matrix. *)
Definition as_sympy (v : pyval) : pyval :=
  match v with
  | PFun (FS f) => PExpr f
  | PFun (FV l) => PSeq (map PExpr l)
  | PFun (FM m) => PMat m
  | _ => v
  end.

Definition subs_expr (f : expr) (vars : axis_vars) (values : pyval) : res expr :=
  match vars, as_sympy values with
  | VarList vs, PSeq l =>
      let dummies := map dummy (range (length l)) in
      let subbed := fold_left (fun e p => esubs (fst p) (ESym (snd p)) e) (zip vs dummies) f in
      rbind (map_res as_expr l) (fun es =>
      Ok (fold_left (fun e p => esubs (fst p) (snd p) e) (zip dummies es) subbed))
  | VarList _, _ => Err AssertionError
  | VarOne _, PSeq _ => Err AssertionError
  | VarOne s, v => rbind (as_expr v) (fun e => Ok (esubs s e f))
  end.

(** .subs of the three classes: functions.py:672, 1104-1115, 1620-1631. *)
Definition f_subs (self : func) (vars : axis_vars) (values : pyval) : res func :=
  match self with
  | FS f => rmap FS (subs_expr f vars values)
  | FV v => rmap FV (map_res (fun i => subs_expr i vars values) v)
  | FM m => rbind (map_res (map_res (fun i => subs_expr i vars values)) m) mk_mat
  end.

(** Expr.diff(s) of sympy.  For abs sympy's result is written for complex arguments; for real values it is
    u * u' / |u|, which is used here. *)
Fixpoint ediff (s : sym) (e : expr) : expr :=
  match e with
  | ENum _ => ENum 0
  | ESym s' => if String.eqb s s' then ENum 1 else ENum 0
  | EAdd a b => EAdd (ediff s a) (ediff s b)
  | EMul a b => EAdd (EMul (ediff s a) b) (EMul a (ediff s b))
  | EDiv a b => EDiv (esub (EMul (ediff s a) b) (EMul a (ediff s b))) (EMul b b)
  | EPow a n => match n with
                | O => ENum 0
                | S k => EMul (EMul (ENum (INR n)) (EPow a k)) (ediff s a)
                end
  | ESqrt a => EDiv (ediff s a) (EMul (ENum 2) (ESqrt a))
  | EAbs a => EDiv (EMul a (ediff s a)) (EAbs a)
  end.

(** x[i] for x of symbols.py:9. *)
Definition x_at (i : nat) : res sym := opt_res (nth_error x_symbols i).

(** ScalarFunction.diff 674-683, VectorFunction.diff 1117-1126, MatrixFunction.diff 1633-1647. *)
Definition f_diff (self : func) (s : sym) : res func :=
  match self with
  | FS f => Ok (FS (ediff s f))
  | FV v => Ok (FV (map (ediff s) v))
  | FM m => mk_mat (map (map (ediff s)) m)
  end.

(** ScalarFunction.directional_derivative: functions.py:685-697 (vectors and matrices: 1128-1137, 1649-1658). *)
Definition f_directional_derivative (self : func) (direction : list expr) : res func :=
  match self with
  | FS f => Ok (FS (fold_left (fun out p => EAdd out (EMul (snd p) (ediff (fst p) f)))
                      (zip x_symbols direction) (ENum 0)))
  | _ => Err NotImplementedError
  end.

(** ScalarFunction.jacobian_component 699-708 and jacobian 710-721 (vectors and matrices: 1139-1159,
    1660-1680). *)
Definition jacobian_component (f : expr) (i j : nat) : res expr :=
  rbind (x_at i) (fun xi => rbind (x_at j) (fun xj => Ok (ediff xj (ediff xi f)))).

Definition f_jacobian (self : func) (dim : nat) : res func :=
  match self with
  | FS f => rbind (map_res (fun i => map_res (fun j => jacobian_component f i j) (range dim)) (range dim)) mk_mat
  | _ => Err NotImplementedError
  end.

(** ScalarFunction.grad 760-766 (vectors and matrices: 1217-1223, 1724-1730). *)
Definition f_grad (self : func) (dim : nat) : res func :=
  match self with
  | FS f => rmap FV (map_res (fun i => rmap (fun s => ediff s f) (x_at i)) (range dim))
  | _ => Err ValueError
  end.

(** VectorFunction.div 1206-1215 (scalars and matrices: 752-758, 1716-1722). *)
Definition f_div (self : func) : res func :=
  match self with
  | FV v => Ok (FS (fold_left (fun out p => EAdd out (ediff (snd p) (fst p))) (zip v x_symbols) (ENum 0)))
  | _ => Err ValueError
  end.

(** VectorFunction.curl 1225-1238 (scalars and matrices: 768-774, 1732-1738). *)
Definition f_curl (self : func) : res func :=
  match self with
  | FV [v0; v1; v2] =>
      Ok (FV [esub (ediff "y"%string v2) (ediff "z"%string v1); esub (ediff "z"%string v0) (ediff "x"%string v2);
              esub (ediff "x"%string v1) (ediff "y"%string v0)])
  | FV _ => Err AssertionError
  | _ => Err ValueError
  end.

(** A VectorFunction as an iterator: its components and the attribute iter_n, which __iter__ sets
    (functions.py:1269-1280).  [None]: the attribute does not exist yet. *)
Record iter_state := { it_vec : list expr; it_n : option nat }.

(** __iter__: functions.py:1269-1272. *)
Definition vec_iter (st : iter_state) : iter_state := {| it_vec := it_vec st; it_n := Some 0%nat |}.

(** __next__: functions.py:1274-1280.  The outcome is a component, StopIteration, or (before any __iter__) an
    AttributeError. *)
Inductive next_result := Item (e : expr) | StopIteration | NoAttribute.

Definition vec_next (st : iter_state) : next_result * iter_state :=
  match it_n st with
  | None => (NoAttribute, st)
  | Some n =>
      if Nat.ltb n (length (it_vec st)) then
        match nth_error (it_vec st) (S n - 1) with
        | Some e => (Item e, {| it_vec := it_vec st; it_n := Some (S n) |})
        | None => (NoAttribute, st)
        end
      else (StopIteration, st)
  end.

(** Iterating over a function that is not a vector raises TypeError: functions.py:342-344 (neither
    ScalarFunction nor MatrixFunction defines __iter__). *)
Definition f_iter (self : func) : res iter_state :=
  match self with
  | FV v => Ok (vec_iter {| it_vec := v; it_n := None |})
  | _ => Err TypeError
  end.

(** Python's for statement over a VectorFunction: call __iter__ once, then __next__ until StopIteration.
    [fuel] bounds the number of __next__ calls; [body] is run on each component and may itself iterate over
    the same object (it gets and returns the object's state). *)
Fixpoint for_next {A} (fuel : nat) (body : A -> expr -> iter_state -> A * iter_state)
    (acc : A) (st : iter_state) : option (A * iter_state) :=
  match fuel with
  | O => None
  | S k =>
      match vec_next st with
      | (Item e, st') => let (acc', st'') := body acc e st' in for_next k body acc' st''
      | (_, st') => Some (acc, st')
      end
  end.
Definition for_loop {A} (fuel : nat) (body : A -> expr -> iter_state -> A * iter_state)
    (acc : A) (st : iter_state) : option (A * iter_state) := for_next fuel body acc (vec_iter st).

(** zip(v, v): iter is called on both arguments (twice the same object), then __next__ alternates. *)
Fixpoint zip_next (fuel : nat) (acc : list (expr * expr)) (st : iter_state)
    : option (list (expr * expr)) :=
  match fuel with
  | O => None
  | S k =>
      match vec_next st with
      | (Item a, st') =>
          match vec_next st' with
          | (Item b, st'') => zip_next k (acc ++ [(a, b)]) st''
          | _ => Some acc
          end
      | _ => Some acc
      end
  end.
Definition zip_self (fuel : nat) (st : iter_state) : option (list (expr * expr)) :=
  zip_next fuel [] (vec_iter (vec_iter st)).

(** A polynomial in x, y, z in expanded form: coefficient and exponents of each term.  ScalarFunction
    .maximum_degree (functions.py:902-931) is modelled on polynomials that sympy stores in this form. *)
Definition poly3 := list (R * (nat * nat * nat)).

Definition exponent (v : nat) (m : nat * nat * nat) : nat :=
  match v with 0%nat => fst (fst m) | 1%nat => snd (fst m) | _ => snd m end.
Definition lower (v : nat) (m : nat * nat * nat) : nat * nat * nat :=
  match m with
  | (a, b, c) => match v with 0%nat => ((a - 1)%nat, b, c) | 1%nat => (a, (b - 1)%nat, c) | _ => (a, b, (c - 1)%nat) end
  end.

(** f.diff(v) of an expanded polynomial. *)
Definition poly_diff (v : nat) (p : poly3) : poly3 :=
  flat_map (fun cm => match exponent v (snd cm) with
                      | O => []
                      | S k => [(fst cm * INR (S k), lower v (snd cm))]
                      end) p.

(** The loop of functions.py:918-923: count derivatives until f is 0.  [fuel]: bound on the number of
    iterations; None if it is used up. *)
Fixpoint count_diffs (fuel v : nat) (p : poly3) (d : Z) : option Z :=
  match p with
  | [] => Some d
  | _ => match fuel with
         | O => None
         | S k => count_diffs k v (poly_diff v p) (d + 1)%Z
         end
  end.

(** A bound on the number of iterations that is always enough (proved in FunctionsProofs). *)
Definition fuel_for (p : poly3) : nat :=
  S (fold_right (fun cm s => (exponent 0 (snd cm) + exponent 1 (snd cm) + exponent 2 (snd cm) + s)%nat) 0%nat p).

Definition degree_in (v : nat) (p : poly3) : option Z :=
  option_map (fun d => (d - 1)%Z) (count_diffs (fuel_for p) v p 0%Z).

(** ScalarFunction.maximum_degree: functions.py:902-931; cells are identified by their names. *)
Definition maximum_degree (cell : string) (p : poly3) : res Z :=
  if String.eqb cell "pyramid" then Err NotImplementedError
  else match degree_in 0 p, degree_in 1 p, degree_in 2 p with
  | Some d0, Some d1, Some d2 =>
      if existsb (String.eqb cell) ["interval"; "triangle"; "tetrahedron"]%string then Ok (d0 + d1 + d2)%Z
      else if existsb (String.eqb cell) ["quadrilateral"; "hexahedron"]%string then Ok (Z.max (Z.max d0 d1) d2)
      else if String.eqb cell "prism" then Ok (Z.max (d0 + d1) d2)
      else Err ValueError
  | _, _, _ => Err RuntimeError
  end.

(** VectorFunction.maximum_degree 1324-1336 and MatrixFunction.maximum_degree 1798-1810: the maximum over the
    components (max() of an empty sequence is a ValueError). *)
Definition maximum_degree_list (cell : string) (ps : list poly3) : res Z :=
  rbind (map_res (maximum_degree cell) ps) (fun ds =>
  match ds with [] => Err ValueError | d :: ds' => Ok (fold_left Z.max ds' d) end).
