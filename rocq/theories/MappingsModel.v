(** Model of /repo/symfem/mappings.py on top of the functions of FunctionsModel.v: [map] and [inverse_map] are
    tuples of sympy expressions in the coordinates, as returned by get_map_to and get_inverse_map_to. *)
From Coq Require Import String Reals Arith Bool List.
From Verif Require Import Base FunctionsModel.
Import ListNotations.
Local Open Scope R_scope.

(** sympy.Matrix.det of a square matrix (used by functions.py:1775): Laplace expansion along the first row.
    [fuel] is at least the number of rows. *)
Definition remove_at {A} (j : nat) (l : list A) : list A := firstn j l ++ skipn (S j) l.
Fixpoint edet (fuel : nat) (m : list (list expr)) : expr :=
  match fuel with
  | O => ENum 1
  | S k =>
      match m with
      | [] => ENum 1
      | r :: rest =>
          fold_left (fun acc jc => EAdd acc (EMul (EMul (ENum ((-1) ^ fst jc)) (snd jc))
                                               (edet k (map (remove_at (fst jc)) rest))))
            (combine (range (length r)) r) (ENum 0)
      end
  end.

(** MatrixFunction.det: functions.py:1766-1778. *)
Definition f_det (m : list (list expr)) : res func :=
  if Nat.eqb (fst (mat_shape m)) (snd (mat_shape m)) then Ok (FS (edet (length m) m))
  else if Nat.eqb (fst (mat_shape m)) 3 && Nat.eqb (snd (mat_shape m)) 2 then
    rbind (mat_col m 0) (fun c0 => rbind (mat_col m 1) (fun c1 =>
    rbind (f_cross (FV c0) (PFun (FV c1))) f_norm))
  else Err ValueError.

(** f.subs(x, inverse_map) if substitute, mappings.py:57-58 and the same lines of the other functions *)
Definition substituted (substitute : bool) (f : func) (inverse_map : list expr) : res func :=
  if substitute then f_subs f (VarList x_symbols) (PSeq (map PExpr inverse_map)) else Ok f.

(** MatrixFunction([[i.diff(x[j]) for j in range(tdim)] for i in map]), mappings.py:80, 137, 192, 241, 270 *)
Definition jacobian (map_ : list expr) (tdim : nat) : res func :=
  rbind (map_res (fun i => map_res (fun j => rmap (fun s => ediff s i) (x_at j)) (range tdim)) map_) mk_mat.
(** MatrixFunction([[i.diff(x[j]) for i in inverse_map] for j in range(tdim)]), mappings.py:112, 165, 298 *)
Definition j_inv_of (inverse_map : list expr) (tdim : nat) : res func :=
  rbind (map_res (fun j => rmap (fun s => map (ediff s) inverse_map) (x_at j)) (range tdim)) mk_mat.

(** The result of an operator between functions is a function (typing of mappings.py; anything else would fail
    later with a TypeError). *)
Definition as_fun (v : pyval) : res func := match v with PFun f => Ok f | _ => Err TypeError end.
(** a / b and a @ b for functions, mappings.py:85, 113, 138-139, ... *)
Definition div_by (a : func) (b : pyval) : res func := rbind (py_truediv (PFun a) b) as_fun.
Definition matmul (a b : func) : res func := rbind (py_matmul (PFun a) (PFun b)) as_fun.
(** .det() and .transpose() of a MatrixFunction; other functions have no such attribute (functions.py:364-378;
    the AttributeError is reported as TypeError). *)
Definition det_of (f : func) : res func := match f with FM m => f_det m | _ => Err TypeError end.
Definition transpose_of (f : func) : res func := match f with FM m => f_transpose m | _ => Err TypeError end.
(** det().as_sympy(): functions.py:642-647 *)
Definition det_expr (f : func) : res expr :=
  rbind (det_of f) (fun d => match d with FS e => Ok e | _ => Err AssertionError end).
(** assert f.is_vector / assert f.is_matrix *)
Definition assert_vector (f : func) : res func := match f with FV _ => Ok f | _ => Err AssertionError end.
Definition assert_matrix (f : func) : res func := match f with FM _ => Ok f | _ => Err AssertionError end.

(** mappings.py:39-59 *)
Definition identity (f_in : pyval) (map_ inverse_map : list expr) (substitute : bool) : res func :=
  rbind (parse_function_input f_in) (fun f => substituted substitute f inverse_map).

(** mappings.py:62-85 *)
Definition l2 (f_in : pyval) (map_ inverse_map : list expr) (substitute : bool) : res func :=
  let tdim := length inverse_map in
  rbind (rbind (jacobian map_ tdim) det_expr) (fun jdet =>
  rbind (parse_function_input f_in) (fun f =>
  rbind (substituted substitute f inverse_map) (fun f => div_by f (PExpr (EAbs jdet))))).

(** mappings.py:88-113 *)
Definition covariant (f_in : pyval) (map_ inverse_map : list expr) (substitute : bool) : res func :=
  let tdim := length inverse_map in
  rbind (parse_function_input f_in) (fun f =>
  rbind (substituted substitute f inverse_map) (fun f =>
  rbind (assert_vector f) (fun f =>
  rbind (j_inv_of inverse_map tdim) (fun j_inv => matmul j_inv f)))).

(** mappings.py:116-139 *)
Definition contravariant (f_in : pyval) (map_ inverse_map : list expr) (substitute : bool) : res func :=
  let tdim := length inverse_map in
  rbind (parse_function_input f_in) (fun f =>
  rbind (substituted substitute f inverse_map) (fun f =>
  rbind (assert_vector f) (fun f =>
  rbind (jacobian map_ tdim) (fun jac =>
  rbind (det_of jac) (fun d =>
  rbind (div_by jac (PFun d)) (fun jac => matmul jac f)))))).

(** mappings.py:142-166 *)
Definition double_covariant (f_in : pyval) (map_ inverse_map : list expr) (substitute : bool) : res func :=
  let tdim := length inverse_map in
  rbind (parse_function_input f_in) (fun f =>
  rbind (substituted substitute f inverse_map) (fun f =>
  rbind (assert_matrix f) (fun f =>
  rbind (j_inv_of inverse_map tdim) (fun j_inv =>
  rbind (matmul j_inv f) (fun left_ =>
  rbind (transpose_of j_inv) (fun jt => matmul left_ jt)))))).

(** mappings.py:169-194 *)
Definition double_contravariant (f_in : pyval) (map_ inverse_map : list expr) (substitute : bool) : res func :=
  let tdim := length inverse_map in
  rbind (parse_function_input f_in) (fun f =>
  rbind (substituted substitute f inverse_map) (fun f =>
  rbind (assert_matrix f) (fun f =>
  rbind (jacobian map_ tdim) (fun jac =>
  rbind (det_of jac) (fun d =>
  rbind (div_by jac (PFun d)) (fun jac =>
  rbind (matmul jac f) (fun left_ =>
  rbind (transpose_of jac) (fun jt => matmul left_ jt)))))))).

(** mappings.py:197-217 *)
Definition identity_inverse_transpose (f_in : pyval) (map_ inverse_map : list expr) (substitute : bool) : res func :=
  rbind (parse_function_input f_in) (fun f => substituted substitute f inverse_map).

(** mappings.py:220-243 *)
Definition l2_inverse_transpose (f_in : pyval) (map_ inverse_map : list expr) (substitute : bool) : res func :=
  let tdim := length inverse_map in
  rbind (parse_function_input f_in) (fun f =>
  rbind (substituted substitute f inverse_map) (fun f =>
  rbind (rbind (jacobian map_ tdim) det_expr) (fun jdet =>
  rbind (py_mul (PFun f) (PExpr (EAbs jdet))) as_fun))).

(** mappings.py:246-271 *)
Definition covariant_inverse_transpose (f_in : pyval) (map_ inverse_map : list expr) (substitute : bool) : res func :=
  let tdim := length inverse_map in
  rbind (parse_function_input f_in) (fun f =>
  rbind (substituted substitute f inverse_map) (fun f =>
  rbind (assert_vector f) (fun f =>
  rbind (jacobian map_ tdim) (fun jac => matmul jac f)))).

(** mappings.py:274-300 *)
Definition contravariant_inverse_transpose (f_in : pyval) (map_ inverse_map : list expr) (substitute : bool) : res func :=
  let tdim := length inverse_map in
  rbind (parse_function_input f_in) (fun f =>
  rbind (substituted substitute f inverse_map) (fun f =>
  rbind (assert_vector f) (fun f =>
  rbind (j_inv_of inverse_map tdim) (fun j_inv =>
  rbind (det_of j_inv) (fun d =>
  rbind (div_by j_inv (PFun d)) (fun j_inv => matmul j_inv f)))))).

(** mappings.py:303-414 *)
Definition identity_inverse f map_ inverse_map s := identity f inverse_map map_ s.
Definition l2_inverse f map_ inverse_map s := l2 f inverse_map map_ s.
Definition covariant_inverse f map_ inverse_map s := covariant f inverse_map map_ s.
Definition contravariant_inverse f map_ inverse_map s := contravariant f inverse_map map_ s.
Definition double_covariant_inverse f map_ inverse_map s := double_covariant f inverse_map map_ s.
Definition double_contravariant_inverse f map_ inverse_map s := double_contravariant f inverse_map map_ s.

(** mappings.py:430-434: the name of the function that is looked up in globals() *)
Definition mapping_name (mapname : string) (inverse transpose : bool) : string :=
  (mapname ++ (if inverse then "_inverse" else "") ++ (if transpose then "_transpose" else ""))%string.
(** the mapping functions defined in the module, mappings.py:39-414 *)
Definition mapping_functions : list string :=
  ["identity"; "l2"; "covariant"; "contravariant"; "double_covariant"; "double_contravariant";
   "identity_inverse_transpose"; "l2_inverse_transpose"; "covariant_inverse_transpose";
   "contravariant_inverse_transpose"; "identity_inverse"; "l2_inverse"; "covariant_inverse";
   "contravariant_inverse"; "double_covariant_inverse"; "double_contravariant_inverse"]%string%list.
(** every other name in the module's globals() (imports at mappings.py:3-11, __all__, the exception class,
    get_mapping itself and the module attributes python adds) *)
Definition other_globals : list string :=
  ["annotations"; "Callable"; "sympy"; "AnyFunction"; "FunctionInput"; "MatrixFunction"; "parse_function_input";
   "PointType"; "x"; "__all__"; "MappingNotImplemented"; "get_mapping"; "__name__"; "__doc__"; "__package__";
   "__loader__"; "__spec__"; "__file__"; "__cached__"; "__builtins__"]%string%list.
(** mappings.py:417-439; the result is the name of the function returned. *)
Definition get_mapping (mapname : string) (inverse transpose : bool) : res string :=
  let function_name := mapping_name mapname inverse transpose in
  if existsb (String.eqb function_name) (mapping_functions ++ other_globals)%list
  then Ok function_name else Err ValueError.
