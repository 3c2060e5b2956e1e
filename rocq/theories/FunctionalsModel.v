(** Model of symfem/functionals.py: the classes of degrees of freedom, and of ScalarFunction.integral
    (symfem/functions.py:784-815, 817-829).

    A functional is given by the attributes that its _eval_symbolic and dot use; how the constructors compute
    the stored function self.f (961-980, 1249-1278, 1535-1545, 1598-1608) is not part of this file, so every
    statement about a stored function covers whatever they store.  Piecewise functions as arguments are not
    modelled (PiecewiseModel.v). *)
From Coquelicot Require Import Coquelicot.
From Coq Require Import String Reals ZArith Arith Bool List.
From Verif Require Import Base.
From Verif Require ReferencesModel.
From Verif Require Import FunctionsModel.
Import ListNotations.
Local Open Scope R_scope.

Notation reference := ReferencesModel.reference.
Notation r_type := ReferencesModel.r_type.
Notation r_origin := ReferencesModel.r_origin.
Notation r_axes := ReferencesModel.r_axes.

(** symbols.py:10: t = (t0, t1, t2). *)
Definition t_symbols : list sym := ["t0"%string; "t1"%string; "t2"%string].

(** The loops functionals.py:999-1002, 1083-1086, 1169-1172, 1289-1292, 1445-1448, 1489-1492:
    point[i] = origin[i] + sum of axes[j][i] * t_j.  Simplified: more coordinates in the axes than in the
    origin (an IndexError, which no constructor call on proper vertices gives) are ignored. *)
Fixpoint add_columns (term : R -> sym -> expr) (origin : list R) (columns : list (list R)) : list expr :=
  match origin, columns with
  | o :: os, c :: cs => fold_left (fun e jk => EAdd e (term (fst jk) (snd jk))) (zip c t_symbols) (ENum o)
                        :: add_columns term os cs
  | os, _ => map ENum os
  end.
Definition point_of (domain : reference) : list expr :=
  add_columns (fun j k => EMul (ENum j) (ESym k)) (r_origin domain) (ReferencesModel.zip_star (r_axes domain)).

(** functions.py:801-803: VectorFunction(origin) + t_0 * VectorFunction(axes[0]) + ...; adding vectors of
    different lengths is an AssertionError (functions.py:995). *)
Definition integral_point (domain : reference) : res (list expr) :=
  if forallb (fun a => Nat.eqb (length a) (length (r_origin domain))) (firstn 3 (r_axes domain))
  then Ok (add_columns (fun a ti => EMul (ESym ti) (ENum a)) (r_origin domain) (ReferencesModel.zip_star (r_axes domain)))
  else Err AssertionError.

(** functions.py:784-815 with the default variables: the integrand after substitution, and the limits.  The
    substitution is one variable after the other (805-806).  A point has limits of two entries, for which the
    code returns an Expr instead of a function (808-812), so that BaseFunctional.eval_symbolic fails (215). *)
Definition integral (f : expr) (domain : reference) : res (expr * list ReferencesModel.limit) :=
  match r_type domain with
  | ReferencesModel.CPoint => Err AssertionError
  | c =>
      rbind (ReferencesModel.integration_limits c) (fun limits =>
      rbind (integral_point domain) (fun point =>
      rbind (ReferencesModel.jacobian domain) (fun j =>
      Ok (EMul (fold_left (fun e vp => esubs (fst vp) (snd vp) e) (zip x_symbols point) f) (ENum j), limits))))
  end.

(** sympy.integrate(expr, (v, lo, hi), ...), innermost integral first: sympy is outside the model; where it
    returns a value that value is taken to be the iterated Riemann integral. *)
Fixpoint integrates (limits : list ReferencesModel.limit) (F : (nat -> R) -> R) (value : R) : Prop :=
  match limits with
  | [] => forall e, F e = value
  | (v, lo, hi) :: ls =>
      exists G : (nat -> R) -> R,
        (forall e, is_RInt (fun s => F (fun i => if Nat.eqb i v then s else e i)) (lo e) (hi e) (G e)) /\
        integrates ls G value
  end.

(** The degrees of freedom: functionals.py, one constructor for every _eval_symbolic/dot. *)
Inductive functional :=
(** 245-276 PointEvaluation *)
| PointEvaluation (point : list expr)
(** 308-342 WeightedPointEvaluation *)
| WeightedPointEvaluation (point : list expr) (weight : expr)
(** 377-414 DerivativePointEvaluation *)
| DerivativePointEvaluation (point : list expr) (derivative : list nat)
(** 477-513 PointDirectionalDerivativeEvaluation; 565-587 PointNormalDerivativeEvaluation is one with
    direction edge.normal() *)
| PointDirectionalDerivativeEvaluation (point direction : list expr)
(** 606-640 PointComponentSecondDerivativeEvaluation *)
| PointComponentSecondDerivativeEvaluation (point : list expr) (component : nat * nat)
(** 676-717 PointInnerProduct *)
| PointInnerProduct (point lvec rvec : list expr)
(** 770-806 DotPointEvaluation *)
| DotPointEvaluation (point : list expr) (vector : func)
(** 857-896 PointDivergenceEvaluation *)
| PointDivergenceEvaluation (point : list expr)
(** 938-1016 IntegralAgainst and 1220-1307 IntegralMoment (same _eval_symbolic and dot); 1515-1545
    TangentIntegralMoment and 1578-1608 NormalIntegralMoment are IntegralMoments with a vector f *)
| IntegralMoment (integral_domain : reference) (f : func)
(** 1042-1100 IntegralOfDivergenceAgainst *)
| IntegralOfDivergenceAgainst (integral_domain : reference) (f : func)
(** 1120-1174 IntegralOfDirectionalMultiderivative *)
| IntegralOfDirectionalMultiderivative (integral_domain : reference) (directions : list (list expr)) (orders : list nat) (scale : R)
(** 1388-1451 DerivativeIntegralMoment; 1641-1666 NormalDerivativeIntegralMoment is one with the normal *)
| DerivativeIntegralMoment (integral_domain : reference) (f dot_with : func)
(** 1456-1495 DivergenceIntegralMoment *)
| DivergenceIntegralMoment (integral_domain : reference) (f : func)
(** 1691-1740 InnerProductIntegralMoment (its constructor asserts that both factors are vectors, 1719-1720); 1774-1805 NormalInnerProductIntegralMoment is one with the normals *)
| InnerProductIntegralMoment (integral_domain : reference) (f : func) (inner_left inner_right : list expr).

(** What _eval_symbolic returns: a function, or an integral that sympy computes. *)
Inductive outcome :=
| Value (f : func)
| Integral (integrand : expr) (limits : list ReferencesModel.limit).

(** a python operator applied to a function, which must give a function *)
Definition fun_of (r : res pyval) : res func :=
  rbind r (fun v => match v with PFun f => Ok f | _ => Err AssertionError end).

(** integrand.integral(domain): functions.py:784-815 for scalars; for vectors and matrices the method raises
    NotImplementedError (1251-1267, 1748-1764). *)
Definition f_integral (f : func) (domain : reference) : res outcome :=
  match f with
  | FS e => rmap (fun el => Integral (fst el) (snd el)) (integral e domain)
  | _ => Err NotImplementedError
  end.

(** function.subs(x, point) *)
Definition at_point (function : func) (point : list expr) : res func :=
  f_subs function (VarList x_symbols) (PSeq (map PExpr point)).

Fixpoint iterate {A} (n : nat) (f : A -> res A) (a : A) : res A :=
  match n with O => Ok a | S k => rbind (f a) (iterate k f) end.

(** functionals.py:411-413 *)
Fixpoint diffs_along (function : func) (dirs : list (sym * nat)) : res func :=
  match dirs with
  | [] => Ok function
  | (i, j) :: dirs' => rbind (iterate j (fun f => f_diff f i) function) (fun f => diffs_along f dirs')
  end.

(** functionals.py:1166-1168 *)
Fixpoint directional_diffs (function : func) (dirs : list (list expr * nat)) : res func :=
  match dirs with
  | [] => Ok function
  | (dir, o) :: dirs' =>
      rbind (iterate o (fun f => rbind (f_grad f (length dir)) (fun g => f_dot g (PFun (FV dir)))) function)
            (fun f => directional_diffs f dirs')
  end.

Definition is_scalar (f : func) : bool := match f with FS _ => true | _ => false end.
Definition is_vector (f : func) : bool := match f with FV _ => true | _ => false end.
Definition is_matrix (f : func) : bool := match f with FM _ => true | _ => false end.
Definition check (b : bool) {A} (r : res A) : res A := if b then r else Err AssertionError.

(** The methods _eval_symbolic (and dot). *)
Definition eval_raw (d : functional) (function : func) : res outcome :=
  match d with
  | PointEvaluation point => rmap Value (at_point function point)
  | WeightedPointEvaluation point weight =>
      rbind (at_point function point) (fun v => rmap Value (fun_of (py_mul (PFun v) (PExpr weight))))
  | DerivativePointEvaluation point derivative =>
      rbind (diffs_along function (zip x_symbols derivative)) (fun f => rmap Value (at_point f point))
  | PointDirectionalDerivativeEvaluation point direction =>
      rbind (f_directional_derivative function direction) (fun f => rmap Value (at_point f point))
  | PointComponentSecondDerivativeEvaluation point component =>
      (* functions.py:699-708; 1139-1148 and 1660-1669 raise *)
      match function with
      | FS e => rbind (jacobian_component e (fst component) (snd component)) (fun f => rmap Value (at_point (FS f) point))
      | _ => Err NotImplementedError
      end
  | PointInnerProduct point lvec rvec =>
      rbind (at_point function point) (fun v =>
      rbind (fun_of (py_matmul (PFun v) (PFun (FV rvec)))) (fun w => rmap Value (f_dot (FV lvec) (PFun w))))
  | DotPointEvaluation point vector =>
      rbind (at_point function point) (fun v1 =>
      rbind (at_point vector point) (fun v2 => rmap Value (f_dot v1 (PFun v2))))
  | PointDivergenceEvaluation point =>
      (* 893-896: zip(function, x) *)
      match function with
      | FV _ => rbind (f_div function) (fun f => rmap Value (at_point f point))
      | _ => Err AssertionError
      end
  | IntegralMoment domain f =>
      rbind (at_point function (point_of domain)) (fun v1 =>
      rbind (f_dot v1 (PFun f)) (fun integrand => f_integral integrand domain))
  | IntegralOfDivergenceAgainst domain f =>
      rbind (f_div function) (fun dv =>
      rbind (at_point dv (point_of domain)) (fun v1 =>
      rbind (fun_of (py_mul (PFun v1) (PFun f))) (fun integrand => f_integral integrand domain)))
  | IntegralOfDirectionalMultiderivative domain directions orders scale =>
      rbind (directional_diffs function (zip directions orders)) (fun f =>
      rbind (at_point f (point_of domain)) (fun v1 =>
      rbind (fun_of (py_mul (PFun (FS (ENum scale))) (PFun v1))) (fun integrand => f_integral integrand domain)))
  | DerivativeIntegralMoment domain f dot_with =>
      rbind (f_grad function (ReferencesModel.gdim domain)) (fun g =>
      rbind (at_point g (point_of domain)) (fun v1 =>
      check (is_vector v1) (check (is_scalar f) (
      rbind (f_dot v1 (PFun dot_with)) (fun w =>
      rbind (fun_of (py_mul (PFun w) (PFun f))) (fun integrand => f_integral integrand domain))))))
  | DivergenceIntegralMoment domain f =>
      check (is_vector function) (
      rbind (f_div function) (fun dv =>
      rbind (at_point dv (point_of domain)) (fun v1 =>
      rbind (f_dot v1 (PFun f)) (fun integrand => f_integral integrand domain))))
  | InnerProductIntegralMoment domain f inner_left inner_right =>
      rbind (at_point function (point_of domain)) (fun v1 =>
      check (is_matrix v1) (
      rbind (fun_of (py_matmul (PFun v1) (PFun (FV inner_right)))) (fun w =>
      rbind (f_dot (FV inner_left) (PFun w)) (fun s =>
      rbind (fun_of (py_mul (PFun s) (PFun f))) (fun sf =>
      rbind (ReferencesModel.jacobian domain) (fun j =>
      rbind (fun_of (py_mul (PFun sf) (PExpr (ENum j)))) (fun integrand => f_integral integrand domain)))))))
  end.

(** Values of the symbols t0, t1, t2 on top of p. *)
Definition with_t (p : sym -> R) (e : nat -> R) : sym -> R :=
  fun s => if String.eqb s "t0" then e 0%nat else if String.eqb s "t1" then e 1%nat
           else if String.eqb s "t2" then e 2%nat else p s.

(** functionals.py:205-219 BaseFunctional.eval_symbolic: the result must be a scalar function.  Line 218, which
    demands a constant, is part of the notion of value ([evaluates] in FunctionalsSpec.v: the same number
    whatever the values of the symbols). *)
Definition eval_symbolic (d : functional) (function : func) : res outcome :=
  rbind (eval_raw d function) (fun o =>
  match o with
  | Value (FS e) => Ok o
  | Value _ => Err AssertionError
  | Integral _ _ => Ok o
  end).
