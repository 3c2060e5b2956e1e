(** Model of symfem/utils.py (allequal) and of the ordinals of symfem/functionals.py (_nth). *)
From Coq Require Import String ZArith Arith Bool List.
From Coq Require DecimalString.
From Verif Require Import Base.
Import ListNotations.

Section AllEqual.

(** sympy expressions, sympy.Integer(z), and the test [(first - second).expand().simplify() == 0] of
    functions.py:86.  These belong to sympy and are parameters of the model. *)
Variable E : Type.
Variable of_int : Z -> E.
Variable eqE : E -> E -> bool.

(** The values compared: lists/tuples, python ints, sympy expressions, ScalarFunction and VectorFunction.
    Simplified: matrices and piecewise functions are not included. *)
Inductive value :=
| NSeq (l : list value)
| NInt (z : Z)
| NExpr (e : E)
| NScal (e : E)
| NVec (v : list E).

(** functions.py:42-72 _to_sympy_format of a list or tuple whose first item is not a list: every item must
    become an Expr (AssertionError on line 65). *)
Definition item_format (i : value) : res E :=
  match i with
  | NInt z => Ok (of_int z)
  | NExpr e | NScal e => Ok e
  | NSeq _ | NVec _ => Err AssertionError
  end.
Fixpoint items_format (l : list value) : res (list E) :=
  match l with
  | [] => Ok []
  | i :: l' => rbind (item_format i) (fun e => rmap (cons e) (items_format l'))
  end.

(** functions.py:88-94 _check_equal of two tuples. *)
Fixpoint check_tuples (a b : list E) : bool :=
  match a, b with
  | [], [] => true
  | x :: a', y :: b' => eqE x y && check_tuples a' b'
  | _, _ => false
  end.

(** AnyFunction.__eq__ (functions.py:516-518) of a function with sympy form [f] (an expression or a tuple)
    and a list: 59-67, then 75-109.  An empty list raises IndexError (line 60); if the first item is a list
    the list becomes a Matrix, which is equal to neither (line 109). *)
Definition eq_seq (f : E + list E) (l : list value) : res bool :=
  match l with
  | [] => Err IndexError
  | NSeq _ :: _ => Ok false
  | _ => rbind (items_format l) (fun t => Ok (match f with inl _ => false | inr v => check_tuples v t end))
  end.

(** a == b of python for values that are not both lists and not sympy expressions; comparing a list or an int
    with a function uses the function's reflected __eq__. *)
Definition py_eq (a b : value) : res bool :=
  match a, b with
  | NInt x, NInt y => Ok (Z.eqb x y)
  | NInt x, NScal e | NScal e, NInt x => Ok (eqE e (of_int x))
  | NScal e, NScal e' => Ok (eqE e e')
  | NScal e, NExpr e' => Ok (eqE e e')
  | NVec v, NVec w => Ok (check_tuples v w)
  | NVec _, (NInt _ | NScal _ | NExpr _) | (NInt _ | NScal _), NVec _ => Ok false
  | NScal e, NSeq l | NSeq l, NScal e => eq_seq (inl e) l
  | NVec v, NSeq l | NSeq l, NVec v => eq_seq (inr v) l
  | NInt _, NSeq _ | NSeq _, NInt _ => Ok false
  | _, _ => Err TypeError
  end.

(** utils.py:12-31 allequal.  zip stops at the end of the shorter list (23). *)
Fixpoint allequal (a b : value) {struct a} : res bool :=
  match a, b with
  | NSeq la, NSeq lb =>
      (fix loop (la : list value) (lb : list value) {struct la} : res bool :=
         match la, lb with
         | i :: la', j :: lb' => rbind (allequal i j) (fun c => if c then loop la' lb' else Ok false)
         | _, _ => Ok true
         end) la lb
  | _, _ =>
      let a1 := match a with NExpr e => NScal e | _ => a end in
      let a2 := match b with NExpr e => NScal e | _ => a1 end in
      py_eq a2 b
  end.

End AllEqual.

Arguments NSeq {E}. Arguments NInt {E}. Arguments NExpr {E}. Arguments NScal {E}. Arguments NVec {E}.

(** f"{n}" for a non-negative int. *)
Definition decimal (n : nat) : string := DecimalString.NilEmpty.string_of_uint (Nat.to_uint n).

(** functionals.py:66-81 _nth. *)
Definition nth_text (n : nat) : string :=
  if Nat.eqb (n mod 10) 1 && negb (Nat.eqb n 11) then decimal n ++ "st"
  else if Nat.eqb (n mod 10) 2 && negb (Nat.eqb n 12) then decimal n ++ "nd"
  else if Nat.eqb (n mod 10) 3 && negb (Nat.eqb n 12) then decimal n ++ "rd"
  else decimal n ++ "th".
