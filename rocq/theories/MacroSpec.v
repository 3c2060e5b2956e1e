(** What it means that the pieces of a piecewise function fit together, and the value of a degree of freedom of a
    piecewise function. *)
From Coquelicot Require Import Coquelicot.
From Coq Require Import String Reals List.
From Verif Require Import Base ReferencesSpec FunctionsModel FunctionsSpec FunctionsSubs FunctionalsModel PiecewiseModel MacroModel.
Import ListNotations.
Local Open Scope R_scope.

(** Evaluating [a] at any point of the convex hull of [domain] (all [n] coordinates given) succeeds, and every piece
    whose cell contains the point has that same value there. *)
Definition fits (n : nat) (domain : list (list R)) (a : piecewise) : Prop :=
  forall p, length p = n -> in_hull domain p -> exists v,
    (exists h, pw_subs false a (VarList x_symbols) (PSeq (map (fun c => PExpr (ENum c)) p)) = Ok (SFun h) /\ forall q, value_at q h = v) /\
    (forall cell f, In (cell, f) (pw_pieces a) -> in_hull cell p -> forall q, value_at (assign x_symbols p q) f = v).

(** The degree of freedom [d] applied to the piecewise function [a] is the number [value]. *)
Definition evaluates_pw (d : functional) (a : piecewise) (value : R) : Prop :=
  match eval_pw d a with
  | Some (Ok (PwValue (SFun (FS e)))) => forall p, ev p e = value
  | Some (Ok (PwIntegrals l)) =>
      exists vs, Forall2 (fun o v => match o with
                                     | Integral e limits => forall p, integrates limits (fun tv => ev (with_t p tv) e) v
                                     | Value _ => False
                                     end) l vs /\ value = sumR vs
  | _ => False
  end.

(** [M] is the matrix of the values of the degrees of freedom (columns) on the functions (rows), and the combinations of
    the functions with the coefficients in the rows of [N] are dual to the degrees of freedom. *)
Definition values_matrix (basis : list piecewise) (dofs : list functional) (M : list (list R)) : Prop :=
  Forall2 (fun a row => Forall2 (fun d v => evaluates_pw d a v) dofs row) basis M.
Definition dual_coefficients (n : nat) (M N : list (list R)) : Prop :=
  length N = n /\ Forall (fun row => length row = n) N /\
  forall i j, (i < n)%nat -> (j < n)%nat ->
    sumR (map (fun k => nth k (nth i N []) 0 * nth j (nth k M []) 0) (seq 0 n)) = if Nat.eqb i j then 1 else 0.
