(** Model of the dual-basis computations: /repo/symfem/finite_element.py:592-623, 676-740
    and /repo/symfem/polynomials/dual.py:12-37.

    A function is a map from an arbitrary set A to the reals: for scalar functions A is the set of points, for
    vector or matrix functions it is the set of pairs of a component and a point.  Degrees of freedom are maps
    from functions to reals. *)
From Coq Require Import Reals Arith List.
From Verif Require Import Base.
Import ListNotations.
Open Scope R_scope.

(** sympy matrices as lists of rows *)
Definition matrix := list (list R).
Definition entry (M : matrix) (i j : nat) : R := nth j (nth i M []) 0.

(** matrix.inv("LU") (finite_element.py:707, dual.py:27): sympy's elimination is modelled by Gauss-Jordan
    elimination with pivot search on the rows of (M | I).  A row is the pair of its left and right part. *)
Definition row := ((nat -> R) * (nat -> R))%type.
(** the first row with a non-zero entry in column c, and the other rows (part of the elimination above) *)
Fixpoint find_pivot (c : nat) (todo : list row) : option (row * list row) :=
  match todo with
  | [] => None
  | r :: rest =>
      if Req_EM_T (fst r c) 0
      then match find_pivot c rest with Some (p, rest') => Some (p, r :: rest') | None => None end
      else Some (r, rest)
  end.
(** row divided by its entry in column c (part of the elimination above) *)
Definition row_normalise (c : nat) (p : row) : row := (fun j => fst p j / fst p c, fun j => snd p j / fst p c).
(** row r minus the multiple of the pivot row that clears column c (part of the elimination above) *)
Definition row_eliminate (c : nat) (p r : row) : row :=
  (fun j => fst r j - fst r c * fst p j, fun j => snd r j - fst r c * snd p j).
(** the elimination of the remaining columns c, c+1, ...; None when a column has no pivot (singular matrix) *)
Fixpoint eliminate (steps c : nat) (done todo : list row) : option (list row) :=
  match steps with
  | O => Some done
  | S k =>
      match find_pivot c todo with
      | None => None
      | Some (p, rest) =>
          let p' := row_normalise c p in
          eliminate k (S c) (map (row_eliminate c p') done ++ [p']) (map (row_eliminate c p') rest)
      end
  end.
(** matrix.inv("LU") (finite_element.py:707, dual.py:27): the inverse, or an exception for a singular or
    non-square matrix (sympy's NonInvertibleMatrixError and NonSquareMatrixError, both ValueErrors). *)
Definition inv_LU (M : matrix) : res matrix :=
  let n := length M in
  if forallb (fun r => length r =? n)%nat M then
    match eliminate n 0 [] (map (fun i => (entry M i, fun j => if (i =? j)%nat then 1 else 0)) (range n)) with
    | Some rows => Ok (map (fun r : row => map (snd r) (range n)) rows)
    | None => Err ValueError
    end
  else Err ValueError.

Section Ciarlet.
Variable A : Type.
Definition fn := A -> R.
Definition fzero : fn := fun _ => 0.

(** finite_element.py:700-705: rows are basis functions, columns are dofs. *)
Definition dual_matrix (basis : list fn) (dofs : list (fn -> R)) : matrix :=
  map (fun b => map (fun d : fn -> R => d b) dofs) basis.

(** finite_element.py:731-733: c0*p0, then the remaining products added one by one. *)
Definition row_combination (cs : list R) (pb : list fn) : fn :=
  match cs, pb with
  | c0 :: cs', p0 :: pb' =>
      fold_left (fun (sf : fn) cd => fun x => sf x + fst cd * snd cd x) (combine cs' pb') (fun x => c0 * p0 x)
  | _, _ => fzero
  end.

(** finite_element.py:615 (constructor assertion) and 711-740 with
    use_tensor_factorisation=False; memoisation and file cache are modelled elsewhere. *)
Definition get_basis_functions (basis : list fn) (dofs : list (fn -> R)) : res (list fn) :=
  if negb (length basis =? length dofs)%nat then Err AssertionError
  else
    match inv_LU (dual_matrix basis dofs) with
    | Err e => Err e
    | Ok minv => Ok (map (fun i => row_combination (nth i minv []) basis) (range (length dofs)))
    end.

(** f.integral(reference) of the cell, used by l2_dual *)
Variable integral : fn -> R.

(** dual.py:26: the matrix of the integrals of the products *)
Definition gram (poly : list fn) : matrix :=
  map (fun p => map (fun q => integral (fun x => p x * q x)) poly) poly.

(** dual.py:12-37 *)
Definition l2_dual (poly : list fn) : res (list fn) :=
  match inv_LU (gram poly) with
  | Err e => Err e
  | Ok minv =>
      Ok (map (fun i => fold_left (fun (f : fn) jp => fun x => f x + fst jp * snd jp x)
                          (combine (nth i minv []) poly) fzero) (range (length poly)))
  end.
End Ciarlet.
Arguments fzero {A}.
Arguments dual_matrix {A}.
Arguments row_combination {A}.
Arguments get_basis_functions {A}.
Arguments gram {A}.
Arguments l2_dual {A}.
