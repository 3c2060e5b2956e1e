(** Model of /repo/symfem/elements/bernstein.py.

    sympy rationals are real numbers, functions are their values.  The Bernstein functionals are given by their
    sub-entity and index; their values are in [bernstein_functional]. *)
From Coq Require Import String Arith ZArith Reals List.
From Verif Require Import Base PolyLib PolySetsModel ReferencesModel CiarletModel ElementModel MomentsModel.
Import ListNotations.
Open Scope R_scope.

(** bernstein.py:24-40 *)
Definition single_choose (n k : nat) : R :=
  fold_left (fun out i => out / INR i) (range2 1 (n - k + 1))
    (fold_left (fun out i => out * INR i) (range2 (k + 1) (n + 1)) 1).

(** bernstein.py:43-58.  The running value of n stays non-negative for powers whose sum is at most n, the only
    ones it is called with. *)
Definition choose (n : nat) (powers : list nat) : R :=
  snd (fold_left (fun s p => ((fst s - p)%nat, snd s * single_choose (fst s) p)) powers (n, 1)).

(** bernstein.py:74-88, the lists [lambdas]; other dimensions leave the variables unbound (UnboundLocalError,
    here RuntimeError). *)
Definition lambdas (d : nat) (vars : point) : res (list R) :=
  match d with
  | 1%nat => Ok [1 - vars 0%nat; vars 0%nat]
  | 2%nat => Ok [1 - vars 0%nat - vars 1%nat; vars 0%nat; vars 1%nat]
  | 3%nat => Ok [1 - vars 0%nat - vars 1%nat - vars 2%nat; vars 0%nat; vars 1%nat; vars 2%nat]
  | _ => Err RuntimeError
  end.
(** bernstein.py:74-88, the lists [powers] *)
Definition powers (n d : nat) : res (list (list nat)) :=
  match d with
  | 1 => Ok (map (fun i => [n - i; i]) (range (n + 1)))
  | 2 => Ok (flat_map (fun i => map (fun j => [n - i - j; j; i]) (range (n + 1 - i))) (range (n + 1)))
  | 3 => Ok (flat_map (fun i => flat_map (fun j => map (fun k => [n - i - j - k; k; j; i])
               (range (n + 1 - i - j))) (range (n + 1 - i))) (range (n + 1)))
  | _ => Err RuntimeError
  end%nat.

(** bernstein.py:90-94: one polynomial *)
Definition bernstein (n d : nat) (p : list nat) : sfun := fun vars =>
  match lambdas d vars with
  | Ok l => fold_left (fun f ab => f * fst ab ^ snd ab) (combine l p) (choose n p)
  | Err _ => 0
  end.
(** bernstein.py:61-96 *)
Definition bernstein_polynomials (n d : nat) : res (list sfun) := rmap (map (bernstein n d)) (powers n d).

(** bernstein.py:194-200 (integers; // is the floor of the quotient) *)
Definition index (order x y z : Z) : Z :=
  (z * (z ^ 2 - 3 * z * order - 6 * z + 3 * order ^ 2 + 12 * order + 11) / 6
   + y * (2 * (order - z) + 3 - y) / 2 + x)%Z.

(** The degrees of freedom: a point evaluation (bernstein.py:189, 203) or BernsteinFunctional(reference,
    integral_domain, index, degree, entity) (bernstein.py:205-231). *)
Inductive bernstein_dof :=
| PointEval (p : pt) (e : entity)
| Functional (integral_domain : reference) (idx : nat) (degree : nat) (e : entity).

(** bernstein.py:205-211 *)
Definition edge_dofs (reference : reference) (order : nat) : res (list bernstein_dof) :=
  rmap (@concat _) (map_r (fun en =>
    rmap (fun sub => map (fun i => Functional sub i order (1, en)%nat) (range2 1 order)) (sub_entity reference 1 en false))
    (range (length (edges (r_type reference))))).
(** bernstein.py:213-220 *)
Definition face_dofs (reference : reference) (order : nat) : res (list bernstein_dof) :=
  rmap (@concat _) (map_r (fun fn =>
    rmap (fun sub => flat_map (fun i => map (fun j =>
            Functional sub (Z.to_nat (index (Z.of_nat order) (Z.of_nat i) (Z.of_nat j) 0)) order (2, fn)%nat)
            (range2 1 (order - i))) (range2 1 order)) (sub_entity reference 2 fn false))
    (range (length (faces (r_type reference))))).
(** bernstein.py:222-231 *)
Definition interior_dofs (reference : reference) (order : nat) : list bernstein_dof :=
  if String.eqb (cell_name (r_type reference)) "tetrahedon" then
    flat_map (fun i => flat_map (fun j => map (fun k =>
      Functional reference (Z.to_nat (index (Z.of_nat order) (Z.of_nat i) (Z.of_nat j) (Z.of_nat k))) order (3, 0)%nat)
      (range2 1 (order - i - j))) (range2 1 (order - i))) (range2 1 order)
  else [].

(** bernstein.py:187-231 *)
Definition bernstein_dofs (reference : reference) (order : nat) : res (list bernstein_dof) :=
  if (order =? 0)%nat then Ok [PointEval (midpoint reference) (tdim (r_type reference), 0%nat)]
  else
    rbind (edge_dofs reference order) (fun e =>
    rbind (face_dofs reference order) (fun f =>
    Ok (map (fun nv => PointEval (snd nv) (0%nat, fst nv)) (enumerate (r_vertices reference))
        ++ e ++ f ++ interior_dofs reference order))).

(** bernstein.py:176-233 with the assertion of finite_element.py:615: the element is the pair of its polynomial set
    and its degrees of freedom. *)
Definition make_bernstein (reference : reference) (order : nat) : res (list mono * list bernstein_dof) :=
  rbind (polynomial_set_1d (tdim (r_type reference)) order) (fun poly =>
  rbind (bernstein_dofs reference order) (fun dofs =>
  if (length poly =? length dofs)%nat then Ok (poly, dofs) else Err AssertionError)).

(** The value of a BernsteinFunctional.  [orth] is the list of orthogonal polynomials of the integral domain (not yet
    normalised), [integral] the integral of a function of t over the integral domain, [tdim] its dimension. *)
Section Functional.
Variable tdim : nat.
Variable orth : list sfun.
Variable integral : sfun -> R.

(** bernstein.py:117-120 *)
Definition normalised : list sfun := map (fun o : sfun => fun v => o v / sqrt (integral (fun w => o w * o w))) orth.

(** bernstein.py:125-130 *)
Definition bernstein_moment (degree idx : nat) : res sfun :=
  rbind (bernstein_polynomials degree tdim) (fun bern =>
  rbind (inv_LU (map (fun o : sfun => map (fun b : sfun => integral (fun v => o v * b v)) bern) normalised)) (fun minv =>
  rmap (fun alpha v => fold_left Rplus (map (fun ij : R * sfun => fst ij * snd ij v) (combine alpha normalised)) 0)
       (get minv idx))).

(** bernstein.py:149-155: the point origin + axes * t; zip( *axes) is empty when there are no axes *)
Definition functional_point (domain : reference) (t : point) : pt :=
  map (fun io => fold_left (fun p jk => p + fst jk * snd jk)
                   (combine (nth (fst io) (zip_star (r_axes domain)) []) (map t (range 3))) (snd io))
      (enumerate (r_origin domain)).

(** bernstein.py:140-158 *)
Definition bernstein_functional (domain : reference) (degree idx : nat) (f : sfun) : res R :=
  rmap (fun moment : sfun => integral (fun t => f (env_of (functional_point domain t)) * moment t))
       (bernstein_moment degree idx).
End Functional.
