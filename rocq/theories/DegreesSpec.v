(** What the degree attributes should be (finite_element.py:92-125), written without the model's helpers. *)
From Coq Require Import ZArith Arith Reals List.
From Verif Require Import PolyLib PolySetsModel ReferencesModel FamiliesModel.
Import ListNotations.
Local Open Scope nat_scope.

(** Monomials of the complete polynomials of degree at most m in d variables. *)
Definition complete (d m : nat) (u : mono) : Prop := length u = d /\ list_sum u <= m.
(** Monomials of the Lagrange space of degree m of a cell: total degree on simplices, the degree in each variable
    on quadrilaterals and hexahedra, total degree in x, y and degree in z on prisms. *)
Definition lagrange_monomial (c : cell_type) (m : nat) (u : mono) : Prop :=
  match c with
  | CQuadrilateral | CHexahedron => length u = tdim c /\ forall i, nth i u 0 <= m
  | CPrism => length u = 3 /\ nth 0 u 0 + nth 1 u 0 <= m /\ nth 2 u 0 <= m
  | _ => complete (tdim c) m u
  end.

(** The entries of the values: a pattern gives for each entry the number of the polynomial that stands there, so that
    a symmetric matrix has the same polynomial twice. *)
Definition value_pattern (f : family) (c : cell_type) : list nat :=
  let two := match c with CTriangle | CQuadrilateral => true | _ => false end in
  match f with
  | Lagrange | Q | DPC | Serendipity | LagrangePrism | Taylor => [0]
  | MatrixLagrange => if two then [0; 1; 2; 3] else [0; 1; 2; 3; 4; 5; 6; 7; 8]
  | SymmetricMatrixLagrange | Regge | ReggeTP | HellanHerrmannJohnson | ArnoldWinther | NonConformingArnoldWinther =>
      if two then [0; 1; 1; 2] else [0; 1; 2; 1; 3; 4; 2; 4; 5]
  | _ => match c with CInterval => [0] | CTriangle | CQuadrilateral => [0; 1] | _ => [0; 1; 2] end
  end.

(** Functions all of whose entries are combinations of the monomials in L, with the entries repeated as in the pattern. *)
Definition full_space (pattern : list nat) (L : mono -> Prop) (F : vfun) : Prop :=
  exists g : nat -> rpoly, (forall s, Forall (fun t => L (snd t)) (g s)) /\
    forall i v, vcomp F i v = nth i (map (fun s => reval (g s) v) pattern) 0%R.

(** k is the highest degree of a space L contained in S (no degree is if k < 0) ... *)
Definition subdegree (pattern : list nat) (L : nat -> mono -> Prop) (S : vfun -> Prop) (k : Z) : Prop :=
  forall m : nat, (forall F, full_space pattern (L m) F -> S F) <-> (Z.of_nat m <= k)%Z.
(** ... and the lowest degree of a space L that contains S. *)
Definition superdegree (pattern : list nat) (L : nat -> mono -> Prop) (S : vfun -> Prop) (k : Z) : Prop :=
  forall m : nat, (forall F, S F -> full_space pattern (L m) F) <-> (k <= Z.of_nat m)%Z.
