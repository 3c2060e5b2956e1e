(** Specification vocabulary for integrals of the orthogonal polynomials: independent of their model. *)
From Coquelicot Require Import Coquelicot.
From Coq Require Import String Arith Reals Bool List.
From Verif Require Import Base PolyLib PolyVec.
From Verif Require ReferencesModel.
Import ListNotations.
Open Scope R_scope.

(** [value] is the iterated Riemann integral of F, innermost first; the variables that are not
    integrated have their values in v. *)
Fixpoint iterated_integral (limits : list ReferencesModel.limit) (F : point -> R) (v : point) (value : R) : Prop :=
  match limits with
  | [] => F v = value
  | (k, lo, hi) :: ls =>
      exists G : point -> R,
        (forall e, is_RInt (fun s => F (upd e k s)) (lo e) (hi e) (G e)) /\ iterated_integral ls G v value
  end.
(** the limits of a cell with the variables renamed: integration_limits(vars) *)
Definition with_variables (vars : list nat) (limits : list ReferencesModel.limit) : list ReferencesModel.limit :=
  map (fun '(k, lo, hi) => (nth k vars 0%nat, (fun e : point => lo (fun i => e (nth i vars 0%nat))), (fun e : point => hi (fun i => e (nth i vars 0%nat))))) limits.
(** the names of the cells *)
Definition cell_names : list (string * ReferencesModel.cell_type) :=
  [("interval", ReferencesModel.CInterval); ("triangle", ReferencesModel.CTriangle); ("quadrilateral", ReferencesModel.CQuadrilateral);
   ("tetrahedron", ReferencesModel.CTetrahedron); ("hexahedron", ReferencesModel.CHexahedron); ("prism", ReferencesModel.CPrism); ("pyramid", ReferencesModel.CPyramid)]%string.
(** the integral over the reference cell [cell] in the variables [vars]: references.py integration_limits *)
Definition integral_over (cell : string) (vars : list nat) (F : point -> R) (v : point) (value : R) : Prop :=
  exists c lims, In (cell, c) cell_names /\ ReferencesModel.integration_limits c = Ok lims /\
    iterated_integral (with_variables vars lims) F v value.
