(** What the elements of NodalModel.v are required to satisfy. *)
From Coquelicot Require Import Coquelicot.
From Coq Require Import String Reals Arith List.
From Verif Require ReferencesModel.
From Verif Require Import Base PolyLib LegendreIntSpec ReferencesSpec FunctionsModel FunctionsSpec FunctionalsModel FunctionalsSpec NodalModel.
Import ListNotations.
Local Open Scope R_scope.

(** The matrix of the values of the degrees of freedom: a row for every function, a column for every degree of freedom. *)
Definition dof_matrix (basis : list expr) (dofs : list functional) (M : list (list R)) : Prop :=
  Forall2 (fun f row => Forall2 (fun d v => evaluates d (FS f) v) dofs row) basis M.

(** A linear combination of functions, as a function of the values of the symbols. *)
Definition combination (cs : list R) (basis : list expr) (p : env) : R :=
  fold_right Rplus 0 (map (fun cf => fst cf * ev p (snd cf)) (combine cs basis)).
(** The functions with these coefficients. *)
Definition spanned (basis : list expr) (f : env -> R) : Prop :=
  exists cs, length cs = length basis /\ forall p, f p = combination cs basis p.

(** [phi] is the basis of the space spanned by [basis] that is dual to the degrees of freedom, and determines every
    polynomial of the space by its degrees of freedom. *)
Definition dual_to (dim : nat) (basis : list expr) (dofs : list functional) (phi : list expr) : Prop :=
  length phi = length dofs /\
  (forall i k f d, nth_error phi i = Some f -> nth_error dofs k = Some d -> evaluates d (FS f) (if Nat.eqb i k then 1 else 0)) /\
  (forall f, In f phi -> spanned basis (fun p => ev p f)) /\
  (forall f vals, polynomial f -> symbols_in (firstn dim x_symbols) f -> spanned basis (fun p => ev p f) ->
     Forall2 (fun d v => evaluates d (FS f) v) dofs vals -> forall p, ev p f = combination vals phi p).
(** The element could be created, with n functions, and get_basis_functions returns the dual basis. *)
Definition creates_dual_basis (made : res (list expr * list (functional * (nat * nat)))) (dim n : nat) : Prop :=
  exists basis dofs M phi, made = Ok (basis, dofs) /\ length basis = n /\ length dofs = n /\
    dof_matrix basis (map fst dofs) M /\ element_functions M basis = Ok phi /\ dual_to dim basis (map fst dofs) phi.

(** A polynomial as a function of the coordinates of the point. *)
Definition as_function (dim : nat) (f : expr) (e : nat -> R) : R := ev (x_point (map e (range dim))) f.
(** Adding the degrees of freedom of any polynomial of degree k gives its integral over the default cell. *)
Definition integrates_exactly (c : ReferencesModel.cell_type) (dofs : list functional) (k : nat) : Prop :=
  exists lims, ReferencesModel.integration_limits c = Ok lims /\
  forall f v, polynomial f -> symbols_in (firstn (ReferencesModel.tdim c) x_symbols) f ->
    poly_space (fun m => length m = ReferencesModel.tdim c /\ (mdeg m <= k)%nat) (as_function (ReferencesModel.tdim c) f) ->
    exists vals, Forall2 (fun d u => evaluates d (FS f) u) dofs vals /\
      iterated_integral lims (as_function (ReferencesModel.tdim c) f) v (fold_right Rplus 0 vals).
(** Every weight, the degree of freedom of the constant one, is positive. *)
Definition positive_weights (dofs : list functional) : Prop :=
  exists vals, Forall2 (fun d u => evaluates d (FS (ENum 1)) u) dofs vals /\ Forall (fun u => 0 < u) vals.
(** The element is created, but some function of its space other than zero has only zero degrees of freedom, and
    get_basis_functions raises. *)
Definition creates_no_basis (made : res (list expr * list (functional * (nat * nat)))) : Prop :=
  exists basis dofs M f p, made = Ok (basis, dofs) /\ dof_matrix basis (map fst dofs) M /\
    element_functions M basis = Err ValueError /\
    polynomial f /\ spanned basis (fun q => ev q f) /\ ev p f <> 0 /\ Forall (fun d => evaluates d (FS f) 0) (map fst dofs).

(** The sub-entity e of dimension k of the cell has these vertices. *)
Definition has_vertices (r : ReferencesModel.reference) (k e : nat) (E : list nat) : Prop :=
  exists tab, ReferencesModel.sub_entities r k = Ok tab /\ nth_error tab e = Some E.
(** Conformity: if the degrees of freedom on the closure of a facet (those of the entities whose vertices are vertices
    of the facet) vanish, then the function vanishes on the facet, and, for smooth elements, so do its derivatives in
    all directions. *)
Definition conforming (smooth : bool) (made : res (list expr * list (functional * (nat * nat)))) (r : ReferencesModel.reference) : Prop :=
  exists basis dofs, made = Ok (basis, dofs) /\
  forall k e E f p, S k = ReferencesModel.tdim (ReferencesModel.r_type r) -> has_vertices r k e E ->
    polynomial f -> symbols_in (firstn (S k) x_symbols) f -> spanned basis (fun q => ev q f) ->
    (forall d k' e' E', In (d, (k', e')) dofs -> has_vertices r k' e' E' -> incl E' E -> evaluates d (FS f) 0) ->
    length p = S k -> in_affine_hull (map (fun i => nth i (ReferencesModel.r_vertices r) []) E) p ->
    ev (x_point p) f = 0 /\
    (smooth = true -> forall u, length u = S k -> is_derive (fun h => ev (x_point (along p u h)) f) 0 0).
