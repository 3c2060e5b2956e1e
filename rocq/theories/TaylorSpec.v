(** What the Taylor element (TaylorModel.v) is required to satisfy. *)
From Coq Require Import Arith Reals List.
From Verif Require Import Base PolyLib PolyVec LinAlg ReferencesModel ReferencesSpec LegendreIntSpec PointsModel PointsSpec MomentElementsModel MomentElementsSpec TaylorModel.
Import ListNotations.
Open Scope R_scope.

(** [g] arises from [f] by differentiating successively with respect to the listed variables. *)
Fixpoint successive (ks : list nat) (f g : sfun) : Prop :=
  match ks with
  | [] => forall v, f v = g v
  | k :: ks' => exists h, (forall v, is_partial k f v (h v)) /\ successive ks' h g
  end.
(** [value] is the integral over the cell of the product of the function with the function of the moment, or the value at the
    point of the derivative with alpha_k differentiations with respect to variable k, in any order. *)
Definition taylor_value (d : taylor_dof) (f : component_fn) (value : R) : Prop :=
  match d with
  | Mean m => iterated_integral (mo_limits m) (fun t => f (0%nat, point_of (mo_domain m) t) * mo_f m (0%nat, t) * mo_jacobian m) (fun _ => 0) value
  | DerivativeAt p alpha _ =>
      forall ks, (forall k, count_occ Nat.eq_dec ks k = nth k alpha 0%nat) ->
      exists g, successive ks (fun v => f (0%nat, v)) g /\ g (fun i => nth i p 0) = value
  end.
(** The element could be created, with K degrees of freedom; get_basis_functions returns the basis of the space W that is
    dual to the degrees of freedom, and W is determined by the degrees of freedom. *)
Definition dual_taylor (made : res taylor_element) (W : component_fn -> Prop) (K : nat) : Prop :=
  exists poly dofs phi, made = Ok (poly, dofs) /\ taylor_basis (poly, dofs) = Ok phi /\ length dofs = K /\ length phi = K /\
  (forall i j d g, nth_error dofs i = Some d -> nth_error phi j = Some g -> taylor_value d g (if (i =? j)%nat then 1 else 0)) /\
  (forall g, In g phi -> W g) /\
  (forall f, W f -> exists a, (forall i d, nth_error dofs i = Some d -> taylor_value d f (a i)) /\
     forall x, f x = sum K (fun i => a i * nth i phi (fun _ => 0) x)).
(** [p] is the mean of the points. *)
Definition is_mean (vs : list (list R)) (p : list R) : Prop :=
  forall i, nth i p 0 = sumR (map (fun v => nth i v 0) vs) / INR (length vs).
(** The degrees of freedom on the cell r: the integral of the function over the reference simplex, pulled back there (the mean
    value of the function times the volume of the reference simplex), then the derivatives at the midpoint of the cell
    with every multi-index of order 1, ..., n once; all of them inside the cell. *)
Definition taylor_dofs (r : reference) (n : nat) (dofs : list taylor_dof) : Prop :=
  let d := tdim (r_type r) in
  exists m alphas p lims, dofs = Mean m :: map (fun alpha => DerivativeAt p alpha (d, 0%nat)) alphas /\
    mo_entity m = (d, 0%nat) /\ integration_limits (r_type r) = Ok lims /\
    (forall f I, iterated_integral lims (fun t => f (0%nat, point_of r t)) (fun _ => 0) I -> taylor_value (Mean m) f I) /\
    is_mean (r_vertices r) p /\
    NoDup alphas /\ (forall alpha, In alpha alphas <-> length alpha = d /\ (1 <= mdeg alpha <= n)%nat).
(** The factorial of a multi-index. *)
Fixpoint factorials (alpha : list nat) : R := match alpha with [] => 1 | a :: l => INR (fact a) * factorials l end.
(** The basis functions on a cell with midpoint p: the constant that makes the first degree of freedom one (the inverse of the
    volume of the reference simplex), then, for the multi-index alpha of each derivative, the monomial of the difference to
    the midpoint divided by the factorial of alpha, minus a constant. *)
Definition taylor_functions (r : reference) (made : res taylor_element) : Prop :=
  let d := tdim (r_type r) in
  exists poly m alphas p phi0 phi, made = Ok (poly, Mean m :: map (fun alpha => DerivativeAt p alpha (d, 0%nat)) alphas) /\
    taylor_basis (poly, Mean m :: map (fun alpha => DerivativeAt p alpha (d, 0%nat)) alphas) = Ok (phi0 :: phi) /\
    is_mean (r_vertices r) p /\ (forall v, phi0 (0%nat, v) = INR (fact d)) /\ length phi = length alphas /\
    forall i alpha, nth_error alphas i = Some alpha -> exists g k, nth_error phi i = Some g /\
      forall v, g (0%nat, v) = meval alpha (fun j => v j - nth j p 0) / factorials alpha - k.
