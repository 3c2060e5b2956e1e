(** What the Bernardi-Raugel elements are required to satisfy. *)
From Coq Require Import Arith Bool Reals List.
From Verif Require Import Base PolyLib LinAlg ReferencesModel ReferencesSpec LegendreIntSpec PointsModel PointsSpec MomentElementsModel MomentElementsSpec TransitionSpec BernardiModel.
Import ListNotations.
Open Scope R_scope.

(** The vertices of the facet opposite to vertex i. *)
Definition others (d i : nat) : list nat := filter (fun j => negb (j =? i)%nat) (seq 0 (d + 1)).
(** The fields: a linear polynomial in every component, plus for each facet a multiple of its direction times the product of
    the barycentric coordinates of its vertices. *)
Definition br_space (d : nat) (f : component_fn) : Prop :=
  exists (p : nat -> sfun) (k : nat -> R), (forall c, (c < d)%nat -> P_space d 1 (p c)) /\
    (forall c v, (c < d)%nat -> f (c, v) = p c v + sum (d + 1) (fun i => k i * bubble d (others d i) v * facet_direction i c)) /\
    (forall c v, (d <= c)%nat -> f (c, v) = 0).
(** [value] is the value of the functional at the field. *)
Definition br_value (l : br_dof) (f : component_fn) (value : R) : Prop :=
  match l with BrPoint d => dof_value d f = value | BrMoment m => moment_value m f value end.
(** The element could be created, with K degrees of freedom; get_basis_functions returns the basis of the space W that is
    dual to the degrees of freedom, and W is determined by the degrees of freedom. *)
Definition dual_br (made : res br_element) (W : component_fn -> Prop) (K : nat) : Prop :=
  exists poly dofs phi, made = Ok (poly, dofs) /\ br_basis (poly, dofs) = Ok phi /\ length dofs = K /\ length phi = K /\
  (forall i j l g, nth_error dofs i = Some l -> nth_error phi j = Some g -> br_value l g (if (i =? j)%nat then 1 else 0)) /\
  (forall g, In g phi -> W g) /\
  (forall f, W f -> exists a, (forall i l, nth_error dofs i = Some l -> br_value l f (a i)) /\
     forall x, f x = sum K (fun i => a i * nth i phi (fun _ => 0) x)).
(** H(div) conformity: if the degrees of freedom of a facet vanish, so does the normal component there. *)
Definition br_conforming (made : res br_element) (d : nat) (W : component_fn -> Prop) : Prop :=
  exists poly dofs, made = Ok (poly, dofs) /\
  forall i f, (i < d + 1)%nat -> W f -> (forall l, In l dofs -> br_entity l = ((d - 1)%nat, i) -> br_value l f 0) ->
    forall v, on_facet d i v -> sum d (fun c => f (c, v) * facet_direction i c) = 0.
(** The point of facet i of the reference simplex with coordinates t: the combination of its vertices. *)
Definition facet_point (d i : nat) (t : point) : point :=
  fun c => sum d (fun a => bary (d - 1) a t * vertex (nth a (others d i) 0%nat) c).
(** The functionals of facet i, with N either the direction of the facet or its negative: the values of the component of
    the field in the direction N at the vertices of the facet, and the integral of this component in the coordinates of the
    facet. *)
Definition br_functionals (d i : nat) (l : br_dof) : Prop :=
  exists s, (s = 1 \/ s = -1) /\
  ((exists a, In a (others d i) /\ forall f value, br_value l f value <-> value = s * sum d (fun c => f (c, env_of (map (vertex a) (seq 0 d))) * facet_direction i c)) \/
   (exists lims, integration_limits (match d with 2 => CInterval | _ => CTriangle end)%nat = Ok lims /\ forall f value, br_space d f ->
      (br_value l f value <-> iterated_integral lims (fun t => s * sum d (fun c => f (c, facet_point d i t) * facet_direction i c)) (fun _ => 0) value))).
