(** Model of the transition element of symfem/elements/transition.py (20-113).

    A function is a function of the point.  Simplified: the variants "legendre" and "lobatto" of the Lagrange elements that
    lines 95-97 create, whose degrees of freedom are integrals, are not modelled. *)
From Coq Require Import String Arith Bool Reals List.
From Verif Require Import Base PolyLib PolySetsModel QuadratureModel ReferencesModel CiarletModel ElementModel LagrangeModel.
Import ListNotations.
Local Open Scope string_scope.
Local Open Scope R_scope.
Local Open Scope list_scope.

(** a == b for sympy numbers *)
Definition req (a b : R) : bool := if Req_EM_T a b then true else false.
(** transition.py:80-82, 84-87, 90-93: bubble *= f, starting from 1 *)
Definition fprod (fs : list (fn point)) : fn point := fold_left (fun acc f v => acc v * f v) fs (fun _ => 1).
(** transition.py:79-93; [lambda] are the basis functions of bubble_space (line 48) *)
Definition transition_bubble (reference : reference) (lambda : list (fn point)) (edim e_n : nat) : res (fn point) :=
  let tdim := tdim (r_type reference) in
  if (edim =? tdim)%nat then Ok (fprod lambda)
  else if (edim =? tdim - 1)%nat then Ok (fprod (map snd (filter (fun i_f => negb (fst i_f =? e_n)%nat) (enumerate lambda))))
  else if (edim =? 1)%nat && (tdim =? 3)%nat then
    rbind (get (edges (r_type reference)) e_n) (fun e =>
    Ok (fprod (map snd (filter (fun i_f => existsb (Nat.eqb (fst i_f)) e) (enumerate lambda)))))
  else Err AssertionError.

(** transition.py:102-104: the while loop from i on; [fuel] is larger than the number of coordinates, after which the index
    is out of range *)
Fixpoint find_axis (fuel i : nat) (p origin : pt) (used : list nat) : res nat :=
  match fuel with
  | O => Err IndexError
  | S fuel' =>
      rbind (get p i) (fun pi => rbind (get origin i) (fun oi =>
      if req pi oi || req oi 1 || existsb (Nat.eqb i) used then find_axis fuel' (S i) p origin used else Ok i))
  end.
(** transition.py:98-106 *)
Fixpoint transition_variables (ps : list pt) (origin : pt) (used : list nat) : res (list (fn point)) :=
  match ps with
  | [] => Ok []
  | p :: ps' =>
      rbind (find_axis (S (length p)) 0 p origin used) (fun i =>
      rbind (get p i) (fun pi => rbind (get origin i) (fun oi =>
      rmap (cons (fun v => oi + (pi - oi) * v i)) (transition_variables ps' origin (i :: used)))))
  end.
(** functions.py:649-672: f.subs(x, values) replaces as many variables as there are values, at the same time *)
Definition substitute (values : list (fn point)) (f : fn point) : fn point :=
  fun v => f (fun i => match nth_error values i with Some g => g v | None => v i end).

(** transition.py:61-70 *)
Definition transition_order (reference : reference) (order : nat) (edge_orders face_orders : option (list nat)) (edim e_n : nat) : res nat :=
  if (edim =? tdim (r_type reference))%nat then Ok order
  else match edim with
  | 1%nat => match edge_orders with Some l => get l e_n | None => Err AssertionError end
  | 2%nat => match face_orders with Some l => get l e_n | None => Err AssertionError end
  | _ => Err RuntimeError
  end.

(** transition.py:58-111: one sub-entity; its functions and its degrees of freedom *)
Definition transition_entity (reference : reference) (order : nat) (edge_orders face_orders : option (list nat)) (variant : string)
    (lambda : list (fn point)) (edim e_n : nat) : res (list (fn point) * list point_dof) :=
  rbind (sub_entity reference edim e_n false) (fun entity =>
  rbind (sub_entity (default (r_type reference)) edim e_n false) (fun ref_entity =>
  rbind (transition_order reference order edge_orders face_orders edim e_n) (fun entity_order =>
  rbind (get_quadrature variant (entity_order + 1)) (fun rule =>
  rbind (map_r (fun ii => rmap (fun p => (p, (edim, e_n))) (rbind (map_r (get (fst rule)) ii) (get_point entity)))
          (simplex_tuples entity_order edim)) (fun dofs =>
  if (edim <? entity_order)%nat then
    rbind (transition_bubble reference lambda edim e_n) (fun bubble =>
    rbind (lagrange_basis_functions (default (r_type entity)) (entity_order - edim - 1) variant) (fun space =>
    rbind (get (r_vertices ref_entity) 0) (fun origin =>
    rbind (transition_variables (tl (r_vertices ref_entity)) origin []) (fun variables =>
    Ok (map (fun f v => substitute variables f v * bubble v) space, dofs)))))
  else Ok ([], dofs)))))).
(** transition.py:58-59: the sub-entities of one dimension *)
Definition transition_entities (reference : reference) (order : nat) (edge_orders face_orders : option (list nat)) (variant : string)
    (lambda : list (fn point)) (edim : nat) : res (list (list (fn point) * list point_dof)) :=
  rbind (sub_entity_count reference edim) (fun count =>
  map_r (transition_entity reference order edge_orders face_orders variant lambda edim) (range count)).

(** references.py:666-675 for functions of the point *)
Definition map_fns_from_default (reference : reference) (poly : list (fn point)) : res (list (fn point)) :=
  if ref_eqb reference (default (r_type reference)) then Ok poly
  else rbind (get_inverse_map_to_self reference) (fun invmap =>
       Ok (map (fun p v => substitute (map (fun i v => nth i (invmap v) 0) (range (length (invmap v)))) p v) poly)).

(** transition.py:39-47 *)
Definition transition_assertions (reference : reference) (edge_orders face_orders : option (list nat)) : bool :=
  match r_type reference, edge_orders, face_orders with
  | CTriangle, Some eo, None => (length eo =? 3)%nat
  | CTriangle, _, _ => false
  | CTetrahedron, Some eo, Some fo => (length fo =? 4)%nat && (length eo =? 6)%nat
  | CTetrahedron, _, _ => false
  | _, _, _ => true
  end.
(** transition.py:39-115: the functions and the degrees of freedom passed to CiarletElement *)
Definition make_transition (reference : reference) (order : nat) (edge_orders face_orders : option (list nat)) (variant : string)
    : res (list (fn point) * list point_dof) :=
  if transition_assertions reference edge_orders face_orders then
    rbind (lagrange_basis_functions (default (r_type reference)) 1 "equispaced") (fun lambda =>
    rbind (polynomial_set_1d (tdim (r_type reference)) 1) (fun linear =>
    let part := transition_entities reference order edge_orders face_orders variant lambda in
    rbind (part 1%nat) (fun p1 => rbind (part 2%nat) (fun p2 => rbind (part 3%nat) (fun p3 =>
    let parts := p1 ++ p2 ++ p3 in
    rmap (fun poly => (poly, vertex_dofs reference ++ flat_map snd parts))
      (map_fns_from_default reference (map meval linear ++ flat_map fst parts)))))))
  else Err AssertionError.
(** CiarletElement.get_basis_functions of such an element (finite_element.py:592-623, 676-740) *)
Definition transition_basis (e : list (fn point) * list point_dof) : res (list (fn point)) :=
  get_basis_functions (fst e) (map point_eval (snd e)).
