(** Model of /repo/symfem/elements/crouzeix_raviart.py. *)
From Coq Require Import String Arith Bool Reals List.
From Verif Require Import Base PolyLib PolySetsModel QuadratureModel ReferencesModel CiarletModel ElementModel LagrangeModel.
Import ListNotations.
Open Scope R_scope.

(** crouzeix_raviart.py:47-50 and 61-64 *)
Definition cr_place (points : list R) (entity : reference) (i : list nat) : res pt :=
  rbind (map_r (get points) i) (fun bs =>
  map_r (fun jo => rmap (fun l => snd jo + rsum l)
           (map_r (fun ab => rmap (fun aj => aj * snd ab) (get (fst ab) (fst jo))) (combine (r_axes entity) bs)))
        (enumerate (r_origin entity))).

(** crouzeix_raviart.py:42-43 *)
Definition cr_facet_tuples (tdim order : nat) : list (list nat) :=
  filter (fun i => list_sum i <? order + tdim - 1)%nat (product (repeat (range2 1 (order + 1)) (tdim - 1))).

(** crouzeix_raviart.py:31-67 *)
Definition cr_dofs (reference : reference) (order : nat) (variant : string) : res (list point_dof) :=
  let tdim := tdim (r_type reference) in
  if match r_type reference with CTriangle => true | CTetrahedron => (order <=? 1)%nat | _ => false end then
    rbind (get_quadrature variant (order + tdim)) (fun rule =>
    rbind (entity_point_dofs reference (tdim - 1) (cr_facet_tuples tdim order) (cr_place (fst rule))) (fun facets =>
    rbind (get_quadrature variant (order + tdim - 1)) (fun rule' =>
    rbind (map_r (fun i => rmap (fun p => (p, (tdim, 0%nat))) (cr_place (fst rule') reference i)) (simplex_tuples order tdim)) (fun interior =>
    Ok (facets ++ interior)))))
  else Err AssertionError.

(** crouzeix_raviart.py:23-73 with the checks of create.py:191-196 (min_order and max_order, lines 100-102) and the
    assertion of finite_element.py:615: the polynomial set and the degrees of freedom *)
Definition make_cr (reference : reference) (order : nat) (variant : string) : res (list mono * list point_dof) :=
  if match r_type reference with CTriangle => (order <? 1)%nat | CTetrahedron => negb (order =? 1)%nat | _ => true end then Err ValueError
  else
    rbind (cr_dofs reference order variant) (fun dofs =>
    rbind (polynomial_set_1d (tdim (r_type reference)) order) (fun poly =>
    if (length poly =? length dofs)%nat then Ok (poly, dofs) else Err AssertionError)).
