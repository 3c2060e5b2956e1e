(** Model of the H(curl) and H(div) serendipity elements of symfem/elements/serendipity.py (95-215) on default cells.

    Simplified as in MomentElementsModel.v. *)
From Coq Require Import String Arith Bool ZArith Reals List.
From Verif Require Import Base PolyLib PolySetsModel ReferencesModel CiarletModel ElementModel LagrangeModel PointsModel MomentElementsModel SerendipityModel.
Import ListNotations.
Open Scope R_scope.

(** the basis functions of DPC(reference, order, variant), as functions of the point (dpc.py:26-63) *)
Definition dpc_functions (order : nat) (variant : string) (reference : reference) : res (list (fn point)) :=
  rmap (map (fun (f : component_fn) v => f (0%nat, v))) (dpc_basis order variant reference).
(** the basis functions of VectorDPC(reference, order, variant) (dpc.py:101-129) *)
Definition vector_dpc_basis (order : nat) (variant : string) (reference : reference) : res (list component_fn) :=
  rbind (make_vector_dpc reference order variant) element_basis.
(** serendipity.py:98-122: SerendipityCurl; VectorDPC.min_order is 0: there are no moments on faces below order 2 and none on
    volumes below order 4 *)
Definition make_serendipity_curl (reference : reference) (order : nat) (variant : string) : res moment_element :=
  let tdim := tdim (r_type reference) in
  only_default reference (
  rbind (polynomial_set_vector tdim tdim order) (fun poly =>
  rbind (Hcurl_serendipity tdim tdim order) (fun extra =>
  rbind (moments_on reference 1 (dpc_functions order variant) tangent_moment) (fun edges =>
  rbind (unless_below order 2 (moments_on reference 2 (vector_dpc_basis (order - 2) variant) integral_moment)) (fun faces =>
  rbind (unless_below order 4 (moments_on reference 3 (vector_dpc_basis (order - 4) variant) integral_moment)) (fun volumes =>
  Ok (poly ++ extra, edges ++ faces ++ volumes))))))).
(** serendipity.py:159-182: SerendipityDiv *)
Definition make_serendipity_div (reference : reference) (order : nat) (variant : string) : res moment_element :=
  let tdim := tdim (r_type reference) in
  only_default reference (
  rbind (polynomial_set_vector tdim tdim order) (fun poly =>
  rbind (Hdiv_serendipity tdim tdim order) (fun extra =>
  rbind (moments_on reference (tdim - 1) (dpc_functions order variant) normal_moment) (fun facets =>
  rbind (unless_below order 2 (moments_on reference tdim (vector_dpc_basis (order - 2) variant) integral_moment)) (fun cells =>
  Ok (poly ++ extra, facets ++ cells)))))).
