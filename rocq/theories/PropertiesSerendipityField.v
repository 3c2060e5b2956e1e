(** C82: the H(div) and H(curl) serendipity elements on quadrilaterals and hexahedra. *)
From Coq Require Import String Arith Bool Reals Lia Lra List.
From Verif Require Import Base PolyLib QuadratureModel ReferencesModel ReferencesSpec CiarletModel LinAlg ElementModel UnisolvenceProofs PointsModel PointsSpec
  MomentElementsModel MomentElementsSpec QFieldSpec QFieldGeometry QFieldProofs PropertiesQField SerendipityFieldModel SerendipityFieldSpec SerendipityFieldProofs.
Import ListNotations.
Local Open Scope string_scope.
Local Open Scope R_scope.
Local Open Scope list_scope.

(** * C82: the H(div) element of every order on the unit square (d = 2) and cube (d = 3) can be created, with the stated space and
    number of degrees of freedom; get_basis_functions returns the basis that is dual to the degrees of freedom; and the normal
    component on a facet depends on the degrees of freedom of the facet only. *)
Theorem C82_serendipity_hdiv : forall d n variant, (2 <= d <= 3)%nat -> (1 <= n)%nat -> rules_exist variant (n + 1) ->
  dual_moments (make_serendipity_div (default (tensor_cell d)) n variant) (sdiv_space d n) (sdiv_dim d n) /\
  q_normal_conforming (make_serendipity_div (default (tensor_cell d)) n variant) d (sdiv_space d n).
Proof.
  intros d n variant Hd Hn (_ & _ & Hv). assert (C : d = 2%nat \/ d = 3%nat) by lia. destruct C as [->| ->]; [exact (sdiv_all 2 n variant Hd Hn Hv)|exact (sdiv_all 3 n variant Hd Hn Hv)].
Qed.
Print Assumptions C82_serendipity_hdiv.
(** every order of the equispaced variant; numbers of degrees of freedom; the field (x^2, 2xy) of the space of order 1 on the
    square, with normal component 0 on one facet and not on another *)
Example C82_hdiv_case : (forall n, rules_exist "equispaced" n) /\ sdiv_dim 2 1 = 8%nat /\ sdiv_dim 2 2 = 14%nat /\ sdiv_dim 3 1 = 18%nat /\ sdiv_dim 3 2 = 39%nat /\
  sdiv_space 2 1 (fun x => match fst x with O => snd x 0%nat * snd x 0%nat | S O => 2 * snd x 0%nat * snd x 1%nat | _ => 0 end) /\
  (forall v, on_box_facet 2 1 v -> v 0%nat * v 0%nat = 0) /\ on_box_facet 2 2 (fun _ => 1).
Proof.
  split; [intros n; split; [discriminate|]; split; [discriminate|]; intros k _; eexists; reflexivity|]. do 4 (split; [reflexivity|]). split; [|split].
  - exists (fun _ _ => 0), 1, 0. split; [intros; apply poly_space_zero|]. cbn [fst snd]. split; [intros; cbn; ring|]. split; [intros; cbn; ring|]. intros [|[|c]] v Hc; [lia|lia|reflexivity].
  - intros v H. cbv in H. rewrite H. ring.
  - reflexivity.
Qed.
(** * C82: the H(curl) element of every order on the unit square; the tangential component on an edge depends on the degrees of
    freedom of the edge only. *)
Theorem C82_serendipity_hcurl_square : forall n variant, (1 <= n)%nat -> rules_exist variant (n + 1) ->
  dual_moments (make_serendipity_curl (default CQuadrilateral) n variant) (scurl_space2 n) (4 * (n + 1) + (if 2 <=? n then 2 * (n * (n - 1) / 2) else 0))%nat /\
  q_tangential_conforming2 (make_serendipity_curl (default CQuadrilateral) n variant) (scurl_space2 n).
Proof.
  intros n variant Hn (_ & _ & Hv). replace (4 * (n + 1) + (if 2 <=? n then 2 * (n * (n - 1) / 2) else 0))%nat with (sdiv_dim 2 n); [exact (scurl2_all n variant Hn Hv)|].
  unfold sdiv_dim. destruct (Nat.leb_spec 2 n) as [H|]; [|reflexivity]. cbn [P_dim Nat.sub]. f_equal. do 2 f_equal. replace (n - 2 + 1)%nat with (n - 1)%nat by lia. replace (n - 2 + 2)%nat with n by lia. apply Nat.mul_comm.
Qed.
Print Assumptions C82_serendipity_hcurl_square.
(** the field (y^2, 2xy) of the space of order 1, whose tangential component on edge 0 (y = 0) is 0 and on edge 3 (y = 1) is not *)
Example C82_hcurl_case : rules_exist "equispaced" 2 /\ scurl_space2 1 (fun x => match fst x with O => snd x 1%nat * snd x 1%nat | S O => 2 * snd x 0%nat * snd x 1%nat | _ => 0 end) /\
  (forall v, on_box_facet 2 0 v -> v 1%nat * v 1%nat = 0) /\ on_box_facet 2 3 (fun _ => 1) /\ (1 - fst (box_facet 2 0) = 0)%nat.
Proof.
  split; [split; [discriminate|]; split; [discriminate|]; intros k _; eexists; reflexivity|]. split; [|split; [|split; reflexivity]].
  - exists (fun _ _ => 0), 0, 1. split; [intros; apply poly_space_zero|]. cbn [fst snd]. split; [intros; cbn; ring|]. split; [intros; cbn; ring|]. intros [|[|c]] v Hc; [lia|lia|reflexivity].
  - intros v H. cbv in H. rewrite H. ring.
Qed.
(** * C82: on a cell with other vertices both elements are refused. *)
Theorem C82_rejected : forall n variant r, r_vertices r <> reference_vertices (r_type r) ->
  make_serendipity_div r n variant = Err NotImplementedError /\ make_serendipity_curl r n variant = Err NotImplementedError.
Proof.
  intros n variant r H. unfold make_serendipity_div, make_serendipity_curl, only_default, is_default. destruct (pts_eq_dec _ _); [contradiction|split; reflexivity].
Qed.
Print Assumptions C82_rejected.
Example C82_rejected_case : exists r, make_reference CQuadrilateral [[0; 0]; [2; 0]; [0; 1]; [2; 1]] = Ok r /\ r_vertices r <> reference_vertices (r_type r).
Proof.
  eexists. split; [reflexivity|]. cbn [r_vertices r_type reference_vertices]. intros H. assert (E := f_equal (fun l => nth 0 (nth 1 l []) 0) H). cbn in E. lra.
Qed.
