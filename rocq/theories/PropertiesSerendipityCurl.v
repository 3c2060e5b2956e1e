(** C83: the H(curl) serendipity element on hexahedra. *)
From Coq Require Import String Arith Bool Reals Lia Lra List.
From Verif Require Import Base PolyLib PolyVec QuadratureModel ReferencesModel ReferencesSpec CiarletModel LinAlg ElementModel UnisolvenceProofs PointsModel PointsSpec
  MomentElementsModel MomentElementsSpec QFieldSpec PropertiesQField SerendipityModel SerendipitySpec SerendipityFieldModel SerendipityFieldSpec SerendipityCurlSpec SerendipityCurlProofs.
Import PolyVec ListNotations.
Local Open Scope string_scope.
Local Open Scope R_scope.
Local Open Scope list_scope.

(** * C83: the H(curl) serendipity element of every order on the unit cube can be created, with the stated space and number of
    degrees of freedom; get_basis_functions returns the basis that is dual to the degrees of freedom; the tangential component on
    an edge depends on the degrees of freedom of the edge only, and the tangential components on a face depend on the degrees of
    freedom of the face and of its edges only. *)
Theorem C83_serendipity_hcurl_cube : forall n variant, (1 <= n)%nat -> rules_exist variant (n + 1) ->
  dual_moments (make_serendipity_curl (default CHexahedron) n variant) (scurl_space3 n) (scurl_dim3 n) /\
  q_tangential_conforming3 (make_serendipity_curl (default CHexahedron) n variant) (scurl_space3 n).
Proof. intros n variant Hn (_ & _ & Hv). exact (scurl_step3 n variant Hn Hv). Qed.
Print Assumptions C83_serendipity_hcurl_cube.
(** every order of the equispaced variant; numbers of degrees of freedom; the field (0, xz, -xy) of the space of order 1, whose
    tangential components on face 2 (x = 0) are 0 and on face 3 (x = 1) are not *)
Example C83_case : (forall n, rules_exist "equispaced" n) /\ scurl_dim3 1 = 24%nat /\ scurl_dim3 2 = 48%nat /\ scurl_dim3 3 = 84%nat /\ scurl_dim3 4 = 135%nat /\
  scurl_space3 1 (fun x => match fst x with O => 0 | S O => snd x 0%nat * snd x 2%nat | S (S O) => - (snd x 0%nat * snd x 1%nat) | _ => 0 end) /\
  (forall v, on_box_facet 3 2 v -> v 0%nat * v 2%nat = 0 /\ - (v 0%nat * v 1%nat) = 0) /\ on_box_facet 3 3 (fun _ => 1).
Proof.
  split; [intros n; split; [discriminate|]; split; [discriminate|]; intros k _; eexists; reflexivity|]. do 4 (split; [reflexivity|]). split; [|split].
  - exists (fun _ _ => 0), (fun _ => 1), (fun _ => 0), (fun _ => 0), (fun _ => 0), (fun _ _ => 0). split; [intros; apply poly_space_zero|].
    split; [|split; [apply poly_space_zero|split; [apply poly_space_zero|]]].
    + exists [(1, [0; 0; 0]%nat)]. split; [|intros v; cbn; ring]. repeat constructor.
    + split; [apply poly_space_zero|]. split; [intros i v _; unfold is_partial; apply derivable_pt_lim_const|]. cbn [fst snd]. split; [intros; ring|]. split; [intros; ring|]. split; [intros; ring|]. intros [|[|[|c]]] v Hc; [lia|lia|lia|reflexivity].
  - intros v H. cbv in H. rewrite H. split; ring.
  - reflexivity.
Qed.
