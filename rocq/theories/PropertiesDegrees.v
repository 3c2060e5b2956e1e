(** C56: the degree attributes of the elements of FamiliesModel, for all orders. *)
From Coq Require Import String ZArith Arith Bool Reals Lia Lra List.
From Verif Require Import Base PolyLib PolySetsModel PolySetsProofs ReferencesModel LagrangeModel FamiliesModel FamiliesSpec FamiliesMoments FamiliesBuilt
  DegreesModel DegreesSpec DegreesLib DegreesUnits DegreesTrimmed DegreesFamilies DegreesEnriched DegreesMore DegreesTrimmedSerendipity PropertiesFamilies.
Import ListNotations.
Local Open Scope string_scope.
Local Open Scope nat_scope.
Local Open Scope list_scope.
Set Bullet Behavior "Strict Subproofs".

(** The functions an element can represent: the combinations of the functions of its polynomial set. *)
Definition element_space (e : fe) (F : vfun) : Prop := vin_span (map veval (fe_poly e)) F.

Definition is_trimmed (f : family) : Prop := match f with TrimmedSerendipityHcurl | TrimmedSerendipityHdiv => True | _ => False end.

Lemma create_built f r n v e : create f r n v = Ok e -> In (r_type r) (references f) /\ min_order f <= n /\
  (forall m, max_order f = Some m -> n <= m) /\ exists k, construct k f r n v = Ok e.
Proof.
  unfold create. intros H. destruct (negb (tdim (r_type r) =? gdim r)); [discriminate H|]. destruct (existsb _ (references f)) eqn:Hc; [|discriminate H]. cbn [negb] in H.
  destruct (Nat.ltb_spec n (min_order f)); [discriminate H|].
  split. { apply existsb_exists in Hc as (c & Hc & Ec). destruct (cell_type_eq_dec c (r_type r)) as [<-|]; [exact Hc|discriminate Ec]. }
  split; [assumption|]. destruct (max_order f) as [m|].
  - destruct (Nat.ltb_spec m n); [discriminate H|]. split; [intros m' K; injection K as <-; assumption|]. eexists. exact H.
  - split; [discriminate|]. eexists. exact H.
Qed.
Lemma default_type c : r_type (default c) = c.
Proof. destruct c; reflexivity. Qed.

(** Each attribute of an element that create_element returns on a default cell, at any order: m is at most the subdegree
    exactly if all functions of the full space of degree m are in the space of the element, and at least the superdegree
    exactly if the full space of degree m contains the space of the element. *)
Theorem C56_degree_attributes_partial : forall f c n v e, ~ is_trimmed f -> create f (default c) n v = Ok e ->
  let p := value_pattern f c in let order := Z.of_nat n in
  (forall m, (Z.of_nat m <= lagrange_subdegree f c order)%Z <-> forall F, full_space p (lagrange_monomial c m) F -> element_space e F) /\
  (forall m, (lagrange_superdegree f c order <= Z.of_nat m)%Z <-> forall F, element_space e F -> full_space p (lagrange_monomial c m) F) /\
  (forall m, (Z.of_nat m <= polynomial_subdegree f c order)%Z <-> forall F, full_space p (complete (tdim c) m) F -> element_space e F) /\
  (forall m, (polynomial_superdegree f c order <= Z.of_nat m)%Z <-> forall F, element_space e F -> full_space p (complete (tdim c) m) F).
Proof.
  intros f c n v e Ht Hcr p order. apply create_built in Hcr as (Hc & Hmin & Hmax & k & Hk). rewrite default_type in Hc.
  assert (K : ok_degrees f c n e).
  { destruct f; cbn [min_order max_order] in Hmin, Hmax; try (specialize (Hmax _ eq_refl)); try (exfalso; apply Ht; exact I).
    - eapply lagrange_deg; eassumption.
    - eapply vector_lagrange_deg; eassumption.
    - eapply matrix_lagrange_deg; eassumption.
    - eapply symmetric_lagrange_deg; eassumption.
    - eapply rt_deg; eassumption.
    - eapply n1_deg; eassumption.
    - eapply n2_deg; eassumption.
    - eapply bdm_deg; eassumption.
    - eapply bdfm_deg; eassumption.
    - eapply q_deg; eassumption.
    - eapply vector_q_deg; eassumption.
    - eapply q_nedelec_deg; eassumption.
    - eapply q_rt_deg; eassumption.
    - eapply dpc_deg; eassumption.
    - eapply vector_dpc_deg; eassumption.
    - eapply serendipity_deg; eassumption.
    - eapply serendipity_curl_deg; eassumption.
    - eapply serendipity_div_deg; eassumption.
    - eapply abf_deg; eassumption.
    - eapply ac_deg; eassumption.
    - eapply bddf_deg; eassumption.
    - eapply mtw_deg; eassumption.
    - eapply nedelec_prism_deg; [split; assumption|eassumption|eassumption].
    - eapply lagrange_prism_deg; eassumption.
    - eapply vector_prism_deg; eassumption.
    - eapply regge_deg; eassumption.
    - eapply regge_tp_deg; eassumption.
    - eapply hhj_deg; eassumption.
    - eapply hz_deg; [|eassumption|eassumption]. lia.
    - eapply aw_deg; eassumption.
    - assert (n = 2) as -> by lia. eapply naw_deg; eassumption.
    - eapply taylor_deg; eassumption. }
  destruct K as (K1 & K2 & K3 & K4). repeat split; intros H; try (apply K1; exact H); try (apply K2; exact H); try (apply K3; exact H); try (apply K4; exact H).
Qed.

(** Elements of some families, orders and dimensions, with the attributes evaluated. *)
Example C56_degree_attributes_example :
  (exists e, create SerendipityCurl (default CHexahedron) 2 "equispaced" = Ok e /\
    (forall F, full_space [0; 1; 2] (fun u => length u = 3 /\ forall i, nth i u 0 <= 1) F -> element_space e F) /\
    ~ (forall F, full_space [0; 1; 2] (fun u => length u = 3 /\ forall i, nth i u 0 <= 2) F -> element_space e F)) /\
  (exists e, create ArnoldWinther (default CTriangle) 4 "equispaced" = Ok e /\
    (forall F, full_space [0; 1; 1; 2] (fun u => length u = 2 /\ list_sum u <= 3) F -> element_space e F) /\
    ~ (forall F, full_space [0; 1; 1; 2] (fun u => length u = 2 /\ list_sum u <= 4) F -> element_space e F)).
Proof.
  split.
  - destruct (C18_default_cells_partial SerendipityCurl CHexahedron 2) as (e & E & _); [right; left; reflexivity|split; [simpl; lia|exact I]|discriminate|].
    exists e. split; [exact E|]. destruct (C56_degree_attributes_partial SerendipityCurl CHexahedron 2 _ e (fun x => x) E) as (H & _). split.
    + apply (H 1). cbn. lia.
    + intros K. apply (H 2) in K. cbn in K. lia.
  - destruct (C18_default_cells_partial ArnoldWinther CTriangle 4) as (e & E & _); [left; reflexivity|split; [simpl; lia|exact I]|discriminate|].
    exists e. split; [exact E|]. destruct (C56_degree_attributes_partial ArnoldWinther CTriangle 4 _ e (fun x => x) E) as (_ & _ & H & _). split.
    + apply (H 3). cbn. lia.
    + intros K. apply (H 4) in K. cbn in K. lia.
Qed.

(** * Trimmed serendipity elements *)
Theorem C56_trimmed_serendipity_partial : forall f c n v e, is_trimmed f -> create f (default c) n v = Ok e ->
  let p := value_pattern f c in let order := Z.of_nat n in
  (forall m, (lagrange_superdegree f c order <= Z.of_nat m)%Z <-> forall F, element_space e F -> full_space p (lagrange_monomial c m) F) /\
  (forall m, (Z.of_nat m <= polynomial_subdegree f c order)%Z <-> forall F, full_space p (complete (tdim c) m) F -> element_space e F) /\
  (forall m, (polynomial_superdegree f c order <= Z.of_nat m)%Z <-> forall F, element_space e F -> full_space p (complete (tdim c) m) F).
Proof.
  intros f c n v e Ht Hcr p order. apply create_built in Hcr as (Hc & Hmin & Hmax & k & Hk). rewrite default_type in Hc.
  assert (K : ok_three f c n e).
  { destruct f; try destruct Ht; cbn [min_order] in Hmin; [eapply tscurl_three|eapply tsdiv_three]; eassumption. }
  destruct K as (K2 & K3 & K4). repeat split; intros H; try (apply K2; exact H); try (apply K3; exact H); try (apply K4; exact H).
Qed.
(** The fourth is too low from order 7 on, on quadrilaterals: the order 7 elements contain all functions of degree 6, so
    those of degree 3 in x and in y, but their lagrange_subdegree is 2. *)
Theorem C56_trimmed_subdegree_refuted : forall f, is_trimmed f -> exists n e, create f (default CQuadrilateral) n "equispaced" = Ok e /\
  lagrange_subdegree f CQuadrilateral (Z.of_nat n) = 2%Z /\
  forall F, full_space (value_pattern f CQuadrilateral) (lagrange_monomial CQuadrilateral 3) F -> element_space e F.
Proof.
  intros f Ht.
  assert (X : good_element (create f (default CQuadrilateral) 7 "equispaced") f CQuadrilateral 7).
  { destruct f; try destruct Ht; [apply (C18_default_cells_partial TrimmedSerendipityHcurl)|apply (C18_default_cells_partial TrimmedSerendipityHdiv)];
      first [left; reflexivity|split; [simpl; lia|exact I]|discriminate]. }
  destruct X as (e & E & _). exists 7, e. split; [exact E|]. split; [destruct f; try destruct Ht; reflexivity|].
  intros F (g & Hg & HF). destruct (C56_trimmed_serendipity_partial f CQuadrilateral 7 _ e Ht E) as (_ & H & _).
  apply (proj1 (H 6)); [destruct f; try destruct Ht; cbn; lia|]. exists g. split; [|exact HF]. intros s. eapply Forall_impl; [|apply (Hg s)].
  cbn beta. intros t. generalize (snd t). intros u (L & K). destruct u as [|x [|y [|]]]; try discriminate L. clear - K. pose proof (K 0) as K0. pose proof (K 1) as K1. cbn in K0, K1. split; [reflexivity|cbn; lia].
Qed.
Example C56_trimmed_serendipity_example : exists e, create TrimmedSerendipityHdiv (default CHexahedron) 5 "equispaced" = Ok e /\
  (forall F, element_space e F -> full_space [0; 1; 2] (fun u => length u = 3 /\ list_sum u <= 5) F) /\
  ~ (forall F, element_space e F -> full_space [0; 1; 2] (fun u => length u = 3 /\ list_sum u <= 4) F).
Proof.
  destruct (C18_default_cells_partial TrimmedSerendipityHdiv CHexahedron 5) as (e & E & _); [right; left; reflexivity|split; [simpl; lia|exact I]|discriminate|].
  exists e. split; [exact E|]. destruct (C56_trimmed_serendipity_partial TrimmedSerendipityHdiv CHexahedron 5 _ e I E) as (_ & _ & H). split.
  - apply (H 5). cbn. lia.
  - intros K. apply (H 4) in K. cbn in K. lia.
Qed.

Print Assumptions C56_degree_attributes_partial.
Print Assumptions C56_trimmed_serendipity_partial.
Print Assumptions C56_trimmed_subdegree_refuted.
