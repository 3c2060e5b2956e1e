(** C76: elements with several components, on prisms, and discontinuous or enriched elements defined by values at points:
    their basis functions are dual to their degrees of freedom, for every order; which of them are continuous. *)
From Coq Require Import String Arith Bool ZArith Reals Lia Lra List.
From Verif Require Import Base PolyLib PolySetsModel PolySetsProofs QuadratureModel QuadratureProofs ReferencesModel ReferencesSpec ReferencesProofs ReferencesGeometry CiarletModel CiarletProofs
  LinAlg ElementModel LagrangeModel UnisolvenceProofs LagrangeProofs LagrangeKey LagrangeUnisolvence PropertiesLagrange QProofs QDofs PropertiesQ PropertiesCiarlet
  FamiliesSimplex2 FamiliesPrism PointsModel PointsSpec PointsProofs PointsElements PointsPrism PointsCR PointsTraces.
Import ListNotations.
Local Open Scope string_scope. Local Open Scope R_scope. Local Open Scope list_scope.

(** * Vector, matrix and symmetric matrix Lagrange elements, on all non-degenerate simplices *)
Theorem C76_vector_lagrange : forall c vs r n, simplex c -> points (nvert c) (tdim c) vs -> map_det c vs <> 0 -> make_reference c vs = Ok r ->
  dual_element (make_vector_lagrange r n "equispaced") (fields (tdim c) (P_space (tdim c) n)) (tdim c * P_dim (tdim c) n).
Proof. exact vector_lagrange_dual. Qed.
Theorem C76_matrix_lagrange : forall c vs r n, simplex c -> points (nvert c) (tdim c) vs -> map_det c vs <> 0 -> make_reference c vs = Ok r ->
  dual_element (make_matrix_lagrange r n "equispaced") (fields (tdim c * tdim c) (P_space (tdim c) n)) (tdim c * tdim c * P_dim (tdim c) n).
Proof. exact matrix_lagrange_dual. Qed.
(** symmetric matrices: a dimension of 1, 3 or 6 for each polynomial *)
Theorem C76_symmetric_lagrange : forall c vs r n, simplex c -> points (nvert c) (tdim c) vs -> map_det c vs <> 0 -> make_reference c vs = Ok r ->
  dual_element (make_symmetric_matrix_lagrange r n "equispaced") (symmetric_matrices (tdim c) (P_space (tdim c) n))
    (match tdim c with 1 => 1 | 2 => 3 | _ => 6 end * P_dim (tdim c) n).
Proof. exact symmetric_lagrange_dual. Qed.

Lemma symmetric_1 V f : symmetric_matrices 1 V f -> fields 1 V f.
Proof. intros [H _]. exact H. Qed.
(** the shape of the three elements *)
Lemma lagrange_shapes c vs r n : simplex c -> points (nvert c) (tdim c) vs -> map_det c vs <> 0 -> make_reference c vs = Ok r -> (1 <= n)%nat ->
  exists dofs, placed r (tdim c) dofs /\ traces r (tdim c) (P_space (tdim c) n) dofs /\
    (exists p, make_vector_lagrange r n "equispaced" = Ok (p, dot_dofs dofs (directions (tdim c)))) /\
    (exists p, make_matrix_lagrange r n "equispaced" = Ok (p, dot_dofs dofs (directions (tdim c * tdim c)))) /\
    (exists p, make_symmetric_matrix_lagrange r n "equispaced" = Ok (p, dot_dofs dofs (match tdim c with 1 => directions 1 | 2 => symmetric_directions_2 | _ => symmetric_directions_3 end)%nat)).
Proof.
  intros Hc Hp HD Hr Hn. destruct (lagrange_placed c vs r n Hc Hp HD Hr Hn) as (dofs & HL & P & T). exists dofs. split; [exact P|]. split; [exact T|].
  destruct (lagrange_nodes c vs r n Hc Hp HD Hr) as (ms & dofs' & HL' & Hq & HN). rewrite HL in HL'. injection HL' as <-.
  unfold make_vector_lagrange, make_matrix_lagrange, make_symmetric_matrix_lagrange. rewrite HL. cbn [rbind]. rewrite (simplex_type c vs r Hc Hr). cbv zeta. unfold polynomial_set_vector.
  destruct Hc as [->|[->| ->]]; cbn [tdim Nat.eqb Nat.mul Nat.add Nat.pow] in *; rewrite Hq; cbn [rmap]; repeat split; eexists; reflexivity.
Qed.

Theorem C76_lagrange_located : forall c vs r n, simplex c -> points (nvert c) (tdim c) vs -> map_det c vs <> 0 -> make_reference c vs = Ok r -> (1 <= n)%nat ->
  located r (make_vector_lagrange r n "equispaced") /\ located r (make_matrix_lagrange r n "equispaced") /\ located r (make_symmetric_matrix_lagrange r n "equispaced").
Proof.
  intros c vs r n Hc Hp HD Hr Hn. destruct (lagrange_shapes c vs r n Hc Hp HD Hr Hn) as (dofs & P & _ & (p1 & E1) & (p2 & E2) & (p3 & E3)).
  repeat split; eapply dots_located; eassumption.
Qed.
Theorem C76_lagrange_conforming : forall c vs r n, simplex c -> points (nvert c) (tdim c) vs -> map_det c vs <> 0 -> make_reference c vs = Ok r -> (1 <= n)%nat ->
  continuous r (make_vector_lagrange r n "equispaced") (fields (tdim c) (P_space (tdim c) n)) /\
  continuous r (make_matrix_lagrange r n "equispaced") (fields (tdim c * tdim c) (P_space (tdim c) n)) /\
  continuous r (make_symmetric_matrix_lagrange r n "equispaced") (symmetric_matrices (tdim c) (P_space (tdim c) n)).
Proof.
  intros c vs r n Hc Hp HD Hr Hn. destruct (lagrange_shapes c vs r n Hc Hp HD Hr Hn) as (dofs & P & T & (p1 & E1) & (p2 & E2) & (p3 & E3)).
  pose proof (simplex_type c vs r Hc Hr) as Ty. rewrite <- Ty in P, T. split; [|split].
  - eapply fields_continuous; [|exact P|exact E1]. rewrite Ty in *. exact T.
  - eapply fields_continuous; [|exact P|exact E2]. rewrite Ty in *. exact T.
  - destruct Hc as [->|[->| ->]]; cbn [tdim] in *.
    + destruct (fields_continuous r 1 (P_space 1 n) dofs p3 _ ltac:(rewrite Ty in *; exact T) P E3) as (poly & ds & E' & H). exists poly, ds. split; [exact E'|].
      intros k e tab E f H1 H2 Wf. exact (H k e tab E f H1 H2 (symmetric_1 _ _ Wf)).
    + destruct (arranged_continuous r symmetric_2 (fun k => nth k [0; 1; 3]%nat 0%nat) 2 (P_space 2 n) dofs p3 (make_symmetric_matrix_lagrange r n "equispaced") ltac:(rewrite Ty; reflexivity) ltac:(rewrite Ty in *; exact T) ltac:(rewrite Ty in *; exact P) 3%nat) as (poly & ds & E' & H).
      * intros i Hi. cbn [symmetric_2 length] in Hi. destruct i as [|[|[|[|i]]]]; cbn; lia.
      * intros k Hk. destruct k as [|[|[|k]]]; cbn; try lia; auto with arith.
      * exact E3.
      * exists poly, ds. split; [exact E'|]. intros k e tab E f H1 H2 Wf. exact (H k e tab E f H1 H2 (proj2 (symmetric_2_ok _ _) Wf)).
    + destruct (arranged_continuous r symmetric_3 (fun k => nth k [0; 1; 2; 4; 5; 8]%nat 0%nat) 3 (P_space 3 n) dofs p3 (make_symmetric_matrix_lagrange r n "equispaced") ltac:(rewrite Ty; reflexivity) ltac:(rewrite Ty in *; exact T) ltac:(rewrite Ty in *; exact P) 6%nat) as (poly & ds & E' & H).
      * intros i Hi. cbn [symmetric_3 length] in Hi. destruct i as [|[|[|[|[|[|[|[|[|i]]]]]]]]]; cbn; lia.
      * intros k Hk. destruct k as [|[|[|[|[|[|k]]]]]]; cbn; try lia; (split; [lia|reflexivity]).
      * exact E3.
      * exists poly, ds. split; [exact E'|]. intros k e tab E f H1 H2 Wf. exact (H k e tab E f H1 H2 (proj2 (symmetric_3_ok _ _) Wf)).
Qed.
(** a tetrahedron that is not the reference tetrahedron: 10 * 6 symmetric matrices of degree 2 *)
Example C76_symmetric_tetrahedron : exists r, make_reference CTetrahedron [[1; 1; 1]; [3; 1; 1]; [1; 2; 1]; [0; 0; 2]] = Ok r /\
  dual_element (make_symmetric_matrix_lagrange r 2 "equispaced") (symmetric_matrices 3 (P_space 3 2)) 60 /\
  continuous r (make_symmetric_matrix_lagrange r 2 "equispaced") (symmetric_matrices 3 (P_space 3 2)).
Proof.
  eexists. split; [reflexivity|].
  assert (Hp : points (nvert CTetrahedron) (tdim CTetrahedron) [[1; 1; 1]; [3; 1; 1]; [1; 2; 1]; [0; 0; 2]]) by (split; [reflexivity|repeat constructor]).
  assert (HD : map_det CTetrahedron [[1; 1; 1]; [3; 1; 1]; [1; 2; 1]; [0; 0; 2]] <> 0) by (unfold map_det, edge_det3, co; simpl; lra).
  split.
  - exact (C76_symmetric_lagrange CTetrahedron _ _ 2 (or_intror (or_intror eq_refl)) Hp HD eq_refl).
  - exact (proj2 (proj2 (C76_lagrange_conforming CTetrahedron _ _ 2 (or_intror (or_intror eq_refl)) Hp HD eq_refl ltac:(lia)))).
Qed.
(** a field that vanishes on all edges and not inside: the degrees of freedom of the edges do not see it *)
Example C76_bubble : fields 2 (P_space 2 3) (fun x => match fst x with S O => snd x 0%nat * snd x 1%nat * (1 - snd x 0%nat - snd x 1%nat) | _ => 0 end) /\
  (fun x : nat * point => match fst x with S O => snd x 0%nat * snd x 1%nat * (1 - snd x 0%nat - snd x 1%nat) | _ => 0 end) (1%nat, fun _ => 1 / 4) = 1 / 32.
Proof.
  split; [|cbn; lra]. split.
  - intros c Hc. destruct c as [|[|c]]; [apply poly_space_zero| |lia]. cbn [fst snd].
    apply (poly_space_ext _ (fun v => meval [1; 1]%nat v + - (1) * meval [2; 1]%nat v + - (1) * meval [1; 2]%nat v)); [intros v; unfold meval; cbn [meval_from pow]; ring|].
    apply poly_space_add; [apply poly_space_add; [apply poly_space_mono|apply poly_space_scale, poly_space_mono]|apply poly_space_scale, poly_space_mono]; (split; [reflexivity|cbn; lia]).
  - intros c v Hc. destruct c as [|[|c]]; [lia|lia|reflexivity].
Qed.

(** * Q elements *)
(** The scalar elements are continuous, with every variant there are points for. *)
Theorem C76_q_conforming : forall c n variant rule k e E, c = CQuadrilateral \/ c = CHexahedron -> (1 <= n)%nat ->
  get_quadrature variant (n + 1) = Ok rule -> entity_is (default c) k e E ->
  exists dofs, q_dofs (default c) n variant = Ok dofs /\
  forall f, Q_space (tdim c) n f ->
    (forall p k' e' E', In (p, (k', e')) dofs -> entity_is (default c) k' e' E' -> incl E' E -> f (env_of p) = 0) ->
    forall p, length p = tdim c -> in_affine_hull (map (fun i => nth i (r_vertices (default c)) []) E) p -> f (env_of p) = 0.
Proof.
  intros c n variant rule k e E Hc' Hn Hq HE. assert (Hc : tensor c) by (right; exact Hc'). pose proof (quadrature_nodes variant n rule Hn Hq) as HN.
  exists (q_closed c n (fst rule)). split; [apply q_dofs_closed; assumption|]. intros f Wf Z. exact (proj2 (q_closed_traces c n (fst rule) Hc Hn HN) k e E f HE Wf Z).
Qed.
Theorem C76_vector_q : forall c n variant, c = CQuadrilateral \/ c = CHexahedron -> (n = 0%nat \/ exists rule, get_quadrature variant (n + 1) = Ok rule) ->
  dual_element (make_vector_q (default c) n variant) (fields (tdim c) (Q_space (tdim c) n)) (tdim c * (n + 1) ^ tdim c).
Proof. exact vector_q_dual. Qed.
Theorem C76_vector_q_conforming : forall c n variant rule, c = CQuadrilateral \/ c = CHexahedron -> (1 <= n)%nat -> get_quadrature variant (n + 1) = Ok rule ->
  located (default c) (make_vector_q (default c) n variant) /\ continuous (default c) (make_vector_q (default c) n variant) (fields (tdim c) (Q_space (tdim c) n)).
Proof.
  intros c n variant rule Hc' Hn Hq. assert (Hc : tensor c) by (right; exact Hc'). pose proof (quadrature_nodes variant n rule Hn Hq) as HN.
  destruct (q_closed_traces c n (fst rule) Hc Hn HN) as [P T]. assert (Ty : r_type (default c) = c) by (destruct Hc' as [->| ->]; reflexivity).
  assert (E : make_vector_q (default c) n variant = Ok (quolynomial_set_vector (tdim c) (tdim c) n, dot_dofs (q_closed c n (fst rule)) (directions (tdim c)))).
  { unfold make_vector_q, only_default. rewrite default_is_default by tauto. rewrite (q_dofs_closed c n variant rule Hc Hn Hq). cbn [rmap]. rewrite Ty. destruct Hc' as [->| ->]; reflexivity. }
  split; [eapply dots_located; eassumption|]. eapply fields_continuous; [rewrite Ty; exact T|rewrite Ty; exact P|exact E].
Qed.
Example C76_vector_q_hexahedron : dual_element (make_vector_q (default CHexahedron) 3 "equispaced") (fields 3 (Q_space 3 3)) 192 /\
  dual_element (make_vector_q (default CQuadrilateral) 2 "gll") (fields 2 (Q_space 2 2)) 18 /\
  continuous (default CQuadrilateral) (make_vector_q (default CQuadrilateral) 2 "gll") (fields 2 (Q_space 2 2)).
Proof.
  split; [exact (C76_vector_q CHexahedron 3 "equispaced" (or_intror eq_refl) (or_intror (ex_intro _ (equispaced 4) eq_refl)))|].
  assert (H : exists rule, get_quadrature "gll" (2 + 1) = Ok rule) by (eexists; reflexivity). destruct H as (rule & H). split.
  - exact (C76_vector_q CQuadrilateral 2 "gll" (or_introl eq_refl) (or_intror (ex_intro _ rule H))).
  - exact (proj2 (C76_vector_q_conforming CQuadrilateral 2 "gll" rule (or_introl eq_refl) ltac:(lia) H)).
Qed.

(** * Discontinuous polynomials on quadrilaterals and hexahedra *)
Theorem C76_dpc : forall c n variant, c = CQuadrilateral \/ c = CHexahedron ->
  dual_element (make_dpc (default c) n variant) (fields 1 (P_space (tdim c) n)) (P_dim (tdim c) n) /\
  dual_element (make_vector_dpc (default c) n variant) (fields (tdim c) (P_space (tdim c) n)) (tdim c * P_dim (tdim c) n).
Proof. intros c n variant Hc. split; [apply dpc_dual, Hc|apply vector_dpc_dual, Hc]. Qed.
Theorem C76_dpc_interval : forall n variant rule, (1 <= n)%nat -> get_quadrature variant (n + 1) = Ok rule ->
  dual_element (make_dpc (default CInterval) n variant) (fields 1 (P_space 1 n)) (n + 1).
Proof. exact dpc_interval_dual. Qed.
(** every degree of freedom of DPC belongs to the interior *)
Theorem C76_dpc_discontinuous : forall c n variant, c = CQuadrilateral \/ c = CHexahedron ->
  exists poly dofs, make_dpc (default c) n variant = Ok (poly, dofs) /\ forall p u k e, In (p, u, (k, e)) dofs -> k = tdim c /\ e = 0%nat.
Proof.
  intros c n variant Hc. destruct (dpc_dual c n variant Hc) as (poly & dofs & phi & E & _). exists poly, dofs. split; [exact E|].
  unfold make_dpc in E. destruct (dpc_dofs (default c) n variant) as [ds|er] eqn:ED; [|discriminate E]. cbn [rbind] in E.
  destruct (polynomial_set_1d _ n) as [ms|]; [|discriminate E]. cbn [rmap] in E. injection E as _ <-.
  unfold dpc_dofs in ED. assert (Ty : r_type (default c) = c) by (destruct Hc as [->| ->]; reflexivity). rewrite Ty in ED.
  assert (ED' : exists ps, ds = map (fun p => (p, (tdim c, 0%nat))) ps).
  { destruct Hc as [->| ->]; cbv iota zeta in ED; match type of ED with rmap _ ?x = _ => destruct x as [ps|]; [|discriminate ED] end; cbn [rmap] in ED; injection ED as <-; exists ps; reflexivity. }
  destruct ED' as (ps & ->). intros p u k e H. rewrite one_component_eq in H. apply in_map_iff in H. destruct H as (x & X & Hx). apply in_map_iff in Hx. destruct Hx as (q & <- & _). injection X as _ _ <- <-. auto.
Qed.

(** * Prisms *)
Theorem C76_prism_lagrange : forall n, dual_element (make_prism_lagrange (default CPrism) n "equispaced") (fields 1 (prism_space n)) ((n + 1) * ((n + 1) * (n + 2) / 2)).
Proof. exact prism_dual. Qed.
Theorem C76_vector_prism_lagrange : forall n, dual_element (make_prism_vector_lagrange (default CPrism) n "equispaced") (fields 3 (prism_space n)) (3 * ((n + 1) * ((n + 1) * (n + 2) / 2))).
Proof. exact vector_prism_dual. Qed.
Theorem C76_prism_conforming : forall n, (1 <= n)%nat ->
  (located (default CPrism) (make_prism_lagrange (default CPrism) n "equispaced") /\ continuous (default CPrism) (make_prism_lagrange (default CPrism) n "equispaced") (fields 1 (prism_space n))) /\
  (located (default CPrism) (make_prism_vector_lagrange (default CPrism) n "equispaced") /\ continuous (default CPrism) (make_prism_vector_lagrange (default CPrism) n "equispaced") (fields 3 (prism_space n))).
Proof.
  intros n Hn. destruct (prism_polynomial_set_1d_ok n) as (ms & Hq & _ & _). pose proof (prism_dofs_closed n Hn) as HD.
  assert (E1 : make_prism_lagrange (default CPrism) n "equispaced" = Ok (map one_field ms, dot_dofs (prism_closed n) (directions 1))).
  { unfold make_prism_lagrange, only_default. rewrite default_is_default by tauto. rewrite HD. cbn [rbind]. change (tdim (r_type (default CPrism))) with 3%nat. rewrite Hq. reflexivity. }
  assert (E3 : make_prism_vector_lagrange (default CPrism) n "equispaced" = Ok (vectorise 3 ms, dot_dofs (prism_closed n) (directions 3))).
  { unfold make_prism_vector_lagrange. rewrite E1. cbn [rbind]. rewrite HD. cbn [rbind]. change (tdim (r_type (default CPrism))) with 3%nat. unfold prism_polynomial_set_vector. rewrite Hq. reflexivity. }
  pose proof (prism_placed n Hn) as P. pose proof (prism_traces n Hn) as T. split; split.
  - eapply dots_located; eassumption.
  - eapply fields_continuous; [exact T|exact P|exact E1].
  - eapply dots_located; eassumption.
  - eapply fields_continuous; [exact T|exact P|exact E3].
Qed.
Example C76_prism_2 : dual_element (make_prism_lagrange (default CPrism) 2 "equispaced") (fields 1 (prism_space 2)) 18.
Proof. exact (C76_prism_lagrange 2). Qed.

(** * Conforming Crouzeix-Raviart elements *)
Theorem C76_conforming_crouzeix_raviart : forall n, (1 <= n)%nat ->
  dual_element (make_conforming_cr (default CTriangle) n) (fields 1 (ccr_space n)) ((n + 1) * (n + 2) / 2 + (n - 1)) /\
  located (default CTriangle) (make_conforming_cr (default CTriangle) n) /\ continuous (default CTriangle) (make_conforming_cr (default CTriangle) n) (fields 1 (ccr_space n)).
Proof.
  intros n Hn. split; [apply conforming_cr_dual, Hn|]. destruct (polynomial_set_1d_ok 2 n ltac:(lia)) as (ms & Hq & _).
  assert (E : make_conforming_cr (default CTriangle) n = Ok (map one_field ms ++ map (ccr_extra n) (range2 1 n), dot_dofs (cr_dofs n) (directions 1))).
  { unfold make_conforming_cr, only_default. rewrite default_is_default by tauto. change (r_type (default CTriangle)) with CTriangle. cbv iota. rewrite Hq. cbn [rbind].
    change (sub_entities (default CTriangle) 1) with (Ok (edges CTriangle)). cbn [rbind]. reflexivity. }
  split; [eapply dots_located; [apply cr_placed, Hn|exact E]|]. eapply fields_continuous; [apply cr_traces, Hn|apply cr_placed, Hn|exact E].
Qed.
(** the space is larger than the polynomials of degree 2: x y (x + y) is a member of it *)
Example C76_conforming_cr_2 : dual_element (make_conforming_cr (default CTriangle) 2) (fields 1 (ccr_space 2)) 7 /\
  ccr_space 2 (fun v => v 0%nat * v 1%nat * (v 0%nat + v 1%nat)).
Proof.
  split; [exact (proj1 (C76_conforming_crouzeix_raviart 2 ltac:(lia)))|]. exists (fun _ => 0), (fun _ => 1). split; [apply poly_space_zero|]. intros v. cbn. ring.
Qed.

(** * What is rejected *)
Theorem C76_rejected : forall r n variant,
  (is_default r = false -> make_vector_q r n variant = Err NotImplementedError /\ make_vector_dpc r n variant = Err NotImplementedError /\
     make_prism_lagrange r n variant = Err NotImplementedError /\ make_prism_vector_lagrange r n variant = Err NotImplementedError /\ make_conforming_cr r n = Err NotImplementedError) /\
  ((1 <= n)%nat -> make_prism_lagrange r n "lobatto" = Err NotImplementedError) /\
  (is_default r = true -> r_type r <> CTriangle -> make_conforming_cr r n = Err AssertionError).
Proof.
  intros r n variant. split; [|split].
  - intros H. unfold make_vector_q, make_vector_dpc, make_prism_vector_lagrange, make_prism_lagrange, make_conforming_cr, only_default. rewrite H. auto.
  - intros Hn. unfold make_prism_lagrange, only_default. destruct (is_default r); [|reflexivity]. unfold prism_dofs. rewrite (proj2 (Nat.eqb_neq n 0)) by lia. reflexivity.
  - intros H Ht. unfold make_conforming_cr, only_default. rewrite H. destruct (r_type r); try reflexivity. congruence.
Qed.
Example C76_other_triangle : exists r, make_reference CTriangle [[0; 0]; [2; 0]; [0; 1]] = Ok r /\ make_conforming_cr r 2 = Err NotImplementedError.
Proof.
  eexists. split; [reflexivity|]. match goal with |- make_conforming_cr ?r 2 = _ => apply (proj1 (C76_rejected r 2 "equispaced")) end.
  unfold is_default. match goal with |- (if ?d then _ else _) = _ => destruct d as [X|_]; [|reflexivity] end. exfalso. cbn in X. injection X. intros. lra.
Qed.

Print Assumptions C76_vector_lagrange.
Print Assumptions C76_matrix_lagrange.
Print Assumptions C76_symmetric_lagrange.
Print Assumptions C76_lagrange_located.
Print Assumptions C76_lagrange_conforming.
Print Assumptions C76_q_conforming.
Print Assumptions C76_vector_q.
Print Assumptions C76_vector_q_conforming.
Print Assumptions C76_dpc.
Print Assumptions C76_dpc_interval.
Print Assumptions C76_dpc_discontinuous.
Print Assumptions C76_prism_lagrange.
Print Assumptions C76_vector_prism_lagrange.
Print Assumptions C76_prism_conforming.
Print Assumptions C76_conforming_crouzeix_raviart.
Print Assumptions C76_rejected.
