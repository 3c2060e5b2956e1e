(** The vector and matrix valued Lagrange and Q elements and the dPc elements. *)
From Coq Require Import String Arith Bool ZArith Reals Lia Lra List.
From Verif Require Import Base PolyLib PolySetsModel PolySetsProofs QuadratureModel ReferencesModel ReferencesSpec ReferencesProofs ReferencesGeometry CiarletModel CiarletProofs
  LinAlg ElementModel LagrangeModel UnisolvenceProofs LagrangeProofs LagrangeKey LagrangeUnisolvence PropertiesLagrange QProofs QDofs PropertiesQ PropertiesCiarlet
  PointsModel PointsSpec PointsProofs.
Import ListNotations.
Open Scope R_scope.

Lemma dual_element_ext made W W' K K' : (forall f, W f <-> W' f) -> K = K' -> dual_element made W K -> dual_element made W' K'.
Proof.
  intros H <- (poly & dofs & phi & A & B & C & D & E & F & G). exists poly, dofs, phi. repeat (split; [assumption|]). split.
  - intros g Hg. apply H, F, Hg.
  - intros f Wf. apply G, H, Wf.
Qed.

(** * Arrangements *)
Lemma arrange_id F : arrange (range (length F)) F = F.
Proof.
  unfold arrange. apply (nth_ext _ _ [] []); [rewrite map_length; apply length_range|]. intros i Hi. rewrite map_length, length_range in Hi.
  rewrite (CiarletProofs.nth_map_range (fun k => nth k F [])) by exact Hi. reflexivity.
Qed.
Lemma arrange_vectorise r ms : map (arrange (range r)) (vectorise r ms) = vectorise r ms.
Proof.
  rewrite <- (map_id (vectorise r ms)) at 2. apply map_ext_in. intros F HF. unfold vectorise in HF. apply in_flat_map in HF.
  destruct HF as (m & _ & HF). apply in_map_iff in HF. destruct HF as (i & <- & _).
  etransitivity; [|apply arrange_id]. rewrite map_length, length_range. reflexivity.
Qed.
Lemma arranged_range r V f : arranged (range r) V f <-> fields r V f.
Proof.
  unfold arranged. rewrite length_range. split; [tauto|]. intros H. split; [exact H|]. intros i j v Hi Hj E.
  unfold range in E. rewrite !seq_nth in E by assumption. simpl in E. congruence.
Qed.
Lemma one_field_vectorise ms : map one_field ms = vectorise 1 ms.
Proof. induction ms as [|m ms IH]; [reflexivity|]. unfold vectorise in *. cbn [map flat_map app]. rewrite IH. reflexivity. Qed.

(** A set of points on which a space of polynomials is unisolvent. *)
Definition nodes (d : nat) (ok : mono -> Prop) (ms : list mono) (dofs : list point_dof) : Prop :=
  NoDup ms /\ (forall m, In m ms <-> ok m) /\ (forall m, ok m -> length m = d) /\ length dofs = length ms /\
  (forall f, poly_space ok f -> (forall p ke, In (p, ke) dofs -> f (env_of p) = 0) -> forall v, f v = 0).

Lemma vector_element d r ok ms dofs made : nodes d ok ms dofs -> made = Ok (vectorise r ms, dot_dofs dofs (directions r)) ->
  dual_element made (fields r (poly_space ok)) (r * length ms).
Proof.
  intros (ND & Hin & Hl & Ld & Z) ->.
  eapply dual_element_ext; [apply (arranged_range r)|reflexivity|].
  apply (fields_element d r (range r) (fun k => k) ms ok dofs); auto.
  - rewrite arrange_vectorise. rewrite length_range. reflexivity.
  - intros i Hi. rewrite length_range in Hi. unfold range. rewrite seq_nth by exact Hi. exact Hi.
  - intros k Hk. rewrite length_range. unfold range. rewrite seq_nth by exact Hk. auto.
Qed.
Lemma scalar_element d ok ms dofs made : nodes d ok ms dofs -> made = Ok (map one_field ms, one_component dofs) ->
  dual_element made (fields 1 (poly_space ok)) (length ms).
Proof.
  intros H ->. rewrite <- (Nat.mul_1_l (length ms)). apply (vector_element d 1 ok ms dofs); [exact H|]. rewrite one_field_vectorise. reflexivity.
Qed.

Ltac cases_below k H := repeat (destruct k as [|k]; [|try (exfalso; lia)]); try (exfalso; lia).
Lemma symmetric_2_ok V f : arranged symmetric_2 V f <-> symmetric_matrices 2 V f.
Proof.
  unfold arranged, symmetric_matrices. cbn [symmetric_2 length Nat.mul Nat.add]. split; intros [H E]; (split; [exact H|]).
  - intros i j v Hi Hj. destruct i as [|[|i]]; [| |lia]; (destruct j as [|[|j]]; [| |lia]); cbn [Nat.mul Nat.add]; try reflexivity; apply E; try lia; reflexivity.
  - intros i j v Hi Hj K. destruct i as [|[|[|[|i]]]]; try lia; (destruct j as [|[|[|[|j]]]]; try lia); cbn in K; try discriminate K; try reflexivity.
    + exact (E 0%nat 1%nat v ltac:(lia) ltac:(lia)).
    + exact (E 1%nat 0%nat v ltac:(lia) ltac:(lia)).
Qed.
Lemma symmetric_3_ok V f : arranged symmetric_3 V f <-> symmetric_matrices 3 V f.
Proof.
  unfold arranged, symmetric_matrices. cbn [symmetric_3 length Nat.mul Nat.add]. split; intros [H E]; (split; [exact H|]).
  - intros i j v Hi Hj. destruct i as [|[|[|i]]]; [| | |lia]; (destruct j as [|[|[|j]]]; [| | |lia]); cbn [Nat.mul Nat.add]; try reflexivity; apply E; try lia; reflexivity.
  - intros i j v Hi Hj K.
    pose proof (E 0%nat 1%nat v ltac:(lia) ltac:(lia)) as E01. pose proof (E 0%nat 2%nat v ltac:(lia) ltac:(lia)) as E02. pose proof (E 1%nat 2%nat v ltac:(lia) ltac:(lia)) as E12.
    cbn in E01, E02, E12.
    destruct i as [|[|[|[|[|[|[|[|[|i]]]]]]]]]; try lia; (destruct j as [|[|[|[|[|[|[|[|[|j]]]]]]]]]; try lia); cbn in K; try discriminate K; try reflexivity; congruence.
Qed.

(** * Lagrange *)
Lemma constant_zero (ok : mono -> Prop) f p : (forall m, ok m -> mdeg m = 0%nat) -> poly_space ok f -> f p = 0 -> forall v, f v = 0.
Proof.
  intros Hk (q & Fq & Eq) Hp v. rewrite <- Hp, !Eq. clear -Hk Fq. induction Fq as [|t q Ht Fq IH]; [reflexivity|]. cbn [reval fold_right]. unfold reval in IH. rewrite IH. f_equal. f_equal.
  apply Hk in Ht. revert Ht. unfold meval. generalize 0%nat at 2 3. generalize (snd t). clear. induction m as [|e m IH]; intros i H; [reflexivity|]. cbn [mdeg] in H. cbn [meval_from].
  rewrite (IH (S i)) by lia. replace e with 0%nat by lia. reflexivity.
Qed.
Lemma P_dim_length d n ms : polynomial_set_1d d n = Ok ms -> length ms = P_dim d n.
Proof.
  intros H. destruct (polynomial_set_1d_length d n ms H) as [[-> E]|[[-> E]|[-> E]]]; unfold P_dim.
  - exact E.
  - apply Nat.div_unique_exact; lia.
  - apply Nat.div_unique_exact; lia.
Qed.
Lemma simplex_type c vs r : simplex c -> make_reference c vs = Ok r -> r_type r = c.
Proof. intros Hc Hr. destruct Hc as [->|[->| ->]]; simpl in Hr; repeat (destruct vs as [|? vs]; try discriminate); injection Hr as <-; reflexivity. Qed.
Lemma simplex_dim c : simplex c -> (1 <= tdim c <= 3)%nat.
Proof. intros [->|[->| ->]]; simpl; lia. Qed.
Lemma lagrange_nodes c vs r n : simplex c -> points (nvert c) (tdim c) vs -> map_det c vs <> 0 -> make_reference c vs = Ok r ->
  exists ms dofs, lagrange_dofs r n "equispaced" = Ok dofs /\ polynomial_set_1d (tdim c) n = Ok ms /\
    nodes (tdim c) (fun m => length m = tdim c /\ (mdeg m <= n)%nat) ms dofs.
Proof.
  intros Hc Hp HD Hr. pose proof (simplex_type c vs r Hc Hr) as T. destruct (polynomial_set_1d_ok (tdim c) n (simplex_dim c Hc)) as (ms & Hq & ND & Hin & _).
  destruct n as [|n].
  - destruct (C19_lagrange_order_zero c vs r Hc Hp Hr "equispaced" ltac:(discriminate)) as (p & phi & D & _).
    exists ms, [(p, (tdim c, 0%nat))]. split; [exact D|]. split; [exact Hq|]. split; [exact ND|]. split; [exact Hin|]. split; [tauto|]. split.
    + pose proof (P_dim_length _ _ _ Hq) as L. destruct Hc as [->|[->| ->]]; rewrite L; reflexivity.
    + intros f Hf Z. eapply (constant_zero _ f (env_of p)); [|exact Hf|]; [intros m [_ H]; lia|]. apply (Z p (tdim c, 0%nat)). left. reflexivity.
  - destruct (C19_lagrange_unisolvent c vs r (S n) Hc Hp HD Hr ltac:(lia)) as (dofs & poly & H1 & H2 & H3 & H4).
    unfold lagrange_poly in H2. rewrite T, Hq in H2. injection H2 as <-.
    exists ms, dofs. split; [exact H1|]. split; [exact Hq|]. split; [exact ND|]. split; [exact Hin|]. split; [tauto|]. split; [exact H3|exact H4].
Qed.

Lemma vector_lagrange_dual c vs r n : simplex c -> points (nvert c) (tdim c) vs -> map_det c vs <> 0 -> make_reference c vs = Ok r ->
  dual_element (make_vector_lagrange r n "equispaced") (fields (tdim c) (P_space (tdim c) n)) (tdim c * P_dim (tdim c) n).
Proof.
  intros Hc Hp HD Hr. destruct (lagrange_nodes c vs r n Hc Hp HD Hr) as (ms & dofs & HL & Hq & HN).
  unfold make_vector_lagrange. rewrite HL. cbn [rbind]. rewrite (simplex_type c vs r Hc Hr). cbv zeta. rewrite <- (P_dim_length _ _ _ Hq).
  destruct (Nat.eqb_spec (tdim c) 1) as [E|E].
  - rewrite Hq. cbn [rmap]. rewrite E in HN |- *. rewrite Nat.mul_1_l. exact (scalar_element 1 _ ms dofs _ HN eq_refl).
  - unfold polynomial_set_vector. rewrite Hq. cbn [rmap]. exact (vector_element (tdim c) (tdim c) _ ms dofs _ HN eq_refl).
Qed.
Lemma matrix_lagrange_dual c vs r n : simplex c -> points (nvert c) (tdim c) vs -> map_det c vs <> 0 -> make_reference c vs = Ok r ->
  dual_element (make_matrix_lagrange r n "equispaced") (fields (tdim c * tdim c) (P_space (tdim c) n)) (tdim c * tdim c * P_dim (tdim c) n).
Proof.
  intros Hc Hp HD Hr. destruct (lagrange_nodes c vs r n Hc Hp HD Hr) as (ms & dofs & HL & Hq & HN).
  unfold make_matrix_lagrange. rewrite HL. cbn [rbind]. rewrite (simplex_type c vs r Hc Hr). cbv zeta. rewrite <- (P_dim_length _ _ _ Hq).
  unfold polynomial_set_vector. rewrite Hq. cbn [rmap]. replace (tdim c ^ 2)%nat with (tdim c * tdim c)%nat by (cbn; lia).
  apply (vector_element (tdim c) (tdim c * tdim c) _ ms dofs); [exact HN|].
  do 2 f_equal. destruct Hc as [->|[->| ->]]; reflexivity.
Qed.
Definition symmetric_size (d : nat) : nat := match d with 1 => 1 | 2 => 3 | _ => 6 end%nat.
Lemma symmetric_lagrange_dual c vs r n : simplex c -> points (nvert c) (tdim c) vs -> map_det c vs <> 0 -> make_reference c vs = Ok r ->
  dual_element (make_symmetric_matrix_lagrange r n "equispaced") (symmetric_matrices (tdim c) (P_space (tdim c) n)) (symmetric_size (tdim c) * P_dim (tdim c) n).
Proof.
  intros Hc Hp HD Hr. destruct (lagrange_nodes c vs r n Hc Hp HD Hr) as (ms & dofs & HL & Hq & HN).
  unfold make_symmetric_matrix_lagrange. rewrite HL. cbn [rbind]. rewrite (simplex_type c vs r Hc Hr). rewrite <- (P_dim_length _ _ _ Hq).
  destruct Hc as [->|[->| ->]]; cbn [tdim symmetric_size] in *.
  - rewrite Hq. cbn [rmap]. eapply dual_element_ext; [|symmetry; apply Nat.mul_1_l|exact (scalar_element 1 _ ms dofs _ HN eq_refl)].
    intros f. unfold symmetric_matrices. cbn [Nat.mul Nat.add]. split; [|tauto]. intros H. split; [exact H|]. intros i j v Hi Hj. replace i with 0%nat by lia. replace j with 0%nat by lia. reflexivity.
  - unfold polynomial_set_vector. rewrite Hq. cbn [rmap]. destruct HN as (ND & Hin & Hl & Ld & Z).
    eapply dual_element_ext; [apply symmetric_2_ok|reflexivity|].
    apply (fields_element 2 3 symmetric_2 (fun k => nth k [0; 1; 3]%nat 0%nat) ms _ dofs); auto.
    + intros i Hi. cbn [symmetric_2 length] in Hi. destruct i as [|[|[|[|i]]]]; cbn; lia.
    + intros k Hk. destruct k as [|[|[|k]]]; cbn; try lia; auto with arith.
  - unfold polynomial_set_vector. rewrite Hq. cbn [rmap]. destruct HN as (ND & Hin & Hl & Ld & Z).
    eapply dual_element_ext; [apply symmetric_3_ok|reflexivity|].
    apply (fields_element 3 6 symmetric_3 (fun k => nth k [0; 1; 2; 4; 5; 8]%nat 0%nat) ms _ dofs); auto.
    + intros i Hi. cbn [symmetric_3 length] in Hi. destruct i as [|[|[|[|[|[|[|[|[|i]]]]]]]]]; cbn; lia.
    + intros k Hk. destruct k as [|[|[|[|[|[|k]]]]]]; cbn; try lia; (split; [lia|reflexivity]).
Qed.

(** * Q *)
Lemma default_is_default c : c = CInterval \/ c = CTriangle \/ c = CQuadrilateral \/ c = CHexahedron \/ c = CPrism -> is_default (default c) = true.
Proof. intros H. unfold is_default. destruct (pts_eq_dec _ _) as [|N]; [reflexivity|]. exfalso. apply N. repeat (destruct H as [->|H]; [reflexivity|]). rewrite H. reflexivity. Qed.
Lemma q_nodes c n variant : c = CQuadrilateral \/ c = CHexahedron -> (n = 0%nat \/ exists rule, get_quadrature variant (n + 1) = Ok rule) ->
  exists dofs, q_dofs (default c) n variant = Ok dofs /\
    nodes (tdim c) (fun m => length m = tdim c /\ Forall (fun e => (e <= n)%nat) m) (quolynomial_set_1d (tdim c) n) dofs.
Proof.
  intros Hc' Hq. assert (Hc : tensor c) by (right; exact Hc'). assert (Td : (tdim c <= 3)%nat) by (destruct Hc as [->|[->| ->]]; simpl; lia).
  destruct (quolynomial_set_1d_ok (tdim c) n Td) as (ND & Hin & _). destruct n as [|n].
  - assert (D : exists p ke, q_dofs (default c) 0 variant = Ok [(p, ke)]) by (destruct Hc' as [->| ->]; eexists _, _; reflexivity).
    destruct D as (p & ke & D). exists [(p, ke)]. split; [exact D|]. split; [exact ND|]. split; [exact Hin|]. split; [tauto|]. split.
    + destruct Hc' as [->| ->]; reflexivity.
    + intros f Hf Z. eapply (constant_zero _ f (env_of p)); [|exact Hf|].
      * intros m [_ H]. clear -H. induction H as [|e m He _ IH]; [reflexivity|]. cbn [mdeg]. lia.
      * apply (Z p ke). left. reflexivity.
  - destruct Hq as [E|(rule & Hq)]; [discriminate E|]. pose proof (quadrature_nodes variant (S n) rule ltac:(lia) Hq) as HN.
    destruct (q_closed_points c n (fst rule) Hc HN) as [NDp LD].
    exists (q_closed c (S n) (fst rule)). split; [apply q_dofs_closed; [exact Hc|lia|exact Hq]|]. split; [exact ND|]. split; [exact Hin|]. split; [tauto|]. split.
    + rewrite LD, quolynomial_set_1d_length. f_equal. lia.
    + intros f Hf Z. exact (q_closed_zero c n (fst rule) f Hc HN Hf Z).
Qed.
Lemma vector_q_dual c n variant : c = CQuadrilateral \/ c = CHexahedron -> (n = 0%nat \/ exists rule, get_quadrature variant (n + 1) = Ok rule) ->
  dual_element (make_vector_q (default c) n variant) (fields (tdim c) (Q_space (tdim c) n)) (tdim c * (n + 1) ^ tdim c).
Proof.
  intros Hc Hq. destruct (q_nodes c n variant Hc Hq) as (dofs & HD & HN). unfold make_vector_q, only_default.
  rewrite default_is_default by tauto. rewrite HD. cbn [rmap]. replace (r_type (default c)) with c by (destruct Hc as [->| ->]; reflexivity).
  replace (tdim c =? 1)%nat with false by (destruct Hc as [->| ->]; reflexivity). rewrite <- quolynomial_set_1d_length.
  exact (vector_element (tdim c) (tdim c) _ _ dofs _ HN eq_refl).
Qed.

(** * dPc *)
Lemma in_dpc_tuples n d i : In i (dpc_tuples n d) <-> length i = d /\ (list_sum i <= n)%nat.
Proof.
  unfold dpc_tuples. rewrite filter_In, Nat.leb_le. split.
  - intros [H S]. apply in_product in H. rewrite repeat_length in H. tauto.
  - intros [L S]. split; [|exact S]. apply (in_box d n). split; [exact L|]. apply Forall_forall. intros e He. rewrite <- mdeg_sum in S. pose proof (mdeg_entry i e He). lia.
Qed.
Lemma NoDup_dpc_tuples n d : NoDup (dpc_tuples n d).
Proof. unfold dpc_tuples. apply NoDup_filter. apply (NoDup_box d n). Qed.
Lemma dpc_point c n i : c = CQuadrilateral \/ c = CHexahedron -> length i = tdim c ->
  exists p, get_point (default c) (map (fun j => INR j / INR n) (rev i)) = Ok p /\ p = map (frac n) (rev i).
Proof.
  intros Hc L. destruct Hc as [->| ->]; cbn [tdim] in L.
  - destruct i as [|a [|b [|]]]; try discriminate L. eexists. split; [reflexivity|]. cbn. unfold frac. apply QDofs.list2_eq; ring.
  - destruct i as [|a [|b [|e [|]]]]; try discriminate L. eexists. split; [reflexivity|]. cbn. unfold frac. apply QDofs.list3_eq; ring.
Qed.
Lemma dpc_nodes c n variant : c = CQuadrilateral \/ c = CHexahedron ->
  exists ms dofs, dpc_dofs (default c) n variant = Ok dofs /\ polynomial_set_1d (tdim c) n = Ok ms /\
    nodes (tdim c) (fun m => length m = tdim c /\ (mdeg m <= n)%nat) ms dofs.
Proof.
  intros Hc. assert (Td : (1 <= tdim c <= 3)%nat) by (destruct Hc as [->| ->]; simpl; lia).
  destruct (polynomial_set_1d_ok (tdim c) n Td) as (ms & Hq & ND & Hin & _). exists ms.
  destruct n as [|n].
  - assert (D : exists p ke, dpc_dofs (default c) 0 variant = Ok [(p, ke)]) by (destruct Hc as [->| ->]; eexists _, _; reflexivity).
    destruct D as (p & ke & D). exists [(p, ke)]. split; [exact D|]. split; [exact Hq|]. split; [exact ND|]. split; [exact Hin|]. split; [tauto|]. split.
    + rewrite (P_dim_length _ _ _ Hq). destruct Hc as [->| ->]; reflexivity.
    + intros f Hf Z. eapply (constant_zero _ f (env_of p)); [|exact Hf|]; [intros m [_ H]; lia|]. apply (Z p ke). left. reflexivity.
  - exists (map (fun i => (map (frac (S n)) (rev i), (tdim c, 0%nat))) (dpc_tuples (S n) (tdim c))). split; [|split; [exact Hq|]].
    + assert (M : map_r (fun i => get_point (default c) (map (fun j => INR j / INR (S n)) (rev i))) (dpc_tuples (S n) (tdim c)) = Ok (map (fun i => map (frac (S n)) (rev i)) (dpc_tuples (S n) (tdim c)))).
      { apply map_r_ok. intros i Hi. apply in_dpc_tuples in Hi. destruct (dpc_point c (S n) i Hc (proj1 Hi)) as (p & E & ->). exact E. }
      unfold dpc_dofs. destruct Hc as [->| ->]; (change (r_type (default CQuadrilateral)) with CQuadrilateral || change (r_type (default CHexahedron)) with CHexahedron);
        cbv zeta iota; cbn [Nat.eqb]; rewrite M; cbn [rmap]; rewrite map_map; reflexivity.
    + split; [exact ND|]. split; [exact Hin|]. split; [tauto|]. split.
      * rewrite map_length. apply Nat.le_antisymm; apply NoDup_incl_length.
        -- apply NoDup_dpc_tuples.
        -- intros i Hi. apply in_dpc_tuples in Hi. rewrite <- mdeg_sum in Hi. exact (proj2 (Hin i) Hi).
        -- exact ND.
        -- intros i Hi. apply in_dpc_tuples. rewrite <- mdeg_sum. exact (proj1 (Hin i) Hi).
      * intros f Hf Z. apply (simplex_lattice_zero (frac (S n)) (tdim c) (S n)); [apply frac_distinct; lia|exact Hf|].
        intros m Lm Dm. apply (Z (map (frac (S n)) m) (tdim c, 0%nat)). apply in_map_iff. exists (rev m). rewrite rev_involutive. split; [reflexivity|].
        apply in_dpc_tuples. rewrite rev_length. split; [exact Lm|]. clear -Dm. rewrite mdeg_sum in Dm.
        assert (E : list_sum (rev m) = list_sum m); [|lia]. clear. induction m as [|a m IH]; [reflexivity|]. cbn [rev]. rewrite list_sum_app, IH. simpl. lia.
Qed.
Lemma dpc_dual c n variant : c = CQuadrilateral \/ c = CHexahedron ->
  dual_element (make_dpc (default c) n variant) (fields 1 (P_space (tdim c) n)) (P_dim (tdim c) n).
Proof.
  intros Hc. destruct (dpc_nodes c n variant Hc) as (ms & dofs & HD & Hq & HN). unfold make_dpc. rewrite HD. cbn [rbind].
  replace (r_type (default c)) with c by (destruct Hc as [->| ->]; reflexivity). rewrite Hq. cbn [rmap]. rewrite <- (P_dim_length _ _ _ Hq).
  exact (scalar_element (tdim c) _ ms dofs _ HN eq_refl).
Qed.
Lemma vector_dpc_dual c n variant : c = CQuadrilateral \/ c = CHexahedron ->
  dual_element (make_vector_dpc (default c) n variant) (fields (tdim c) (P_space (tdim c) n)) (tdim c * P_dim (tdim c) n).
Proof.
  intros Hc. destruct (dpc_nodes c n variant Hc) as (ms & dofs & HD & Hq & HN). unfold make_vector_dpc, only_default. rewrite default_is_default by tauto. rewrite HD. cbn [rbind].
  replace (r_type (default c)) with c by (destruct Hc as [->| ->]; reflexivity). unfold polynomial_set_vector. rewrite Hq. cbn [rmap]. rewrite <- (P_dim_length _ _ _ Hq).
  apply (vector_element (tdim c) (tdim c) _ ms dofs); [exact HN|]. destruct Hc as [->| ->]; reflexivity.
Qed.
Lemma dpc_interval_dual n variant rule : (1 <= n)%nat -> get_quadrature variant (n + 1) = Ok rule ->
  dual_element (make_dpc (default CInterval) n variant) (fields 1 (P_space 1 n)) (n + 1).
Proof.
  intros Hn Hq. pose proof (quadrature_nodes variant n rule Hn Hq) as HN. assert (Hc : tensor CInterval) by (left; reflexivity).
  unfold make_dpc, dpc_dofs. change (r_type (default CInterval)) with CInterval. cbv iota zeta. rewrite (lagrange_interval_closed n variant rule Hn Hq). cbn [rmap rbind tdim].
  destruct (polynomial_set_1d_ok 1 n ltac:(lia)) as (ms & Hp & ND & Hin & _). rewrite Hp. cbn [rmap]. change (n + 1)%nat with (P_dim 1 n). rewrite <- (P_dim_length _ _ _ Hp).
  destruct n as [|n]; [lia|]. destruct (q_closed_points CInterval n (fst rule) Hc HN) as [NDp LD].
  eapply (scalar_element 1 _ ms _ _); [|reflexivity]. split; [exact ND|]. split; [exact Hin|]. split; [intros m [H _]; exact H|]. split.
  - rewrite (P_dim_length _ _ _ Hp). etransitivity; [apply map_length|]. etransitivity; [exact LD|]. cbn. lia.
  - intros f Hf Z. apply (q_closed_zero CInterval n (fst rule) f Hc HN).
    + eapply poly_space_weaken; [|exact Hf]. intros m [L D]. split; [exact L|]. apply Forall_forall. intros e He. pose proof (mdeg_entry m e He). lia.
    + intros p ke Hp'. apply (Z p (1%nat, 0%nat)). apply in_map_iff. exists (p, ke). split; [reflexivity|exact Hp'].
Qed.
