(** The families of FamiliesModel on intervals, quadrilaterals and hexahedra. *)
From Coq Require Import String ZArith Arith Bool Reals Lia List Permutation.
From Verif Require Import Base PolyLib PolySetsModel PolySetsProofs RTNedelecProofs QuadratureModel ReferencesModel
  ReferencesSpec ReferencesProofs MomentsModel ElementModel LagrangeModel LagrangeProofs LagrangeKey LagrangeUnisolvence
  PropertiesLagrange QProofs QDofs PropertiesQ FamiliesModel FamiliesSpec FamiliesMoments FamiliesBuilt FamiliesSimplex FamiliesSimplex2.
Import ListNotations.
Local Open Scope string_scope.
Local Open Scope nat_scope.
Local Open Scope list_scope.

Lemma tensor_dim c : tensor c -> 1 <= tdim c <= 3.
Proof. intros [->|[->| ->]]; simpl; lia. Qed.
Ltac ten := unfold tensor in *; intuition congruence.
Ltac kt := unfold known, simplex, tensor in *; intuition congruence.

Lemma q_built k c n : 1 <= k -> tensor c -> built (construct k Q (default c) n "equispaced") ((n + 1) ^ tdim c) c.
Proof.
  intros Hk Hc. destruct k as [|k]; [lia|]. destruct (default_shaped c ltac:(kt)) as [D S]. assert (T := proj1 (proj2 S)).
  cbn [construct]. rewrite T. unfold map_polyset_from_default. rewrite D.
  destruct n as [|n].
  - assert (X : exists p, q_dofs (default c) 0 "equispaced" = Ok [(p, (tdim c, 0))]) by (destruct Hc as [->|[->| ->]]; eexists; reflexivity).
    destruct X as (p & ->). cbn [rbind]. apply built_ciarlet.
    + rewrite map_length. apply quolynomial_set_1d_length.
    + cbn [map length]. rewrite Nat.pow_1_l. reflexivity.
    + constructor; [|constructor]. exists (tdim c). split; [reflexivity|]. destruct Hc as [->|[->| ->]]; simpl; lia.
  - rewrite (q_dofs_closed c (Datatypes.S n) "equispaced" _ Hc ltac:(lia) eq_refl). cbn [rbind].
    destruct (q_closed_points c n (fst (equispaced (Datatypes.S n + 1))) Hc) as [_ L].
    { apply (quadrature_nodes "equispaced" (Datatypes.S n)); [lia|reflexivity]. }
    apply built_ciarlet.
    + rewrite map_length. apply quolynomial_set_1d_length.
    + rewrite map_length, L. f_equal. lia.
    + apply closed_on, S.
Qed.

Lemma map_r_all {A B} (f : A -> res B) l : (forall a, In a l -> exists b, f a = Ok b) -> sized (map_r f l) (length l).
Proof.
  induction l as [|a l IH]; intros H; [exists []; split; reflexivity|].
  destruct (H a (or_introl eq_refl)) as [b E]. destruct IH as (x & E' & L); [intros; apply H; right; assumption|].
  cbn [map_r]. rewrite E. cbn [rbind]. rewrite E'. eexists. split; [reflexivity|]. cbn [length]. rewrite L. reflexivity.
Qed.

Lemma dpc_built k c n : 2 <= k -> tensor c -> built (construct k DPC (default c) n "equispaced") (pdim (tdim c) n) c.
Proof.
  intros Hk Hc. destruct k as [|k]; [lia|]. destruct (default_shaped c ltac:(kt)) as [D S]. assert (T := proj1 (proj2 S)).
  assert (Td := tensor_dim c Hc).
  cbn [construct]. rewrite T. unfold map_polyset_from_default. rewrite D.
  assert (X : sized (dpc_dofs (default c) n "equispaced") (pdim (tdim c) n) /\
     forall ds, dpc_dofs (default c) n "equispaced" = Ok ds -> Forall (fun d => on_cell c (f_entity d)) ds).
  { assert (O : 0 < nth (tdim c) (entity_numbers c) 0) by (destruct Hc as [->|[->| ->]]; simpl; lia).
    split.
    - unfold dpc_dofs. rewrite T. destruct c; try (exfalso; ten).
      + apply sized_map. destruct (lag_interval 1 n ltac:(lia)) as (e & E & _ & L & _). cbn [construct] in E.
        destruct (lagrange_dofs (default CInterval) n "equispaced") as [ds|]; [|discriminate E]. exists ds. split; [reflexivity|].
        cbn [rbind] in E. destruct (lagrange_poly _ n) as [p|]; [|discriminate E]. cbn [rbind] in E. unfold ciarlet in E.
        destruct (_ =? _) in E; [|discriminate E]. injection E as <-. cbn [fe_dofs] in L. rewrite map_length in L. exact L.
      + destruct n as [|n]; [eexists; split; reflexivity|]. cbn [Nat.eqb]. apply sized_map. rewrite <- (dpc_points_length (tdim CQuadrilateral)) by assumption.
        apply map_r_all. intros m Hm. apply dpc_points_in in Hm. rewrite get_point_place; [eexists; reflexivity|].
        rewrite map_length, rev_length. rewrite (proj1 Hm). reflexivity.
      + destruct n as [|n]; [eexists; split; reflexivity|]. cbn [Nat.eqb]. apply sized_map. rewrite <- (dpc_points_length (tdim CHexahedron)) by assumption.
        apply map_r_all. intros m Hm. apply dpc_points_in in Hm. rewrite get_point_place; [eexists; reflexivity|].
        rewrite map_length, rev_length. rewrite (proj1 Hm). reflexivity.
    - intros ds. unfold dpc_dofs. rewrite T.
      assert (G : forall A (x : res (list A)), rmap (map (fun _ => on "PointEvaluation" (Some "identity") (tdim c) 0)) x = Ok ds ->
         Forall (fun d => on_cell c (f_entity d)) ds).
      { intros A [x|] E; [|discriminate E]. injection E as <-. apply on_map. exact O. }
      destruct c; apply G. }
  destruct X as [(ds & E & L) F]. specialize (F ds E). rewrite E. cbn [rbind].
  destruct (polynomial_sized (tdim c) n Td) as (p & -> & Lp). cbn [rbind].
  assert (Y : match c with CInterval => rmap (fun _ => tt) (construct k Lagrange (default c) n "equispaced") | _ => Ok tt end = Ok tt).
  { destruct c; try reflexivity. destruct (lag_interval k n ltac:(lia)) as (e & -> & _). reflexivity. }
  rewrite Y. cbn [rbind]. apply built_ciarlet; [rewrite map_length; exact Lp|exact L|exact F].
Qed.
Lemma dpc_interval k n : 2 <= k -> built (construct k DPC (default CInterval) n "equispaced") (n + 1) CInterval.
Proof. intros H. apply (dpc_built k CInterval n H). ten. Qed.
Lemma dpc_quadrilateral k n : 2 <= k -> built (construct k DPC (default CQuadrilateral) n "equispaced") (tri (n + 1)) CQuadrilateral.
Proof. intros H. apply (dpc_built k CQuadrilateral n H). ten. Qed.
Lemma dpc_hexahedron k n : 2 <= k -> built (construct k DPC (default CHexahedron) n "equispaced") (tet (n + 1)) CHexahedron.
Proof. intros H. apply (dpc_built k CHexahedron n H). ten. Qed.

Definition two_three c := c = CQuadrilateral \/ c = CHexahedron.
Ltac tt3 := unfold two_three, known, simplex, tensor in *; intuition congruence.

Lemma vdpc_built k c n : 3 <= k -> two_three c ->
  built (construct k VectorDPC (default c) n "equispaced") (pdim (tdim c) n * tdim c) c.
Proof.
  intros Hk Hc. destruct k as [|k]; [lia|]. destruct (default_shaped c ltac:(tt3)) as [D S]. assert (T := proj1 (proj2 S)).
  cbn [construct]. unfold default_cell. rewrite D, T.
  eapply bind_fe; [apply dpc_built; [lia|tt3]|]. intros e L F.
  assert (Td : 2 <= tdim c <= 3) by (destruct Hc as [->| ->]; simpl; lia).
  eapply bind_poly; [apply polynomial_vector_sized; lia|]. intros p Lp.
  rewrite (proj2 (Nat.eqb_neq (tdim c) 1)) by lia.
  apply built_ciarlet; [exact Lp|rewrite per_direction_length, L; reflexivity|apply per_direction_on, F].
Qed.
Lemma vdpc_quadrilateral k n : 3 <= k -> built (construct k VectorDPC (default CQuadrilateral) n "equispaced") (tri (n + 1) * 2) CQuadrilateral.
Proof. intros H. apply (vdpc_built k CQuadrilateral n H). left; reflexivity. Qed.
Lemma vdpc_hexahedron k n : 3 <= k -> built (construct k VectorDPC (default CHexahedron) n "equispaced") (tet (n + 1) * 3) CHexahedron.
Proof. intros H. apply (vdpc_built k CHexahedron n H). right; reflexivity. Qed.

Lemma vq_built k c n : 2 <= k -> two_three c ->
  built (construct k VectorQ (default c) n "equispaced") ((n + 1) ^ tdim c * tdim c) c.
Proof.
  intros Hk Hc. destruct k as [|k]; [lia|]. destruct (default_shaped c ltac:(tt3)) as [D S]. assert (T := proj1 (proj2 S)).
  cbn [construct]. unfold default_cell. rewrite D, T.
  eapply bind_fe; [apply q_built; [lia|tt3]|]. intros e L F.
  assert (Td : 2 <= tdim c <= 3) by (destruct Hc as [->| ->]; simpl; lia).
  rewrite (proj2 (Nat.eqb_neq (tdim c) 1)) by lia.
  apply built_ciarlet; [unfold quolynomial_set_vector; rewrite length_vectorise, quolynomial_set_1d_length; reflexivity|rewrite per_direction_length, L; reflexivity|apply per_direction_on, F].
Qed.

(** * The tensor product spaces of Nedelec and Raviart-Thomas *)
Lemma Hdivq_sized d n : 2 <= d <= 3 -> sized (Hdiv_quolynomials d d n) (d * n ^ (d - 1)).
Proof.
  intros Hd. unfold Hdiv_quolynomials. rewrite Nat.eqb_refl. eexists. split; [reflexivity|].
  rewrite (const_flat _ _ (n ^ (d - 1))); [rewrite length_range; reflexivity|]. intros a. rewrite map_length, length_product.
  induction (d - 1) as [|m IH]; cbn [repeat fold_right Nat.pow]; [reflexivity|]. rewrite length_range, IH. reflexivity.
Qed.
Lemma filter_flat {A B} (b : A -> bool) (f : A -> B) l : length (flat_map (fun a => if b a then [f a] else []) l) = length (filter b l).
Proof. induction l as [|a l IH]; [reflexivity|]. cbn [flat_map filter]. rewrite app_length, IH. destruct (b a); reflexivity. Qed.
Lemma filter_split {A} (b : A -> bool) l : length (filter b l) + length (filter (fun a => negb (b a)) l) = length l.
Proof. induction l as [|a l IH]; [reflexivity|]. cbn [filter]. destruct (b a); cbn [negb length]; lia. Qed.
Lemma existsb_false_not n m : existsb (Nat.eqb n) m = false -> In n m -> False.
Proof. intros E H. assert (X : existsb (Nat.eqb n) m = true) by (apply existsb_exists; exists n; split; [exact H|apply Nat.eqb_refl]). congruence. Qed.
Lemma Hcurlq_count (ls : list (list nat)) n : Forall (fun l => l = range n \/ l = range (n + 1)) ls ->
  length (filter (existsb (Nat.eqb n)) (product ls)) + n ^ length ls = length (product ls).
Proof.
  intros H. rewrite <- (filter_split (existsb (Nat.eqb n)) (product ls)). f_equal. symmetry.
  transitivity (length (product (repeat (range n) (length ls)))).
  - apply same_length.
    + apply NoDup_filter, NoDup_product. apply Forall_impl with (2 := H). intros l [->| ->]; apply NoDup_range.
    + apply NoDup_product. apply Forall_forall. intros l Hl. apply repeat_spec in Hl. subst. apply NoDup_range.
    + intros m. rewrite filter_In, in_product_range, in_product, negb_true_iff. split.
      * intros [[L I] E]. split; [exact L|]. apply Forall_forall. intros a Ha.
        destruct (In_nth _ _ 0 Ha) as (i & Hi & Ei). specialize (I i 0 ltac:(lia)). rewrite Ei in I.
        rewrite Forall_forall in H. assert (In (nth i ls []) ls) as Hl by (apply nth_In; lia).
        assert (a <> n) by (intros ->; exact (existsb_false_not _ _ E Ha)).
        destruct (H _ Hl) as [X|X]; rewrite X in I; apply in_range in I; lia.
      * intros [L F]. rewrite Forall_forall in F. split; [split; [exact L|]|].
        -- intros i d Hi. rewrite Forall_forall in H. assert (In (nth i ls []) ls) as Hl by (apply nth_In; lia).
           assert (nth i m d < n) by (apply F, nth_In; lia).
           destruct (H _ Hl) as [X|X]; rewrite X; apply in_range; lia.
        -- apply not_true_is_false. intros E. apply existsb_exists in E. destruct E as (a & Ha & Ea). apply Nat.eqb_eq in Ea. subst. specialize (F _ Ha). lia.
  - rewrite length_product. induction ls as [|l ls IH]; [reflexivity|]. cbn [length repeat fold_right Nat.pow]. rewrite length_range, IH; [reflexivity|inversion H; assumption].
Qed.
Lemma Hcurlq_sized d n : 2 <= d <= 3 -> sized (Hcurl_quolynomials d d n) (match d with 2 => 2 * n | _ => 3 * (n * (2 * n + 1)) end).
Proof.
  intros Hd. unfold Hcurl_quolynomials. rewrite Nat.eqb_refl. eexists. split; [reflexivity|].
  assert (X : forall e, length (flat_map (fun j => if existsb (Nat.eqb n) j then
         [map (fun i => if i =? e then [(1%Z, zip_vars j)] else []) (range d)] else [])
       (product (map (fun i => if i =? e then range n else range (n + 1)) (range d)))) + n ^ d =
       length (product (map (fun i => if i =? e then range n else range (n + 1)) (range d)))).
  { intros e. rewrite (filter_flat (existsb (Nat.eqb n))). rewrite <- (Hcurlq_count _ n); [rewrite map_length, length_range; reflexivity|].
    apply Forall_map, Forall_forall. intros i _. destruct (i =? e); tauto. }
  assert (Y : forall e, e < d -> length (product (map (fun i => if i =? e then range n else range (n + 1)) (range d))) = n * (n + 1) ^ (d - 1)).
  { intros e He. rewrite length_product. destruct d as [|[|[|[|d]]]]; try lia; (destruct e as [|[|[|e]]]; try lia); cbn -[Nat.mul Nat.add]; rewrite !length_range; nia. }
  rewrite length_flat_map_sum. rewrite (sum_range_ext _ (fun _ => match d with 2 => n | _ => n * (2 * n + 1) end)).
  - destruct d as [|[|[|[|d]]]]; try lia; cbn [range seq map list_sum fold_right]; lia.
  - intros e He. specialize (X e). rewrite (Y e He) in X. cbv zeta. clear Y.
    assert (Z : forall x y, x + n ^ d = n * (n + 1) ^ (d - 1) -> y = x -> y = match d with 2 => n | _ => n * (2 * n + 1) end).
    { clear X. intros x y E ->. destruct d as [|[|[|[|d]]]]; try lia; cbn [Nat.sub Nat.pow] in E; nia. }
    apply (Z _ _ X). reflexivity.
Qed.

Lemma qvec_length d n : length (quolynomial_set_vector d d n) = (n + 1) ^ d * d.
Proof. unfold quolynomial_set_vector. rewrite length_vectorise, quolynomial_set_1d_length. reflexivity. Qed.
Lemma q_interval k n : 1 <= k -> built (construct k Q (default CInterval) n "equispaced") (n + 1) CInterval.
Proof. intros H. eapply built_eq; [apply (q_built k CInterval n H); ten|]. cbn [tdim Nat.pow]. lia. Qed.
Lemma q_quadrilateral k n : 1 <= k -> built (construct k Q (default CQuadrilateral) n "equispaced") ((n + 1) * (n + 1)) CQuadrilateral.
Proof. intros H. eapply built_eq; [apply (q_built k CQuadrilateral n H); ten|]. cbn [tdim Nat.pow]. lia. Qed.

Lemma qn_qrt_quadrilateral n : forall k, n + 1 <= k -> 1 <= n ->
  built (construct k QNedelec (default CQuadrilateral) n "equispaced") (2 * (n * (n + 1))) CQuadrilateral /\
  built (construct k QRaviartThomas (default CQuadrilateral) n "equispaced") (2 * (n * (n + 1))) CQuadrilateral.
Proof.
  induction n as [|n IH]; intros k Hk Hn; [lia|]. destruct k as [|k]; [lia|].
  destruct (default_shaped CQuadrilateral ltac:(kt)) as [D S]. assert (T := proj1 (proj2 S)).
  split; cbn [construct]; unfold default_cell; rewrite D, T.
  - eapply bind_poly; [apply Hcurlq_sized; simpl; lia|]. intros p L0.
    destruct n as [|n].
    + eapply bind_moments; [apply make_by_dimension|].
      * yes S CInterval 0 4 q_interval.
      * no S.
      * above S.
      * intros ds L F. apply built_ciarlet; [rewrite app_length, L0; reflexivity|rewrite L; reflexivity|exact F].
    + eapply bind_moments; [apply make_by_dimension|].
      * yes S CInterval (1 + n) 4 q_interval.
      * eapply (slot_yes _ _ _ _ _ _ _ _ _ CQuadrilateral (1 + n) _ 1); [exact S|simpl; lia|reflexivity|lia|simpl; lia|apply IH; lia].
      * above S.
      * intros ds L F. apply built_ciarlet; [rewrite app_length, L0, qvec_length; cbn [tdim Nat.sub Nat.pow]; nia|rewrite L; nia|exact F].
  - eapply bind_poly; [apply Hdivq_sized; simpl; lia|]. intros p L0.
    destruct n as [|n].
    + eapply bind_moments; [apply make_by_codimension; [exact S| |]|].
      * yes S CInterval 0 4 q_interval.
      * no S.
      * intros ds L F. apply built_ciarlet; [rewrite app_length, L0; reflexivity|rewrite L; reflexivity|exact F].
    + eapply bind_moments; [apply make_by_codimension; [exact S| |]|].
      * yes S CInterval (1 + n) 4 q_interval.
      * eapply (slot_yes _ _ _ _ _ _ _ _ _ CQuadrilateral (1 + n) _ 1); [exact S|simpl; lia|reflexivity|lia|simpl; lia|apply IH; lia].
      * intros ds L F. apply built_ciarlet; [rewrite app_length, L0, qvec_length; cbn [tdim Nat.sub Nat.pow]; nia|rewrite L; nia|exact F].
Qed.
Lemma qrt_quadrilateral k n : n + 1 <= k -> 1 <= n -> built (construct k QRaviartThomas (default CQuadrilateral) n "equispaced") (2 * (n * (n + 1))) CQuadrilateral.
Proof. intros H H'. apply qn_qrt_quadrilateral; assumption. Qed.
Lemma qn_quadrilateral k n : n + 1 <= k -> 1 <= n -> built (construct k QNedelec (default CQuadrilateral) n "equispaced") (2 * (n * (n + 1))) CQuadrilateral.
Proof. intros H H'. apply qn_qrt_quadrilateral; assumption. Qed.
Lemma qn_qrt_hexahedron n : forall k, n + 1 <= k -> 1 <= n ->
  built (construct k QNedelec (default CHexahedron) n "equispaced") (3 * (n * (n + 1) * (n + 1))) CHexahedron /\
  built (construct k QRaviartThomas (default CHexahedron) n "equispaced") (3 * (n * n * (n + 1))) CHexahedron.
Proof.
  induction n as [|n IH]; intros k Hk Hn; [lia|]. destruct k as [|k]; [lia|].
  destruct (default_shaped CHexahedron ltac:(kt)) as [D S]. assert (T := proj1 (proj2 S)).
  split; cbn [construct]; unfold default_cell; rewrite D, T.
  - eapply bind_poly; [apply Hcurlq_sized; simpl; lia|]. intros p L0.
    destruct n as [|n].
    + eapply bind_moments; [apply make_by_dimension|].
      * yes S CInterval 0 12 q_interval.
      * no S.
      * no S.
      * intros ds L F. apply built_ciarlet; [rewrite app_length, L0; reflexivity|rewrite L; reflexivity|exact F].
    + eapply bind_moments; [apply make_by_dimension|].
      * yes S CInterval (1 + n) 12 q_interval.
      * eapply (slot_yes _ _ _ _ _ _ _ _ _ CQuadrilateral (1 + n) _ 6); [exact S|simpl; lia|reflexivity|lia|simpl; lia|apply qrt_quadrilateral; lia].
      * eapply (slot_yes _ _ _ _ _ _ _ _ _ CHexahedron (1 + n) _ 1); [exact S|simpl; lia|reflexivity|lia|simpl; lia|apply IH; lia].
      * intros ds L F. apply built_ciarlet; [rewrite app_length, L0, qvec_length; cbn [tdim Nat.sub Nat.pow]; nia|rewrite L; nia|exact F].
  - eapply bind_poly; [apply Hdivq_sized; simpl; lia|]. intros p L0.
    destruct n as [|n].
    + eapply bind_moments; [apply make_by_codimension; [exact S| |]|].
      * yes S CQuadrilateral 0 6 q_quadrilateral.
      * no S.
      * intros ds L F. apply built_ciarlet; [rewrite app_length, L0; reflexivity|rewrite L; reflexivity|exact F].
    + eapply bind_moments; [apply make_by_codimension; [exact S| |]|].
      * yes S CQuadrilateral (1 + n) 6 q_quadrilateral.
      * eapply (slot_yes _ _ _ _ _ _ _ _ _ CHexahedron (1 + n) _ 1); [exact S|simpl; lia|reflexivity|lia|simpl; lia|apply IH; lia].
      * intros ds L F. apply built_ciarlet; [rewrite app_length, L0, qvec_length; cbn [tdim Nat.sub Nat.pow]; nia|rewrite L; nia|exact F].
Qed.
