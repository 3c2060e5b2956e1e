(** Lagrange elements on the default prism. *)
From Coq Require Import String Arith Bool ZArith Reals Lia Lra List.
From Verif Require Import Base PolyLib PolySetsModel PolySetsProofs QuadratureModel QuadratureProofs ReferencesModel ReferencesSpec ReferencesProofs ReferencesGeometry CiarletModel CiarletProofs
  LinAlg ElementModel LagrangeModel UnisolvenceProofs LagrangeProofs LagrangeKey LagrangeUnisolvence PropertiesLagrange QProofs QDofs PropertiesQ PropertiesCiarlet
  FamiliesSimplex2 FamiliesPrism PointsModel PointsSpec PointsProofs PointsElements.
Import ListNotations.
Local Open Scope string_scope. Local Open Scope R_scope. Local Open Scope list_scope.

Lemma good_prism : good_entities (default CPrism) 3.
Proof.
  split; [reflexivity|]. intros k Hk. destruct k as [|[|[|[|k]]]]; [lia| | | |lia]; (split; [reflexivity|]); intros e He;
    unfold ent_count in He; cbn in He;
    repeat (destruct e as [|e]; [|try (exfalso; lia)]); try (exfalso; lia);
    (split; [reflexivity|]); (split; [reflexivity|]); (split; [reflexivity|]);
    cbn; repeat (apply Forall_cons; [reflexivity|]); apply Forall_nil.
Qed.

Definition face_tuples (n e : nat) : list (list nat) :=
  filter (fun ii => (length (r_vertices (ent_of (default CPrism) 2 e)) =? 4)%nat || (list_sum ii <? n)%nat) (tuples n 2).
Definition inner_tuples (n : nat) : list (list nat) := filter (fun ii => nth 0 ii 0 + nth 1 ii 0 <? n)%nat (tuples n 3).
Definition ppoint (n k e : nat) (i : list nat) : pt := qpoint (ent_of (default CPrism) k e) (fst (equispaced (n + 1))) i.
Definition prism_closed (n : nat) : list point_dof :=
  vertex_dofs (default CPrism) ++ closed_entity 1 9 (tuples n 1) (ppoint n 1) ++
  flat_map (fun e => map (fun i => (ppoint n 2 e i, (2%nat, e))) (face_tuples n e)) (range 5) ++
  map (fun i => (ppoint n 3 0 (rev i), (3, 0)%nat)) (inner_tuples n).

Lemma prism_place n k e i : (1 <= k <= 3)%nat -> (e < ent_count (default CPrism) k)%nat -> Forall (fun a => (1 <= a < n)%nat) i ->
  q_place (fst (equispaced (n + 1))) (ent_of (default CPrism) k e) i = Ok (ppoint n k e i).
Proof.
  intros Hk He Hi. destruct good_prism as [_ G]. destruct (G k Hk) as [_ G']. destruct (G' e He) as (_ & Lo & _ & Fa).
  apply q_place_ok; [rewrite Lo; exact Fa|]. eapply Forall_impl; [|exact Hi]. intros a Ha. unfold equispaced. cbn [fst]. rewrite map_length, length_range. cbn in *. lia.
Qed.
Lemma prism_dofs_closed n : (1 <= n)%nat -> prism_dofs (default CPrism) n "equispaced" = Ok (prism_closed n).
Proof.
  intros Hn. unfold prism_dofs. rewrite (proj2 (Nat.eqb_neq n 0)) by lia. change ("equispaced" =? "lobatto")%string with false. cbv iota zeta.
  change (get_quadrature "equispaced" (n + 1)) with (Ok (equispaced (n + 1))). cbn [rbind]. destruct good_prism as [_ G].
  rewrite (entity_point_dofs_closed (default CPrism) 1 (tuples n 1) (q_place (fst (equispaced (n + 1)))) 9 (ent_of (default CPrism) 1) (ppoint n 1)).
  - cbn [rbind]. assert (F : prism_face_dofs (default CPrism) n (fst (equispaced (n + 1))) =
      Ok (flat_map (fun e => map (fun i => (ppoint n 2 e i, (2%nat, e))) (face_tuples n e)) (range 5))).
    { unfold prism_face_dofs. change (sub_entity_count (default CPrism) 2) with (@Ok nat 5%nat). cbn [rbind].
      rewrite (map_r_ok _ (fun e => map (fun i => (ppoint n 2 e i, (2%nat, e))) (face_tuples n e))); [cbn [rmap]; rewrite <- flat_map_concat_map; reflexivity|].
      intros e He. apply in_range in He. destruct (G 2%nat ltac:(lia)) as [_ G']. destruct (G' e He) as (Ee & _). rewrite Ee. cbn [rbind].
      apply map_r_ok. intros i Hi. unfold face_tuples in Hi. apply filter_In in Hi. destruct Hi as [Hi _]. apply in_tuples in Hi. rewrite prism_place; [reflexivity|lia|exact He|tauto]. }
    rewrite F. cbn [rbind]. assert (I : prism_interior_dofs (default CPrism) n (fst (equispaced (n + 1))) = Ok (map (fun i => (ppoint n 3 0 (rev i), (3, 0)%nat)) (inner_tuples n))).
    { unfold prism_interior_dofs. apply map_r_ok. intros i Hi. apply filter_In in Hi. destruct Hi as [Hi _]. apply in_tuples in Hi.
      pose proof (prism_place n 3 0 (rev i) ltac:(lia) ltac:(cbn; lia)) as X. change (ent_of (default CPrism) 3 0) with (default CPrism) in X.
      unfold ppoint in *. change (ent_of (default CPrism) 3 0) with (default CPrism) in *. rewrite X; [reflexivity|]. apply Forall_rev. tauto. }
    rewrite I. reflexivity.
  - reflexivity.
  - intros e He. destruct (G 1%nat ltac:(lia)) as [_ G']. destruct (G' e He) as (Ee & _). split; [exact Ee|].
    intros i Hi. apply in_tuples in Hi. apply prism_place; [lia|exact He|tauto].
Qed.

Lemma equispaced_nth n j : (1 <= n)%nat -> (j <= n)%nat -> nth j (fst (equispaced (n + 1))) 0 = frac n j.
Proof.
  intros Hn Hj. pose proof (equispaced_get n j Hn Hj) as H. rewrite (get_nth _ j 0) in H by (unfold equispaced; cbn [fst]; rewrite map_length, length_range; lia).
  injection H as H. exact H.
Qed.
Lemma frac_0 n : frac n 0 = 0. Proof. unfold frac. simpl. unfold Rdiv. ring. Qed.
Lemma frac_n n : (1 <= n)%nat -> frac n n = 1.
Proof. intros H. unfold frac. field. apply not_0_INR. lia. Qed.
Lemma frac_compl n i j : (1 <= n)%nat -> (i + j = n)%nat -> frac n i = 1 - frac n j.
Proof. intros H E. unfold frac. replace (INR i) with (INR n - INR j) by (rewrite <- E, plus_INR; ring). field. apply not_0_INR. lia. Qed.

Lemma prism_edge n e a : (e < 9)%nat -> (1 <= a < n)%nat -> In (ppoint n 1 e [a], (1%nat, e)) (prism_closed n).
Proof.
  intros He Ha. apply in_or_app. right. apply in_or_app. left. apply in_closed_entity. split; [reflexivity|]. split; [exact He|]. exists [a]. split; [|reflexivity].
  apply in_tuples. split; [reflexivity|]. constructor; [exact Ha|constructor].
Qed.
Lemma prism_face n e a b : (e < 5)%nat -> (1 <= a < n)%nat -> (1 <= b < n)%nat -> (1 <= e <= 3 \/ a + b < n)%nat -> In (ppoint n 2 e [a; b], (2%nat, e)) (prism_closed n).
Proof.
  intros He Ha Hb S. apply in_or_app. right. apply in_or_app. right. apply in_or_app. left. apply in_flat_map. exists e. split; [apply in_range; exact He|].
  apply in_map_iff. exists [a; b]. split; [reflexivity|]. apply filter_In. split.
  - apply in_tuples. split; [reflexivity|]. constructor; [exact Ha|]. constructor; [exact Hb|constructor].
  - apply orb_true_iff. destruct S as [S|S].
    + left. destruct e as [|[|[|[|e]]]]; try lia; reflexivity.
    + right. apply Nat.ltb_lt. simpl. lia.
Qed.
Lemma prism_inside n a b c : (1 <= a < n)%nat -> (1 <= b < n)%nat -> (1 <= c < n)%nat -> (a + b < n)%nat -> In (ppoint n 3 0 [c; b; a], (3, 0)%nat) (prism_closed n).
Proof.
  intros Ha Hb Hc S. apply in_or_app. right. apply in_or_app. right. apply in_or_app. right. apply in_map_iff. exists [a; b; c]. split; [reflexivity|].
  apply filter_In. split; [|apply Nat.ltb_lt; exact S]. apply in_tuples. split; [reflexivity|]. repeat (apply Forall_cons; [assumption|]). apply Forall_nil.
Qed.
Lemma prism_vertex n e p : nth_error (r_vertices (default CPrism)) e = Some p -> In (p, (0%nat, e)) (prism_closed n).
Proof. intros H. apply in_or_app. left. apply in_vertex_dofs. auto. Qed.

Ltac prism_point := unfold ppoint, qpoint; cbn -[IZR frac Rplus Rmult Rminus equispaced]; rewrite ?equispaced_nth by lia; rewrite ?frac_0, ?frac_n by lia;
  apply QDofs.list3_eq; try reflexivity; try lra.
(** Every point of the lattice of the prism carries a degree of freedom. *)
Lemma prism_lattice n i j k : (1 <= n)%nat -> (i + j <= n)%nat -> (k <= n)%nat -> exists ke, In ([frac n i; frac n j; frac n k], ke) (prism_closed n).
Proof.
  intros Hn Hij Hk. set (P := fun p => exists ke, In (p, ke) (prism_closed n)). change (P [frac n i; frac n j; frac n k]).
  assert (V : forall e p, nth_error (r_vertices (default CPrism)) e = Some p -> P p) by (intros e p H; eexists; apply (prism_vertex n e p H)).
  assert (E : forall e a, (e < 9)%nat -> (1 <= a < n)%nat -> P (ppoint n 1 e [a])) by (intros e a He Ha; eexists; apply (prism_edge n e a He Ha)).
  assert (F : forall e a b, (e < 5)%nat -> (1 <= a < n)%nat -> (1 <= b < n)%nat -> (1 <= e <= 3 \/ a + b < n)%nat -> P (ppoint n 2 e [a; b])) by (intros e a b H1 H2 H3 H4; eexists; apply (prism_face n e a b H1 H2 H3 H4)).
  assert (I : forall a b c, (1 <= a < n)%nat -> (1 <= b < n)%nat -> (1 <= c < n)%nat -> (a + b < n)%nat -> P (ppoint n 3 0 [c; b; a])) by (intros a b c H1 H2 H3 H4; eexists; apply (prism_inside n a b c H1 H2 H3 H4)).
  assert (T : forall p q, P q -> p = q -> P p) by (intros p q H ->; exact H).
  destruct (Nat.eq_dec k 0) as [->|k0]; [|destruct (Nat.eq_dec k n) as [->|kn]].
  - destruct (Nat.eq_dec i 0) as [->|i0]; [destruct (Nat.eq_dec j 0) as [->|j0]; [|destruct (Nat.eq_dec j n) as [->|jn]]|destruct (Nat.eq_dec j 0) as [->|j0]; [destruct (Nat.eq_dec i n) as [->|i_n]|destruct (Nat.eq_dec (i + j) n) as [s|s]]].
    + eapply T; [apply (V 0%nat _ eq_refl)|]. prism_point.
    + eapply T; [apply (V 2%nat _ eq_refl)|]. prism_point.
    + eapply T; [apply (E 1%nat j); lia|]. prism_point.
    + eapply T; [apply (V 1%nat _ eq_refl)|]. prism_point.
    + eapply T; [apply (E 0%nat i); lia|]. prism_point.
    + eapply T; [apply (E 3%nat j); lia|]. pose proof (frac_compl n i j Hn s). prism_point.
    + eapply T; [apply (F 0%nat j i); lia|]. prism_point.
  - destruct (Nat.eq_dec i 0) as [->|i0]; [destruct (Nat.eq_dec j 0) as [->|j0]; [|destruct (Nat.eq_dec j n) as [->|jn]]|destruct (Nat.eq_dec j 0) as [->|j0]; [destruct (Nat.eq_dec i n) as [->|i_n]|destruct (Nat.eq_dec (i + j) n) as [s|s]]].
    + eapply T; [apply (V 3%nat _ eq_refl)|]. prism_point.
    + eapply T; [apply (V 5%nat _ eq_refl)|]. prism_point.
    + eapply T; [apply (E 7%nat j); lia|]. prism_point.
    + eapply T; [apply (V 4%nat _ eq_refl)|]. prism_point.
    + eapply T; [apply (E 6%nat i); lia|]. prism_point.
    + eapply T; [apply (E 8%nat j); lia|]. pose proof (frac_compl n i j Hn s). prism_point.
    + eapply T; [apply (F 4%nat j i); lia|]. prism_point.
  - destruct (Nat.eq_dec i 0) as [->|i0]; [destruct (Nat.eq_dec j 0) as [->|j0]; [|destruct (Nat.eq_dec j n) as [->|jn]]|destruct (Nat.eq_dec j 0) as [->|j0]; [destruct (Nat.eq_dec i n) as [->|i_n]|destruct (Nat.eq_dec (i + j) n) as [s|s]]].
    + eapply T; [apply (E 2%nat k); lia|]. prism_point.
    + eapply T; [apply (E 5%nat k); lia|]. prism_point.
    + eapply T; [apply (F 2%nat k j); lia|]. prism_point.
    + eapply T; [apply (E 4%nat k); lia|]. prism_point.
    + eapply T; [apply (F 1%nat k i); lia|]. prism_point.
    + eapply T; [apply (F 3%nat k j); lia|]. pose proof (frac_compl n i j Hn s). prism_point.
    + eapply T; [apply (I i j k); lia|]. prism_point.
Qed.

Lemma prism_count n : (1 <= n)%nat -> (2 * length (prism_closed n) = (n + 1) * (n + 1) * (n + 2))%nat.
Proof.
  intros Hn. unfold prism_closed. rewrite !app_length, map_length. unfold inner_tuples, tuples. rewrite prism_interior. unfold closed_entity.
  rewrite (const_flat _ _ (n - 1)) by (intros; rewrite map_length, length_product; cbn [repeat fold_right]; rewrite length_range2; lia).
  assert (F : length (flat_map (fun e => map (fun i => (ppoint n 2 e i, (2%nat, e))) (face_tuples n e)) (range 5)) = (2 * choose 2 n + 3 * ((n - 1) * (n - 1)))%nat).
  { change (range 5) with [0; 1; 2; 3; 4]%nat. cbn [flat_map]. rewrite !app_length, !map_length.
    assert (T : forall e, e = 0%nat \/ e = 4%nat -> length (face_tuples n e) = choose 2 n).
    { intros e [->| ->]; unfold face_tuples; (change (length (r_vertices (ent_of (default CPrism) 2 0)) =? 4)%nat with false || change (length (r_vertices (ent_of (default CPrism) 2 4)) =? 4)%nat with false); cbn [orb];
        exact (length_simplex_tuples n 2). }
    assert (Q : forall e, (1 <= e <= 3)%nat -> length (face_tuples n e) = ((n - 1) * (n - 1))%nat).
    { intros e He. assert (V : (length (r_vertices (ent_of (default CPrism) 2 e)) =? 4)%nat = true) by (destruct e as [|[|[|[|e]]]]; try lia; reflexivity).
      unfold face_tuples. rewrite V. cbn [orb]. rewrite filter_true. unfold tuples. rewrite length_product. cbn [repeat fold_right]. rewrite length_range2. lia. }
    rewrite (T 0%nat), (T 4%nat) by tauto. rewrite !Q by lia. cbn [length]. generalize ((n - 1) * (n - 1))%nat (choose 2 n). intros; lia. }
  rewrite F. rewrite length_range. change (length (vertex_dofs (default CPrism))) with 6%nat. clear F.
  destruct n as [|n]; [lia|]. pose proof (choose_2 n) as C. revert C. generalize (choose 2 (S n)). intros x C. replace (S n - 1)%nat with n by lia.
  destruct n as [|n]; [lia|]. replace (S n - 1)%nat with n in C by lia. nia.
Qed.

Lemma prism_nodes n : exists ms dofs, prism_dofs (default CPrism) n "equispaced" = Ok dofs /\ prism_polynomial_set_1d 3 n = Ok ms /\ (2 * length ms = (n + 1) * (n + 1) * (n + 2))%nat /\
  nodes 3 (prism_mono n) ms dofs.
Proof.
  destruct (prism_polynomial_set_1d_ok n) as (ms & Hq & (ND & Hin & _) & Lm). exists ms. assert (Len : forall m, prism_mono n m -> length m = 3%nat) by (intros m (i & j & k & -> & _); reflexivity).
  destruct n as [|n].
  - exists [(repeat (1 / INR 4) 3, (3, 0)%nat)]. split; [reflexivity|]. split; [exact Hq|]. split; [exact Lm|]. split; [exact ND|]. split; [exact Hin|]. split; [exact Len|]. split; [cbn [length]; cbn in Lm; lia|].
    intros f Hf Z. eapply (constant_zero _ f (env_of (repeat (1 / INR 4) 3))); [|exact Hf|apply (Z _ (3, 0)%nat); left; reflexivity].
    intros m (i & j & k & -> & H1 & H2). cbn [mdeg]. lia.
  - exists (prism_closed (S n)). split; [apply prism_dofs_closed; lia|]. split; [exact Hq|]. split; [exact Lm|]. split; [exact ND|]. split; [exact Hin|]. split; [exact Len|]. split.
    + pose proof (prism_count (S n) ltac:(lia)). lia.
    + intros f Hf Z. apply (lower_space_zero (repeat (frac (S n)) 3) (prism_mono (S n)) ms f ND Hin); [| |exact Hf|].
      * intros m (i & j & k & -> & H1 & H2). apply (fit_box _ (S n) 3); [|reflexivity|reflexivity|].
        -- intros l Hl. destruct l as [|[|[|l]]]; [| | |lia]; cbn [nth repeat]; apply frac_distinct; lia.
        -- repeat apply Forall_cons; try apply Forall_nil; lia.
      * intros m b (i & j & k & -> & H1 & H2) Hb. inversion Hb as [|x y ? ? X1 Hb1]; subst. inversion Hb1 as [|x' y' ? ? X2 Hb2]; subst. inversion Hb2 as [|x'' y'' ? ? X3 Hb3]; subst. inversion Hb3; subst.
        eexists _, _, _. split; [reflexivity|]. lia.
      * intros m (i & j & k & -> & H1 & H2). destruct (prism_lattice (S n) i j k ltac:(lia) H1 H2) as (ke & HL). exact (Z _ ke HL).
Qed.

Lemma prism_dual n : dual_element (make_prism_lagrange (default CPrism) n "equispaced") (fields 1 (prism_space n)) ((n + 1) * ((n + 1) * (n + 2) / 2)).
Proof.
  destruct (prism_nodes n) as (ms & dofs & HD & Hq & Lm & HN). unfold make_prism_lagrange, only_default. rewrite default_is_default by tauto. rewrite HD. cbn [rbind].
  change (tdim (r_type (default CPrism))) with 3%nat. rewrite Hq. cbn [rmap].
  eapply dual_element_ext; [intros f; reflexivity| |exact (scalar_element 3 _ ms dofs _ HN eq_refl)].
  destruct (Nat.Even_or_Odd n) as [[m ->]|[m ->]].
  - replace ((2 * m + 1) * (2 * m + 2))%nat with (((2 * m + 1) * (m + 1)) * 2)%nat by lia. rewrite Nat.div_mul by lia. nia.
  - replace ((2 * m + 1 + 1) * (2 * m + 1 + 2))%nat with (((m + 1) * (2 * m + 3)) * 2)%nat by lia. rewrite Nat.div_mul by lia. nia.
Qed.
Lemma vector_prism_dual n : dual_element (make_prism_vector_lagrange (default CPrism) n "equispaced") (fields 3 (prism_space n)) (3 * ((n + 1) * ((n + 1) * (n + 2) / 2))).
Proof.
  destruct (prism_dual n) as (? & ? & ? & E & _ & _). unfold make_prism_vector_lagrange. rewrite E. clear E.
  destruct (prism_nodes n) as (ms & dofs & HD & Hq & Lm & HN). cbn [rbind]. rewrite HD. cbn [rbind].
  change (tdim (r_type (default CPrism))) with 3%nat. unfold prism_polynomial_set_vector. rewrite Hq. cbn [rmap].
  eapply dual_element_ext; [intros f; reflexivity| |exact (vector_element 3 3 _ ms dofs _ HN eq_refl)]. f_equal.
  destruct (Nat.Even_or_Odd n) as [[m ->]|[m ->]].
  - replace ((2 * m + 1) * (2 * m + 2))%nat with (((2 * m + 1) * (m + 1)) * 2)%nat by lia. rewrite Nat.div_mul by lia. nia.
  - replace ((2 * m + 1 + 1) * (2 * m + 1 + 2))%nat with (((m + 1) * (2 * m + 3)) * 2)%nat by lia. rewrite Nat.div_mul by lia. nia.
Qed.
