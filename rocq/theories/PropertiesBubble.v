(** C52: the bubble element; C53: the bubble enriched Lagrange element. *)
From Coq Require Import String Arith Bool Reals Lra Lia List.
From Verif Require Import Base PolyLib PolySetsModel QuadratureModel ReferencesModel ReferencesSpec ReferencesProofs ReferencesGeometry
  LinAlg CiarletModel CiarletProofs PropertiesCiarlet PolySetsProofs ElementModel LagrangeModel UnisolvenceProofs LagrangeProofs LagrangeKey
  LagrangeUnisolvence PropertiesLagrange QProofs QDofs PropertiesQ SpanLib BubbleModel BubbleProofs BubbleTensor.
Import ListNotations.
Open Scope R_scope.

(** On every nondegenerate interval, triangle and tetrahedron and for every accepted order n: the element can be created, it
    has as many functions as degrees of freedom, its functions are a basis of the polynomials of degree n that vanish on all
    the facets, the degrees of freedom lie in the interior, and dual basis functions exist. *)
Theorem C52_bubble_simplex : forall c vs r n, simplex c -> points (nvert c) (tdim c) vs -> map_det c vs <> 0 ->
  make_reference c vs = Ok r -> (tdim c + 1 <= n)%nat ->
  exists poly dofs phi, make_bubble r n "equispaced" = Ok (poly, dofs) /\ length poly = length dofs /\
  is_basis poly (fun f => poly_space (fun m => length m = tdim c /\ (mdeg m <= n)%nat) f /\
    forall i p, (i <= tdim c)%nat -> length p = tdim c -> on_facet vs i p -> f (env_of p) = 0) /\
  (forall p ke, In (p, ke) dofs -> ke = (tdim c, 0%nat) /\ in_interior vs p) /\
  get_basis_functions poly (map point_eval dofs) = Ok phi /\ length phi = length dofs /\
  (forall i j, (i < length dofs)%nat -> (j < length dofs)%nat ->
     nth j phi (fun _ => 0) (env_of (fst (nth i dofs ([], (0, 0)%nat)))) = if (i =? j)%nat then 1 else 0).
Proof.
  intros c vs r n Hc Hp HD Hr Hn. destruct (bubble_simplex c vs r Hc Hp HD Hr n Hn) as (poly & E & L & B & phi & G1 & G2 & G3).
  exists poly, (bubble_points c r n), phi. split; [exact E|]. split; [exact L|]. split; [exact B|]. split; [|split; [exact G1|split; [exact G2|exact G3]]].
  intros p ke H. exact (bubble_points_inside c vs r Hc Hp Hr n p ke H).
Qed.
Print Assumptions C52_bubble_simplex.

(** The same on the default interval, quadrilateral and hexahedron, for every variant with a rule: the functions are a basis
    of the polynomials of degree n in each variable that vanish on the sides. *)
Theorem C52_bubble_tensor : forall c n variant, tensor c -> (2 <= n)%nat -> variant <> "legendre"%string -> variant <> "lobatto"%string ->
  (n = 2%nat \/ exists rule, get_quadrature variant (n - 1) = Ok rule) ->
  exists poly dofs phi, make_bubble (default c) n variant = Ok (poly, dofs) /\ length poly = length dofs /\
  is_basis poly (fun f => poly_space (fun m => length m = tdim c /\ Forall (fun e => (e <= n)%nat) m) f /\
    forall v i, (i < tdim c)%nat -> v i = 0 \/ v i = 1 -> f v = 0) /\
  (forall p ke, In (p, ke) dofs -> ke = (tdim c, 0%nat) /\ length p = tdim c /\ Forall (fun x => 0 < x < 1) p) /\
  get_basis_functions poly (map point_eval dofs) = Ok phi /\ length phi = length dofs /\
  (forall i j, (i < length dofs)%nat -> (j < length dofs)%nat ->
     nth j phi (fun _ => 0) (env_of (fst (nth i dofs ([], (0, 0)%nat)))) = if (i =? j)%nat then 1 else 0).
Proof.
  intros c n variant Hc Hn _ _ Hv. destruct (bubble_cube c n variant Hc Hn Hv) as (poly & E & L & B & phi & G1 & G2 & G3).
  exists poly, (cube_points c n), phi. split; [exact E|]. split; [exact L|]. split; [exact B|]. split; [|split; [exact G1|split; [exact G2|exact G3]]].
  intros p ke H. exact (cube_points_inside c n p ke H).
Qed.
Print Assumptions C52_bubble_tensor.

(** Lower orders and other cells are rejected. *)
Theorem C52_bubble_rejects : forall r n variant,
  (r_type r = CInterval /\ (n < 2)%nat) \/ (r_type r = CTriangle /\ (n < 3)%nat) \/ (r_type r = CTetrahedron /\ (n < 4)%nat) \/
  ((r_type r = CQuadrilateral \/ r_type r = CHexahedron) /\ (n < 2)%nat) \/
  ~ In (r_type r) [CInterval; CTriangle; CTetrahedron; CQuadrilateral; CHexahedron] ->
  make_bubble r n variant = Err ValueError.
Proof.
  intros r n variant H. unfold make_bubble. assert (E : bubble_order (r_type r) n = Err ValueError); [|rewrite E; reflexivity].
  unfold bubble_order. destruct H as [[-> H]|[[-> H]|[[-> H]|[[[-> | ->] H]|H]]]]; try (rewrite (proj2 (Nat.ltb_lt _ _) H); reflexivity).
  destruct (r_type r); try reflexivity; exfalso; apply H; simpl; tauto.
Qed.
Print Assumptions C52_bubble_rejects.

Example C52_case : exists r poly dofs, make_reference CTriangle [[0; 0]; [2; 0]; [1; 1]] = Ok r /\
  make_bubble r 4 "equispaced" = Ok (poly, dofs) /\ length poly = 3%nat /\ In ([3/4; 1/4], (2, 0)%nat) dofs /\
  make_bubble r 2 "equispaced" = Err ValueError /\
  exists poly' dofs', make_bubble (default CHexahedron) 3 "gll" = Ok (poly', dofs') /\ length poly' = 8%nat.
Proof.
  assert (Hp : points (nvert CTriangle) (tdim CTriangle) [[0; 0]; [2; 0]; [1; 1]]) by (split; [reflexivity|repeat constructor]).
  assert (HD : map_det CTriangle [[0; 0]; [2; 0]; [1; 1]] <> 0) by (unfold map_det, edge_det2, co; simpl; lra).
  destruct (make_reference CTriangle [[0; 0]; [2; 0]; [1; 1]]) as [r|] eqn:Hr; [|discriminate]. exists r.
  destruct (bubble_simplex CTriangle _ r (or_intror (or_introl eq_refl)) Hp HD Hr 4 ltac:(simpl; lia)) as (poly & E & L & _).
  exists poly, (bubble_points CTriangle r 4). split; [reflexivity|]. split; [exact E|]. split; [rewrite L; reflexivity|]. split; [|split].
  - injection Hr as <-. unfold bubble_points. apply in_map_iff. exists [1; 1]%nat. split; [|apply in_simplex_tuples; repeat split; repeat constructor].
    f_equal. unfold frac, place. cbn. f_equal; [field|]. f_equal. field.
  - apply C52_bubble_rejects. right. left. injection Hr as <-. split; [reflexivity|lia].
  - destruct (bubble_cube CHexahedron 3 "gll" ltac:(right; right; reflexivity) ltac:(lia)) as (poly' & E' & L' & _); [right; eexists; reflexivity|].
    exists poly', (cube_points CHexahedron 3). split; [exact E'|]. rewrite L'. reflexivity.
Qed.

(** * C53 *)
Section Enriched.
Variables (vs : list pt) (r : reference).
Hypothesis (Hp : points 3 2 vs) (HD : map_det CTriangle vs <> 0) (Hr : make_reference CTriangle vs = Ok r).
Let Hc : simplex CTriangle := or_intror (or_introl eq_refl).

Lemma enriched_parts n : (1 <= n)%nat -> exists lp ld b psi,
  make_enriched r n "equispaced" = Ok (map meval lp ++ map (fmul b) psi, ld ++ bubble_points CTriangle r (n + 2)) /\
  lagrange_dofs r n "equispaced" = Ok ld /\
  is_basis (map meval lp) (degree_space 2 n) /\ length lp = length ld /\
  length psi = length (bubble_points CTriangle r (n + 2)) /\ degree_space 2 3 b /\
  (forall w, b (fun j => param vs (whole CTriangle) w j) = 0 <-> exists i, (i <= 2)%nat /\ bc 2 w i = 0) /\ is_basis psi (degree_space 2 (n - 1)) /\
  (forall f, degree_space 2 n f -> (forall p ke, In (p, ke) ld -> f (env_of p) = 0) -> forall v, f v = 0).
Proof.
  intros Hn. destruct (C19_lagrange_unisolvent CTriangle vs r n Hc Hp HD Hr Hn) as (ld & lp & G1 & G2 & G3 & G4).
  destruct (bubble_parts CTriangle vs r Hc Hp HD Hr (n + 2) ltac:(simpl; lia)) as (b & psi & E & L & Db & Hb & Bp).
  assert (T : r_type r = CTriangle) by exact (cell_type_of CTriangle vs r Hc Hr).
  exists lp, ld, b, psi. split; [|split; [exact G1|split; [|split; [symmetry; exact G3|split; [exact L|split; [exact Db|split; [exact Hb|split; [|exact G4]]]]]]]].
  - unfold make_enriched. rewrite T. rewrite (proj2 (Nat.ltb_ge n 1) Hn), G1. cbn [rbind]. rewrite G2. cbn [rbind]. rewrite E. cbn [rbind fst snd].
    rewrite !app_length, !map_length, L, <- G3, Nat.eqb_refl. reflexivity.
  - unfold lagrange_poly in G2. rewrite T in G2. destruct (polynomial_set_1d_ok 2 n ltac:(lia)) as (lp' & G2' & X1 & X2 & _). cbn [tdim] in G2. rewrite G2 in G2'. injection G2' as <-.
    apply (monomial_basis 2); [exact X1|exact X2|]. intros m [Lm _]. exact Lm.
  - replace (n - 1)%nat with (n + 2 - (tdim CTriangle + 1))%nat by (simpl; lia). exact Bp.
Qed.
End Enriched.

Lemma lincomb_app : forall cs ds fs gs v, length cs = length fs -> lincomb (cs ++ ds) (fs ++ gs) v = lincomb cs fs v + lincomb ds gs v.
Proof. induction cs as [|x cs IH]; intros ds [|f fs] gs v L; try discriminate L; simpl; [ring|]. rewrite IH by (simpl in L; lia). ring. Qed.
Lemma split_length {A} (l : list A) n m : length l = (n + m)%nat -> exists a b, l = a ++ b /\ length a = n /\ length b = m.
Proof. intros H. exists (firstn n l), (skipn n l). rewrite firstn_skipn, firstn_length, skipn_length. split; [reflexivity|]. lia. Qed.

(** For the orders 1 and 2 on every triangle the functions are independent and dual basis functions exist. *)
Theorem C53_enriched_partial : forall vs r n, points 3 2 vs -> map_det CTriangle vs <> 0 -> make_reference CTriangle vs = Ok r ->
  n = 1%nat \/ n = 2%nat ->
  exists poly dofs phi, make_enriched r n "equispaced" = Ok (poly, dofs) /\ independent poly /\
  get_basis_functions poly (map point_eval dofs) = Ok phi /\ length phi = length dofs /\
  (forall i j, (i < length dofs)%nat -> (j < length dofs)%nat ->
     nth j phi (fun _ => 0) (env_of (fst (nth i dofs ([], (0, 0)%nat)))) = if (i =? j)%nat then 1 else 0) /\
  (** the Lagrange space is contained *)
  (forall f, poly_space (fun m => length m = 2%nat /\ (mdeg m <= n)%nat) f -> in_span poly f).
Proof.
  intros vs r n Hp HD Hr Hn'. assert (Hn : (1 <= n <= 2)%nat) by lia. clear Hn'. assert (Hc : simplex CTriangle) by (right; left; reflexivity).
  destruct (enriched_parts vs r Hp HD Hr n ltac:(lia)) as (lp & ld & b & psi & E & El & Bl & Ll & Lp & Db & Hb & (Ip & Sp & _) & U).
  pose (W := fun f : sfun => exists g q, degree_space 2 n g /\ degree_space 2 (n - 1) q /\ forall v, f v = g v + b v * q v).
  assert (SW : subspace W).
  { split; [exists (fun _ => 0), (fun _ => 0); split; [apply poly_space_zero|split; [apply poly_space_zero|intros; ring]]|]. split.
    - intros a u v (g & q & Hg & Hq & Hu) (g' & q' & Hg' & Hq' & Hv). exists (fun x => a * g x + g' x), (fun x => a * q x + q' x).
      split; [apply poly_space_add; [apply poly_space_scale, Hg|exact Hg']|]. split; [apply poly_space_add; [apply poly_space_scale, Hq|exact Hq']|].
      intros x. rewrite Hu, Hv. ring.
    - intros u v Ev (g & q & Hg & Hq & Hu). exists g, q. split; [exact Hg|]. split; [exact Hq|]. intros x. rewrite <- Ev. apply Hu. }
  assert (KEY : forall g q, degree_space 2 n g -> degree_space 2 (n - 1) q ->
    (forall p ke, In (p, ke) (ld ++ bubble_points CTriangle r (n + 2)) -> g (env_of p) + b (env_of p) * q (env_of p) = 0) -> (forall v, g v = 0) /\ (forall v, q v = 0)).
  { intros g q Hg Hq Z. assert (Zg : forall v, g v = 0).
    { apply U; [exact Hg|]. intros p ke Hin. specialize (Z p ke (proj2 (in_app_iff _ _ _) (or_introl Hin))).
      assert (B0 : b (env_of p) = 0); [|rewrite B0 in Z; lra].
      destruct (C19_lagrange_points CTriangle vs r n Hc Hp HD Hr ltac:(lia)) as (ld' & El' & _ & IN & _). rewrite El in El'. injection El' as <-.
      destruct (proj1 (IN p) (in_map fst _ _ Hin)) as (Lpp & l & Ll3 & Sl & A). cbn [nvert tdim] in Ll3.
      assert (X : exists i, (i <= 2)%nat /\ on_facet vs i p).
      { unfold nvert in Ll3. simpl in Ll3. destruct l as [|a0 [|a1 [|a2 [|]]]]; try discriminate Ll3. cbn in Sl.
        assert (F0 : INR 0 / INR n = 0) by (simpl; unfold Rdiv; ring).
        assert (Y : a0 = 0%nat \/ a1 = 0%nat \/ a2 = 0%nat) by lia. destruct Y as [->|[->| ->]]; [exists 0%nat|exists 1%nat|exists 2%nat]; (split; [lia|]); eexists; (split; [exact A|]); exact F0. }
      destruct X as (i & Hi & Fi). destruct (facet_P CTriangle vs r Hc Hp HD Hr i p Hi Lpp Fi) as (w & Bw & Ew).
      rewrite (degree_local 2 3 b _ _ Db Ew). apply Hb. exists i. split; [exact Hi|exact Bw]. }
    split; [exact Zg|]. apply (bubble_cancel CTriangle vs r Hc Hp HD Hr b q (n - 1) Hb Hq); [|exists 3%nat; exact Db].
    intros p ke Hin. replace (n - 1 + tdim CTriangle + 1)%nat with (n + 2)%nat in Hin by (simpl; lia).
    specialize (Z p ke (proj2 (in_app_iff _ _ _) (or_intror Hin))). rewrite (Zg (env_of p)) in Z. lra. }
  assert (SUB : forall k, subspace (degree_space 2 k)).
  { intros k. split; [apply poly_space_zero|]. split; [intros a u v Hu Hv; apply poly_space_add; [apply poly_space_scale, Hu|exact Hv]|intros u v Ev; apply poly_space_ext, Ev]. }
  destruct Bl as (Il & Sl & Xl).
  assert (IND : independent (map meval lp ++ map (fmul b) psi)).
  { intros cs Lc Z. rewrite app_length, !map_length in Lc. destruct (split_length cs _ _ Lc) as (c1 & c2 & -> & L1 & L2).
    assert (Z' : forall v, lincomb c1 (map meval lp) v + b v * lincomb c2 psi v = 0).
    { intros v. rewrite <- lincomb_fmul, <- lincomb_app by (rewrite map_length; exact L1). apply Z. }
    destruct (KEY (lincomb c1 (map meval lp)) (lincomb c2 psi)) as [Z1 Z2].
    - apply lincomb_subspace; [apply SUB|apply Forall_forall, Sl].
    - apply lincomb_subspace; [apply SUB|apply Forall_forall, Sp].
    - intros p ke _. apply Z'.
    - apply Forall_app. split; [apply Il; [rewrite map_length; exact L1|exact Z1]|apply Ip; [exact L2|exact Z2]]. }
  destruct (square_element W (map meval lp ++ map (fmul b) psi) (map point_eval (ld ++ bubble_points CTriangle r (n + 2))) SW (point_eval_linear _ _)) as (B & phi & G1 & G2 & G3 & _).
  - apply Forall_app. split; apply Forall_forall; intros f Hf.
    + exists f, (fun _ => 0). split; [apply Sl, Hf|]. split; [apply poly_space_zero|intros; ring].
    + apply in_map_iff in Hf. destruct Hf as (g & <- & Hg). exists (fun _ => 0), g. split; [apply poly_space_zero|]. split; [apply Sp, Hg|]. intros v. unfold fmul. ring.
  - exact IND.
  - rewrite map_length, !app_length, !map_length, Lp, Ll. reflexivity.
  - intros f (g & q & Hg & Hq & Hf) Z v. destruct (KEY g q Hg Hq) as [Zg Zq].
    + intros p ke Hin. rewrite <- Hf. apply (Z (point_eval (p, ke))). apply in_map, Hin.
    + rewrite Hf, Zg, Zq. ring.
  - exists (map meval lp ++ map (fmul b) psi), (ld ++ bubble_points CTriangle r (n + 2)), phi. rewrite map_length in G2, G3.
    split; [exact E|]. split; [exact IND|]. split; [exact G1|]. split; [exact G2|]. split.
    + intros i j Hi Hj. rewrite <- (G3 i j Hi Hj). rewrite (nth_indep _ _ (point_eval ([], (0, 0)%nat))) by (rewrite map_length; exact Hi). rewrite map_nth. reflexivity.
    + intros f Hf. destruct (Xl f Hf) as (cs & Lc & Hcs). exists (cs ++ repeat 0 (length psi)). split; [rewrite !app_length, Lc, repeat_length, !map_length; reflexivity|].
      intros v. rewrite lincomb_app by exact Lc. rewrite <- Hcs, lincomb_zero. ring.
Qed.
Print Assumptions C53_enriched_partial.

(** For every order from 3 on, on every triangle, the element is created but its functions are dependent (the cubic bubble is
    itself a polynomial of the Lagrange space) and no basis functions exist. *)
Theorem C53_enriched_dependent : forall vs r n, points 3 2 vs -> map_det CTriangle vs <> 0 -> make_reference CTriangle vs = Ok r ->
  (3 <= n)%nat -> exists poly dofs, make_enriched r n "equispaced" = Ok (poly, dofs) /\ length poly = length dofs /\
  ~ independent poly /\ get_basis_functions poly (map point_eval dofs) = Err ValueError.
Proof.
  intros vs r n Hp HD Hr Hn.
  destruct (enriched_parts vs r Hp HD Hr n ltac:(lia)) as (lp & ld & b & psi & E & El & (_ & _ & Xl) & Ll & Lp & Db & Hb & (_ & _ & Xp) & _).
  exists (map meval lp ++ map (fmul b) psi), (ld ++ bubble_points CTriangle r (n + 2)). split; [exact E|].
  assert (L : length (map meval lp ++ map (fmul b) psi) = length (ld ++ bubble_points CTriangle r (n + 2))) by (rewrite !app_length, !map_length, Lp, Ll; reflexivity).
  split; [exact L|].
  destruct (Xl b (degree_weaken 2 3 n b Hn Db)) as (c1 & L1 & H1). destruct (Xp (fun _ => 1) (degree_const 2 (n - 1) 1)) as (c2 & L2 & H2).
  assert (Z : forall v, lincomb (c1 ++ map (Rmult (- (1))) c2) (map meval lp ++ map (fmul b) psi) v = 0).
  { intros v. rewrite lincomb_app by exact L1. rewrite <- H1, lincomb_scale, lincomb_fmul, <- H2. ring. }
  assert (Lc : length (c1 ++ map (Rmult (- (1))) c2) = length (map meval lp ++ map (fmul b) psi)) by (rewrite !app_length, !map_length, L2 in *; rewrite L1; reflexivity).
  assert (NZ : ~ Forall (fun c => c = 0) (c1 ++ map (Rmult (- (1))) c2)).
  { intros F. apply Forall_app in F. destruct F as [_ F]. assert (Z2 : forall v, lincomb (map (Rmult (- (1))) c2) psi v = 0).
    { intros v. clear - F. revert psi. induction F as [|x cs Hx F IH]; intros [|f psi]; simpl; try reflexivity. rewrite Hx, IH. ring. }
    specialize (Z2 (fun _ => 0)). rewrite lincomb_scale, <- H2 in Z2. lra. }
  split; [intros I; apply NZ, I; assumption|].
  set (poly := map meval lp ++ map (fmul b) psi) in *. set (dofs := map point_eval (ld ++ bubble_points CTriangle r (n + 2))).
  assert (SA : @subspace point (fun _ => True)) by (repeat split).
  destruct (C64_exists_iff_unisolvent point (fun _ => True) poly dofs SA) as [_ X].
  { apply Forall_forall. auto. } { apply point_eval_linear. }
  destruct X as [[X _] [Y|Y]]; [unfold dofs; rewrite map_length; exact L| |exact Y]. exfalso. apply NZ.
  specialize (X Y). set (cs := c1 ++ map (Rmult (- (1))) c2) in *.
  assert (EQ : forall v, combination (fun i => nth i cs 0) poly v = 0).
  { intros v. rewrite combination_lincomb. transitivity (lincomb cs poly v); [|apply Z]. f_equal. transitivity (map (fun i => nth i cs 0) (range (length cs))); [rewrite Lc; reflexivity|apply map_nth_range]. }
  assert (Hz : forall i, (i < length poly)%nat -> nth i cs 0 = 0).
  { apply X. intros i Hi. unfold dof_value, dofs. rewrite (nth_indep _ _ (point_eval ([], (0, 0)%nat))) by exact Hi. rewrite map_nth. unfold point_eval. apply EQ. }
  apply Forall_forall. intros x Hx. destruct (In_nth cs x 0 Hx) as (i & Hi & <-). apply Hz. rewrite Lc in Hi. exact Hi.
Qed.
Print Assumptions C53_enriched_dependent.

Theorem C53_enriched_refuted : exists r n poly dofs, make_reference CTriangle [[0; 0]; [1; 0]; [0; 1]] = Ok r /\
  make_enriched r n "equispaced" = Ok (poly, dofs) /\ ~ independent poly /\ get_basis_functions poly (map point_eval dofs) = Err ValueError.
Proof.
  destruct (make_reference CTriangle [[0; 0]; [1; 0]; [0; 1]]) as [r|] eqn:Hr; [|discriminate].
  destruct (C53_enriched_dependent [[0; 0]; [1; 0]; [0; 1]] r 3) as (poly & dofs & E & _ & I & B); [split; [reflexivity|repeat constructor]|unfold map_det, edge_det2, co; simpl; lra|exact Hr|lia|].
  exists r, 3%nat, poly, dofs. auto.
Qed.
Print Assumptions C53_enriched_refuted.

Example C53_case : exists r poly dofs, make_reference CTriangle [[0; 0]; [2; 0]; [1; 1]] = Ok r /\
  make_enriched r 2 "equispaced" = Ok (poly, dofs) /\ independent poly /\ In ([3/2; 1/2], (1, 0)%nat) dofs.
Proof.
  assert (Hp : points 3 2 [[0; 0]; [2; 0]; [1; 1]]) by (split; [reflexivity|repeat constructor]).
  assert (HD : map_det CTriangle [[0; 0]; [2; 0]; [1; 1]] <> 0) by (unfold map_det, edge_det2, co; simpl; lra).
  destruct (make_reference CTriangle [[0; 0]; [2; 0]; [1; 1]]) as [r|] eqn:Hr; [|discriminate]. exists r.
  destruct (C53_enriched_partial _ r 2 Hp HD Hr (or_intror eq_refl)) as (poly & dofs & phi & E & I & _).
  destruct (enriched_parts _ r Hp HD Hr 2 ltac:(lia)) as (lp & ld & b & psi & E' & El & _). rewrite E in E'. injection E' as -> ->.
  eexists; eexists. split; [reflexivity|]. split; [exact E|]. split; [exact I|]. apply in_app_iff. left.
  injection Hr as <-. pose proof (lagrange_dofs_closed _ 2 2 (good_simplex CTriangle _ _ 2 (or_intror (or_introl eq_refl)) Hp eq_refl) ltac:(lia)) as X. rewrite El in X. injection X as ->.
  apply in_closed_dofs. right. split; [lia|]. split; [cbn; lia|]. exists [1%nat]. split; [left; reflexivity|].
  unfold lagrange_point. cbn. unfold frac. apply list2_eq; simpl; lra.
Qed.
