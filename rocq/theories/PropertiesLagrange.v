(** C19: the Lagrange element on simplices.  Cells: any non-degenerate interval, triangle or tetrahedron in its own
    dimension (the default cells included). *)
From Coq Require Import String Arith Bool Reals Lra Lia List.
From Verif Require Import Base PolyLib PolySetsModel ReferencesModel ReferencesSpec ReferencesProofs ReferencesGeometry
  LinAlg CiarletModel PolySetsProofs ElementModel LagrangeModel UnisolvenceProofs LagrangeProofs LagrangeKey
  LagrangeUnisolvence.
Import ListNotations.
Open Scope R_scope.

Lemma wpoint_affine n l vs p : (1 <= n)%nat -> length l = length vs -> list_sum l = n ->
  (affine_comb (map (fun a => INR a / INR n) l) vs p <-> p = wpoint n l vs (length p)).
Proof.
  intros Hn L S. assert (P : 0 < INR n) by (apply lt_0_INR; lia).
  assert (E : forall j, sumR (map (fun wv => fst wv * nth j (snd wv) 0) (combine (map (fun a => INR a / INR n) l) vs)) =
    sumR (map (fun lv => INR (fst lv) / INR n * nth j (snd lv) 0) (combine l vs))).
  { intros j. f_equal. clear. revert vs. induction l as [|a l IH]; intros [|v vs]; try reflexivity. simpl. f_equal. apply IH. }
  assert (SM : sumR (map (fun a => INR a / INR n) l) = 1).
  { assert (G : sumR (map (fun a => INR a / INR n) l) = INR (list_sum l) / INR n).
    { clear - P. induction l as [|a l IH]; [simpl; unfold Rdiv; ring|].
      change (list_sum (a :: l)) with (a + list_sum l)%nat. rewrite plus_INR. unfold sumR in *. simpl map. cbn [fold_right].
      rewrite IH. field. lra. }
    rewrite G, S. field. lra. }
  split.
  - intros (_ & _ & C). apply (pt_eq _ _ (length p)); [reflexivity|apply wpoint_length|].
    intros j Hj. rewrite wpoint_nth, <- E by exact Hj. apply C. exact Hj.
  - intros Ep. split; [rewrite map_length; exact L|]. split; [exact SM|]. intros j Hj.
    rewrite Ep at 1. rewrite wpoint_nth by exact Hj. symmetry. apply E.
Qed.

(** The evaluation points are the points whose barycentric coordinates are multiples of 1/n, each once; the points of
    a sub-entity lie in its interior. *)
Theorem C19_lagrange_points : forall c vs r n, simplex c -> points (nvert c) (tdim c) vs -> map_det c vs <> 0 ->
  make_reference c vs = Ok r -> (1 <= n)%nat ->
  exists dofs, lagrange_dofs r n "equispaced" = Ok dofs /\
  NoDup (map fst dofs) /\
  (forall p, In p (map fst dofs) <-> length p = tdim c /\
     exists l, length l = nvert c /\ list_sum l = n /\ affine_comb (map (fun a => INR a / INR n) l) vs p) /\
  (forall p k e, In (p, (k, e)) dofs -> exists E, entity_is r k e E /\
     in_interior (map (fun i => nth i vs []) E) p).
Proof.
  intros c vs r n Hc Hp HD Hr Hn. eexists. split.
  { apply (lagrange_dofs_closed r (tdim c)); [apply (good_simplex c vs); assumption|exact Hn]. }
  destruct (points_nodup c vs r n Hc Hp Hr HD Hn) as [ND IN]. split; [exact ND|]. split.
  - intros p. rewrite IN. destruct Hp as [Lv Fv]. split.
    + intros (l & Ll & Sl & ->). split; [apply wpoint_length|]. exists l. split; [exact Ll|]. split; [exact Sl|].
      apply wpoint_affine; [exact Hn|congruence|exact Sl|]. rewrite wpoint_length. reflexivity.
    + intros (Lp & l & Ll & Sl & A). exists l. split; [exact Ll|]. split; [exact Sl|].
      apply wpoint_affine in A; [|exact Hn|congruence|exact Sl]. rewrite Lp in A. exact A.
  - intros p k e H. apply (points_located c vs r (tdim c) n p k e Hc Hp Hr Hn H).
Qed.
Print Assumptions C19_lagrange_points.

(** A polynomial of degree at most n that vanishes at all the points is zero; there are as many points as
    polynomials in the element's set. *)
Theorem C19_lagrange_unisolvent : forall c vs r n, simplex c -> points (nvert c) (tdim c) vs -> map_det c vs <> 0 ->
  make_reference c vs = Ok r -> (1 <= n)%nat ->
  exists dofs poly, lagrange_dofs r n "equispaced" = Ok dofs /\ lagrange_poly r n = Ok poly /\ length dofs = length poly /\
  forall f, poly_space (fun m => length m = tdim c /\ (mdeg m <= n)%nat) f ->
    (forall p ke, In (p, ke) dofs -> f (env_of p) = 0) -> forall v, f v = 0.
Proof.
  intros c vs r n Hc Hp HD Hr Hn.
  assert (Td : (1 <= tdim c <= 3)%nat) by (destruct Hc as [->|[->| ->]]; simpl; lia).
  assert (T : r_type r = c).
  { destruct Hc as [->|[->| ->]]; simpl in Hr; repeat (destruct vs as [|? vs]; try discriminate); injection Hr as <-; reflexivity. }
  destruct (polynomial_set_1d_ok (tdim c) n Td) as (poly & Hq & _). eexists. exists poly. split.
  { apply (lagrange_dofs_closed r (tdim c)); [apply (good_simplex c vs); assumption|exact Hn]. }
  split; [unfold lagrange_poly; rewrite T; exact Hq|]. split; [exact (closed_count c vs r n poly _ Hc Hp Hr Hn Hq)|].
  intros f Hf Z. exact (lagrange_zero c vs r n f Hc Hp Hr HD Hn Hf Z).
Qed.
Print Assumptions C19_lagrange_unisolvent.

(** Conformity: the values at the points on the closure of a sub-entity (the points of its own sub-entities, whose
    vertices are among its vertices) determine the polynomial on that sub-entity. *)
Theorem C19_lagrange_traces : forall c vs r n k e E, simplex c -> points (nvert c) (tdim c) vs ->
  make_reference c vs = Ok r -> (1 <= n)%nat -> entity_is r k e E ->
  exists dofs, lagrange_dofs r n "equispaced" = Ok dofs /\
  forall f, poly_space (fun m => length m = tdim c /\ (mdeg m <= n)%nat) f ->
    (forall p k' e' E', In (p, (k', e')) dofs -> entity_is r k' e' E' -> incl E' E -> f (env_of p) = 0) ->
    forall p, length p = tdim c -> in_affine_hull (map (fun i => nth i vs []) E) p -> f (env_of p) = 0.
Proof.
  intros c vs r n k e E Hc Hp Hr Hn HE. eexists. split.
  { apply (lagrange_dofs_closed r (tdim c)); [apply (good_simplex c vs); assumption|exact Hn]. }
  intros f Hf Z p Lp HH.
  pose proof (trace_zero c vs r (tdim c) n k e E f Hc Hp Hr Hn HE Hf Z) as T.
  destruct E as [|e0 rest].
  - destruct HH as (w & L & S & _). destruct w; [unfold sumR in S; simpl in S; lra|discriminate].
  - destruct (hull_param vs e0 rest p HH) as (w & Hw). rewrite <- (T w). apply (degree_local (tdim c) n f _ _ Hf).
    intros j Hj. rewrite Hw by lia. reflexivity.
Qed.
Print Assumptions C19_lagrange_traces.

(** get_basis_functions() succeeds; basis function j is 1 at point j and 0 at the others, is a polynomial of degree
    at most n, and every such polynomial is the combination of the basis functions with its values at the points. *)
Theorem C19_lagrange_basis : forall c vs r n, simplex c -> points (nvert c) (tdim c) vs -> map_det c vs <> 0 ->
  make_reference c vs = Ok r -> (1 <= n)%nat ->
  exists dofs phi, lagrange_dofs r n "equispaced" = Ok dofs /\ lagrange_basis_functions r n "equispaced" = Ok phi /\
  length phi = length dofs /\
  (forall i j, (i < length dofs)%nat -> (j < length dofs)%nat ->
     nth j phi (fun _ => 0) (env_of (fst (nth i dofs ([], (0, 0)%nat)))) = if (i =? j)%nat then 1 else 0) /\
  (forall f, In f phi -> poly_space (fun m => length m = tdim c /\ (mdeg m <= n)%nat) f) /\
  (forall f, poly_space (fun m => length m = tdim c /\ (mdeg m <= n)%nat) f -> forall v,
     f v = sum (length dofs) (fun i => f (env_of (fst (nth i dofs ([], (0, 0)%nat)))) * nth i phi (fun _ => 0) v)).
Proof.
  intros c vs r n Hc Hp HD Hr Hn.
  destruct (C19_lagrange_unisolvent c vs r n Hc Hp HD Hr Hn) as (dofs & poly & H1 & H2 & H3 & H4).
  assert (Td : (1 <= tdim c <= 3)%nat) by (destruct Hc as [->|[->| ->]]; simpl; lia).
  assert (T : r_type r = c).
  { destruct Hc as [->|[->| ->]]; simpl in Hr; repeat (destruct vs as [|? vs]; try discriminate); injection Hr as <-; reflexivity. }
  destruct (polynomial_set_1d_ok (tdim c) n Td) as (poly' & Hq & ND & Hin & _).
  unfold lagrange_poly in H2. rewrite T, Hq in H2. injection H2 as <-.
  destruct (point_element (tdim c) (fun m => length m = tdim c /\ (mdeg m <= n)%nat) poly' dofs ([], (0, 0)%nat) ND Hin
    (fun m H => proj1 H) H3 H4) as (phi & P1 & P2 & P3 & P4 & P5).
  exists dofs, phi. split; [exact H1|]. split.
  { unfold lagrange_basis_functions, lagrange_poly. rewrite H1, T, Hq. exact P1. }
  split; [exact P2|]. split; [exact P3|]. split; [exact P4|exact P5].
Qed.
Print Assumptions C19_lagrange_basis.

(** Order zero: one point, inside the cell; the basis function is the constant one. *)
Theorem C19_lagrange_order_zero : forall c vs r, simplex c -> points (nvert c) (tdim c) vs -> make_reference c vs = Ok r ->
  forall variant, variant <> "legendre"%string -> exists p phi, lagrange_dofs r 0 variant = Ok [(p, (tdim c, 0%nat))] /\
    in_interior vs p /\ lagrange_basis_functions r 0 variant = Ok [phi] /\ forall v, phi v = 1.
Proof.
  intros c vs r Hc Hp Hr variant _.
  assert (T : r_type r = c).
  { destruct Hc as [->|[->| ->]]; simpl in Hr; repeat (destruct vs as [|? vs]; try discriminate); injection Hr as <-; reflexivity. }
  assert (Q : exists p, get_point r (repeat (1 / INR (tdim c + 1)) (tdim c)) = Ok p /\ in_interior vs p).
  { destruct Hp as [L F]. unfold nvert in L.
    destruct Hc as [->|[->| ->]]; simpl in L;
      repeat (destruct vs as [|? vs]; [discriminate L|]); (destruct vs; [|discriminate L]); injection Hr as <-;
      repeat rewrite Forall_cons_iff in F; decompose [and] F; clear F; cbn [tdim] in *;
      (eexists; split; [apply get_point_place; reflexivity|]); cbn [r_origin r_axes].
    - exists [1/2; 1/2]. split; [|repeat constructor; lra]. split; [reflexivity|]. split; [unfold sumR; simpl; lra|].
      match goal with |- context [place ?o ?a ?x] => destruct (place_spec 1 a x o) as [PL PN] end;
        [assumption|repeat (apply Forall_cons; [apply vsub_length; assumption|]); apply Forall_nil|reflexivity|].
      intros j Hj. rewrite PL in Hj. rewrite (PN j Hj). unfold lin, sumR. cbn [repeat combine map fst snd fold_right].
      rewrite !(vsub_nth _ _ 1 j) by assumption. simpl (INR _). field.
    - exists [1/3; 1/3; 1/3]. split; [|repeat constructor; lra]. split; [reflexivity|]. split; [unfold sumR; simpl; lra|].
      match goal with |- context [place ?o ?a ?x] => destruct (place_spec 2 a x o) as [PL PN] end;
        [assumption|repeat (apply Forall_cons; [apply vsub_length; assumption|]); apply Forall_nil|reflexivity|].
      intros j Hj. rewrite PL in Hj. rewrite (PN j Hj). unfold lin, sumR. cbn [repeat combine map fst snd fold_right].
      rewrite !(vsub_nth _ _ 2 j) by assumption. simpl (INR _). field.
    - exists [1/4; 1/4; 1/4; 1/4]. split; [|repeat constructor; lra]. split; [reflexivity|]. split; [unfold sumR; simpl; lra|].
      match goal with |- context [place ?o ?a ?x] => destruct (place_spec 3 a x o) as [PL PN] end;
        [assumption|repeat (apply Forall_cons; [apply vsub_length; assumption|]); apply Forall_nil|reflexivity|].
      intros j Hj. rewrite PL in Hj. rewrite (PN j Hj). unfold lin, sumR. cbn [repeat combine map fst snd fold_right].
      rewrite !(vsub_nth _ _ 3 j) by assumption. simpl (INR _). field. }
  destruct Q as (p & Qp & Qi). exists p.
  assert (D : lagrange_dofs r 0 variant = Ok [(p, (tdim c, 0%nat))]).
  { unfold lagrange_dofs. rewrite T. cbn [Nat.eqb]. rewrite Qp. reflexivity. }
  assert (M : exists m, lagrange_poly r 0 = Ok [m] /\ (forall v, meval m v = 1) /\ length m = tdim c).
  { unfold lagrange_poly. rewrite T. destruct Hc as [->|[->| ->]]; eexists; (split; [reflexivity|]); (split; [|reflexivity]);
      intros v; unfold meval; simpl; ring. }
  destruct M as (m & Hm & Em & Lm).
  destruct (point_element (tdim c) (fun b => b = m) [m] [(p, (tdim c, 0%nat))] ([], (0, 0)%nat)) as (phi & P1 & P2 & P3 & P4 & P5).
  - repeat constructor. intros [].
  - intros b. simpl. split; [intros [->|[]]; reflexivity|intros ->; auto].
  - intros b ->. exact Lm.
  - reflexivity.
  - intros f (q & Hq & E) Z v.
    assert (K : forall v w, f v = f w).
    { intros a b. rewrite !E. clear - Hq Em. induction q as [|[u b'] q IH]; simpl; [reflexivity|].
      apply Forall_cons_iff in Hq. destruct Hq as [Hb Hq]. simpl in Hb. subst. rewrite IH by exact Hq. rewrite !Em. reflexivity. }
    rewrite (K v (env_of p)). apply (Z p (tdim c, 0%nat)). left; reflexivity.
  - destruct phi as [|f [|g phi]]; try discriminate P2. exists f. split; [exact D|]. split; [exact Qi|]. split.
    + unfold lagrange_basis_functions. rewrite D, Hm. exact P1.
    + intros v. specialize (P5 (fun _ => 1)). simpl in P5.
      assert (PS : poly_space (fun b => b = m) (fun _ => 1)).
      { apply (poly_space_ext _ (meval m)); [exact Em|]. apply poly_space_mono. reflexivity. }
      specialize (P5 PS v). lra.
Qed.
Print Assumptions C19_lagrange_order_zero.

Example C19_case : exists r dofs phi,
  make_reference CTriangle [[1; 0]; [3; 1]; [1; 4]] = Ok r /\ map_det CTriangle [[1; 0]; [3; 1]; [1; 4]] <> 0 /\
  lagrange_dofs r 3 "equispaced" = Ok dofs /\ length dofs = 10%nat /\
  In ([5/3; 5/3], (2, 0)%nat) dofs /\ In ([7/3; 2], (1, 0)%nat) dofs /\
  lagrange_basis_functions r 3 "equispaced" = Ok phi.
Proof.
  assert (P : points (nvert CTriangle) (tdim CTriangle) [[1; 0]; [3; 1]; [1; 4]]) by (split; [reflexivity|repeat constructor]).
  assert (D : map_det CTriangle [[1; 0]; [3; 1]; [1; 4]] <> 0) by (unfold map_det, edge_det2, co; simpl; lra).
  destruct (make_reference CTriangle [[1; 0]; [3; 1]; [1; 4]]) as [r|] eqn:Hr; [|discriminate].
  destruct (C19_lagrange_basis CTriangle _ r 3 (or_intror (or_introl eq_refl)) P D Hr ltac:(lia)) as (dofs & phi & H1 & H2 & _).
  exists r, dofs, phi. split; [reflexivity|]. split; [exact D|]. split; [exact H1|].
  assert (E : dofs = closed_dofs r (simplex_tuples 3) (lagrange_point r 3)).
  { pose proof (lagrange_dofs_closed r 2 3 (good_simplex CTriangle _ r 2 (or_intror (or_introl eq_refl)) P Hr) ltac:(lia)) as E.
    rewrite H1 in E. injection E as ->. reflexivity. }
  subst dofs. injection Hr as <-. split; [reflexivity|]. split; [|split; [|exact H2]].
  - apply in_closed_dofs. right. split; [lia|]. split; [cbn; lia|]. exists [1; 1]%nat. split; [cbn; auto|].
    unfold lagrange_point, ent_of, place, frac, vsub. cbn -[IZR INR]. replace (INR 1) with 1 by reflexivity. replace (INR 3) with 3 by (simpl; lra). match goal with |- [?a; ?b] = [?c; ?d] => replace c with a by field; replace d with b by field; reflexivity end.
  - apply in_closed_dofs. right. split; [lia|]. split; [cbn; lia|]. exists [1]%nat. split; [cbn; auto|].
    unfold lagrange_point, ent_of, place, frac, vsub. cbn -[IZR INR]. replace (INR 1) with 1 by reflexivity. replace (INR 3) with 3 by (simpl; lra). match goal with |- [?a; ?b] = [?c; ?d] => replace c with a by field; replace d with b by field; reflexivity end.
Qed.
