(** The families of FamiliesModel on simplices. *)
From Coq Require Import String ZArith Arith Bool Reals Lia List Permutation.
From Verif Require Import Base PolyLib PolySetsModel PolySetsProofs RTNedelecProofs QuadratureModel ReferencesModel
  ReferencesSpec ReferencesProofs MomentsModel ElementModel LagrangeModel LagrangeProofs LagrangeKey LagrangeUnisolvence
  PropertiesLagrange QProofs QDofs PropertiesQ FamiliesModel FamiliesSpec FamiliesMoments FamiliesBuilt.
Import ListNotations.
Local Open Scope string_scope.
Local Open Scope nat_scope.
Local Open Scope list_scope.

Lemma lag k c r n : 1 <= k -> cell_of c r -> built (construct k Lagrange r n "equispaced") (pdim (tdim c) n) c.
Proof. intros Hk H. destruct k as [|k]; [lia|]. apply lagrange_built, H. Qed.
Lemma vlag k c r n : 2 <= k -> cell_of c r ->
  built (construct k VectorLagrange r n "equispaced") (pdim (tdim c) n * tdim c) c.
Proof. intros Hk H. destruct k as [|[|k]]; [lia|lia|]. apply vector_lagrange_built, H. Qed.
Lemma lag_default k c n : 1 <= k -> simplex c -> built (construct k Lagrange (default c) n "equispaced") (pdim (tdim c) n) c.
Proof. intros Hk H. apply lag; [exact Hk|apply cell_of_default, H]. Qed.
Lemma vlag_default k c n : 2 <= k -> simplex c ->
  built (construct k VectorLagrange (default c) n "equispaced") (pdim (tdim c) n * tdim c) c.
Proof. intros Hk H. apply vlag; [exact Hk|apply cell_of_default, H]. Qed.
Lemma lag_interval k n : 1 <= k -> built (construct k Lagrange (default CInterval) n "equispaced") (n + 1) CInterval.
Proof. intros Hk. apply (lag_default k CInterval n Hk). left; reflexivity. Qed.
Lemma lag_triangle k n : 1 <= k -> built (construct k Lagrange (default CTriangle) n "equispaced") (tri (n + 1)) CTriangle.
Proof. intros Hk. apply (lag_default k CTriangle n Hk). right; left; reflexivity. Qed.
Lemma vlag_triangle k n : 2 <= k -> built (construct k VectorLagrange (default CTriangle) n "equispaced") (tri (n + 1) * 2) CTriangle.
Proof. intros Hk. apply (vlag_default k CTriangle n Hk). right; left; reflexivity. Qed.
Lemma vlag_tetrahedron k n : 2 <= k -> built (construct k VectorLagrange (default CTetrahedron) n "equispaced") (tet (n + 1) * 3) CTetrahedron.
Proof. intros Hk. apply (vlag_default k CTetrahedron n Hk). right; right; reflexivity. Qed.

Lemma Hdiv_sized d n : 2 <= d <= 3 -> sized (Hdiv_polynomials d d n) (if d =? 2 then n else tri n).
Proof.
  intros Hd. assert (X : exists l, Hdiv_polynomials d d n = Ok l)
    by (unfold Hdiv_polynomials; rewrite Nat.eqb_refl; destruct d as [|[|[|[|d]]]]; try lia; eexists; reflexivity).
  destruct X as [l E]. exists l. split; [exact E|]. pose proof (tri_closed n).
  destruct (Hdiv_polynomials_length d n l E) as [[-> L]|[-> L]]; cbn [Nat.eqb]; lia.
Qed.
Lemma Hcurl_sized d n : 2 <= d <= 3 -> sized (Hcurl_polynomials d d n) (if d =? 2 then n else n * (n + 2)).
Proof.
  intros Hd. assert (X : exists l, Hcurl_polynomials d d n = Ok l)
    by (unfold Hcurl_polynomials; rewrite Nat.eqb_refl; destruct d as [|[|[|[|d]]]]; try lia; eexists; reflexivity).
  destruct X as [l E]. exists l. split; [exact E|].
  destruct (Hcurl_polynomials_length d n l E) as [[-> L]|[-> L]]; cbn [Nat.eqb]; lia.
Qed.

(** the numbers of polynomials as products *)
Ltac numbers := cbn [tdim Nat.eqb pdim Nat.sub] in *;
  repeat match goal with
  | |- context [tri ?a] => lazymatch goal with H : 2 * tri a = _ |- _ => fail | _ => pose proof (tri_closed a) end
  | |- context [tet ?a] => lazymatch goal with H : 6 * tet a = _ |- _ => fail | _ => pose proof (tet_closed a) end
  | H : context [tri ?a] |- _ => lazymatch goal with H : 2 * tri a = _ |- _ => fail | _ => pose proof (tri_closed a) end
  | H : context [tet ?a] |- _ => lazymatch goal with H : 6 * tet a = _ |- _ => fail | _ => pose proof (tet_closed a) end
  end; try lia; try nia.
Ltac lens := repeat rewrite ?app_length, ?map_length, ?length_range, ?per_direction_length;
  repeat match goal with H : length _ = _ |- _ => rewrite H; clear H end.
Ltac finish := apply built_ciarlet; [lens; numbers|lens; numbers|].

Lemma rt_built k c r n : 3 <= k -> 1 <= n -> c = CTriangle \/ c = CTetrahedron -> cell_of c r ->
  built (construct k RaviartThomas r n "equispaced") (match c with CTriangle => n * (n + 2) | _ => tri n * (n + 3) end) c.
Proof.
  intros Hk Hn Hc C. destruct k as [|k]; [lia|]. pose proof (cell_of_shaped c r C) as S. assert (T := proj1 (proj2 S)).
  cbn [construct]. rewrite T.
  assert (Td : 2 <= tdim c <= 3) by (destruct Hc as [->| ->]; simpl; lia).
  eapply bind_poly; [apply polynomial_vector_sized; lia|]. intros p0 L0.
  eapply bind_poly; [apply Hdiv_sized; lia|]. intros p1 L1.
  destruct n as [|[|n]]; [lia| |]; destruct Hc as [->| ->].
  all: eapply bind_moments; [apply make_by_codimension; [exact S| |]|].
  - eapply (slot_yes k _ _ _ _ _ _ _ _ CInterval 0 _ 3); [exact S|simpl; lia|reflexivity|lia|simpl; lia|apply lag_interval; lia].
  - eapply (slot_no k); [exact S|simpl; lia|simpl; lia].
  - intros ds L F. finish. exact F.
  - eapply (slot_yes k _ _ _ _ _ _ _ _ CTriangle 0 _ 4); [exact S|simpl; lia|reflexivity|lia|simpl; lia|apply lag_triangle; lia].
  - eapply (slot_no k); [exact S|simpl; lia|simpl; lia].
  - intros ds L F. finish. exact F.
  - eapply (slot_yes k _ _ _ _ _ _ _ _ CInterval (Datatypes.S n) _ 3); [exact S|simpl; lia|reflexivity|lia|simpl; lia|apply lag_interval; lia].
  - eapply (slot_yes k _ _ _ _ _ _ _ _ CTriangle n _ 1); [exact S|simpl; lia|reflexivity|lia|simpl; lia|apply vlag_triangle; lia].
  - intros ds L F. finish. exact F.
  - eapply (slot_yes k _ _ _ _ _ _ _ _ CTriangle (Datatypes.S n) _ 4); [exact S|simpl; lia|reflexivity|lia|simpl; lia|apply lag_triangle; lia].
  - eapply (slot_yes k _ _ _ _ _ _ _ _ CTetrahedron n _ 1); [exact S|simpl; lia|reflexivity|lia|simpl; lia|apply vlag_tetrahedron; lia].
  - intros ds L F. finish. exact F.
Qed.

Ltac yes S t m num lem := eapply (slot_yes _ _ _ _ _ _ _ _ _ t m _ num); [exact S|simpl; lia|reflexivity|lia|simpl; lia|apply lem; lia].
Ltac no S := eapply slot_no; [exact S|simpl; lia|simpl; lia].
Ltac fin := let ds := fresh "ds" in let L := fresh "L" in let F := fresh "F" in intros ds L F; finish; exact F.
Ltac above S := apply slot_above; [exact S|simpl; lia].

Lemma n1_built k c r n : 3 <= k -> 1 <= n -> c = CTriangle \/ c = CTetrahedron -> cell_of c r ->
  built (construct k NedelecFirstKind r n "equispaced") (match c with CTriangle => n * (n + 2) | _ => n * tri (n + 2) end) c.
Proof.
  intros Hk Hn Hc C. destruct k as [|k]; [lia|]. pose proof (cell_of_shaped c r C) as S. assert (T := proj1 (proj2 S)).
  cbn [construct]. rewrite T.
  assert (Td : 2 <= tdim c <= 3) by (destruct Hc as [->| ->]; simpl; lia).
  eapply bind_poly; [apply polynomial_vector_sized; lia|]. intros p0 L0.
  eapply bind_poly; [apply Hcurl_sized; lia|]. intros p1 L1.
  destruct n as [|[|[|n]]]; [lia| | |]; destruct Hc as [->| ->].
  all: eapply bind_moments; [apply make_by_dimension|].
  - yes S CInterval 0 3 lag_interval.
  - no S.
  - above S.
  - fin.
  - yes S CInterval 0 6 lag_interval.
  - no S.
  - no S.
  - fin.
  - yes S CInterval 1 3 lag_interval.
  - yes S CTriangle 0 1 vlag_triangle.
  - above S.
  - fin.
  - yes S CInterval 1 6 lag_interval.
  - yes S CTriangle 0 4 vlag_triangle.
  - no S.
  - fin.
  - yes S CInterval (2 + n) 3 lag_interval.
  - yes S CTriangle (1 + n) 1 vlag_triangle.
  - above S.
  - fin.
  - yes S CInterval (2 + n) 6 lag_interval.
  - yes S CTriangle (1 + n) 4 vlag_triangle.
  - yes S CTetrahedron n 1 vlag_tetrahedron.
  - fin.
Qed.
Lemma rt_triangle k n : 3 <= k -> 1 <= n -> built (construct k RaviartThomas (default CTriangle) n "equispaced") (n * (n + 2)) CTriangle.
Proof. intros Hk Hn. apply (rt_built k CTriangle); [exact Hk|exact Hn|tauto|apply cell_of_default; unfold simplex; tauto]. Qed.
Lemma rt_tetrahedron k n : 3 <= k -> 1 <= n -> built (construct k RaviartThomas (default CTetrahedron) n "equispaced") (tri n * (n + 3)) CTetrahedron.
Proof. intros Hk Hn. apply (rt_built k CTetrahedron); [exact Hk|exact Hn|tauto|apply cell_of_default; unfold simplex; tauto]. Qed.
Lemma n1_triangle k n : 3 <= k -> 1 <= n -> built (construct k NedelecFirstKind (default CTriangle) n "equispaced") (n * (n + 2)) CTriangle.
Proof. intros Hk Hn. apply (n1_built k CTriangle); [exact Hk|exact Hn|tauto|apply cell_of_default; unfold simplex; tauto]. Qed.
Lemma n1_tetrahedron k n : 3 <= k -> 1 <= n -> built (construct k NedelecFirstKind (default CTetrahedron) n "equispaced") (n * tri (n + 2)) CTetrahedron.
Proof. intros Hk Hn. apply (n1_built k CTetrahedron); [exact Hk|exact Hn|tauto|apply cell_of_default; unfold simplex; tauto]. Qed.

Lemma n2_built k c r n : 4 <= k -> 1 <= n -> c = CTriangle \/ c = CTetrahedron -> cell_of c r ->
  built (construct k NedelecSecondKind r n "equispaced") (pdim (tdim c) n * tdim c) c.
Proof.
  intros Hk Hn Hc C. destruct k as [|k]; [lia|]. pose proof (cell_of_shaped c r C) as S. assert (T := proj1 (proj2 S)).
  cbn [construct]. rewrite T.
  assert (Td : 2 <= tdim c <= 3) by (destruct Hc as [->| ->]; simpl; lia).
  eapply bind_poly; [apply polynomial_vector_sized; lia|]. intros p0 L0.
  destruct n as [|[|[|n]]]; [lia| | |]; destruct Hc as [->| ->].
  all: eapply bind_moments; [apply make_by_dimension|].
  - yes S CInterval 1 3 lag_interval.
  - no S.
  - above S.
  - fin.
  - yes S CInterval 1 6 lag_interval.
  - no S.
  - no S.
  - fin.
  - yes S CInterval 2 3 lag_interval.
  - yes S CTriangle 1 1 rt_triangle.
  - above S.
  - fin.
  - yes S CInterval 2 6 lag_interval.
  - yes S CTriangle 1 4 rt_triangle.
  - no S.
  - fin.
  - yes S CInterval (3 + n) 3 lag_interval.
  - yes S CTriangle (2 + n) 1 rt_triangle.
  - above S.
  - fin.
  - yes S CInterval (3 + n) 6 lag_interval.
  - yes S CTriangle (2 + n) 4 rt_triangle.
  - yes S CTetrahedron (1 + n) 1 rt_tetrahedron.
  - fin.
Qed.

Lemma default_shaped c : known c -> is_default (default c) = true /\ shaped c (default c).
Proof. intros H. split; [apply is_default_default|apply shaped_default]; exact H. Qed.
Ltac kn := unfold known, simplex in *; intuition congruence.

Lemma bdm_built k c n : 4 <= k -> 1 <= n -> c = CTriangle \/ c = CTetrahedron ->
  built (construct k BDM (default c) n "equispaced") (pdim (tdim c) n * tdim c) c.
Proof.
  intros Hk Hn Hc. destruct k as [|k]; [lia|]. destruct (default_shaped c ltac:(kn)) as [D S]. assert (T := proj1 (proj2 S)).
  cbn [construct]. unfold default_cell. rewrite D, T.
  assert (Td : 2 <= tdim c <= 3) by (destruct Hc as [->| ->]; simpl; lia).
  eapply bind_poly; [apply polynomial_vector_sized; lia|]. intros p0 L0.
  destruct n as [|[|n]]; [lia| |]; destruct Hc as [->| ->].
  all: eapply bind_moments; [apply make_by_codimension; [exact S| |]|].
  - yes S CInterval 1 3 lag_interval.
  - no S.
  - fin.
  - yes S CTriangle 1 4 lag_triangle.
  - no S.
  - fin.
  - yes S CInterval (2 + n) 3 lag_interval.
  - yes S CTriangle (1 + n) 1 n1_triangle.
  - fin.
  - yes S CTriangle (2 + n) 4 lag_triangle.
  - yes S CTetrahedron (1 + n) 1 n1_tetrahedron.
  - fin.
Qed.

Lemma matrix_built k c r n : 2 <= k -> c = CTriangle \/ c = CTetrahedron -> cell_of c r ->
  built (construct k MatrixLagrange r n "equispaced") (pdim (tdim c) n * tdim c ^ 2) c.
Proof.
  intros Hk Hc C. destruct k as [|k]; [lia|]. pose proof (cell_of_shaped c r C) as S. assert (T := proj1 (proj2 S)).
  cbn [construct]. rewrite T. assert (Td : 2 <= tdim c <= 3) by (destruct Hc as [->| ->]; simpl; lia).
  eapply bind_fe; [apply lag; [lia|exact C]|]. intros e L F.
  eapply bind_poly; [apply polynomial_vector_sized; lia|]. intros p0 L0.
  rewrite (proj2 (Nat.eqb_neq (tdim c) 1)) by lia.
  apply built_ciarlet; [exact L0|rewrite per_direction_length, L; reflexivity|apply per_direction_on, F].
Qed.
Lemma symmetric_built k c r n : 2 <= k -> c = CTriangle \/ c = CTetrahedron -> cell_of c r ->
  built (construct k SymmetricMatrixLagrange r n "equispaced") (pdim (tdim c) n * match c with CTriangle => 3 | _ => 6 end) c.
Proof.
  intros Hk Hc C. destruct k as [|k]; [lia|]. pose proof (cell_of_shaped c r C) as S. assert (T := proj1 (proj2 S)).
  cbn [construct]. rewrite T. eapply bind_fe; [apply lag; [lia|exact C]|]. intros e L F.
  destruct Hc as [->| ->]; cbn [tdim] in *; (eapply bind_poly; [apply polynomial_vector_sized; lia|]); intros p0 L0;
    (apply built_ciarlet; [rewrite map_length; exact L0|rewrite per_direction_length, L; reflexivity|apply per_direction_on, F]).
Qed.

(** * Regge and Hellan-Herrmann-Johnson *)
Lemma regge_points_sized c r n edim : c = CTriangle \/ c = CTetrahedron -> shaped c r -> 1 <= edim <= 3 ->
  exists ds, regge_point_dofs r n edim = Ok ds /\
    length ds = length (shape c edim) * (choose edim (n + 2) * match edim with 1 => 1 | 2 => 3 | _ => 6 end) /\
    Forall (fun d => on_cell c (f_entity d)) ds.
Proof.
  intros Hc S Hd. destruct S as (K & T & _ & S). destruct (S edim Hd) as [C G]. unfold regge_point_dofs. rewrite T, C.
  assert (X : exists et, sub_entity_types c edim = Ok et)
    by (destruct edim as [|[|[|[|edim]]]]; try lia; eexists; reflexivity).
  destruct X as [et ->]. cbn [rbind]. rewrite <- list_sum_repeat. apply map_r_collect.
  assert (U : exists t, shape c edim = repeat t (length (shape c edim)) /\
      (length (shape c edim) <> 0 -> length (edges t) = match edim with 1 => 1 | 2 => 3 | _ => 6 end)).
  { destruct Hc as [->| ->]; destruct edim as [|[|[|[|edim]]]]; try lia; cbn [shape repeat length].
    all: first [exists CInterval; split; [reflexivity|reflexivity]|exists CTriangle; split; [reflexivity|reflexivity]
      |exists CTetrahedron; split; [reflexivity|reflexivity]|exists CTriangle; split; [reflexivity|intros H; contradiction]]. }
  destruct U as (t & U & V).
  assert (W : forall e, e < length (shape c edim) -> nth_error (shape c edim) e = Some t).
  { intros e He. rewrite U. apply nth_error_repeat. exact He. }
  assert (Y : forall m off, off + m <= length (shape c edim) -> Forall2 (fun a k => exists ds, 
     rbind (sub_entity r edim a false) (fun entity => Ok (flat_map (fun _ : list nat => map (fun _ : list nat =>
        on "PointInnerProduct" (Some "double_covariant") edim a) (edges (r_type entity)))
        (filter (fun i => list_sum i <? n + 2) (product (repeat (range2 1 (n + 2)) edim))))) = Ok ds /\ length ds = k /\
      Forall (fun d => on_cell c (f_entity d)) ds) (seq off m)
      (repeat (choose edim (n + 2) * match edim with 1 => 1 | 2 => 3 | _ => 6 end) m)).
  { induction m as [|m IH]; intros off Hm; cbn [seq repeat]; constructor; [|apply IH; lia].
    destruct (G off t (W off ltac:(lia))) as (s & Es & Et & _). rewrite Es. cbn [rbind]. rewrite Et. eexists. split; [reflexivity|].
    split.
    - rewrite (length_flat_map_const _ _ (length (edges t))) by (intros; rewrite map_length; reflexivity).
      rewrite V by lia. f_equal. exact (length_simplex_tuples (n + 2) edim).
    - apply Forall_flat_map'. intros i _. apply on_map. rewrite shape_numbers by assumption. lia. }
  apply (Y _ 0). lia.
Qed.

Lemma regge_built k c r n : 1 <= k -> c = CTriangle \/ c = CTetrahedron -> shaped c r ->
  built (construct k Regge r n "point") (pdim (tdim c) n * match c with CTriangle => 3 | _ => 6 end) c.
Proof.
  intros Hk Hc S. destruct k as [|k]; [lia|]. assert (T := proj1 (proj2 S)).
  cbn [construct]. rewrite T. change ("point" =? "point")%string with true. cbv iota.
  eapply (bind_poly _ (pdim (tdim c) n * match c with CTriangle => 3 | _ => 6 end)).
  { destruct Hc as [->| ->]; apply sized_map, polynomial_vector_sized; simpl; lia. }
  intros p0 L0.
  destruct (regge_points_sized c r n 1 Hc S ltac:(lia)) as (d1 & E1 & L1 & F1).
  destruct (regge_points_sized c r n 2 Hc S ltac:(lia)) as (d2 & E2 & L2 & F2).
  destruct (regge_points_sized c r n 3 Hc S ltac:(lia)) as (d3 & E3 & L3 & F3).
  rewrite E1, E2, E3. cbn [rbind]. apply built_ciarlet; [exact L0| |apply Forall_app; split; [exact F1|apply Forall_app; split; assumption]].
  rewrite !app_length, L1, L2, L3. replace (n + 2) with (Datatypes.S (n + 1)) by lia.
  rewrite choose_1. pose proof (choose_2 (n + 1)) as C2. pose proof (choose_3 (n + 1)) as C3.
  replace (n + 1 - 1) with n in * by lia.
  destruct Hc as [->| ->]; cbn [shape repeat length tdim] in *; clear L0 L1 L2 L3; [numbers|].
  revert C2 C3. generalize (choose 2 (Datatypes.S (n + 1))) (choose 3 (Datatypes.S (n + 1))). intros a b C2 C3.
  destruct n as [|n]; [cbn [pdim Nat.add Nat.mul Nat.sub] in *; change (tet 1) with 1 in *; lia|].
  replace (Datatypes.S n + 1 - 2) with n in C3 by lia. numbers.
Qed.

Lemma triangle_regge_integral : forall n k r, n + 2 <= k -> shaped CTriangle r ->
  built (construct k Regge r n "integral") (pdim 2 n * 3) CTriangle.
Proof.
  induction n as [|n IH]; intros k r Hk S; (destruct k as [|k]; [lia|]); assert (T := proj1 (proj2 S)); cbn [construct]; rewrite T;
    change ("integral" =? "point")%string with false; change ("integral" =? "integral")%string with true; cbv iota; cbn [tdim].
  all: (eapply bind_poly; [apply sized_map, polynomial_vector_sized; lia|]); intros p0 L0;
    (eapply bind_fe; [apply lag_interval; lia|]); intros e L _; (eapply bind_count; [exact S|lia|]).
  all: assert (FD : Forall (fun d => on_cell CTriangle (f_entity d)) (flat_map (fun e_n => map (fun _ =>
      on "InnerProductIntegralMoment" (Some "double_covariant") 1 e_n) (fe_dofs e)) (range (length (shape CTriangle 1)))))
    by (apply Forall_flat_map'; intros i Hi; apply in_range in Hi; apply on_map; exact Hi).
  all: assert (LD : length (flat_map (fun e_n => map (fun _ =>
      on "InnerProductIntegralMoment" (Some "double_covariant") 1 e_n) (fe_dofs e)) (range (length (shape CTriangle 1)))) = 3 * length (fe_dofs e))
    by (rewrite (length_flat_map_const _ _ (length (fe_dofs e))) by (intros; apply map_length); reflexivity).
  - cbn [Nat.ltb Nat.leb rbind]. apply built_ciarlet; [exact L0|rewrite app_length, LD, L; cbn [length]; clear; numbers|].
    apply Forall_app; split; [exact FD|constructor].
  - change (0 <? Datatypes.S n) with true. cbv iota.
    eapply bind_moments; [apply make_by_codimension; [exact S|apply slot_none|]|].
    + eapply (slot_yes k _ _ _ _ _ _ _ _ CTriangle n _ 1); [exact S|simpl; lia|reflexivity|lia|simpl; lia|].
      apply IH; [lia|]. apply shaped_default. kn.
    + intros ds Ls F. apply built_ciarlet; [exact L0|rewrite app_length, LD, L, Ls; clear; numbers|apply Forall_app; split; assumption].
Qed.
