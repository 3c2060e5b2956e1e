(** Properties C46 (geometric predicates) and C67 (intersection of cells). *)
From Coq Require Import Reals ZArith Arith Bool Lia Lra List.
From Verif Require Import Base ReferencesModel ReferencesSpec ReferencesGeometry GeometryModel GeometryProofs
  IntersectionProofs.
Import ListNotations.
Local Open Scope R_scope.

(** * C46 *)

(** For exact coordinates the predicates for intervals, triangles and tetrahedra answer True exactly on the
    convex hull of the vertices, whatever the orientation; a degenerate cell raises an exception. *)
Theorem C46_simplices p vs :
  (points 2 1 vs -> length p = 1%nat ->
     (co vs 0 0 <> co vs 1 0 -> decides (point_in_interval false p vs) (in_hull vs p)) /\
     (co vs 0 0 = co vs 1 0 -> point_in_interval false p vs = Err TypeError)) /\
  (points 3 2 vs -> length p = 2%nat ->
     (edge_det2 vs 1 2 <> 0 -> decides (point_in_triangle false p vs) (in_hull vs p)) /\
     (edge_det2 vs 1 2 = 0 -> point_in_triangle false p vs = Err TypeError)) /\
  (points 4 3 vs -> length p = 3%nat ->
     (edge_det3 vs 1 2 3 <> 0 -> decides (point_in_tetrahedron false p vs) (in_hull vs p)) /\
     (edge_det3 vs 1 2 3 = 0 -> point_in_tetrahedron false p vs = Err TypeError)).
Proof.
  split; [|split]; intros Hv Hp; split; intros Hd.
  - apply interval_decides; assumption.
  - apply interval_degenerate; assumption.
  - apply triangle_decides; assumption.
  - apply triangle_degenerate; assumption.
  - apply tetrahedron_decides; assumption.
  - apply tetrahedron_degenerate; assumption.
Qed.
Print Assumptions C46_simplices.

(** A clockwise triangle that is not the reference one, and a point on its boundary. *)
Example C46_simplices_example : point_in_triangle false [1; 1] [[0; 0]; [1; 2]; [1; 0]] = Ok true.
Proof.
  destruct (C46_simplices [1; 1] [[0; 0]; [1; 2]; [1; 0]]) as (_ & H & _).
  destruct H as [H _].
  - split; [reflexivity|]. repeat constructor.
  - reflexivity.
  - destruct H as [b [-> Hb]]; [unfold edge_det2, co; simpl; lra|]. f_equal. apply Hb.
    exists [0; 1 / 2; 1 / 2]. split; [split; [reflexivity|]; split|].
    + unfold sumR. simpl. lra.
    + intros [|[|j]] Hj; [| |simpl in Hj; lia]; unfold sumR; simpl; lra.
    + repeat apply Forall_cons; try apply Forall_nil; lra.
Qed.

(** Full statement: point_in_quadrilateral is True exactly on the sub-cell.  Proved for convex cells whose
    vertices 0, 1, 3, 2 run anticlockwise; for clockwise ones it is false
    ([C46_clockwise_quadrilateral_refuted]). *)
Theorem C46_point_in_quadrilateral_partial p vs : points 4 2 vs -> length p = 2%nat -> convex_quad 1 vs ->
  decides (point_in_quadrilateral false p vs) (in_hull vs p).
Proof. intros. apply quad_decides; assumption. Qed.
Print Assumptions C46_point_in_quadrilateral_partial.

(** A trapezium that is no parallelogram. *)
Example C46_quadrilateral_example : point_in_quadrilateral false [1; 1] [[0; 0]; [3; 0]; [0; 1]; [2; 1]] = Ok true.
Proof.
  destruct (C46_point_in_quadrilateral_partial [1; 1] [[0; 0]; [3; 0]; [0; 1]; [2; 1]]) as [b [-> Hb]].
  - split; [reflexivity|]. repeat constructor.
  - reflexivity.
  - unfold convex_quad, orient2. simpl. lra.
  - f_equal. apply Hb. exists [0; 0; 1 / 2; 1 / 2]. split; [split; [reflexivity|]; split|].
    + unfold sumR. simpl. lra.
    + intros [|[|j]] Hj; [| |simpl in Hj; lia]; unfold sumR; simpl; lra.
    + repeat apply Forall_cons; try apply Forall_nil; lra.
Qed.

(** If the vertices run clockwise every point is rejected, the points of the cell included. *)
Theorem C46_clockwise_quadrilateral_refuted :
  (forall p vs, points 4 2 vs -> length p = 2%nat -> convex_quad (-1) vs ->
     point_in_quadrilateral false p vs = Ok false) /\
  exists p vs, points 4 2 vs /\ length p = 2%nat /\ convex_quad (-1) vs /\ in_interior vs p /\
    point_in_quadrilateral false p vs = Ok false.
Proof.
  split; [intros; apply quad_clockwise; assumption|].
  exists [1 / 2; 1 / 2], [[0; 0]; [0; 1]; [1; 0]; [1; 1]].
  assert (Hp : points 4 2 [[0; 0]; [0; 1]; [1; 0]; [1; 1]]) by (split; [reflexivity|repeat constructor]).
  assert (Hc : convex_quad (-1) [[0; 0]; [0; 1]; [1; 0]; [1; 1]]) by (unfold convex_quad, orient2; simpl; lra).
  split; [exact Hp|]. split; [reflexivity|]. split; [exact Hc|]. split.
  - exists [1 / 4; 1 / 4; 1 / 4; 1 / 4]. split; [split; [reflexivity|]; split|].
    + unfold sumR. simpl. lra.
    + intros [|[|j]] Hj; [| |simpl in Hj; lia]; unfold sumR; simpl; lra.
    + repeat apply Forall_cons; try apply Forall_nil; lra.
  - apply quad_clockwise; [exact Hp|exact Hc|reflexivity].
Qed.
Print Assumptions C46_clockwise_quadrilateral_refuted.

(** For Float coordinates (computed without rounding) every point of the cell is still accepted. *)
Theorem C46_floats_accept p vs :
  (point_in_interval false p vs = Ok true -> point_in_interval true p vs = Ok true) /\
  (point_in_triangle false p vs = Ok true -> point_in_triangle true p vs = Ok true) /\
  (point_in_quadrilateral false p vs = Ok true -> point_in_quadrilateral true p vs = Ok true) /\
  (point_in_tetrahedron false p vs = Ok true -> point_in_tetrahedron true p vs = Ok true).
Proof. apply floats_accept. Qed.
Print Assumptions C46_floats_accept.

Example C46_floats_example : point_in_triangle true [1; 1] [[0; 0]; [1; 2]; [1; 0]] = Ok true.
Proof. apply C46_floats_accept. exact C46_simplices_example. Qed.

(** * C67 *)

(** The vertices have as many coordinates as the origin. *)
Definition cell_points (r : reference) : Prop := Forall (fun v => length v = gdim r) (r_vertices r).

(** The membership test of the cell is exact (C31 shows this for the default cells and triangles of the
    plane). *)
Definition exact_membership (r : reference) : Prop :=
  forall p, length p = gdim r -> (contains r p = Ok true <-> in_hull (r_vertices r) p).

Lemma separated_by_edge_disjoint c1 c2 es x : cell_points c1 -> length x = gdim c1 ->
  separated_by_edge c1 c2 es = Ok true ->
  in_interior (r_vertices c1) x -> in_interior (r_vertices c2) x -> False.
Proof.
  intros Hc Hx. induction es as [|e es IH]; simpl; [discriminate|].
  destruct (get e 0) as [i|]; cbn [rbind]; [|discriminate]. destruct (get e 1) as [j|]; cbn [rbind]; [|discriminate].
  destruct (get (r_vertices c1) i) as [p|]; cbn [rbind]; [|discriminate].
  destruct (get (r_vertices c1) j) as [q|] eqn:Eq; cbn [rbind]; [|discriminate].
  destruct (which_side (r_vertices c1) p q) as [d1|] eqn:E1; cbn [rbind]; [|discriminate].
  destruct (which_side (r_vertices c2) p q) as [d2|] eqn:E2; cbn [rbind]; [|discriminate].
  destruct (opposite d1 d2) eqn:Eo; [|apply IH]. intros _. apply (opposite_disjoint _ _ p q d1 d2 x E1 E2 Eo).
  unfold get in Eq. destruct (nth_error (r_vertices c1) j) eqn:En; [|discriminate]. injection Eq as ->.
  apply nth_error_In in En. unfold cell_points in Hc. rewrite Forall_forall in Hc. rewrite (Hc q En). lia.
Qed.

Lemma normal_length r n : normal r = Ok n -> (length n <= 3)%nat.
Proof.
  unfold normal, vcross. destruct (tdim (r_type r)) as [|[|[|]]]; try discriminate;
  destruct (gdim r) as [|[|[|[|]]]]; try discriminate; destruct (r_axes r) as [|a [|b [|]]]; try discriminate.
  - intros H. injection H as <-. unfold vnormalise. rewrite map_length. simpl. lia.
  - destruct a as [|? [|? [|? [|]]]]; try discriminate. destruct b as [|? [|? [|? [|]]]]; try discriminate.
    intros H. injection H as <-. unfold vnormalise. simpl. lia.
Qed.

Lemma separated_by_face_disjoint c1 c2 l x : (3 <= length x)%nat ->
  separated_by_face c1 c2 l = Ok true ->
  in_interior (r_vertices c1) x -> in_interior (r_vertices c2) x -> False.
Proof.
  intros Hx. induction l as [|i l IH]; simpl; [discriminate|].
  destruct (sub_entity c1 2 i false) as [face|]; cbn [rbind]; [|discriminate].
  destruct (normal face) as [n|] eqn:En; cbn [rbind]; [|discriminate].
  destruct (which_side (r_vertices c1) (midpoint face) n) as [d1|] eqn:E1; cbn [rbind]; [|discriminate].
  destruct (which_side (r_vertices c2) (midpoint face) n) as [d2|] eqn:E2; cbn [rbind]; [|discriminate].
  destruct (opposite d1 d2) eqn:Eo; [|apply IH]. intros _. apply (opposite_disjoint _ _ (midpoint face) n d1 d2 x E1 E2 Eo).
  apply normal_length in En. lia.
Qed.

Lemma separates_disjoint c1 c2 x : cell_points c1 -> length x = gdim c1 -> separates c1 c2 = Ok true ->
  in_interior (r_vertices c1) x -> in_interior (r_vertices c2) x -> False.
Proof.
  intros Hc Hx. unfold separates.
  destruct (if Nat.eqb (gdim c1) 2 then separated_by_edge c1 c2 (edges (r_type c1)) else Ok false) as [[]|] eqn:E;
    cbn [rbind]; try discriminate.
  - intros _. destruct (Nat.eqb (gdim c1) 2); [|discriminate]. exact (separated_by_edge_disjoint c1 c2 _ x Hc Hx E).
  - destruct (Nat.eqb (gdim c1) 3) eqn:E3; [|discriminate]. apply Nat.eqb_eq in E3.
    destruct (sub_entity_count c1 2) as [n|]; cbn [rbind]; [|discriminate]. apply separated_by_face_disjoint. lia.
Qed.

(** If intersection returns None, the two cells have no interior point in common. *)
Theorem C67_none_means_disjoint r1 r2 x : cell_points r1 -> cell_points r2 -> length x = gdim r1 ->
  intersection r1 r2 = Ok None -> ~ (in_interior (r_vertices r1) x /\ in_interior (r_vertices r2) x).
Proof.
  intros H1 H2 Hx. unfold intersection. destruct (Nat.eqb (gdim r1) (gdim r2)) eqn:E; cbn [negb]; [|discriminate].
  apply Nat.eqb_eq in E.
  destruct (contained_in r1 r2) as [[]|]; cbn [rbind]; try discriminate.
  destruct (contained_in r2 r1) as [[]|]; cbn [rbind]; try discriminate.
  destruct (separates r1 r2) as [[]|] eqn:S1; cbn [rbind]; try discriminate.
  - intros _ [I1 I2]. exact (separates_disjoint r1 r2 x H1 Hx S1 I1 I2).
  - destruct (separates r2 r1) as [[]|] eqn:S2; cbn [rbind]; try discriminate.
    intros _ [I1 I2]. exact (separates_disjoint r2 r1 x H2 ltac:(congruence) S2 I2 I1).
Qed.
Print Assumptions C67_none_means_disjoint.

Lemma all_contained_spec c vs : all_contained c vs = Ok true -> forall v, In v vs -> contains c v = Ok true.
Proof.
  induction vs as [|v vs IH]; simpl; intros H u [].
  - subst. destruct (contains c u) as [[]|]; cbn [rbind] in H; try discriminate. reflexivity.
  - destruct (contains c v) as [[]|]; cbn [rbind] in H; try discriminate. auto.
Qed.

Lemma contained_hull c1 c2 x : cell_points c1 -> exact_membership c2 -> gdim c1 = gdim c2 ->
  contained_in c1 c2 = Ok true -> length x = gdim c1 ->
  in_hull (r_vertices c1) x -> in_hull (r_vertices c2) x.
Proof.
  intros Hc Hm Hg H Hx. apply (hull_convex _ _ (gdim c1)); [exact Hc|exact Hx|].
  intros u Hu. unfold cell_points in Hc. rewrite Forall_forall in Hc. apply Hm; [rewrite <- Hg; apply Hc; exact Hu|].
  apply (all_contained_spec c2 (r_vertices c1)); [|exact Hu]. unfold contained_in in H.
  destruct (all_contained c2 (r_vertices c1)) as [b|[]]; try discriminate. exact H.
Qed.

(** Full statement: if intersection returns a cell, that cell is the intersection of the two.  Proved for
    cells with an exact membership test; missing: other cells, where it is false
    ([C67_tetrahedra_refuted]). *)
Theorem C67_some_is_the_intersection_partial r1 r2 r : cell_points r1 -> cell_points r2 ->
  exact_membership r1 -> exact_membership r2 -> intersection r1 r2 = Ok (Some r) ->
  (r = r1 \/ r = r2) /\
  forall x, length x = gdim r1 ->
    (in_hull (r_vertices r) x <-> in_hull (r_vertices r1) x /\ in_hull (r_vertices r2) x).
Proof.
  intros H1 H2 M1 M2. unfold intersection. destruct (Nat.eqb (gdim r1) (gdim r2)) eqn:E; cbn [negb]; [|discriminate].
  apply Nat.eqb_eq in E.
  destruct (contained_in r1 r2) as [[]|] eqn:C1; cbn [rbind]; try discriminate.
  { intros H. injection H as <-. split; [auto|]. intros x Hx. split; [|tauto]. intros Hh. split; [exact Hh|].
    exact (contained_hull r1 r2 x H1 M2 E C1 Hx Hh). }
  destruct (contained_in r2 r1) as [[]|] eqn:C2; cbn [rbind]; try discriminate.
  { intros H. injection H as <-. split; [auto|]. intros x Hx. split; [|tauto]. intros Hh. split; [|exact Hh].
    exact (contained_hull r2 r1 x H2 M1 (eq_sym E) C2 ltac:(congruence) Hh). }
  destruct (separates r1 r2) as [[]|]; cbn [rbind]; try discriminate.
  destruct (separates r2 r1) as [[]|]; cbn [rbind]; discriminate.
Qed.
Print Assumptions C67_some_is_the_intersection_partial.

(** The hypotheses hold for the default cells and for all triangles of the plane. *)
Lemma exact_default c : match c with CDualPolygon _ => False | _ => True end -> c <> CPoint ->
  cell_points (default c) /\ exact_membership (default c).
Proof.
  intros Hc Hp. assert (Hv : gdim (default c) = tdim c /\ r_vertices (default c) = reference_vertices c).
  { destruct c; try contradiction; split; reflexivity. }
  destruct Hv as [Hg Hv]. split.
  - unfold cell_points. rewrite Hg, Hv. destruct c; try contradiction; repeat constructor.
  - intros p Hl. rewrite Hv. apply contains_default_hull; [exact Hc|]. rewrite <- Hg. exact Hl.
Qed.

Lemma exact_triangle vs r : points 3 2 vs -> edge_det2 vs 1 2 <> 0 -> make_reference CTriangle vs = Ok r ->
  cell_points r /\ exact_membership r.
Proof.
  intros Hv Hd Hr. pose proof Hr as Hr'. pose proof Hv as Hv'. destruct Hv' as [Hl Hf].
  destruct vs as [|v0 [|v1 [|v2 [|]]]]; try discriminate. cbn in Hr'. injection Hr' as <-.
  assert (Hg : length v0 = 2%nat) by (inversion_clear Hf; assumption).
  split.
  - unfold cell_points, gdim. cbn [r_vertices r_origin]. rewrite Hg. exact Hf.
  - intros p Hp. unfold gdim in Hp. cbn [r_origin] in Hp. rewrite Hg in Hp.
    destruct (contains_triangle [v0; v1; v2] p _ Hv Hd Hp Hr) as [b [Eb Hb]]. cbn [r_vertices]. rewrite Eb, <- Hb.
    split; [intros H; injection H as H; exact H|intros ->; reflexivity].
Qed.

Definition inner_triangle : reference :=
  {| r_type := CTriangle; r_vertices := [[0; 0]; [1 / 2; 0]; [0; 1 / 2]]; r_origin := [0; 0];
     r_axes := [[1 / 2 - 0; 0 - 0]; [0 - 0; 1 / 2 - 0]] |}.
Definition next_triangle : reference :=
  {| r_type := CTriangle; r_vertices := [[1; 0]; [1; 1]; [0; 1]]; r_origin := [1; 0];
     r_axes := [[1 - 1; 1 - 0]; [0 - 1; 1 - 0]] |}.

Lemma inner_exact : cell_points inner_triangle /\ exact_membership inner_triangle.
Proof.
  apply (exact_triangle [[0; 0]; [1 / 2; 0]; [0; 1 / 2]]);
    [split; [reflexivity|repeat constructor]|unfold edge_det2, co; cbn [nth]; lra|reflexivity].
Qed.
Lemma next_exact : cell_points next_triangle /\ exact_membership next_triangle.
Proof.
  apply (exact_triangle [[1; 0]; [1; 1]; [0; 1]]);
    [split; [reflexivity|repeat constructor]|unfold edge_det2, co; cbn [nth]; lra|reflexivity].
Qed.

Ltac in_the_hull ws :=
  exists ws; (split; [split; [reflexivity|]; split|]);
  [unfold sumR; simpl; lra
  |intros [|[|[|j]]] Hj; try (simpl in Hj; lia); unfold sumR; simpl; lra
  |repeat apply Forall_cons; try apply Forall_nil; lra].

(** The triangle (0,0), (1/2,0), (0,1/2) is inside the default triangle. *)
Example C67_some_example : intersection inner_triangle (default CTriangle) = Ok (Some inner_triangle).
Proof.
  assert (D : forall p, length p = 2%nat -> in_hull [[0; 0]; [1; 0]; [0; 1]] p -> contains (default CTriangle) p = Ok true).
  { intros p Hp Hh. apply contains_default_hull; [exact I|exact Hp|exact Hh]. }
  unfold intersection, contained_in. change (gdim inner_triangle) with 2%nat. change (gdim (default CTriangle)) with 2%nat.
  cbn [Nat.eqb negb inner_triangle r_vertices all_contained].
  rewrite (D [0; 0]), (D [1 / 2; 0]), (D [0; 1 / 2]); [reflexivity|reflexivity| |reflexivity| |reflexivity|].
  - in_the_hull [1 / 2; 0; 1 / 2].
  - in_the_hull [1 / 2; 1 / 2; 0].
  - in_the_hull [1; 0; 0].
Qed.

Lemma contains_false r p : exact_membership r -> length p = gdim r -> (exists b, contains r p = Ok b) ->
  ~ in_hull (r_vertices r) p -> contains r p = Ok false.
Proof. intros Hm Hp [b Hb] Hn. rewrite Hb. destruct b; [|reflexivity]. contradiction Hn. apply Hm; assumption. Qed.

Lemma sign_pos a : 0 < a -> sign_of a = Pos.
Proof. intros H. unfold sign_of. destruct (Req_EM_T a 0); [lra|]. destruct (Rlt_dec 0 a); [reflexivity|lra]. Qed.
Lemma sign_neg a : a < 0 -> sign_of a = Neg.
Proof. intros H. unfold sign_of. destruct (Req_EM_T a 0); [lra|]. destruct (Rlt_dec 0 a); [lra|reflexivity]. Qed.
Lemma sign_zero a : a = 0 -> sign_of a = Zero.
Proof. intros H. unfold sign_of. destruct (Req_EM_T a 0); [reflexivity|contradiction]. Qed.

(** The triangle (1,0), (1,1), (0,1) has no interior point in common with it. *)
Example C67_none_example : intersection inner_triangle next_triangle = Ok None.
Proof.
  assert (A : contains next_triangle [0; 0] = Ok false).
  { edestruct (contains_triangle [[1; 0]; [1; 1]; [0; 1]] [0; 0]) as [b [E H]];
      [split; [reflexivity|repeat constructor]|unfold edge_det2, co; cbn [nth]; lra|reflexivity|reflexivity|].
    apply contains_false; [apply next_exact|reflexivity|exists b; exact E|].
    cbn [next_triangle r_vertices]. hull_weights. lra. }
  assert (B : contains inner_triangle [1; 0] = Ok false).
  { edestruct (contains_triangle [[0; 0]; [1 / 2; 0]; [0; 1 / 2]] [1; 0]) as [b [E H]];
      [split; [reflexivity|repeat constructor]|unfold edge_det2, co; cbn [nth]; lra|reflexivity|reflexivity|].
    apply contains_false; [apply inner_exact|reflexivity|exists b; exact E|].
    cbn [inner_triangle r_vertices]. hull_weights. lra. }
  unfold intersection, contained_in. change (gdim inner_triangle) with 2%nat. change (gdim next_triangle) with 2%nat.
  cbn [Nat.eqb negb]. cbn [inner_triangle r_vertices]. fold inner_triangle. cbn [all_contained]. rewrite A. cbn [rbind].
  cbn [next_triangle r_vertices]. fold next_triangle. cbn [all_contained]. rewrite B. cbn [rbind].
  assert (S : separates inner_triangle next_triangle = Ok true).
  { unfold separates. change (gdim inner_triangle) with 2%nat. cbn [Nat.eqb inner_triangle next_triangle r_type edges r_vertices].
    cbn [separated_by_edge get nth_error rbind].
    change (get (r_vertices inner_triangle) 1) with (Ok [1 / 2; 0]).
    change (get (r_vertices inner_triangle) 2) with (Ok [0; 1 / 2]). cbn [rbind].
    unfold which_side. cbn [inner_triangle next_triangle r_vertices].
    repeat (cbn [sides_of]; unfold side_value, get; cbn [length Nat.eqb nth_error rbind rmap option_map]).
    rewrite (sign_neg ((0 - 1 / 2) * (1 / 2 - 0) - (0 - 0) * (0 - 1 / 2))) by lra.
    rewrite (sign_zero ((1 / 2 - 1 / 2) * (1 / 2 - 0) - (0 - 0) * (0 - 1 / 2))) by lra.
    rewrite (sign_zero ((0 - 1 / 2) * (1 / 2 - 0) - (1 / 2 - 0) * (0 - 1 / 2))) by lra.
    rewrite (sign_pos ((1 - 1 / 2) * (1 / 2 - 0) - (0 - 0) * (0 - 1 / 2))) by lra.
    rewrite (sign_pos ((1 - 1 / 2) * (1 / 2 - 0) - (1 - 0) * (0 - 1 / 2))) by lra.
    rewrite (sign_pos ((0 - 1 / 2) * (1 / 2 - 0) - (1 - 0) * (0 - 1 / 2))) by lra.
    reflexivity. }
  rewrite S. reflexivity.
Qed.

Lemma Req_false {A} (a b : R) (u v : A) : a <> b -> (if Req_EM_T a b then u else v) = v.
Proof. intros H. destruct (Req_EM_T a b); [contradiction|reflexivity]. Qed.

(** The tetrahedron (0,0,0), (1,0,0), (0,1,0), (0,0,-1) is returned as its own intersection with
    (0,0,0), (2,0,0), (0,2,0), (0,0,2), although they have no interior point in common. *)
Theorem C67_tetrahedra_refuted : exists r1 r2,
  make_reference CTetrahedron [[0; 0; 0]; [1; 0; 0]; [0; 1; 0]; [0; 0; -1]] = Ok r1 /\
  make_reference CTetrahedron [[0; 0; 0]; [2; 0; 0]; [0; 2; 0]; [0; 0; 2]] = Ok r2 /\
  intersection r1 r2 = Ok (Some r1) /\
  (forall x, length x = 3%nat -> ~ (in_interior (r_vertices r1) x /\ in_interior (r_vertices r2) x)).
Proof.
  eexists. eexists. split; [reflexivity|]. split; [reflexivity|]. split.
  - unfold intersection, contained_in. cbn [gdim r_origin length Nat.eqb negb r_vertices].
    match goal with |- context [all_contained ?r _] => set (r2 := r) end.
    assert (D : forall x y z, 0 <= x -> 0 <= y -> z <= 0 -> x + y + z <= 2 -> contains r2 [x; y; z] = Ok true).
    { intros x y z Hx Hy Hz Hs. unfold contains, is_default, r2. cbn [r_type r_vertices]. destruct (pts_eq_dec _ _) as [E|_].
      { exfalso. injection E. intros. lra. }
      cbn [r_origin r_axes]. unfold get, vsub. cbn [nth_error rbind combine map fst snd].
      unfold matrix3_inv, first3, inv3, det3. cbn [rbind].
      rewrite Req_false by lra. cbn [rbind nth]. unfold vdot. cbn [combine map fst snd fold_left].
      f_equal. repeat (apply andb_true_intro; split); apply rle_iff; lra. }
    clearbody r2. cbn [all_contained]. rewrite !D by lra. reflexivity.
  - intros x Hx [[w [(Hl & Hs & Hc) Hw]] [w' [(Hl' & Hs' & Hc') Hw']]]. cbn [r_vertices] in *.
    pose proof (Hc 2%nat ltac:(lia)) as E. pose proof (Hc' 2%nat ltac:(lia)) as E'.
    destruct w as [|a0 [|a1 [|a2 [|a3 [|]]]]]; try discriminate. destruct w' as [|b0 [|b1 [|b2 [|b3 [|]]]]]; try discriminate.
    unfold sumR in *. cbn [combine map fold_right fst snd nth] in *.
    repeat match goal with H : Forall _ (_ :: _) |- _ => inversion_clear H end. lra.
Qed.
Print Assumptions C67_tetrahedra_refuted.
