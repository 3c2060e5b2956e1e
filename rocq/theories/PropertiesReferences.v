(** Reference cells: maps (C30), membership (C31, C32), limits and volumes (C33), tangents and normals
    (C34), tables (C35), z-orders (C36) and lattices (C37). *)
From Coquelicot Require Import Coquelicot.
From Coq Require Import String Reals Arith Bool Lia Lra Sorted List.
From Verif Require Import Base ReferencesModel ReferencesSpec ReferencesProofs ReferencesGeometry ReferencesTopology ReferencesLattice.
Import ListNotations.
Open Scope R_scope.

(** * C30: maps between cells *)
(** Full claim: every cell type, including the pyramid and cells embedded in a space of higher
    dimension.  Proved: intervals in any dimension, 2D triangles and parallelograms, tetrahedra,
    parallelepipeds and affine prisms, both with get_map_to / get_inverse_map_to on the default cell and
    with the self maps; 3D parallelograms for the self maps.  See the refutation below for the rest. *)
Theorem C30_maps_are_inverse_partial c vs : affine_cell c vs ->
  has_inverse_maps_to c vs /\ has_inverse_self_maps c vs.
Proof. intros H. split; [exact (maps_to_inverse c vs H)|exact (self_maps_inverse c vs H)]. Qed.
Theorem C30_parallelogram_in_3d_partial vs : points 4 3 vs -> parallelogram vs 0 1 2 3 ->
  (edge_minor vs 1 2 0 1 <> 0 \/ edge_minor vs 1 2 0 2 <> 0 \/ edge_minor vs 1 2 1 2 <> 0) ->
  has_inverse_self_maps CQuadrilateral vs.
Proof. exact (quad3_self_maps vs). Qed.
(** The forward map sends vertices to vertices for every cell type, any vertices in any dimension. *)
Theorem C30_vertices_to_vertices c d vs : match c with CDualPolygon _ => False | _ => True end ->
  points (nvert c) d vs ->
  exists m, get_map_to (default c) vs = Ok m /\
    forall k, (k < length vs)%nat -> m (env_of (nth k (reference_vertices c) [])) = nth k vs [].
Proof.
  intros Hc Hp. destruct (map_body_vertices c d vs Hc Hp) as [m [Hm H]]. exists m. split; [|exact H].
  rewrite (get_map_to_default c vs Hc). exact Hm.
Qed.


(** The pyramid: the forward map is not affine, the inverse is. *)
Theorem C30_pyramid_inverse_refuted : exists m i X,
  get_map_to (default CPyramid) (reference_vertices CPyramid) = Ok m /\
  get_inverse_map_to (default CPyramid) (reference_vertices CPyramid) = Ok i /\
  length X = 3%nat /\ in_hull (reference_vertices CPyramid) X /\ i (env_of (m (env_of X))) <> X.
Proof.
  destruct (rows3 0 0 0 (1 - 0) (0 - 0) (0 - 0) (0 - 0) (1 - 0) (0 - 0) (0 - 0) (0 - 0) (1 - 0)) as [rows [Er Hr]]; [lra|].
  destruct (Hr (fun e => [0 + (1 - 0) * e 0%nat + (0 - 0) * e 1%nat + (0 - 0) * e 2%nat;
                          0 + (0 - 0) * e 0%nat + (1 - 0) * e 1%nat + (0 - 0) * e 2%nat;
                          0 + (0 - 0) * e 0%nat + (0 - 0) * e 1%nat + (1 - 0) * e 2%nat])) as [H _]; [reflexivity|].
  eexists. exists (apply_rows 3 rows [0; 0; 0]), [1/2; 1/2; 1/2]. split.
  { rewrite get_map_to_default by exact I. reflexivity. }
  split.
  { unfold get_inverse_map_to. rewrite is_default_default.
    cbn [default make_reference reference_vertices r_type]. unfold assert_gdim, get at 1. cbn [nth_error rbind length Nat.eqb].
    cbn [reference_vertices assert_parallelograms parallelogram_ok get nth_error rbind faces firstn].
    unfold get, vadd. cbn [nth_error rbind combine map fst snd]. rewrite list_dec_true by (pteq lra). cbn [rbind].
    unfold affine_inverse, get. cbn [nth_error rbind]. unfold vsub. cbn [combine map fst snd]. rewrite Er. reflexivity. }
  split; [reflexivity|]. split.
  { apply (contains_default_hull CPyramid); [exact I|reflexivity|]. unfold contains. rewrite is_default_default.
    cbn [default make_reference reference_vertices r_type]. unfold cmp, get, rsum. cbn [nth_error rmap and_then nth].
    unfold rle. repeat (destruct (Rle_dec _ _); [cbn [rmap and_then]|exfalso; lra]). reflexivity. }
  specialize (H [1/4; 1/4; 1/2] eq_refl).
  match type of H with ?A = _ => intros E; assert (E2 : A = [1/2; 1/2; 1/2]) end.
  { rewrite <- E. f_equal. f_equal. unfold env_of. cbn [zip_star reference_vertices map combine fst snd nth]. pteq lra. }
  rewrite H in E2. injection E2. lra.
Qed.
(** A triangle embedded in 3D: get_inverse_map_to_self divides by the norm, not its square. *)
Theorem C30_triangle_in_3d_refuted : exists vs r m i X,
  points 3 3 vs /\ edge_minor vs 1 2 0 1 <> 0 /\ make_reference CTriangle vs = Ok r /\
  get_map_to_self r = Ok m /\ get_inverse_map_to_self r = Ok i /\ length X = 2%nat /\
  i (env_of (m (env_of X))) <> X.
Proof.
  exists [[0; 0; 0]; [2; 0; 0]; [0; 2; 0]]. eexists. eexists. eexists. exists [1; 0].
  split; [split; [reflexivity|repeat constructor]|].
  split; [unfold edge_minor, co; cbn [nth]; lra|].
  split; [reflexivity|]. split; [reflexivity|]. split; [reflexivity|]. split; [reflexivity|].
  cbn [r_origin r_axes]. unfold vsub, vdot, vnorm, vdot, xs, env_of.
  cbn [zip_star map combine fst snd nth fold_left]. intros E. injection E as E _.
  replace (0 + (2 - 0) * (2 - 0) + (0 - 0) * (0 - 0) + (0 - 0) * (0 - 0)) with (2 * 2) in E by ring.
  rewrite sqrt_square in E by lra. lra.
Qed.
(** A parallelogram embedded in 3D: get_inverse_map_to of the default quadrilateral looks at the first
    two coordinates only and fails on a vertical cell, although the map to it is injective. *)
Theorem C30_vertical_parallelogram_refuted : exists vs,
  points 4 3 vs /\ parallelogram vs 0 1 2 3 /\ edge_minor vs 1 2 0 2 <> 0 /\
  get_inverse_map_to (default CQuadrilateral) vs = Err ValueError.
Proof.
  exists [[0; 0; 0]; [1; 0; 0]; [0; 0; 1]; [1; 0; 1]].
  split; [split; [reflexivity|repeat constructor]|].
  split; [intros [|[|[|c]]]; unfold co; cbn [nth]; try lra; destruct c; lra|].
  split; [unfold edge_minor, co; cbn [nth]; lra|].
  unfold get_inverse_map_to. rewrite is_default_default.
  cbn [default make_reference reference_vertices r_type self_dim r_vertices length].
  unfold quad_inverse, get. cbn [nth_error rbind assert_parallelograms parallelogram_ok].
  unfold get, vadd. cbn [nth_error rbind combine map fst snd]. rewrite list_dec_true by (pteq lra).
  unfold vsub, matrix2_inv, first2. cbn [combine map fst snd rbind]. unfold inv2, det2.
  cbn [fst snd]. rewrite Rdec_true by ring. reflexivity.
Qed.

Example C30_instance : affine_cell CTriangle [[1; 1]; [3; 1]; [2; 4]] /\
  affine_cell CPrism [[0; 0; 0]; [2; 0; 0]; [0; 1; 0]; [1; 0; 3]; [3; 0; 3]; [1; 1; 3]].
Proof.
  split.
  - split; [split; [reflexivity|repeat constructor]|]. unfold edge_det2, co. cbn [nth]. lra.
  - split; [split; [reflexivity|repeat constructor]|].
    repeat split; try (intros [|[|[|c]]]; unfold co; cbn [nth]; try lra; destruct c; lra).
    unfold edge_det3, co. cbn [nth]. lra.
Qed.

(** * C31: contains *)
(** Full claim: contains decides membership in the convex hull of the vertices for every cell that
    supports it.  Proved for every default cell and every non-degenerate 2D triangle; the general
    tetrahedron is refuted below; other general cells raise NotImplementedError. *)
Theorem C31_contains_decides_membership_partial :
  (forall c p, match c with CDualPolygon _ => False | _ => True end -> length p = tdim c ->
     decides (contains (default c) p) (in_hull (reference_vertices c) p)) /\
  (forall vs p r, points 3 2 vs -> edge_det2 vs 1 2 <> 0 -> length p = 2%nat ->
     make_reference CTriangle vs = Ok r -> decides (contains r p) (in_hull vs p)) /\
  (forall r p, is_default r = false ->
     match r_type r with CPoint | CTriangle | CTetrahedron => False | _ => True end ->
     contains r p = Err NotImplementedError).
Proof.
  split; [exact contains_default|]. split; [exact contains_triangle|].
  intros r p Hd Hc. unfold contains. rewrite Hd. destruct (r_type r); try contradiction; reflexivity.
Qed.
(** A tetrahedron other than the default one: the test is 0 >= t2 instead of t2 >= 0. *)
Theorem C31_tetrahedron_refuted : exists vs r p,
  points 4 3 vs /\ edge_det3 vs 1 2 3 <> 0 /\ make_reference CTetrahedron vs = Ok r /\ length p = 3%nat /\
  in_interior vs p /\ contains r p = Ok false.
Proof.
  exists [[0; 0; 0]; [2; 0; 0]; [0; 2; 0]; [0; 0; 2]]. eexists. exists [1/2; 1/2; 1/2].
  split; [split; [reflexivity|repeat constructor]|].
  split; [unfold edge_det3, co; cbn [nth]; lra|].
  split; [reflexivity|]. split; [reflexivity|]. split.
  - exists [1/4; 1/4; 1/4; 1/4]. split; [|repeat (apply Forall_cons; [lra|]); apply Forall_nil].
    split; [reflexivity|]. split; [unfold sumR; simpl; lra|].
    intros [|[|[|j]]] Hj; [| | |simpl in Hj; lia]; unfold sumR; cbn [combine map fold_right fst snd nth]; lra.
  - unfold contains, is_default. cbn [r_type r_vertices]. destruct (pts_eq_dec _ _) as [E|_].
    { exfalso. injection E. intros. lra. }
    cbn [r_origin r_axes]. unfold get, vsub. cbn [nth_error rbind combine map fst snd].
    unfold matrix3_inv, first3, inv3, det3. cbn [rbind].
    rewrite Rdec_false by lra. cbn [rbind nth]. unfold vdot. cbn [combine map fst snd fold_left].
    match goal with |- Ok (_ && _ && rle ?a 0 && _) = _ => replace (rle a 0) with false end.
    { f_equal. rewrite andb_false_r. reflexivity. }
    symmetry. apply rle_false. lra.
Qed.
Example C31_instance : exists r, make_reference CTriangle [[1; 1]; [3; 1]; [2; 4]] = Ok r /\
  contains r [2; 2] = Ok true /\ contains r [0; 0] = Ok false.
Proof.
  eexists. split; [reflexivity|]. split.
  - edestruct (contains_triangle [[1; 1]; [3; 1]; [2; 4]] [2; 2]) as [b [E H]];
      [split; [reflexivity|repeat constructor]|unfold edge_det2, co; cbn [nth]; lra|reflexivity|reflexivity|].
    rewrite E. f_equal. apply H. exists [1/3; 1/3; 1/3].
    split; [|repeat (apply Forall_cons; [lra|]); apply Forall_nil].
    split; [reflexivity|]. split; [unfold sumR; simpl; lra|].
    intros [|[|j]] Hj; [| |simpl in Hj; lia]; unfold sumR; cbn [combine map fold_right fst snd nth]; lra.
  - edestruct (contains_triangle [[1; 1]; [3; 1]; [2; 4]] [0; 0]) as [b [E H]];
      [split; [reflexivity|repeat constructor]|unfold edge_det2, co; cbn [nth]; lra|reflexivity|reflexivity|].
    rewrite E. f_equal. destruct b; [|reflexivity]. exfalso. destruct (proj1 H eq_refl) as (w & (Hl & Hs & Hc) & Hp).
    repeat (destruct w as [|? w]; try discriminate Hl).
    pose proof (Hc 0%nat ltac:(simpl; lia)) as H0. unfold sumR in *. cbn [combine map fold_right fst snd nth] in *.
    repeat match goal with H : Forall _ (_ :: _) |- _ => inversion_clear H end. lra.
Qed.

(** * C32: on_edge and on_face *)
(** Full claim: on_edge decides membership in an edge.  Proved: for cells in 2D and 3D with distinct end
    points, on_edge decides whether the point lies on the infinite line through an edge; for points of
    the (convex) cell this is membership in an edge.  In particular for all default cells. *)
Lemma default_convex_edges c : is_dual c = false -> (2 <= tdim c)%nat -> convex_edges (default c) (tdim c).
Proof.
  intros Hc Ht e He.
  assert (Hv : r_vertices (default c) = reference_vertices c /\ r_type (default c) = c)
    by (destruct c; try discriminate Hc; split; reflexivity).
  destruct Hv as [Hv Htp]. rewrite Hv. rewrite Htp in He.
  destruct (tables_sorted c Hc) as [Hs _]. rewrite Forall_forall in Hs. destruct (Hs e He) as [[Hi Hf] HL].
  destruct e as [|i [|j [|]]]; try discriminate HL. exists i, j. split; [reflexivity|].
  destruct Hi as [_ [Hij _]]. inversion_clear Hf. inversion_clear H0.
  assert (X : exposed (reference_vertices c) (tdim c) [i; j]).
  { apply edges_exposed; try assumption; try reflexivity. split; [simpl; repeat split; lia|].
    repeat (apply Forall_cons; [assumption|]). apply Forall_nil. }
  repeat split; try assumption; [lia|]. intros E.
  pose proof (vertices_exposed c i Hc H) as (l & k & Hl & Hk).
  destruct (Hk i H) as [K1 _]. destruct (Hk j H1) as [_ K2].
  assert (K2' := K2 ltac:(intros [K|[]]; lia)). specialize (K1 ltac:(left; reflexivity)).
  assert (E' := f_equal (dotR l) E). change pt with (list R) in *. lra.
Qed.
Theorem C32_on_edge_inside_partial :
  (forall r p d, (d = 2 \/ d = 3)%nat -> Forall (fun v => length v = d) (r_vertices r) -> length p = d ->
     proper_edges r ->
     decides (on_edge r p) (exists e, In e (edges (r_type r)) /\ in_affine_hull (edge_points r e) p)) /\
  (forall r p d, (d = 2 \/ d = 3)%nat -> Forall (fun v => length v = d) (r_vertices r) -> length p = d ->
     convex_edges r d -> in_hull (r_vertices r) p ->
     decides (on_edge r p) (exists e, In e (edges (r_type r)) /\ in_hull (edge_points r e) p)) /\
  (forall c, is_dual c = false -> (2 <= tdim c)%nat -> convex_edges (default c) (tdim c)).
Proof. split; [exact on_edge_line|]. split; [exact on_edge_inside|exact default_convex_edges]. Qed.
(** Outside the cell on_edge is true on the whole line: (2, 0) and the default triangle. *)
Theorem C32_on_edge_refuted : exists c p, length p = tdim c /\
  on_edge (default c) p = Ok true /\
  ~ (exists e, In e (edges c) /\ in_hull (edge_points (default c) e) p).
Proof.
  exists CTriangle, [2; 0]. split; [reflexivity|]. split.
  - destruct (on_edge_line (default CTriangle) [2; 0] 2) as [b [E H]]; [left; reflexivity|repeat constructor|reflexivity| |].
    + intros e He. destruct (default_convex_edges CTriangle eq_refl (le_n 2) e He) as (i & j & Q & _ & Hi & Hj & N & _).
      exists i, j. tauto.
    + rewrite E. f_equal. apply H. exists [0; 1]%nat. split; [simpl; tauto|]. exists [-1; 2].
      split; [reflexivity|]. split; [unfold sumR; simpl; lra|].
      intros [|[|j]] Hj; [| |simpl in Hj; lia]; unfold sumR, edge_points; cbn [combine map fold_right fst snd nth default make_reference reference_vertices r_vertices]; lra.
  - intros (e & He & w & (Hl & Hs & Hc) & Hp).
    destruct He as [<-|[<-|[<-|[]]]]; repeat (destruct w as [|? w]; try discriminate Hl);
    pose proof (Hc 0%nat ltac:(simpl; lia)) as H0; unfold sumR, edge_points in *;
    cbn [combine map fold_right fst snd nth default make_reference reference_vertices r_vertices] in *;
    repeat match goal with H : Forall _ (_ :: _) |- _ => inversion_clear H end; lra.
Qed.
(** on_face never answers True: it raises on every cell that has a face. *)
Theorem C32_on_face_refuted : forall c p, is_dual c = false -> (2 <= tdim c)%nat -> length p = tdim c ->
  exists e, on_face (default c) p = Err e.
Proof.
  intros c p Hc Ht Hp.
  destruct c; try discriminate Hc; cbn [tdim] in Hp, Ht; try lia;
  repeat (destruct p as [|? p]; try discriminate Hp);
  unfold on_face; cbn [default make_reference reference_vertices r_type r_vertices faces map];
  unfold face_test at 1, get; cbn [nth_error rbind]; unfold fsub, vsub; cbn [length Nat.eqb rbind combine map fst snd];
  unfold fcross; cbn [rbind fdot length Nat.eqb]; eexists; reflexivity.
Qed.
Example C32_instance : on_edge (default CTriangle) [1/2; 0] = Ok true.
Proof.
  destruct (on_edge_inside (default CTriangle) [1/2; 0] 2) as [b [E H]];
    [left; reflexivity|repeat constructor|reflexivity|exact (default_convex_edges CTriangle eq_refl (le_n 2))| |].
  - apply hull_triangle. lra.
  - rewrite E. f_equal. apply H. exists [0; 1]%nat. split; [simpl; tauto|]. exists [1/2; 1/2].
    split; [|repeat (apply Forall_cons; [lra|]); apply Forall_nil].
    split; [reflexivity|]. split; [unfold sumR; simpl; lra|].
    intros [|[|j]] Hj; [| |simpl in Hj; lia]; unfold sumR, edge_points; cbn [combine map fold_right fst snd nth default make_reference reference_vertices r_vertices]; lra.
Qed.

(** * C33: limits and volumes *)
(** A limit's bounds depend only on the variables of the later (outer) limits, and every variable of the
    cell is integrated exactly once. *)
Definition well_scoped (d : nat) (lims : list limit) : Prop :=
  Permutation.Permutation (map (fun l => fst (fst l)) lims) (range d) /\
  forall k l, nth_error lims k = Some l ->
    forall e e', (forall v, In v (map (fun l => fst (fst l)) (skipn (S k) lims)) -> e v = e' v) ->
      snd (fst l) e = snd (fst l) e' /\ snd l e = snd l e'.
Theorem C33_limits_describe_the_cell c lims : integration_limits c = Ok lims ->
  well_scoped (tdim c) lims /\
  (forall p, length p = tdim c -> (in_region lims (env_of p) <-> in_hull (reference_vertices c) p)) /\
  exists v, volume (default c) = Ok v /\ iterated lims (fun _ => 1) (fun _ => v).
Proof.
  intros H. split; [|split].
  - destruct c; try discriminate H; injection H as <-; (split;
      [cbn [map fst tdim]; unfold range; cbn [seq];
       apply Permutation.NoDup_Permutation; [repeat constructor; simpl; lia|repeat constructor; simpl; lia|intros; simpl; tauto]|]);
      try (intros k l Hk e e' He; repeat (destruct k as [|k]; [injection Hk as <-; cbn [fst snd];
             cbn [skipn map fst In] in He; (split; [reflexivity|]); try reflexivity;
             repeat (rewrite (He 0%nat) by tauto); repeat (rewrite (He 1%nat) by tauto);
             repeat (rewrite (He 2%nat) by tauto); reflexivity|]);
           destruct k; discriminate Hk).
  - intros p. exact (limits_region c lims p H).
  - exists (default_volume c). split; [apply volume_default; destruct c; try exact I; discriminate H|exact (limits_volume c lims H)].
Qed.
Theorem C33_volume_scales c vs r v : match c with CPoint | CDualPolygon _ => False | _ => True end ->
  points (nvert c) (tdim c) vs -> make_reference c vs = Ok r -> volume (default c) = Ok v ->
  volume r = Ok (Rabs (map_det c vs) * v).
Proof.
  intros Hc Hp Hr Hv. rewrite (volume_scales c vs r Hc Hp Hr).
  rewrite volume_default in Hv by (destruct c; try exact I; contradiction). injection Hv as <-. reflexivity.
Qed.
Example C33_instance : exists r, make_reference CTriangle [[1; 1]; [3; 1]; [2; 4]] = Ok r /\ volume r = Ok 3.
Proof.
  eexists. split; [reflexivity|]. erewrite (C33_volume_scales CTriangle [[1; 1]; [3; 1]; [2; 4]] _ (1/2));
    [|exact I|split; [reflexivity|repeat constructor]|reflexivity|].
  - f_equal. unfold map_det, edge_det2, co. cbn [nth]. rewrite Rabs_right by lra. lra.
  - rewrite volume_default by exact I. reflexivity.
Qed.

(** * C34: tangents and normals *)
Theorem C34_tangents_and_normals :
  (forall v0 v1 r, length v0 = length v1 -> v0 <> v1 -> make_reference CInterval [v0; v1] = Ok r ->
     exists t s, tangent r = Ok t /\ dotR t t = 1 /\ s > 0 /\ length t = length v0 /\
       forall j, nth j t 0 = s * (nth j v1 0 - nth j v0 0)) /\
  (forall v0 v1 r, length v0 = 2%nat -> length v1 = 2%nat -> v0 <> v1 -> make_reference CInterval [v0; v1] = Ok r ->
     exists t n, tangent r = Ok t /\ normal r = Ok n /\ dotR n n = 1 /\ dotR n t = 0 /\ length n = 2%nat /\
       nth 0 t 0 * nth 1 n 0 - nth 1 t 0 * nth 0 n 0 > 0) /\
  (forall c vs r, (c = CTriangle \/ c = CQuadrilateral) -> points (nvert c) 3 vs ->
     (edge_minor vs 1 2 0 1 <> 0 \/ edge_minor vs 1 2 0 2 <> 0 \/ edge_minor vs 1 2 1 2 <> 0) ->
     make_reference c vs = Ok r ->
     exists n, normal r = Ok n /\ dotR n n = 1 /\ length n = 3%nat /\
       dotR n (map (fun j => co vs 1 j - co vs 0 j) [0; 1; 2]%nat) = 0 /\
       dotR n (map (fun j => co vs 2 j - co vs 0 j) [0; 1; 2]%nat) = 0 /\
       nth 0 n 0 * edge_minor vs 1 2 1 2 + nth 1 n 0 * edge_minor vs 1 2 2 0
       + nth 2 n 0 * edge_minor vs 1 2 0 1 > 0).
Proof. split; [exact tangent_unit|]. split; [exact normal2_unit|exact normal3_unit]. Qed.
Example C34_instance : exists r n, make_reference CTriangle [[0; 0; 0]; [1; 0; 0]; [0; 0; 1]] = Ok r /\ normal r = Ok n /\ dotR n n = 1.
Proof.
  destruct C34_tangents_and_normals as (_ & _ & H).
  eexists. edestruct (H CTriangle [[0; 0; 0]; [1; 0; 0]; [0; 0; 1]]) as (n & Hn & H1 & _);
    [left; reflexivity|split; [reflexivity|repeat constructor]|right; left; unfold edge_minor, co; cbn [nth]; lra|reflexivity|].
  exists n. split; [reflexivity|]. split; [exact Hn|exact H1].
Qed.

(** * C35: the tables *)
(** The edges of a default cell are exactly the two-vertex faces of the convex hull, the faces of a 3D
    cell exactly the proper faces with three or more vertices; every vertex is a vertex of the hull. *)
Theorem C35_tables_are_the_faces_of_the_hull c : is_dual c = false ->
  (forall k, (k < length (reference_vertices c))%nat -> exposed (reference_vertices c) (tdim c) [k]) /\
  (forall S, sorted_subset (length (reference_vertices c)) S -> length S = 2%nat ->
     (In S (edges c) <-> exposed (reference_vertices c) (tdim c) S)) /\
  (tdim c = 3%nat -> forall S, sorted_subset (length (reference_vertices c)) S ->
     (3 <= length S < length (reference_vertices c))%nat ->
     (In S (faces c) <-> exposed (reference_vertices c) (tdim c) S)) /\
  (tdim c = 2%nat -> faces c = [range (length (reference_vertices c))] /\ volumes c = []) /\
  (tdim c = 3%nat -> volumes c = [range (length (reference_vertices c))]).
Proof.
  intros Hc. split; [intros k; exact (vertices_exposed c k Hc)|].
  split; [intros S; exact (edges_exposed c S Hc)|].
  split; [intros Ht S; exact (faces_exposed c S Ht)|].
  split; intros Ht; destruct c; try discriminate Hc; try discriminate Ht; try split; reflexivity.
Qed.
(** Each entry once, with increasing vertex numbers and proper sizes. *)
Theorem C35_tables_without_repetition c : is_dual c = false ->
  (NoDup (edges c) /\ NoDup (faces c) /\ NoDup (volumes c)) /\
  Forall (fun S => sorted_subset (length (reference_vertices c)) S /\ length S = 2%nat) (edges c) /\
  Forall (fun S => sorted_subset (length (reference_vertices c)) S /\ (3 <= length S)%nat) (faces c) /\
  Forall (fun S => S = range (length (reference_vertices c))) (volumes c).
Proof.
  intros Hc. split; [apply tables_nodup; destruct c; try exact I; discriminate Hc|exact (tables_sorted c Hc)].
Qed.
(** sub_entity has the dimension asked for and the vertices in the table, for any vertices. *)
Theorem C35_sub_entity_vertices c vs r dim n S : is_dual c = false -> make_reference c vs = Ok r -> (dim <= tdim c)%nat ->
  match sub_entities r dim with Ok t => nth_error t n = Some S | Err _ => False end ->
  exists e, sub_entity r dim n false = Ok e /\ tdim (r_type e) = dim /\
    r_vertices e = map (fun k => nth k vs []) S /\
    length (r_vertices e) = length (reference_vertices (r_type e)).
Proof. exact (sub_entity_ok c vs r dim n S). Qed.
(** A face's own edges are edges of the cell. *)
Theorem C35_edges_of_faces c vs r n S e a b : is_dual c = false -> make_reference c vs = Ok r -> tdim c = 3%nat ->
  nth_error (faces c) n = Some S -> sub_entity r 2 n false = Ok e -> In [a; b] (edges (r_type e)) ->
  In [nth a S 0; nth b S 0]%nat (edges c).
Proof.
  intros Hc Hr Ht HS He Hab.
  assert (T : r_type e = face_type c n).
  { destruct c; try discriminate Hc; try discriminate Ht;
    repeat (destruct vs as [|? vs]; try discriminate Hr); injection Hr as <-;
    repeat (destruct n as [|n]; [injection He as <-; reflexivity|]); cbn [faces nth_error] in HS; destruct n; discriminate HS. }
  rewrite T in Hab. exact (face_edges_ok c n S [a; b] Hc HS Hab).
Qed.
Theorem C35_euler c : (tdim c = 3%nat -> (length (reference_vertices c) + length (faces c) = length (edges c) + 2)%nat) /\
  (tdim c = 2%nat -> length (reference_vertices c) = length (edges c)).
Proof. split; [exact (euler c)|exact (euler2 c)]. Qed.
(** Dual polygons with any number of triangles. *)
Theorem C35_dual_polygon m : (2 <= m)%nat ->
  length (edges (CDualPolygon m)) = (2 * m)%nat /\ NoDup (edges (CDualPolygon m)) /\
  (forall k i, (k < 2 * m)%nat -> (i < 2 * m)%nat ->
     (In k (nth i (edges (CDualPolygon m)) []) <-> i = k \/ i = ((k + (2 * m - 1)) mod (2 * m))%nat)) /\
  (forall vs o r dim n S, make_reference (CDualPolygon m) (o :: vs) = Ok r -> (dim <= 1)%nat ->
     match sub_entities r dim with Ok t => nth_error t n = Some S | Err _ => False end ->
     exists e, sub_entity r dim n false = Ok e /\ tdim (r_type e) = dim /\
       r_vertices e = map (fun k => nth k vs []) S).
Proof.
  intros Hm. split; [cbn [edges]; rewrite map_length, length_range; reflexivity|].
  split; [apply (tables_nodup (CDualPolygon m)); lia|].
  split; [intros k i; exact (dual_edges_cycle m k i Hm)|].
  intros vs o r dim n S Hr Hd HS. destruct (sub_entity_dual m vs o r dim n S Hr Hd HS) as (e & H1 & H2 & H3 & _).
  exists e. auto.
Qed.
Example C35_instance : In [0; 2; 4; 6]%nat (faces CHexahedron) /\ ~ exposed (reference_vertices CHexahedron) 3 [0; 3]%nat.
Proof.
  split; [simpl; tauto|]. intros H.
  apply (edges_exposed CHexahedron [0; 3]%nat eq_refl) in H; [|split; [simpl; repeat split; lia|repeat (apply Forall_cons; [simpl; lia|]); apply Forall_nil]|reflexivity].
  simpl in H. repeat (destruct H as [H|H]; [discriminate H|]). exact H.
Qed.

(** * C36: z-orders *)
Theorem C36_z_order_lists_every_entity_once r : length (r_vertices r) = length (reference_vertices (r_type r)) ->
  (match r_type r with CDualPolygon n => (1 <= n)%nat | _ => True end) ->
  forall z, z = z_ordered_entities r \/ z = z_ordered_entities_extra_dim r ->
  NoDup (concat z) /\
  forall d k, In (d, k) (concat z) <->
    (d <= tdim (r_type r))%nat /\ exists t, sub_entities r d = Ok t /\ (k < length t)%nat.
Proof.
  intros Hv Hn z Hz.
  assert (L : lists_entities r z) by (destruct Hz as [->| ->]; [exact (z_ordered_ok r Hv)|exact (z_ordered_extra_ok r Hv Hn)]).
  destruct L as [L1 L2]. split; [exact L1|]. intros d k. rewrite L2. unfold entity_of. cbn [fst snd].
  split.
  - intros [Hd H]. split; [exact Hd|]. destruct (sub_entities r d) as [t|]; [exists t; auto|contradiction].
  - intros [Hd [t [E H]]]. split; [exact Hd|]. rewrite E. exact H.
Qed.
Example C36_instance : In (2, 4)%nat (concat (z_ordered_entities (default CPyramid))) /\
  ~ In (2, 5)%nat (concat (z_ordered_entities (default CPyramid))).
Proof.
  destruct (C36_z_order_lists_every_entity_once (default CPyramid) eq_refl I _ (or_introl eq_refl)) as [_ H].
  split; [apply H|rewrite H]; cbn [tdim default make_reference reference_vertices r_type sub_entities].
  - split; [lia|]. eexists. split; [reflexivity|]. simpl. lia.
  - intros [_ [t [E K]]]. injection E as <-. simpl in K. lia.
Qed.

(** * C37: lattices *)
(** Full claim: on every cell that supports it, make_lattice(n) returns each point of the half lattice
    ((2i+1)/(2(n+1)), ...) lying strictly inside the cell once, and no other point.  True for the
    triangle, tetrahedron, quadrilateral and hexahedron. *)
Theorem C37_lattice_is_the_interior_half_lattice c n :
  (match c with CTriangle | CTetrahedron | CQuadrilateral | CHexahedron => True | _ => False end) ->
  exists L, make_lattice (default c) n = Ok L /\ NoDup L /\
  forall p, In p L <-> exists idx, length idx = tdim c /\
    p = map (fun i => (2 * INR i + 1) / (2 * (INR n + 1))) idx /\ in_interior (reference_vertices c) p.
Proof.
  intros Hc. exists (map (half_point n) (lattice_indices c n)).
  split; [apply default_lattice; destruct c; try exact I; contradiction|]. exact (interior_lattice c n Hc).
Qed.
(** The interval leaves out its last point: for no n are all points there. *)
Theorem C37_interval_refuted n : exists L, make_lattice (default CInterval) n = Ok L /\ NoDup L /\
  (forall p, In p L -> in_interior (reference_vertices CInterval) p) /\
  exists p, p = map (fun i => (2 * INR i + 1) / (2 * (INR n + 1))) [n] /\
    in_interior (reference_vertices CInterval) p /\ ~ In p L.
Proof.
  exists (map (half_point n) (lattice_indices CInterval n)). split; [apply default_lattice; exact I|].
  destruct (interval_lattice n) as [H1 H2]. split; [exact H1|]. split.
  - intros p Hp. apply H2 in Hp. destruct Hp as (i & _ & H & _). exact H.
  - eexists. split; [reflexivity|]. split.
    + apply interior_interval. split; [apply half_pos|apply half_lt1; lia].
    + intros H. apply H2 in H. destruct H as (i & E & _ & N). apply N. apply (half_point_inj n [n] [i]) in E. congruence.
Qed.
(** The prism returns points on its boundary: for every n the point with x + y = 1. *)
Theorem C37_prism_refuted n : exists L p, make_lattice (default CPrism) n = Ok L /\ In p L /\
  ~ in_interior (reference_vertices CPrism) p /\ nth 0 p 0 + nth 1 p 0 = 1.
Proof.
  exists (map (half_point n) (lattice_indices CPrism n)), (half_point n [0; n; 0]%nat).
  split; [apply default_lattice; exact I|]. split; [|split].
  - apply (proj2 (prism_lattice n)). exists 0%nat, n, 0%nat. repeat split; lia.
  - intros H. apply interior_prism in H. destruct H as (_ & _ & H & _). apply half_lt2 in H. lia.
  - cbn [half_point map nth]. unfold half_coordinate. pose proof (INR_pos1 n). cbn [INR]. field. lra.
Qed.
(** For a general cell the lattice is the image of the default one under the cell's map. *)
Theorem C37_lattice_of_general_cells c vs d r n :
  (match c with CInterval => points 2 d vs | CTriangle => points 3 d vs
     | CTetrahedron => points 4 d vs | CQuadrilateral => points 4 d vs /\ parallelogram vs 0 1 2 3 | _ => False end) ->
  (1 <= d <= 3)%nat -> make_reference c vs = Ok r ->
  exists f L, get_map_to_self r = Ok f /\ make_lattice (default c) n = Ok L /\
    make_lattice r n = Ok (map (fun p => f (env_of p)) L).
Proof. exact (general_lattice c vs d r n). Qed.
(** make_lattice_with_lines: all closed lattice points once, and one pair for each two neighbours. *)
Theorem C37_lattice_with_lines c n : line_cell c -> (2 <= n)%nat ->
  exists pts g pairs, make_lattice_with_lines (default c) n = Ok (pts, pairs) /\
    NoDup pts /\
    (forall p, In p pts <-> exists idx, length idx = tdim c /\
       p = map (fun i => INR i / INR (n - 1)) idx /\ in_hull (reference_vertices c) p) /\
    pts = map (fun ij => map (fun i => INR i / INR (n - 1)) (firstn (tdim c) [fst ij; snd ij])) g /\
    NoDup pairs /\
    (forall a b, In (a, b) pairs <-> exists p q, nth_error g a = Some p /\ nth_error g b = Some q /\ adjacent p q).
Proof.
  intros Hc Hn.
  exists (lattice_lines_points (default c) n), (grid_indices c n), (lattice_lines_pairs c n).
  destruct (closed_lattice c n Hc Hn) as [H1 H2]. destruct (lines_joins c n Hc ltac:(lia)) as [H3 H4].
  rewrite (default_lines_points c n Hc).
  split; [unfold make_lattice_with_lines; rewrite <- (default_lines_points c n Hc); destruct c; try contradiction; reflexivity|].
  split; [exact H1|]. split; [exact H2|]. split; [destruct c; try contradiction; reflexivity|].
  split; [exact H3|]. intros a b. exact (H4 (a, b)).
Qed.
(** Dual polygons: every lattice point lies strictly inside one of the triangles. *)
Theorem C37_dual_lattice m n L : make_lattice (default (CDualPolygon m)) n = Ok L ->
  forall p, In p L -> exists v1 v2, In v1 (reference_vertices (CDualPolygon m)) /\
    In v2 (reference_vertices (CDualPolygon m)) /\ in_interior [[0; 0]; v1; v2] p.
Proof.
  unfold make_lattice. rewrite is_default_default. cbn [default r_type r_vertices r_origin].
  intros H. assert (E : forall a b : list pt, Ok a = Ok b -> a = b) by (intros; congruence). apply E in H. clear E. subst L.
  intros p Hp. apply in_flat_map in Hp. destruct Hp as [[v1 v2] [Hv Hp]].
  assert (L : forall v, In v (reference_vertices (CDualPolygon m)) -> length v = 2%nat).
  { intros v H. cbn [reference_vertices] in H. apply in_flat_map in H. destruct H as [t [_ H]].
    destruct H as [<-|[<-|[]]]; reflexivity. }
  pose proof (in_combine_l _ _ _ _ Hv) as H1. pose proof (in_combine_r _ _ _ _ Hv) as H2.
  assert (H2' : In v2 (reference_vertices (CDualPolygon m))).
  { apply in_app_or in H2. destruct (reference_vertices (CDualPolygon m)) as [|v vs]; [simpl in H2; tauto|].
    cbn [tl firstn] in H2. destruct H2 as [H2|[<-|[]]]; [right; exact H2|left; reflexivity]. }
  exists v1, v2. split; [exact H1|]. split; [exact H2'|].
  apply (triangle_lattice_interior [0; 0] v1 v2 (n / 2)); try reflexivity; [apply L; exact H1|apply L; exact H2'|exact Hp].
Qed.
Example C37_instance : exists L, make_lattice (default CTriangle) 2 = Ok L /\ In [1/6; 1/2] L /\ length L = 3%nat.
Proof.
  exists (map (half_point 2) (lattice_indices CTriangle 2)). split; [apply default_lattice; exact I|]. split; [|reflexivity].
  apply in_map_iff. exists [0; 1]%nat. split; [cbn [half_point map]; unfold half_coordinate; cbn [INR]; pteq lra|simpl; tauto].
Qed.

Print Assumptions C30_maps_are_inverse_partial.
Print Assumptions C30_parallelogram_in_3d_partial.
Print Assumptions C30_vertices_to_vertices.
Print Assumptions C30_pyramid_inverse_refuted.
Print Assumptions C30_triangle_in_3d_refuted.
Print Assumptions C30_vertical_parallelogram_refuted.
Print Assumptions C31_contains_decides_membership_partial.
Print Assumptions C31_tetrahedron_refuted.
Print Assumptions C32_on_edge_inside_partial.
Print Assumptions C32_on_edge_refuted.
Print Assumptions C32_on_face_refuted.
Print Assumptions C33_limits_describe_the_cell.
Print Assumptions C33_volume_scales.
Print Assumptions C34_tangents_and_normals.
Print Assumptions C35_tables_are_the_faces_of_the_hull.
Print Assumptions C35_tables_without_repetition.
Print Assumptions C35_sub_entity_vertices.
Print Assumptions C35_edges_of_faces.
Print Assumptions C35_euler.
Print Assumptions C35_dual_polygon.
Print Assumptions C36_z_order_lists_every_entity_once.
Print Assumptions C37_lattice_is_the_interior_half_lattice.
Print Assumptions C37_interval_refuted.
Print Assumptions C37_prism_refuted.
Print Assumptions C37_lattice_of_general_cells.
Print Assumptions C37_lattice_with_lines.
Print Assumptions C37_dual_lattice.

(** The numbering: the sub-entities of each dimension are listed in lexicographic order of their vertices; on
    triangles and tetrahedra in the reverse order, so that facet i is the one opposite vertex i. *)
Fixpoint lex (a b : list nat) : Prop :=
  match a, b with
  | [], _ :: _ => True
  | i :: a', j :: b' => (i < j)%nat \/ (i = j /\ lex a' b')
  | _, [] => False
  end.
Theorem C35_lexicographic_numbering c : is_dual c = false ->
  let order := match c with CTriangle | CTetrahedron => @rev (list nat) | _ => fun l => l end in
  StronglySorted lex (order (edges c)) /\ StronglySorted lex (order (faces c)) /\ StronglySorted lex (order (volumes c)).
Proof.
  intros Hc. destruct c; try discriminate Hc; cbn [edges faces volumes rev app]; (split; [|split]);
    repeat first [apply SSorted_nil | apply SSorted_cons | apply Forall_nil | apply Forall_cons]; simpl; lia.
Qed.
Print Assumptions C35_lexicographic_numbering.
Example C35_lexicographic_case : nth 6 (edges CPrism) [] = [3; 4]%nat /\ lex [3; 4]%nat [3; 5]%nat.
Proof. split; [reflexivity|simpl; lia]. Qed.

(** Cells with a quadrilateral face that is no parallelogram have no affine inverse: the assertion is raised. *)
Lemma parallelogram_ok_spec vs d i j k l : Forall (fun v : pt => length v = d) vs ->
  (i < length vs)%nat -> (j < length vs)%nat -> (k < length vs)%nat -> (l < length vs)%nat ->
  exists b, parallelogram_ok vs [i; j; k; l] = Ok b /\ (b = true <-> parallelogram vs i j k l).
Proof.
  intros F Hi Hj Hk Hl. unfold parallelogram_ok, get.
  assert (G : forall i, (i < length vs)%nat -> exists v, nth_error vs i = Some v /\ length v = d /\ forall c, co vs i c = nth c v 0).
  { intros x Hx. destruct (nth_error vs x) as [v|] eqn:E; [|apply nth_error_None in E; lia].
    exists v. split; [reflexivity|]. rewrite Forall_forall in F. split; [apply F; eapply nth_error_In; exact E|].
    intros c. unfold co. exact (f_equal (fun v => nth c v 0) (nth_error_nth vs x ([] : pt) E)). }
  destruct (G i Hi) as (vi & -> & Li & Ci). destruct (G j Hj) as (vj & -> & Lj & Cj).
  destruct (G k Hk) as (vk & -> & Lk & Ck). destruct (G l Hl) as (vl & -> & Ll & Cl). cbn [rbind].
  eexists. split; [reflexivity|].
  assert (A : forall v w c, length v = d -> length w = d -> nth c (vadd v w) 0 = nth c v 0 + nth c w 0).
  { intros v w c Hv Hw. unfold vadd. clear - Hv Hw. revert w d c Hv Hw. induction v as [|a v IH]; intros [|b w] d c Hv Hw; simpl in *; subst; try discriminate.
    - destruct c; lra.
    - destruct c; [reflexivity|]. apply (IH w (length v)); [reflexivity|lia]. }
  assert (LA : forall v w, length v = d -> length w = d -> length (vadd v w) = d).
  { intros v w Hv Hw. unfold vadd. rewrite map_length, combine_length. lia. }
  destruct (list_eq_dec Req_EM_T (vadd vi vl) (vadd vj vk)) as [E|E].
  - split; [|reflexivity]. intros _ c. rewrite Ci, Cj, Ck, Cl, <- !A by assumption. rewrite E. reflexivity.
  - split; [discriminate|]. intros P. exfalso. apply E. apply (nth_ext _ _ 0 0); [rewrite !LA by assumption; reflexivity|].
    intros c _. rewrite !A by assumption. specialize (P c). rewrite Ci, Cj, Ck, Cl in P. exact P.
Qed.

Definition quad_index (n : nat) (S : list nat) : Prop := length S = 4%nat /\ Forall (fun i => (i < n)%nat) S.
Lemma assert_parallelograms_fails vs d : Forall (fun v : pt => length v = d) vs ->
  forall fs, Forall (quad_index (length vs)) fs ->
  (exists S, In S fs /\ ~ parallelogram vs (nth 0 S 0%nat) (nth 1 S 0%nat) (nth 2 S 0%nat) (nth 3 S 0%nat)) ->
  assert_parallelograms vs fs = Err AssertionError.
Proof.
  intros F fs. induction fs as [|f fs IH]; intros Q (S & HS & HP); [destruct HS|].
  apply Forall_cons_iff in Q. destruct Q as [[L Ff] Q]. destruct f as [|i [|j [|k [|l [|]]]]]; try discriminate L.
  repeat rewrite Forall_cons_iff in Ff. destruct Ff as (Hi & Hj & Hk & Hl & _).
  destruct (parallelogram_ok_spec vs d i j k l F Hi Hj Hk Hl) as (b & E & B). cbn [assert_parallelograms]. rewrite E. cbn [rbind].
  destruct b; [|reflexivity]. apply IH; [exact Q|]. exists S. split; [|exact HP].
  destruct HS as [<-|HS]; [|exact HS]. exfalso. apply HP. apply B. reflexivity.
Qed.

Theorem C30_non_parallelogram_rejected c vs :
  In c [CQuadrilateral; CHexahedron; CPrism; CPyramid] -> points (nvert c) (tdim c) vs ->
  (exists S, In S (faces c) /\ length S = 4%nat /\
     ~ parallelogram vs (nth 0 S 0%nat) (nth 1 S 0%nat) (nth 2 S 0%nat) (nth 3 S 0%nat)) ->
  get_inverse_map_to (default c) vs = Err AssertionError /\
  exists r, make_reference c vs = Ok r /\ get_inverse_map_to_self r = Err AssertionError.
Proof.
  intros Hc [L F] (S & HS & LS & HP). unfold nvert in L.
  assert (AP : forall fs, Forall (quad_index (length vs)) fs -> In S fs -> assert_parallelograms vs fs = Err AssertionError).
  { intros fs Q HI. apply (assert_parallelograms_fails vs (tdim c) F fs Q). exists S. split; assumption. }
  assert (QI : forall fs, forallb (fun f => (length f =? 4)%nat && forallb (fun i => (i <? length (reference_vertices c))%nat) f) fs = true ->
    Forall (quad_index (length vs)) fs).
  { intros fs H. rewrite forallb_forall in H. apply Forall_forall. intros f Hf. specialize (H f Hf). apply andb_prop in H.
    destruct H as [H1 H2]. split; [apply Nat.eqb_eq; exact H1|]. rewrite forallb_forall in H2. apply Forall_forall.
    intros i Hi. rewrite L. apply Nat.ltb_lt. apply H2, Hi. }
  destruct Hc as [<-|[<-|[<-|[<-|[]]]]].
  - specialize (AP [[0; 1; 2; 3]%nat] (QI [[0; 1; 2; 3]%nat] eq_refl) HS).
    do 5 (destruct vs as [|? vs]; try discriminate L).
    split; [|eexists; split; [reflexivity|]].
    + unfold get_inverse_map_to. rewrite is_default_default. cbn [default make_reference reference_vertices r_type].
      unfold quad_inverse. unfold get. cbn [nth_error rbind]. rewrite AP. reflexivity.
    + unfold get_inverse_map_to_self. cbn [r_type r_vertices]. unfold quad_inverse, get. cbn [nth_error rbind]. rewrite AP. reflexivity.
  - specialize (AP (faces CHexahedron) (QI (faces CHexahedron) eq_refl) HS).
    do 9 (destruct vs as [|? vs]; try discriminate L). pose proof F as F'. apply Forall_cons_iff in F'. destruct F' as [F0 _]. cbn [tdim] in F0.
    split; [|eexists; split; [reflexivity|]].
    + unfold get_inverse_map_to. rewrite is_default_default. cbn [default make_reference reference_vertices r_type].
      unfold assert_gdim, get. cbn [nth_error rbind]. rewrite F0. cbn [Nat.eqb rbind]. rewrite AP. reflexivity.
    + unfold get_inverse_map_to_self. cbn [r_type r_vertices]. unfold assert_gdim, get. cbn [nth_error rbind]. rewrite F0. cbn [Nat.eqb rbind]. rewrite AP. reflexivity.
  - assert (HS' : In S (firstn 3 (skipn 1 (faces CPrism)))).
    { destruct HS as [<-|[HS|[HS|[HS|[<-|[]]]]]]; try discriminate LS; cbn; auto. }
    specialize (AP (firstn 3 (skipn 1 (faces CPrism))) (QI (firstn 3 (skipn 1 (faces CPrism))) eq_refl) HS').
    do 7 (destruct vs as [|? vs]; try discriminate L). pose proof F as F'. apply Forall_cons_iff in F'. destruct F' as [F0 _]. cbn [tdim] in F0.
    split; [|eexists; split; [reflexivity|]].
    + unfold get_inverse_map_to. rewrite is_default_default. cbn [default make_reference reference_vertices r_type].
      unfold assert_gdim, get. cbn [nth_error rbind]. rewrite F0. cbn [Nat.eqb rbind]. rewrite AP. reflexivity.
    + unfold get_inverse_map_to_self. cbn [r_type r_vertices]. unfold assert_gdim, get. cbn [nth_error rbind]. rewrite F0. cbn [Nat.eqb rbind]. rewrite AP. reflexivity.
  - assert (HS' : In S (firstn 1 (faces CPyramid))).
    { destruct HS as [HS|[<-|[<-|[<-|[<-|[]]]]]]; try discriminate LS; cbn; auto. }
    specialize (AP (firstn 1 (faces CPyramid)) (QI (firstn 1 (faces CPyramid)) eq_refl) HS').
    do 6 (destruct vs as [|? vs]; try discriminate L). pose proof F as F'. apply Forall_cons_iff in F'. destruct F' as [F0 _]. cbn [tdim] in F0.
    split; [|eexists; split; [reflexivity|]].
    + unfold get_inverse_map_to. rewrite is_default_default. cbn [default make_reference reference_vertices r_type].
      unfold assert_gdim, get. cbn [nth_error rbind]. rewrite F0. cbn [Nat.eqb rbind]. rewrite AP. reflexivity.
    + unfold get_inverse_map_to_self. cbn [r_type r_vertices]. unfold assert_gdim, get. cbn [nth_error rbind]. rewrite F0. cbn [Nat.eqb rbind]. rewrite AP. reflexivity.
Qed.
Print Assumptions C30_non_parallelogram_rejected.
Example C30_non_parallelogram_case : get_inverse_map_to (default CQuadrilateral) [[0; 0]; [1; 0]; [0; 1]; [2; 3]] = Err AssertionError.
Proof.
  apply (C30_non_parallelogram_rejected CQuadrilateral); [left; reflexivity|split; [reflexivity|repeat constructor]|].
  exists [0; 1; 2; 3]%nat. split; [left; reflexivity|]. split; [reflexivity|]. intros P. specialize (P 0%nat). unfold co in P. cbn in P. lra.
Qed.
