(** Proofs about maps between cells. *)
From Coq Require Import String Reals Arith Bool Lia Lra List.
From Verif Require Import Base ReferencesModel ReferencesSpec.
Import ListNotations.
Open Scope R_scope.

Lemma is_default_default c : is_default (default c) = true.
Proof.
  unfold is_default. assert (E : r_vertices (default c) = reference_vertices (r_type (default c))) by (destruct c; reflexivity).
  destruct (pts_eq_dec (r_vertices (default c)) (reference_vertices (r_type (default c)))); [reflexivity|contradiction].
Qed.

Lemma list_dec_true (A B : list R) {C} (x y : C) : A = B -> (if list_eq_dec Req_EM_T A B then x else y) = x.
Proof. intros ->. destruct (list_eq_dec Req_EM_T B B); [reflexivity|contradiction]. Qed.

Lemma Rdec_false (a b : R) {C} (x y : C) : a <> b -> (if Req_EM_T a b then x else y) = y.
Proof. intros N. destruct (Req_EM_T a b); [contradiction|reflexivity]. Qed.
Lemma Rdec_true (a b : R) {C} (x y : C) : a = b -> (if Req_EM_T a b then x else y) = x.
Proof. intros N. destruct (Req_EM_T a b); [reflexivity|contradiction]. Qed.

(** Destruct a list of points into explicit coordinates. *)
Ltac split_points H :=
  let Hl := fresh "Hl" in let Hf := fresh "Hf" in
  destruct H as [Hl Hf];
  repeat match goal with
  | H : length ?l = _ |- _ => is_var l; destruct l; simpl in H; try discriminate H;
                              try (apply eq_add_S in H)
  end;
  repeat match goal with
  | H : Forall _ (_ :: _) |- _ => inversion_clear H
  | H : length ?l = _ |- _ => is_var l; destruct l; simpl in H; try discriminate H;
                              try (apply eq_add_S in H)
  | H : Forall _ [] |- _ => clear H
  | H : 0%nat = 0%nat |- _ => clear H
  end.

Lemma inv2_spec (a0 a1 b0 b1 : R) : a0 * b1 - a1 * b0 <> 0 ->
  exists p q u v, inv2 (a0, a1) (b0, b1) = Ok [[p; q]; [u; v]] /\
    (forall s t, p * (a0 * s + b0 * t) + q * (a1 * s + b1 * t) = s) /\
    (forall s t, u * (a0 * s + b0 * t) + v * (a1 * s + b1 * t) = t) /\
    (forall x y, a0 * (p * x + q * y) + b0 * (u * x + v * y) = x) /\
    (forall x y, a1 * (p * x + q * y) + b1 * (u * x + v * y) = y).
Proof.
  intros D. unfold inv2, det2. simpl. rewrite Rdec_false by (intros E; apply D; lra).
  do 4 eexists. split; [reflexivity|].
  assert (D' : a0 * b1 - b0 * a1 <> 0) by (intros E; apply D; lra).
  split; [|split; [|split]]; intros; field; lra.
Qed.

Lemma inv3_spec (a0 a1 a2 b0 b1 b2 c0 c1 c2 : R) :
  a0 * (b1 * c2 - b2 * c1) - a1 * (b0 * c2 - b2 * c0) + a2 * (b0 * c1 - b1 * c0) <> 0 ->
  exists p1 p2 p3 q1 q2 q3 r1 r2 r3,
    inv3 (a0, a1, a2) (b0, b1, b2) (c0, c1, c2) = Ok [[p1; p2; p3]; [q1; q2; q3]; [r1; r2; r3]] /\
    (forall s t u, p1 * (a0 * s + b0 * t + c0 * u) + p2 * (a1 * s + b1 * t + c1 * u)
                   + p3 * (a2 * s + b2 * t + c2 * u) = s) /\
    (forall s t u, q1 * (a0 * s + b0 * t + c0 * u) + q2 * (a1 * s + b1 * t + c1 * u)
                   + q3 * (a2 * s + b2 * t + c2 * u) = t) /\
    (forall s t u, r1 * (a0 * s + b0 * t + c0 * u) + r2 * (a1 * s + b1 * t + c1 * u)
                   + r3 * (a2 * s + b2 * t + c2 * u) = u) /\
    (forall x y z, a0 * (p1 * x + p2 * y + p3 * z) + b0 * (q1 * x + q2 * y + q3 * z)
                   + c0 * (r1 * x + r2 * y + r3 * z) = x) /\
    (forall x y z, a1 * (p1 * x + p2 * y + p3 * z) + b1 * (q1 * x + q2 * y + q3 * z)
                   + c1 * (r1 * x + r2 * y + r3 * z) = y) /\
    (forall x y z, a2 * (p1 * x + p2 * y + p3 * z) + b2 * (q1 * x + q2 * y + q3 * z)
                   + c2 * (r1 * x + r2 * y + r3 * z) = z).
Proof.
  intros D. unfold inv3, det3.
  assert (D' : a0 * (b1 * c2 - b2 * c1) - b0 * (a1 * c2 - a2 * c1) + c0 * (a1 * b2 - a2 * b1) <> 0)
    by (intros E; apply D; rewrite <- E; ring).
  rewrite Rdec_false by exact D'.
  do 9 eexists. split; [reflexivity|].
  split; [|split; [|split; [|split; [|split]]]]; intros; field; exact D'.
Qed.

(** What "inverse maps" means: m goes from the default cell to the cell with vertices vs. *)
Definition inverse_maps (c : cell_type) (vs : list pt) (m i : env -> pt) : Prop :=
  (forall k, (k < length vs)%nat -> m (env_of (nth k (reference_vertices c) [])) = nth k vs []) /\
  (forall X, length X = tdim c -> i (env_of (m (env_of X))) = X) /\
  (forall P, (exists d, points (length vs) d vs /\ length P = d /\
                        (d = tdim c \/ in_affine_hull vs P)) -> m (env_of (i (env_of P))) = P).
Definition has_inverse_maps_to (c : cell_type) (vs : list pt) : Prop :=
  exists m i, get_map_to (default c) vs = Ok m /\ get_inverse_map_to (default c) vs = Ok i /\
              inverse_maps c vs m i.
Definition has_inverse_self_maps (c : cell_type) (vs : list pt) : Prop :=
  exists r m i, make_reference c vs = Ok r /\ get_map_to_self r = Ok m /\
                get_inverse_map_to_self r = Ok i /\ inverse_maps c vs m i.

(** The two families of maps run the same code except for the triangle and the quadrilateral. *)
Lemma self_maps_of c vs r m i :
  make_reference c vs = Ok r -> r_type r = c -> r_vertices r = vs ->
  map_body c vs = Ok m -> get_inverse_map_to_self r = Ok i -> inverse_maps c vs m i ->
  has_inverse_self_maps c vs.
Proof.
  intros Hr Hc Hv Hm Hi H. exists r, m, i. split; [exact Hr|]. split; [|split; [exact Hi|exact H]].
  unfold get_map_to_self. rewrite Hc, Hv. exact Hm.
Qed.

Lemma hull_length vs P w : affine_comb w vs P -> length w = length vs.
Proof. intros [H _]. exact H. Qed.

(** Vertices to vertices, for every cell type and any vertices. *)
Definition nvert (c : cell_type) : nat := length (reference_vertices c).
Lemma map_body_vertices c d vs : match c with CDualPolygon _ => False | _ => True end ->
  points (nvert c) d vs ->
  exists m, map_body c vs = Ok m /\
    forall k, (k < length vs)%nat -> m (env_of (nth k (reference_vertices c) [])) = nth k vs [].
Proof.
  intros Hc [Hl Hf].
  assert (Z : forall ws n, length ws = S n -> Forall (fun v : pt => length v = d) ws ->
     length (zip_star ws) = d /\
     (forall j, (j < d)%nat -> nth j (zip_star ws) [] = map (fun v => nth j v 0) ws)).
  { clear. induction ws as [|w ws IH]; intros n Hl Hf; [discriminate|].
    inversion Hf; subst. destruct ws as [|w' ws].
    - simpl. split; [apply map_length|]. intros j Hj.
      rewrite (nth_indep _ [] ((fun a => [a]) 0)) by (rewrite map_length; exact Hj).
      exact (map_nth (fun a : R => [a]) w 0 j).
    - destruct n; [discriminate|]. destruct (IH n) as [L N]; [simpl in *; lia|assumption|].
      remember (w' :: ws) as W. cbn [zip_star]. rewrite HeqW. rewrite <- HeqW. split.
      + rewrite map_length, combine_length, L. lia.
      + intros j Hj.
        rewrite (nth_indep _ [] ((fun ac => fst ac :: snd ac) (0, []))) by
          (rewrite map_length, combine_length, L; lia).
        rewrite (map_nth (fun ac : R * list R => fst ac :: snd ac)).
        rewrite combine_nth by (symmetry; exact L). simpl. rewrite N by exact Hj. reflexivity. }
  assert (F : forall n, length vs = S n -> forallb (fun col => (length col =? S n)%nat) (zip_star vs) = true).
  { intros n Hn. apply forallb_forall. intros col Hin. apply Nat.eqb_eq.
    destruct (Z vs n Hn Hf) as [L N]. destruct (In_nth _ _ [] Hin) as [j [Hj <-]].
    rewrite N by lia. rewrite map_length. exact Hn. }
  assert (E : forall (f : list R -> R) v n, length vs = S n -> length v = d ->
    (forall j, (j < d)%nat -> f (map (fun w => nth j w 0) vs) = nth j v 0) ->
    map f (zip_star vs) = v).
  { intros f v n Hn Hv H. destruct (Z vs n Hn Hf) as [L N].
    apply (nth_ext _ _ 0 0); [rewrite map_length; lia|]. intros j Hj. rewrite map_length, L in Hj.
    rewrite (nth_indep _ 0 (f [])) by (rewrite map_length, L; exact Hj).
    rewrite (map_nth f), N by exact Hj. apply H; exact Hj. }
  destruct c; try contradiction; unfold nvert in Hl; simpl in Hl.
  1: { destruct vs as [|v [|]]; try discriminate Hl. exists (fun _ => v). split; [reflexivity|].
       intros [|k] Hk; simpl in *; [reflexivity|lia]. }
  all: unfold map_body; rewrite (F _ Hl); eexists; (split; [reflexivity|]); intros k Hk;
    cbv beta; apply (E _ _ _ Hl);
    [ rewrite Forall_forall in Hf; apply Hf; apply nth_In; exact Hk
    | intros j Hj;
      assert (V : forall q, (q < length vs)%nat -> nth q (map (fun w => nth j w 0) vs) 0 = nth j (nth q vs []) 0)
        by (intros q Hq; rewrite (nth_indep _ 0 ((fun w : pt => nth j w 0) [])) by (rewrite map_length; exact Hq);
            exact (map_nth (fun w : pt => nth j w 0) vs [] q));
      rewrite Hl in Hk, V;
      do 8 (destruct k as [|k]; [ rewrite ?V by lia; unfold env_of; cbn [nth reference_vertices]; ring | try lia ])].
Qed.

Ltac explicit X := repeat (destruct X as [|? X]; try discriminate); clear.

Lemma rows3 x0 y0 z0 a0 a1 a2 b0 b1 b2 c0 c1 c2 :
  a0 * (b1 * c2 - b2 * c1) - a1 * (b0 * c2 - b2 * c0) + a2 * (b0 * c1 - b1 * c0) <> 0 ->
  exists rows, matrix3_inv [a0; a1; a2] [b0; b1; b2] [c0; c1; c2] = Ok rows /\
  forall m : env -> pt,
  (forall e, m e = [x0 + a0 * e 0%nat + b0 * e 1%nat + c0 * e 2%nat;
                    y0 + a1 * e 0%nat + b1 * e 1%nat + c1 * e 2%nat;
                    z0 + a2 * e 0%nat + b2 * e 1%nat + c2 * e 2%nat]) ->
  (forall X, length X = 3%nat -> apply_rows 3 rows [x0; y0; z0] (env_of (m (env_of X))) = X) /\
  (forall P, length P = 3%nat -> m (env_of (apply_rows 3 rows [x0; y0; z0] (env_of P))) = P).
Proof.
  intros D. destruct (inv3_spec _ _ _ _ _ _ _ _ _ D)
    as (p1 & p2 & p3 & q1 & q2 & q3 & r1 & r2 & r3 & E & H1 & H2 & H3 & G1 & G2 & G3).
  exists [[p1; p2; p3]; [q1; q2; q3]; [r1; r2; r3]]. split; [exact E|].
  intros m Hm. split.
  - intros [|s [|t [|u [|]]]] HX; try discriminate HX. rewrite Hm.
    unfold apply_rows, xs, vsub, vdot, env_of. cbn [nth firstn map combine fold_left fst snd].
    f_equal; [|f_equal; [|f_equal]].
    + pose proof (H1 s t u). lra.
    + pose proof (H2 s t u). lra.
    + pose proof (H3 s t u). lra.
  - intros [|x [|y [|z [|]]]] HX; try discriminate HX. rewrite Hm.
    unfold apply_rows, xs, vsub, vdot, env_of. cbn [nth firstn map combine fold_left fst snd].
    f_equal; [|f_equal; [|f_equal]].
    + pose proof (G1 (x - x0) (y - y0) (z - z0)). lra.
    + pose proof (G2 (x - x0) (y - y0) (z - z0)). lra.
    + pose proof (G3 (x - x0) (y - y0) (z - z0)). lra.
Qed.

(** Non-degenerate cells with an affine map from the default cell. *)
Definition affine_cell (c : cell_type) (vs : list pt) : Prop :=
  match c with
  | CPoint => exists d, points 1 d vs
  | CInterval => exists d, (d <= 3)%nat /\ points 2 d vs /\ nth 0 vs [] <> nth 1 vs []
  | CTriangle => points 3 2 vs /\ edge_det2 vs 1 2 <> 0
  | CTetrahedron => points 4 3 vs /\ edge_det3 vs 1 2 3 <> 0
  | CQuadrilateral => points 4 2 vs /\ parallelogram vs 0 1 2 3 /\ edge_det2 vs 1 2 <> 0
  | CHexahedron => points 8 3 vs /\ parallelogram vs 0 1 2 3 /\ parallelogram vs 0 1 4 5 /\
      parallelogram vs 0 2 4 6 /\ parallelogram vs 1 3 5 7 /\ parallelogram vs 2 3 6 7 /\
      parallelogram vs 4 5 6 7 /\ edge_det3 vs 1 2 4 <> 0
  | CPrism => points 6 3 vs /\ parallelogram vs 0 1 3 4 /\ parallelogram vs 0 2 3 5 /\
      parallelogram vs 1 2 4 5 /\ edge_det3 vs 1 2 3 <> 0
  | CPyramid | CDualPolygon _ => False
  end.

Lemma inverse_maps_build c vs m i d :
  (d = tdim c) ->
  (forall k, (k < length vs)%nat -> m (env_of (nth k (reference_vertices c) [])) = nth k vs []) ->
  (forall X, length X = d -> i (env_of (m (env_of X))) = X) ->
  (forall P, length P = d -> m (env_of (i (env_of P))) = P) ->
  points (length vs) d vs -> (length vs <> 0)%nat ->
  inverse_maps c vs m i.
Proof.
  intros -> Hv Hx Hp Hpts Hn. split; [exact Hv|]. split; [exact Hx|].
  intros P (d & Hd & HP & _). apply Hp. rewrite HP.
  destruct Hpts as [_ F1], Hd as [_ F2]. destruct vs as [|v vs]; [contradiction Hn; reflexivity|].
  inversion F1; inversion F2; congruence.
Qed.

Lemma get_map_to_default c vs : match c with CDualPolygon _ => False | _ => True end ->
  get_map_to (default c) vs = map_body c vs.
Proof.
  intros H. unfold get_map_to. rewrite is_default_default. destruct c; try reflexivity; contradiction.
Qed.

Ltac pteq tac := repeat (match goal with |- _ :: _ = _ :: _ => apply f_equal2; [tac|] end); try reflexivity.

Lemma tet_maps vs : affine_cell CTetrahedron vs ->
  exists m i, map_body CTetrahedron vs = Ok m /\ affine_inverse 3 vs 1 2 3 = Ok i /\
              assert_gdim vs 3 = Ok tt /\ inverse_maps CTetrahedron vs m i.
Proof.
  intros [Hp Hd]. destruct (map_body_vertices CTetrahedron 3 vs I Hp) as [m [Hm Hv]].
  pose proof Hp as Hp'.
  split_points Hp'. unfold edge_det3, co in Hd. cbn [nth] in Hd.
  match type of Hm with map_body _ [[?x0; ?y0; ?z0]; [?x1; ?y1; ?z1]; [?x2; ?y2; ?z2]; [?x3; ?y3; ?z3]] = _ =>
    destruct (rows3 x0 y0 z0 (x1 - x0) (y1 - y0) (z1 - z0) (x2 - x0) (y2 - y0) (z2 - z0) (x3 - x0) (y3 - y0) (z3 - z0))
      as [rows [Er Hr]]; [exact Hd|] end.
  destruct (Hr m) as [Hx HP].
  { injection Hm as <-. intros e. cbn [zip_star map combine fst snd nth].
    pteq lra. }
  exists m. eexists. split; [exact Hm|]. split.
  { unfold affine_inverse, get. cbn [nth_error rbind].
    unfold vsub. cbn [combine map fst snd]. rewrite Er. reflexivity. }
  split; [reflexivity|].
  apply (inverse_maps_build _ _ _ _ 3); try reflexivity; try assumption. discriminate.
Qed.

Ltac use_parallelograms :=
  repeat match goal with
  | H : parallelogram _ _ _ _ _ |- _ =>
      let H0 := fresh "P" in let H1 := fresh "P" in let H2 := fresh "P" in
      pose proof (H 0%nat) as H0; pose proof (H 1%nat) as H1; pose proof (H 2%nat) as H2;
      unfold co in H0, H1, H2; cbn [nth] in H0, H1, H2; clear H
  end.
Ltac solve_asserts :=
  unfold get; cbn [assert_parallelograms parallelogram_ok get nth_error rbind faces firstn skipn vadd combine map fst snd];
  unfold vadd; cbn [combine map fst snd];
  repeat (rewrite list_dec_true by (pteq lra)); reflexivity.

Lemma hex_maps vs : affine_cell CHexahedron vs ->
  exists m i, map_body CHexahedron vs = Ok m /\ affine_inverse 3 vs 1 2 4 = Ok i /\
              assert_gdim vs 3 = Ok tt /\ assert_parallelograms vs (faces CHexahedron) = Ok tt /\
              inverse_maps CHexahedron vs m i.
Proof.
  intros (Hp & Q1 & Q2 & Q3 & Q4 & Q5 & Q6 & Hd). destruct (map_body_vertices CHexahedron 3 vs I Hp) as [m [Hm Hv]].
  pose proof Hp as Hp'.
  split_points Hp'. use_parallelograms. unfold edge_det3, co in Hd. cbn [nth] in Hd.
  match type of Hm with map_body _ [[?x0; ?y0; ?z0]; [?x1; ?y1; ?z1]; [?x2; ?y2; ?z2]; _; [?x3; ?y3; ?z3]; _; _; _] = _ =>
    destruct (rows3 x0 y0 z0 (x1 - x0) (y1 - y0) (z1 - z0) (x2 - x0) (y2 - y0) (z2 - z0) (x3 - x0) (y3 - y0) (z3 - z0))
      as [rows [Er Hr]]; [exact Hd|] end.
  destruct (Hr m) as [Hx HP].
  { injection Hm as <-. intros e. cbn [zip_star map combine fst snd nth].
    clear -P P0 P1 P2 P3 P4 P5 P6 P7 P8 P9 P10 P11 P12 P13 P14 P15 P16.
    match goal with |- [?a; ?b; ?c] = _ => idtac end.
    assert (T : forall v0 v1 v2 v3 v4 v5 v6 v7 s t u : R, v3 = v1 + v2 - v0 -> v5 = v1 + v4 - v0 ->
       v6 = v2 + v4 - v0 -> v7 = v1 + v2 + v4 - 2 * v0 ->
       (1 - u) * ((1 - t) * ((1 - s) * v0 + s * v1) + t * ((1 - s) * v2 + s * v3))
       + u * ((1 - t) * ((1 - s) * v4 + s * v5) + t * ((1 - s) * v6 + s * v7))
       = v0 + (v1 - v0) * s + (v2 - v0) * t + (v4 - v0) * u) by (intros; subst; ring).
    pteq ltac:(apply T; lra). }
  exists m. eexists. split; [exact Hm|]. split.
  { unfold affine_inverse, get. cbn [nth_error rbind].
    unfold vsub. cbn [combine map fst snd]. rewrite Er. reflexivity. }
  split; [reflexivity|]. split; [solve_asserts|].
  apply (inverse_maps_build _ _ _ _ 3); try reflexivity; try assumption. discriminate.
Qed.

Lemma prism_maps vs : affine_cell CPrism vs ->
  exists m i, map_body CPrism vs = Ok m /\ affine_inverse 3 vs 1 2 3 = Ok i /\
              assert_gdim vs 3 = Ok tt /\
              assert_parallelograms vs (firstn 3 (skipn 1 (faces CPrism))) = Ok tt /\
              inverse_maps CPrism vs m i.
Proof.
  intros (Hp & Q1 & Q2 & Q3 & Hd). destruct (map_body_vertices CPrism 3 vs I Hp) as [m [Hm Hv]].
  pose proof Hp as Hp'.
  split_points Hp'. use_parallelograms. unfold edge_det3, co in Hd. cbn [nth] in Hd.
  match type of Hm with map_body _ [[?x0; ?y0; ?z0]; [?x1; ?y1; ?z1]; [?x2; ?y2; ?z2]; [?x3; ?y3; ?z3]; _; _] = _ =>
    destruct (rows3 x0 y0 z0 (x1 - x0) (y1 - y0) (z1 - z0) (x2 - x0) (y2 - y0) (z2 - z0) (x3 - x0) (y3 - y0) (z3 - z0))
      as [rows [Er Hr]]; [exact Hd|] end.
  destruct (Hr m) as [Hx HP].
  { injection Hm as <-. intros e. cbn [zip_star map combine fst snd nth].
    clear -P P0 P1 P2 P3 P4 P5 P6 P7.
    assert (T : forall v0 v1 v2 v3 v4 v5 s t u : R, v4 = v1 + v3 - v0 -> v5 = v2 + v3 - v0 ->
       (1 - u) * (v0 + s * (v1 - v0) + t * (v2 - v0)) + u * (v3 + s * (v4 - v3) + t * (v5 - v3))
       = v0 + (v1 - v0) * s + (v2 - v0) * t + (v3 - v0) * u) by (intros; subst; ring).
    pteq ltac:(apply T; lra). }
  exists m. eexists. split; [exact Hm|]. split.
  { unfold affine_inverse, get. cbn [nth_error rbind].
    unfold vsub. cbn [combine map fst snd]. rewrite Er. reflexivity. }
  split; [reflexivity|]. split; [solve_asserts|].
  apply (inverse_maps_build _ _ _ _ 3); try reflexivity; try assumption. discriminate.
Qed.

Lemma rows2 x0 y0 a0 a1 b0 b1 :
  a0 * b1 - a1 * b0 <> 0 ->
  exists rows, matrix2_inv [a0; a1] [b0; b1] = Ok rows /\
  forall m : env -> pt,
  (forall e, m e = [x0 + a0 * e 0%nat + b0 * e 1%nat; y0 + a1 * e 0%nat + b1 * e 1%nat]) ->
  (forall X, length X = 2%nat -> apply_rows 2 rows [x0; y0] (env_of (m (env_of X))) = X) /\
  (forall P, length P = 2%nat -> m (env_of (apply_rows 2 rows [x0; y0] (env_of P))) = P).
Proof.
  intros D. destruct (inv2_spec _ _ _ _ D) as (p & q & u & v & E & H1 & H2 & G1 & G2).
  exists [[p; q]; [u; v]]. split; [exact E|].
  intros m Hm. split.
  - intros [|s [|t [|]]] HX; try discriminate HX. rewrite Hm.
    unfold apply_rows, xs, vsub, vdot, env_of. cbn [nth firstn map combine fold_left fst snd].
    f_equal; [|f_equal].
    + pose proof (H1 s t). lra.
    + pose proof (H2 s t). lra.
  - intros [|x [|y [|]]] HX; try discriminate HX. rewrite Hm.
    unfold apply_rows, xs, vsub, vdot, env_of. cbn [nth firstn map combine fold_left fst snd].
    f_equal; [|f_equal].
    + pose proof (G1 (x - x0) (y - y0)). lra.
    + pose proof (G2 (x - x0) (y - y0)). lra.
Qed.

Lemma tri_maps vs : affine_cell CTriangle vs ->
  exists m i, map_body CTriangle vs = Ok m /\ planar_inverse vs = Ok i /\
              assert_gdim vs 2 = Ok tt /\ inverse_maps CTriangle vs m i.
Proof.
  intros [Hp Hd]. destruct (map_body_vertices CTriangle 2 vs I Hp) as [m [Hm Hv]].
  pose proof Hp as Hp'.
  split_points Hp'. unfold edge_det2, co in Hd. cbn [nth] in Hd.
  match type of Hm with map_body _ [[?x0; ?y0]; [?x1; ?y1]; [?x2; ?y2]] = _ =>
    destruct (rows2 x0 y0 (x1 - x0) (y1 - y0) (x2 - x0) (y2 - y0))
      as [rows [Er Hr]]; [exact Hd|] end.
  destruct (Hr m) as [Hx HP].
  { injection Hm as <-. intros e. cbn [zip_star map combine fst snd nth]. pteq lra. }
  exists m. eexists. split; [exact Hm|]. split.
  { unfold planar_inverse, get. cbn [nth_error rbind].
    unfold vsub. cbn [combine map fst snd]. rewrite Er. reflexivity. }
  split; [reflexivity|].
  apply (inverse_maps_build _ _ _ _ 2); try reflexivity; try assumption. discriminate.
Qed.

Lemma quad_maps vs : affine_cell CQuadrilateral vs ->
  exists m i, map_body CQuadrilateral vs = Ok m /\ quad_inverse 2 vs = Ok i /\
              inverse_maps CQuadrilateral vs m i.
Proof.
  intros (Hp & Q1 & Hd). destruct (map_body_vertices CQuadrilateral 2 vs I Hp) as [m [Hm Hv]].
  pose proof Hp as Hp'.
  split_points Hp'. use_parallelograms. unfold edge_det2, co in Hd. cbn [nth] in Hd.
  match type of Hm with map_body _ [[?x0; ?y0]; [?x1; ?y1]; [?x2; ?y2]; _] = _ =>
    destruct (rows2 x0 y0 (x1 - x0) (y1 - y0) (x2 - x0) (y2 - y0))
      as [rows [Er Hr]]; [exact Hd|] end.
  destruct (Hr m) as [Hx HP].
  { injection Hm as <-. intros e. cbn [zip_star map combine fst snd nth].
    clear -P P0 P1.
    assert (T : forall v0 v1 v2 v3 s t : R, v3 = v1 + v2 - v0 ->
       (1 - t) * ((1 - s) * v0 + s * v1) + t * ((1 - s) * v2 + s * v3)
       = v0 + (v1 - v0) * s + (v2 - v0) * t) by (intros; subst; ring).
    pteq ltac:(apply T; lra). }
  exists m. eexists. split; [exact Hm|]. split.
  { unfold quad_inverse, get. cbn [nth_error rbind].
    replace (assert_parallelograms _ _) with (Ok tt) by (symmetry; solve_asserts). cbn [rbind].
    unfold vsub. cbn [combine map fst snd]. rewrite Er. reflexivity. }
  apply (inverse_maps_build _ _ _ _ 2); try reflexivity; try assumption. discriminate.
Qed.

(** Affine combinations of two points. *)
Lemma affine_comb_2 w (v0 v1 P : list R) : affine_comb w [v0; v1] P ->
  exists s, forall j, (j < length P)%nat -> nth j P 0 = nth j v0 0 + (nth j v1 0 - nth j v0 0) * s.
Proof.
  intros (Hl & Hs & H). destruct w as [|w0 [|w1 [|]]]; try discriminate Hl. exists w1.
  intros j Hj. rewrite (H j Hj). unfold sumR in *. cbn [combine map fold_right fst snd] in *.
  replace w0 with (1 - w1) by lra. ring.
Qed.

Lemma vdot_cons a b v w : vdot (a :: v) (b :: w) = a * b + vdot v w.
Proof.
  unfold vdot. cbn [combine fold_left fst snd].
  assert (H : forall l (s : R), fold_left (fun (out : R) (ij : R * R) => out + fst ij * snd ij) l s
     = s + fold_left (fun (out : R) (ij : R * R) => out + fst ij * snd ij) l 0).
  { clear. induction l as [|x l IH]; intros s; simpl; [ring|]. rewrite IH. rewrite (IH (0 + _)). ring. }
  rewrite H. ring.
Qed.
Lemma vdot_nil_l w : vdot [] w = 0. Proof. reflexivity. Qed.

Lemma sq_sum_pos l : (exists a, In a l /\ a <> 0) -> vdot l l > 0.
Proof.
  assert (N : forall l, vdot l l >= 0).
  { induction l0 as [|x l0 IH]; [unfold vdot; simpl; lra|]. rewrite vdot_cons. nra. }
  intros [a [Hin Ha]]. induction l as [|x l IH]; [contradiction|]. rewrite vdot_cons.
  destruct Hin as [->|Hin]; [pose proof (N l); nra|]. pose proof (IH Hin). nra.
Qed.

Lemma interval_maps vs : affine_cell CInterval vs ->
  exists m i, map_body CInterval vs = Ok m /\ interval_inverse vs = Ok i /\
              inverse_maps CInterval vs m i.
Proof.
  intros (d & Hd & Hp & Hne). destruct (map_body_vertices CInterval d vs I Hp) as [m [Hm Hv]].
  exists m. destruct Hp as [Hl Hf]. destruct vs as [|v0 [|v1 [|]]]; try discriminate Hl.
  inversion Hf as [|? ? L0 Hf']; subst. inversion Hf' as [|? ? L1 _]; subst. cbn [nth] in Hne.
  assert (Dpos : vdot (vsub v1 v0) (vsub v1 v0) > 0).
  { apply sq_sum_pos. clear -L1 Hne. revert v1 L1 Hne. induction v0 as [|a v0 IH]; intros [|b v1] L Hne; try discriminate L.
    - contradiction Hne; reflexivity.
    - destruct (Req_EM_T b a) as [->|N].
      + destruct (IH v1) as [x [Hin Hx]]; [simpl in L; lia|congruence|]. exists x. split; [right; exact Hin|exact Hx].
      + exists (b - a). split; [left; reflexivity|lra]. }
  eexists. split; [exact Hm|]. split; [reflexivity|].
  assert (Key : forall P s, length P = length v0 ->
     (forall j, (j < length P)%nat -> nth j P 0 = nth j v0 0 + (nth j v1 0 - nth j v0 0) * s) ->
     vdot (vsub (xs (env_of P)) v0) (vsub v1 v0) * 1 / vdot (vsub v1 v0) (vsub v1 v0) = s).
  { intros P s HP HS.
    assert (E : vdot (vsub (xs (env_of P)) v0) (vsub v1 v0) = s * vdot (vsub v1 v0) (vsub v1 v0)).
    { clear -Hd L1 HP HS.
      destruct v0 as [|a0 [|a1 [|a2 [|]]]]; simpl in Hd; try lia;
      destruct v1 as [|b0 [|b1 [|b2 [|]]]]; try discriminate L1;
      destruct P as [|p0 [|p1 [|p2 [|]]]]; try discriminate HP;
      try (pose proof (HS 0%nat ltac:(simpl; lia)) as S0; cbn [nth] in S0; subst);
      try (pose proof (HS 1%nat ltac:(simpl; lia)) as S1; cbn [nth] in S1; subst);
      try (pose proof (HS 2%nat ltac:(simpl; lia)) as S2; cbn [nth] in S2; subst);
      unfold vsub, xs, env_of; cbn [combine map fst snd nth]; rewrite ?vdot_cons, ?vdot_nil_l; try ring. }
    rewrite E. field. lra. }
  assert (Mval : forall e, length (m e) = length v0 /\
     forall j, (j < length v0)%nat -> nth j (m e) 0 = nth j v0 0 + (nth j v1 0 - nth j v0 0) * e 0%nat).
  { unfold map_body in Hm. destruct (forallb _ _); [|discriminate Hm]. injection Hm as <-.
    intros e. cbn [zip_star]. rewrite !map_length, combine_length, map_length. split; [lia|].
    clear -L1. intros j Hj. revert j v1 L1 Hj. induction v0 as [|a v0 IH]; intros j [|b v1] L Hj; simpl in Hj, L; try lia.
    destruct j as [|j]; [reflexivity|]. cbn [map combine nth]. apply IH; lia. }
  split; [exact Hv|]. split.
  - intros [|s [|]] HX; try discriminate HX. destruct (Mval (env_of [s])) as [ML MN].
    f_equal. apply Key; [exact ML|]. intros j Hj. rewrite ML in Hj. rewrite (MN j Hj). reflexivity.
  - intros P (d & [_ Hd'] & HP & HH). assert (L0' : length v0 = d) by (inversion Hd'; assumption).
    rewrite <- L0' in HP, HH. clear d L0' Hd'.
    assert (HS : exists s, forall j, (j < length P)%nat -> nth j P 0 = nth j v0 0 + (nth j v1 0 - nth j v0 0) * s).
    { destruct HH as [HH|[w Hw]]; [|apply (affine_comb_2 w); exact Hw].
      rewrite <- HP in HH. destruct P as [|p [|]]; try discriminate HH.
      destruct v0 as [|a [|]]; try discriminate HP. destruct v1 as [|b [|]]; try discriminate L1.
      exists ((p - a) / (b - a)). intros [|j] Hj; [|simpl in Hj; lia]. cbn [nth].
      field. intros E. apply Hne. f_equal. lra. }
    destruct HS as [s HS]. rewrite (Key P s HP HS).
    destruct (Mval (env_of [s])) as [ML MN].
    apply (nth_ext _ _ 0 0); [lia|]. intros j Hj. rewrite ML in Hj. rewrite (MN j Hj).
    symmetry. apply HS. lia.
Qed.

Lemma point_maps vs : affine_cell CPoint vs ->
  exists m, map_body CPoint vs = Ok m /\ inverse_maps CPoint vs m (fun _ => []).
Proof.
  intros [d Hp]. destruct (map_body_vertices CPoint d vs I Hp) as [m [Hm Hv]].
  exists m. split; [exact Hm|]. split; [exact Hv|]. split.
  - intros [|] HX; [reflexivity|discriminate HX].
  - destruct Hp as [Hl Hf]. destruct vs as [|v [|]]; try discriminate Hl.
    injection Hm as <-. intros P (d' & [_ Hd'] & HP & HH). assert (L : length v = d') by (inversion Hd'; assumption).
    rewrite <- L in HP, HH.
    destruct HH as [HH|[w (Hw & Hs & HH)]].
    + rewrite HH in HP. simpl in HP, HH. destruct P; [|discriminate]. destruct v; [reflexivity|discriminate].
    + destruct w as [|w0 [|]]; try discriminate Hw. unfold sumR in *. simpl in Hs.
      apply (nth_ext _ _ 0 0); [lia|]. intros j Hj. rewrite (HH j) by lia.
      cbn [combine map fold_right fst snd]. replace w0 with 1 by lra. ring.
Qed.

Lemma maps_to_inverse c vs : affine_cell c vs -> has_inverse_maps_to c vs.
Proof.
  intros H. unfold has_inverse_maps_to.
  assert (Hc : match c with CDualPolygon _ => False | _ => True end) by (destruct c; try exact I; contradiction).
  rewrite (get_map_to_default c vs Hc).
  unfold get_inverse_map_to. rewrite is_default_default.
  destruct c; try contradiction.
  - destruct (point_maps vs H) as (m & Hm & HI). exists m, (fun _ => []). split; [exact Hm|]. split; [reflexivity|exact HI].
  - destruct (interval_maps vs H) as (m & i & Hm & Hi & HI). exists m, i. auto.
  - destruct (tri_maps vs H) as (m & i & Hm & Hi & Ha & HI). exists m, i. split; [exact Hm|]. split; [|exact HI].
    cbn [default r_type make_reference reference_vertices]. rewrite Ha. exact Hi.
  - destruct (tet_maps vs H) as (m & i & Hm & Hi & Ha & HI). exists m, i. split; [exact Hm|]. split; [|exact HI].
    cbn [default r_type make_reference reference_vertices]. rewrite Ha. exact Hi.
  - destruct (quad_maps vs H) as (m & i & Hm & Hi & HI). exists m, i. split; [exact Hm|]. split; [exact Hi|exact HI].
  - destruct (hex_maps vs H) as (m & i & Hm & Hi & Ha & Hb & HI). exists m, i. split; [exact Hm|]. split; [|exact HI].
    cbn [default r_type make_reference reference_vertices]. rewrite Ha, Hb. exact Hi.
  - destruct (prism_maps vs H) as (m & i & Hm & Hi & Ha & Hb & HI). exists m, i. split; [exact Hm|]. split; [|exact HI].
    cbn [default r_type make_reference reference_vertices]. rewrite Ha, Hb. exact Hi.
Qed.

Lemma make_reference_ok c vs : match c with CDualPolygon _ => False | _ => True end ->
  length vs = nvert c -> exists r, make_reference c vs = Ok r /\ r_type r = c /\ r_vertices r = vs /\ r_origin r = nth 0 vs [].
Proof.
  intros Hc Hl. destruct c; try contradiction; unfold nvert in Hl; simpl in Hl;
  repeat (destruct vs as [|? vs]; try discriminate Hl); eexists; repeat (split; [reflexivity|]); reflexivity.
Qed.

Lemma affine_points c vs : affine_cell c vs -> length vs = nvert c.
Proof.
  destruct c; simpl; try contradiction;
  [intros [d [H _]]|intros (d & _ & [H _] & _)|intros [[H _] _]..]; exact H.
Qed.

Lemma self_maps_inverse c vs : affine_cell c vs -> has_inverse_self_maps c vs.
Proof.
  intros H.
  assert (Hc : match c with CDualPolygon _ => False | _ => True end) by (destruct c; try exact I; contradiction).
  destruct (make_reference_ok c vs Hc (affine_points c vs H)) as (r & Hr & Ht & Hv & Ho).
  destruct c; try contradiction.
  - destruct (point_maps vs H) as (m & Hm & HI). apply (self_maps_of _ vs r m (fun _ => [])); auto.
    unfold get_inverse_map_to_self. rewrite Ht. reflexivity.
  - destruct (interval_maps vs H) as (m & i & Hm & Hi & HI). apply (self_maps_of _ vs r m i); auto.
    unfold get_inverse_map_to_self. rewrite Ht, Hv. exact Hi.
  - destruct (tri_maps vs H) as (m & i & Hm & Hi & Ha & HI). apply (self_maps_of _ vs r m i); auto.
    unfold get_inverse_map_to_self, self_dim. rewrite Ht, Hv.
    unfold assert_gdim, get in Ha. destruct vs as [|v vs]; [discriminate Ha|]. cbn [nth_error rbind] in Ha.
    destruct (length v =? 2)%nat; [exact Hi|discriminate Ha].
  - destruct (tet_maps vs H) as (m & i & Hm & Hi & Ha & HI). apply (self_maps_of _ vs r m i); auto.
    unfold get_inverse_map_to_self. rewrite Ht, Hv. exact Hi.
  - destruct (quad_maps vs H) as (m & i & Hm & Hi & HI). apply (self_maps_of _ vs r m i); auto.
    unfold get_inverse_map_to_self, self_dim. rewrite Ht, Hv.
    destruct H as [[Hl Hf] _]. destruct vs as [|v vs]; [discriminate Hl|]. inversion Hf as [|? ? L _]; subst.
    rewrite L. exact Hi.
  - destruct (hex_maps vs H) as (m & i & Hm & Hi & Ha & Hb & HI). apply (self_maps_of _ vs r m i); auto.
    unfold get_inverse_map_to_self. rewrite Ht, Hv, Ha, Hb. exact Hi.
  - destruct (prism_maps vs H) as (m & i & Hm & Hi & Ha & Hb & HI). apply (self_maps_of _ vs r m i); auto.
    unfold get_inverse_map_to_self. rewrite Ht, Hv, Ha, Hb. exact Hi.
Qed.

Lemma apply_rows_firstn rows v0 e : apply_rows 2 rows v0 e = firstn 2 (apply_rows 3 rows v0 e).
Proof. unfold apply_rows. rewrite firstn_map, firstn_firstn. reflexivity. Qed.

(** Components of the cross product of the edge vectors from vertex 0 to vertices i and j. *)
Definition edge_minor (vs : list pt) (i j p q : nat) : R :=
  (co vs i p - co vs 0 p) * (co vs j q - co vs 0 q) - (co vs i q - co vs 0 q) * (co vs j p - co vs 0 p).

Lemma quad3_self_maps vs : points 4 3 vs -> parallelogram vs 0 1 2 3 ->
  (edge_minor vs 1 2 0 1 <> 0 \/ edge_minor vs 1 2 0 2 <> 0 \/ edge_minor vs 1 2 1 2 <> 0) ->
  has_inverse_self_maps CQuadrilateral vs.
Proof.
  intros Hp Q1 Hd. destruct (map_body_vertices CQuadrilateral 3 vs I Hp) as [m [Hm Hv]].
  pose proof Hp as Hp'.
  split_points Hp'. use_parallelograms. unfold edge_minor, co in Hd. cbn [nth] in Hd.
  match type of Hm with map_body _ [[?x0; ?y0; ?z0]; [?x1; ?y1; ?z1]; [?x2; ?y2; ?z2]; _] = _ =>
    set (n0 := (y1 - y0) * (z2 - z0) - (z1 - z0) * (y2 - y0));
    set (n1 := (z1 - z0) * (x2 - x0) - (x1 - x0) * (z2 - z0));
    set (n2 := (x1 - x0) * (y2 - y0) - (y1 - y0) * (x2 - x0));
    destruct (rows3 x0 y0 z0 (x1 - x0) (y1 - y0) (z1 - z0) (x2 - x0) (y2 - y0) (z2 - z0) n0 n1 n2)
      as [rows [Er Hr]];
    [ assert (N : n0 <> 0 \/ n1 <> 0 \/ n2 <> 0) by
        (destruct Hd as [Hd|[Hd|Hd]]; [right; right|right; left|left]; intros E; apply Hd;
         unfold n0, n1, n2 in E; lra);
      assert (S2 : n0 * n0 + n1 * n1 + n2 * n2 > 0) by (destruct N as [N|[N|N]]; nra);
      intros E; apply (Rgt_not_eq _ _ S2); rewrite <- E; unfold n0, n1, n2; ring |];
    set (mm := fun e : env => [x0 + (x1 - x0) * e 0%nat + (x2 - x0) * e 1%nat + n0 * e 2%nat;
                               y0 + (y1 - y0) * e 0%nat + (y2 - y0) * e 1%nat + n1 * e 2%nat;
                               z0 + (z1 - z0) * e 0%nat + (z2 - z0) * e 1%nat + n2 * e 2%nat]);
    destruct (Hr mm (fun e => eq_refl)) as [Hx _];
    assert (Mm : forall e, m e = mm (fun k => if (k =? 2)%nat then 0 else e k)) by
     (injection Hm as <-; intros e; unfold mm; cbn [zip_star map combine fst snd nth Nat.eqb];
      assert (T : forall v0 v1 v2 v3 s t w : R, v3 = v1 + v2 - v0 ->
       (1 - t) * ((1 - s) * v0 + s * v1) + t * ((1 - s) * v2 + s * v3)
       = v0 + (v1 - v0) * s + (v2 - v0) * t + w * 0) by (intros; subst; ring);
      pteq ltac:(apply T; lra))
  end.
  match type of Hx with forall X, _ -> apply_rows 3 _ ?v0 _ = _ =>
    assert (Inv : forall s t, apply_rows 2 rows v0 (env_of (m (env_of [s; t]))) = [s; t]) end.
  { intros s t. rewrite apply_rows_firstn, Mm.
    replace (mm (fun k => if (k =? 2)%nat then 0 else env_of [s; t] k)) with (mm (env_of [s; t; 0])) by reflexivity.
    rewrite Hx by reflexivity. reflexivity. }
  eexists. exists m. eexists. split; [reflexivity|]. split; [exact Hm|]. split.
  { unfold get_inverse_map_to_self, quad_inverse, self_dim, get. cbn [r_type r_vertices length nth_error rbind].
    replace (assert_parallelograms _ _) with (Ok tt) by (symmetry; solve_asserts). cbn [rbind].
    unfold vsub. cbn [combine map fst snd vcross rbind]. fold n0 n1 n2. rewrite Er. reflexivity. }
  split; [exact Hv|]. split.
  - intros [|s [|t [|]]] HX; try discriminate HX. apply Inv.
  - intros PP (d & [_ Hd'] & HP & HH). assert (D3 : d = 3%nat) by (inversion Hd'; symmetry; assumption).
    rewrite D3 in HP, HH. destruct HH as [HH|[w (Hw & Hs & HH)]]; [discriminate HH|].
    destruct w as [|w0 [|w1 [|w2 [|w3 [|]]]]]; try discriminate Hw.
    destruct PP as [|p0 [|p1 [|p2 [|]]]]; try discriminate HP.
    assert (EP : [p0; p1; p2] = m (env_of [w1 + w3; w2 + w3])).
    { rewrite Mm. unfold mm, env_of. unfold sumR in *.
      pose proof (HH 0%nat ltac:(simpl; lia)) as S0. pose proof (HH 1%nat ltac:(simpl; lia)) as S1.
      pose proof (HH 2%nat ltac:(simpl; lia)) as S2. cbn [combine map fold_right fst snd nth] in *.
      cbn [nth Nat.eqb].
      clear -S0 S1 S2 Hs P P0 P1.
      assert (T : forall p v0 v1 v2 v3 n : R, p = w0 * v0 + (w1 * v1 + (w2 * v2 + (w3 * v3 + 0))) ->
          v0 + v3 = v1 + v2 -> p = v0 + (v1 - v0) * (w1 + w3) + (v2 - v0) * (w2 + w3) + n * 0).
      { intros p v0 v1 v2 v3 n -> E. replace v3 with (v1 + v2 - v0) by lra.
        replace w0 with (1 - w1 - w2 - w3) by lra. ring. }
      pteq ltac:(eapply T; [eassumption|lra]). }
    rewrite EP. f_equal. f_equal. apply Inv.
Qed.
