(** Proofs about point_in_interval, point_in_triangle, point_in_quadrilateral, point_in_tetrahedron. *)
From Coq Require Import Reals ZArith Arith Bool Lia Lra Psatz List.
From Verif Require Import Base ReferencesModel ReferencesSpec ReferencesGeometry GeometryModel.
Import ListNotations.
Local Open Scope R_scope.

Lemma snap_exact c v : snap false c v = v.
Proof. reflexivity. Qed.

Ltac split_points H :=
  let Hl := fresh "Hl" in let Hf := fresh "Hf" in destruct H as [Hl Hf];
  repeat match type of Hl with length ?l = S _ => destruct l as [|? l]; [discriminate Hl|]; injection Hl as Hl end;
  match type of Hl with length ?l = 0%nat => destruct l; [|discriminate Hl] end; clear Hl;
  repeat match goal with H : Forall _ (_ :: _) |- _ => inversion_clear H end;
  repeat match goal with H : Forall _ [] |- _ => clear H end.

Ltac coords H :=
  match type of H with length ?l = _ =>
    repeat (match type of H with length ?l = S _ => destruct l as [|? l]; [discriminate H|]; injection H as H end);
    match type of H with length ?l = 0%nat => destruct l; [|discriminate H] end; clear H
  end.

Ltac all_coords := repeat match goal with H : length (_ : list R) = _ |- _ => coords H end.

Lemma g_div_ok a b : b <> 0 -> g_div a b = Ok (a / b).
Proof. intros H. unfold g_div. destruct (Req_EM_T b 0); [contradiction|reflexivity]. Qed.

Lemma interval_core a b p : a <> b ->
  decides (point_in_interval false [p] [[a]; [b]]) (in_hull [[a]; [b]] [p]).
Proof.
  intros Hd. unfold point_in_interval, get, g_vsub. cbn [nth_error rbind combine map fst snd].
  rewrite g_div_ok by lra. cbn [rbind]. rewrite !snap_exact.
  set (v := (p - a) / (b - a)).
  assert (E : p = a + v * (b - a)) by (unfold v; field; lra). clearbody v.
  apply decides_intro.
  - intros H. apply andb_prop in H. destruct H as [H1 H2]. apply rle_iff in H1. apply rle_iff in H2.
    give_weights [1 - v; v]; try lra.
  - intros H. hull_weights.
    assert (Hw : (b - a) * (v - r0) = 0).
    { assert (r = 1 - r0) by lra. subst r. lra. }
    apply Rmult_integral in Hw. destruct Hw as [Hw|Hw]; [lra|]. assert (v = r0) by lra. subst v.
    apply andb_false_iff in H. destruct H as [H|H]; apply rle_false in H; lra.
Qed.

Lemma interval_decides p vs : points 2 1 vs -> co vs 0 0 <> co vs 1 0 -> length p = 1%nat ->
  decides (point_in_interval false p vs) (in_hull vs p).
Proof.
  intros Hv Hd Hp. change pt with (list R) in *. split_points Hv. all_coords. apply interval_core. exact Hd.
Qed.

(** Solutions of 2x2 and 3x3 linear systems are unique. *)
Lemma cramer2 a b c d x y x' y' : a * d - b * c <> 0 ->
  a * x + b * y = a * x' + b * y' -> c * x + d * y = c * x' + d * y' -> x = x' /\ y = y'.
Proof.
  intros D H1 H2.
  assert (E1 : (a * d - b * c) * (x - x') = 0)
    by (replace ((a * d - b * c) * (x - x')) with
          (d * (a * x + b * y - (a * x' + b * y')) - b * (c * x + d * y - (c * x' + d * y'))) by ring;
        rewrite H1, H2; ring).
  assert (E2 : (a * d - b * c) * (y - y') = 0)
    by (replace ((a * d - b * c) * (y - y')) with
          (a * (c * x + d * y - (c * x' + d * y')) - c * (a * x + b * y - (a * x' + b * y'))) by ring;
        rewrite H1, H2; ring).
  apply Rmult_integral in E1. apply Rmult_integral in E2. lra.
Qed.

Lemma triangle_core x0 y0 x1 y1 x2 y2 px py : edge_det2 [[x0; y0]; [x1; y1]; [x2; y2]] 1 2 <> 0 ->
  decides (point_in_triangle false [px; py] [[x0; y0]; [x1; y1]; [x2; y2]])
          (in_hull [[x0; y0]; [x1; y1]; [x2; y2]] [px; py]).
Proof.
  unfold edge_det2, co. cbn [nth]. intros Hd.
  unfold point_in_triangle, get, g_vsub, g_vdot. cbn [nth_error rbind combine map fst snd fold_left].
  set (a := x1 - x0) in *. set (b := y1 - y0) in *. set (c := x2 - x0) in *. set (d := y2 - y0) in *.
  set (q := px - x0). set (s := py - y0).
  assert (G : (0 + c * c + d * d) * (0 + a * a + b * b) - (0 + c * a + d * b) * (0 + c * a + d * b)
              = (a * d - b * c) * (a * d - b * c)) by ring.
  rewrite G. assert (G' : (a * d - b * c) * (a * d - b * c) <> 0) by (apply Rmult_integral_contrapositive; auto).
  rewrite !g_div_ok by exact G'. cbn [rbind]. rewrite !snap_exact.
  set (u := _ / _). set (v := _ / _).
  assert (Eu : u = (a * s - b * q) / (a * d - b * c)) by (unfold u; field; exact Hd).
  assert (Ev : v = (q * d - s * c) / (a * d - b * c)) by (unfold v; field; exact Hd).
  assert (Ex : px = x0 + v * (x1 - x0) + u * (x2 - x0))
    by (rewrite Eu, Ev; unfold q, s; fold a b c d; replace px with (x0 + q) by (unfold q; ring); field; exact Hd).
  assert (Ey : py = y0 + v * (y1 - y0) + u * (y2 - y0))
    by (rewrite Eu, Ev; unfold q, s; fold a b c d; replace py with (y0 + s) by (unfold s; ring); field; exact Hd).
  clearbody u v. clear Eu Ev G G'.
  apply decides_intro.
  - intros H. apply andb_prop in H. destruct H as [H H3]. apply andb_prop in H. destruct H as [H1 H2].
    apply rle_iff in H1. apply rle_iff in H2. apply rle_iff in H3.
    give_weights [1 - u - v; v; u]; try lra.
  - intros H. hull_weights.
    destruct (cramer2 a c b d v u r0 r1) as [-> ->].
    + lra.
    + unfold a, c. assert (r = 1 - r0 - r1) by lra. subst r. lra.
    + unfold b, d. assert (r = 1 - r0 - r1) by lra. subst r. lra.
    + apply andb_false_iff in H. destruct H as [H|H]; [apply andb_false_iff in H; destruct H as [H|H]|];
        apply rle_false in H; lra.
Qed.

Lemma triangle_decides p vs : points 3 2 vs -> edge_det2 vs 1 2 <> 0 -> length p = 2%nat ->
  decides (point_in_triangle false p vs) (in_hull vs p).
Proof.
  intros Hv Hd Hp. change pt with (list R) in *. split_points Hv. all_coords. apply triangle_core. exact Hd.
Qed.

Definition det33 a0 a1 a2 b0 b1 b2 c0 c1 c2 : R :=
  a0 * (b1 * c2 - b2 * c1) - a1 * (b0 * c2 - b2 * c0) + a2 * (b0 * c1 - b1 * c0).

Lemma cramer3 a0 a1 a2 b0 b1 b2 c0 c1 c2 x y z x' y' z' : det33 a0 a1 a2 b0 b1 b2 c0 c1 c2 <> 0 ->
  a0 * x + b0 * y + c0 * z = a0 * x' + b0 * y' + c0 * z' ->
  a1 * x + b1 * y + c1 * z = a1 * x' + b1 * y' + c1 * z' ->
  a2 * x + b2 * y + c2 * z = a2 * x' + b2 * y' + c2 * z' -> x = x' /\ y = y' /\ z = z'.
Proof.
  intros D H0 H1 H2.
  set (e0 := a0 * (x - x') + b0 * (y - y') + c0 * (z - z')).
  set (e1 := a1 * (x - x') + b1 * (y - y') + c1 * (z - z')).
  set (e2 := a2 * (x - x') + b2 * (y - y') + c2 * (z - z')).
  assert (E0 : e0 = 0) by (unfold e0; lra). assert (E1 : e1 = 0) by (unfold e1; lra).
  assert (E2 : e2 = 0) by (unfold e2; lra).
  assert (X : det33 a0 a1 a2 b0 b1 b2 c0 c1 c2 * (x - x')
              = e0 * (b1 * c2 - b2 * c1) - e1 * (b0 * c2 - b2 * c0) + e2 * (b0 * c1 - b1 * c0))
    by (unfold e0, e1, e2, det33; ring).
  assert (Y : det33 a0 a1 a2 b0 b1 b2 c0 c1 c2 * (y - y')
              = - e0 * (a1 * c2 - a2 * c1) + e1 * (a0 * c2 - a2 * c0) - e2 * (a0 * c1 - a1 * c0))
    by (unfold e0, e1, e2, det33; ring).
  assert (Z : det33 a0 a1 a2 b0 b1 b2 c0 c1 c2 * (z - z')
              = e0 * (a1 * b2 - a2 * b1) - e1 * (a0 * b2 - a2 * b0) + e2 * (a0 * b1 - a1 * b0))
    by (unfold e0, e1, e2, det33; ring).
  rewrite E0, E1, E2 in X, Y, Z.
  assert (X' : det33 a0 a1 a2 b0 b1 b2 c0 c1 c2 * (x - x') = 0) by (rewrite X; ring).
  assert (Y' : det33 a0 a1 a2 b0 b1 b2 c0 c1 c2 * (y - y') = 0) by (rewrite Y; ring).
  assert (Z' : det33 a0 a1 a2 b0 b1 b2 c0 c1 c2 * (z - z') = 0) by (rewrite Z; ring).
  apply Rmult_integral in X'. apply Rmult_integral in Y'. apply Rmult_integral in Z'. lra.
Qed.

Lemma tetrahedron_core x0 y0 z0 x1 y1 z1 x2 y2 z2 x3 y3 z3 px py pz :
  edge_det3 [[x0; y0; z0]; [x1; y1; z1]; [x2; y2; z2]; [x3; y3; z3]] 1 2 3 <> 0 ->
  decides (point_in_tetrahedron false [px; py; pz] [[x0; y0; z0]; [x1; y1; z1]; [x2; y2; z2]; [x3; y3; z3]])
          (in_hull [[x0; y0; z0]; [x1; y1; z1]; [x2; y2; z2]; [x3; y3; z3]] [px; py; pz]).
Proof.
  unfold edge_det3, co. cbn [nth]. intros Hd.
  unfold point_in_tetrahedron, get, g_vsub, g_vdot. cbn [nth_error rbind combine map fst snd fold_left].
  set (a0 := x1 - x0) in *. set (a1 := y1 - y0) in *. set (a2 := z1 - z0) in *.
  set (b0 := x2 - x0) in *. set (b1 := y2 - y0) in *. set (b2 := z2 - z0) in *.
  set (c0 := x3 - x0) in *. set (c1 := y3 - y0) in *. set (c2 := z3 - z0) in *.
  set (q0 := px - x0). set (q1 := py - y0). set (q2 := pz - z0).
  set (D := det33 a0 a1 a2 b0 b1 b2 c0 c1 c2).
  assert (HD : D <> 0) by (unfold D, det33; exact Hd).
  match goal with |- decides (rbind (g_div ?n ?d) _) _ =>
    assert (G : d = D * D) by (unfold D, det33; ring); rewrite G end.
  assert (G' : D * D <> 0) by (apply Rmult_integral_contrapositive; auto).
  rewrite !g_div_ok by exact G'. cbn [rbind]. rewrite !snap_exact.
  match goal with |- decides (Ok (rle 0 ?e && rle 0 ?f && rle 0 ?g && _)) _ =>
    set (u := e) in *; set (v := f) in *; set (w := g) in * end.
  assert (Eu : u = det33 a0 a1 a2 b0 b1 b2 q0 q1 q2 / D)
    by (unfold u; replace (det33 a0 a1 a2 b0 b1 b2 q0 q1 q2 / D)
          with (det33 a0 a1 a2 b0 b1 b2 q0 q1 q2 * D / (D * D)) by (field; exact HD);
        f_equal; unfold D, det33; ring).
  assert (Ev : v = det33 a0 a1 a2 q0 q1 q2 c0 c1 c2 / D)
    by (unfold v; replace (det33 a0 a1 a2 q0 q1 q2 c0 c1 c2 / D)
          with (det33 a0 a1 a2 q0 q1 q2 c0 c1 c2 * D / (D * D)) by (field; exact HD);
        f_equal; unfold D, det33; ring).
  assert (Ew : w = det33 q0 q1 q2 b0 b1 b2 c0 c1 c2 / D)
    by (unfold w; replace (det33 q0 q1 q2 b0 b1 b2 c0 c1 c2 / D)
          with (det33 q0 q1 q2 b0 b1 b2 c0 c1 c2 * D / (D * D)) by (field; exact HD);
        f_equal; unfold D, det33; ring).
  assert (Ex : px = x0 + w * (x1 - x0) + v * (x2 - x0) + u * (x3 - x0)).
  { rewrite Eu, Ev, Ew. fold a0 b0 c0. replace px with (x0 + q0) by (unfold q0; ring).
    apply (Rmult_eq_reg_r D); [|exact HD].
    replace ((x0 + det33 q0 q1 q2 b0 b1 b2 c0 c1 c2 / D * a0 + det33 a0 a1 a2 q0 q1 q2 c0 c1 c2 / D * b0
              + det33 a0 a1 a2 b0 b1 b2 q0 q1 q2 / D * c0) * D)
      with (x0 * D + det33 q0 q1 q2 b0 b1 b2 c0 c1 c2 * a0 + det33 a0 a1 a2 q0 q1 q2 c0 c1 c2 * b0
              + det33 a0 a1 a2 b0 b1 b2 q0 q1 q2 * c0) by (field; exact HD).
    unfold D, det33. ring. }
  assert (Ey : py = y0 + w * (y1 - y0) + v * (y2 - y0) + u * (y3 - y0)).
  { rewrite Eu, Ev, Ew. fold a1 b1 c1. replace py with (y0 + q1) by (unfold q1; ring).
    apply (Rmult_eq_reg_r D); [|exact HD].
    replace ((y0 + det33 q0 q1 q2 b0 b1 b2 c0 c1 c2 / D * a1 + det33 a0 a1 a2 q0 q1 q2 c0 c1 c2 / D * b1
              + det33 a0 a1 a2 b0 b1 b2 q0 q1 q2 / D * c1) * D)
      with (y0 * D + det33 q0 q1 q2 b0 b1 b2 c0 c1 c2 * a1 + det33 a0 a1 a2 q0 q1 q2 c0 c1 c2 * b1
              + det33 a0 a1 a2 b0 b1 b2 q0 q1 q2 * c1) by (field; exact HD).
    unfold D, det33. ring. }
  assert (Ez : pz = z0 + w * (z1 - z0) + v * (z2 - z0) + u * (z3 - z0)).
  { rewrite Eu, Ev, Ew. fold a2 b2 c2. replace pz with (z0 + q2) by (unfold q2; ring).
    apply (Rmult_eq_reg_r D); [|exact HD].
    replace ((z0 + det33 q0 q1 q2 b0 b1 b2 c0 c1 c2 / D * a2 + det33 a0 a1 a2 q0 q1 q2 c0 c1 c2 / D * b2
              + det33 a0 a1 a2 b0 b1 b2 q0 q1 q2 / D * c2) * D)
      with (z0 * D + det33 q0 q1 q2 b0 b1 b2 c0 c1 c2 * a2 + det33 a0 a1 a2 q0 q1 q2 c0 c1 c2 * b2
              + det33 a0 a1 a2 b0 b1 b2 q0 q1 q2 * c2) by (field; exact HD).
    unfold D, det33. ring. }
  clearbody u v w. clear Eu Ev Ew G G'.
  apply decides_intro.
  - intros H. apply andb_prop in H. destruct H as [H H4]. apply andb_prop in H. destruct H as [H H3].
    apply andb_prop in H. destruct H as [H1 H2].
    apply rle_iff in H1. apply rle_iff in H2. apply rle_iff in H3. apply rle_iff in H4.
    give_weights [1 - u - v - w; w; v; u]; try lra.
  - intros H. hull_weights.
    assert (r = 1 - r0 - r1 - r2) by lra. subst r.
    destruct (cramer3 a0 a1 a2 b0 b1 b2 c0 c1 c2 w v u r0 r1 r2 HD) as (-> & -> & ->).
    + unfold a0, b0, c0. lra.
    + unfold a1, b1, c1. lra.
    + unfold a2, b2, c2. lra.
    + apply andb_false_iff in H. destruct H as [H|H];
        [apply andb_false_iff in H; destruct H as [H|H]; [apply andb_false_iff in H; destruct H as [H|H]|]|];
        apply rle_false in H; lra.
Qed.

Lemma tetrahedron_decides p vs : points 4 3 vs -> edge_det3 vs 1 2 3 <> 0 -> length p = 3%nat ->
  decides (point_in_tetrahedron false p vs) (in_hull vs p).
Proof.
  intros Hv Hd Hp. change pt with (list R) in *. split_points Hv. all_coords. apply tetrahedron_core. exact Hd.
Qed.

(** Twice the signed area of the triangle a, b, c of the plane. *)
Definition orient2 (a b c : list R) : R :=
  (nth 0 b 0 - nth 0 a 0) * (nth 1 c 0 - nth 1 a 0) - (nth 1 b 0 - nth 1 a 0) * (nth 0 c 0 - nth 0 a 0).

(** The corners 0, 1, 3, 2 are passed in this order turning left (right) at each of them. *)
Definition convex_quad (s : R) (vs : list (list R)) : Prop :=
  let v k := nth k vs [] in
  0 < s * orient2 (v 0%nat) (v 1%nat) (v 3%nat) /\ 0 < s * orient2 (v 1%nat) (v 3%nat) (v 2%nat) /\
  0 < s * orient2 (v 3%nat) (v 2%nat) (v 0%nat) /\ 0 < s * orient2 (v 2%nat) (v 0%nat) (v 1%nat).

Lemma quad_core x0 y0 x1 y1 x2 y2 x3 y3 px py : convex_quad 1 [[x0; y0]; [x1; y1]; [x2; y2]; [x3; y3]] ->
  decides (point_in_quadrilateral false [px; py] [[x0; y0]; [x1; y1]; [x2; y2]; [x3; y3]])
          (in_hull [[x0; y0]; [x1; y1]; [x2; y2]; [x3; y3]] [px; py]).
Proof.
  unfold convex_quad, orient2. cbn [nth]. intros (A & B & C & D).
  unfold point_in_quadrilateral, g_normal, get, g_vsub, g_vdot.
  cbn [nth_error rbind combine map fst snd fold_left]. rewrite !snap_exact.
  apply decides_intro.
  - intros H. apply andb_prop in H. destruct H as [H H4]. apply andb_prop in H. destruct H as [H H3].
    apply andb_prop in H. destruct H as [H1 H2].
    apply rle_iff in H1. apply rle_iff in H2. apply rle_iff in H3. apply rle_iff in H4.
    set (m := (x2 - x1) * (py - y1) - (y2 - y1) * (px - x1)).
    destruct (Rle_dec 0 m) as [Hm|Hm].
    + set (T := 1 * ((x0 - x2) * (y1 - y2) - (y0 - y2) * (x1 - x2))) in *.
      set (d0 := 0 + - (y1 - y0) * (px - x0) + (x1 - x0) * (py - y0)) in *.
      set (d1 := 0 + - (y0 - y2) * (px - x2) + (x0 - x2) * (py - y2)) in *.
      exists [m / T; d1 / T; d0 / T; 0]. split; [split; [reflexivity|]; split|].
      * unfold sumR. cbn [fold_right]. apply (Rmult_eq_reg_r T); [|lra].
        replace ((m / T + (d1 / T + (d0 / T + (0 + 0)))) * T) with (m + d1 + d0) by (field; lra).
        unfold m, T, d0, d1. ring.
      * intros [|[|?]] ?; try (exfalso; simpl in *; lia);
        unfold sumR; cbn [combine map fold_right fst snd nth]; apply (Rmult_eq_reg_r T); try lra.
        -- replace ((m / T * x0 + (d1 / T * x1 + (d0 / T * x2 + (0 * x3 + 0)))) * T)
             with (m * x0 + d1 * x1 + d0 * x2) by (field; lra). unfold m, T, d0, d1. ring.
        -- replace ((m / T * y0 + (d1 / T * y1 + (d0 / T * y2 + (0 * y3 + 0)))) * T)
             with (m * y0 + d1 * y1 + d0 * y2) by (field; lra). unfold m, T, d0, d1. ring.
      * repeat apply Forall_cons; try apply Forall_nil; try lra; apply Rmult_le_pos; try lra;
          left; apply Rinv_0_lt_compat; exact D.
    + set (T := 1 * ((x3 - x1) * (y2 - y1) - (y3 - y1) * (x2 - x1))) in *.
      set (d2 := 0 + - (y3 - y1) * (px - x1) + (x3 - x1) * (py - y1)) in *.
      set (d3 := 0 + - (y2 - y3) * (px - x3) + (x2 - x3) * (py - y3)) in *.
      exists [0; d3 / T; d2 / T; - m / T]. split; [split; [reflexivity|]; split|].
      * unfold sumR. cbn [fold_right]. apply (Rmult_eq_reg_r T); [|lra].
        replace ((0 + (d3 / T + (d2 / T + (- m / T + 0)))) * T) with (d3 + d2 - m) by (field; lra).
        unfold m, T, d2, d3. ring.
      * intros [|[|?]] ?; try (exfalso; simpl in *; lia);
        unfold sumR; cbn [combine map fold_right fst snd nth]; apply (Rmult_eq_reg_r T); try lra.
        -- replace ((0 * x0 + (d3 / T * x1 + (d2 / T * x2 + (- m / T * x3 + 0)))) * T)
             with (d3 * x1 + d2 * x2 - m * x3) by (field; lra). unfold m, T, d2, d3. ring.
        -- replace ((0 * y0 + (d3 / T * y1 + (d2 / T * y2 + (- m / T * y3 + 0)))) * T)
             with (d3 * y1 + d2 * y2 - m * y3) by (field; lra). unfold m, T, d2, d3. ring.
      * repeat apply Forall_cons; try apply Forall_nil; try lra; apply Rmult_le_pos; try lra;
          left; apply Rinv_0_lt_compat; exact B.
  - intros H. hull_weights.
    assert (r = 1 - r0 - r1 - r2) by lra. subst r. subst px py.
    assert (P : forall a b, 0 <= a -> 0 < b -> 0 <= a * b) by (intros; apply Rmult_le_pos; lra).
    repeat match goal with H : 0 <= ?a |- _ =>
      lazymatch a with _ * _ => fail | _ =>
      let K := fresh "K" in
      pose proof (conj (P _ _ H A) (conj (P _ _ H B) (conj (P _ _ H C) (P _ _ H D)))) as K; clear H end end.
    repeat (apply andb_false_iff in H; destruct H as [H|H]); apply rle_false in H; lra.
Qed.

Lemma quad_decides p vs : points 4 2 vs -> convex_quad 1 vs -> length p = 2%nat ->
  decides (point_in_quadrilateral false p vs) (in_hull vs p).
Proof.
  intros Hv Hd Hp. change pt with (list R) in *. split_points Hv. all_coords. apply quad_core. exact Hd.
Qed.

(** The four quantities tested for a quadrilateral sum to twice its signed area. *)
Lemma quad_clockwise p vs : points 4 2 vs -> convex_quad (-1) vs -> length p = 2%nat ->
  point_in_quadrilateral false p vs = Ok false.
Proof.
  intros Hv Hd Hp. change pt with (list R) in *. split_points Hv. all_coords.
  unfold convex_quad, orient2 in Hd. cbn [nth] in Hd. destruct Hd as (A & B & C & D).
  unfold point_in_quadrilateral, g_normal, get, g_vsub, g_vdot.
  cbn [nth_error rbind combine map fst snd fold_left]. rewrite !snap_exact. f_equal.
  repeat match goal with |- context [rle 0 ?a] =>
    let E := fresh "E" in destruct (rle 0 a) eqn:E; [apply rle_iff in E|reflexivity] end.
  exfalso. lra.
Qed.

(** A degenerate cell is reported by an exception. *)
Lemma interval_degenerate fl p vs : points 2 1 vs -> co vs 0 0 = co vs 1 0 -> length p = 1%nat ->
  point_in_interval fl p vs = Err TypeError.
Proof.
  intros Hv Hd Hp. change pt with (list R) in *. split_points Hv. all_coords. unfold co in Hd. cbn [nth] in Hd. subst.
  unfold point_in_interval, get, g_vsub, g_div. cbn [nth_error rbind combine map fst snd].
  destruct (Req_EM_T _ _) as [e|n]; [reflexivity|]. exfalso. apply n. ring.
Qed.

Lemma triangle_degenerate fl p vs : points 3 2 vs -> edge_det2 vs 1 2 = 0 -> length p = 2%nat ->
  point_in_triangle fl p vs = Err TypeError.
Proof.
  intros Hv Hd Hp. change pt with (list R) in *. split_points Hv. all_coords.
  unfold edge_det2, co in Hd. cbn [nth] in Hd.
  unfold point_in_triangle, get, g_vsub, g_vdot. cbn [nth_error rbind combine map fst snd fold_left].
  unfold g_div at 1. destruct (Req_EM_T _ _) as [e|n]; [reflexivity|]. exfalso. apply n.
  match type of Hd with ?d = 0 => transitivity (d * d); [ring|rewrite Hd; ring] end.
Qed.

Lemma tetrahedron_degenerate fl p vs : points 4 3 vs -> edge_det3 vs 1 2 3 = 0 -> length p = 3%nat ->
  point_in_tetrahedron fl p vs = Err TypeError.
Proof.
  intros Hv Hd Hp. change pt with (list R) in *. split_points Hv. all_coords.
  unfold edge_det3, co in Hd. cbn [nth] in Hd.
  unfold point_in_tetrahedron, get, g_vsub, g_vdot. cbn [nth_error rbind combine map fst snd fold_left].
  unfold g_div at 1. destruct (Req_EM_T _ _) as [e|n]; [reflexivity|]. exfalso. apply n.
  match type of Hd with ?d = 0 => transitivity (d * d); [ring|rewrite Hd; ring] end.
Qed.

(** Snapping never turns an accepted point into a rejected one. *)
Lemma snap0 fl v : 0 <= v -> 0 <= snap fl 0 v.
Proof. intros H. unfold snap. destruct (fl && is_close v 0); lra. Qed.
Lemma snap1 fl v : v <= 1 -> snap fl 1 v <= 1.
Proof. intros H. unfold snap. destruct (fl && is_close v 1); lra. Qed.
Lemma snap0_le1 fl v : v <= 1 -> snap fl 0 v <= 1.
Proof. intros H. unfold snap. destruct (fl && is_close v 0); lra. Qed.
Lemma snap1_ge0 fl v : 0 <= v -> 0 <= snap fl 1 v.
Proof. intros H. unfold snap. destruct (fl && is_close v 1); lra. Qed.

Ltac snapped :=
  intros H; rewrite !snap_exact in H; injection H as H;
  repeat (apply andb_prop in H; let K := fresh "K" in destruct H as [H K]; apply rle_iff in K); apply rle_iff in H;
  f_equal; repeat (apply andb_true_intro; split); apply rle_iff;
  auto using snap0, snap1, snap0_le1, snap1_ge0.

Ltac step_res :=
  match goal with |- context [rbind ?r _] => let E := fresh "E" in destruct r eqn:E; cbn [rbind]; [|discriminate] end.

Lemma floats_accept p vs :
  (point_in_interval false p vs = Ok true -> point_in_interval true p vs = Ok true) /\
  (point_in_triangle false p vs = Ok true -> point_in_triangle true p vs = Ok true) /\
  (point_in_quadrilateral false p vs = Ok true -> point_in_quadrilateral true p vs = Ok true) /\
  (point_in_tetrahedron false p vs = Ok true -> point_in_tetrahedron true p vs = Ok true).
Proof.
  unfold point_in_interval, point_in_triangle, point_in_quadrilateral, point_in_tetrahedron.
  repeat split; cbv zeta; repeat step_res; snapped.
Qed.
