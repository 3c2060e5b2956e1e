(** C59, C71, C72: macro elements (HCT, reduced HCT, Alfeld-Sorokina, P1-iso-P2, P1 macro). *)
From Coquelicot Require Import Coquelicot.
From Coq Require Import String Reals ZArith Arith Bool Lia Lra List.
From Verif Require Import Base.
From Verif Require ReferencesModel.
From Verif Require LinAlg CiarletModel CiarletProofs.
From Verif Require Import ReferencesSpec ReferencesGeometry GeometryModel GeometryProofs PropertiesGeometry.
From Verif Require Import FunctionsModel FunctionsSpec FunctionsProofs FunctionsArith FunctionsSubs PropertiesFunctions.
From Verif Require Import FunctionalsModel FunctionalsSpec PiecewiseModel PiecewiseProofs PropertiesPiecewise MacroModel MacroSpec MacroProofs MacroUnisolvence MacroIso FunctionalsProofs.
Import ListNotations.
Local Open Scope R_scope.

Local Notation triangle := (ReferencesModel.default ReferencesModel.CTriangle).
Local Notation unit_triangle := [[0; 0]; [1; 0]; [0; 1]].

Lemma macro_good_grad fs : good_after (fun f => f_grad f 2) fs -> exists g, pw_grad (on_cells 2 macro fs) 2 = Ok g /\ fits 2 corners g.
Proof.
  intros [G S]. exists (on_cells 2 macro (map (fun f => got (f_grad f 2)) fs)). split; [|apply good_fits; exact G].
  unfold pw_grad. apply derived; assumption.
Qed.
Lemma macro_good_div fs : good_after f_div fs -> exists g, pw_div (on_cells 2 macro fs) = Ok g /\ fits 2 corners g.
Proof.
  intros [G S]. exists (on_cells 2 macro (map (fun f => got (f_div f)) fs)). split; [|apply good_fits; exact G].
  unfold pw_div. apply derived; assumption.
Qed.

(** The functions of HCT: at every point of the triangle, every function and its gradient can be evaluated and all the
    pieces that contain the point agree, so the functions are continuously differentiable across the interior edges. *)
Theorem C59_hct : exists basis dofs,
  make_hct triangle 3 = Ok (basis, dofs) /\ length basis = 12%nat /\
  Forall (fun a => fits 2 unit_triangle a /\ exists g, pw_grad a 2 = Ok g /\ fits 2 unit_triangle g) basis.
Proof.
  eexists _, _. split; [apply hct_closed|]. split; [reflexivity|].
  apply Forall_forall. intros a Ha. apply in_map_iff in Ha. destruct Ha as [fs [<- Hfs]].
  split; [apply good_fits, (proj1 (Forall_forall _ _) hct_good fs Hfs)|apply macro_good_grad, (proj1 (Forall_forall _ _) hct_gradients fs Hfs)].
Qed.

(** The same for reduced HCT; moreover the normal derivative of each function is linear along each edge of the triangle,
    so the degrees of freedom at the ends of an edge determine it. *)
Definition edge_normals : list ((list R * list R) * list R) :=
  [(([0; 0], [1; 0]), [0; 1]); (([1; 0], [0; 1]), [1; 1]); (([0; 1], [0; 0]), [1; 0])].
Definition normal_is_linear (a : piecewise) (edge : (list R * list R) * list R) : Prop :=
  exists d0 d1, forall t, 0 <= t <= 1 ->
    evaluates_pw (PointDirectionalDerivativeEvaluation
                    (nums (map (fun pq => (1 - t) * fst pq + t * snd pq) (combine (fst (fst edge)) (snd (fst edge))))) (nums (snd edge)))
                 a ((1 - t) * d0 + t * d1).

Lemma rhct_dir a b : Forall (good_after (fun f => f_directional_derivative f (nums [a; b]))) rhct_pieces.
Proof. unfold rhct_pieces, same. cbn [map app]. repeat (apply Forall_cons; [solve_dir|]). constructor. Qed.

Definition edge_value (fs : list func) (k : nat) (edge : (list R * list R) * list R) (t : R) : R :=
  v_dir (snd edge) k (map (fun pq => (1 - t) * fst pq + t * snd pq) (combine (fst (fst edge)) (snd (fst edge)))) fs.
Definition piece_of_edge : list nat := [0; 1; 2]%nat.
Lemma rhct_linear : Forall (fun fs => Forall2 (fun k edge => forall t, edge_value fs k edge t = (1 - t) * edge_value fs k edge 0 + t * edge_value fs k edge 1) piece_of_edge edge_normals) rhct_pieces.
Proof.
  unfold rhct_pieces, same. cbn [map app]. unfold edge_normals, piece_of_edge.
  repeat (apply Forall_cons; [repeat (apply Forall2_cons; [intros t; unfold edge_value; cbn; ring|]); apply Forall2_nil|]). constructor.
Qed.

Theorem C59_reduced_hct : exists basis dofs,
  make_rhct triangle 3 = Ok (basis, dofs) /\ length basis = 9%nat /\
  Forall (fun a => fits 2 unit_triangle a /\ (exists g, pw_grad a 2 = Ok g /\ fits 2 unit_triangle g) /\ Forall (normal_is_linear a) edge_normals) basis.
Proof.
  eexists _, _. split; [apply rhct_closed|]. split; [reflexivity|].
  apply Forall_forall. intros a Ha. apply in_map_iff in Ha. destruct Ha as [fs [<- Hfs]].
  split; [apply good_fits, (proj1 (Forall_forall _ _) rhct_good fs Hfs)|]. split; [apply macro_good_grad, (proj1 (Forall_forall _ _) rhct_gradients fs Hfs)|].
  pose proof (proj1 (Forall_forall _ _) rhct_linear fs Hfs) as Lin. cbv beta in Lin.
  assert (Ev : forall k edge t, (k < 3)%nat -> nth_error edge_normals k = Some edge -> 0 <= t <= 1 ->
    evaluates_pw (PointDirectionalDerivativeEvaluation
                    (nums (map (fun pq => (1 - t) * fst pq + t * snd pq) (combine (fst (fst edge)) (snd (fst edge))))) (nums (snd edge)))
                 (on_cells 2 macro fs) (edge_value fs k edge t)).
  { intros k edge t Hk He Ht. unfold edge_value. 
    destruct k as [|[|[|k]]]; [..|lia]; injection He as <-; cbn [fst snd combine map]; apply evaluates_direction;
      try apply (proj1 (Forall_forall _ _) (rhct_dir _ _) fs Hfs); try (apply scalar_dir; [apply (proj1 (Forall_forall _ _) rhct_scalars fs Hfs)|lia]);
      try lia; try reflexivity; cbn [nth macro]; first [apply macro_hull0 | apply macro_hull1 | apply macro_hull2]; lra. }
  unfold piece_of_edge, edge_normals in Lin.
  inversion_clear Lin as [|? ? ? ? L0 Lin']. inversion_clear Lin' as [|? ? ? ? L1 Lin'']. inversion_clear Lin'' as [|? ? ? ? L2 _].
  unfold edge_normals. apply Forall_cons; [|apply Forall_cons; [|apply Forall_cons; [|constructor]]].
  - eexists _, _. intros t Ht. rewrite <- L0. apply (Ev 0%nat); [lia|reflexivity|exact Ht].
  - eexists _, _. intros t Ht. rewrite <- L1. apply (Ev 1%nat); [lia|reflexivity|exact Ht].
  - eexists _, _. intros t Ht. rewrite <- L2. apply (Ev 2%nat); [lia|reflexivity|exact Ht].
Qed.

(** The vector functions of Alfeld-Sorokina and their divergences. *)
Theorem C59_alfeld_sorokina : exists basis dofs,
  make_as triangle 2 = Ok (basis, dofs) /\ length basis = 15%nat /\
  Forall (fun a => fits 2 unit_triangle a /\ exists g, pw_div a = Ok g /\ fits 2 unit_triangle g) basis.
Proof.
  eexists _, _. split; [apply as_closed|]. split; [reflexivity|].
  apply Forall_forall. intros a Ha. apply in_map_iff in Ha. destruct Ha as [fs [<- Hfs]].
  split; [apply good_fits, (proj1 (Forall_forall _ _) as_good fs Hfs)|apply macro_good_div, (proj1 (Forall_forall _ _) as_divergences fs Hfs)].
Qed.

(** Everything else is refused: other orders and cells by an assertion, other triangles by NonDefaultReferenceError. *)
Definition refused (lowest : nat) (make : reference -> nat -> res (list piecewise * list tagged)) : Prop :=
  forall r order,
    (order <> lowest \/ ReferencesModel.r_type r <> ReferencesModel.CTriangle -> make r order = Err AssertionError) /\
    (order = lowest -> ReferencesModel.r_type r = ReferencesModel.CTriangle -> ReferencesModel.r_vertices r <> unit_triangle -> make r order = Err NotImplementedError).
Lemma only_default_refused {A} lowest r order (k : res A) :
  (order <> lowest \/ ReferencesModel.r_type r <> ReferencesModel.CTriangle -> only_default lowest r order k = Err AssertionError) /\
  (order = lowest -> ReferencesModel.r_type r = ReferencesModel.CTriangle -> ReferencesModel.r_vertices r <> unit_triangle -> only_default lowest r order k = Err NotImplementedError).
Proof.
  unfold only_default. split.
  - intros H. destruct (Nat.eqb_spec order lowest) as [->|N]; [|reflexivity]. cbn [negb]. destruct H as [H|H]; [congruence|].
    destruct (ReferencesModel.r_type r); try reflexivity. congruence.
  - intros -> T V. rewrite Nat.eqb_refl, T. cbn [negb]. destruct (pts_eq_dec _ _) as [E|_]; [|reflexivity]. destruct V. exact E.
Qed.
Theorem C59_macro_refusals : refused 3 make_hct /\ refused 3 make_rhct /\ refused 2 make_as.
Proof. repeat split; intros; apply only_default_refused; assumption. Qed.

(** A point of an interior edge, at which two pieces of the last HCT function have the value 13/64. *)
Example C59_hct_case : exists basis dofs a, make_hct triangle 3 = Ok (basis, dofs) /\ nth_error basis 11 = Some a /\
  evaluates_pw (PointEvaluation (nums [1 / 4; 1 / 4])) a (13 / 64) /\
  map (fun cf => fst cf) (pw_pieces a) = [[[0; 0]; [1; 0]; [1 / 3; 1 / 3]]; [[1; 0]; [0; 1]; [1 / 3; 1 / 3]]; [[0; 1]; [0; 0]; [1 / 3; 1 / 3]]] /\
  in_hull [[0; 0]; [1; 0]; [1 / 3; 1 / 3]] [1 / 4; 1 / 4] /\ in_hull [[0; 1]; [0; 0]; [1 / 3; 1 / 3]] [1 / 4; 1 / 4].
Proof.
  eexists _, _, _. split; [apply hct_closed|]. split; [reflexivity|]. split; [|split; [reflexivity|split; [apply macro_hull0; lra|apply macro_hull2; lra]]].
  assert (H : In (nth 11 hct_pieces []) hct_pieces) by (apply nth_In, Nat.ltb_lt; reflexivity).
  assert (Z : (0 < 3)%nat) by lia.
  pose proof (evaluates_point (nth 11 hct_pieces []) 0 [1 / 4; 1 / 4] (proj1 (Forall_forall _ _) hct_good _ H)
    (scalar_pieces _ 0 (proj1 (Forall_forall _ _) hct_scalars _ H) Z) Z eq_refl (proj2 (macro_hull0 (1 / 4) (1 / 4)) ltac:(lra))) as E.
  match type of E with evaluates_pw _ _ ?v => replace (13 / 64) with v by (cbn; field) end. exact E.
Qed.

(** C71.  The matrix of the degrees of freedom on the functions can be inverted, so get_dual_matrix(inverse=True) and
    get_basis_functions succeed, and the coefficients they use are those of a basis dual to the degrees of freedom. *)
Definition unisolvent (make : reference -> nat -> res (list piecewise * list tagged)) (order n : nat) : Prop :=
  exists basis dofs M N, make triangle order = Ok (basis, dofs) /\ length basis = n /\ length dofs = n /\
    values_matrix basis (map fst dofs) M /\ CiarletModel.inv_LU M = Ok N /\ dual_coefficients n M N.

Theorem C71_hct_unisolvent : unisolvent make_hct 3 12.
Proof.
  destruct (dual_exists hct_values hct_pieces 12 eq_refl eq_refl hct_kernel) as [N [E D]].
  eexists _, _, _, N. split; [apply hct_closed|]. repeat (split; [reflexivity|]). split; [apply hct_matrix|]. split; [exact E|exact D].
Qed.
Theorem C71_reduced_hct_unisolvent : unisolvent make_rhct 3 9.
Proof.
  destruct (dual_exists hermite_values rhct_pieces 9 eq_refl eq_refl rhct_kernel) as [N [E D]].
  eexists _, _, _, N. split; [apply rhct_closed|]. repeat (split; [reflexivity|]). split; [apply rhct_matrix|]. split; [exact E|exact D].
Qed.
Theorem C71_alfeld_sorokina_unisolvent : unisolvent make_as 2 15.
Proof.
  destruct (dual_exists as_values as_pieces 15 eq_refl eq_refl as_kernel) as [N [E D]].
  eexists _, _, _, N. split; [apply as_closed|]. repeat (split; [reflexivity|]). split; [apply as_matrix|]. split; [exact E|exact D].
Qed.

(** The degrees of freedom and the entities they belong to: for HCT the value and the two first derivatives at each
    vertex, then the derivative along the unit normal at the midpoint of each edge. *)
Definition at_vertex (n : nat) (p : list R) : list tagged :=
  [(PointEvaluation (nums p), (0%nat, n)); (DerivativePointEvaluation (nums p) [1; 0]%nat, (0%nat, n)); (DerivativePointEvaluation (nums p) [0; 1]%nat, (0%nat, n))].
Definition vector_at (d n : nat) (p : list R) : list tagged :=
  [(DotPointEvaluation (nums p) (FV (nums [1; 0])), (d, n)); (DotPointEvaluation (nums p) (FV (nums [0; 1])), (d, n))].
Theorem C71_degrees_of_freedom :
  (exists basis, make_hct triangle 3 = Ok (basis,
     at_vertex 0 [0; 0] ++ at_vertex 1 [1; 0] ++ at_vertex 2 [0; 1] ++
     [(PointDirectionalDerivativeEvaluation (nums [1 / 2; 1 / 2]) (nums [- / sqrt 2; - / sqrt 2]), (1, 0)%nat);
      (PointDirectionalDerivativeEvaluation (nums [0; 1 / 2]) (nums [-1; 0]), (1, 1)%nat);
      (PointDirectionalDerivativeEvaluation (nums [1 / 2; 0]) (nums [0; 1]), (1, 2)%nat)])) /\
  (exists basis, make_rhct triangle 3 = Ok (basis, at_vertex 0 [0; 0] ++ at_vertex 1 [1; 0] ++ at_vertex 2 [0; 1])) /\
  (exists basis, make_as triangle 2 = Ok (basis,
     vector_at 0 0 [0; 0] ++ [(PointDivergenceEvaluation (nums [0; 0]), (0, 0)%nat)] ++
     vector_at 0 1 [1; 0] ++ [(PointDivergenceEvaluation (nums [1; 0]), (0, 1)%nat)] ++
     vector_at 0 2 [0; 1] ++ [(PointDivergenceEvaluation (nums [0; 1]), (0, 2)%nat)] ++
     vector_at 1 0 [1 / 2; 1 / 2] ++ vector_at 1 1 [0; 1 / 2] ++ vector_at 1 2 [1 / 2; 0])).
Proof. split; [|split]; eexists; [apply hct_closed|apply rhct_closed|apply as_closed]. Qed.

(** * P1-iso-P2 and P1 macro, on any cell of their shape *)

Lemma fitting_fits n cells fs domain : (1 <= n <= 3)%nat -> Forall (regular n) cells -> fitting n cells fs ->
  (forall p, length p = n -> in_hull domain p -> exists c, In c cells /\ in_hull c p) -> fits n domain (on_cells n cells fs).
Proof. intros Hn Hr [L [C [O A]]] Hd. apply fits_cells; assumption. Qed.
Lemma fitting_all n cells pl domain : (1 <= n <= 3)%nat -> Forall (regular n) cells -> Forall (fitting n cells) pl ->
  (forall p, length p = n -> in_hull domain p -> exists c, In c cells /\ in_hull c p) -> Forall (fits n domain) (map (on_cells n cells) pl).
Proof.
  intros Hn Hr F Hd. apply Forall_forall. intros a Ha. apply in_map_iff in Ha. destruct Ha as [fs [<- Hfs]].
  apply fitting_fits; auto. exact (proj1 (Forall_forall _ _) F fs Hfs).
Qed.

(** Interval, any two different end points: continuous, and each function is 1 at one of the nodes (the end points and
    the midpoint) and 0 at the others. *)
Theorem C59_iso_interval : forall vs r, points 2 1 vs -> co vs 0 0 <> co vs 1 0 -> ReferencesModel.make_reference ReferencesModel.CInterval vs = Ok r ->
  exists basis dofs, make_iso_interval r = Ok (basis, dofs) /\ Forall (fits 1 vs) basis /\
    values_matrix basis (map fst dofs) [[1; 0; 0]; [0; 0; 1]; [0; 1; 0]].
Proof.
  intros vs r Hp Hd Hr. destruct Hp as [L F]. destruct vs as [|v0 [|v1 [|]]]; try discriminate L.
  inversion_clear F as [|? ? F0 F']. inversion_clear F' as [|? ? F1 _]. destruct (one F0) as [a ->], (one F1) as [b ->].
  injection Hr as <-. unfold co in Hd. cbn [nth] in Hd.
  eexists _, _. split; [exact (iso_interval_closed a b Hd)|]. split; [|apply iso_interval_values; exact Hd].
  apply fitting_all; [lia|apply parts_regular; exact Hd|apply iso_interval_fitting; exact Hd|apply parts_cover; exact Hd].
Qed.

Theorem C59_iso_triangle : forall vs r, points 3 2 vs -> edge_det2 vs 1 2 <> 0 -> ReferencesModel.make_reference ReferencesModel.CTriangle vs = Ok r ->
  exists basis dofs, make_iso_triangle r = Ok (basis, dofs) /\ Forall (fits 2 vs) basis /\
    values_matrix basis (map fst dofs)
      [[1; 0; 0; 0; 0; 0]; [0; 1; 0; 0; 0; 0]; [0; 0; 1; 0; 0; 0]; [0; 0; 0; 0; 0; 1]; [0; 0; 0; 0; 1; 0]; [0; 0; 0; 1; 0; 0]].
Proof.
  intros vs r Hp Hd Hr. destruct Hp as [L F]. destruct vs as [|v0 [|v1 [|v2 [|]]]]; try discriminate L.
  inversion_clear F as [|? ? F0 F']. inversion_clear F' as [|? ? F1 F'']. inversion_clear F'' as [|? ? F2 _].
  destruct (two F0) as [a0 [a1 ->]], (two F1) as [b0 [b1 ->]], (two F2) as [c0 [c1 ->]].
  unfold edge_det2, co in Hd. cbn [nth] in Hd.
  assert (HD : (b0 - a0) * (c1 - a1) - (c0 - a0) * (b1 - a1) <> 0) by (intros E; apply Hd; rewrite <- E; ring).
  assert (R : r = placed_triangle a0 a1 b0 b1 c0 c1) by (injection Hr as <-; reflexivity). subst r.
  destruct (iso_triangle_closed a0 a1 b0 b1 c0 c1 HD) as [dofs [E1 E2]].
  eexists _, dofs. split; [exact E2|]. split; [|apply iso_triangle_values; assumption].
  apply fitting_all; [lia|apply halves_regular; exact HD|apply iso_triangle_fitting; exact HD|apply halves_cover; exact HD].
Qed.

(** Parallelograms whose corners 0, 1, 3, 2 run anticlockwise; for the others see [C59_iso_quadrilateral_refuted]. *)
Theorem C59_iso_quadrilateral_partial : forall vs r, points 4 2 vs ->
  (forall j, (j < 2)%nat -> co vs 0 j + co vs 3 j = co vs 1 j + co vs 2 j) -> 0 < edge_det2 vs 1 2 ->
  ReferencesModel.make_reference ReferencesModel.CQuadrilateral vs = Ok r ->
  exists basis dofs, make_iso_quadrilateral r = Ok (basis, dofs) /\ Forall (fits 2 vs) basis /\
    values_matrix basis (map fst dofs) (map (fun i => map (fun j => if Nat.eqb i j then 1 else 0) (seq 0 9)) (seq 0 9)).
Proof.
  intros vs r Hp Hq Hd Hr. destruct Hp as [L F]. destruct vs as [|v0 [|v1 [|v2 [|v3 [|]]]]]; try discriminate L.
  inversion_clear F as [|? ? F0 F']. inversion_clear F' as [|? ? F1 F'']. inversion_clear F'' as [|? ? F2 F3']. inversion_clear F3' as [|? ? F3 _].
  destruct (two F0) as [a0 [a1 ->]], (two F1) as [b0 [b1 ->]], (two F2) as [c0 [c1 ->]], (two F3) as [d0 [d1 ->]].
  pose proof (Hq 0%nat ltac:(lia)) as Q0. pose proof (Hq 1%nat ltac:(lia)) as Q1.
  unfold edge_det2, co in *. cbn [nth] in *.
  assert (HP : 0 < (b0 - a0) * (c1 - a1) - (c0 - a0) * (b1 - a1)) by lra.
  assert (HD : (b0 - a0) * (c1 - a1) - (c0 - a0) * (b1 - a1) <> 0) by lra.
  assert (R : r = placed_quadrilateral a0 a1 b0 b1 c0 c1 d0 d1) by (injection Hr as <-; reflexivity). subst r.
  destruct (iso_quadrilateral_closed a0 a1 b0 b1 c0 c1 HD d0 d1 Q0 Q1) as [dofs [E1 E2]].
  eexists _, dofs. split; [exact E2|]. split; [|apply (iso_quadrilateral_values a0 a1 b0 b1 c0 c1 HD d0 d1 Q0 Q1); assumption].
  apply fitting_all; [lia|apply quarters_regular; assumption|apply iso_quadrilateral_fitting; exact HD|].
  intros p Lp Hh. apply quarters_cover; [exact HD|exact Lp|]. rewrite <- (square_image a0 a1 b0 b1 c0 c1 d0 d1 Q0 Q1). exact Hh.
Qed.

(** Any triangle; the degrees of freedom are the values at the vertices and a moment (for the moment see C72). *)
Theorem C59_p1_macro : forall vs r, points 3 2 vs -> edge_det2 vs 1 2 <> 0 -> ReferencesModel.make_reference ReferencesModel.CTriangle vs = Ok r ->
  exists basis dofs, make_p1_macro r = Ok (basis, dofs) /\ length basis = 4%nat /\ Forall (fits 2 vs) basis.
Proof.
  intros vs r Hp Hd Hr. destruct Hp as [L F]. destruct vs as [|v0 [|v1 [|v2 [|]]]]; try discriminate L.
  inversion_clear F as [|? ? F0 F']. inversion_clear F' as [|? ? F1 F'']. inversion_clear F'' as [|? ? F2 _].
  destruct (two F0) as [a0 [a1 ->]], (two F1) as [b0 [b1 ->]], (two F2) as [c0 [c1 ->]].
  unfold edge_det2, co in Hd. cbn [nth] in Hd.
  assert (HD : (b0 - a0) * (c1 - a1) - (c0 - a0) * (b1 - a1) <> 0) by (intros E; apply Hd; rewrite <- E; ring).
  assert (R : r = placed_triangle a0 a1 b0 b1 c0 c1) by (injection Hr as <-; reflexivity). subst r.
  eexists _, _. split; [apply p1_macro_closed; exact HD|]. split; [reflexivity|].
  apply fitting_all; [lia|apply macro_image_regular; exact HD|apply p1_macro_fitting; exact HD|apply macro_image_cover; exact HD].
Qed.

(** Cells that meet the hypotheses, none of them the default one, and one point evaluation for each. *)
Example C59_iso_cases :
  (points 2 1 [[3]; [1]] /\ co [[3]; [1]] 0 0 <> co [[3]; [1]] 1 0) /\
  (points 3 2 [[1; 1]; [0; 3]; [4; 0]] /\ edge_det2 [[1; 1]; [0; 3]; [4; 0]] 1 2 <> 0) /\
  (points 4 2 [[0; 0]; [2; 1]; [1; 3]; [3; 4]] /\
   (forall j, (j < 2)%nat -> co [[0; 0]; [2; 1]; [1; 3]; [3; 4]] 0 j + co [[0; 0]; [2; 1]; [1; 3]; [3; 4]] 3 j = co [[0; 0]; [2; 1]; [1; 3]; [3; 4]] 1 j + co [[0; 0]; [2; 1]; [1; 3]; [3; 4]] 2 j) /\
   0 < edge_det2 [[0; 0]; [2; 1]; [1; 3]; [3; 4]] 1 2).
Proof.
  split; [|split; [|split; [|split]]].
  - split; [split; [reflexivity|repeat constructor]|unfold co; simpl; lra].
  - split; [split; [reflexivity|repeat constructor]|unfold edge_det2, co; simpl; lra].
  - split; [reflexivity|repeat constructor].
  - intros [|[|j]] Hj; [| |lia]; unfold co; simpl; lra.
  - unfold edge_det2, co; simpl; lra.
Qed.

(** On parallelograms that are numbered clockwise the element is created, but no function can be evaluated anywhere, so
    that the matrix of the degrees of freedom cannot be computed. *)
Theorem C59_iso_quadrilateral_clockwise : forall vs r, points 4 2 vs ->
  (forall j, (j < 2)%nat -> co vs 0 j + co vs 3 j = co vs 1 j + co vs 2 j) -> edge_det2 vs 1 2 < 0 ->
  ReferencesModel.make_reference ReferencesModel.CQuadrilateral vs = Ok r ->
  exists basis dofs, make_iso_quadrilateral r = Ok (basis, dofs) /\ length basis = 9%nat /\
    forall p a, length p = 2%nat -> In a basis -> eval_pw (PointEvaluation (nums p)) a = Some (Err NotImplementedError).
Proof.
  intros vs r Hp Hq Hd Hr. destruct Hp as [L F]. destruct vs as [|v0 [|v1 [|v2 [|v3 [|]]]]]; try discriminate L.
  inversion_clear F as [|? ? F0 F']. inversion_clear F' as [|? ? F1 F'']. inversion_clear F'' as [|? ? F2 F3']. inversion_clear F3' as [|? ? F3 _].
  destruct (two F0) as [a0 [a1 ->]], (two F1) as [b0 [b1 ->]], (two F2) as [c0 [c1 ->]], (two F3) as [d0 [d1 ->]].
  pose proof (Hq 0%nat ltac:(lia)) as Q0. pose proof (Hq 1%nat ltac:(lia)) as Q1.
  unfold edge_det2, co in *. cbn [nth] in *.
  assert (HN : (b0 - a0) * (c1 - a1) - (c0 - a0) * (b1 - a1) < 0) by lra.
  assert (HD : (b0 - a0) * (c1 - a1) - (c0 - a0) * (b1 - a1) <> 0) by lra.
  assert (R : r = placed_quadrilateral a0 a1 b0 b1 c0 c1 d0 d1) by (injection Hr as <-; reflexivity). subst r.
  destruct (iso_quadrilateral_closed a0 a1 b0 b1 c0 c1 HD d0 d1 Q0 Q1) as [dofs [E1 E2]].
  eexists _, dofs. split; [exact E2|]. split; [reflexivity|]. intros p a Lp Ha. apply in_map_iff in Ha. destruct Ha as [fs [<- Hfs]].
  assert (L4 : length fs = 4%nat).
  { unfold iso_quadrilateral_pieces in Hfs. cbn [map In] in Hfs. repeat (destruct Hfs as [<-|Hfs]; [reflexivity|]). destruct Hfs. }
  destruct fs as [|f0 [|f1 [|f2 [|f3 [|]]]]]; try discriminate L4.
  destruct (two Lp) as [px [py ->]].
  unfold eval_pw. rewrite at_nums. unfold pw_subs, quarters, on_cells. cbn -[get_piece image f_subs]. unfold get_piece. cbn [pw_tdim pw_pieces].
  assert (C : forall x0 x1 y0 y1, x0 < x1 -> y0 < y1 ->
    point_in_quadrilateral false [px; py] (map (image a0 a1 b0 b1 c0 c1) [[x0; y0]; [x1; y0]; [x0; y1]; [x1; y1]]) = Ok false).
  { intros x0 x1 y0 y1 Hx Hy. apply quad_clockwise; [split; [reflexivity|apply Forall_forall; intros v [<-|[<-|[<-|[<-|[]]]]]; reflexivity]| |reflexivity].
    assert (P : 0 < - ((b0 - a0) * (c1 - a1) - (c0 - a0) * (b1 - a1)) * ((x1 - x0) * (y1 - y0))) by (apply Rmult_lt_0_compat; [lra|apply Rmult_lt_0_compat; lra]).
    unfold convex_quad, orient2, image. cbn [map nth]. repeat split; (eapply Rlt_le_trans; [exact P|apply Req_le; ring]). }
  unfold first_piece, in_cell. cbn [length firstn].
  do 4 (match goal with |- context [point_in_quadrilateral false ?p [image _ _ _ _ _ _ [?x0; ?y0]; image _ _ _ _ _ _ [?x1; _]; image _ _ _ _ _ _ [_; ?y1]; _]] =>
    replace (point_in_quadrilateral false p _) with (@Ok bool false) by (symmetry; apply (C x0 x1 y0 y1); lra) end; cbn [rbind]).
  reflexivity.
Qed.
Theorem C59_iso_quadrilateral_refuted : exists vs r basis dofs, points 4 2 vs /\
  (forall j, (j < 2)%nat -> co vs 0 j + co vs 3 j = co vs 1 j + co vs 2 j) /\ edge_det2 vs 1 2 <> 0 /\
  ReferencesModel.make_reference ReferencesModel.CQuadrilateral vs = Ok r /\ make_iso_quadrilateral r = Ok (basis, dofs) /\ length basis = 9%nat /\
  Forall (fun a => ~ fits 2 vs a) basis.
Proof.
  set (vs := [[0; 0]; [0; 1]; [1; 0]; [1; 1]] : list pt).
  assert (Hp : points 4 2 vs) by (split; [reflexivity|repeat constructor]).
  assert (Hq : forall j, (j < 2)%nat -> co vs 0 j + co vs 3 j = co vs 1 j + co vs 2 j) by (intros [|[|j]] Hj; [| |lia]; unfold co, vs; simpl; lra).
  assert (Hd : edge_det2 vs 1 2 < 0) by (unfold edge_det2, co, vs; simpl; lra).
  destruct (C59_iso_quadrilateral_clockwise vs _ Hp Hq Hd eq_refl) as [basis [dofs [E [L N]]]].
  eexists vs, _, basis, dofs. split; [exact Hp|]. split; [exact Hq|]. split; [lra|]. split; [reflexivity|]. split; [exact E|]. split; [exact L|].
  apply Forall_forall. intros a Ha Fa. specialize (N [1 / 2; 1 / 2] a eq_refl Ha). unfold eval_pw in N. rewrite at_nums in N.
  destruct (Fa [1 / 2; 1 / 2] eq_refl) as [v [[h [Eh _]] _]]; [unfold vs; apply hull4; exists (1 / 4), (1 / 4), (1 / 4), (1 / 4); lra|].
  rewrite Eh in N. discriminate.
Qed.

(** * Moments of piecewise functions (C72) *)

(** The sum over the pieces of the integrals of w f over the triangle of the piece, each of them computed on the default
    triangle; [placed] is the point of the cell with parameters t. *)
Definition integral_of_pieces (w : R) (a : piecewise) (total : R) : Prop :=
  exists vs, Forall2 (fun sf v => exists f r j, snd sf = FS f /\
      ReferencesModel.make_reference ReferencesModel.CTriangle (fst sf) = Ok r /\ ReferencesModel.jacobian r = Ok j /\
      integrates [(1%nat, fun _ => 0, fun e => 1 - e 0%nat); (0%nat, fun _ => 0, fun _ => 1)]
        (fun tv => ev (x_point (placed (r_origin r) (r_axes r) tv)) f * w * j) v) (pw_pieces a) vs /\ total = sumR vs.

Lemma affine_integral A B C : integrates [(1%nat, fun _ => 0, fun e => 1 - e 0%nat); (0%nat, fun _ => 0, fun _ => 1)]
  (fun tv => A + B * tv 0%nat + C * tv 1%nat) (A / 2 + B / 6 + C / 6).
Proof.
  exists (fun e => (A + B * e 0%nat) * (1 - e 0%nat) + C * (1 - e 0%nat) ^ 2 / 2). split.
  - intros e. cbn -[INR pow].
    replace ((A + B * e 0%nat) * (1 - e 0%nat) + C * (1 - e 0%nat) ^ 2 / 2)
      with (minus ((fun s => (A + B * e 0%nat) * s + C * s ^ 2 / 2) (1 - e 0%nat)) ((fun s => (A + B * e 0%nat) * s + C * s ^ 2 / 2) 0))
      by (unfold minus, plus, opp; simpl; field).
    apply (@is_RInt_derive R_CompleteNormedModule (fun s => (A + B * e 0%nat) * s + C * s ^ 2 / 2)).
    + intros s _. auto_derive; [exact I|]. simpl. field.
    + intros s _. apply (@ex_derive_continuous R_AbsRing R_NormedModule). auto_derive. exact I.
  - exists (fun _ => A / 2 + B / 6 + C / 6). split; [|intros e; reflexivity]. intros e. cbn -[INR pow].
    replace (A / 2 + B / 6 + C / 6)
      with (minus ((fun s => A * s + (B - A) * s ^ 2 / 2 - B * s ^ 3 / 3 - C * (1 - s) ^ 3 / 6) 1) ((fun s => A * s + (B - A) * s ^ 2 / 2 - B * s ^ 3 / 3 - C * (1 - s) ^ 3 / 6) 0))
      by (unfold minus, plus, opp; simpl; field).
    apply (@is_RInt_derive R_CompleteNormedModule (fun s => A * s + (B - A) * s ^ 2 / 2 - B * s ^ 3 / 3 - C * (1 - s) ^ 3 / 6)).
    + intros s _. auto_derive; [exact I|]. simpl. field.
    + intros s _. apply (@ex_derive_continuous R_AbsRing R_NormedModule). auto_derive. exact I.
Qed.

Lemma sub_triangle_inside a0 a1 b0 b1 c0 c1 cell r : (b0 - a0) * (c1 - a1) - (c0 - a0) * (b1 - a1) <> 0 -> In cell macro ->
  ReferencesModel.make_reference ReferencesModel.CTriangle (map (image a0 a1 b0 b1 c0 c1) cell) = Ok r ->
  intersection r (placed_triangle a0 a1 b0 b1 c0 c1) = Ok (Some r).
Proof.
  intros HD Hc Hr.
  assert (HM : exact_membership (placed_triangle a0 a1 b0 b1 c0 c1)).
  { apply (exact_triangle [[a0; a1]; [b0; b1]; [c0; c1]]); [split; [reflexivity|repeat constructor]| |reflexivity].
    unfold edge_det2, co. cbn [nth]. intros E. apply HD. rewrite <- E. ring. }
  assert (I : forall u v w, 0 <= u -> 0 <= v -> 0 <= w -> u + v + w = 1 -> forall x y, x = u * a0 + v * b0 + w * c0 -> y = u * a1 + v * b1 + w * c1 ->
    ReferencesModel.contains (placed_triangle a0 a1 b0 b1 c0 c1) [x; y] = Ok true).
  { intros u v w U V W S x y Ex Ey. apply HM; [reflexivity|]. change (ReferencesModel.r_vertices (placed_triangle a0 a1 b0 b1 c0 c1)) with [[a0; a1]; [b0; b1]; [c0; c1]].
    exists [u; v; w]. split; [split; [reflexivity|split; [unfold sumR; simpl; lra|]]|apply Forall_cons; [exact U|apply Forall_cons; [exact V|apply Forall_cons; [exact W|constructor]]]].
    intros [|[|j]] Hj; simpl in Hj; try lia; unfold sumR; simpl; lra. }
  assert (G : ReferencesModel.gdim r = 2%nat /\ ReferencesModel.r_vertices r = map (image a0 a1 b0 b1 c0 c1) cell).
  { destruct Hc as [<-|[<-|[<-|[]]]]; injection Hr as <-; split; reflexivity. }
  destruct G as [G V]. unfold intersection. rewrite G. change (ReferencesModel.gdim (placed_triangle a0 a1 b0 b1 c0 c1)) with 2%nat. cbn [Nat.eqb negb].
  unfold contained_in. rewrite V.
  replace (all_contained (placed_triangle a0 a1 b0 b1 c0 c1) (map (image a0 a1 b0 b1 c0 c1) cell)) with (@Ok bool true); [reflexivity|].
  symmetry. unfold image. destruct Hc as [<-|[<-|[<-|[]]]]; cbn [map nth all_contained].
  - rewrite (I 1 0 0) by lra. cbn [rbind]. rewrite (I 0 1 0) by lra. cbn [rbind]. rewrite (I (1 / 3) (1 / 3) (1 / 3)) by lra. reflexivity.
  - rewrite (I 0 1 0) by lra. cbn [rbind]. rewrite (I 0 0 1) by lra. cbn [rbind]. rewrite (I (1 / 3) (1 / 3) (1 / 3)) by lra. reflexivity.
  - rewrite (I 0 0 1) by lra. cbn [rbind]. rewrite (I 1 0 0) by lra. cbn [rbind]. rewrite (I (1 / 3) (1 / 3) (1 / 3)) by lra. reflexivity.
Qed.

Lemma three_pieces (g : func -> res func) cells e0 e1 e2 h0 h1 h2 : cells <> [] -> NoDup cells -> length cells = 3%nat ->
  g (FS e0) = Ok (FS h0) -> g (FS e1) = Ok (FS h1) -> g (FS e2) = Ok (FS h2) ->
  on_pieces g (on_cells 2 cells [FS e0; FS e1; FS e2]) = Ok (on_cells 2 cells [FS h0; FS h1; FS h2]).
Proof.
  intros Hne N L E0 E1 E2. apply on_pieces_cells; [exact Hne|exact N|symmetry; exact L| |apply (scalar_kinds [h0; h1; h2])].
  apply Forall2_cons; [exact E0|apply Forall2_cons; [exact E1|apply Forall2_cons; [exact E2|constructor]]].
Qed.

Lemma map_res3 {A B} (f : A -> res B) x y z a b c : f x = Ok a -> f y = Ok b -> f z = Ok c -> map_res f [x; y; z] = Ok [a; b; c].
Proof. intros E1 E2 E3. cbn [map_res]. rewrite E1, E2, E3. reflexivity. Qed.

Section Moment.
Variables a0 a1 b0 b1 c0 c1 : R.
Hypothesis HD : (b0 - a0) * (c1 - a1) - (c0 - a0) * (b1 - a1) <> 0.
Local Notation T := (placed_triangle a0 a1 b0 b1 c0 c1).
Local Notation J := (Rabs ((b0 - a0) * (c1 - a1) - (b1 - a1) * (c0 - a0))).
Local Notation cells := (map (map (image a0 a1 b0 b1 c0 c1)) macro).

Lemma moment_piece cell f : In cell macro -> (forall v, esubs "x"%string v f = f) -> (forall v, esubs "y"%string v f = f) ->
  exists j, j = J / 3 /\ piece_integral 2 T (map (image a0 a1 b0 b1 c0 c1) cell, FS f) =
   Ok [Integral (EMul f (ENum j)) [(1%nat, fun _ => 0, fun e => 1 - e 0%nat); (0%nat, fun _ => 0, fun _ => 1)]].
Proof.
  intros Hc Hx Hy. unfold piece_integral. cbn [fst snd].
  destruct (ReferencesModel.make_reference ReferencesModel.CTriangle (map (image a0 a1 b0 b1 c0 c1) cell)) as [r|] eqn:Er;
    [|destruct Hc as [<-|[<-|[<-|[]]]]; discriminate].
  pose proof (sub_triangle_inside _ _ _ _ _ _ cell r HD Hc Er) as HI.
  replace (piece_reference 2 (map (image a0 a1 b0 b1 c0 c1) cell)) with (Ok r) by (destruct Hc as [<-|[<-|[<-|[]]]]; symmetry; exact Er).
  cbn [rbind]. rewrite HI. cbn [rbind].
  assert (E3 : J / 3 = Rabs (((b0 - a0) * (c1 - a1) - (b1 - a1) * (c0 - a0)) / 3)).
  { unfold Rdiv. rewrite Rabs_mult. f_equal. symmetry. apply Rabs_pos_eq. lra. }
  destruct Hc as [<-|[<-|[<-|[]]]]; injection Er as <-; eexists; (split; [|unfold f_integral, integral; cbn -[esubs]; unfold esub; rewrite ?Hx, ?Hy; reflexivity]);
    unfold image; cbn [nth]; rewrite E3; f_equal; field.
Qed.
Lemma moment_computed : evaluates_pw (IntegralMoment T (FS (EDiv (ENum 1) (ENum J)))) (on_cells 2 cells (nth 3 (p1_macro_pieces a0 a1 b0 b1 c0 c1) [])) (1 / 2).
Proof.
  pose proof (macro_image_nodup a0 a1 b0 b1 c0 c1 HD) as N.
  assert (HJ : J <> 0). { intros E. apply Rabs_eq_0 in E. apply HD. rewrite <- E. ring. }
  unfold evaluates_pw, eval_pw, pw_at, pw_subs. unfold p1_macro_pieces. cbn [nth map].
  match goal with |- context [as_sympy ?v] => set (V := as_sympy v) end. cbv in V. unfold V at 1. cbn [Datatypes.length pw_tdim on_cells Nat.eqb constants symbol_free as_sympy andb rbind rmap].
  cbn -[on_pieces on_cells f_subs sub_dot sub_integral eX eY].
  erewrite three_pieces; [|discriminate|exact N|reflexivity|reflexivity|reflexivity|reflexivity].
  cbn [rmap rbind sub_dot]. unfold pw_dot.
  erewrite three_pieces; [|discriminate|exact N|reflexivity|reflexivity|reflexivity|reflexivity].
  cbn [rmap rbind sub_integral]. unfold pw_integral. cbn [pw_tdim pw_pieces on_cells]. 
  cbn [macro map combine].
  match goal with |- context [piece_integral 2 T] => idtac end.
  match goal with |- context [[(?k0, FS ?g0); (?k1, FS ?g1); (?k2, FS ?g2)]] => set (f0 := g0); set (f1 := g1); set (f2 := g2) end.
  destruct (moment_piece [[0; 0]; [1; 0]; [1 / 3; 1 / 3]] f0 ltac:(left; reflexivity) ltac:(reflexivity) ltac:(reflexivity)) as [j0 [J0 E0]].
  destruct (moment_piece [[1; 0]; [0; 1]; [1 / 3; 1 / 3]] f1 ltac:(right; left; reflexivity) ltac:(reflexivity) ltac:(reflexivity)) as [j1 [J1 E1]].
  destruct (moment_piece [[0; 1]; [0; 0]; [1 / 3; 1 / 3]] f2 ltac:(right; right; left; reflexivity) ltac:(reflexivity) ltac:(reflexivity)) as [j2 [J2 E2]].
  pose proof (map_res3 _ _ _ _ _ _ _ E0 E1 E2) as EM.
  match type of EM with _ = ?v => match goal with |- context [map_res ?f ?l] => replace (map_res f l) with v by (symmetry; exact EM) end end. cbn [rbind rmap concat app]. subst j0 j1 j2.
  set (j := J) in *. clearbody j.
  exists [1 / 6; 1 / 6; 1 / 6]. split; [|unfold sumR; simpl; field].
  apply Forall2_cons; [|apply Forall2_cons; [|apply Forall2_cons; [|constructor]]]; intros p.
  - apply (integrates_ext _ (fun tv => 0 + 0 * tv 0%nat + 1 * tv 1%nat)); [|replace (1 / 6) with (0 / 2 + 0 / 6 + 1 / 6) by field; apply affine_integral].
    intros tv. subst f0. cbn -[J]. field. split; assumption.
  - apply (integrates_ext _ (fun tv => 1 + (-1) * tv 0%nat + (-1) * tv 1%nat)); [|replace (1 / 6) with (1 / 2 + (-1) / 6 + (-1) / 6) by field; apply affine_integral].
    intros tv. subst f1. cbn -[J]. field. split; assumption.
  - apply (integrates_ext _ (fun tv => 0 + 1 * tv 0%nat + 0 * tv 1%nat)); [|replace (1 / 6) with (0 / 2 + 1 / 6 + 0 / 6) by field; apply affine_integral].
    intros tv. subst f2. cbn -[J]. field. split; assumption.
Qed.

Lemma moment_true : integral_of_pieces (1 / J) (on_cells 2 cells (nth 3 (p1_macro_pieces a0 a1 b0 b1 c0 c1) [])) (1 / 6).
Proof.
  assert (HJ : J <> 0). { intros E. apply Rabs_eq_0 in E. apply HD. rewrite <- E. ring. }
  assert (E3 : J / 3 = Rabs (((b0 - a0) * (c1 - a1) - (b1 - a1) * (c0 - a0)) / 3)).
  { unfold Rdiv. rewrite Rabs_mult. f_equal. symmetry. apply Rabs_pos_eq. lra. }
  exists [1 / 18; 1 / 18; 1 / 18]. split; [|unfold sumR; simpl; field].
  unfold p1_macro_pieces, on_cells. cbn [pw_pieces nth map macro combine].
  apply Forall2_cons; [|apply Forall2_cons; [|apply Forall2_cons; [|constructor]]].
  all: cbn [fst snd]; eexists _, _, (J / 3); split; [reflexivity|]; split; [reflexivity|]; split;
    [cbn -[Rabs]; apply f_equal; rewrite E3; unfold ReferencesModel.fabs; f_equal; field|].
  1: apply (integrates_ext _ (fun tv => 0 + 0 * tv 0%nat + 1 / 3 * tv 1%nat)); [|replace (1 / 18) with (0 / 2 + 0 / 6 + 1 / 3 / 6) by field; apply affine_integral].
  2: apply (integrates_ext _ (fun tv => 0 + 0 * tv 0%nat + 1 / 3 * tv 1%nat)); [|replace (1 / 18) with (0 / 2 + 0 / 6 + 1 / 3 / 6) by field; apply affine_integral].
  3: apply (integrates_ext _ (fun tv => 0 + 0 * tv 0%nat + 1 / 3 * tv 1%nat)); [|replace (1 / 18) with (0 / 2 + 0 / 6 + 1 / 3 / 6) by field; apply affine_integral].
  all: intros tv; set (j := J) in *; clearbody j; cbn; field; split; assumption.
Qed.
End Moment.

(** The fourth function of the P1 macro element on any triangle: what its degree of freedom of the interior returns and
    what the integral against the same weight is. *)
Theorem C72_p1_macro_moment : forall vs r, points 3 2 vs -> edge_det2 vs 1 2 <> 0 -> ReferencesModel.make_reference ReferencesModel.CTriangle vs = Ok r ->
  exists basis dofs a w, make_p1_macro r = Ok (basis, dofs) /\ nth_error basis 3 = Some a /\
    nth_error dofs 3 = Some (IntegralMoment r (FS w), (2%nat, 0%nat)) /\ (forall p q, ev p w = ev q w) /\
    evaluates_pw (IntegralMoment r (FS w)) a (1 / 2) /\ forall p, integral_of_pieces (ev p w) a (1 / 6).
Proof.
  intros vs r Hp Hd Hr. destruct Hp as [L F]. destruct vs as [|v0 [|v1 [|v2 [|]]]]; try discriminate L.
  inversion_clear F as [|? ? F0 F']. inversion_clear F' as [|? ? F1 F'']. inversion_clear F'' as [|? ? F2 _].
  destruct (two F0) as [a0 [a1 ->]], (two F1) as [b0 [b1 ->]], (two F2) as [c0 [c1 ->]].
  unfold edge_det2, co in Hd. cbn [nth] in Hd.
  assert (HD : (b0 - a0) * (c1 - a1) - (c0 - a0) * (b1 - a1) <> 0) by (intros E; apply Hd; rewrite <- E; ring).
  assert (R : r = placed_triangle a0 a1 b0 b1 c0 c1) by (injection Hr as <-; reflexivity). subst r.
  eexists _, _, _, _. split; [apply p1_macro_closed; exact HD|]. split; [reflexivity|]. split; [reflexivity|]. split; [reflexivity|].
  split; [apply moment_computed; exact HD|]. intros p. cbn [ev]. apply moment_true. exact HD.
Qed.

(** A triangle other than the default one. *)
Example C72_p1_macro_moment_case : let vs := [[1; 0]; [3; 1]; [0; 2]] in points 3 2 vs /\ edge_det2 vs 1 2 = 5 /\ exists r, ReferencesModel.make_reference ReferencesModel.CTriangle vs = Ok r.
Proof. split; [split; [reflexivity|repeat constructor]|]. split; [unfold edge_det2, co; simpl; lra|]. eexists. reflexivity. Qed.

(** Full statement: the value of an integral moment of a piecewise function is the integral of the function against the
    weight of the moment.  False for P1 macro, already on the default triangle. *)
Theorem C72_macro_integral_refuted : exists basis dofs a w v, make_p1_macro (placed_triangle 0 0 1 0 0 1) = Ok (basis, dofs) /\ In a basis /\
  In (IntegralMoment (placed_triangle 0 0 1 0 0 1) (FS w), (2%nat, 0%nat)) dofs /\ (forall p, ev p w = 1) /\
  integral_of_pieces 1 a v /\ exists v', v' <> v /\ evaluates_pw (IntegralMoment (placed_triangle 0 0 1 0 0 1) (FS w)) a v'.
Proof.
  destruct (C72_p1_macro_moment [[0; 0]; [1; 0]; [0; 1]] (placed_triangle 0 0 1 0 0 1)) as [basis [dofs [a [w [E [Ha [Hd [Hw [H1 H2]]]]]]]]];
    [split; [reflexivity|repeat constructor]|unfold edge_det2, co; simpl; lra|reflexivity|].
  assert (W : forall p, ev p w = 1).
  { rewrite p1_macro_closed in E by lra. injection E as <- <-. cbn [nth_error p1_macro_dofs] in Hd. injection Hd as <-. intros p. cbn [ev].
    replace ((1 - 0) * (1 - 0) - (0 - 0) * (0 - 0)) with 1 by ring. rewrite Rabs_pos_eq by lra. field. }
  exists basis, dofs, a, w, (1 / 6). split; [exact E|]. split; [apply (nth_error_In _ 3 Ha)|]. split; [apply (nth_error_In _ 3 Hd)|].
  split; [exact W|]. split; [pose proof (H2 (fun _ => 0)) as H3; rewrite W in H3; exact H3|]. exists (1 / 2). split; [lra|exact H1].
Qed.

Print Assumptions C59_hct.
Print Assumptions C59_reduced_hct.
Print Assumptions C59_alfeld_sorokina.
Print Assumptions C59_macro_refusals.
Print Assumptions C59_iso_interval.
Print Assumptions C59_iso_triangle.
Print Assumptions C59_iso_quadrilateral_partial.
Print Assumptions C59_iso_quadrilateral_clockwise.
Print Assumptions C59_iso_quadrilateral_refuted.
Print Assumptions C59_p1_macro.
Print Assumptions C71_hct_unisolvent.
Print Assumptions C71_reduced_hct_unisolvent.
Print Assumptions C71_alfeld_sorokina_unisolvent.
Print Assumptions C71_degrees_of_freedom.
Print Assumptions C72_p1_macro_moment.
Print Assumptions C72_macro_integral_refuted.
