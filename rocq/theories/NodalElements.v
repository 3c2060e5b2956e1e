(** The kernels of the degrees of freedom of the elements of NodalModel.v on the default cells. *)
From Coquelicot Require Import Coquelicot.
From Coq Require Import String Reals ZArith Arith Bool Lia Lra List.
From Verif Require LinAlg CiarletModel CiarletProofs ReferencesModel.
From Verif Require Import Base PolySetsModel FunctionsModel FunctionsSpec FunctionalsModel FunctionalsSpec FunctionalsProofs FunctionalsValues MacroModel MacroUnisolvence NodalModel NodalSpec NodalProofs.
Import ListNotations.
Local Open Scope R_scope.

Definition triangle := ReferencesModel.default ReferencesModel.CTriangle.
Definition corners : list (list R) := [[0; 0]; [1; 0]; [0; 1]].

Ltac left_equations n H k :=
  lazymatch n with
  | 0%nat => idtac
  | S ?m => let E := fresh "E" in
    assert (E := H k ltac:(lia)); cbn in E; left_equations m H (S k)
  end.
Ltac solve_kernel n :=
  let x := fresh "x" in let H := fresh "H" in intros x H; left_equations n H 0%nat; clear H;
  let p := fresh "p" in let P := fresh "P" in intros p P; repeat first [exfalso; clear - P; lia | destruct p as [|p]; [lra|]].
Ltac solve_scalar := repeat (apply Forall_cons; [split; [simpl; tauto|intros s Hs; simpl in Hs; simpl; intuition congruence]|]); apply Forall_nil.
Ltac solve_numbers := match goal with |- at_numbers _ (nums ?l) => exists l; split; reflexivity end.
Ltac solve_simple := repeat (apply Forall_cons; [cbn [fst simple]; repeat split; try solve_numbers; try lia; try (eexists; reflexivity)|]); apply Forall_nil.

Lemma element_dual made dim n basis dofs : made = Ok (basis, dofs) -> (0 < n)%nat -> length basis = n -> length dofs = n ->
  Forall (scalar_in dim) basis -> Forall (simple dim) (map fst dofs) -> trivial_left n (values_of (map read (map fst dofs)) basis) ->
  creates_dual_basis made dim n.
Proof.
  intros E Hn Lb Ld Sb Sd K. destruct (simple_dual dim n basis (map fst dofs) Hn Lb) as (M & phi & H1 & H2 & H3); [rewrite map_length; exact Ld|assumption..|].
  exists basis, dofs, M, phi. auto 10.
Qed.

(** * Bell *)
Definition bell_basis : list expr := match bell_poly 2 with Ok b => b | _ => [] end.
Lemma bell_closed : make_bell triangle 5 = Ok (bell_basis, bell_dofs corners).
Proof. reflexivity. Qed.
Lemma bell_kernel : trivial_left 18 (values_of (map read (map fst (bell_dofs corners))) bell_basis).
Proof. solve_kernel 18%nat. Qed.
Lemma bell_dual : creates_dual_basis (make_bell triangle 5) 2 18.
Proof.
  apply (element_dual _ _ _ bell_basis (bell_dofs corners) bell_closed); try (reflexivity || lia); [| |apply bell_kernel].
  - solve_scalar.
  - solve_simple.
Qed.

(** * Argyris *)
Definition p_basis (dim n : nat) : list expr := match polys dim n with Ok b => b | _ => [] end.
Definition argyris_dofs : list tagged := flat_map (fun nv => argyris_vertex 2 (fst nv) (snd nv)) (numbered corners) ++ normals.
Lemma is_default_default c : ReferencesModel.is_default (ReferencesModel.default c) = true.
Proof. unfold ReferencesModel.is_default. destruct c; cbn [ReferencesModel.default ReferencesModel.r_vertices ReferencesModel.r_type]; (destruct (ReferencesModel.pts_eq_dec _ _) as [_|N]; [reflexivity|destruct N; reflexivity]). Qed.
Lemma default_default {A} c (k : res A) : default_only (ReferencesModel.default c) k = k.
Proof. unfold default_only. rewrite is_default_default. reflexivity. Qed.
Lemma argyris_closed : make_argyris triangle 5 = Ok (p_basis 2 5, argyris_dofs).
Proof. unfold make_argyris. cbn [Nat.eqb asserting]. change (named triangle "triangle") with true. cbn [asserting]. unfold triangle at 1. rewrite default_default. unfold triangle. rewrite normals_default. reflexivity. Qed.

(** replacing normals by multiples *)
Lemma left_scale n values values' basis : length basis = n -> length values = n ->
  Forall2 (fun v v' : expr -> R => exists s, s <> 0 /\ forall f, v f = s * v' f) values values' ->
  trivial_left n (values_of values' basis) -> trivial_left n (values_of values basis).
Proof.
  intros Lb Lv F K x H. apply K. intros j Hj. specialize (H j Hj). pose proof (same_length _ _ _ F) as Lv'.
  assert (X : exists s, s <> 0 /\ forall f, nth j values (fun _ => 0) f = s * nth j values' (fun _ => 0) f).
  { rewrite <- Lv in Hj. clear -F Hj. revert j Hj. induction F as [|v v' l l' R _ IH]; intros [|j] Hj; simpl in *; try lia; [exact R|apply IH; lia]. }
  destruct X as (s & Nz & X).
  rewrite (LinAlg.sum_ext n _ (fun i => s * (x i * CiarletModel.entry (values_of values' basis) i j))) in H.
  - rewrite LinAlg.sum_scal in H. apply Rmult_integral in H. destruct H as [H|H]; [contradiction|exact H].
  - intros i Hi. rewrite !entry_values by lia. rewrite X. ring.
Qed.
Definition whole_normals : list tagged :=
  [(PointDirectionalDerivativeEvaluation (nums [1 / 2; 1 / 2]) (nums [- (1); - (1)]), (1%nat, 0%nat));
   (PointDirectionalDerivativeEvaluation (nums [0; 1 / 2]) (nums [-1; 0]), (1%nat, 1%nat));
   (PointDirectionalDerivativeEvaluation (nums [1 / 2; 0]) (nums [0; 1]), (1%nat, 2%nat))].
Lemma same_values (dofs : list tagged) : Forall2 (fun v v' : expr -> R => exists s, s <> 0 /\ forall f, v f = s * v' f) (map read (map fst dofs)) (map read (map fst dofs)).
Proof. induction dofs as [|d dofs IH]; simpl; constructor; [|exact IH]. exists 1. split; [lra|]. intros f. ring. Qed.
Lemma scaled_normals : Forall2 (fun v v' : expr -> R => exists s, s <> 0 /\ forall f, v f = s * v' f) (map read (map fst normals)) (map read (map fst whole_normals)).
Proof.
  unfold normals, whole_normals. cbn [map fst].
  constructor; [|apply (same_values (tl normals))].
  exists (/ sqrt 2). split; [apply Rinv_neq_0_compat, Rgt_not_eq, sqrt_lt_R0; lra|].
  intros f. cbn [read nums map number ev]. unfold value_along, direction_sum, x_symbols. cbn [combine map fold_right fst snd]. ring.
Qed.
Lemma with_normals dofs : Forall2 (fun v v' : expr -> R => exists s, s <> 0 /\ forall f, v f = s * v' f)
  (map read (map fst (dofs ++ normals))) (map read (map fst (dofs ++ whole_normals))).
Proof. rewrite !map_app. apply Forall2_app; [apply same_values|apply scaled_normals]. Qed.

Lemma argyris_kernel : trivial_left 21 (values_of (map read (map fst argyris_dofs)) (p_basis 2 5)).
Proof.
  eapply (left_scale 21); [reflexivity|reflexivity|apply with_normals|]. solve_kernel 21%nat.
Qed.
Lemma argyris_dual : creates_dual_basis (make_argyris triangle 5) 2 21.
Proof.
  apply (element_dual _ _ _ _ _ argyris_closed); try (reflexivity || lia); [| |apply argyris_kernel].
  - solve_scalar.
  - solve_simple.
Qed.

(** * Morley *)
Lemma morley_closed : make_morley triangle 2 = Ok (p_basis 2 2, vertex_evaluations triangle ++ normals).
Proof. unfold make_morley. unfold triangle at 1. rewrite default_default. cbn [Nat.eqb asserting]. change (named triangle "triangle") with true. cbn [asserting]. unfold triangle. rewrite normals_default. reflexivity. Qed.
Lemma morley_dual : creates_dual_basis (make_morley triangle 2) 2 6.
Proof.
  apply (element_dual _ _ _ _ _ morley_closed); try (reflexivity || lia).
  - solve_scalar.
  - solve_simple.
  - eapply (left_scale 6); [reflexivity|reflexivity|apply with_normals|]. solve_kernel 6%nat.
Qed.

(** * Fortin-Soulie *)
Lemma fortin_soulie_dual : creates_dual_basis (make_fortin_soulie triangle 2) 2 6.
Proof.
  eapply element_dual; [unfold make_fortin_soulie; change (named triangle "triangle") with true; cbn [Nat.eqb asserting]; unfold triangle at 1; rewrite default_default; reflexivity|..]; try (reflexivity || lia).
  - solve_scalar.
  - solve_simple.
  - solve_kernel 6%nat.
Qed.

(** * Rannacher-Turek *)
Lemma rannacher_turek_quadrilateral : creates_dual_basis (make_rannacher_turek (ReferencesModel.default ReferencesModel.CQuadrilateral) 1) 2 4.
Proof.
  eapply element_dual; [unfold make_rannacher_turek; cbn [Nat.eqb asserting]; rewrite default_default; reflexivity|..]; try (reflexivity || lia).
  - solve_scalar.
  - solve_simple.
  - solve_kernel 4%nat.
Qed.
Lemma rannacher_turek_hexahedron : creates_dual_basis (make_rannacher_turek (ReferencesModel.default ReferencesModel.CHexahedron) 1) 3 6.
Proof.
  eapply element_dual; [unfold make_rannacher_turek; cbn [Nat.eqb asserting]; rewrite default_default; reflexivity|..]; try (reflexivity || lia).
  - solve_scalar.
  - solve_simple.
  - solve_kernel 6%nat.
Qed.

(** * Bogner-Fox-Schmit *)
Lemma bfs_dual : creates_dual_basis (make_bfs (ReferencesModel.default ReferencesModel.CQuadrilateral) 3) 2 16.
Proof.
  eapply element_dual; [reflexivity|..]; try (reflexivity || lia).
  - solve_scalar.
  - solve_simple.
  - solve_kernel 16%nat.
Qed.
