(** C55, C60, C73, C74, C75: elements defined by values, derivatives and weighted values at points. *)
From Coquelicot Require Import Coquelicot.
From Coq Require Import String Reals ZArith Arith Bool Lia Lra List.
From Verif Require LinAlg CiarletModel CiarletProofs.
From Verif Require Import Base PolyLib PolySetsModel PolySetsProofs ReferencesModel ReferencesSpec ReferencesProofs ReferencesGeometry UnisolvenceProofs LagrangeProofs.
From Verif Require Import FunctionsModel FunctionsSpec FunctionalsModel FunctionalsSpec FunctionalsProofs FunctionalsValues MacroModel MacroUnisolvence.
From Verif Require Import NodalModel NodalSpec NodalProofs NodalElements HermiteProofs HermiteElements KmvProofs KmvElements ConformProofs KmvConform HermiteConform BellProofs.
Import ListNotations.
Local Open Scope R_scope.

(** * C73: unisolvence *)
(** The elements on their default cells: the dual matrix can be inverted, and get_basis_functions returns the basis dual to the
    degrees of freedom, which reproduces every function of the space from its degrees of freedom. *)
Theorem C73_default_cells :
  creates_dual_basis (make_bell (default CTriangle) 5) 2 18 /\
  creates_dual_basis (make_argyris (default CTriangle) 5) 2 21 /\
  creates_dual_basis (make_morley (default CTriangle) 2) 2 6 /\
  creates_dual_basis (make_fortin_soulie (default CTriangle) 2) 2 6 /\
  creates_dual_basis (make_rannacher_turek (default CQuadrilateral) 1) 2 4 /\
  creates_dual_basis (make_rannacher_turek (default CHexahedron) 1) 3 6 /\
  creates_dual_basis (make_bfs (default CQuadrilateral) 3) 2 16.
Proof.
  exact (conj bell_dual (conj argyris_dual (conj morley_dual (conj fortin_soulie_dual
    (conj rannacher_turek_quadrilateral (conj rannacher_turek_hexahedron bfs_dual)))))).
Qed.

(** Hermite elements: on every interval, triangle and tetrahedron that is not degenerate; 4, 10 and 20 functions. *)
Definition cubic_count (c : cell_type) : nat := match c with CInterval => 4 | CTriangle => 10 | _ => 20 end%nat.
Theorem C73_hermite : forall c vs r, simplex c -> points (nvert c) (tdim c) vs -> map_det c vs <> 0 -> make_reference c vs = Ok r ->
  creates_dual_basis (make_hermite r 3) (tdim c) (cubic_count c).
Proof.
  intros c vs r Hc Hp HD Hr. replace (cubic_count c) with (length (cubics c)); [exact (hermite_dual c vs r Hc Hp HD Hr)|].
  destruct Hc as [->|[->| ->]]; reflexivity.
Qed.
Example C73_hermite_case : exists r, simplex CTetrahedron /\ points (nvert CTetrahedron) (tdim CTetrahedron) [[1; 0; 0]; [3; 0; 1]; [1; 2; 0]; [0; 0; 5]] /\
  map_det CTetrahedron [[1; 0; 0]; [3; 0; 1]; [1; 2; 0]; [0; 0; 5]] <> 0 /\ make_reference CTetrahedron [[1; 0; 0]; [3; 0; 1]; [1; 2; 0]; [0; 0; 5]] = Ok r.
Proof.
  eexists. split; [right; right; reflexivity|]. split; [split; [reflexivity|repeat constructor]|]. split; [|reflexivity].
  unfold map_det, edge_det3, co; simpl; lra.
Qed.

Ltac at_vertex tac := first [exists 0%nat; eexists; split; [reflexivity|split; [reflexivity|tac]]|exists 1%nat; eexists; split; [reflexivity|split; [reflexivity|tac]]
  |exists 2%nat; eexists; split; [reflexivity|split; [reflexivity|tac]]|exists 3%nat; eexists; split; [reflexivity|split; [reflexivity|tac]]].
Ltac at_axis O := first [exists 0%nat; eexists; split; [cbn; lia|split; [apply O|reflexivity]]|exists 1%nat; eexists; split; [cbn; lia|split; [apply O|reflexivity]]|exists 2%nat; eexists; split; [cbn; lia|split; [apply O|reflexivity]]].
Ltac at_mean := intros j Hj; cbn in Hj; destruct j as [|[|[|j]]]; try lia; cbn; unfold co; cbn; try field; try lra.
Ltac with_face e m := exists e; eexists; exists m; split; [eexists; split; [reflexivity|reflexivity]|split; [reflexivity|split; [reflexivity|split; [at_mean|reflexivity]]]].
Ltac at_face := match goal with X : PointEvaluation (nums ?m) = _ |- _ => rewrite <- X; clear X;
  first [with_face 0%nat m|with_face 1%nat m|with_face 2%nat m|with_face 3%nat m] end.
(** Which degrees of freedom: Bell on every triangle. *)
Theorem C73_bell_dofs : forall vs r, points 3 2 vs -> make_reference CTriangle vs = Ok r ->
  exists basis dofs, make_bell r 5 = Ok (basis, dofs) /\ length basis = 18%nat /\ length dofs = 18%nat /\
  forall d en, In (d, en) dofs <-> exists i v, nth_error vs i = Some v /\ en = (0%nat, i) /\
    (d = PointEvaluation (nums v) \/ exists a b, (1 <= a + b <= 2)%nat /\ d = DerivativePointEvaluation (nums v) [a; b]).
Proof.
  intros vs r Hp Hr. split_points Hp. injection Hr as <-. eexists _, _. split; [reflexivity|]. split; [reflexivity|]. split; [reflexivity|]. intros d en. split.
  - intros HI. unfold bell_dofs in HI. cbn [r_vertices numbered length seq combine flat_map map app fst snd] in HI.
    repeat (destruct HI as [X|HI]; [injection X as <- <-; at_vertex ltac:(first [left; reflexivity|right; eexists _, _; split; [|reflexivity]; lia])|]). destruct HI.
  - intros (i & v & Ei & -> & HI).
    destruct i as [|[|[|i]]]; [injection Ei as <-|injection Ei as <-|injection Ei as <-|destruct i; discriminate Ei];
      (destruct HI as [->|(a & b & Hab & ->)]; [|destruct a as [|[|[|a]]]; destruct b as [|[|[|b]]]; try lia]); simpl; tauto.
Qed.
Example C73_bell_dofs_case : points 3 2 [[0; 0]; [2; 0]; [1; 3]] /\ exists r, make_reference CTriangle [[0; 0]; [2; 0]; [1; 3]] = Ok r.
Proof. split; [split; [reflexivity|repeat constructor]|eexists; reflexivity]. Qed.

(** Hermite on every simplex: values and first derivatives at the vertices, values at the midpoints of the faces. *)
Definition mean_of (vs : list (list R)) (E : list nat) (m : list R) : Prop :=
  forall j, (j < length m)%nat -> INR (length E) * nth j m 0 = sumR (map (fun i => co vs i j) E).
Definition one_at (n j : nat) (k : list nat) : Prop := length k = n /\ forall i, (i < n)%nat -> nth i k 0%nat = if Nat.eqb i j then 1%nat else 0%nat.
Theorem C73_hermite_dofs : forall c vs r, simplex c -> points (nvert c) (tdim c) vs -> make_reference c vs = Ok r ->
  exists basis dofs, make_hermite r 3 = Ok (basis, dofs) /\ length basis = cubic_count c /\ length dofs = cubic_count c /\
  (forall d en, In (d, en) dofs ->
     (exists i v, nth_error vs i = Some v /\ en = (0%nat, i) /\
        (d = PointEvaluation (nums v) \/ exists j k, (j < tdim c)%nat /\ one_at (tdim c) j k /\ d = DerivativePointEvaluation (nums v) k)) \/
     (exists e E m, has_vertices r 2 e E /\ en = (2%nat, e) /\ length m = tdim c /\ mean_of vs E m /\ d = PointEvaluation (nums m))) /\
  (forall i v, nth_error vs i = Some v -> In (PointEvaluation (nums v), (0%nat, i)) dofs /\
     forall j k, (j < tdim c)%nat -> one_at (tdim c) j k -> In (DerivativePointEvaluation (nums v) k, (0%nat, i)) dofs) /\
  (forall e E, has_vertices r 2 e E -> exists m, In (PointEvaluation (nums m), (2%nat, e)) dofs).
Proof.
  intros c vs r Hc Hp Hr.
  assert (U : forall n j k, one_at n j k -> (n <= 3)%nat -> k = unit_index n j).
  { intros n j k [L H] Hn. apply (nth_ext _ _ 0%nat 0%nat); [unfold unit_index, range; rewrite map_length, seq_length; exact L|]. intros i Hi. rewrite L in Hi. rewrite (H i Hi).
    unfold unit_index. rewrite (CiarletProofs.nth_map_range (fun i0 => if (j =? i0)%nat then 1%nat else 0%nat)) by exact Hi. rewrite Nat.eqb_sym. reflexivity. }
  assert (O : forall n j, one_at n j (unit_index n j)).
  { intros n j. split; [unfold unit_index, range; rewrite map_length, seq_length; reflexivity|]. intros i Hi. unfold unit_index.
    rewrite (CiarletProofs.nth_map_range (fun i0 => if (j =? i0)%nat then 1%nat else 0%nat)) by exact Hi. rewrite Nat.eqb_sym. reflexivity. }
  destruct Hc as [->|[->| ->]]; unfold nvert in Hp; cbn [reference_vertices length tdim] in Hp; split_points Hp; injection Hr as <-; eexists _, _;
    (split; [reflexivity|split; [reflexivity|split; [reflexivity|split; [|split]]]]).
  all: lazymatch goal with
    | |- forall d en, In (d, en) _ -> _ => intros d en HI; cbn -[nums unit_index IZR INR Rplus Rmult Rdiv] in HI;
        repeat (destruct HI as [X|HI]; [apply pair_equal_spec in X; destruct X as [X <-];
          first [left; rewrite <- X; clear X; at_vertex ltac:(first [left; reflexivity|right; at_axis O])|right; at_face]|]); destruct HI
    | |- forall i v, nth_error _ _ = _ -> _ => intros i v Ei; split; [do 4 (try (destruct i as [|i]; [injection Ei as <-; simpl; tauto|])); destruct i; discriminate Ei|];
        intros j k Hj Hk; apply U in Hk; [|cbn; lia]; subst k; cbn [tdim] in *;
        do 4 (try (destruct i as [|i]; [injection Ei as <-; destruct j as [|[|[|j]]]; try lia; simpl; tauto|])); destruct i; discriminate Ei
    | _ => idtac
    end.
  all: intros e E (tab & Et & En); try discriminate Et; injection Et as <-.
  - destruct e; discriminate En.
  - destruct e as [|e]; [|destruct e; discriminate En]. exists (mid_of [[r4; r5]; [r2; r3]; [r0; r1]]). cbn -[nums]. do 9 right. left. reflexivity.
  - match goal with |- context [r_vertices {| r_type := _; r_vertices := ?vs |}] => pose (w := vs) end.
    destruct e as [|[|[|[|e]]]]; [exists (nth 0 (mids CTetrahedron w) [])|exists (nth 1 (mids CTetrahedron w) [])|exists (nth 2 (mids CTetrahedron w) [])|exists (nth 3 (mids CTetrahedron w) [])|destruct e; discriminate En];
      cbn -[nums]; [do 16 right; left; reflexivity|do 17 right; left; reflexivity|do 18 right; left; reflexivity|do 19 right; left; reflexivity].
Qed.

(** Morley and Argyris: values (and for Argyris first and second derivatives) at the vertices, and the derivative in the
    direction of a unit normal at the midpoint of every edge. *)
Definition normal_at_midpoint (vs : list (list R)) (E : list nat) (d : functional) : Prop :=
  exists a b m n, E = [a; b] /\ length m = 2%nat /\ mean_of vs E m /\ d = PointDirectionalDerivativeEvaluation (nums m) (nums n) /\
    length n = 2%nat /\ perpendicular (nth a vs []) (nth b vs []) n /\ nth 0 n 0 ^ 2 + nth 1 n 0 ^ 2 = 1.
Theorem C73_normal_dofs :
  (exists basis dofs, make_morley (default CTriangle) 2 = Ok (basis, dofs) /\ length dofs = 6%nat /\
   (forall i v, nth_error (reference_vertices CTriangle) i = Some v -> In (PointEvaluation (nums v), (0%nat, i)) dofs) /\
   (forall e E, has_vertices (default CTriangle) 1 e E -> exists d, In (d, (1%nat, e)) dofs /\ normal_at_midpoint (reference_vertices CTriangle) E d)) /\
  (exists basis dofs, make_argyris (default CTriangle) 5 = Ok (basis, dofs) /\ length dofs = 21%nat /\
   (forall i v, nth_error (reference_vertices CTriangle) i = Some v -> In (PointEvaluation (nums v), (0%nat, i)) dofs /\
      In (PointDirectionalDerivativeEvaluation (nums v) (nums [1; 0]), (0%nat, i)) dofs /\ In (PointDirectionalDerivativeEvaluation (nums v) (nums [0; 1]), (0%nat, i)) dofs /\
      In (PointComponentSecondDerivativeEvaluation (nums v) (0, 0)%nat, (0%nat, i)) dofs /\ In (PointComponentSecondDerivativeEvaluation (nums v) (1, 0)%nat, (0%nat, i)) dofs /\
      In (PointComponentSecondDerivativeEvaluation (nums v) (1, 1)%nat, (0%nat, i)) dofs) /\
   (forall e E, has_vertices (default CTriangle) 1 e E -> exists d, In (d, (1%nat, e)) dofs /\ normal_at_midpoint (reference_vertices CTriangle) E d)).
Proof.
  assert (S2 : / sqrt 2 * / sqrt 2 = / 2). { rewrite <- Rinv_mult. rewrite sqrt_sqrt by lra. reflexivity. }
  assert (N : forall e E, has_vertices (default CTriangle) 1 e E -> exists d, In (d, (1%nat, e)) normals /\ normal_at_midpoint (reference_vertices CTriangle) E d).
  { intros e E (tab & Et & En). injection Et as <-. unfold normals. destruct e as [|[|[|e]]]; [injection En as <-|injection En as <-|injection En as <-|destruct e; discriminate En].
    - eexists. split; [left; reflexivity|]. exists 1%nat, 2%nat. eexists _, _. split; [reflexivity|]. split; [|split; [|split; [reflexivity|split; [reflexivity|]]]]; [reflexivity|intros [|[|j]] Hj; cbn in *; try lia; unfold co; cbn; lra|].
      unfold perpendicular. cbn. split; [ring|]. ring_simplify. replace (2 * (/ sqrt 2) ^ 2) with (2 * (/ sqrt 2 * / sqrt 2)) by ring. rewrite S2. lra.
    - eexists. split; [right; left; reflexivity|]. exists 0%nat, 2%nat. eexists _, _. split; [reflexivity|]. split; [|split; [|split; [reflexivity|split; [reflexivity|]]]]; [reflexivity|intros [|[|j]] Hj; cbn in *; try lia; unfold co; cbn; lra|].
      unfold perpendicular. cbn. split; lra.
    - eexists. split; [right; right; left; reflexivity|]. exists 0%nat, 1%nat. eexists _, _. split; [reflexivity|]. split; [|split; [|split; [reflexivity|split; [reflexivity|]]]]; [reflexivity|intros [|[|j]] Hj; cbn in *; try lia; unfold co; cbn; lra|].
      unfold perpendicular. cbn. split; lra. }
  split.
  - eexists _, _. split; [exact morley_closed|]. split; [reflexivity|]. split.
    + intros i v Ei. apply in_or_app. left. destruct i as [|[|[|i]]]; [injection Ei as <-|injection Ei as <-|injection Ei as <-|destruct i; discriminate Ei]; simpl; tauto.
    + intros e E HE. destruct (N e E HE) as (d & Hd & Hn). exists d. split; [apply in_or_app; right; exact Hd|exact Hn].
  - eexists _, _. split; [exact argyris_closed|]. split; [reflexivity|]. split.
    + intros i v Ei. destruct i as [|[|[|i]]]; [injection Ei as <-|injection Ei as <-|injection Ei as <-|destruct i; discriminate Ei];
        (split; [|split; [|split; [|split; [|split]]]]); apply in_or_app; left; simpl; tauto.
    + intros e E HE. destruct (N e E HE) as (d & Hd & Hn). exists d. split; [apply in_or_app; right; exact Hd|exact Hn].
Qed.

(** Fortin-Soulie: values at the thirds of the first two edges, at the midpoint of the third, and at the barycentre of the
    triangle.  Rannacher-Turek: values at the midpoints of the facets.  Bogner-Fox-Schmit: value, gradient and mixed second
    derivative at the vertices. *)
Theorem C73_value_dofs :
  (exists basis, make_fortin_soulie (default CTriangle) 2 = Ok (basis,
     [(PointEvaluation (nums [2 / 3; 1 / 3]), (1, 0)%nat); (PointEvaluation (nums [1 / 3; 2 / 3]), (1, 0)%nat);
      (PointEvaluation (nums [0; 1 / 3]), (1, 1)%nat); (PointEvaluation (nums [0; 2 / 3]), (1, 1)%nat);
      (PointEvaluation (nums [1 / 2; 0]), (1, 2)%nat); (PointEvaluation (nums [1 / 3; 1 / 3]), (2, 0)%nat)])) /\
  (forall c k, (c = CQuadrilateral /\ k = 1%nat) \/ (c = CHexahedron /\ k = 2%nat) -> exists basis dofs, make_rannacher_turek (default c) 1 = Ok (basis, dofs) /\
     forall d k' e, In (d, (k', e)) dofs -> k' = k /\
       exists E m, has_vertices (default c) k e E /\ length m = tdim c /\ mean_of (reference_vertices c) E m /\ d = PointEvaluation (nums m)) /\
  (exists basis dofs, make_bfs (default CQuadrilateral) 3 = Ok (basis, dofs) /\ length dofs = 16%nat /\
     forall i v, nth_error (reference_vertices CQuadrilateral) i = Some v -> In (PointEvaluation (nums v), (0%nat, i)) dofs /\
       forall k, In k [[1; 0]; [0; 1]; [1; 1]]%nat -> In (DerivativePointEvaluation (nums v) k, (0%nat, i)) dofs).
Proof.
  split; [|split].
  - eexists. unfold make_fortin_soulie. rewrite default_default. reflexivity.
  - intros c k [[-> ->]|[-> ->]]; eexists _, _; (split; [unfold make_rannacher_turek; cbn [Nat.eqb asserting]; rewrite default_default; reflexivity|]);
      intros d k' e HI; cbn -[nums IZR INR Rplus Rmult Rdiv] in HI;
      repeat (destruct HI as [X|HI]; [apply pair_equal_spec in X; destruct X as [X Y]; injection Y as <- <-; split; [reflexivity|];
        match type of X with PointEvaluation (nums ?m) = _ => rewrite <- X; eexists; exists m; split; [eexists; split; reflexivity|split; [reflexivity|split; [at_mean|reflexivity]]] end|]); destruct HI.
  - eexists _, _. split; [reflexivity|]. split; [reflexivity|]. intros i v Ei.
    destruct i as [|[|[|[|i]]]]; [injection Ei as <-|injection Ei as <-|injection Ei as <-|injection Ei as <-|destruct i; discriminate Ei];
      (split; [simpl; tauto|intros k [<-|[<-|[<-|[]]]]; simpl; tauto]).
Qed.

(** Everything else is rejected. *)
Theorem C73_rejects : forall r n,
  ((r_type r <> CTriangle \/ n <> 5%nat) -> make_bell r n = Err AssertionError) /\
  (n <> 3%nat -> make_hermite r n = Err AssertionError) /\
  ((n <> 5%nat \/ r_type r <> CTriangle) -> make_argyris r n = Err AssertionError) /\
  (r_vertices r <> reference_vertices (r_type r) -> n = 5%nat -> r_type r = CTriangle -> make_argyris r n = Err NotImplementedError) /\
  (r_vertices r <> reference_vertices (r_type r) -> make_morley r n = Err NotImplementedError) /\
  (r_vertices r = reference_vertices (r_type r) -> (n <> 2%nat \/ r_type r <> CTriangle) -> make_morley r n = Err AssertionError) /\
  ((n <> 2%nat \/ r_type r <> CTriangle) -> make_fortin_soulie r n = Err AssertionError) /\
  (r_vertices r <> reference_vertices (r_type r) -> n = 2%nat -> r_type r = CTriangle -> make_fortin_soulie r n = Err NotImplementedError) /\
  (n <> 1%nat -> make_rannacher_turek r n = Err AssertionError) /\
  (r_vertices r <> reference_vertices (r_type r) -> n = 1%nat -> make_rannacher_turek r n = Err NotImplementedError) /\
  (n <> 3%nat -> make_bfs r n = Err AssertionError).
Proof.
  intros r n.
  assert (T : r_type r <> CTriangle -> named r "triangle" = false) by (unfold named; destruct (r_type r); try reflexivity; congruence).
  assert (T' : r_type r = CTriangle -> named r "triangle" = true) by (unfold named; intros ->; reflexivity).
  assert (D : r_vertices r <> reference_vertices (r_type r) -> is_default r = false) by (intros H; unfold is_default; destruct (pts_eq_dec _ _); [contradiction|reflexivity]).
  assert (D' : r_vertices r = reference_vertices (r_type r) -> is_default r = true) by (intros H; unfold is_default; destruct (pts_eq_dec _ _); [reflexivity|contradiction]).
  assert (Q : forall k, n <> k -> (n =? k)%nat = false) by (intros k H; apply Nat.eqb_neq, H).
  unfold make_bell, make_hermite, make_argyris, make_morley, make_fortin_soulie, make_rannacher_turek, make_bfs, asserting, default_only.
  repeat split.
  - intros [H|H]; [rewrite (T H); reflexivity|rewrite (Q _ H); destruct (named r "triangle"); reflexivity].
  - intros H. rewrite (Q _ H). reflexivity.
  - intros [H|H]; [rewrite (Q _ H); reflexivity|rewrite (T H); destruct (n =? 5)%nat; reflexivity].
  - intros H -> H'. rewrite (T' H'), (D H). reflexivity.
  - intros H. rewrite (D H). reflexivity.
  - intros H [H'|H']; rewrite (D' H); [rewrite (Q _ H'); reflexivity|rewrite (T H'); destruct (n =? 2)%nat; reflexivity].
  - intros [H|H]; [rewrite (Q _ H); destruct (named r "triangle"); reflexivity|rewrite (T H); reflexivity].
  - intros H -> H'. rewrite (T' H'), (D H). reflexivity.
  - intros H. rewrite (Q _ H). reflexivity.
  - intros H ->. rewrite (D H). reflexivity.
  - intros H. rewrite (Q _ H). reflexivity.
Qed.

(** * C74: Kong-Mulder-Veldhuizen elements *)
Theorem C74_kmv_partial :
  creates_dual_basis (make_kmv (default CTriangle) 1) 2 3 /\
  creates_dual_basis (make_kmv (default CTriangle) 2) 2 7 /\
  creates_dual_basis (make_kmv (default CTriangle) 3) 2 12 /\
  creates_dual_basis (make_kmv (default CTetrahedron) 1) 3 4.
Proof. exact (conj kmv_tri1_dual (conj kmv_tri2_dual (conj kmv_tri3_dual kmv_tet1_dual))). Qed.
(** The order 2 on tetrahedra, which the class accepts, is not unisolvent: a function of the space vanishes at all 23 points,
    and get_basis_functions raises. *)
Theorem C74_kmv_refuted : exists c n, creates_no_basis (make_kmv (default c) n).
Proof. exists CTetrahedron, 2%nat. exact kmv_tet2_singular. Qed.
Theorem C74_kmv_rejects : forall r n,
  (r_vertices r <> reference_vertices (r_type r) -> make_kmv r n = Err NotImplementedError) /\
  (r_type r <> CTriangle -> r_type r <> CTetrahedron -> make_kmv r n = Err NotImplementedError) /\
  (n = 0%nat \/ (3 < n)%nat \/ (r_type r = CTetrahedron /\ (2 < n)%nat) -> make_kmv r n = Err NotImplementedError).
Proof.
  intros r n. unfold make_kmv, default_only, kmv_rule, named. split; [|split].
  - intros H. unfold is_default. destruct (pts_eq_dec _ _); [contradiction|reflexivity].
  - intros H1 H2. destruct (is_default r); [|reflexivity]. destruct (r_type r); try reflexivity; congruence.
  - intros H. destruct (is_default r); [|reflexivity].
    destruct H as [->|[H|[-> H]]]; [destruct (r_type r); reflexivity| |].
    + destruct n as [|[|[|[|n]]]]; try lia. destruct (r_type r); reflexivity.
    + destruct n as [|[|[|n]]]; try lia. destruct n; reflexivity.
Qed.
(** A triangle with other vertices, and an order that is too high. *)
Example C74_kmv_rejects_case : (exists r, make_reference CTriangle [[0; 0]; [2; 0]; [0; 1]] = Ok r /\ make_kmv r 2 = Err NotImplementedError) /\
  make_kmv (default CTetrahedron) 3 = Err NotImplementedError.
Proof.
  split; [|apply (proj2 (proj2 (C74_kmv_rejects _ _))); right; right; split; [reflexivity|lia]]. eexists. split; [reflexivity|]. apply (proj1 (C74_kmv_rejects _ _)). cbn. intros E. injection E as E. lra.
Qed.

(** * C55: the quadrature rules *)
Definition kmv_rule_of (made : res (list expr * list tagged)) (c : cell_type) (n k : nat) : Prop :=
  exists basis dofs, made = Ok (basis, dofs) /\ length dofs = n /\ integrates_exactly c (map fst dofs) k /\ positive_weights (map fst dofs).
(** Exact to the degrees 1, 3 and 1, 4, with positive weights. *)
Theorem C55_kmv_rules_partial :
  kmv_rule_of (make_kmv (default CTriangle) 1) CTriangle 3 1 /\ kmv_rule_of (make_kmv (default CTriangle) 2) CTriangle 7 3 /\
  kmv_rule_of (make_kmv (default CTetrahedron) 1) CTetrahedron 4 1 /\ kmv_rule_of (make_kmv (default CTetrahedron) 2) CTetrahedron 23 4.
Proof.
  split; [|split; [|split]]; (eexists _, _; split; [(apply kmv_triangle || apply kmv_tetrahedron); simpl; auto|split; [reflexivity|split]]).
  - exact kmv_tri1_exact.
  - exact kmv_tri1_positive.
  - exact kmv_tri2_exact.
  - exact kmv_tri2_positive.
  - exact kmv_tet1_exact.
  - exact kmv_tet1_positive.
  - exact kmv_tet2_exact.
  - exact kmv_tet2_positive.
Qed.
Example C55_kmv_rules_case : polynomial (EMul (ESym "x"%string) (EPow (ESym "y"%string) 2)) /\ symbols_in (firstn 2 x_symbols) (EMul (ESym "x"%string) (EPow (ESym "y"%string) 2)) /\
  poly_space (fun m => length m = 2%nat /\ (mdeg m <= 3)%nat) (as_function 2 (EMul (ESym "x"%string) (EPow (ESym "y"%string) 2))).
Proof.
  split; [simpl; tauto|]. split; [intros s Hs; simpl in *; intuition congruence|].
  exists [(1, [1; 2]%nat)]. split; [repeat constructor|]. intros v. cbn. unfold as_function, x_point. cbn. ring.
Qed.
(** The rule of order 3 does not even integrate constants: the weights add to 1/2 - sqrt 7 / 15, and those of the edge points are
    negative. *)
Theorem C55_kmv_order_3 : exists basis dofs, make_kmv (default CTriangle) 3 = Ok (basis, dofs) /\ length dofs = 12%nat /\
  (forall vals, Forall2 (fun d u => evaluates d (FS (ENum 1)) u) (map fst dofs) vals -> fold_right Rplus 0 vals = 1 / 2 - sqrt 7 / 15 /\ nth 3 vals 0 < 0) /\
  forall k, ~ integrates_exactly CTriangle (map fst dofs) k.
Proof.
  eexists _, _. split; [apply kmv_triangle; simpl; auto|]. split; [reflexivity|]. split; [|exact kmv_tri3_inexact].
  intros vals H. apply kmv_tri3_weights in H. exact H.
Qed.
Theorem C55_kmv_rules_refuted : exists n basis dofs, make_kmv (default CTriangle) n = Ok (basis, dofs) /\ ~ integrates_exactly CTriangle (map fst dofs) 0.
Proof. destruct C55_kmv_order_3 as (basis & dofs & E & _ & _ & H). exists 3%nat, basis, dofs. split; [exact E|apply H]. Qed.

(** * C60: Bell *)
Theorem C60_bell_partial : exists basis dofs, make_bell (default CTriangle) 5 = Ok (basis, dofs) /\
  (forall f e E n, polynomial f -> symbols_in (firstn 2 x_symbols) f -> spanned basis (fun q => ev q f) -> has_vertices (default CTriangle) 1 e E ->
     length n = 2%nat -> perpendicular (nth (nth 0 E 0%nat) (reference_vertices CTriangle) []) (nth (nth 1 E 0%nat) (reference_vertices CTriangle) []) n ->
     cubic_along f (nth (nth 0 E 0%nat) (reference_vertices CTriangle) []) (nth (nth 1 E 0%nat) (reference_vertices CTriangle) []) n) /\
  (forall g, poly_space (fun m => length m = 2%nat /\ (mdeg m <= 4)%nat) g -> spanned basis (fun p => g (fun i => nth i [p "x"%string; p "y"%string] 0))).
Proof.
  eexists _, _. split; [exact bell_closed|]. split; [|exact bell_quartics].
  intros f e E n Pf Sf Hs (tab & Et & En) Ln Hn. apply (bell_cubic f); try assumption. injection Et as <-.
  destruct e as [|[|[|e]]]; [injection En as <-|injection En as <-|injection En as <-|destruct e; discriminate En]; simpl; auto.
Qed.
Example C60_bell_case : has_vertices (default CTriangle) 1 0 [1; 2]%nat /\ perpendicular [1; 0] [0; 1] [3; 3] /\
  exists basis dofs, make_bell (default CTriangle) 5 = Ok (basis, dofs) /\ spanned basis (fun q => ev q wide_function) /\ polynomial wide_function.
Proof.
  split; [eexists; split; reflexivity|]. split; [unfold perpendicular; cbn; ring|]. eexists _, _. split; [exact bell_closed|]. split; [apply wide_spanned|apply (row_scalar wide_coefficients eq_refl)].
Qed.
(** The class accepts every triangle with the same functions; on the triangle (0,0), (2,0), (0,1) a function of the space has a
    normal derivative of degree four on the edge opposite the origin. *)
Theorem C60_bell_refuted : exists vs r basis dofs f, points 3 2 vs /\ map_det CTriangle vs <> 0 /\ make_reference CTriangle vs = Ok r /\ make_bell r 5 = Ok (basis, dofs) /\
  spanned basis (fun q => ev q f) /\ perpendicular (nth 1 vs []) (nth 2 vs []) [1; 2] /\ ~ cubic_along f (nth 1 vs []) (nth 2 vs []) [1; 2].
Proof.
  exists wide, wide_triangle, bell_basis, (bell_dofs wide), wide_function. split; [split; [reflexivity|repeat constructor]|]. split; [unfold map_det, edge_det2, co, wide; simpl; lra|].
  split; [reflexivity|]. split; [reflexivity|]. split; [apply wide_spanned|]. split; [unfold perpendicular; cbn; ring|apply wide_not_cubic].
Qed.

(** * C75: conformity *)
(** Degrees of freedom on the closure of a facet determine the function on the facet, and for Bell, Argyris and
    Bogner-Fox-Schmit (the first of which announces C1) its gradient too. *)
Theorem C75_default_cells_partial :
  conforming true (make_bell (default CTriangle) 5) (default CTriangle) /\
  conforming true (make_argyris (default CTriangle) 5) (default CTriangle) /\
  conforming true (make_bfs (default CQuadrilateral) 3) (default CQuadrilateral) /\
  conforming false (make_kmv (default CTriangle) 1) (default CTriangle) /\
  conforming false (make_kmv (default CTriangle) 2) (default CTriangle) /\
  conforming false (make_kmv (default CTriangle) 3) (default CTriangle) /\
  conforming false (make_kmv (default CTetrahedron) 1) (default CTetrahedron).
Proof.
  exact (conj bell_conforming (conj argyris_conforming (conj bfs_conforming (conj kmv_tri1_conforming (conj kmv_tri2_conforming (conj kmv_tri3_conforming kmv_tet1_conforming)))))).
Qed.
Theorem C75_hermite : forall c vs r, simplex c -> points (nvert c) (tdim c) vs -> map_det c vs <> 0 -> make_reference c vs = Ok r ->
  conforming false (make_hermite r 3) r.
Proof. exact hermite_conforming. Qed.
(** (1 - x - y)^2 is not zero, and its degrees of freedom on the closure of the first edge of the triangle vanish *)
Example C75_case : exists basis dofs f, make_hermite (default CTriangle) 3 = Ok (basis, dofs) /\ has_vertices (default CTriangle) 1 0 [1; 2]%nat /\
  polynomial f /\ symbols_in (firstn 2 x_symbols) f /\ spanned basis (fun q => ev q f) /\ ev (x_point [0; 0]) f = 1 /\
  forall d k' e' E', In (d, (k', e')) dofs -> has_vertices (default CTriangle) k' e' E' -> incl E' [1; 2]%nat -> evaluates d (FS f) 0.
Proof.
  eexists _, _, (EPow (EAdd (ENum 1) (EMul (ENum (-1)) (EAdd (ESym "x"%string) (ESym "y"%string)))) 2). split; [reflexivity|]. split; [eexists; split; reflexivity|]. set (f := EPow _ _).
  assert (Sf : scalar_in 2 f) by (split; [simpl; tauto|intros s Hs; simpl in Hs; simpl; intuition congruence]).
  split; [apply Sf|]. split; [apply Sf|]. split; [exists [1; -2; 1; 0; -2; 2; 0; 1; 0; 0]; split; [reflexivity|]; intros p; unfold combination; cbn; ring|]. split; [cbn; ring|].
  intros d k' e' E' Hd (tab & Et & En) Hi.
  assert (S0 : simple 2 d).
  { cbn -[nums] in Hd. repeat (destruct Hd as [X|Hd]; [apply pair_equal_spec in X; destruct X as [<- _]; cbn [simple]; solve_numbers|]). destruct Hd. }
  assert (R0 : read d f = 0); [|rewrite <- R0; exact (proj1 (simple_reading 2 d S0) _ Sf)].
  cbn -[nums] in Hd.
  repeat (destruct Hd as [X|Hd]; [apply pair_equal_spec in X; destruct X as [<- X]; injection X as <- <-; injection Et as <-; injection En as <-;
    first [exfalso; specialize (Hi 0%nat ltac:(simpl; auto)); simpl in Hi; lia | cbn -[IZR]; unfold value_point; cbn -[IZR]; field]|]). destruct Hd.
Qed.
(** The Bell element announces C1, but on other triangles it is not: gradients on an edge are not determined by the degrees
    of freedom on its closure. *)
Theorem C75_bell_refuted : exists vs r, points 3 2 vs /\ map_det CTriangle vs <> 0 /\ make_reference CTriangle vs = Ok r /\
  (exists basis dofs, make_bell r 5 = Ok (basis, dofs)) /\ ~ conforming true (make_bell r 5) r.
Proof.
  exists wide, wide_triangle. split; [split; [reflexivity|repeat constructor]|]. split; [unfold map_det, edge_det2, co, wide; simpl; lra|].
  split; [reflexivity|]. split; [eexists _, _; reflexivity|exact wide_nonconforming].
Qed.

Print Assumptions C73_default_cells.
Print Assumptions C73_hermite.
Print Assumptions C73_bell_dofs.
Print Assumptions C73_hermite_dofs.
Print Assumptions C73_normal_dofs.
Print Assumptions C73_value_dofs.
Print Assumptions C73_rejects.
Print Assumptions C74_kmv_partial.
Print Assumptions C74_kmv_refuted.
Print Assumptions C74_kmv_rejects.
Print Assumptions C55_kmv_rules_partial.
Print Assumptions C55_kmv_order_3.
Print Assumptions C55_kmv_rules_refuted.
Print Assumptions C60_bell_partial.
Print Assumptions C60_bell_refuted.
Print Assumptions C75_default_cells_partial.
Print Assumptions C75_hermite.
Print Assumptions C75_bell_refuted.
