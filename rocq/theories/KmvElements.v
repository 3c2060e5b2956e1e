(** Kong-Mulder-Veldhuizen elements: the rules, and the elements that have a dual basis. *)
From Coquelicot Require Import Coquelicot.
From Coq Require Import String Reals ZArith Arith Bool Lia Lra List.
From Verif Require LinAlg CiarletModel CiarletProofs ReferencesModel.
From Verif Require Import Base PolyLib PolySetsModel PolySetsProofs PolyVec UnisolvenceProofs LegendreJacobi LegendreIntSpec LegendreIntegrals.
From Verif Require Import FunctionsModel FunctionsSpec FunctionalsModel FunctionalsSpec FunctionalsProofs FunctionalsValues MacroModel NodalModel NodalSpec NodalProofs NodalElements KmvProofs.
Import ListNotations.
Local Open Scope R_scope.

Definition tetrahedron := ReferencesModel.default ReferencesModel.CTetrahedron.
Definition kmv_weights (r : ReferencesModel.reference) (order : nat) : list weighted :=
  match kmv_rule r order with Ok (ws, _) => ws | _ => [] end.
Definition kmv_basis (r : ReferencesModel.reference) (order : nat) : list expr :=
  match kmv_rule r order with Ok (_, Ok b) => b | _ => [] end.
Lemma kmv_triangle order : In order [1; 2; 3]%nat -> make_kmv triangle order = Ok (kmv_basis triangle order, map weighted_dof (kmv_weights triangle order)).
Proof. intros H. unfold make_kmv, triangle at 1. rewrite default_default. repeat (destruct H as [<-|H]; [reflexivity|]). destruct H. Qed.
Lemma kmv_tetrahedron order : In order [1; 2]%nat -> make_kmv tetrahedron order = Ok (kmv_basis tetrahedron order, map weighted_dof (kmv_weights tetrahedron order)).
Proof. intros H. unfold make_kmv, tetrahedron at 1. rewrite default_default. repeat (destruct H as [<-|H]; [reflexivity|]). destruct H. Qed.

Lemma root13 : let s := sqrt 13 in s * s = 13 /\ s * s * s = 13 * s /\ s * s * s * s = 169 /\ s * s * s * s * s = 169 * s /\ 18 / 5 < s < 3606 / 1000.
Proof.
  intros s. assert (E : s * s = 13) by (apply sqrt_sqrt; lra). split; [exact E|]. split; [rewrite E; ring|]. split; [rewrite E; nra|]. split; [replace (s * s * s * s * s) with ((s * s) * (s * s) * s) by ring; rewrite E; ring|].
  assert (P : 0 < s) by (apply sqrt_lt_R0; lra). split; nra.
Qed.
Ltac monomials lemma solve := repeat (apply Forall_cons; [intros v; eapply eq_rect; [apply lemma|solve]|]); apply Forall_nil.
Ltac rational := cbn -[IZR]; field.
Lemma kmv_tri1_exact : integrates_exactly ReferencesModel.CTriangle (map fst (map weighted_dof (kmv_weights triangle 1))) 1.
Proof.
  eapply exact_dofs; [reflexivity|simpl; lia|reflexivity|repeat (apply Forall_cons; [reflexivity|]); apply Forall_nil|].
  monomials tri_mono rational.
Qed.
Lemma kmv_tri2_exact : integrates_exactly ReferencesModel.CTriangle (map fst (map weighted_dof (kmv_weights triangle 2))) 3.
Proof.
  eapply exact_dofs; [reflexivity|simpl; lia|reflexivity|repeat (apply Forall_cons; [reflexivity|]); apply Forall_nil|].
  monomials tri_mono rational.
Qed.
Lemma kmv_tet1_exact : integrates_exactly ReferencesModel.CTetrahedron (map fst (map weighted_dof (kmv_weights tetrahedron 1))) 1.
Proof.
  eapply exact_dofs; [reflexivity|simpl; lia|reflexivity|repeat (apply Forall_cons; [reflexivity|]); apply Forall_nil|].
  monomials tet_mono rational.
Qed.
Lemma kmv_tet2_exact : integrates_exactly ReferencesModel.CTetrahedron (map fst (map weighted_dof (kmv_weights tetrahedron 2))) 4.
Proof.
  destruct root13 as (E2 & E3 & E4 & E5 & _).
  eapply exact_dofs; [reflexivity|simpl; lia|reflexivity|repeat (apply Forall_cons; [reflexivity|]); apply Forall_nil|].
  monomials tet_mono ltac:(cbn -[IZR sqrt]; set (s := sqrt 13) in *; clearbody s; lra).
Qed.
Ltac weights tac := apply positive_dofs; repeat (apply Forall_cons; [split; [reflexivity|cbn -[IZR sqrt]; tac]|]); apply Forall_nil.
Lemma kmv_tri1_positive : positive_weights (map fst (map weighted_dof (kmv_weights triangle 1))).
Proof. apply (positive_dofs 2); repeat (apply Forall_cons; [split; [reflexivity|cbn -[IZR sqrt]; lra]|]); apply Forall_nil. Qed.
Lemma kmv_tri2_positive : positive_weights (map fst (map weighted_dof (kmv_weights triangle 2))).
Proof. apply (positive_dofs 2); repeat (apply Forall_cons; [split; [reflexivity|cbn -[IZR sqrt]; lra]|]); apply Forall_nil. Qed.
Lemma kmv_tet1_positive : positive_weights (map fst (map weighted_dof (kmv_weights tetrahedron 1))).
Proof. apply (positive_dofs 3); repeat (apply Forall_cons; [split; [reflexivity|cbn -[IZR sqrt]; lra]|]); apply Forall_nil. Qed.
Lemma kmv_tet2_positive : positive_weights (map fst (map weighted_dof (kmv_weights tetrahedron 2))).
Proof. destruct root13 as (_ & _ & _ & _ & B). apply (positive_dofs 3); repeat (apply Forall_cons; [split; [reflexivity|cbn -[IZR sqrt]; lra]|]); apply Forall_nil. Qed.

(** * Triangles of order three: the weights do not add up to the area, and those of the edges are negative *)
Lemma root7 : 0 < sqrt 7 /\ sqrt 7 * sqrt 7 = 7.
Proof. split; [apply sqrt_lt_R0; lra|apply sqrt_sqrt; lra]. Qed.
Lemma weights_of d (ws : list weighted) vals : Forall (fun w : weighted => length (fst (fst w)) = d) ws ->
  Forall2 (fun d u => evaluates d (FS (ENum 1)) u) (map fst (map weighted_dof ws)) vals -> vals = map (fun w : weighted => snd (fst w)) ws.
Proof.
  intros F. revert vals. induction F as [|[[p w] en] ws L _ IH]; cbn [map]; intros vals H; inversion_clear H as [|? u ? vals' E H']; [reflexivity|]. f_equal; [|apply IH, H']. cbn [weighted_dof fst snd] in *.
  assert (Sd : simple d (WeightedPointEvaluation (nums p) (ENum w))) by (split; [exists p; split; [reflexivity|exact L]|exists w; reflexivity]).
  assert (S1 : scalar_in d (ENum 1)) by (split; [exact I|intros s []]).
  pose proof (proj1 (simple_reading d _ Sd) _ S1) as E'. pose proof (simple_direct d _ Sd _ S1) as D. rewrite (evaluates_unique _ _ _ _ E D E').
  cbn [read]. rewrite number_nums. unfold value_weighted, number. cbn [ev]. ring.
Qed.
Lemma kmv_tri3_weights vals : Forall2 (fun d u => evaluates d (FS (ENum 1)) u) (map fst (map weighted_dof (kmv_weights triangle 3))) vals ->
  fold_right Rplus 0 vals = 1 / 2 - sqrt 7 / 15 /\ nth 3 vals 0 < 0.
Proof.
  intros H. apply (weights_of 2) in H; [|repeat (apply Forall_cons; [reflexivity|]); apply Forall_nil]. subst vals. destruct root7 as [P E].
  cbn -[IZR sqrt]. split; [field|]. nra.
Qed.
Lemma kmv_tri3_inexact k : ~ integrates_exactly ReferencesModel.CTriangle (map fst (map weighted_dof (kmv_weights triangle 3))) k.
Proof.
  intros (lims & El & H). injection El as <-. destruct (H (ENum 1) (fun _ => 0) I) as (vals & F & J); [intros s []| |].
  - exact (degree_const 2 k 1).
  - apply kmv_tri3_weights in F. destruct F as [F _]. rewrite F in J.
    pose proof (tri_mono 0 0 (fun _ => 0)) as J'. unfold tri_lims in J'. cbn [iterated_integral] in J, J'. destruct J as (G1 & A1 & G2 & A2 & A3), J' as (G1' & B1 & G2' & B2 & B3).
    assert (EG : forall e, G1 e = G1' e). { intros e. eapply is_RInt_uniq; [apply A1|]. eapply is_RInt_eq; [apply B1| |reflexivity]. intros x _. unfold as_function, meval. simpl. req; ring. }
    assert (EG2 : G2 (fun _ => 0) = G2' (fun _ => 0)). { eapply is_RInt_uniq; [apply A2|]. eapply is_RInt_eq; [apply B2| |reflexivity]. intros x _. symmetry. apply EG. }
    rewrite A3, B3 in EG2. cbn in EG2. destruct root7 as [P _]. lra.
Qed.

(** * Dual bases *)
Ltac weighted_equations n H k :=
  lazymatch n with
  | 0%nat => idtac
  | S ?m => let E := fresh "E" in
    assert (E := H k ltac:(lia)); cbn in E; unfold value_weighted in E; cbn in E; weighted_equations m H (S k)
  end.
Ltac solve_weighted n :=
  let x := fresh "x" in let H := fresh "H" in intros x H; weighted_equations n H 0%nat; clear H;
  let p := fresh "p" in let P := fresh "P" in intros p P; repeat first [exfalso; clear - P; lia | destruct p as [|p]; [lra|]].
Lemma kmv_tri1_dual : creates_dual_basis (make_kmv triangle 1) 2 3.
Proof.
  eapply element_dual; [apply kmv_triangle; simpl; auto|..]; try (reflexivity || lia).
  - solve_scalar.
  - solve_simple.
  - solve_weighted 3%nat.
Qed.
Lemma kmv_tri2_dual : creates_dual_basis (make_kmv triangle 2) 2 7.
Proof.
  eapply element_dual; [apply kmv_triangle; simpl; auto|..]; try (reflexivity || lia).
  - solve_scalar.
  - solve_simple.
  - solve_weighted 7%nat.
Qed.
Lemma kmv_tet1_dual : creates_dual_basis (make_kmv tetrahedron 1) 3 4.
Proof.
  eapply element_dual; [apply kmv_tetrahedron; simpl; auto|..]; try (reflexivity || lia).
  - solve_scalar.
  - solve_simple.
  - solve_weighted 4%nat.
Qed.

(** the points of order three with any two parameters *)
Definition edge_and_face (al be : R) : list (list R) :=
  [[0; 0]; [1; 0]; [0; 1]; [1 - al; al]; [al; 1 - al]; [0; al]; [0; 1 - al]; [al; 0]; [1 - al; 0]; [be; be]; [1 - 2 * be; be]; [be; 1 - 2 * be]].
Definition cubic_plus (c : nat -> R) (x y : R) : R :=
  c 0%nat + c 1%nat * x + c 2%nat * x ^ 2 + c 3%nat * x ^ 3 + c 4%nat * y + c 5%nat * x * y + c 6%nat * x ^ 2 * y + c 7%nat * y ^ 2 + c 8%nat * x * y ^ 2 + c 9%nat * y ^ 3 +
  (c 10%nat * y + c 11%nat * x) * (x * y * (1 - x - y)).
Lemma cancel a b : a <> 0 -> a * b = 0 -> b = 0.
Proof. intros N H. apply Rmult_integral in H. destruct H; [contradiction|assumption]. Qed.
Lemma three_points al a b c : al <> 0 -> al <> 1 -> al <> 1 / 2 -> a + b + c = 0 -> a * al + b * al ^ 2 + c * al ^ 3 = 0 -> a * (1 - al) + b * (1 - al) ^ 2 + c * (1 - al) ^ 3 = 0 -> a = 0 /\ b = 0 /\ c = 0.
Proof.
  intros N0 N1 N2 E1 E2 E3. assert (Ha : a = - b - c) by lra. subst a.
  assert (F1 : b + c * (1 + al) = 0) by (apply (cancel (al * (al - 1))); [apply Rmult_integral_contrapositive; split; lra|]; etransitivity; [|exact E2]; ring).
  assert (F2 : b + c * (2 - al) = 0) by (apply (cancel ((1 - al) * - al)); [apply Rmult_integral_contrapositive; split; lra|]; etransitivity; [|exact E3]; ring).
  assert (c = 0) by (apply (cancel (1 - 2 * al)); [lra|]; lra). subst c. lra.
Qed.
Lemma cubic_plus_zero al be c : al <> 0 -> al <> 1 -> al <> 1 / 2 -> be <> 0 -> be <> 1 / 2 -> be <> 1 / 3 ->
  Forall (fun p => cubic_plus c (nth 0 p 0) (nth 1 p 0) = 0) (edge_and_face al be) -> forall p, (p < 12)%nat -> c p = 0.
Proof.
  intros A0 A1 A2 B0 B2 B3 H. unfold edge_and_face in H. repeat (match goal with H : Forall _ (_ :: _) |- _ => apply Forall_cons_iff in H; let E := fresh "E" in destruct H as [E H] end).
  cbn [nth] in *. clear H. unfold cubic_plus in *.
  assert (C0 : c 0%nat = 0) by (etransitivity; [|exact E]; ring).
  destruct (three_points al (c 1%nat) (c 2%nat) (c 3%nat)) as (C1 & C2 & C3); try assumption; [lra|rewrite C0 in E6; lra|rewrite C0 in E7; lra|].
  destruct (three_points al (c 4%nat) (c 7%nat) (c 9%nat)) as (C4 & C7 & C9); try assumption; [lra|rewrite C0 in E4; lra|rewrite C0 in E5; lra|].
  rewrite C0, C1, C2, C3, C4, C7, C9 in *.
  assert (F1 : c 5%nat + c 6%nat * (1 - al) + c 8%nat * al = 0) by (apply (cancel (al * (1 - al))); [apply Rmult_integral_contrapositive; split; lra|]; etransitivity; [|exact E2]; ring).
  assert (F2 : c 5%nat + c 6%nat * al + c 8%nat * (1 - al) = 0) by (apply (cancel (al * (1 - al))); [apply Rmult_integral_contrapositive; split; lra|]; etransitivity; [|exact E3]; ring).
  assert (F3 : c 6%nat - c 8%nat = 0) by (apply (cancel (1 - 2 * al)); [lra|]; lra).
  assert (F4 : c 8%nat = c 6%nat) by lra. assert (F5 : c 5%nat = - c 6%nat) by (rewrite F4 in F1; lra). rewrite F4, F5 in *.
  assert (G : forall x y : R, x * y * (1 - x - y) <> 0 -> 0 + 0 * x + 0 * x ^ 2 + 0 * x ^ 3 + 0 * y + - c 6%nat * x * y + c 6%nat * x ^ 2 * y + 0 * y ^ 2 + c 6%nat * x * y ^ 2 + 0 * y ^ 3 +
     (c 10%nat * y + c 11%nat * x) * (x * y * (1 - x - y)) = 0 -> - c 6%nat + c 10%nat * y + c 11%nat * x = 0).
  { intros x y N Z. apply (cancel _ _ N). etransitivity; [|exact Z]. ring. }
  assert (NB : forall x y : R, x <> 0 -> y <> 0 -> 1 - x - y <> 0 -> x * y * (1 - x - y) <> 0) by (intros; repeat (apply Rmult_integral_contrapositive; split); assumption).
  apply G in E8; [|apply NB; lra]. apply G in E9; [|apply NB; lra]. apply G in E10; [|apply NB; lra]. clear G NB.
  assert (c 11%nat = 0) by (apply (cancel (1 - 3 * be)); lra). assert (c 10%nat = 0) by (apply (cancel (1 - 3 * be)); lra).
  assert (c 6%nat = 0) by lra.
  intros p Hp. repeat first [exfalso; lia | destruct p as [|p]; [lra|]].
Qed.
Lemma radicand : 0 < 411 - 84 * (7 - sqrt 7) < 121.
Proof. destruct root7 as [P E]. split; nra. Qed.
Lemma alpha3_bounds : kmv_alpha3 <> 0 /\ kmv_alpha3 <> 1 /\ kmv_alpha3 <> 1 / 2 /\ kmv_beta3 <> 0 /\ kmv_beta3 <> 1 / 2 /\ kmv_beta3 <> 1 / 3.
Proof.
  destruct radicand as [P Q]. destruct root7 as [P7 E7]. unfold kmv_alpha3, kmv_beta3. set (u := 411 - 84 * (7 - sqrt 7)) in *. assert (0 < sqrt u) by (apply sqrt_lt_R0, P).
  assert (sqrt u < 11). { replace 11 with (sqrt 121) by (replace 121 with (11 * 11) by lra; apply sqrt_square; lra). apply sqrt_lt_1; lra. }
  assert (2 < sqrt 7) by nra. assert (0 < / sqrt 7 < 1 / 2). { split; [apply Rinv_0_lt_compat; lra|]. unfold Rdiv. rewrite Rmult_1_l. apply Rinv_lt_contravar; lra. }
  unfold Rdiv at 4 6 8. repeat split; lra.
Qed.
Lemma weighted_value p q w f : p = q -> read (WeightedPointEvaluation (nums p) (ENum w)) f = w * read (PointEvaluation (nums q)) f.
Proof. intros ->. cbn [read]. rewrite !number_nums. unfold value_weighted, value_point, number. cbn [ev]. ring. Qed.
Lemma weighted_values (ws : list weighted) qs : Forall2 (fun (w : weighted) q => fst (fst w) = q /\ snd (fst w) <> 0) ws qs ->
  Forall2 (fun v v' : expr -> R => exists s, s <> 0 /\ forall f, v f = s * v' f) (map read (map fst (map weighted_dof ws))) (map read (map (fun p => PointEvaluation (nums p)) qs)).
Proof.
  induction 1 as [|[[p w] en] q ws qs [E N] _ IH]; cbn [map]; constructor; [|exact IH]. exists w. split; [exact N|]. intros f. apply weighted_value, E.
Qed.
Lemma kmv_tri3_kernel : trivial_left 12 (values_of (map read (map fst (map weighted_dof (kmv_weights triangle 3)))) (kmv_basis triangle 3)).
Proof.
  destruct alpha3_bounds as (A0 & A1 & A2 & B0 & B2 & B3). destruct root7 as [P7 E7].
  apply (left_scale 12 _ (map read (map (fun p => PointEvaluation (nums p)) (edge_and_face kmv_alpha3 kmv_beta3)))); [reflexivity|reflexivity| |].
  - apply weighted_values. unfold kmv_weights, edge_and_face. cbn -[sqrt IZR kmv_alpha3 kmv_beta3].
    repeat (apply Forall2_cons; [split; [cbn [fst snd]; repeat (apply (f_equal2 (@cons R)) || reflexivity); ring|cbn [fst snd]; nra]|]). apply Forall2_nil.
  - generalize dependent kmv_alpha3. intros al A0 A1 A2. generalize dependent kmv_beta3. intros be B0 B2 B3. intros x H. apply (cubic_plus_zero al be); try assumption.
    unfold edge_and_face. repeat (apply Forall_cons; [|]); [..|apply Forall_nil].
    all: cbn [nth]; unfold cubic_plus.
    all: lazymatch goal with |- ?a = 0 => idtac end.
    + etransitivity; [|exact (H 0%nat ltac:(lia))]. cbn. unfold value_point. cbn. ring.
    + etransitivity; [|exact (H 1%nat ltac:(lia))]. cbn. unfold value_point. cbn. ring.
    + etransitivity; [|exact (H 2%nat ltac:(lia))]. cbn. unfold value_point. cbn. ring.
    + etransitivity; [|exact (H 3%nat ltac:(lia))]. cbn. unfold value_point. cbn. ring.
    + etransitivity; [|exact (H 4%nat ltac:(lia))]. cbn. unfold value_point. cbn. ring.
    + etransitivity; [|exact (H 5%nat ltac:(lia))]. cbn. unfold value_point. cbn. ring.
    + etransitivity; [|exact (H 6%nat ltac:(lia))]. cbn. unfold value_point. cbn. ring.
    + etransitivity; [|exact (H 7%nat ltac:(lia))]. cbn. unfold value_point. cbn. ring.
    + etransitivity; [|exact (H 8%nat ltac:(lia))]. cbn. unfold value_point. cbn. ring.
    + etransitivity; [|exact (H 9%nat ltac:(lia))]. cbn. unfold value_point. cbn. ring.
    + etransitivity; [|exact (H 10%nat ltac:(lia))]. cbn. unfold value_point. cbn. ring.
    + etransitivity; [|exact (H 11%nat ltac:(lia))]. cbn. unfold value_point. cbn. ring.
Qed.
Lemma kmv_tri3_dual : creates_dual_basis (make_kmv triangle 3) 2 12.
Proof.
  eapply element_dual; [apply kmv_triangle; simpl; auto|..]; try (reflexivity || lia).
  - solve_scalar.
  - solve_simple.
  - apply kmv_tri3_kernel.
Qed.

(** * Tetrahedra of order two *)
Lemma element_singular made dim n basis dofs cs p : made = Ok (basis, dofs) -> (0 < n)%nat -> length basis = n -> length dofs = n -> length cs = n ->
  Forall (scalar_in dim) basis -> Forall (simple dim) (map fst dofs) -> Forall (fun d => read d (function_row cs basis) = 0) (map fst dofs) ->
  ev p (function_row cs basis) <> 0 -> creates_no_basis made.
Proof.
  intros E Hn Lb Ld Lc Sb Sd Z Nz. set (M := values_of (map read (map fst dofs)) basis). exists basis, dofs, M, (function_row cs basis), p.
  assert (Hr : Forall2 (reading dim) (map fst dofs) (map read (map fst dofs))).
  { clear -Sd. induction Sd as [|d l H _ IH]; cbn [map]; constructor; [apply simple_reading, H|exact IH]. }
  assert (Hs : scalar_in dim (function_row cs basis)).
  { destruct dofs as [|d0 dofs]; [simpl in Ld; lia|]. inversion Sd as [|? ? S0 _]; subst. apply (row_reading dim _ _ (simple_reading dim _ S0)); [assumption|congruence|lia]. }
  split; [exact E|]. split; [apply (values_matrix_of dim); assumption|]. split; [|split; [apply Hs|split; [|split; [exact Nz|]]]].
  - unfold element_functions. assert (Sq : CiarletProofs.square n M).
    { unfold M, values_of. split; [rewrite map_length; exact Lb|]. intros r Hr'. apply in_map_iff in Hr'. destruct Hr' as (f & <- & _). rewrite !map_length. exact Ld. }
    pose proof (CiarletProofs.inv_LU_spec n M Sq) as I. destruct (CiarletModel.inv_LU M) as [N|e]; [exfalso|destruct I as [-> _]; reflexivity].
    destruct I as [_ Id]. apply Nz. rewrite row_value by lia. rewrite Lb. apply LinAlg.sum_zero. intros i Hi.
    assert (Zi : nth i cs 0 = 0); [|rewrite Zi; ring].
    assert (X : forall k, (k < n)%nat -> LinAlg.sum n (fun i => nth i cs 0 * CiarletModel.entry M i k) = 0).
    { intros k Hk. assert (Hk' : In (nth k (map fst dofs) (PointEvaluation [])) (map fst dofs)) by (apply nth_In; rewrite map_length; lia).
      rewrite Forall_forall in Z, Sd. pose proof (Z _ Hk') as Zk.
      destruct (row_reading dim _ _ (simple_reading dim _ (Sd _ Hk')) basis cs Sb ltac:(lia) ltac:(lia)) as [_ R]. rewrite R, Lb in Zk. etransitivity; [|exact Zk].
      apply LinAlg.sum_ext. intros j Hj. unfold M. rewrite entry_values by (rewrite ?map_length; lia). f_equal.
      rewrite (CiarletProofs.nth_map_lt read (map fst dofs) k (PointEvaluation []) (fun _ => 0)) by (rewrite map_length; lia). reflexivity. }
    transitivity (LinAlg.sum n (fun k => LinAlg.sum n (fun i => nth i cs 0 * CiarletModel.entry M i k) * CiarletModel.entry N k i)).
    + rewrite (LinAlg.sum_ext n _ (fun k => LinAlg.sum n (fun j => nth j cs 0 * (CiarletModel.entry M j k * CiarletModel.entry N k i)))).
      2:{ intros k Hk. rewrite <- LinAlg.sum_scal_r. apply LinAlg.sum_ext. intros. ring. }
      rewrite LinAlg.sum_swap. rewrite (LinAlg.sum_ext n _ (fun j => nth j cs 0 * LinAlg.delta j i)); [symmetry; apply LinAlg.sum_delta, Hi|].
      intros j Hj. rewrite LinAlg.sum_scal. f_equal. exact (LinAlg.left_right_inverse n _ _ Id j i Hj Hi).
    + apply LinAlg.sum_zero. intros k Hk. rewrite X by exact Hk. ring.
  - exists cs. split; [congruence|]. intros q. rewrite row_value, combination_sum by lia. reflexivity.
  - apply Forall_forall. intros d Hd. rewrite Forall_forall in Z, Sd. rewrite <- (Z d Hd). apply (simple_reading dim d (Sd d Hd)), Hs.
Qed.
Definition tet2_kernel (s : R) : list R := [(0) + (0) * s; (-180) + (168) * s; (450) + (-420) * s; (0) + (0) * s; (-90) + (84) * s; (0) + (0) * s; (0) + (0) * s; (-90) + (84) * s; (0) + (0) * s; (0) + (0) * s; (-5708) + (62) * s; (8101) + (647) * s; (-12955) + (-2621) * s; (8101) + (647) * s; (-5708) + (62) * s; (-12955) + (-2621) * s; (-2038) + (-266) * s; (-2038) + (-266) * s; (14862) + (996) * s; (2038) + (266) * s; (2038) + (266) * s; (-90) + (84) * s; (27876) + (0) * s].
Lemma kmv_tet2_singular : creates_no_basis (make_kmv tetrahedron 2).
Proof.
  destruct root13 as (E2 & E3 & E4 & E5 & B). assert (E6 : sqrt 13 * sqrt 13 * sqrt 13 * sqrt 13 * sqrt 13 * sqrt 13 = 2197) by (rewrite E5; lra).
  apply (element_singular _ 3 23 (kmv_basis tetrahedron 2) (map weighted_dof (kmv_weights tetrahedron 2)) (tet2_kernel (sqrt 13)) (x_point [2; 0; 0])); try (reflexivity || lia).
  - apply kmv_tetrahedron. simpl. auto.
  - solve_scalar.
  - solve_simple.
  - repeat (apply Forall_cons; [unfold tet2_kernel; cbn -[IZR sqrt]; unfold value_weighted; cbn -[IZR sqrt]; set (s := sqrt 13) in *; clearbody s; lra|]). apply Forall_nil.
  - unfold tet2_kernel; cbn -[IZR sqrt]. set (s := sqrt 13) in *; clearbody s. intros H. lra.
Qed.
