(** The degrees of freedom of the macro elements applied to their functions. *)
From Coquelicot Require Import Coquelicot.
From Coq Require Import String Reals ZArith Arith Bool Lia Lra List.
From Verif Require LinAlg CiarletModel CiarletProofs.
From Verif Require Import Base.
From Verif Require ReferencesModel.
From Verif Require Import ReferencesSpec ReferencesGeometry GeometryModel GeometryProofs PropertiesGeometry.
From Verif Require Import FunctionsModel FunctionsSpec FunctionsProofs FunctionsArith FunctionsSubs PropertiesFunctions.
From Verif Require Import FunctionalsModel FunctionalsSpec PiecewiseModel PiecewiseProofs PropertiesPiecewise MacroModel MacroSpec MacroProofs.
Import ListNotations.
Local Open Scope R_scope.

Definition origin_env : FunctionsSpec.env := fun _ => 0.

(** the value of piece k at p *)
Definition piece_value (k : nat) (p : list R) (fs : list func) : val :=
  value_at (assign x_symbols p origin_env) (nth k fs (FS (ENum 0))).
Definition number_of (v : val) : R := match v with VS a => a | _ => 0 end.
Definition component (i : nat) (v : val) : R := match v with VV l => nth i l 0 | _ => 0 end.

Lemma at_nums (a : piecewise) p : pw_at a (nums p) = pw_subs false a (VarList x_symbols) (PSeq (map (fun c => PExpr (ENum c)) p)).
Proof. unfold pw_at, nums. rewrite map_map. reflexivity. Qed.

Lemma combine_macro k fs : length fs = 3%nat -> (k < 3)%nat -> In (nth k macro [], nth k fs (FS (ENum 0))) (combine macro fs).
Proof.
  intros L Hk. rewrite <- (combine_nth macro fs k [] (FS (ENum 0))) by (rewrite L; reflexivity).
  apply nth_In. rewrite combine_length, L. simpl. exact Hk.
Qed.

Lemma at_macro fs k p : good fs -> (k < 3)%nat -> length p = 2%nat -> in_hull (nth k macro []) p ->
  exists h, pw_at (on_cells 2 macro fs) (nums p) = Ok (SFun h) /\ forall q, value_at q h = piece_value k p fs.
Proof.
  intros [L [K [C [O A]]]] Hk Hp Hin.
  destruct (eval_cells 2 macro fs p (nth k macro []) (nth k fs (FS (ENum 0)))) as [[h [E V]] _]; [lia|exact Hp|exact L|apply macro_regular|exact C|exact A|apply combine_macro; assumption|exact Hin|].
  exists h. rewrite at_nums. split; [exact E|]. intros q. rewrite V. unfold piece_value.
  rewrite Forall_forall in O. apply O; [|exact Hp]. apply nth_In. rewrite L. exact Hk.
Qed.

Lemma value_scalar h v : (forall q, value_at q h = VS v) -> exists e, h = FS e /\ forall q, ev q e = v.
Proof.
  intros H. destruct h as [e|l|m]; pose proof (H origin_env) as H0; simpl in H0; try discriminate.
  exists e. split; [reflexivity|]. intros q. specialize (H q). simpl in H. congruence.
Qed.

Lemma piece_number fs k p : (exists v, piece_value k p fs = VS v) -> piece_value k p fs = VS (number_of (piece_value k p fs)).
Proof. intros [v ->]. reflexivity. Qed.

Definition scalar_piece (k : nat) (fs : list func) : Prop := exists e, nth k fs (FS (ENum 0)) = FS e.
Lemma scalar_value fs k p : scalar_piece k fs -> piece_value k p fs = VS (number_of (piece_value k p fs)).
Proof. intros [e E]. unfold piece_value. rewrite E. reflexivity. Qed.

(** point evaluation *)
Lemma evaluates_point fs k p : good fs -> scalar_piece k fs -> (k < 3)%nat -> length p = 2%nat -> in_hull (nth k macro []) p ->
  evaluates_pw (PointEvaluation (nums p)) (on_cells 2 macro fs) (number_of (piece_value k p fs)).
Proof.
  intros G S Hk Hp Hin. destruct (at_macro fs k p G Hk Hp Hin) as [h [E V]]. rewrite (scalar_value fs k p S) in V.
  destruct (value_scalar _ _ V) as [e [-> He]].
  unfold evaluates_pw, eval_pw. rewrite E. cbn [rmap rbind]. exact He.
Qed.

(** derivatives at a point *)
Definition after (g : func -> res func) (fs : list func) : list func := map (fun f => got (g f)) fs.

Lemma evaluates_diff fs k p s ks : good_after (fun f => f_diff f s) fs -> scalar_piece k (after (fun f => f_diff f s) fs) ->
  (k < 3)%nat -> length p = 2%nat -> in_hull (nth k macro []) p ->
  (forall a, pw_diffs_along a (zip x_symbols ks) = pw_diff a s) ->
  evaluates_pw (DerivativePointEvaluation (nums p) ks) (on_cells 2 macro fs) (number_of (piece_value k p (after (fun f => f_diff f s) fs))).
Proof.
  intros [G S'] S Hk Hp Hin Hks.
  destruct (at_macro _ k p G Hk Hp Hin) as [h [E V]]. fold (after (fun f => f_diff f s) fs) in *.
  rewrite (scalar_value _ k p S) in V. destruct (value_scalar _ _ V) as [e [-> He]].
  unfold evaluates_pw, eval_pw. rewrite Hks. unfold pw_diff. rewrite (derived _ _ G S'). cbn [rbind].
  fold (after (fun f => f_diff f s) fs). rewrite E. cbn [rmap rbind]. exact He.
Qed.

Lemma diff_x a : pw_diffs_along a (zip x_symbols [1%nat; 0%nat]) = pw_diff a "x"%string.
Proof.
  cbn [zip zip_with combine x_symbols pw_diffs_along iterate]. destruct (pw_diff a "x"%string) as [b|]; [|reflexivity]. reflexivity.
Qed.
Lemma diff_y a : pw_diffs_along a (zip x_symbols [0%nat; 1%nat]) = pw_diff a "y"%string.
Proof.
  cbn [zip zip_with combine x_symbols pw_diffs_along iterate rbind]. destruct (pw_diff a "y"%string) as [b|]; reflexivity.
Qed.

Lemma evaluates_direction fs k p d : good_after (fun f => f_directional_derivative f (nums d)) fs ->
  scalar_piece k (after (fun f => f_directional_derivative f (nums d)) fs) ->
  (k < 3)%nat -> length p = 2%nat -> in_hull (nth k macro []) p ->
  evaluates_pw (PointDirectionalDerivativeEvaluation (nums p) (nums d)) (on_cells 2 macro fs)
    (number_of (piece_value k p (after (fun f => f_directional_derivative f (nums d)) fs))).
Proof.
  intros [G S'] S Hk Hp Hin.
  destruct (at_macro _ k p G Hk Hp Hin) as [h [E V]]. fold (after (fun f => f_directional_derivative f (nums d)) fs) in *.
  rewrite (scalar_value _ k p S) in V. destruct (value_scalar _ _ V) as [e [-> He]].
  unfold evaluates_pw, eval_pw. unfold pw_directional_derivative. rewrite (derived _ _ G S'). cbn [rbind].
  fold (after (fun f => f_directional_derivative f (nums d)) fs). rewrite E. cbn [rmap rbind]. exact He.
Qed.

(** one component at a point *)
Definition vector_piece (k : nat) (fs : list func) : Prop := exists a b, nth k fs (FS (ENum 0)) = FV [a; b].

Lemma at_vector p a b : length p = 2%nat ->
  exists ea eb, at_point (FV (nums [a; b])) (nums p) = Ok (FV [ea; eb]) /\ (forall q, ev q ea = a) /\ (forall q, ev q eb = b).
Proof.
  intros Hp. destruct (two Hp) as [x [y ->]].
  eexists _, _. split; [reflexivity|]. split; intros q; reflexivity.
Qed.

Lemma evaluates_dot fs k p a b : good fs -> vector_piece k fs -> (k < 3)%nat -> length p = 2%nat -> in_hull (nth k macro []) p ->
  evaluates_pw (DotPointEvaluation (nums p) (FV (nums [a; b]))) (on_cells 2 macro fs)
    (component 0 (piece_value k p fs) * a + component 1 (piece_value k p fs) * b).
Proof.
  intros G [ea [eb S]] Hk Hp Hin. destruct (at_macro fs k p G Hk Hp Hin) as [h [E V]].
  unfold piece_value in *. rewrite S in *. cbn [value_at map component nth] in *.
  destruct h as [e|l|m]; pose proof (V origin_env) as V0; simpl in V0; try discriminate.
  destruct l as [|h0 [|h1 [|]]]; try discriminate.
  destruct (at_vector p a b Hp) as [fa [fb [E2 [Ha Hb]]]].
  unfold evaluates_pw, eval_pw. rewrite E. cbn [rbind]. rewrite E2. cbn [rbind rmap sub_dot].
  destruct (f_dot (FV [h0; h1]) (PFun (FV [fa; fb]))) as [g|] eqn:D; [|discriminate].
  injection D as <-. cbn [rmap rbind]. intros q. specialize (V q). cbn [value_at map] in V. injection V as V1 V2. cbn [ev]. simpl. rewrite Ha, Hb, V1, V2. ring.
Qed.

(** divergence at a point *)
Lemma in_combine_map {A B C} (g : B -> C) (l : list A) r a b : In (a, b) (combine l r) -> In (a, g b) (combine l (map g r)).
Proof.
  revert r. induction l as [|x l IH]; intros [|y r] H; simpl in *; try contradiction. destruct H as [H|H]; [left; congruence|right; auto].
Qed.

Lemma evaluates_divergence fs k p : good fs -> good_after f_div fs -> scalar_piece k (after f_div fs) -> (k < 3)%nat -> length p = 2%nat -> in_hull (nth k macro []) p ->
  evaluates_pw (PointDivergenceEvaluation (nums p)) (on_cells 2 macro fs) (number_of (piece_value k p (after f_div fs))).
Proof.
  intros G [GA S'] S Hk Hp Hin. pose proof (scalar_value _ k p S) as SV.
  destruct GA as [L' [_ [C' [O' A']]]]. fold (after f_div fs) in *. destruct G as [L [K [C [O A]]]].
  destruct (eval_cells 2 macro fs p (nth k macro []) (nth k fs (FS (ENum 0)))) as [_ [c [g [I1 [I2 I3]]]]]; [lia|exact Hp|exact L|apply macro_regular|exact C|exact A|apply combine_macro; assumption|exact Hin|].
  assert (D : f_div g = Ok (got (f_div g))).
  { apply in_combine_r in I1. rewrite forallb_forall in S'. specialize (S' g I1). destruct (f_div g); [reflexivity|discriminate]. }
  assert (Hc : clean (got (f_div g))).
  { rewrite Forall_forall in C'. apply C'. apply (in_map (fun f => got (f_div f))). apply in_combine_r in I1. exact I1. }
  assert (V : forall q, value_at (assign x_symbols p q) (got (f_div g)) = piece_value k p (after f_div fs)).
  { intros q. unfold piece_value.
    rewrite (A' c (got (f_div g)) (nth k macro []) (nth k (after f_div fs) (FS (ENum 0))) p Hp); auto.
    - rewrite Forall_forall in O'. apply O'; [|exact Hp]. apply nth_In. rewrite L'. exact Hk.
    - apply (in_combine_map (fun f => got (f_div f))). exact I1.
    - apply combine_macro; assumption. }
  assert (T : forall q, exists h, at_point (got (f_div g)) (nums p) = Ok h /\ value_at q h = value_at (assign x_symbols (map (ev q) (nums p)) q) (got (f_div g))).
  { intros q. apply (C41_subs_simultaneous q (got (f_div g)) x_symbols (PSeq (map PExpr (nums p))) (map PExpr (nums p)) (nums p)); try apply Hc; auto.
    - intros v i Hv. simpl in Hv. intuition (subst; discriminate).
    - apply Forall_forall. intros e He. apply in_map_iff in He. destruct He as [x [<- _]]. intros i [].
    - clear. induction p as [|x p IH]; [reflexivity|]. simpl. simpl in IH. rewrite IH. reflexivity. }
  destruct (T origin_env) as [h [E _]].
  assert (W : forall q, value_at q h = VS (number_of (piece_value k p (after f_div fs)))).
  { intros q. destruct (T q) as [h' [E' V']]. rewrite E in E'. injection E' as <-. rewrite V'.
    replace (map (ev q) (nums p)) with p by (unfold nums; rewrite map_map; symmetry; apply map_id). rewrite V. exact SV. }
  destruct (value_scalar _ _ W) as [e [-> He]].
  unfold evaluates_pw, eval_pw. unfold nums at 1. rewrite map_map. change (map (fun x : R => number (ENum x)) p) with (map (fun x : R => x) p). rewrite map_id.
  rewrite I3. cbn [rbind]. rewrite D. cbn [rbind]. rewrite E. cbn [rmap rbind]. exact He.
Qed.

(** * Closed forms of the elements *)

Lemma div_1 a : a / sqrt 1 = a.
Proof. rewrite sqrt_1. field. Qed.

Definition normals : list tagged :=
  [(PointDirectionalDerivativeEvaluation (nums [1 / 2; 1 / 2]) (nums [- / sqrt 2; - / sqrt 2]), (1%nat, 0%nat));
   (PointDirectionalDerivativeEvaluation (nums [0; 1 / 2]) (nums [-1; 0]), (1%nat, 1%nat));
   (PointDirectionalDerivativeEvaluation (nums [1 / 2; 0]) (nums [0; 1]), (1%nat, 2%nat))].

Lemma normals_default : normal_dofs (ReferencesModel.default ReferencesModel.CTriangle) = Ok normals.
Proof.
  unfold normal_dofs. cbn -[ReferencesModel.vnormalise nums INR Rmult Rplus Rminus Ropp Rdiv].
  unfold normals. unfold ReferencesModel.vnormalise, ReferencesModel.vnorm, ReferencesModel.vdot. cbn [combine map fst snd ReferencesModel.rsum fold_left].
  assert (S2 : 0 < sqrt 2) by (apply sqrt_lt_R0; lra).
  repeat match goal with |- context [sqrt ?a] => lazymatch a with 2 => fail | 1 => fail | _ => first [replace a with 2 by ring | replace a with 1 by ring] end end.
  repeat f_equal; simpl; rewrite ?sqrt_1; field; lra.
Qed.

Lemma hct_closed : make_hct (ReferencesModel.default ReferencesModel.CTriangle) 3 =
  Ok (map (on_cells 2 macro) hct_pieces, hermite_dofs corners ++ normals).
Proof.
  unfold make_hct, only_default. cbn [Nat.eqb negb ReferencesModel.default ReferencesModel.r_type].
  change (ReferencesModel.r_vertices _) with corners. change (ReferencesModel.reference_vertices _) with corners.
  destruct (pts_eq_dec corners corners) as [_|N]; [|congruence].
  change (normal_dofs _) with (normal_dofs (ReferencesModel.default ReferencesModel.CTriangle)). rewrite normals_default. cbn [rbind].
  change (ReferencesModel.r_vertices _) with corners. rewrite sub_cells_default, (macro_polys_good _ hct_good). reflexivity.
Qed.
Lemma rhct_closed : make_rhct (ReferencesModel.default ReferencesModel.CTriangle) 3 =
  Ok (map (on_cells 2 macro) rhct_pieces, hermite_dofs corners).
Proof.
  unfold make_rhct, only_default. cbn [Nat.eqb negb ReferencesModel.default ReferencesModel.r_type].
  change (ReferencesModel.r_vertices _) with corners. change (ReferencesModel.reference_vertices _) with corners.
  destruct (pts_eq_dec corners corners) as [_|N]; [|congruence].
  rewrite sub_cells_default, (macro_polys_good _ rhct_good). reflexivity.
Qed.

Definition as_list : list tagged :=
  flat_map (fun nv => [(DotPointEvaluation (nums (snd nv)) (FV (nums [1; 0])), (0%nat, fst nv));
                       (DotPointEvaluation (nums (snd nv)) (FV (nums [0; 1])), (0%nat, fst nv));
                       (PointDivergenceEvaluation (nums (snd nv)), (0%nat, fst nv))]) (numbered corners) ++
  flat_map (fun nv => [(DotPointEvaluation (nums (snd nv)) (FV (nums [1; 0])), (1%nat, fst nv));
                       (DotPointEvaluation (nums (snd nv)) (FV (nums [0; 1])), (1%nat, fst nv))]) (numbered [[1 / 2; 1 / 2]; [0; 1 / 2]; [1 / 2; 0]]).
Lemma as_closed : make_as (ReferencesModel.default ReferencesModel.CTriangle) 2 = Ok (map (on_cells 2 macro) as_pieces, as_list).
Proof.
  unfold make_as, only_default. cbn [Nat.eqb negb ReferencesModel.default ReferencesModel.r_type].
  change (ReferencesModel.r_vertices _) with corners. change (ReferencesModel.reference_vertices _) with corners.
  destruct (pts_eq_dec corners corners) as [_|N]; [|congruence].
  assert (E : as_dofs (ReferencesModel.default ReferencesModel.CTriangle) = Ok as_list).
  { unfold as_dofs, as_list. cbn -[nums INR Rmult Rplus Rminus Ropp Rdiv]. repeat f_equal; simpl; field. }
  change (as_dofs _) with (as_dofs (ReferencesModel.default ReferencesModel.CTriangle)). rewrite E. cbn [rbind].
  change (ReferencesModel.r_vertices _) with corners. rewrite sub_cells_default, (macro_polys_good _ as_good). reflexivity.
Qed.

(** * The matrices *)

Definition v_point k p (fs : list func) : R := number_of (piece_value k p fs).
Definition v_diff s k p (fs : list func) : R := number_of (piece_value k p (after (fun f => f_diff f s) fs)).
Definition v_dir d k p (fs : list func) : R := number_of (piece_value k p (after (fun f => f_directional_derivative f (nums d)) fs)).
Definition v_dot a b k p (fs : list func) : R := component 0 (piece_value k p fs) * a + component 1 (piece_value k p fs) * b.
Definition v_div k p (fs : list func) : R := number_of (piece_value k p (after f_div fs)).

Definition hermite_values : list (list func -> R) :=
  flat_map (fun kp => [v_point (fst kp) (snd kp); v_diff "x"%string (fst kp) (snd kp); v_diff "y"%string (fst kp) (snd kp)])
    [(0%nat, [0; 0]); (0%nat, [1; 0]); (1%nat, [0; 1])].
Definition hct_values : list (list func -> R) :=
  hermite_values ++ [v_dir [- / sqrt 2; - / sqrt 2] 1 [1 / 2; 1 / 2]; v_dir [-1; 0] 2 [0; 1 / 2]; v_dir [0; 1] 0 [1 / 2; 0]].
Definition as_values : list (list func -> R) :=
  flat_map (fun kp => [v_dot 1 0 (fst kp) (snd kp); v_dot 0 1 (fst kp) (snd kp); v_div (fst kp) (snd kp)])
    [(0%nat, [0; 0]); (0%nat, [1; 0]); (1%nat, [0; 1])] ++
  flat_map (fun kp => [v_dot 1 0 (fst kp) (snd kp); v_dot 0 1 (fst kp) (snd kp)])
    [(1%nat, [1 / 2; 1 / 2]); (2%nat, [0; 1 / 2]); (0%nat, [1 / 2; 0])].
Definition matrix_of (values : list (list func -> R)) (pl : list (list func)) : list (list R) :=
  map (fun fs => map (fun v => v fs) values) pl.

Lemma hct_dx : Forall (good_after (fun f => f_diff f "x"%string)) hct_pieces.
Proof. unfold hct_pieces, same. cbn [map app]. repeat (apply Forall_cons; [solve_after|]). constructor. Qed.
Lemma hct_dy : Forall (good_after (fun f => f_diff f "y"%string)) hct_pieces.
Proof. unfold hct_pieces, same. cbn [map app]. repeat (apply Forall_cons; [solve_after|]). constructor. Qed.
Lemma rhct_dx : Forall (good_after (fun f => f_diff f "x"%string)) rhct_pieces.
Proof. unfold rhct_pieces, same. cbn [map app]. repeat (apply Forall_cons; [solve_after|]). constructor. Qed.
Lemma rhct_dy : Forall (good_after (fun f => f_diff f "y"%string)) rhct_pieces.
Proof. unfold rhct_pieces, same. cbn [map app]. repeat (apply Forall_cons; [solve_after|]). constructor. Qed.

Ltac solve_dir :=
  split; [|reflexivity]; cbn [map got f_directional_derivative fold_left zip zip_with combine nums x_symbols fst snd]; solve_good.
Lemma hct_dir a b : Forall (good_after (fun f => f_directional_derivative f (nums [a; b]))) hct_pieces.
Proof. unfold hct_pieces, same. cbn [map app]. repeat (apply Forall_cons; [solve_dir|]). constructor. Qed.

Definition scalars (fs : list func) : Prop := exists a b c, fs = [FS a; FS b; FS c].
Definition vectors (fs : list func) : Prop := exists a b c d e f, fs = [FV [a; b]; FV [c; d]; FV [e; f]].
Lemma hct_scalars : Forall scalars hct_pieces.
Proof. unfold hct_pieces, same. cbn [map app]. repeat (apply Forall_cons; [do 3 eexists; reflexivity|]). constructor. Qed.
Lemma rhct_scalars : Forall scalars rhct_pieces.
Proof. unfold rhct_pieces, same. cbn [map app]. repeat (apply Forall_cons; [do 3 eexists; reflexivity|]). constructor. Qed.
Lemma as_vectors : Forall vectors as_pieces.
Proof. unfold as_pieces, same. cbn [map app]. repeat (apply Forall_cons; [do 6 eexists; reflexivity|]). constructor. Qed.

Lemma scalar_pieces fs k : scalars fs -> (k < 3)%nat -> scalar_piece k fs.
Proof. intros [a [b [c ->]]] H. destruct k as [|[|[|k]]]; [..|lia]; eexists; reflexivity. Qed.
Lemma scalar_diff fs k s : scalars fs -> (k < 3)%nat -> scalar_piece k (after (fun f => f_diff f s) fs).
Proof. intros [a [b [c ->]]] H. destruct k as [|[|[|k]]]; [..|lia]; eexists; reflexivity. Qed.
Lemma scalar_dir fs k d : scalars fs -> (k < 3)%nat -> scalar_piece k (after (fun f => f_directional_derivative f d) fs).
Proof. intros [a [b [c ->]]] H. destruct k as [|[|[|k]]]; [..|lia]; eexists; reflexivity. Qed.
Lemma vector_pieces fs k : vectors fs -> (k < 3)%nat -> vector_piece k fs.
Proof. intros [a [b [c [d [e [f ->]]]]]] H. destruct k as [|[|[|k]]]; [..|lia]; eexists _, _; reflexivity. Qed.
Lemma scalar_div fs k : vectors fs -> (k < 3)%nat -> scalar_piece k (after f_div fs).
Proof. intros [a [b [c [d [e [f ->]]]]]] H. destruct k as [|[|[|k]]]; [..|lia]; eexists; reflexivity. Qed.

Ltac in_macro := cbn [nth macro]; first [apply macro_hull0 | apply macro_hull1 | apply macro_hull2]; lra.

Lemma hermite_evaluates fs : good fs -> scalars fs -> good_after (fun f => f_diff f "x"%string) fs -> good_after (fun f => f_diff f "y"%string) fs ->
  Forall2 (fun d v => evaluates_pw (fst d) (on_cells 2 macro fs) (v fs)) (hermite_dofs corners) hermite_values.
Proof.
  intros G S GX GY. unfold hermite_dofs, hermite_values, corners. cbn [numbered flat_map seq combine length fst snd app].
  repeat apply Forall2_cons; try apply Forall2_nil; cbn [fst snd].
  all: first [apply evaluates_point; [exact G|apply scalar_pieces; [exact S|lia]|lia|reflexivity|in_macro]
    |apply evaluates_diff; [exact GX|apply scalar_diff; [exact S|lia]|lia|reflexivity|in_macro|apply diff_x]
    |apply evaluates_diff; [exact GY|apply scalar_diff; [exact S|lia]|lia|reflexivity|in_macro|apply diff_y]].
Qed.

Lemma Forall2_row {A B} (P : A -> B -> Prop) fs (dofs : list A) (values : list (list func -> B)) :
  Forall2 (fun d v => P d (v fs)) dofs values -> Forall2 P dofs (map (fun v => v fs) values).
Proof. induction 1; simpl; constructor; auto. Qed.
Lemma Forall2_fst {A B C} (P : A -> C -> Prop) (l : list (A * B)) r : Forall2 (fun a c => P (fst a) c) l r -> Forall2 P (map fst l) r.
Proof. induction 1; simpl; constructor; auto. Qed.

Lemma matrix_values (pl : list (list func)) (dofs : list tagged) values :
  Forall (fun fs => Forall2 (fun d v => evaluates_pw (fst d) (on_cells 2 macro fs) (v fs)) dofs values) pl ->
  values_matrix (map (on_cells 2 macro) pl) (map fst dofs) (matrix_of values pl).
Proof.
  unfold values_matrix, matrix_of. induction 1 as [|fs pl H _ IH]; simpl; constructor; [|exact IH].
  apply (Forall2_row (fun d v => evaluates_pw d (on_cells 2 macro fs) v)).
  exact (Forall2_fst (fun d (v : list func -> R) => evaluates_pw d (on_cells 2 macro fs) (v fs)) _ _ H).
Qed.

Lemma hct_matrix : values_matrix (map (on_cells 2 macro) hct_pieces) (map fst (hermite_dofs corners ++ normals)) (matrix_of hct_values hct_pieces).
Proof.
  apply matrix_values. apply Forall_forall. intros fs Hfs.
  pose proof (proj1 (Forall_forall _ _) hct_good fs Hfs) as G. pose proof (proj1 (Forall_forall _ _) hct_scalars fs Hfs) as S.
  apply Forall2_app.
  - apply hermite_evaluates; [exact G|exact S|apply (proj1 (Forall_forall _ _) hct_dx fs Hfs)|apply (proj1 (Forall_forall _ _) hct_dy fs Hfs)].
  - unfold normals. repeat apply Forall2_cons; try apply Forall2_nil; cbn [fst snd]; apply evaluates_direction;
      [apply (proj1 (Forall_forall _ _) (hct_dir _ _) fs Hfs)|apply scalar_dir; [exact S|lia]|lia|reflexivity|in_macro
      |apply (proj1 (Forall_forall _ _) (hct_dir _ _) fs Hfs)|apply scalar_dir; [exact S|lia]|lia|reflexivity|in_macro
      |apply (proj1 (Forall_forall _ _) (hct_dir _ _) fs Hfs)|apply scalar_dir; [exact S|lia]|lia|reflexivity|in_macro].
Qed.

Lemma rhct_matrix : values_matrix (map (on_cells 2 macro) rhct_pieces) (map fst (hermite_dofs corners)) (matrix_of hermite_values rhct_pieces).
Proof.
  apply matrix_values. apply Forall_forall. intros fs Hfs.
  apply hermite_evaluates; [apply (proj1 (Forall_forall _ _) rhct_good fs Hfs)|apply (proj1 (Forall_forall _ _) rhct_scalars fs Hfs)
    |apply (proj1 (Forall_forall _ _) rhct_dx fs Hfs)|apply (proj1 (Forall_forall _ _) rhct_dy fs Hfs)].
Qed.

Lemma as_matrix : values_matrix (map (on_cells 2 macro) as_pieces) (map fst as_list) (matrix_of as_values as_pieces).
Proof.
  apply matrix_values. apply Forall_forall. intros fs Hfs.
  pose proof (proj1 (Forall_forall _ _) as_good fs Hfs) as G. pose proof (proj1 (Forall_forall _ _) as_vectors fs Hfs) as S.
  pose proof (proj1 (Forall_forall _ _) as_divergences fs Hfs) as D.
  unfold as_list, as_values, corners. cbn [numbered flat_map seq combine length fst snd app].
  repeat apply Forall2_cons; try apply Forall2_nil; cbn [fst snd].
  all: first [apply evaluates_dot; [exact G|apply vector_pieces; [exact S|lia]|lia|reflexivity|in_macro]
    |apply evaluates_divergence; [exact G|exact D|apply scalar_div; [exact S|lia]|lia|reflexivity|in_macro]].
Qed.

(** * The matrices are invertible *)

Lemma matrix_square values pl : length values = length pl -> CiarletProofs.square (length pl) (matrix_of values pl).
Proof.
  intros H. unfold CiarletProofs.square, matrix_of. rewrite map_length. split; [reflexivity|].
  intros r Hr. apply in_map_iff in Hr. destruct Hr as [fs [<- _]]. rewrite map_length. exact H.
Qed.

Ltac equations n H k :=
  lazymatch n with
  | 0%nat => idtac
  | S ?m => let E := fresh "E" in
    assert (E := H k ltac:(lia)); cbn in E; unfold v_dot in E; cbn in E; equations m H (S k)
  end.
Lemma hct_kernel x : (forall i, (i < 12)%nat -> LinAlg.sum 12 (fun j => CiarletModel.entry (matrix_of hct_values hct_pieces) i j * x j) = 0) ->
  forall p, (p < 12)%nat -> x p = 0.
Proof.
  intros H.
  equations 12%nat H 0%nat.
  assert (S2 : / sqrt 2 <> 0) by (apply Rinv_neq_0_compat, Rgt_not_eq, sqrt_lt_R0; lra).
  generalize dependent (/ sqrt 2). intros s E0 E1 E2 E3 E4 E5 E6 E7 E8 E9 E10 E11 S2.
  assert (X9 : s * x 9%nat = 0) by (clear H S2; lra).
  assert (Y9 : x 9%nat = 0) by (apply Rmult_integral in X9; destruct X9; [contradiction|assumption]).
  rewrite Y9 in *. clear H S2 X9.
  intros p P. do 12 (destruct p as [|p]; [lra|]). lia.
Qed.
Lemma rhct_kernel x : (forall i, (i < 9)%nat -> LinAlg.sum 9 (fun j => CiarletModel.entry (matrix_of hermite_values rhct_pieces) i j * x j) = 0) ->
  forall p, (p < 9)%nat -> x p = 0.
Proof.
  intros H. equations 9%nat H 0%nat. clear H.
  intros p P. do 9 (destruct p as [|p]; [lra|]). lia.
Qed.
Lemma as_kernel x : (forall i, (i < 15)%nat -> LinAlg.sum 15 (fun j => CiarletModel.entry (matrix_of as_values as_pieces) i j * x j) = 0) ->
  forall p, (p < 15)%nat -> x p = 0.
Proof.
  intros H. equations 15%nat H 0%nat. clear H.
  intros p P. do 15 (destruct p as [|p]; [lra|]). lia.
Qed.

Lemma sum_sumR n f : LinAlg.sum n f = sumR (map f (seq 0 n)).
Proof.
  induction n as [|n IH]; [reflexivity|]. rewrite seq_S, map_app. cbn [LinAlg.sum]. rewrite IH.
  assert (A : forall l1 l2, sumR (l1 ++ l2) = sumR l1 + sumR l2) by (intros l1 l2; induction l1 as [|a l1 IHl]; simpl; [ring|rewrite IHl; ring]).
  rewrite A. simpl. ring.
Qed.

Lemma dual_exists values pl n : length pl = n -> length values = n ->
  (forall x, (forall i, (i < n)%nat -> LinAlg.sum n (fun j => CiarletModel.entry (matrix_of values pl) i j * x j) = 0) -> forall p, (p < n)%nat -> x p = 0) ->
  exists N, CiarletModel.inv_LU (matrix_of values pl) = Ok N /\ dual_coefficients n (matrix_of values pl) N.
Proof.
  intros L1 L2 K. pose proof (matrix_square values pl ltac:(congruence)) as Sq. rewrite L1 in Sq.
  pose proof (CiarletProofs.inv_LU_spec n _ Sq) as I. destruct (CiarletModel.inv_LU _) as [N|e].
  - exists N. split; [reflexivity|]. destruct I as [[SN1 SN2] Id]. unfold dual_coefficients.
    split; [exact SN1|]. split; [apply Forall_forall; exact SN2|]. intros i j Hi Hj.
    rewrite <- (sum_sumR n (fun k => nth k (nth i N []) 0 * nth j (nth k (matrix_of values pl) []) 0)).
    transitivity (LinAlg.delta i j); [exact (Id i j Hi Hj)|]. unfold LinAlg.delta. destruct (Nat.eq_dec i j), (Nat.eqb_spec i j); congruence || reflexivity.
  - destruct I as [_ [x [p [Hp [Nz Z]]]]]. destruct (Nz (K x Z p Hp)).
Qed.
