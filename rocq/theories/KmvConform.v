(** Kong-Mulder-Veldhuizen elements: values on the facets. *)
From Coquelicot Require Import Coquelicot.
From Coq Require Import String Reals ZArith Arith Bool Lia Lra List.
From Verif Require LinAlg CiarletModel CiarletProofs ReferencesModel.
From Verif Require Import Base PolySetsModel ReferencesSpec FunctionsModel FunctionsSpec FunctionalsModel FunctionalsSpec FunctionalsProofs FunctionalsValues MacroModel MacroUnisolvence NodalModel NodalSpec NodalProofs NodalElements KmvElements ConformProofs.
Import ListNotations.
Local Open Scope R_scope.

Lemma kmv_tri1_conforming : conforming false (make_kmv triangle 1) triangle.
Proof.
  eapply (conforming_of false _ _ 2); [apply kmv_triangle; simpl; auto|..]; try (reflexivity || lia); [vm_compute; lia|solve_scalar|solve_simple|].
  intros k e E cs p Hk HE Lc Z Lp Hp. destruct (triangle_edges k e E p Hk HE Lp Hp) as (t & Cases); clear HE Hp Lp. change (length cs = 3%nat) in Lc.
  do 3 (let c := fresh "c" in destruct cs as [|c cs]; [discriminate Lc|]). destruct cs; [|discriminate Lc]. clear Lc. (split; [|discriminate]).
  destruct Cases as [[-> ->]|[[-> ->]|[-> ->]]]; zero_equations Z; vanish_with t.
Qed.
Lemma kmv_tri2_conforming : conforming false (make_kmv triangle 2) triangle.
Proof.
  eapply (conforming_of false _ _ 2); [apply kmv_triangle; simpl; auto|..]; try (reflexivity || lia); [vm_compute; lia|solve_scalar|solve_simple|].
  intros k e E cs p Hk HE Lc Z Lp Hp. destruct (triangle_edges k e E p Hk HE Lp Hp) as (t & Cases); clear HE Hp Lp. change (length cs = 7%nat) in Lc.
  do 7 (let c := fresh "c" in destruct cs as [|c cs]; [discriminate Lc|]). destruct cs; [|discriminate Lc]. clear Lc. (split; [|discriminate]).
  destruct Cases as [[-> ->]|[[-> ->]|[-> ->]]]; zero_equations Z; vanish_with t.
Qed.

(** order three: a cubic that vanishes at the ends and at the two points of the edge *)
Lemma row_cubic cs x y : length cs = 12%nat -> ev (x_point [x; y]) (function_row cs (kmv_basis triangle 3)) = cubic_plus (fun i => nth i cs 0) x y.
Proof.
  intros L. do 12 (let c := fresh "c" in destruct cs as [|c cs]; [discriminate L|]). destruct cs; [|discriminate L]. unfold cubic_plus. cbn [nth]. cbn -[IZR]. ring.
Qed.
Lemma weighted_zero p w f : w <> 0 -> read (WeightedPointEvaluation (nums p) (ENum w)) f = 0 -> ev (x_point p) f = 0.
Proof. intros N H. rewrite (weighted_value p p w f eq_refl) in H. cbn [read] in H. rewrite number_nums in H. apply (cancel w); [exact N|exact H]. Qed.
Lemma cubic_edge (g : R -> R) al a b c d : al <> 0 -> al <> 1 -> al <> 1 / 2 -> (forall t, g t = a + b * t + c * t ^ 2 + d * t ^ 3) -> g 0 = 0 -> g 1 = 0 -> g al = 0 -> g (1 - al) = 0 -> forall t, g t = 0.
Proof.
  intros A0 A1 A2 H G0 G1 Ga Gb t. rewrite H in *. assert (a = 0) by lra. subst a.
  destruct (three_points al b c d A0 A1 A2) as (-> & -> & ->); [lra|lra|lra|]. ring.
Qed.
Lemma weights3 : 1 / 90 - sqrt 7 / 720 <> 0 /\ 7 / 720 - sqrt 7 / 180 <> 0 /\ 49 / 360 - 7 * sqrt 7 / 720 <> 0.
Proof. destruct root7 as [P E]. repeat split; nra. Qed.
Lemma kmv_tri3_conforming : conforming false (make_kmv triangle 3) triangle.
Proof.
  eapply (conforming_of false _ _ 2); [apply kmv_triangle; simpl; auto|..]; try (reflexivity || lia); [vm_compute; lia|solve_scalar|solve_simple|].
  intros k e E cs p Hk HE Lc Z Lp Hp. destruct (triangle_edges k e E p Hk HE Lp Hp) as (t & Cases); clear HE Hp Lp. change (length cs = 12%nat) in Lc. split; [|discriminate].
  destruct alpha3_bounds as (A0 & A1 & A2 & _). destruct weights3 as (W1 & W2 & W3).
  assert (V : forall x y x' y' w, w <> 0 -> read (WeightedPointEvaluation (nums [x; y]) (ENum w)) (function_row cs (kmv_basis triangle 3)) = 0 -> x = x' -> y = y' -> cubic_plus (fun i => nth i cs 0) x' y' = 0).
  { intros x y x' y' w N H <- <-. rewrite <- row_cubic by exact Lc. exact (weighted_zero _ _ _ N H). }
  destruct Cases as [[-> ->]|[[-> ->]|[-> ->]]]; rewrite row_cubic by exact Lc;
    match type of Z with Forall _ ?l => let l' := eval cbn -[IZR sqrt kmv_alpha3 kmv_beta3 nums] in l in change l with l' in Z end;
    do 4 (apply Forall_cons_iff in Z; let E := fresh "E" in destruct Z as [E Z]; change (@nil expr) with (nums []) in E); clear Z.
  - revert t. eapply (cubic_edge (fun t => cubic_plus (fun i => nth i cs 0) (1 - t) t) kmv_alpha3 _ _ _ _ A0 A1 A2).
    + intros t. unfold cubic_plus. set (c := fun i => nth i cs 0).
      transitivity ((c 0%nat + c 1%nat + c 2%nat + c 3%nat) + (- c 1%nat - 2 * c 2%nat - 3 * c 3%nat + c 4%nat + c 5%nat + c 6%nat) * t +
        (c 2%nat + 3 * c 3%nat - c 5%nat - 2 * c 6%nat + c 7%nat + c 8%nat) * t ^ 2 + (- c 3%nat + c 6%nat - c 8%nat + c 9%nat) * t ^ 3); [unfold c; ring|reflexivity].
    + eapply V; [exact W1|exact E|ring|ring].
    + eapply V; [exact W1|exact E0|ring|ring].
    + eapply V; [exact W2|exact E1|ring|ring].
    + eapply V; [exact W2|exact E2|ring|ring].
  - revert t. eapply (cubic_edge (fun t => cubic_plus (fun i => nth i cs 0) 0 t) kmv_alpha3 _ _ _ _ A0 A1 A2).
    + intros t. unfold cubic_plus. set (c := fun i => nth i cs 0).
      transitivity (c 0%nat + c 4%nat * t + c 7%nat * t ^ 2 + c 9%nat * t ^ 3); [unfold c; ring|reflexivity].
    + eapply V; [exact W1|exact E|ring|ring].
    + eapply V; [exact W1|exact E0|ring|ring].
    + eapply V; [exact W2|exact E1|ring|ring].
    + eapply V; [exact W2|exact E2|ring|ring].
  - revert t. eapply (cubic_edge (fun t => cubic_plus (fun i => nth i cs 0) t 0) kmv_alpha3 _ _ _ _ A0 A1 A2).
    + intros t. unfold cubic_plus. set (c := fun i => nth i cs 0).
      transitivity (c 0%nat + c 1%nat * t + c 2%nat * t ^ 2 + c 3%nat * t ^ 3); [unfold c; ring|reflexivity].
    + eapply V; [exact W1|exact E|ring|ring].
    + eapply V; [exact W1|exact E0|ring|ring].
    + eapply V; [exact W2|exact E1|ring|ring].
    + eapply V; [exact W2|exact E2|ring|ring].
Qed.
Lemma kmv_tet1_conforming : conforming false (make_kmv tetrahedron 1) tetrahedron.
Proof.
  eapply (conforming_of false _ _ 3); [apply kmv_tetrahedron; simpl; auto|..]; try (reflexivity || lia); [vm_compute; lia|solve_scalar|solve_simple|].
  intros k e E cs p Hk (tab & Et & En) Lc Z Lp (w & Lw & Sw & Ew). change (length cs = 4%nat) in Lc. split; [|discriminate]. injection Hk as ->. injection Et as <-.
  destruct p as [|p0 [|p1 [|p2 [|? ?]]]]; try discriminate Lp. destruct cs as [|c0 [|c1 [|c2 [|c3 [|? ?]]]]]; try discriminate Lc. clear Lp Lc.
  assert (Le : length E = 3%nat). { do 4 (destruct e as [|e]; [injection En as <-; reflexivity|]). destruct e; discriminate En. }
  rewrite map_length, Le in Lw. destruct w as [|w0 [|w1 [|w2 [|? ?]]]]; try discriminate Lw. cbn [sumR fold_right] in Sw.
  pose proof (Ew 0%nat ltac:(simpl; lia)) as X. pose proof (Ew 1%nat ltac:(simpl; lia)) as Y. pose proof (Ew 2%nat ltac:(simpl; lia)) as W. clear Ew.
  destruct e as [|[|[|[|e]]]]; [..|destruct e; discriminate En]; injection En as <-; cbn in X, Y, W, Sw; zero_equations Z; cbn -[IZR]; ring_simplify.
  - replace c1 with (- c0) by lra. replace c2 with (- c0) by lra. replace c3 with (- c0) by lra. replace p0 with (1 - p1 - p2) by lra. ring.
  - replace c0 with 0 by lra. replace p0 with 0 by lra. replace c2 with 0 by lra. replace c3 with 0 by lra. ring.
  - replace c0 with 0 by lra. replace p1 with 0 by lra. replace c1 with 0 by lra. replace c3 with 0 by lra. ring.
  - replace c0 with 0 by lra. replace p2 with 0 by lra. replace c1 with 0 by lra. replace c2 with 0 by lra. ring.
Qed.
