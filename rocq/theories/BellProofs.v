(** The normal derivatives of Bell's functions along the edges. *)
From Coquelicot Require Import Coquelicot.
From Coq Require Import String Reals ZArith Arith Bool Lia Lra List.
From Verif Require LinAlg CiarletModel CiarletProofs ReferencesModel.
From Verif Require Import Base PolyLib PolySetsModel PolySetsProofs ReferencesSpec FunctionsModel FunctionsSpec FunctionalsModel FunctionalsSpec FunctionalsProofs FunctionalsValues MacroModel MacroUnisolvence NodalModel NodalSpec NodalProofs NodalElements ConformProofs.
Import ListNotations.
Local Open Scope R_scope.

(** * Specification *)
(** The point at the parameter t of the segment from a to b. *)
Definition on_segment (a b : list R) (t : R) : list R := map (fun pq => (1 - t) * fst pq + t * snd pq) (combine a b).
(** The derivative of f in the direction n is a polynomial of degree three along the line through a and b. *)
Definition cubic_along (f : expr) (a b n : list R) : Prop :=
  exists c0 c1 c2 c3, forall t, is_derive (fun h => ev (x_point (along (on_segment a b t) n h)) f) 0 (c0 + c1 * t + c2 * t ^ 2 + c3 * t ^ 3).
(** n is perpendicular to the line through a and b. *)
Definition perpendicular (a b n : list R) : Prop := fold_right Rplus 0 (map (fun pqr => (snd (fst pqr) - fst (fst pqr)) * snd pqr) (combine (combine a b) n)) = 0.

(** * Proofs *)
Lemma bell_scalar : Forall (scalar_in 2) bell_basis.
Proof. solve_scalar. Qed.
Lemma row_scalar cs : length cs = 18%nat -> scalar_in 2 (function_row cs bell_basis).
Proof.
  intros L. apply (row_reading 2 _ _ (simple_reading 2 (PointEvaluation (nums [0; 0])) ltac:(exists [0; 0]; split; reflexivity)) bell_basis cs bell_scalar L). vm_compute. lia.
Qed.
Lemma spanned_row f : spanned bell_basis (fun q => ev q f) -> exists cs, length cs = 18%nat /\ forall q, ev q f = ev q (function_row cs bell_basis).
Proof.
  intros (cs & L & E). exists cs. split; [exact L|]. intros q. rewrite E, row_value, combination_sum; try reflexivity; try exact L. vm_compute. lia.
Qed.
Lemma bell_cubic f a b n : polynomial f -> symbols_in (firstn 2 x_symbols) f -> spanned bell_basis (fun q => ev q f) ->
  In (a, b) [([1; 0], [0; 1]); ([0; 0], [0; 1]); ([0; 0], [1; 0])] -> length n = 2%nat -> perpendicular a b n -> cubic_along f a b n.
Proof.
  intros Pf Sf Hs He Ln Hn. destruct (spanned_row f Hs) as (cs & L & E). pose proof (row_scalar cs L) as [Pr Sr].
  assert (D : forall p, length p = 2%nat -> is_derive (fun h => ev (x_point (along p n h)) f) 0 (direction_sum n (x_point p) (function_row cs bell_basis))).
  { intros p Lp. eapply is_derive_ext; [intros h; symmetry; apply E|]. apply directional_derivative_correct; [exact Pr|rewrite Lp; exact Sr|congruence]. }
  assert (Ls : forall t, length (on_segment a b t) = 2%nat) by (intros t; destruct He as [X|[X|[X|[]]]]; injection X as <- <-; reflexivity).
  enough (Q : exists c0 c1 c2 c3, forall t, direction_sum n (x_point (on_segment a b t)) (function_row cs bell_basis) = c0 + c1 * t + c2 * t ^ 2 + c3 * t ^ 3).
  { destruct Q as (c0 & c1 & c2 & c3 & Q). exists c0, c1, c2, c3. intros t. rewrite <- Q. apply D, Ls. }
  clear D Ls E Pr Sr Hs Pf Sf. destruct n as [|n0 [|n1 [|? ?]]]; try discriminate Ln. clear Ln.
  do 18 (let c := fresh "c" in destruct cs as [|c cs]; [discriminate L|]). destruct cs; [|discriminate L]. clear L.
  destruct He as [X|[X|[X|[]]]]; injection X as <- <-; unfold perpendicular in Hn; cbn in Hn.
  - replace n1 with n0 by lra. clear Hn n1.
    set (g := fun t => direction_sum [n0; n0] (x_point (on_segment [1; 0] [0; 1] t)) (function_row [c; c0; c1; c2; c3; c4; c5; c6; c7; c8; c9; c10; c11; c12; c13; c14; c15; c16] bell_basis)).
    exists (g 0), (- 11 / 6 * g 0 + 3 * g 1 - 3 / 2 * g 2 + g 3 / 3), (g 0 - 5 / 2 * g 1 + 2 * g 2 - g 3 / 2), (- g 0 / 6 + g 1 / 2 - g 2 / 2 + g 3 / 6).
    intros t. fold (g t). unfold g. cbn -[IZR]. field.
  - replace n1 with 0 by lra. clear Hn n1.
    set (g := fun t => direction_sum [n0; 0] (x_point (on_segment [0; 0] [0; 1] t)) (function_row [c; c0; c1; c2; c3; c4; c5; c6; c7; c8; c9; c10; c11; c12; c13; c14; c15; c16] bell_basis)).
    exists (g 0), (- 11 / 6 * g 0 + 3 * g 1 - 3 / 2 * g 2 + g 3 / 3), (g 0 - 5 / 2 * g 1 + 2 * g 2 - g 3 / 2), (- g 0 / 6 + g 1 / 2 - g 2 / 2 + g 3 / 6).
    intros t. fold (g t). unfold g. cbn -[IZR]. field.
  - replace n0 with 0 by lra. clear Hn n0.
    set (g := fun t => direction_sum [0; n1] (x_point (on_segment [0; 0] [1; 0] t)) (function_row [c; c0; c1; c2; c3; c4; c5; c6; c7; c8; c9; c10; c11; c12; c13; c14; c15; c16] bell_basis)).
    exists (g 0), (- 11 / 6 * g 0 + 3 * g 1 - 3 / 2 * g 2 + g 3 / 3), (g 0 - 5 / 2 * g 1 + 2 * g 2 - g 3 / 2), (- g 0 / 6 + g 1 / 2 - g 2 / 2 + g 3 / 6).
    intros t. fold (g t). unfold g. cbn -[IZR]. field.
Qed.

(** * The quartics *)
Lemma bell_quartics g : poly_space (fun m => length m = 2%nat /\ (mdeg m <= 4)%nat) g -> spanned bell_basis (fun p => g (fun i => nth i [p "x"%string; p "y"%string] 0)).
Proof.
  intros Dg. destruct (polynomial_set_1d_ok 2 4 ltac:(lia)) as (l' & El' & (_ & _ & _ & _ & Gen)). injection El' as <-. destruct (Gen g Dg) as (cs & L & E). change (length cs = 15%nat) in L.
  exists (cs ++ [0; 0; 0]). split; [rewrite app_length, L; reflexivity|]. intros p. rewrite E. clear -L.
  do 15 (let c := fresh "c" in destruct cs as [|c cs]; [discriminate L|]). destruct cs; [|discriminate L]. cbn -[IZR]. ring.
Qed.

(** * Another triangle *)
Definition wide : list (list R) := [[0; 0]; [2; 0]; [0; 1]].
Definition wide_triangle : ReferencesModel.reference := match ReferencesModel.make_reference ReferencesModel.CTriangle wide with Ok r => r | _ => triangle end.
Lemma wide_made : ReferencesModel.make_reference ReferencesModel.CTriangle wide = Ok wide_triangle.
Proof. reflexivity. Qed.
Lemma wide_bell : make_bell wide_triangle 5 = Ok (bell_basis, bell_dofs wide).
Proof. reflexivity. Qed.
(** (x + 2 y - 2) y^2 (16 x^2 + 3 (x + 2 y - 2) (x - y + 1)) *)
Definition wide_coefficients : list R := [0; 0; 0; 0; 0; 0; 0; 0; 0; 12; 0; -41; -36; 0; 36; 12; 19; 12].
Definition wide_function : expr := function_row wide_coefficients bell_basis.
Lemma wide_spanned : spanned bell_basis (fun q => ev q wide_function).
Proof. exists wide_coefficients. split; [reflexivity|]. intros p. unfold wide_function. rewrite row_value, combination_sum; try reflexivity. vm_compute. lia. Qed.
Lemma wide_derivative t : is_derive (fun h => ev (x_point (along (on_segment [2; 0] [0; 1] t) [1; 2] h)) wide_function) 0 (320 * (1 - t) ^ 2 * t ^ 2).
Proof.
  destruct (row_scalar wide_coefficients eq_refl) as [P S]. eapply eq_rect; [apply directional_derivative_correct; [exact P|exact S|reflexivity]|]. cbn -[IZR]. field.
Qed.
Lemma wide_not_cubic : ~ cubic_along wide_function [2; 0] [0; 1] [1; 2].
Proof.
  intros (c0 & c1 & c2 & c3 & H).
  assert (E : forall t, c0 + c1 * t + c2 * t ^ 2 + c3 * t ^ 3 = 320 * (1 - t) ^ 2 * t ^ 2).
  { intros t. rewrite <- (is_derive_unique _ _ _ (H t)). apply is_derive_unique, wide_derivative. }
  pose proof (E 0). pose proof (E 1). pose proof (E 2). pose proof (E 3). pose proof (E 4). lra.
Qed.
Lemma wide_zero d k e E : In (d, (k, e)) (bell_dofs wide) -> has_vertices wide_triangle k e E -> incl E [1; 2]%nat -> evaluates d (FS wide_function) 0.
Proof.
  intros Hd (tab & Et & En) Hi. assert (Sd : Forall (simple 2) (map fst (bell_dofs wide))) by solve_simple.
  assert (S0 : simple 2 d) by (rewrite Forall_forall in Sd; apply Sd; exact (in_map fst _ _ Hd)).
  assert (R0 : read d wide_function = 0).
  2: { rewrite <- R0. exact (proj1 (simple_reading 2 d S0) _ (row_scalar wide_coefficients eq_refl)). }
  clear S0 Sd. unfold bell_dofs, wide in Hd. cbn [numbered length seq combine flat_map map app fst snd] in Hd.
  repeat (destruct Hd as [X|Hd]; [injection X as <- <- <-; injection Et as <-; injection En as <-;
    first [exfalso; specialize (Hi 0%nat ltac:(simpl; auto)); simpl in Hi; lia | cbn -[IZR]; unfold value_point; cbn -[IZR]; field]|]). destruct Hd.
Qed.
Lemma wide_nonconforming : ~ conforming true (make_bell wide_triangle 5) wide_triangle.
Proof.
  intros (basis & dofs & E & H). rewrite wide_bell in E. injection E as <- <-. destruct (row_scalar wide_coefficients eq_refl) as [P S].
  destruct (H 1%nat 0%nat [1; 2]%nat wide_function (on_segment [2; 0] [0; 1] (1 / 2))) as [_ D]; try reflexivity; try assumption.
  - eexists. split; reflexivity.
  - apply wide_spanned.
  - intros d k' e' E' Hd HE Hi. exact (wide_zero d k' e' E' Hd HE Hi).
  - exists [1 / 2; 1 / 2]. split; [reflexivity|]. split; [cbn; lra|]. intros [|[|j]] Hj; [cbn; lra|cbn; lra|cbn in Hj; lia].
  - specialize (D eq_refl [1; 2] eq_refl). pose proof (is_derive_unique _ _ _ D) as X. rewrite (is_derive_unique _ _ _ (wide_derivative (1 / 2))) in X. lra.
Qed.
