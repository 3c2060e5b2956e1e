(** Degrees of freedom on the closure of a facet determine the functions of NodalModel.v's elements there. *)
From Coquelicot Require Import Coquelicot.
From Coq Require Import String Reals ZArith Arith Bool Lia Lra List.
From Verif Require LinAlg CiarletModel CiarletProofs ReferencesModel.
From Verif Require Import Base PolySetsModel ReferencesSpec FunctionsModel FunctionsSpec FunctionalsModel FunctionalsSpec FunctionalsProofs FunctionalsValues MacroModel MacroUnisolvence NodalModel NodalSpec NodalProofs NodalElements.
Import ListNotations.
Local Open Scope R_scope.

Definition closure_test (r : ReferencesModel.reference) (E : list nat) (d : tagged) : bool :=
  match ReferencesModel.sub_entities r (fst (snd d)) with
  | Ok tab => match nth_error tab (snd (snd d)) with Some E' => forallb (fun i => existsb (Nat.eqb i) E) E' | None => false end
  | Err _ => false
  end.
Lemma closure_test_true r E d : closure_test r E d = true -> exists E', has_vertices r (fst (snd d)) (snd (snd d)) E' /\ incl E' E.
Proof.
  unfold closure_test. intros H. destruct (ReferencesModel.sub_entities r (fst (snd d))) as [tab|] eqn:Et; [|discriminate]. destruct (nth_error tab (snd (snd d))) as [E'|] eqn:En; [|discriminate].
  exists E'. split; [exists tab; auto|]. intros i Hi. rewrite forallb_forall in H. specialize (H i Hi). apply existsb_exists in H. destruct H as (j & Hj & Ej). apply Nat.eqb_eq in Ej. subst j. exact Hj.
Qed.
Lemma derivatives_zero dim A q e : (dim <= 3)%nat -> length A = dim -> (forall s, In s (firstn dim x_symbols) -> ev q (ediff s e) = 0) -> direction_sum A q e = 0.
Proof.
  intros Hd LA H. unfold direction_sum, x_symbols.
  destruct dim as [|[|[|[|n]]]]; try lia; destruct A as [|a0 [|a1 [|a2 [|? ?]]]]; try discriminate LA; cbn [combine map fold_right fst snd];
    rewrite ?(H "x"%string), ?(H "y"%string), ?(H "z"%string) by (simpl; auto); ring.
Qed.

Lemma conforming_of smooth made r dim basis dofs : made = Ok (basis, dofs) -> ReferencesModel.tdim (ReferencesModel.r_type r) = dim -> (dim <= 3)%nat -> (0 < length basis)%nat ->
  Forall (scalar_in dim) basis -> Forall (simple dim) (map fst dofs) ->
  (forall k e E cs p, S k = dim -> has_vertices r k e E -> length cs = length basis ->
     Forall (fun d => read d (function_row cs basis) = 0) (map fst (filter (closure_test r E) dofs)) ->
     length p = dim -> in_affine_hull (map (fun i => nth i (ReferencesModel.r_vertices r) []) E) p ->
     ev (x_point p) (function_row cs basis) = 0 /\ (smooth = true -> forall s, In s (firstn dim x_symbols) -> ev (x_point p) (ediff s (function_row cs basis)) = 0)) ->
  conforming smooth made r.
Proof.
  intros Em Ed Hd Hb Sb Sd H. exists basis, dofs. split; [exact Em|]. intros k e E f p Hk HE Pf Sf (cs & Lc & Ec) Z Lp Hp. rewrite Ed in Hk. rewrite Hk in *.
  assert (Eq : forall q, ev q f = ev q (function_row cs basis)).
  { intros q. rewrite Ec, row_value, combination_sum by congruence. reflexivity. }
  assert (Hs : forall d, simple dim d -> scalar_in dim (function_row cs basis)) by (intros d S0; apply (row_reading dim _ _ (simple_reading dim d S0)); [assumption|congruence|lia]).
  assert (Sr : scalar_in dim (function_row cs basis)) by (apply (Hs (PointEvaluation (nums (repeat 0 dim)))); exists (repeat 0 dim); split; [reflexivity|apply repeat_length]).
  destruct (H k e E cs p Hk HE Lc) as [V D]; try assumption.
  - apply Forall_forall. intros d Hd'. apply in_map_iff in Hd'. destruct Hd' as (t & <- & Ht). apply filter_In in Ht. destruct Ht as [It Ct].
    destruct (closure_test_true r E t Ct) as (E' & HE' & Inc). destruct t as [d [k' e']]. cbn [fst snd] in *. specialize (Z d k' e' E' It HE' Inc).
    assert (S0 : simple dim d) by (rewrite Forall_forall in Sd; apply Sd; exact (in_map fst _ _ It)).
    pose proof (simple_reading dim d S0) as Rd. rewrite <- (proj2 (proj2 (proj2 Rd)) f _ (conj Pf Sf) Sr Eq).
    exact (evaluates_unique _ _ _ _ (proj1 Rd f (conj Pf Sf)) (simple_direct dim d S0 f (conj Pf Sf)) Z).
  - split; [rewrite Eq; exact V|]. intros Sm u Lu. destruct Sr as [P S].
    pose proof (directional_derivative_correct (function_row cs basis) p u P ltac:(rewrite Lp; exact S) ltac:(congruence)) as X.
    rewrite (derivatives_zero dim u (x_point p) (function_row cs basis) Hd Lu (D Sm)) in X.
    eapply is_derive_ext; [intros h; symmetry; apply Eq|]. exact X.
Qed.

(** * A polynomial of degree five that vanishes at six points *)
Lemma interp5 (g : R -> R) : g 0 = 0 -> g 1 = 0 -> g 2 = 0 -> g 3 = 0 -> g 4 = 0 -> g 5 = 0 ->
  (forall t, g t = - g 0 * ((t - 1) * (t - 2) * (t - 3) * (t - 4) * (t - 5)) / 120 + g 1 * (t * (t - 2) * (t - 3) * (t - 4) * (t - 5)) / 24
     - g 2 * (t * (t - 1) * (t - 3) * (t - 4) * (t - 5)) / 12 + g 3 * (t * (t - 1) * (t - 2) * (t - 4) * (t - 5)) / 12
     - g 4 * (t * (t - 1) * (t - 2) * (t - 3) * (t - 5)) / 24 + g 5 * (t * (t - 1) * (t - 2) * (t - 3) * (t - 4)) / 120) -> forall t, g t = 0.
Proof. intros E0 E1 E2 E3 E4 E5 H t. rewrite H, E0, E1, E2, E3, E4, E5. field. Qed.

(** * The edges of the triangle *)
Lemma triangle_edges k e E p : S k = 2%nat -> has_vertices triangle k e E -> length p = 2%nat -> in_affine_hull (map (fun i => nth i (ReferencesModel.r_vertices triangle) []) E) p ->
  exists t, (E = [1; 2]%nat /\ p = [1 - t; t]) \/ (E = [0; 2]%nat /\ p = [0; t]) \/ (E = [0; 1]%nat /\ p = [t; 0]).
Proof.
  intros Hk (tab & Et & En) Lp (w & Lw & Sw & Ew). injection Hk as ->. injection Et as <-. destruct p as [|a [|b [|? ?]]]; try discriminate Lp.
  assert (Le : length E = 2%nat). { do 3 (destruct e as [|e]; [injection En as <-; reflexivity|]). destruct e; discriminate En. }
  rewrite map_length, Le in Lw. destruct w as [|w0 [|w1 [|? ?]]]; try discriminate Lw. cbn [sumR fold_right] in Sw. exists w1.
  pose proof (Ew 0%nat ltac:(simpl; lia)) as X. pose proof (Ew 1%nat ltac:(simpl; lia)) as Y.
  do 3 (destruct e as [|e]; [injection En as <-; cbn in X, Y, Sw;
    first [left; split; [reflexivity|]; f_equal; [lra|f_equal; lra] | right; left; split; [reflexivity|]; f_equal; [lra|f_equal; lra] | right; right; split; [reflexivity|]; f_equal; [lra|f_equal; lra]]|]).
  destruct e; discriminate En.
Qed.
Ltac zero_equations Z :=
  match type of Z with Forall _ ?l => let l' := eval cbv -[IZR Rplus Rmult Ropp Rminus Rdiv Rinv sqrt] in l in change l with l' in Z end;
  repeat (apply Forall_cons_iff in Z; let E := fresh "E" in destruct Z as [E Z]; cbn -[IZR sqrt] in E;
   unfold value_weighted, value_point in E; cbn -[IZR sqrt] in E; ring_simplify in E); clear Z.
Ltac vanishes t :=
  lazymatch goal with |- ?lhs = 0 => let G := eval pattern t in lhs in
    lazymatch G with ?g _ => change (g t = 0); revert t; apply (interp5 g); [lra|lra|lra|lra|lra|lra|intros t; cbv beta; field] end end.
Ltac vanish_with t := cbn -[IZR sqrt]; ring_simplify; vanishes t.
Ltac each_symbol := let s := fresh "s" in let H := fresh "H" in intros _ s H; cbn [firstn x_symbols In] in H; repeat (destruct H as [<-|H]); try contradiction.

Lemma bell_conforming : conforming true (make_bell triangle 5) triangle.
Proof.
  apply (conforming_of true _ _ 2 _ _ bell_closed); try (reflexivity || lia); [vm_compute; lia|solve_scalar|solve_simple|].
  intros k e E cs p Hk HE Lc Z Lp Hp. destruct (triangle_edges k e E p Hk HE Lp Hp) as (t & Cases); clear HE Hp Lp; change (length bell_basis) with 18%nat in Lc.
  do 18 (let c := fresh "c" in destruct cs as [|c cs]; [discriminate Lc|]). destruct cs; [|discriminate Lc]. clear Lc.
  destruct Cases as [[-> ->]|[[-> ->]|[-> ->]]]; zero_equations Z; (split; [vanish_with t|each_symbol; vanish_with t]).
Qed.

(** * Argyris: the normals are unit vectors *)
Lemma scaled_out (P : R -> R) r : r <> 0 -> P r = 0 -> (P r = r * P 1) -> P 1 = 0.
Proof. intros N E H. rewrite H in E. apply Rmult_integral in E. destruct E; [contradiction|assumption]. Qed.
Ltac remove_root := match goal with E : context [/ sqrt 2] |- _ =>
  lazymatch type of E with ?lhs = 0 => let G := eval pattern (/ sqrt 2) in lhs in lazymatch G with ?g _ =>
    apply (scaled_out g (/ sqrt 2)) in E; [cbv beta in E|apply Rinv_neq_0_compat, Rgt_not_eq, sqrt_lt_R0; lra|cbv beta; ring] end end end.
Lemma argyris_conforming : conforming true (make_argyris triangle 5) triangle.
Proof.
  apply (conforming_of true _ _ 2 _ _ argyris_closed); try (reflexivity || lia); [vm_compute; lia|solve_scalar|solve_simple|].
  intros k e E cs p Hk HE Lc Z Lp Hp. destruct (triangle_edges k e E p Hk HE Lp Hp) as (t & Cases); clear HE Hp Lp; change (length (p_basis 2 5)) with 21%nat in Lc.
  do 21 (let c := fresh "c" in destruct cs as [|c cs]; [discriminate Lc|]). destruct cs; [|discriminate Lc]. clear Lc.
  destruct Cases as [[-> ->]|[[-> ->]|[-> ->]]]; zero_equations Z.
  - remove_root. ring_simplify in E11. split; [vanish_with t|each_symbol; vanish_with t].
  - split; [vanish_with t|each_symbol; vanish_with t].
  - split; [vanish_with t|each_symbol; vanish_with t].
Qed.

(** * The edges of the quadrilateral *)
Notation quadrilateral := (ReferencesModel.default ReferencesModel.CQuadrilateral).
Lemma quadrilateral_edges k e E p : S k = 2%nat -> has_vertices quadrilateral k e E -> length p = 2%nat -> in_affine_hull (map (fun i => nth i (ReferencesModel.r_vertices quadrilateral) []) E) p ->
  exists t, (E = [0; 1]%nat /\ p = [t; 0]) \/ (E = [0; 2]%nat /\ p = [0; t]) \/ (E = [1; 3]%nat /\ p = [1; t]) \/ (E = [2; 3]%nat /\ p = [t; 1]).
Proof.
  intros Hk (tab & Et & En) Lp (w & Lw & Sw & Ew). injection Hk as ->. injection Et as <-. destruct p as [|a [|b [|? ?]]]; try discriminate Lp.
  assert (Le : length E = 2%nat). { do 4 (destruct e as [|e]; [injection En as <-; reflexivity|]). destruct e; discriminate En. }
  rewrite map_length, Le in Lw. destruct w as [|w0 [|w1 [|? ?]]]; try discriminate Lw. cbn [sumR fold_right] in Sw. exists w1.
  pose proof (Ew 0%nat ltac:(simpl; lia)) as X. pose proof (Ew 1%nat ltac:(simpl; lia)) as Y.
  destruct e as [|[|[|[|e]]]]; [..|destruct e; discriminate En]; injection En as <-; cbn in X, Y, Sw.
  - left. split; [reflexivity|]. f_equal; [lra|f_equal; lra].
  - right. left. split; [reflexivity|]. f_equal; [lra|f_equal; lra].
  - right. right. left. split; [reflexivity|]. f_equal; [lra|f_equal; lra].
  - right. right. right. split; [reflexivity|]. f_equal; [lra|f_equal; lra].
Qed.
Lemma bfs_conforming : conforming true (make_bfs quadrilateral 3) quadrilateral.
Proof.
  eapply (conforming_of true _ _ 2); [reflexivity|..]; try (reflexivity || lia); [simpl; lia|solve_scalar|solve_simple|].
  intros k e E cs p Hk HE Lc Z Lp Hp. destruct (quadrilateral_edges k e E p Hk HE Lp Hp) as (t & Cases); clear HE Hp Lp. simpl in Lc.
  do 16 (let c := fresh "c" in destruct cs as [|c cs]; [discriminate Lc|]). destruct cs; [|discriminate Lc]. clear Lc.
  destruct Cases as [[-> ->]|[[-> ->]|[[-> ->]|[-> ->]]]]; zero_equations Z; (split; [vanish_with t|each_symbol; vanish_with t]).
Qed.
