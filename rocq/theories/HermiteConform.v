(** Hermite elements on every simplex: values on the facets. *)
From Coquelicot Require Import Coquelicot.
From Coq Require Import String Reals ZArith Arith Bool Lia Lra List.
From Verif Require LinAlg CiarletModel CiarletProofs.
From Verif Require Import Base PolyLib PolySetsModel PolySetsProofs ReferencesModel ReferencesSpec ReferencesProofs ReferencesGeometry GeometryModel UnisolvenceProofs LagrangeProofs LagrangeKey BubbleProofs.
From Verif Require Import FunctionsModel FunctionsSpec FunctionalsModel FunctionalsSpec FunctionalsProofs FunctionalsValues MacroModel MacroUnisolvence NodalModel NodalSpec NodalProofs NodalElements HermiteProofs HermiteElements ConformProofs.
Import ListNotations.
Local Open Scope R_scope.

Lemma simplex_dim c : simplex c -> (1 <= tdim c <= 3)%nat.
Proof. intros [->|[->| ->]]; simpl; lia. Qed.
Lemma corner_length c v : simplex c -> In v (reference_vertices c) -> length v = tdim c.
Proof. intros [->|[->| ->]] H; simpl in H; intuition (subst; reflexivity). Qed.
Lemma axis_length d j : length (unit_vector d j) = d.
Proof. unfold unit_vector, unit_index, range. rewrite !map_length, seq_length. reflexivity. Qed.
Lemma placed_length c vs u : length (place c vs u) = tdim c.
Proof. unfold place. rewrite map_length. unfold range. apply seq_length. Qed.
Lemma axis_sum d u j e s : (d <= 3)%nat -> (j < d)%nat -> nth_error x_symbols j = Some s -> direction_sum (unit_vector d j) (x_point u) e = ev (x_point u) (ediff s e).
Proof.
  intros Hd Hj E. destruct d as [|[|[|[|n]]]]; try lia; destruct j as [|[|[|j]]]; try lia; injection E as <-;
    unfold direction_sum, unit_vector, unit_index, x_symbols; cbn [range seq map Nat.eqb combine fold_right fst snd INR]; ring.
Qed.

(** Degrees of freedom that vanish on the cell vanish for the function pulled back to the default cell. *)
Lemma pulled_zero c vs f g V0 M0 : simplex c -> points (nvert c) (tdim c) vs -> incl V0 (reference_vertices c) -> Forall (fun m => length m = tdim c) M0 ->
  scalar_in (tdim c) f -> scalar_in (tdim c) g -> (forall u, length u = tdim c -> ev (x_point u) g = ev (x_point (place c vs u)) f) ->
  Forall (fun d => read d f = 0) (hermite_list c (map (place c vs) V0) (map (place c vs) M0)) -> Forall (fun d => read d g = 0) (hermite_list c V0 M0).
Proof.
  intros Hc Hp HV Lm Sf Sg Ep Z. set (d := tdim c) in *.
  assert (Hd : (1 <= d <= 3)%nat) by apply simplex_dim, Hc.
  unfold hermite_list in *. apply Forall_app in Z. destruct Z as [Z1 Z2]. rewrite Forall_forall in Z1, Z2. apply Forall_app. split; apply Forall_forall; intros x Hx.
  - apply in_flat_map in Hx. destruct Hx as (v & Hv0 & Hx). pose proof (HV v Hv0) as Hv.
    assert (Z1' : forall y, In y (PointEvaluation (nums (place c vs v)) :: map (fun i => DerivativePointEvaluation (nums (place c vs v)) (unit_index (tdim c) i)) (range (tdim c))) -> read y f = 0).
    { intros y Hy. apply Z1. apply in_flat_map. exists (place c vs v). split; [apply in_map, Hv0|exact Hy]. }
    clear Z1 Z2. destruct Hx as [<-|Hx].
    + cbn [read]. rewrite number_nums. unfold value_point. rewrite Ep by (apply corner_length; assumption).
      specialize (Z1' _ (or_introl eq_refl)). cbn [read] in Z1'. rewrite number_nums in Z1'. exact Z1'.
    + apply in_map_iff in Hx. destruct Hx as (j & <- & Hj). unfold range in Hj. apply in_seq in Hj. assert (Hj' : (j < d)%nat) by (unfold d; lia).
      destruct (nth_error x_symbols j) as [s|] eqn:Es; [|apply nth_error_None in Es; cbn [x_symbols length] in Es; lia].
      cbn [read]. rewrite number_nums. change (tdim c) with d. rewrite (index_symbol d j s) by (try assumption; lia).
      unfold value_diffs. cbn [diffs fold_left]. rewrite <- (axis_sum d v j g s ltac:(lia) Hj' Es).
      rewrite (chain f g v (unit_vector d j) (place c vs v) (edge c vs j)).
      * apply (derivatives_zero d); [lia|unfold edge; rewrite map_length; unfold range; apply seq_length|]. intros s' Hs'. apply In_nth_error in Hs'. destruct Hs' as (i & Es').
        assert (Hi : (i < d)%nat) by (assert (X : nth_error (firstn d x_symbols) i <> None) by congruence; apply nth_error_Some in X; rewrite firstn_length in X; lia).
        assert (Es2 : nth_error x_symbols i = Some s') by (rewrite <- Es'; symmetry; clear -Hi Hd; destruct d as [|[|[|[|n]]]]; try lia; destruct i as [|[|[|i]]]; try lia; reflexivity). clear Es'. rename Es2 into Es'.
        specialize (Z1' (DerivativePointEvaluation (nums (place c vs v)) (unit_index d i))). cbn [read] in Z1'. rewrite number_nums in Z1'.
        rewrite (index_symbol d i s') in Z1' by (try assumption; lia). unfold value_diffs in Z1'. cbn [diffs fold_left] in Z1'. apply Z1'. right.
        apply (in_map (fun i => DerivativePointEvaluation (nums (place c vs v)) (unit_index (tdim c) i))). unfold range. apply in_seq. unfold d in Hi. lia.
      * rewrite (corner_length c v Hc Hv). exact Sg.
      * rewrite placed_length. exact Sf.
      * rewrite axis_length, (corner_length c v Hc Hv). reflexivity.
      * rewrite placed_length. unfold edge; rewrite map_length; unfold range; apply seq_length.
      * intros h. rewrite <- placed_along by assumption. apply Ep. unfold along. rewrite map_length, combine_length. rewrite axis_length, (corner_length c v Hc Hv). lia.
  - apply in_map_iff in Hx. destruct Hx as (v & <- & Hv). rewrite Forall_forall in Lm. cbn [read]. rewrite number_nums. unfold value_point. rewrite Ep by (apply Lm, Hv).
    assert (X : read (PointEvaluation (nums (place c vs v))) f = 0).
    { apply Z2. apply (in_map (fun m => PointEvaluation (nums m))). apply in_map, Hv. }
    cbn [read] in X. rewrite number_nums in X. exact X.
Qed.

(** * On the default cells *)
Definition facets_of (c : cell_type) : list (list nat) :=
  match c with CInterval => [[0]; [1]]%nat | CTriangle => [[1; 2]; [0; 2]; [0; 1]]%nat | CTetrahedron => [[1; 2; 3]; [0; 2; 3]; [0; 1; 3]; [0; 1; 2]]%nat | _ => [] end.
Definition select (E : list nat) (vs : list pt) : list pt := map (fun i => nth i vs []) E.
Definition facet_mids (c : cell_type) (E : list nat) (vs : list pt) : list pt := match c with CTetrahedron => [mid_of (select E vs)] | _ => [] end.

Ltac hermite_equations Z :=
  unfold hermite_list, facet_mids, select in Z; cbn [map nth flat_map app reference_vertices range seq tdim] in Z;
  repeat (apply Forall_cons_iff in Z; let E := fresh "E" in destruct Z as [E Z]; cbn -[IZR] in E; unfold value_point in E; cbn -[IZR] in E; ring_simplify in E); clear Z.
Ltac vanishes2 s t :=
  lazymatch goal with |- ?lhs = 0 => let G := eval pattern t in lhs in
    lazymatch G with ?g _ => change (g t = 0); revert t; apply (interp5 g); [ring_simplify; vanishes s..|intros t; cbv beta; field] end end.
Lemma default_facet c E ys u : simplex c -> In E (facets_of c) -> length ys = length (cubics c) -> length u = tdim c ->
  Forall (fun d => read d (function_row ys (map mono_expr (cubics c))) = 0) (hermite_list c (select E (reference_vertices c)) (facet_mids c E (reference_vertices c))) ->
  in_affine_hull (select E (reference_vertices c)) u -> ev (x_point u) (function_row ys (map mono_expr (cubics c))) = 0.
Proof.
  intros [->|[->| ->]] HE L Lu Z (w & Lw & Sw & Ew); cbn [facets_of In] in HE.
  - change (length ys = 4%nat) in L. destruct u as [|a [|? ?]]; try discriminate Lu. pose proof (Ew 0%nat ltac:(simpl; lia)) as X. clear Ew.
    do 4 (let c := fresh "c" in destruct ys as [|c ys]; [discriminate L|]). destruct ys; [|discriminate L]. clear L.
    destruct HE as [<-|[<-|[]]]; destruct w as [|w0 [|? ?]]; try discriminate Lw; clear Lw Lu; cbn in X, Sw.
    + replace a with 0 by lra. hermite_equations Z. cbn -[IZR]. lra.
    + replace a with 1 by lra. hermite_equations Z. cbn -[IZR]. lra.
  - change (length ys = 10%nat) in L. destruct u as [|a [|b [|? ?]]]; try discriminate Lu. pose proof (Ew 0%nat ltac:(simpl; lia)) as X. pose proof (Ew 1%nat ltac:(simpl; lia)) as Y. clear Ew.
    do 10 (let c := fresh "c" in destruct ys as [|c ys]; [discriminate L|]). destruct ys; [|discriminate L]. clear L.
    destruct HE as [<-|[<-|[<-|[]]]]; destruct w as [|w0 [|w1 [|? ?]]]; try discriminate Lw; clear Lw Lu; cbn in X, Y, Sw; rename w1 into t.
    + replace a with (1 - t) by lra. replace b with t by lra. clear X Y Sw. hermite_equations Z. vanish_with t.
    + replace a with 0 by lra. replace b with t by lra. clear X Y Sw. hermite_equations Z. vanish_with t.
    + replace a with t by lra. replace b with 0 by lra. clear X Y Sw. hermite_equations Z. vanish_with t.
  - change (length ys = 20%nat) in L. destruct u as [|a [|b [|b' [|? ?]]]]; try discriminate Lu. pose proof (Ew 0%nat ltac:(simpl; lia)) as X. pose proof (Ew 1%nat ltac:(simpl; lia)) as Y. pose proof (Ew 2%nat ltac:(simpl; lia)) as W. clear Ew.
    do 20 (let c := fresh "c" in destruct ys as [|c ys]; [discriminate L|]). destruct ys; [|discriminate L]. clear L.
    destruct HE as [<-|[<-|[<-|[<-|[]]]]]; destruct w as [|w0 [|s [|t [|? ?]]]]; try discriminate Lw; clear Lw Lu; cbn in X, Y, W, Sw.
    + replace a with (1 - s - t) by lra. replace b with s by lra. replace b' with t by lra. clear X Y W Sw. hermite_equations Z. cbn -[IZR]; ring_simplify; vanishes2 s t.
    + replace a with 0 by lra. replace b with s by lra. replace b' with t by lra. clear X Y W Sw. hermite_equations Z. cbn -[IZR]; ring_simplify; vanishes2 s t.
    + replace a with s by lra. replace b with 0 by lra. replace b' with t by lra. clear X Y W Sw. hermite_equations Z. cbn -[IZR]; ring_simplify; vanishes2 s t.
    + replace a with s by lra. replace b with t by lra. replace b' with 0 by lra. clear X Y W Sw. hermite_equations Z. cbn -[IZR]; ring_simplify; vanishes2 s t.
Qed.

(** * Every simplex *)
Lemma select_placed c vs E : simplex c -> points (nvert c) (tdim c) vs -> In E (facets_of c) ->
  incl (select E (reference_vertices c)) (reference_vertices c) /\ map (place c vs) (select E (reference_vertices c)) = select E vs /\
  Forall (fun m => length m = tdim c) (facet_mids c E (reference_vertices c)) /\ map (place c vs) (facet_mids c E (reference_vertices c)) = facet_mids c E vs.
Proof.
  intros [->|[->| ->]] Hp HE; unfold nvert, tdim in Hp; cbn [reference_vertices length] in Hp; split_points Hp; cbn [facets_of In] in HE;
    repeat (destruct HE as [<-|HE]); try contradiction; (split; [intros x Hx; cbn in Hx |- *; tauto|split; [placed_list|split; [repeat (apply Forall_cons; [reflexivity|]); apply Forall_nil|placed_list]]]).
Qed.
Lemma hull_placed c vs E p : simplex c -> points (nvert c) (tdim c) vs -> In E (facets_of c) -> length p = tdim c -> in_affine_hull (select E vs) p ->
  exists u, length u = tdim c /\ in_affine_hull (select E (reference_vertices c)) u /\ place c vs u = p.
Proof.
  intros Hc Hp HE Lp (w & Lw & Sw & Ew). unfold select in Lw. rewrite map_length in Lw.
  set (V := select E (reference_vertices c)). set (u := fun j => sumR (map (fun wv : R * list R => fst wv * nth j (snd wv) 0) (combine w V))).
  exists (map u (range (tdim c))). split; [rewrite map_length; unfold range; apply seq_length|]. split.
  - exists w. split; [unfold V, select; rewrite map_length; exact Lw|]. split; [exact Sw|]. intros j Hj. rewrite map_length in Hj. unfold range in Hj. rewrite seq_length in Hj.
    apply (CiarletProofs.nth_map_range u). exact Hj.
  - apply (nth_ext _ _ 0 0); [rewrite placed_length; congruence|]. intros j Hj. rewrite placed_length in Hj. rewrite (Ew j ltac:(congruence)). clear Ew Lp.
    unfold u, V. clear u V. destruct Hc as [->|[->| ->]]; unfold nvert, tdim in Hp; cbn [reference_vertices length] in Hp; split_points Hp; cbn [facets_of In] in HE; cbn [tdim] in Hj;
    repeat (destruct HE as [<-|HE]); try contradiction; cbn in Lw; try (exfalso; lia); repeat (destruct w as [|? w]; [cbn in Lw; try (exfalso; lia)|cbn in Lw; try (exfalso; lia)]); clear Lw; cbn in Sw;
    match type of Sw with ?r + ?q = _ => assert (Er : r = 1 - q) by lra; rewrite Er; clear Sw Er end;
    destruct j as [|[|[|j]]]; try lia; unfold place, param, whole, nvert, env_of, select; cbn; unfold co; cbn; ring.
Qed.

Lemma facet_dofs c vs r k e E dofs : simplex c -> points (nvert c) (tdim c) vs -> make_reference c vs = Ok r -> make_hermite r 3 = Ok (map mono_expr (cubics c), dofs) ->
  S k = tdim c -> has_vertices r k e E -> In E (facets_of c) /\ map fst (filter (closure_test r E) dofs) = hermite_list c (select E vs) (facet_mids c E vs).
Proof.
  intros [->|[->| ->]] Hp Hr Hm Hk (tab & Et & En); unfold nvert, tdim in Hp; cbn [reference_vertices length] in Hp; split_points Hp; injection Hr as <-; injection Hm as <-; cbn [tdim] in Hk; apply Nat.succ_inj in Hk; subst k; injection Et as <-;
    do 4 (try (destruct e as [|e]; [injection En as <-; split; [simpl; tauto|reflexivity]|])); destruct e; discriminate En.
Qed.
Theorem hermite_conforming c vs r : simplex c -> points (nvert c) (tdim c) vs -> map_det c vs <> 0 -> make_reference c vs = Ok r -> conforming false (make_hermite r 3) r.
Proof.
  intros Hc Hp HD Hr. destruct (hermite_closed c vs r Hc Hp Hr) as (dofs & E & F).
  assert (El : polynomial_set_1d (tdim c) 3 = Ok (cubics c)) by (destruct Hc as [->|[->| ->]]; reflexivity).
  assert (Hl : (0 < length (cubics c))%nat) by (clear -Hc; destruct Hc as [->|[->| ->]]; vm_compute; lia).
  assert (Sb : Forall (scalar_in (tdim c)) (map mono_expr (cubics c))) by (clear -Hc; destruct Hc as [->|[->| ->]]; solve_scalar).
  assert (Ht : tdim (r_type r) = tdim c /\ r_vertices r = vs) by (clear -Hc Hp Hr; destruct Hc as [->|[->| ->]]; unfold nvert, tdim in Hp; cbn [reference_vertices length] in Hp; split_points Hp; injection Hr as <-; split; reflexivity).
  destruct Ht as [Ht Hv].
  apply (conforming_of false _ _ (tdim c) _ _ E Ht); [apply simplex_dim, Hc|rewrite map_length; exact Hl|exact Sb|..].
  - rewrite F. apply hermite_simple; [apply Hp|]. rewrite <- (placed_mids c vs Hc Hp). apply Forall_forall. intros x Hx. apply in_map_iff in Hx. destruct Hx as (u & <- & _). apply placed_length.
  - intros k e E' cs p Hk HE Lc Z Lp Hp'. split; [|discriminate]. rewrite map_length in Lc. destruct (facet_dofs c vs r k e E' dofs Hc Hp Hr E Hk HE) as [HI HF]. rewrite HF in Z. rewrite Hv in Hp'.
    destruct (hull_placed c vs E' p Hc Hp HI Lp Hp') as (u & Lu & Hu & <-). destruct (select_placed c vs E' Hc Hp HI) as (I0 & I1 & I2 & I3).
    destruct (pull c vs r Hc Hp HD Hr 3 (cubics c) cs El Lc) as (ys & Ly & Ep & _). rewrite <- (Ep u Lu). apply (default_facet c E' ys u Hc HI Ly Lu); [|exact Hu].
    assert (Sr : forall zs, length zs = length (cubics c) -> scalar_in (tdim c) (function_row zs (map mono_expr (cubics c)))).
    { intros zs Lz. apply (row_reading (tdim c) _ _ (simple_reading (tdim c) (PointEvaluation (nums (repeat 0 (tdim c)))) ltac:(exists (repeat 0 (tdim c)); split; [reflexivity|apply repeat_length])) _ zs Sb); rewrite map_length; assumption. }
    apply (pulled_zero c vs (function_row cs (map mono_expr (cubics c)))); try assumption; [apply Sr, Lc|apply Sr, Ly|]. rewrite I1, I3. exact Z.
Qed.
