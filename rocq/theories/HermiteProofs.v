(** Hermite elements on every simplex. *)
From Coquelicot Require Import Coquelicot.
From Coq Require Import String Reals ZArith Arith Bool Lia Lra List.
From Verif Require LinAlg CiarletModel CiarletProofs.
From Verif Require Import Base PolyLib PolySetsModel PolySetsProofs ReferencesModel ReferencesSpec ReferencesProofs ReferencesGeometry GeometryModel UnisolvenceProofs LagrangeProofs LagrangeKey BubbleProofs.
From Verif Require Import FunctionsModel FunctionsSpec FunctionalsModel FunctionalsSpec FunctionalsProofs FunctionalsValues MacroModel MacroUnisolvence NodalModel NodalSpec NodalProofs NodalElements.
Import ListNotations.
Local Open Scope R_scope.

(** * Kernels by functions *)
Lemma kernel_rows dim n basis dofs : (0 < n)%nat -> length basis = n -> length dofs = n -> Forall (scalar_in dim) basis -> Forall (simple dim) dofs ->
  (forall cs, length cs = n -> Forall (fun d => read d (function_row cs basis) = 0) dofs -> Forall (fun c => c = 0) cs) <->
  trivial_left n (values_of (map read dofs) basis).
Proof.
  intros Hn Lb Ld Sb Sd.
  assert (V : forall cs k, length cs = n -> (k < n)%nat ->
    read (nth k dofs (PointEvaluation [])) (function_row cs basis) = LinAlg.sum n (fun i => nth i cs 0 * CiarletModel.entry (values_of (map read dofs) basis) i k)).
  { intros cs k L Hk. assert (Hs : simple dim (nth k dofs (PointEvaluation []))) by (rewrite Forall_forall in Sd; apply Sd, nth_In; lia).
    destruct (row_reading dim _ _ (simple_reading dim _ Hs) basis cs Sb ltac:(lia) ltac:(lia)) as [_ ->]. rewrite Lb. apply LinAlg.sum_ext. intros i Hi.
    rewrite entry_values by (rewrite ?map_length; lia). f_equal.
    rewrite (CiarletProofs.nth_map_lt read dofs k (PointEvaluation []) (fun _ => 0)) by lia. reflexivity. }
  split.
  - intros H x Hx p Hp. set (cs := map x (range n)). assert (L : length cs = n) by (unfold cs, range; rewrite map_length, seq_length; reflexivity).
    assert (N : forall i, (i < n)%nat -> nth i cs 0 = x i) by (intros i Hi; apply (CiarletProofs.nth_map_range x); exact Hi).
    rewrite <- (N p Hp). assert (F : Forall (fun c => c = 0) cs).
    { apply H; [exact L|]. apply Forall_forall. intros d Hd. apply (In_nth _ _ (PointEvaluation [])) in Hd. destruct Hd as (k & Hk & <-). rewrite Ld in Hk.
      rewrite V by assumption. etransitivity; [|exact (Hx k Hk)]. apply LinAlg.sum_ext. intros i Hi. rewrite N by exact Hi. reflexivity. }
    rewrite Forall_forall in F. apply F, nth_In. lia.
  - intros K cs L F. apply Forall_forall. intros c Hc. apply (In_nth _ _ 0) in Hc. destruct Hc as (p & Hp & <-).
    apply (K (fun i => nth i cs 0)); [|lia]. intros j Hj. rewrite <- (V cs j L Hj). rewrite Forall_forall in F. apply F, nth_In. lia.
Qed.

(** * Polynomials in sympy's form and as functions of the coordinates *)
Lemma mono_value m cs : length m = length cs -> (length cs <= 3)%nat -> ev (x_point cs) (mono_expr m) = meval m (env_of cs).
Proof.
  intros L H. destruct cs as [|a [|b [|c [|? ?]]]]; simpl in H; try lia;
    destruct m as [|i [|j [|k [|? ?]]]]; try discriminate L; reflexivity.
Qed.
Lemma row_lincomb l d cs u : Forall (fun m => length m = d) l -> (d <= 3)%nat -> length cs = length l -> (0 < length l)%nat -> length u = d ->
  ev (x_point u) (function_row cs (map mono_expr l)) = lincomb cs (map meval l) (env_of u).
Proof.
  intros F Hd L Hl Lu. rewrite row_value by (rewrite map_length; assumption). rewrite <- combination_sum by (rewrite map_length; assumption). unfold NodalSpec.combination.
  clear Hl. revert cs L. induction F as [|m l Hm _ IH]; intros [|c cs] L; try discriminate; [reflexivity|].
  cbn [map combine fold_right lincomb fst snd]. rewrite IH by (simpl in L; congruence). rewrite mono_value by lia. reflexivity.
Qed.

Section Pull.
Variables (c : cell_type) (vs : list pt) (r : reference).
Hypothesis (Hc : simplex c) (Hp : points (nvert c) (tdim c) vs) (HD : map_det c vs <> 0) (Hr : make_reference c vs = Ok r).
Let d := tdim c.
Definition place (u : list R) : list R := map (fun j => param vs (whole c) (env_of u) j) (range (tdim c)).

Lemma pull n l cs : polynomial_set_1d d n = Ok l -> length cs = length l ->
  exists ys, length ys = length l /\
    (forall u, length u = d -> ev (x_point u) (function_row ys (map mono_expr l)) = ev (x_point (place u)) (function_row cs (map mono_expr l))) /\
    (Forall (fun y => y = 0) ys -> Forall (fun x => x = 0) cs).
Proof.
  intros El L. assert (Hd : (1 <= d <= 3)%nat) by (unfold d; destruct Hc as [->|[->| ->]]; simpl; lia).
  destruct (polynomial_set_1d_ok d n Hd) as (l' & El' & (_ & Hin & Ind & Sp & Gen)). rewrite El in El'. injection El' as <-.
  assert (Lm : Forall (fun m => length m = d) l) by (apply Forall_forall; intros m Hm; apply Hin in Hm; apply Hm).
  assert (Hl : (0 < length l)%nat).
  { destruct (polynomial_set_1d_length d n l El) as [[_ X]|[[_ X]|[_ X]]]; destruct (length l); simpl in X; lia. }
  assert (Df : degree_space d n (lincomb cs (map meval l))).
  { assert (G : forall fs (cs : list R), Forall (degree_space d n) fs -> degree_space d n (lincomb cs fs)).
    { clear. induction fs as [|f fs IH]; intros [|c0 cs] F; try apply poly_space_zero. inversion F; subst. cbn [lincomb].
      apply (poly_space_add _ (fun v => c0 * f v) (lincomb cs fs)); [apply poly_space_scale; assumption|apply IH; assumption]. }
    apply G. apply Forall_forall. intros f Hf. exact (Sp f Hf). }
  pose proof (P_degree c vs r Hc Hp HD Hr n _ Df) as Dg.
  destruct (Gen _ Dg) as (ys & Ly & Eg). exists ys. rewrite map_length in Ly. split; [exact Ly|]. split.
  - intros u Lu. rewrite (row_lincomb l d) by (try assumption; lia). rewrite (row_lincomb l d); [|assumption|lia|assumption|assumption|unfold place; rewrite map_length; unfold range; apply seq_length].
    rewrite <- Eg. apply (degree_local d n _ _ _ Df). intros j Hj. unfold place, env_of.
    symmetry. apply (CiarletProofs.nth_map_range (fun j => param vs (whole c) (fun i => nth i u 0) j)). exact Hj.
  - intros Z. apply Ind; [rewrite map_length; exact L|]. apply (P_zero c vs Hc Hp HD n _ Df). intros w. rewrite Eg.
    clear -Z. revert ys Z. generalize (map meval l). induction l0 as [|f fs IH]; intros [|y ys] Z; try reflexivity. inversion Z; subst. cbn [lincomb]. rewrite IH by assumption. ring.
Qed.
End Pull.

Definition hermite_list (c : cell_type) (vs mids : list (list R)) : list functional :=
  flat_map (fun v => PointEvaluation (nums v) :: map (fun i => DerivativePointEvaluation (nums v) (unit_index (tdim c) i)) (range (tdim c))) vs ++
  map (fun m => PointEvaluation (nums m)) mids.

(** the derivative in the direction of an axis of the reference cell is one in the direction of an edge *)
Lemma chain f g cs ds cs' ds' : scalar_in (length cs) g -> scalar_in (length cs') f -> length ds = length cs -> length ds' = length cs' ->
  (forall h, ev (x_point (along cs ds h)) g = ev (x_point (along cs' ds' h)) f) ->
  direction_sum ds (x_point cs) g = direction_sum ds' (x_point cs') f.
Proof.
  intros [Pg Sg] [Pf Sf] L L' E. pose proof (directional_derivative_correct g cs ds Pg Sg L) as D. pose proof (directional_derivative_correct f cs' ds' Pf Sf L') as D'.
  rewrite <- (is_derive_unique _ _ _ D). rewrite <- (is_derive_unique _ _ _ D'). apply Derive_ext. exact E.
Qed.

(** a unit vector, and the edge it is mapped to *)
Definition unit_vector (d j : nat) : list R := map INR (unit_index d j).
Lemma index_symbol d j s : (d <= 3)%nat -> (j < d)%nat -> nth_error x_symbols j = Some s -> multi_index (unit_index d j) = [s].
Proof.
  intros Hd Hj E. destruct d as [|[|[|[|d]]]]; try lia; destruct j as [|[|[|j]]]; try lia; injection E as <-; reflexivity.
Qed.

Section Kernel.
Variables (c : cell_type) (vs : list pt) (r : reference).
Hypothesis (Hc : simplex c) (Hp : points (nvert c) (tdim c) vs) (HD : map_det c vs <> 0) (Hr : make_reference c vs = Ok r).
Let d := tdim c.
Variables (l : list mono) (mids0 mids : list (list R)).
Hypothesis (El : polynomial_set_1d d 3 = Ok l).
Hypothesis (Ll : length (hermite_list c vs mids) = length l).
Let basis := map mono_expr l.
Hypothesis (E0 : map (place c vs) (reference_vertices c) = vs) (Em : map (place c vs) mids0 = mids).
Hypothesis (Lm : Forall (fun m => length m = d) mids0).
Hypothesis (Eh : forall v j h, In v (reference_vertices c) -> (j < d)%nat ->
   exists A, length A = d /\ place c vs (along v (unit_vector d j) h) = along (place c vs v) A h /\ forall h', place c vs (along v (unit_vector d j) h') = along (place c vs v) A h').

Lemma dim_small : (1 <= d <= 3)%nat.
Proof. unfold d. destruct Hc as [->|[->| ->]]; simpl; lia. Qed.
Lemma basis_scalar : Forall (scalar_in d) basis.
Proof.
  destruct (polynomial_set_1d_ok d 3 dim_small) as (l' & El' & (_ & Hin & _)). rewrite El in El'. injection El' as <-.
  apply Forall_forall. intros e He. apply in_map_iff in He. destruct He as (m & <- & Hm). apply mono_scalar. apply Hin in Hm. apply Hm.
Qed.
Lemma vertex_length v : In v (reference_vertices c) -> length v = d.
Proof. intros H. unfold d. destruct Hc as [->|[->| ->]]; simpl in H; intuition (subst; reflexivity). Qed.
Lemma unit_length j : length (unit_vector d j) = d.
Proof. unfold unit_vector, unit_index, range. rewrite !map_length, seq_length. reflexivity. Qed.
Lemma place_length u : length (place c vs u) = d.
Proof. unfold place. rewrite map_length. unfold range. apply seq_length. Qed.
Lemma basis_nonempty : (0 < length l)%nat.
Proof. destruct (polynomial_set_1d_length d 3 l El) as [[_ X]|[[_ X]|[_ X]]]; destruct (length l); simpl in X; lia. Qed.

Lemma unit_sum u j e s : (j < d)%nat -> nth_error x_symbols j = Some s -> direction_sum (unit_vector d j) (x_point u) e = ev (x_point u) (ediff s e).
Proof.
  intros Hj E. pose proof dim_small as Hd. clearbody d. destruct d as [|[|[|[|n]]]]; try lia; destruct j as [|[|[|j]]]; try lia; injection E as <-;
    unfold direction_sum, unit_vector, unit_index, x_symbols; cbn [range seq map Nat.eqb combine fold_right fst snd INR]; ring.
Qed.
Lemma sum_zero A q e : length A = d -> (forall j s, (j < d)%nat -> nth_error x_symbols j = Some s -> ev q (ediff s e) = 0) -> direction_sum A q e = 0.
Proof.
  intros LA H. pose proof dim_small as Hd. clearbody d. unfold direction_sum, x_symbols.
  destruct d as [|[|[|[|n]]]]; try lia; destruct A as [|a0 [|a1 [|a2 [|? ?]]]]; try discriminate LA; cbn [combine map fold_right fst snd];
    rewrite ?(H 0%nat "x"%string), ?(H 1%nat "y"%string), ?(H 2%nat "z"%string) by (try lia; reflexivity); ring.
Qed.

Lemma hermite_simple vs' mids' : Forall (fun v => length v = d) vs' -> Forall (fun v => length v = d) mids' -> Forall (simple d) (hermite_list c vs' mids').
Proof.
  intros F1 F2. unfold hermite_list. apply Forall_app. split.
  - apply Forall_forall. intros x Hx. apply in_flat_map in Hx. destruct Hx as (v & Hv & Hx). rewrite Forall_forall in F1. pose proof (F1 v Hv) as L.
    destruct Hx as [<-|Hx]; [exists v; auto|]. apply in_map_iff in Hx. destruct Hx as (i & <- & _). exists v; auto.
  - apply Forall_forall. intros x Hx. apply in_map_iff in Hx. destruct Hx as (v & <- & Hv). rewrite Forall_forall in F2. exists v. auto.
Qed.

Lemma hermite_kernel : trivial_left (length l) (values_of (map read (hermite_list c (reference_vertices c) mids0)) basis) ->
  trivial_left (length l) (values_of (map read (hermite_list c vs mids)) basis).
Proof.
  intros K. pose proof basis_nonempty as Hl. assert (Lb : length basis = length l) by apply map_length. pose proof basis_scalar as Sb.
  assert (Fv : Forall (fun v => length v = d) vs) by apply Hp.
  assert (Fm : Forall (fun v => length v = d) mids) by (rewrite <- Em; apply Forall_forall; intros x Hx; apply in_map_iff in Hx; destruct Hx as (u & <- & _); apply place_length).
  assert (Fr : Forall (fun v => length v = d) (reference_vertices c)) by (apply Forall_forall; apply vertex_length).
  assert (L0 : length (hermite_list c (reference_vertices c) mids0) = length l).
  { rewrite <- Ll. unfold hermite_list. rewrite !app_length, !map_length. f_equal; [|rewrite <- Em, map_length; reflexivity].
    assert (G : forall l1 l2 : list (list R), length l1 = length l2 ->
      length (flat_map (fun v => PointEvaluation (nums v) :: map (fun i => DerivativePointEvaluation (nums v) (unit_index (tdim c) i)) (range (tdim c))) l1) =
      length (flat_map (fun v => PointEvaluation (nums v) :: map (fun i => DerivativePointEvaluation (nums v) (unit_index (tdim c) i)) (range (tdim c))) l2)).
    { induction l1 as [|a l1 IH]; intros [|b l2] L; try discriminate; [reflexivity|]. cbn [flat_map]. rewrite !app_length. cbn [length]. rewrite !map_length. f_equal. apply IH. simpl in L. congruence. }
    apply G. pose proof (f_equal (@length _) E0) as X. rewrite map_length in X. exact X. }
  apply (kernel_rows d); try assumption; [apply hermite_simple; assumption|].
  assert (K' := proj2 (kernel_rows d _ _ (hermite_list c (reference_vertices c) mids0) Hl Lb L0 Sb (hermite_simple _ _ Fr Lm)) K). clear K. rename K' into K. intros cs Lc Z.
  destruct (pull c vs r Hc Hp HD Hr 3 l cs El Lc) as (ys & Ly & Ep & Back). apply Back. apply K; [exact Ly|].
  set (f := function_row cs basis) in *. set (g := function_row ys basis) in *.
  assert (Sf : scalar_in d f) by (apply (row_reading d _ _ (simple_reading d (PointEvaluation (nums (repeat 0 d))) ltac:(exists (repeat 0 d); split; [reflexivity|apply repeat_length])) basis cs Sb); lia).
  assert (Sg : scalar_in d g) by (apply (row_reading d _ _ (simple_reading d (PointEvaluation (nums (repeat 0 d))) ltac:(exists (repeat 0 d); split; [reflexivity|apply repeat_length])) basis ys Sb); lia).
  unfold hermite_list in *. apply Forall_app in Z. destruct Z as [Z1 Z2]. rewrite Forall_forall in Z1, Z2. apply Forall_app. split; apply Forall_forall; intros x Hx.
  - apply in_flat_map in Hx. destruct Hx as (v & Hv & Hx).
    assert (Hpv : In (place c vs v) vs) by (pose proof (in_map (place c vs) _ _ Hv) as X; rewrite E0 in X; exact X).
    assert (Z1' : forall y, In y (PointEvaluation (nums (place c vs v)) :: map (fun i => DerivativePointEvaluation (nums (place c vs v)) (unit_index (tdim c) i)) (range (tdim c))) -> read y f = 0).
    { intros y Hy. apply Z1. apply in_flat_map. exists (place c vs v). split; assumption. }
    clear Z1 Z2. destruct Hx as [<-|Hx].
    + cbn [read]. rewrite number_nums. unfold value_point. unfold g, basis. rewrite Ep by (apply vertex_length, Hv).
      specialize (Z1' _ (or_introl eq_refl)). cbn [read] in Z1'. rewrite number_nums in Z1'. exact Z1'.
    + apply in_map_iff in Hx. destruct Hx as (j & <- & Hj). unfold range in Hj. apply in_seq in Hj. assert (Hj' : (j < d)%nat) by (unfold d; lia).
      pose proof dim_small as Hd. destruct (nth_error x_symbols j) as [s|] eqn:Es; [|apply nth_error_None in Es; cbn [x_symbols length] in Es; lia].
      cbn [read]. rewrite number_nums. change (tdim c) with d. rewrite (index_symbol d j s) by (try assumption; lia).
      unfold value_diffs. cbn [diffs fold_left]. rewrite <- (unit_sum v j g s Hj' Es).
      destruct (Eh v j 0 Hv Hj') as (A & LA & _ & Eh').
      rewrite (chain f g v (unit_vector d j) (place c vs v) A).
      * apply sum_zero; [exact LA|]. intros i s' Hi Es'.
        specialize (Z1' (DerivativePointEvaluation (nums (place c vs v)) (unit_index d i))). cbn [read] in Z1'. rewrite number_nums in Z1'.
        rewrite (index_symbol d i s') in Z1' by (try assumption; lia). unfold value_diffs in Z1'. cbn [diffs fold_left] in Z1'. apply Z1'. right.
        apply (in_map (fun i => DerivativePointEvaluation (nums (place c vs v)) (unit_index (tdim c) i))). unfold range. apply in_seq. unfold d in Hi. lia.
      * rewrite vertex_length by exact Hv. exact Sg.
      * rewrite place_length. exact Sf.
      * rewrite unit_length, vertex_length by exact Hv. reflexivity.
      * rewrite place_length. exact LA.
      * intros h. rewrite <- Eh'. unfold g, basis. apply Ep. unfold along. rewrite map_length, combine_length, unit_length, vertex_length by exact Hv. lia.
  - apply in_map_iff in Hx. destruct Hx as (v & <- & Hv). rewrite Forall_forall in Lm. cbn [read]. rewrite number_nums. unfold value_point, g, basis. rewrite Ep by (apply Lm, Hv).
    assert (X : read (PointEvaluation (nums (place c vs v))) f = 0).
    { apply Z2. apply (in_map (fun m => PointEvaluation (nums m))). pose proof (in_map (place c vs) _ _ Hv) as X. rewrite Em in X. exact X. }
    cbn [read] in X. rewrite number_nums in X. exact X.
Qed.
End Kernel.
