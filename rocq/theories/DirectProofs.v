(** The direct serendipity element: number, independence and span of the functions. *)
From Coquelicot Require Import Coquelicot.
From Coq Require Import String Arith Bool ZArith Reals Lia Lra List.
From Verif Require Import Base PolyLib PolySetsModel PolySetsProofs PolyVec ReferencesModel ReferencesSpec LinAlg UnisolvenceProofs LagrangeKey LagrangeUnisolvence
  MomentsInt PointsModel PointsSpec PropertiesPoints DirectModel DirectSpec.
Import PolyVec ListNotations.
Local Open Scope R_scope.

(** * Combinations *)
Definition comb (fs : list (point -> R)) (a : nat -> R) (v : point) : R := sum (length fs) (fun i => a i * nth i fs (fun _ => 0) v).
Lemma direct_comb e a v : direct_combination e a v = comb (map fst e) a v.
Proof.
  unfold direct_combination, comb. rewrite map_length. apply sum_ext. intros i Hi. f_equal.
  change (fun _ : point => 0) with (fst ((fun _ : point => 0), (0, 0)%nat)) at 2. rewrite map_nth. reflexivity.
Qed.
Lemma comb_app l1 l2 a v : comb (l1 ++ l2) a v = comb l1 a v + comb l2 (fun i => a (length l1 + i)%nat) v.
Proof.
  unfold comb. rewrite app_length, sum_split. f_equal; apply sum_ext; intros i Hi; f_equal; [rewrite app_nth1 by exact Hi; reflexivity|].
  rewrite app_nth2 by lia. replace (length l1 + i - length l1)%nat with i by lia. reflexivity.
Qed.
Lemma nth_map_range {A} (g : nat -> A) m i d : (i < m)%nat -> nth i (map g (range m)) d = g i.
Proof. intros H. rewrite (nth_indep _ d (g 0%nat)) by (rewrite map_length, length_range; exact H). rewrite map_nth. unfold range. rewrite seq_nth by exact H. reflexivity. Qed.
Lemma comb_map (g : nat -> point -> R) m a v : comb (map g (range m)) a v = sum m (fun i => a i * g i v).
Proof. unfold comb. rewrite map_length, length_range. apply sum_ext. intros i Hi. rewrite (nth_map_range (A := point -> R)) by exact Hi. reflexivity. Qed.
Lemma comb_zero fs a v : (forall f, In f fs -> f v = 0) -> comb fs a v = 0.
Proof. intros H. apply sum_zero. intros i Hi. rewrite (H (nth i fs (fun _ => 0))) by (apply nth_In, Hi). ring. Qed.

(** * The functions *)
Definition edge_fns (n k l : nat) : list (point -> R) :=
  map (fun j v => (1 - v k) * v k * ds_lambda (v k) ^ j) (range (n - 1)) ++
  map (fun j v => (1 - v k) * v k * ds_mixed (v l) * ds_lambda (v k) ^ j) (range (n - 2)) ++
  [fun v => (1 - v k) * v k * ds_r (v l) * ds_lambda (v k) ^ (n - 2)].
Definition corner_fns : list (point -> R) := map fst ds_vertices.
Definition inner_fns (phi : list component_fn) : list (point -> R) := map (fun f v => f (0%nat, v) * v 0%nat * v 1%nat * (1 - v 0%nat) * (1 - v 1%nat)) phi.
Definition edges_if (n : nat) : list (point -> R) := if (2 <=? n)%nat then edge_fns n 1 0 ++ edge_fns n 0 1 else [].
Lemma edge_fns_eq n k l near far : map fst (ds_edges n k l near far) = edge_fns n k l.
Proof. unfold ds_edges, edge_fns. rewrite !map_app, !map_map. reflexivity. Qed.
Lemma edge_fns_length n k l : (2 <= n)%nat -> length (edge_fns n k l) = (2 * (n - 1))%nat.
Proof. intros H. unfold edge_fns. rewrite !app_length, !map_length, !length_range. cbn [length]. lia. Qed.

(** the functions of DPC of order 4 *)
Lemma dpc4 : exists phi, rbind (make_dpc (default CQuadrilateral) 4 "equispaced") element_basis = Ok phi /\ length phi = 15%nat /\
  (forall g, In g phi -> P_space 2 4 (fun v => g (0%nat, v))) /\
  (forall q, P_space 2 4 q -> exists a, forall v, q v = sum 15 (fun i => a i * nth i phi (fun _ => 0) (0%nat, v))) /\
  (forall a, (forall v, sum 15 (fun i => a i * nth i phi (fun _ => 0) (0%nat, v)) = 0) -> forall i, (i < 15)%nat -> a i = 0).
Proof.
  destruct (C76_dpc CQuadrilateral 4 "equispaced" (or_introl eq_refl)) as [(poly & dofs & phi & E & B & Ld & Lp & D & W & S) _].
  change (P_dim (tdim CQuadrilateral) 4) with 15%nat in *. change (tdim CQuadrilateral) with 2%nat in *.
  exists phi. split; [rewrite E; exact B|]. split; [exact Lp|]. split; [intros g Hg; apply (W g Hg); lia|]. split.
  - intros q Hq. assert (F : fields 1 (P_space 2 4) (fun x => match fst x with O => q (snd x) | _ => 0 end)).
    { split; cbn [fst snd]; [intros c Hc; assert (c = 0%nat) by lia; subst c; exact Hq|]. intros [|c] v Hc; [lia|reflexivity]. }
    eexists. intros v. exact (S _ F (0%nat, v)).
  - intros a H i Hi.
    assert (Z : forall x, sum 15 (fun j => a j * nth j phi (fun _ => 0) x) = 0).
    { intros [[|c] v]; [apply H|]. apply sum_zero. intros j Hj. assert (In (nth j phi (fun _ => 0)) phi) by (apply nth_In; rewrite Lp; exact Hj). destruct (W _ H0) as [_ Z]. rewrite Z by lia. ring. }
    destruct (nth_error dofs i) as [d|] eqn:Ed; [|apply nth_error_None in Ed; lia].
    assert (V : dof_value d (fun x => sum 15 (fun j => a j * nth j phi (fun _ => 0) x)) = 0).
    { destruct d as [[p u] ke]. cbn [dof_value]. apply sum_zero. intros c Hc. rewrite Z. ring. }
    assert (V' : dof_value d (fun x => sum 15 (fun j => a j * nth j phi (fun _ => 0) x)) = sum 15 (fun j => a j * dof_value d (nth j phi (fun _ => 0)))).
    { destruct d as [[p u] ke]. cbn [dof_value]. rewrite (sum_ext (length u) _ (fun c => sum 15 (fun j => a j * (nth c u 0 * nth j phi (fun _ => 0) (c, fun i => nth i p 0))))).
      - rewrite sum_swap. apply sum_ext. intros j Hj. rewrite sum_scal. reflexivity.
      - intros c Hc. rewrite <- sum_scal. apply sum_ext. intros j Hj. ring. }
    rewrite V, (sum_single 15 _ i Hi) in V'.
    + destruct (nth_error phi i) as [g|] eqn:Eg; [|apply nth_error_None in Eg; lia]. rewrite (nth_error_nth _ _ _ Eg), (D i i d g Ed Eg), Nat.eqb_refl in V'. lra.
    + intros j Hj Hne. destruct (nth_error phi j) as [g|] eqn:Eg; [|apply nth_error_None in Eg; lia]. rewrite (nth_error_nth _ _ _ Eg), (D i j d g Ed Eg). destruct (Nat.eqb_spec i j); [congruence|ring].
Qed.
Lemma direct_made n : exists e phi, make_direct_serendipity (default CQuadrilateral) n = Ok e /\
  map fst e = corner_fns ++ edges_if n ++ (if (4 <=? n)%nat then inner_fns phi else []) /\
  e = ds_vertices ++ (if (2 <=? n)%nat then ds_edges n 1 0 (1, 1)%nat (1, 2)%nat ++ ds_edges n 0 1 (1, 0)%nat (1, 3)%nat else []) ++ (if (4 <=? n)%nat then map (fun f : component_fn => ((fun v => f (0%nat, v) * v 0%nat * v 1%nat * (1 - v 0%nat) * (1 - v 1%nat)), (2, 0)%nat)) phi else []) /\
  length phi = 15%nat /\ (forall g, In g phi -> P_space 2 4 (fun v => g (0%nat, v))) /\
  (forall q, P_space 2 4 q -> exists a, forall v, q v = sum 15 (fun i => a i * nth i phi (fun _ => 0) (0%nat, v))) /\
  (forall a, (forall v, sum 15 (fun i => a i * nth i phi (fun _ => 0) (0%nat, v)) = 0) -> forall i, (i < 15)%nat -> a i = 0).
Proof.
  destruct dpc4 as (phi & E & L & W & S & I). eexists _, phi. split; [|split; [|split; [reflexivity|repeat split; assumption]]].
  - unfold make_direct_serendipity. cbv zeta. rewrite E. destruct (4 <=? n)%nat; cbn [rmap rbind]; reflexivity.
  - rewrite !map_app. f_equal. f_equal.
    + unfold edges_if. destruct (2 <=? n)%nat; [|reflexivity]. rewrite map_app, !edge_fns_eq. reflexivity.
    + destruct (4 <=? n)%nat; [|reflexivity]. rewrite map_map. reflexivity.
Qed.
Definition direct_dim (n : nat) : nat := (4 * n + (if (4 <=? n)%nat then 15 else 0))%nat.
Lemma direct_length n e : (1 <= n)%nat -> make_direct_serendipity (default CQuadrilateral) n = Ok e -> length e = direct_dim n.
Proof.
  intros Hn He. destruct (direct_made n) as (e' & phi & E & M & _ & L & _). rewrite He in E. injection E as ->. rewrite <- (map_length fst), M, !app_length. unfold edges_if, direct_dim, inner_fns.
  change (length corner_fns) with 4%nat. destruct (Nat.leb_spec 2 n).
  - rewrite app_length, !edge_fns_length by exact H. destruct (4 <=? n)%nat; [replace (length (map _ phi)) with 15%nat by (rewrite map_length; symmetry; exact L)|]; cbn [length]; lia.
  - assert (n = 1%nat) by lia. subst n. reflexivity.
Qed.

(** * Independence *)
Lemma power_sum_zero m (c : nat -> R) : (forall t, 0 < t < 1 -> sum m (fun j => c j * ds_lambda t ^ j) = 0) -> forall j, (j < m)%nat -> c j = 0.
Proof.
  intros H. assert (G : forall v : point, sum m (fun j => c j * (2 + v 0%nat) ^ j) = 0).
  { apply (simplex_inside_zero 1 (m * 1) (fun v => sum m (fun j => c j * (2 + v 0%nat) ^ j)) ltac:(lia)).
    - clear H. induction m as [|m IH]; [apply poly_space_zero|]. cbn [sum]. apply (poly_space_add _ (fun v => sum m (fun j => c j * (2 + v 0%nat) ^ j)) (fun v => c m * (2 + v 0%nat) ^ m)).
      + apply (degree_weaken 1 (m * 1)); [lia|exact IH].
      + apply (poly_space_scale _ (c m) (fun v => (2 + v 0%nat) ^ m)). apply (degree_weaken 1 (m * 1)); [lia|]. apply (degree_pow 1 1 (fun v => 2 + v 0%nat)). apply (poly_space_add _ (fun _ => 2) (fun v => v 0%nat)); [apply degree_const|apply degree_var; lia].
    - intros e He. cbn in He. specialize (H (e 0%nat)). rewrite <- (H ltac:(lra)). apply sum_ext. intros j _. f_equal. f_equal. unfold ds_lambda. ring. }
  intros j Hj. set (p := map (fun j => (c j, j)) (range m)).
  assert (Z : ucoef p j = 0).
  { apply univariate_identity. intros t. specialize (G (fun _ => t - 2)). cbv beta in G. rewrite <- G. unfold p, range.
    assert (Q : forall a k, ueval (map (fun j => (c j, j)) (seq a k)) t = sum k (fun i => c (a + i)%nat * t ^ (a + i))).
    { intros a k. revert a. induction k as [|k IH]; intros a; [reflexivity|]. cbn [seq map]. unfold ueval in *. cbn [fold_right fst snd]. rewrite IH, sum_S, Nat.add_0_r. f_equal. apply sum_ext. intros i _. replace (S a + i)%nat with (a + S i)%nat by lia. reflexivity. }
    rewrite Q. apply sum_ext. intros i _. replace (2 + (t - 2)) with t by ring. reflexivity. }
  unfold p in Z. assert (Q : forall a k, ucoef (map (fun j => (c j, j)) (seq a k)) j = if ((a <=? j) && (j <? a + k))%nat then c j else 0).
  { intros a k. revert a. induction k as [|k IH]; intros a.
    - rewrite Nat.add_0_r. destruct (Nat.leb_spec a j), (Nat.ltb_spec j a); try lia; reflexivity.
    - cbn [seq map]. unfold ucoef in *. cbn [fold_right fst snd]. rewrite IH. destruct (Nat.eq_dec a j) as [->|N].
      + rewrite (proj2 (Nat.leb_gt (S j) j)) by lia. rewrite Nat.leb_refl, (proj2 (Nat.ltb_lt j (j + S k))) by lia. cbn [andb]. ring.
      + destruct (Nat.leb_spec (S a) j), (Nat.leb_spec a j), (Nat.ltb_spec j (S a + k)), (Nat.ltb_spec j (a + S k)); try lia; cbn [andb]; ring. }
  unfold range in Z. rewrite Q in Z. cbn [Nat.leb Nat.add] in Z. rewrite (proj2 (Nat.ltb_lt _ _) Hj) in Z. cbn in Z. exact Z.
Qed.
Lemma ds_r0 : ds_r 0 = 0. Proof. unfold ds_r. lra. Qed.
Lemma ds_r1 : ds_r 1 = -2. Proof. unfold ds_r. lra. Qed.
Lemma edge_comb n k l a v : (2 <= n)%nat -> comb (edge_fns n k l) a v =
  (1 - v k) * v k * (sum (n - 1) (fun j => a j * ds_lambda (v k) ^ j) + ds_mixed (v l) * sum (n - 2) (fun j => a (n - 1 + j)%nat * ds_lambda (v k) ^ j) + ds_r (v l) * (a (n - 1 + (n - 2))%nat * ds_lambda (v k) ^ (n - 2))).
Proof.
  intros Hn. unfold edge_fns. rewrite !comb_app, (comb_map (fun j v => (1 - v k) * v k * ds_lambda (v k) ^ j)), (comb_map (fun j v => (1 - v k) * v k * ds_mixed (v l) * ds_lambda (v k) ^ j)). rewrite !map_length, !length_range.
  rewrite (sum_ext (n - 1) _ (fun j => (1 - v k) * v k * (a j * ds_lambda (v k) ^ j))) by (intros; ring). rewrite sum_scal.
  rewrite (sum_ext (n - 2) _ (fun j => (1 - v k) * v k * ds_mixed (v l) * (a (n - 1 + j)%nat * ds_lambda (v k) ^ j))) by (intros; ring). rewrite sum_scal.
  unfold comb. cbn [length sum nth]. rewrite Nat.add_0_r. ring.
Qed.
(** edge functions whose combination vanishes on two opposite edges *)
Lemma edge_independent n k l a : (2 <= n)%nat -> k <> l -> (forall v, 0 < v k < 1 -> v l = 0 \/ v l = 1 -> comb (edge_fns n k l) a v = 0) -> forall j, (j < 2 * (n - 1))%nat -> a j = 0.
Proof.
  intros Hn Hkl H. set (b := fun j => if (j <? n - 2)%nat then a (n - 1 + j)%nat else -2 * a (n - 1 + (n - 2))%nat * -1).
  assert (P : forall t s, exists v : point, v k = t /\ v l = s) by (intros t s; exists (fun i => if (i =? k)%nat then t else s); rewrite Nat.eqb_refl, (proj2 (Nat.eqb_neq l k)) by congruence; auto).
  assert (Z : forall t, 0 < t < 1 -> sum (n - 1) (fun j => a j * ds_lambda t ^ j) + 2 * sum (n - 2) (fun j => a (n - 1 + j)%nat * ds_lambda t ^ j) = 0).
  { intros t Ht. destruct (P t 0) as (v & Ek & El). specialize (H v ltac:(rewrite Ek; exact Ht) (or_introl El)). rewrite edge_comb, Ek, El, ds_r0 in H by exact Hn. unfold ds_mixed in H. apply Rmult_integral in H. destruct H as [H|H]; [|lra].
    apply Rmult_integral in H. lra. }
  assert (O : forall t, 0 < t < 1 -> sum (n - 1) (fun j => a j * ds_lambda t ^ j) + sum (n - 2) (fun j => a (n - 1 + j)%nat * ds_lambda t ^ j) - 2 * (a (n - 1 + (n - 2))%nat * ds_lambda t ^ (n - 2)) = 0).
  { intros t Ht. destruct (P t 1) as (v & Ek & El). specialize (H v ltac:(rewrite Ek; exact Ht) (or_intror El)). rewrite edge_comb, Ek, El, ds_r1 in H by exact Hn. unfold ds_mixed in H. apply Rmult_integral in H. destruct H as [H|H]; [|lra].
    apply Rmult_integral in H. lra. }
  assert (B : forall j, (j < n - 1)%nat -> b j = 0).
  { apply power_sum_zero. intros t Ht. replace (n - 1)%nat with (S (n - 2)) by lia. cbn [sum]. unfold b at 2. rewrite Nat.ltb_irrefl.
    rewrite (sum_ext (n - 2) _ (fun j => a (n - 1 + j)%nat * ds_lambda t ^ j)) by (intros j Hj; unfold b; rewrite (proj2 (Nat.ltb_lt _ _) Hj); reflexivity).
    specialize (Z t Ht). specialize (O t Ht). lra. }
  assert (L : forall j, (j < n - 2)%nat -> a (n - 1 + j)%nat = 0) by (intros j Hj; specialize (B j ltac:(lia)); unfold b in B; rewrite (proj2 (Nat.ltb_lt _ _) Hj) in B; exact B).
  assert (R2 : a (n - 1 + (n - 2))%nat = 0) by (specialize (B (n - 2)%nat ltac:(lia)); unfold b in B; rewrite Nat.ltb_irrefl in B; lra).
  assert (A : forall j, (j < n - 1)%nat -> a j = 0).
  { apply power_sum_zero. intros t Ht. specialize (Z t Ht). rewrite (sum_zero (n - 2)) in Z; [lra|]. intros j Hj. rewrite (L j Hj). ring. }
  intros j Hj. destruct (Nat.lt_ge_cases j (n - 1)) as [|G]; [apply A; assumption|]. replace j with (n - 1 + (j - (n - 1)))%nat by lia. destruct (Nat.lt_ge_cases (j - (n - 1)) (n - 2)) as [|G']; [apply L; assumption|].
  replace (j - (n - 1))%nat with (n - 2)%nat by lia. exact R2.
Qed.
Lemma inner_zero phi a v : (v 0%nat = 0 \/ v 0%nat = 1 \/ v 1%nat = 0 \/ v 1%nat = 1) -> comb (inner_fns phi) a v = 0.
Proof. intros H. apply comb_zero. intros f Hf. apply in_map_iff in Hf. destruct Hf as (g & <- & _). destruct H as [H|[H|[H|H]]]; rewrite H; ring. Qed.
Lemma edge_ends n k l a v : (v k = 0 \/ v k = 1) -> comb (edge_fns n k l) a v = 0.
Proof.
  intros H. apply comb_zero. intros f Hf. assert (E : (1 - v k) * v k = 0) by (destruct H as [-> | ->]; ring).
  apply in_app_or in Hf. destruct Hf as [Hf|Hf]; [|apply in_app_or in Hf; destruct Hf as [Hf|[<-|[]]]]; try (apply in_map_iff in Hf; destruct Hf as (j & <- & _)); rewrite E; ring.
Qed.
Lemma corner_comb a v : comb corner_fns a v = a 0%nat * ((1 - v 1%nat) * (1 - v 0%nat)) + a 1%nat * ((1 - v 1%nat) * v 0%nat) + a 2%nat * (v 1%nat * (1 - v 0%nat)) + a 3%nat * (v 1%nat * v 0%nat).
Proof. unfold comb, corner_fns. cbn. ring. Qed.
Lemma inner_comb phi a v : length phi = 15%nat -> comb (inner_fns phi) a v = v 0%nat * v 1%nat * (1 - v 0%nat) * (1 - v 1%nat) * sum 15 (fun i => a i * nth i phi (fun _ => 0) (0%nat, v)).
Proof.
  intros L. unfold comb. replace (length (inner_fns phi)) with 15%nat by (unfold inner_fns; rewrite map_length; symmetry; exact L). rewrite <- sum_scal. unfold inner_fns. apply sum_ext. intros i Hi.
  pose (G := fun (f : component_fn) (v : point) => f (0%nat, v) * v 0%nat * v 1%nat * (1 - v 0%nat) * (1 - v 1%nat)).
  assert (N : nth i (map G phi) (fun _ => 0) = G (nth i phi (fun _ => 0))).
  { rewrite (nth_indep _ _ (G (fun _ => 0))) by (rewrite map_length; change (i < length phi)%nat; rewrite L; exact Hi). apply (map_nth G). }
  fold G. change (a i * nth i (map G phi) (fun _ => 0) v = v 0%nat * v 1%nat * (1 - v 0%nat) * (1 - v 1%nat) * (a i * nth i phi (fun _ => 0) (0%nat, v))). rewrite N. unfold G. ring.
Qed.
Lemma edges_zero n a v : (v 0%nat = 0 \/ v 0%nat = 1) -> (v 1%nat = 0 \/ v 1%nat = 1) -> comb (edges_if n) a v = 0.
Proof. intros H0 H1. unfold edges_if. destruct (2 <=? n)%nat; [|reflexivity]. rewrite comb_app, !edge_ends by assumption. ring. Qed.
Lemma direct_independent n e : (1 <= n)%nat -> make_direct_serendipity (default CQuadrilateral) n = Ok e -> independent_on_square e.
Proof.
  intros Hn He. destruct (direct_made n) as (e' & phi & E & M & _ & L & W & _ & I). rewrite He in E. injection E as ->.
  intros a H. set (inner := if (4 <=? n)%nat then inner_fns phi else []) in *.
  assert (T : forall v, in_square v -> comb corner_fns a v + (comb (edges_if n) (fun i => a (4 + i)%nat) v + comb inner (fun i => a (4 + (length (edges_if n) + i))%nat) v) = 0).
  { intros v Hv. rewrite <- (H v Hv), direct_comb, M, !comb_app. reflexivity. }
  assert (IZ : forall b v, (v 0%nat = 0 \/ v 0%nat = 1 \/ v 1%nat = 0 \/ v 1%nat = 1) -> comb inner b v = 0).
  { intros b v Hv. unfold inner. destruct (4 <=? n)%nat; [apply inner_zero, Hv|reflexivity]. }
  assert (C : forall x y : R, exists v : point, v 0%nat = x /\ v 1%nat = y) by (intros x y; exists (fun i => match i with O => x | _ => y end); auto).
  assert (A : a 0%nat = 0 /\ a 1%nat = 0 /\ a 2%nat = 0 /\ a 3%nat = 0).
  { assert (Q : forall x y, (x = 0 \/ x = 1) -> (y = 0 \/ y = 1) -> a 0%nat * ((1 - y) * (1 - x)) + a 1%nat * ((1 - y) * x) + a 2%nat * (y * (1 - x)) + a 3%nat * (y * x) = 0).
    { intros x y Hx Hy. destruct (C x y) as (v & V0 & V1). rewrite <- V0, <- V1 in *. rewrite <- corner_comb. specialize (T v ltac:(split; destruct Hx, Hy; lra)). rewrite edges_zero, IZ in T by tauto. lra. }
    pose proof (Q 0 0 ltac:(lra) ltac:(lra)). pose proof (Q 1 0 ltac:(lra) ltac:(lra)). pose proof (Q 0 1 ltac:(lra) ltac:(lra)). pose proof (Q 1 1 ltac:(lra) ltac:(lra)). lra. }
  destruct A as (A0 & A1 & A2 & A3).
  assert (T' : forall v, in_square v -> comb (edges_if n) (fun i => a (4 + i)%nat) v + comb inner (fun i => a (4 + (length (edges_if n) + i))%nat) v = 0).
  { intros v Hv. rewrite <- (T v Hv), corner_comb, A0, A1, A2, A3. ring. }
  assert (EA : forall i, (i < length (edges_if n))%nat -> a (4 + i)%nat = 0).
  { destruct (Nat.leb_spec 2 n) as [G|G]; [|unfold edges_if; rewrite (proj2 (Nat.leb_gt 2 n) G); cbn; lia].
    assert (TE : forall v, in_square v -> (v 0%nat = 0 \/ v 0%nat = 1 \/ v 1%nat = 0 \/ v 1%nat = 1) -> comb (edge_fns n 1 0) (fun i => a (4 + i)%nat) v + comb (edge_fns n 0 1) (fun i => a (4 + (2 * (n - 1) + i))%nat) v = 0).
    { intros v Hv B. rewrite <- (T' v Hv), (IZ _ v B). unfold edges_if. rewrite (proj2 (Nat.leb_le 2 n) G), comb_app, edge_fns_length by exact G. ring. }
    assert (E1 : forall j, (j < 2 * (n - 1))%nat -> a (4 + j)%nat = 0).
    { apply (edge_independent n 1 0 (fun j => a (4 + j)%nat) G ltac:(lia)). intros v V1 V0. rewrite <- (TE v); [|split; destruct V0; lra|tauto]. rewrite (edge_ends n 0 1) by exact V0. ring. }
    assert (E2 : forall j, (j < 2 * (n - 1))%nat -> a (4 + (2 * (n - 1) + j))%nat = 0).
    { apply (edge_independent n 0 1 (fun j => a (4 + (2 * (n - 1) + j))%nat) G ltac:(lia)). intros v V0 V1. rewrite <- (TE v); [|split; destruct V1; lra|tauto]. rewrite (edge_ends n 1 0) by exact V1. ring. }
    unfold edges_if. rewrite (proj2 (Nat.leb_le 2 n) G), app_length, !edge_fns_length by exact G. intros i Hi. destruct (Nat.lt_ge_cases i (2 * (n - 1))) as [J|J]; [apply E1, J|].
    replace i with (2 * (n - 1) + (i - 2 * (n - 1)))%nat by lia. apply E2. lia. }
  assert (IA : forall i, (i < length inner)%nat -> a (4 + (length (edges_if n) + i))%nat = 0).
  { unfold inner. destruct (4 <=? n)%nat eqn:F; [|cbn; lia]. replace (length (inner_fns phi)) with 15%nat by (unfold inner_fns; rewrite map_length; symmetry; exact L). apply (I (fun i => a (4 + (length (edges_if n) + i))%nat)).
    apply (simplex_inside_zero 2 4 (fun v => sum 15 (fun i => a (4 + (length (edges_if n) + i))%nat * nth i phi (fun _ => 0) (0%nat, v))) ltac:(lia)).
    - assert (Q : forall m, (m <= 15)%nat -> degree_space 2 4 (fun v => sum m (fun i => a (4 + (length (edges_if n) + i))%nat * nth i phi (fun _ => 0) (0%nat, v)))).
      { induction m as [|m IH]; intros Hm; [apply poly_space_zero|]. cbn [sum]. apply (poly_space_add _ (fun v => sum m (fun i => a (4 + (length (edges_if n) + i))%nat * nth i phi (fun _ => 0) (0%nat, v))) (fun v => a (4 + (length (edges_if n) + m))%nat * nth m phi (fun _ => 0) (0%nat, v))); [apply IH; lia|].
        apply (poly_space_scale _ _ (fun v => nth m phi (fun _ => 0) (0%nat, v))). apply W, nth_In. rewrite L. lia. }
      apply Q. lia.
    - intros v Hv. cbn in Hv. assert (B : in_square v) by (split; lra). specialize (T' v B). unfold inner in T'. rewrite (inner_comb phi _ v L) in T'.
      assert (Z : comb (edges_if n) (fun i => a (4 + i)%nat) v = 0) by (apply sum_zero; intros i Hi; rewrite EA by exact Hi; ring). rewrite Z, Rplus_0_l in T'. apply Rmult_integral in T'. destruct T' as [T'|T']; [|exact T']. exfalso.
      assert (0 < v 0%nat * v 1%nat * (1 - v 0%nat) * (1 - v 1%nat)); [|lra]. repeat apply Rmult_lt_0_compat; lra. }
  intros i Hi. rewrite <- (map_length fst), M, !app_length in Hi. change (length corner_fns) with 4%nat in Hi.
  destruct (Nat.lt_ge_cases i 4) as [J|J]; [destruct i as [|[|[|[|i]]]]; try assumption; lia|]. replace i with (4 + (i - 4))%nat by lia.
  destruct (Nat.lt_ge_cases (i - 4) (length (edges_if n))) as [J'|J']; [apply EA, J'|]. replace (i - 4)%nat with (length (edges_if n) + (i - 4 - length (edges_if n)))%nat by lia. apply IA. lia.
Qed.
