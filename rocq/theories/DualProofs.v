(** Proofs about DualModel.v. *)
From Coq Require Import String Arith ZArith Bool Reals Lra Lia List.
From Verif Require Import Base PolyLib ReferencesModel ReferencesSpec ReferencesProofs ReferencesGeometry PropertiesReferences GeometryModel PiecewiseModel PiecewiseProofs LinAlg CiarletModel ElementModel
  LagrangeModel UnisolvenceProofs LagrangeProofs LagrangeKey LagrangeUnisolvence PropertiesLagrange QDofs BubbleModel BubbleProofs DualModel.
Import ListNotations.
Open Scope R_scope.

(** * The polygon *)
Definition theta (n : nat) : R := PI / INR n.
Definition rho (n m : nat) : R := if Nat.even m then 1 else cos (theta n).
(** vertex number m of the polygon, counted periodically *)
Definition V (n m : nat) : list R := [rho n m * cos (INR m * theta n); rho n m * sin (INR m * theta n)].

Lemma nth_pairs {A} (f g : nat -> A) d : forall n k, (k < n)%nat -> forall s,
  nth (2 * k) (flat_map (fun i => [f i; g i]) (seq s n)) d = f (s + k)%nat /\ nth (2 * k + 1) (flat_map (fun i => [f i; g i]) (seq s n)) d = g (s + k)%nat.
Proof.
  induction n as [|n IH]; intros k Hk s; [lia|]. cbn [seq flat_map app]. destruct k as [|k].
  - rewrite Nat.add_0_r. split; reflexivity.
  - replace (2 * S k)%nat with (S (S (2 * k))) by lia. replace (S (S (2 * k)) + 1)%nat with (S (S (2 * k + 1))) by lia. cbn [nth].
    replace (s + S k)%nat with (S s + k)%nat by lia. apply IH. lia.
Qed.
Lemma length_pairs {A} (f g : nat -> A) : forall n s, length (flat_map (fun i => [f i; g i]) (seq s n)) = (2 * n)%nat.
Proof. induction n as [|n IH]; intros s; [reflexivity|]. cbn [seq flat_map app length]. rewrite IH. lia. Qed.
Lemma polygon_length n : length (reference_vertices (CDualPolygon n)) = (2 * n)%nat.
Proof. unfold reference_vertices, range. apply (length_pairs (fun tri => [cos (PI * 2 * INR tri / INR n); sin (PI * 2 * INR tri / INR n)])). Qed.

Lemma polygon_vertex n m : (1 <= n)%nat -> (m < 2 * n)%nat -> nth m (reference_vertices (CDualPolygon n)) [] = V n m.
Proof.
  intros Hn Hm. assert (Pn : 0 < INR n) by (apply lt_0_INR; lia). unfold reference_vertices, range.
  set (f := fun tri => [cos (PI * 2 * INR tri / INR n); sin (PI * 2 * INR tri / INR n)]).
  set (g := fun tri => [(cos (PI * 2 * INR (tri + 1) / INR n) + cos (PI * 2 * INR tri / INR n)) / 2; (sin (PI * 2 * INR (tri + 1) / INR n) + sin (PI * 2 * INR tri / INR n)) / 2]).
  change (nth m (flat_map (fun i => [f i; g i]) (seq 0 n)) [] = V n m).
  destruct (Nat.Even_or_Odd m) as [[k ->]|[k ->]].
  - rewrite (proj1 (nth_pairs f g [] n k ltac:(lia) 0)). unfold f, V, rho. rewrite Nat.even_mul. cbn [Nat.even orb]. cbn [Nat.add].
    rewrite mult_INR. simpl (INR 2). unfold theta. replace ((1 + 1) * INR k * (PI / INR n)) with (PI * 2 * INR k / INR n) by (field; lra).
    apply list2_eq; ring.
  - rewrite (proj2 (nth_pairs f g [] n k ltac:(lia) 0)). unfold g, V, rho. rewrite Nat.even_add, Nat.even_mul. cbn [Nat.even orb eqb negb]. cbn [Nat.add].
    rewrite form1, form3. rewrite !plus_INR, mult_INR. simpl (INR 2). simpl (INR 1). unfold theta.
    replace ((PI * 2 * (INR k + 1) / INR n - PI * 2 * INR k / INR n) / 2) with (PI / INR n) by (field; lra).
    replace ((PI * 2 * (INR k + 1) / INR n + PI * 2 * INR k / INR n) / 2) with (((1 + 1) * INR k + 1) * (PI / INR n)) by (field; lra).
    apply list2_eq; field.
Qed.

Lemma V_wrap n m : (1 <= n)%nat -> (m <= 2 * n)%nat -> V n (m mod (2 * n)) = V n m.
Proof.
  intros Hn Hm. destruct (Nat.eq_dec m (2 * n)) as [->|N]; [|rewrite Nat.mod_small by lia; reflexivity].
  assert (Pn : 0 < INR n) by (apply lt_0_INR; lia).
  rewrite Nat.mod_same by lia. unfold V, rho. rewrite Nat.even_mul. cbn [Nat.even orb].
  rewrite mult_INR. simpl (INR 2). simpl (INR 0). unfold theta. replace ((1 + 1) * INR n * (PI / INR n)) with (2 * PI) by (field; lra). rewrite Rmult_0_l, cos_2PI, sin_2PI, cos_0, sin_0. reflexivity.
Qed.

Section Polygon.
Variable n : nat.
Hypothesis Hn : (3 <= n)%nat.
Lemma theta_bounds : 0 < theta n /\ theta n <= PI / 3.
Proof.
  pose proof PI_RGT_0. assert (3 <= INR n) by (replace 3 with (INR 3) by (simpl; ring); apply le_INR; exact Hn). unfold theta. split.
  - apply Rdiv_lt_0_compat; lra.
  - unfold Rdiv. apply Rmult_le_compat_l; [lra|]. apply Rinv_le_contravar; lra.
Qed.
Lemma theta_n : INR n * theta n = PI.
Proof. assert (0 < INR n) by (apply lt_0_INR; lia). unfold theta. field. lra. Qed.
Lemma rho_pos m : 0 < rho n m.
Proof.
  pose proof theta_bounds. pose proof PI_RGT_0. unfold rho. destruct (Nat.even m); [lra|]. apply cos_gt_0; lra.
Qed.
Lemma sin_pos k : (1 <= k < n)%nat -> 0 < sin (INR k * theta n).
Proof.
  intros Hk. pose proof theta_bounds. pose proof theta_n. assert (1 <= INR k) by (change 1 with (INR 1); apply le_INR; lia).
  assert (INR k < INR n) by (apply lt_INR; lia). apply sin_gt_0; nra.
Qed.
Lemma sin_negative k : (n < k < 2 * n)%nat -> sin (INR k * theta n) < 0.
Proof.
  intros Hk. replace (INR k * theta n) with (INR (k - n) * theta n + PI) by (rewrite minus_INR by lia; pose proof theta_n; lra).
  rewrite neg_sin. pose proof (sin_pos (k - n) ltac:(lia)). lra.
Qed.
Lemma sin_1 : 0 < sin (theta n).
Proof. pose proof (sin_pos 1 ltac:(lia)) as H. simpl in H. rewrite Rmult_1_l in H. exact H. Qed.

(** the cross product of the directions of two vertices *)
Lemma cross_rays s t : (s <= t)%nat -> cos (INR s * theta n) * sin (INR t * theta n) - sin (INR s * theta n) * cos (INR t * theta n) = sin (INR (t - s) * theta n).
Proof. intros H. rewrite minus_INR by exact H. rewrite Rmult_minus_distr_r. rewrite sin_minus. ring. Qed.

(** the sub-triangles *)
Definition cell (t : nat) : list (list R) := [[0; 0]; V n t; V n (S t)].
Lemma cell_points t : points 3 2 (cell t).
Proof. split; [reflexivity|repeat constructor]. Qed.
Lemma cell_det t : edge_det2 (cell t) 1 2 = rho n t * rho n (S t) * sin (theta n).
Proof.
  unfold edge_det2, co, cell, V. cbn [nth].
  pose proof (cross_rays t (S t) ltac:(lia)) as C. replace (S t - t)%nat with 1%nat in C by lia. simpl (INR 1) in C. rewrite Rmult_1_l in C. rewrite <- C. ring.
Qed.
Lemma cell_regular t : edge_det2 (cell t) 1 2 <> 0.
Proof. rewrite cell_det. pose proof (rho_pos t). pose proof (rho_pos (S t)). pose proof sin_1. apply Rgt_not_eq. repeat apply Rmult_lt_0_compat; assumption. Qed.
Lemma cell_hull t p : in_hull (cell t) p /\ length p = 2%nat <-> exists a b, 0 <= a /\ 0 <= b /\ a + b <= 1 /\
  p = [a * nth 0 (V n t) 0 + b * nth 0 (V n (S t)) 0; a * nth 1 (V n t) 0 + b * nth 1 (V n (S t)) 0].
Proof.
  split.
  - intros [(w & (Lw & Sw & E) & F) Lp]. destruct w as [|c [|a [|b [|]]]]; try discriminate Lw. rewrite !Forall_cons_iff in F. destruct F as (F1 & F2 & F3 & _).
    unfold sumR in Sw. simpl in Sw. exists a, b. repeat split; try lra. destruct p as [|x [|y [|]]]; try discriminate Lp.
    pose proof (E 0%nat ltac:(simpl; lia)) as E0. pose proof (E 1%nat ltac:(simpl; lia)) as E1. unfold sumR, cell in E0, E1. cbn [nth map combine fold_right fst snd] in E0, E1.
    apply list2_eq; [rewrite E0|rewrite E1]; ring.
  - intros (a & b & Ha & Hb & Hab & ->). split; [|reflexivity]. exists [1 - a - b; a; b]. split.
    + split; [reflexivity|]. split; [unfold sumR; simpl; ring|]. intros j Hj. cbn [length] in Hj. unfold sumR, cell. destruct j as [|[|j]]; [| |lia]; cbn [nth map combine fold_right fst snd]; ring.
    + apply Forall_forall. intros c [<-|[<-|[<-|[]]]]; lra.
Qed.

(** two sub-triangles only share points of a common edge, or the origin *)
Lemma overlap s t a b a' b' : (s < t < 2 * n)%nat -> 0 <= a -> 0 <= b -> 0 <= a' -> 0 <= b' ->
  (forall i, (i < 2)%nat -> a * nth i (V n s) 0 + b * nth i (V n (S s)) 0 = a' * nth i (V n t) 0 + b' * nth i (V n (S t)) 0) ->
  (a = 0 /\ b = 0 /\ a' = 0 /\ b' = 0) \/ (t = S s /\ a = 0 /\ b' = 0 /\ b = a') \/ (s = 0%nat /\ t = (2 * n - 1)%nat /\ b = 0 /\ a' = 0 /\ a = b').
Proof.
  intros Hst Ha Hb Ha' Hb' E. pose proof (E 0%nat ltac:(lia)) as E0. pose proof (E 1%nat ltac:(lia)) as E1. clear E. unfold V in E0, E1. cbn [nth] in E0, E1.
  pose proof (rho_pos s) as P1. pose proof (rho_pos (S s)) as P2. pose proof (rho_pos t) as P3. pose proof (rho_pos (S t)) as P4. pose proof sin_1 as S1.
  set (A := a * rho n s) in *. set (B := b * rho n (S s)) in *. set (A' := a' * rho n t) in *. set (B' := b' * rho n (S t)) in *.
  assert (NA : 0 <= A) by (apply Rmult_le_pos; lra). assert (NB : 0 <= B) by (apply Rmult_le_pos; lra).
  assert (NA' : 0 <= A') by (apply Rmult_le_pos; lra). assert (NB' : 0 <= B') by (apply Rmult_le_pos; lra).
  pose proof (cross_rays s t ltac:(lia)) as C1. pose proof (cross_rays s (S t) ltac:(lia)) as C2. pose proof (cross_rays (S s) t ltac:(lia)) as C3. pose proof (cross_rays (S s) (S t) ltac:(lia)) as C4.
  pose proof (cross_rays s (S s) ltac:(lia)) as C5. replace (S s - s)%nat with 1%nat in C5 by lia. simpl (INR 1) in C5. rewrite Rmult_1_l in C5.
  replace (S t - S s)%nat with (t - s)%nat in C4 by lia. replace (S t - s)%nat with (t - s + 1)%nat in C2 by lia. replace (t - S s)%nat with (t - s - 1)%nat in C3 by lia.
  set (k := (t - s)%nat) in *.
  assert (X1 : B * sin (theta n) = A' * sin (INR k * theta n) + B' * sin (INR (k + 1) * theta n)).
  { rewrite <- C1, <- C2, <- C5. set (cs := cos (INR s * theta n)) in *. set (ss := sin (INR s * theta n)) in *.
    transitivity (cs * (A * ss + B * sin (INR (S s) * theta n)) - ss * (A * cs + B * cos (INR (S s) * theta n))); [ring|].
    unfold A, B, A', B' in *. transitivity (cs * (a * (rho n s * ss) + b * (rho n (S s) * sin (INR (S s) * theta n))) - ss * (a * (rho n s * cs) + b * (rho n (S s) * cos (INR (S s) * theta n)))); [ring|].
    rewrite E0, E1. ring. }
  assert (X2 : - (A * sin (theta n)) = A' * sin (INR (k - 1) * theta n) + B' * sin (INR k * theta n)).
  { rewrite <- C3, <- C4, <- C5. set (cs := cos (INR (S s) * theta n)) in *. set (ss := sin (INR (S s) * theta n)) in *.
    unfold A, B, A', B' in *. transitivity (cs * (a * (rho n s * sin (INR s * theta n)) + b * (rho n (S s) * ss)) - ss * (a * (rho n s * cos (INR s * theta n)) + b * (rho n (S s) * cs))); [ring|].
    rewrite E0, E1. ring. }
  assert (Z : forall x r, 0 < r -> x * r = 0 -> x = 0) by (intros x r Hr H; apply Rmult_integral in H; lra).
  assert (ZZ : A' = 0 -> B' = 0 -> a = 0 /\ b = 0 /\ a' = 0 /\ b' = 0).
  { intros HA HB. rewrite HA, HB in X1, X2. assert (A = 0) by nra. assert (B = 0) by nra.
    repeat split; [apply (Z a (rho n s))|apply (Z b (rho n (S s)))|apply (Z a' (rho n t))|apply (Z b' (rho n (S t)))]; assumption. }
  assert (Hk : (1 <= k < 2 * n)%nat) by lia.
  destruct (Nat.eq_dec k 1) as [K1|K1].
  - (* neighbours *)
    right; left. rewrite K1 in *. simpl (INR (1 - 1)) in X2. rewrite Rmult_0_l, sin_0 in X2. simpl (INR 1) in X2. rewrite Rmult_1_l in X2.
    assert (A = 0) by nra. assert (B' = 0) by nra. assert (t = S s) by lia. split; [assumption|]. split; [apply (Z a (rho n s)); assumption|]. split; [apply (Z b' (rho n (S t))); assumption|].
    simpl (INR 1) in X1. rewrite Rmult_1_l in X1. rewrite H0 in X1. assert (B = A') by nra. subst t. unfold B, A' in H2. nra.
  - destruct (Nat.eq_dec k (2 * n - 1)) as [K2|K2].
    + right; right. assert (Hs : s = 0%nat) by lia. assert (Ht : t = (2 * n - 1)%nat) by lia. split; [exact Hs|]. split; [exact Ht|].
      assert (I1 : sin (INR (k + 1) * theta n) = 0).
      { replace (k + 1)%nat with (2 * n)%nat by lia. rewrite mult_INR. simpl (INR 2). rewrite Rmult_assoc, theta_n. apply sin_2PI. }
      assert (I2 : sin (INR k * theta n) = - sin (theta n)).
      { replace (INR k * theta n) with (- theta n + 2 * PI) by (rewrite K2, minus_INR, mult_INR by lia; simpl (INR 2); simpl (INR 1); pose proof theta_n; lra). rewrite sin_plus, sin_2PI, cos_2PI, sin_neg. ring. }
      rewrite I1, I2 in X1. assert (B = 0) by nra. assert (A' = 0) by nra.
      assert (X2' : A * sin (theta n) = B' * sin (theta n)) by (rewrite H0, I2 in X2; nra).
      assert (A = B') by nra. split; [apply (Z b (rho n (S s))); assumption|]. split; [apply (Z a' (rho n t)); assumption|].
      unfold A, B' in H1. replace (rho n (S t)) with (rho n s) in H1; [nra|]. subst s. replace (S t) with (2 * n)%nat by lia. unfold rho. rewrite Nat.even_mul. reflexivity.
    + left. destruct (Nat.eq_dec k n) as [K3|K3].
      * assert (I1 : sin (INR k * theta n) = 0) by (rewrite K3, theta_n; apply sin_PI). pose proof (sin_pos (k - 1) ltac:(lia)). pose proof (sin_negative (k + 1) ltac:(lia)).
        rewrite I1 in X1, X2. assert (A' = 0) by nra. assert (B' = 0) by nra. auto.
      * destruct (Nat.lt_ge_cases k n) as [K4|K4].
        -- pose proof (sin_pos (k - 1) ltac:(lia)). pose proof (sin_pos k ltac:(lia)). assert (A' = 0) by nra. assert (B' = 0) by nra. auto.
        -- pose proof (sin_negative k ltac:(lia)). pose proof (sin_negative (k + 1) ltac:(lia)). assert (A' = 0) by nra. assert (B' = 0) by nra. auto.
Qed.
End Polygon.

(** * The coefficients *)
Lemma nth_firstn' {A} (l : list A) d : forall i k, (k < i)%nat -> nth k (firstn i l) d = nth k l d.
Proof. induction l as [|a l IH]; intros [|i] [|k] H; try lia; try reflexivity. cbn [firstn nth]. apply IH. lia. Qed.
Lemma nth_skipn' {A} (l : list A) d : forall i k, nth k (skipn i l) d = nth (i + k) l d.
Proof. induction l as [|a l IH]; intros [|i] k; try reflexivity; [destruct k; reflexivity|]. cbn [skipn Nat.add nth]. apply IH. Qed.
Lemma set_nth_map {A} (f : nat -> A) N i v : (i < N)%nat ->
  set_nth (map f (range N)) i v = map (fun t => if (t =? i)%nat then v else f t) (range N).
Proof.
  intros Hi. apply (nth_ext _ _ v v); unfold set_nth.
  - rewrite app_length, firstn_length. cbn [length]. rewrite skipn_length, !map_length, length_range. lia.
  - intros k Hk. rewrite app_length, firstn_length in Hk. cbn [length] in Hk. rewrite skipn_length, !map_length, length_range in Hk.
    assert (R0 : forall (g : nat -> A) m, (m < N)%nat -> nth m (map g (range N)) v = g m).
    { intros g m Hm. rewrite (nth_indep _ v (g 0%nat)) by (rewrite map_length, length_range; exact Hm). rewrite map_nth. unfold range. rewrite seq_nth by exact Hm. reflexivity. }
    rewrite (R0 (fun t => if (t =? i)%nat then v else f t)) by lia.
    destruct (Nat.lt_trichotomy k i) as [L|[L|L]].
    + rewrite app_nth1 by (rewrite firstn_length, map_length, length_range; lia). rewrite nth_firstn' by exact L. rewrite R0 by lia.
      rewrite (proj2 (Nat.eqb_neq k i)) by lia. reflexivity.
    + rewrite app_nth2 by (rewrite firstn_length, map_length, length_range; lia). rewrite firstn_length, map_length, length_range, Nat.min_l by lia. subst k. rewrite Nat.sub_diag, Nat.eqb_refl. reflexivity.
    + rewrite app_nth2 by (rewrite firstn_length, map_length, length_range; lia). rewrite firstn_length, map_length, length_range, Nat.min_l by lia.
      replace (k - i)%nat with (S (k - S i)) by lia. cbn [nth]. rewrite nth_skipn'. replace (S i + (k - S i))%nat with k by lia. rewrite R0 by lia. rewrite (proj2 (Nat.eqb_neq k i)) by lia. reflexivity.
Qed.
Lemma set2_map (f : nat -> list R) N i idx k v : py_index N i = Ok idx -> (idx < N)%nat -> (k < length (f idx))%nat ->
  set2 (map f (range N)) i k v = Ok (map (fun t => if (t =? idx)%nat then set_nth (f idx) k v else f t) (range N)).
Proof.
  intros Hi Hx Hk. unfold set2. rewrite map_length, length_range, Hi. cbn [rbind]. unfold get.
  rewrite (nth_error_nth' _ []) by (rewrite map_length, length_range; exact Hx). cbn [rbind].
  assert (E : nth idx (map f (range N)) [] = f idx).
  { rewrite (nth_indep _ [] (f 0%nat)) by (rewrite map_length, length_range; exact Hx). rewrite map_nth. unfold range. rewrite seq_nth by exact Hx. reflexivity. }
  rewrite E, (proj2 (Nat.ltb_lt _ _) Hk), set_nth_map by exact Hx. reflexivity.
Qed.

(** the value of function j at vertex m *)
Definition h (n j m : nat) : R :=
  if (m =? 2 * j)%nat then 1 else if ((m =? 2 * j + 1) || (m =? (2 * j + 2 * n - 1) mod (2 * n)))%nat then 1 / 2 else 0.

Lemma row_closed n j : (1 <= n)%nat -> (j < n)%nat ->
  dual_row n j = Ok (map (fun t => [1 / INR n; h n j t; h n j ((t + 1) mod (2 * n))]) (range (2 * n))).
Proof.
  intros Hn Hj. unfold dual_row. set (N := (2 * n)%nat). set (c := 1 / INR n). clearbody c.
  set (i1 := ((2 * j + N - 1) mod N)%nat). set (i2 := ((2 * j + N - 2) mod N)%nat).
  assert (H1 : i1 = if (j =? 0)%nat then (N - 1)%nat else (2 * j - 1)%nat).
  { unfold i1, N. destruct (Nat.eqb_spec j 0) as [->|Z]; [apply Nat.mod_small; lia|]. replace (2 * j + 2 * n - 1)%nat with (2 * j - 1 + 1 * (2 * n))%nat by lia. rewrite Nat.mod_add by lia. apply Nat.mod_small. lia. }
  assert (H2 : i2 = if (j =? 0)%nat then (N - 2)%nat else (2 * j - 2)%nat).
  { unfold i2, N. destruct (Nat.eqb_spec j 0) as [->|Z]; [apply Nat.mod_small; lia|]. replace (2 * j + 2 * n - 2)%nat with (2 * j - 2 + 1 * (2 * n))%nat by lia. rewrite Nat.mod_add by lia. apply Nat.mod_small. lia. }
  assert (Q1 : py_index N (2 * Z.of_nat j - 1) = Ok i1).
  { unfold py_index. rewrite H1. destruct (Nat.eqb_spec j 0) as [->|Z].
    - replace (0 <=? _)%Z with false by (symmetry; apply Z.leb_gt; lia). cbn [andb]. replace (_ <=? _)%Z with true by (symmetry; apply Z.leb_le; lia). replace (_ <? 0)%Z with true by (symmetry; apply Z.ltb_lt; lia). cbn [andb]. f_equal. lia.
    - replace (0 <=? _)%Z with true by (symmetry; apply Z.leb_le; lia). replace (_ <? _)%Z with true by (symmetry; apply Z.ltb_lt; lia). cbn [andb]. f_equal. lia. }
  assert (Q2 : py_index N (2 * Z.of_nat j - 2) = Ok i2).
  { unfold py_index. rewrite H2. destruct (Nat.eqb_spec j 0) as [->|Z].
    - replace (0 <=? _)%Z with false by (symmetry; apply Z.leb_gt; lia). cbn [andb]. replace (_ <=? _)%Z with true by (symmetry; apply Z.leb_le; lia). replace (_ <? 0)%Z with true by (symmetry; apply Z.ltb_lt; lia). cbn [andb]. f_equal. lia.
    - replace (0 <=? _)%Z with true by (symmetry; apply Z.leb_le; lia). replace (_ <? _)%Z with true by (symmetry; apply Z.ltb_lt; lia). cbn [andb]. f_equal. lia. }
  assert (Q3 : py_index N (2 * Z.of_nat j) = Ok (2 * j)%nat).
  { unfold py_index. replace (0 <=? _)%Z with true by (symmetry; apply Z.leb_le; lia). replace (_ <? _)%Z with true by (symmetry; apply Z.ltb_lt; lia). cbn [andb]. f_equal. lia. }
  assert (Q4 : py_index N (2 * Z.of_nat j + 1) = Ok (2 * j + 1)%nat).
  { unfold py_index. replace (0 <=? _)%Z with true by (symmetry; apply Z.leb_le; lia). replace (_ <? _)%Z with true by (symmetry; apply Z.ltb_lt; lia). cbn [andb]. f_equal. lia. }
  assert (B1 : (i1 < N)%nat) by (apply Nat.mod_upper_bound; lia). assert (B2 : (i2 < N)%nat) by (apply Nat.mod_upper_bound; lia).
  assert (LL : forall (l : list R) k v, (k < length l)%nat -> length (set_nth l k v) = length l).
  { intros l k v Hk. unfold set_nth. rewrite app_length, firstn_length. cbn [length]. rewrite skipn_length. lia. }
  cbn [sets]. set (f0 := fun _ : nat => [c; 0; 0]).
  rewrite (set2_map f0 N _ i1 _ _ Q1) by (assumption || (simpl; lia)). cbn [rbind]. set (f1 := fun t => if (t =? i1)%nat then set_nth (f0 i1) 2 1 else f0 t).
  assert (L1 : forall t, length (f1 t) = 3%nat) by (intros t; unfold f1; destruct (t =? i1)%nat; reflexivity).
  rewrite (set2_map f1 N _ (2 * j) _ _ Q3) by (rewrite ?L1; lia). cbn [rbind]. set (f2 := fun t => if (t =? 2 * j)%nat then set_nth (f1 (2 * j)%nat) 1 1 else f1 t).
  assert (L2 : forall t, length (f2 t) = 3%nat) by (intros t; unfold f2; destruct (t =? 2 * j)%nat; rewrite ?LL by (rewrite L1; lia); apply L1).
  rewrite (set2_map f2 N _ i2 _ _ Q2) by (rewrite ?L2; lia). cbn [rbind]. set (f3 := fun t => if (t =? i2)%nat then set_nth (f2 i2) 2 (1 / 2) else f2 t).
  assert (L3 : forall t, length (f3 t) = 3%nat) by (intros t; unfold f3; destruct (t =? i2)%nat; rewrite ?LL by (rewrite L2; lia); apply L2).
  rewrite (set2_map f3 N _ i1 _ _ Q1) by (rewrite ?L3; lia). cbn [rbind]. set (f4 := fun t => if (t =? i1)%nat then set_nth (f3 i1) 1 (1 / 2) else f3 t).
  assert (L4 : forall t, length (f4 t) = 3%nat) by (intros t; unfold f4; destruct (t =? i1)%nat; rewrite ?LL by (rewrite L3; lia); apply L3).
  rewrite (set2_map f4 N _ (2 * j) _ _ Q3) by (rewrite ?L4; lia). cbn [rbind]. set (f5 := fun t => if (t =? 2 * j)%nat then set_nth (f4 (2 * j)%nat) 2 (1 / 2) else f4 t).
  assert (L5 : forall t, length (f5 t) = 3%nat) by (intros t; unfold f5; destruct (t =? 2 * j)%nat; rewrite ?LL by (rewrite L4; lia); apply L4).
  rewrite (set2_map f5 N _ (2 * j + 1) _ _ Q4) by (rewrite ?L5; lia). cbn [rbind]. f_equal. apply map_ext_in. intros t Ht. apply in_range in Ht.
  assert (HT : (t + 1) mod N = if (t =? N - 1)%nat then 0%nat else (t + 1)%nat).
  { destruct (Nat.eqb_spec t (N - 1)) as [->|Z]; [replace (N - 1 + 1)%nat with N by lia; apply Nat.mod_same; lia|apply Nat.mod_small; lia]. }
  unfold h. fold N. fold i1. rewrite HT. unfold f5, f4, f3, f2, f1, f0. rewrite H1, H2. clear - Hn Hj Ht. unfold N in *.
  destruct (Nat.eqb_spec t (2 * n - 1)); destruct (Nat.eqb_spec j 0) as [J|J];
  repeat match goal with |- context [(?a =? ?b)%nat] => destruct (Nat.eqb_spec a b); try lia end; cbn [orb]; try reflexivity; exfalso; lia.
Qed.

(** * The pieces *)
Lemma triangle_piece (v w : list R) (c0 c1 c2 : R) : points 3 2 [[0; 0]; v; w] -> edge_det2 [[0; 0]; v; w] 1 2 <> 0 ->
  forall phi, lagrange_functions (default CTriangle) 1 "equispaced" = Ok phi ->
  exists inv, get_inverse_map_to (default CTriangle) [[0; 0]; v; w] = Ok inv /\
  forall a b, fold_left (fun s ab => s + fst ab * snd ab (env_of (inv (env_of [a * nth 0 v 0 + b * nth 0 w 0; a * nth 1 v 0 + b * nth 1 w 0])))) (combine [c0; c1; c2] phi) 0
    = (1 - a - b) * c0 + a * c1 + b * c2.
Proof.
  intros Hp HD phi Ephi. destruct (proj1 (C30_maps_are_inverse_partial CTriangle [[0; 0]; v; w] (conj Hp HD))) as (m & i & Em & Ei & _ & I2 & _).
  exists i. split; [exact Ei|]. intros a b.
  assert (Hm : m (env_of [a; b]) = [a * nth 0 v 0 + b * nth 0 w 0; a * nth 1 v 0 + b * nth 1 w 0]).
  { destruct Hp as [_ F]. rewrite !Forall_cons_iff in F. destruct F as (_ & Lv & Lw & _). destruct v as [|x [|y [|]]]; try discriminate Lv. destruct w as [|x' [|y' [|]]]; try discriminate Lw.
    unfold get_map_to in Em. rewrite is_default_default in Em. cbn in Em. injection Em as <-. cbn. apply list2_eq; ring. }
  rewrite <- Hm, I2 by reflexivity.
  assert (Hc : simplex CTriangle) by (right; left; reflexivity). set (vs := [[0; 0]; [1; 0]; [0; 1]]).
  assert (Hp' : points 3 2 vs) by (split; [reflexivity|repeat constructor]).
  assert (HD' : map_det CTriangle vs <> 0) by (unfold map_det, edge_det2, co, vs; simpl; lra).
  destruct (p1 CTriangle vs (default CTriangle) Hc Hp' HD' eq_refl) as (phi' & E' & L & Fd & Vv). rewrite Ephi in E'. injection E' as <-.
  cbn [tdim] in L, Vv. change (S 2) with 3%nat in L. destruct phi as [|f0 [|f1 [|f2 [|]]]]; try discriminate L. cbn [combine fold_left fst snd].
  assert (X : forall k f, (k <= 2)%nat -> nth k [f0; f1; f2] (fun _ => 0) = f -> f (env_of [a; b]) = bc 2 (env_of [a; b]) k).
  { intros k f Hk <-. rewrite <- (Vv k (env_of [a; b]) Hk). apply (degree_local 2 1).
    - rewrite Forall_forall in Fd. apply Fd. apply nth_In. simpl. lia.
    - intros j Hj. destruct j as [|[|j]]; [| |lia]; unfold vs; cbn; ring. }
  rewrite (X 0%nat f0), (X 1%nat f1), (X 2%nat f2) by (reflexivity || lia). unfold bc, env_of. cbn. ring.
Qed.

Lemma map_r_map {A B C} (g : B -> res C) (f : A -> B) l : map_r g (map f l) = map_r (fun a => g (f a)) l.
Proof. induction l as [|a l IH]; [reflexivity|]. cbn [map map_r]. rewrite IH. reflexivity. Qed.

Lemma sub_triangles_closed n : (1 <= n)%nat -> sub_triangles (default (CDualPolygon n)) = map (cell n) (range (2 * n)).
Proof.
  intros Hn. unfold sub_triangles. cbn [default r_origin r_vertices]. set (vs := reference_vertices (CDualPolygon n)).
  assert (L : length vs = (2 * n)%nat) by apply polygon_length.
  apply (nth_ext _ _ [] []).
  - rewrite !map_length, combine_length, app_length, skipn_length, firstn_length, L, length_range. lia.
  - intros t Ht. rewrite map_length, combine_length, app_length, skipn_length, firstn_length, L in Ht.
    set (g := fun vw : list R * list R => [[0; 0]; fst vw; snd vw]). set (ps := combine vs (skipn 1 vs ++ firstn 1 vs)).
    assert (Lp : length ps = (2 * n)%nat) by (unfold ps; rewrite combine_length, app_length, skipn_length, firstn_length, L; lia).
    transitivity (g (nth t ps ([], []))).
    { rewrite <- (map_nth g). apply nth_indep. rewrite map_length. change pt with (list R) in *. fold ps. rewrite Lp. lia. }
    unfold ps. rewrite combine_nth by (change pt with (list R) in *; rewrite app_length, skipn_length, firstn_length, L; lia). unfold g. cbn [fst snd].
    rewrite (nth_indep (map _ _) [] (cell n 0)) by (rewrite map_length, length_range; lia). rewrite map_nth. unfold range. rewrite seq_nth by lia. cbn [Nat.add]. unfold cell.
    f_equal. f_equal; [apply polygon_vertex; lia|]. f_equal.
    destruct (Nat.eq_dec t (2 * n - 1)) as [->|N].
    + rewrite app_nth2 by (rewrite skipn_length, L; lia). rewrite skipn_length, L, Nat.sub_diag. rewrite nth_firstn' by lia. unfold vs. rewrite polygon_vertex by lia.
      rewrite <- (V_wrap n (S (2 * n - 1))) by lia. replace (S (2 * n - 1)) with (2 * n)%nat by lia. rewrite Nat.mod_same by lia. reflexivity.
    + rewrite app_nth1 by (rewrite skipn_length, L; lia). rewrite nth_skipn'. apply polygon_vertex; lia.
Qed.

Definition piece (n : nat) (phi : list (fn point)) (c : list R) (t : nat) : fn point :=
  fun e => fold_left (fun s ab => s + fst ab * snd ab (env_of (match get_inverse_map_to (default CTriangle) (cell n t) with Ok inv => inv e | Err _ => [] end))) (combine c phi) 0.
Definition pnt (n t : nat) (a b : R) : list R := [a * nth 0 (V n t) 0 + b * nth 0 (V n (S t)) 0; a * nth 1 (V n t) 0 + b * nth 1 (V n (S t)) 0].

Lemma combine_map {A B} (f : nat -> A) (g : nat -> B) l : combine (map f l) (map g l) = map (fun t => (f t, g t)) l.
Proof. induction l as [|a l IH]; [reflexivity|]. cbn [map combine]. rewrite IH. reflexivity. Qed.

Section Functions.
Variable n : nat.
Hypothesis Hn : (3 <= n)%nat.
Variable phi : list (fn point).

Lemma dual_function_closed cs : dual_function (default (CDualPolygon n)) phi (map cs (range (2 * n))) = Ok (map (fun t => (cell n t, piece n phi (cs t) t)) (range (2 * n))).
Proof.
  unfold dual_function. rewrite sub_triangles_closed by lia. rewrite combine_map, map_r_map. apply map_r_ok. intros t _. cbn [fst snd].
  destruct (proj1 (C30_maps_are_inverse_partial CTriangle (cell n t) (conj (cell_points n t) (cell_regular n Hn t)))) as (m & i & _ & Ei & _).
  unfold piece. rewrite Ei. reflexivity.
Qed.

Lemma piece_value c0 c1 c2 t a b : lagrange_functions (default CTriangle) 1 "equispaced" = Ok phi ->
  piece n phi [c0; c1; c2] t (env_of (pnt n t a b)) = (1 - a - b) * c0 + a * c1 + b * c2.
Proof.
  intros E. destruct (triangle_piece (V n t) (V n (S t)) c0 c1 c2 (cell_points n t) (cell_regular n Hn t) phi E) as (inv & Ei & X).
  unfold piece. fold (cell n t) in Ei. rewrite Ei. apply X.
Qed.

(** all pieces that contain a point have the same value there *)
Lemma pieces_agree (H : nat -> R) c0 s t p : lagrange_functions (default CTriangle) 1 "equispaced" = Ok phi ->
  (s < 2 * n)%nat -> (t < 2 * n)%nat -> length p = 2%nat -> in_hull (cell n s) p -> in_hull (cell n t) p ->
  piece n phi [c0; H s; H ((s + 1) mod (2 * n))%nat] s (env_of p) = piece n phi [c0; H t; H ((t + 1) mod (2 * n))%nat] t (env_of p).
Proof.
  intros E. assert (W : forall s t, (s < t < 2 * n)%nat -> length p = 2%nat -> in_hull (cell n s) p -> in_hull (cell n t) p ->
    piece n phi [c0; H s; H ((s + 1) mod (2 * n))%nat] s (env_of p) = piece n phi [c0; H t; H ((t + 1) mod (2 * n))%nat] t (env_of p)).
  { clear s t. intros s t Hst Lp Hs Ht. destruct (proj1 (cell_hull n Hn s p) (conj Hs Lp)) as (a & b & Ha & Hb & _ & E1). destruct (proj1 (cell_hull n Hn t p) (conj Ht Lp)) as (a' & b' & Ha' & Hb' & _ & E2).
    fold (pnt n s a b) in E1. fold (pnt n t a' b') in E2.
    assert (O : forall i, (i < 2)%nat -> a * nth i (V n s) 0 + b * nth i (V n (S s)) 0 = a' * nth i (V n t) 0 + b' * nth i (V n (S t)) 0).
    { rewrite E1 in E2. unfold pnt in E2. injection E2 as X0 X1. intros i Hi. destruct i as [|[|i]]; [exact X0|exact X1|lia]. }
    transitivity ((1 - a - b) * c0 + a * H s + b * H ((s + 1) mod (2 * n))%nat); [rewrite E1; apply piece_value, E|].
    transitivity ((1 - a' - b') * c0 + a' * H t + b' * H ((t + 1) mod (2 * n))%nat); [|rewrite E2; symmetry; apply piece_value, E].
    destruct (overlap n Hn s t a b a' b' Hst Ha Hb Ha' Hb' O) as [(-> & -> & -> & ->)|[(-> & -> & -> & ->)|(-> & -> & -> & -> & ->)]].
    - ring.
    - rewrite (Nat.mod_small (s + 1)) by lia. replace (s + 1)%nat with (S s) by lia. ring.
    - replace (2 * n - 1 + 1)%nat with (2 * n)%nat by lia. rewrite Nat.mod_same by lia. ring. }
  intros Hs Ht Lp Hps Hpt. destruct (Nat.lt_trichotomy s t) as [L|[->|L]]; [apply W; auto|reflexivity|symmetry; apply W; auto].
Qed.
End Functions.

Lemma value_at_pieces {A} (f : pieces A) p v : length p = 2%nat -> Forall (fun cg => regular 2 (fst cg)) f ->
  (forall cell g, In (cell, g) f -> in_hull cell p -> g (env_of p) = v) ->
  ((exists cell g, In (cell, g) f /\ in_hull cell p) -> value_at f p = Ok v) /\
  ((forall cell g, In (cell, g) f -> ~ in_hull cell p) -> value_at f p = Err NotImplementedError).
Proof.
  intros Lp. induction f as [|[c g] f IH]; intros Fr Ag.
  - split; [intros (? & ? & [] & _)|reflexivity].
  - inversion Fr as [|? ? Hc Hf]; subst. cbn [fst] in Hc. destruct (IH Hf) as [I1 I2]; [intros c' g' H; apply (Ag c' g'); right; exact H|].
    destruct (in_cell_decides 2 p c Lp Hc) as (b & Eb & Hb). cbn [value_at]. rewrite Eb. cbn [rbind]. destruct b.
    + split; [intros _; f_equal; apply (Ag c g); [left; reflexivity|apply Hb; reflexivity]|]. intros H. exfalso. apply (H c g); [left; reflexivity|apply Hb; reflexivity].
    + split.
      * intros (c' & g' & [E|I] & Hh); [injection E as -> ->; apply Hb in Hh; discriminate|]. apply I1. exists c', g'. auto.
      * intros H. apply I2. intros c' g' I. apply (H c' g'). right. exact I.
Qed.

(** the functions sum to one at the vertices *)
Lemma sum_pick n k : (k < n)%nat -> sum n (fun j => if (j =? k)%nat then 1 else 0) = 1.
Proof. intros Hk. rewrite (sum_single n _ k Hk); [rewrite Nat.eqb_refl; reflexivity|]. intros i _ N. rewrite (proj2 (Nat.eqb_neq i k) N). reflexivity. Qed.
Lemma h_sum n m : (2 <= n)%nat -> (m < 2 * n)%nat -> sum n (fun j => h n j m) = 1.
Proof.
  intros Hn Hm. assert (Hmod : forall j, (j < n)%nat -> ((2 * j + 2 * n - 1) mod (2 * n) = if j =? 0 then 2 * n - 1 else 2 * j - 1)%nat).
  { intros j Hj. destruct (Nat.eqb_spec j 0) as [->|Z]; [apply Nat.mod_small; lia|]. replace (2 * j + 2 * n - 1)%nat with (2 * j - 1 + 1 * (2 * n))%nat by lia. rewrite Nat.mod_add by lia. apply Nat.mod_small. lia. }
  destruct (Nat.Even_or_Odd m) as [[k Hk]|[k Hk]].
  - rewrite <- (sum_pick n k) by lia. apply sum_ext. intros j Hj. unfold h. rewrite Hmod by exact Hj. subst m.
    destruct (Nat.eqb_spec j 0); repeat match goal with |- context [(?a =? ?b)%nat] => destruct (Nat.eqb_spec a b); try lia end; cbn [orb]; try reflexivity; lia.
  - set (k' := if (k =? n - 1)%nat then 0%nat else S k).
    transitivity (sum n (fun j => 1 / 2 * (if (j =? k)%nat then 1 else 0) + 1 / 2 * (if (j =? k')%nat then 1 else 0))).
    + apply sum_ext. intros j Hj. unfold h, k'. rewrite Hmod by exact Hj. subst m.
      destruct (Nat.eqb_spec j 0); destruct (Nat.eqb_spec k (n - 1)); repeat match goal with |- context [(?a =? ?b)%nat] => destruct (Nat.eqb_spec a b); try lia end; cbn [orb]; try lra; exfalso; lia.
    + rewrite sum_plus, !sum_scal, !sum_pick; [lra|unfold k'; destruct (Nat.eqb_spec k (n - 1)); lia|lia].
Qed.
