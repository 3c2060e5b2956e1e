(** Which basis functions the constructor of the Arnold-Winther element keeps (aw.py:100-104). *)
From Coq Require Import String ZArith Arith Bool Reals Lra Lia List.
From Verif Require Import Base PolyLib PolySetsModel PolySetsProofs QuadratureModel ReferencesModel ReferencesSpec
  ReferencesProofs ReferencesGeometry LinAlg CiarletModel CiarletProofs MomentsModel ElementModel LagrangeModel UnisolvenceProofs LagrangeProofs
  LagrangeKey LagrangeUnisolvence PropertiesLagrange FamiliesModel FamiliesSpec FamiliesMoments FamiliesBuilt.
Import ListNotations.
Local Open Scope string_scope.
Local Open Scope R_scope.
Local Open Scope list_scope.

Lemma dd_sum q a s n (f : nat -> R -> R) : dd q a s (fun x => sum n (fun t => f t x)) = sum n (fun t => dd q a s (f t)).
Proof.
  induction n as [|n IH]; [apply dd_zero|]. cbn [sum].
  rewrite (dd_ext q _ (fun x => 1 * sum n (fun t => f t x) + 1 * f n x)) by (intros; ring). rewrite dd_lin, IH. ring.
Qed.

(** a function that vanishes at all the nodes but the last *)
Lemma dd_last q n f : distinct_upto q n -> forall a s, (s + a <= n)%nat -> (forall i, (s <= i < s + a)%nat -> f (q i) = 0) ->
  f (q (s + a)%nat) <> 0 -> dd q a s f <> 0.
Proof.
  intros Hq. induction a as [|a IH]; intros s Hn Z N; [rewrite Nat.add_0_r in N; exact N|].
  cbn [dd]. rewrite (dd_ext q f (fun _ => 0) a s) by (intros i Hi; apply Z; lia). rewrite dd_zero.
  assert (D : q (s + S a)%nat - q s <> 0) by (specialize (Hq s (s + S a)%nat ltac:(lia)); lra).
  assert (X : dd q a (S s) f <> 0).
  { apply IH; [lia|intros i Hi; apply Z; lia|]. replace (S s + a)%nat with (s + S a)%nat by lia. exact N. }
  unfold Rdiv. rewrite Rminus_0_r. apply Rmult_integral_contrapositive_currified; [exact X|apply Rinv_neq_0_compat, D].
Qed.

Definition line (x : R) : point := env_of [x; 0].
Lemma meval_line a b x : meval [a; b] (line x) = if (b =? 0)%nat then x ^ a else 0.
Proof.
  unfold meval, line, env_of. cbn. destruct b as [|b]; cbn; ring.
Qed.

(** the coefficient of x^k of a polynomial of degree at most k is a divided difference along the line y = 0 *)
Lemma top_coefficient poly k row t q : polynomial_set_1d 2 k = Ok poly -> (t < length poly)%nat -> nth t poly [] = [k; 0%nat] ->
  distinct_upto q k ->
  dd q k 0 (fun x => sum (length poly) (fun j => nth j row 0 * meval (nth j poly []) (line x))) = nth t row 0.
Proof.
  intros Hp Ht Et Hq. destruct (polynomial_set_1d_ok 2 k ltac:(lia)) as (l & E & ND & IN & _). rewrite Hp in E. injection E as <-.
  rewrite (dd_sum q k 0 (length poly) (fun j x => nth j row 0 * meval (nth j poly []) (line x))).
  rewrite (sum_ext _ _ (fun j => nth j row 0 * (if (j =? t)%nat then 1 else 0))).
  - rewrite (sum_single _ _ t Ht) by (intros j _ Nj; rewrite (proj2 (Nat.eqb_neq j t) Nj); ring). rewrite Nat.eqb_refl. ring.
  - intros j Hj. rewrite dd_scal. f_equal.
    assert (M : In (nth j poly []) poly) by (apply nth_In, Hj). apply IN in M. destruct M as [Lm Dm].
    destruct (nth j poly []) as [|a [|b [|]]] eqn:Em; try discriminate Lm. clear Lm.
    rewrite (dd_ext q _ (fun x => if (b =? 0)%nat then x ^ a else 0)) by (intros; apply meval_line).
    cbn in Dm. destruct (Nat.eqb_spec j t) as [->|Nj].
    + rewrite Et in Em. injection Em as <- <-. cbn [Nat.eqb]. apply (proj2 (dd_pow q k Hq k k 0%nat ltac:(lia))). reflexivity.
    + destruct (Nat.eqb_spec b 0) as [->|Nb]; [|apply dd_zero].
      apply (proj1 (dd_pow q k Hq a k 0%nat ltac:(lia))).
      destruct (Nat.eq_dec a k) as [->|]; [|lia]. exfalso. apply Nj.
      apply (proj1 (NoDup_nth poly []) ND j t Hj Ht). congruence.
Qed.

Lemma list_max_ge l k : (1 <= k)%nat -> (forall a, In a l -> (a <= k)%nat) -> (list_max l =? k)%nat = true <-> In k l.
Proof.
  intros Hk H. rewrite Nat.eqb_eq. split.
  - intros E. destruct (in_dec Nat.eq_dec k l) as [I|N]; [exact I|exfalso].
    assert (X : (list_max l <= k - 1)%nat).
    { apply list_max_le, Forall_forall. intros a Ha. specialize (H a Ha). assert (a <> k) by (intros ->; contradiction). lia. }
    lia.
  - intros I. apply Nat.le_antisymm; [apply list_max_le, Forall_forall, H|].
    pose proof (proj1 (list_max_le l (list_max l)) (le_n _)) as F. rewrite Forall_forall in F. apply F, I.
Qed.

Lemma degree_top poly k row t : (1 <= k)%nat -> polynomial_set_1d 2 k = Ok poly -> length row = length poly ->
  (t < length poly)%nat -> nth t poly [] = [k; 0%nat] ->
  (degree_in_x poly row =? k)%nat = if Req_EM_T (nth t row 0) 0 then false else true.
Proof.
  intros Hk Hp Lr Ht Et. destruct (polynomial_set_1d_ok 2 k ltac:(lia)) as (l & E & ND & IN & _). rewrite Hp in E. injection E as <-.
  assert (CI : forall c m, In (c, m) (combine row poly) -> exists j, (j < length poly)%nat /\ c = nth j row 0 /\ m = nth j poly []).
  { intros c m H. destruct (In_nth _ _ (0, []) H) as (j & Hj & Ej). rewrite combine_length, Lr, Nat.min_id in Hj.
    rewrite combine_nth in Ej by exact Lr. exists j. split; [exact Hj|]. injection Ej as <- <-. split; reflexivity. }
  assert (B : forall a, In a (map (fun cm : R * mono => if Req_EM_T (fst cm) 0 then 0%nat else nth 0 (snd cm) 0%nat) (combine row poly)) -> (a <= k)%nat).
  { intros a Ha. apply in_map_iff in Ha. destruct Ha as ([c m] & <- & H). apply CI in H. destruct H as (j & Hj & -> & ->). cbn [fst snd].
    destruct (Req_EM_T _ 0); [lia|]. assert (M : In (nth j poly []) poly) by (apply nth_In, Hj). apply IN in M. destruct M as [Lm Dm].
    destruct (nth j poly []) as [|a [|b [|]]]; try discriminate Lm. cbn in *. lia. }
  destruct (Req_EM_T (nth t row 0) 0) as [Z|N].
  - apply not_true_iff_false. intros D. apply (list_max_ge _ k Hk B) in D. apply in_map_iff in D.
    destruct D as ([c m] & Ea & H). apply CI in H. destruct H as (j & Hj & -> & ->). cbn [fst snd] in Ea.
    destruct (Req_EM_T _ 0) as [|Nc]; [lia|].
    assert (M : In (nth j poly []) poly) by (apply nth_In, Hj). apply IN in M. destruct M as [Lm Dm].
    destruct (nth j poly []) as [|a [|b [|]]] eqn:Em; try discriminate Lm. cbn in Ea, Dm. subst a.
    assert (b = 0)%nat by lia. subst b. apply Nc. replace j with t; [exact Z|].
    apply (proj1 (NoDup_nth poly []) ND t j Ht Hj). congruence.
  - apply (list_max_ge _ k Hk B). apply in_map_iff. exists (nth t row 0, nth t poly []). cbn [fst snd].
    destruct (Req_EM_T (nth t row 0) 0) as [|_]; [contradiction|]. split; [rewrite Et; reflexivity|].
    rewrite <- (combine_nth row poly t 0 []) by exact Lr. apply nth_In. rewrite combine_length, Lr, Nat.min_id. exact Ht.
Qed.

(** the rows of the inverse: coefficients of the dual basis *)
Lemma lagrange_rows vs r k : points 3 2 vs -> map_det CTriangle vs <> 0 -> make_reference CTriangle vs = Ok r -> (1 <= k)%nat ->
  exists dofs poly minv, lagrange_dofs r k "equispaced" = Ok dofs /\ lagrange_poly r k = Ok poly /\ polynomial_set_1d 2 k = Ok poly /\
    inv_LU (dual_matrix (map meval poly) (map point_eval dofs)) = Ok minv /\ length minv = length dofs /\ length dofs = length poly /\
    (forall row, In row minv -> length row = length poly) /\
    forall i j, (i < length dofs)%nat -> (j < length dofs)%nat ->
      sum (length poly) (fun t => nth t (nth j minv []) 0 * meval (nth t poly []) (env_of (fst (nth i dofs ([], (0, 0)%nat))))) =
      if (i =? j)%nat then 1 else 0.
Proof.
  intros Hp HD Hr Hk. assert (Hc : simplex CTriangle) by (right; left; reflexivity).
  destruct (C19_lagrange_basis CTriangle vs r k Hc Hp HD Hr Hk) as (dofs & phi & Hd & Hb & Lphi & Dual & _).
  assert (T : r_type r = CTriangle) by (destruct (shaped_simplex CTriangle vs r 2 Hc Hp Hr) as (_ & T & _); exact T).
  destruct (polynomial_set_1d_ok 2 k ltac:(lia)) as (poly & Hq & _).
  assert (Hlp : lagrange_poly r k = Ok poly) by (unfold lagrange_poly; rewrite T; exact Hq).
  unfold lagrange_basis_functions in Hb. rewrite Hd, Hlp in Hb. cbn [rbind] in Hb. unfold point_basis_functions, get_basis_functions in Hb.
  rewrite !map_length in Hb. destruct (Nat.eqb_spec (length poly) (length dofs)) as [El|]; [|discriminate Hb]. cbn [negb] in Hb.
  assert (SQ : square (length dofs) (dual_matrix (map meval poly) (map point_eval dofs))).
  { split; [unfold dual_matrix; rewrite !map_length; exact El|]. intros row Hrow. unfold dual_matrix in Hrow. apply in_map_iff in Hrow.
    destruct Hrow as (b & <- & _). rewrite !map_length. reflexivity. }
  pose proof (inv_LU_spec _ _ SQ) as I.
  destruct (inv_LU (dual_matrix (map meval poly) (map point_eval dofs))) as [minv|] eqn:Ei; [|discriminate Hb].
  injection Hb as Hb. destruct I as [[Lm Rm] _].
  exists dofs, poly, minv. split; [exact Hd|]. split; [exact Hlp|]. split; [exact Hq|]. split; [exact Ei|]. split; [exact Lm|].
  split; [congruence|]. split; [intros row H; rewrite (Rm row H); congruence|].
  intros i j Hi Hj. rewrite <- (Dual i j Hi Hj). rewrite <- Hb.
  rewrite (nth_indep _ _ ((fun i0 => row_combination (nth i0 minv []) (map meval poly)) 0%nat)) by (rewrite map_length, length_range; exact Hj).
  rewrite (map_nth (fun i0 => row_combination (nth i0 minv []) (map meval poly))). unfold range. rewrite seq_nth by exact Hj. cbn [Nat.add].
  rewrite row_combination_eq by (rewrite map_length, (Rm (nth j minv [])) by (apply nth_In; rewrite Lm; exact Hj); congruence).
  unfold combination. rewrite map_length. apply sum_ext. intros t Ht. f_equal.
  rewrite (nth_indep _ _ (meval [])) by (rewrite map_length; exact Ht). rewrite map_nth. reflexivity.
Qed.

Lemma filter_pair {A B} (f : A -> bool) (g : B -> bool) (a0 : A) (b0 : B) : forall l l', length l = length l' ->
  (forall i, (i < length l)%nat -> f (nth i l a0) = g (nth i l' b0)) -> length (filter f l) = length (filter g l').
Proof.
  induction l as [|a l IH]; intros [|b l'] L H; try discriminate L; [reflexivity|].
  injection L as L. pose proof (H 0%nat ltac:(simpl; lia)) as H0. cbn in H0. cbn [filter]. rewrite H0.
  assert (X : length (filter f l) = length (filter g l')) by (apply IH; [exact L|intros i Hi; apply (H (S i)); simpl; lia]).
  destruct (g b); simpl; rewrite X; reflexivity.
Qed.

Lemma top_index k poly : polynomial_set_1d 2 k = Ok poly -> exists t, (t < length poly)%nat /\ nth t poly [] = [k; 0%nat].
Proof.
  intros Hp. destruct (polynomial_set_1d_ok 2 k ltac:(lia)) as (l & E & ND & IN & _). rewrite Hp in E. injection E as <-.
  assert (I : In [k; 0%nat] poly) by (apply IN; split; [reflexivity|cbn; lia]).
  destruct (In_nth _ _ [] I) as (t & Ht & Et). exists t. split; assumption.
Qed.

(** On the default triangle: the k+1 basis functions of the points on the edge y = 0. *)
(** Order 0: the constant is kept. *)
Lemma aw_extra_zero vs r : points 3 2 vs -> make_reference CTriangle vs = Ok r -> aw_extra r 0 "equispaced" = Ok 1%nat.
Proof.
  intros Hp Hr. assert (Hc : simplex CTriangle) by (right; left; reflexivity).
  assert (T : r_type r = CTriangle) by (destruct (shaped_simplex CTriangle vs r 2 Hc Hp Hr) as (_ & T & _); exact T).
  destruct (C19_lagrange_order_zero CTriangle vs r Hc Hp Hr "equispaced" ltac:(discriminate)) as (p & phi & E & _ & B & _).
  unfold aw_extra. rewrite E. cbn [rbind]. unfold lagrange_poly. rewrite T. change (polynomial_set_1d (tdim CTriangle) 0) with (@Ok (list mono) [[0; 0]%nat]).
  cbn [rbind]. unfold lagrange_basis_functions in B. rewrite E in B. cbn [rbind] in B.
  unfold lagrange_poly in B. rewrite T in B. change (polynomial_set_1d (tdim CTriangle) 0) with (@Ok (list mono) [[0; 0]%nat]) in B.
  cbn [rbind] in B. unfold point_basis_functions, get_basis_functions in B. cbn [negb Nat.eqb length map] in B |- *.
  pose proof (inv_LU_spec 1 (dual_matrix [meval [0; 0]%nat] [point_eval (p, (tdim CTriangle, 0%nat))])
    ltac:(split; [reflexivity|intros row [<-|[]]; reflexivity])) as I.
  destruct (inv_LU _) as [minv|]; [|discriminate B]. destruct I as [[Lm Rm] _]. cbn [rbind].
  destruct minv as [|row [|]]; try discriminate Lm. specialize (Rm row (or_introl eq_refl)).
  destruct row as [|a [|]]; try discriminate Rm. cbn [filter]. unfold degree_in_x. cbn. destruct (Req_EM_T a 0); reflexivity.
Qed.

Lemma aw_extra_default k : aw_extra (default CTriangle) k "equispaced" = Ok (k + 1)%nat.
Proof.
  set (vs := reference_vertices CTriangle).
  assert (Hc : simplex CTriangle) by (right; left; reflexivity).
  assert (Hp : points 3 2 vs) by (split; [reflexivity|repeat constructor]).
  assert (Hr : make_reference CTriangle vs = Ok (default CTriangle)) by reflexivity.
  assert (DET : map_det CTriangle vs <> 0) by (unfold map_det, edge_det2, co, vs; cbn; lra).
  destruct k as [|k'].
  { exact (aw_extra_zero vs _ Hp Hr). }
  assert (Hk1 : (1 <= S k')%nat) by lia. generalize dependent (S k'). clear k'. intros k Hk1.
  destruct (lagrange_rows vs (default CTriangle) k Hp DET Hr Hk1)
    as (dofs & poly & minv & E1 & E2 & E3 & E4 & L1 & L2 & R & D).
  unfold aw_extra. rewrite E1. cbn [rbind]. rewrite E2. cbn [rbind]. rewrite E4. cbn [rbind]. f_equal.
  destruct (top_index k poly E3) as (t & Ht & Et).
  destruct (C19_lagrange_points CTriangle vs _ k Hc Hp DET Hr Hk1) as (dofs' & E1' & ND & IN & _).
  rewrite E1 in E1'. injection E1' as <-.
  set (q := fun j => INR j / INR k).
  assert (Kp : 0 < INR k) by (apply lt_0_INR; lia).
  assert (PT : forall p, In p (map fst dofs) <-> exists a b, (a + b <= k)%nat /\ p = [INR a / INR k; INR b / INR k]).
  { intros p. rewrite IN. split.
    - intros (Lp & l & Ll & Sl & (_ & _ & A)). destruct l as [|l0 [|a [|b [|]]]]; try discriminate Ll. simpl in Sl.
      exists a, b. split; [lia|]. destruct p as [|x [|y [|]]]; try discriminate Lp.
      assert (A0 := A 0%nat ltac:(simpl; lia)). assert (A1 := A 1%nat ltac:(simpl; lia)). cbn in A0, A1.
      unfold sumR in A0, A1; cbn in A0, A1. f_equal; [|f_equal]; lra.
    - intros (a & b & Hab & ->). split; [reflexivity|]. exists [(k - a - b)%nat; a; b]. split; [reflexivity|]. split; [simpl; lia|].
      split; [reflexivity|]. split.
      + unfold sumR. cbn [map fold_right]. replace (k - a - b)%nat with (k - (a + b))%nat by lia. rewrite minus_INR, plus_INR by lia. field. lra.
      + intros j Hj. cbn in Hj. destruct j as [|[|j]]; [| |lia]; unfold sumR; cbn; lra. }
  rewrite (filter_pair _ (fun d : point_dof => if Req_EM_T (nth 1 (fst d) 0) 0 then true else false) [] ([], (0, 0)%nat) minv dofs L1).
  - (* the points with y = 0 *)
    match goal with |- length ?L = _ => transitivity (length (map (fun d : point_dof => fst d) L)); [symmetry; apply map_length|] end.
    assert (F : forall l : list point_dof, map (fun d : point_dof => fst d) (filter (fun d : point_dof => if Req_EM_T (nth 1 (fst d) 0) 0 then true else false) l) =
       filter (fun p => if Req_EM_T (nth 1 p 0) 0 then true else false) (map fst l)).
    { induction l as [|d l IH]; [reflexivity|]. cbn [filter map]. destruct (Req_EM_T (nth 1 (fst d) 0) 0); cbn [map]; rewrite IH; reflexivity. }
    rewrite F. transitivity (length (map (fun a => [INR a / INR k; 0]) (range (k + 1)))); [|rewrite map_length; apply length_range].
    assert (X : forall l l' : list pt, NoDup l -> NoDup l' -> (forall x, In x l <-> In x l') -> length l = length l').
    { intros l l' H H' E. apply Nat.le_antisymm; apply NoDup_incl_length; [exact H| |exact H'|]; intros x Hx; apply E, Hx. }
    apply X.
    + apply NoDup_filter, ND.
    + apply FinFun.Injective_map_NoDup; [|apply NoDup_range]. intros a b E. injection E as E. apply INR_eq.
      apply (Rmult_eq_reg_r (/ INR k)); [exact E|]. apply Rinv_neq_0_compat. lra.
    + intros p. rewrite filter_In, PT, in_map_iff. split.
      * intros [(a & b & Hab & ->) H]. cbn [nth] in H. destruct (Req_EM_T (INR b / INR k) 0) as [Z|]; [|discriminate H].
        exists a. split; [rewrite Z; reflexivity|apply in_range; lia].
      * intros (a & <- & Ha). apply in_range in Ha. split.
        -- exists a, 0%nat. split; [lia|]. cbn [INR]. f_equal. f_equal. field. lra.
        -- cbn [nth]. destruct (Req_EM_T 0 0); [reflexivity|contradiction].
  - intros j Hj. assert (Hj' : (j < length dofs)%nat) by (rewrite <- L1; exact Hj).
    rewrite (degree_top poly k (nth j minv []) t Hk1 E3 (R _ (nth_In _ _ Hj)) Ht Et).
    set (f := fun x => sum (length poly) (fun s => nth s (nth j minv []) 0 * meval (nth s poly []) (line x))).
    assert (V : forall a i, (i < length dofs)%nat -> fst (nth i dofs ([], (0, 0)%nat)) = [INR a / INR k; 0] ->
       f (q a) = if (i =? j)%nat then 1 else 0).
    { intros a i Hi Ep. rewrite <- (D i j Hi Hj'). rewrite Ep. reflexivity. }
    assert (IX : forall a, (a <= k)%nat -> exists i, (i < length dofs)%nat /\ fst (nth i dofs ([], (0, 0)%nat)) = [INR a / INR k; 0]).
    { intros a Ha. assert (I : In [INR a / INR k; 0] (map fst dofs)).
      { apply PT. exists a, 0%nat. split; [lia|]. cbn [INR]. f_equal. f_equal. field. lra. }
      apply in_map_iff in I. destruct I as (d & Ed & Id). destruct (In_nth _ _ ([], (0, 0)%nat) Id) as (i & Hi & Ei).
      exists i. split; [exact Hi|]. rewrite <- Ed. apply f_equal. exact Ei. }
    assert (Qd : forall a b, q a = q b -> a = b).
    { intros a b E. apply INR_eq. apply (Rmult_eq_reg_r (/ INR k)); [exact E|]. apply Rinv_neq_0_compat. lra. }
    assert (Pj : In (fst (nth j dofs ([], (0, 0)%nat))) (map fst dofs)) by (apply in_map, nth_In, Hj').
    apply PT in Pj. destruct Pj as (a0 & b0 & Hab & Ej). rewrite Ej. cbn [nth].
    destruct (Req_EM_T (INR b0 / INR k) 0) as [Z|N].
    + (* on the edge: place this point last *)
      set (q' := fun i => if (i <? a0)%nat then q i else if (i <? k)%nat then q (S i) else q a0).
      assert (Q' : distinct_upto q' k).
      { intros i i' Hi E. unfold q' in E.
        destruct (Nat.ltb_spec i a0); destruct (Nat.ltb_spec i' a0); destruct (Nat.ltb_spec i k); destruct (Nat.ltb_spec i' k);
          try lia; apply Qd in E; lia. }
      assert (NZ : dd q' k 0 f <> 0).
      { apply (dd_last q' k f Q' k 0%nat ltac:(lia)).
        - intros i Hi. assert (X : exists a, (a <= k)%nat /\ a <> a0 /\ q' i = q a).
          { unfold q'. destruct (Nat.ltb_spec i a0); [exists i; repeat split; lia|].
            destruct (Nat.ltb_spec i k); [exists (S i); repeat split; lia|lia]. }
          destruct X as (a & Ha & Na & ->). destruct (IX a Ha) as (i' & Hi' & Ei'). rewrite (V a i' Hi' Ei').
          destruct (Nat.eqb_spec i' j) as [->|]; [|reflexivity]. exfalso. apply Na. rewrite Ei' in Ej. injection Ej as Ej _.
          apply Qd. exact Ej.
        - cbn [Nat.add]. unfold q'. destruct (Nat.ltb_spec k a0); [lia|]. rewrite Nat.ltb_irrefl.
          rewrite (V a0 j Hj'); [rewrite Nat.eqb_refl; lra|]. rewrite Ej, Z. reflexivity. }
      unfold f in NZ. rewrite (top_coefficient poly k (nth j minv []) t q' E3 Ht Et Q') in NZ.
      destruct (Req_EM_T (nth t (nth j minv []) 0) 0); [contradiction|reflexivity].
    + assert (Q : distinct_upto q k) by (intros i i' Hi E; apply Qd in E; lia).
      assert (ZZ : dd q k 0 f = 0).
      { rewrite (dd_ext q f (fun _ => 0)); [apply dd_zero|]. intros a Ha. destruct (IX a ltac:(lia)) as (i & Hi & Ei).
        rewrite (V a i Hi Ei). destruct (Nat.eqb_spec i j) as [->|]; [|reflexivity]. exfalso. apply N. rewrite Ei in Ej. injection Ej as _ Ej. congruence. }
      unfold f in ZZ. rewrite (top_coefficient poly k (nth j minv []) t q E3 Ht Et Q) in ZZ.
      destruct (Req_EM_T (nth t (nth j minv []) 0) 0); [reflexivity|contradiction].
Qed.

(** Order 1 on triangles without a horizontal edge: all three basis functions are kept. *)
Lemma aw_extra_one x0 y0 x1 y1 x2 y2 r : y0 <> y1 -> y1 <> y2 -> y2 <> y0 -> map_det CTriangle [[x0; y0]; [x1; y1]; [x2; y2]] <> 0 ->
  make_reference CTriangle [[x0; y0]; [x1; y1]; [x2; y2]] = Ok r -> aw_extra r 1 "equispaced" = Ok 3%nat.
Proof.
  intros N01 N12 N20 HD Hr.
  destruct (lagrange_rows [[x0; y0]; [x1; y1]; [x2; y2]] r 1 ltac:(split; [reflexivity|repeat constructor]) HD Hr ltac:(lia)) as (dofs & poly & minv & E1 & E2 & E3 & E4 & L1 & L2 & R & D).
  unfold aw_extra. rewrite E1. cbn [rbind]. rewrite E2. cbn [rbind]. rewrite E4. cbn [rbind]. f_equal.
  injection E3 as <-. cbn [length] in *.
  assert (Ed : lagrange_dofs r 1 "equispaced" = Ok (vertex_dofs r)).
  { injection Hr as <-. reflexivity. }
  rewrite E1 in Ed. injection Ed as ->. 
  assert (Rv : r_vertices r = [[x0; y0]; [x1; y1]; [x2; y2]]) by (injection Hr as <-; reflexivity).
  unfold vertex_dofs in *. rewrite Rv in *. cbn [enumerate combine range length seq map fst snd] in *.
  destruct minv as [|m0 [|m1 [|m2 [|]]]]; try discriminate L1.
  assert (RR : forall j, (j < 3)%nat -> (degree_in_x [[0; 0]; [1; 0]; [0; 1]]%nat (nth j [m0; m1; m2] []) =? 1)%nat = true).
  { intros j Hj. rewrite (degree_top [[0; 0]; [1; 0]; [0; 1]]%nat 1 _ 1%nat ltac:(lia) eq_refl (R _ (@nth_In _ j [m0; m1; m2] [] Hj)) ltac:(simpl; lia) eq_refl).
    destruct (Req_EM_T _ 0) as [Z|]; [exfalso|reflexivity].
    pose proof (D 0%nat j ltac:(simpl; lia) Hj) as D0. pose proof (D 1%nat j ltac:(simpl; lia) Hj) as D1. pose proof (D 2%nat j ltac:(simpl; lia) Hj) as D2.
    pose proof (R (nth j [m0; m1; m2] []) (@nth_In _ j [m0; m1; m2] [] Hj)) as Lj.
    destruct (nth j [m0; m1; m2] []) as [|c0 [|c1 [|c2 [|]]]]; try discriminate Lj. cbn in Z. subst c1.
    unfold meval, env_of in D0, D1, D2. cbn in D0, D1, D2. clear R D E4 L1 Lj.
    destruct j as [|[|[|j]]]; [| | |lia]; cbn in D0, D1, D2.
    - assert (X : c2 * (y1 - y2) = 0) by lra. apply Rmult_integral in X. destruct X as [X|X]; [subst; lra|lra].
    - assert (X : c2 * (y0 - y2) = 0) by lra. apply Rmult_integral in X. destruct X as [X|X]; [subst; lra|lra].
    - assert (X : c2 * (y0 - y1) = 0) by lra. apply Rmult_integral in X. destruct X as [X|X]; [subst; lra|lra]. }
  pose proof (RR 0%nat ltac:(lia)) as R0. pose proof (RR 1%nat ltac:(lia)) as R1. pose proof (RR 2%nat ltac:(lia)) as R2. cbn [nth] in R0, R1, R2.
  match goal with |- length (filter ?f _) = _ => set (g := f) end.
  change (g m0 = true) in R0. change (g m1 = true) in R1. change (g m2 = true) in R2. cbn [filter]. rewrite R0, R1, R2. reflexivity.
Qed.
