(** The conforming Crouzeix-Raviart elements. *)
From Coq Require Import String Arith Bool ZArith Reals Lia Lra List.
From Verif Require Import Base PolyLib PolySetsModel PolySetsProofs ReferencesModel ReferencesSpec ReferencesProofs ReferencesGeometry CiarletModel CiarletProofs
  LinAlg ElementModel LagrangeModel UnisolvenceProofs LagrangeProofs LagrangeKey LagrangeUnisolvence PropertiesLagrange PropertiesCiarlet
  PointsModel PointsSpec PointsProofs PointsElements PointsPrism.
Import ListNotations.
Open Scope R_scope.

(** * Elements with one component *)
Lemma fields_subspace (V : sfun -> Prop) : CiarletProofs.subspace V -> CiarletProofs.subspace (fields 1 V).
Proof.
  intros (Z & L & E). split; [|split].
  - split; [intros; exact Z|reflexivity].
  - intros a u v [Hu Bu] [Hv Bv]. split.
    + intros c Hc. exact (L a _ _ (Hu c Hc) (Hv c Hc)).
    + intros c x Hc. rewrite Bu, Bv by exact Hc. ring.
  - intros u v X [Hu Bu]. split.
    + intros c Hc. apply (E (fun x => u (c, x))); [intros x; apply X|apply Hu, Hc].
    + intros c x Hc. rewrite <- X. apply Bu, Hc.
Qed.
Lemma one_component_eq dofs : one_component dofs = map (fun pe => (fst pe, [1], snd pe)) dofs.
Proof. unfold one_component, dot_dofs. induction dofs as [|x l IH]; [reflexivity|]. cbn [flat_map map app]. f_equal; exact IH. Qed.
Lemma one_value p e f : dof_value (p, [1], e) f = f (0%nat, env_of p).
Proof. cbn [dof_value length]. rewrite sum_S. cbn [sum nth]. rewrite Rmult_1_l, Rplus_0_r. reflexivity. Qed.
Lemma general_element (V : sfun -> Prop) (ps : list zpoly) (dofs : list point_dof) made :
  made = Ok (map (fun p => [p]) ps, one_component dofs) -> CiarletProofs.subspace V -> Forall (fun p => V (zeval p)) ps ->
  (forall c, (forall v, sum (length ps) (fun i => c i * zeval (nth i ps []) v) = 0) -> forall i, (i < length ps)%nat -> c i = 0) ->
  length dofs = length ps ->
  (forall f, V f -> (forall p ke, In (p, ke) dofs -> f (env_of p) = 0) -> forall v, f v = 0) ->
  dual_element made (fields 1 V) (length ps).
Proof.
  intros -> HV Hps Hind Ld Z. set (poly := map (fun p => [p]) ps). set (ds := one_component dofs).
  assert (Lds : length ds = length ps) by (unfold ds; rewrite one_component_eq, map_length; exact Ld).
  assert (Fz : forall p v, field [p] (0%nat, v) = zeval p v) by reflexivity.
  destruct (square_element (fields 1 V) (map field poly) (map dot_eval ds)) as (phi & E & L & D & F & X).
  - apply fields_subspace, HV.
  - apply Forall_map, Forall_forall. intros x _. apply dot_linear.
  - apply Forall_map, Forall_map. eapply Forall_impl; [|exact Hps]. intros p Hp. split.
    + intros c Hc. replace c with 0%nat by lia. exact Hp.
    + intros c v Hc. apply field_beyond. exact Hc.
  - intros c Hc. unfold poly. rewrite !map_length. apply Hind. intros v. specialize (Hc (0%nat, v)). unfold combination in Hc. unfold poly in Hc. rewrite !map_length in Hc.
    rewrite <- Hc. apply sum_ext. intros i Hi. f_equal. rewrite map_map. rewrite (CiarletProofs.nth_map_lt (fun p => field [p]) ps i []) by exact Hi. reflexivity.
  - unfold poly. rewrite !map_length. symmetry. exact Lds.
  - intros f [Wf Bf] Hz [c v]. destruct c as [|c]; [|apply Bf; lia].
    apply (Z (fun v => f (0%nat, v))); [apply Wf; lia|]. intros p ke Hp.
    assert (I : In (p, [1], ke) ds) by (unfold ds; rewrite one_component_eq; apply in_map_iff; exists (p, ke); auto).
    specialize (Hz _ (in_map dot_eval _ _ I)). rewrite dot_eval_value, one_value in Hz. exact Hz.
  - assert (Dn : forall i, (i < length ds)%nat -> nth i (map dot_eval ds) (fun _ => 0) = dot_eval (nth i ds ([], [], (0, 0)%nat))).
    { intros i Hi'. apply (CiarletProofs.nth_map_lt dot_eval ds i ([], [], (0, 0)%nat)). exact Hi'. }
    rewrite map_length in L, D, X. exists poly, ds, phi. split; [reflexivity|]. split; [exact E|]. split; [exact Lds|]. split; [exact (eq_trans L Lds)|]. split; [|split].
    + unfold component_fn in *. intros i j dd g Ei Ej. assert (Hi1 : (i < length ds)%nat) by (apply nth_error_Some; intros N; rewrite N in Ei; discriminate Ei).
      assert (Hj1 : (j < length ds)%nat) by (rewrite <- L; apply nth_error_Some; intros N; rewrite N in Ej; discriminate Ej).
      specialize (D i j Hi1 Hj1). rewrite (Dn i Hi1) in D. rewrite (nth_error_nth ds i _ Ei), (nth_error_nth phi j _ Ej) in D. rewrite dot_eval_value in D. exact D.
    + rewrite Forall_forall in F. exact F.
    + intros f Wf x. rewrite (X f Wf x), Lds. apply sum_ext. intros i Hi1. rewrite Dn by (rewrite Lds; exact Hi1). rewrite dot_eval_value. reflexivity.
Qed.

(** * Polynomials vanishing on lines *)
Definition pair (x y : R) : point := fun i => match i with O => x | S O => y | _ => 0 end.
Lemma on_pair n f v : degree_space 2 n f -> f v = f (pair (v 0%nat) (v 1%nat)).
Proof. intros H. apply (degree_local 2 n f); [exact H|]. intros j Hj. destruct j as [|[|j]]; [reflexivity|reflexivity|lia]. Qed.

Lemma line_degree n f a0 b0 a1 b1 : degree_space 2 n f -> degree_space 1 n (fun w => f (pair (a0 + b0 * w 0%nat) (a1 + b1 * w 0%nat))).
Proof.
  intros Hf. assert (A : forall a b, degree_space 1 1 (fun w => a + b * w 0%nat)).
  { intros a b. apply (poly_space_add _ (fun _ => a)); [apply degree_const|]. apply (poly_space_scale _ b (fun w => w 0%nat)). apply degree_var. lia. }
  pose proof (degree_subst 2 n 1 f (fun j w => match j with O => a0 + b0 * w 0%nat | S O => a1 + b1 * w 0%nat | _ => 0 end) Hf) as H.
  apply (poly_space_ext _ _ _ (fun w => eq_refl)) in H; [exact H|]. intros j Hj. destruct j as [|[|j]]; [apply A|apply A|lia].
Qed.
Lemma line_zero n f q a0 b0 a1 b1 : degree_space 2 n f -> distinct_upto q n -> (forall k, (k <= n)%nat -> f (pair (a0 + b0 * q k) (a1 + b1 * q k)) = 0) ->
  forall t, f (pair (a0 + b0 * t) (a1 + b1 * t)) = 0.
Proof.
  intros Hf Hq Z t. pose proof (line_degree n f a0 b0 a1 b1 Hf) as H.
  pose proof (simplex_lattice_zero q 1 n _ Hq H) as G.
  specialize (G ltac:(intros m Lm Dm; destruct m as [|k [|]]; try discriminate Lm; cbn [mdeg] in Dm; cbn [map as_point nth]; apply Z; lia) (fun _ => t)). exact G.
Qed.
(** ... and a polynomial that vanishes on a line apart from two points *)
Lemma line_punctured n f a0 b0 a1 b1 : degree_space 2 n f -> (forall t, t <> 0 -> t <> 1 -> f (pair (a0 + b0 * t) (a1 + b1 * t)) = 0) ->
  forall t, f (pair (a0 + b0 * t) (a1 + b1 * t)) = 0.
Proof.
  intros Hf Z. apply (line_zero n f (fun k => INR k + 2)); [exact Hf| |].
  - intros i j Hij E. assert (X : INR i = INR j) by lra. apply INR_eq in X. lia.
  - intros k _. pose proof (pos_INR k). apply Z; lra.
Qed.
Lemma factor_x m f : degree_space 2 (S m) f -> (forall y, f (pair 0 y) = 0) -> exists g, degree_space 2 m g /\ forall v, f v = v 0%nat * g v.
Proof.
  intros Hf Z. destruct Hf as (p & Fp & Ep).
  set (isz := fun t : R * mono => (nth 0 (snd t) 0 =? 0)%nat). set (low := fun t : R * mono => (fst t, [nth 0 (snd t) 0 - 1; nth 1 (snd t) 0]%nat)).
  assert (M : forall (t : R * mono) v, length (snd t) = 2%nat -> meval (snd t) v = v 0%nat ^ nth 0 (snd t) 0%nat * v 1%nat ^ nth 1 (snd t) 0%nat).
  { intros [c l] v Hl. cbn [snd] in *. destruct l as [|a [|b [|]]]; try discriminate Hl. unfold meval. cbn [meval_from nth]. ring. }
  assert (RC : forall (t : R * mono) q v, reval (t :: q) v = fst t * meval (snd t) v + reval q v) by reflexivity.
  assert (S : forall v, reval p v = reval (filter isz p) v + v 0%nat * reval (map low (filter (fun t => negb (isz t)) p)) v).
  { intros v. clear Z Ep. induction Fp as [|t p [Lt Dt] Fp IH]; [cbn; ring|]. cbn [filter]. rewrite RC, IH.
    destruct (isz t) eqn:I; cbn [negb map]; rewrite !RC; [ring|]. rewrite (M t v Lt), (M (low t) v eq_refl). change (fst (low t)) with (fst t). cbn [low snd nth].
    unfold isz in I. apply Nat.eqb_neq in I. destruct (nth 0 (snd t) 0%nat) as [|e]; [congruence|]. replace (Datatypes.S e - 1)%nat with e by lia. cbn [pow]. ring. }
  assert (K : forall v, reval (filter isz p) v = reval (filter isz p) (pair 0 (v 1%nat))).
  { intros v. clear Z Ep S. induction Fp as [|t p [Lt Dt] Fp IH]; [reflexivity|]. cbn [filter]. destruct (isz t) eqn:I; [|exact IH]. rewrite !RC, IH.
    rewrite !(M t _ Lt). unfold isz in I. apply Nat.eqb_eq in I. rewrite I. reflexivity. }
  exists (reval (map low (filter (fun t => negb (isz t)) p))). split.
  - eexists. split; [|reflexivity]. apply Forall_map, Forall_forall. intros t Ht. apply filter_In in Ht. destruct Ht as [Ht I]. rewrite Forall_forall in Fp. destruct (Fp t Ht) as [Lt Dt].
    split; [reflexivity|]. cbn [low snd]. destruct t as [c l]. cbn [snd] in *. destruct l as [|a [|b [|]]]; try discriminate Lt. unfold isz in I. cbn [snd nth] in *. apply negb_true_iff, Nat.eqb_neq in I. cbn [mdeg] in *. lia.
  - intros v. rewrite Ep, S. pose proof (Z (v 1%nat)) as Z1. rewrite Ep, S, <- K in Z1. cbn [pair] in Z1. rewrite Rmult_0_l, Rplus_0_r in Z1. rewrite Z1. ring.
Qed.
Lemma swap_degree m f : degree_space 2 m f -> degree_space 2 m (fun w => f (pair (w 1%nat) (w 0%nat))).
Proof.
  intros Hf. pose proof (degree_subst 2 m 2 f (fun j w => match j with O => w 1%nat | S O => w 0%nat | _ => 0 end) Hf) as H. apply (poly_space_ext _ _ _ (fun w => eq_refl)) in H; [exact H|].
  intros j Hj. destruct j as [|[|j]]; [apply degree_var; lia|apply degree_var; lia|lia].
Qed.
Lemma third_degree m f : degree_space 2 m f -> degree_space 2 m (fun w => f (pair (1 - w 0%nat - w 1%nat) (w 1%nat))).
Proof.
  intros Hf. pose proof (degree_subst 2 m 2 f (fun j w => match j with O => 1 - w 0%nat - w 1%nat | S O => w 1%nat | _ => 0 end) Hf) as H. apply (poly_space_ext _ _ _ (fun w => eq_refl)) in H; [exact H|].
  intros j Hj. destruct j as [|[|j]]; [|apply degree_var; lia|lia].
  apply (poly_space_ext _ (fun w => (1 + - (1) * w 0%nat) + - (1) * w 1%nat)); [intros; ring|].
  apply poly_space_add; [apply poly_space_add; [apply degree_const|apply (poly_space_scale _ _ (fun w => w 0%nat)), degree_var; lia]|apply (poly_space_scale _ _ (fun w => w 1%nat)), degree_var; lia].
Qed.
Lemma factor_y m f : degree_space 2 (S m) f -> (forall x, f (pair x 0) = 0) -> exists g, degree_space 2 m g /\ forall v, f v = v 1%nat * g v.
Proof.
  intros Hf Z. destruct (factor_x m _ (swap_degree _ _ Hf)) as (g & Hg & E); [intros y; exact (Z y)|]. exists (fun w => g (pair (w 1%nat) (w 0%nat))). split; [apply swap_degree, Hg|].
  intros v. rewrite (on_pair _ f v Hf). specialize (E (pair (v 1%nat) (v 0%nat))). exact E.
Qed.
Lemma factor_third m f : degree_space 2 (S m) f -> (forall t, f (pair (1 - t) t) = 0) -> exists g, degree_space 2 m g /\ forall v, f v = (1 - v 0%nat - v 1%nat) * g v.
Proof.
  intros Hf Z. destruct (factor_x m _ (third_degree _ _ Hf)) as (g & Hg & E).
  - intros y. cbn [pair]. replace (1 - 0 - y) with (1 - y) by ring. apply Z.
  - exists (fun w => g (pair (1 - w 0%nat - w 1%nat) (w 1%nat))). split; [apply third_degree, Hg|].
    intros v. rewrite (on_pair _ f v Hf). specialize (E (pair (1 - v 0%nat - v 1%nat) (v 1%nat))). cbn [pair] in E.
    replace (1 - (1 - v 0%nat - v 1%nat) - v 1%nat) with (v 0%nat) in E by ring. exact E.
Qed.
(** A polynomial that vanishes on the three edges of the reference triangle. *)
Lemma edge_factors n f : (1 <= n)%nat -> degree_space 2 (n + 1) f -> (forall t, f (pair 0 t) = 0) -> (forall t, f (pair t 0) = 0) -> (forall t, f (pair (1 - t) t) = 0) ->
  exists g, (n = 1%nat /\ (forall v, g v = 0) \/ (2 <= n)%nat /\ degree_space 2 (n - 2) g) /\ forall v, f v = v 0%nat * v 1%nat * (1 - v 0%nat - v 1%nat) * g v.
Proof.
  intros Hn Hf Zx Zy Zt. replace (n + 1)%nat with (S n) in Hf by lia. destruct (factor_x n f Hf Zx) as (g1 & H1 & E1).
  destruct n as [|n]; [lia|].
  assert (Z1 : forall x, g1 (pair x 0) = 0).
  { intros x. pose proof (line_punctured _ g1 0 1 0 0 H1) as L. specialize (L ltac:(intros t T0 _; specialize (Zy (0 + 1 * t)); rewrite E1 in Zy; cbn [pair] in Zy; replace (0 + 0 * t) with 0 by ring; apply Rmult_integral in Zy; destruct Zy as [Zy|Zy]; [exfalso; apply T0; lra|exact Zy]) x).
    replace (0 + 1 * x) with x in L by ring. replace (0 + 0 * x) with 0 in L by ring. exact L. }
  destruct (factor_y n g1 H1 Z1) as (g2 & H2 & E2).
  assert (Z2 : forall t, g2 (pair (1 - t) t) = 0).
  { intros t0. pose proof (line_punctured _ g2 1 (- (1)) 0 1 H2) as L. specialize (L ltac:(intros t T0 T1; specialize (Zt t); rewrite E1, E2 in Zt; cbn [pair] in Zt; replace (1 + - (1) * t) with (1 - t) by ring; replace (0 + 1 * t) with t by ring; apply Rmult_integral in Zt; destruct Zt as [Zt|Zt]; [exfalso; apply T1; lra|apply Rmult_integral in Zt; destruct Zt as [Zt|Zt]; [exfalso; apply T0; lra|exact Zt]]) t0).
    replace (1 + - (1) * t0) with (1 - t0) in L by ring. replace (0 + 1 * t0) with t0 in L by ring. exact L. }
  destruct n as [|n].
  - exists (fun _ => 0). split; [left; auto|]. intros v. rewrite E1, E2. rewrite (constant_zero _ g2 (pair (1 - 0) 0)) with (v := v) (2 := H2); [ring| |apply Z2]. intros m [_ D]. lia.
  - destruct (factor_third n g2 H2 Z2) as (g3 & H3 & E3). exists g3. split; [right; split; [lia|]; replace (S (S n) - 2)%nat with n by lia; exact H3|].
    intros v. rewrite E1, E2, E3. ring.
Qed.

(** * The space *)
Definition cr_extra (n k : nat) : sfun := fun v => v 0%nat ^ (k + 1) * v 1%nat ^ (n - (k + 1)) * (v 0%nat + v 1%nat).
Lemma mono2 a b v : meval [a; b] v = v 0%nat ^ a * v 1%nat ^ b.
Proof. unfold meval. cbn [meval_from]. ring. Qed.
Lemma ccr_subspace n : CiarletProofs.subspace (ccr_space n).
Proof.
  split; [|split].
  - exists (fun _ => 0), (fun _ => 0). split; [apply poly_space_zero|]. intros v. rewrite sum_zero; [ring|]. intros; ring.
  - intros a u w (p & c & Hp & Eu) (q & d & Hq & Ew). exists (fun v => a * p v + q v), (fun k => a * c k + d k). split; [apply poly_space_add; [apply poly_space_scale|]; assumption|].
    intros v. rewrite Eu, Ew.
    transitivity (a * p v + q v + (a * sum (n - 1) (fun k => c k * cr_extra n k v) + sum (n - 1) (fun k => d k * cr_extra n k v))); [unfold cr_extra; ring|].
    rewrite <- sum_scal, <- sum_plus. f_equal. apply sum_ext. intros k _. unfold cr_extra. ring.
  - intros u w E (p & c & Hp & Eu). exists p, c. split; [exact Hp|]. intros v. rewrite <- E. apply Eu.
Qed.
Lemma sum_degree m k g : (forall i, (i < k)%nat -> degree_space 2 m (g i)) -> degree_space 2 m (fun v => sum k (fun i => g i v)).
Proof.
  induction k as [|k IH]; intros H; cbn [sum]; [apply poly_space_zero|]. 
  match goal with |- degree_space 2 m (fun v => @?A v + @?B v) => apply (poly_space_add _ A B) end; first [apply IH; intros; apply H; lia|apply H; lia].
Qed.
Lemma ccr_degree n f : ccr_space n f -> degree_space 2 (n + 1) f.
Proof.
  intros (p & c & Hp & E). apply (poly_space_ext _ (fun v => p v + sum (n - 1) (fun k => c k * cr_extra n k v))); [intros v; rewrite E; reflexivity|].
  apply poly_space_add; [apply (degree_weaken 2 n); [lia|exact Hp]|]. apply (sum_degree (n + 1) (n - 1) (fun k v => c k * cr_extra n k v)).
  intros k Hk. apply poly_space_scale. apply (poly_space_ext _ (fun v => meval [k + 1 + 1; n - (k + 1)]%nat v + meval [k + 1; n - (k + 1) + 1]%nat v)).
  - intros v. rewrite !mono2. unfold cr_extra. rewrite !pow_add. ring.
  - apply poly_space_add; apply poly_space_mono; (split; [reflexivity|cbn [mdeg]; lia]).
Qed.

(** * The points *)
Definition cr_dofs (n : nat) : list point_dof :=
  vertex_dofs (default CTriangle) ++ (if (2 <=? n)%nat then ccr_edge_dofs (default CTriangle) n (edges CTriangle) ++ ccr_interior_dofs n else []).
Lemma cr_edge n i a : (i < 3)%nat -> (a <= n)%nat -> (1 <= n)%nat ->
  exists ke p, In (p, ke) (cr_dofs n) /\ length p = 2%nat /\
    env_of p 0%nat = match i with O => 1 - frac n a | S O => 0 | _ => frac n a end /\ env_of p 1%nat = match i with O => frac n a | S O => frac n a | _ => 0 end.
Proof.
  intros Hi Ha Hn.
  assert (V : forall e p, nth_error (r_vertices (default CTriangle)) e = Some p -> In (p, (0%nat, e)) (cr_dofs n)).
  { intros e p H. apply in_or_app. left. apply in_vertex_dofs. auto. }
  destruct (Nat.eq_dec a 0) as [->|A0]; [|destruct (Nat.eq_dec a n) as [->|An]].
  - rewrite frac_0. destruct i as [|[|[|i]]]; [| | |lia].
    + eexists _, _. split; [apply (V 1%nat _ eq_refl)|]. unfold env_of. cbn. split; [reflexivity|]. split; [ring|reflexivity].
    + eexists _, _. split; [apply (V 0%nat _ eq_refl)|]. unfold env_of. cbn. auto.
    + eexists _, _. split; [apply (V 0%nat _ eq_refl)|]. unfold env_of. cbn. auto.
  - rewrite frac_n by lia. destruct i as [|[|[|i]]]; [| | |lia].
    + eexists _, _. split; [apply (V 2%nat _ eq_refl)|]. unfold env_of. cbn. split; [reflexivity|]. split; [ring|reflexivity].
    + eexists _, _. split; [apply (V 2%nat _ eq_refl)|]. unfold env_of. cbn. auto.
    + eexists _, _. split; [apply (V 1%nat _ eq_refl)|]. unfold env_of. cbn. auto.
  - assert (INR n <> 0) by (apply not_0_INR; lia).
    eexists (1%nat, i), _. split.
    + apply in_or_app. right. replace (2 <=? n)%nat with true by (symmetry; apply Nat.leb_le; lia). apply in_or_app. left. unfold ccr_edge_dofs. apply in_flat_map.
      exists (i, nth i (edges CTriangle) []). split; [destruct i as [|[|[|i]]]; [left; reflexivity|right; left; reflexivity|right; right; left; reflexivity|lia]|].
      apply in_map_iff. exists a. split; [reflexivity|]. apply in_range2. lia.
    + unfold env_of. destruct i as [|[|[|i]]]; [| | |lia]; cbn -[INR Rdiv Rplus Rmult Rminus]; (split; [reflexivity|]); unfold frac; rewrite minus_INR by lia; (split; field; assumption).
Qed.
Lemma cr_inside n i j : (1 <= i)%nat -> (1 <= j)%nat -> (i + j <= n)%nat -> In ([INR (3 * i - 1) / INR (3 * n); INR (3 * j - 1) / INR (3 * n)], (2, 0)%nat) (cr_dofs n).
Proof.
  intros Hi Hj Hs. apply in_or_app. right. replace (2 <=? n)%nat with true by (symmetry; apply Nat.leb_le; lia). apply in_or_app. right. apply in_flat_map. exists i. split; [apply in_range2; lia|].
  apply in_map_iff. exists j. split; [reflexivity|]. apply in_range2. lia.
Qed.
(** the traces of the space on the three edges *)
Lemma cr_lines n f i : (1 <= n)%nat -> ccr_space n f -> (i < 3)%nat ->
  (forall a, (a <= n)%nat -> f (pair (match i with O => 1 - frac n a | S O => 0 | _ => frac n a end) (match i with O => frac n a | S O => frac n a | _ => 0 end)) = 0) ->
  forall t, f (pair (match i with O => 1 - t | S O => 0 | _ => t end) (match i with O => t | S O => t | _ => 0 end)) = 0.
Proof.
  intros Hn Wf Hi Ed. destruct Wf as (p & c & Hp & E). change (P_space 2 n p) with (degree_space 2 n p) in Hp.
  assert (X0 : forall k v, (k < n - 1)%nat -> v 0%nat = 0 \/ v 1%nat = 0 -> c k * (v 0%nat ^ (k + 1) * v 1%nat ^ (n - (k + 1)) * (v 0%nat + v 1%nat)) = 0).
  { intros k v Hk H. destruct H as [H|H]; rewrite H, pow_i by lia; ring. }
  destruct i as [|[|[|i]]]; [| | |lia].
  - intros t. set (G := fun v : point => p v + sum (n - 1) (fun k => c k * (v 0%nat ^ (k + 1) * v 1%nat ^ (n - (k + 1))))).
    assert (HG : degree_space 2 n G).
    { apply poly_space_add; [exact Hp|]. apply (sum_degree n (n - 1) (fun k v => c k * (v 0%nat ^ (k + 1) * v 1%nat ^ (n - (k + 1))))). intros k Hk. apply poly_space_scale.
      apply (poly_space_ext _ (meval [k + 1; n - (k + 1)]%nat)); [intros v; apply mono2|]. apply poly_space_mono. split; [reflexivity|cbn [mdeg]; lia]. }
    assert (Q : forall t, f (pair (1 - t) t) = G (pair (1 - t) t)).
    { intros s. rewrite E. unfold G. f_equal. apply sum_ext. intros k _. cbn [pair]. replace (1 - s + s) with 1 by ring. ring. }
    assert (P : forall t, G (pair (1 + - (1) * t) (0 + 1 * t)) = 0).
    { apply (line_zero n G (frac n)); [exact HG|apply frac_distinct; lia|]. intros k Hk. specialize (Ed k Hk). cbn in Ed.
      replace (1 + - (1) * frac n k) with (1 - frac n k) by ring. replace (0 + 1 * frac n k) with (frac n k) by ring. rewrite <- Q. exact Ed. }
    rewrite Q. specialize (P t). replace (1 + - (1) * t) with (1 - t) in P by ring. replace (0 + 1 * t) with t in P by ring. exact P.
  - intros t. assert (P : forall t, p (pair (0 + 0 * t) (0 + 1 * t)) = 0).
    { apply (line_zero n p (frac n)); [exact Hp|apply frac_distinct; lia|]. intros k Hk. specialize (Ed k Hk). cbn in Ed. rewrite E in Ed. rewrite sum_zero in Ed by (intros l Hl; apply X0; [exact Hl|left; reflexivity]).
      replace (0 + 0 * frac n k) with 0 by ring. replace (0 + 1 * frac n k) with (frac n k) by ring. lra. }
    rewrite E. rewrite sum_zero by (intros l Hl; apply X0; [exact Hl|left; reflexivity]). specialize (P t). replace (0 + 0 * t) with 0 in P by ring. replace (0 + 1 * t) with t in P by ring. lra.
  - intros t. assert (P : forall t, p (pair (0 + 1 * t) (0 + 0 * t)) = 0).
    { apply (line_zero n p (frac n)); [exact Hp|apply frac_distinct; lia|]. intros k Hk. specialize (Ed k Hk). cbn in Ed. rewrite E in Ed. rewrite sum_zero in Ed by (intros l Hl; apply X0; [exact Hl|right; reflexivity]).
      replace (0 + 0 * frac n k) with 0 by ring. replace (0 + 1 * frac n k) with (frac n k) by ring. lra. }
    rewrite E. rewrite sum_zero by (intros l Hl; apply X0; [exact Hl|right; reflexivity]). specialize (P t). replace (0 + 0 * t) with 0 in P by ring. replace (0 + 1 * t) with t in P by ring. lra.
Qed.
Lemma cr_zero n f : (1 <= n)%nat -> ccr_space n f -> (forall p ke, In (p, ke) (cr_dofs n) -> f (env_of p) = 0) -> forall v, f v = 0.
Proof.
  intros Hn Wf Z. pose proof (ccr_degree n f Wf) as Hf. 
  assert (Ed : forall i a, (i < 3)%nat -> (a <= n)%nat -> f (pair (match i with O => 1 - frac n a | S O => 0 | _ => frac n a end) (match i with O => frac n a | S O => frac n a | _ => 0 end)) = 0).
  { intros i a Hi Ha. destruct (cr_edge n i a Hi Ha Hn) as (ke & q & Hq & _ & E0 & E1). rewrite <- E0, <- E1, <- (on_pair _ f (env_of q) Hf). exact (Z q ke Hq). }
  destruct (edge_factors n f Hn Hf) as (g & Hg & Eg).
  - exact (cr_lines n f 1 Hn Wf ltac:(lia) (fun a => Ed 1%nat a ltac:(lia))).
  - exact (cr_lines n f 2 Hn Wf ltac:(lia) (fun a => Ed 2%nat a ltac:(lia))).
  - exact (cr_lines n f 0 Hn Wf ltac:(lia) (fun a => Ed 0%nat a ltac:(lia))).
  - assert (Gz : forall v, g v = 0).
    { destruct Hg as [[_ Hg]|[H2 Hg]]; [exact Hg|]. assert (N : 0 < INR n) by (apply lt_0_INR; lia).
      apply (simplex_lattice_zero (fun k => INR (3 * (k + 1) - 1) / INR (3 * n)) 2 (n - 2)); [|exact Hg|].
      - intros i j Hij X. assert (Y : INR (3 * (i + 1) - 1) = INR (3 * (j + 1) - 1)).
        { apply (Rmult_eq_reg_r (/ INR (3 * n))); [exact X|]. apply Rinv_neq_0_compat, not_0_INR. lia. }
        apply INR_eq in Y. lia.
      - intros m Lm Dm. destruct m as [|i [|j [|]]]; try discriminate Lm. cbn [mdeg] in Dm.
        pose proof (Z _ _ (cr_inside n (i + 1) (j + 1) ltac:(lia) ltac:(lia) ltac:(lia))) as H. rewrite Eg in H. cbn [map] in *. unfold env_of in H. unfold as_point. cbn [nth] in H.
        assert (A : forall k, (1 <= k)%nat -> INR (3 * k - 1) / INR (3 * n) = (INR k - 1 / 3) / INR n).
        { intros k Hk. rewrite minus_INR, !mult_INR by lia. simpl. field. lra. }
        assert (B : forall k, 0 < (INR (k + 1) - 1 / 3) / INR n).
        { intros k. rewrite plus_INR. simpl. pose proof (pos_INR k). apply Rdiv_lt_0_compat; lra. }
        assert (C : 0 < 1 - (INR (i + 1) - 1 / 3) / INR n - (INR (j + 1) - 1 / 3) / INR n).
        { assert (INR (i + 1) + INR (j + 1) <= INR n) by (rewrite <- plus_INR; apply le_INR; lia).
          replace (1 - (INR (i + 1) - 1 / 3) / INR n - (INR (j + 1) - 1 / 3) / INR n) with ((INR n - (INR (i + 1) + INR (j + 1)) + 2 / 3) / INR n) by (field; lra). apply Rdiv_lt_0_compat; lra. }
        pose proof (B i) as Bi. pose proof (B j) as Bj. rewrite !A in H by lia. rewrite !A by lia.
        apply Rmult_integral in H. destruct H as [H|H]; [exfalso|exact H].
        pose proof (Rmult_lt_0_compat _ _ (Rmult_lt_0_compat _ _ Bi Bj) C). lra. }
    intros v. rewrite Eg, Gz. ring.
Qed.

(** * Independence *)
Lemma coef_range (f : nat -> rpoly) m : forall k, coef (flat_map f (range k)) m = sum k (fun i => coef (f i) m).
Proof.
  induction k as [|k IH]; [reflexivity|]. unfold range in *. rewrite seq_S, flat_map_app, coef_app, IH. cbn [sum flat_map Nat.add]. rewrite app_nil_r. reflexivity.
Qed.
Lemma reval_range (f : nat -> rpoly) v : forall k, reval (flat_map f (range k)) v = sum k (fun i => reval (f i) v).
Proof.
  induction k as [|k IH]; [reflexivity|]. unfold range in *. rewrite seq_S, flat_map_app, reval_app, IH. cbn [sum flat_map Nat.add]. rewrite app_nil_r. reflexivity.
Qed.
Definition cr_poly (n k : nat) : zpoly := [(1%Z, [k + 1 + 1; n - (k + 1)]%nat); (1%Z, [k + 1; n - (k + 1) + 1]%nat)].
Lemma cr_poly_eval n k v : zeval (cr_poly n k) v = cr_extra n k v.
Proof. unfold cr_poly, cr_extra. cbn [zeval fold_right fst snd]. rewrite !mono2, !pow_add. ring. Qed.
Lemma cr_independent n ms c : NoDup ms -> (forall m, In m ms <-> length m = 2%nat /\ (mdeg m <= n)%nat) ->
  (forall v, sum (length ms) (fun a => c a * meval (nth a ms []) v) + sum (n - 1) (fun k => c (length ms + k)%nat * cr_extra n k v) = 0) ->
  forall i, (i < length ms + (n - 1))%nat -> c i = 0.
Proof.
  intros ND Hin Z. set (d := fun k => c (length ms + k)%nat).
  set (q := flat_map (fun a => [(c a, nth a ms [])]) (range (length ms)) ++ flat_map (fun k => rscale (d k) (z2r (cr_poly n k))) (range (n - 1))).
  assert (Q : forall m, length m = 2%nat -> coef q m = 0).
  { apply poly_identity.
    - apply Forall_app. split.
      + apply Forall_flat_map, Forall_forall. intros a Ha. apply in_range in Ha. constructor; [|constructor]. cbn [snd]. exact (proj1 (proj1 (Hin _) (nth_In ms [] Ha))).
      + apply Forall_flat_map, Forall_forall. intros k _. cbn. repeat (apply Forall_cons; [reflexivity|]). apply Forall_nil.
    - intros v. rewrite <- (Z v). unfold q. rewrite reval_app, !reval_range. f_equal.
      + apply sum_ext. intros a _. cbn [reval fold_right fst snd]. ring.
      + apply sum_ext. intros k _. rewrite reval_rscale, reval_z2r, cr_poly_eval. reflexivity. }
  assert (D : forall k, (k < n - 1)%nat -> d k = 0).
  { induction k as [k IH] using lt_wf_ind. intros Hk. pose proof (Q [k + 1; n - (k + 1) + 1]%nat eq_refl) as C. unfold q in C. rewrite coef_app, !coef_range in C.
    rewrite sum_zero in C.
    - rewrite (sum_single _ _ k Hk) in C.
      + rewrite coef_rscale in C. unfold cr_poly in C. cbn [z2r map coef fold_right fst snd] in C.
        destruct (mono_eq_dec [k + 1 + 1; n - (k + 1)]%nat [k + 1; n - (k + 1) + 1]%nat) as [X|_]; [injection X; lia|].
        destruct (mono_eq_dec [k + 1; n - (k + 1) + 1]%nat [k + 1; n - (k + 1) + 1]%nat) as [_|X]; [|congruence]. lra.
      + intros i Hi Ni. rewrite coef_rscale. destruct (lt_dec i k) as [L|L]; [rewrite (IH i L Hi); ring|].
        unfold cr_poly. cbn [z2r map coef fold_right fst snd].
        destruct (mono_eq_dec [i + 1 + 1; n - (i + 1)]%nat [k + 1; n - (k + 1) + 1]%nat) as [X|_]; [injection X; lia|].
        destruct (mono_eq_dec [i + 1; n - (i + 1) + 1]%nat [k + 1; n - (k + 1) + 1]%nat) as [X|_]; [injection X; lia|]. ring.
    - intros a Ha. cbn [coef fold_right fst snd]. destruct (mono_eq_dec (nth a ms []) _) as [X|_]; [|ring]. exfalso.
      pose proof (proj2 (proj1 (Hin _) (nth_In ms [] Ha))) as M. rewrite X in M. cbn [mdeg] in M. lia. }
  assert (A : forall a, (a < length ms)%nat -> c a = 0).
  { apply (comb_indep 2 ms c ND); [intros m Hm; exact (proj1 (proj1 (Hin m) Hm))|]. intros v. rewrite <- (Z v). rewrite (sum_zero (n - 1)); [ring|].
    intros k Hk. fold (d k). rewrite D by exact Hk. ring. }
  intros i Hi. destruct (lt_dec i (length ms)) as [L|L]; [apply A, L|]. replace i with (length ms + (i - length ms))%nat by lia. apply D. lia.
Qed.

(** * The element *)
Lemma cr_count n : (1 <= n)%nat -> (2 * length (cr_dofs n) = (n + 1) * (n + 2) + 2 * (n - 1))%nat.
Proof.
  intros Hn. unfold cr_dofs. rewrite app_length. change (length (vertex_dofs (default CTriangle))) with 3%nat. destruct (Nat.leb_spec 2 n) as [L|L].
  - rewrite app_length. assert (E1 : length (ccr_edge_dofs (default CTriangle) n (edges CTriangle)) = (3 * (n - 1))%nat).
    { unfold ccr_edge_dofs. cbn [edges enumerate length range seq combine flat_map]. rewrite !app_length, !map_length, !length_range2. cbn [length]. lia. }
    assert (E2 : (2 * length (ccr_interior_dofs n) = n * (n - 1))%nat).
    { unfold ccr_interior_dofs. clear L E1 Hn.
      assert (G : forall k s, (k + s <= n)%nat -> (1 <= s)%nat -> (length (flat_map (fun i => map (fun j => ([INR (3 * i - 1) / INR (3 * n); INR (3 * j - 1) / INR (3 * n)]%R, (2, 0)%nat)) (range2 1 (n + 1 - i))) (seq s k)) * 2 = k * (2 * n + 1 - 2 * s - k))%nat).
      { induction k as [|k IH]; intros s Hs H1; [reflexivity|]. cbn [seq flat_map]. rewrite app_length, map_length, length_range2, Nat.mul_add_distr_r, IH by lia.
        destruct (Nat.eq_dec k 0) as [->|K]; [nia|]. remember (n - s - k)%nat as r. replace n with (r + s + k)%nat by lia. clear. replace (r + s + k + 1 - s - 1)%nat with (r + k)%nat by lia.
        replace (2 * (r + s + k) + 1 - 2 * Datatypes.S s - k)%nat with (2 * r + k - 1)%nat by lia. replace (2 * (r + s + k) + 1 - 2 * s - Datatypes.S k)%nat with (2 * r + k)%nat by lia. destruct (Nat.eq_dec (2 * r + k) 0); nia. }
      destruct n as [|n]; [reflexivity|]. unfold range2. specialize (G n 1%nat ltac:(lia) ltac:(lia)). replace (Datatypes.S n - 1)%nat with n by lia. rewrite Nat.mul_comm. etransitivity; [exact G|]. nia. }
    rewrite E1. destruct n as [|n]; [lia|]. replace (Datatypes.S n - 1)%nat with n in * by lia. nia.
  - replace n with 1%nat by lia. reflexivity.
Qed.
Lemma extra_fields n : map (ccr_extra n) (range2 1 n) = map (fun p => [p]) (map (cr_poly n) (range (n - 1))).
Proof.
  unfold range2, range. rewrite <- seq_shift, !map_map. apply map_ext. intros k. unfold ccr_extra, cr_poly. replace (Datatypes.S k) with (k + 1)%nat by lia. reflexivity.
Qed.
Lemma conforming_cr_dual n : (1 <= n)%nat -> dual_element (make_conforming_cr (default CTriangle) n) (fields 1 (ccr_space n)) ((n + 1) * (n + 2) / 2 + (n - 1)).
Proof.
  intros Hn. destruct (polynomial_set_1d_ok 2 n ltac:(lia)) as (ms & Hq & ND & Hin & _). pose proof (P_dim_length _ _ _ Hq) as Lm. cbn [P_dim] in Lm.
  pose proof (polynomial_set_1d_length 2 n ms Hq) as L2. assert (L3 : (2 * length ms = (n + 1) * (n + 2))%nat) by (destruct L2 as [[X _]|[[_ X]|[X _]]]; [discriminate X|exact X|discriminate X]). clear L2.
  set (ps := map (fun m => [(1%Z, m)]) ms ++ map (cr_poly n) (range (n - 1))).
  assert (Lps : length ps = (length ms + (n - 1))%nat) by (unfold ps; rewrite app_length, !map_length, length_range; reflexivity).
  rewrite <- Lm, <- Lps. apply (general_element (ccr_space n) ps (cr_dofs n)).
  - unfold make_conforming_cr, only_default. rewrite default_is_default by tauto. change (r_type (default CTriangle)) with CTriangle. cbv iota. rewrite Hq. cbn [rbind].
    change (sub_entities (default CTriangle) 1) with (Ok (edges CTriangle)). cbn [rbind]. unfold ps. rewrite map_app, map_map, extra_fields. reflexivity.
  - apply ccr_subspace.
  - apply Forall_app. split; apply Forall_map, Forall_forall.
    + intros m Hm. exists (meval m), (fun _ => 0). split; [apply poly_space_mono; exact (proj1 (Hin m) Hm)|]. intros v. cbn [zeval fold_right fst snd]. rewrite sum_zero; [ring|intros; ring].
    + intros k Hk. apply in_range in Hk. exists (fun _ => 0), (fun i => if (i =? k)%nat then 1 else 0). split; [apply poly_space_zero|]. intros v. rewrite (sum_single _ _ k Hk).
      * rewrite Nat.eqb_refl, cr_poly_eval. unfold cr_extra. ring.
      * intros i _ Ni. rewrite (proj2 (Nat.eqb_neq i k) Ni). ring.
  - intros c Hc i Hi. assert (Hi' : (i < length ms + (n - 1))%nat) by (rewrite <- Lps; exact Hi).
    assert (Hc' : forall v, sum (length ms + (n - 1)) (fun i => c i * zeval (nth i ps []) v) = 0) by (intros v; rewrite <- Lps; apply Hc).
    apply (cr_independent n ms c ND Hin); [|exact Hi']. intros v. rewrite <- (Hc' v), sum_split. f_equal; apply sum_ext; intros a Ha; f_equal; unfold ps.
    + rewrite app_nth1 by (rewrite map_length; exact Ha). transitivity (zeval [(1%Z, nth a ms [])] v); [cbn [zeval fold_right fst snd]; rewrite Rmult_1_l, Rplus_0_r; reflexivity|].
      apply (f_equal (fun p => zeval p v)). symmetry. exact (CiarletProofs.nth_map_lt (fun m => [(1%Z, m)]) ms a [] _ Ha).
    + rewrite app_nth2 by (rewrite map_length; lia). rewrite map_length. replace (length ms + a - length ms)%nat with a by lia. rewrite (nth_map_range (cr_poly n)) by exact Ha. symmetry. apply cr_poly_eval.
  - pose proof (cr_count n Hn). etransitivity; [|symmetry; exact Lps]. lia.
  - intros f Wf Z. apply (cr_zero n f Hn Wf Z).
Qed.
