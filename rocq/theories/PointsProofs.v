(** Elements whose degrees of freedom are components of values at points. *)
From Coq Require Import String Arith Bool ZArith Reals Lia Lra List.
From Verif Require Import Base PolyLib PolySetsModel PolySetsProofs QuadratureModel ReferencesModel ReferencesSpec ReferencesProofs CiarletModel CiarletProofs
  LinAlg ElementModel LagrangeModel UnisolvenceProofs LagrangeProofs LagrangeKey LagrangeUnisolvence PropertiesCiarlet PointsModel.
From Verif Require PointsSpec.
Import ListNotations.
Open Scope R_scope.

(** As many independent functions of a space as unisolvent functionals: the element has a dual basis. *)
Lemma square_element {A} (W : fn A -> Prop) (fs : list (fn A)) (dofs : list (fn A -> R)) :
  subspace W -> Forall (linear_on W) dofs -> Forall W fs ->
  (forall c, (forall x, combination c fs x = 0) -> forall i, (i < length fs)%nat -> c i = 0) -> length fs = length dofs ->
  (forall f, W f -> (forall l, In l dofs -> l f = 0) -> forall x, f x = 0) ->
  exists phi, get_basis_functions fs dofs = Ok phi /\ length phi = length dofs /\
    (forall i j, (i < length dofs)%nat -> (j < length dofs)%nat -> nth i dofs (fun _ => 0) (nth j phi (fun _ => 0)) = if (i =? j)%nat then 1 else 0) /\
    Forall W phi /\
    (forall f, W f -> forall x, f x = sum (length dofs) (fun i => nth i dofs (fun _ => 0) f * nth i phi (fun _ => 0) x)).
Proof.
  intros HS Hd Hf I L U.
  destruct (C64_exists_iff_unisolvent A W fs dofs HS Hf Hd) as [_ X]. destruct (X L) as [[_ X1] _]. clear X.
  assert (Us : unisolvent fs dofs).
  { intros c Hc. apply I. apply U; [apply comb_subspace; assumption|].
    intros l Hl. destruct (In_nth dofs l (fun _ => 0) Hl) as (i & Hi & <-). exact (Hc i Hi). }
  destruct (X1 Us) as [phi Hphi].
  destruct (C16_ciarlet_duality A W fs dofs phi HS Hf Hd Hphi) as (L1 & D1 & S1 & R1).
  assert (Wphi : Forall W phi).
  { apply Forall_forall. intros f Hin. destruct (In_nth phi f (fun _ => 0) Hin) as (i & Hi & Ei).
    destruct (proj1 (S1 f)) as [c Hc].
    - exists (fun k => if (k =? i)%nat then 1 else 0). intros v. unfold combination.
      rewrite (sum_single _ _ i) by (auto; intros k _ Nk; rewrite (proj2 (Nat.eqb_neq k i) Nk); ring). rewrite Nat.eqb_refl, Ei. ring.
    - apply (proj2 (proj2 HS) (combination c fs)); [intros x; symmetry; apply Hc|apply comb_subspace; assumption]. }
  assert (Lin : Forall (linear_on W) dofs) by exact Hd. rewrite Forall_forall in Lin.
  exists phi. split; [exact Hphi|]. split; [exact L1|]. split; [exact D1|]. split; [exact Wphi|].
  intros f Hw x. set (g := combination (fun i => dof_value dofs i f) phi).
  assert (Wg : W g) by (apply comb_subspace; assumption).
  assert (E : forall v, - (1) * g v + f v = 0).
  { apply (U (fun v => - (1) * g v + f v)); [apply HS; assumption|]. intros l Hl.
    destruct (Lin l Hl) as [La Le]. rewrite (La (- (1)) g f Wg Hw). destruct (In_nth dofs l (fun _ => 0) Hl) as (i & Hi & Ei).
    assert (Ev : forall h, dof_value dofs i h = l h) by (intros h; exact (f_equal (fun m => m h) Ei)).
    assert (Q : l g = l f); [|rewrite Q; ring]. unfold g. rewrite (comb_linear W l _ phi HS (Lin l Hl) Wphi).
    rewrite L1. rewrite (sum_single _ _ i); [|exact Hi|].
    - pose proof (D1 i i Hi Hi) as D. rewrite Ev in D |- *. rewrite D, Nat.eqb_refl. ring.
    - intros k Hk Nk. pose proof (D1 i k Hi Hk) as D. rewrite Ev in D. rewrite D.
      rewrite (proj2 (Nat.eqb_neq i k)) by auto. ring. }
  specialize (E x). unfold g, combination in E. rewrite L1 in E. unfold dof_value in E. lra.
Qed.

(** * Values *)
Lemma fold_left_Rplus l : forall a, fold_left Rplus l a = a + rsum l.
Proof.
  unfold rsum. induction l as [|x l IH]; intros a; cbn [fold_left]; [ring|]. rewrite (IH (a + x)), (IH (0 + x)). ring.
Qed.
Lemma rsum_cons x l : rsum (x :: l) = x + rsum l.
Proof. unfold rsum at 1. cbn [fold_left]. rewrite fold_left_Rplus. ring. Qed.
Lemma dot_eval_value d f : dot_eval d f = PointsSpec.dof_value d f.
Proof.
  destruct d as [[p u] e]. cbn [dot_eval PointsSpec.dof_value]. unfold enumerate, range. change (fun i => nth i p 0) with (env_of p). generalize (env_of p). intros q.
  assert (G : forall s, rsum (map (fun jc : nat * R => f (fst jc, q) * snd jc) (combine (seq s (length u)) u)) = sum (length u) (fun c => nth c u 0 * f ((s + c)%nat, q))).
  { induction u as [|x u IH]; intros s; [reflexivity|]. cbn [length seq combine map fst snd]. rewrite rsum_cons, IH, sum_S. cbn [nth]. rewrite Nat.add_0_r.
    rewrite Rmult_comm. f_equal. apply sum_ext. intros i _. do 3 f_equal. lia. }
  rewrite G. apply sum_ext. reflexivity.
Qed.
Lemma dot_linear W d : linear_on W (dot_eval d).
Proof.
  split.
  - intros a u v _ _. rewrite !dot_eval_value. destruct d as [[p w] e]. cbn [PointsSpec.dof_value]. rewrite <- sum_scal, <- sum_plus. apply sum_ext. intros i _. ring.
  - intros u v E _. rewrite !dot_eval_value. destruct d as [[p w] e]. cbn [PointsSpec.dof_value]. apply sum_ext. intros i _. rewrite E. reflexivity.
Qed.
(** the vector with entry 1 at place a *)
Definition unit_vec (N a : nat) : list R := map (fun j => if (a =? j)%nat then 1 else 0) (range N).
Lemma unit_vec_length N a : length (unit_vec N a) = N.
Proof. unfold unit_vec. rewrite map_length. apply length_range. Qed.
Lemma unit_value N a p e f : (a < N)%nat -> PointsSpec.dof_value (p, unit_vec N a, e) f = f (a, env_of p).
Proof.
  intros Ha. cbn [PointsSpec.dof_value]. rewrite unit_vec_length. rewrite (sum_single _ _ a Ha).
  - unfold unit_vec. rewrite (nth_map_range (fun j => if (a =? j)%nat then 1 else 0)) by exact Ha. rewrite Nat.eqb_refl. rewrite Rmult_1_l. reflexivity.
  - intros i Hi Ni. unfold unit_vec. rewrite (nth_map_range (fun j => if (a =? j)%nat then 1 else 0)) by exact Hi. rewrite (proj2 (Nat.eqb_neq a i)) by congruence. ring.
Qed.

(** * Combinations of fields *)
Lemma field_arrange sigma F i v : (i < length sigma)%nat -> field (arrange sigma F) (i, v) = field F (nth i sigma 0%nat, v).
Proof.
  intros Hi. unfold field, arrange. cbn [fst snd]. rewrite (CiarletProofs.nth_map_lt (fun k => nth k F []) sigma i 0%nat) by exact Hi. reflexivity.
Qed.
Lemma field_beyond F i v : (length F <= i)%nat -> field F (i, v) = 0.
Proof. intros Hi. unfold field. cbn [fst]. rewrite nth_overflow by exact Hi. reflexivity. Qed.
Lemma field_unit r k m i v : (i < r)%nat -> field (map (fun j => if (k =? j)%nat then [(1%Z, m)] else []) (range r)) (i, v) = if (k =? i)%nat then meval m v else 0.
Proof.
  intros Hi. unfold field. cbn [fst snd]. rewrite (nth_map_range (fun j => if (k =? j)%nat then [(1%Z, m)] else [])) by exact Hi.
  destruct (k =? i)%nat; cbn [zeval fold_right fst snd]; [ring|reflexivity].
Qed.
Lemma comb_vectorise r ms : forall c k v, (k < r)%nat ->
  combination c (map field (vectorise r ms)) (k, v) = sum (length ms) (fun a => c (r * a + k)%nat * meval (nth a ms []) v).
Proof.
  unfold combination. induction ms as [|m ms IH]; intros c k v Hk; [reflexivity|].
  unfold vectorise. cbn [flat_map]. rewrite map_app, app_length, map_length, map_length, length_range. rewrite sum_split.
  cbn [length]. rewrite sum_S. cbn [nth]. rewrite Nat.mul_0_r, Nat.add_0_l. f_equal.
  - rewrite (sum_single _ _ k Hk).
    + rewrite app_nth1 by (rewrite map_length, map_length, length_range; exact Hk). rewrite map_map.
      rewrite (nth_map_range (fun x => field (map (fun j => if (x =? j)%nat then [(1%Z, m)] else []) (range r)))) by exact Hk.
      rewrite field_unit by exact Hk. rewrite Nat.eqb_refl. reflexivity.
    + intros i Hi Ni. rewrite app_nth1 by (rewrite map_length, map_length, length_range; exact Hi). rewrite map_map.
      rewrite (nth_map_range (fun x => field (map (fun j => if (x =? j)%nat then [(1%Z, m)] else []) (range r)))) by exact Hi.
      rewrite field_unit by exact Hk. rewrite (proj2 (Nat.eqb_neq i k) Ni). ring.
  - etransitivity; [|rewrite (sum_ext _ _ (fun a => c (r + (r * a + k))%nat * meval (nth a ms []) v)); [exact (IH (fun i => c (r + i)%nat) k v Hk)|]].
    + apply sum_ext. intros i Hi. rewrite app_nth2 by (rewrite map_length, map_length, length_range; lia).
      rewrite map_length, map_length, length_range. replace (r + i - r)%nat with i by lia. reflexivity.
    + intros a _. cbn [nth]. do 2 f_equal. lia.
Qed.
Lemma comb_arrange sigma c (L : list vpoly) i v : (i < length sigma)%nat ->
  combination c (map field (map (arrange sigma) L)) (i, v) = combination c (map field L) (nth i sigma 0%nat, v).
Proof.
  intros Hi. unfold combination. rewrite !map_length. apply sum_ext. intros j Hj. f_equal. rewrite map_map.
  rewrite (CiarletProofs.nth_map_lt (fun F => field (arrange sigma F)) L j []) by exact Hj. rewrite (CiarletProofs.nth_map_lt field L j []) by exact Hj.
  apply field_arrange, Hi.
Qed.
Lemma comb_indep d ms c : NoDup ms -> (forall m, In m ms -> length m = d) ->
  (forall v, sum (length ms) (fun a => c a * meval (nth a ms []) v) = 0) -> forall a, (a < length ms)%nat -> c a = 0.
Proof.
  intros ND Hl Z. assert (I : independent (map meval ms)) by (apply (monomials_independent d); [exact ND|apply Forall_forall; exact Hl]).
  specialize (I (map c (range (length (map meval ms)))) ltac:(rewrite map_length, length_range; reflexivity)).
  assert (Z2 : forall v, lincomb (map c (range (length (map meval ms)))) (map meval ms) v = 0).
  { intros v. rewrite <- combination_lincomb. unfold combination. rewrite map_length. rewrite <- (Z v). apply sum_ext. intros i Hi.
    rewrite (CiarletProofs.nth_map_lt meval ms i []) by exact Hi. reflexivity. }
  specialize (I Z2). rewrite Forall_forall in I. intros i Hi. apply I. apply in_map, in_range. rewrite map_length. exact Hi.
Qed.

(** * Elements with several components *)
Lemma length_flat {A B} (f : A -> list B) k l : (forall a, length (f a) = k) -> length (flat_map f l) = (k * length l)%nat.
Proof. intros H. induction l as [|a l IH]; [cbn; lia|]. cbn [flat_map length]. rewrite app_length, H, IH. lia. Qed.
Definition arranged (sigma : list nat) (V : sfun -> Prop) (f : component_fn) : Prop :=
  PointsSpec.fields (length sigma) V f /\
  forall i j v, (i < length sigma)%nat -> (j < length sigma)%nat -> nth i sigma 0%nat = nth j sigma 0%nat -> f (i, v) = f (j, v).
Lemma arranged_subspace sigma ok : subspace (arranged sigma (poly_space ok)).
Proof.
  split; [|split].
  - split; [split; [intros; apply poly_space_zero|reflexivity]|reflexivity].
  - intros a u v [[Hu Bu] Eu] [[Hv Bv] Ev]. split; [split|].
    + intros c Hc. apply (poly_space_add ok (fun x => a * u (c, x)) (fun x => v (c, x))); [apply (poly_space_scale ok a (fun x => u (c, x))), Hu, Hc|apply Hv, Hc].
    + intros c x Hc. rewrite Bu, Bv by exact Hc. ring.
    + intros i j x Hi Hj E. rewrite (Eu i j x Hi Hj E), (Ev i j x Hi Hj E). reflexivity.
  - intros u v E [[Hu Bu] Eu]. split; [split|].
    + intros c Hc. apply (poly_space_ext ok (fun x => u (c, x))); [intros x; apply E|apply Hu, Hc].
    + intros c x Hc. rewrite <- E. apply Bu, Hc.
    + intros i j x Hi Hj Es. rewrite <- !E. apply Eu; assumption.
Qed.

Lemma fields_element d r sigma (iota : nat -> nat) (ms : list mono) (ok : mono -> Prop) (dofs : list point_dof) made :
  made = Ok (map (arrange sigma) (vectorise r ms), dot_dofs dofs (map (fun k => unit_vec (length sigma) (iota k)) (range r))) ->
  NoDup ms -> (forall m, In m ms <-> ok m) -> (forall m, ok m -> length m = d) ->
  (forall i, (i < length sigma)%nat -> (nth i sigma 0 < r)%nat) ->
  (forall k, (k < r)%nat -> (iota k < length sigma)%nat /\ nth (iota k) sigma 0%nat = k) ->
  length dofs = length ms ->
  (forall f, poly_space ok f -> (forall p ke, In (p, ke) dofs -> f (env_of p) = 0) -> forall v, f v = 0) ->
  PointsSpec.dual_element made (arranged sigma (poly_space ok)) (r * length ms).
Proof.
  intros -> ND Hin Hlen Hs Hi Ld Z. set (poly := map (arrange sigma) (vectorise r ms)). set (ds := dot_dofs dofs _).
  assert (Lds : length ds = (r * length ms)%nat).
  { unfold ds, dot_dofs. rewrite <- Ld. apply length_flat. intros p. rewrite map_length, map_length. apply length_range. }
  assert (Lv : length (vectorise r ms) = (r * length ms)%nat).
  { unfold vectorise. apply length_flat. intros p. rewrite map_length. apply length_range. }
  assert (Lp : length poly = (r * length ms)%nat) by (unfold poly; rewrite map_length; exact Lv).
  assert (Inds : forall p ke k, In (p, ke) dofs -> (k < r)%nat -> In (p, unit_vec (length sigma) (iota k), ke) ds).
  { intros p ke k Hp Hk. unfold ds, dot_dofs. apply in_flat_map. exists (p, ke). split; [exact Hp|]. cbn [fst snd].
    apply in_map_iff. exists (unit_vec (length sigma) (iota k)). split; [reflexivity|]. apply in_map_iff. exists k. split; [reflexivity|apply in_range, Hk]. }
  destruct (square_element (arranged sigma (poly_space ok)) (map field poly) (map dot_eval ds)) as (phi & E & L & D & F & X).
  - apply arranged_subspace.
  - apply Forall_map, Forall_forall. intros x _. apply dot_linear.
  - apply Forall_map, Forall_forall. intros F HF. unfold poly in HF. apply in_map_iff in HF. destruct HF as (G & <- & HG).
    unfold vectorise in HG. apply in_flat_map in HG. destruct HG as (m & Hm & HG). apply in_map_iff in HG. destruct HG as (k & <- & Hk). apply in_range in Hk.
    split; [split|].
    + intros c Hc. eapply poly_space_ext; [intros v; symmetry; rewrite field_arrange by exact Hc; apply field_unit, Hs, Hc|]. cbn beta.
      destruct (k =? nth c sigma 0)%nat; [apply poly_space_mono, Hin, Hm|apply poly_space_zero].
    + intros c v Hc. apply field_beyond. unfold arrange. rewrite map_length. exact Hc.
    + intros i j v Hi' Hj' Es. rewrite !field_arrange by assumption. rewrite Es. reflexivity.
  - intros c Hc. rewrite map_length, Lp.
    assert (K : forall k, (k < r)%nat -> forall a, (a < length ms)%nat -> c (r * a + k)%nat = 0).
    { intros k Hk. apply (comb_indep d ms (fun a => c (r * a + k)%nat) ND); [intros m Hm; apply Hlen, Hin, Hm|].
      intros v. etransitivity; [symmetry; exact (comb_vectorise r ms c k v Hk)|]. destruct (Hi k Hk) as [H1 H2]. rewrite <- H2 at 1. rewrite <- comb_arrange by exact H1. apply Hc. }
    intros i Hi0. assert (Hr : (r <> 0)%nat) by (intros ->; lia).
    rewrite (Nat.div_mod i r Hr). apply K; [apply Nat.mod_upper_bound, Hr|apply Nat.div_lt_upper_bound; [exact Hr|exact Hi0]].
  - rewrite !map_length. congruence.
  - intros f [[Wf Bf] Ef] Hz [c v]. destruct (lt_dec c (length sigma)) as [Hc|Hc]; [|apply Bf; lia].
    pose proof (Hs c Hc) as Hk. destruct (Hi _ Hk) as [H1 H2]. rewrite (Ef c (iota (nth c sigma 0%nat)) v Hc H1 (eq_sym H2)).
    apply (Z (fun v => f (iota (nth c sigma 0%nat), v))); [apply Wf, H1|]. intros p ke Hp.
    specialize (Hz (dot_eval (p, unit_vec (length sigma) (iota (nth c sigma 0%nat)), ke)) (in_map _ _ _ (Inds p ke _ Hp Hk))).
    rewrite dot_eval_value, unit_value in Hz by exact H1. exact Hz.
  - assert (Dn : forall i, (i < length ds)%nat -> nth i (map dot_eval ds) (fun _ => 0) = dot_eval (nth i ds ([], [], (0, 0)%nat))).
    { intros i Hi'. apply (CiarletProofs.nth_map_lt dot_eval ds i ([], [], (0, 0)%nat)). exact Hi'. }
    rewrite map_length in L, D, X. exists poly, ds, phi. split; [reflexivity|]. split; [exact E|]. split; [exact Lds|]. split; [exact (eq_trans L Lds)|]. split; [|split].
    + unfold component_fn in *. intros i j dd g Ei Ej. assert (Hi1 : (i < length ds)%nat) by (apply nth_error_Some; intros N; rewrite N in Ei; discriminate Ei).
      assert (Hj1 : (j < length ds)%nat) by (rewrite <- L; apply nth_error_Some; intros N; rewrite N in Ej; discriminate Ej).
      specialize (D i j Hi1 Hj1). rewrite (Dn i Hi1) in D. rewrite (nth_error_nth ds i _ Ei), (nth_error_nth phi j _ Ej) in D. rewrite dot_eval_value in D. exact D.
    + rewrite Forall_forall in F. exact F.
    + intros f Wf x. rewrite (X f Wf x), Lds. apply sum_ext. intros i Hi1. rewrite Dn by (rewrite Lds; exact Hi1). rewrite dot_eval_value. reflexivity.
Qed.
