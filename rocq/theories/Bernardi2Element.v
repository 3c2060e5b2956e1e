(** The Bernardi-Raugel element of order 2 on the default tetrahedron: dual basis and conformity. *)
From Coquelicot Require Import Coquelicot.
From Coq Require Import String Arith Bool ZArith Reals Lia Lra List FunctionalExtensionality.
From Verif Require Import Base PolyLib PolySetsModel PolySetsProofs RTNedelecProofs PropertiesPolySets PolyVec QuadratureModel ReferencesModel ReferencesSpec ReferencesProofs ReferencesGeometry CiarletModel CiarletProofs
  LinAlg ElementModel LagrangeModel UnisolvenceProofs LagrangeProofs LagrangeKey LagrangeUnisolvence PropertiesLagrange PropertiesCiarlet
  LegendreJacobi LegendreIntSpec LegendreIntegrals KmvProofs MomentsInt MomentsParts MomentsRT MomentsBox
  PointsModel PointsSpec PointsProofs PointsElements MomentElementsModel MomentElementsSpec MomentElementsProofs MomentsFacets MomentsRaviart MomentsBDM SerendipityFieldSpaces
  TransitionSpec TransitionProofs BernardiModel BernardiSpec BernardiProofs TaylorModel TaylorProofs TaylorElement Bernardi2Model Bernardi2Spec Bernardi2Proofs.
Import ListNotations.
Local Open Scope R_scope.

(** * Moments of the divergence *)
Definition divm (j : R) (k : nat) : moment_dof :=
  {| mo_domain := default CTetrahedron; mo_limits := slims 3; mo_jacobian := j; mo_f := fun ct => snd ct k; mo_entity := (3, 0)%nat |}.
Lemma diff_Dc k c f : (fun v => diff k f (c, v)) = D k (fun v => f (c, v)).
Proof.
  apply functional_extensionality. intros v. unfold diff, D. cbn [fst snd]. apply Derive_ext. intros s. rewrite with_value_upd. reflexivity.
Qed.
Lemma div_D f v : div 3 f v = sum 3 (fun c => D c (fun v => f (c, v)) v).
Proof.
  unfold div. rewrite rsum_map_range. apply sum_ext. intros c _. exact (f_equal (fun g => g v) (diff_Dc c c f)).
Qed.
Lemma field_component f c : poly_field 3 f -> (c < 3)%nat -> ispoly 3 (fun v => f (c, v)).
Proof. intros [n Hn] Hc. exists n. apply Hn, Hc. Qed.
Lemma ispoly_add u v : ispoly 3 u -> ispoly 3 v -> ispoly 3 (fun x => u x + v x).
Proof.
  intros [n Hn] [n' Hn']. exists (n + n')%nat. apply (poly_space_add _ u v); [apply (degree_weaken 3 n); [lia|exact Hn]|apply (degree_weaken 3 n'); [lia|exact Hn']].
Qed.
Lemma div_value j k f : (k < 3)%nat -> poly_field 3 f -> br2_value (BrDiv (divm j k)) f (div_eval (divm j k) f).
Proof.
  intros Hk Hf. cbn [br2_value].
  assert (P : forall c, (c < 3)%nat -> ispoly 3 (D c (fun v => f (c, v))) /\ forall v, is_partial c (fun v => f (c, v)) v (D c (fun v => f (c, v)) v)) by (intros c Hc; apply D_poly, field_component; assumption).
  exists (fun c => D c (fun v => f (c, v))). split; [intros c v Hc; apply P, Hc|].
  assert (S : ispoly 3 (fun v => sum 3 (fun c => D c (fun v => f (c, v)) v))).
  { cbn [sum]. apply (ispoly_add (fun v => 0 + D 0 (fun v => f (0%nat, v)) v + D 1 (fun v => f (1%nat, v)) v) (D 2 (fun v => f (2%nat, v)))); [|apply P; lia].
    apply (ispoly_add (fun v => 0 + D 0 (fun v => f (0%nat, v)) v) (D 1 (fun v => f (1%nat, v)))); [|apply P; lia].
    apply (ispoly_add (fun v => 0) (D 0 (fun v => f (0%nat, v)))); [exists 0%nat; apply poly_space_zero|apply P; lia]. }
  destruct S as [n Hn].
  assert (I : exists I, iterated_integral (slims 3) (fun t => sum 3 (fun c => D c (fun v => f (c, v)) (point_of (default CTetrahedron) t)) * t k * j) (fun _ => 0) I).
  { apply (iterated_exists 3 (slims 3) (slims_good 3 ltac:(lia)) (n + 1)).
    apply (poly_space_ext _ (fun t => j * (sum 3 (fun c => D c (fun v => f (c, v)) (point_of (default CTetrahedron) t)) * t k))); [intros; ring|]. apply poly_space_scale.
    apply (degree_mul 3 n 1 (fun t => sum 3 (fun c => D c (fun v => f (c, v)) (point_of (default CTetrahedron) t))) (fun t => t k)); [|apply degree_var, Hk].
    apply (pulled_back (default CTetrahedron) 3 3 n (fun v => sum 3 (fun c => D c (fun v => f (c, v)) v))); [reflexivity|exact Hn]. }
  destruct I as [I HI]. replace (div_eval (divm j k) f) with I; [exact HI|]. symmetry. unfold div_eval. apply integral_value. eapply iterated_ext'; [|exact HI]. intros t. cbv beta.
  cbn [divm mo_domain mo_f mo_jacobian snd]. change (gdim (default CTetrahedron)) with 3%nat. rewrite div_D, domain_point_spec. reflexivity.
Qed.
Lemma div_uniq m f f' I J : (forall c v, (c < 3)%nat -> f (c, v) = f' (c, v)) -> br2_value (BrDiv m) f I -> br2_value (BrDiv m) f' J -> I = J.
Proof.
  intros E (g & P & H) (g' & P' & H'). refine (iterated_uniq _ _ _ _ _ _ H'). eapply iterated_ext'; [|exact H]. intros t. cbv beta. do 2 f_equal. apply sum_ext. intros c Hc.
  apply (is_partial_unique c (fun v => f' (c, v)) (point_of (mo_domain m) t)); [|apply P', Hc]. apply (partial_ext c (fun v => f (c, v))); [intros v; apply E, Hc|apply P, Hc].
Qed.
Lemma div_lin m f f' I J a : br2_value (BrDiv m) f I -> br2_value (BrDiv m) f' J -> br2_value (BrDiv m) (fun x => a * f x + f' x) (a * I + J).
Proof.
  intros (g & P & H) (g' & P' & H'). exists (fun c v => a * g c v + g' c v). split.
  - intros c v Hc. apply (partial_plus c (fun v => a * f (c, v)) (fun v => f' (c, v))); [apply partial_scal, P, Hc|apply P', Hc].
  - eapply iterated_ext'; [|apply (iterated_lin _ _ _ _ _ _ a H H')]. intros t. cbv beta. cbn [sum]. ring.
Qed.
Lemma div_linear (W : component_fn -> Prop) j k : (k < 3)%nat -> subspace W -> (forall f, W f -> poly_field 3 f) -> linear_on W (div_eval (divm j k)).
Proof.
  intros Hk HS P. split.
  - intros a u v Hu Hv. apply (div_uniq (divm j k) (fun x => a * u x + v x) (fun x => a * u x + v x)); [reflexivity| |].
    + apply div_value; [exact Hk|]. apply P, HS; assumption.
    + apply div_lin; apply div_value; auto.
  - intros u v E Hu. apply (div_uniq (divm j k) u v); [intros; apply E| |]; apply div_value; auto. apply P. destruct HS as (_ & _ & X). apply (X u v E Hu).
Qed.
(** the derivatives of the interior bubble *)
Definition DB (c : nat) (v : point) : R :=
  match c with
  | O => v 1%nat * v 2%nat * (1 - 2 * v 0%nat - v 1%nat - v 2%nat)
  | S O => v 0%nat * v 2%nat * (1 - v 0%nat - 2 * v 1%nat - v 2%nat)
  | _ => v 0%nat * v 1%nat * (1 - v 0%nat - v 1%nat - 2 * v 2%nat)
  end.
Lemma DB_partial c v : (c < 3)%nat -> is_partial c interior_bubble v (DB c v).
Proof.
  intros Hc. apply (partial_ext c (fun v => v 0%nat * v 1%nat * v 2%nat * (1 - v 0%nat - v 1%nat - v 2%nat))); [intros u; unfold interior_bubble, bubble; cbn; ring|].
  unfold is_partial. apply is_derive_Reals. small c; unfold upd; cbn; [generalize (v 1%nat) (v 2%nat)|generalize (v 0%nat) (v 2%nat)|generalize (v 0%nat) (v 1%nat)]; intros a b; [generalize (v 0%nat)|generalize (v 1%nat)|generalize (v 2%nat)]; intros w; (auto_derive; [exact I|ring]).
Qed.
Lemma int_reval p v : Forall (fun t => length (snd t) = 3%nat) p -> iterated_integral (slims 3) (reval p) v (fold_right (fun t a => fst t * (fprod (snd t) / rfact (mdeg (snd t) + 3)) + a) 0 p).
Proof.
  induction p as [|[c m] p IH]; intros H; [eapply iterated_ext'; [|apply iterated_zero]; reflexivity|]. apply Forall_cons_iff in H. destruct H as [H1 H2]. cbn [fold_right fst snd] in *.
  eapply iterated_ext'; [|apply (iterated_lin _ _ _ _ _ _ c (simplex_mono 3 m v ltac:(lia) H1) (IH H2))]. reflexivity.
Qed.
Lemma rfact6 : rfact 6 = 720.
Proof. rewrite !rfact_S. unfold rfact. cbn. lra. Qed.
Lemma rfact7 : rfact 7 = 5040.
Proof. rewrite rfact_S, rfact6. cbn. lra. Qed.
Definition bump (i : nat) (m : list nat) : list nat := map (fun jx => if (fst jx =? i)%nat then S (snd jx) else snd jx) (enumerate m).
Definition DB_poly (k c : nat) : rpoly :=
  let b := bump k (map (fun i => if (i =? c)%nat then 0 else 1) [0; 1; 2])%nat in
  (1, b) :: map (fun i => (if (i =? c)%nat then -2 else -1, bump i b)) [0; 1; 2]%nat.
Lemma DB_integral k c : (k < 3)%nat -> (c < 3)%nat -> iterated_integral (slims 3) (fun t => DB c t * t k) (fun _ => 0) (if (k =? c)%nat then - / 5040 else 0).
Proof.
  intros Hk Hc. apply (iterated_val _ _ _ (fold_right (fun t a => fst t * (fprod (snd t) / rfact (mdeg (snd t) + 3)) + a) 0 (DB_poly k c))).
  - small k; small c; cbn -[rfact]; rewrite rfact6, rfact7; unfold rfact; cbn; lra.
  - eapply iterated_ext'; [|apply (int_reval (DB_poly k c)); small k; small c; repeat constructor]. intros t. small k; small c; unfold reval, DB_poly, meval; cbn; ring.
Qed.
Lemma DB_local c u v : (forall i, (i < 3)%nat -> u i = v i) -> DB c u = DB c v.
Proof. intros H. unfold DB. rewrite !(H 0%nat), !(H 1%nat), !(H 2%nat) by lia. reflexivity. Qed.
Lemma div_zero j f m k : j <> 0 -> (k < 3)%nat -> (forall c v, (c < 3)%nat -> f (c, v) = m c * interior_bubble v) -> br2_value (BrDiv (divm j k)) f 0 -> m k = 0.
Proof.
  intros Hj Hk E (g & P & H). cbn [divm mo_domain mo_limits mo_f mo_jacobian snd] in H.
  assert (G : forall c v, (c < 3)%nat -> g c v = m c * DB c v).
  { intros c v Hc. apply (is_partial_unique c (fun v => f (c, v)) v); [apply P, Hc|]. apply (partial_ext c (fun v => m c * interior_bubble v)); [intros u; symmetry; apply E, Hc|]. apply partial_scal, DB_partial, Hc. }
  assert (S : iterated_integral (slims 3) (fun t => sum 3 (fun c => g c (point_of (default CTetrahedron) t)) * t k * j) (fun _ => 0) (j * (- / 5040 * m k))).
  { pose proof (DB_integral k 0 Hk ltac:(lia)) as I0. pose proof (DB_integral k 1 Hk ltac:(lia)) as I1. pose proof (DB_integral k 2 Hk ltac:(lia)) as I2.
    pose proof (iterated_lin _ _ _ _ _ _ (j * m 0%nat) I0 (iterated_lin _ _ _ _ _ _ (j * m 1%nat) I1 (iterated_lin _ _ _ _ _ _ (j * m 2%nat) I2 (iterated_zero (slims 3) (fun _ => 0))))) as Y.
    apply (iterated_val _ _ _ _ (j * (- / 5040 * m k))) in Y; [|small k; cbn [Nat.eqb]; ring]. eapply iterated_ext'; [|exact Y]. intros t. cbv beta. cbn [sum].
    rewrite !G by lia. rewrite !(fun c => DB_local c (point_of (default CTetrahedron) t) t) by (intros i Hi; apply (default_points 3 t i ok3 Hi)). ring. }
  pose proof (iterated_uniq _ _ _ _ _ H S) as X. symmetry in X. apply Rmult_integral in X. destruct X as [X|X]; [contradiction|lra].
Qed.

(** * The element *)
Definition data_middles (i : nat) (x : facet_data) : list br_dof :=
  let '(dom, j, n) := x in map (fun ab => BrPoint (middle (nth (fst ab) (reference_vertices CTetrahedron) []) (nth (snd ab) (reference_vertices CTetrahedron) []), map (fun a => a * j) n, (2%nat, i))) (pairs (others 3 i)).
Definition lambda3 : list (fn point) := map (bary 3) (range 4).
Lemma br2_made : exists U X q j, polynomial_set_vector 3 3 2 = Ok U /\ (forall i, (i < 4)%nat -> facts 3 i (X i)) /\ (forall v, q v = 1) /\ j = 1 /\
  make_bernardi_raugel2 (default CTetrahedron) =
  Ok (map field U ++ map (fun i => data_bubble 3 i (X i)) (range 4) ++ br2_interior lambda3,
      map BrLow (flat_map (fun i => data_points 3 i (X i)) (range 4) ++ map BrMoment (map (fun i => data_moment 3 i (X i) q) (range 4)) ++ br2_edges (default CTetrahedron) ++
        flat_map (fun i => data_middles i (X i)) (range 4)) ++ map BrDiv (map (divm j) (range 3))).
Proof.
  destruct (full_set 3 2 ok3) as (U & HU & _). destruct (br_parts 3 ok3) as (X & q & HX & Hq & ID & HL & HB & HP & HM). destruct (default_jacobian 3 ok3) as (j & HJ & Ej).
  exists U, X, q, j. split; [exact HU|]. split; [exact HX|]. split; [exact Hq|]. split; [exact Ej|].
  assert (HF : br2_faces (default CTetrahedron) = Ok (flat_map (fun i => data_middles i (X i)) (range 4))).
  { unfold br2_faces. change (sub_entities (default CTetrahedron) 2) with (Ok (map (others 3) (range 4))). cbn [rbind]. rewrite map_length, length_range.
    rewrite (map_r_ok _ (fun i => data_middles i (X i))); [cbn [rmap]; rewrite flat_map_concat_map; reflexivity|].
    intros i Hi. apply in_range in Hi. specialize (HX i Hi). destruct (X i) as [[dom jj] n]. destruct HX as (F1 & _ & F3 & _ & F5 & _). change (3 - 1)%nat with 2%nat in F1. cbn [simplex_of] in F1. rewrite F1. cbn [rbind]. rewrite F5. cbn [rbind]. rewrite F3. cbn [rbind].
    clear F3 F5. small i; cbn in F1; injection F1 as <-; reflexivity. }
  assert (HD : br2_divs (default CTetrahedron) = Ok (map (divm j) (range 3))).
  { unfold br2_divs. apply map_r_ok. intros i _. change (sub_entity (default CTetrahedron) 3 0 false) with (Ok (default CTetrahedron)). cbn [rbind]. unfold make_moment.
    change (integration_limits (r_type (default CTetrahedron))) with (Ok (slims 3)). cbn [rbind]. cbn [simplex_of] in HJ. rewrite HJ. reflexivity. }
  cbn [simplex_of] in *. unfold make_bernardi_raugel2. change (r_type (default CTetrahedron)) with CTetrahedron. change (tdim CTetrahedron) with 3%nat. unfold only_default. rewrite ID, HU, HL. cbn [rbind].
  rewrite HB. cbn [rbind]. rewrite HP. cbn [rbind]. rewrite HM. cbn [rbind]. rewrite HF. cbn [rbind]. rewrite HD. reflexivity.
Qed.
Lemma br2_edge_value e f : In e (br2_edges (default CTetrahedron)) -> exists a b k, (a < b < 4)%nat /\ e = BrPoint (middle (nth a (reference_vertices CTetrahedron) []) (nth b (reference_vertices CTetrahedron) []), map (fun c => vertex b c - vertex a c) (range 3), (1%nat, k)) /\
  forall I, br_value e f I <-> sum 3 (fun c => f (c, node a b) * (vertex b c - vertex a c)) = I.
Proof.
  intros H. cbn in H. repeat (destruct H as [<-|H]); [exists 2%nat, 3%nat, 0%nat|exists 1%nat, 3%nat, 1%nat|exists 1%nat, 2%nat, 2%nat|exists 0%nat, 3%nat, 3%nat|exists 0%nat, 2%nat, 4%nat|exists 0%nat, 1%nat, 5%nat|destruct H];
    (split; [lia|]); (split; [reflexivity|]); intros I; cbn [br_value dof_value];
    match goal with |- ?A = _ <-> ?B = _ => assert (E : A = B); [|rewrite E; reflexivity] end; apply sum_ext; intros c Hc; small c; exact (Rmult_comm _ _).
Qed.
Lemma br2_edge_in a b f : (a < b < 4)%nat -> exists e, In e (br2_edges (default CTetrahedron)) /\ forall I, br_value e f I <-> sum 3 (fun c => f (c, node a b) * (vertex b c - vertex a c)) = I.
Proof.
  intros H. 
  assert (G : exists k, In (BrPoint (middle (nth a (reference_vertices CTetrahedron) []) (nth b (reference_vertices CTetrahedron) []), map (fun c => vertex b c - vertex a c) (range 3), (1%nat, k))) (br2_edges (default CTetrahedron))).
  { small a; small b; [exists 5%nat|exists 4%nat|exists 3%nat|exists 2%nat|exists 1%nat|exists 0%nat]; cbn; tauto. }
  destruct G as [k G]. eexists. split; [exact G|]. intros I. cbn [br_value dof_value].
  match goal with |- ?A = _ <-> ?B = _ => assert (E : A = B); [|rewrite E; reflexivity] end. rewrite map_length, length_range. apply sum_ext. intros c Hc.
  rewrite (CiarletProofs.nth_map_lt (fun c => vertex b c - vertex a c) (range 3) c 0%nat) by (rewrite length_range; exact Hc). unfold range. rewrite seq_nth by exact Hc. exact (Rmult_comm _ _).
Qed.
Lemma br2_vanish i x q f : (i < 4)%nat -> facts 3 i x -> (forall v, q v = 1) ->
  (forall l, In l (data_points 3 i x) -> br_value l f 0) -> moment_value (data_moment 3 i x q) f 0 -> (forall l, In l (data_middles i x) -> br_value l f 0) -> facet_vanish2 f i.
Proof.
  intros Hi HX Hq HP HM HN. split; [apply (br_vanish 3 i x q f ok3 Hi HX Hq HP HM)|]. intros a b Hab. destruct x as [[dom j] n]. destruct (facet_more 3 i dom j n ok3 Hi HX) as (_ & L & _ & _ & s & Hs & E).
  specialize (HN _ (in_map (fun ab => BrPoint (middle (nth (fst ab) (reference_vertices CTetrahedron) []) (nth (snd ab) (reference_vertices CTetrahedron) []), map (fun a => a * j) n, (2%nat, i))) _ _ Hab)).
  cbn [br_value dof_value fst snd] in HN. apply (sign_zero s _ Hs). rewrite <- HN, map_length, L, <- sum_scal. apply sum_ext. intros c Hc.
  rewrite (CiarletProofs.nth_map_lt (fun b => b * j) n c 0) by (rewrite L; exact Hc). rewrite E by exact Hc. symmetry. exact (eq_trans (Rmult_assoc _ _ _) (f_equal (Rmult s) (Rmult_comm _ _))).
Qed.
Lemma interior_value i c v : (i < 3)%nat -> nth i (br2_interior lambda3) (fun _ => 0) (c, v) = if (c =? i)%nat then interior_bubble v else 0.
Proof.
  intros Hi. unfold br2_interior. rewrite (CiarletProofs.nth_map_lt _ (range 3) i 0%nat) by (rewrite length_range; exact Hi). unfold range. rewrite seq_nth by exact Hi. cbn [Nat.add fst snd].
  destruct (c =? i)%nat; [|reflexivity]. unfold interior_bubble, bubble, lambda3. cbn. ring.
Qed.
Lemma br2_dual : dual_br2 (make_bernardi_raugel2 (default CTetrahedron)) br2_space 37.
Proof.
  destruct br2_made as (U & X & q & jj & HU & HX & Hq & Ejj & HM). assert (Hjj : jj <> 0) by lra. destruct (full_set 3 2 ok3) as (U' & HU' & VI & LU & HUW). rewrite HU in HU'. injection HU' as <-. change (3 * P_dim 3 2)%nat with 30%nat in LU.
  set (bs := map (fun i => data_bubble 3 i (X i)) (range 4)) in *. set (fs := map field U ++ bs ++ br2_interior lambda3) in *.
  set (low := flat_map (fun i => data_points 3 i (X i)) (range 4) ++ map BrMoment (map (fun i => data_moment 3 i (X i) q) (range 4)) ++ br2_edges (default CTetrahedron) ++ flat_map (fun i => data_middles i (X i)) (range 4)) in *.
  set (dofs := map BrLow low ++ map BrDiv (map (divm jj) (range 3))) in *.
  assert (HG : forall l, In l low -> forall m, l = BrMoment m -> exists e, good_moment 3 e m).
  { intros l Hl m ->. unfold low in Hl. rewrite !in_app_iff in Hl. destruct Hl as [Hl|[Hl|[Hl|Hl]]].
    - apply in_flat_map in Hl. destruct Hl as (i & Hi & Hl). destruct (X i) as [[dom j] n]. cbn [data_points] in Hl. apply in_map_iff in Hl. destruct Hl as (v & Hv & _). discriminate.
    - rewrite map_map in Hl. apply in_map_iff in Hl. destruct Hl as (i & Hi & Hl). injection Hi as <-. apply in_range in Hl. exists 2%nat. apply (data_good 3); auto using ok3.
    - unfold br2_edges in Hl. apply in_map_iff in Hl. destruct Hl as (v & Hv & _). discriminate.
    - apply in_flat_map in Hl. destruct Hl as (i & Hi & Hl). destruct (X i) as [[dom j] n]. cbn [data_middles] in Hl. apply in_map_iff in Hl. destruct Hl as (v & Hv & _). discriminate. }
  assert (Bub : exists K, (forall i, (i < 4)%nat -> K i <> 0) /\ forall i, (i < 4)%nat -> forall c v, data_bubble 3 i (X i) (c, v) = if (c <? 3)%nat then K i * bubble 3 (others 3 i) v * facet_direction i c else 0).
  { destruct (finite_choice 0 4 (fun i k => k <> 0 /\ forall c v, data_bubble 3 i (X i) (c, v) = if (c <? 3)%nat then k * bubble 3 (others 3 i) v * facet_direction i c else 0)) as [K HK].
    - intros i Hi. apply (data_bubble_value 3 i (X i) ok3 Hi); auto.
    - exists K. split; intros i Hi; apply HK, Hi. }
  destruct Bub as (K & K0 & HK).
  assert (Lf : length fs = 37%nat) by (unfold fs, bs; rewrite !app_length, !map_length, LU; reflexivity).
  assert (Lm : forall i, In i (range 4) -> length (data_middles i (X i)) = 3%nat) by (intros i Hi; apply in_range in Hi; destruct (X i) as [[dom j] n]; cbn [data_middles]; rewrite map_length; small i; reflexivity).
  assert (Lp : forall i, In i (range 4) -> length (data_points 3 i (X i)) = 3%nat) by (intros i Hi; apply in_range in Hi; apply (data_points_length 3 i (X i) ok3 Hi); auto).
  assert (Ld : length dofs = 37%nat) by (unfold dofs, low; rewrite app_length, !map_length, !app_length, !map_length, (flat_length _ 3 _ Lp), (flat_length _ 3 _ Lm); reflexivity).
  assert (HW : Forall br2_space fs).
  { unfold fs. apply Forall_app. split; [|apply Forall_app; split].
    - apply Forall_map, Forall_forall. intros F HF. destruct (HUW F HF) as [A B]. exists (fun c v => field F (c, v)), (fun _ => 0), (fun _ => 0). split; [exact A|]. split; [|exact B]. intros c v _. cbn [sum]. ring.
    - apply Forall_map, Forall_forall. intros i Hi. apply in_range in Hi. exists (fun _ _ => 0), (fun a => if (a =? i)%nat then K i else 0), (fun _ => 0). split; [intros; apply poly_space_zero|]. split.
      + intros c v Hc. rewrite (HK i Hi c v), (proj2 (Nat.ltb_lt c 3) Hc), (sum_single _ _ i Hi); [rewrite Nat.eqb_refl; ring|]. intros a _ N. rewrite (proj2 (Nat.eqb_neq a i) N). ring.
      + intros c v Hc. rewrite (HK i Hi c v), (proj2 (Nat.ltb_ge c 3) Hc). reflexivity.
    - apply Forall_forall. intros g Hg. destruct (In_nth _ _ (fun _ => 0) Hg) as (i & Hi & <-). change (length (br2_interior lambda3)) with 3%nat in Hi.
      exists (fun _ _ => 0), (fun _ => 0), (fun c => if (c =? i)%nat then 1 else 0). split; [intros; apply poly_space_zero|]. split; intros c v Hc.
      + refine (eq_trans (interior_value i c v Hi) _). fold interior_bubble. destruct (c =? i)%nat; cbn [sum]; ring.
      + refine (eq_trans (interior_value i c v Hi) _). rewrite (proj2 (Nat.eqb_neq c i)) by lia. reflexivity. }
  assert (HZ : forall p k m f, br2_field p k m f -> (forall l, In l dofs -> br2_value l f 0) -> (forall i, (i < 4)%nat -> k i = 0) /\ (forall c v, (c < 3)%nat -> p c v = 0) /\ forall c, (c < 3)%nat -> m c = 0).
  { intros p k m f HF Z.
    assert (ZL : forall l, In l low -> br_value l f 0) by (intros l Hl; apply (Z (BrLow l)); unfold dofs; apply in_app_iff; left; apply in_map, Hl).
    destruct (br2_low_zero p k m f HF) as [Zk Zp].
    - intros i Hi. apply (br2_vanish i (X i) q f Hi (HX i Hi) Hq).
      + intros l Hl. apply ZL. unfold low. rewrite !in_app_iff. left. apply in_flat_map. exists i. split; [apply in_range, Hi|exact Hl].
      + apply (ZL (BrMoment (data_moment 3 i (X i) q))). unfold low. rewrite !in_app_iff. right. left. apply in_map, (in_map (fun i => data_moment 3 i (X i) q)), in_range, Hi.
      + intros l Hl. apply ZL. unfold low. rewrite !in_app_iff. right. right. right. apply in_flat_map. exists i. split; [apply in_range, Hi|exact Hl].
    - intros a b Hab. destruct (br2_edge_in a b f Hab) as (e & He & V). apply V, ZL. unfold low. rewrite !in_app_iff. right. right. left. exact He.
    - split; [exact Zk|]. split; [exact Zp|]. intros c Hc. apply (div_zero jj f m c Hjj Hc).
      + intros a v Ha. rewrite (proj1 (proj2 HF)) by exact Ha. rewrite Zp by exact Ha. rewrite (sum_ext 4 _ (fun _ => 0)); [cbn [sum]; ring|]. intros i Hi. rewrite Zk by exact Hi. ring.
      + apply Z. unfold dofs. apply in_app_iff. right. apply in_map, (in_map (divm jj)), in_range, Hc. }
  assert (EV : forall l f, In l dofs -> br2_space f -> br2_value l f (br2_eval l f)).
  { intros l f Hl Hf. unfold dofs in Hl. apply in_app_iff in Hl. destruct Hl as [Hl|Hl].
    - apply in_map_iff in Hl. destruct Hl as (l' & <- & Hl). apply (br_exists 3); [apply HG, Hl|apply br2_poly, Hf].
    - rewrite map_map in Hl. apply in_map_iff in Hl. destruct Hl as (c & <- & Hc). apply in_range in Hc. apply div_value; [exact Hc|apply br2_poly, Hf]. }
  destruct (square_element br2_space fs (map br2_eval dofs)) as (phi & E & L & D & Wp & Y).
  - apply br2_subspace.
  - apply Forall_map, Forall_forall. intros l Hl. unfold dofs in Hl. apply in_app_iff in Hl. destruct Hl as [Hl|Hl].
    + apply in_map_iff in Hl. destruct Hl as (l' & <- & Hl). destruct l' as [p|m]; [apply dot_linear|]. destruct (HG _ Hl m eq_refl) as [e He]. apply (moment_linear 3 e m _ He). exact br2_poly.
    + rewrite map_map in Hl. apply in_map_iff in Hl. destruct Hl as (c & <- & Hc). apply in_range in Hc. apply div_linear; [exact Hc|apply br2_subspace|exact br2_poly].
  - exact HW.
  - intros c Z.
    assert (HF : br2_field (fun k v => combination c (map field U) (k, v)) (fun i => c (30 + i)%nat * K i) (fun i => c (34 + i)%nat) (combination c fs)).
    { split; [|split].
      - intros k Hk. apply (poly_space_ext _ (fun v => sum (length (map field U)) (fun i => c i * nth i (map field U) (fun _ => 0) (k, v)))); [reflexivity|]. apply sum_poly. intros i Hi. rewrite map_length in Hi.
        apply (poly_space_scale _ (c i) (fun v => nth i (map field U) (fun _ => 0) (k, v))). rewrite (CiarletProofs.nth_map_lt field U i []) by exact Hi. apply HUW; [apply nth_In, Hi|exact Hk].
      - intros k v Hk. refine (eq_trans (combination_app c (map field U) _ (k, v)) _). rewrite map_length, LU, Rplus_assoc. f_equal.
        refine (eq_trans (combination_app (fun i => c (30 + i)%nat) bs (br2_interior lambda3) (k, v)) _). f_equal.
        + unfold combination. change (length bs) with 4%nat. apply sum_ext. intros i Hi. unfold bs.
          rewrite (CiarletProofs.nth_map_lt (fun i => data_bubble 3 i (X i)) (range 4) i 0%nat) by (rewrite length_range; exact Hi). unfold range. rewrite seq_nth by exact Hi. cbn [Nat.add].
          rewrite (HK i Hi k v), (proj2 (Nat.ltb_lt k 3) Hk). ring.
        + unfold combination. change (length (br2_interior lambda3)) with 3%nat. change (length bs) with 4%nat. rewrite (sum_single 3 _ k Hk).
          * refine (eq_trans (f_equal (Rmult (c (34 + k)%nat)) (interior_value k k v Hk)) _). rewrite Nat.eqb_refl. reflexivity.
          * intros i Hi N. refine (eq_trans (f_equal (Rmult _) (interior_value i k v Hi)) _). rewrite (proj2 (Nat.eqb_neq k i)) by auto. ring.
      - intros k v Hk. rewrite Z. reflexivity. }
    destruct (HZ _ _ _ _ HF) as (Zk & Zp & Zm).
    { intros l Hl. assert (Wc : br2_space (combination c fs)) by (eexists; eexists; eexists; exact HF). pose proof (EV l _ Hl Wc) as V.
      assert (W0 : br2_space (fun _ => 0)) by apply br2_subspace.
      unfold dofs in Hl. apply in_app_iff in Hl. destruct Hl as [Hl|Hl].
      - apply in_map_iff in Hl. destruct Hl as (l' & <- & Hl). destruct l' as [p|m]; cbn [br2_value br_value] in *.
        + destruct p as [[p u] e]. cbn [dof_value]. rewrite (sum_ext _ _ (fun _ => 0)); [apply sum_zero; reflexivity|]. intros a _. rewrite Z. ring.
        + unfold moment_value. eapply iterated_ext'; [|apply iterated_zero]. intros t. cbv beta. rewrite (sum_ext _ _ (fun _ => 0)); [rewrite sum_zero by reflexivity; ring|]. intros a _. rewrite Z. ring.
      - rewrite map_map in Hl. apply in_map_iff in Hl. destruct Hl as (a & <- & Ha). exists (fun _ _ => 0). split.
        + intros b v Hb. apply (partial_ext b (fun _ => 0)); [intros u; symmetry; apply Z|]. apply (derivable_pt_lim_const 0 (v b)).
        + eapply iterated_ext'; [|apply iterated_zero]. intros t. cbv beta. cbn [sum]. ring. }
    intros i Hi. change (i < length fs)%nat in Hi. rewrite Lf in Hi. destruct (Nat.lt_ge_cases i 30) as [H|H]; [|destruct (Nat.lt_ge_cases i 34) as [H'|H']].
    + apply (vindep_comb U VI); [|rewrite LU; exact H]. intros [k v]. destruct (Nat.lt_ge_cases k 3) as [Hk|Hk]; [apply Zp, Hk|].
      unfold combination. rewrite map_length. rewrite (sum_ext _ _ (fun _ => 0)); [apply sum_zero; reflexivity|]. intros a Ha. rewrite (CiarletProofs.nth_map_lt field U a []) by exact Ha.
      rewrite (proj2 (HUW _ (nth_In U [] Ha)) k v Hk). ring.
    + assert (Hb : (i - 30 < 4)%nat) by lia. specialize (Zk _ Hb). cbv beta in Zk. replace (30 + (i - 30))%nat with i in Zk by lia. apply Rmult_integral in Zk. destruct Zk as [Zk|Zk]; [exact Zk|destruct (K0 _ Hb Zk)].
    + assert (Hb : (i - 34 < 3)%nat) by lia. specialize (Zm _ Hb). cbv beta in Zm. replace (34 + (i - 34))%nat with i in Zm by lia. exact Zm.
  - rewrite map_length. exact (eq_trans Lf (eq_sym Ld)).
  - intros f (p & k & m & HF) Z. assert (Wf : br2_space f) by (exists p, k, m; exact HF). destruct (HZ p k m f HF) as (Zk & Zp & Zm).
    { intros l Hl. rewrite <- (Z (br2_eval l) (in_map _ _ _ Hl)). apply EV; assumption. }
    destruct HF as (_ & E & B). intros [c v]. destruct (Nat.lt_ge_cases c 3) as [Hc|Hc]; [|apply B, Hc]. rewrite E, Zp, Zm by exact Hc.
    rewrite (sum_ext _ _ (fun _ => 0)); [cbn [sum]; ring|]. intros i Hi. rewrite Zk by exact Hi. ring.
  - rewrite map_length in L, D, Y. rewrite Ld in *. exists fs, dofs, phi. split; [exact HM|]. split; [exact E|]. split; [exact Ld|]. split; [exact L|]. rewrite Forall_forall in Wp.
    assert (V : forall i l f, nth_error dofs i = Some l -> br2_space f -> br2_value l f (nth i (map br2_eval dofs) (fun _ => 0) f)).
    { intros i l f Hl Wf. rewrite (nth_error_nth (map br2_eval dofs) i (fun _ => 0) (map_nth_error br2_eval i dofs Hl)). apply EV; [apply (nth_error_In _ _ Hl)|exact Wf]. }
    split; [|split].
    + unfold component_fn in *. intros i j l g Hl Hg. assert (Hi : (i < 37)%nat) by (rewrite <- Ld; apply nth_error_Some; rewrite Hl; discriminate).
      assert (Hj : (j < 37)%nat) by (rewrite <- L; apply nth_error_Some; rewrite Hg; discriminate).
      specialize (D i j Hi Hj). rewrite (nth_error_nth phi j _ Hg) in D. rewrite <- D. apply V; [exact Hl|]. apply Wp, (nth_error_In _ _ Hg).
    + exact Wp.
    + intros f Wf. exists (fun i => nth i (map br2_eval dofs) (fun _ => 0) f). split; [intros i l Hl; apply V; assumption|]. apply Y, Wf.
Qed.
Lemma br2_normal : br2_conforming (make_bernardi_raugel2 (default CTetrahedron)) br2_space.
Proof.
  destruct br2_made as (U & X & q & jj & HU & HX & Hq & Hjj & HM). eexists. eexists. split; [exact HM|]. intros i f Hi (p & k & m & HF) Z v On.
  destruct (br2_facet p k m f i Hi HF) as [Zk Zp]; [|rewrite (br2_on_facet p k m f i v Hi HF On), Zk, (Zp v On); ring].
  assert (ZL : forall l, In l (flat_map (fun i => data_points 3 i (X i)) (range 4) ++ map BrMoment (map (fun i => data_moment 3 i (X i) q) (range 4)) ++ br2_edges (default CTetrahedron) ++ flat_map (fun i => data_middles i (X i)) (range 4)) -> br_entity l = (2, i)%nat -> br_value l f 0).
  { intros l Hl. apply (Z (BrLow l)). apply in_app_iff. left. apply in_map, Hl. }
  apply (br2_vanish i (X i) q f Hi (HX i Hi) Hq).
  - intros l Hl. apply ZL; [rewrite !in_app_iff; left; apply in_flat_map; exists i; split; [apply in_range, Hi|exact Hl]|].
    destruct (X i) as [[dom j] n]. cbn [data_points] in Hl. apply in_map_iff in Hl. destruct Hl as (w & <- & _). reflexivity.
  - apply (ZL (BrMoment (data_moment 3 i (X i) q))); [rewrite !in_app_iff; right; left; apply in_map, (in_map (fun i => data_moment 3 i (X i) q)), in_range, Hi|]. destruct (X i) as [[dom j] n]. reflexivity.
  - intros l Hl. apply ZL; [rewrite !in_app_iff; right; right; right; apply in_flat_map; exists i; split; [apply in_range, Hi|exact Hl]|].
    destruct (X i) as [[dom j] n]. cbn [data_middles] in Hl. apply in_map_iff in Hl. destruct Hl as (w & <- & _). reflexivity.
Qed.

(** * The functionals *)
Lemma node_middle a b : (a < 4)%nat -> (b < 4)%nat -> node a b = middle_point a b.
Proof.
  intros Ha Hb. apply functional_extensionality. intros c. small a; small b; destruct c as [|[|[|[|c]]]]; unfold node, middle_point, middle, env_of; cbn; try destruct c; lra.
Qed.

Lemma br2_functionals_ok : exists poly dofs, make_bernardi_raugel2 (default CTetrahedron) = Ok (poly, dofs) /\ length dofs = 37%nat /\ forall l, In l dofs -> br2_functionals l.
Proof.
  destruct br2_made as (U & X & q & jj & HU & HX & Hq & Ejj & HM). eexists. eexists. split; [exact HM|]. split.
  { destruct br2_dual as (poly & dofs & phi & E & _ & L & _). rewrite HM in E. exact (eq_trans (f_equal (fun r : res br2_element => match r with Ok x => length (snd x) | Err _ => 0%nat end) E) L). }
  intros l Hl. apply in_app_iff in Hl. destruct Hl as [Hl|Hl].
  - apply in_map_iff in Hl. destruct Hl as (l' & <- & Hl). rewrite !in_app_iff in Hl. destruct Hl as [Hl|[Hl|[Hl|Hl]]].
    + left. apply in_flat_map in Hl. destruct Hl as (i & Hi & Hl). apply in_range in Hi. exists l', i. split; [exact Hi|]. split; [reflexivity|].
      destruct (data_point_value 3 i (X i) ok3 Hi (HX i Hi)) as (s & Hs & V). apply V in Hl. destruct Hl as (a & u & Ha & -> & _ & Lu & Eu). split; [reflexivity|]. exists s. split; [exact Hs|]. left. exists a. split; [exact Ha|].
      intros f value. cbn [br2_value br_value]. rewrite (point_value 3 i s a u _ f Lu Eu). replace (env_of (map (vertex a) (seq 0 3))) with (corner 3 a); [split; intros H; symmetry; exact H|].
      apply functional_extensionality. intros c. symmetry. apply corner_vertex; [exact ok3|apply (others_in 3 i), Ha].
    + left. rewrite map_map in Hl. apply in_map_iff in Hl. destruct Hl as (i & <- & Hi). apply in_range in Hi. exists (BrMoment (data_moment 3 i (X i) q)), i. split; [exact Hi|]. split; [reflexivity|]. pose proof (HX i Hi) as HXi.
      split; [destruct (X i) as [[dom j] n]; reflexivity|]. destruct (X i) as [[dom j] n]. destruct (facet_more 3 i dom j n ok3 Hi HXi) as (_ & _ & P & _).
      destruct (data_moment_value 3 i (dom, j, n) q ok3 Hi HXi Hq) as (s & Hs & M). cbn [fst] in M. exists s. split; [exact Hs|]. right. right. exists (slims 2). split; [reflexivity|]. intros f value Wf. cbn [br2_value br_value]. rewrite M.
      assert (XX : forall t, s * sum 3 (fun c => f (c, point_of dom t) * facet_direction i c) = s * sum 3 (fun c => f (c, facet_point 3 i t) * facet_direction i c)).
      { intros t. f_equal. apply sum_ext. intros c Hc. f_equal. destruct (br2_poly f Wf) as [N HN]. apply (degree_local 3 N (fun v => f (c, v)) _ _ (HN c Hc)). intros b Hb. apply P, Hb. }
      split; apply iterated_ext'; intros t; [apply XX|symmetry; apply XX].
    + right. left.
      assert (G : exists a b e, (e < 6)%nat /\ tet_edge e = (a, b) /\ (a < 4)%nat /\ (b < 4)%nat /\ br_entity l' = (1, e)%nat /\ forall f, exists A, (forall I, br_value l' f I <-> A = I) /\ A = sum 3 (fun c => f (c, node a b) * (vertex b c - vertex a c))).
      { cbn in Hl. repeat (destruct Hl as [<-|Hl]); [exists 2%nat, 3%nat, 0%nat|exists 1%nat, 3%nat, 1%nat|exists 1%nat, 2%nat, 2%nat|exists 0%nat, 3%nat, 3%nat|exists 0%nat, 2%nat, 4%nat|exists 0%nat, 1%nat, 5%nat|destruct Hl];
          (split; [lia|]); (split; [reflexivity|]); (split; [lia|]); (split; [lia|]); (split; [reflexivity|]); intros f; eexists; (split; [intros I; cbn [br_value]; apply iff_refl|]); cbn [dof_value length]; apply sum_ext; intros c Hc; small c; exact (Rmult_comm _ _). }
      destruct G as (a & b & e & He & Te & Ha & Hb & En & V). exists a, b, e. split; [exact He|]. split; [exact Te|]. split; [exact En|]. intros f value. cbn [br2_value]. destruct (V f) as (A & V1 & V2).
      rewrite V1, <- (node_middle a b Ha Hb), <- V2. split; intros H; symmetry; exact H.
    + left. apply in_flat_map in Hl. destruct Hl as (i & Hi & Hl). apply in_range in Hi. exists l', i. split; [exact Hi|]. split; [reflexivity|]. pose proof (HX i Hi) as HXi. destruct (X i) as [[dom j] n].
      destruct (facet_more 3 i dom j n ok3 Hi HXi) as (_ & L & _ & _ & s & Hs & E). cbn [data_middles] in Hl. apply in_map_iff in Hl. destruct Hl as ([a b] & <- & Hab). split; [reflexivity|]. exists s. split; [exact Hs|]. right. left.
      destruct (pairs_others i a b Hi Hab) as (Lab & Na & Nb). exists a, b.
      assert (O : forall c, (c < 4)%nat -> c <> i -> In c (others 3 i)) by (intros c Hc N; unfold others; apply filter_In; split; [apply in_seq; lia|]; apply negb_true_iff, Nat.eqb_neq; exact N).
      split; [apply O; [lia|exact Na]|]. split; [apply O; [lia|exact Nb]|]. split; [lia|]. intros f value. cbn [br2_value br_value dof_value fst snd]. rewrite <- (node_middle a b) by lia.
      match goal with |- ?A = _ <-> _ = ?B => assert (EE : A = B); [|rewrite EE; split; intros H; symmetry; exact H] end. rewrite map_length, L, <- sum_scal. apply sum_ext. intros c Hc.
      rewrite (CiarletProofs.nth_map_lt (fun b => b * j) n c 0) by (rewrite L; exact Hc). rewrite E by exact Hc. exact (eq_trans (Rmult_assoc _ _ _) (f_equal (Rmult s) (Rmult_comm _ _))).
  - right. right. rewrite map_map in Hl. apply in_map_iff in Hl. destruct Hl as (k & <- & Hk). apply in_range in Hk. exists k, (slims 3). split; [exact Hk|]. split; [reflexivity|]. split; [reflexivity|]. intros f value Wf. cbn [br2_value].
    assert (G : forall g, (forall c v, (c < 3)%nat -> is_partial c (fun v => f (c, v)) v (g c v)) -> forall t, sum 3 (fun c => g c (point_of (default CTetrahedron) t)) = sum 3 (fun c => g c t)).
    { intros g P t. apply sum_ext. intros c Hc. destruct (D_poly 3 c _ (field_component f c (br2_poly f Wf) Hc)) as [[n Hn] Q].
      rewrite !(fun v => is_partial_unique c _ v _ _ (P c v Hc) (Q v)). apply (degree_local 3 n _ _ _ Hn). intros a Ha. apply (default_points 3 t a ok3 Ha). }
    split; intros (g & P & H); exists g; (split; [exact P|]); (eapply iterated_ext'; [|exact H]); intros t; cbv beta; cbn [divm mo_domain mo_f mo_jacobian snd]; rewrite (G g P), Ejj; ring.
Qed.
Lemma br2_triangle : make_bernardi_raugel2 (default CTriangle) = Err AssertionError.
Proof.
  destruct (full_set 2 2 ltac:(lia)) as (U & HU & _). destruct (br_parts 2 ltac:(lia)) as (X & q & HX & Hq & ID & HL & HB & HP & HM). cbn [simplex_of] in *.
  unfold make_bernardi_raugel2. change (r_type (default CTriangle)) with CTriangle. change (tdim CTriangle) with 2%nat. unfold only_default. rewrite ID, HU, HL. cbn [rbind].
  rewrite HB. cbn [rbind]. rewrite HP. cbn [rbind]. rewrite HM. reflexivity.
Qed.
