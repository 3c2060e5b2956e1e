(** The Bernardi-Raugel element of order 2 on the default tetrahedron: unisolvence. *)
From Coquelicot Require Import Coquelicot.
From Coq Require Import String Arith Bool ZArith Reals Lia Lra List FunctionalExtensionality.
From Verif Require Import Base PolyLib PolySetsModel PolySetsProofs RTNedelecProofs PropertiesPolySets PolyVec QuadratureModel ReferencesModel ReferencesSpec ReferencesProofs ReferencesGeometry CiarletModel CiarletProofs
  LinAlg ElementModel LagrangeModel UnisolvenceProofs LagrangeProofs LagrangeKey LagrangeUnisolvence PropertiesLagrange PropertiesCiarlet
  LegendreJacobi LegendreIntSpec LegendreIntegrals KmvProofs MomentsInt MomentsParts MomentsRT MomentsBox
  PointsModel PointsSpec PointsProofs PointsElements MomentElementsModel MomentElementsSpec MomentElementsProofs MomentsFacets MomentsRaviart MomentsBDM SerendipityFieldSpaces
  TransitionSpec TransitionProofs BernardiModel BernardiSpec BernardiProofs TaylorModel TaylorProofs Bernardi2Model Bernardi2Spec.
Import ListNotations.
Local Open Scope R_scope.

Definition node (a b : nat) : point := env_of (middle (nth a (reference_vertices CTetrahedron) []) (nth b (reference_vertices CTetrahedron) [])).
Definition pairs (l : list nat) : list (nat * nat) := match l with [a; b; c] => [(b, c); (a, c); (a, b)] | _ => [] end.
Definition interior_bubble : sfun := bubble 3 [0; 1; 2; 3]%nat.
Lemma frac_half : frac 2 1 = 1 / 2. Proof. unfold frac. cbn. lra. Qed.
Lemma ok3 : (2 <= 3 <= 3)%nat. Proof. lia. Qed.

(** * Facets *)
(** a quadratic polynomial that is zero at the vertices and the middles of the edges of a face is zero on the face *)
Lemma quad_facet i g : (i < 4)%nat -> degree_space 3 2 g -> (forall j, (j < 4)%nat -> j <> i -> g (corner 3 j) = 0) -> (forall a b, In (a, b) (pairs (others 3 i)) -> g (node a b) = 0) ->
  forall v, on_facet 3 i v -> g v = 0.
Proof.
  intros Hi Hg Zc Zn v On. destruct (facets_exist 3 i ok3 Hi) as (dom & j & n & F). destruct (facet_more 3 i dom j n ok3 Hi F) as (_ & _ & P & _).
  assert (HP : forall t, g (point_of dom t) = 0).
  { assert (Hs : simplex CTriangle) by (right; left; reflexivity). destruct (default_ok _ Hs) as (Hr & Hp & HD & _).
    apply (lagrange_zero CTriangle _ _ 2 (fun t => g (point_of dom t)) Hs Hp Hr HD ltac:(lia)); [apply (pulled_back dom 3 2 2 g); [apply F|exact Hg]|].
    intros p ke Hin.
    assert (G : forall w, (forall c, (c < 3)%nat -> facet_point 3 i (env_of p) c = w c) -> g w = 0 -> g (point_of dom (env_of p)) = 0).
    { intros w Hw Z. rewrite <- Z. apply (degree_local 3 2 g _ _ Hg). intros c Hc. rewrite P by exact Hc. apply Hw, Hc. }
    cbn in Hin. rewrite !frac_half in Hin. repeat (destruct Hin as [Hin|Hin]; [injection Hin as <- <-|]); try destruct Hin;
      small i;
      first [ eapply G; [|apply (Zc 0%nat); [lia|discriminate]]; intros c Hc; small c; unfold facet_point, corner, env_of; cbn; lra
            | eapply G; [|apply (Zc 1%nat); [lia|discriminate]]; intros c Hc; small c; unfold facet_point, corner, env_of; cbn; lra
            | eapply G; [|apply (Zc 2%nat); [lia|discriminate]]; intros c Hc; small c; unfold facet_point, corner, env_of; cbn; lra
            | eapply G; [|apply (Zc 3%nat); [lia|discriminate]]; intros c Hc; small c; unfold facet_point, corner, env_of; cbn; lra
            | eapply G; [|eapply Zn; left; reflexivity]; intros c Hc; small c; unfold facet_point, node, middle, env_of; cbn; lra
            | eapply G; [|eapply Zn; right; left; reflexivity]; intros c Hc; small c; unfold facet_point, node, middle, env_of; cbn; lra
            | eapply G; [|eapply Zn; right; right; left; reflexivity]; intros c Hc; small c; unfold facet_point, node, middle, env_of; cbn; lra ]. }
  destruct F as (_ & _ & _ & _ & _ & _ & _ & _ & _ & On'). destruct (On' v On) as [t Ht]. rewrite <- (HP t). apply (degree_local 3 2 g _ _ Hg). intros c Hc. symmetry. apply Ht, Hc.
Qed.
Lemma quad_zero g : degree_space 3 2 g -> (forall j, (j < 4)%nat -> g (corner 3 j) = 0) -> (forall a b, (a < b < 4)%nat -> g (node a b) = 0) -> forall v, g v = 0.
Proof.
  intros Hg Zc Zn. assert (Hs : simplex CTetrahedron) by (right; right; reflexivity). destruct (default_ok _ Hs) as (Hr & Hp & HD & _).
  apply (lagrange_zero CTetrahedron _ _ 2 g Hs Hp Hr HD ltac:(lia) Hg). intros p ke Hin.
  assert (G : forall w, (forall c, (c < 3)%nat -> env_of p c = w c) -> g w = 0 -> g (env_of p) = 0).
  { intros w Hw Z. rewrite <- Z. apply (degree_local 3 2 g _ _ Hg). exact Hw. }
  cbn in Hin. rewrite !frac_half in Hin. repeat (destruct Hin as [Hin|Hin]; [injection Hin as <- <-|]); try destruct Hin;
    let t := (intros c Hc; small c; unfold corner, node, middle, env_of; cbn; lra) in
    first [ eapply G; [|apply (Zc 0%nat); lia]; t | eapply G; [|apply (Zc 1%nat); lia]; t | eapply G; [|apply (Zc 2%nat); lia]; t | eapply G; [|apply (Zc 3%nat); lia]; t
          | eapply G; [|apply (Zn 0%nat 1%nat); lia]; t | eapply G; [|apply (Zn 0%nat 2%nat); lia]; t | eapply G; [|apply (Zn 0%nat 3%nat); lia]; t
          | eapply G; [|apply (Zn 1%nat 2%nat); lia]; t | eapply G; [|apply (Zn 1%nat 3%nat); lia]; t | eapply G; [|apply (Zn 2%nat 3%nat); lia]; t ].
Qed.

(** * The space *)
Definition br2_field (p : nat -> sfun) (k m : nat -> R) (f : component_fn) : Prop :=
  (forall c, (c < 3)%nat -> P_space 3 2 (p c)) /\
  (forall c v, (c < 3)%nat -> f (c, v) = p c v + sum 4 (fun i => k i * bubble 3 (others 3 i) v * facet_direction i c) + m c * interior_bubble v) /\
  (forall c v, (3 <= c)%nat -> f (c, v) = 0).
Lemma interior_degree : degree_space 3 4 interior_bubble.
Proof. apply (bubble_degree 3 [0; 1; 2; 3]%nat). intros i Hi. cbn in Hi. lia. Qed.
Lemma br2_poly f : br2_space f -> poly_field 3 f.
Proof.
  intros (p & k & m & Hp & E & _). exists 4%nat. intros c Hc. apply (poly_space_ext _ (fun v => (p c v + sum 4 (fun i => k i * facet_direction i c * bubble 3 (others 3 i) v)) + m c * interior_bubble v)).
  - intros v. rewrite E by exact Hc. f_equal. f_equal. apply sum_ext. intros; ring.
  - apply (poly_space_add _ (fun v => p c v + sum 4 (fun i => k i * facet_direction i c * bubble 3 (others 3 i) v)) (fun v => m c * interior_bubble v)); [|apply poly_space_scale, interior_degree].
    apply (poly_space_add _ (p c) (fun v => sum 4 (fun i => k i * facet_direction i c * bubble 3 (others 3 i) v))); [apply (degree_weaken 3 2); [lia|apply Hp, Hc]|].
    apply sum_poly. intros i Hi. apply (poly_space_scale _ (k i * facet_direction i c) (bubble 3 (others 3 i))). apply (degree_weaken 3 (length (others 3 i))); [rewrite (others_length 3 i ok3 Hi); lia|]. apply bubble_degree, others_in.
Qed.
Lemma br2_subspace : subspace br2_space.
Proof.
  split; [|split].
  - exists (fun _ _ => 0), (fun _ => 0), (fun _ => 0). split; [intros; apply poly_space_zero|]. split; [|reflexivity]. intros c v _. cbn [sum]. ring.
  - intros a u v (p & k & m & Hp & E & Z) (p' & k' & m' & Hp' & E' & Z'). exists (fun c x => a * p c x + p' c x), (fun i => a * k i + k' i), (fun i => a * m i + m' i). split; [|split].
    + intros c Hc. apply (poly_space_add _ (fun x => a * p c x) (p' c)); [apply poly_space_scale, Hp, Hc|apply Hp', Hc].
    + intros c x Hc. rewrite E, E' by exact Hc. cbn [sum]. ring.
    + intros c x Hc. rewrite Z, Z' by exact Hc. ring.
  - intros u v H (p & k & m & Hp & E & Z). exists p, k, m. split; [exact Hp|]. split; intros c x Hc; rewrite <- H; [apply E|apply Z]; exact Hc.
Qed.
Lemma bubble_node i a b : (i < 4)%nat -> (a < b < 4)%nat -> bubble 3 (others 3 i) (node a b) = 0.
Proof. intros Hi H. small i; small a; small b; unfold bubble, node, middle, env_of; cbn; lra. Qed.
Lemma interior_node a b : (a < b < 4)%nat -> interior_bubble (node a b) = 0.
Proof. intros H. small a; small b; unfold interior_bubble, bubble, node, middle, env_of; cbn; lra. Qed.
Lemma interior_facet i v : (i < 4)%nat -> on_facet 3 i v -> interior_bubble v = 0.
Proof.
  intros Hi On. assert (B : bary 3 i v = 0) by (destruct i; cbn [bary on_facet] in *; lra). unfold interior_bubble, bubble. cbn [fold_right]. small i; rewrite B; ring.
Qed.
Lemma br2_on_facet p k m f i v : (i < 4)%nat -> br2_field p k m f -> on_facet 3 i v ->
  sum 3 (fun c => f (c, v) * facet_direction i c) = sum 3 (fun c => p c v * facet_direction i c) + k i * sum 3 (fun c => facet_direction i c * facet_direction i c) * bubble 3 (others 3 i) v.
Proof.
  intros Hi (_ & E & _) On. transitivity (sum 3 (fun c => p c v * facet_direction i c + k i * bubble 3 (others 3 i) v * (facet_direction i c * facet_direction i c))).
  - apply sum_ext. intros c Hc. rewrite E by exact Hc. rewrite (interior_facet i v Hi On), (sum_single 4 _ i Hi); [ring|]. intros j Hj N. rewrite (bubble_off 3 j i v ok3 Hj Hi N On). ring.
  - rewrite sum_plus, sum_scal. ring.
Qed.
Lemma node_facet i a b : (i < 4)%nat -> (a < b < 4)%nat -> a <> i -> b <> i -> on_facet 3 i (node a b).
Proof. intros Hi H Na Nb. small i; small a; small b; try congruence; unfold node, middle, env_of; cbn; lra. Qed.
Lemma pairs_others i a b : (i < 4)%nat -> In (a, b) (pairs (others 3 i)) -> (a < b < 4)%nat /\ a <> i /\ b <> i.
Proof. intros Hi. small i; cbn; intros H; repeat (destruct H as [H|H]; [injection H as <- <-; lia|]); destruct H. Qed.
Definition facet_vanish2 (f : component_fn) (i : nat) : Prop :=
  facet_vanish 3 f i /\ forall a b, In (a, b) (pairs (others 3 i)) -> sum 3 (fun c => f (c, node a b) * facet_direction i c) = 0.
Lemma br2_facet p k m f i : (i < 4)%nat -> br2_field p k m f -> facet_vanish2 f i ->
  k i = 0 /\ forall v, on_facet 3 i v -> sum 3 (fun c => p c v * facet_direction i c) = 0.
Proof.
  intros Hi HF [[Zc (dom & j & nn & F & I)] Zn].
  assert (Zp : forall v, on_facet 3 i v -> sum 3 (fun c => p c v * facet_direction i c) = 0).
  { apply (quad_facet i (fun v => sum 3 (fun c => p c v * facet_direction i c)) Hi).
    - apply (poly_space_ext _ (fun v => sum 3 (fun c => facet_direction i c * p c v))); [intros x; apply sum_ext; intros; ring|]. apply sum_poly. intros c Hc. apply (poly_space_scale _ (facet_direction i c) (p c)), (proj1 HF), Hc.
    - intros a Ha N. specialize (Zc a Ha N). rewrite (br2_on_facet p k m f i _ Hi HF (corner_facet 3 i a ok3 Hi Ha N)), (bubble_corner 3 i a ok3 Hi Ha) in Zc. lra.
    - intros a b Hab. specialize (Zn a b Hab). destruct (pairs_others i a b Hi Hab) as (L & Na & Nb). rewrite (br2_on_facet p k m f i _ Hi HF (node_facet i a b Hi L Na Nb)), (bubble_node i a b Hi L) in Zn. lra. }
  split; [|exact Zp]. apply (br_coefficient 3 i dom j nn (k i) ok3 Hi F). eapply iterated_ext'; [|exact I]. intros t. cbv beta.
  assert (On : on_facet 3 i (point_of dom t)) by apply F. rewrite (br2_on_facet p k m f i _ Hi HF On), (Zp _ On). ring.
Qed.
Definition edge_vanish (f : component_fn) (a b : nat) : Prop := sum 3 (fun c => f (c, node a b) * (vertex b c - vertex a c)) = 0.
Lemma br2_low_zero p k m f : br2_field p k m f -> (forall i, (i < 4)%nat -> facet_vanish2 f i) -> (forall a b, (a < b < 4)%nat -> edge_vanish f a b) ->
  (forall i, (i < 4)%nat -> k i = 0) /\ forall c v, (c < 3)%nat -> p c v = 0.
Proof.
  intros HF Z Ze. split; [intros i Hi; apply (br2_facet p k m f i Hi HF), Z, Hi|].
  assert (A : forall i v, (i < 4)%nat -> on_facet 3 i v -> sum 3 (fun c => p c v * facet_direction i c) = 0) by (intros i v Hi; apply (br2_facet p k m f i Hi HF), Z, Hi).
  intros c v Hc. revert v. apply quad_zero; [apply HF, Hc| |].
  - intros j Hj. assert (G : forall i, (i < 4)%nat -> i <> j -> sum 3 (fun c => p c (corner 3 j) * facet_direction i c) = 0) by (intros; apply A; [assumption|apply corner_facet; auto; lia]). clear - G Hj Hc.
    small j; small c; pose proof (G 0%nat ltac:(lia)) as G0; pose proof (G 1%nat ltac:(lia)) as G1; pose proof (G 2%nat ltac:(lia)) as G2; pose proof (G 3%nat ltac:(lia)) as G3;
      repeat match goal with H : ?a <> ?a -> _ |- _ => clear H | H : _ <> _ -> _ |- _ => specialize (H ltac:(discriminate)); cbn in H end; lra.
  - intros a b Hab. assert (G : forall i, (i < 4)%nat -> i <> a -> i <> b -> sum 3 (fun c => p c (node a b) * facet_direction i c) = 0) by (intros; apply A; [assumption|apply node_facet; auto]).
    assert (T : sum 3 (fun c => p c (node a b) * (vertex b c - vertex a c)) = 0).
    { rewrite <- (Ze a b Hab). apply sum_ext. intros c' Hc'. f_equal. rewrite (proj1 (proj2 HF)) by exact Hc'. rewrite (interior_node a b Hab). rewrite (sum_ext 4 _ (fun _ => 0)); [cbn [sum]; ring|].
      intros i Hi. rewrite (bubble_node i a b Hi Hab). ring. }
    clear - G T Hab Hc. small a; small b; small c; pose proof (G 0%nat ltac:(lia)) as G0; pose proof (G 1%nat ltac:(lia)) as G1; pose proof (G 2%nat ltac:(lia)) as G2; pose proof (G 3%nat ltac:(lia)) as G3;
      repeat match goal with H : ?a <> ?a -> _ |- _ => clear H | H : _ -> ?a <> ?a -> _ |- _ => clear H | H : _ <> _ -> _ |- _ => specialize (H ltac:(discriminate)); try cbn in H end; cbn in T; lra.
Qed.
