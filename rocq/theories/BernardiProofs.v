(** Bernardi-Raugel elements of order 1 on the default triangle and tetrahedron. *)
From Coquelicot Require Import Coquelicot.
From Coq Require Import String Arith Bool ZArith Reals Lia Lra List FunctionalExtensionality.
From Verif Require Import Base PolyLib PolySetsModel PolySetsProofs RTNedelecProofs PropertiesPolySets PolyVec QuadratureModel ReferencesModel ReferencesSpec ReferencesProofs ReferencesGeometry CiarletModel CiarletProofs
  LinAlg ElementModel LagrangeModel UnisolvenceProofs LagrangeProofs LagrangeKey LagrangeUnisolvence PropertiesLagrange PropertiesCiarlet
  LegendreJacobi LegendreIntSpec LegendreIntegrals KmvProofs MomentsInt MomentsParts MomentsRT MomentsBox
  PointsModel PointsSpec PointsProofs PointsElements MomentElementsModel MomentElementsSpec MomentElementsProofs MomentsFacets MomentsRaviart MomentsBDM SerendipityFieldSpaces
  TransitionSpec TransitionProofs BernardiModel BernardiSpec.
Import ListNotations.
Local Open Scope R_scope.

Definition corner (d j : nat) : point := env_of (nth j (reference_vertices (simplex_of d)) []).
Lemma two_three d : (2 <= d <= 3)%nat -> d = 2%nat \/ d = 3%nat.
Proof. lia. Qed.
Ltac dims Hd := destruct (two_three _ Hd) as [->| ->].
Ltac small i := destruct i as [|[|[|[|i]]]]; try lia.

(** * Facets *)
Lemma facet_more d i dom j nn : (2 <= d <= 3)%nat -> (i < d + 1)%nat -> facet_facts d i dom j nn ->
  r_vertices dom = map (fun a => nth a (reference_vertices (simplex_of d)) []) (others d i) /\ length nn = d /\
  (forall t c, (c < d)%nat -> point_of dom t c = facet_point d i t c) /\
  (forall t, bubble d (others d i) (point_of dom t) = bubble (d - 1) (range d) t) /\
  exists s, (s = 1 \/ s = -1) /\ forall c, (c < d)%nat -> nth c nn 0 * j = s * facet_direction i c.
Proof.
  intros Hd Hi (F1 & _ & F3 & F4 & F5 & _). dims Hd; small i; cbn in F1; injection F1 as <-; cbn in F3; cbn in F5; injection F3 as <-; injection F5 as <-;
    (split; [reflexivity|]); (split; [reflexivity|]);
    (split; [intros t c Hc; small c; unfold point_of, facet_point; cbn; ring|]);
    (split; [intros t; unfold bubble, point_of; cbn; ring|]).
  all: match goal with |- context [_ / vnorm ?X] => match goal with |- context [fnorm ?Y] => 
    let E := fresh in assert (E : vnorm X = fnorm Y) by (unfold vnorm, fnorm, vdot; cbn; f_equal; ring); rewrite E; clear E; set (j := fnorm Y) in *; clearbody j end end.
  all: first [exists 1; split; [left; reflexivity|]; intros c Hc; small c; cbn; field; exact F4|exists (-1); split; [right; reflexivity|]; intros c Hc; small c; cbn; field; exact F4].
Qed.

(** * The space *)
Definition br_field (d : nat) (p : nat -> sfun) (k : nat -> R) (f : component_fn) : Prop :=
  (forall c, (c < d)%nat -> P_space d 1 (p c)) /\
  (forall c v, (c < d)%nat -> f (c, v) = p c v + sum (d + 1) (fun i => k i * bubble d (others d i) v * facet_direction i c)) /\
  (forall c v, (d <= c)%nat -> f (c, v) = 0).
Lemma bubble_degree d E : (forall i, In i E -> (i <= d)%nat) -> degree_space d (length E) (bubble d E).
Proof.
  induction E as [|a E IH]; intros H; [apply degree_const|]. apply (degree_mul d 1 (length E) (bary d a) (bubble d E)); [apply bary_degree, H; left; reflexivity|].
  apply IH. intros i Hi. apply H. right. exact Hi.
Qed.
Lemma others_in d i a : In a (others d i) -> (a <= d)%nat.
Proof. unfold others. intros H. apply filter_In in H. destruct H as [H _]. apply in_seq in H. lia. Qed.
Lemma others_length d i : (2 <= d <= 3)%nat -> (i < d + 1)%nat -> length (others d i) = d.
Proof. intros Hd Hi. dims Hd; small i; reflexivity. Qed.
Lemma br_poly d f : (2 <= d <= 3)%nat -> br_space d f -> poly_field d f.
Proof.
  intros Hd (p & k & Hp & E & _). exists d. intros c Hc. apply (poly_space_ext _ (fun v => p c v + sum (d + 1) (fun i => k i * facet_direction i c * bubble d (others d i) v))).
  - intros v. rewrite E by exact Hc. f_equal. apply sum_ext. intros; ring.
  - apply (poly_space_add _ (p c) (fun v => sum (d + 1) (fun i => k i * facet_direction i c * bubble d (others d i) v))); [apply (degree_weaken d 1); [lia|apply Hp, Hc]|].
    apply sum_poly. intros i Hi. apply (poly_space_scale _ (k i * facet_direction i c) (bubble d (others d i))). apply (degree_weaken d (length (others d i))); [rewrite (others_length d i Hd Hi); lia|]. apply bubble_degree, others_in.
Qed.
Lemma br_subspace d : subspace (br_space d).
Proof.
  split; [|split].
  - exists (fun _ _ => 0), (fun _ => 0). split; [intros; apply poly_space_zero|]. split; [|reflexivity]. intros c v _. rewrite (sum_ext _ _ (fun _ => 0)); [rewrite sum_zero by reflexivity; ring|]. intros; ring.
  - intros a u v (p & k & Hp & E & Z) (p' & k' & Hp' & E' & Z'). exists (fun c x => a * p c x + p' c x), (fun i => a * k i + k' i). split; [|split].
    + intros c Hc. apply (poly_space_add _ (fun x => a * p c x) (p' c)); [apply poly_space_scale, Hp, Hc|apply Hp', Hc].
    + intros c x Hc. rewrite E, E' by exact Hc. rewrite Rmult_plus_distr_l, <- sum_scal.
      transitivity (a * p c x + p' c x + (sum (d + 1) (fun i => a * (k i * bubble d (others d i) x * facet_direction i c)) + sum (d + 1) (fun i => k' i * bubble d (others d i) x * facet_direction i c))); [ring|].
      rewrite <- sum_plus. f_equal. apply sum_ext. intros; ring.
    + intros c x Hc. rewrite Z, Z' by exact Hc. ring.
  - intros u v H (p & k & Hp & E & Z). exists p, k. split; [exact Hp|]. split; intros c x Hc; rewrite <- H; [apply E|apply Z]; exact Hc.
Qed.
Lemma bubble_corner d i j : (2 <= d <= 3)%nat -> (i < d + 1)%nat -> (j < d + 1)%nat -> bubble d (others d i) (corner d j) = 0.
Proof. intros Hd Hi Hj. dims Hd; small i; small j; unfold bubble, corner, env_of; cbn; ring. Qed.
Lemma bubble_off d i j v : (2 <= d <= 3)%nat -> (i < d + 1)%nat -> (j < d + 1)%nat -> i <> j -> on_facet d j v -> bubble d (others d i) v = 0.
Proof.
  intros Hd Hi Hj N H. assert (B : bary d j v = 0) by (destruct j; cbn [bary on_facet] in *; lra).
  assert (I : In j (others d i)) by (unfold others; apply filter_In; split; [apply in_seq; lia|]; apply negb_true_iff, Nat.eqb_neq; auto).
  revert I. generalize (others d i). induction l as [|a l IH]; intros []; cbn [bubble fold_right]; [subst a; rewrite B; ring|]. change (fold_right (fun i a => bary d i v * a) 1 l) with (bubble d l v).
  rewrite IH by assumption. ring.
Qed.
Lemma direction_square d i : (2 <= d <= 3)%nat -> (i < d + 1)%nat -> 0 < sum d (fun c => facet_direction i c * facet_direction i c).
Proof. intros Hd Hi. dims Hd; small i; cbn; lra. Qed.
Lemma simplex_bubble d : (2 <= d <= 3)%nat -> (forall e, inside (slims (d - 1)) e -> 0 <= bubble (d - 1) (range d) e) /\ exists v, bubble (d - 1) (range d) v <> 0.
Proof.
  intros Hd. split.
  - intros e H. assert (A : forall a, In a (range d) -> 0 <= bary (d - 1) a e).
    { intros a Ha. apply in_range in Ha. revert H. dims Hd; small a; unfold slims, seg_lims, tri_lims; cbn; lra. }
    revert A. generalize (range d). induction l as [|a l IH]; intros A; cbn [bubble fold_right]; [lra|]. change (fold_right (fun i a => bary (d - 1) i e * a) 1 l) with (bubble (d - 1) l e).
    apply Rmult_le_pos; [apply A; left; reflexivity|]. apply IH. intros b Hb. apply A. right. exact Hb.
  - exists (fun _ => / 4). dims Hd; unfold bubble; cbn; lra.
Qed.
(** on a facet, the normal component *)
Lemma br_on_facet d p k f i v : (2 <= d <= 3)%nat -> (i < d + 1)%nat -> br_field d p k f -> on_facet d i v ->
  sum d (fun c => f (c, v) * facet_direction i c) = sum d (fun c => p c v * facet_direction i c) + k i * sum d (fun c => facet_direction i c * facet_direction i c) * bubble d (others d i) v.
Proof.
  intros Hd Hi (_ & E & _) On. transitivity (sum d (fun c => p c v * facet_direction i c + k i * bubble d (others d i) v * (facet_direction i c * facet_direction i c))).
  - apply sum_ext. intros c Hc. rewrite E by exact Hc. rewrite (sum_single _ _ i Hi); [ring|]. intros j Hj N. rewrite (bubble_off d j i v Hd Hj Hi N On). ring.
  - rewrite sum_plus, sum_scal. ring.
Qed.
(** the multiple of the bubble of a facet is zero if the integral of the normal component is *)
Lemma br_coefficient d i dom j nn K : (2 <= d <= 3)%nat -> (i < d + 1)%nat -> facet_facts d i dom j nn ->
  iterated_integral (slims (d - 1)) (fun t => K * sum d (fun c => facet_direction i c * facet_direction i c) * bubble d (others d i) (point_of dom t)) (fun _ => 0) 0 -> K = 0.
Proof.
  intros Hd Hi F H. destruct (Req_dec K 0) as [|N]; [assumption|exfalso]. destruct (facet_more d i dom j nn Hd Hi F) as (_ & _ & _ & B & _).
  destruct (simplex_bubble d Hd) as [P [v Hv]]. apply Hv. pose proof (direction_square d i Hd Hi) as S.
  apply (simplex_positive (d - 1) d (bubble (d - 1) (range d)) ltac:(lia)); [|exact P|].
  - apply (degree_weaken (d - 1) (length (range d))); [rewrite length_range; lia|]. apply bubble_degree. intros a Ha. apply in_range in Ha. lia.
  - exists (fun _ => 0). pose proof (iterated_lin _ _ _ _ _ _ (/ (K * sum d (fun c => facet_direction i c * facet_direction i c))) H (iterated_zero (slims (d - 1)) (fun _ => 0))) as X.
    apply (iterated_val _ _ _ _ 0) in X; [|ring]. eapply iterated_ext'; [|exact X]. intros t. cbv beta. rewrite B. field. split; [lra|exact N].
Qed.
Lemma br_linear d p k f i : (2 <= d <= 3)%nat -> (i < d + 1)%nat -> br_field d p k f -> 
  (forall j, (j < d + 1)%nat -> j <> i -> sum d (fun c => f (c, corner d j) * facet_direction i c) = 0) ->
  forall v, on_facet d i v -> sum d (fun c => p c v * facet_direction i c) = 0.
Proof.
  intros Hd Hi (Hp & E & _) Z v On.
  assert (Hs : simplex (simplex_of d)) by (dims Hd; [right; left|right; right]; reflexivity). assert (Ht : tdim (simplex_of d) = d) by (dims Hd; reflexivity).
  destruct (lambda_closed _ Hs) as [_ L]. rewrite Ht in L. rewrite (L (fun v => sum d (fun c => p c v * facet_direction i c))).
  - rewrite (sum_ext _ _ (fun _ => 0)); [apply sum_zero; reflexivity|]. intros j Hj. destruct (Nat.eq_dec j i) as [->|N].
    + assert (B : bary d i v = 0) by (destruct i; cbn [bary on_facet] in *; lra). rewrite B. ring.
    + fold (corner d j). specialize (Z j Hj N). rewrite (sum_ext _ _ (fun c => f (c, corner d j) * facet_direction i c)); [rewrite Z; ring|].
      intros c Hc. rewrite E by exact Hc. rewrite (sum_ext (d + 1) _ (fun _ => 0)); [rewrite (sum_zero (d + 1)) by reflexivity; ring|]. intros a Ha. rewrite (bubble_corner d a j Hd Ha Hj). ring.
  - apply (poly_space_ext _ (fun v => sum d (fun c => facet_direction i c * p c v))); [intros x; apply sum_ext; intros; ring|]. apply sum_poly. intros c Hc. apply (poly_space_scale _ (facet_direction i c) (p c)), Hp, Hc.
Qed.
Lemma corner_facet d i j : (2 <= d <= 3)%nat -> (i < d + 1)%nat -> (j < d + 1)%nat -> j <> i -> on_facet d i (corner d j).
Proof. intros Hd Hi Hj N. dims Hd; small i; small j; try congruence; unfold corner, env_of; cbn; lra. Qed.
Definition facet_vanish (d : nat) (f : component_fn) (i : nat) : Prop :=
  (forall j, (j < d + 1)%nat -> j <> i -> sum d (fun c => f (c, corner d j) * facet_direction i c) = 0) /\
  exists dom j nn, facet_facts d i dom j nn /\ iterated_integral (slims (d - 1)) (fun t => sum d (fun c => f (c, point_of dom t) * facet_direction i c)) (fun _ => 0) 0.
Lemma br_facet d p k f i : (2 <= d <= 3)%nat -> (i < d + 1)%nat -> br_field d p k f -> facet_vanish d f i ->
  k i = 0 /\ forall v, on_facet d i v -> sum d (fun c => p c v * facet_direction i c) = 0.
Proof.
  intros Hd Hi HF [Z (dom & j & nn & F & I)]. pose proof (br_linear d p k f i Hd Hi HF Z) as Zp. split; [|exact Zp].
  apply (br_coefficient d i dom j nn (k i) Hd Hi F). eapply iterated_ext'; [|exact I]. intros t. cbv beta.
  assert (On : on_facet d i (point_of dom t)) by apply F. rewrite (br_on_facet d p k f i _ Hd Hi HF On), (Zp _ On). ring.
Qed.
Lemma br_zero d p k f : (2 <= d <= 3)%nat -> br_field d p k f -> (forall i, (i < d + 1)%nat -> facet_vanish d f i) ->
  (forall i, (i < d + 1)%nat -> k i = 0) /\ forall c v, (c < d)%nat -> p c v = 0.
Proof.
  intros Hd HF Z. split; [intros i Hi; apply (br_facet d p k f i Hd Hi HF), Z, Hi|].
  assert (A : forall i j, (i < d + 1)%nat -> (j < d + 1)%nat -> j <> i -> sum d (fun c => p c (corner d j) * facet_direction i c) = 0).
  { intros i j Hi Hj N. apply (br_facet d p k f i Hd Hi HF (Z i Hi)), corner_facet; assumption. }
  assert (B : forall c j, (c < d)%nat -> (j < d + 1)%nat -> p c (corner d j) = 0).
  { clear - A Hd. intros c j Hc Hj.
    assert (G : forall i, (i < d + 1)%nat -> i <> j -> sum d (fun c => p c (corner d j) * facet_direction i c) = 0) by (intros; apply A; auto). clear A.
    dims Hd; small j; small c; pose proof (G 0%nat ltac:(lia)) as G0; pose proof (G 1%nat ltac:(lia)) as G1; pose proof (G 2%nat ltac:(lia)) as G2; try pose proof (G 3%nat ltac:(lia)) as G3;
      repeat match goal with H : ?a <> ?a -> _ |- _ => clear H | H : _ <> _ -> _ |- _ => specialize (H ltac:(discriminate)); cbn in H end; lra. }
  intros c v Hc. assert (Hs : simplex (simplex_of d)) by (dims Hd; [right; left|right; right]; reflexivity). assert (Ht : tdim (simplex_of d) = d) by (dims Hd; reflexivity).
  destruct (lambda_closed _ Hs) as [_ L]. rewrite Ht in L. rewrite (L (p c) (proj1 HF c Hc)). rewrite (sum_ext _ _ (fun _ => 0)); [apply sum_zero; reflexivity|].
  intros j Hj. fold (corner d j). rewrite B by assumption. ring.
Qed.

(** * The element *)
Definition facet_data := (reference * R * pt)%type.
Definition facts (d i : nat) (x : facet_data) : Prop := let '(dom, j, n) := x in facet_facts d i dom j n.
Definition data_points (d i : nat) (x : facet_data) : list br_dof :=
  let '(dom, j, n) := x in map (fun v => BrPoint (v, map (fun a => a * j) n, ((d - 1)%nat, i))) (r_vertices dom).
Definition data_moment (d i : nat) (x : facet_data) (q : fn point) : moment_dof :=
  let '(dom, j, n) := x in directed dom (slims (d - 1)) j n ((d - 1)%nat, i) q.
Definition data_bubble (d i : nat) (x : facet_data) : component_fn :=
  let '(dom, j, n) := x in br_bubble (map (bary d) (range (d + 1))) (others d i) n.
Lemma facts_unique d i dom j n dom' j' n' : facet_facts d i dom j n -> facet_facts d i dom' j' n' -> dom = dom' /\ j = j' /\ n = n'.
Proof. intros (A1 & _ & A3 & _ & A5 & _) (B1 & _ & B3 & _ & B5 & _). rewrite A1 in B1. injection B1 as <-. rewrite A3 in B3. rewrite A5 in B5. injection B3 as <-. injection B5 as <-. auto. Qed.
Lemma facet_entities d : (2 <= d <= 3)%nat -> sub_entities (default (simplex_of d)) (d - 1) = Ok (map (others d) (range (d + 1))).
Proof. intros Hd. dims Hd; reflexivity. Qed.
Lemma br_parts d : (2 <= d <= 3)%nat -> exists X q, (forall i, (i < d + 1)%nat -> facts d i (X i)) /\ (forall v, q v = 1) /\ is_default (default (simplex_of d)) = true /\
  lagrange_basis_functions (default (simplex_of d)) 1 "equispaced" = Ok (map (bary d) (range (d + 1))) /\
  br_bubbles (default (simplex_of d)) (map (bary d) (range (d + 1))) = Ok (map (fun i => data_bubble d i (X i)) (range (d + 1))) /\
  br_points (default (simplex_of d)) = Ok (flat_map (fun i => data_points d i (X i)) (range (d + 1))) /\
  moments_on (default (simplex_of d)) (d - 1) (fun r => lagrange_basis_functions r 0 "equispaced") normal_moment = Ok (map (fun i => data_moment d i (X i) q) (range (d + 1))).
Proof.
  intros Hd.   destruct (finite_choice (default CPoint, 0, []) (d + 1) (facts d)) as [X HX].
  { intros i Hi. destruct (facets_exist d i Hd Hi) as (dom & j & n & F). exists (dom, j, n). exact F. }
  destruct (facet_moments d 0 Hd) as (fs & mk & B & _ & _ & _ & HM & Hmk).
  assert (Hq : exists q, fs = [q] /\ forall v, q v = 1).
  { assert (Hs : simplex (facet_type d)) by (dims Hd; [left|right; left]; reflexivity). destruct (default_ok _ Hs) as (Hr & Hp & HD & HT).
    destruct (C19_lagrange_order_zero _ _ _ Hs Hp Hr "equispaced" ltac:(discriminate)) as (p & phi & _ & _ & D3 & D4). exists phi. split; [congruence|exact D4]. }
  destruct Hq as (q & -> & Hq). exists X, q. split; [exact HX|]. split; [exact Hq|].
  assert (Hs : simplex (simplex_of d)) by (dims Hd; [right; left|right; right]; reflexivity). assert (Ht : tdim (simplex_of d) = d) by (dims Hd; reflexivity).
  assert (Tr : r_type (default (simplex_of d)) = simplex_of d) by (dims Hd; reflexivity).
  destruct (lambda_closed _ Hs) as [HL _]. rewrite Ht in HL.
  assert (ID : is_default (default (simplex_of d)) = true) by (dims Hd; unfold is_default; cbn [r_type r_vertices default simplex_of]; match goal with |- (if ?x then _ else _) = _ => destruct x as [|N]; [reflexivity|exfalso; apply N; reflexivity] | _ => idtac end).
  assert (HB : br_bubbles (default (simplex_of d)) (map (bary d) (range (d + 1))) = Ok (map (fun i => data_bubble d i (X i)) (range (d + 1)))).
  { unfold br_bubbles. rewrite Tr, Ht, (facet_entities d Hd). cbn [rbind].
    rewrite (map_r_ok _ (fun ie => data_bubble d (fst ie) (X (fst ie)))).
    - f_equal. dims Hd; reflexivity.
    - intros [i E] Hi. assert (HE : (i < d + 1)%nat /\ E = others d i).
      { revert Hi. clear - Hd. dims Hd; cbn; intros H; repeat (destruct H as [H|H]; [injection H as <- <-; split; [lia|reflexivity]|]); destruct H. }
      destruct HE as [Hi' ->]. cbn [fst snd]. specialize (HX i Hi'). destruct (X i) as [[dom j] n]. destruct HX as (F1 & _ & _ & _ & F5 & _). rewrite F1. cbn [rbind]. rewrite F5. reflexivity. }
  assert (HP : br_points (default (simplex_of d)) = Ok (flat_map (fun i => data_points d i (X i)) (range (d + 1)))).
  { unfold br_points. rewrite Tr, Ht, (facet_entities d Hd). cbn [rbind]. rewrite map_length, length_range.
    rewrite (map_r_ok _ (fun i => data_points d i (X i))); [cbn [rmap]; rewrite flat_map_concat_map; reflexivity|].
    intros i Hi. apply in_range in Hi. specialize (HX i Hi). destruct (X i) as [[dom j] n]. destruct HX as (F1 & _ & F3 & _ & F5 & _). rewrite F1. cbn [rbind]. rewrite F5. cbn [rbind]. rewrite F3. reflexivity. }
  split; [exact ID|]. split; [exact HL|]. split; [exact HB|]. split; [exact HP|]. rewrite HM. f_equal. rewrite flat_map_concat_map, (map_ext_in _ (fun i => [data_moment d i (X i) q])).
  - clear. induction (range (d + 1)) as [|a l IH]; [reflexivity|]. cbn. rewrite IH. reflexivity.
  - intros i Hi. apply in_range in Hi. destruct (Hmk i Hi) as (dom & j & n & F & E). specialize (HX i Hi). destruct (X i) as [[dom' j'] n']. cbn in HX.
    destruct (facts_unique d i _ _ _ _ _ _ F HX) as (-> & -> & ->). cbn [map]. rewrite E. reflexivity.
Qed.

Lemma br_made d : (2 <= d <= 3)%nat -> exists U X q, polynomial_set_vector d d 1 = Ok U /\ (forall i, (i < d + 1)%nat -> facts d i (X i)) /\ (forall v, q v = 1) /\
  make_bernardi_raugel (default (simplex_of d)) =
  Ok (map field U ++ map (fun i => data_bubble d i (X i)) (range (d + 1)),
      flat_map (fun i => data_points d i (X i)) (range (d + 1)) ++ map BrMoment (map (fun i => data_moment d i (X i) q) (range (d + 1)))).
Proof.
  intros Hd. destruct (full_set d 1 Hd) as (U & HU & _). destruct (br_parts d Hd) as (X & q & HX & Hq & ID & HL & HB & HP & HM). exists U, X, q. split; [exact HU|]. split; [exact HX|]. split; [exact Hq|].
  assert (Ht : tdim (simplex_of d) = d) by (dims Hd; reflexivity). assert (Tr : r_type (default (simplex_of d)) = simplex_of d) by (dims Hd; reflexivity).
  unfold make_bernardi_raugel. rewrite Tr, Ht. unfold only_default. rewrite ID, HU, HL. cbn [rbind]. rewrite HB. cbn [rbind]. rewrite HP. cbn [rbind]. rewrite HM. reflexivity.
Qed.

(** * Values of the degrees of freedom *)
Lemma data_point_value d i x : (2 <= d <= 3)%nat -> (i < d + 1)%nat -> facts d i x -> exists s, (s = 1 \/ s = -1) /\
  forall l, In l (data_points d i x) <-> exists a u, In a (others d i) /\ l = BrPoint (nth a (reference_vertices (simplex_of d)) [], u, ((d - 1)%nat, i)) /\ u = map (fun b => b * snd (fst x)) (snd x) /\ length u = d /\
    forall c, (c < d)%nat -> nth c u 0 = s * facet_direction i c.
Proof.
  intros Hd Hi HX. destruct x as [[dom j] n]. cbn in HX. destruct (facet_more d i dom j n Hd Hi HX) as (V & L & _ & _ & s & Hs & E). exists s. split; [exact Hs|].
  assert (Eu : forall c, (c < d)%nat -> nth c (map (fun b => b * j) n) 0 = s * facet_direction i c).
  { intros c Hc. rewrite (CiarletProofs.nth_map_lt (fun b => b * j) n c 0) by (rewrite L; exact Hc). apply E, Hc. }
  intros l. cbn [data_points fst snd]. rewrite V, map_map. split.
  - intros H. apply in_map_iff in H. destruct H as (a & <- & Ha). exists a, (map (fun b => b * j) n). rewrite map_length. auto.
  - intros (a & u & Ha & -> & -> & _). apply in_map_iff. exists a. split; [reflexivity|exact Ha].
Qed.
Lemma point_value d i s a u e f : (length u = d) -> (forall c, (c < d)%nat -> nth c u 0 = s * facet_direction i c) ->
  dof_value (nth a (reference_vertices (simplex_of d)) [], u, e) f = s * sum d (fun c => f (c, corner d a) * facet_direction i c).
Proof.
  intros L E. cbn [dof_value]. rewrite L, <- sum_scal. apply sum_ext. intros c Hc. rewrite E by exact Hc. exact (eq_trans (Rmult_assoc _ _ _) (f_equal (Rmult s) (Rmult_comm _ _))).
Qed.
Lemma data_moment_value d i x q : (2 <= d <= 3)%nat -> (i < d + 1)%nat -> facts d i x -> (forall v, q v = 1) -> exists s, (s = 1 \/ s = -1) /\
  forall f I, moment_value (data_moment d i x q) f I <-> iterated_integral (slims (d - 1)) (fun t => s * sum d (fun c => f (c, point_of (fst (fst x)) t) * facet_direction i c)) (fun _ => 0) I.
Proof.
  intros Hd Hi HX Hq. destruct x as [[dom j] n]. cbn in HX. destruct (facet_more d i dom j n Hd Hi HX) as (V & L & _ & _ & s & Hs & E). exists s. split; [exact Hs|].
  assert (G : gdim dom = d) by apply HX. intros f I. unfold moment_value. cbn [data_moment directed mo_limits mo_domain mo_f mo_jacobian fst snd]. rewrite G.
  assert (X : forall t, sum d (fun c => f (c, point_of dom t) * (q t * nth c n 0)) * j = s * sum d (fun c => f (c, point_of dom t) * facet_direction i c)).
  { intros t. rewrite <- sum_scal, <- sum_scal_r. apply sum_ext. intros c Hc. rewrite Hq. specialize (E c Hc).
    transitivity (f (c, point_of dom t) * (nth c n 0 * j)); [ring|]. rewrite E. ring. }
  split; apply iterated_ext'; intros t; [apply X|symmetry; apply X].
Qed.
Lemma data_good d i x q : (2 <= d <= 3)%nat -> facts d i x -> (forall v, q v = 1) -> good_moment d (d - 1) (data_moment d i x q).
Proof.
  intros Hd HX Hq. destruct x as [[dom j] n]. cbn in HX. apply (directed_good d (d - 1) 0); [lia|apply HX|apply HX|].
  apply (poly_space_ext _ (fun _ => 1)); [intros; symmetry; apply Hq|apply degree_const].
Qed.
Lemma sign_zero s x : s = 1 \/ s = -1 -> s * x = 0 -> x = 0.
Proof. intros [->| ->] H; lra. Qed.
Lemma br_vanish d i x q f : (2 <= d <= 3)%nat -> (i < d + 1)%nat -> facts d i x -> (forall v, q v = 1) ->
  (forall l, In l (data_points d i x) -> br_value l f 0) -> moment_value (data_moment d i x q) f 0 -> facet_vanish d f i.
Proof.
  intros Hd Hi HX Hq HP HM. destruct (data_point_value d i x Hd Hi HX) as (s & Hs & V). destruct (data_moment_value d i x q Hd Hi HX Hq) as (s' & Hs' & M). split.
  - intros j Hj N. assert (I : In j (others d i)) by (unfold others; apply filter_In; split; [apply in_seq; lia|]; apply negb_true_iff, Nat.eqb_neq; exact N).
    destruct x as [[dom jj] n]. destruct (facet_more d i dom jj n Hd Hi HX) as (_ & L & _ & _ & s0 & Hs0 & E).
    assert (Eu : forall c, (c < d)%nat -> nth c (map (fun b => b * jj) n) 0 = s0 * facet_direction i c).
    { intros c Hc. rewrite (CiarletProofs.nth_map_lt (fun b => b * jj) n c 0) by (rewrite L; exact Hc). apply E, Hc. }
    specialize (HP (BrPoint (nth j (reference_vertices (simplex_of d)) [], map (fun b => b * jj) n, ((d - 1)%nat, i)))). cbn [br_value] in HP.
    rewrite (point_value d i s0 j _ _ f) in HP; [|rewrite map_length; exact L|exact Eu]. apply (sign_zero s0 _ Hs0), HP. cbn [data_points].
    destruct (facet_more d i dom jj n Hd Hi HX) as (VV & _). rewrite VV, map_map. apply in_map_iff. exists j. split; [reflexivity|exact I].
  - destruct x as [[dom jj] n]. exists dom, jj, n. split; [exact HX|]. apply M in HM. cbn [fst] in HM.
    pose proof (iterated_lin _ _ _ _ _ _ s' HM (iterated_zero (slims (d - 1)) (fun _ => 0))) as X. apply (iterated_val _ _ _ _ 0) in X; [|ring]. eapply iterated_ext'; [|exact X]. intros t. cbv beta.
    destruct Hs' as [->| ->]; ring.
Qed.
Lemma data_bubble_value d i x : (2 <= d <= 3)%nat -> (i < d + 1)%nat -> facts d i x -> exists k, k <> 0 /\ forall c v, data_bubble d i x (c, v) = if (c <? d)%nat then k * bubble d (others d i) v * facet_direction i c else 0.
Proof.
  intros Hd Hi HX. destruct x as [[dom j] n]. cbn in HX. destruct (facet_more d i dom j n Hd Hi HX) as (_ & L & _). destruct HX as (_ & _ & _ & _ & _ & (k & Hk & E) & _).
  exists k. split; [exact Hk|]. intros c v. cbn [data_bubble]. unfold br_bubble. cbn [fst snd].
  destruct (Nat.ltb_spec c d) as [Hc|Hc]; [|rewrite (nth_overflow n) by lia; ring]. rewrite E by exact Hc.
  assert (B : fold_left (fun b j => b * nth j (map (bary d) (range (d + 1))) (fun _ => 0) v) (others d i) 1 = bubble d (others d i) v) by (clear; unfold bubble; 
    assert (G : forall l b, (forall a, In a l -> (a <= d)%nat) -> fold_left (fun b j => b * nth j (map (bary d) (range (d + 1))) (fun _ => 0) v) l b = b * fold_right (fun i a => bary d i v * a) 1 l);
    [induction l as [|a l IH]; intros b H; cbn [fold_left fold_right]; [ring|]; rewrite IH by (intros; apply H; right; assumption);
     rewrite (CiarletProofs.nth_map_lt (bary d) (range (d + 1)) a 0%nat) by (rewrite length_range; specialize (H a (or_introl eq_refl)); lia);
     unfold range; rewrite seq_nth by (specialize (H a (or_introl eq_refl)); lia); cbn [Nat.add]; ring
    |rewrite G by (intros a; apply others_in); ring]).
  refine (eq_trans (f_equal (fun z => z * (k * facet_direction i c)) B) _). ring.
Qed.

Lemma data_points_length d i x : (2 <= d <= 3)%nat -> (i < d + 1)%nat -> facts d i x -> length (data_points d i x) = d.
Proof.
  intros Hd Hi HX. destruct x as [[dom j] n]. cbn [data_points]. destruct (facet_more d i dom j n Hd Hi HX) as (V & _). rewrite map_length, V, map_length. apply others_length; assumption.
Qed.
Lemma flat_length {A B} (f : A -> list B) n l : (forall a, In a l -> length (f a) = n) -> length (flat_map f l) = (length l * n)%nat.
Proof.
  induction l as [|a l IH]; intros H; [reflexivity|]. cbn [flat_map length]. rewrite app_length, IH by (intros; apply H; right; assumption). rewrite (H a (or_introl eq_refl)). lia.
Qed.
Lemma br_exists d l f : (forall m, l = BrMoment m -> exists e, good_moment d e m) -> poly_field d f -> br_value l f (br_eval l f).
Proof.
  intros H Hf. destruct l as [p|m]; cbn [br_value br_eval]; [symmetry; apply dot_eval_value|]. destruct (H m eq_refl) as [e He]. destruct (moment_exists d e m f He Hf) as [I HI]. rewrite (moment_value_eval m f I HI). exact HI.
Qed.
Lemma br_dual d : (2 <= d <= 3)%nat -> dual_br (make_bernardi_raugel (default (simplex_of d))) (br_space d) ((d + 1) * (d + 1)).
Proof.
  intros Hd. destruct (br_made d Hd) as (U & X & q & HU & HX & Hq & HM). destruct (full_set d 1 Hd) as (U' & HU' & VI & LU & HUW). rewrite HU in HU'. injection HU' as <-.
  set (fs := map field U ++ map (fun i => data_bubble d i (X i)) (range (d + 1))) in *.
  set (dofs := flat_map (fun i => data_points d i (X i)) (range (d + 1)) ++ map BrMoment (map (fun i => data_moment d i (X i) q) (range (d + 1)))) in *.
  assert (HG : forall l, In l dofs -> forall m, l = BrMoment m -> exists e, good_moment d e m).
  { intros l Hl m ->. unfold dofs in Hl. apply in_app_iff in Hl. destruct Hl as [Hl|Hl].
    - apply in_flat_map in Hl. destruct Hl as (i & Hi & Hl). apply in_range in Hi. destruct (X i) as [[dom j] n]. cbn [data_points] in Hl. apply in_map_iff in Hl. destruct Hl as (v & Hv & _). discriminate.
    - rewrite map_map in Hl. apply in_map_iff in Hl. destruct Hl as (i & Hi & Hl). injection Hi as <-. apply in_range in Hl. exists (d - 1)%nat. apply data_good; auto. }
  assert (Bub : exists K, (forall i, (i < d + 1)%nat -> K i <> 0) /\ forall i, (i < d + 1)%nat -> forall c v, data_bubble d i (X i) (c, v) = if (c <? d)%nat then K i * bubble d (others d i) v * facet_direction i c else 0).
  { destruct (finite_choice 0 (d + 1) (fun i k => k <> 0 /\ forall c v, data_bubble d i (X i) (c, v) = if (c <? d)%nat then k * bubble d (others d i) v * facet_direction i c else 0)) as [K HK].
    - intros i Hi. apply data_bubble_value; auto.
    - exists K. split; intros i Hi; apply HK, Hi. }
  destruct Bub as (K & K0 & HK).
  assert (Lf : length fs = ((d + 1) * (d + 1))%nat) by (unfold fs; rewrite app_length, !map_length, length_range, LU; dims Hd; reflexivity).
  assert (Ld : length dofs = ((d + 1) * (d + 1))%nat).
  { unfold dofs. rewrite app_length, !map_length, length_range, (flat_length _ d), length_range; [lia|]. intros i Hi. apply in_range in Hi. apply data_points_length; auto. }
  assert (HW : Forall (br_space d) fs).
  { apply Forall_app. split; apply Forall_map, Forall_forall.
    - intros F HF. destruct (HUW F HF) as [A B]. exists (fun c v => field F (c, v)), (fun _ => 0). split; [exact A|]. split; [|exact B]. intros c v _.
      rewrite (sum_ext _ _ (fun _ => 0)); [rewrite sum_zero by reflexivity; ring|]. intros; ring.
    - intros i Hi. apply in_range in Hi. exists (fun _ _ => 0), (fun a => if (a =? i)%nat then K i else 0). split; [intros; apply poly_space_zero|]. split.
      + intros c v Hc. rewrite (HK i Hi c v), (proj2 (Nat.ltb_lt c d) Hc), (sum_single _ _ i Hi); [rewrite Nat.eqb_refl; ring|]. intros a _ N. rewrite (proj2 (Nat.eqb_neq a i) N). ring.
      + intros c v Hc. rewrite (HK i Hi c v), (proj2 (Nat.ltb_ge c d) Hc). reflexivity. }
  assert (HZ : forall p k f, br_field d p k f -> (forall l, In l dofs -> br_value l f 0) -> (forall i, (i < d + 1)%nat -> k i = 0) /\ forall c v, (c < d)%nat -> p c v = 0).
  { intros p k f HF Z. apply (br_zero d p k f Hd HF). intros i Hi. apply (br_vanish d i (X i) q f Hd Hi (HX i Hi) Hq).
    - intros l Hl. apply Z. unfold dofs. apply in_app_iff. left. apply in_flat_map. exists i. split; [apply in_range, Hi|exact Hl].
    - apply (Z (BrMoment (data_moment d i (X i) q))). unfold dofs. apply in_app_iff. right. apply in_map, (in_map (fun i => data_moment d i (X i) q)), in_range, Hi. }
  assert (EV : forall l f, In l dofs -> br_space d f -> br_value l f (br_eval l f)).
  { intros l f Hl Hf. apply (br_exists d); [apply HG, Hl|apply br_poly; assumption]. }
  destruct (square_element (br_space d) fs (map br_eval dofs)) as (phi & E & L & D & Wp & Y).
  - apply br_subspace.
  - apply Forall_map, Forall_forall. intros l Hl. destruct l as [p|m]; [apply dot_linear|]. destruct (HG _ Hl m eq_refl) as [e He]. apply (moment_linear d e m _ He). intros f. apply br_poly, Hd.
  - exact HW.
  - intros c Z.
    assert (HF : br_field d (fun k v => combination c (map field U) (k, v)) (fun i => c (length U + i)%nat * K i) (combination c fs)).
    { assert (B2 : forall k v, (k < d)%nat -> combination (fun i => c (length U + i)%nat) (map (fun i => data_bubble d i (X i)) (range (d + 1))) (k, v) = sum (d + 1) (fun i => c (length U + i)%nat * K i * bubble d (others d i) v * facet_direction i k)).
      { intros k v Hk. unfold combination. rewrite map_length, length_range. apply sum_ext. intros i Hi.
        rewrite (CiarletProofs.nth_map_lt (fun i => data_bubble d i (X i)) (range (d + 1)) i 0%nat) by (rewrite length_range; exact Hi). unfold range. rewrite seq_nth by exact Hi. cbn [Nat.add].
        rewrite (HK i Hi k v), (proj2 (Nat.ltb_lt k d) Hk). ring. }
      split; [|split].
      - intros k Hk. apply (poly_space_ext _ (fun v => sum (length (map field U)) (fun i => c i * nth i (map field U) (fun _ => 0) (k, v)))); [reflexivity|]. apply sum_poly. intros i Hi. rewrite map_length in Hi.
        apply (poly_space_scale _ (c i) (fun v => nth i (map field U) (fun _ => 0) (k, v))). rewrite (CiarletProofs.nth_map_lt field U i []) by exact Hi. apply HUW; [apply nth_In, Hi|exact Hk].
      - intros k v Hk. rewrite <- (B2 k v Hk). refine (eq_trans (combination_app c (map field U) _ (k, v)) _). rewrite map_length. reflexivity.
      - intros k v Hk. rewrite Z. reflexivity. }
    destruct (HZ _ _ _ HF) as [Zk Zp].
    { intros l Hl. assert (Wc : br_space d (combination c fs)) by (eexists; eexists; exact HF).
      pose proof (EV l _ Hl Wc) as V. destruct l as [p|m]; cbn [br_value] in *.
      - destruct p as [[p u] e]. cbn [dof_value]. rewrite (sum_ext _ _ (fun _ => 0)); [apply sum_zero; reflexivity|]. intros a _. rewrite Z. ring.
      - unfold moment_value. eapply iterated_ext'; [|apply iterated_zero]. intros t. cbv beta. rewrite (sum_ext _ _ (fun _ => 0)); [rewrite sum_zero by reflexivity; ring|]. intros a _. rewrite Z. ring. }
    intros i Hi. change (i < length fs)%nat in Hi. destruct (Nat.lt_ge_cases i (length U)) as [H|H].
    + apply (vindep_comb U VI); [|exact H]. intros [k v]. destruct (Nat.lt_ge_cases k d) as [Hk|Hk]; [apply Zp, Hk|].
      unfold combination. rewrite map_length. rewrite (sum_ext _ _ (fun _ => 0)); [apply sum_zero; reflexivity|]. intros a Ha. rewrite (CiarletProofs.nth_map_lt field U a []) by exact Ha.
      rewrite (proj2 (HUW _ (nth_In U [] Ha)) k v Hk). ring.
    + assert (Hb : (i - length U < d + 1)%nat) by (unfold fs in Hi; rewrite app_length, !map_length, length_range in Hi; lia).
      specialize (Zk _ Hb). cbv beta in Zk. replace (length U + (i - length U))%nat with i in Zk by lia. apply Rmult_integral in Zk. destruct Zk as [Zk|Zk]; [exact Zk|destruct (K0 _ Hb Zk)].
  - rewrite map_length. exact (eq_trans Lf (eq_sym Ld)).
  - intros f (p & k & HF) Z. assert (Wf : br_space d f) by (exists p, k; exact HF). destruct (HZ p k f HF) as [Zk Zp].
    { intros l Hl. rewrite <- (Z (br_eval l) (in_map _ _ _ Hl)). apply EV; assumption. }
    destruct HF as (_ & E & B). intros [c v]. destruct (Nat.lt_ge_cases c d) as [Hc|Hc]; [|apply B, Hc]. rewrite E, Zp by exact Hc.
    rewrite (sum_ext _ _ (fun _ => 0)); [rewrite sum_zero by reflexivity; ring|]. intros i Hi. rewrite Zk by exact Hi. ring.
  - rewrite map_length in L, D, Y. rewrite Ld in *. exists fs, dofs, phi. split; [exact HM|]. split; [exact E|]. split; [exact Ld|]. split; [exact L|]. rewrite Forall_forall in Wp.
    assert (V : forall i l f, nth_error dofs i = Some l -> br_space d f -> br_value l f (nth i (map br_eval dofs) (fun _ => 0) f)).
    { intros i l f Hl Wf. rewrite (nth_error_nth (map br_eval dofs) i (fun _ => 0) (map_nth_error br_eval i dofs Hl)). apply EV; [apply (nth_error_In _ _ Hl)|exact Wf]. }
    split; [|split].
    + unfold component_fn in *. intros i j l g Hl Hg. assert (Hi : (i < (d + 1) * (d + 1))%nat) by (rewrite <- Ld; apply nth_error_Some; rewrite Hl; discriminate).
      assert (Hj : (j < (d + 1) * (d + 1))%nat) by (rewrite <- L; apply nth_error_Some; rewrite Hg; discriminate).
      specialize (D i j Hi Hj). rewrite (nth_error_nth phi j _ Hg) in D. rewrite <- D. apply V; [exact Hl|]. apply Wp, (nth_error_In _ _ Hg).
    + exact Wp.
    + intros f Wf. exists (fun i => nth i (map br_eval dofs) (fun _ => 0) f). split; [intros i l Hl; apply V; assumption|]. apply Y, Wf.
Qed.
Lemma br_normal d : (2 <= d <= 3)%nat -> br_conforming (make_bernardi_raugel (default (simplex_of d))) d (br_space d).
Proof.
  intros Hd. destruct (br_made d Hd) as (U & X & q & HU & HX & Hq & HM). eexists. eexists. split; [exact HM|]. intros i f Hi (p & k & HF) Z v On.
  destruct (br_facet d p k f i Hd Hi HF) as [Zk Zp]; [|rewrite (br_on_facet d p k f i v Hd Hi HF On), Zk, (Zp v On); ring].
  apply (br_vanish d i (X i) q f Hd Hi (HX i Hi) Hq).
  - intros l Hl. apply Z; [apply in_app_iff; left; apply in_flat_map; exists i; split; [apply in_range, Hi|exact Hl]|].
    destruct (X i) as [[dom j] n]. cbn [data_points] in Hl. apply in_map_iff in Hl. destruct Hl as (w & <- & _). reflexivity.
  - apply (Z (BrMoment (data_moment d i (X i) q))); [apply in_app_iff; right; apply in_map, (in_map (fun i => data_moment d i (X i) q)), in_range, Hi|]. destruct (X i) as [[dom j] n]. reflexivity.
Qed.
Lemma corner_vertex d a c : (2 <= d <= 3)%nat -> (a <= d)%nat -> env_of (map (vertex a) (seq 0 d)) c = corner d a c.
Proof. intros Hd Ha. dims Hd; small a; destruct c as [|[|[|[|c]]]]; unfold corner, env_of; cbn; try destruct c; reflexivity. Qed.
Lemma br_dof_values d : (2 <= d <= 3)%nat -> exists poly dofs, make_bernardi_raugel (default (simplex_of d)) = Ok (poly, dofs) /\
  forall l, In l dofs -> exists i, (i < d + 1)%nat /\ br_entity l = ((d - 1)%nat, i) /\ br_functionals d i l.
Proof.
  intros Hd. destruct (br_made d Hd) as (U & X & q & HU & HX & Hq & HM). eexists. eexists. split; [exact HM|]. intros l Hl. apply in_app_iff in Hl. destruct Hl as [Hl|Hl].
  - apply in_flat_map in Hl. destruct Hl as (i & Hi & Hl). apply in_range in Hi. exists i. split; [exact Hi|]. destruct (data_point_value d i (X i) Hd Hi (HX i Hi)) as (s & Hs & V). apply V in Hl.
    destruct Hl as (a & u & Ha & -> & _ & Lu & Eu). split; [reflexivity|]. exists s. split; [exact Hs|]. left. exists a. split; [exact Ha|]. intros f value. cbn [br_value].
    rewrite (point_value d i s a u _ f Lu Eu). replace (env_of (map (vertex a) (seq 0 d))) with (corner d a); [split; intros H; symmetry; exact H|].
    apply functional_extensionality. intros c. symmetry. apply corner_vertex; [exact Hd|apply (others_in d i), Ha].
  - rewrite map_map in Hl. apply in_map_iff in Hl. destruct Hl as (i & <- & Hi). apply in_range in Hi. exists i. split; [exact Hi|]. pose proof (HX i Hi) as HXi. split; [destruct (X i) as [[dom j] n]; reflexivity|].
    destruct (X i) as [[dom j] n] eqn:EX. destruct (facet_more d i dom j n Hd Hi HXi) as (_ & _ & P & _ & s & Hs & _).
    destruct (data_moment_value d i (dom, j, n) q Hd Hi HXi Hq) as (s' & Hs' & M). cbn [fst] in M.
    exists s'. split; [exact Hs'|]. right. exists (slims (d - 1)). split; [dims Hd; reflexivity|]. intros f value Wf. cbn [br_value]. rewrite M.
    assert (XX : forall t, s' * sum d (fun c => f (c, point_of dom t) * facet_direction i c) = s' * sum d (fun c => f (c, facet_point d i t) * facet_direction i c)).
    { intros t. f_equal. apply sum_ext. intros c Hc. f_equal. destruct (br_poly d f Hd Wf) as [N HN]. apply (degree_local d N (fun v => f (c, v)) _ _ (HN c Hc)). intros b Hb. apply P, Hb. }
    split; apply iterated_ext'; intros t; [apply XX|symmetry; apply XX].
Qed.
