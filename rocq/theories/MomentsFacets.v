(** The facets of the default triangle and tetrahedron, and the moments on them. *)
From Coquelicot Require Import Coquelicot.
From Coq Require Import String Arith Bool ZArith Reals Lia Lra List FunctionalExtensionality.
From Verif Require Import Base PolyLib PolySetsModel PolySetsProofs PolyVec QuadratureModel ReferencesModel ReferencesSpec ReferencesProofs ReferencesGeometry CiarletModel CiarletProofs
  LinAlg ElementModel LagrangeModel UnisolvenceProofs LagrangeProofs LagrangeKey LagrangeUnisolvence PropertiesLagrange PropertiesCiarlet
  LegendreJacobi LegendreIntSpec LegendreIntegrals KmvProofs MomentsInt MomentsParts MomentsRT MomentsBox
  PointsModel PointsSpec PointsProofs PointsElements MomentElementsModel MomentElementsSpec MomentElementsProofs.
Import ListNotations.
Local Open Scope R_scope.

Lemma iterated_val lims F v I J : I = J -> iterated_integral lims F v I -> iterated_integral lims F v J.
Proof. intros ->. auto. Qed.
(** a polynomial that is orthogonal to a spanning list is zero *)
Lemma orthogonal_zero e lims k g fs : (1 <= e <= 3)%nat -> domain_lims e lims -> degree_space e k g ->
  (forall q, In q fs -> iterated_integral lims (fun t => g t * q t) (fun _ => 0) 0) ->
  (exists a, forall v, g v = sum (length fs) (fun i => a i * nth i fs (fun _ => 0) v)) -> forall v, g v = 0.
Proof.
  intros He Hl Hg Ho [a Ha]. assert (Z : forall v, g v * g v = 0).
  - apply (domain_positive e lims (k + k) (fun v => g v * g v) He Hl); [apply degree_mul; exact Hg|intros v _; nra|].
    apply (iterated_ext' _ (fun t => sum (length fs) (fun i => a i * (g t * nth i fs (fun _ => 0) t)))).
    { intros t. transitivity (g t * sum (length fs) (fun i => a i * nth i fs (fun _ => 0) t)); [|rewrite <- Ha; reflexivity]. rewrite <- sum_scal. apply sum_ext. intros i _. ring. }
    apply (iterated_val _ _ _ (sum (length fs) (fun _ => 0))); [apply sum_zero; reflexivity|].
    apply (iterated_sum _ _ (length fs) (fun i t => a i * (g t * nth i fs (fun _ => 0) t)) (fun _ => 0)). intros i Hi.
    apply (iterated_ext' _ (fun t => a i * (g t * nth i fs (fun _ => 0) t) + (fun _ => 0) t)); [intros; ring|]. apply (iterated_val _ _ _ (a i * 0 + 0)); [ring|].
    apply (iterated_lin lims (fun t => g t * nth i fs (fun _ => 0) t) (fun _ => 0)); [apply Ho, nth_In, Hi|apply iterated_zero].
  - intros v. specialize (Z v). nra.
Qed.

(** * Facets *)
Definition facet_type (d : nat) : cell_type := match d with 2%nat => CInterval | _ => CTriangle end.
Definition simplex_of (d : nat) : cell_type := match d with 2%nat => CTriangle | _ => CTetrahedron end.
Definition facet_facts (d i : nat) (dom : reference) (j : R) (n : pt) : Prop :=
  sub_entity (default (simplex_of d)) (d - 1) i false = Ok dom /\ r_type dom = facet_type d /\ jacobian dom = Ok j /\ j <> 0 /\ normal dom = Ok n /\
  (exists k, k <> 0 /\ forall c, (c < d)%nat -> nth c n 0 = k * facet_direction i c) /\ gdim dom = d /\ length (r_axes dom) = (d - 1)%nat /\
  (forall t, on_facet d i (point_of dom t)) /\ (forall v, on_facet d i v -> exists t, forall c, (c < d)%nat -> point_of dom t c = v c).
Lemma normalised_nonzero (v : pt) : 0 < vdot v v -> exists k, k <> 0 /\ forall c, (c < length v)%nat -> nth c (vnormalise v) 0 = k * nth c v 0.
Proof.
  intros H. exists (/ vnorm v). assert (P : 0 < vnorm v) by (apply sqrt_lt_R0, H). split; [apply Rinv_neq_0_compat; lra|]. intros c Hc. unfold vnormalise.
  rewrite (CiarletProofs.nth_map_lt (fun i => i / vnorm v) v c 0) by exact Hc. unfold Rdiv. ring.
Qed.
Lemma scaled_direction (v : pt) i d s : length v = d -> 0 < vdot v v -> s <> 0 -> (forall c, (c < d)%nat -> nth c v 0 = s * facet_direction i c) ->
  exists k, k <> 0 /\ forall c, (c < d)%nat -> nth c (vnormalise v) 0 = k * facet_direction i c.
Proof.
  intros L H Hs E. destruct (normalised_nonzero v H) as (k & Hk & F). exists (k * s). split; [apply Rmult_integral_contrapositive; split; assumption|].
  intros c Hc. rewrite F by lia. rewrite E by exact Hc. ring.
Qed.
Lemma sqrt_pos_neq x : 0 < x -> sqrt x <> 0.
Proof. intros H. pose proof (sqrt_lt_R0 x H). lra. Qed.

Ltac components := intros c Hc; cbn [Nat.sub] in *; destruct c as [|[|[|c]]]; try lia.
Lemma facets_exist d i : (2 <= d <= 3)%nat -> (i < d + 1)%nat -> exists dom j n, facet_facts d i dom j n.
Proof.
  intros Hd Hi. assert (C : d = 2%nat \/ d = 3%nat) by lia. destruct C as [->| ->].
  - assert (C : (i = 0 \/ i = 1 \/ i = 2)%nat) by lia.
    destruct C as [->|[->| ->]]; do 3 eexists; unfold facet_facts; cbn [simplex_of facet_type Nat.sub]; (split; [reflexivity|]); (split; [reflexivity|]); (split; [reflexivity|]); (split; [unfold fnorm; cbn; apply sqrt_pos_neq; lra|]); (split; [reflexivity|]); (split; [|split; [reflexivity|split; [reflexivity|split]]]).
    all: try (intros t; unfold on_facet, point_of; cbn; lra).
    + apply (scaled_direction _ 0 2 (-1)); [reflexivity|cbn; lra|lra|]. components; cbn; lra.
    + intros v Hv. unfold on_facet in Hv. cbn in Hv. exists (fun _ => v 1%nat). components; unfold point_of; cbn; lra.
    + apply (scaled_direction _ 1 2 (-1)); [reflexivity|cbn; lra|lra|]. components; cbn; lra.
    + intros v Hv. unfold on_facet in Hv. exists (fun _ => v 1%nat). components; unfold point_of; cbn; lra.
    + apply (scaled_direction _ 2 2 1); [reflexivity|cbn; lra|lra|]. components; cbn; lra.
    + intros v Hv. unfold on_facet in Hv. exists (fun _ => v 0%nat). components; unfold point_of; cbn; lra.
  - assert (C : (i = 0 \/ i = 1 \/ i = 2 \/ i = 3)%nat) by lia.
    destruct C as [->|[->|[->| ->]]]; do 3 eexists; unfold facet_facts; cbn [simplex_of facet_type Nat.sub]; (split; [reflexivity|]); (split; [reflexivity|]); (split; [reflexivity|]); (split; [unfold fabs, fnorm; cbn; apply sqrt_pos_neq; lra|]); (split; [reflexivity|]); (split; [|split; [reflexivity|split; [reflexivity|split]]]).
    all: try (intros t; unfold on_facet, point_of; cbn; lra).
    + apply (scaled_direction _ 0 3 1); [reflexivity|cbn; lra|lra|]. components; cbn; lra.
    + intros v Hv. unfold on_facet in Hv. cbn in Hv. exists (fun j => v (S j)). components; unfold point_of; cbn; lra.
    + apply (scaled_direction _ 1 3 1); [reflexivity|cbn; lra|lra|]. components; cbn; lra.
    + intros v Hv. unfold on_facet in Hv. exists (fun j => v (S j)). components; unfold point_of; cbn; lra.
    + apply (scaled_direction _ 2 3 (-1)); [reflexivity|cbn; lra|lra|]. components; cbn; lra.
    + intros v Hv. unfold on_facet in Hv. exists (fun j => v (match j with O => 0 | _ => 2 end)%nat). components; unfold point_of; cbn; lra.
    + apply (scaled_direction _ 3 3 1); [reflexivity|cbn; lra|lra|]. components; cbn; lra.
    + intros v Hv. unfold on_facet in Hv. exists (fun j => v j). components; unfold point_of; cbn; lra.
Qed.
