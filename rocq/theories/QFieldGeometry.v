(** The edges and faces of the unit square and cube. *)
From Coquelicot Require Import Coquelicot.
From Coq Require Import String Arith Bool ZArith Reals Lia Lra List FunctionalExtensionality.
From Verif Require Import Base PolyLib PolySetsModel PolySetsProofs PolyVec QuadratureModel ReferencesModel ReferencesSpec ReferencesProofs ReferencesGeometry CiarletModel CiarletProofs
  LinAlg ElementModel LagrangeModel UnisolvenceProofs LagrangeProofs LagrangeKey LagrangeUnisolvence
  LegendreJacobi LegendreIntSpec LegendreIntegrals KmvProofs MomentsInt MomentsParts MomentsRT MomentsBox
  PointsModel PointsSpec PointsProofs PointsElements MomentElementsModel MomentElementsSpec MomentElementsProofs MomentsFacets MomentsRaviart MomentsNedelec MomentsTet QFieldSpec.
Import PolyVec ListNotations.
Local Open Scope R_scope.

Definition box_of (d : nat) : cell_type := match d with 1%nat => CInterval | 2%nat => CQuadrilateral | _ => CHexahedron end.
(** the directions of edges and faces *)
Definition axes_of (d e : nat) : list (list nat) := match d, e with 2, 1 => [[0]; [1]] | 3, 1 => [[0]; [1]; [2]] | 3, 2 => [[0; 1]; [0; 2]; [1; 2]] | _, _ => [] end%nat.
Definition ind (i c : nat) : R := if (c =? i)%nat then 1 else 0.
Definition aligned (d e : nat) (dom : reference) (dirs : list nat) (o : nat -> R) : Prop :=
  gdim dom = d /\ length (r_axes dom) = e /\ In dirs (axes_of d e) /\
  (forall k c, (k < e)%nat -> (c < d)%nat -> nth c (nth k (r_axes dom) []) 0 = ind (nth k dirs 0%nat) c) /\
  (forall c, (c < d)%nat -> nth c (r_origin dom) 0 = o c) /\ (forall k, (k < e)%nat -> o (nth k dirs 0%nat) = 0).
Lemma aligned_point d e dom dirs o t c : aligned d e dom dirs o -> (c < d)%nat -> point_of dom t c = o c + sum e (fun k => ind (nth k dirs 0%nat) c * t k).
Proof.
  intros (_ & La & _ & Ha & Ho & _) Hc. unfold point_of. rewrite La, (Ho c Hc). f_equal. apply sum_ext. intros k Hk. rewrite (Ha k c Hk Hc). reflexivity.
Qed.
Ltac axes_cases H := cbn [axes_of] in H; repeat (destruct H as [<-|H]; [|try (destruct H; fail)]).
Lemma axes_shape d e dirs : In dirs (axes_of d e) -> (d = 2%nat /\ e = 1%nat) \/ (d = 3%nat /\ e = 1%nat) \/ (d = 3%nat /\ e = 2%nat).
Proof. intros H. destruct d as [|[|[|[|d]]]], e as [|[|[|e]]]; cbn in H; tauto. Qed.
Lemma box_comp d e dom dirs o b f : aligned d e dom dirs o -> box d b f -> box e (fun k => b (nth k dirs 0%nat)) (fun t => f (point_of dom t)).
Proof.
  intros A. revert f. apply poly_ind.
  - apply poly_space_zero.
  - intros c m g [Lm Bm] IH. apply (poly_space_add _ (fun t => c * meval m (point_of dom t)) (fun t => g (point_of dom t))); [|exact IH]. apply (poly_space_scale _ c (fun t => meval m (point_of dom t))). clear g IH.
    assert (P := fun t c => aligned_point d e dom dirs o t c A). destruct A as (_ & _ & I & _ & _ & Z).
    destruct (axes_shape d e dirs I) as [[-> ->]|[[-> ->]|[-> ->]]].
    + destruct m as [|m0 [|m1 [|]]]; try discriminate Lm. pose proof (Bm 0%nat ltac:(lia)) as B0. pose proof (Bm 1%nat ltac:(lia)) as B1. cbn [nth] in B0, B1. pose proof (Z 0%nat ltac:(lia)) as Z0.
      cbn [axes_of In] in I. destruct I as [<-|[<-|[]]]; cbn [nth] in Z0.
      * apply (poly_space_ext _ (fun t => o 1%nat ^ m1 * meval [m0] t)); [|apply poly_space_scale, poly_space_mono; split; [reflexivity|intros [|i] Hi; [exact B0|lia]]].
        intros t. unfold meval. cbn [meval_from]. rewrite !P by lia. cbn. rewrite Z0. replace (0 + (0 + 1 * t 0%nat)) with (t 0%nat) by ring. replace (o 1%nat + (0 + 0 * t 0%nat)) with (o 1%nat) by ring. ring.
      * apply (poly_space_ext _ (fun t => o 0%nat ^ m0 * meval [m1] t)); [|apply poly_space_scale, poly_space_mono; split; [reflexivity|intros [|i] Hi; [exact B1|lia]]].
        intros t. unfold meval. cbn [meval_from]. rewrite !P by lia. cbn. rewrite Z0. replace (0 + (0 + 1 * t 0%nat)) with (t 0%nat) by ring. replace (o 0%nat + (0 + 0 * t 0%nat)) with (o 0%nat) by ring. ring.
    + destruct m as [|m0 [|m1 [|m2 [|]]]]; try discriminate Lm. pose proof (Bm 0%nat ltac:(lia)) as B0. pose proof (Bm 1%nat ltac:(lia)) as B1. pose proof (Bm 2%nat ltac:(lia)) as B2. cbn [nth] in B0, B1, B2. pose proof (Z 0%nat ltac:(lia)) as Z0.
      cbn [axes_of In] in I. destruct I as [<-|[<-|[<-|[]]]]; cbn [nth] in Z0.
      * apply (poly_space_ext _ (fun t => (o 1%nat ^ m1 * o 2%nat ^ m2) * meval [m0] t)); [|apply poly_space_scale, poly_space_mono; split; [reflexivity|intros [|i] Hi; [exact B0|lia]]].
        intros t. unfold meval. cbn [meval_from]. rewrite !P by lia. cbn. rewrite Z0. replace (0 + (0 + 1 * t 0%nat)) with (t 0%nat) by ring. replace (o 1%nat + (0 + 0 * t 0%nat)) with (o 1%nat) by ring. replace (o 2%nat + (0 + 0 * t 0%nat)) with (o 2%nat) by ring. ring.
      * apply (poly_space_ext _ (fun t => (o 0%nat ^ m0 * o 2%nat ^ m2) * meval [m1] t)); [|apply poly_space_scale, poly_space_mono; split; [reflexivity|intros [|i] Hi; [exact B1|lia]]].
        intros t. unfold meval. cbn [meval_from]. rewrite !P by lia. cbn. rewrite Z0. replace (0 + (0 + 1 * t 0%nat)) with (t 0%nat) by ring. replace (o 0%nat + (0 + 0 * t 0%nat)) with (o 0%nat) by ring. replace (o 2%nat + (0 + 0 * t 0%nat)) with (o 2%nat) by ring. ring.
      * apply (poly_space_ext _ (fun t => (o 0%nat ^ m0 * o 1%nat ^ m1) * meval [m2] t)); [|apply poly_space_scale, poly_space_mono; split; [reflexivity|intros [|i] Hi; [exact B2|lia]]].
        intros t. unfold meval. cbn [meval_from]. rewrite !P by lia. cbn. rewrite Z0. replace (0 + (0 + 1 * t 0%nat)) with (t 0%nat) by ring. replace (o 0%nat + (0 + 0 * t 0%nat)) with (o 0%nat) by ring. replace (o 1%nat + (0 + 0 * t 0%nat)) with (o 1%nat) by ring. ring.
    + destruct m as [|m0 [|m1 [|m2 [|]]]]; try discriminate Lm. pose proof (Bm 0%nat ltac:(lia)) as B0. pose proof (Bm 1%nat ltac:(lia)) as B1. pose proof (Bm 2%nat ltac:(lia)) as B2. cbn [nth] in B0, B1, B2. pose proof (Z 0%nat ltac:(lia)) as Z0. pose proof (Z 1%nat ltac:(lia)) as Z1.
      cbn [axes_of In] in I. destruct I as [<-|[<-|[<-|[]]]]; cbn [nth] in Z0, Z1.
      * apply (poly_space_ext _ (fun t => o 2%nat ^ m2 * meval [m0; m1] t)); [|apply poly_space_scale, poly_space_mono; split; [reflexivity|intros [|[|i]] Hi; [exact B0|exact B1|lia]]].
        intros t. unfold meval. cbn [meval_from]. rewrite !P by lia. cbn. rewrite Z0, Z1. replace (0 + (0 + 1 * t 0%nat + 0 * t 1%nat)) with (t 0%nat) by ring. replace (0 + (0 + 0 * t 0%nat + 1 * t 1%nat)) with (t 1%nat) by ring.
        replace (o 2%nat + (0 + 0 * t 0%nat + 0 * t 1%nat)) with (o 2%nat) by ring. ring.
      * apply (poly_space_ext _ (fun t => o 1%nat ^ m1 * meval [m0; m2] t)); [|apply poly_space_scale, poly_space_mono; split; [reflexivity|intros [|[|i]] Hi; [exact B0|exact B2|lia]]].
        intros t. unfold meval. cbn [meval_from]. rewrite !P by lia. cbn. rewrite Z0, Z1. replace (0 + (0 + 1 * t 0%nat + 0 * t 1%nat)) with (t 0%nat) by ring. replace (0 + (0 + 0 * t 0%nat + 1 * t 1%nat)) with (t 1%nat) by ring.
        replace (o 1%nat + (0 + 0 * t 0%nat + 0 * t 1%nat)) with (o 1%nat) by ring. ring.
      * apply (poly_space_ext _ (fun t => o 0%nat ^ m0 * meval [m1; m2] t)); [|apply poly_space_scale, poly_space_mono; split; [reflexivity|intros [|[|i]] Hi; [exact B1|exact B2|lia]]].
        intros t. unfold meval. cbn [meval_from]. rewrite !P by lia. cbn. rewrite Z0, Z1. replace (0 + (0 + 1 * t 0%nat + 0 * t 1%nat)) with (t 0%nat) by ring. replace (0 + (0 + 0 * t 0%nat + 1 * t 1%nat)) with (t 1%nat) by ring.
        replace (o 0%nat + (0 + 0 * t 0%nat + 0 * t 1%nat)) with (o 0%nat) by ring. ring.
  - intros f g E. apply poly_space_ext. intros t. apply E.
Qed.
(** the points of the entity *)
Lemma aligned_onto d e dom dirs o v : aligned d e dom dirs o -> (forall c, (c < d)%nat -> ~ In c dirs -> v c = o c) -> forall c, (c < d)%nat -> point_of dom (fun k => v (nth k dirs 0%nat)) c = v c.
Proof.
  intros A H c Hc. rewrite (aligned_point d e dom dirs o _ c A Hc). destruct A as (_ & _ & I & _ & _ & Z).
  destruct (axes_shape d e dirs I) as [[-> ->]|[[-> ->]|[-> ->]]]; cbn [axes_of In] in I; pose proof (Z 0%nat ltac:(lia)) as Z0; try pose proof (Z 1%nat ltac:(lia)) as Z1; clear Z.
  all: pose proof (H 0%nat ltac:(lia)) as H0; pose proof (H 1%nat ltac:(lia)) as H1; try pose proof (H 2%nat ltac:(lia)) as H2; clear H.
  all: try (destruct I as [<-|[<-|[<-|[]]]]); try (destruct I as [<-|[<-|[]]]); cbn [nth In] in *; destruct c as [|[|[|c]]]; try (exfalso; lia); cbn [sum ind Nat.eqb nth]; rewrite ?Z0, ?Z1;
    try (rewrite H0 by lia); try (rewrite H1 by lia); try (rewrite H2 by lia); unfold ind; cbn [Nat.eqb]; rewrite ?Z0, ?Z1; try ring.
Qed.

(** * The sub-entities *)
Definition entity_facts (d e i : nat) (dom : reference) (j : R) (dirs : list nat) (o : nat -> R) : Prop :=
  sub_entity (default (box_of d)) e i false = Ok dom /\ r_type dom = box_of e /\ jacobian dom = Ok j /\ j <> 0 /\ aligned d e dom dirs o.
Definition unit_direction (d i : nat) (n : pt) : Prop := exists s, s <> 0 /\ forall c, (c < d)%nat -> nth c n 0 = s * ind i c.
Definition facet_dirs (d x : nat) : list nat := match d, x with 2, 0 => [1] | 2, _ => [0] | _, 0 => [1; 2] | _, 1 => [0; 2] | _, _ => [0; 1] end%nat.
Definition facet_origin (d i : nat) (c : nat) : R := if (c =? fst (box_facet d i))%nat then snd (box_facet d i) else 0.
Lemma unit_normalised d i v s : length v = d -> 0 < vdot v v -> s <> 0 -> (forall c, (c < d)%nat -> nth c v 0 = s * ind i c) -> unit_direction d i (vnormalise v).
Proof.
  intros L H Hs E. destruct (normalised_nonzero v H) as (k & Hk & F). exists (k * s). split; [apply Rmult_integral_contrapositive; split; assumption|].
  intros c Hc. rewrite F by lia. rewrite E by exact Hc. ring.
Qed.
Lemma q_facets_exist d i : (2 <= d <= 3)%nat -> (i < 2 * d)%nat -> exists dom j n, entity_facts d (d - 1) i dom j (facet_dirs d (fst (box_facet d i))) (facet_origin d i) /\ normal dom = Ok n /\ unit_direction d (fst (box_facet d i)) n.
Proof.
  intros Hd Hi. assert (C : d = 2%nat \/ d = 3%nat) by lia. destruct C as [->| ->].
  { assert (C : (i = 0 \/ i = 1 \/ i = 2 \/ i = 3)%nat) by lia.
    destruct C as [->|[->|[->| ->]]]; do 3 eexists; (split; [split; [reflexivity|split; [reflexivity|split; [reflexivity|split; [unfold fnorm; cbn; apply sqrt_pos_neq; lra|]]]]|split; [reflexivity|]]).
    all: try (split; [reflexivity|split; [reflexivity|split; [cbn; tauto|split; [intros [|k] [|[|c]] Hk Hc; try (exfalso; cbn in *; lia); cbn; lra|split; [intros [|[|c]] Hc; try (exfalso; lia); cbn; lra|intros [|k] Hk; [reflexivity|exfalso; cbn in Hk; lia]]]]]]).
    all: first [eapply (unit_normalised 2 _ _ 1); [reflexivity|cbn; lra|lra|intros [|[|c]] Hc; try (exfalso; lia); cbn; lra]|eapply (unit_normalised 2 _ _ (-1)); [reflexivity|cbn; lra|lra|intros [|[|c]] Hc; try (exfalso; lia); cbn; lra]].
  } { assert (C : (i = 0 \/ i = 1 \/ i = 2 \/ i = 3 \/ i = 4 \/ i = 5)%nat) by lia.
    destruct C as [->|[->|[->|[->|[->| ->]]]]]; do 3 eexists; (split; [split; [reflexivity|split; [reflexivity|split; [reflexivity|split; [unfold fabs, fnorm; cbn; apply sqrt_pos_neq; lra|]]]]|split; [reflexivity|]]).
    all: try (split; [reflexivity|split; [reflexivity|split; [cbn; tauto|split; [intros [|[|k]] [|[|[|c]]] Hk Hc; try (exfalso; cbn in *; lia); cbn; lra|split; [intros [|[|[|c]]] Hc; try (exfalso; lia); cbn; lra|intros [|[|k]] Hk; [reflexivity|reflexivity|exfalso; cbn in Hk; lia]]]]]]).
    all: first [eapply (unit_normalised 3 _ _ 1); [reflexivity|cbn; lra|lra|intros [|[|[|c]]] Hc; try (exfalso; lia); cbn; lra]|eapply (unit_normalised 3 _ _ (-1)); [reflexivity|cbn; lra|lra|intros [|[|[|c]]] Hc; try (exfalso; lia); cbn; lra]]. }
Qed.
Lemma q_tangent2 i : (i < 4)%nat -> exists dom j t, entity_facts 2 1 i dom j (facet_dirs 2 (fst (box_facet 2 i))) (facet_origin 2 i) /\ tangent dom = Ok t /\ unit_direction 2 (1 - fst (box_facet 2 i)) t.
Proof.
  intros Hi. destruct (q_facets_exist 2 i ltac:(lia) ltac:(lia)) as (dom & j & n & F & _). assert (X : exists t, tangent dom = Ok t /\ unit_direction 2 (1 - fst (box_facet 2 i)) t).
  { destruct F as (H & T & _). cbn [Nat.sub box_of] in T.
    assert (G : exists a b, r_axes dom = [[a; b]] /\ a = ind (1 - fst (box_facet 2 i)) 0 /\ b = ind (1 - fst (box_facet 2 i)) 1).
    { assert (C : (i = 0 \/ i = 1 \/ i = 2 \/ i = 3)%nat) by lia. destruct C as [->|[->|[->| ->]]]; cbn in H; injection H as <-; do 2 eexists; (split; [reflexivity|]); cbn; lra. }
    destruct G as (a & b & Ha & Ea & Eb). assert (Q : a * a + b * b = 1) by (rewrite Ea, Eb; unfold ind, box_facet; destruct (i <? 2)%nat; cbn [fst]; destruct i as [|[|[|[|i]]]]; cbn; try lra; lia).
    assert (X : exists t, tangent dom = Ok t) by (unfold tangent; rewrite T, Ha; cbn [tdim Nat.eqb]; eexists; reflexivity).
    destruct X as [t Ht]. exists t. split; [exact Ht|]. destruct (tangent_direction2 dom a b t Ht Ha (or_introl Q)) as (k & Hk & E0 & E1). exists k. split; [exact Hk|].
    intros [|[|c]] Hc; [rewrite E0, Ea; ring|rewrite E1, Eb; ring|lia]. }
  destruct X as (t & Ht & E). exists dom, j, t. auto.
Qed.
Definition hex_axis (e : nat) : nat := nth e [0; 1; 2; 1; 2; 0; 2; 2; 0; 1; 1; 0]%nat 0%nat.
Lemma q_tangent3 e : (e < 12)%nat -> exists dom j t, entity_facts 3 1 e dom j [hex_axis e] (box_vertex (fst (hex_edge e))) /\ tangent dom = Ok t /\ unit_direction 3 (hex_axis e) t.
Proof.
  intros He. assert (F : exists dom j, entity_facts 3 1 e dom j [hex_axis e] (box_vertex (fst (hex_edge e))) /\ exists a b c, r_axes dom = [[a; b; c]]).
  { do 12 (destruct e as [|e]; [do 2 eexists; (split; [split; [reflexivity|split; [reflexivity|split; [reflexivity|split; [unfold fnorm; cbn; apply sqrt_pos_neq; lra|]]]]|do 3 eexists; reflexivity]);
    split; [reflexivity|split; [reflexivity|split; [cbn; tauto|split; [intros [|k] [|[|[|c]]] Hk Hc; try (exfalso; cbn in *; lia); cbn; lra|split; [intros [|[|[|c]]] Hc; try (exfalso; lia); cbn; lra|intros [|k] Hk; [reflexivity|exfalso; lia]]]]]]|]). lia. }
  destruct F as (dom & j & F & a & b & c & Ha). assert (F' := F). destruct F' as (_ & T & _ & _ & (_ & _ & _ & U & _)). rewrite Ha in U. cbn [nth] in U.
  assert (X : exists t, tangent dom = Ok t) by (unfold tangent; rewrite T, Ha; cbn [box_of tdim Nat.eqb]; eexists; reflexivity). destruct X as [t Ht].
  exists dom, j, t. split; [exact F|]. split; [exact Ht|].
  pose proof (U 0%nat 0%nat ltac:(lia) ltac:(lia)) as U0. pose proof (U 0%nat 1%nat ltac:(lia) ltac:(lia)) as U1. pose proof (U 0%nat 2%nat ltac:(lia) ltac:(lia)) as U2. cbn [nth] in U0, U1, U2.
  destruct (tangent_direction3 dom a b c t Ht Ha) as (k & Hk & E).
  { rewrite U0, U1, U2. unfold ind. clear -He. do 12 (destruct e as [|e]; [cbn; lra|]). lia. }
  exists k. split; [exact Hk|]. intros i Hi. rewrite (E i Hi). f_equal. rewrite <- (U 0%nat i) by lia. reflexivity.
Qed.
