(** The sub-entities of the unit interval, square and cube, by the bits of the numbers of their vertices. *)
From Coquelicot Require Import Coquelicot.
From Coq Require Import String Arith Bool ZArith Reals Lia Lra List FunctionalExtensionality.
From Verif Require Import Base PolyLib PolySetsModel PolySetsProofs PolyVec QuadratureModel ReferencesModel ReferencesSpec ReferencesProofs ReferencesGeometry CiarletModel CiarletProofs
  LinAlg ElementModel LagrangeModel UnisolvenceProofs LagrangeProofs LagrangeKey LagrangeUnisolvence
  LegendreJacobi LegendreIntSpec LegendreIntegrals KmvProofs MomentsInt MomentsParts MomentsRT MomentsBox
  PointsModel PointsSpec PointsProofs PointsElements PointsTraces MomentElementsModel MomentElementsSpec MomentElementsProofs MomentsFacets MomentsRaviart MomentsNedelec MomentsTet QFieldSpec QFieldGeometry
  SerendipityModel SerendipitySpec SerendipityKernel.
Import PolyVec ListNotations.
Local Open Scope R_scope.

Definition table (d k : nat) : list (list nat) := match sub_entities (default (box_of d)) k with Ok t => t | Err _ => [] end.
Definition bit (a c : nat) : R := if Nat.testbit a c then 1 else 0.
(** the coordinates that are not constant *)
Definition moving (d : nat) (E : list nat) : list nat := filter (fun c => match fixed E c with None => true | Some _ => false end) (range d).
Definition all_dirs (d k : nat) : list (list nat) := match d, k with 1, 1 => [[0]] | 2, 2 => [[0; 1]] | 3, 3 => [[0; 1; 2]] | _, _ => axes_of d k end%nat.
Definition placed (d k : nat) (dom : reference) (dirs : list nat) (o : nat -> R) : Prop :=
  length (r_axes dom) = k /\ In dirs (all_dirs d k) /\
  (forall a c, (a < k)%nat -> (c < d)%nat -> nth c (nth a (r_axes dom) []) 0 = ind (nth a dirs 0%nat) c) /\
  (forall c, (c < d)%nat -> nth c (r_origin dom) 0 = o c) /\ (forall a, (a < k)%nat -> o (nth a dirs 0%nat) = 0).
Lemma placed_point d k dom dirs o t c : placed d k dom dirs o -> (c < d)%nat -> point_of dom t c = o c + sum k (fun a => ind (nth a dirs 0%nat) c * t a).
Proof. intros (La & _ & Ha & Ho & _) Hc. unfold point_of. rewrite La, (Ho c Hc). f_equal. apply sum_ext. intros a Hk. rewrite (Ha a c Hk Hc). reflexivity. Qed.
Lemma dirs_cases d k dirs : In dirs (all_dirs d k) ->
  (d = 1 /\ k = 1 /\ dirs = [0] \/ d = 2 /\ k = 1 /\ dirs = [0] \/ d = 2 /\ k = 1 /\ dirs = [1] \/ d = 2 /\ k = 2 /\ dirs = [0; 1] \/
   d = 3 /\ k = 1 /\ dirs = [0] \/ d = 3 /\ k = 1 /\ dirs = [1] \/ d = 3 /\ k = 1 /\ dirs = [2] \/ d = 3 /\ k = 2 /\ dirs = [0; 1] \/ d = 3 /\ k = 2 /\ dirs = [0; 2] \/ d = 3 /\ k = 2 /\ dirs = [1; 2] \/
   d = 3 /\ k = 3 /\ dirs = [0; 1; 2])%nat.
Proof. intros H. destruct d as [|[|[|[|d]]]], k as [|[|[|[|k]]]]; cbn in H; try contradiction; repeat (destruct H as [<-|H]); try contradiction; tauto. Qed.
Ltac dirs H := repeat (destruct H as [(-> & -> & ->)|H]); try (destruct H as (-> & -> & ->)).
(** monomials on a sub-entity *)
Lemma restrict_mono d k dom dirs o m : placed d k dom dirs o -> length m = d ->
  exists C, forall t, meval m (point_of dom t) = C * meval (map (fun a => nth a m 0%nat) dirs) t.
Proof.
  intros A L. assert (P := fun t c => placed_point d k dom dirs o t c A). destruct A as (_ & I & _ & _ & Z).
  exists ((fix go c l := match l with [] => 1 | a :: l' => (if existsb (Nat.eqb c) dirs then 1 else o c ^ a) * go (S c) l' end) O m).
  intros t. apply dirs_cases in I. dirs I; destruct m as [|m0 [|m1 [|m2 [|]]]]; try discriminate L.
  all: pose proof (Z 0%nat ltac:(lia)) as Z0; try pose proof (Z 1%nat ltac:(lia)) as Z1; try pose proof (Z 2%nat ltac:(lia)) as Z2; clear Z; cbn [nth] in *.
  all: unfold meval; cbn [meval_from map nth existsb Nat.eqb orb]; rewrite !P by lia; cbn [sum nth]; unfold ind; cbn [Nat.eqb]; rewrite ?Z0, ?Z1, ?Z2; rewrite ?Rmult_0_l, ?Rmult_1_l, ?Rplus_0_l, ?Rplus_0_r; ring.
Qed.
Lemma restrict_superlinear d k dirs m : In dirs (all_dirs d k) -> length m = d -> (superlinear (map (fun a => nth a m 0%nat) dirs) <= superlinear m)%nat /\ length (map (fun a => nth a m 0%nat) dirs) = k.
Proof.
  intros I L. apply dirs_cases in I. dirs I; destruct m as [|m0 [|m1 [|m2 [|]]]]; try discriminate L; cbn [superlinear map nth length]; split; try reflexivity; lia.
Qed.
Lemma restrict_space d k dom dirs o n f : placed d k dom dirs o -> serendipity_space d n f -> serendipity_space k n (fun t => f (point_of dom t)).
Proof.
  intros A. revert f. apply poly_ind.
  - apply poly_space_zero.
  - intros c m g [Lm Sm] IH. apply (poly_space_add _ (fun t => c * meval m (point_of dom t)) (fun t => g (point_of dom t))); [|exact IH]. apply (poly_space_scale _ c (fun t => meval m (point_of dom t))).
    destruct (restrict_mono d k dom dirs o m A Lm) as [C HC]. apply (poly_space_ext _ (fun t => C * meval (map (fun a => nth a m 0%nat) dirs) t)); [intros; symmetry; apply HC|].
    apply poly_space_scale, poly_space_mono. destruct (restrict_superlinear d k dirs m) as [H1 H2]; [apply A|exact Lm|]. split; [exact H2|lia].
  - intros f g E. apply poly_space_ext. intros t. apply E.
Qed.
Lemma placed_onto d k dom dirs o v : placed d k dom dirs o -> (forall c, (c < d)%nat -> ~ In c dirs -> v c = o c) -> forall c, (c < d)%nat -> point_of dom (fun a => v (nth a dirs 0%nat)) c = v c.
Proof.
  intros A H c Hc. rewrite (placed_point d k dom dirs o _ c A Hc). destruct A as (_ & I & _ & _ & Z). apply dirs_cases in I. specialize (H c Hc).
  dirs I; (destruct c as [|[|[|c]]]; try (exfalso; lia)); pose proof (Z 0%nat ltac:(lia)) as Z0; try pose proof (Z 1%nat ltac:(lia)) as Z1; try pose proof (Z 2%nat ltac:(lia)) as Z2; clear Z; cbn [nth In sum] in *; unfold ind; cbn [Nat.eqb];
    rewrite ?Z0, ?Z1, ?Z2; try ring; rewrite <- H by lia; ring.
Qed.
(** coordinates of points of a sub-entity *)
Lemma placed_fixed d k dom dirs o t c : placed d k dom dirs o -> (c < d)%nat -> ~ In c dirs -> point_of dom t c = o c.
Proof.
  intros A Hc N. rewrite (placed_point d k dom dirs o t c A Hc). destruct A as (_ & I & _). apply dirs_cases in I.
  dirs I; (destruct c as [|[|[|c]]]; try (exfalso; lia)); cbn [nth In sum] in *; unfold ind; cbn [Nat.eqb]; first [ring|exfalso; apply N; tauto].
Qed.
Lemma placed_moving d k dom dirs o t a : placed d k dom dirs o -> (a < k)%nat -> point_of dom t (nth a dirs 0%nat) = t a.
Proof.
  intros A Ha. assert (D : (nth a dirs 0 < d)%nat) by (destruct A as (_ & I & _); apply dirs_cases in I; dirs I; (destruct a as [|[|[|a]]]; try (exfalso; lia)); cbn; lia).
  rewrite (placed_point d k dom dirs o t _ A D). destruct A as (_ & I & _ & _ & Z). rewrite (Z a Ha). apply dirs_cases in I.
  dirs I; (destruct a as [|[|[|a]]]; try (exfalso; lia)); cbn [nth sum]; unfold ind; cbn [Nat.eqb]; ring.
Qed.

(** the references of the sub-entities *)
Lemma ent_facts d k i E : (1 <= d <= 3)%nat -> (1 <= k)%nat -> nth_error (table d k) i = Some E ->
  exists dom j, sub_entity (default (box_of d)) k i false = Ok dom /\ r_type dom = box_of k /\ jacobian dom = Ok j /\ j <> 0 /\ placed d k dom (moving d E) (bit (hd 0%nat E)).
Proof.
  intros Hd Hk HE. assert (C : (d = 1 \/ d = 2 \/ d = 3)%nat) by lia. destruct C as [->|[->| ->]]; destruct k as [|[|[|[|k]]]]; try (exfalso; lia); try (destruct i; discriminate HE).
  all: repeat (destruct i as [|i]; [cbn in HE; injection HE as <-;
    do 2 eexists; split; [reflexivity|split; [reflexivity|split; [reflexivity|split; [unfold fnorm, fabs; cbn; try (apply sqrt_pos_neq); try lra|
    split; [reflexivity|split; [cbn; tauto|split; [intros [|[|[|a]]] [|[|[|c]]] Ha Hc; try (exfalso; cbn in *; lia); cbn; lra|split; [intros [|[|[|c]]] Hc; try (exfalso; lia); cbn; lra|intros [|[|[|a]]] Ha; try (exfalso; lia); reflexivity]]]]]]]]|]).
  all: try (cbn in HE; destruct i; discriminate HE).
  all: try (cbn; lra).
  all: apply Rabs_no_R0; lra.
Qed.
(** the boundary of a sub-entity *)
Definition below (d k : nat) (E : list nat) (a : nat) (s : bool) (E' : list nat) : bool :=
  forallb (fun x => existsb (Nat.eqb x) E) E' &&
  forallb (fun c => existsb (Nat.eqb c) (moving d E') || (negb (existsb (Nat.eqb c) (moving d E)) && eqb (Nat.testbit (hd 0%nat E') c) (Nat.testbit (hd 0%nat E) c)) ||
    ((c =? nth a (moving d E) 0)%nat && eqb (Nat.testbit (hd 0%nat E') c) s)) (range d).
Lemma mem_In c l : existsb (Nat.eqb c) l = true <-> In c l.
Proof. rewrite existsb_exists. split; [intros (x & I & H); apply Nat.eqb_eq in H; congruence|intros I; exists c; split; [exact I|apply Nat.eqb_refl]]. Qed.
Lemma boundary d k E a (s : bool) : (1 <= d <= 3)%nat -> (a < k)%nat -> In E (table d k) ->
  exists i' E', nth_error (table d (k - 1)) i' = Some E' /\ incl E' E /\
    forall c, (c < d)%nat -> ~ In c (moving d E') -> (~ In c (moving d E) /\ bit (hd 0%nat E') c = bit (hd 0%nat E) c) \/ (c = nth a (moving d E) 0%nat /\ bit (hd 0%nat E') c = if s then 1 else 0).
Proof.
  intros Hd Ha HE.
  assert (K : forallb (fun E => forallb (fun a => forallb (fun s => existsb (below d k E a s) (table d (k - 1))) [true; false]) (range k)) (table d k) = true).
  { assert (C : (d = 1 \/ d = 2 \/ d = 3)%nat) by lia. destruct C as [->|[->| ->]]; (destruct k as [|[|[|[|k]]]]; [vm_compute; reflexivity..|destruct HE]). }
  rewrite forallb_forall in K. specialize (K E HE). rewrite forallb_forall in K. specialize (K a (proj2 (in_range _ a) Ha)). rewrite forallb_forall in K. specialize (K s ltac:(destruct s; cbn; tauto)).
  apply existsb_exists in K. destruct K as (E' & I' & B). apply andb_true_iff in B. destruct B as [B1 B2]. destruct (In_nth_error _ _ I') as [i' Hi']. exists i', E'. split; [exact Hi'|].
  rewrite forallb_forall in B1, B2. split; [intros x Hx; apply mem_In, B1, Hx|]. intros c Hc N. specialize (B2 c (proj2 (in_range _ c) Hc)).
  destruct (existsb (Nat.eqb c) (moving d E')) eqn:M; [exfalso; apply N, mem_In, M|]. cbn [orb] in B2. apply orb_true_iff in B2. destruct B2 as [B2|B2]; apply andb_true_iff in B2; destruct B2 as [B2 B3]; apply eqb_prop in B3.
  - left. split; [intros I; apply mem_In in I; rewrite I in B2; discriminate B2|]. unfold bit. rewrite B3. reflexivity.
  - right. split; [apply Nat.eqb_eq, B2|]. unfold bit. rewrite B3. reflexivity.
Qed.
(** the affine hull of a sub-entity *)
Lemma vertex_bits d a j : (1 <= d <= 3)%nat -> (a < length (r_vertices (default (box_of d))))%nat -> (j < d)%nat -> nth j (nth a (r_vertices (default (box_of d))) []) 0 = bit a j.
Proof.
  intros Hd Ha Hj. assert (C : (d = 1 \/ d = 2 \/ d = 3)%nat) by lia. destruct C as [->|[->| ->]]; cbn in Ha; repeat (destruct a as [|a]; [do 3 (destruct j as [|j]; [reflexivity|]); exfalso; lia|]); exfalso; lia.
Qed.
Lemma weighted_constant w : forall (vs : list (list R)) j b, length w = length vs -> Forall (fun v => nth j v 0 = b) vs -> sumR (map (fun wv => fst wv * nth j (snd wv) 0) (combine w vs)) = sumR w * b.
Proof.
  induction w as [|x w IH]; intros [|v vs] j b L F; try discriminate L; [cbn; ring|]. inversion F as [|v' vs' F1 F2]; subst. cbn [combine map fst snd]. 
  change (x * nth j v 0 + sumR (map (fun wv => fst wv * nth j (snd wv) 0) (combine w vs)) = (x + sumR w) * nth j v 0). rewrite (IH vs j (nth j v 0)) by (cbn in L; try lia; assumption). ring.
Qed.
Lemma hull_fixed d k E p c : (1 <= d <= 3)%nat -> In E (table d k) -> length p = d -> in_affine_hull (map (fun i => nth i (r_vertices (default (box_of d))) []) E) p -> (c < d)%nat -> ~ In c (moving d E) -> nth c p 0 = bit (hd 0%nat E) c.
Proof.
  intros Hd HE Lp (w & Lw & Sw & Hp) Hc N. rewrite Hp by lia.
  assert (V : forall a, In a E -> (a < length (r_vertices (default (box_of d))))%nat).
  { assert (K : forallb (forallb (fun a => (a <? length (r_vertices (default (box_of d))))%nat)) (table d k) = true).
    { assert (C : (d = 1 \/ d = 2 \/ d = 3)%nat) by lia. destruct C as [->|[->| ->]]; (destruct k as [|[|[|[|k]]]]; [vm_compute; reflexivity..|destruct HE]). }
    rewrite forallb_forall in K. specialize (K E HE). rewrite forallb_forall in K. intros a Ha. apply Nat.ltb_lt, K, Ha. }
  assert (B : forall a, In a E -> Nat.testbit a c = Nat.testbit (hd 0%nat E) c).
  { assert (F : exists b, fixed E c = Some b). { destruct (fixed E c) as [b|] eqn:F; [exists b; reflexivity|]. exfalso. apply N. apply filter_In. split; [apply in_range, Hc|rewrite F; reflexivity]. }
    destruct F as [b F]. assert (A : forall a, In a E -> Nat.testbit a c = b).
    { unfold fixed in F. destruct (forallb (fun a => negb (Nat.testbit a c)) E) eqn:F1; [injection F as <-; rewrite forallb_forall in F1; intros a Ha; specialize (F1 a Ha); destruct (Nat.testbit a c); [discriminate F1|reflexivity]|].
      destruct (forallb (fun a => Nat.testbit a c) E) eqn:F2; [|discriminate F]. injection F as <-. rewrite forallb_forall in F2. exact F2. }
    intros a Ha. rewrite (A a Ha). destruct E as [|e E]; [destruct Ha|]. symmetry. apply A. left. reflexivity. }
  rewrite (weighted_constant w _ c (bit (hd 0%nat E) c)); [rewrite Sw; ring|exact Lw|]. apply Forall_map, Forall_forall. intros a Ha. rewrite vertex_bits; [unfold bit; rewrite (B a Ha); reflexivity|exact Hd|apply V, Ha|exact Hc].
Qed.
