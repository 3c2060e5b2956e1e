(** The serendipity elements on the unit interval, square and cube. *)
From Coquelicot Require Import Coquelicot.
From Coq Require Import String Arith Bool ZArith Reals Lia Lra List FunctionalExtensionality.
From Verif Require Import Base PolyLib PolySetsModel PolySetsProofs PropertiesPolySets PolyVec QuadratureModel ReferencesModel ReferencesSpec ReferencesProofs ReferencesGeometry CiarletModel CiarletProofs
  LinAlg ElementModel LagrangeModel UnisolvenceProofs LagrangeProofs LagrangeKey LagrangeUnisolvence QProofs QDofs
  LegendreJacobi LegendreIntSpec LegendreIntegrals KmvProofs MomentsInt MomentsParts MomentsRT MomentsBox
  PointsModel PointsSpec PointsProofs PointsElements PointsTraces MomentElementsModel MomentElementsSpec MomentElementsProofs MomentsFacets MomentsRaviart MomentsRTDual MomentsNedelec MomentsTet QFieldSpec QFieldGeometry QFieldProofs
  FamiliesTensor2 SerendipityModel SerendipitySpec SerendipityKernel SerendipityGeometry.
Import PolyVec ListNotations.
Local Open Scope R_scope.

(** * Degrees of freedom *)
Definition good_scalar (d : nat) (l : scalar_dof) : Prop :=
  match l with
  | Value p _ => True
  | Moment m => exists e, (1 <= e <= 3)%nat /\ good_lims e (mo_limits m) /\ length (r_axes (mo_domain m)) = e /\ exists k, degree_space e k (fun t => mo_f m (0%nat, t))
  end.
Lemma scalar_exists d l f n : good_scalar d l -> degree_space d n (fun v => f (0%nat, v)) -> exists I, scalar_value l f I.
Proof.
  destruct l as [p e|m]; cbn [good_scalar scalar_value]; [eexists; reflexivity|]. intros (e & He & Gl & La & k & Hk) Hf. apply (iterated_exists e (mo_limits m) Gl (n + k)).
  apply (poly_space_ext _ (fun t => mo_jacobian m * (f (0%nat, point_of (mo_domain m) t) * mo_f m (0%nat, t)))); [intros; ring|]. apply poly_space_scale.
  apply (degree_mul e n k (fun t => f (0%nat, point_of (mo_domain m) t)) (fun t => mo_f m (0%nat, t))); [|exact Hk]. apply (pulled_back (mo_domain m) d e n (fun v => f (0%nat, v)) La Hf).
Qed.
Lemma scalar_value_eval l f I : scalar_value l f I -> scalar_eval l f = I.
Proof.
  destruct l as [p e|m]; cbn [scalar_value scalar_eval]; [exact (fun H => H)|]. intros H. apply integral_value. eapply iterated_ext'; [|exact H]. intros t. cbv beta. rewrite domain_point_spec. reflexivity.
Qed.
Lemma scalar_value_lin l a f g I J : scalar_value l f I -> scalar_value l g J -> scalar_value l (fun x => a * f x + g x) (a * I + J).
Proof.
  destruct l as [p e|m]; cbn [scalar_value]; [intros -> ->; reflexivity|]. intros H1 H2. eapply iterated_ext'; [|apply (iterated_lin _ _ _ _ _ _ a H1 H2)]. intros t. cbv beta. ring.
Qed.
Lemma scalar_value_ext l f g I : (forall x, f x = g x) -> scalar_value l f I -> scalar_value l g I.
Proof.
  intros E. destruct l as [p e|m]; cbn [scalar_value]; [intros <-; symmetry; apply E|]. apply iterated_ext'. intros t. rewrite E. reflexivity.
Qed.
Lemma scalar_linear d n l (W : component_fn -> Prop) : good_scalar d l -> (forall f, W f -> degree_space d n (fun v => f (0%nat, v))) -> linear_on W (scalar_eval l).
Proof.
  intros G P. split.
  - intros a u v Hu Hv. destruct (scalar_exists d l u n G (P u Hu)) as [I HI]. destruct (scalar_exists d l v n G (P v Hv)) as [J HJ].
    rewrite (scalar_value_eval l u I HI), (scalar_value_eval l v J HJ). apply scalar_value_eval, scalar_value_lin; assumption.
  - intros u v E Hu. destruct (scalar_exists d l u n G (P u Hu)) as [I HI]. rewrite (scalar_value_eval l u I HI). symmetry. apply scalar_value_eval. exact (scalar_value_ext l u v I E HI).
Qed.
Lemma scalar_square d n (W : component_fn -> Prop) poly dofs K made : made = Ok (poly, dofs) ->
  subspace W -> (forall f, W f -> degree_space d n (fun v => f (0%nat, v))) -> (forall F, In F poly -> W (field F)) ->
  (forall m, In m dofs -> good_scalar d m) -> length poly = K -> length dofs = K ->
  (forall c, (forall x, combination c (map field poly) x = 0) -> forall i, (i < K)%nat -> c i = 0) ->
  (forall f, W f -> (forall m, In m dofs -> scalar_value m f 0) -> forall x, f x = 0) ->
  dual_scalar made W K.
Proof.
  intros -> HS HP HF HG Lp Ld HI HZ.
  destruct (square_element W (map field poly) (map scalar_eval dofs)) as (phi & E & L & D & Wp & X).
  - exact HS.
  - apply Forall_map, Forall_forall. intros m Hm. exact (scalar_linear d n m W (HG m Hm) HP).
  - apply Forall_map, Forall_forall. exact HF.
  - intros c Hc. rewrite map_length, Lp. apply HI, Hc.
  - rewrite !map_length. congruence.
  - intros f Wf Z. apply HZ; [exact Wf|]. intros m Hm. destruct (scalar_exists d m f n (HG m Hm) (HP f Wf)) as [I HI'].
    specialize (Z (scalar_eval m) (in_map _ _ _ Hm)). rewrite (scalar_value_eval m f I HI') in Z. rewrite <- Z. exact HI'.
  - rewrite map_length in L, D, X. rewrite Ld in *. exists poly, dofs, phi. split; [reflexivity|]. split; [exact E|]. split; [exact Ld|]. split; [exact L|].
    rewrite Forall_forall in Wp.
    assert (V : forall i m f, nth_error dofs i = Some m -> W f -> scalar_value m f (nth i (map scalar_eval dofs) (fun _ => 0) f)).
    { intros i m f Hm Wf. destruct (scalar_exists d m f n (HG m (nth_error_In _ _ Hm)) (HP f Wf)) as [I HI'].
      rewrite (nth_error_nth (map scalar_eval dofs) i (fun _ => 0) (map_nth_error scalar_eval i dofs Hm)). rewrite (scalar_value_eval m f I HI'). exact HI'. }
    split; [|split].
    + unfold component_fn in *. intros i j m g Hm Hg. assert (Hi : (i < K)%nat) by (rewrite <- Ld; apply nth_error_Some; rewrite Hm; discriminate).
      assert (Hj : (j < K)%nat) by (rewrite <- L; apply nth_error_Some; rewrite Hg; discriminate).
      specialize (D i j Hi Hj). rewrite (nth_error_nth phi j _ Hg) in D. rewrite <- D. apply V; [exact Hm|]. apply Wp, (nth_error_In _ _ Hg).
    + exact Wp.
    + intros f Wf. exists (fun i => nth i (map scalar_eval dofs) (fun _ => 0) f). split; [intros i m Hm; apply V; assumption|]. apply X, Wf.
Qed.

(** * The functions of the moments *)
Lemma dpc_interval_0 variant : dual_element (make_dpc (default CInterval) 0 variant) (fields 1 (P_space 1 0)) 1.
Proof.
  assert (D : exists p ke, dpc_dofs (default CInterval) 0 variant = Ok [(p, ke)]) by (eexists _, _; reflexivity). destruct D as (p & ke & D).
  unfold make_dpc. rewrite D. destruct (polynomial_set_1d_ok 1 0 ltac:(lia)) as (ms & Hp & ND & Hin & _). cbn [rbind]. change (tdim (r_type (default CInterval))) with 1%nat. rewrite Hp. cbn [rmap].
  pose proof (P_dim_length _ _ _ Hp) as L. cbn [P_dim] in L. change 1%nat with (0 + 1)%nat at 3. rewrite <- L.
  apply (scalar_element 1 _ ms [(p, ke)] _); [|reflexivity]. split; [exact ND|]. split; [exact Hin|]. split; [intros m [H _]; exact H|]. split; [rewrite L; reflexivity|].
  intros f Hf Z. eapply (constant_zero _ f (env_of p)); [|exact Hf|]; [intros m [_ H]; lia|]. apply (Z p ke). left. reflexivity.
Qed.
Lemma dpc_span k n variant : (1 <= k <= 3)%nat -> quadrature_upto variant (n + 1) -> exists fs, dpc_basis n variant (default (box_of k)) = Ok fs /\ length fs = P_dim k n /\
  (forall f, In f fs -> P_space k n (fun t => f (0%nat, t))) /\
  (forall g, P_space k n g -> exists a, forall t, g t = sum (length fs) (fun i => a i * nth i fs (fun _ => 0) (0%nat, t))).
Proof.
  intros Hk Hq. assert (D : dual_element (make_dpc (default (box_of k)) n variant) (fields 1 (P_space k n)) (P_dim k n)).
  { assert (C : (k = 1 \/ k = 2 \/ k = 3)%nat) by lia. destruct C as [->|[->| ->]].
    - destruct n as [|n]; [apply dpc_interval_0|]. destruct (Hq (S n + 1)%nat ltac:(lia)) as [rule Hr]. apply (dpc_interval_dual (S n) variant rule ltac:(lia) Hr).
    - exact (dpc_dual CQuadrilateral n variant (or_introl eq_refl)).
    - exact (dpc_dual CHexahedron n variant (or_intror eq_refl)). }
  destruct D as (poly & dofs & phi & E & B & L1 & L2 & _ & HW & HX). exists phi. split; [unfold dpc_basis; rewrite E; exact B|]. split; [exact L2|]. split; [intros f Hf; apply (HW f Hf); lia|].
  intros g Hg. set (G := fun ct : nat * point => match fst ct with O => g (snd ct) | _ => 0 end).
  assert (WG : fields 1 (P_space k n) G) by (split; [intros [|c] Hc; [exact Hg|lia]|intros [|c] v Hc; [lia|reflexivity]]).
  eexists. intros t. rewrite L2. exact (HX G WG (0%nat, t)).
Qed.
Definition scal (dom : reference) (j : R) (k i : nat) (psi : component_fn) : moment_dof :=
  {| mo_domain := dom; mo_limits := blims k; mo_jacobian := j; mo_f := psi; mo_entity := (k, i) |}.
Definition ent_ok (d k i : nat) (E : list nat) (dom : reference) (j : R) : Prop :=
  nth_error (table d k) i = Some E /\ j <> 0 /\ placed d k dom (moving d E) (bit (hd 0%nat E)).
Lemma dpc_moments d k n variant : (1 <= d <= 3)%nat -> (1 <= k <= 3)%nat -> ((2 * k <= n)%nat -> quadrature_upto variant (n - 2 * k + 1)) -> exists L,
  unless_below n (2 * k) (moments_on (default (box_of d)) k (dpc_basis (n - 2 * k) variant) scalar_moment) = Ok L /\
  length L = (if 2 * k <=? n then length (table d k) * P_dim k (n - 2 * k) else 0)%nat /\
  (forall m, In m L -> exists i E dom j psi, ent_ok d k i E dom j /\ m = scal dom j k i psi /\ P_space k (n - 2 * k) (fun t => psi (0%nat, t))) /\
  ((2 * k <= n)%nat -> forall i E, nth_error (table d k) i = Some E -> exists dom j fs, ent_ok d k i E dom j /\ (forall psi, In psi fs -> In (scal dom j k i psi) L) /\
     forall g, P_space k (n - 2 * k) g -> exists a, forall t, g t = sum (length fs) (fun i => a i * nth i fs (fun _ => 0) (0%nat, t))).
Proof.
  intros Hd Hk Hq. unfold unless_below. destruct (Nat.ltb_spec n (2 * k)) as [Hn|Hn].
  { exists []. split; [reflexivity|]. rewrite (proj2 (Nat.leb_gt _ _) Hn). split; [reflexivity|]. split; [intros m []|lia]. }
  rewrite (proj2 (Nat.leb_le _ _) Hn). destruct (dpc_span k (n - 2 * k) variant Hk (Hq Hn)) as (fs & B & Lf & HP & HS).
  destruct (Nat.lt_ge_cases d k) as [Hdk|Hdk].
  { assert (T : table d k = [] /\ sub_entity_types (r_type (default (box_of d))) k = Ok NoType) by (assert (C : (d = 1 /\ k = 2 \/ d = 1 /\ k = 3 \/ d = 2 /\ k = 3)%nat) by lia; destruct C as [[-> ->]|[[-> ->]|[-> ->]]]; split; reflexivity).
    destruct T as [T1 T2]. exists []. unfold moments_on. rewrite T2. split; [reflexivity|]. rewrite T1. split; [reflexivity|]. split; [intros m []|]. intros _ i E HE. destruct i; discriminate HE. }
  destruct (finite_choice (scal (default CPoint) 0 0 0) (length (table d k)) (fun i m => exists E dom j, ent_ok d k i E dom j /\ sub_entity (default (box_of d)) k i false = Ok dom /\ r_type dom = box_of k /\ jacobian dom = Ok j /\ m = scal dom j k i)) as [mk Hmk].
  { intros i Hi. destruct (nth_error (table d k) i) as [E|] eqn:HE; [|apply nth_error_None in HE; lia]. destruct (ent_facts d k i E Hd ltac:(lia) HE) as (dom & j & F1 & F2 & F3 & F4 & F5). exists (scal dom j k i), E, dom, j. repeat split; try assumption; apply F5. }
  exists (flat_map (fun i => map (mk i) fs) (range (length (table d k)))). split; [|split; [|split]].
  - assert (T : sub_entity_types (r_type (default (box_of d))) k = Ok (Same (box_of k)) /\ sub_entities (default (box_of d)) k = Ok (table d k)).
    { assert (C : (d = 1 /\ k = 1 \/ d = 2 /\ k = 1 \/ d = 2 /\ k = 2 \/ d = 3 /\ k = 1 \/ d = 3 /\ k = 2 \/ d = 3 /\ k = 3)%nat) by lia. destruct C as [[-> ->]|[[-> ->]|[[-> ->]|[[-> ->]|[[-> ->]|[-> ->]]]]]]; split; reflexivity. }
    apply (moments_on_ok (default (box_of d)) k _ scalar_moment (box_of k) (table d k) fs mk); [apply T|apply T|exact B| |].
    + intros i Hi. destruct (Hmk i Hi) as (E & dom & j & _ & F1 & F2 & _). exists dom. split; assumption.
    + intros i f Hi _. destruct (Hmk i Hi) as (E & dom & j & _ & F1 & F2 & F3 & ->). unfold scalar_moment. cbn [fst snd]. rewrite F1. cbn [rbind]. unfold make_moment. rewrite F2, (box_limits k Hk). cbn [rbind]. rewrite F3. reflexivity.
  - rewrite (length_flat (fun i => map (mk i) fs) (P_dim k (n - 2 * k))) by (intros i; rewrite map_length; exact Lf). rewrite length_range. apply Nat.mul_comm.
  - intros m Hm. apply in_flat_map in Hm. destruct Hm as (i & Hi & Hm). apply in_range in Hi. apply in_map_iff in Hm. destruct Hm as (psi & <- & Hpsi). destruct (Hmk i Hi) as (E & dom & j & F & _ & _ & _ & ->).
    exists i, E, dom, j, psi. split; [exact F|]. split; [reflexivity|]. apply HP, Hpsi.
  - intros _ i E HE. assert (Hi : (i < length (table d k))%nat) by (apply nth_error_Some; rewrite HE; discriminate). destruct (Hmk i Hi) as (E' & dom & j & F & _ & _ & _ & M).
    assert (E' = E) by (destruct F as [F _]; congruence). subst E'. exists dom, j, fs. split; [exact F|]. split; [|exact HS]. intros psi Hp. apply in_flat_map. exists i. split; [apply in_range, Hi|]. rewrite M. apply in_map, Hp.
Qed.

(** * The element *)
Definition vertex_dofs (d : nat) : list scalar_dof := map (fun vp => Value (snd vp) (0%nat, fst vp)) (enumerate (r_vertices (default (box_of d)))).
Definition serendipity_dofs (d n : nat) (dofs : list scalar_dof) : Prop :=
  (forall l, In l dofs -> In l (vertex_dofs d) \/ exists k i E dom j psi, (1 <= k <= 3)%nat /\ ent_ok d k i E dom j /\ l = Moment (scal dom j k i psi) /\ P_space k (n - 2 * k) (fun t => psi (0%nat, t))) /\
  (forall l, In l (vertex_dofs d) -> In l dofs) /\
  (forall k i E, (1 <= k <= 3)%nat -> (2 * k <= n)%nat -> nth_error (table d k) i = Some E -> exists dom j fs, ent_ok d k i E dom j /\ (forall psi, In psi fs -> In (Moment (scal dom j k i psi)) dofs) /\
     forall g, P_space k (n - 2 * k) g -> exists a, forall t, g t = sum (length fs) (fun i => a i * nth i fs (fun _ => 0) (0%nat, t))).
Lemma tdim_box d : (1 <= d <= 3)%nat -> tdim (r_type (default (box_of d))) = d.
Proof. intros H. assert (C : (d = 1 \/ d = 2 \/ d = 3)%nat) by lia. destruct C as [->|[->| ->]]; reflexivity. Qed.
Lemma serendipity_made d n variant : (1 <= d <= 3)%nat -> (1 <= n)%nat -> quadrature_upto variant (n - 1) -> exists l dofs,
  polynomial_set_1d d n = Ok l /\ make_serendipity (default (box_of d)) n variant = Ok (map one_field (l ++ serendipity_set_1d d n), dofs) /\ length dofs = serendipity_dim d n /\ serendipity_dofs d n dofs.
Proof.
  intros Hd Hn Hq. destruct (C08_serendipity_superlinear d n Hd) as (l & Hl & _).
  destruct (dpc_moments d 1 n variant Hd ltac:(lia)) as (L1 & E1 & N1 & A1 & B1); [intros H k Hk; apply Hq; lia|].
  destruct (dpc_moments d 2 n variant Hd ltac:(lia)) as (L2 & E2 & N2 & A2 & B2); [intros H k Hk; apply Hq; lia|].
  destruct (dpc_moments d 3 n variant Hd ltac:(lia)) as (L3 & E3 & N3 & A3 & B3); [intros H k Hk; apply Hq; lia|].
  exists l, (vertex_dofs d ++ map Moment (L1 ++ L2 ++ L3)). split; [exact Hl|].
  change (2 * 1)%nat with 2%nat in *. change (2 * 2)%nat with 4%nat in *. change (2 * 3)%nat with 6%nat in *. split; [|split].
  - unfold make_serendipity. rewrite (tdim_box d Hd), Hl. cbn [rbind]. rewrite E1. cbn [rbind]. rewrite E2. cbn [rbind]. rewrite E3. reflexivity.
  - rewrite app_length, map_length, !app_length, N1, N2, N3. unfold serendipity_dim. assert (C : (d = 1 \/ d = 2 \/ d = 3)%nat) by lia. destruct C as [->|[->| ->]].
    + change (length (vertex_dofs 1)) with 2%nat. change (length (table 1 1)) with 1%nat. change (length (table 1 2)) with 0%nat. change (length (table 1 3)) with 0%nat. change (2 * 1)%nat with 2%nat. destruct (2 <=? n)%nat, (4 <=? n)%nat, (6 <=? n)%nat; lia.
    + change (length (vertex_dofs 2)) with 4%nat. change (length (table 2 1)) with 4%nat. change (length (table 2 2)) with 1%nat. change (length (table 2 3)) with 0%nat. change (2 * 1)%nat with 2%nat. change (2 * 2)%nat with 4%nat. destruct (2 <=? n)%nat, (4 <=? n)%nat, (6 <=? n)%nat; lia.
    + change (length (vertex_dofs 3)) with 8%nat. change (length (table 3 1)) with 12%nat. change (length (table 3 2)) with 6%nat. change (length (table 3 3)) with 1%nat. change (2 * 1)%nat with 2%nat. change (2 * 2)%nat with 4%nat. change (2 * 3)%nat with 6%nat. destruct (2 <=? n)%nat, (4 <=? n)%nat, (6 <=? n)%nat; lia.
  - split; [|split].
    + intros x Hx. apply in_app_or in Hx. destruct Hx as [Hx|Hx]; [left; exact Hx|right]. apply in_map_iff in Hx. destruct Hx as (m & <- & Hm). apply in_app_or in Hm. destruct Hm as [Hm|Hm]; [|apply in_app_or in Hm; destruct Hm as [Hm|Hm]].
      * destruct (A1 m Hm) as (i & E & dom & j & psi & F & -> & P). exists 1%nat, i, E, dom, j, psi. split; [lia|]. split; [exact F|]. split; [reflexivity|exact P].
      * destruct (A2 m Hm) as (i & E & dom & j & psi & F & -> & P). exists 2%nat, i, E, dom, j, psi. split; [lia|]. split; [exact F|]. split; [reflexivity|exact P].
      * destruct (A3 m Hm) as (i & E & dom & j & psi & F & -> & P). exists 3%nat, i, E, dom, j, psi. split; [lia|]. split; [exact F|]. split; [reflexivity|exact P].
    + intros x Hx. apply in_or_app. left. exact Hx.
    + intros k i E Hk Hkn HE. assert (C : (k = 1 \/ k = 2 \/ k = 3)%nat) by lia. destruct C as [->|[->| ->]].
      * destruct (B1 Hkn i E HE) as (dom & j & fs & F & I & S). exists dom, j, fs. split; [exact F|]. split; [|exact S]. intros psi Hp. apply in_or_app. right. apply in_map. apply in_or_app. left. apply I, Hp.
      * destruct (B2 Hkn i E HE) as (dom & j & fs & F & I & S). exists dom, j, fs. split; [exact F|]. split; [|exact S]. intros psi Hp. apply in_or_app. right. apply in_map. apply in_or_app. right. apply in_or_app. left. apply I, Hp.
      * destruct (B3 Hkn i E HE) as (dom & j & fs & F & I & S). exists dom, j, fs. split; [exact F|]. split; [|exact S]. intros psi Hp. apply in_or_app. right. apply in_map. apply in_or_app. right. apply in_or_app. right. apply I, Hp.
Qed.
Lemma serendipity_degree d n f : serendipity_space d n f -> degree_space d (n + d) f.
Proof. apply poly_space_weaken. intros m [L S]. split; [exact L|]. pose proof (superlinear_entry m). lia. Qed.
(** A function whose degrees of freedom on the closure of a sub-entity vanish is zero there. *)
Definition closure_zero (d : nat) (dofs : list scalar_dof) (E : list nat) (f : component_fn) : Prop :=
  forall l k' i' E', In l dofs -> scalar_entity l = (k', i') -> nth_error (table d k') i' = Some E' -> incl E' E -> scalar_value l f 0.
Lemma trace_zero d n dofs f : (1 <= d <= 3)%nat -> serendipity_dofs d n dofs -> serendipity_space d n (fun v => f (0%nat, v)) ->
  forall k i E, nth_error (table d k) i = Some E -> closure_zero d dofs E f -> forall v, (forall c, (c < d)%nat -> ~ In c (moving d E) -> v c = bit (hd 0%nat E) c) -> f (0%nat, v) = 0.
Proof.
  intros Hd (D1 & D2 & D3) Hf. pose proof (serendipity_degree d n _ Hf) as Hdeg. induction k as [|k IH]; intros i E HE Z v Hv.
  - assert (Vx : (i < length (r_vertices (default (box_of d))))%nat /\ E = [i]).
    { unfold table in HE. cbn [sub_entities] in HE. assert (Hi : (i < length (r_vertices (default (box_of d))))%nat) by (rewrite <- (length_range (length (r_vertices (default (box_of d))))), <- (map_length (fun i => [i])); apply nth_error_Some; rewrite HE; discriminate).
      split; [exact Hi|]. apply (nth_error_nth _ _ []) in HE. rewrite <- HE, (CiarletProofs.nth_map_lt (fun i => [i]) _ i 0%nat) by (rewrite length_range; exact Hi). unfold range. rewrite seq_nth by exact Hi. reflexivity. }
    destruct Vx as [Hi ->]. set (p := nth i (r_vertices (default (box_of d))) []).
    assert (I : In (Value p (0%nat, i)) (vertex_dofs d)).
    { unfold vertex_dofs. apply in_map_iff. exists (i, p). split; [reflexivity|]. unfold enumerate. apply (nth_error_In _ i).
      unfold p. clear -Hi. generalize dependent (r_vertices (default (box_of d))). intros l Hi. rewrite (nth_error_nth' _ (i, nth i l [])); [|rewrite combine_length, length_range; lia]. f_equal. rewrite combine_nth by (apply length_range). f_equal; [|apply nth_indep, Hi]. rewrite (nth_indep _ _ 0%nat) by (rewrite length_range; exact Hi). unfold range. rewrite seq_nth by exact Hi. reflexivity. }
    pose proof (Z _ 0%nat i [i] (D2 _ I) eq_refl HE (incl_refl _)) as V. cbn [scalar_value] in V. rewrite <- V. apply (degree_local d (n + d) (fun v => f (0%nat, v)) _ _ Hdeg).
    intros c Hc. unfold p. rewrite (vertex_bits d i c Hd Hi Hc). apply (Hv c Hc). intros Hm. apply filter_In in Hm. destruct Hm as [_ Hm]. unfold fixed in Hm. cbn [forallb] in Hm. destruct (Nat.testbit i c); discriminate Hm.
  - destruct (ent_facts d (S k) i E Hd ltac:(lia) HE) as (dom0 & j0 & _ & _ & _ & _ & P0).
    assert (Hk : (1 <= S k <= 3)%nat) by (destruct P0 as (_ & I & _); apply dirs_cases in I; lia).
    assert (G : forall dom, placed d (S k) dom (moving d E) (bit (hd 0%nat E)) -> ((2 * S k <= n)%nat -> forall q, P_space (S k) (n - 2 * S k) q -> iterated_integral (blims (S k)) (fun t => f (0%nat, point_of dom t) * q t) (fun _ => 0) 0) -> f (0%nat, v) = 0).
    { intros dom P HI. assert (G : forall t, f (0%nat, point_of dom t) = 0).
      { apply (serendipity_zero (S k) n (fun t => f (0%nat, point_of dom t)) Hk (restrict_space d (S k) dom _ _ n _ P Hf)); [|exact HI].
        intros a t Ha Ht. destruct (boundary d (S k) E a (if Rle_dec (1/2) (t a) then true else false) Hd Ha (nth_error_In _ _ HE)) as (i' & E' & HE' & I' & B'). replace (S k - 1)%nat with k in HE' by lia.
        apply (IH i' E' HE'); [intros l k2 i2 E2 H1 H2 H3 H4; apply (Z l k2 i2 E2 H1 H2 H3); intros x Hx; apply I', H4, Hx|].
        intros c Hc N. destruct (B' c Hc N) as [[N1 ->]|[-> ->]]; [apply (placed_fixed d (S k) dom _ _ t c P Hc N1)|]. rewrite (placed_moving d (S k) dom _ _ t a P Ha). destruct (Rle_dec (1 / 2) (t a)); lra. }
      rewrite <- (G (fun a => v (nth a (moving d E) 0%nat))). apply (degree_local d (n + d) (fun v => f (0%nat, v)) _ _ Hdeg). intros c Hc. symmetry. apply (placed_onto d (S k) dom _ _ v P Hv c Hc). }
    destruct (Nat.lt_ge_cases n (2 * S k)) as [Hn|Hn]; [apply (G dom0 P0); intros; lia|].
    destruct (D3 (S k) i E Hk Hn HE) as (dom & j & fs & (_ & Hj & P) & I & S). apply (G dom P). intros _ q Hq. destruct (S q Hq) as [a Ha].
    apply (iterated_val _ _ _ (sum (length fs) (fun _ => 0)) 0); [apply sum_zero; reflexivity|].
    eapply iterated_ext'; [|apply (iterated_sum (blims (Datatypes.S k)) (fun _ => 0) (length fs) (fun b t => f (0%nat, point_of dom t) * (a b * nth b fs (fun _ => 0) (0%nat, t))) (fun _ => 0))].
    + intros t. cbv beta. rewrite Ha. rewrite <- sum_scal. apply sum_ext. intros; ring.
    + intros b Hb. pose proof (Z _ (Datatypes.S k) i E (I _ (nth_In fs (fun _ => 0) Hb)) eq_refl HE (incl_refl _)) as V. cbn [scalar_value scal mo_limits mo_domain mo_f mo_jacobian] in V.
      pose proof (iterated_lin _ _ _ _ _ _ (a b / j) V (iterated_zero (blims (Datatypes.S k)) (fun _ => 0))) as V'. rewrite Rmult_0_r, Rplus_0_r in V'. eapply iterated_ext'; [|exact V']. intros t. cbv beta. unfold component_fn in *. field. exact Hj.
Qed.
Lemma superlinear_same m : superlinear_degree m = superlinear m.
Proof. induction m as [|a m IH]; [reflexivity|]. cbn [superlinear superlinear_degree]. rewrite IH. destruct a as [|[|a]]; reflexivity. Qed.
Lemma serendipity_fields_subspace d n : subspace (fields 1 (serendipity_space d n)).
Proof.
  split; [|split].
  - split; [intros c _; apply poly_space_zero|reflexivity].
  - intros a u v [U ZU] [V ZV]. split; [|intros c x Hc; rewrite ZU, ZV by exact Hc; ring]. intros c Hc.
    apply (poly_space_add _ (fun x => a * u (c, x)) (fun x => v (c, x))); [apply (poly_space_scale _ a (fun x => u (c, x))), U, Hc|apply V, Hc].
  - intros u v E [U ZU]. split; [|intros c x Hc; rewrite <- E; apply ZU, Hc]. intros c Hc. apply (poly_space_ext _ (fun x => u (c, x))); [intros x; apply E|apply U, Hc].
Qed.
Lemma dofs_good d n dofs : (1 <= d <= 3)%nat -> serendipity_dofs d n dofs -> forall l, In l dofs -> good_scalar d l.
Proof.
  intros Hd (D1 & _) l Hl. destruct (D1 l Hl) as [Hv|(k & i & E & dom & j & psi & Hk & (_ & _ & P) & -> & Q)].
  - unfold vertex_dofs in Hv. apply in_map_iff in Hv. destruct Hv as (vp & <- & _). exact I.
  - exists k. split; [exact Hk|]. split; [apply blims_good, Hk|]. split; [apply P|]. exists (n - 2 * k)%nat. exact Q.
Qed.
Lemma cell_zero d n dofs f : (1 <= d <= 3)%nat -> serendipity_dofs d n dofs -> fields 1 (serendipity_space d n) f -> (forall l, In l dofs -> scalar_value l f 0) -> forall x, f x = 0.
Proof.
  intros Hd HD [Hf Hz] Z [[|c] v]; [|apply Hz; lia].
  assert (T : exists E, nth_error (table d d) 0 = Some E /\ moving d E = range d) by (assert (C : (d = 1 \/ d = 2 \/ d = 3)%nat) by lia; destruct C as [->|[->| ->]]; eexists; split; reflexivity).
  destruct T as (E & HE & M). apply (trace_zero d n dofs f Hd HD (Hf 0%nat ltac:(lia)) d 0%nat E HE); [intros l k' i' E' Hl _ _ _; apply Z, Hl|]. intros c Hc N. exfalso. apply N. rewrite M. apply in_range, Hc.
Qed.
Lemma serendipity_size d n l : (1 <= d <= 3)%nat -> (1 <= n)%nat -> polynomial_set_1d d n = Ok l -> length (l ++ serendipity_set_1d d n) = serendipity_dim d n.
Proof.
  intros Hd Hn Hl. rewrite app_length, (P_dim_length _ _ _ Hl). unfold serendipity_dim. assert (C : (d = 1 \/ d = 2 \/ d = 3)%nat) by lia. destruct C as [->|[->| ->]].
  - rewrite serendipity_1 by exact Hn. cbn [P_dim]. change (2 * 1)%nat with 2%nat. destruct (Nat.leb_spec 2 n); lia.
  - rewrite serendipity_2 by exact Hn. change (2 * 1)%nat with 2%nat. change (2 * 2)%nat with 4%nat. destruct n as [|[|[|[|n]]]]; [lia|reflexivity..|]. rewrite !(proj2 (Nat.leb_le _ _)) by lia.
    replace (S (S (S (S n))) =? 1)%nat with false by reflexivity. change (P_dim 1 (S (S (S (S n))) - 2)) with (S (S (S (S n))) - 2 + 1)%nat. pose proof (P_dim2 (S (S (S (S n))))) as H1. pose proof (P_dim2 (S (S (S (S n))) - 4)) as H2. replace (S (S (S (S n))) - 4)%nat with n in * by lia. nia.
  - rewrite serendipity_3' by exact Hn. change (2 * 1)%nat with 2%nat. change (2 * 2)%nat with 4%nat. change (2 * 3)%nat with 6%nat. destruct n as [|[|[|[|[|[|n]]]]]]; [lia|reflexivity..|]. rewrite !(proj2 (Nat.leb_le _ _)) by lia.
    pose proof (P_dim3 (S (S (S (S (S (S n))))))) as H1. pose proof (P_dim2 (S (S n))) as H2. pose proof (P_dim3 n) as H3. replace (S (S (S (S (S (S n))))) - 4)%nat with (S (S n)) by lia. replace (S (S (S (S (S (S n))))) - 6)%nat with n by lia.
    unfold ser3. change (P_dim 1 (S (S (S (S (S (S n))))) - 2)) with (S (S (S (S (S (S n))))) - 2 + 1)%nat. nia.
Qed.
Lemma serendipity_dual d n variant : (1 <= d <= 3)%nat -> (1 <= n)%nat -> quadrature_upto variant (n - 1) ->
  dual_scalar (make_serendipity (default (box_of d)) n variant) (fields 1 (serendipity_space d n)) (serendipity_dim d n).
Proof.
  intros Hd Hn Hq. destruct (serendipity_made d n variant Hd Hn Hq) as (l & dofs & Hl & HM & LD & HD). destruct (C08_serendipity_superlinear d n Hd) as (l' & Hl' & ND & Hin & _). assert (l' = l) by congruence. subst l'.
  pose proof (serendipity_size d n l Hd Hn Hl) as LS. set (ms := l ++ serendipity_set_1d d n) in *.
  assert (F0 : forall m v, field (one_field m) (0%nat, v) = meval m v) by (intros m v; unfold field, one_field; cbn [fst snd nth]; unfold zeval; cbn [map fold_right fst snd]; lra).
  apply (scalar_square d (n + d) _ (map one_field ms) dofs); [exact HM|apply serendipity_fields_subspace|intros f Wf; apply serendipity_degree, Wf; lia| |exact (dofs_good d n dofs Hd HD)|rewrite map_length; exact LS|exact LD| |intros f; exact (cell_zero d n dofs f Hd HD)].
  - intros F HF. apply in_map_iff in HF. destruct HF as (m & <- & Hm). split.
    + intros [|c] Hc; [|lia]. apply (poly_space_ext _ (meval m)); [intros v; symmetry; apply F0|]. apply poly_space_mono. apply Hin in Hm. rewrite superlinear_same in Hm. exact Hm.
    + intros [|c] v Hc; [lia|]. apply field_beyond. cbn. lia.
  - intros c Hc i Hi. rewrite <- LS in Hi. apply (comb_indep d ms c ND (fun m Hm => proj1 (proj1 (Hin m) Hm))); [|exact Hi]. intros v. specialize (Hc (0%nat, v)). unfold combination in Hc. rewrite !map_length in Hc. rewrite <- Hc.
    apply sum_ext. intros a Ha. f_equal. rewrite (CiarletProofs.nth_map_lt field (map one_field ms) a (one_field [])) by (rewrite map_length; exact Ha). rewrite (map_nth one_field). symmetry. apply F0.
Qed.
Lemma serendipity_conforming d n variant : (1 <= d <= 3)%nat -> (1 <= n)%nat -> quadrature_upto variant (n - 1) ->
  scalar_continuous (default (box_of d)) (make_serendipity (default (box_of d)) n variant) (fields 1 (serendipity_space d n)).
Proof.
  intros Hd Hn Hq. destruct (serendipity_made d n variant Hd Hn Hq) as (l & dofs & Hl & HM & LD & HD). eexists _, dofs. split; [exact HM|]. rewrite (tdim_box d Hd).
  intros k e tab E f Ht HE [Wf _] Z p Lp Hp. assert (T : table d k = tab) by (unfold table; rewrite Ht; reflexivity). rewrite <- T in HE.
  apply (trace_zero d n dofs f Hd HD (Wf 0%nat ltac:(lia)) k e E HE).
  - intros m k' i' E' Hm He' HE' I'. destruct (sub_entities (default (box_of d)) k') as [tab'|er] eqn:Ht'; [|unfold table in HE'; rewrite Ht' in HE'; destruct i'; discriminate HE'].
    apply (Z m k' i' tab' E' Hm He' Ht'); [|exact I']. unfold table in HE'. rewrite Ht' in HE'. exact HE'.
  - intros c Hc N. exact (hull_fixed d k E p c Hd (nth_error_In _ _ HE) Lp Hp Hc N).
Qed.
