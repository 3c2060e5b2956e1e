(** Tangential moments on the edges and faces of the default tetrahedron. *)
From Coquelicot Require Import Coquelicot.
From Coq Require Import String Arith Bool ZArith Reals Lia Lra List FunctionalExtensionality.
From Verif Require Import Base PolyLib PolySetsModel PolySetsProofs RTNedelecProofs PropertiesPolySets PolyVec QuadratureModel ReferencesModel ReferencesSpec ReferencesProofs ReferencesGeometry CiarletModel CiarletProofs
  LinAlg ElementModel LagrangeModel UnisolvenceProofs LagrangeProofs LagrangeKey LagrangeUnisolvence PropertiesLagrange PropertiesCiarlet
  LegendreJacobi LegendreIntSpec LegendreIntegrals KmvProofs MomentsInt MomentsParts MomentsRT
  PointsModel PointsSpec PointsProofs PointsElements MomentElementsModel MomentElementsSpec MomentElementsProofs MomentsFacets MomentsRaviart MomentsRTDual MomentsNedelec MomentsBubble.
Import PolyVec ListNotations.
Local Open Scope R_scope.

(** * Two dimensions *)
Definition edge_traces (g : nat -> sfun) : Prop :=
  (forall v, v 0%nat = 0 -> g 1%nat v = 0) /\ (forall v, v 1%nat = 0 -> g 0%nat v = 0) /\ (forall v, sum 2 v = 1 -> g 1%nat v = g 0%nat v).
Definition as_field (d : nat) (g : nat -> sfun) : component_fn := fun ct => if (fst ct <? d)%nat then g (fst ct) (snd ct) else 0.
Lemma nedelec1_zero2 n g : (1 <= n)%nat -> nedelec_fields 2 n g -> edge_traces g ->
  (forall psi : nat -> sfun, (2 <= n)%nat -> (forall c, (c < 2)%nat -> degree_space 2 (n - 2) (psi c)) -> iterated_integral (slims 2) (fun v => sum 2 (fun c => g c v * psi c v)) (fun _ => 0) 0) ->
  forall c v, (c < 2)%nat -> g c v = 0.
Proof.
  intros Hn Hg (T0 & T1 & T2) HO. pose proof (rotated_rt n _ Hn (nedelec_of_fields 2 n g Hn Hg)) as HR. fold (as_field 2 g) in HR.
  assert (Z : forall c v, (c < 2)%nat -> rotated (as_field 2 g) (c, v) = 0).
  { apply (rt_zero 2 n (fun c v => rotated (as_field 2 g) (c, v)) ltac:(lia) Hn (rt_space_fields 2 n _ HR)).
    - intros [|[|c]] v Hc Hv; [| |lia]; unfold rotated, as_field; cbn; [apply T0, Hv|rewrite T1 by exact Hv; ring].
    - intros t. pose proof (T2 (slant 2 t) (slant_on 2 t ltac:(lia))) as Q. unfold rotated, as_field. cbn [sum fst snd]. cbn [Nat.ltb Nat.leb]. rewrite Q. ring.
    - intros psi H2 Hpsi. eapply iterated_ext'; [|apply (HO (fun c v => match c with O => - psi 1%nat v | _ => psi 0%nat v end) H2)].
      + intros v. unfold rotated, as_field. cbn [sum fst snd Nat.ltb Nat.leb]. ring.
      + intros [|[|c]] Hc; [|apply Hpsi; lia|lia]. apply (poly_space_ext _ (fun v => - (1) * psi 1%nat v)); [intros; ring|]. apply poly_space_scale, Hpsi. lia. }
  intros [|[|c]] v Hc; [| |lia].
  - specialize (Z 1%nat v ltac:(lia)). unfold rotated, as_field in Z. cbn in Z. lra.
  - specialize (Z 0%nat v ltac:(lia)). exact Z.
Qed.
Lemma nedelec2_zero2 n g : (1 <= n)%nat -> (forall c, (c < 2)%nat -> degree_space 2 n (g c)) -> edge_traces g ->
  (forall psi : component_fn, (2 <= n)%nat -> rt_space 2 (n - 1) psi -> iterated_integral (slims 2) (fun v => sum 2 (fun c => g c v * psi (c, v))) (fun _ => 0) 0) ->
  forall c v, (c < 2)%nat -> g c v = 0.
Proof.
  intros Hn Hg (T0 & T1 & T2) HO.
  assert (Z : forall c v, (c < 2)%nat -> (match c with O => g 1%nat v | _ => - g 0%nat v end) = 0).
  { apply (bdm_zero 2 n (fun c v => match c with O => g 1%nat v | _ => - g 0%nat v end)); [lia|exact Hn| | | |].
    - intros [|[|c]] Hc; [apply Hg; lia| |lia]. apply (poly_space_ext _ (fun v => - (1) * g 0%nat v)); [intros; ring|]. apply poly_space_scale, Hg. lia.
    - intros [|[|c]] v Hc Hv; [apply T0, Hv|rewrite T1 by exact Hv; ring|lia].
    - intros v Hv. cbn [sum]. rewrite (T2 v Hv). ring.
    - intros psi H2 Hpsi. pose proof (rotated_rt (n - 1) _ ltac:(lia) (nedelec_of_fields 2 (n - 1) psi ltac:(lia) Hpsi)) as HR. fold (as_field 2 psi) in HR.
      apply (iterated_val _ _ _ (- (1) * 0 + 0)); [ring|]. eapply iterated_ext'; [|apply (iterated_lin _ _ _ _ _ _ (- (1)) (HO _ H2 HR) (iterated_zero _ _))].
      intros v. unfold rotated, as_field. cbn [sum fst snd Nat.ltb Nat.leb]. ring. }
  intros [|[|c]] v Hc; [| |lia].
  - specialize (Z 1%nat v ltac:(lia)). cbn in Z. lra.
  - exact (Z 0%nat v ltac:(lia)).
Qed.

(** * Pulling back *)
Definition pull (dom : reference) (f : component_fn) (k : nat) (t : point) : R := sum 3 (fun c => f (c, point_of dom t) * nth c (nth k (r_axes dom) []) 0).
Lemma pull_degree dom e n f : length (r_axes dom) = e -> (forall c, (c < 3)%nat -> degree_space 3 n (fun v => f (c, v))) -> forall k, degree_space e n (pull dom f k).
Proof.
  intros L Hf k. unfold pull. apply sum_poly. intros c Hc. apply (poly_space_ext _ (fun t => nth c (nth k (r_axes dom) []) 0 * f (c, point_of dom t))); [intros; ring|].
  apply (poly_space_scale _ _ (fun t => f (c, point_of dom t))). apply (pulled_back dom 3 e n (fun v => f (c, v)) L), Hf, Hc.
Qed.
Lemma pull_nedelec dom e n f : length (r_axes dom) = e -> nedelec_fields 3 n (fun c v => f (c, v)) -> nedelec_fields e n (pull dom f).
Proof.
  intros L [Hf HX]. split; [intros c _; apply pull_degree; assumption|].
  apply (poly_space_ext _ (fun t => sum 3 (fun c => point_of dom t c * f (c, point_of dom t)) - sum 3 (fun c => nth c (r_origin dom) 0 * f (c, point_of dom t)))).
  - intros t. unfold pull. assert (E : sum 3 (fun c => point_of dom t c * f (c, point_of dom t)) = sum 3 (fun c => nth c (r_origin dom) 0 * f (c, point_of dom t)) + sum e (fun k => t k * sum 3 (fun c => f (c, point_of dom t) * nth c (nth k (r_axes dom) []) 0))); [|lra].
    rewrite (sum_ext e _ (fun k => sum 3 (fun c => t k * (f (c, point_of dom t) * nth c (nth k (r_axes dom) []) 0)))) by (intros k _; rewrite sum_scal; reflexivity).
    rewrite sum_swap, <- sum_plus. apply sum_ext. intros c _. unfold point_of at 1. rewrite L, Rmult_plus_distr_r, <- sum_scal_r. f_equal. apply sum_ext. intros k _. ring.
  - apply (degree_minus e n (fun t => sum 3 (fun c => point_of dom t c * f (c, point_of dom t)))).
    + apply (pulled_back dom 3 e n (fun v => sum 3 (fun c => v c * f (c, v))) L HX).
    + apply sum_poly. intros c Hc. apply (poly_space_scale _ (nth c (r_origin dom) 0) (fun t => f (c, point_of dom t))), (pulled_back dom 3 e n (fun v => f (c, v)) L), Hf, Hc.
Qed.
(** the tangential component of a Nedelec field of the first kind along a line *)
Lemma nedelec_line n g : (1 <= n)%nat -> nedelec_fields 1 n g -> degree_space 1 (n - 1) (g 0%nat).
Proof.
  intros Hn [Hg HX]. destruct (factor_var 1 n 0 (fun v => sum 1 (fun c => v c * g c v))) as (h & Hh & E); [lia|exact HX|intros v Hv; cbn [sum]; rewrite Hv; ring|].
  apply (poly_space_ext _ h); [|exact Hh]. intros v. enough (Q : h v - g 0%nat v = 0) by lra. revert v. apply (var_factor_zero 1 n 0 (fun v => h v - g 0%nat v)); [lia| |].
  - apply degree_minus; [apply (degree_weaken 1 (n - 1)); [lia|exact Hh]|apply Hg; lia].
  - intros v. specialize (E v). cbn [sum] in E. lra.
Qed.

(** * Edges *)
Definition edge_facts (e : nat) (dom : reference) (j : R) (t : pt) : Prop :=
  sub_entity (default CTetrahedron) 1 e false = Ok dom /\ r_type dom = CInterval /\ jacobian dom = Ok j /\ j <> 0 /\ tangent dom = Ok t /\ gdim dom = 3%nat /\ length (r_axes dom) = 1%nat /\
  (forall c, (c < 3)%nat -> nth c (nth 0 (r_axes dom) []) 0 = vertex (snd (tet_edge e)) c - vertex (fst (tet_edge e)) c) /\
  (forall c, (c < 3)%nat -> nth c (r_origin dom) 0 = vertex (fst (tet_edge e)) c) /\
  (exists k, k <> 0 /\ forall c, (c < 3)%nat -> nth c t 0 = k * nth c (nth 0 (r_axes dom) []) 0).
Lemma tangent_direction3 dom a b c t : tangent dom = Ok t -> r_axes dom = [[a; b; c]] -> 0 < a * a + b * b + c * c -> exists k, k <> 0 /\ forall i, (i < 3)%nat -> nth i t 0 = k * nth i [a; b; c] 0.
Proof.
  intros H Ha P. unfold tangent in H. destruct (tdim (r_type dom) =? 1)%nat; [|discriminate]. rewrite Ha in H. cbv zeta in H.
  set (s := sqrt (fold_left (fun a i => a + i ^ 2) [a; b; c] 0)) in H. cbn [map] in H. assert (Et : t = vnormalise [a / s; b / s; c / s]) by congruence. rewrite Et. clear H Et.
  unfold s in *. cbn [fold_left] in *. clear s. set (s := sqrt (0 + a ^ 2 + b ^ 2 + c ^ 2)). assert (Ps : 0 < s) by (apply sqrt_lt_R0; nra).
  destruct (normalised_nonzero [a / s; b / s; c / s]) as (k & Hk & E).
  - unfold vdot. cbn [combine fold_left fst snd]. assert (Q : 0 < / s) by (apply Rinv_0_lt_compat, Ps). unfold Rdiv.
    replace (0 + a * / s * (a * / s) + b * / s * (b * / s) + c * / s * (c * / s)) with ((a * a + b * b + c * c) * (/ s * / s)) by ring.
    apply Rmult_lt_0_compat; [exact P|apply Rmult_lt_0_compat; exact Q].
  - exists (k / s). split; [unfold Rdiv; apply Rmult_integral_contrapositive; split; [exact Hk|apply Rinv_neq_0_compat; lra]|].
    intros i Hi. rewrite (E i) by exact Hi. destruct i as [|[|[|i]]]; [| | |lia]; cbn [nth]; unfold Rdiv; ring.
Qed.
Lemma edges_exist e : (e < 6)%nat -> exists dom j t, edge_facts e dom j t.
Proof.
  intros He. assert (C : (e = 0 \/ e = 1 \/ e = 2 \/ e = 3 \/ e = 4 \/ e = 5)%nat) by lia.
  destruct C as [->|[->|[->|[->|[->| ->]]]]]; do 3 eexists; unfold edge_facts; (split; [reflexivity|]); (split; [reflexivity|]); (split; [reflexivity|]); (split; [unfold fnorm; cbn; apply sqrt_pos_neq; lra|]); (split; [reflexivity|]); (split; [reflexivity|]); (split; [reflexivity|]);
    (split; [intros [|[|[|c]]] Hc; [| | |lia]; cbn; lra|]); (split; [intros [|[|[|c]]] Hc; [| | |lia]; cbn; lra|]); match goal with |- context [r_axes ?D] => eapply (tangent_direction3 D); [reflexivity|reflexivity|cbn; lra] end.
Qed.
Lemma edge_point e dom j t s c : edge_facts e dom j t -> (c < 3)%nat -> point_of dom (fun _ => s) c = on_line (fst (tet_edge e)) (snd (tet_edge e)) s c.
Proof.
  intros (_ & _ & _ & _ & _ & _ & La & Ha & Ho & _) Hc. unfold point_of, on_line. rewrite La. cbn [sum]. rewrite (Ha c Hc), (Ho c Hc). ring.
Qed.
Lemma edge_zero e dom j t f fs k : edge_facts e dom j t -> poly_field 3 f -> degree_space 1 k (pull dom f 0) ->
  (forall g, degree_space 1 k g -> exists a, forall v, g v = sum (length fs) (fun i => a i * nth i fs (fun _ => 0) v)) ->
  (forall q, In q fs -> moment_value (directed dom (slims 1) j t (1%nat, e) q) f 0) -> vanishes_along f (fst (tet_edge e)) (snd (tet_edge e)).
Proof.
  intros F (m & Hm) HD HS HZ s. assert (F' := F). destruct F' as (_ & _ & _ & Hj & _ & G & _ & Ha & _ & (r & Hr & Ht)).
  pose proof (directed_zero 3 1 k dom j t (1%nat, e) (fun c => nth c (nth 0 (r_axes dom) []) 0) r f fs ltac:(lia) G Hj Hr Ht HD HS HZ (fun _ => s)) as Z. rewrite <- Z. apply sum_ext. intros c Hc. rewrite (Ha c Hc). f_equal.
  apply (degree_local 3 m (fun v => f (c, v)) _ _ (Hm c Hc)). intros i Hi. symmetry. apply (edge_point e dom j t s i F Hi).
Qed.
Lemma edge_moments3 k : exists fs mk, length fs = (k + 1)%nat /\
  (forall f, In f fs -> degree_space 1 k f) /\ (forall g, degree_space 1 k g -> exists a, forall v, g v = sum (length fs) (fun i => a i * nth i fs (fun _ => 0) v)) /\
  moments_on (default CTetrahedron) 1 (fun r => lagrange_basis_functions r k "equispaced") tangent_moment = Ok (flat_map (fun i => map (mk i) fs) (range 6)) /\
  (forall i, (i < 6)%nat -> exists dom j t, edge_facts i dom j t /\ mk i = directed dom (slims 1) j t (1%nat, i)).
Proof.
  assert (Hc : simplex CInterval) by (left; reflexivity).
  destruct (lagrange_span CInterval k Hc) as (fs & B & L & HD & HS). cbn [tdim] in *.
  destruct (finite_choice (fun q => directed (default CPoint) [] 0 [] (0, 0)%nat q) 6 (fun i m => exists dom j t, edge_facts i dom j t /\ m = directed dom (slims 1) j t (1%nat, i))) as [mk Hmk].
  { intros i Hi. destruct (edges_exist i Hi) as (dom & j & t & F). exists (directed dom (slims 1) j t (1%nat, i)), dom, j, t. auto. }
  exists fs, mk. split; [exact L|]. split; [exact HD|]. split; [exact HS|]. split; [|exact Hmk].
  apply (moments_on_ok (default CTetrahedron) 1 (fun r => lagrange_basis_functions r k "equispaced") tangent_moment CInterval [[2; 3]; [1; 3]; [1; 2]; [0; 3]; [0; 2]; [0; 1]]%nat).
  - reflexivity.
  - reflexivity.
  - exact B.
  - intros i Hi. destruct (Hmk i Hi) as (dom & j & t & (F1 & F2 & _) & _). exists dom. split; assumption.
  - intros i f Hi _. destruct (Hmk i Hi) as (dom & j & t & (F1 & F2 & F3 & _ & F5 & _) & ->). unfold tangent_moment. cbn [fst snd]. rewrite F1. cbn [rbind]. rewrite F5. cbn [rbind].
    unfold make_moment. rewrite F2. cbn [integration_limits rbind]. rewrite F3. reflexivity.
Qed.

(** * Faces *)
Definition tet_face (i : nat) : nat * nat * nat := nth i [(1, 2, 3); (0, 2, 3); (0, 1, 3); (0, 1, 2)]%nat (0, 0, 0)%nat.
Definition face_facts (i : nat) (dom : reference) (j : R) : Prop :=
  (exists n, facet_facts 3 i dom j n) /\ (forall c, (c < 3)%nat ->
    nth c (r_origin dom) 0 = vertex (fst (fst (tet_face i))) c /\
    nth c (nth 0 (r_axes dom) []) 0 = vertex (snd (fst (tet_face i))) c - vertex (fst (fst (tet_face i))) c /\
    nth c (nth 1 (r_axes dom) []) 0 = vertex (snd (tet_face i)) c - vertex (fst (fst (tet_face i))) c).
Lemma faces_exist i : (i < 4)%nat -> exists dom j, face_facts i dom j.
Proof.
  intros Hi. destruct (facets_exist 3 i ltac:(lia) Hi) as (dom & j & n & F). exists dom, j. split; [exists n; exact F|]. destruct F as (F & _).
  assert (C : (i = 0 \/ i = 1 \/ i = 2 \/ i = 3)%nat) by lia. destruct C as [->|[->|[->| ->]]]; cbn in F; injection F as <-; intros [|[|[|c]]] Hc; try lia; cbn; lra.
Qed.
Definition face_moment (dom : reference) (j : R) (i : nat) (psi : component_fn) : moment_dof :=
  {| mo_domain := dom; mo_limits := slims 2; mo_jacobian := j; mo_f := mapped dom j psi; mo_entity := (2%nat, i) |}.
Lemma face_moments (basis : reference -> res (list component_fn)) fs : basis (default CTriangle) = Ok fs -> exists mk,
  moments_on (default CTetrahedron) 2 basis integral_moment = Ok (flat_map (fun i => map (mk i) fs) (range 4)) /\
  (forall i, (i < 4)%nat -> exists dom j, face_facts i dom j /\ mk i = face_moment dom j i).
Proof.
  intros B. destruct (finite_choice (face_moment (default CPoint) 0 0) 4 (fun i m => exists dom j, face_facts i dom j /\ m = face_moment dom j i)) as [mk Hmk].
  { intros i Hi. destruct (faces_exist i Hi) as (dom & j & F). exists (face_moment dom j i), dom, j. auto. }
  exists mk. split; [|exact Hmk]. apply (moments_on_ok (default CTetrahedron) 2 basis integral_moment CTriangle [[1; 2; 3]; [0; 2; 3]; [0; 1; 3]; [0; 1; 2]]%nat).
  - reflexivity.
  - reflexivity.
  - exact B.
  - intros i Hi. destruct (Hmk i Hi) as (dom & j & ((n & F1 & F2 & _) & _) & _). exists dom. split; assumption.
  - intros i f Hi _. destruct (Hmk i Hi) as (dom & j & ((n & F1 & F2 & F3 & _) & _) & ->). unfold integral_moment. cbn [fst snd]. cbn [simplex_of Nat.sub] in F1. rewrite F1. cbn [rbind]. rewrite F2. cbn [facet_type tdim].
    change (2 =? gdim (default CTetrahedron))%nat with false. rewrite F3. cbn [rbind]. unfold make_moment. rewrite F2. cbn [facet_type integration_limits rbind]. rewrite F3. reflexivity.
Qed.
Lemma mapped_value dom j psi c t : length (r_axes dom) = 2%nat -> mapped dom j psi (c, t) = sum 2 (fun k => nth c (nth k (r_axes dom) []) 0 / j * psi (k, t)).
Proof. intros L. unfold mapped. etransitivity; [apply (rsum_enumerate (r_axes dom) (fun ka => nth c (snd ka) 0 / j * psi (fst ka, t)) [])|]. rewrite L. reflexivity. Qed.
Lemma face_value i dom j psi f I : face_facts i dom j -> moment_value (face_moment dom j i psi) f I -> iterated_integral (slims 2) (fun t => sum 2 (fun k => pull dom f k t * psi (k, t))) (fun _ => 0) I.
Proof.
  intros ((n & _ & _ & _ & Hj & _ & _ & G & La & _) & _) H. unfold moment_value in H. cbn [mo_limits mo_domain mo_f mo_jacobian face_moment] in H. rewrite G in H.
  eapply iterated_ext'; [|exact H]. intros t. cbv beta. unfold pull.
  rewrite (sum_ext 2 _ (fun k => sum 3 (fun c => f (c, point_of dom t) * nth c (nth k (r_axes dom) []) 0 * psi (k, t)))) by (intros k _; rewrite sum_scal_r; reflexivity). rewrite sum_swap.
  rewrite <- sum_scal_r. apply sum_ext. intros c Hc. rewrite (mapped_value dom j psi c t La), Rmult_assoc, <- sum_scal_r, <- sum_scal. apply sum_ext. intros k _. field. exact Hj.
Qed.
Lemma face_good i dom j psi k : face_facts i dom j -> (forall c, (c < 2)%nat -> degree_space 2 k (fun t => psi (c, t))) -> good_moment 3 2 (face_moment dom j i psi).
Proof.
  intros ((n & _ & _ & _ & Hj & _ & _ & G & La & _) & _) H. split; [lia|]. split; [apply (slims_good 2); lia|]. split; [exact G|]. split; [exact La|]. exists k. intros c Hc. cbn [mo_f face_moment].
  apply (poly_space_ext _ (fun t => sum 2 (fun k => nth c (nth k (r_axes dom) []) 0 / j * psi (k, t)))); [intros t; symmetry; apply mapped_value, La|]. apply sum_poly. intros a Ha. apply (poly_space_scale _ _ (fun t => psi (a, t))), H, Ha.
Qed.
(** the pulled back field has vanishing tangential components on the edges of the face *)
Lemma face_traces i dom j f : (i < 4)%nat -> poly_field 3 f -> face_facts i dom j ->
  (forall e, (e < 6)%nat -> fst (tet_edge e) <> i -> snd (tet_edge e) <> i -> vanishes_along f (fst (tet_edge e)) (snd (tet_edge e))) -> edge_traces (pull dom f).
Proof.
  intros Hi (m & Hm) ((n & _ & _ & _ & _ & _ & _ & _ & La & _) & F) HE.
  assert (PT : forall t c, (c < 3)%nat -> point_of dom t c = vertex (fst (fst (tet_face i))) c + (vertex (snd (fst (tet_face i))) c - vertex (fst (fst (tet_face i))) c) * t 0%nat + (vertex (snd (tet_face i)) c - vertex (fst (fst (tet_face i))) c) * t 1%nat).
  { intros t c Hc. destruct (F c Hc) as (A & B & D). unfold point_of. rewrite La. cbn [Nat.sub sum]. rewrite A, B, D. ring. }
  assert (EV : forall a b t s, (exists e, (e < 6)%nat /\ fst (tet_edge e) <> i /\ snd (tet_edge e) <> i /\ tet_edge e = (a, b)) ->
    (forall c, (c < 3)%nat -> point_of dom t c = on_line a b s c) -> sum 3 (fun c => f (c, point_of dom t) * (vertex b c - vertex a c)) = 0).
  { intros a b t s (e & He & N1 & N2 & Ee) Hp. specialize (HE e He N1 N2). rewrite Ee in HE. cbn [fst snd] in HE. rewrite <- (HE s). apply sum_ext. intros c Hc. f_equal. apply (degree_local 3 m (fun v => f (c, v)) _ _ (Hm c Hc)). exact Hp. }
  set (a := fst (fst (tet_face i))) in *. set (b := snd (fst (tet_face i))) in *. set (d := snd (tet_face i)) in *.
  assert (Edges : (exists e, (e < 6)%nat /\ fst (tet_edge e) <> i /\ snd (tet_edge e) <> i /\ tet_edge e = (a, b)) /\ (exists e, (e < 6)%nat /\ fst (tet_edge e) <> i /\ snd (tet_edge e) <> i /\ tet_edge e = (a, d)) /\ (exists e, (e < 6)%nat /\ fst (tet_edge e) <> i /\ snd (tet_edge e) <> i /\ tet_edge e = (b, d))).
  { unfold a, b, d. assert (C : (i = 0 \/ i = 1 \/ i = 2 \/ i = 3)%nat) by lia. destruct C as [->|[->|[->| ->]]]; cbn [tet_face nth fst snd].
    - split; [exists 2%nat|split; [exists 1%nat|exists 0%nat]]; cbn; repeat split; lia.
    - split; [exists 4%nat|split; [exists 3%nat|exists 0%nat]]; cbn; repeat split; lia.
    - split; [exists 5%nat|split; [exists 3%nat|exists 1%nat]]; cbn; repeat split; lia.
    - split; [exists 5%nat|split; [exists 4%nat|exists 2%nat]]; cbn; repeat split; lia. }
  destruct Edges as (Eab & Ead & Ebd). split; [|split].
  - intros v Hv. unfold pull. etransitivity; [|apply (EV a d v (v 1%nat) Ead)]; [apply sum_ext; intros c Hc; destruct (F c Hc) as (_ & _ & ->); reflexivity|].
    intros c Hc. rewrite (PT v c Hc), Hv. unfold on_line. ring.
  - intros v Hv. unfold pull. etransitivity; [|apply (EV a b v (v 0%nat) Eab)]; [apply sum_ext; intros c Hc; destruct (F c Hc) as (_ & -> & _); reflexivity|].
    intros c Hc. rewrite (PT v c Hc), Hv. unfold on_line. ring.
  - intros v Hv. unfold pull. pose proof (EV b d v (v 1%nat) Ebd) as Z. assert (Q : sum 3 (fun c => f (c, point_of dom v) * nth c (nth 1 (r_axes dom) []) 0) - sum 3 (fun c => f (c, point_of dom v) * nth c (nth 0 (r_axes dom) []) 0) = 0); [|lra].
    etransitivity; [|apply Z; intros c Hc; rewrite (PT v c Hc); unfold on_line; cbn [sum] in Hv; replace (v 0%nat) with (1 - v 1%nat) by lra; ring].
    cbn [sum]. destruct (F 0%nat ltac:(lia)) as (_ & -> & ->). destruct (F 1%nat ltac:(lia)) as (_ & -> & ->). destruct (F 2%nat ltac:(lia)) as (_ & -> & ->). ring.
Qed.
(** vanishing of the pulled back field gives vanishing of the tangential components on the whole face *)
Lemma face_vanishes i dom j f : (i < 4)%nat -> poly_field 3 f -> face_facts i dom j -> (forall k t, (k < 2)%nat -> pull dom f k t = 0) ->
  forall v u, on_facet 3 i v -> sum 3 (fun c => u c * facet_direction i c) = 0 -> sum 3 (fun c => f (c, v) * u c) = 0.
Proof.
  intros Hi (m & Hm) ((n & _ & _ & _ & _ & _ & _ & _ & _ & _ & On) & F) HZ v u Hv Hu. destruct (On v Hv) as [t Ht].
  assert (E : forall c, (c < 3)%nat -> f (c, v) = f (c, point_of dom t)) by (intros c Hc; apply (degree_local 3 m (fun v => f (c, v)) _ _ (Hm c Hc)); intros a Ha; symmetry; apply Ht, Ha).
  rewrite (sum_ext 3 _ (fun c => f (c, point_of dom t) * u c)) by (intros c Hc; rewrite E by exact Hc; reflexivity).
  pose proof (HZ 0%nat t ltac:(lia)) as Z0. pose proof (HZ 1%nat t ltac:(lia)) as Z1. unfold pull in Z0, Z1. cbn [sum] in *.
  destruct (F 0%nat ltac:(lia)) as (_ & A0 & B0). destruct (F 1%nat ltac:(lia)) as (_ & A1 & B1). destruct (F 2%nat ltac:(lia)) as (_ & A2 & B2). rewrite A0, A1, A2 in Z0. rewrite B0, B1, B2 in Z1. clear - Z0 Z1 Hu Hi.
  set (f0 := f (0%nat, point_of dom t)) in *. set (f1 := f (1%nat, point_of dom t)) in *. set (f2 := f (2%nat, point_of dom t)) in *.
  assert (C : (i = 0 \/ i = 1 \/ i = 2 \/ i = 3)%nat) by lia. destruct C as [->|[->|[->| ->]]]; cbn in Z0, Z1, Hu.
  - assert (Q1 : f1 = f0) by lra. assert (Q2 : f2 = f0) by lra. rewrite Q1, Q2. replace (u 0%nat) with (- u 1%nat - u 2%nat) by lra. ring.
  - assert (Q1 : f1 = 0) by lra. assert (Q2 : f2 = 0) by lra. rewrite Q1, Q2. replace (u 0%nat) with 0 by lra. ring.
  - assert (Q1 : f0 = 0) by lra. assert (Q2 : f2 = 0) by lra. rewrite Q1, Q2. replace (u 1%nat) with 0 by lra. ring.
  - assert (Q1 : f0 = 0) by lra. assert (Q2 : f1 = 0) by lra. rewrite Q1, Q2. replace (u 2%nat) with 0 by lra. ring.
Qed.
Lemma faces_traces f : (forall i, (i < 4)%nat -> forall v u, on_facet 3 i v -> sum 3 (fun c => u c * facet_direction i c) = 0 -> sum 3 (fun c => f (c, v) * u c) = 0) -> curl_traces (fun c v => f (c, v)).
Proof.
  intros H. split.
  - intros i c v Hi Hc N Hv. pose proof (H (S i) ltac:(lia) v (fun k => if (k =? c)%nat then 1 else 0) Hv) as Z. rewrite (sum_single 3 _ c Hc) in Z.
    + rewrite Nat.eqb_refl in Z. rewrite (sum_single 3 _ c Hc) in Z.
      * rewrite Nat.eqb_refl in Z. rewrite Rmult_1_r in Z. apply Z. cbn [facet_direction]. destruct (Nat.eqb_spec c i); [lia|ring].
      * intros k _ Hk. apply Nat.eqb_neq in Hk. rewrite Hk. ring.
    + intros k _ Hk. apply Nat.eqb_neq in Hk. rewrite Hk. ring.
  - intros v Hv. pose proof (H 0%nat ltac:(lia) v (fun k => match k with O => 1 | S O => - (1) | _ => 0 end) Hv) as Z1. pose proof (H 0%nat ltac:(lia) v (fun k => match k with O => 1 | S O => 0 | _ => - (1) end) Hv) as Z2.
    cbn in Z1, Z2. split; [assert (Q := Z1 ltac:(lra)); lra|assert (Q := Z2 ltac:(lra)); lra].
Qed.
