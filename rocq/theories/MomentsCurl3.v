(** H(curl) elements on the default tetrahedron. *)
From Coquelicot Require Import Coquelicot.
From Coq Require Import String Arith Bool ZArith Reals Lia Lra List FunctionalExtensionality.
From Verif Require Import Base PolyLib PolySetsModel PolySetsProofs RTNedelecProofs PropertiesPolySets PolyVec QuadratureModel ReferencesModel ReferencesSpec ReferencesProofs ReferencesGeometry CiarletModel CiarletProofs
  LinAlg ElementModel LagrangeModel UnisolvenceProofs LagrangeProofs LagrangeKey LagrangeUnisolvence PropertiesLagrange PropertiesCiarlet
  LegendreJacobi LegendreIntSpec LegendreIntegrals KmvProofs MomentsInt MomentsParts MomentsRT
  PointsModel PointsSpec PointsProofs PointsElements MomentElementsModel MomentElementsSpec MomentElementsProofs MomentsFacets MomentsRaviart MomentsRTDual MomentsNedelec MomentsBubble MomentsTet.
Import PolyVec ListNotations.
Local Open Scope R_scope.

Lemma dual_span made W K : dual_moments made W K -> exists phi, rbind made moment_basis = Ok phi /\ length phi = K /\ (forall g, In g phi -> W g) /\
  (forall g, W g -> exists a, forall x, g x = sum (length phi) (fun i => a i * nth i phi (fun _ => 0) x)).
Proof.
  intros (poly & dofs & phi & -> & B & _ & L & _ & HW & HS). exists phi. split; [exact B|]. split; [exact L|]. split; [exact HW|]. intros g Hg. destruct (HS g Hg) as (a & _ & E). exists a. intros x. etransitivity; [apply E|].
  rewrite <- L. reflexivity.
Qed.
(** moments that vanish against a spanning list vanish against the space *)
Lemma span_zero lims d (F : nat -> sfun) (W : component_fn -> Prop) fs :
  (forall g, W g -> exists a, forall x, g x = sum (length fs) (fun i => a i * nth i fs (fun _ => 0) x)) ->
  (forall q, In q fs -> iterated_integral lims (fun v => sum d (fun c => F c v * q (c, v))) (fun _ => 0) 0) ->
  forall psi, W psi -> iterated_integral lims (fun v => sum d (fun c => F c v * psi (c, v))) (fun _ => 0) 0.
Proof.
  intros HS HZ psi Hpsi. destruct (HS psi Hpsi) as [a Ha].
  apply (iterated_ext' _ (fun v => sum (length fs) (fun i => a i * sum d (fun c => F c v * nth i fs (fun _ => 0) (c, v))))).
  { intros v. transitivity (sum d (fun c => F c v * sum (length fs) (fun i => a i * nth i fs (fun _ => 0) (c, v)))).
    - rewrite (sum_ext d _ (fun c => sum (length fs) (fun i => a i * (F c v * nth i fs (fun _ => 0) (c, v))))) by (intros c _; rewrite <- sum_scal; apply sum_ext; intros; ring).
      rewrite sum_swap. apply sum_ext. intros i _. rewrite <- sum_scal. reflexivity.
    - apply sum_ext. intros c Hc. f_equal. unfold component_fn in *. rewrite <- Ha. reflexivity. }
  apply (iterated_val _ _ _ (sum (length fs) (fun _ => 0))); [apply sum_zero; reflexivity|].
  apply (iterated_sum _ _ (length fs) (fun i v => a i * sum d (fun c => F c v * nth i fs (fun _ => 0) (c, v))) (fun _ => 0)). intros i Hi.
  specialize (HZ (nth i fs (fun _ => 0)) (nth_In _ _ Hi)).
  apply (iterated_val _ _ _ (a i * 0 + 0)); [ring|]. eapply iterated_ext'; [|apply (iterated_lin _ _ _ _ _ _ (a i) HZ (iterated_zero _ _))]. intros t. cbv beta. ring.
Qed.
Lemma interior_value d f q I : (2 <= d <= 3)%nat -> poly_field d f -> moment_value (interior d q) f I -> iterated_integral (slims d) (fun v => sum d (fun c => f (c, v) * q (c, v))) (fun _ => 0) I.
Proof.
  intros Hd (m & Hm) H. unfold moment_value in H. cbn [mo_limits mo_domain mo_f mo_jacobian interior] in H.
  assert (G : gdim (default (simplex_of d)) = d) by (assert (C : d = 2%nat \/ d = 3%nat) by lia; destruct C as [->| ->]; reflexivity). rewrite G in H.
  eapply iterated_ext'; [|exact H]. intros t. cbv beta. rewrite Rmult_1_r.
  apply sum_ext. intros c Hc. f_equal. apply (degree_local d m (fun v => f (c, v)) _ _ (Hm c Hc)). intros j Hj. apply default_points; assumption.
Qed.
Lemma interior_good d q k : (2 <= d <= 3)%nat -> (forall c, (c < d)%nat -> degree_space d k (fun t => q (c, t))) -> good_moment d d (interior d q).
Proof.
  intros Hd Hq. assert (C : d = 2%nat \/ d = 3%nat) by lia. split; [lia|]. split; [apply slims_good; lia|]. split; [destruct C as [->| ->]; reflexivity|]. split; [destruct C as [->| ->]; reflexivity|]. exists k. exact Hq.
Qed.

Definition some_moments (b : bool) (l : list moment_dof) : list moment_dof := if b then l else [].
Lemma curl3_element W poly K made fs mk ff fmk gs f2 f3 (WF WG : component_fn -> Prop) ke :
  made = Ok (poly, flat_map (fun i => map (mk i) fs) (range 6) ++ some_moments f2 (flat_map (fun i => map (fmk i) ff) (range 4)) ++ some_moments f3 (map (interior 3) gs)) ->
  subspace W -> (forall f, W f -> poly_field 3 f) -> (forall F, In F poly -> W (field F)) -> length poly = K ->
  (6 * length fs + (if f2 then 4 * length ff else 0) + (if f3 then length gs else 0) = K)%nat ->
  vindependent (map veval poly) -> (forall f c v, W f -> (3 <= c)%nat -> f (c, v) = 0) ->
  (forall e, (e < 6)%nat -> exists dom j t, edge_facts e dom j t /\ mk e = directed dom (slims 1) j t (1%nat, e)) ->
  (forall i, (i < 4)%nat -> exists dom j, face_facts i dom j /\ fmk i = face_moment dom j i) ->
  (forall f, In f fs -> degree_space 1 ke f) -> (forall g, degree_space 1 ke g -> exists a, forall v, g v = sum (length fs) (fun i => a i * nth i fs (fun _ => 0) v)) ->
  (f2 = true -> forall f, In f ff -> poly_field 2 f) -> (f2 = true -> forall g, WF g -> exists a, forall v, g v = sum (length ff) (fun i => a i * nth i ff (fun _ => 0) v)) ->
  (f3 = true -> forall f, In f gs -> poly_field 3 f) -> (f3 = true -> forall g, WG g -> exists a, forall v, g v = sum (length gs) (fun i => a i * nth i gs (fun _ => 0) v)) ->
  (forall f dom, W f -> length (r_axes dom) = 1%nat -> degree_space 1 ke (pull dom f 0)) ->
  (forall f dom, W f -> length (r_axes dom) = 2%nat -> edge_traces (pull dom f) ->
     (f2 = true -> forall psi, WF psi -> iterated_integral (slims 2) (fun v => sum 2 (fun c => pull dom f c v * psi (c, v))) (fun _ => 0) 0) -> forall c v, (c < 2)%nat -> pull dom f c v = 0) ->
  (forall f, W f -> curl_traces (fun c v => f (c, v)) ->
     (f3 = true -> forall psi, WG psi -> iterated_integral (slims 3) (fun v => sum 3 (fun c => f (c, v) * psi (c, v))) (fun _ => 0) 0) -> forall c v, (c < 3)%nat -> f (c, v) = 0) ->
  dual_moments made W K /\ tangential_conforming3 made W.
Proof.
  intros E HS HP HF Lp Ld HI H3 Hmk Hfmk HD Hspan HDf Hspanf HDg Hspang HE HFz HIz.
  set (dofs := flat_map (fun i => map (mk i) fs) (range 6) ++ some_moments f2 (flat_map (fun i => map (fmk i) ff) (range 4)) ++ some_moments f3 (map (interior 3) gs)) in *.
  assert (I1 : forall e q, (e < 6)%nat -> In q fs -> In (mk e q) dofs).
  { intros e q He Hq. apply in_or_app. left. apply in_flat_map. exists e. split; [apply in_range, He|apply in_map, Hq]. }
  assert (I2 : forall i q, f2 = true -> (i < 4)%nat -> In q ff -> In (fmk i q) dofs).
  { intros i q Ef Hi Hq. apply in_or_app. right. apply in_or_app. left. rewrite Ef. apply in_flat_map. exists i. split; [apply in_range, Hi|apply in_map, Hq]. }
  assert (I3 : forall q, f3 = true -> In q gs -> In (interior 3 q) dofs).
  { intros q Ef Hq. apply in_or_app. right. apply in_or_app. right. rewrite Ef. apply in_map, Hq. }
  assert (Ee : forall e f, (e < 6)%nat -> W f -> (forall m, In m dofs -> mo_entity m = (1%nat, e) -> moment_value m f 0) -> vanishes_along f (fst (tet_edge e)) (snd (tet_edge e))).
  { intros e f He Hf HZ. destruct (Hmk e He) as (dom & j & t & FF & Em). apply (edge_zero e dom j t f fs ke FF (HP f Hf)); [|exact Hspan|].
    - apply HE; [exact Hf|]. destruct FF as (_ & _ & _ & _ & _ & _ & La & _). exact La.
    - intros q Hq. rewrite <- Em. apply HZ; [apply I1; assumption|]. rewrite Em. reflexivity. }
  assert (Ef : forall i f, (i < 4)%nat -> W f -> (forall m, In m dofs -> mo_entity m = (2%nat, i) -> moment_value m f 0) ->
     (forall e m, (e < 6)%nat -> fst (tet_edge e) <> i -> snd (tet_edge e) <> i -> In m dofs -> mo_entity m = (1%nat, e) -> moment_value m f 0) ->
     forall v u, on_facet 3 i v -> sum 3 (fun c => u c * facet_direction i c) = 0 -> sum 3 (fun c => f (c, v) * u c) = 0).
  { intros i f Hi Hf HZ HZe. destruct (Hfmk i Hi) as (dom & j & FF & Em). apply (face_vanishes i dom j f Hi (HP f Hf) FF).
    intros k t Hk. revert k t Hk. apply HFz; [exact Hf| | |].
    - destruct FF as ((nn & _ & _ & _ & _ & _ & _ & _ & La & _) & _). exact La.
    - apply (face_traces i dom j f Hi (HP f Hf) FF). intros e He N1 N2. apply Ee; [exact He|exact Hf|]. intros m Hm Hme. apply (HZe e m); assumption.
    - intros E2. apply (span_zero (slims 2) 2 (pull dom f) WF ff (Hspanf E2)). intros q Hq. apply (face_value i dom j q f 0 FF). rewrite <- Em. apply HZ; [apply I2; assumption|]. rewrite Em. reflexivity. }
  split.
  - apply (moments_square 3 W poly dofs K made E HS HP HF); [|exact Lp| | |].
    + intros m Hm. apply in_app_or in Hm. destruct Hm as [Hm|Hm]; [|apply in_app_or in Hm; destruct Hm as [Hm|Hm]].
      * apply in_flat_map in Hm. destruct Hm as (e & He & Hm). apply in_range in He. apply in_map_iff in Hm. destruct Hm as (q & <- & Hq). destruct (Hmk e He) as (dom & j & t & (_ & _ & _ & _ & _ & G & La & _) & ->).
        exists 1%nat. apply (directed_good 3 1 ke); [lia|exact G|exact La|apply HD, Hq].
      * unfold some_moments in Hm. destruct f2; [|destruct Hm]. apply in_flat_map in Hm. destruct Hm as (i & Hi & Hm). apply in_range in Hi. apply in_map_iff in Hm. destruct Hm as (q & <- & Hq). destruct (Hfmk i Hi) as (dom & j & FF & ->).
        exists 2%nat. destruct (HDf eq_refl q Hq) as [kf Hkf]. apply (face_good i dom j q kf FF), Hkf.
      * unfold some_moments in Hm. destruct f3; [|destruct Hm]. apply in_map_iff in Hm. destruct Hm as (q & <- & Hq). exists 3%nat. destruct (HDg eq_refl q Hq) as [kg Hkg]. apply (interior_good 3 q kg); [lia|exact Hkg].
    + rewrite <- Ld. unfold dofs, some_moments. rewrite !app_length, (length_flat_map_const _ _ (length fs)) by (intros; apply map_length). rewrite length_range, Nat.add_assoc. f_equal; [f_equal|].
      * destruct f2; [|reflexivity]. rewrite (length_flat_map_const _ _ (length ff)) by (intros; apply map_length). rewrite length_range. reflexivity.
      * destruct f3; [apply map_length|reflexivity].
    + rewrite <- Lp. apply vindep_comb, HI.
    + intros f Hf HZ [c v]. destruct (Nat.lt_ge_cases c 3) as [Hc|Hc]; [|apply H3; assumption]. revert c v Hc. apply (HIz f Hf).
      * apply faces_traces. intros i Hi. apply (Ef i f Hi Hf); [intros m Hm _; apply HZ, Hm|intros e m _ _ _ Hm _; apply HZ, Hm].
      * intros E3. apply (span_zero (slims 3) 3 (fun c v => f (c, v)) WG gs (Hspang E3)). intros q Hq. apply (interior_value 3 f q 0); [lia|apply HP, Hf|]. apply HZ, I3; assumption.
  - exists poly, dofs. split; [exact E|]. split; [exact Ee|exact Ef].
Qed.

Lemma below3 d k (f : nat -> sfun) : (forall c, (c < d)%nat -> degree_space d k (f c)) -> fields d (P_space d k) (as_field d f).
Proof.
  intros H. split; [|intros c v Hc; unfold as_field; cbn [fst snd]; destruct (Nat.ltb_spec c d); [lia|reflexivity]]. intros c Hc. apply (poly_space_ext _ (f c)); [|apply H, Hc].
  intros v. unfold as_field. cbn [fst snd]. destruct (Nat.ltb_spec c d); [reflexivity|lia].
Qed.
Lemma sum_as_field d (F : nat -> sfun) g v : sum d (fun c => F c v * as_field d g (c, v)) = sum d (fun c => F c v * g c v).
Proof. apply sum_ext. intros c Hc. unfold as_field. cbn [fst snd]. destruct (Nat.ltb_spec c d); [reflexivity|lia]. Qed.

Lemma ltb_true a b : (a <? b)%nat = true -> (a < b)%nat. Proof. apply Nat.ltb_lt. Qed.
Lemma nedelec_tetrahedron n :
  dual_moments (make_nedelec_first (default CTetrahedron) (S n) "equispaced") (nedelec_space 3 (S n)) (S n * (S n + 2) * (S n + 3) / 2) /\
  tangential_conforming3 (make_nedelec_first (default CTetrahedron) (S n) "equispaced") (nedelec_space 3 (S n)).
Proof.
  assert (Hd : (2 <= 3 <= 3)%nat) by lia.
  destruct (C06_nedelec_enrichment 3 n Hd) as (X & U & HX & HU & _ & HX1 & HX2 & _ & HI & LX).
  destruct (edge_moments3 n) as (fs & mk & L & HD & HS & HM & Hmk).
  destruct (vector_span CTriangle (n - 1)) as (ff & FB & FL & FW & FS); [right; left; reflexivity|cbn; lia|]. cbn [tdim] in *.
  destruct (vector_span CTetrahedron (n - 2)) as (gs & VB & VL & VW & VS); [right; right; reflexivity|cbn; lia|]. cbn [tdim] in *.
  destruct (face_moments (vector_lagrange_basis (n - 1) "equispaced") ff FB) as (fmk & FM & Hfmk).
  assert (E : make_nedelec_first (default CTetrahedron) (S n) "equispaced" = Ok (U ++ X, flat_map (fun i => map (mk i) fs) (range 6) ++ some_moments (1 <=? n)%nat (flat_map (fun i => map (fmk i) ff) (range 4)) ++ some_moments (2 <=? n)%nat (map (interior 3) gs))).
  { unfold make_nedelec_first. cbv zeta. change (tdim (r_type (default CTetrahedron))) with 3%nat. replace (S n - 1)%nat with n by lia. rewrite HU. cbn [rbind]. rewrite HX. cbn [rbind]. rewrite HM. cbn [rbind].
    replace (S n - 2)%nat with (n - 1)%nat by lia. replace (S n - 3)%nat with (n - 2)%nat by lia. rewrite FM, (interior_moments 3 _ gs Hd VB : moments_on (default CTetrahedron) 3 _ _ = _).
    unfold unless_below, some_moments. destruct (Nat.ltb_spec (S n) 2), (Nat.leb_spec 1 n); try lia; destruct (Nat.ltb_spec (S n) 3), (Nat.leb_spec 2 n); try lia; reflexivity. }
  pose proof (P_dim3 n) as P3. pose proof (P_dim2 (n - 1)) as P2. pose proof (P_dim3 (n - 2)) as P3'.
  assert (HH : (2 * (S n * (S n + 2) * (S n + 3) / 2) = S n * (S n + 2) * (S n + 3))%nat).
  { assert (M : exists k, (S n * (S n + 2) * (S n + 3) = 2 * k)%nat). { destruct (Nat.Even_or_Odd n) as [[k ->]|[k ->]]; [exists ((2 * k + 1) * (2 * k + 3) * (k + 2))%nat|exists ((k + 1) * (2 * k + 4) * (2 * k + 5))%nat]; nia. }
    destruct M as [k ->]. rewrite (Nat.mul_comm 2 k), Nat.div_mul by lia. lia. }
  set (K := (S n * (S n + 2) * (S n + 3) / 2)%nat) in *.
  apply (curl3_element (nedelec_space 3 (S n)) (U ++ X) K _ fs mk ff fmk gs (1 <=? n)%nat (2 <=? n)%nat (fields 2 (P_space 2 (n - 1))) (fields 3 (P_space 3 (n - 2))) n E).
  - apply nedelec_subspace.
  - apply nedelec_poly_field.
  - apply (nedelec_polynomials 3 n U X Hd HU HX1 HX2).
  - rewrite app_length, (vector_length 3 3 n U ltac:(lia) HU). destruct LX as [[? _]|[_ LX]]; [lia|]. nia.
  - assert (G : forall a b c, a = (n + 1)%nat -> b = (2 * P_dim 2 (n - 1))%nat -> c = (3 * P_dim 3 (n - 2))%nat -> (6 * a + (if (1 <=? n)%nat then 4 * b else 0) + (if (2 <=? n)%nat then c else 0) = K)%nat); [|exact (G _ _ _ L FL VL)].
    intros a b c -> -> ->. destruct (Nat.leb_spec 1 n), (Nat.leb_spec 2 n); try lia; nia.
  - exact HI.
  - intros f c v (p & s & _ & _ & _ & _ & Z) Hc. apply Z, Hc.
  - exact Hmk.
  - exact Hfmk.
  - exact HD.
  - exact HS.
  - intros _ f Hf. exists (n - 1)%nat. destruct (FW f Hf) as [A _]. exact A.
  - intros _. exact FS.
  - intros _ f Hf. exists (n - 2)%nat. destruct (VW f Hf) as [A _]. exact A.
  - intros _. exact VS.
  - intros f dom Hf La. pose proof (nedelec_line (S n) (pull dom f) ltac:(lia) (pull_nedelec dom 1 (S n) f La (fields_of_nedelec 3 (S n) f ltac:(lia) Hf))) as Q. replace (S n - 1)%nat with n in Q by lia. exact Q.
  - intros f dom Hf La HT HZ. apply (nedelec1_zero2 (S n) (pull dom f) ltac:(lia) (pull_nedelec dom 2 (S n) f La (fields_of_nedelec 3 (S n) f ltac:(lia) Hf)) HT).
    intros psi H2 Hpsi. replace (S n - 2)%nat with (n - 1)%nat in Hpsi by lia. eapply iterated_ext'; [|apply (HZ ltac:(apply Nat.leb_le; lia) (as_field 2 psi) (below3 2 (n - 1) psi Hpsi))]. intros v. symmetry. apply (sum_as_field 2 (pull dom f)).
  - intros f Hf HT HZ. apply (nedelec1_zero (S n) (fun c v => f (c, v)) (fields_of_nedelec 3 (S n) f ltac:(lia) Hf) HT).
    intros psi H2 Hpsi. replace (S n - 3)%nat with (n - 2)%nat in Hpsi by lia. eapply iterated_ext'; [|apply (HZ ltac:(apply Nat.leb_le; lia) (as_field 3 psi) (below3 3 (n - 2) psi Hpsi))]. intros v. symmetry. apply (sum_as_field 3 (fun c v => f (c, v))).
Qed.
