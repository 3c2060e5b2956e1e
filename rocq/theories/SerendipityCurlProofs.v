(** The H(curl) serendipity element on the cube. *)
From Coquelicot Require Import Coquelicot.
From Coq Require Import String Arith Bool ZArith Reals Lia Lra List FunctionalExtensionality.
From Verif Require Import Base PolyLib PolySetsModel PolySetsProofs PolyVec QuadratureModel ReferencesModel ReferencesSpec ReferencesProofs ReferencesGeometry CiarletModel CiarletProofs
  LinAlg ElementModel LagrangeModel UnisolvenceProofs LagrangeProofs LagrangeKey LagrangeUnisolvence
  LegendreIntSpec LegendreIntegrals KmvProofs MomentsInt MomentsParts MomentsRT MomentsBox
  PointsModel PointsSpec PointsProofs PointsElements MomentElementsModel MomentElementsSpec MomentElementsProofs MomentsFacets MomentsRaviart MomentsRTDual MomentsNedelec MomentsTet MomentsCurl3 QFieldSpec QFieldGeometry QFieldProofs QFieldDual
  SerendipityModel SerendipitySpec SerendipityFieldModel SerendipityFieldSpec SerendipityFieldKernel SerendipityFieldSpaces SerendipityFieldProofs SerendipityCurlSpec SerendipityCurlKernel SerendipityCurlTraces SerendipityCurlSpaces.
From Verif Require FamiliesTensor2.
Import PolyVec ListNotations.
Local Open Scope R_scope.

Lemma scurl3_count n ms X : (1 <= n)%nat -> polynomial_set_1d 3 n = Ok ms -> Hcurl_serendipity 3 3 n = Ok X -> length (vectorise 3 ms ++ X) = scurl_dim3 n.
Proof.
  intros Hn HM HX. destruct (FamiliesTensor2.sercurl_sized 3 n ltac:(lia) Hn) as (X' & HX' & LX). rewrite HX in HX'. injection HX' as <-. rewrite app_length, length_vectorise, (P_dim_length _ _ _ HM), LX. unfold scurl_dim3.
  pose proof (P_dim3 n) as D3. destruct (Nat.leb_spec 2 n) as [H2|H2]; [|assert (n = 1%nat) by lia; subst n; reflexivity]. pose proof (P_dim2 (n - 2)) as D2.
  destruct (Nat.leb_spec 4 n) as [H4|H4].
  - pose proof (P_dim3 (n - 4)) as D4. destruct n as [|[|[|[|m]]]]; [lia|lia|lia|lia|]. replace (S (S (S (S m))) - 2)%nat with (m + 2)%nat in * by lia. replace (S (S (S (S m))) - 4)%nat with m in * by lia.
    generalize dependent (P_dim 3 (S (S (S (S m))))). generalize dependent (P_dim 2 (m + 2)). generalize dependent (P_dim 3 m). intros a Ha b Hb e He. cbv iota. nia.
  - assert (C : (n = 2 \/ n = 3)%nat) by lia. destruct C as [->| ->]; reflexivity.
Qed.
Lemma scurl_step3 n variant : (1 <= n)%nat -> quadrature_upto variant (n + 1) ->
  dual_moments (make_serendipity_curl (default CHexahedron) n variant) (scurl_space3 n) (scurl_dim3 n) /\
  q_tangential_conforming3 (make_serendipity_curl (default CHexahedron) n variant) (scurl_space3 n).
Proof.
  assert (Hd : (2 <= 3 <= 3)%nat) by lia. intros Hn Hv. destruct (polynomial_set_1d_ok 3 n ltac:(lia)) as (ms & HM & _). destruct (Hcurl_serendipity 3 3 n) as [X|] eqn:HX; [|discriminate HX].
  pose proof (scurl3_count n ms X Hn HM HX) as LX. destruct (scurl3_poly n ms X Hn HM HX) as [WX IX].
  destruct (s_edge_moments 3 n variant Hd Hv) as (fs & mk & L & HD & HS & HMo & Hmk).
  destruct (vector_dpc_span 2 (n - 2) variant ltac:(lia)) as (ff & BF & LF & WF & SF). destruct (vector_dpc_span 3 (n - 4) variant Hd) as (gs & BG & LG & WG & SG).
  destruct (q_face_moments (vector_dpc_basis (n - 2) variant) ff BF) as (fmk & FM & Hfmk).
  set (dofs := flat_map (fun i => map (mk i) fs) (range (edge_number 3)) ++ some_moments (2 <=? n)%nat (flat_map (fun i => map (fmk i) ff) (range 6)) ++ some_moments (4 <=? n)%nat (map (box_interior 3) gs)).
  assert (E : make_serendipity_curl (default CHexahedron) n variant = Ok (vectorise 3 ms ++ X, dofs)).
  { unfold make_serendipity_curl. rewrite (box_only 3 : forall k, _ -> PointsModel.only_default (default CHexahedron) k = k) by exact Hd. rewrite (box_tdim 3 Hd : tdim (r_type (default CHexahedron)) = _). cbv iota zeta. unfold polynomial_set_vector. rewrite HM. cbn [rmap rbind]. rewrite HX. cbn [rbind].
    rewrite (HMo : moments_on (default CHexahedron) 1 _ _ = _). cbn [rbind].
    assert (Q : unless_below n 2 (moments_on (default CHexahedron) 2 (vector_dpc_basis (n - 2) variant) integral_moment) = Ok (some_moments (2 <=? n)%nat (flat_map (fun i => map (fmk i) ff) (range 6)))).
    { unfold unless_below, some_moments. destruct (Nat.ltb_spec n 2), (Nat.leb_spec 2 n); try lia; [reflexivity|exact FM]. }
    assert (V : unless_below n 4 (moments_on (default CHexahedron) 3 (vector_dpc_basis (n - 4) variant) integral_moment) = Ok (some_moments (4 <=? n)%nat (map (box_interior 3) gs))).
    { unfold unless_below, some_moments. destruct (Nat.ltb_spec n 4), (Nat.leb_spec 4 n); try lia; [reflexivity|]. exact (box_interior_moments 3 _ gs Hd BG). }
    rewrite Q. cbn [rbind]. rewrite V. reflexivity. }
  assert (I1 : forall i q, (i < edge_number 3)%nat -> In q fs -> In (mk i q) dofs) by (intros i q Hi Hq; apply in_or_app; left; apply in_flat_map; exists i; split; [apply in_range, Hi|apply in_map, Hq]).
  assert (I2 : forall i q, (2 <= n)%nat -> (i < 6)%nat -> In q ff -> In (fmk i q) dofs).
  { intros i q H2 Hi Hq. apply in_or_app. right. apply in_or_app. left. rewrite (proj2 (Nat.leb_le 2 n) H2). apply in_flat_map. exists i. split; [apply in_range, Hi|apply in_map, Hq]. }
  assert (I3 : forall q, (4 <= n)%nat -> In q gs -> In (box_interior 3 q) dofs) by (intros q H4 Hq; apply in_or_app; right; apply in_or_app; right; rewrite (proj2 (Nat.leb_le 4 n) H4); apply in_map, Hq).
  assert (HP : forall f, scurl_space3 n f -> poly_field 3 f) by apply scurl3_poly_field.
  assert (Ne : forall e f, (e < 12)%nat -> scurl_space3 n f -> (forall m, In m dofs -> mo_entity m = (1%nat, e) -> moment_value m f 0) -> forall v, (forall c, (c < 3)%nat -> c <> hex_axis e -> v c = box_vertex (fst (hex_edge e)) c) -> f (hex_axis e, v) = 0).
  { intros e f He Hf HZ v Hv'. destruct (Hmk e He) as (dom & j & nn & F & U & Em). cbn [edge_axis edge_origin] in F, U. assert (Hx : (hex_axis e < 3)%nat) by (do 12 (destruct e as [|e]; [cbn; lia|]); lia).
    assert (A : aligned 3 1 dom [hex_axis e] (edge_origin 3 e)) by (destruct F as (_ & _ & _ & _ & A); exact A).
    apply (trace_zero 3 1 e dom j [hex_axis e] (edge_origin 3 e) (hex_axis e) n nn (1%nat, e) f fs Hd F Hx U (HP f Hf)); [apply (scurl3_edge n f dom _ _ A Hx Hf)|exact HS| |].
    - intros q Hq. rewrite <- Em. apply HZ; [apply I1; assumption|rewrite Em; reflexivity].
    - intros c Hc Hne. assert (Hne' : c <> hex_axis e) by (intros ->; apply Hne; left; reflexivity). rewrite (Hv' c Hc Hne'). unfold edge_origin. first [reflexivity | rewrite (proj2 (Nat.eqb_neq _ _) Hne'); reflexivity]. }
  assert (Nf : forall i f, (i < 6)%nat -> scurl_space3 n f -> (forall m, In m dofs -> mo_entity m = (2%nat, i) -> moment_value m f 0) ->
     (forall e m, (e < 12)%nat -> on_box_facet 3 i (box_vertex (fst (hex_edge e))) -> on_box_facet 3 i (box_vertex (snd (hex_edge e))) -> In m dofs -> mo_entity m = (1%nat, e) -> moment_value m f 0) ->
     forall c v, (c < 3)%nat -> c <> fst (box_facet 3 i) -> on_box_facet 3 i v -> f (c, v) = 0).
  { intros i f Hi Hf HZ HZe c v Hc Hne Hv'. pose proof (box_facet_lt 3 i Hd ltac:(lia)) as Hx. destruct (q_facets_exist 3 i Hd ltac:(lia)) as (dom & j & nn & F & _).
    set (dirs := facet_dirs 3 (fst (box_facet 3 i))) in *. assert (A : aligned 3 2 dom dirs (facet_origin 3 i)) by (destruct F as (_ & _ & _ & _ & A); exact A).
    destruct (facet_dirs_cover _ c Hx Hc Hne) as (k & Hk & Ek).
    assert (EG : forall k t s, (k < 2)%nat -> t (1 - k)%nat = (if s : bool then 1 else 0) -> box_pull dom dirs f k t = 0).
    { intros l t s Hl Ht. destruct (face_edge i l s Hi Hl) as (e & He & V1 & V2 & Ax & Vs). unfold box_pull. fold dirs in Ax, Vs. rewrite <- Ax. apply Ne; [exact He|exact Hf|intros m Hm Hme; apply (HZe e m); assumption|].
      intros a Ha Hna. rewrite Ax in Hna. destruct (facet_dirs_other _ l a Hx Hl Ha Hna) as [->| ->].
      - rewrite V1. rewrite (aligned_point 3 2 dom dirs _ t _ A Hx). unfold facet_origin. rewrite Nat.eqb_refl. rewrite (sum_zero 2); [ring|]. intros b Hb. destruct (facet_dirs_in 3 _ b Hd Hx Hb) as [N1 _]. unfold ind.
        rewrite (proj2 (Nat.eqb_neq _ _)) by (fold dirs in N1; congruence). ring.
      - fold dirs. rewrite Vs, <- Ht. assert (L1 : (1 - l < 2)%nat) by lia. destruct (facet_dirs_in 3 _ (1 - l) Hd Hx L1) as [N1 N2]. fold dirs in N1, N2. rewrite (aligned_point 3 2 dom dirs _ t _ A N2).
        unfold facet_origin. rewrite (proj2 (Nat.eqb_neq _ _) N1). rewrite (sum_single 2 _ (1 - l)%nat L1).
        + unfold ind. rewrite Nat.eqb_refl. ring.
        + intros b Hb Hbn. unfold ind. unfold dirs. rewrite (facet_dirs_injective _ b (1 - l) Hx Hb L1), (proj2 (Nat.eqb_neq (1 - l) b)) by lia. ring. }
    assert (Z : forall k t, (k < 2)%nat -> box_pull dom dirs f k t = 0).
    { intros l t Hl. apply (split_low 2 n (fun c => (1 - c)%nat) (fun y => f (nth (fst y) dirs 0%nat, point_of dom (snd y))) ltac:(lia) ltac:(intros; cbv beta; lia) (face_split n f dom dirs _ _ Hn A eq_refl Hx Hf)) with (c := l) (v := t); [| |exact Hl].
      - intros b w Hb [Hw|Hw]; [apply (EG b w false Hb Hw)|apply (EG b w true Hb Hw)].
      - intros psi H2 Hpsi. destruct (Hfmk i Hi) as (dom' & j' & F' & Em).
        assert (dom' = dom) by (destruct F as (F1 & _), F' as (F1' & _); cbn [Nat.sub] in F1; congruence). subst dom'. assert (Hj : j' <> 0) by (destruct F' as (_ & _ & _ & Hj & _); exact Hj).
        eapply iterated_ext'; [|apply (span_zero (blims 2) 2 (box_pull dom dirs f) (fields 2 (P_space 2 (n - 2))) ff SF) with (psi := as_field 2 psi)].
        + intros w. apply (sum_as_field 2 (box_pull dom dirs f)).
        + intros q Hq. apply (box_face_value i dom j' dirs _ q f 0 A Hj). rewrite <- Em. apply HZ; [apply I2; assumption|rewrite Em; reflexivity].
        + apply fields_as, Hpsi. }
    specialize (Z k (fun l => v (nth l dirs 0%nat)) Hk). unfold box_pull in Z. fold dirs in Ek. rewrite Ek in Z. destruct (HP f Hf) as [m Hm]. rewrite <- Z. apply (degree_local 3 m (fun v => f (c, v)) _ _ (Hm c Hc)).
    intros a Ha. symmetry. apply (aligned_onto 3 2 dom dirs _ v A); [|exact Ha]. apply (facet_at 3 i v Hd ltac:(lia) Hv'). }
  split.
  2: { exists (vectorise 3 ms ++ X), dofs. split; [exact E|]. split; [|exact Nf]. intros e f He Hf HZ s. rewrite (hex_line f e s He). apply Ne; [exact He|exact Hf|exact HZ|]. intros c Hc Hne. apply hex_line_at; assumption. }
  apply (moments_square 3 (scurl_space3 n) _ dofs (scurl_dim3 n) _ E (scurl3_subspace n) HP WX); [|exact LX| | |].
  - intros m Hm. apply in_app_or in Hm. destruct Hm as [Hm|Hm]; [|apply in_app_or in Hm; destruct Hm as [Hm|Hm]].
    + apply in_flat_map in Hm. destruct Hm as (i & Hi & Hm). apply in_range in Hi. apply in_map_iff in Hm. destruct Hm as (q & <- & Hq). destruct (Hmk i Hi) as (dom & j & nn & F & U & Em). rewrite Em. destruct F as (_ & _ & _ & _ & (G1 & G2 & _)).
      exists 1%nat. apply (directed_good_on (blims 1) 3 1 n); [lia|apply blims_good; lia|exact G1|exact G2|apply HD, Hq].
    + unfold some_moments in Hm. destruct (Nat.leb_spec 2 n) as [H2|]; [|destruct Hm]. apply in_flat_map in Hm. destruct Hm as (i & Hi & Hm). apply in_range in Hi. apply in_map_iff in Hm. destruct Hm as (q & <- & Hq).
      destruct (Hfmk i Hi) as (dom & j & (_ & _ & _ & _ & A) & ->). exists 2%nat. apply (box_face_good i dom j _ _ q A). apply (fields_poly 2 (n - 2)), WF, Hq.
    + unfold some_moments in Hm. destruct (Nat.leb_spec 4 n) as [H4|]; [|destruct Hm]. apply in_map_iff in Hm. destruct Hm as (q & <- & Hq). exists 3%nat. apply box_interior_good; [exact Hd|]. apply (fields_poly 3 (n - 4)), WG, Hq.
  - unfold dofs, some_moments. rewrite !app_length, (length_flat_map_const _ _ (length fs)) by (intros; apply map_length). rewrite length_range, L. unfold scurl_dim3. rewrite <- Nat.add_assoc. f_equal. f_equal.
    + destruct (2 <=? n)%nat; [|reflexivity]. rewrite (length_flat_map_const _ _ (length ff)) by (intros; apply map_length). rewrite length_range, LF. reflexivity.
    + destruct (4 <=? n)%nat; [|reflexivity]. rewrite map_length. exact LG.
  - rewrite <- LX. exact IX.
  - intros f Hf HZ [c v]. destruct (Nat.lt_ge_cases c 3) as [Hc|Hc]; [|destruct Hf as (p & h1 & h2 & h3 & s & g & _ & _ & _ & _ & _ & _ & _ & _ & _ & EB); apply EB, Hc]. revert c v Hc. apply (scurl_zero3 n f Hn Hf).
    + intros c i v Hc Hi Hne [H0|H1].
      * apply (Nf (3 - 1 - i)%nat f ltac:(lia) Hf ltac:(intros m Hm _; apply HZ, Hm) ltac:(intros e m _ _ _ Hm _; apply HZ, Hm) c v Hc); unfold on_box_facet; rewrite (box_facet_low 3 i Hi); cbn [fst snd]; [congruence|exact H0].
      * apply (Nf (3 + i)%nat f ltac:(lia) Hf ltac:(intros m Hm _; apply HZ, Hm) ltac:(intros e m _ _ _ Hm _; apply HZ, Hm) c v Hc); unfold on_box_facet; rewrite (box_facet_high 3 i Hi); cbn [fst snd]; [congruence|exact H1].
    + intros psi H4 Hpsi. apply (interior_zero 3 (n - 4) f gs Hd (HP f Hf) SG); [|exact Hpsi]. intros q Hq. apply HZ, I3; assumption.
Qed.
