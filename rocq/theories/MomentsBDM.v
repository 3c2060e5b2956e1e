(** Elements of full polynomial degree: Brezzi-Douglas-Marini and Nedelec's second kind on the default triangle and
    tetrahedron. *)
From Coquelicot Require Import Coquelicot.
From Coq Require Import String Arith Bool ZArith Reals Lia Lra List FunctionalExtensionality.
From Verif Require Import Base PolyLib PolySetsModel PolySetsProofs RTNedelecProofs PropertiesPolySets PolyVec QuadratureModel ReferencesModel ReferencesSpec ReferencesProofs ReferencesGeometry CiarletModel CiarletProofs
  LinAlg ElementModel LagrangeModel UnisolvenceProofs LagrangeProofs LagrangeKey LagrangeUnisolvence PropertiesLagrange PropertiesCiarlet PropertiesBubble
  LegendreJacobi LegendreIntSpec LegendreIntegrals KmvProofs MomentsInt MomentsParts MomentsRT
  PointsModel PointsSpec PointsProofs PointsElements MomentElementsModel MomentElementsSpec MomentElementsProofs MomentsFacets MomentsRaviart MomentsRTDual MomentsNedelec MomentsBubble MomentsTet MomentsCurl3.
From Verif Require NodalElements.
Import PolyVec ListNotations.
Local Open Scope R_scope.

Lemma vindep_prefix A B : vindependent (A ++ B) -> vindependent A.
Proof.
  intros H cs L Z. specialize (H (cs ++ repeat 0 (length B))). rewrite !app_length, repeat_length, L in H. specialize (H eq_refl).
  assert (G : Forall (fun c => c = 0) (cs ++ repeat 0 (length B))); [|apply Forall_app in G; apply G].
  apply H. intros c v. rewrite map_app, lincomb_app by (rewrite map_length; exact L). rewrite Z.
  replace (length B) with (length (map (fun f => vcomp f c) B)) by apply map_length. rewrite lincomb_zero. ring.
Qed.
Lemma full_set d n : (2 <= d <= 3)%nat -> exists U, polynomial_set_vector d d n = Ok U /\ vindependent (map veval U) /\ length U = (d * P_dim d n)%nat /\ (forall F, In F U -> fields d (P_space d n) (field F)).
Proof.
  intros Hd. destruct (C05_raviart_thomas_enrichment d n Hd) as (X & U & _ & HU & _ & _ & _ & HI & _). exists U. split; [exact HU|]. split; [rewrite map_app in HI; apply (vindep_prefix _ _ HI)|].
  split; [apply (vector_length d d n U); [lia|exact HU]|]. intros F HF. apply (vector_in_space d n U F HU); [lia|exact HF].
Qed.
Lemma fields_poly_field d n f : fields d (P_space d n) f -> poly_field d f.
Proof. intros [A _]. exists n. exact A. Qed.
Lemma fields_space d n : subspace (fields d (P_space d n)).
Proof.
  split; [|split].
  - split; [intros; apply poly_space_zero|reflexivity].
  - intros a u v [A B] [A' B']. split.
    + intros c Hc. apply (poly_space_add _ (fun x => a * u (c, x)) (fun x => v (c, x))); [apply (poly_space_scale _ a (fun x => u (c, x))), A, Hc|apply A', Hc].
    + intros c x Hc. rewrite B, B' by exact Hc. ring.
  - intros u v E [A B]. split.
    + intros c Hc. apply (poly_space_ext _ (fun x => u (c, x))); [intros x; apply E|apply A, Hc].
    + intros c x Hc. rewrite <- E. apply B, Hc.
Qed.
Lemma full_normal_degree d n f dom (dir : nat -> R) e : length (r_axes dom) = e -> fields d (P_space d n) f -> degree_space e n (fun t => sum d (fun c => f (c, point_of dom t) * dir c)).
Proof.
  intros La [A _]. apply sum_poly. intros c Hc. apply (poly_space_ext _ (fun t => dir c * f (c, point_of dom t))); [intros; ring|].
  apply (poly_space_scale _ _ (fun t => f (c, point_of dom t))), (pulled_back dom d e n (fun v => f (c, v)) La), A, Hc.
Qed.

(** * H(div) *)
Lemma bdm_element d n gs : (2 <= d <= 3)%nat ->
  ((1 <= n)%nat -> rbind (make_nedelec_first (default (simplex_of d)) n "equispaced") moment_basis = Ok gs /\ (d * P_dim d (S n) = (d + 1) * P_dim (d - 1) (S n) + length gs)%nat /\ (forall g, In g gs -> nedelec_space d n g) /\
     (forall g, nedelec_space d n g -> exists a, forall x, g x = sum (length gs) (fun i => a i * nth i gs (fun _ => 0) x))) ->
  dual_moments (make_bdm (default (simplex_of d)) (S n) "equispaced") (fields d (P_space d (S n))) (d * P_dim d (S n)) /\
  normal_conforming (make_bdm (default (simplex_of d)) (S n) "equispaced") d (fields d (P_space d (S n))).
Proof.
  intros Hd HN. assert (C : d = 2%nat \/ d = 3%nat) by lia.
  destruct (full_set d (S n) Hd) as (U & HU & HI & LU & HUW). destruct (facet_moments d (S n) Hd) as (fs & mk & B & L & HD & HS & HM & Hmk).
  assert (Tr : tdim (r_type (default (simplex_of d))) = d) by (destruct C as [->| ->]; reflexivity).
  set (inner := some_moments (1 <=? n)%nat (map (interior d) gs)). set (dofs := flat_map (fun i => map (mk i) fs) (range (d + 1)) ++ inner).
  assert (E : make_bdm (default (simplex_of d)) (S n) "equispaced" = Ok (U, dofs)).
  { unfold make_bdm, only_default. cbv zeta. rewrite NodalElements.is_default_default, Tr, HU. cbn [rbind]. rewrite HM. cbn [rbind]. unfold dofs, inner, some_moments, unless_below. replace (S n - 1)%nat with n by lia.
    destruct (Nat.ltb_spec (S n) 2), (Nat.leb_spec 1 n); try lia; [reflexivity|]. destruct (HN ltac:(lia)) as (HB & _). rewrite (interior_moments d _ gs Hd HB). reflexivity. }
  set (W := fields d (P_space d (S n))) in *.
  assert (Hfacet : forall i f, (i < d + 1)%nat -> W f -> (forall q, In q fs -> moment_value (mk i q) f 0) -> forall v, on_facet d i v -> sum d (fun c => f (c, v) * facet_direction i c) = 0).
  { intros i f Hi Hf HZ. destruct (Hmk i Hi) as (dom & j & nn & FF & Em). rewrite Em in HZ. apply (on_facet_all d i dom j nn f Hd Hi (fields_poly_field _ _ _ Hf) FF).
    destruct FF as (_ & _ & _ & Hj & _ & (s & Hs & Hn) & G & La & _). apply (directed_zero d (d - 1) (S n) dom j nn ((d - 1)%nat, i) (facet_direction i) s f fs); auto; [lia|].
    apply (full_normal_degree d (S n)); assumption. }
  split.
  - apply (moments_square d W U dofs _ _ E); [apply fields_space|apply fields_poly_field|exact HUW| |exact LU| | |].
    + intros m Hm. apply in_app_or in Hm. destruct Hm as [Hm|Hm].
      * apply in_flat_map in Hm. destruct Hm as (i & Hi & Hm). apply in_range in Hi. apply in_map_iff in Hm. destruct Hm as (q & <- & Hq).
        destruct (Hmk i Hi) as (dom & j & nn & (_ & _ & _ & _ & _ & _ & G & La & _) & ->). exists (d - 1)%nat. apply (directed_good d (d - 1) (S n)); [lia|exact G|exact La|apply HD, Hq].
      * unfold inner, some_moments in Hm. destruct (Nat.leb_spec 1 n) as [H1|]; [|destruct Hm]. apply in_map_iff in Hm. destruct Hm as (g & <- & Hg). destruct (HN H1) as (_ & _ & HG & _).
        exists d. apply (interior_good d g n Hd). apply (fields_of_nedelec d n g H1 (HG g Hg)).
    + unfold dofs. rewrite app_length, (length_flat_map_const _ _ (length fs)) by (intros; apply map_length). rewrite length_range, L. unfold inner, some_moments. destruct (Nat.leb_spec 1 n) as [H1|H1].
      * destruct (HN H1) as (_ & EQ & _). rewrite map_length. rewrite EQ. reflexivity.
      * assert (n = 0)%nat by lia. subst n. destruct C as [->| ->]; reflexivity.
    + rewrite <- LU. apply vindep_comb, HI.
    + intros f Hf HZ [c v]. destruct (Nat.lt_ge_cases c d) as [Hc|Hc]; [|destruct Hf as [_ Z]; apply Z, Hc].
      assert (HZ1 : forall i, (i < d + 1)%nat -> forall q, In q fs -> moment_value (mk i q) f 0).
      { intros i Hi q Hq. apply HZ. apply in_or_app. left. apply in_flat_map. exists i. split; [apply in_range, Hi|apply in_map, Hq]. }
      apply (bdm_zero d (S n) (fun c v => f (c, v)) ltac:(lia) ltac:(lia)); [apply Hf| | | |exact Hc].
      * intros a w Ha Hw. pose proof (Hfacet (S a) f ltac:(lia) Hf (HZ1 (S a) ltac:(lia)) w Hw) as Z. rewrite (sum_single _ _ a Ha) in Z; [cbn [facet_direction] in Z; rewrite Nat.eqb_refl in Z; lra|].
        intros b _ Hb. cbn [facet_direction]. apply Nat.eqb_neq in Hb. rewrite Hb. ring.
      * intros w Hw. pose proof (Hfacet 0%nat f ltac:(lia) Hf (HZ1 0%nat ltac:(lia)) w Hw) as Z. rewrite <- Z. apply sum_ext. intros; cbn [facet_direction]; ring.
      * intros psi H2 Hpsi. replace (S n - 1)%nat with n in Hpsi by lia. assert (H1 : (1 <= n)%nat) by lia. destruct (HN H1) as (_ & _ & _ & HG).
        eapply iterated_ext'; [|apply (span_zero (slims d) d (fun c v => f (c, v)) (nedelec_space d n) gs HG)].
        -- intros w. apply (sum_as_field d (fun c v => f (c, v)) psi w).
        -- intros q Hq. apply (interior_value d f q 0 Hd (fields_poly_field _ _ _ Hf)). apply HZ. apply in_or_app. right. unfold inner, some_moments. destruct (Nat.leb_spec 1 n); [|lia]. apply in_map, Hq.
        -- apply (nedelec_of_fields d n psi H1 Hpsi).
  - exists U, dofs. split; [exact E|]. intros i f Hi Hf HZ. apply (Hfacet i f Hi Hf). intros q Hq. apply HZ.
    + apply in_or_app. left. apply in_flat_map. exists i. split; [apply in_range, Hi|apply in_map, Hq].
    + destruct (Hmk i Hi) as (dom & j & nn & _ & ->). reflexivity.
Qed.
Lemma half_even n : exists k, (S n * (S n + 2) * (S n + 3) = 2 * k)%nat.
Proof. destruct (Nat.Even_or_Odd n) as [[k ->]|[k ->]]; [exists ((2 * k + 1) * (2 * k + 3) * (k + 2))%nat|exists ((k + 1) * (2 * k + 4) * (2 * k + 5))%nat]; nia. Qed.
Lemma bdm d n : (2 <= d <= 3)%nat ->
  dual_moments (make_bdm (default (simplex_of d)) (S n) "equispaced") (fields d (P_space d (S n))) (d * P_dim d (S n)) /\
  normal_conforming (make_bdm (default (simplex_of d)) (S n) "equispaced") d (fields d (P_space d (S n))).
Proof.
  intros Hd. destruct n as [|n]; [apply (bdm_element d 0 [] Hd); lia|]. assert (C : d = 2%nat \/ d = 3%nat) by lia. destruct C as [->| ->].
  - destruct (nedelec_triangle n) as [N _]. destruct (dual_span _ _ _ N) as (gs & HB & L & HG & HS). apply (bdm_element 2 (S n) gs Hd). intros _. split; [exact HB|]. split; [|split; [exact HG|exact HS]].
    rewrite L. pose proof (P_dim2 (S (S n))) as Q. change (2 - 1)%nat with 1%nat. rewrite P_dim1, Q. nia.
  - destruct (nedelec_tetrahedron n) as [N _]. destruct (dual_span _ _ _ N) as (gs & HB & L & HG & HS). apply (bdm_element 3 (S n) gs Hd). intros _. split; [exact HB|]. split; [|split; [exact HG|exact HS]].
    rewrite L. pose proof (P_dim2 (S (S n))) as Q. change (3 - 1)%nat with 2%nat. pose proof (P_dim3 (S (S n))) as Q3.
    destruct (half_even n) as [k Hk]. rewrite Hk, (Nat.mul_comm 2 k), Nat.div_mul by lia. nia.
Qed.

(** * H(curl) *)
Lemma nedelec2_triangle n :
  dual_moments (make_nedelec_second (default CTriangle) (S n) "equispaced") (fields 2 (P_space 2 (S n))) (2 * P_dim 2 (S n)) /\
  tangential_conforming2 (make_nedelec_second (default CTriangle) (S n) "equispaced") (fields 2 (P_space 2 (S n))).
Proof.
  assert (Hd : (2 <= 2 <= 3)%nat) by lia.
  assert (HN : exists gs, (1 <= n)%nat -> rbind (make_raviart_thomas (default CTriangle) n "equispaced") moment_basis = Ok gs /\ (length gs = n * (n + 2))%nat /\ (forall g, In g gs -> rt_space 2 n g) /\
     (forall g, rt_space 2 n g -> exists a, forall x, g x = sum (length gs) (fun i => a i * nth i gs (fun _ => 0) x))).
  { destruct n as [|n]; [exists []; lia|]. destruct (raviart_thomas 2 n Hd) as [N _]. destruct (dual_span _ _ _ N) as (gs & HB & L & HG & HS). exists gs. intros _. split; [exact HB|]. split; [exact L|]. split; [exact HG|exact HS]. }
  destruct HN as [gs HN]. destruct (full_set 2 (S n) Hd) as (U & HU & HI & LU & HUW). destruct (edge_moments2 (S n)) as (fs & mk & L & HD & HS & HM & Hmk).
  set (inner := some_moments (1 <=? n)%nat (map (interior 2) gs)). set (dofs := flat_map (fun i => map (mk i) fs) (range 3) ++ inner).
  assert (E : make_nedelec_second (default CTriangle) (S n) "equispaced" = Ok (U, dofs)).
  { unfold make_nedelec_second. cbv zeta. change (tdim (r_type (default CTriangle))) with 2%nat. rewrite HU. cbn [rbind]. rewrite HM. cbn [rbind]. unfold dofs, inner, some_moments, unless_below. replace (S n - 1)%nat with n by lia.
    destruct (Nat.ltb_spec (S n) 2), (Nat.leb_spec 1 n); try lia.
    - cbn [rbind]. destruct (S n <? 3)%nat; reflexivity.
    - destruct (HN ltac:(lia)) as (HB & _). rewrite (interior_moments 2 _ gs Hd HB : moments_on (default CTriangle) 2 _ _ = _). cbn [rbind]. destruct (S n <? 3)%nat; cbn; rewrite ?app_nil_r; reflexivity. }
  set (W := fields 2 (P_space 2 (S n))) in *.
  assert (Hedge : forall i f, (i < 3)%nat -> W f -> (forall q, In q fs -> moment_value (mk i q) f 0) -> forall v, on_facet 2 i v -> sum 2 (fun c => rotated f (c, v) * facet_direction i c) = 0).
  { apply (edges_zero W (S n)); [apply fields_poly_field| |exact HS|exact Hmk]. intros f i dom j nn Hi Hf (_ & _ & _ & _ & _ & _ & _ & La & _).
    apply (poly_space_ext _ (fun t => sum 2 (fun c => f (c, point_of dom t) * edge_direction i c))); [intros; symmetry; apply rotated_edge|]. apply (full_normal_degree 2 (S n)); assumption. }
  split.
  - apply (moments_square 2 W U dofs _ _ E); [apply fields_space|apply fields_poly_field|exact HUW| |exact LU| | |].
    + intros m Hm. apply in_app_or in Hm. destruct Hm as [Hm|Hm].
      * apply in_flat_map in Hm. destruct Hm as (i & Hi & Hm). apply in_range in Hi. apply in_map_iff in Hm. destruct Hm as (q & <- & Hq).
        destruct (Hmk i Hi) as (dom & j & nn & t & s & (_ & _ & _ & _ & _ & _ & G & La & _) & _ & _ & ->). exists 1%nat. apply (directed_good 2 1 (S n)); [lia|exact G|exact La|apply HD, Hq].
      * unfold inner, some_moments in Hm. destruct (Nat.leb_spec 1 n) as [H1|]; [|destruct Hm]. apply in_map_iff in Hm. destruct Hm as (g & <- & Hg). destruct (HN H1) as (_ & _ & HG & _).
        destruct (rt_poly_field 2 n g (HG g Hg)) as [k Hk]. exists 2%nat. apply (interior_good 2 g k Hd). exact Hk.
    + unfold dofs. rewrite app_length, (length_flat_map_const _ _ (length fs)) by (intros; apply map_length). rewrite length_range, L, P_dim2. unfold inner, some_moments. destruct (Nat.leb_spec 1 n) as [H1|H1].
      * destruct (HN H1) as (_ & EQ & _). rewrite map_length. rewrite EQ. nia.
      * assert (n = 0)%nat by lia. subst n. reflexivity.
    + rewrite <- LU. apply vindep_comb, HI.
    + intros f Hf HZ [c v]. destruct (Nat.lt_ge_cases c 2) as [Hc|Hc]; [|destruct Hf as [_ Z]; apply Z, Hc].
      assert (HZ1 : forall i, (i < 3)%nat -> forall q, In q fs -> moment_value (mk i q) f 0).
      { intros i Hi q Hq. apply HZ. apply in_or_app. left. apply in_flat_map. exists i. split; [apply in_range, Hi|apply in_map, Hq]. }
      apply (nedelec2_zero2 (S n) (fun c v => f (c, v)) ltac:(lia)); [apply Hf| | |exact Hc].
      * split; [|split].
        -- intros w Hw. pose proof (Hedge 1%nat f ltac:(lia) Hf (HZ1 1%nat ltac:(lia)) w Hw) as Z. unfold rotated in Z. cbn in Z. lra.
        -- intros w Hw. pose proof (Hedge 2%nat f ltac:(lia) Hf (HZ1 2%nat ltac:(lia)) w Hw) as Z. unfold rotated in Z. cbn in Z. lra.
        -- intros w Hw. pose proof (Hedge 0%nat f ltac:(lia) Hf (HZ1 0%nat ltac:(lia)) w Hw) as Z. unfold rotated in Z. cbn in Z. lra.
      * intros psi H2 Hpsi. replace (S n - 1)%nat with n in Hpsi by lia. assert (H1 : (1 <= n)%nat) by lia. destruct (HN H1) as (_ & _ & _ & HG).
        apply (span_zero (slims 2) 2 (fun c v => f (c, v)) (rt_space 2 n) gs HG); [|exact Hpsi].
        intros q Hq. apply (interior_value 2 f q 0 Hd (fields_poly_field _ _ _ Hf)). apply HZ. apply in_or_app. right. unfold inner, some_moments. destruct (Nat.leb_spec 1 n); [|lia]. apply in_map, Hq.
  - exists U, dofs. split; [exact E|]. intros i f Hi Hf HZ v Hv. assert (Z : sum 2 (fun c => rotated f (c, v) * facet_direction i c) = 0).
    + apply (Hedge i f Hi Hf); [|exact Hv]. intros q Hq. apply HZ.
      * apply in_or_app. left. apply in_flat_map. exists i. split; [apply in_range, Hi|apply in_map, Hq].
      * destruct (Hmk i Hi) as (dom & j & nn & t & s & _ & _ & _ & ->). reflexivity.
    + unfold rotated in Z. cbn [sum fst snd] in Z. lra.
Qed.
Lemma rt_even n : exists k, (S n * (S n + 1) * (S n + 3) = 2 * k)%nat.
Proof. destruct (Nat.Even_or_Odd n) as [[k ->]|[k ->]]; [exists ((2 * k + 1) * (k + 1) * (2 * k + 4))%nat|exists ((k + 1) * (2 * k + 3) * (2 * k + 5))%nat]; nia. Qed.
Lemma nedelec2_tetrahedron n :
  dual_moments (make_nedelec_second (default CTetrahedron) (S n) "equispaced") (fields 3 (P_space 3 (S n))) (3 * P_dim 3 (S n)) /\
  tangential_conforming3 (make_nedelec_second (default CTetrahedron) (S n) "equispaced") (fields 3 (P_space 3 (S n))).
Proof.
  assert (Hd : (2 <= 3 <= 3)%nat) by lia.
  assert (HF : exists ff, (1 <= n)%nat -> rbind (make_raviart_thomas (default CTriangle) n "equispaced") moment_basis = Ok ff /\ (length ff = n * (n + 2))%nat /\ (forall g, In g ff -> rt_space 2 n g) /\
     (forall g, rt_space 2 n g -> exists a, forall x, g x = sum (length ff) (fun i => a i * nth i ff (fun _ => 0) x))).
  { destruct n as [|n]; [exists []; lia|]. destruct (raviart_thomas 2 n ltac:(lia)) as [N _]. destruct (dual_span _ _ _ N) as (gs & HB & L & HG & HS). exists gs. intros _. split; [exact HB|]. split; [exact L|]. split; [exact HG|exact HS]. }
  assert (HV : exists gs, (2 <= n)%nat -> rbind (make_raviart_thomas (default CTetrahedron) (n - 1) "equispaced") moment_basis = Ok gs /\ (2 * length gs = (n - 1) * n * (n + 2))%nat /\ (forall g, In g gs -> rt_space 3 (n - 1) g) /\
     (forall g, rt_space 3 (n - 1) g -> exists a, forall x, g x = sum (length gs) (fun i => a i * nth i gs (fun _ => 0) x))).
  { destruct n as [|[|n]]; [exists []; lia|exists []; lia|]. destruct (raviart_thomas 3 n ltac:(lia)) as [N _]. destruct (dual_span _ _ _ N) as (gs & HB & L & HG & HS). exists gs. intros _. replace (S (S n) - 1)%nat with (S n) by lia. split; [exact HB|]. split; [|split; [exact HG|exact HS]].
    rewrite L. unfold rt_dim. destruct (rt_even n) as [k Hk]. rewrite Hk, (Nat.mul_comm 2 k), Nat.div_mul by lia. nia. }
  destruct HF as [ff HF], HV as [gs HV]. destruct (full_set 3 (S n) Hd) as (U & HU & HI & LU & HUW). destruct (edge_moments3 (S n)) as (fs & mk & L & HD & HS & HM & Hmk).
  destruct (face_moments (fun _ => Ok ff) ff eq_refl) as (fmk & _ & Hfmk0).
  assert (FMX : exists fmk, ((1 <= n)%nat -> moments_on (default CTetrahedron) 2 (fun r => rbind (make_raviart_thomas r n "equispaced") moment_basis) integral_moment = Ok (flat_map (fun i => map (fmk i) ff) (range 4))) /\
     (forall i, (i < 4)%nat -> exists dom j, face_facts i dom j /\ fmk i = face_moment dom j i)).
  { destruct (Nat.le_gt_cases 1 n) as [H1|H1]; [|exists fmk; split; [lia|exact Hfmk0]]. destruct (HF H1) as (HB & _).
    destruct (face_moments (fun r => rbind (make_raviart_thomas r n "equispaced") moment_basis) ff HB) as (fmk' & FM & Hfmk). exists fmk'. split; [intros _; exact FM|exact Hfmk]. }
  clear fmk Hfmk0. destruct FMX as (fmk & FM & Hfmk).
  assert (E : make_nedelec_second (default CTetrahedron) (S n) "equispaced" = Ok (U, flat_map (fun i => map (mk i) fs) (range 6) ++ some_moments (1 <=? n)%nat (flat_map (fun i => map (fmk i) ff) (range 4)) ++ some_moments (2 <=? n)%nat (map (interior 3) gs))).
  { unfold make_nedelec_second. cbv zeta. change (tdim (r_type (default CTetrahedron))) with 3%nat. rewrite HU. cbn [rbind]. rewrite HM. cbn [rbind].
    replace (S n - 1)%nat with n by lia. replace (S n - 2)%nat with (n - 1)%nat by lia. unfold unless_below, some_moments.
    destruct (Nat.ltb_spec (S n) 2), (Nat.leb_spec 1 n); try lia.
    - destruct (Nat.ltb_spec (S n) 3), (Nat.leb_spec 2 n); try lia; reflexivity.
    - rewrite FM by assumption. cbn [rbind]. destruct (Nat.ltb_spec (S n) 3), (Nat.leb_spec 2 n); try lia; [reflexivity|]. destruct (HV ltac:(lia)) as (HB & _). rewrite (interior_moments 3 _ gs Hd HB : moments_on (default CTetrahedron) 3 _ _ = _). reflexivity. }
  pose proof (P_dim3 (S n)) as P3.
  apply (curl3_element (fields 3 (P_space 3 (S n))) U (3 * P_dim 3 (S n)) _ fs mk ff fmk gs (1 <=? n)%nat (2 <=? n)%nat (rt_space 2 n) (rt_space 3 (n - 1)) (S n) E).
  - apply fields_space.
  - apply fields_poly_field.
  - exact HUW.
  - exact LU.
  - assert (G : forall a, a = (S n + 1)%nat -> (6 * a + (if (1 <=? n)%nat then 4 * length ff else 0) + (if (2 <=? n)%nat then length gs else 0) = 3 * P_dim 3 (S n))%nat); [|exact (G _ L)].
    intros a ->. destruct (Nat.leb_spec 1 n) as [H1|H1], (Nat.leb_spec 2 n) as [H2|H2]; [| |exfalso; lia|].
    + destruct (HF H1) as (_ & -> & _). destruct (HV H2) as (_ & Q & _). nia.
    + destruct (HF H1) as (_ & -> & _). assert (n = 1%nat) by lia. subst n. reflexivity.
    + assert (n = 0%nat) by lia. subst n. reflexivity.
  - exact HI.
  - intros f c v [_ Z] Hc. apply Z, Hc.
  - exact Hmk.
  - exact Hfmk.
  - exact HD.
  - exact HS.
  - intros H1 f Hf. apply Nat.leb_le in H1. destruct (HF H1) as (_ & _ & HG & _). apply (rt_poly_field 2 n), HG, Hf.
  - intros H1. apply Nat.leb_le in H1. destruct (HF H1) as (_ & _ & _ & HG). exact HG.
  - intros H1 f Hf. apply Nat.leb_le in H1. destruct (HV H1) as (_ & _ & HG & _). apply (rt_poly_field 3 (n - 1)), HG, Hf.
  - intros H1. apply Nat.leb_le in H1. destruct (HV H1) as (_ & _ & _ & HG). exact HG.
  - intros f dom [A _] La. apply (pull_degree dom 1 (S n) f La A).
  - intros f dom [A _] La HT HZ. apply (nedelec2_zero2 (S n) (pull dom f) ltac:(lia)); [intros c _; apply (pull_degree dom 2 (S n) f La A)|exact HT|].
    intros psi H2 Hpsi. replace (S n - 1)%nat with n in Hpsi by lia. apply HZ; [apply Nat.leb_le; lia|exact Hpsi].
  - intros f [A _] HT HZ. apply (nedelec2_zero (S n) (fun c v => f (c, v)) A HT). intros p h H3 Hp Hh. replace (S n - 3)%nat with (n - 2)%nat in * by lia.
    assert (R := rt_of_fields 3 (n - 2) p h Hp Hh). replace (S (n - 2)) with (n - 1)%nat in R by lia.
    eapply iterated_ext'; [|apply (HZ ltac:(apply Nat.leb_le; lia) _ R)]. intros v. apply sum_ext. intros c Hc. cbn [fst snd]. destruct (Nat.ltb_spec c 3); [reflexivity|lia].
Qed.
