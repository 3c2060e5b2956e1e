(** The H(div) and H(curl) elements on the square and the cube have dual bases and are conforming. *)
From Coquelicot Require Import Coquelicot.
From Coq Require Import String Arith Bool ZArith Reals Lia Lra List FunctionalExtensionality.
From Verif Require Import Base PolyLib PolySetsModel PolySetsProofs RTNedelecProofs PropertiesPolySets PolyVec QuadratureModel ReferencesModel ReferencesSpec ReferencesProofs ReferencesGeometry CiarletModel CiarletProofs
  LinAlg ElementModel LagrangeModel UnisolvenceProofs LagrangeProofs LagrangeKey LagrangeUnisolvence QProofs QDofs FamiliesTensor
  LegendreJacobi LegendreIntSpec LegendreIntegrals KmvProofs MomentsInt MomentsParts MomentsRT MomentsBox
  PointsModel PointsSpec PointsProofs PointsElements MomentElementsModel MomentElementsSpec MomentElementsProofs MomentsFacets MomentsRaviart MomentsRTDual MomentsNedelec MomentsTet MomentsCurl3 QFieldSpec QFieldGeometry QFieldProofs.
Import PolyVec ListNotations.
Local Open Scope R_scope.

Definition div_dim (d n : nat) : nat := (d * n ^ (d - 1) * (n + 1))%nat.
Definition curl_dim (d n : nat) : nat := (d * (n + 1) ^ (d - 1) * n)%nat.

Lemma q_poly_div d n : (2 <= d <= 3)%nat -> exists X, Hdiv_quolynomials d d (S n) = Ok X /\ length (quolynomial_set_vector d d n ++ X) = div_dim d (S n) /\
  vindependent (map veval (quolynomial_set_vector d d n ++ X)) /\ (forall F, In F (quolynomial_set_vector d d n ++ X) -> box_fields d (div_bound (S n)) (field F)).
Proof.
  intros Hd. destruct (C07_tensor_hdiv_hcurl d n Hd) as [(X & HX & ND & HF) _]. exists X. split; [exact HX|]. split; [|split].
  - destruct (Hdivq_sized d (S n) Hd) as (X' & E & L). assert (X' = X) by congruence. subst X'. rewrite app_length, L, qvec_length. unfold div_dim. assert (C : d = 2%nat \/ d = 3%nat) by lia. destruct C as [->| ->]; cbn [Nat.sub Nat.pow]; nia.
  - apply (unit_fields_independent d _ (fun c m => length m = d /\ forall i, (i < d)%nat -> (nth i m 0 <= if i =? c then S n else n)%nat)); [split; assumption|]. intros c m [H _]. exact H.
  - intros F H. apply HF in H. destruct H as (c & m & Hc & (Lm & Bm) & Hu). apply (unit_field_box d _ c m); try assumption. intros i Hi. specialize (Bm i Hi). unfold div_bound. destruct (i =? c)%nat; lia.
Qed.
Lemma q_poly_curl d n : (2 <= d <= 3)%nat -> exists X, Hcurl_quolynomials d d (S n) = Ok X /\ length (quolynomial_set_vector d d n ++ X) = curl_dim d (S n) /\
  vindependent (map veval (quolynomial_set_vector d d n ++ X)) /\ (forall F, In F (quolynomial_set_vector d d n ++ X) -> box_fields d (curl_bound (S n)) (field F)).
Proof.
  intros Hd. destruct (C07_tensor_hdiv_hcurl d n Hd) as [_ (X & HX & ND & HF)]. exists X. split; [exact HX|]. split; [|split].
  - destruct (Hcurlq_sized d (S n) Hd) as (X' & E & L). assert (X' = X) by congruence. subst X'. rewrite app_length, L, qvec_length. unfold curl_dim. assert (C : d = 2%nat \/ d = 3%nat) by lia. destruct C as [->| ->]; cbn [Nat.sub Nat.pow]; nia.
  - apply (unit_fields_independent d _ (fun c m => length m = d /\ forall i, (i < d)%nat -> (nth i m 0 <= if i =? c then n else S n)%nat)); [split; assumption|]. intros c m [H _]. exact H.
  - intros F H. apply HF in H. destruct H as (c & m & Hc & (Lm & Bm) & Hu). apply (unit_field_box d _ c m); try assumption. intros i Hi. specialize (Bm i Hi). unfold curl_bound. destruct (i =? c)%nat; lia.
Qed.
Lemma box_only {A} d (k : res A) : (2 <= d <= 3)%nat -> PointsModel.only_default (default (box_of d)) k = k.
Proof. intros Hd. unfold PointsModel.only_default. rewrite default_is_default; [reflexivity|]. assert (C : d = 2%nat \/ d = 3%nat) by lia. destruct C as [->| ->]; cbn; tauto. Qed.
Lemma box_tdim d : (2 <= d <= 3)%nat -> tdim (r_type (default (box_of d))) = d.
Proof. intros Hd. assert (C : d = 2%nat \/ d = 3%nat) by lia. destruct C as [->| ->]; reflexivity. Qed.
Lemma facet_dirs_off d x c : (2 <= d <= 3)%nat -> (x < d)%nat -> (c < d)%nat -> ~ In c (facet_dirs d x) -> c = x.
Proof.
  intros Hd Hx Hc H. assert (C : d = 2%nat \/ d = 3%nat) by lia. destruct C as [->| ->]; destruct x as [|[|[|x]]]; try lia; destruct c as [|[|[|c]]]; try lia; exfalso; apply H; cbn; tauto.
Qed.
Lemma facet_dirs_in d x l : (2 <= d <= 3)%nat -> (x < d)%nat -> (l < d - 1)%nat -> nth l (facet_dirs d x) 0%nat <> x /\ (nth l (facet_dirs d x) 0 < d)%nat.
Proof.
  intros Hd Hx Hl. assert (C : d = 2%nat \/ d = 3%nat) by lia. destruct C as [->| ->]; destruct x as [|[|[|x]]]; try lia; destruct l as [|[|l]]; try lia; cbn; lia.
Qed.
Lemma box_facet_lt d i : (2 <= d <= 3)%nat -> (i < 2 * d)%nat -> (fst (box_facet d i) < d)%nat.
Proof. intros Hd Hi. unfold box_facet. destruct (Nat.ltb_spec i d); cbn [fst]; lia. Qed.
Lemma facet_at d i v : (2 <= d <= 3)%nat -> (i < 2 * d)%nat -> on_box_facet d i v -> forall c, (c < d)%nat -> ~ In c (facet_dirs d (fst (box_facet d i))) -> v c = facet_origin d i c.
Proof.
  intros Hd Hi Hv c Hc H. pose proof (facet_dirs_off d _ c Hd (box_facet_lt d i Hd Hi) Hc H) as E. unfold facet_origin. rewrite E, Nat.eqb_refl. exact Hv.
Qed.
(** every face of the cube is a facet *)
Lemma box_facet_low d c : (c < d)%nat -> box_facet d (d - 1 - c) = (c, 0).
Proof. intros H. unfold box_facet. rewrite (proj2 (Nat.ltb_lt _ _)) by lia. f_equal. lia. Qed.
Lemma box_facet_high d c : (c < d)%nat -> box_facet d (d + c) = (c, 1).
Proof. intros H. unfold box_facet. rewrite (proj2 (Nat.ltb_ge _ _)) by lia. f_equal. lia. Qed.

Lemma qdiv_step d n variant : (2 <= d <= 3)%nat -> quadrature_upto variant (S n) ->
  ((1 <= n)%nat -> dual_moments (make_q_field false n variant (default (box_of d))) (qcurl_space d n) (curl_dim d n)) ->
  dual_moments (make_q_field true (S n) variant (default (box_of d))) (qdiv_space d (S n)) (div_dim d (S n)) /\
  q_normal_conforming (make_q_field true (S n) variant (default (box_of d))) d (qdiv_space d (S n)).
Proof.
  intros Hd Hv IH. destruct (q_poly_div d n Hd) as (X & HX & LX & IX & WX).
  destruct (q_facet_moments d n variant Hd) as (fs & mk & L & HD & HS & HM & Hmk); [rewrite Nat.add_1_r; exact Hv|].
  assert (G : exists gs, (1 <= n -> length gs = curl_dim d n)%nat /\ ((1 <= n)%nat -> rbind (make_q_field false n variant (default (box_of d))) moment_basis = Ok gs) /\ (forall g, (1 <= n)%nat -> In g gs -> qcurl_space d n g) /\
    ((1 <= n)%nat -> forall g, qcurl_space d n g -> exists a, forall x, g x = sum (length gs) (fun i => a i * nth i gs (fun _ => 0) x))).
  { destruct n as [|n]; [exists []; repeat split; intros; lia|]. destruct (dual_span _ _ _ (IH ltac:(lia))) as (gs & B & LG & WG & SG). exists gs. split; [intros _; exact LG|]. split; [intros _; exact B|]. split; [intros g _; apply WG|intros _; exact SG]. }
  destruct G as (gs & LG & BG & WG & SG).
  set (dofs := flat_map (fun i => map (mk i) fs) (range (2 * d)) ++ some_moments (1 <=? n)%nat (map (box_interior d) gs)).
  assert (E : make_q_field true (S n) variant (default (box_of d)) = Ok (quolynomial_set_vector d d n ++ X, dofs)).
  { cbn [make_q_field]. rewrite (box_only d) by exact Hd. rewrite (box_tdim d Hd). cbv iota zeta. rewrite HX. cbn [rbind]. rewrite HM. cbn [rbind negb]. unfold unless_below, dofs, some_moments.
    destruct (Nat.ltb_spec n 1), (Nat.leb_spec 1 n); try lia; [reflexivity|]. rewrite (box_interior_moments d _ gs Hd); [reflexivity|]. apply BG. assumption. }
  assert (I1 : forall i q, (i < 2 * d)%nat -> In q fs -> In (mk i q) dofs) by (intros i q Hi Hq; apply in_or_app; left; apply in_flat_map; exists i; split; [apply in_range, Hi|apply in_map, Hq]).
  assert (I2 : forall q, (1 <= n)%nat -> In q gs -> In (box_interior d q) dofs) by (intros q Hn Hq; apply in_or_app; right; rewrite (proj2 (Nat.leb_le 1 n) Hn); apply in_map, Hq).
  assert (N : forall i f, (i < 2 * d)%nat -> qdiv_space d (S n) f -> (forall m, In m dofs -> mo_entity m = ((d - 1)%nat, i) -> moment_value m f 0) -> forall v, on_box_facet d i v -> f (fst (box_facet d i), v) = 0).
  { intros i f Hi Hf HZ v Hv'. destruct (Hmk i Hi) as (dom & j & nn & F & U & Em). pose proof (box_facet_lt d i Hd Hi) as Hx.
    apply (aligned_zero d (d - 1) i dom j _ _ (fst (box_facet d i)) n nn ((d - 1)%nat, i) f fs (S n) (div_bound (S n)) Hd F Hx U Hf); [apply div_bound_le| |exact HS| |apply facet_at; assumption].
    - intros l Hl. destruct (facet_dirs_in d _ l Hd Hx Hl) as [Ne _]. unfold div_bound. rewrite (proj2 (Nat.eqb_neq _ _) Ne). lia.
    - intros q Hq. rewrite <- Em. apply HZ; [apply I1; assumption|rewrite Em; reflexivity]. }
  split; [|exists (quolynomial_set_vector d d n ++ X), dofs; split; [exact E|exact N]].
  assert (HP : forall f, qdiv_space d (S n) f -> poly_field d f) by (intros f; apply (box_fields_poly d (div_bound (S n)) (S n)), div_bound_le).
  apply (moments_square d (qdiv_space d (S n)) _ dofs (div_dim d (S n)) _ E (box_fields_subspace d (div_bound (S n)) : subspace (qdiv_space d (S n))) HP WX); [|exact LX| | |].
  - intros m Hm. apply in_app_or in Hm. destruct Hm as [Hm|Hm].
    + apply in_flat_map in Hm. destruct Hm as (i & Hi & Hm). apply in_range in Hi. apply in_map_iff in Hm. destruct Hm as (q & <- & Hq). destruct (Hmk i Hi) as (dom & j & nn & F & U & Em). rewrite Em. destruct F as (_ & _ & _ & _ & (G1 & G2 & _)).
      exists (d - 1)%nat. destruct (box_bounded _ _ _ (HD q Hq)) as [K HK]. apply (directed_good_on (blims (d - 1)) d (d - 1) K); [lia|apply blims_good; lia|exact G1|exact G2|exact HK].
    + unfold some_moments in Hm. destruct (Nat.leb_spec 1 n) as [Hn|]; [|destruct Hm]. apply in_map_iff in Hm. destruct Hm as (q & <- & Hq). exists d. apply box_interior_good; [exact Hd|].
      apply (box_fields_poly d (curl_bound n) n); [apply curl_bound_le|]. apply (WG q Hn Hq).
  - unfold dofs, some_moments. rewrite app_length, (length_flat_map_const _ _ (length fs)) by (intros; apply map_length). rewrite length_range.
    assert (Q : forall a b, a = ((n + 1) ^ (d - 1))%nat -> (1 <= n -> b = curl_dim d n)%nat -> (2 * d * a + (if (1 <=? n)%nat then b else 0) = div_dim d (S n))%nat).
    { intros a b -> Hb. unfold div_dim, curl_dim in *. assert (C : d = 2%nat \/ d = 3%nat) by lia. destruct (Nat.leb_spec 1 n) as [Hn|Hn]; [rewrite (Hb Hn)|assert (n = 0%nat) by lia; subst n]; destruct C as [->| ->]; cbn [Nat.sub Nat.pow]; nia. }
    rewrite <- (Q _ _ L LG). f_equal. destruct (1 <=? n)%nat; [apply map_length|reflexivity].
  - rewrite <- LX. apply vindep_comb, IX.
  - intros f Hf HZ [c v]. destruct (Nat.lt_ge_cases c d) as [Hc|Hc]; [|apply (proj2 Hf), Hc]. revert c v Hc. apply (qdiv_zero d (S n) (fun c v => f (c, v)) Hd ltac:(lia)).
    + intros c Hc. apply (proj1 Hf c Hc).
    + intros c v Hc H0. pose proof (N (d - 1 - c)%nat f ltac:(lia) Hf ltac:(intros m Hm _; apply HZ, Hm) v) as Q. unfold on_box_facet in Q. rewrite (box_facet_low d c Hc) in Q. apply Q, H0.
    + intros c v Hc H1. pose proof (N (d + c)%nat f ltac:(lia) Hf ltac:(intros m Hm _; apply HZ, Hm) v) as Q. unfold on_box_facet in Q. rewrite (box_facet_high d c Hc) in Q. apply Q, H1.
    + intros psi Hn Hpsi. replace (S n - 1)%nat with n in Hpsi by lia. assert (Hn' : (1 <= n)%nat) by lia.
      eapply iterated_ext'; [|apply (span_zero (blims d) d (fun c v => f (c, v)) (qcurl_space d n) gs (SG Hn')) with (psi := as_field d psi)].
      * intros v. apply (sum_as_field d (fun c v => f (c, v))).
      * intros q Hq. apply (box_interior_value d f q 0 Hd (HP f Hf)). apply HZ, I2; assumption.
      * apply (box_fields_as d (curl_bound n) psi Hpsi).
Qed.

(** what the element of the other kind gives *)
Lemma other_span made W K n : ((1 <= n)%nat -> dual_moments made W K) -> exists gs, (1 <= n -> length gs = K)%nat /\ ((1 <= n)%nat -> rbind made moment_basis = Ok gs) /\ (forall g, (1 <= n)%nat -> In g gs -> W g) /\
  ((1 <= n)%nat -> forall g, W g -> exists a, forall x, g x = sum (length gs) (fun i => a i * nth i gs (fun _ => 0) x)).
Proof.
  intros IH. destruct n as [|n]; [exists []; repeat split; intros; lia|]. destruct (dual_span _ _ _ (IH ltac:(lia))) as (gs & B & LG & WG & SG). exists gs. split; [intros _; exact LG|]. split; [intros _; exact B|]. split; [intros g _; apply WG|intros _; exact SG].
Qed.
Lemma edge_zero_on d n variant fs mk dofs : (2 <= d <= 3)%nat -> 
  (forall g, box 1 (fun _ => n) g -> exists a, forall v, g v = sum (length fs) (fun i => a i * nth i fs (fun _ => 0) v)) ->
  (forall i, (i < edge_number d)%nat -> exists dom j t, entity_facts d 1 i dom j [edge_axis d i] (edge_origin d i) /\ unit_direction d (edge_axis d i) t /\ mk i = directed dom (blims 1) j t (1%nat, i)) ->
  quadrature_upto variant (S n) -> (forall i q, (i < edge_number d)%nat -> In q fs -> In (mk i q) dofs) ->
  forall i f, (i < edge_number d)%nat -> qcurl_space d (S n) f -> (forall m, In m dofs -> mo_entity m = (1%nat, i) -> moment_value m f 0) ->
  forall v, (forall c, (c < d)%nat -> c <> edge_axis d i -> v c = edge_origin d i c) -> f (edge_axis d i, v) = 0.
Proof.
  intros Hd HS Hmk Hv I1 i f Hi Hf HZ v Hv'. destruct (Hmk i Hi) as (dom & j & t & F & U & Em).
  assert (Hx : (edge_axis d i < d)%nat) by (destruct F as (_ & _ & _ & _ & A); exact (aligned_dirs d 1 dom _ _ 0 A ltac:(lia))).
  apply (aligned_zero d 1 i dom j _ _ (edge_axis d i) n t (1%nat, i) f fs (S n) (curl_bound (S n)) Hd F Hx U Hf); [apply curl_bound_le| |exact HS| |].
  - intros l Hl. assert (l = 0%nat) by lia. subst l. cbn [nth]. unfold curl_bound. rewrite Nat.eqb_refl. lia.
  - intros q Hq. rewrite <- Em. apply HZ; [apply I1; assumption|rewrite Em; reflexivity].
  - intros c Hc H. apply Hv'; [exact Hc|]. intros ->. apply H. left. reflexivity.
Qed.

Lemma qcurl_step2 n variant : quadrature_upto variant (S n) ->
  ((1 <= n)%nat -> dual_moments (make_q_field true n variant (default CQuadrilateral)) (qdiv_space 2 n) (div_dim 2 n)) ->
  dual_moments (make_q_field false (S n) variant (default CQuadrilateral)) (qcurl_space 2 (S n)) (curl_dim 2 (S n)) /\
  q_tangential_conforming2 (make_q_field false (S n) variant (default CQuadrilateral)) (qcurl_space 2 (S n)).
Proof.
  assert (Hd : (2 <= 2 <= 3)%nat) by lia. intros Hv IH. destruct (q_poly_curl 2 n Hd) as (X & HX & LX & IX & WX).
  destruct (q_edge_moments 2 n variant Hd) as (fs & mk & L & HD & HS & HM & Hmk); [rewrite Nat.add_1_r; exact Hv|].
  destruct (other_span _ _ _ _ IH) as (gs & LG & BG & WG & SG).
  set (dofs := flat_map (fun i => map (mk i) fs) (range (edge_number 2)) ++ some_moments (1 <=? n)%nat (map (box_interior 2) gs)).
  assert (E : make_q_field false (S n) variant (default CQuadrilateral) = Ok (quolynomial_set_vector 2 2 n ++ X, dofs)).
  { cbn [make_q_field]. rewrite (box_only 2 : forall k, _ -> PointsModel.only_default (default CQuadrilateral) k = k) by exact Hd. rewrite (box_tdim 2 Hd : tdim (r_type (default CQuadrilateral)) = _). cbv iota zeta. rewrite HX. cbn [rbind].
    rewrite (HM : moments_on (default CQuadrilateral) 1 _ _ = _). cbn [rbind negb]. unfold unless_below, dofs, some_moments.
    destruct (Nat.ltb_spec n 1), (Nat.leb_spec 1 n); try lia; [reflexivity|]. rewrite (box_interior_moments 2 _ gs Hd (BG ltac:(assumption)) : moments_on (default CQuadrilateral) 2 _ _ = _). cbn [rbind].
    match goal with |- rbind ?x _ = _ => change x with (@Ok (list moment_dof) []) end. cbn [rbind]. rewrite app_nil_r. reflexivity. }
  assert (I1 : forall i q, (i < edge_number 2)%nat -> In q fs -> In (mk i q) dofs) by (intros i q Hi Hq; apply in_or_app; left; apply in_flat_map; exists i; split; [apply in_range, Hi|apply in_map, Hq]).
  assert (I2 : forall q, (1 <= n)%nat -> In q gs -> In (box_interior 2 q) dofs) by (intros q Hn Hq; apply in_or_app; right; rewrite (proj2 (Nat.leb_le 1 n) Hn); apply in_map, Hq).
  assert (N : forall i f, (i < 4)%nat -> qcurl_space 2 (S n) f -> (forall m, In m dofs -> mo_entity m = (1%nat, i) -> moment_value m f 0) -> forall v, on_box_facet 2 i v -> f ((1 - fst (box_facet 2 i))%nat, v) = 0).
  { intros i f Hi Hf HZ v Hv'. pose proof (box_facet_lt 2 i Hd ltac:(lia)) as Hx. apply (edge_zero_on 2 n variant fs mk dofs Hd HS Hmk Hv I1 i f Hi Hf HZ v). cbn [edge_axis edge_origin]. intros c Hc Hne. unfold facet_origin.
    assert (Ec : c = fst (box_facet 2 i)) by lia. rewrite Ec, Nat.eqb_refl. exact Hv'. }
  split; [|exists (quolynomial_set_vector 2 2 n ++ X), dofs; split; [exact E|exact N]].
  assert (HP : forall f, qcurl_space 2 (S n) f -> poly_field 2 f) by (intros f; apply (box_fields_poly 2 (curl_bound (S n)) (S n)), curl_bound_le).
  apply (moments_square 2 (qcurl_space 2 (S n)) _ dofs (curl_dim 2 (S n)) _ E (box_fields_subspace 2 (curl_bound (S n)) : subspace (qcurl_space 2 (S n))) HP WX); [|exact LX| | |].
  - intros m Hm. apply in_app_or in Hm. destruct Hm as [Hm|Hm].
    + apply in_flat_map in Hm. destruct Hm as (i & Hi & Hm). apply in_range in Hi. apply in_map_iff in Hm. destruct Hm as (q & <- & Hq). destruct (Hmk i Hi) as (dom & j & nn & F & U & Em). rewrite Em. destruct F as (_ & _ & _ & _ & (G1 & G2 & _)).
      exists 1%nat. destruct (box_bounded _ _ _ (HD q Hq)) as [K HK]. apply (directed_good_on (blims 1) 2 1 K); [lia|apply blims_good; lia|exact G1|exact G2|exact HK].
    + unfold some_moments in Hm. destruct (Nat.leb_spec 1 n) as [Hn|]; [|destruct Hm]. apply in_map_iff in Hm. destruct Hm as (q & <- & Hq). exists 2%nat. apply box_interior_good; [exact Hd|].
      apply (box_fields_poly 2 (div_bound n) n); [apply div_bound_le|]. apply (WG q Hn Hq).
  - unfold dofs, some_moments. rewrite app_length, (length_flat_map_const _ _ (length fs)) by (intros; apply map_length). rewrite length_range.
    assert (Q : forall a b, a = (n + 1)%nat -> (1 <= n -> b = div_dim 2 n)%nat -> (edge_number 2 * a + (if (1 <=? n)%nat then b else 0) = curl_dim 2 (S n))%nat).
    { intros a b -> Hb. unfold div_dim, curl_dim in *. destruct (Nat.leb_spec 1 n) as [Hn|Hn]; [rewrite (Hb Hn)|assert (n = 0%nat) by lia; subst n]; cbn [Nat.sub Nat.pow edge_number]; nia. }
    rewrite <- (Q _ _ L LG). f_equal. destruct (1 <=? n)%nat; [apply map_length|reflexivity].
  - rewrite <- LX. apply vindep_comb, IX.
  - intros f Hf HZ [c v]. destruct (Nat.lt_ge_cases c 2) as [Hc|Hc]; [|apply (proj2 Hf), Hc]. revert c v Hc. apply (qcurl_zero2 (S n) (fun c v => f (c, v)) ltac:(lia)).
    + intros c Hc. apply (proj1 Hf c Hc).
    + intros c v Hc H0. pose proof (N (2 - 1 - (1 - c))%nat f ltac:(lia) Hf ltac:(intros m Hm _; apply HZ, Hm) v) as Q. unfold on_box_facet in Q. rewrite (box_facet_low 2 (1 - c)) in Q by lia. cbn [fst snd] in Q. replace (1 - (1 - c))%nat with c in Q by lia. apply Q, H0.
    + intros c v Hc H1. pose proof (N (2 + (1 - c))%nat f ltac:(lia) Hf ltac:(intros m Hm _; apply HZ, Hm) v) as Q. unfold on_box_facet in Q. rewrite (box_facet_high 2 (1 - c)) in Q by lia. cbn [fst snd] in Q. replace (1 - (1 - c))%nat with c in Q by lia. apply Q, H1.
    + intros psi Hn Hpsi. replace (S n - 1)%nat with n in Hpsi by lia. assert (Hn' : (1 <= n)%nat) by lia.
      eapply iterated_ext'; [|apply (span_zero (blims 2) 2 (fun c v => f (c, v)) (qdiv_space 2 n) gs (SG Hn')) with (psi := as_field 2 psi)].
      * intros v. apply (sum_as_field 2 (fun c v => f (c, v))).
      * intros q Hq. apply (box_interior_value 2 f q 0 Hd (HP f Hf)). apply HZ, I2; assumption.
      * apply (box_fields_as 2 (div_bound n) psi Hpsi).
Qed.

(** * The cube *)
Lemma face_edge i k (s : bool) : (i < 6)%nat -> (k < 2)%nat -> exists e, (e < 12)%nat /\ on_box_facet 3 i (box_vertex (fst (hex_edge e))) /\ on_box_facet 3 i (box_vertex (snd (hex_edge e))) /\
  hex_axis e = nth k (facet_dirs 3 (fst (box_facet 3 i))) 0%nat /\ box_vertex (fst (hex_edge e)) (nth (1 - k) (facet_dirs 3 (fst (box_facet 3 i))) 0%nat) = if s then 1 else 0.
Proof.
  intros Hi Hk. destruct i as [|[|[|[|[|[|i]]]]]]; try (exfalso; lia); (destruct k as [|[|k]]; try (exfalso; lia)); destruct s;
    first [exists 0%nat; solve [repeat split; try lia; reflexivity] | exists 1%nat; solve [repeat split; try lia; reflexivity] | exists 2%nat; solve [repeat split; try lia; reflexivity] | exists 3%nat; solve [repeat split; try lia; reflexivity]
      | exists 4%nat; solve [repeat split; try lia; reflexivity] | exists 5%nat; solve [repeat split; try lia; reflexivity] | exists 6%nat; solve [repeat split; try lia; reflexivity] | exists 7%nat; solve [repeat split; try lia; reflexivity]
      | exists 8%nat; solve [repeat split; try lia; reflexivity] | exists 9%nat; solve [repeat split; try lia; reflexivity] | exists 10%nat; solve [repeat split; try lia; reflexivity] | exists 11%nat; solve [repeat split; try lia; reflexivity]].
Qed.
Lemma hex_line f e s : (e < 12)%nat -> sum 3 (fun c => f (c, on_box_line (fst (hex_edge e)) (snd (hex_edge e)) s) * (box_vertex (snd (hex_edge e)) c - box_vertex (fst (hex_edge e)) c)) =
  f (hex_axis e, on_box_line (fst (hex_edge e)) (snd (hex_edge e)) s).
Proof.
  intros He. rewrite (sum_ext 3 _ (fun c => f (c, on_box_line (fst (hex_edge e)) (snd (hex_edge e)) s) * ind (hex_axis e) c)).
  - apply (ind_sum 3 (hex_axis e) (fun c => f (c, on_box_line (fst (hex_edge e)) (snd (hex_edge e)) s))). do 12 (destruct e as [|e]; [cbn; lia|]). lia.
  - intros c Hc. f_equal. do 12 (destruct e as [|e]; [destruct c as [|[|[|c]]]; [| | |lia]; cbn; unfold box_vertex; cbn; lra|]). lia.
Qed.
Lemma hex_line_at e s c : (e < 12)%nat -> (c < 3)%nat -> c <> hex_axis e -> on_box_line (fst (hex_edge e)) (snd (hex_edge e)) s c = box_vertex (fst (hex_edge e)) c.
Proof.
  intros He Hc. unfold on_box_line. do 12 (destruct e as [|e]; [destruct c as [|[|[|c]]]; [| | |lia]; cbn; unfold box_vertex; cbn; intros; (lra || congruence)|]). lia.
Qed.
Lemma facet_dirs_cover x c : (x < 3)%nat -> (c < 3)%nat -> c <> x -> exists k, (k < 2)%nat /\ nth k (facet_dirs 3 x) 0%nat = c.
Proof. intros Hx Hc Hne. destruct x as [|[|[|x]]]; try lia; destruct c as [|[|[|c]]]; try lia; first [exists 0%nat; split; [lia|reflexivity]|exists 1%nat; split; [lia|reflexivity]]. Qed.
Lemma facet_dirs_injective x k l : (x < 3)%nat -> (k < 2)%nat -> (l < 2)%nat -> (nth l (facet_dirs 3 x) 0 =? nth k (facet_dirs 3 x) 0)%nat = (l =? k)%nat.
Proof. intros Hx Hk Hl. destruct x as [|[|[|x]]]; try lia; (destruct k as [|[|k]]; try lia); (destruct l as [|[|l]]; try lia); reflexivity. Qed.
Lemma facet_dirs_other x k c : (x < 3)%nat -> (k < 2)%nat -> (c < 3)%nat -> c <> nth k (facet_dirs 3 x) 0%nat -> c = x \/ c = nth (1 - k) (facet_dirs 3 x) 0%nat.
Proof. intros Hx Hk Hc. destruct x as [|[|[|x]]]; try lia; (destruct k as [|[|k]]; try lia); (destruct c as [|[|[|c]]]; try lia); cbn; intros; lia. Qed.

Lemma qcurl_step3 n variant : quadrature_upto variant (S n) ->
  ((1 <= n)%nat -> dual_moments (make_q_field true n variant (default CQuadrilateral)) (qdiv_space 2 n) (div_dim 2 n)) ->
  ((1 <= n)%nat -> dual_moments (make_q_field true n variant (default CHexahedron)) (qdiv_space 3 n) (div_dim 3 n)) ->
  dual_moments (make_q_field false (S n) variant (default CHexahedron)) (qcurl_space 3 (S n)) (curl_dim 3 (S n)) /\
  q_tangential_conforming3 (make_q_field false (S n) variant (default CHexahedron)) (qcurl_space 3 (S n)).
Proof.
  assert (Hd : (2 <= 3 <= 3)%nat) by lia. intros Hv IH2 IH3. destruct (q_poly_curl 3 n Hd) as (X & HX & LX & IX & WX).
  destruct (q_edge_moments 3 n variant Hd) as (fs & mk & L & HD & HS & HM & Hmk); [rewrite Nat.add_1_r; exact Hv|].
  destruct (other_span _ _ _ _ IH2) as (ff & LF & BF & WF & SF). destruct (other_span _ _ _ _ IH3) as (gs & LG & BG & WG & SG).
  assert (FM : exists fmk, ((1 <= n)%nat -> moments_on (default CHexahedron) 2 (fun r => rbind (make_q_field true n variant r) moment_basis) integral_moment = Ok (flat_map (fun i => map (fmk i) ff) (range 6))) /\
    (forall i, (1 <= n)%nat -> (i < 6)%nat -> exists dom j, entity_facts 3 2 i dom j (facet_dirs 3 (fst (box_facet 3 i))) (facet_origin 3 i) /\ fmk i = box_face_moment dom j i)).
  { destruct n as [|n]; [exists (fun _ => box_interior 3); split; intros; lia|]. destruct (q_face_moments (fun r => rbind (make_q_field true (S n) variant r) moment_basis) ff (BF ltac:(lia))) as (fmk & H1 & H2). exists fmk. split; [intros _; exact H1|intros i _; apply H2]. }
  destruct FM as (fmk & FM & Hfmk).
  set (dofs := flat_map (fun i => map (mk i) fs) (range (edge_number 3)) ++ some_moments (1 <=? n)%nat (flat_map (fun i => map (fmk i) ff) (range 6)) ++ some_moments (1 <=? n)%nat (map (box_interior 3) gs)).
  assert (E : make_q_field false (S n) variant (default CHexahedron) = Ok (quolynomial_set_vector 3 3 n ++ X, dofs)).
  { cbn [make_q_field]. rewrite (box_only 3 : forall k, _ -> PointsModel.only_default (default CHexahedron) k = k) by exact Hd. rewrite (box_tdim 3 Hd : tdim (r_type (default CHexahedron)) = _). cbv iota zeta. rewrite HX. cbn [rbind].
    rewrite (HM : moments_on (default CHexahedron) 1 _ _ = _). cbn [rbind negb]. unfold unless_below, dofs, some_moments.
    destruct (Nat.ltb_spec n 1), (Nat.leb_spec 1 n); try lia; [reflexivity|]. rewrite (FM ltac:(assumption)). cbn [rbind]. rewrite (box_interior_moments 3 _ gs Hd (BG ltac:(assumption)) : moments_on (default CHexahedron) 3 _ _ = _). reflexivity. }
  assert (I1 : forall i q, (i < edge_number 3)%nat -> In q fs -> In (mk i q) dofs) by (intros i q Hi Hq; apply in_or_app; left; apply in_flat_map; exists i; split; [apply in_range, Hi|apply in_map, Hq]).
  assert (I2 : forall i q, (1 <= n)%nat -> (i < 6)%nat -> In q ff -> In (fmk i q) dofs).
  { intros i q Hn Hi Hq. apply in_or_app. right. apply in_or_app. left. rewrite (proj2 (Nat.leb_le 1 n) Hn). apply in_flat_map. exists i. split; [apply in_range, Hi|apply in_map, Hq]. }
  assert (I3 : forall q, (1 <= n)%nat -> In q gs -> In (box_interior 3 q) dofs) by (intros q Hn Hq; apply in_or_app; right; apply in_or_app; right; rewrite (proj2 (Nat.leb_le 1 n) Hn); apply in_map, Hq).
  assert (HP : forall f, qcurl_space 3 (S n) f -> poly_field 3 f) by (intros f; apply (box_fields_poly 3 (curl_bound (S n)) (S n)), curl_bound_le).
  assert (Ne : forall e f, (e < 12)%nat -> qcurl_space 3 (S n) f -> (forall m, In m dofs -> mo_entity m = (1%nat, e) -> moment_value m f 0) -> forall v, (forall c, (c < 3)%nat -> c <> hex_axis e -> v c = box_vertex (fst (hex_edge e)) c) -> f (hex_axis e, v) = 0).
  { intros e f He Hf HZ v Hv'. apply (edge_zero_on 3 n variant fs mk dofs Hd HS Hmk Hv I1 e f He Hf HZ v). exact Hv'. }
  assert (Nf : forall i f, (i < 6)%nat -> qcurl_space 3 (S n) f -> (forall m, In m dofs -> mo_entity m = (2%nat, i) -> moment_value m f 0) ->
     (forall e m, (e < 12)%nat -> on_box_facet 3 i (box_vertex (fst (hex_edge e))) -> on_box_facet 3 i (box_vertex (snd (hex_edge e))) -> In m dofs -> mo_entity m = (1%nat, e) -> moment_value m f 0) ->
     forall c v, (c < 3)%nat -> c <> fst (box_facet 3 i) -> on_box_facet 3 i v -> f (c, v) = 0).
  { intros i f Hi Hf HZ HZe c v Hc Hne Hv'. pose proof (box_facet_lt 3 i Hd ltac:(lia)) as Hx. destruct (q_facets_exist 3 i Hd ltac:(lia)) as (dom & j & nn & F & _).
    set (dirs := facet_dirs 3 (fst (box_facet 3 i))) in *. assert (A : aligned 3 2 dom dirs (facet_origin 3 i)) by (destruct F as (_ & _ & _ & _ & A); exact A).
    destruct (facet_dirs_cover _ c Hx Hc Hne) as (k & Hk & Ek).
    assert (EG : forall k t s, (k < 2)%nat -> t (1 - k)%nat = (if s : bool then 1 else 0) -> box_pull dom dirs f k t = 0).
    { intros l t s Hl Ht. destruct (face_edge i l s Hi Hl) as (e & He & V1 & V2 & Ax & Vs). unfold box_pull. fold dirs in Ax, Vs. rewrite <- Ax. apply Ne; [exact He|exact Hf|intros m Hm Hme; apply (HZe e m); assumption|].
      intros a Ha Hna. rewrite Ax in Hna. destruct (facet_dirs_other _ l a Hx Hl Ha Hna) as [->| ->].
      - rewrite V1. rewrite (aligned_point 3 2 dom dirs _ t _ A Hx). unfold facet_origin. rewrite Nat.eqb_refl. rewrite (sum_zero 2); [ring|]. intros b Hb. destruct (facet_dirs_in 3 _ b Hd Hx Hb) as [N1 _]. unfold ind.
        rewrite (proj2 (Nat.eqb_neq _ _)) by (fold dirs in N1; congruence). ring.
      - fold dirs. rewrite Vs, <- Ht. assert (L1 : (1 - l < 2)%nat) by lia. destruct (facet_dirs_in 3 _ (1 - l) Hd Hx L1) as [N1 N2]. fold dirs in N1, N2. rewrite (aligned_point 3 2 dom dirs _ t _ A N2).
        unfold facet_origin. rewrite (proj2 (Nat.eqb_neq _ _) N1). rewrite (sum_single 2 _ (1 - l)%nat L1).
        + unfold ind. rewrite Nat.eqb_refl. ring.
        + intros b Hb Hbn. unfold ind. unfold dirs. rewrite (facet_dirs_injective _ b (1 - l) Hx Hb L1), (proj2 (Nat.eqb_neq (1 - l) b)) by lia. ring. }
    assert (Z : forall k t, (k < 2)%nat -> box_pull dom dirs f k t = 0).
    { apply (qcurl_zero2 (S n) (box_pull dom dirs f) ltac:(lia)).
      - intros l Hl. destruct (facet_dirs_in 3 _ l Hd Hx Hl) as [_ N2]. fold dirs in N2. unfold box_pull. eapply box_weaken; [|apply (box_comp 3 2 dom dirs _ (curl_bound (S n) (nth l dirs 0%nat)) (fun v => f (nth l dirs 0%nat, v)) A), Hf, N2].
        intros b Hb. unfold curl_bound, dirs. cbv beta. rewrite (facet_dirs_injective _ l b Hx Hl Hb). lia.
      - intros l t Hl Ht. apply (EG l t false Hl Ht).
      - intros l t Hl Ht. apply (EG l t true Hl Ht).
      - intros psi Hn Hpsi. replace (S n - 1)%nat with n in Hpsi by lia. assert (Hn' : (1 <= n)%nat) by lia. destruct (Hfmk i Hn' Hi) as (dom' & j' & F' & Em).
        assert (dom' = dom) by (destruct F as (F1 & _), F' as (F1' & _); cbn [Nat.sub] in F1; congruence). subst dom'. assert (Hj : j' <> 0) by (destruct F' as (_ & _ & _ & Hj & _); exact Hj).
        eapply iterated_ext'; [|apply (span_zero (blims 2) 2 (box_pull dom dirs f) (qdiv_space 2 n) ff (SF Hn')) with (psi := as_field 2 psi)].
        + intros t. apply (sum_as_field 2 (box_pull dom dirs f)).
        + intros q Hq. apply (box_face_value i dom j' dirs _ q f 0 A Hj). rewrite <- Em. apply HZ; [apply I2; assumption|rewrite Em; reflexivity].
        + apply (box_fields_as 2 (div_bound n) psi Hpsi). }
    specialize (Z k (fun l => v (nth l dirs 0%nat)) Hk). unfold box_pull in Z. fold dirs in Ek. rewrite Ek in Z. destruct (HP f Hf) as [m Hm]. rewrite <- Z. apply (degree_local 3 m (fun v => f (c, v)) _ _ (Hm c Hc)).
    intros a Ha. symmetry. apply (aligned_onto 3 2 dom dirs _ v A); [|exact Ha]. apply (facet_at 3 i v Hd ltac:(lia) Hv'). }
  split.
  2: { exists (quolynomial_set_vector 3 3 n ++ X), dofs. split; [exact E|]. split; [|exact Nf]. intros e f He Hf HZ s. rewrite (hex_line f e s He). apply Ne; [exact He|exact Hf|exact HZ|]. intros c Hc Hne. apply hex_line_at; assumption. }
  apply (moments_square 3 (qcurl_space 3 (S n)) _ dofs (curl_dim 3 (S n)) _ E (box_fields_subspace 3 (curl_bound (S n)) : subspace (qcurl_space 3 (S n))) HP WX); [|exact LX| | |].
  - intros m Hm. apply in_app_or in Hm. destruct Hm as [Hm|Hm]; [|apply in_app_or in Hm; destruct Hm as [Hm|Hm]].
    + apply in_flat_map in Hm. destruct Hm as (i & Hi & Hm). apply in_range in Hi. apply in_map_iff in Hm. destruct Hm as (q & <- & Hq). destruct (Hmk i Hi) as (dom & j & nn & F & U & Em). rewrite Em. destruct F as (_ & _ & _ & _ & (G1 & G2 & _)).
      exists 1%nat. destruct (box_bounded _ _ _ (HD q Hq)) as [K HK]. apply (directed_good_on (blims 1) 3 1 K); [lia|apply blims_good; lia|exact G1|exact G2|exact HK].
    + unfold some_moments in Hm. destruct (Nat.leb_spec 1 n) as [Hn|]; [|destruct Hm]. apply in_flat_map in Hm. destruct Hm as (i & Hi & Hm). apply in_range in Hi. apply in_map_iff in Hm. destruct Hm as (q & <- & Hq).
      destruct (Hfmk i Hn Hi) as (dom & j & (_ & _ & _ & _ & A) & ->). exists 2%nat. apply (box_face_good i dom j _ _ q A). apply (box_fields_poly 2 (div_bound n) n); [apply div_bound_le|]. apply (WF q Hn Hq).
    + unfold some_moments in Hm. destruct (Nat.leb_spec 1 n) as [Hn|]; [|destruct Hm]. apply in_map_iff in Hm. destruct Hm as (q & <- & Hq). exists 3%nat. apply box_interior_good; [exact Hd|].
      apply (box_fields_poly 3 (div_bound n) n); [apply div_bound_le|]. apply (WG q Hn Hq).
  - unfold dofs, some_moments. rewrite !app_length, (length_flat_map_const _ _ (length fs)) by (intros; apply map_length). rewrite length_range.
    assert (Q : forall a b c, a = (n + 1)%nat -> (1 <= n -> b = div_dim 2 n)%nat -> (1 <= n -> c = div_dim 3 n)%nat -> (edge_number 3 * a + ((if (1 <=? n)%nat then 6 * b else 0) + (if (1 <=? n)%nat then c else 0)) = curl_dim 3 (S n))%nat).
    { intros a b c -> Hb Hc. unfold div_dim, curl_dim in *. destruct (Nat.leb_spec 1 n) as [Hn|Hn]; [rewrite (Hb Hn), (Hc Hn)|assert (n = 0%nat) by lia; subst n]; cbn [Nat.sub Nat.pow edge_number]; nia. }
    rewrite <- (Q _ _ _ L LF LG). f_equal. destruct (1 <=? n)%nat; [|reflexivity]. rewrite (length_flat_map_const _ _ (length ff)) by (intros; apply map_length). rewrite length_range, map_length. reflexivity.
  - rewrite <- LX. apply vindep_comb, IX.
  - intros f Hf HZ [c v]. destruct (Nat.lt_ge_cases c 3) as [Hc|Hc]; [|apply (proj2 Hf), Hc]. revert c v Hc. apply (qcurl_zero3 (S n) (fun c v => f (c, v)) ltac:(lia)).
    + intros c Hc. apply (proj1 Hf c Hc).
    + intros c i v Hc Hi Hne [H0|H1].
      * apply (Nf (3 - 1 - i)%nat f ltac:(lia) Hf ltac:(intros m Hm _; apply HZ, Hm) ltac:(intros e m _ _ _ Hm _; apply HZ, Hm) c v Hc); unfold on_box_facet; rewrite (box_facet_low 3 i Hi); cbn [fst snd]; [congruence|exact H0].
      * apply (Nf (3 + i)%nat f ltac:(lia) Hf ltac:(intros m Hm _; apply HZ, Hm) ltac:(intros e m _ _ _ Hm _; apply HZ, Hm) c v Hc); unfold on_box_facet; rewrite (box_facet_high 3 i Hi); cbn [fst snd]; [congruence|exact H1].
    + intros psi Hn Hpsi. replace (S n - 1)%nat with n in Hpsi by lia. assert (Hn' : (1 <= n)%nat) by lia.
      eapply iterated_ext'; [|apply (span_zero (blims 3) 3 (fun c v => f (c, v)) (qdiv_space 3 n) gs (SG Hn')) with (psi := as_field 3 psi)].
      * intros v. apply (sum_as_field 3 (fun c v => f (c, v))).
      * intros q Hq. apply (box_interior_value 3 f q 0 Hd (HP f Hf)). apply HZ, I3; assumption.
      * apply (box_fields_as 3 (div_bound n) psi Hpsi).
Qed.

(** * All orders *)
Lemma quadrature_below variant n : quadrature_upto variant (S n) -> quadrature_upto variant n.
Proof. intros H k Hk. apply H. lia. Qed.
Lemma q_fields_all n variant : quadrature_upto variant (S n) -> forall d, (2 <= d <= 3)%nat ->
  (dual_moments (make_q_field true (S n) variant (default (box_of d))) (qdiv_space d (S n)) (div_dim d (S n)) /\
   q_normal_conforming (make_q_field true (S n) variant (default (box_of d))) d (qdiv_space d (S n))) /\
  dual_moments (make_q_field false (S n) variant (default (box_of d))) (qcurl_space d (S n)) (curl_dim d (S n)) /\
  (d = 2%nat -> q_tangential_conforming2 (make_q_field false (S n) variant (default CQuadrilateral)) (qcurl_space 2 (S n))) /\
  (d = 3%nat -> q_tangential_conforming3 (make_q_field false (S n) variant (default CHexahedron)) (qcurl_space 3 (S n))).
Proof.
  induction n as [|n IH]; intros Hv d Hd.
  - split; [apply qdiv_step; [exact Hd|exact Hv|intros; lia]|]. assert (C : d = 2%nat \/ d = 3%nat) by lia. destruct C as [->| ->].
    + destruct (qcurl_step2 0 variant Hv ltac:(intros; lia)) as [H1 H2]. split; [exact H1|]. split; [intros _; exact H2|intros; lia].
    + destruct (qcurl_step3 0 variant Hv ltac:(intros; lia) ltac:(intros; lia)) as [H1 H2]. split; [exact H1|]. split; [intros; lia|intros _; exact H2].
  - specialize (IH (quadrature_below _ _ Hv)). split; [apply qdiv_step; [exact Hd|exact Hv|intros _; apply (IH d Hd)]|].
    pose proof (proj1 (proj1 (IH 2%nat ltac:(lia)))) as D2. pose proof (proj1 (proj1 (IH 3%nat ltac:(lia)))) as D3. cbn [box_of] in D2, D3. assert (C : d = 2%nat \/ d = 3%nat) by lia. destruct C as [->| ->].
    + destruct (qcurl_step2 (S n) variant Hv (fun _ => D2)) as [H1 H2]. split; [exact H1|]. split; [intros _; exact H2|intros; lia].
    + destruct (qcurl_step3 (S n) variant Hv (fun _ => D2) (fun _ => D3)) as [H1 H2]. split; [exact H1|]. split; [intros; lia|intros _; exact H2].
Qed.
