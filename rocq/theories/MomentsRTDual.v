(** Raviart-Thomas elements: dual basis and conformity. *)
From Coquelicot Require Import Coquelicot.
From Coq Require Import String Arith Bool ZArith Reals Lia Lra List FunctionalExtensionality.
From Verif Require Import Base PolyLib PolySetsModel PolySetsProofs RTNedelecProofs PropertiesPolySets PolyVec QuadratureModel ReferencesModel ReferencesSpec ReferencesProofs ReferencesGeometry CiarletModel CiarletProofs
  LinAlg ElementModel LagrangeModel UnisolvenceProofs LagrangeProofs LagrangeKey LagrangeUnisolvence PropertiesLagrange PropertiesCiarlet
  LegendreJacobi LegendreIntSpec LegendreIntegrals KmvProofs MomentsInt MomentsParts MomentsRT
  PointsModel PointsSpec PointsProofs PointsElements MomentElementsModel MomentElementsSpec MomentElementsProofs MomentsFacets MomentsRaviart.
Import ListNotations.
Local Open Scope R_scope.

Lemma P_dim1 n : P_dim 1 n = (n + 1)%nat. Proof. reflexivity. Qed.
Lemma P_dim2 n : (2 * P_dim 2 n = (n + 1) * (n + 2))%nat.
Proof. pose proof (polynomial_set_1d_ok 2 n ltac:(lia)) as (ms & H & _). rewrite <- (P_dim_length _ _ _ H). destruct (polynomial_set_1d_length _ _ _ H) as [[? _]|[[_ E]|[? _]]]; lia. Qed.
Lemma P_dim3 n : (6 * P_dim 3 n = (n + 1) * (n + 2) * (n + 3))%nat.
Proof. pose proof (polynomial_set_1d_ok 3 n ltac:(lia)) as (ms & H & _). rewrite <- (P_dim_length _ _ _ H). destruct (polynomial_set_1d_length _ _ _ H) as [[? _]|[[? _]|[_ E]]]; lia. Qed.
Lemma length_flat_map_const {A B} (f : A -> list B) l k : (forall a, In a l -> length (f a) = k) -> length (flat_map f l) = (length l * k)%nat.
Proof. induction l as [|a l IH]; intros H; [reflexivity|]. cbn [flat_map length]. rewrite app_length, IH by (intros; apply H; right; assumption). rewrite (H a (or_introl eq_refl)). lia. Qed.
Lemma vector_length d r n U : (1 <= d <= 3)%nat -> polynomial_set_vector d r n = Ok U -> length U = (r * P_dim d n)%nat.
Proof.
  intros Hd H. unfold polynomial_set_vector in H. destruct (polynomial_set_1d_ok d n Hd) as (ms & Hq & _). rewrite Hq in H. cbn [rmap] in H. injection H as <-.
  rewrite <- (P_dim_length _ _ _ Hq). unfold vectorise. rewrite (Nat.mul_comm r). apply length_flat_map_const. intros m _. rewrite map_length. apply length_range.
Qed.
Lemma rt_dim_facets d n : (2 <= d <= 3)%nat -> rt_dim d (S n) = ((d + 1) * P_dim (d - 1) n + (if (S n <? 2)%nat then 0 else d * P_dim d (n - 1)))%nat.
Proof.
  intros H. assert (C : d = 2%nat \/ d = 3%nat) by lia. destruct C as [->| ->]; cbn [Nat.sub rt_dim].
  - rewrite P_dim1. pose proof (P_dim2 (n - 1)). destruct (Nat.ltb_spec (S n) 2); nia.
  - pose proof (P_dim2 n). pose proof (P_dim3 (n - 1)). symmetry. apply Nat.div_unique_exact; [lia|]. destruct (Nat.ltb_spec (S n) 2); [nia|].
    replace (n - 1 + 1)%nat with n in * by lia. replace (n - 1 + 2)%nat with (n + 1)%nat in * by lia. replace (n - 1 + 3)%nat with (n + 2)%nat in * by lia. nia.
Qed.
Lemma rt_dim_poly d n x : (2 <= d <= 3)%nat -> (d = 2%nat /\ x = S n) \/ (d = 3%nat /\ (2 * x = S n * (S n + 1))%nat) -> rt_dim d (S n) = (d * P_dim d n + x)%nat.
Proof.
  intros H [[-> ->]|[-> E]]; cbn [rt_dim].
  - pose proof (P_dim2 n). nia.
  - pose proof (P_dim3 n). symmetry. apply Nat.div_unique_exact; [lia|]. nia.
Qed.

Lemma slant_on d t : (2 <= d <= 3)%nat -> on_facet d 0 (slant d t).
Proof. intros H. assert (C : d = 2%nat \/ d = 3%nat) by lia. destruct C as [->| ->]; cbn; ring. Qed.
Lemma rt_space_fields d n f : rt_space d n f -> rt_fields d n (fun c v => f (c, v)).
Proof. intros (p & h & A & B & C & _). exists p, h. split; [exact A|]. split; [exact B|exact C]. Qed.

(** moments against a spanning list of vector fields *)
Lemma interior_zero d k (f : component_fn) fs : (2 <= d <= 3)%nat -> poly_field d f ->
  (forall g, fields d (P_space d k) g -> exists a, forall x, g x = sum (length fs) (fun i => a i * nth i fs (fun _ => 0) x)) ->
  (forall q, In q fs -> moment_value (interior d q) f 0) ->
  forall psi : nat -> sfun, (forall c, (c < d)%nat -> degree_space d k (psi c)) -> iterated_integral (slims d) (fun v => sum d (fun c => f (c, v) * psi c v)) (fun _ => 0) 0.
Proof.
  intros Hd (m & Hm) HS HZ psi Hpsi.
  destruct (HS (fun x => if (fst x <? d)%nat then psi (fst x) (snd x) else 0)) as [a Ha].
  { split; [|intros c v Hc; cbn [fst snd]; destruct (Nat.ltb_spec c d); [lia|reflexivity]]. intros c Hc. cbn [fst snd]. apply (poly_space_ext _ (psi c)); [|apply Hpsi, Hc].
    intros v. destruct (Nat.ltb_spec c d); [reflexivity|lia]. }
  apply (iterated_ext' _ (fun v => sum (length fs) (fun i => a i * sum d (fun c => f (c, v) * nth i fs (fun _ => 0) (c, v))))).
  { intros v. transitivity (sum d (fun c => f (c, v) * sum (length fs) (fun i => a i * nth i fs (fun _ => 0) (c, v)))).
    - rewrite (sum_ext d _ (fun c => sum (length fs) (fun i => a i * (f (c, v) * nth i fs (fun _ => 0) (c, v))))) by (intros c _; rewrite <- sum_scal; apply sum_ext; intros; ring).
      rewrite sum_swap. apply sum_ext. intros i _. rewrite <- sum_scal. reflexivity.
    - apply sum_ext. intros c Hc. f_equal. unfold component_fn in *. rewrite <- Ha. cbn [fst snd]. destruct (Nat.ltb_spec c d); [reflexivity|lia]. }
  apply (iterated_val _ _ _ (sum (length fs) (fun _ => 0))); [apply sum_zero; reflexivity|].
  apply (iterated_sum _ _ (length fs) (fun i v => a i * sum d (fun c => f (c, v) * nth i fs (fun _ => 0) (c, v))) (fun _ => 0)). intros i Hi.
  specialize (HZ (nth i fs (fun _ => 0)) (nth_In _ _ Hi)). unfold moment_value in HZ. cbn [mo_limits mo_domain mo_f mo_jacobian interior] in HZ.
  apply (iterated_val _ _ _ (a i * 0 + 0)); [ring|]. eapply iterated_ext'; [|apply (iterated_lin _ _ _ _ _ _ (a i) HZ (iterated_zero _ _))]. intros t. cbv beta.
  rewrite Rplus_0_r, Rmult_1_r. f_equal. assert (G : gdim (default (simplex_of d)) = d) by (assert (C : d = 2%nat \/ d = 3%nat) by lia; destruct C as [->| ->]; reflexivity). rewrite G.
  apply sum_ext. intros c Hc. f_equal. apply (degree_local d m (fun v => f (c, v)) _ _ (Hm c Hc)). intros j Hj. apply default_points; assumption.
Qed.

Lemma raviart_thomas d n : (2 <= d <= 3)%nat ->
  dual_moments (make_raviart_thomas (default (simplex_of d)) (S n) "equispaced") (rt_space d (S n)) (rt_dim d (S n)) /\
  normal_conforming (make_raviart_thomas (default (simplex_of d)) (S n) "equispaced") d (rt_space d (S n)).
Proof.
  intros Hd. assert (C : d = 2%nat \/ d = 3%nat) by lia.
  destruct (C05_raviart_thomas_enrichment d n Hd) as (X & U & HX & HU & _ & HX1 & _ & HI & LX).
  destruct (facet_moments d n Hd) as (fs & mk & B & L & HD & HS & HM & Hmk).
  assert (Sd : simplex (simplex_of d)) by (destruct C as [->| ->]; [right; left|right; right]; reflexivity).
  assert (Td : tdim (simplex_of d) = d) by (destruct C as [->| ->]; reflexivity).
  assert (Tr : tdim (r_type (default (simplex_of d))) = d) by (destruct C as [->| ->]; reflexivity).
  destruct (vector_span (simplex_of d) (n - 1) Sd) as (gs & VB & VL & VW & VS); [lia|]. rewrite Td in *.
  set (inner := if (S n <? 2)%nat then [] else map (interior d) gs).
  assert (E : make_raviart_thomas (default (simplex_of d)) (S n) "equispaced" = Ok (U ++ X, flat_map (fun i => map (mk i) fs) (range (d + 1)) ++ inner)).
  { unfold make_raviart_thomas. cbv zeta. rewrite Tr. replace (S n - 1)%nat with n by lia. rewrite HU. cbn [rbind]. rewrite HX. cbn [rbind]. rewrite HM. cbn [rbind].
    replace (S n - 2)%nat with (n - 1)%nat by lia. unfold unless_below, inner. destruct (S n <? 2)%nat; [reflexivity|]. rewrite (interior_moments d _ gs Hd VB). reflexivity. }
  set (dofs := flat_map (fun i => map (mk i) fs) (range (d + 1)) ++ inner) in *.
  assert (Hpoly : forall F, In F (U ++ X) -> rt_space d (S n) (field F)).
  { intros F HF. apply in_app_or in HF. destruct HF as [HF|HF].
    - apply fields_rt. replace (S n - 1)%nat with n by lia. apply (vector_in_space d n U F HU); [lia|exact HF].
    - destruct (HX1 F HF) as (m & Lm & Dm & LF & HFv). exists (fun _ _ => 0), (meval m). split; [intros; apply poly_space_zero|]. split; [apply poly_space_mono; split; [exact Lm|lia]|].
      split; [|intros c v Hc; apply field_beyond; rewrite LF; exact Hc]. intros c v Hc. rewrite <- field_vcomp, (HFv c v Hc). ring. }
  assert (Hdof : forall m, In m dofs -> (exists i q, (i < d + 1)%nat /\ In q fs /\ m = mk i q) \/ (exists g, (2 <= S n)%nat /\ In g gs /\ m = interior d g)).
  { intros m Hm. apply in_app_or in Hm. destruct Hm as [Hm|Hm].
    - left. apply in_flat_map in Hm. destruct Hm as (i & Hi & Hm). apply in_range in Hi. apply in_map_iff in Hm. destruct Hm as (q & <- & Hq). exists i, q. auto.
    - right. unfold inner in Hm. destruct (Nat.ltb_spec (S n) 2); [destruct Hm|]. apply in_map_iff in Hm. destruct Hm as (g & <- & Hg). exists g. auto. }
  assert (Hfacet : forall i f, (i < d + 1)%nat -> rt_space d (S n) f -> (forall q, In q fs -> moment_value (mk i q) f 0) -> forall v, on_facet d i v -> sum d (fun c => f (c, v) * facet_direction i c) = 0).
  { intros i f Hi Hf HZ. destruct (Hmk i Hi) as (dom & j & nn & FF & Em). rewrite Em in HZ.
    apply (on_facet_all d i dom j nn f Hd Hi (rt_poly_field _ _ _ Hf) FF). pose proof (rt_normal_degree d (S n) i f dom j nn Hd Hi Hf FF) as DG. replace (S n - 1)%nat with n in DG by lia.
    destruct FF as (_ & _ & _ & Hj & _ & (s & Hs & Hn) & G & _). apply (directed_zero d (d - 1) n dom j nn ((d - 1)%nat, i) (facet_direction i) s f fs); auto; lia. }
  split.
  - apply (moments_square d (rt_space d (S n)) (U ++ X) dofs _ _ E).
    + apply rt_subspace.
    + apply rt_poly_field.
    + exact Hpoly.
    + intros m Hm. destruct (Hdof m Hm) as [(i & q & Hi & Hq & ->)|(g & _ & Hg & ->)].
      * destruct (Hmk i Hi) as (dom & j & nn & (_ & _ & _ & _ & _ & _ & G & La & _) & ->). exists (d - 1)%nat. apply (directed_good d (d - 1) n); [lia|exact G|exact La|apply HD, Hq].
      * exists d. split; [lia|]. split; [apply slims_good; lia|]. split; [destruct C as [->| ->]; reflexivity|]. split; [destruct C as [->| ->]; reflexivity|]. exists (n - 1)%nat. intros c Hc. destruct (VW g Hg) as [A _]. apply A, Hc.
    + rewrite app_length, (vector_length d d n U ltac:(lia) HU). symmetry. apply rt_dim_poly; assumption.
    + unfold dofs. rewrite app_length, (length_flat_map_const _ _ (length fs)) by (intros; apply map_length). rewrite length_range, L, rt_dim_facets by exact Hd. f_equal.
      unfold inner. destruct (S n <? 2)%nat; [reflexivity|]. rewrite map_length. exact VL.
    + assert (LL : length (U ++ X) = rt_dim d (S n)) by (rewrite app_length, (vector_length d d n U ltac:(lia) HU); symmetry; apply rt_dim_poly; assumption).
      rewrite <- LL. apply vindep_comb, HI.
    + intros f Hf HZ [c v]. destruct (Nat.lt_ge_cases c d) as [Hc|Hc]; [|destruct Hf as (p & h & _ & _ & _ & Z); apply Z, Hc].
      assert (HZ1 : forall i, (i < d + 1)%nat -> forall q, In q fs -> moment_value (mk i q) f 0).
      { intros i Hi q Hq. apply HZ. apply in_or_app. left. apply in_flat_map. exists i. split; [apply in_range, Hi|apply in_map, Hq]. }
      apply (rt_zero d (S n) (fun c v => f (c, v)) Hd ltac:(lia) (rt_space_fields d (S n) f Hf)).
      * intros a w Ha Hw. pose proof (Hfacet (S a) f ltac:(lia) Hf (HZ1 (S a) ltac:(lia)) w Hw) as Z. rewrite (sum_single _ _ a Ha) in Z; [cbn [facet_direction] in Z; rewrite Nat.eqb_refl in Z; lra|].
        intros b _ Hb. cbn [facet_direction]. apply Nat.eqb_neq in Hb. rewrite Hb. ring.
      * intros t. pose proof (Hfacet 0%nat f ltac:(lia) Hf (HZ1 0%nat ltac:(lia)) (slant d t) (slant_on d t Hd)) as Z. rewrite <- Z. apply sum_ext. intros; cbn [facet_direction]; ring.
      * intros psi Hn Hpsi. replace (S n - 2)%nat with (n - 1)%nat in Hpsi by lia. apply (interior_zero d (n - 1) f gs Hd (rt_poly_field _ _ _ Hf) VS); [|exact Hpsi].
        intros q Hq. apply HZ. apply in_or_app. right. unfold inner. destruct (Nat.ltb_spec (S n) 2); [lia|]. apply in_map, Hq.
      * exact Hc.
  - exists (U ++ X), dofs. split; [exact E|]. intros i f Hi Hf HZ. apply (Hfacet i f Hi Hf). intros q Hq. apply HZ.
    + apply in_or_app. left. apply in_flat_map. exists i. split; [apply in_range, Hi|apply in_map, Hq].
    + destruct (Hmk i Hi) as (dom & j & nn & _ & ->). reflexivity.
Qed.
