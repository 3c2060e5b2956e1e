(** The H(curl) serendipity elements on the square and the H(div) serendipity elements on the square and the cube. *)
From Coquelicot Require Import Coquelicot.
From Coq Require Import String Arith Bool ZArith Reals Lia Lra List FunctionalExtensionality.
From Verif Require Import Base PolyLib PolySetsModel PolySetsProofs PolyVec QuadratureModel ReferencesModel ReferencesSpec ReferencesProofs ReferencesGeometry CiarletModel CiarletProofs
  LinAlg ElementModel LagrangeModel UnisolvenceProofs LagrangeProofs LagrangeKey LagrangeUnisolvence
  LegendreIntSpec LegendreIntegrals KmvProofs MomentsInt MomentsParts MomentsRT MomentsBox
  PointsModel PointsSpec PointsProofs PointsElements MomentElementsModel MomentElementsSpec MomentElementsProofs MomentsFacets MomentsRaviart MomentsRTDual MomentsNedelec MomentsTet MomentsCurl3 QFieldSpec QFieldGeometry QFieldProofs QFieldDual
  SerendipityModel SerendipitySpec SerendipityKernel SerendipityProofs SerendipityFieldModel SerendipityFieldSpec SerendipityFieldKernel SerendipityFieldSpaces.
Import PolyVec ListNotations.
Local Open Scope R_scope.

(** * Traces *)
Lemma aligned_fixed d e dom dirs o t c : aligned d e dom dirs o -> (c < d)%nat -> ~ In c dirs -> length dirs = e -> point_of dom t c = o c.
Proof.
  intros A Hc N L. rewrite (aligned_point d e dom dirs o t c A Hc). rewrite sum_zero; [ring|]. intros k Hk. unfold ind. destruct (Nat.eqb_spec c (nth k dirs 0%nat)) as [E|]; [|ring]. exfalso. apply N. rewrite E. apply nth_In. lia.
Qed.
Lemma aligned_length d e dom dirs o : aligned d e dom dirs o -> length dirs = e.
Proof. intros (_ & _ & I & _). destruct (axes_shape d e dirs I) as [[-> ->]|[[-> ->]|[-> ->]]]; cbn [axes_of In] in I; repeat (destruct I as [<-|I]; [reflexivity|]); destruct I. Qed.
Lemma split_trace d n ax f e dom dirs o x : aligned d e dom dirs o -> split_field d n ax f -> (x < d)%nat -> (ax x < d)%nat -> ~ In (ax x) dirs -> degree_space e n (fun t => f (x, point_of dom t)).
Proof.
  intros A (p & G & Hp & HG & E & _) Hx Hax N. pose proof (aligned_length d e dom dirs o A) as L. destruct A as (Gd & La & A'). assert (A := conj Gd (conj La A') : aligned d e dom dirs o).
  apply (poly_space_ext _ (fun t => p x (point_of dom t) + o (ax x) * G x (point_of dom t))).
  - intros t. rewrite E by exact Hx. rewrite (aligned_fixed d e dom dirs o t (ax x) A Hax N L). reflexivity.
  - apply (poly_space_add _ (fun t => p x (point_of dom t)) (fun t => o (ax x) * G x (point_of dom t))); [apply (pulled_back dom d e n (p x) La), Hp, Hx|]. apply (poly_space_scale _ (o (ax x)) (fun t => G x (point_of dom t))). apply (pulled_back dom d e n (G x) La), H_degree, HG, Hx.
Qed.
Lemma trace_zero d e i dom j dirs o x k n ent f fs : (2 <= d <= 3)%nat -> entity_facts d e i dom j dirs o -> (x < d)%nat -> unit_direction d x n -> poly_field d f ->
  degree_space e k (fun t => f (x, point_of dom t)) ->
  (forall g, P_space e k g -> exists a, forall v, g v = sum (length fs) (fun i => a i * nth i fs (fun _ => 0) v)) ->
  (forall q, In q fs -> moment_value (directed dom (blims e) j n ent q) f 0) ->
  forall v, (forall c, (c < d)%nat -> ~ In c dirs -> v c = o c) -> f (x, v) = 0.
Proof.
  intros Hd (_ & _ & _ & Hj & A) Hx (s & Hs & Hn) [m Hm] HB HS HZ v Hv. assert (A' := A). destruct A' as (G & La & I & _).
  assert (He : (1 <= e <= 3)%nat) by (destruct (axes_shape d e dirs I) as [[-> ->]|[[-> ->]|[-> ->]]]; lia).
  assert (E : forall t, sum d (fun c => f (c, point_of dom t) * ind x c) = f (x, point_of dom t)) by (intros t; apply (ind_sum d x (fun c => f (c, point_of dom t)) Hx)).
  assert (B : degree_space e k (fun t => sum d (fun c => f (c, point_of dom t) * ind x c))) by (apply (poly_space_ext _ (fun t => f (x, point_of dom t))); [intros; symmetry; apply E|exact HB]).
  pose proof (directed_zero_on (degree_space e k) (blims e) d e k dom j n ent (ind x) s f fs He (blims_domain e He) G Hj Hs Hn B B HS HZ (fun l => v (nth l dirs 0%nat))) as Z. rewrite E in Z. rewrite <- Z.
  apply (degree_local d m (fun v => f (x, v)) _ _ (Hm x Hx)). intros c Hc. symmetry. apply (aligned_onto d e dom dirs o v A Hv c Hc).
Qed.

(** * The functions of the moments *)
Lemma dpc_function_span e n variant : (1 <= e <= 3)%nat -> quadrature_upto variant (n + 1) -> exists fs, dpc_functions n variant (default (box_of e)) = Ok fs /\ length fs = P_dim e n /\
  (forall f, In f fs -> P_space e n f) /\ (forall g, P_space e n g -> exists a, forall t, g t = sum (length fs) (fun i => a i * nth i fs (fun _ => 0) t)).
Proof.
  intros He Hq. destruct (dpc_span e n variant He Hq) as (fs & B & L & HP & HS). set (at0 := fun (f : component_fn) (v : point) => f (0%nat, v)). exists (map at0 fs). split; [unfold dpc_functions; rewrite B; reflexivity|]. split; [rewrite map_length; exact L|]. split.
  - intros f Hf. apply in_map_iff in Hf. destruct Hf as (g & <- & Hg). apply HP, Hg.
  - intros g Hg. destruct (HS g Hg) as (a & Ha). exists a. intros t. rewrite Ha, map_length. apply sum_ext. intros i Hi. f_equal. change (fun _ : point => 0) with (at0 (fun _ => 0)). rewrite map_nth. reflexivity.
Qed.
Lemma vector_dpc_span d n variant : (2 <= d <= 3)%nat -> exists gs, vector_dpc_basis n variant (default (box_of d)) = Ok gs /\ length gs = (d * P_dim d n)%nat /\
  (forall g, In g gs -> fields d (P_space d n) g) /\ (forall g, fields d (P_space d n) g -> exists a, forall x, g x = sum (length gs) (fun i => a i * nth i gs (fun _ => 0) x)).
Proof.
  intros Hd. assert (D : dual_element (make_vector_dpc (default (box_of d)) n variant) (fields d (P_space d n)) (d * P_dim d n)).
  { assert (C : (d = 2 \/ d = 3)%nat) by lia. destruct C as [->| ->]; [exact (vector_dpc_dual CQuadrilateral n variant (or_introl eq_refl))|exact (vector_dpc_dual CHexahedron n variant (or_intror eq_refl))]. }
  destruct D as (poly & dofs & phi & E & B & _ & L & _ & HW & HS). exists phi. split; [unfold vector_dpc_basis; rewrite E; exact B|]. split; [exact L|]. split; [exact HW|]. intros g Hg. eexists. intros x. rewrite L. exact (HS g Hg x).
Qed.
Lemma s_facet_moments d k variant : (2 <= d <= 3)%nat -> quadrature_upto variant (k + 1) -> exists fs mk, length fs = P_dim (d - 1) k /\
  (forall f, In f fs -> P_space (d - 1) k f) /\ (forall g, P_space (d - 1) k g -> exists a, forall v, g v = sum (length fs) (fun i => a i * nth i fs (fun _ => 0) v)) /\
  moments_on (default (box_of d)) (d - 1) (dpc_functions k variant) normal_moment = Ok (flat_map (fun i => map (mk i) fs) (range (2 * d))) /\
  (forall i, (i < 2 * d)%nat -> exists dom j n, entity_facts d (d - 1) i dom j (facet_dirs d (fst (box_facet d i))) (facet_origin d i) /\ unit_direction d (fst (box_facet d i)) n /\ mk i = directed dom (blims (d - 1)) j n ((d - 1)%nat, i)).
Proof.
  intros Hd Hv. destruct (dpc_function_span (d - 1) k variant ltac:(lia) Hv) as (fs & B & L & HD & HS).
  destruct (finite_choice (fun q => directed (default CPoint) [] 0 [] (0, 0)%nat q) (2 * d) (fun i m => exists dom j n, entity_facts d (d - 1) i dom j (facet_dirs d (fst (box_facet d i))) (facet_origin d i) /\ normal dom = Ok n /\ unit_direction d (fst (box_facet d i)) n /\
    m = directed dom (blims (d - 1)) j n ((d - 1)%nat, i))) as [mk Hmk].
  { intros i Hi. destruct (q_facets_exist d i Hd Hi) as (dom & j & n & F & N & U). exists (directed dom (blims (d - 1)) j n ((d - 1)%nat, i)), dom, j, n. auto. }
  exists fs, mk. split; [exact L|]. split; [exact HD|]. split; [exact HS|]. split; [|intros i Hi; destruct (Hmk i Hi) as (dom & j & n & F & _ & U & E); exists dom, j, n; auto].
  assert (G : exists vs, length vs = (2 * d)%nat /\ sub_entities (default (box_of d)) (d - 1) = Ok vs) by (assert (C : d = 2%nat \/ d = 3%nat) by lia; destruct C as [->| ->]; eexists; (split; [|reflexivity]); reflexivity).
  destruct G as (vs & Lv & Ev). rewrite <- Lv in Hmk |- *.
  apply (moments_on_ok (default (box_of d)) (d - 1) (dpc_functions k variant) normal_moment (box_of (d - 1)) vs).
  - assert (C : d = 2%nat \/ d = 3%nat) by lia; destruct C as [->| ->]; reflexivity.
  - exact Ev.
  - exact B.
  - intros i Hi. destruct (Hmk i Hi) as (dom & j & n & (F1 & F2 & _) & _). exists dom. split; assumption.
  - intros i f Hi _. destruct (Hmk i Hi) as (dom & j & n & (F1 & F2 & F3 & _) & N & _ & ->). unfold normal_moment. cbn [fst snd]. rewrite F1. cbn [rbind]. rewrite N. cbn [rbind].
    unfold make_moment. rewrite F2, (box_limits (d - 1)) by lia. cbn [rbind]. rewrite F3. reflexivity.
Qed.
Lemma s_edge_moments d k variant : (2 <= d <= 3)%nat -> quadrature_upto variant (k + 1) -> exists fs mk, length fs = P_dim 1 k /\
  (forall f, In f fs -> P_space 1 k f) /\ (forall g, P_space 1 k g -> exists a, forall v, g v = sum (length fs) (fun i => a i * nth i fs (fun _ => 0) v)) /\
  moments_on (default (box_of d)) 1 (dpc_functions k variant) tangent_moment = Ok (flat_map (fun i => map (mk i) fs) (range (edge_number d))) /\
  (forall i, (i < edge_number d)%nat -> exists dom j t, entity_facts d 1 i dom j [edge_axis d i] (edge_origin d i) /\ unit_direction d (edge_axis d i) t /\ mk i = directed dom (blims 1) j t (1%nat, i)).
Proof.
  intros Hd Hv. destruct (dpc_function_span 1 k variant ltac:(lia) Hv) as (fs & B & L & HD & HS).
  destruct (finite_choice (fun q => directed (default CPoint) [] 0 [] (0, 0)%nat q) (edge_number d) (fun i m => exists dom j t, entity_facts d 1 i dom j [edge_axis d i] (edge_origin d i) /\ tangent dom = Ok t /\ unit_direction d (edge_axis d i) t /\
    m = directed dom (blims 1) j t (1%nat, i))) as [mk Hmk].
  { intros i Hi. destruct (q_tangents_exist d i Hd Hi) as (dom & j & t & F & N & U). exists (directed dom (blims 1) j t (1%nat, i)), dom, j, t. auto. }
  exists fs, mk. split; [exact L|]. split; [exact HD|]. split; [exact HS|]. split; [|intros i Hi; destruct (Hmk i Hi) as (dom & j & t & F & _ & U & E); exists dom, j, t; auto].
  assert (G : exists vs, length vs = edge_number d /\ sub_entities (default (box_of d)) 1 = Ok vs) by (assert (C : d = 2%nat \/ d = 3%nat) by lia; destruct C as [->| ->]; eexists; (split; [|reflexivity]); reflexivity).
  destruct G as (vs & Lv & Ev). rewrite <- Lv in Hmk |- *.
  apply (moments_on_ok (default (box_of d)) 1 (dpc_functions k variant) tangent_moment CInterval vs).
  - assert (C : d = 2%nat \/ d = 3%nat) by lia; destruct C as [->| ->]; reflexivity.
  - exact Ev.
  - exact B.
  - intros i Hi. destruct (Hmk i Hi) as (dom & j & n & (F1 & F2 & _) & _). exists dom. split; assumption.
  - intros i f Hi _. destruct (Hmk i Hi) as (dom & j & n & (F1 & F2 & F3 & _) & N & _ & ->). unfold tangent_moment. cbn [fst snd]. rewrite F1. cbn [rbind]. rewrite N. cbn [rbind].
    unfold make_moment. rewrite F2, (box_limits 1) by lia. cbn [rbind]. rewrite F3. reflexivity.
Qed.
Lemma fields_poly d n f : fields d (P_space d n) f -> poly_field d f.
Proof. intros [H _]. exists n. exact H. Qed.
Lemma fields_as d n g : (forall c, (c < d)%nat -> P_space d n (g c)) -> fields d (P_space d n) (as_field d g).
Proof.
  intros H. split; [|intros c v Hc; unfold as_field; cbn [fst snd]; destruct (Nat.ltb_spec c d); [lia|reflexivity]]. intros c Hc. apply (poly_space_ext _ (g c)); [|apply H, Hc].
  intros v. unfold as_field. cbn [fst snd]. destruct (Nat.ltb_spec c d); [reflexivity|lia].
Qed.
Lemma interior_zero d n f gs : (2 <= d <= 3)%nat -> poly_field d f ->
  (forall g, fields d (P_space d n) g -> exists a, forall x, g x = sum (length gs) (fun i => a i * nth i gs (fun _ => 0) x)) ->
  (forall q, In q gs -> moment_value (box_interior d q) f 0) ->
  forall psi : nat -> sfun, (forall c, (c < d)%nat -> P_space d n (psi c)) -> iterated_integral (blims d) (fun v => sum d (fun c => f (c, v) * psi c v)) (fun _ => 0) 0.
Proof.
  intros Hd Pf SG HZ psi Hpsi. eapply iterated_ext'; [|apply (span_zero (blims d) d (fun c v => f (c, v)) (fields d (P_space d n)) gs SG) with (psi := as_field d psi)].
  - intros v. apply (sum_as_field d (fun c v => f (c, v))).
  - intros q Hq. apply (box_interior_value d f q 0 Hd Pf). apply HZ, Hq.
  - apply fields_as, Hpsi.
Qed.

(** * H(div) *)
Lemma sdiv_step d n variant W ms X : (2 <= d <= 3)%nat -> (1 <= n)%nat -> quadrature_upto variant (n + 1) -> good_space d n (fun c => c) W -> polynomial_set_1d d n = Ok ms -> Hdiv_serendipity d d n = Ok X ->
  (forall F, In F (vectorise d ms ++ X) -> W (field F)) -> length (vectorise d ms ++ X) = sdiv_dim d n ->
  (forall c, (forall x, combination c (map field (vectorise d ms ++ X)) x = 0) -> forall i, (i < length (vectorise d ms ++ X))%nat -> c i = 0) ->
  dual_moments (make_serendipity_div (default (box_of d)) n variant) W (sdiv_dim d n) /\ q_normal_conforming (make_serendipity_div (default (box_of d)) n variant) d W.
Proof.
  intros Hd Hn Hv [SW GW] HM HX WX LX IX.
  destruct (s_facet_moments d n variant Hd Hv) as (fs & mk & L & HD & HS & HMo & Hmk). destruct (vector_dpc_span d (n - 2) variant Hd) as (gs & BG & LG & WG & SG).
  set (dofs := flat_map (fun i => map (mk i) fs) (range (2 * d)) ++ some_moments (2 <=? n)%nat (map (box_interior d) gs)).
  assert (E : make_serendipity_div (default (box_of d)) n variant = Ok (vectorise d ms ++ X, dofs)).
  { unfold make_serendipity_div. rewrite (box_only d) by exact Hd. rewrite (box_tdim d Hd). cbv iota zeta. unfold polynomial_set_vector. rewrite HM. cbn [rmap rbind]. rewrite HX. cbn [rbind]. rewrite HMo. cbn [rbind]. unfold unless_below, dofs, some_moments.
    destruct (Nat.ltb_spec n 2), (Nat.leb_spec 2 n); try lia; [reflexivity|]. rewrite (box_interior_moments d _ gs Hd BG). reflexivity. }
  assert (I1 : forall i q, (i < 2 * d)%nat -> In q fs -> In (mk i q) dofs) by (intros i q Hi Hq; apply in_or_app; left; apply in_flat_map; exists i; split; [apply in_range, Hi|apply in_map, Hq]).
  assert (I2 : forall q, (2 <= n)%nat -> In q gs -> In (box_interior d q) dofs) by (intros q H2 Hq; apply in_or_app; right; unfold some_moments; rewrite (proj2 (Nat.leb_le 2 n) H2); apply in_map, Hq).
  assert (HP : forall f, W f -> poly_field d f) by (intros f Wf; apply (split_poly d n (fun c => c)); [auto|apply GW, Wf]).
  assert (N : forall i f, (i < 2 * d)%nat -> W f -> (forall m, In m dofs -> mo_entity m = ((d - 1)%nat, i) -> moment_value m f 0) -> forall v, on_box_facet d i v -> f (fst (box_facet d i), v) = 0).
  { intros i f Hi Hf HZ v Hv'. destruct (Hmk i Hi) as (dom & j & nn & F & U & Em). pose proof (box_facet_lt d i Hd Hi) as Hx.
    apply (trace_zero d (d - 1) i dom j (facet_dirs d (fst (box_facet d i))) (facet_origin d i) (fst (box_facet d i)) n nn ((d - 1)%nat, i) f fs Hd F Hx U (HP f Hf)); [|exact HS| |apply facet_at; assumption].
    - destruct F as (_ & _ & _ & _ & A). apply (split_trace d n (fun c => c) f (d - 1) dom _ _ _ A (proj1 (GW f Hf)) Hx Hx). intros H. apply In_nth with (d := 0%nat) in H. destruct H as (l & Hl & El). rewrite (aligned_length _ _ _ _ _ A) in Hl.
      destruct (facet_dirs_in d _ l Hd Hx Hl) as [Ne _]. apply Ne, El.
    - intros q Hq. rewrite <- Em. apply HZ; [apply I1; assumption|rewrite Em; reflexivity]. }
  split; [|exists (vectorise d ms ++ X), dofs; split; [exact E|exact N]].
  apply (moments_square d W _ dofs (sdiv_dim d n) _ E SW HP WX); [|exact LX| | |].
  - intros m Hm. apply in_app_or in Hm. destruct Hm as [Hm|Hm].
    + apply in_flat_map in Hm. destruct Hm as (i & Hi & Hm). apply in_range in Hi. apply in_map_iff in Hm. destruct Hm as (q & <- & Hq). destruct (Hmk i Hi) as (dom & j & nn & F & U & Em). rewrite Em. destruct F as (_ & _ & _ & _ & (G1 & G2 & _)).
      exists (d - 1)%nat. apply (directed_good_on (blims (d - 1)) d (d - 1) n); [lia|apply blims_good; lia|exact G1|exact G2|apply HD, Hq].
    + unfold some_moments in Hm. destruct (Nat.leb_spec 2 n) as [H2|]; [|destruct Hm]. apply in_map_iff in Hm. destruct Hm as (q & <- & Hq). exists d. apply box_interior_good; [exact Hd|]. apply (fields_poly d (n - 2)), WG, Hq.
  - unfold dofs, some_moments. rewrite app_length, (length_flat_map_const _ _ (length fs)) by (intros; apply map_length). rewrite length_range, L. unfold sdiv_dim. f_equal. destruct (2 <=? n)%nat; [rewrite map_length; exact LG|reflexivity].
  - rewrite <- LX. exact IX.
  - intros f Hf HZ [c v]. destruct (Nat.lt_ge_cases c d) as [Hc|Hc]; [|apply (proj2 (GW f Hf)), Hc]. apply (split_low d n (fun c => c) f ltac:(lia)); [auto|apply GW, Hf| | |exact Hc].
    + intros k w Hk [H0|H1].
      * pose proof (N (d - 1 - k)%nat f ltac:(lia) Hf ltac:(intros m Hm _; apply HZ, Hm) w) as Q. unfold on_box_facet in Q. rewrite (box_facet_low d k Hk) in Q. apply Q, H0.
      * pose proof (N (d + k)%nat f ltac:(lia) Hf ltac:(intros m Hm _; apply HZ, Hm) w) as Q. unfold on_box_facet in Q. rewrite (box_facet_high d k Hk) in Q. apply Q, H1.
    + intros psi H2 Hpsi. apply (interior_zero d (n - 2) f gs Hd (HP f Hf) SG); [|exact Hpsi]. intros q Hq. apply HZ, I2; assumption.
Qed.
Lemma sdiv_all d n variant : (2 <= d <= 3)%nat -> (1 <= n)%nat -> quadrature_upto variant (n + 1) ->
  dual_moments (make_serendipity_div (default (box_of d)) n variant) (sdiv_space d n) (sdiv_dim d n) /\ q_normal_conforming (make_serendipity_div (default (box_of d)) n variant) d (sdiv_space d n).
Proof.
  intros Hd Hn Hv. destruct (polynomial_set_1d_ok d n ltac:(lia)) as (ms & HM & _). pose proof (P_dim_length _ _ _ HM) as LM.
  assert (C : (d = 2 \/ d = 3)%nat) by lia. destruct C as [->| ->].
  - destruct (sdiv2_poly n ms _ Hn HM eq_refl) as (LX & WX & IX). apply (sdiv_step 2 n variant (sdiv_space2 n) ms _ Hd Hn Hv (sdiv2_good n Hn) HM eq_refl WX); [|exact IX].
    rewrite app_length, LX, length_vectorise, LM. unfold sdiv_dim. destruct (Nat.leb_spec 2 n) as [H2|H2]; [|assert (n = 1%nat) by lia; subst n; reflexivity]. cbn [Nat.sub Nat.mul Nat.add]. pose proof (P_dim2 n) as D. pose proof (P_dim2 (n - 2)) as D'. cbn [P_dim] in *. nia.
  - destruct (Hdiv_serendipity 3 3 n) as [X|] eqn:HX; [|discriminate HX]. destruct (sdiv3_poly n ms X Hn HM HX) as (LX & WX & IX). apply (sdiv_step 3 n variant (sdiv_space3 n) ms X Hd Hn Hv (sdiv3_good n Hn) HM HX WX); [|exact IX].
    rewrite app_length, LX, length_vectorise, LM. unfold sdiv_dim. destruct (Nat.leb_spec 2 n) as [H2|H2]; [|assert (n = 1%nat) by lia; subst n; reflexivity]. cbn [Nat.sub]. pose proof (P_dim2 n) as D. pose proof (P_dim3 n) as D3. pose proof (P_dim3 (n - 2)) as D3'.
    destruct n as [|[|n]]; lia.
Qed.

(** * H(curl) on the square *)
Lemma scurl2_step n variant W ms X : (1 <= n)%nat -> quadrature_upto variant (n + 1) -> good_space 2 n (fun c => (1 - c)%nat) W -> polynomial_set_1d 2 n = Ok ms -> Hcurl_serendipity 2 2 n = Ok X ->
  (forall F, In F (vectorise 2 ms ++ X) -> W (field F)) -> length (vectorise 2 ms ++ X) = sdiv_dim 2 n ->
  (forall c, (forall x, combination c (map field (vectorise 2 ms ++ X)) x = 0) -> forall i, (i < length (vectorise 2 ms ++ X))%nat -> c i = 0) ->
  dual_moments (make_serendipity_curl (default CQuadrilateral) n variant) W (sdiv_dim 2 n) /\ q_tangential_conforming2 (make_serendipity_curl (default CQuadrilateral) n variant) W.
Proof.
  assert (Hd : (2 <= 2 <= 3)%nat) by lia. intros Hn Hv [SW GW] HM HX WX LX IX.
  destruct (s_edge_moments 2 n variant Hd Hv) as (fs & mk & L & HD & HS & HMo & Hmk). destruct (vector_dpc_span 2 (n - 2) variant Hd) as (gs & BG & LG & WG & SG).
  set (dofs := flat_map (fun i => map (mk i) fs) (range (edge_number 2)) ++ some_moments (2 <=? n)%nat (map (box_interior 2) gs)).
  assert (E : make_serendipity_curl (default CQuadrilateral) n variant = Ok (vectorise 2 ms ++ X, dofs)).
  { unfold make_serendipity_curl. rewrite (box_only 2 : forall k, _ -> PointsModel.only_default (default CQuadrilateral) k = k) by exact Hd. rewrite (box_tdim 2 Hd : tdim (r_type (default CQuadrilateral)) = _). cbv iota zeta. unfold polynomial_set_vector. rewrite HM. cbn [rmap rbind]. rewrite HX. cbn [rbind].
    rewrite (HMo : moments_on (default CQuadrilateral) 1 _ _ = _). cbn [rbind].
    assert (V : unless_below n 4 (moments_on (default CQuadrilateral) 3 (vector_dpc_basis (n - 4) variant) integral_moment) = Ok []) by (unfold unless_below; destruct (n <? 4)%nat; reflexivity).
    assert (Q : unless_below n 2 (moments_on (default CQuadrilateral) 2 (vector_dpc_basis (n - 2) variant) integral_moment) = Ok (some_moments (2 <=? n)%nat (map (box_interior 2) gs))).
    { unfold unless_below, some_moments. destruct (Nat.ltb_spec n 2), (Nat.leb_spec 2 n); try lia; [reflexivity|]. exact (box_interior_moments 2 _ gs Hd BG). }
    rewrite Q. cbn [rbind]. rewrite V. cbn [rbind]. rewrite app_nil_r. reflexivity. }
  assert (I1 : forall i q, (i < edge_number 2)%nat -> In q fs -> In (mk i q) dofs) by (intros i q Hi Hq; apply in_or_app; left; apply in_flat_map; exists i; split; [apply in_range, Hi|apply in_map, Hq]).
  assert (I2 : forall q, (2 <= n)%nat -> In q gs -> In (box_interior 2 q) dofs) by (intros q H2 Hq; apply in_or_app; right; unfold some_moments; rewrite (proj2 (Nat.leb_le 2 n) H2); apply in_map, Hq).
  assert (HP : forall f, W f -> poly_field 2 f) by (intros f Wf; apply (split_poly 2 n (fun c => (1 - c)%nat)); [intros; lia|apply GW, Wf]).
  assert (N : forall i f, (i < 4)%nat -> W f -> (forall m, In m dofs -> mo_entity m = (1%nat, i) -> moment_value m f 0) -> forall v, on_box_facet 2 i v -> f ((1 - fst (box_facet 2 i))%nat, v) = 0).
  { intros i f Hi Hf HZ v Hv'. pose proof (box_facet_lt 2 i Hd ltac:(lia)) as Hx. destruct (Hmk i Hi) as (dom & j & nn & F & U & Em). cbn [edge_axis edge_origin] in F, U. set (x := (1 - fst (box_facet 2 i))%nat) in *. assert (Hx' : (x < 2)%nat) by (unfold x; lia).
    apply (trace_zero 2 1 i dom j [x] (facet_origin 2 i) x n nn (1%nat, i) f fs Hd F Hx' U (HP f Hf)); [|exact HS| |].
    - destruct F as (_ & _ & _ & _ & A). apply (split_trace 2 n (fun c => (1 - c)%nat) f 1 dom _ _ _ A (proj1 (GW f Hf)) Hx'); [cbv beta; lia|]. intros [H|[]]. cbv beta in H. clearbody x. lia.
    - intros q Hq. rewrite <- Em. apply HZ; [apply I1; assumption|rewrite Em; reflexivity].
    - intros c Hc Hne. unfold facet_origin. assert (Ec : c = fst (box_facet 2 i)) by (destruct (Nat.eq_dec c x) as [->|]; [exfalso; apply Hne; left; reflexivity|unfold x in *; lia]). rewrite Ec, Nat.eqb_refl. exact Hv'. }
  split; [|exists (vectorise 2 ms ++ X), dofs; split; [exact E|exact N]].
  apply (moments_square 2 W _ dofs (sdiv_dim 2 n) _ E SW HP WX); [|exact LX| | |].
  - intros m Hm. apply in_app_or in Hm. destruct Hm as [Hm|Hm].
    + apply in_flat_map in Hm. destruct Hm as (i & Hi & Hm). apply in_range in Hi. apply in_map_iff in Hm. destruct Hm as (q & <- & Hq). destruct (Hmk i Hi) as (dom & j & nn & F & U & Em). rewrite Em. destruct F as (_ & _ & _ & _ & (G1 & G2 & _)).
      exists 1%nat. apply (directed_good_on (blims 1) 2 1 n); [lia|apply blims_good; lia|exact G1|exact G2|apply HD, Hq].
    + unfold some_moments in Hm. destruct (Nat.leb_spec 2 n) as [H2|]; [|destruct Hm]. apply in_map_iff in Hm. destruct Hm as (q & <- & Hq). exists 2%nat. apply box_interior_good; [exact Hd|]. apply (fields_poly 2 (n - 2)), WG, Hq.
  - unfold dofs, some_moments. rewrite app_length, (length_flat_map_const _ _ (length fs)) by (intros; apply map_length). rewrite length_range, L. unfold sdiv_dim. f_equal. destruct (2 <=? n)%nat; [rewrite map_length; exact LG|reflexivity].
  - rewrite <- LX. exact IX.
  - intros f Hf HZ [c v]. destruct (Nat.lt_ge_cases c 2) as [Hc|Hc]; [|apply (proj2 (GW f Hf)), Hc]. apply (split_low 2 n (fun c => (1 - c)%nat) f ltac:(lia)); [intros; lia|apply GW, Hf| | |exact Hc].
    + intros k w Hk [H0|H1].
      * pose proof (N (2 - 1 - (1 - k))%nat f ltac:(lia) Hf ltac:(intros m Hm _; apply HZ, Hm) w) as Q. unfold on_box_facet in Q. rewrite (box_facet_low 2 (1 - k)) in Q by lia. cbn [fst snd] in Q. replace (1 - (1 - k))%nat with k in Q by lia. apply Q, H0.
      * pose proof (N (2 + (1 - k))%nat f ltac:(lia) Hf ltac:(intros m Hm _; apply HZ, Hm) w) as Q. unfold on_box_facet in Q. rewrite (box_facet_high 2 (1 - k)) in Q by lia. cbn [fst snd] in Q. replace (1 - (1 - k))%nat with k in Q by lia. apply Q, H1.
    + intros psi H2 Hpsi. apply (interior_zero 2 (n - 2) f gs Hd (HP f Hf) SG); [|exact Hpsi]. intros q Hq. apply HZ, I2; assumption.
Qed.
Lemma scurl2_all n variant : (1 <= n)%nat -> quadrature_upto variant (n + 1) ->
  dual_moments (make_serendipity_curl (default CQuadrilateral) n variant) (scurl_space2 n) (sdiv_dim 2 n) /\ q_tangential_conforming2 (make_serendipity_curl (default CQuadrilateral) n variant) (scurl_space2 n).
Proof.
  intros Hn Hv. destruct (polynomial_set_1d_ok 2 n ltac:(lia)) as (ms & HM & _). pose proof (P_dim_length _ _ _ HM) as LM.
  destruct (scurl2_poly n ms _ Hn HM eq_refl) as (LX & WX & IX). apply (scurl2_step n variant (scurl_space2 n) ms _ Hn Hv (scurl2_good n Hn) HM eq_refl WX); [|exact IX].
  rewrite app_length, LX, length_vectorise, LM. unfold sdiv_dim. destruct (Nat.leb_spec 2 n) as [H2|H2]; [|assert (n = 1%nat) by lia; subst n; reflexivity]. cbn [Nat.sub Nat.mul Nat.add]. pose proof (P_dim2 n) as D. pose proof (P_dim2 (n - 2)) as D'. cbn [P_dim] in *. nia.
Qed.
