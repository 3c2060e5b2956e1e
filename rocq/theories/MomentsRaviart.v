(** Raviart-Thomas elements on the default triangle and tetrahedron. *)
From Coquelicot Require Import Coquelicot.
From Coq Require Import String Arith Bool ZArith Reals Lia Lra List FunctionalExtensionality.
From Verif Require Import Base PolyLib PolySetsModel PolySetsProofs RTNedelecProofs PropertiesPolySets PolyVec QuadratureModel ReferencesModel ReferencesSpec ReferencesProofs ReferencesGeometry CiarletModel CiarletProofs
  LinAlg ElementModel LagrangeModel UnisolvenceProofs LagrangeProofs LagrangeKey LagrangeUnisolvence PropertiesLagrange PropertiesCiarlet
  LegendreJacobi LegendreIntSpec LegendreIntegrals KmvProofs MomentsInt MomentsParts MomentsRT MomentsBox
  PointsModel PointsSpec PointsProofs PointsElements MomentElementsModel MomentElementsSpec MomentElementsProofs MomentsFacets.
Import ListNotations.
Local Open Scope R_scope.

Lemma field_vcomp F k v : vcomp (veval F) k v = field F (k, v).
Proof.
  unfold vcomp, veval, field. cbn [fst snd]. destruct (Nat.lt_ge_cases k (length F)) as [H|H].
  - rewrite (CiarletProofs.nth_map_lt (fun p => zeval p v) F k []) by exact H. reflexivity.
  - rewrite !nth_overflow by (try rewrite map_length; exact H). reflexivity.
Qed.
Lemma vindep_comb poly : vindependent (map veval poly) -> forall c, (forall x, combination c (map field poly) x = 0) -> forall i, (i < length poly)%nat -> c i = 0.
Proof.
  intros H c Z i Hi. specialize (H (map c (range (length poly)))). rewrite !map_length, length_range in H. specialize (H eq_refl).
  assert (F : Forall (fun c => c = 0) (map c (range (length poly)))).
  { apply H. intros k v. rewrite map_map. replace (length poly) with (length (map (fun F => vcomp (veval F) k) poly)) by apply map_length. rewrite <- combination_lincomb.
    specialize (Z (k, v)). unfold combination in *. rewrite map_length in *. etransitivity; [|exact Z]. apply sum_ext. intros j Hj. f_equal.
    rewrite (CiarletProofs.nth_map_lt (fun F => vcomp (veval F) k) poly j []) by exact Hj. rewrite (CiarletProofs.nth_map_lt field poly j []) by exact Hj. apply field_vcomp. }
  rewrite Forall_forall in F. apply F, in_map, in_range, Hi.
Qed.
Lemma finite_choice {A} (a : A) N (P : nat -> A -> Prop) : (forall i, (i < N)%nat -> exists x, P i x) -> exists f, forall i, (i < N)%nat -> P i (f i).
Proof.
  induction N as [|N IH]; intros H; [exists (fun _ => a); intros; lia|]. destruct IH as [f Hf]; [intros; apply H; lia|]. destruct (H N ltac:(lia)) as [x Hx].
  exists (fun i => if (i =? N)%nat then x else f i). intros i Hi. destruct (Nat.eqb_spec i N) as [->|E]; [exact Hx|apply Hf; lia].
Qed.
Lemma facet_limits d : (2 <= d <= 3)%nat -> integration_limits (facet_type d) = Ok (slims (d - 1)).
Proof. intros H. assert (C : d = 2%nat \/ d = 3%nat) by lia. destruct C as [->| ->]; reflexivity. Qed.

(** moments against a function times a direction *)
Definition directed (dom : reference) (lims : list limit) (j : R) (n : pt) (entity : entity) (q : fn point) : moment_dof :=
  {| mo_domain := dom; mo_limits := lims; mo_jacobian := j; mo_f := fun ct => q (snd ct) * nth (fst ct) n 0; mo_entity := entity |}.
Lemma directed_good_on lims d e k dom j n ent q : (1 <= e <= 3)%nat -> good_lims e lims -> gdim dom = d -> length (r_axes dom) = e -> degree_space e k q -> good_moment d e (directed dom lims j n ent q).
Proof.
  intros He Hl Hg La Hq. split; [exact He|]. split; [exact Hl|]. split; [exact Hg|]. split; [exact La|]. exists k. intros c _. cbn [mo_f directed fst snd].
  apply (poly_space_ext _ (fun t => nth c n 0 * q t)); [intros; ring|]. apply poly_space_scale, Hq.
Qed.
Lemma directed_good d e k dom j n ent q : (1 <= e <= 3)%nat -> gdim dom = d -> length (r_axes dom) = e -> degree_space e k q -> good_moment d e (directed dom (slims e) j n ent q).
Proof. intros He. exact (directed_good_on (slims e) d e k dom j n ent q He (slims_good e He)). Qed.
(** the component in the direction is zero if the moments against a spanning list are *)
Lemma directed_zero_on (V : sfun -> Prop) lims d e k dom j n ent (dir : nat -> R) s (f : component_fn) fs : (1 <= e <= 3)%nat -> domain_lims e lims -> gdim dom = d -> j <> 0 -> s <> 0 ->
  (forall c, (c < d)%nat -> nth c n 0 = s * dir c) ->
  degree_space e k (fun t => sum d (fun c => f (c, point_of dom t) * dir c)) ->
  V (fun t => sum d (fun c => f (c, point_of dom t) * dir c)) ->
  (forall g, V g -> exists a, forall v, g v = sum (length fs) (fun i => a i * nth i fs (fun _ => 0) v)) ->
  (forall q, In q fs -> moment_value (directed dom lims j n ent q) f 0) ->
  forall t, sum d (fun c => f (c, point_of dom t) * dir c) = 0.
Proof.
  intros He Hl Hg Hj Hs Hn HD HV Hspan HZ. apply (orthogonal_zero e lims k (fun t => sum d (fun c => f (c, point_of dom t) * dir c)) fs He Hl HD); [|apply Hspan, HV].
  intros q Hq. specialize (HZ q Hq). unfold moment_value in HZ. cbn [mo_limits mo_domain mo_f mo_jacobian directed] in HZ. rewrite Hg in HZ.
  apply (iterated_val _ _ _ (/ (s * j) * 0 + 0)); [ring|].
  eapply iterated_ext'; [|apply (iterated_lin _ _ _ _ _ _ (/ (s * j)) HZ (iterated_zero _ _))]. intros t. cbv beta.
  cbn [fst snd]. rewrite Rplus_0_r. transitivity (/ (s * j) * (s * (q t * sum d (fun c => f (c, point_of dom t) * dir c)) * j)).
  - do 2 f_equal. rewrite <- !sum_scal. apply sum_ext. intros c Hc. rewrite (Hn c Hc). ring.
  - field. split; assumption.
Qed.
Lemma directed_zero d e k dom j n ent (dir : nat -> R) s (f : component_fn) fs : (1 <= e <= 3)%nat -> gdim dom = d -> j <> 0 -> s <> 0 ->
  (forall c, (c < d)%nat -> nth c n 0 = s * dir c) ->
  degree_space e k (fun t => sum d (fun c => f (c, point_of dom t) * dir c)) ->
  (forall g, degree_space e k g -> exists a, forall v, g v = sum (length fs) (fun i => a i * nth i fs (fun _ => 0) v)) ->
  (forall q, In q fs -> moment_value (directed dom (slims e) j n ent q) f 0) ->
  forall t, sum d (fun c => f (c, point_of dom t) * dir c) = 0.
Proof. intros He Hg Hj Hs Hn HD. exact (directed_zero_on (degree_space e k) (slims e) d e k dom j n ent dir s f fs He (slims_domain e He) Hg Hj Hs Hn HD HD). Qed.

(** * The space *)
Lemma rt_poly_field d n f : rt_space d n f -> poly_field d f.
Proof.
  intros (p & h & Hp & Hh & E & _). exists (1 + (n - 1))%nat. intros c Hc. apply (poly_space_ext _ (fun v => p c v + v c * h v)); [intros v; symmetry; apply E, Hc|].
  apply (poly_space_add _ (p c) (fun v => v c * h v)); [apply (degree_weaken d (n - 1)); [lia|apply Hp, Hc]|].
  apply (degree_mul d 1 (n - 1) (fun v => v c) h); [apply degree_var, Hc|]. revert Hh. apply poly_space_weaken. intros m [A B]. split; [exact A|lia].
Qed.
Lemma rt_subspace d n : subspace (rt_space d n).
Proof.
  split; [|split].
  - exists (fun _ _ => 0), (fun _ => 0). split; [intros; apply poly_space_zero|]. split; [apply poly_space_zero|]. split; intros; ring.
  - intros a u v (p & h & Hp & Hh & E & Z) (p' & h' & Hp' & Hh' & E' & Z'). exists (fun c x => a * p c x + p' c x), (fun x => a * h x + h' x). split; [|split; [|split]].
    + intros c Hc. apply (poly_space_add _ (fun x => a * p c x) (p' c)); [apply poly_space_scale, Hp, Hc|apply Hp', Hc].
    + apply (poly_space_add _ (fun x => a * h x) h'); [apply poly_space_scale, Hh|exact Hh'].
    + intros c x Hc. rewrite E, E' by exact Hc. ring.
    + intros c x Hc. rewrite Z, Z' by exact Hc. ring.
  - intros u v H (p & h & Hp & Hh & E & Z). exists p, h. split; [exact Hp|]. split; [exact Hh|]. split; intros c x Hc; rewrite <- H; [apply E|apply Z]; exact Hc.
Qed.
Lemma vector_in_space d n U F : polynomial_set_vector d d n = Ok U -> (1 <= d <= 3)%nat -> In F U -> fields d (P_space d n) (field F).
Proof.
  intros HU Hd HF. destruct (polynomial_set_vector_ok d d n Hd) as (U' & HU' & _ & H). rewrite HU in HU'. injection HU' as <-. apply H in HF. destruct HF as (c & m & Hc & Hm & L & HN).
  split.
  - intros k Hk. unfold field. cbn [fst snd]. rewrite (HN k Hk). destruct (k =? c)%nat; [|apply poly_space_zero].
    apply (poly_space_ext _ (meval m)); [intros v; cbn [zeval fold_right fst snd]; ring|]. apply poly_space_mono. destruct Hm as [A B]. split; [exact A|exact B].
  - intros k v Hk. apply field_beyond. rewrite L. exact Hk.
Qed.
Lemma fields_rt d n f : fields d (P_space d (n - 1)) f -> rt_space d n f.
Proof.
  intros [A B]. exists (fun c v => f (c, v)), (fun _ => 0). split; [exact A|]. split; [apply poly_space_zero|]. split; [intros; ring|exact B].
Qed.

Lemma facet_level d i : (2 <= d <= 3)%nat -> (i < d + 1)%nat -> exists l, forall v, on_facet d i v -> sum d (fun c => v c * facet_direction i c) = l.
Proof.
  intros Hd Hi. destruct i as [|j]; cbn [facet_direction on_facet].
  - exists 1. intros v H. refine (eq_trans _ H). apply sum_ext. intros; ring.
  - exists 0. intros v H. assert (Hj : (j < d)%nat) by lia. rewrite (sum_single _ _ j Hj); [rewrite Nat.eqb_refl, H; ring|]. intros c _ E. apply Nat.eqb_neq in E. rewrite E. ring.
Qed.
(** the normal component of a Raviart-Thomas field on a facet has degree n - 1 *)
Lemma rt_normal_degree d n i f dom j nn : (2 <= d <= 3)%nat -> (i < d + 1)%nat -> rt_space d n f -> facet_facts d i dom j nn ->
  degree_space (d - 1) (n - 1) (fun t => sum d (fun c => f (c, point_of dom t) * facet_direction i c)).
Proof.
  intros Hd Hi (p & h & Hp & Hh & E & _) (_ & _ & _ & _ & _ & _ & _ & La & On & _). destruct (facet_level d i Hd Hi) as [l Hl].
  apply (poly_space_ext _ (fun t => sum d (fun c => facet_direction i c * p c (point_of dom t)) + l * h (point_of dom t))).
  - intros t. rewrite <- (Hl _ (On t)), <- sum_scal_r, <- sum_plus. apply sum_ext. intros c Hc. rewrite E by exact Hc. ring.
  - apply (poly_space_add _ (fun t => sum d (fun c => facet_direction i c * p c (point_of dom t))) (fun t => l * h (point_of dom t))).
    + apply sum_poly. intros c Hc. apply (poly_space_scale _ (facet_direction i c) (fun t => p c (point_of dom t))), (pulled_back dom d _ _ (p c) La), Hp, Hc.
    + apply (poly_space_scale _ l (fun t => h (point_of dom t))), (pulled_back dom d _ _ h La). revert Hh. apply poly_space_weaken. intros m [A B]. split; [exact A|lia].
Qed.
Lemma on_facet_all d i dom j nn f : (2 <= d <= 3)%nat -> (i < d + 1)%nat -> poly_field d f -> facet_facts d i dom j nn ->
  (forall t, sum d (fun c => f (c, point_of dom t) * facet_direction i c) = 0) -> forall v, on_facet d i v -> sum d (fun c => f (c, v) * facet_direction i c) = 0.
Proof.
  intros Hd Hi (k & Hk) (_ & _ & _ & _ & _ & _ & _ & _ & _ & On) Z v Hv. destruct (On v Hv) as [t Ht]. rewrite <- (Z t). apply sum_ext. intros c Hc. f_equal.
  apply (degree_local d k (fun v => f (c, v)) _ _ (Hk c Hc)). intros a Ha. symmetry. apply Ht, Ha.
Qed.

(** * The degrees of freedom *)
Definition interior (d : nat) (psi : component_fn) : moment_dof :=
  {| mo_domain := default (simplex_of d); mo_limits := slims d; mo_jacobian := 1; mo_f := psi; mo_entity := (d, 0)%nat |}.
Lemma default_jacobian d : (2 <= d <= 3)%nat -> exists j, jacobian (default (simplex_of d)) = Ok j /\ j = 1.
Proof.
  intros H. assert (C : d = 2%nat \/ d = 3%nat) by lia. destruct C as [->| ->]; eexists; (split; [reflexivity|]); unfold fabs, fnorm; cbn;
    match goal with |- Rabs ?x = 1 => replace x with 1 by lra; apply Rabs_R1 end.
Qed.
Lemma default_points d t c : (2 <= d <= 3)%nat -> (c < d)%nat -> point_of (default (simplex_of d)) t c = t c.
Proof.
  intros H Hc. assert (C : d = 2%nat \/ d = 3%nat) by lia. destruct C as [->| ->]; unfold point_of; cbn; destruct c as [|[|[|c]]]; try lia; cbn; lra.
Qed.
Lemma interior_moments d (basis : reference -> res (list component_fn)) fs : (2 <= d <= 3)%nat -> basis (default (simplex_of d)) = Ok fs ->
  moments_on (default (simplex_of d)) d basis integral_moment = Ok (map (interior d) fs).
Proof.
  intros H HB. destruct (default_jacobian d H) as (j & HJ & Ej). assert (C : d = 2%nat \/ d = 3%nat) by lia.
  assert (G : exists vs, length vs = 1%nat /\ sub_entities (default (simplex_of d)) d = Ok vs) by (destruct C as [->| ->]; eexists; (split; [|reflexivity]); reflexivity).
  destruct G as (vs & L & HV). rewrite (moments_on_ok (default (simplex_of d)) d basis integral_moment (simplex_of d) vs fs (fun _ => interior d)).
  - rewrite L. cbn [range seq flat_map]. rewrite app_nil_r. reflexivity.
  - destruct C as [->| ->]; reflexivity.
  - exact HV.
  - exact HB.
  - intros i Hi. exists (default (simplex_of d)). split; [destruct C as [->| ->]; reflexivity|destruct C as [->| ->]; reflexivity].
  - intros i f Hi _. rewrite L in Hi. assert (i = 0%nat) by lia. subst i. unfold integral_moment. cbn [fst snd].
    assert (S : sub_entity (default (simplex_of d)) d 0 false = Ok (default (simplex_of d))) by (destruct C as [->| ->]; reflexivity). rewrite S. cbn [rbind].
    assert (T : (tdim (r_type (default (simplex_of d))) =? gdim (default (simplex_of d)))%nat = true) by (destruct C as [->| ->]; reflexivity). rewrite T.
    unfold make_moment. assert (LL : integration_limits (r_type (default (simplex_of d))) = Ok (slims d)) by (destruct C as [->| ->]; reflexivity). rewrite LL. cbn [rbind].
    rewrite HJ. cbn [rmap]. subst j. reflexivity.
Qed.
Lemma facet_moments d k : (2 <= d <= 3)%nat -> exists fs mk, lagrange_basis_functions (default (facet_type d)) k "equispaced" = Ok fs /\ length fs = P_dim (d - 1) k /\
  (forall f, In f fs -> degree_space (d - 1) k f) /\ (forall g, degree_space (d - 1) k g -> exists a, forall v, g v = sum (length fs) (fun i => a i * nth i fs (fun _ => 0) v)) /\
  moments_on (default (simplex_of d)) (d - 1) (fun r => lagrange_basis_functions r k "equispaced") normal_moment = Ok (flat_map (fun i => map (mk i) fs) (range (d + 1))) /\
  (forall i, (i < d + 1)%nat -> exists dom j n, facet_facts d i dom j n /\ mk i = directed dom (slims (d - 1)) j n ((d - 1)%nat, i)).
Proof.
  intros Hd. assert (Hc : simplex (facet_type d)) by (assert (C : d = 2%nat \/ d = 3%nat) by lia; destruct C as [->| ->]; [left|right; left]; reflexivity).
  assert (Tc : tdim (facet_type d) = (d - 1)%nat) by (assert (C : d = 2%nat \/ d = 3%nat) by lia; destruct C as [->| ->]; reflexivity).
  destruct (lagrange_span (facet_type d) k Hc) as (fs & B & L & HD & HS). rewrite Tc in *.
  destruct (finite_choice (fun q => directed (default CPoint) [] 0 [] (0, 0)%nat q) (d + 1) (fun i m => exists dom j n, facet_facts d i dom j n /\ m = directed dom (slims (d - 1)) j n ((d - 1)%nat, i))) as [mk Hmk].
  { intros i Hi. destruct (facets_exist d i Hd Hi) as (dom & j & n & F). exists (directed dom (slims (d - 1)) j n ((d - 1)%nat, i)), dom, j, n. split; [exact F|reflexivity]. }
  exists fs, mk. split; [exact B|]. split; [exact L|]. split; [exact HD|]. split; [exact HS|]. split; [|exact Hmk].
  assert (C : d = 2%nat \/ d = 3%nat) by lia.
  assert (G : exists vs, length vs = (d + 1)%nat /\ sub_entities (default (simplex_of d)) (d - 1) = Ok vs) by (destruct C as [->| ->]; eexists; (split; [|reflexivity]); reflexivity).
  destruct G as (vs & LV & HV). rewrite <- LV. apply (moments_on_ok _ _ _ _ (facet_type d)).
  - destruct C as [->| ->]; reflexivity.
  - exact HV.
  - exact B.
  - intros i Hi. rewrite LV in Hi. destruct (Hmk i Hi) as (dom & j & n & (F1 & F2 & _) & _). exists dom. split; assumption.
  - intros i f Hi _. rewrite LV in Hi. destruct (Hmk i Hi) as (dom & j & n & (F1 & F2 & F3 & _ & F5 & _) & ->). unfold normal_moment. cbn [fst snd]. rewrite F1. cbn [rbind]. rewrite F5. cbn [rbind].
    unfold make_moment. rewrite F2, (facet_limits d Hd). cbn [rbind]. rewrite F3. reflexivity.
Qed.
