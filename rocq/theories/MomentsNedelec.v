(** Nedelec elements of the first kind on the default triangle: Raviart-Thomas elements rotated by a right angle. *)
From Coquelicot Require Import Coquelicot.
From Coq Require Import String Arith Bool ZArith Reals Lia Lra List FunctionalExtensionality.
From Verif Require Import Base PolyLib PolySetsModel PolySetsProofs RTNedelecProofs PropertiesPolySets PolyVec QuadratureModel ReferencesModel ReferencesSpec ReferencesProofs ReferencesGeometry CiarletModel CiarletProofs
  LinAlg ElementModel LagrangeModel UnisolvenceProofs LagrangeProofs LagrangeKey LagrangeUnisolvence PropertiesLagrange PropertiesCiarlet
  LegendreJacobi LegendreIntSpec LegendreIntegrals KmvProofs MomentsInt MomentsParts MomentsRT
  PointsModel PointsSpec PointsProofs PointsElements MomentElementsModel MomentElementsSpec MomentElementsProofs MomentsFacets MomentsRaviart MomentsRTDual.
Import ListNotations.
Local Open Scope R_scope.

Lemma split_degree d k h : degree_space d k h -> exists a b, below d k a /\ poly_space (fun m => length m = d /\ mdeg m = k) b /\ forall v, h v = a v + b v.
Proof.
  revert h. apply poly_ind.
  - exists (fun _ => 0), (fun _ => 0). split; [apply poly_space_zero|]. split; [apply poly_space_zero|]. intros; ring.
  - intros c m g [L H] (a & b & Ha & Hb & E). destruct (Nat.eq_dec (mdeg m) k) as [D|D].
    + exists a, (fun v => c * meval m v + b v). split; [exact Ha|]. split; [|intros v; rewrite E; ring].
      apply (poly_space_add _ (fun v => c * meval m v) b); [apply poly_space_scale, poly_space_mono; split; assumption|exact Hb].
    + exists (fun v => c * meval m v + a v), b. split; [|split; [exact Hb|intros v; rewrite E; ring]].
      apply (poly_space_add _ (fun v => c * meval m v) a); [apply poly_space_scale, poly_space_mono; split; [assumption|lia]|exact Ha].
  - intros f g E (a & b & Ha & Hb & H). exists a, b. split; [exact Ha|]. split; [exact Hb|]. intros v. rewrite <- E. apply H.
Qed.
Lemma homogeneous_at_zero d k h v : (1 <= k)%nat -> poly_space (fun m => length m = d /\ mdeg m = k) h -> (forall i, (i < d)%nat -> v i = 0) -> h v = 0.
Proof.
  intros Hk Hh Hv. revert h Hh. apply poly_ind.
  - reflexivity.
  - intros c m g [L D] E. rewrite E. enough (Z : meval m v = 0) by (rewrite Z; ring). clear g E c.
    assert (G : forall m s, (1 <= mdeg m)%nat -> (forall i, (i < length m)%nat -> v (s + i)%nat = 0) -> meval_from s m v = 0).
    { clear. induction m as [|a m IH]; intros s D Hv; [cbn in D; lia|]. cbn [meval_from mdeg] in *. destruct a as [|a].
      - rewrite IH; [ring|lia|]. intros i Hi. specialize (Hv (S i)). cbn [length] in Hv. rewrite <- Nat.add_succ_comm in Hv. apply Hv. lia.
      - specialize (Hv 0%nat). cbn [length] in Hv. rewrite Nat.add_0_r in Hv. rewrite Hv by lia. cbn [pow]. ring. }
    apply G; [lia|]. intros i Hi. apply Hv. lia.
  - intros f g E H. rewrite <- E. exact H.
Qed.
(** in two dimensions a homogeneous field orthogonal to the position is a multiple of (y, -x) *)
Lemma orthogonal_fields n s : (1 <= n)%nat -> (forall c, (c < 2)%nat -> poly_space (fun m => length m = 2%nat /\ mdeg m = n) (s c)) ->
  (forall v, sum 2 (fun c => v c * s c v) = 0) -> exists h, degree_space 2 (n - 1) h /\ (forall v, s 0%nat v = v 1%nat * h v) /\ (forall v, s 1%nat v = - (v 0%nat * h v)).
Proof.
  intros Hn Hs HO. assert (HD : forall c, (c < 2)%nat -> degree_space 2 n (s c)).
  { intros c Hc. generalize (Hs c Hc). apply poly_space_weaken. intros m [A B]. split; [exact A|lia]. }
  destruct (factor_var 2 n 1 (s 0%nat)) as (h & Hh & E); [lia|apply HD; lia| |].
  - intros v Hv. destruct (Req_dec (v 0%nat) 0) as [Z|Z].
    + apply (homogeneous_at_zero 2 n _ v Hn (Hs 0%nat ltac:(lia))). intros [|[|i]] Hi; [exact Z|exact Hv|lia].
    + specialize (HO v). cbn [sum] in HO. rewrite Hv in HO. assert (v 0%nat * s 0%nat v = 0) by lra. apply Rmult_integral in H. tauto.
  - exists h. split; [exact Hh|]. split; [exact E|]. intros v.
    enough (Z : s 1%nat v + v 0%nat * h v = 0) by lra. revert v. apply (var_factor_zero 2 n 1 (fun v => s 1%nat v + v 0%nat * h v)); [lia| |].
    + apply (poly_space_add _ (s 1%nat) (fun v => v 0%nat * h v)); [apply HD; lia|]. apply (degree_weaken 2 (1 + (n - 1))); [lia|].
      apply (degree_mul 2 1 (n - 1) (fun v => v 0%nat) h); [apply degree_var; lia|exact Hh].
    + intros v. specialize (HO v). cbn [sum] in HO. rewrite (E v) in HO. rewrite <- HO. ring.
Qed.

Definition rotated (f : component_fn) : component_fn := fun ct => match fst ct with O => f (1%nat, snd ct) | S O => - f (0%nat, snd ct) | _ => 0 end.
Lemma rotated_rt n f : (1 <= n)%nat -> nedelec_space 2 n f -> rt_space 2 n (rotated f).
Proof.
  intros Hn (p & s & Hp & Hs & HO & E & Z). destruct (orthogonal_fields n s Hn Hs HO) as (h & Hh & E0 & E1).
  destruct (split_degree 2 (n - 1) h Hh) as (a & b & Ha & Hb & Eh).
  assert (Hxa : forall c, (c < 2)%nat -> degree_space 2 (n - 1) (fun v => v c * a v)).
  { intros c Hc. destruct (Nat.eq_dec n 1) as [->|Hn1].
    - apply (poly_space_ext _ (fun _ => 0)); [|apply poly_space_zero]. intros v. rewrite (below_zero 2 a Ha v). ring.
    - apply (degree_weaken 2 (1 + (n - 1 - 1))); [lia|]. apply (degree_mul 2 1 (n - 1 - 1) (fun v => v c) a); [apply degree_var, Hc|apply below_degree, Ha]. }
  exists (fun c v => (match c with O => p 1%nat v | _ => - p 0%nat v end) - v c * a v), (fun v => - b v). split; [|split; [|split]].
  - intros c Hc. destruct c as [|[|c]]; [| |lia].
    + apply (degree_minus 2 (n - 1) (p 1%nat) (fun v => v 0%nat * a v)); [apply Hp; lia|apply Hxa; lia].
    + apply (degree_minus 2 (n - 1) (fun v => - p 0%nat v) (fun v => v 1%nat * a v)); [|apply Hxa; lia].
      apply (poly_space_ext _ (fun v => - (1) * p 0%nat v)); [intros; ring|]. apply poly_space_scale, Hp. lia.
  - apply (poly_space_ext _ (fun v => - (1) * b v)); [intros; ring|]. apply poly_space_scale, Hb.
  - intros c v Hc. unfold rotated. destruct c as [|[|c]]; [| |lia]; cbn [fst snd]; rewrite E by lia; [rewrite E1|rewrite E0]; rewrite Eh; ring.
  - intros c v Hc. unfold rotated. destruct c as [|[|c]]; [lia|lia|reflexivity].
Qed.
Lemma nedelec_poly_field d n f : nedelec_space d n f -> poly_field d f.
Proof.
  intros (p & s & Hp & Hs & _ & E & _). exists n. intros c Hc. apply (poly_space_ext _ (fun v => p c v + s c v)); [intros v; symmetry; apply E, Hc|].
  apply (poly_space_add _ (p c) (s c)); [apply (degree_weaken d (n - 1)); [lia|apply Hp, Hc]|]. generalize (Hs c Hc). apply poly_space_weaken. intros m [A B]. split; [exact A|lia].
Qed.
Lemma nedelec_subspace d n : subspace (nedelec_space d n).
Proof.
  split; [|split].
  - exists (fun _ _ => 0), (fun _ _ => 0). split; [intros; apply poly_space_zero|]. split; [intros; apply poly_space_zero|]. split; [intros; apply sum_zero; intros; ring|]. split; intros; ring.
  - intros a u v (p & s & Hp & Hs & HO & E & Z) (p' & s' & Hp' & Hs' & HO' & E' & Z'). exists (fun c x => a * p c x + p' c x), (fun c x => a * s c x + s' c x). split; [|split; [|split; [|split]]].
    + intros c Hc. apply (poly_space_add _ (fun x => a * p c x) (p' c)); [apply poly_space_scale, Hp, Hc|apply Hp', Hc].
    + intros c Hc. apply (poly_space_add _ (fun x => a * s c x) (s' c)); [apply poly_space_scale, Hs, Hc|apply Hs', Hc].
    + intros x. rewrite (sum_ext d _ (fun c => a * (x c * s c x) + x c * s' c x)) by (intros; ring). rewrite sum_plus, sum_scal, HO, HO'. ring.
    + intros c x Hc. rewrite E, E' by exact Hc. ring.
    + intros c x Hc. rewrite Z, Z' by exact Hc. ring.
  - intros u v H (p & s & Hp & Hs & HO & E & Z). exists p, s. split; [exact Hp|]. split; [exact Hs|]. split; [exact HO|]. split; intros c x Hc; rewrite <- H; [apply E|apply Z]; exact Hc.
Qed.
Lemma nedelec_polynomials d n U X : (2 <= d <= 3)%nat -> polynomial_set_vector d d n = Ok U ->
  (forall F, In F X -> homogeneous d (S n) F) -> (forall F v, In F X -> x_dot d (veval F) v = 0) -> forall F, In F (U ++ X) -> nedelec_space d (S n) (field F).
Proof.
  intros Hd HU HX HO F HF. apply in_app_or in HF. destruct HF as [HF|HF].
  - destruct (vector_in_space d n U F HU ltac:(lia) HF) as [A B]. exists (fun c v => field F (c, v)), (fun _ _ => 0). replace (S n - 1)%nat with n by lia. split; [exact A|].
    split; [intros; apply poly_space_zero|]. split; [intros; apply sum_zero; intros; ring|]. split; [intros; ring|exact B].
  - destruct (HX F HF) as [L HH]. exists (fun _ _ => 0), (fun c v => field F (c, v)). split; [intros; apply poly_space_zero|]. split; [|split; [|split; [intros; ring|intros c v Hc; apply field_beyond; rewrite L; exact Hc]]].
    + intros c Hc. unfold field. cbn [fst snd]. assert (HI : In (nth c F []) F) by (apply nth_In; lia). rewrite Forall_forall in HH. specialize (HH _ HI). revert HH. generalize (nth c F []). clear. intros q.
      induction q as [|[z m] q IH]; intros H; [apply poly_space_zero|]. apply Forall_cons_iff in H. destruct H as [H1 H2]. cbn [zeval fold_right fst snd].
      apply (poly_space_add _ (fun v => IZR z * meval m v) (zeval q)); [apply poly_space_scale, poly_space_mono, H1|apply IH, H2].
    + intros v. specialize (HO F v HF). unfold x_dot in HO. rewrite <- HO. clear -Hd. assert (C : d = 2%nat \/ d = 3%nat) by lia. destruct C as [->| ->]; cbn; rewrite <- ?field_vcomp; unfold vcomp; ring.
Qed.

(** * The tangents of the edges *)
Definition edge_direction (i c : nat) : R := match c with O => - facet_direction i 1 | _ => facet_direction i 0 end.
Lemma tangent_direction2 dom a b t : tangent dom = Ok t -> r_axes dom = [[a; b]] -> a * a + b * b = 1 \/ a * a + b * b = 2 -> exists k, k <> 0 /\ nth 0 t 0 = k * a /\ nth 1 t 0 = k * b.
Proof.
  intros H Ha P. unfold tangent in H. destruct (tdim (r_type dom) =? 1)%nat; [|discriminate]. rewrite Ha in H. cbv zeta in H.
  set (s := sqrt (fold_left (fun a i => a + i ^ 2) [a; b] 0)) in H. cbn [map] in H. assert (Et : t = vnormalise [a / s; b / s]) by congruence. rewrite Et. clear H Et. unfold s in *. cbn [fold_left] in *. clear s. set (s := sqrt (0 + a ^ 2 + b ^ 2)). assert (Ps : 0 < s) by (apply sqrt_lt_R0; nra).
  destruct (normalised_nonzero [a / s; b / s]) as (k & Hk & E).
  - unfold vdot. cbn [combine fold_left fst snd]. assert (Q : 0 < / s) by (apply Rinv_0_lt_compat, Ps). unfold Rdiv. replace (0 + a * / s * (a * / s) + b * / s * (b * / s)) with ((a * a + b * b) * (/ s * / s)) by ring.
    apply Rmult_lt_0_compat; [lra|apply Rmult_lt_0_compat; exact Q].
  - exists (k / s). split; [unfold Rdiv; apply Rmult_integral_contrapositive; split; [exact Hk|apply Rinv_neq_0_compat; lra]|].
    rewrite (E 0%nat), (E 1%nat) by (cbn; lia). cbn [nth]. unfold Rdiv. split; ring.
Qed.
Lemma tangents_exist i dom j n : (i < 3)%nat -> facet_facts 2 i dom j n -> exists t, tangent dom = Ok t /\ exists k, k <> 0 /\ forall c, (c < 2)%nat -> nth c t 0 = k * edge_direction i c.
Proof.
  intros Hi (H & _). assert (C : (i = 0 \/ i = 1 \/ i = 2)%nat) by lia.
  assert (G : exists a b s, r_axes dom = [[a; b]] /\ (a * a + b * b = 1 \/ a * a + b * b = 2) /\ s <> 0 /\ a = s * edge_direction i 0 /\ b = s * edge_direction i 1 /\ r_type dom = CInterval).
  { destruct C as [->|[->| ->]]; cbn in H; injection H as <-.
    - exists (0 - 1), (1 - 0), 1. cbn. repeat split; try lra; try (right; lra).
    - exists (0 - 0), (1 - 0), 1. cbn. repeat split; try lra; try (left; lra).
    - exists (1 - 0), (0 - 0), (-1). cbn. repeat split; try lra; try (left; lra). }
  destruct G as (a & b & s & Ha & P & Hs & Ea & Eb & T). assert (X : exists t, tangent dom = Ok t) by (unfold tangent; rewrite T, Ha; cbn [tdim Nat.eqb]; eexists; reflexivity).
  destruct X as [t Ht]. exists t. split; [exact Ht|]. destruct (tangent_direction2 dom a b t Ht Ha P) as (k & Hk & E0 & E1). exists (k * s). split; [apply Rmult_integral_contrapositive; split; assumption|].
  intros [|[|c]] Hc; [rewrite E0, Ea; ring|rewrite E1, Eb; ring|lia].
Qed.
Lemma edge_moments2 k : exists fs mk, length fs = (k + 1)%nat /\
  (forall f, In f fs -> degree_space 1 k f) /\ (forall g, degree_space 1 k g -> exists a, forall v, g v = sum (length fs) (fun i => a i * nth i fs (fun _ => 0) v)) /\
  moments_on (default CTriangle) 1 (fun r => lagrange_basis_functions r k "equispaced") tangent_moment = Ok (flat_map (fun i => map (mk i) fs) (range 3)) /\
  (forall i, (i < 3)%nat -> exists dom j n t s, facet_facts 2 i dom j n /\ s <> 0 /\ (forall c, (c < 2)%nat -> nth c t 0 = s * edge_direction i c) /\ mk i = directed dom (slims 1) j t (1%nat, i)).
Proof.
  assert (Hc : simplex CInterval) by (left; reflexivity).
  destruct (lagrange_span CInterval k Hc) as (fs & B & L & HD & HS). cbn [tdim] in *.
  destruct (finite_choice (fun q => directed (default CPoint) [] 0 [] (0, 0)%nat q) 3 (fun i m => exists dom j n t s, facet_facts 2 i dom j n /\ tangent dom = Ok t /\ s <> 0 /\ (forall c, (c < 2)%nat -> nth c t 0 = s * edge_direction i c) /\ m = directed dom (slims 1) j t (1%nat, i))) as [mk Hmk].
  { intros i Hi. destruct (facets_exist 2 i ltac:(lia) Hi) as (dom & j & n & F). destruct (tangents_exist i dom j n Hi F) as (t & Ht & s & Hs & E). exists (directed dom (slims 1) j t (1%nat, i)), dom, j, n, t, s. auto. }
  exists fs, mk. split; [exact L|]. split; [exact HD|]. split; [exact HS|]. split; [|intros i Hi; destruct (Hmk i Hi) as (dom & j & n & t & s & F & _ & R); exists dom, j, n, t, s; tauto].
  apply (moments_on_ok (default CTriangle) 1 (fun r => lagrange_basis_functions r k "equispaced") tangent_moment CInterval [[1; 2]; [0; 2]; [0; 1]]%nat).
  - reflexivity.
  - reflexivity.
  - exact B.
  - intros i Hi. destruct (Hmk i Hi) as (dom & j & n & t & s & (F1 & F2 & _) & _). exists dom. split; assumption.
  - intros i f Hi _. destruct (Hmk i Hi) as (dom & j & n & t & s & (F1 & F2 & F3 & _ & F5 & _) & Ht & _ & _ & ->). unfold tangent_moment. cbn [fst snd]. cbn [simplex_of Nat.sub] in F1. rewrite F1. cbn [rbind]. rewrite Ht. cbn [rbind].
    unfold make_moment. rewrite F2. cbn [facet_type integration_limits rbind]. rewrite F3. reflexivity.
Qed.
Lemma rotated_edge i f v : sum 2 (fun c => rotated f (c, v) * facet_direction i c) = sum 2 (fun c => f (c, v) * edge_direction i c).
Proof. unfold rotated, edge_direction. cbn [sum fst snd]. ring. Qed.

Lemma edges_zero W n : (forall f, W f -> poly_field 2 f) ->
  (forall f i dom j nn, (i < 3)%nat -> W f -> facet_facts 2 i dom j nn -> degree_space 1 n (fun t => sum 2 (fun c => rotated f (c, point_of dom t) * facet_direction i c))) ->
  forall fs (mk : nat -> fn point -> moment_dof), (forall g, degree_space 1 n g -> exists a, forall v, g v = sum (length fs) (fun i => a i * nth i fs (fun _ => 0) v)) ->
  (forall i, (i < 3)%nat -> exists dom j n t s, facet_facts 2 i dom j n /\ s <> 0 /\ (forall c, (c < 2)%nat -> nth c t 0 = s * edge_direction i c) /\ mk i = directed dom (slims 1) j t (1%nat, i)) ->
  forall i f, (i < 3)%nat -> W f -> (forall q, In q fs -> moment_value (mk i q) f 0) -> forall v, on_facet 2 i v -> sum 2 (fun c => rotated f (c, v) * facet_direction i c) = 0.
Proof.
  intros HP HDeg fs mk HS Hmk i f Hi Hf HZ. destruct (Hmk i Hi) as (dom & j & nn & t & s & FF & Hs & Ht & Em). rewrite Em in HZ.
  assert (PR : poly_field 2 (rotated f)).
  { destruct (HP f Hf) as [k Hk]. exists k. intros [|[|c]] Hc; [apply (Hk 1%nat); lia| |lia]. unfold rotated. cbn [fst snd].
    apply (poly_space_ext _ (fun v => - (1) * f (0%nat, v))); [intros; ring|]. apply (poly_space_scale _ _ (fun v => f (0%nat, v))), Hk. lia. }
  apply (on_facet_all 2 i dom j nn (rotated f) ltac:(lia) Hi PR FF). pose proof (HDeg f i dom j nn Hi Hf FF) as DG.
  intros u. rewrite rotated_edge. revert u. assert (DG' : degree_space 1 n (fun u => sum 2 (fun c => f (c, point_of dom u) * edge_direction i c))).
  { apply (poly_space_ext _ (fun u => sum 2 (fun c => rotated f (c, point_of dom u) * facet_direction i c))); [intros; apply rotated_edge|exact DG]. }
  destruct FF as (_ & _ & _ & Hj & _ & _ & G & _). apply (directed_zero 2 1 n dom j t (1%nat, i) (edge_direction i) s f fs); auto.
Qed.

Lemma nedelec_triangle n :
  dual_moments (make_nedelec_first (default CTriangle) (S n) "equispaced") (nedelec_space 2 (S n)) (S n * (S n + 2)) /\
  tangential_conforming2 (make_nedelec_first (default CTriangle) (S n) "equispaced") (nedelec_space 2 (S n)).
Proof.
  assert (Hd : (2 <= 2 <= 3)%nat) by lia.
  destruct (C06_nedelec_enrichment 2 n Hd) as (X & U & HX & HU & _ & HX1 & HX2 & _ & HI & LX).
  destruct (edge_moments2 n) as (fs & mk & L & HD & HS & HM & Hmk).
  destruct (vector_span CTriangle (n - 1)) as (gs & VB & VL & VW & VS); [right; left; reflexivity|cbn; lia|]. cbn [tdim] in *.
  set (inner := if (S n <? 2)%nat then [] else map (interior 2) gs).
  set (dofs := flat_map (fun i => map (mk i) fs) (range 3) ++ inner).
  assert (E : make_nedelec_first (default CTriangle) (S n) "equispaced" = Ok (U ++ X, dofs)).
  { unfold make_nedelec_first. cbv zeta. change (tdim (r_type (default CTriangle))) with 2%nat. replace (S n - 1)%nat with n by lia. rewrite HU. cbn [rbind]. rewrite HX. cbn [rbind]. rewrite HM. cbn [rbind].
    replace (S n - 2)%nat with (n - 1)%nat by lia. rewrite (interior_moments 2 _ gs Hd VB : moments_on (default CTriangle) 2 _ _ = _).
    unfold dofs, unless_below, inner. destruct (S n <? 2)%nat; cbn [rbind]; (destruct (S n <? 3)%nat; cbn; rewrite ?app_nil_r; reflexivity). }
  assert (Hdof : forall m, In m dofs -> (exists i q, (i < 3)%nat /\ In q fs /\ m = mk i q) \/ (exists g, (2 <= S n)%nat /\ In g gs /\ m = interior 2 g)).
  { intros m Hm. apply in_app_or in Hm. destruct Hm as [Hm|Hm].
    - left. apply in_flat_map in Hm. destruct Hm as (i & Hi & Hm). apply in_range in Hi. apply in_map_iff in Hm. destruct Hm as (q & <- & Hq). exists i, q. auto.
    - right. unfold inner in Hm. destruct (Nat.ltb_spec (S n) 2); [destruct Hm|]. apply in_map_iff in Hm. destruct Hm as (g & <- & Hg). exists g. auto. }
  assert (Hedge : forall i f, (i < 3)%nat -> nedelec_space 2 (S n) f -> (forall q, In q fs -> moment_value (mk i q) f 0) -> forall v, on_facet 2 i v -> sum 2 (fun c => rotated f (c, v) * facet_direction i c) = 0).
  { apply (edges_zero (nedelec_space 2 (S n)) n); [apply nedelec_poly_field| |exact HS|exact Hmk]. intros f i dom j nn Hi Hf FF.
    pose proof (rt_normal_degree 2 (S n) i (rotated f) dom j nn Hd Hi (rotated_rt (S n) f ltac:(lia) Hf) FF) as DG. replace (S n - 1)%nat with n in DG by lia. exact DG. }
  assert (LP : length (U ++ X) = (S n * (S n + 2))%nat).
  { rewrite app_length, (vector_length 2 2 n U ltac:(lia) HU). pose proof (P_dim2 n). destruct LX as [[_ LX]|[? _]]; [rewrite LX; nia|lia]. }
  split.
  - apply (moments_square 2 (nedelec_space 2 (S n)) (U ++ X) dofs _ _ E).
    + apply nedelec_subspace.
    + apply nedelec_poly_field.
    + apply (nedelec_polynomials 2 n U X Hd HU HX1 HX2).
    + intros m Hm. destruct (Hdof m Hm) as [(i & q & Hi & Hq & ->)|(g & _ & Hg & ->)].
      * destruct (Hmk i Hi) as (dom & j & nn & t & s & (_ & _ & _ & _ & _ & _ & G & La & _) & _ & _ & ->). exists 1%nat. apply (directed_good 2 1 n); [lia|exact G|exact La|apply HD, Hq].
      * exists 2%nat. split; [lia|]. split; [apply (slims_good 2); lia|]. split; [reflexivity|]. split; [reflexivity|]. exists (n - 1)%nat. intros c Hc. destruct (VW g Hg) as [A _]. apply A, Hc.
    + exact LP.
    + unfold dofs. rewrite app_length, (length_flat_map_const _ _ (length fs)) by (intros; apply map_length). rewrite length_range, L.
      unfold inner. pose proof (P_dim2 (n - 1)). destruct (Nat.ltb_spec (S n) 2); [cbn [length]; nia|]. rewrite map_length. fold (@length component_fn gs) in *. rewrite VL. nia.
    + rewrite <- LP. apply vindep_comb, HI.
    + intros f Hf HZ [c v].
      assert (HZ1 : forall i, (i < 3)%nat -> forall q, In q fs -> moment_value (mk i q) f 0).
      { intros i Hi q Hq. apply HZ. apply in_or_app. left. apply in_flat_map. exists i. split; [apply in_range, Hi|apply in_map, Hq]. }
      assert (Z : forall c v, (c < 2)%nat -> rotated f (c, v) = 0).
      { apply (rt_zero 2 (S n) (fun c v => rotated f (c, v)) Hd ltac:(lia) (rt_space_fields 2 (S n) _ (rotated_rt (S n) f ltac:(lia) Hf))).
        - intros a w Ha Hw. pose proof (Hedge (S a) f ltac:(lia) Hf (HZ1 (S a) ltac:(lia)) w Hw) as Z. rewrite (sum_single _ _ a Ha) in Z; [cbn [facet_direction] in Z; rewrite Nat.eqb_refl in Z; lra|].
          intros b _ Hb. cbn [facet_direction]. apply Nat.eqb_neq in Hb. rewrite Hb. ring.
        - intros t. pose proof (Hedge 0%nat f ltac:(lia) Hf (HZ1 0%nat ltac:(lia)) (slant 2 t) (slant_on 2 t Hd)) as Z. rewrite <- Z. apply sum_ext. intros; cbn [facet_direction]; ring.
        - intros psi Hn Hpsi. replace (S n - 2)%nat with (n - 1)%nat in Hpsi by lia.
          apply (iterated_ext' _ (fun v => sum 2 (fun c => f (c, v) * (match c with O => - psi 1%nat v | _ => psi 0%nat v end)))); [intros u; unfold rotated; cbn [sum fst snd]; ring|].
          apply (interior_zero 2 (n - 1) f gs Hd (nedelec_poly_field _ _ _ Hf) VS) with (psi := fun c v => match c with O => - psi 1%nat v | _ => psi 0%nat v end).
          + intros q Hq. apply HZ. apply in_or_app. right. unfold inner. destruct (Nat.ltb_spec (S n) 2); [lia|]. apply in_map, Hq.
          + intros [|[|a]] Ha; [|apply Hpsi; lia|lia]. apply (poly_space_ext _ (fun v => - (1) * psi 1%nat v)); [intros; ring|]. apply poly_space_scale, Hpsi. lia. }
      destruct c as [|[|c]].
      * specialize (Z 1%nat v ltac:(lia)). unfold rotated in Z. cbn [fst snd] in Z. lra.
      * exact (Z 0%nat v ltac:(lia)).
      * destruct Hf as (p & s & _ & _ & _ & _ & Zf). apply Zf. lia.
  - exists (U ++ X), dofs. split; [exact E|]. intros i f Hi Hf HZ v Hv. assert (Z : sum 2 (fun c => rotated f (c, v) * facet_direction i c) = 0).
    + apply (Hedge i f Hi Hf); [|exact Hv]. intros q Hq. apply HZ.
      * apply in_or_app. left. apply in_flat_map. exists i. split; [apply in_range, Hi|apply in_map, Hq].
      * destruct (Hmk i Hi) as (dom & j & nn & t & s & _ & _ & _ & ->). reflexivity.
    + unfold rotated in Z. cbn [sum fst snd] in Z. lra.
Qed.
