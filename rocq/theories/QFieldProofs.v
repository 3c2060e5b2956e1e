(** The spaces and moments of the H(div) and H(curl) elements on the square and the cube. *)
From Coquelicot Require Import Coquelicot.
From Coq Require Import String Arith Bool ZArith Reals Lia Lra List FunctionalExtensionality.
From Verif Require Import Base PolyLib PolySetsModel PolySetsProofs RTNedelecProofs PropertiesPolySets PolyVec QuadratureModel ReferencesModel ReferencesSpec ReferencesProofs ReferencesGeometry CiarletModel CiarletProofs
  LinAlg ElementModel LagrangeModel UnisolvenceProofs LagrangeProofs LagrangeKey LagrangeUnisolvence QProofs QDofs
  LegendreJacobi LegendreIntSpec LegendreIntegrals KmvProofs MomentsInt MomentsParts MomentsRT MomentsBox
  PointsModel PointsSpec PointsProofs PointsElements MomentElementsModel MomentElementsSpec MomentElementsProofs MomentsFacets MomentsRaviart MomentsRTDual MomentsNedelec MomentsTet MomentsCurl3 QFieldSpec QFieldGeometry.
Import PolyVec ListNotations.
Local Open Scope R_scope.

(** * The spaces *)
Definition box_fields (d : nat) (b : nat -> nat -> nat) (f : component_fn) : Prop :=
  (forall c, (c < d)%nat -> box d (b c) (fun v => f (c, v))) /\ (forall c v, (d <= c)%nat -> f (c, v) = 0).
Definition div_bound (n c i : nat) : nat := if (i =? c)%nat then n else (n - 1)%nat.
Definition curl_bound (n c i : nat) : nat := if (i =? c)%nat then (n - 1)%nat else n.
Lemma qdiv_box d n f : qdiv_space d n f <-> box_fields d (div_bound n) f. Proof. reflexivity. Qed.
Lemma qcurl_box d n f : qcurl_space d n f <-> box_fields d (curl_bound n) f. Proof. reflexivity. Qed.
Lemma box_fields_subspace d b : subspace (box_fields d b).
Proof.
  split; [|split].
  - split; [intros c _; apply poly_space_zero|reflexivity].
  - intros a u v [U ZU] [V ZV]. split; [|intros c x Hc; rewrite ZU, ZV by exact Hc; ring]. intros c Hc.
    apply (poly_space_add _ (fun x => a * u (c, x)) (fun x => v (c, x))); [apply (poly_space_scale _ a (fun x => u (c, x))), U, Hc|apply V, Hc].
  - intros u v E [U ZU]. split; [|intros c x Hc; rewrite <- E; apply ZU, Hc]. intros c Hc. apply (poly_space_ext _ (fun x => u (c, x))); [intros x; apply E|apply U, Hc].
Qed.
Lemma box_fields_poly d b N f : (forall c i, (b c i <= N)%nat) -> box_fields d b f -> poly_field d f.
Proof. intros H [F _]. exists (d * N)%nat. intros c Hc. apply (box_degree d (b c) N); [intros i _; apply H|apply F, Hc]. Qed.
Lemma div_bound_le n c i : (div_bound n c i <= n)%nat. Proof. unfold div_bound. destruct (i =? c)%nat; lia. Qed.
Lemma curl_bound_le n c i : (curl_bound n c i <= n)%nat. Proof. unfold curl_bound. destruct (i =? c)%nat; lia. Qed.
Lemma box_fields_as d b g : (forall c, (c < d)%nat -> box d (b c) (g c)) -> box_fields d b (as_field d g).
Proof.
  intros H. split; [|intros c v Hc; unfold as_field; cbn [fst snd]; destruct (Nat.ltb_spec c d); [lia|reflexivity]]. intros c Hc. apply (poly_space_ext _ (g c)); [|apply H, Hc].
  intros v. unfold as_field. cbn [fst snd]. destruct (Nat.ltb_spec c d); [reflexivity|lia].
Qed.

(** the polynomials *)
Lemma unit_fields_independent d L ok : lists_unit_fields L d ok -> (forall c m, ok c m -> length m = d) -> vindependent (map veval L).
Proof.
  intros [ND HU] Hok. apply (independent_by_pivots d L fpiv ND).
  - apply Forall_forall. intros F HF. apply HU in HF. destruct HF as (c & m & Hc & O & Hlen & Hu). apply Hok in O.
    apply Forall_forall. intros p Hp. apply In_nth with (d := []) in Hp. destruct Hp as (j & Hj & <-). rewrite Hu by (rewrite <- Hlen; exact Hj). destruct (j =? c)%nat; [|constructor]. constructor; [exact O|constructor].
  - intros F HF. apply HU in HF. destruct HF as (c & m & Hc & O & Hu). apply Hok in O. rewrite (fpiv_unit d c m F Hc Hu). cbn [fst snd]. split; [exact O|]. split.
    + rewrite (vzcoef_unit _ _ _ _ _ _ Hu). destruct (Nat.ltb_spec c d); [|lia]. rewrite Nat.eqb_refl. cbn. destruct (mono_eq_dec m m); [discriminate|congruence].
    + intros G HG Hne. apply HU in HG. destruct HG as (c' & m' & Hc' & _ & Hu'). rewrite (vzcoef_unit _ _ _ _ _ _ Hu'). destruct (Nat.ltb_spec c d); [|lia]. cbn [andb].
      destruct (Nat.eqb_spec c c') as [Ec|]; [|reflexivity]. rewrite <- Ec in Hu'. destruct (mono_eq_dec m' m) as [Em|]; [|reflexivity]. rewrite Em in Hu'. exfalso. apply Hne. apply (unit_field_unique d c m); assumption.
Qed.
Lemma unit_field_box d b c m F : (c < d)%nat -> length m = d -> (forall i, (i < d)%nat -> (nth i m 0 <= b c i)%nat) -> unit_field d c m F -> box_fields d b (field F).
Proof.
  intros Hc L B [Hl H]. split.
  - intros k Hk. apply (poly_space_ext _ (if (k =? c)%nat then meval m else fun _ => 0)).
    + intros v. unfold field. cbn [fst snd]. rewrite H by exact Hk. destruct (k =? c)%nat; cbn [zeval fold_right fst snd]; [ring|reflexivity].
    + destruct (Nat.eqb_spec k c) as [->|]; [apply poly_space_mono; split; assumption|apply poly_space_zero].
  - intros k v Hk. unfold field. cbn [fst snd]. rewrite nth_overflow by lia. reflexivity.
Qed.

(** * The functions that are integrated against *)
Definition quadrature_upto (variant : string) (n : nat) : Prop := forall k, (2 <= k <= n)%nat -> exists rule, get_quadrature variant k = Ok rule.
Lemma q_span e n variant : (1 <= e <= 2)%nat -> quadrature_upto variant (n + 1) -> exists fs, q_basis_functions (default (box_of e)) n variant = Ok fs /\ length fs = ((n + 1) ^ e)%nat /\
  (forall f, In f fs -> box e (fun _ => n) f) /\ (forall g, box e (fun _ => n) g -> exists a, forall v, g v = sum (length fs) (fun i => a i * nth i fs (fun _ => 0) v)).
Proof.
  intros He Hv. assert (C : e = 1%nat \/ e = 2%nat) by lia. set (c := box_of e). assert (Hc : tensor c) by (destruct C as [->| ->]; unfold c, tensor; cbn; tauto).
  assert (Tc : tdim c = e) by (destruct C as [->| ->]; reflexivity). assert (Tr : r_type (default c) = c) by (destruct C as [->| ->]; reflexivity).
  destruct (quolynomial_set_1d_ok (tdim c) n ltac:(lia)) as (ND & Hin & _).
  assert (N : exists dofs, q_dofs (default c) n variant = Ok dofs /\ length dofs = ((n + 1) ^ e)%nat /\ forall f, poly_space (fun m => length m = tdim c /\ Forall (fun e => (e <= n)%nat) m) f -> (forall p ke, In (p, ke) dofs -> f (env_of p) = 0) -> forall v, f v = 0).
  { destruct n as [|n].
    - assert (D : exists p ke, q_dofs (default c) 0 variant = Ok [(p, ke)]) by (destruct C as [->| ->]; eexists _, _; reflexivity).
      destruct D as (p & ke & D). exists [(p, ke)]. split; [exact D|]. split; [rewrite Nat.pow_1_l; reflexivity|].
      intros f Hf Z. eapply (constant_zero _ f (env_of p)); [|exact Hf|].
      + intros m [_ H]. clear -H. induction H as [|x m Hx _ IH]; [reflexivity|]. cbn [mdeg]. lia.
      + apply (Z p ke). left. reflexivity.
    - destruct (Hv (S n + 1)%nat ltac:(lia)) as [rule Hq]. pose proof (quadrature_nodes variant (S n) rule ltac:(lia) Hq) as HN.
      destruct (q_closed_points c n (fst rule) Hc HN) as [NDp LD].
      exists (q_closed c (S n) (fst rule)). split; [apply q_dofs_closed; [exact Hc|lia|exact Hq]|]. split; [rewrite LD, Tc; f_equal; lia|].
      intros f Hf Z. exact (q_closed_zero c n (fst rule) f Hc HN Hf Z). }
  destruct N as (dofs & HD & LD & HZ).
  destruct (point_element (tdim c) _ (quolynomial_set_1d (tdim c) n) dofs ([], (0, 0)%nat) ND Hin (fun m H => proj1 H)) as (phi & P1 & P2 & _ & P4 & P5); [rewrite LD, quolynomial_set_1d_length, Tc; reflexivity|exact HZ|].
  assert (Q : forall f, poly_space (fun m => length m = tdim c /\ Forall (fun e => (e <= n)%nat) m) f <-> box e (fun _ => n) f).
  { intros f. split; apply poly_space_weaken; intros m [L B]; rewrite Tc in *.
    - split; [exact L|]. intros i Hi. rewrite Forall_forall in B. apply B, nth_In. lia.
    - split; [exact L|]. apply Forall_forall. intros x Hx. apply In_nth with (d := 0%nat) in Hx. destruct Hx as (i & Hi & <-). apply B. lia. }
  exists phi. split; [unfold q_basis_functions; rewrite HD; cbn [rbind]; unfold q_poly; rewrite Tr; exact P1|]. split; [rewrite P2; exact LD|]. split; [intros f Hf; apply Q, P4, Hf|].
  intros g Hg. eexists. intros v. rewrite P2. exact (P5 g (proj2 (Q g) Hg) v).
Qed.

(** * The moments *)
Lemma box_limits e : (1 <= e <= 3)%nat -> integration_limits (box_of e) = Ok (blims e).
Proof. intros H. assert (C : e = 1%nat \/ e = 2%nat \/ e = 3%nat) by lia. destruct C as [->|[->| ->]]; reflexivity. Qed.
Lemma q_facet_moments d k variant : (2 <= d <= 3)%nat -> quadrature_upto variant (k + 1) -> exists fs mk, length fs = ((k + 1) ^ (d - 1))%nat /\
  (forall f, In f fs -> box (d - 1) (fun _ => k) f) /\ (forall g, box (d - 1) (fun _ => k) g -> exists a, forall v, g v = sum (length fs) (fun i => a i * nth i fs (fun _ => 0) v)) /\
  moments_on (default (box_of d)) (d - 1) (fun r => q_basis_functions r k variant) normal_moment = Ok (flat_map (fun i => map (mk i) fs) (range (2 * d))) /\
  (forall i, (i < 2 * d)%nat -> exists dom j n, entity_facts d (d - 1) i dom j (facet_dirs d (fst (box_facet d i))) (facet_origin d i) /\ unit_direction d (fst (box_facet d i)) n /\ mk i = directed dom (blims (d - 1)) j n ((d - 1)%nat, i)).
Proof.
  intros Hd Hv. destruct (q_span (d - 1) k variant ltac:(lia) Hv) as (fs & B & L & HD & HS).
  destruct (finite_choice (fun q => directed (default CPoint) [] 0 [] (0, 0)%nat q) (2 * d) (fun i m => exists dom j n, entity_facts d (d - 1) i dom j (facet_dirs d (fst (box_facet d i))) (facet_origin d i) /\ normal dom = Ok n /\ unit_direction d (fst (box_facet d i)) n /\
    m = directed dom (blims (d - 1)) j n ((d - 1)%nat, i))) as [mk Hmk].
  { intros i Hi. destruct (q_facets_exist d i Hd Hi) as (dom & j & n & F & N & U). exists (directed dom (blims (d - 1)) j n ((d - 1)%nat, i)), dom, j, n. auto. }
  exists fs, mk. split; [exact L|]. split; [exact HD|]. split; [exact HS|]. split; [|intros i Hi; destruct (Hmk i Hi) as (dom & j & n & F & _ & U & E); exists dom, j, n; auto].
  assert (G : exists vs, length vs = (2 * d)%nat /\ sub_entities (default (box_of d)) (d - 1) = Ok vs) by (assert (C : d = 2%nat \/ d = 3%nat) by lia; destruct C as [->| ->]; eexists; (split; [|reflexivity]); reflexivity).
  destruct G as (vs & Lv & Ev). rewrite <- Lv in Hmk |- *.
  apply (moments_on_ok (default (box_of d)) (d - 1) (fun r => q_basis_functions r k variant) normal_moment (box_of (d - 1)) vs).
  - assert (C : d = 2%nat \/ d = 3%nat) by lia; destruct C as [->| ->]; reflexivity.
  - exact Ev.
  - exact B.
  - intros i Hi. destruct (Hmk i Hi) as (dom & j & n & (F1 & F2 & _) & _). exists dom. split; assumption.
  - intros i f Hi _. destruct (Hmk i Hi) as (dom & j & n & (F1 & F2 & F3 & _) & N & _ & ->). unfold normal_moment. cbn [fst snd]. rewrite F1. cbn [rbind]. rewrite N. cbn [rbind].
    unfold make_moment. rewrite F2, (box_limits (d - 1)) by lia. cbn [rbind]. rewrite F3. reflexivity.
Qed.
(** direction, origin of an edge *)
Definition edge_axis (d e : nat) : nat := match d with 2%nat => (1 - fst (box_facet 2 e))%nat | _ => hex_axis e end.
Definition edge_origin (d e : nat) : nat -> R := match d with 2%nat => facet_origin 2 e | _ => box_vertex (fst (hex_edge e)) end.
Definition edge_number (d : nat) : nat := match d with 2 => 4 | _ => 12 end%nat.
Lemma q_tangents_exist d e : (2 <= d <= 3)%nat -> (e < edge_number d)%nat -> exists dom j t, entity_facts d 1 e dom j [edge_axis d e] (edge_origin d e) /\ tangent dom = Ok t /\ unit_direction d (edge_axis d e) t.
Proof.
  intros Hd He. assert (C : d = 2%nat \/ d = 3%nat) by lia. destruct C as [->| ->]; [|apply q_tangent3, He].
  destruct (q_tangent2 e He) as (dom & j & t & F & T). exists dom, j, t. split; [|exact T]. cbn [edge_axis edge_origin].
  replace [(1 - fst (box_facet 2 e))%nat] with (facet_dirs 2 (fst (box_facet 2 e))); [exact F|]. cbn [edge_number] in He. destruct e as [|[|[|[|e]]]]; try reflexivity; lia.
Qed.
Lemma q_edge_moments d k variant : (2 <= d <= 3)%nat -> quadrature_upto variant (k + 1) -> exists fs mk, length fs = (k + 1)%nat /\
  (forall f, In f fs -> box 1 (fun _ => k) f) /\ (forall g, box 1 (fun _ => k) g -> exists a, forall v, g v = sum (length fs) (fun i => a i * nth i fs (fun _ => 0) v)) /\
  moments_on (default (box_of d)) 1 (fun r => q_basis_functions r k variant) tangent_moment = Ok (flat_map (fun i => map (mk i) fs) (range (edge_number d))) /\
  (forall i, (i < edge_number d)%nat -> exists dom j t, entity_facts d 1 i dom j [edge_axis d i] (edge_origin d i) /\ unit_direction d (edge_axis d i) t /\ mk i = directed dom (blims 1) j t (1%nat, i)).
Proof.
  intros Hd Hv. destruct (q_span 1 k variant ltac:(lia) Hv) as (fs & B & L & HD & HS). rewrite Nat.pow_1_r in L.
  destruct (finite_choice (fun q => directed (default CPoint) [] 0 [] (0, 0)%nat q) (edge_number d) (fun i m => exists dom j t, entity_facts d 1 i dom j [edge_axis d i] (edge_origin d i) /\ tangent dom = Ok t /\ unit_direction d (edge_axis d i) t /\
    m = directed dom (blims 1) j t (1%nat, i))) as [mk Hmk].
  { intros i Hi. destruct (q_tangents_exist d i Hd Hi) as (dom & j & t & F & N & U). exists (directed dom (blims 1) j t (1%nat, i)), dom, j, t. auto. }
  exists fs, mk. split; [exact L|]. split; [exact HD|]. split; [exact HS|]. split; [|intros i Hi; destruct (Hmk i Hi) as (dom & j & t & F & _ & U & E); exists dom, j, t; auto].
  assert (G : exists vs, length vs = edge_number d /\ sub_entities (default (box_of d)) 1 = Ok vs) by (assert (C : d = 2%nat \/ d = 3%nat) by lia; destruct C as [->| ->]; eexists; (split; [|reflexivity]); reflexivity).
  destruct G as (vs & Lv & Ev). rewrite <- Lv in Hmk |- *.
  apply (moments_on_ok (default (box_of d)) 1 (fun r => q_basis_functions r k variant) tangent_moment CInterval vs).
  - assert (C : d = 2%nat \/ d = 3%nat) by lia; destruct C as [->| ->]; reflexivity.
  - exact Ev.
  - exact B.
  - intros i Hi. destruct (Hmk i Hi) as (dom & j & n & (F1 & F2 & _) & _). exists dom. split; assumption.
  - intros i f Hi _. destruct (Hmk i Hi) as (dom & j & n & (F1 & F2 & F3 & _) & N & _ & ->). unfold tangent_moment. cbn [fst snd]. rewrite F1. cbn [rbind]. rewrite N. cbn [rbind].
    unfold make_moment. rewrite F2, (box_limits 1) by lia. cbn [rbind]. rewrite F3. reflexivity.
Qed.
Definition box_face_moment (dom : reference) (j : R) (i : nat) (psi : component_fn) : moment_dof :=
  {| mo_domain := dom; mo_limits := blims 2; mo_jacobian := j; mo_f := mapped dom j psi; mo_entity := (2%nat, i) |}.
Lemma q_face_moments (basis : reference -> res (list component_fn)) fs : basis (default CQuadrilateral) = Ok fs -> exists mk,
  moments_on (default CHexahedron) 2 basis integral_moment = Ok (flat_map (fun i => map (mk i) fs) (range 6)) /\
  (forall i, (i < 6)%nat -> exists dom j, entity_facts 3 2 i dom j (facet_dirs 3 (fst (box_facet 3 i))) (facet_origin 3 i) /\ mk i = box_face_moment dom j i).
Proof.
  intros B. destruct (finite_choice (box_face_moment (default CPoint) 0 0) 6 (fun i m => exists dom j, entity_facts 3 2 i dom j (facet_dirs 3 (fst (box_facet 3 i))) (facet_origin 3 i) /\ m = box_face_moment dom j i)) as [mk Hmk].
  { intros i Hi. destruct (q_facets_exist 3 i ltac:(lia) ltac:(lia)) as (dom & j & n & F & _). exists (box_face_moment dom j i), dom, j. auto. }
  exists mk. split; [|exact Hmk].
  assert (G : exists vs, length vs = 6%nat /\ sub_entities (default CHexahedron) 2 = Ok vs) by (eexists; (split; [|reflexivity]); reflexivity).
  destruct G as (vs & Lv & Ev). rewrite <- Lv in Hmk |- *.
  apply (moments_on_ok (default CHexahedron) 2 basis integral_moment CQuadrilateral vs).
  - reflexivity.
  - exact Ev.
  - exact B.
  - intros i Hi. destruct (Hmk i Hi) as (dom & j & (F1 & F2 & _) & _). exists dom. split; assumption.
  - intros i f Hi _. destruct (Hmk i Hi) as (dom & j & (F1 & F2 & F3 & _) & ->). unfold integral_moment. cbn [fst snd]. cbn [box_of] in F1. rewrite F1. cbn [rbind]. rewrite F2. cbn [box_of tdim].
    change (2 =? gdim (default CHexahedron))%nat with false. cbv iota. rewrite F3. cbn [rbind]. unfold make_moment. rewrite F2, (box_limits 2) by lia. cbn [rbind]. rewrite F3. reflexivity.
Qed.
Definition box_interior (d : nat) (psi : component_fn) : moment_dof :=
  {| mo_domain := default (box_of d); mo_limits := blims d; mo_jacobian := 1; mo_f := psi; mo_entity := (d, 0)%nat |}.
Lemma box_jacobian d : (2 <= d <= 3)%nat -> exists j, jacobian (default (box_of d)) = Ok j /\ j = 1.
Proof.
  intros H. assert (C : d = 2%nat \/ d = 3%nat) by lia. destruct C as [->| ->]; eexists; (split; [reflexivity|]); unfold fabs, fnorm; cbn;
    match goal with |- sqrt ?x = 1 => replace x with 1 by ring; apply sqrt_1 | |- Rabs ?x = 1 => replace x with 1 by ring; apply Rabs_R1 end.
Qed.
Lemma box_points d t c : (2 <= d <= 3)%nat -> (c < d)%nat -> point_of (default (box_of d)) t c = t c.
Proof.
  intros H Hc. assert (C : d = 2%nat \/ d = 3%nat) by lia. destruct C as [->| ->]; unfold point_of; cbn; destruct c as [|[|[|c]]]; try lia; cbn; lra.
Qed.
Lemma box_interior_moments d (basis : reference -> res (list component_fn)) fs : (2 <= d <= 3)%nat -> basis (default (box_of d)) = Ok fs ->
  moments_on (default (box_of d)) d basis integral_moment = Ok (map (box_interior d) fs).
Proof.
  intros H HB. destruct (box_jacobian d H) as (j & HJ & Ej). assert (C : d = 2%nat \/ d = 3%nat) by lia.
  assert (G : exists vs, length vs = 1%nat /\ sub_entities (default (box_of d)) d = Ok vs) by (destruct C as [->| ->]; eexists; (split; [|reflexivity]); reflexivity).
  destruct G as (vs & L & HV). rewrite (moments_on_ok (default (box_of d)) d basis integral_moment (box_of d) vs fs (fun _ => box_interior d)).
  - rewrite L. cbn [range seq flat_map]. rewrite app_nil_r. reflexivity.
  - destruct C as [->| ->]; reflexivity.
  - exact HV.
  - exact HB.
  - intros i Hi. exists (default (box_of d)). split; [destruct C as [->| ->]; reflexivity|destruct C as [->| ->]; reflexivity].
  - intros i f Hi _. rewrite L in Hi. assert (i = 0%nat) by lia. subst i. unfold integral_moment. cbn [fst snd].
    assert (S : sub_entity (default (box_of d)) d 0 false = Ok (default (box_of d))) by (destruct C as [->| ->]; reflexivity). rewrite S. cbn [rbind].
    assert (T : (tdim (r_type (default (box_of d))) =? gdim (default (box_of d)))%nat = true) by (destruct C as [->| ->]; reflexivity). rewrite T.
    unfold make_moment. assert (LL : integration_limits (r_type (default (box_of d))) = Ok (blims d)) by (destruct C as [->| ->]; reflexivity). rewrite LL. cbn [rbind].
    rewrite HJ. cbn [rmap]. subst j. reflexivity.
Qed.

(** values *)
Lemma box_interior_value d f q I : (2 <= d <= 3)%nat -> poly_field d f -> moment_value (box_interior d q) f I -> iterated_integral (blims d) (fun v => sum d (fun c => f (c, v) * q (c, v))) (fun _ => 0) I.
Proof.
  intros Hd (m & Hm) H. unfold moment_value in H. cbn [mo_limits mo_domain mo_f mo_jacobian box_interior] in H.
  assert (G : gdim (default (box_of d)) = d) by (assert (C : d = 2%nat \/ d = 3%nat) by lia; destruct C as [->| ->]; reflexivity). rewrite G in H.
  eapply iterated_ext'; [|exact H]. intros t. cbv beta. rewrite Rmult_1_r.
  apply sum_ext. intros c Hc. f_equal. apply (degree_local d m (fun v => f (c, v)) _ _ (Hm c Hc)). intros j Hj. apply box_points; assumption.
Qed.
Lemma box_interior_good d q : (2 <= d <= 3)%nat -> poly_field d q -> good_moment d d (box_interior d q).
Proof.
  intros Hd [k Hq]. assert (C : d = 2%nat \/ d = 3%nat) by lia. split; [lia|]. split; [apply blims_good; lia|]. split; [destruct C as [->| ->]; reflexivity|]. split; [destruct C as [->| ->]; reflexivity|]. exists k. exact Hq.
Qed.
Lemma ind_sum d i (g : nat -> R) : (i < d)%nat -> sum d (fun c => g c * ind i c) = g i.
Proof.
  intros Hi. rewrite (sum_single d (fun c => g c * ind i c) i) by (try exact Hi; intros c Hc Hne; unfold ind; rewrite (proj2 (Nat.eqb_neq c i) Hne); ring). unfold ind. rewrite Nat.eqb_refl. ring.
Qed.
Lemma aligned_dirs d e dom dirs o k : aligned d e dom dirs o -> (k < e)%nat -> (nth k dirs 0 < d)%nat.
Proof. intros (_ & _ & I & _) Hk. destruct (axes_shape d e dirs I) as [[-> ->]|[[-> ->]|[-> ->]]]; cbn [axes_of In] in I; destruct k as [|[|k]]; try (exfalso; lia); repeat (destruct I as [<-|I]; [cbn; lia|]); destruct I. Qed.
Definition box_pull (dom : reference) (dirs : list nat) (f : component_fn) (k : nat) (t : point) : R := f (nth k dirs 0%nat, point_of dom t).
Lemma box_face_value i dom j dirs o psi f I : aligned 3 2 dom dirs o -> j <> 0 -> moment_value (box_face_moment dom j i psi) f I ->
  iterated_integral (blims 2) (fun t => sum 2 (fun k => box_pull dom dirs f k t * psi (k, t))) (fun _ => 0) I.
Proof.
  intros A Hj H. assert (A' := A). destruct A' as (G & La & _ & Ha & _). unfold moment_value in H. cbn [mo_limits mo_domain mo_f mo_jacobian box_face_moment] in H. rewrite G in H.
  eapply iterated_ext'; [|exact H]. intros t. cbv beta.
  rewrite (sum_ext 2 (fun k => box_pull dom dirs f k t * psi (k, t)) (fun k => sum 3 (fun c => f (c, point_of dom t) * ind (nth k dirs 0%nat) c * psi (k, t)))).
  2: { intros k Hk. rewrite sum_scal_r. f_equal. symmetry. apply (ind_sum 3 (nth k dirs 0%nat) (fun c => f (c, point_of dom t))). apply (aligned_dirs 3 2 dom dirs o k A Hk). }
  rewrite sum_swap. rewrite <- sum_scal_r. apply sum_ext. intros c Hc. rewrite (mapped_value dom j psi c t La), Rmult_assoc, <- sum_scal_r, <- sum_scal. apply sum_ext. intros k Hk. rewrite (Ha k c Hk Hc). field. exact Hj.
Qed.
Lemma box_face_good i dom j dirs o psi : aligned 3 2 dom dirs o -> poly_field 2 psi -> good_moment 3 2 (box_face_moment dom j i psi).
Proof.
  intros (G & La & _) [k H]. split; [lia|]. split; [apply (blims_good 2); lia|]. split; [exact G|]. split; [exact La|]. exists k. intros c Hc. cbn [mo_f box_face_moment].
  apply (poly_space_ext _ (fun t => sum 2 (fun k => nth c (nth k (r_axes dom) []) 0 / j * psi (k, t)))); [intros t; symmetry; apply mapped_value, La|]. apply sum_poly. intros a Ha. apply (poly_space_scale _ _ (fun t => psi (a, t))), H, Ha.
Qed.
(** the component in a direction, from the moments against functions of bounded degree *)
Lemma aligned_zero d e i dom j dirs o x k n ent f fs N b : (2 <= d <= 3)%nat -> entity_facts d e i dom j dirs o -> (x < d)%nat -> unit_direction d x n -> box_fields d b f -> (forall c l, (b c l <= N)%nat) ->
  (forall l, (l < e)%nat -> (b x (nth l dirs 0) <= k)%nat) ->
  (forall g, box e (fun _ => k) g -> exists a, forall v, g v = sum (length fs) (fun i => a i * nth i fs (fun _ => 0) v)) ->
  (forall q, In q fs -> moment_value (directed dom (blims e) j n ent q) f 0) ->
  forall v, (forall c, (c < d)%nat -> ~ In c dirs -> v c = o c) -> f (x, v) = 0.
Proof.
  intros Hd (_ & _ & _ & Hj & A) Hx (s & Hs & Hn) Hf HN Hb HS HZ v Hv.
  assert (P := box_fields_poly d b N f HN Hf). destruct P as [m Hm]. assert (A' := A). destruct A' as (G & La & I & _).
  assert (He : (1 <= e <= 3)%nat) by (destruct (axes_shape d e dirs I) as [[-> ->]|[[-> ->]|[-> ->]]]; lia).
  assert (E : forall t, sum d (fun c => f (c, point_of dom t) * ind x c) = f (x, point_of dom t)) by (intros t; apply (ind_sum d x (fun c => f (c, point_of dom t)) Hx)).
  assert (B : box e (fun _ => k) (fun t => sum d (fun c => f (c, point_of dom t) * ind x c))).
  { apply (poly_space_ext _ (fun t => f (x, point_of dom t))); [intros; symmetry; apply E|]. eapply box_weaken; [|apply (box_comp d e dom dirs o (b x) (fun v => f (x, v)) A), Hf, Hx]. exact Hb. }
  destruct (box_bounded _ _ _ B) as [K HK].
  pose proof (directed_zero_on (box e (fun _ => k)) (blims e) d e K dom j n ent (ind x) s f fs He (blims_domain e He) G Hj Hs Hn HK B HS HZ (fun l => v (nth l dirs 0%nat))) as Z. rewrite E in Z. rewrite <- Z.
  apply (degree_local d m (fun v => f (x, v)) _ _ (Hm x Hx)). intros c Hc. symmetry. apply (aligned_onto d e dom dirs o v A Hv c Hc).
Qed.

(** * Fields whose moments vanish are zero *)
Lemma qdiv_zero d n (f : nat -> sfun) : (2 <= d <= 3)%nat -> (1 <= n)%nat -> (forall c, (c < d)%nat -> box d (div_bound n c) (f c)) ->
  (forall c v, (c < d)%nat -> v c = 0 -> f c v = 0) -> (forall c v, (c < d)%nat -> v c = 1 -> f c v = 0) ->
  (forall psi : nat -> sfun, (2 <= n)%nat -> (forall c, (c < d)%nat -> box d (curl_bound (n - 1) c) (psi c)) -> iterated_integral (blims d) (fun v => sum d (fun c => f c v * psi c v)) (fun _ => 0) 0) ->
  forall c v, (c < d)%nat -> f c v = 0.
Proof.
  intros Hd Hn Hf Z0 Z1 HO.
  destruct (finite_choice (fun _ : point => 0) d (fun c h => box d (curl_bound (n - 1) c) h /\ ((n < 2)%nat -> forall v, h v = 0) /\ forall v, f c v = v c * (1 - v c) * h v)) as [h Hh].
  { intros c Hc. destruct (box_ends d (div_bound n c) c (f c) Hc (Hf c Hc) (fun v => Z0 c v Hc) (fun v => Z1 c v Hc)) as (h & Hh & Zh & Eh). exists h. unfold div_bound in Zh at 1. rewrite Nat.eqb_refl in Zh. split; [|split; assumption].
    eapply box_weaken; [|exact Hh]. intros i _. unfold div_bound, curl_bound. rewrite Nat.eqb_refl. destruct (i =? c)%nat; lia. }
  destruct (Nat.lt_ge_cases n 2) as [L|L].
  { intros c v Hc. destruct (Hh c Hc) as (_ & Z & E). rewrite (E v), (Z L). ring. }
  apply (weighted_zero d (d * n) f (fun c v => v c * (1 - v c)) h ltac:(lia)).
  - intros c Hc. apply (box_degree d (curl_bound (n - 1) c)); [|apply Hh, Hc]. intros i _. pose proof (curl_bound_le (n - 1) c i). lia.
  - intros c Hc. apply (box_degree d (div_bound n c)); [|apply Hf, Hc]. intros i _. apply div_bound_le.
  - intros c v Hc. apply Hh, Hc.
  - intros c v Hc Hv. pose proof (inside_box d v c ltac:(lia) Hv Hc) as P. apply Rmult_lt_0_compat; lra.
  - apply HO; [exact L|]. intros c Hc. apply Hh, Hc.
Qed.
Lemma qcurl_zero2 n (f : nat -> sfun) : (1 <= n)%nat -> (forall c, (c < 2)%nat -> box 2 (curl_bound n c) (f c)) ->
  (forall c v, (c < 2)%nat -> v (1 - c)%nat = 0 -> f c v = 0) -> (forall c v, (c < 2)%nat -> v (1 - c)%nat = 1 -> f c v = 0) ->
  (forall psi : nat -> sfun, (2 <= n)%nat -> (forall c, (c < 2)%nat -> box 2 (div_bound (n - 1) c) (psi c)) -> iterated_integral (blims 2) (fun v => sum 2 (fun c => f c v * psi c v)) (fun _ => 0) 0) ->
  forall c v, (c < 2)%nat -> f c v = 0.
Proof.
  intros Hn Hf Z0 Z1 HO.
  destruct (finite_choice (fun _ : point => 0) 2 (fun c h => box 2 (div_bound (n - 1) c) h /\ ((n < 2)%nat -> forall v, h v = 0) /\ forall v, f c v = v (1 - c)%nat * (1 - v (1 - c)%nat) * h v)) as [h Hh].
  { intros c Hc. destruct (box_ends 2 (curl_bound n c) (1 - c) (f c) ltac:(lia) (Hf c Hc) (fun v => Z0 c v Hc) (fun v => Z1 c v Hc)) as (h & Hh & Zh & Eh). exists h.
    assert (E : curl_bound n c (1 - c) = n) by (unfold curl_bound; destruct (Nat.eqb_spec (1 - c) c); [lia|reflexivity]). rewrite E in Zh, Hh. split; [|split; assumption].
    eapply box_weaken; [|exact Hh]. intros i Hi. unfold div_bound, curl_bound. destruct (Nat.eqb_spec i (1 - c)), (Nat.eqb_spec i c); lia. }
  destruct (Nat.lt_ge_cases n 2) as [L|L].
  { intros c v Hc. destruct (Hh c Hc) as (_ & Z & E). rewrite (E v), (Z L). ring. }
  apply (weighted_zero 2 (2 * n) f (fun c v => v (1 - c)%nat * (1 - v (1 - c)%nat)) h ltac:(lia)).
  - intros c Hc. apply (box_degree 2 (div_bound (n - 1) c)); [|apply Hh, Hc]. intros i _. pose proof (div_bound_le (n - 1) c i). lia.
  - intros c Hc. apply (box_degree 2 (curl_bound n c)); [|apply Hf, Hc]. intros i _. apply curl_bound_le.
  - intros c v Hc. apply Hh, Hc.
  - intros c v Hc Hv. pose proof (inside_box 2 v (1 - c) ltac:(lia) Hv ltac:(lia)) as P. apply Rmult_lt_0_compat; lra.
  - apply HO; [exact L|]. intros c Hc. apply Hh, Hc.
Qed.
Definition next (c : nat) : nat := match c with 0 => 1 | 1 => 2 | _ => 0 end%nat.
Lemma qcurl_zero3 n (f : nat -> sfun) : (1 <= n)%nat -> (forall c, (c < 3)%nat -> box 3 (curl_bound n c) (f c)) ->
  (forall c i v, (c < 3)%nat -> (i < 3)%nat -> i <> c -> v i = 0 \/ v i = 1 -> f c v = 0) ->
  (forall psi : nat -> sfun, (2 <= n)%nat -> (forall c, (c < 3)%nat -> box 3 (div_bound (n - 1) c) (psi c)) -> iterated_integral (blims 3) (fun v => sum 3 (fun c => f c v * psi c v)) (fun _ => 0) 0) ->
  forall c v, (c < 3)%nat -> f c v = 0.
Proof.
  intros Hn Hf Z HO.
  destruct (finite_choice (fun _ : point => 0) 3 (fun c h => box 3 (div_bound (n - 1) c) h /\ ((n < 2)%nat -> forall v, h v = 0) /\ forall v, f c v = v (next c) * (1 - v (next c)) * (v (next (next c)) * (1 - v (next (next c)))) * h v)) as [h Hh].
  { intros c Hc. assert (N : (next c < 3 /\ next (next c) < 3 /\ next c <> c /\ next (next c) <> c /\ next c <> next (next c))%nat) by (destruct c as [|[|[|c]]]; cbn; lia). destruct N as (N1 & N2 & N3 & N4 & N5).
    destruct (box_ends 3 (curl_bound n c) (next c) (f c) N1 (Hf c Hc) (fun v Hv => Z c (next c) v Hc N1 N3 (or_introl Hv)) (fun v Hv => Z c (next c) v Hc N1 N3 (or_intror Hv))) as (g & Hg & Zg & Eg).
    destruct (box_ends 3 _ (next (next c)) g N2 Hg) as (h & Hh & Zh & Eh).
    - apply (box_zeros 3 _ (next c) (next (next c)) 0 (f c) g N1 N2 N5 Hg Eg). intros v Hv. apply (Z c (next (next c)) v Hc N2 N4 (or_introl Hv)).
    - apply (box_zeros 3 _ (next c) (next (next c)) 1 (f c) g N1 N2 N5 Hg Eg). intros v Hv. apply (Z c (next (next c)) v Hc N2 N4 (or_intror Hv)).
    - assert (E1 : curl_bound n c (next c) = n) by (unfold curl_bound; destruct (Nat.eqb_spec (next c) c); [lia|reflexivity]). assert (E2 : curl_bound n c (next (next c)) = n) by (unfold curl_bound; destruct (Nat.eqb_spec (next (next c)) c); [lia|reflexivity]).
      assert (E3 : (next (next c) =? next c)%nat = false) by (apply Nat.eqb_neq; lia).
      rewrite E3, E2 in Zh, Hh. rewrite E1 in Hh. exists h. split; [|split; [exact Zh|intros v; rewrite Eg, Eh; ring]].
      eapply box_weaken; [|exact Hh]. intros i Hi. unfold div_bound, curl_bound. destruct (Nat.eqb_spec i (next (next c))), (Nat.eqb_spec i (next c)), (Nat.eqb_spec i c); lia. }
  destruct (Nat.lt_ge_cases n 2) as [L|L].
  { intros c v Hc. destruct (Hh c Hc) as (_ & Z' & E). rewrite (E v), (Z' L). ring. }
  apply (weighted_zero 3 (3 * n) f (fun c v => v (next c) * (1 - v (next c)) * (v (next (next c)) * (1 - v (next (next c))))) h ltac:(lia)).
  - intros c Hc. apply (box_degree 3 (div_bound (n - 1) c)); [|apply Hh, Hc]. intros i _. pose proof (div_bound_le (n - 1) c i). lia.
  - intros c Hc. apply (box_degree 3 (curl_bound n c)); [|apply Hf, Hc]. intros i _. apply curl_bound_le.
  - intros c v Hc. apply Hh, Hc.
  - intros c v Hc Hv. assert (N : (next c < 3 /\ next (next c) < 3)%nat) by (destruct c as [|[|[|c]]]; cbn; lia).
    pose proof (inside_box 3 v (next c) ltac:(lia) Hv ltac:(lia)). pose proof (inside_box 3 v (next (next c)) ltac:(lia) Hv ltac:(lia)). repeat apply Rmult_lt_0_compat; lra.
  - apply HO; [exact L|]. intros c Hc. apply Hh, Hc.
Qed.
