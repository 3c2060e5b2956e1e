(** C54: Crouzeix-Raviart elements. *)
From Coq Require Import String Arith Bool Reals Lra Lia Sorted List.
From Verif Require Import Base PolyLib PolySetsModel QuadratureModel QuadratureProofs ReferencesModel ReferencesSpec ReferencesProofs ReferencesGeometry
  LinAlg CiarletModel CiarletProofs PropertiesCiarlet PolySetsProofs ElementModel LagrangeModel UnisolvenceProofs LagrangeProofs LagrangeKey
  LagrangeUnisolvence PropertiesLagrange QProofs QDofs SpanLib BubbleModel BubbleProofs BubbleTensor CRModel CRProofs.
Import ListNotations.
Open Scope R_scope.

Lemma make_cr_triangle vs r n variant rule rule' : points 3 2 vs -> make_reference CTriangle vs = Ok r -> (1 <= n)%nat ->
  get_quadrature variant (n + 2) = Ok rule -> get_quadrature variant (n + 1) = Ok rule' ->
  exists poly, polynomial_set_1d 2 n = Ok poly /\ make_cr r n variant = Ok (poly, cr_points r n (fst rule) (fst rule')) /\
    length poly = length (cr_points r n (fst rule) (fst rule')).
Proof.
  intros Hp Hr Hn Hq Hq'. destruct (polynomial_set_1d_ok 2 n ltac:(lia)) as (poly & Ep & _). exists poly. split; [exact Ep|].
  assert (L := cr_count vs r n (fst rule) (fst rule') poly Hp Hr Hn Ep). split; [|symmetry; exact L].
  assert (T : r_type r = CTriangle) by (apply (reference_parts CTriangle vs r (or_intror (or_introl eq_refl)) Hr)).
  unfold make_cr. rewrite T. rewrite (proj2 (Nat.ltb_ge n 1) Hn).
  assert (E : cr_dofs r n variant = Ok (cr_points r n (fst rule) (fst rule'))).
  { apply (cr_dofs_closed CTriangle vs); auto. replace (n + tdim CTriangle - 1)%nat with (n + 1)%nat by (simpl; lia). exact Hq'. }
  rewrite E. cbn [rbind tdim]. rewrite Ep. cbn [rbind]. rewrite <- L, Nat.eqb_refl. reflexivity.
Qed.

(** Odd orders on any triangle, for every variant whose rule is symmetric: the element exists, a polynomial of the space on
    which all degrees of freedom vanish is zero, and the dual basis functions exist. *)
Theorem C54_odd_orders : forall vs r n variant rule rule', points 3 2 vs -> map_det CTriangle vs <> 0 -> make_reference CTriangle vs = Ok r ->
  Nat.Odd n -> get_quadrature variant (n + 2) = Ok rule -> get_quadrature variant (n + 1) = Ok rule' ->
  (forall i, (i <= n)%nat -> nth i (fst rule') 0 + nth (n - i) (fst rule') 0 = 1) ->
  exists poly dofs phi, make_cr r n variant = Ok (poly, dofs) /\
  (forall f, poly_space (fun m => length m = 2%nat /\ (mdeg m <= n)%nat) f -> (forall p ke, In (p, ke) dofs -> f (env_of p) = 0) -> forall v, f v = 0) /\
  point_basis_functions poly dofs = Ok phi /\ length phi = length dofs /\
  (forall i j, (i < length dofs)%nat -> (j < length dofs)%nat ->
     nth j phi (fun _ => 0) (env_of (fst (nth i dofs ([], (0, 0)%nat)))) = if (i =? j)%nat then 1 else 0) /\
  (forall f, In f phi -> poly_space (fun m => length m = 2%nat /\ (mdeg m <= n)%nat) f).
Proof.
  intros vs r n variant rule rule' Hp HD Hr Ho Hq Hq' Sy.
  assert (Hn : (1 <= n)%nat) by (destruct Ho; lia).
  destruct (make_cr_triangle vs r n variant rule rule' Hp Hr Hn Hq Hq') as (poly & Ep & Em & L).
  assert (N1 : nodes_ok (n + 1) (fst rule)) by (apply (quadrature_nodes variant); [lia|]; replace (n + 1 + 1)%nat with (n + 2)%nat by lia; exact Hq).
  assert (N2 : nodes_ok n (fst rule')) by (apply (quadrature_nodes variant); [lia|exact Hq']).
  assert (U : forall f, degree_space 2 n f -> (forall p ke, In (p, ke) (cr_points r n (fst rule) (fst rule')) -> f (env_of p) = 0) -> forall v, f v = 0).
  { intros f Hf Z. apply (cr_zero_iff vs r n (fst rule) (fst rule') f Hp Hr Hf) in Z. destruct Z as [Ze Zi].
    apply (odd_zero vs r n (fst rule) (fst rule') Hp HD Hr Ho N1); try assumption.
    - intros i j Hij Hj. destruct N2 as (L2 & S2 & _). pose proof (sorted_nth (fst rule') S2 i j ltac:(lia)). lra.
    - intros i j Hi Hj Hij. destruct (qn_inside n (fst rule') i N2 ltac:(lia)) as [E1 B1]. destruct (qn_inside n (fst rule') j N2 ltac:(lia)) as [E2 B2].
      rewrite E1 in B1. rewrite E2 in B2. destruct N2 as (L2 & S2 & _). pose proof (sorted_nth (fst rule') S2 j (n - i) ltac:(lia)). pose proof (Sy i ltac:(lia)). lra. }
  destruct (polynomial_set_1d_ok 2 n ltac:(lia)) as (poly' & Ep' & X1 & X2 & _). rewrite Ep in Ep'. injection Ep' as <-.
  destruct (point_element 2 (fun m => length m = 2%nat /\ (mdeg m <= n)%nat) poly (cr_points r n (fst rule) (fst rule')) ([], (0, 0)%nat) X1 X2
    (fun m H => proj1 H) (eq_sym L) U) as (phi & P1 & P2 & P3 & P4 & _).
  exists poly, (cr_points r n (fst rule) (fst rule')), phi. split; [exact Em|]. split; [exact U|]. split; [exact P1|]. split; [exact P2|]. split; [exact P3|exact P4].
Qed.
Print Assumptions C54_odd_orders.

Lemma equispaced_nth n i : (1 <= n)%nat -> (i <= n)%nat -> nth i (fst (equispaced (n + 1))) 0 = INR i / INR n.
Proof.
  intros Hn Hi. unfold equispaced. cbn [fst]. rewrite (nth_indep _ 0 (INR 0 / (INR (n + 1) - 1))) by (rewrite map_length, length_range; lia).
  rewrite (map_nth (fun i => INR i / (INR (n + 1) - 1))). unfold range. rewrite seq_nth by lia. cbn [Nat.add]. replace (INR (n + 1) - 1) with (INR n) by (rewrite plus_INR; simpl (INR 1); ring). reflexivity.
Qed.
Lemma equispaced_symmetric n i : (1 <= n)%nat -> (i <= n)%nat -> nth i (fst (equispaced (n + 1))) 0 + nth (n - i) (fst (equispaced (n + 1))) 0 = 1.
Proof.
  intros Hn Hi. rewrite !equispaced_nth by lia. rewrite minus_INR by lia. assert (0 < INR n) by (apply lt_0_INR; lia). field. lra.
Qed.

(** The order 1 element of any tetrahedron, the only one accepted there. *)
Theorem C54_tetrahedron : forall vs r, points 4 3 vs -> map_det CTetrahedron vs <> 0 -> make_reference CTetrahedron vs = Ok r ->
  (exists poly dofs phi, make_cr r 1 "equispaced" = Ok (poly, dofs) /\ length dofs = 4%nat /\
   (forall f, poly_space (fun m => length m = 3%nat /\ (mdeg m <= 1)%nat) f -> (forall p ke, In (p, ke) dofs -> f (env_of p) = 0) -> forall v, f v = 0) /\
   point_basis_functions poly dofs = Ok phi /\
   (forall i j, (i < 4)%nat -> (j < 4)%nat -> nth j phi (fun _ => 0) (env_of (fst (nth i dofs ([], (0, 0)%nat)))) = if (i =? j)%nat then 1 else 0)) /\
  forall n variant, n <> 1%nat -> make_cr r n variant = Err ValueError.
Proof.
  intros vs r Hp HD Hr. assert (Hc : simplex CTetrahedron) by (right; right; reflexivity).
  assert (T : r_type r = CTetrahedron) by (apply (reference_parts CTetrahedron vs r Hc Hr)).
  split; [|intros n variant Hn; unfold make_cr; rewrite T, (proj2 (Nat.eqb_neq n 1) Hn); reflexivity].
  set (dofs := cr_points r 1 (fst (equispaced 4)) (fst (equispaced 3))).
  assert (E : cr_dofs r 1 "equispaced" = Ok dofs) by (apply (cr_dofs_closed CTetrahedron vs); auto).
  destruct (polynomial_set_1d_ok 3 1 ltac:(lia)) as (poly & Ep & X1 & X2 & _).
  assert (Ld : length dofs = 4%nat).
  { destruct Hp as [L _]. unfold dofs. clear - L Hr. peel vs L. injection Hr as <-. reflexivity. }
  assert (Lp : length poly = 4%nat).
  { destruct (polynomial_set_1d_length 3 1 poly Ep) as [[H _]|[[H _]|[_ H]]]; try discriminate H. simpl in H. lia. }
  assert (U : forall f, degree_space 3 1 f -> (forall p ke, In (p, ke) dofs -> f (env_of p) = 0) -> forall v, f v = 0).
  { intros f Hf Z. destruct (C19_lagrange_basis CTetrahedron vs r 1 Hc Hp HD Hr (le_n _)) as (ld & phi & G1 & G2 & G3 & _ & _ & G6).
    destruct (p1 CTetrahedron vs r Hc Hp HD Hr) as (phi' & G2' & Lphi & _ & V).
    unfold lagrange_functions in G2'. rewrite T in G2'. rewrite G2 in G2'. injection G2' as <-. cbn [tdim] in Lphi, V.
    assert (L4 : length ld = 4%nat) by (transitivity (length phi); [symmetry; exact G3|exact Lphi]). rewrite L4 in G6.
    pose (c := fun i => f (env_of (fst (nth i ld ([], (0, 0)%nat))))).
    assert (F : forall w, f (fun j => param vs (whole CTetrahedron) w j) = c 0%nat * bc 3 w 0 + c 1%nat * bc 3 w 1 + c 2%nat * bc 3 w 2 + c 3%nat * bc 3 w 3).
    { intros w. rewrite (G6 f Hf). cbn [sum]. rewrite !V by lia. unfold c. ring. }
    assert (PT : forall e, (e < 4)%nat -> f (fun j => param vs (whole CTetrahedron) (fun k => if (S k =? e)%nat then 0 else 1 / 3) j) = 0).
    { intros e He. etransitivity; [|apply (Z (qpoint (ent_of r 2 e) (fst (equispaced 4)) [1; 1]%nat) (2%nat, e))].
      - apply (degree_local 3 1 f _ _ Hf). intros j Hj. destruct Hp as [L F0]. clear - L F0 Hr He Hj. peel vs L. repeat rewrite Forall_cons_iff in F0. decompose [and] F0. clear F0.
        injection Hr as <-. unfold ReferencesModel.pt in *.
        assert (X3 : forall l : list R, length l = 3%nat -> exists a b c, l = [a; b; c]) by (intros [|a [|b [|c [|]]]] Hl; try discriminate Hl; exists a, b, c; reflexivity).
        repeat match goal with Hl : length ?l = 3%nat |- _ => destruct (X3 l Hl) as (? & ? & ? & ->); clear Hl end.
        destruct e as [|[|[|[|e]]]]; [| | | |lia]; (destruct j as [|[|[|j]]]; [| | |lia]); cbn; unfold co; cbn [nth]; field.
      - unfold dofs, cr_points. rewrite T. cbn [tdim Nat.sub]. apply in_app_iff. left. apply in_closed_entity. split; [reflexivity|]. split.
        + destruct Hp as [L _]. clear - L Hr He. peel vs L. injection Hr as <-. exact He.
        + exists [1; 1]%nat. split; [left; reflexivity|reflexivity]. }
    assert (P0 := PT 0%nat ltac:(lia)). assert (P1 := PT 1%nat ltac:(lia)). assert (P2 := PT 2%nat ltac:(lia)). assert (P3 := PT 3%nat ltac:(lia)).
    rewrite F in P0, P1, P2, P3. cbn in P0, P1, P2, P3.
    apply (P_zero CTetrahedron vs Hc Hp HD 1 f Hf). intros w. rewrite F.
    assert (c 0%nat = 0) by lra. assert (c 1%nat = 0) by lra. assert (c 2%nat = 0) by lra. assert (c 3%nat = 0) by lra.
    rewrite H, H0, H1, H2. ring. }
  destruct (point_element 3 (fun m => length m = 3%nat /\ (mdeg m <= 1)%nat) poly dofs ([], (0, 0)%nat) X1 X2
    (fun m H => proj1 H) (eq_trans Ld (eq_sym Lp)) U) as (phi & Q1 & Q2 & Q3 & _).
  exists poly, dofs, phi. split; [|split; [exact Ld|split; [exact U|split; [exact Q1|]]]].
  - unfold make_cr. rewrite T. cbn [Nat.eqb negb]. rewrite E. cbn [rbind tdim]. rewrite Ep. cbn [rbind]. rewrite Lp, Ld. reflexivity.
  - intros i j Hi Hj. apply Q3; rewrite Ld; assumption.
Qed.
Print Assumptions C54_tetrahedron.

(** * Even orders *)
Lemma wprod_app ps qs s : wprod (ps ++ qs) s = wprod ps s * wprod qs s.
Proof. induction ps as [|p ps IH]; simpl; [ring|]. rewrite IH. ring. Qed.
Lemma wprod_rev ps s : wprod (rev ps) s = wprod ps s.
Proof. induction ps as [|p ps IH]; simpl; [reflexivity|]. rewrite wprod_app, IH. simpl. ring. Qed.
Lemma wprod_mirror ps s : wprod (map (fun p => 1 - p) ps) (1 - s) = (-1) ^ length ps * wprod ps s.
Proof. induction ps as [|p ps IH]; simpl; [ring|]. rewrite IH. ring. Qed.

Definition cr_nodes (n : nat) : list R := map (fun b => nth b (fst (equispaced (n + 2))) 0) (range2 1 (n + 1)).
Lemma cr_nodes_eq n : (1 <= n)%nat -> cr_nodes n = map (fun b => INR b / INR (n + 1)) (range2 1 (n + 1)).
Proof.
  intros Hn. unfold cr_nodes. apply map_ext_in. intros b Hb. unfold range2 in Hb. apply in_seq in Hb. replace (n + 2)%nat with (n + 1 + 1)%nat by lia. apply equispaced_nth; lia.
Qed.
Lemma cr_nodes_mirror n : (1 <= n)%nat -> map (fun p => 1 - p) (cr_nodes n) = rev (cr_nodes n).
Proof.
  intros Hn. rewrite cr_nodes_eq by exact Hn. assert (Pn : 0 < INR (n + 1)) by (apply lt_0_INR; lia). apply (nth_ext _ _ 0 0); [rewrite rev_length, !map_length; reflexivity|].
  rewrite !map_length. unfold range2. rewrite seq_length. replace (n + 1 - 1)%nat with n by lia. intros i Hi.
  assert (N : forall k, (k < n)%nat -> nth k (map (fun b => INR b / INR (n + 1)) (seq 1 n)) 0 = INR (S k) / INR (n + 1)).
  { intros k Hk. rewrite (nth_indep _ 0 (INR 0 / INR (n + 1))) by (rewrite map_length, seq_length; exact Hk). rewrite (map_nth (fun b => INR b / INR (n + 1))). rewrite seq_nth by exact Hk. reflexivity. }
  rewrite rev_nth by (rewrite map_length, seq_length; exact Hi). rewrite map_length, seq_length.
  rewrite (nth_indep _ 0 (1 - 0)) by (rewrite !map_length, seq_length; exact Hi). rewrite (map_nth (fun p => 1 - p)). rewrite !N by lia.
  replace (S (n - S i)) with (n + 1 - S i)%nat by lia. rewrite minus_INR by lia. field. lra.
Qed.
Lemma cr_nodes_symmetric n s : (1 <= n)%nat -> Nat.Even n -> wprod (cr_nodes n) (1 - s) = wprod (cr_nodes n) s.
Proof.
  intros Hn [h Hh]. rewrite <- (wprod_rev (cr_nodes n) (1 - s)), <- cr_nodes_mirror by exact Hn. rewrite wprod_mirror.
  assert (L : length (cr_nodes n) = (2 * h)%nat) by (unfold cr_nodes, range2; rewrite map_length, seq_length; lia).
  rewrite L, pow_mult. replace ((-1) ^ 2) with 1 by ring. rewrite pow1. ring.
Qed.

(** the value prescribed at a point of the lattice *)
Definition cr_value (n : nat) (x y : R) : R :=
  if Req_EM_T x 0 then wprod (cr_nodes n) y else if Req_EM_T y 0 then wprod (cr_nodes n) x
  else if Req_EM_T (x + y) 1 then wprod (cr_nodes n) y else 0.

Lemma sum_space d n (c : nat -> R) (phi : list (fn point)) : (forall f, In f phi -> degree_space d n f) -> forall k, (k <= length phi)%nat ->
  degree_space d n (fun v => sum k (fun i => c i * nth i phi (fun _ => 0) v)).
Proof.
  intros H. induction k as [|k IH]; intros Hk; [apply poly_space_zero|]. apply (poly_space_ext _ (fun v => sum k (fun i => c i * nth i phi (fun _ => 0) v) + c k * nth k phi (fun _ => 0) v)); [intros v; reflexivity|].
  apply poly_space_add; [apply IH; lia|]. apply poly_space_scale. apply H, nth_In. lia.
Qed.

(** For every even order the default triangle has a polynomial of the space that does not vanish at a vertex although all
    degrees of freedom vanish; the element is created but has no basis functions. *)
Theorem C54_even_orders : forall n, (2 <= n)%nat -> Nat.Even n ->
  exists poly dofs f, make_cr (default CTriangle) n "equispaced" = Ok (poly, dofs) /\
  poly_space (fun m => length m = 2%nat /\ (mdeg m <= n)%nat) f /\ f (env_of [0; 0]) <> 0 /\
  (forall p ke, In (p, ke) dofs -> f (env_of p) = 0) /\
  point_basis_functions poly dofs = Err ValueError.
Proof.
  intros n Hn He. set (vs := [[0; 0]; [1; 0]; [0; 1]]). assert (Hc : simplex CTriangle) by (right; left; reflexivity).
  assert (Hp : points 3 2 vs) by (split; [reflexivity|repeat constructor]).
  assert (HD : map_det CTriangle vs <> 0) by (unfold map_det, edge_det2, co, vs; simpl; lra).
  assert (Hr : make_reference CTriangle vs = Ok (default CTriangle)) by reflexivity.
  destruct (make_cr_triangle vs (default CTriangle) n "equispaced" (equispaced (n + 2)) (equispaced (n + 1)) Hp Hr ltac:(lia) eq_refl eq_refl) as (poly & Ep & Em & L).
  destruct (C19_lagrange_basis CTriangle vs (default CTriangle) n Hc Hp HD Hr ltac:(lia)) as (ld & phi & G1 & G2 & G3 & G4 & G5 & _).
  destruct (C19_lagrange_points CTriangle vs (default CTriangle) n Hc Hp HD Hr ltac:(lia)) as (ld' & G1' & _ & IN & _). rewrite G1 in G1'. injection G1' as <-.
  set (val := fun p : pt => cr_value n (nth 0 p 0) (nth 1 p 0)).
  set (f := fun v => sum (length phi) (fun i => val (fst (nth i ld ([], (0, 0)%nat))) * nth i phi (fun _ => 0) v)).
  assert (Hf : degree_space 2 n f) by (apply sum_space; [exact G5|apply le_n]).
  assert (Pn : 0 < INR n) by (apply lt_0_INR; lia).
  assert (LAT : forall a b, (a + b <= n)%nat -> f (env_of [frac n a; frac n b]) = cr_value n (frac n a) (frac n b)).
  { intros a b Hab. assert (I : In [frac n a; frac n b] (map fst ld)).
    { apply IN. split; [reflexivity|]. exists [(n - a - b)%nat; a; b]. split; [reflexivity|]. split; [unfold list_sum; simpl; lia|].
      split; [reflexivity|]. split.
      - unfold sumR. cbn [map fold_right]. rewrite !minus_INR by lia. field. lra.
      - intros j Hj. cbn [length] in Hj. unfold sumR, frac, vs. destruct j as [|[|j]]; [| |lia]; cbn [map combine fold_right fst snd nth]; rewrite !minus_INR by lia; field; lra. }
    apply in_map_iff in I. destruct I as ([p ke] & Ei & I). cbn [fst] in Ei. subst p. destruct (In_nth ld _ ([], (0, 0)%nat) I) as (i & Hi & Ei).
    assert (En : env_of [frac n a; frac n b] = env_of (fst (nth i ld ([], (0, 0)%nat)))) by (rewrite Ei; reflexivity). rewrite En.
    assert (Hi' : (i < length phi)%nat) by (rewrite G3; exact Hi).
    unfold f. rewrite (sum_single (length phi) _ i Hi').
    2:{ intros k Hk N. rewrite G3 in Hk. rewrite (G4 i k Hi Hk), (proj2 (Nat.eqb_neq i k)) by auto. ring. }
    rewrite (G4 i i Hi Hi), Nat.eqb_refl, Ei. unfold val. cbn [fst nth]. ring. }
  set (P := fun (w : point) (j : nat) => param vs (whole CTriangle) w j).
  assert (PW : forall w, f (P w) = f (env_of [w 0%nat; w 1%nat])).
  { intros w. apply (degree_local 2 n f _ _ Hf). intros j Hj. destruct j as [|[|j]]; [| |lia]; unfold P, vs; cbn; ring. }
  assert (V1 : forall s, cr_value n 0 s = wprod (cr_nodes n) s) by (intros s; unfold cr_value; destruct (Req_EM_T 0 0); [reflexivity|lra]).
  assert (V2 : forall s, cr_value n s 0 = wprod (cr_nodes n) s).
  { intros s. unfold cr_value. destruct (Req_EM_T s 0) as [->|_]; [reflexivity|]. destruct (Req_EM_T 0 0); [reflexivity|lra]. }
  assert (V0 : forall s, cr_value n (1 - s) s = wprod (cr_nodes n) s).
  { intros s. unfold cr_value. destruct (Req_EM_T (1 - s) 0) as [_|_]; [reflexivity|]. destruct (Req_EM_T s 0) as [->|_]; [apply cr_nodes_symmetric; [lia|exact He]|].
    destruct (Req_EM_T (1 - s + s) 1); [reflexivity|lra]. }
  assert (VE : forall e, (e < 3)%nat -> forall s, cr_value n (edge_w e s 0%nat) (edge_w e s 1%nat) = wprod (cr_nodes n) s).
  { intros e He' s. destruct e as [|[|[|e]]]; [apply V0|apply V1|apply V2|lia]. }
  assert (Lc : length (cr_nodes n) = n) by (unfold cr_nodes, range2; rewrite map_length, seq_length; lia).
  assert (EDGE : forall e, (e < 3)%nat -> forall s, f (P (edge_w e s)) = wprod (cr_nodes n) s).
  { intros e He' s. assert (Z : forall v, f (P (edge_w e (v 0%nat))) + - (1) * wprod (cr_nodes n) (v 0%nat) = 0).
    { apply (line_zero n (frac n)); [apply frac_distinct; lia| |].
      - apply poly_space_add; [apply (edge_degree vs (default CTriangle) n Hp HD Hr f e Hf)|]. apply poly_space_scale. pose proof (wprod_degree (cr_nodes n)) as W. rewrite Lc in W. exact W.
      - intros i Hi. rewrite PW, <- (VE e He' (frac n i)).
        assert (F1 : 1 - frac n i = frac n (n - i)) by (unfold frac; rewrite minus_INR by exact Hi; field; lra). assert (F0 : frac n 0 = 0) by (unfold frac; simpl; field; lra).
        destruct e as [|[|[|e]]]; [| | |lia]; cbn [edge_w].
        + rewrite F1, LAT by lia. ring.
        + pose proof (LAT 0%nat i ltac:(lia)) as E. rewrite F0 in E. rewrite E. ring.
        + pose proof (LAT i 0%nat ltac:(lia)) as E. rewrite F0 in E. rewrite E. ring. }
    specialize (Z (fun _ => s)). cbn beta in Z. lra. }
  assert (N1 : nodes_ok (n + 1) (fst (equispaced (n + 2)))) by (apply (quadrature_nodes "equispaced"); [lia|]; replace (n + 1 + 1)%nat with (n + 2)%nat by lia; reflexivity).
  assert (ZD : forall p ke, In (p, ke) (cr_points (default CTriangle) n (fst (equispaced (n + 2))) (fst (equispaced (n + 1)))) -> f (env_of p) = 0).
  { apply (cr_zero_iff vs (default CTriangle) n _ _ f Hp Hr Hf). split.
    - intros e b He' Hb. fold (P (edge_w e (nth b (fst (equispaced (n + 2))) 0))). rewrite EDGE by exact He'. apply wprod_zero. unfold cr_nodes.
      apply (in_map (fun b => nth b (fst (equispaced (n + 2))) 0)). unfold range2. apply in_seq. lia.
    - intros i j Hi Hj Hij. fold (P (as_point [nth i (fst (equispaced (n + 1))) 0; nth j (fst (equispaced (n + 1))) 0])). rewrite PW. unfold as_point. cbn [nth].
      rewrite !equispaced_nth by lia. fold (frac n i) (frac n j). rewrite LAT by lia. unfold cr_value.
      pose proof (frac_bounds n i ltac:(lia)). pose proof (frac_bounds n j ltac:(lia)).
      assert (frac n i + frac n j < 1).
      { unfold frac. rewrite <- Rdiv_plus_distr, <- plus_INR. apply (Rmult_lt_reg_r (INR n)); [lra|]. unfold Rdiv. rewrite Rmult_assoc, Rinv_l by lra. apply lt_INR in Hij. lra. }
      destruct (Req_EM_T (frac n i) 0); [lra|]. destruct (Req_EM_T (frac n j) 0); [lra|]. destruct (Req_EM_T (frac n i + frac n j) 1); [lra|reflexivity]. }
  assert (NZ : f (env_of [0; 0]) <> 0).
  { assert (F0 : frac n 0 = 0) by (unfold frac; simpl; field; lra). pose proof (LAT 0%nat 0%nat ltac:(lia)) as E. rewrite F0 in E. rewrite E, V1.
    destruct (ps_facts n (fst (equispaced (n + 2))) N1) as (_ & _ & FF). pose proof (wprod_0 _ FF) as W. fold (cr_nodes n) in W. intros Z0. rewrite Z0 in W. lra. }
  exists poly, (cr_points (default CTriangle) n (fst (equispaced (n + 2))) (fst (equispaced (n + 1)))), f.
  split; [exact Em|]. split; [exact Hf|]. split; [exact NZ|]. split; [exact ZD|].
  set (dofs := cr_points (default CTriangle) n (fst (equispaced (n + 2))) (fst (equispaced (n + 1)))) in *.
  assert (SA : @subspace point (fun _ => True)) by (repeat split).
  destruct (C64_exists_iff_unisolvent point (fun _ => True) (map meval poly) (map point_eval dofs) SA) as [_ X].
  { apply Forall_forall. auto. } { apply point_eval_linear. }
  destruct X as [[X _] [Y|Y]]; [rewrite !map_length; exact L| |exact Y]. exfalso. specialize (X Y).
  destruct (polynomial_set_1d_ok 2 n ltac:(lia)) as (poly' & Ep' & X1 & X2 & _). rewrite Ep in Ep'. injection Ep' as <-.
  destruct (monomial_basis 2 (fun m => length m = 2%nat /\ (mdeg m <= n)%nat) poly X1 X2 (fun m H => proj1 H)) as (_ & _ & SP).
  destruct (SP f Hf) as (cs & Lcs & Ecs).
  assert (EQ : forall v, combination (fun i => nth i cs 0) (map meval poly) v = f v).
  { intros v. rewrite combination_lincomb, Ecs. f_equal. transitivity (map (fun i => nth i cs 0) (range (length cs))); [rewrite Lcs; reflexivity|apply map_nth_range]. }
  assert (Hz : forall i, (i < length (map meval poly))%nat -> nth i cs 0 = 0).
  { apply X. intros i Hi. unfold dof_value. rewrite (nth_indep _ _ (point_eval ([], (0, 0)%nat))) by exact Hi. rewrite map_nth. unfold point_eval. rewrite EQ.
    rewrite map_length in Hi. destruct (nth i dofs ([], (0, 0)%nat)) as [p ke] eqn:En. apply (ZD p ke). rewrite <- En. apply nth_In, Hi. }
  apply NZ. rewrite Ecs. assert (Zc : cs = repeat 0 (length cs)).
  { apply (nth_ext _ _ 0 0); [rewrite repeat_length; reflexivity|]. intros i Hi. rewrite Lcs in Hi. rewrite (Hz i Hi). symmetry. apply nth_repeat. }
  rewrite Zc. apply lincomb_zero.
Qed.
Print Assumptions C54_even_orders.

Theorem C54_refuted : exists n poly dofs f, make_cr (default CTriangle) n "equispaced" = Ok (poly, dofs) /\
  poly_space (fun m => length m = 2%nat /\ (mdeg m <= n)%nat) f /\ f (env_of [0; 0]) <> 0 /\ (forall p ke, In (p, ke) dofs -> f (env_of p) = 0).
Proof.
  destruct (C54_even_orders 2 (le_n _) ltac:(exists 1%nat; reflexivity)) as (poly & dofs & f & H1 & H2 & H3 & H4 & _). exists 2%nat, poly, dofs, f. auto.
Qed.
Print Assumptions C54_refuted.

Example C54_case : exists r poly dofs phi, make_reference CTriangle [[0; 0]; [2; 0]; [1; 1]] = Ok r /\
  make_cr r 3 "equispaced" = Ok (poly, dofs) /\ length dofs = 10%nat /\ point_basis_functions poly dofs = Ok phi /\ In ([5/4; 3/4], (1, 0)%nat) dofs.
Proof.
  assert (Hp : points 3 2 [[0; 0]; [2; 0]; [1; 1]]) by (split; [reflexivity|repeat constructor]).
  assert (HD : map_det CTriangle [[0; 0]; [2; 0]; [1; 1]] <> 0) by (unfold map_det, edge_det2, co; simpl; lra).
  destruct (make_reference CTriangle [[0; 0]; [2; 0]; [1; 1]]) as [r|] eqn:Hr; [|discriminate]. exists r.
  destruct (C54_odd_orders _ r 3 "equispaced" _ _ Hp HD Hr ltac:(exists 1%nat; reflexivity) eq_refl eq_refl) as (poly & dofs & phi & E & _ & B & _).
  { intros i Hi. apply (equispaced_symmetric 3 i); lia. }
  destruct (make_cr_triangle _ r 3 "equispaced" _ _ Hp Hr ltac:(lia) eq_refl eq_refl) as (poly' & Ep & E' & L). rewrite E in E'. injection E' as <- ->.
  exists poly, (cr_points r 3 (fst (equispaced 5)) (fst (equispaced 4))), phi. split; [reflexivity|]. split; [exact E|]. split; [|split; [exact B|]].
  - injection Hr as <-. reflexivity.
  - injection Hr as <-. unfold cr_points. apply in_app_iff. left. apply in_closed_entity. split; [reflexivity|]. split; [cbn; lia|]. exists [3%nat].
    split; [right; right; left; reflexivity|]. unfold qpoint. cbn. apply list2_eq; field.
Qed.

(** What is not a triangle or tetrahedron is rejected, and so is order 0. *)
Theorem C54_rejects : forall r n variant, ~ (r_type r = CTriangle /\ (1 <= n)%nat) -> ~ (r_type r = CTetrahedron /\ n = 1%nat) ->
  make_cr r n variant = Err ValueError.
Proof.
  intros r n variant H1 H2. unfold make_cr. destruct (r_type r) eqn:T; try reflexivity.
  - destruct (n <? 1)%nat eqn:E; [reflexivity|]. apply Nat.ltb_ge in E. exfalso. auto.
  - destruct (n =? 1)%nat eqn:E; [apply Nat.eqb_eq in E; exfalso; auto|reflexivity].
Qed.
Print Assumptions C54_rejects.
Example C54_rejects_case : make_cr (default CQuadrilateral) 1 "equispaced" = Err ValueError /\ make_cr (default CTriangle) 0 "equispaced" = Err ValueError.
Proof. split; reflexivity. Qed.
