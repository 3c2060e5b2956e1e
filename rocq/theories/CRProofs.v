(** Crouzeix-Raviart elements. *)
From Coq Require Import String Arith Bool Reals Lra Lia Sorted List.
From Verif Require Import Base PolyLib PolySetsModel QuadratureModel QuadratureProofs ReferencesModel ReferencesSpec ReferencesProofs ReferencesGeometry
  LinAlg CiarletModel CiarletProofs PolySetsProofs ElementModel LagrangeModel UnisolvenceProofs LagrangeProofs LagrangeKey
  LagrangeUnisolvence PropertiesLagrange QProofs QDofs SpanLib BubbleModel BubbleProofs BubbleTensor CRModel.
Import ListNotations.
Open Scope R_scope.

(** * Polynomials of one variable *)
Definition wprod (ps : list R) (s : R) : R := fold_right (fun p acc => (s - p) * acc) 1 ps.
Lemma wprod_zero ps p : In p ps -> wprod ps p = 0.
Proof. induction ps as [|a ps IH]; intros H; [contradiction|]. destruct H as [->|H]; simpl; [ring|rewrite IH by exact H; ring]. Qed.
Lemma wprod_one ps : Forall (fun p => 0 < p < 1) ps -> 0 < wprod ps 1.
Proof. induction 1 as [|p ps H F IH]; simpl; [lra|]. apply Rmult_lt_0_compat; [lra|exact IH]. Qed.
Lemma wprod_0 ps : Forall (fun p => 0 < p < 1) ps -> 0 < (-1) ^ length ps * wprod ps 0.
Proof.
  induction 1 as [|p ps H F IH]; simpl; [lra|]. replace (-1 * (-1) ^ length ps * ((0 - p) * wprod ps 0)) with (p * ((-1) ^ length ps * wprod ps 0)) by ring.
  apply Rmult_lt_0_compat; [lra|exact IH].
Qed.
Lemma wprod_degree ps : degree_space 1 (length ps) (fun v => wprod ps (v 0%nat)).
Proof.
  induction ps as [|p ps IH]; simpl; [apply degree_const|]. apply (degree_mul 1 1 (length ps) (fun v => v 0%nat - p) (fun v => wprod ps (v 0%nat))); [|exact IH].
  apply (poly_space_ext _ (fun v => v 0%nat + - p)); [intros v; ring|]. apply poly_space_add; [apply degree_var; lia|apply degree_const].
Qed.

Lemma line_zero n (q : nat -> R) g : distinct_upto q n -> degree_space 1 n g -> (forall i, (i <= n)%nat -> g (fun _ => q i) = 0) -> forall v, g v = 0.
Proof.
  intros D Hg Z. apply (simplex_lattice_zero q 1 n); [exact D|exact Hg|]. intros m Lm Dm. destruct m as [|a [|]]; try discriminate Lm.
  rewrite <- (Z a) by (simpl in Dm; lia). apply (degree_local 1 n g _ _ Hg). intros j Hj. assert (j = 0)%nat by lia. subst j. reflexivity.
Qed.

(** a polynomial of degree at most the number of nodes that vanishes at the nodes *)
Lemma edge_relation ps g : NoDup ps -> Forall (fun p => 0 < p < 1) ps -> degree_space 1 (length ps) g -> (forall p, In p ps -> g (fun _ => p) = 0) ->
  forall s, g (fun _ => s) * wprod ps 1 = g (fun _ => 1) * wprod ps s.
Proof.
  intros ND F Hg Z. set (q := fun i => nth i ps 1).
  assert (H : forall v, wprod ps 1 * g v + - g (fun _ => 1) * wprod ps (v 0%nat) = 0).
  { apply (line_zero (length ps) q).
    - intros i j Hij. unfold q. destruct (Nat.eq_dec j (length ps)) as [->|N].
      + rewrite (nth_overflow ps 1 (le_n _)). rewrite Forall_forall in F. specialize (F (nth i ps 1) (nth_In ps 1 (proj1 Hij))). lra.
      + intros E. apply (proj1 (NoDup_nth ps 1) ND) in E; lia.
    - apply (poly_space_add _ (fun v => wprod ps 1 * g v) (fun v => - g (fun _ => 1) * wprod ps (v 0%nat))); [apply poly_space_scale, Hg|]. apply poly_space_scale, wprod_degree.
    - intros i Hi. unfold q. destruct (Nat.eq_dec i (length ps)) as [->|N]; [rewrite (nth_overflow ps 1 (le_n _)); ring|].
      assert (I : In (nth i ps 1) ps) by (apply nth_In; lia). rewrite (Z _ I), (wprod_zero ps _ I). ring. }
  intros s. specialize (H (fun _ => s)). lra.
Qed.

(** * The points *)
Lemma cr_place_q pts ent i : cr_place pts ent i = q_place pts ent (rev i).
Proof. unfold cr_place, q_place. rewrite rev_involutive. reflexivity. Qed.

Definition cr_points (r : reference) (n : nat) (pts pts' : list R) : list point_dof :=
  let d := tdim (r_type r) in
  closed_entity (d - 1) (ent_count r (d - 1)) (cr_facet_tuples d n) (fun e i => qpoint (ent_of r (d - 1) e) pts (rev i)) ++
  map (fun i => (qpoint r pts' (rev i), (d, 0%nat))) (simplex_tuples n d).

Lemma axes_ok c vs r : simplex c -> points (nvert c) (tdim c) vs -> make_reference c vs = Ok r ->
  length (r_origin r) = tdim c /\ Forall (fun a : pt => length a = length (r_origin r)) (r_axes r).
Proof.
  intros Hc [L F] Hr. unfold nvert in L. destruct Hc as [->|[->| ->]]; simpl in L; peel vs L; injection Hr as <-;
    repeat rewrite Forall_cons_iff in F; decompose [and] F; clear F; cbn [r_origin r_axes tdim] in *; (split; [assumption|]);
    repeat (apply Forall_cons; [apply vsub_length; congruence|]); apply Forall_nil.
Qed.

Lemma cr_dofs_closed c vs r n variant rule rule' : (c = CTriangle /\ (1 <= n)%nat) \/ (c = CTetrahedron /\ n = 1%nat) ->
  points (nvert c) (tdim c) vs -> make_reference c vs = Ok r ->
  get_quadrature variant (n + tdim c) = Ok rule -> get_quadrature variant (n + tdim c - 1) = Ok rule' ->
  cr_dofs r n variant = Ok (cr_points r n (fst rule) (fst rule')).
Proof.
  intros Hcn Hp Hr Hq Hq'. assert (Hc : simplex c) by (destruct Hcn as [[-> _]|[-> _]]; [right; left; reflexivity|right; right; reflexivity]).
  assert (T : r_type r = c) by (apply (reference_parts c vs r Hc Hr)).
  assert (Hn : (1 <= n)%nat) by (destruct Hcn as [[_ H]|[_ ->]]; lia).
  assert (Td : (2 <= tdim c <= 3)%nat) by (destruct Hcn as [[-> _]|[-> _]]; simpl; lia).
  assert (Lq : length (fst rule) = (n + tdim c)%nat).
  { destruct (quadrature_nodes variant (n + tdim c - 1) rule ltac:(lia)) as (L & _); [replace (n + tdim c - 1 + 1)%nat with (n + tdim c)%nat by lia; exact Hq|]. lia. }
  assert (Lq' : length (fst rule') = (n + tdim c - 1)%nat).
  { destruct (quadrature_nodes variant (n + tdim c - 2) rule' ltac:(lia)) as (L & _); [replace (n + tdim c - 2 + 1)%nat with (n + tdim c - 1)%nat by lia; exact Hq'|]. lia. }
  destruct (good_simplex c vs r (tdim c) Hc Hp Hr) as [_ G]. destruct (G (tdim c - 1)%nat ltac:(lia)) as [GC GE].
  unfold cr_dofs. rewrite T.
  assert (B : match c with CTriangle => true | CTetrahedron => (n <=? 1)%nat | _ => false end = true) by (destruct Hcn as [[-> _]|[-> ->]]; reflexivity).
  rewrite B, Hq. cbn [rbind].
  assert (EF : entity_point_dofs r (tdim c - 1) (cr_facet_tuples (tdim c) n) (cr_place (fst rule)) =
    Ok (closed_entity (tdim c - 1) (ent_count r (tdim c - 1)) (cr_facet_tuples (tdim c) n) (fun e i => qpoint (ent_of r (tdim c - 1) e) (fst rule) (rev i)))).
  { apply (entity_point_dofs_closed r _ _ _ _ (ent_of r (tdim c - 1))); [exact GC|]. intros e He. destruct (GE e He) as (S1 & Lo & _ & Fa). split; [exact S1|].
    intros i Hi. rewrite cr_place_q. apply q_place_ok; [rewrite Lo; exact Fa|]. apply Forall_rev. unfold cr_facet_tuples in Hi. apply filter_In in Hi. destruct Hi as [Hi _].
    replace (range2 1 (n + 1)) with (range2 1 (n + 1)) in Hi by reflexivity. apply (in_tuples (n + 1) (tdim c - 1)) in Hi. destruct Hi as [_ Hi].
    eapply Forall_impl; [|exact Hi]. simpl. intros a Ha. lia. }
  rewrite EF. cbn [rbind]. rewrite Hq'. cbn [rbind].
  rewrite (map_r_ok _ (fun i => (qpoint r (fst rule') (rev i), (tdim c, 0%nat)))).
  - cbn [rbind]. unfold cr_points. rewrite T. reflexivity.
  - intros i Hi. rewrite cr_place_q, q_place_ok; [reflexivity|apply (axes_ok c vs r Hc Hp Hr)|]. apply Forall_rev. apply in_simplex_tuples in Hi. destruct Hi as (_ & Fi & _).
    eapply Forall_impl; [|exact Fi]. simpl. intros a Ha. lia.
Qed.

(** * Triangles *)
(** coordinates of the point at s on an edge *)
Definition edge_w (e : nat) (s : R) : point := fun k =>
  match e, k with O, O => 1 - s | O, S O => s | S O, S O => s | S (S O), O => s | _, _ => 0 end.

Lemma edge_point vs r pts e b : points 3 2 vs -> make_reference CTriangle vs = Ok r -> (e < 3)%nat ->
  forall j, (j < 2)%nat -> env_of (qpoint (ent_of r 1 e) pts [b]) j = param vs (whole CTriangle) (edge_w e (nth b pts 0)) j.
Proof.
  intros [L F] Hr He j Hj. peel vs L. repeat rewrite Forall_cons_iff in F. decompose [and] F. clear F. injection Hr as <-.
  peel l H. peel l0 H1. peel l1 H0.
  destruct e as [|[|[|e]]]; [| | |lia]; (destruct j as [|[|j]]; [| |lia]); cbn; unfold co; cbn [nth]; ring.
Qed.
Lemma inner_point vs r pts i j : points 3 2 vs -> make_reference CTriangle vs = Ok r ->
  forall k, (k < 2)%nat -> env_of (qpoint r pts [j; i]) k = param vs (whole CTriangle) (as_point [nth i pts 0; nth j pts 0]) k.
Proof.
  intros [L F] Hr k Hk. peel vs L. repeat rewrite Forall_cons_iff in F. decompose [and] F. clear F. injection Hr as <-.
  peel l H. peel l0 H1. peel l1 H0. unfold as_point.
  (destruct k as [|[|k]]; [| |lia]); cbn; unfold co; cbn [nth]; ring.
Qed.

(** the degrees of freedom of a triangle in coordinates *)
Lemma cr_zero_iff vs r n pts pts' (f : sfun) : points 3 2 vs -> make_reference CTriangle vs = Ok r -> degree_space 2 n f ->
  (forall p ke, In (p, ke) (cr_points r n pts pts') -> f (env_of p) = 0) <->
  (forall e b, (e < 3)%nat -> (1 <= b <= n)%nat -> f (fun j => param vs (whole CTriangle) (edge_w e (nth b pts 0)) j) = 0) /\
  (forall i j, (1 <= i)%nat -> (1 <= j)%nat -> (i + j < n)%nat -> f (fun k => param vs (whole CTriangle) (as_point [nth i pts' 0; nth j pts' 0]) k) = 0).
Proof.
  intros Hp Hr Hf. assert (T : r_type r = CTriangle) by (apply (reference_parts CTriangle vs r (or_intror (or_introl eq_refl)) Hr)).
  assert (C3 : ent_count r 1 = 3%nat).
  { destruct Hp as [L _]. peel vs L. injection Hr as <-. reflexivity. }
  assert (FT : forall i, In i (cr_facet_tuples 2 n) <-> exists b, i = [b] /\ (1 <= b <= n)%nat).
  { intros i. unfold cr_facet_tuples. rewrite filter_In. change (product (repeat (range2 1 (n + 1)) (2 - 1))) with (tuples (n + 1) 1). rewrite in_tuples. split.
    - intros [[Li Fi] _]. peel i Li. apply Forall_cons_iff in Fi. exists n0. split; [reflexivity|lia].
    - intros (b & -> & Hb). split; [split; [reflexivity|apply Forall_cons; [lia|apply Forall_nil]]|]. apply Nat.ltb_lt. simpl. lia. }
  unfold cr_points. rewrite T. cbn [tdim Nat.sub]. rewrite C3. split.
  - intros Z. split.
    + intros e b He Hb. transitivity (f (env_of (qpoint (ent_of r 1 e) pts [b]))); [|apply (Z _ (1%nat, e))].
      * apply (degree_local 2 n f _ _ Hf). intros j Hj. symmetry. apply (edge_point vs r pts e b Hp Hr He j Hj).
      * apply in_app_iff. left. apply in_closed_entity. split; [reflexivity|]. split; [exact He|]. exists [b]. split; [apply FT; exists b; auto|reflexivity].
    + intros i j Hi Hj Hij. transitivity (f (env_of (qpoint r pts' [j; i]))); [|apply (Z _ (2, 0)%nat)].
      * apply (degree_local 2 n f _ _ Hf). intros k Hk. symmetry. apply (inner_point vs r pts' i j Hp Hr k Hk).
      * apply in_app_iff. right. apply in_map_iff. exists [i; j]. split; [reflexivity|]. apply in_simplex_tuples. split; [reflexivity|]. split; [|simpl; lia].
        apply Forall_cons; [lia|]. apply Forall_cons; [lia|apply Forall_nil].
  - intros [Ze Zi] p ke H. apply in_app_iff in H. destruct H as [H|H].
    + destruct ke as [k e]. apply in_closed_entity in H. destruct H as (-> & He & i & Hi & ->). apply FT in Hi. destruct Hi as (b & -> & Hb).
      etransitivity; [|exact (Ze e b He Hb)]. apply (degree_local 2 n f _ _ Hf). intros j Hj. apply (edge_point vs r pts e b Hp Hr He j Hj).
    + apply in_map_iff in H. destruct H as (i & E & Hi). injection E as <- <-. apply in_simplex_tuples in Hi. destruct Hi as (Li & Fi & Si). peel i Li.
      repeat rewrite Forall_cons_iff in Fi. simpl in Si. etransitivity; [|apply (Zi n0 n1); lia]. apply (degree_local 2 n f _ _ Hf). intros k Hk. apply (inner_point vs r pts' n0 n1 Hp Hr k Hk).
Qed.

Lemma cr_count vs r n pts pts' poly : points 3 2 vs -> make_reference CTriangle vs = Ok r -> (1 <= n)%nat -> polynomial_set_1d 2 n = Ok poly ->
  length (cr_points r n pts pts') = length poly.
Proof.
  intros Hp Hr Hn Ep. assert (T : r_type r = CTriangle) by (apply (reference_parts CTriangle vs r (or_intror (or_introl eq_refl)) Hr)).
  assert (C3 : ent_count r 1 = 3%nat).
  { destruct Hp as [L _]. peel vs L. injection Hr as <-. reflexivity. }
  unfold cr_points. rewrite T. cbn [tdim Nat.sub]. rewrite C3, app_length, map_length, length_simplex_tuples.
  assert (Lf : length (cr_facet_tuples 2 n) = n).
  { transitivity (length (simplex_tuples (n + 1) 1)).
    - f_equal. unfold cr_facet_tuples, simplex_tuples, tuples. replace (n + 2 - 1)%nat with (n + 1)%nat by lia. reflexivity.
    - rewrite length_simplex_tuples. replace (n + 1)%nat with (S n) by lia. apply choose_1. }
  unfold closed_entity. change (range 3) with [0; 1; 2]%nat. cbn [flat_map]. rewrite !app_length, !map_length, Lf.
  destruct (polynomial_set_1d_length 2 n poly Ep) as [[H _]|[[_ H]|[H _]]]; try discriminate H. cbn [length].
  destruct n as [|n]; [lia|]. pose proof (choose_2 n) as Y. destruct n as [|n]; [change (0 * (0 - 1))%nat with 0%nat in Y; lia|]. replace (S n - 1)%nat with n in Y by lia. nia.
Qed.

Section Odd.
Variables (vs : list pt) (r : reference) (n : nat) (pts pts' : list R).
Hypothesis (Hp : points 3 2 vs) (HD : map_det CTriangle vs <> 0) (Hr : make_reference CTriangle vs = Ok r).
Hypothesis (Ho : Nat.Odd n) (Hn : nodes_ok (n + 1) pts).
(** the points inside *)
Hypothesis (Hd : forall i j, (1 <= i < j)%nat -> (j < n)%nat -> nth i pts' 0 <> nth j pts' 0).
Hypothesis (Hi : forall i j, (1 <= i)%nat -> (1 <= j)%nat -> (i + j < n)%nat -> 0 < nth i pts' 0 /\ 0 < nth j pts' 0 /\ nth i pts' 0 + nth j pts' 0 < 1).
Let P (w : point) : point := fun j => param vs (whole CTriangle) w j.
Let Hc : simplex CTriangle := or_intror (or_introl eq_refl).
Let ps : list R := map (fun b => nth b pts 0) (range2 1 (n + 1)).

Lemma ps_facts : length ps = n /\ NoDup ps /\ Forall (fun p => 0 < p < 1) ps.
Proof.
  assert (In' : forall b, In b (range2 1 (n + 1)) -> (1 <= b <= n)%nat) by (intros b Hb; unfold range2 in Hb; apply in_seq in Hb; lia).
  split; [unfold ps, range2; rewrite map_length, seq_length; lia|]. split.
  - unfold ps. apply NoDup_map_inj.
    + intros a b Ha Hb E. apply In' in Ha, Hb. destruct Hn as (L & S & _).
      destruct (lt_eq_lt_dec a b) as [[Q|Q]|Q]; [exfalso|exact Q|exfalso]; [pose proof (sorted_nth pts S a b ltac:(lia))|pose proof (sorted_nth pts S b a ltac:(lia))]; lra.
    + unfold range2. apply seq_NoDup.
  - apply Forall_forall. intros p Hp'. apply in_map_iff in Hp'. destruct Hp' as (b & <- & Hb). apply In' in Hb.
    destruct (qn_inside (n + 1) pts b Hn ltac:(lia)) as [E B]. rewrite E in B. exact B.
Qed.

Lemma edge_degree f e : degree_space 2 n f -> degree_space 1 n (fun v => f (P (edge_w e (v 0%nat)))).
Proof.
  intros Hf. pose proof (P_degree CTriangle vs r Hc Hp HD Hr n f Hf) as X. fold P in X.
  change (fun v : point => f (P (edge_w e (v 0%nat)))) with (fun v : point => (fun w => f (P w)) (fun k => (fun k (v : point) => edge_w e (v 0%nat) k) k v)).
  apply (degree_subst 2 n 1 (fun w => f (P w))); [exact X|]. intros k Hk. assert (V : degree_space 1 1 (fun v => v 0%nat)) by (apply degree_var; lia).
  assert (M : degree_space 1 1 (fun v => 1 - v 0%nat)).
  { apply (poly_space_ext _ (fun v => 1 + - (1) * v 0%nat)); [intros v; ring|]. apply poly_space_add; [apply degree_const|apply poly_space_scale, V]. }
  destruct e as [|[|[|e]]]; destruct k as [|[|k]]; try lia; cbn [edge_w]; try exact V; try exact M; apply degree_const.
Qed.

Lemma odd_zero (f : sfun) : degree_space 2 n f ->
  (forall e b, (e < 3)%nat -> (1 <= b <= n)%nat -> f (P (edge_w e (nth b pts 0))) = 0) ->
  (forall i j, (1 <= i)%nat -> (1 <= j)%nat -> (i + j < n)%nat -> f (P (as_point [nth i pts' 0; nth j pts' 0])) = 0) -> forall v, f v = 0.
Proof.
  intros Hf Ze Zi. destruct ps_facts as (Lps & ND & F).
  assert (REL : forall e, (e < 3)%nat -> forall s, f (P (edge_w e s)) * wprod ps 1 = f (P (edge_w e 1)) * wprod ps s).
  { intros e He. apply (edge_relation ps (fun v => f (P (edge_w e (v 0%nat)))) ND F).
    - rewrite Lps. apply edge_degree, Hf.
    - intros p Hp'. unfold ps in Hp'. apply in_map_iff in Hp'. destruct Hp' as (b & <- & Hb). unfold range2 in Hb. apply in_seq in Hb. apply Ze; [exact He|lia]. }
  pose proof (wprod_one ps F) as W1. pose proof (wprod_0 ps F) as W0. rewrite Lps in W0. destruct Ho as [h Hh].
  assert (W0' : wprod ps 0 < 0).
  { rewrite Hh in W0. rewrite pow_add, pow_mult in W0. replace ((-1) ^ 2) with 1 in W0 by ring. rewrite pow1 in W0. lra. }
  assert (LOC : forall w w', w 0%nat = w' 0%nat -> w 1%nat = w' 1%nat -> f (P w) = f (P w')).
  { intros w w' E0 E1. apply (degree_local 2 n f _ _ Hf). intros j Hj. unfold P, whole, nvert. cbn [param psum reference_vertices length seq]. rewrite E0, E1. reflexivity. }
  assert (R0 := REL 0%nat ltac:(lia) 0). assert (R1 := REL 1%nat ltac:(lia) 0). assert (R2 := REL 2%nat ltac:(lia) 0).
  (* vertices: edge 0 goes from 1 to 2, edge 1 from 0 to 2, edge 2 from 0 to 1 *)
  rewrite (LOC (edge_w 0 0) (edge_w 2 1)) in R0 by (cbn; ring). rewrite (LOC (edge_w 0 1) (edge_w 1 1)) in R0 by (cbn; ring).
  rewrite (LOC (edge_w 1 0) (edge_w 2 0)) in R1 by (cbn; ring).
  set (f0 := f (P (edge_w 2 0))) in *. set (f1 := f (P (edge_w 2 1))) in *. set (f2 := f (P (edge_w 1 1))) in *.
  assert (E12 : f1 = f2).
  { apply (Rmult_eq_reg_r (wprod ps 0)); [lra|lra]. }
  assert (Z1 : f1 = 0).
  { rewrite <- E12 in R0. assert (f1 * (wprod ps 1 - wprod ps 0) = 0) by lra. apply Rmult_integral in H. destruct H; [assumption|lra]. }
  assert (EDGE : forall e, (e < 3)%nat -> forall s, f (P (edge_w e s)) = 0).
  { intros e He s. specialize (REL e He s). assert (V : f (P (edge_w e 1)) = 0).
    { destruct e as [|[|[|e]]]; [| | |lia].
      - rewrite (LOC (edge_w 0 1) (edge_w 1 1)) by (cbn; ring). fold f2. lra.
      - fold f2. lra.
      - fold f1. exact Z1. }
    rewrite V in REL. assert (f (P (edge_w e s)) * wprod ps 1 = 0) by lra. apply Rmult_integral in H. destruct H; [assumption|lra]. }
  assert (BS : bubble_space CTriangle vs n f).
  { split; [exact Hf|]. intros i p Hi' Lp Hfac. destruct (facet_P CTriangle vs r Hc Hp HD Hr i p Hi' Lp Hfac) as (w & B & E).
    rewrite (degree_local 2 n f (env_of p) (P w) Hf E). cbn [tdim] in Hi'. destruct i as [|[|[|i]]]; [| | |lia]; cbn [bc tdim sum] in B.
    - rewrite (LOC w (edge_w 0 (w 1%nat))) by (cbn; lra). apply EDGE. lia.
    - rewrite (LOC w (edge_w 1 (w 1%nat))) by (cbn; lra). apply EDGE. lia.
    - rewrite (LOC w (edge_w 2 (w 0%nat))) by (cbn; lra). apply EDGE. lia. }
  destruct (Nat.eq_dec n 1) as [E1|N1].
  { apply (bubble_unisolvent CTriangle vs r Hc Hp HD Hr n f ltac:(lia) BS). rewrite E1. intros p ke []. }
  assert (N3 : (tdim CTriangle + 1 <= n)%nat) by (simpl; lia).
  destruct (bubble_parts CTriangle vs r Hc Hp HD Hr n N3) as (b & psi & Eb & _ & Db & Hb & (_ & Sp & _)).
  destruct (bubble_simplex CTriangle vs r Hc Hp HD Hr n N3) as (poly & Eb' & _ & (_ & _ & Xb) & _). rewrite Eb in Eb'. injection Eb' as <-.
  destruct (Xb f BS) as (cs & Lc & Ecs). set (q := lincomb cs psi).
  assert (Ef : forall v, f v = b v * q v) by (intros v; rewrite Ecs; apply lincomb_fmul).
  assert (Dq : degree_space 2 (n - 3) q).
  { apply lincomb_subspace; [|apply Forall_forall, Sp]. split; [apply poly_space_zero|]. split.
    - intros a u v Hu Hv. apply poly_space_add; [apply poly_space_scale, Hu|exact Hv].
    - intros u v Ev. apply poly_space_ext, Ev. }
  assert (Zq : forall v, q v = 0).
  { apply (P_zero CTriangle vs Hc Hp HD (n - 3) q Dq). fold P.
    apply (simplex_lattice_zero (fun i => nth (S i) pts' 0) 2 (n - 3)); [|apply (P_degree CTriangle vs r Hc Hp HD Hr), Dq|].
    { intros i j Hij. apply Hd; lia. }
    intros m Lm Dm. destruct m as [|i [|j [|]]]; try discriminate Lm. cbn [map mdeg] in *. cbn [Nat.add] in Dm. simpl in Dm.
    specialize (Zi (S i) (S j) ltac:(lia) ltac:(lia) ltac:(lia)). rewrite Ef in Zi. apply Rmult_integral in Zi. destruct Zi as [Zi|Zi]; [exfalso|exact Zi].
    unfold P in Zi. apply Hb in Zi. destruct (Hi (S i) (S j) ltac:(lia) ltac:(lia) ltac:(lia)) as (I1 & I2 & I3).
    destruct Zi as (k & Hk & B). cbn [tdim] in Hk. destruct k as [|[|[|k]]]; [| | |lia]; unfold as_point in B; cbn [bc sum nth tdim] in B; lra. }
  intros v. rewrite Ef, Zq. ring.
Qed.
End Odd.
