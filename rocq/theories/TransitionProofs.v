(** Transition elements: unisolvence in terms of barycentric coordinates. *)
From Coq Require Import String Arith Bool Reals Lra Lia List FunctionalExtensionality ListDec.
From Verif Require Import Base PolyLib PolySetsModel PolySetsProofs QuadratureModel ReferencesModel ReferencesSpec ReferencesProofs ReferencesGeometry
  LinAlg CiarletModel CiarletProofs ElementModel LagrangeModel UnisolvenceProofs LagrangeProofs LagrangeKey LagrangeUnisolvence PropertiesLagrange
  PointsSpec PointsProofs TransitionModel TransitionSpec.
Import ListNotations.
Open Scope R_scope.

Definition cell_dim (k : nat) : cell_type := match k with 1 => CInterval | 2 => CTriangle | _ => CTetrahedron end%nat.
Lemma cell_dim_simplex k : (1 <= k <= 3)%nat -> simplex (cell_dim k) /\ tdim (cell_dim k) = k.
Proof. intros H. destruct k as [|[|[|[|k]]]]; try lia; unfold simplex; simpl; auto. Qed.

Lemma default_ok c : simplex c -> make_reference c (reference_vertices c) = Ok (default c) /\ points (nvert c) (tdim c) (reference_vertices c) /\
  map_det c (reference_vertices c) <> 0 /\ r_type (default c) = c.
Proof.
  intros [->|[->| ->]]; (split; [reflexivity|]); (split; [split; [reflexivity|repeat constructor]|]); (split; [|reflexivity]);
    unfold map_det, edge_det2, edge_det3, co; simpl; lra.
Qed.

(** The Lagrange basis of the default simplex. *)
Lemma lagrange_default k m : (1 <= k <= 3)%nat -> exists phi, lagrange_basis_functions (default (cell_dim k)) m "equispaced" = Ok phi /\
  length phi = length (simplex_tuples (m + k + 1) k) /\ (forall f, In f phi -> P_space k m f) /\
  (forall c, (forall v, combination c phi v = 0) -> forall i, (i < length phi)%nat -> c i = 0).
Proof.
  intros Hk. destruct (cell_dim_simplex k Hk) as [Hs Ht]. destruct (default_ok _ Hs) as (Hr & Hp & HD & HT).
  destruct m as [|m].
  - destruct (C19_lagrange_order_zero _ _ _ Hs Hp Hr "equispaced" ltac:(discriminate)) as (p & phi & D1 & D2 & D3 & D4).
    exists [phi]. split; [exact D3|]. split; [|split].
    + destruct k as [|[|[|[|k]]]]; try lia; reflexivity.
    + intros f [<-|[]]. apply (poly_space_ext _ (fun _ => 1)); [intros; symmetry; apply D4|apply degree_const].
    + intros c Z i Hi. destruct i; [|simpl in Hi; lia]. specialize (Z (fun _ => 0)). unfold combination in Z. simpl in Z. rewrite D4 in Z. lra.
  - destruct (C19_lagrange_basis _ _ _ (S m) Hs Hp HD Hr ltac:(lia)) as (dofs & phi & D1 & D2 & D3 & D4 & D5 & _).
    destruct (C19_lagrange_unisolvent _ _ _ (S m) Hs Hp HD Hr ltac:(lia)) as (dofs' & poly & U1 & U2 & U3 & _).
    assert (dofs' = dofs) by congruence. subst dofs'. unfold lagrange_poly in U2. rewrite HT in U2.
    exists phi. split; [exact D2|]. split; [|split].
    + rewrite D3, U3, length_simplex_tuples. pose proof (polynomial_set_1d_length _ _ _ U2) as Lp. rewrite Ht in Lp.
      replace (S m + k + 1)%nat with (S (S m + k)) by lia.
      clear - Lp Hk. assert (C : k = 1%nat \/ k = 2%nat \/ k = 3%nat) by lia. destruct C as [->|[->| ->]].
      * pose proof (choose_1 (S m + 1)) as K. lia.
      * pose proof (choose_2 (S m + 2)) as K. replace (S m + 2 - 1)%nat with (S m + 1)%nat in K by lia. lia.
      * pose proof (choose_3 (S m + 3)) as K. replace (S m + 3 - 1)%nat with (S m + 2)%nat in K by lia. replace (S m + 3 - 2)%nat with (S m + 1)%nat in K by lia. lia.
    + intros f Hf. rewrite Ht in D5. apply D5, Hf.
    + intros c Z i Hi. specialize (Z (env_of (fst (nth i dofs ([], (0, 0)%nat))))). unfold combination in Z. rewrite D3 in *.
      rewrite (sum_single (length dofs) _ i) in Z; [|exact Hi|].
      * rewrite D4, Nat.eqb_refl in Z by exact Hi. lra.
      * intros j Hj Nj. rewrite D4 by assumption. rewrite (proj2 (Nat.eqb_neq i j)) by auto. ring.
Qed.

Lemma bary_degree d i : (i <= d)%nat -> P_space d 1 (bary d i).
Proof.
  intros H. destruct i as [|j]; simpl.
  - apply (poly_space_ext _ (fun v => 1 + (-1) * sum d v)); [intros v; unfold bary; ring|]. apply poly_space_add; [apply degree_const|apply poly_space_scale].
    assert (G : forall n, (n <= d)%nat -> degree_space d 1 (fun v => sum n v)).
    { induction n as [|n IH]; intros L; simpl; [apply degree_const|]. apply poly_space_add; [apply IH; lia|apply degree_var; lia]. }
    apply G. lia.
  - apply degree_var. lia.
Qed.

(** The functions of order 1 are the barycentric coordinates. *)
Lemma lambda_closed c : simplex c ->
  lagrange_basis_functions (default c) 1 "equispaced" = Ok (map (bary (tdim c)) (range (tdim c + 1))) /\
  forall a, P_space (tdim c) 1 a -> forall v, a v = sum (tdim c + 1) (fun i => a (env_of (nth i (reference_vertices c) [])) * bary (tdim c) i v).
Proof.
  intros Hs. destruct (default_ok _ Hs) as (Hr & Hp & HD & HT).
  destruct (C19_lagrange_basis _ _ _ 1 Hs Hp HD Hr ltac:(lia)) as (dofs & phi & D1 & D2 & D3 & D4 & D5 & D6).
  assert (Ed : dofs = vertex_dofs (default c)).
  { rewrite (lagrange_dofs_closed (default c) (tdim c) 1 (good_simplex _ _ _ _ Hs Hp Hr) ltac:(lia)) in D1. injection D1 as <-.
    destruct Hs as [->|[->| ->]]; reflexivity. }
  assert (Ld : length dofs = (tdim c + 1)%nat) by (rewrite Ed; destruct Hs as [->|[->| ->]]; reflexivity).
  assert (Pt : forall i, (i < tdim c + 1)%nat -> fst (nth i dofs ([], (0, 0)%nat)) = nth i (reference_vertices c) []).
  { intros i Hi. rewrite Ed. destruct Hs as [->|[->| ->]]; simpl in Hi; (destruct i as [|[|[|[|i]]]]; try lia; reflexivity). }
  assert (Dl : forall i j, (i < tdim c + 1)%nat -> (j < tdim c + 1)%nat -> bary (tdim c) i (env_of (nth j (reference_vertices c) [])) = if (i =? j)%nat then 1 else 0).
  { intros i j Hi Hj. destruct Hs as [->|[->| ->]]; simpl in Hi, Hj;
      (destruct i as [|[|[|[|i]]]]; try lia); (destruct j as [|[|[|[|j]]]]; try lia); unfold env_of; simpl; ring. }
  assert (Ph : forall i, (i < tdim c + 1)%nat -> nth i phi (fun _ => 0) = bary (tdim c) i).
  { intros i Hi. apply functional_extensionality. intros v. rewrite (D6 (bary (tdim c) i) (bary_degree (tdim c) i ltac:(lia)) v), Ld.
    rewrite (sum_single (tdim c + 1) _ i); [|exact Hi|].
    - rewrite Pt, Dl, Nat.eqb_refl by exact Hi. ring.
    - intros j Hj Nj. rewrite Pt, Dl by assumption. rewrite (proj2 (Nat.eqb_neq i j)) by auto. ring. }
  split.
  - rewrite D2. f_equal. apply (nth_ext _ _ (fun _ => 0) (bary (tdim c) 0)); [rewrite map_length, length_range; exact (eq_trans D3 Ld)|].
    intros i Hi0. assert (Hi : (i < tdim c + 1)%nat) by (rewrite <- (eq_trans D3 Ld); exact Hi0). rewrite map_nth. unfold range. rewrite seq_nth by exact Hi. apply Ph, Hi.
  - intros a Ha v. rewrite (D6 a Ha v), Ld. apply sum_ext. intros i Hi. rewrite Pt, Ph by exact Hi. reflexivity.
Qed.

(** * Blocks *)
Definition good_block (d : nat) (vs : list pt) (b : block) : Prop :=
  let E := b_vertices b in
  (1 <= b_dim b <= 3)%nat /\ length E = S (b_dim b) /\ (forall i, In i E -> (i <= d)%nat) /\
  (forall i s, (i <= d)%nat -> ~ In i E -> bary d i (param vs E s) = 0) /\
  (forall j s, (j < b_dim b)%nat -> bary d (nth (S j) E 0%nat) (param vs E s) = s j) /\
  (forall s, bary d (nth 0 E 0%nat) (param vs E s) = 1 - sum (b_dim b) s) /\
  (forall i, (i <= d)%nat -> bubble d E (env_of (nth i vs [])) = 0).
Definition good_blocks (d : nat) (vs : list pt) (bs : list block) : Prop :=
  Forall (good_block d vs) bs /\ NoDup (map b_vertices bs) /\
  (forall b b', In b bs -> In b' bs -> incl (b_vertices b') (b_vertices b) -> b_vertices b' = b_vertices b \/ (length (b_vertices b') < length (b_vertices b))%nat).

Lemma bubble_zero d E v i : In i E -> bary d i v = 0 -> bubble d E v = 0.
Proof. intros H Z. induction E as [|x E IH]; [destruct H|]. simpl. destruct H as [<-|H]; [rewrite Z; ring|rewrite IH by exact H; ring]. Qed.
Lemma bubble_nonzero d E v : (forall i, In i E -> bary d i v <> 0) -> bubble d E v <> 0.
Proof.
  intros H. induction E as [|x E IH]; simpl; [lra|]. apply Rmult_integral_contrapositive_currified; [apply H; left; reflexivity|].
  apply IH. intros i Hi. apply H. right; exact Hi.
Qed.
Lemma sumR_zero {A} (f : A -> R) l : (forall a, In a l -> f a = 0) -> sumR (map f l) = 0.
Proof. intros H. unfold sumR. induction l as [|a l IH]; simpl; [reflexivity|]. rewrite H by (left; reflexivity). rewrite IH; [ring|]. intros b Hb. apply H. right; exact Hb. Qed.
Lemma sumR_one {A B} (key : A -> B) (f : A -> R) l b : NoDup (map key l) -> In b l -> (forall a, In a l -> key a <> key b -> f a = 0) -> sumR (map f l) = f b.
Proof.
  intros ND Hin H. unfold sumR. induction l as [|a l IH]; [destruct Hin|]. simpl in ND |- *. inversion ND as [|? ? N1 N2]; subst.
  destruct Hin as [->|Hin].
  - change (f b + sumR (map f l) = f b). rewrite sumR_zero; [ring|]. intros x Hx. apply H; [right; exact Hx|].
    intros E. apply N1. rewrite <- E. apply in_map, Hx.
  - rewrite (H a); [|left; reflexivity|]. 2:{ intros E. apply N1. rewrite E. apply in_map, Hin. }
    rewrite IH; [ring|exact N2|exact Hin|]. intros x Hx. apply H. right; exact Hx.
Qed.

(** A polynomial of the inner space that vanishes at the inner points is zero. *)
Lemma inner_zero k n q : (1 <= k)%nat -> inner_space k n q ->
  (forall ii, In ii (simplex_tuples n k) -> q (fun j => frac n (nth j ii 0%nat)) = 0) -> forall v, q v = 0.
Proof.
  unfold inner_space. intros Hk. destruct (Nat.ltb_spec k n) as [L|L]; [|intros H _; exact H]. intros Hq Z.
  apply (simplex_lattice_zero (fun a => frac n (S a)) k (n - k - 1)); [|exact Hq|].
  - intros i j Hij E. pose proof (frac_distinct n ltac:(lia) (S j) (S i) (S j) ltac:(lia)) as F. exact (F E).
  - intros m Lm Dm. rewrite mdeg_sum in Dm.
    assert (In (map S m) (simplex_tuples n k)).
    { assert (SS : list_sum (map S m) = (list_sum m + length m)%nat) by (clear; induction m as [|x m IH]; simpl; [reflexivity|rewrite IH; lia]).
      apply in_simplex_tuples. rewrite map_length. split; [exact Lm|]. split; [|lia].
      apply Forall_forall. intros x Hx. apply in_map_iff in Hx. destruct Hx as (y & <- & Hy).
      pose proof (mdeg_entry m y Hy) as Q. rewrite mdeg_sum in Q. lia. }
    rewrite <- (Z _ H). apply (degree_local k (n - k - 1) q); [exact Hq|]. intros j Hj. unfold as_point.
    rewrite (nth_indep _ 0 ((fun a => frac n (S a)) 0%nat)) by (rewrite map_length; lia). rewrite (map_nth (fun a => frac n (S a))).
    rewrite (nth_indep (map S m) 0%nat (S 0)) by (rewrite map_length; lia). rewrite (map_nth S). reflexivity.
Qed.

Definition inner_point (vs : list pt) (b : block) (ii : list nat) : point :=
  param vs (b_vertices b) (fun j => frac (b_order b) (nth j ii 0%nat)).

(** What remains of a function of the space on a sub-entity. *)
Definition decomposed (d : nat) (bs : list block) (f a : sfun) (q : list nat -> sfun) : Prop :=
  P_space d 1 a /\ (forall b, In b bs -> inner_space (b_dim b) (b_order b) (q (b_vertices b))) /\
  forall v, f v = a v + sumR (map (fun b => bubble d (b_vertices b) v * q (b_vertices b) (coords d (b_vertices b) v)) bs).

Lemma block_bubble d vs b s : good_block d vs b -> (forall j, (j < b_dim b)%nat -> s j <> 0) -> sum (b_dim b) s <> 1 ->
  bubble d (b_vertices b) (param vs (b_vertices b) s) <> 0.
Proof.
  intros (H1 & H2 & H3 & H4 & H5 & H6 & H7) Hs H1s. apply bubble_nonzero. intros i Hi.
  destruct (In_nth _ _ 0%nat Hi) as ([|j] & Hj & <-).
  - rewrite H6. lra.
  - rewrite H5 by lia. apply Hs. lia.
Qed.
Lemma inner_local k n q v w : inner_space k n q -> (forall j, (j < k)%nat -> v j = w j) -> q v = q w.
Proof.
  unfold inner_space. destruct (k <? n)%nat; intros H E; [exact (degree_local k (n - k - 1) q v w H E)|rewrite !H; reflexivity].
Qed.
Lemma inner_coords d vs b q s : good_block d vs b -> inner_space (b_dim b) (b_order b) q ->
  q (coords d (b_vertices b) (param vs (b_vertices b) s)) = q s.
Proof.
  intros (H1 & H2 & H3 & H4 & H5 & H6 & H7) Hq. apply (inner_local (b_dim b) (b_order b) q); [exact Hq|].
  intros j Hj. unfold coords. apply H5, Hj.
Qed.
Lemma sum_div n (g : nat -> R) x : sum n (fun j => g j / x) = sum n g / x.
Proof. induction n as [|n IH]; simpl; [unfold Rdiv; ring|rewrite IH; unfold Rdiv; ring]. Qed.
Lemma sum_INR ii : sum (length ii) (fun j => INR (nth j ii 0%nat)) = INR (list_sum ii).
Proof.
  induction ii as [|a ii IH]; [reflexivity|]. cbn [length]. rewrite sum_S. cbn [nth]. rewrite IH. change (list_sum (a :: ii)) with (a + list_sum ii)%nat.
  rewrite plus_INR. reflexivity.
Qed.
Lemma inner_point_bubble d vs b ii : good_block d vs b -> In ii (simplex_tuples (b_order b) (b_dim b)) ->
  bubble d (b_vertices b) (inner_point vs b ii) <> 0.
Proof.
  intros G Hi. apply in_simplex_tuples in Hi. destruct Hi as (L & F & S1). apply (block_bubble d vs b); [exact G| |].
  - intros j Hj. unfold frac. rewrite Forall_forall in F. specialize (F (nth j ii 0%nat) ltac:(apply nth_In; lia)).
    assert (0 < INR (nth j ii 0%nat)) by (apply lt_0_INR; lia). assert (0 < INR (b_order b)) by (apply lt_0_INR; lia).
    unfold Rdiv. apply Rmult_integral_contrapositive_currified; [lra|apply Rinv_neq_0_compat; lra].
  - unfold frac. rewrite sum_div, <- L, sum_INR. intros E. assert (0 < INR (b_order b)) by (apply lt_0_INR; lia).
    assert (X : INR (list_sum ii) = INR (b_order b)).
    { rewrite <- (Rmult_1_l (INR (b_order b))), <- E. field. lra. }
    apply INR_eq in X. lia.
Qed.

(** The linear part on a sub-entity at whose vertices the function vanishes. *)
Lemma linear_part c bs f a q b : simplex c -> good_blocks (tdim c) (reference_vertices c) bs -> decomposed (tdim c) bs f a q -> In b bs ->
  (forall i, In i (b_vertices b) -> f (env_of (nth i (reference_vertices c) [])) = 0) ->
  forall s, a (param (reference_vertices c) (b_vertices b) s) = 0.
Proof.
  intros Hs (G & _ & _) (Ha & _ & Ef) Hb V s. rewrite (proj2 (lambda_closed c Hs) a Ha). apply sum_zero. intros i Hi.
  rewrite Forall_forall in G. pose proof (G b Hb) as (H1 & H2 & H3 & H4 & H5 & H6 & H7).
  destruct (in_dec Nat.eq_dec i (b_vertices b)) as [I|I]; [|rewrite H4 by (auto; lia); ring].
  specialize (V i I). rewrite Ef, sumR_zero in V.
  - rewrite Rplus_0_r in V. rewrite V. ring.
  - intros b' Hb'. destruct (G b' Hb') as (_ & _ & _ & _ & _ & _ & Z). rewrite Z by lia. ring.
Qed.

Lemma block_zero c bs f a q : simplex c -> good_blocks (tdim c) (reference_vertices c) bs -> decomposed (tdim c) bs f a q ->
  forall n b, (length (b_vertices b) <= n)%nat -> In b bs ->
  (forall i, In i (b_vertices b) -> f (env_of (nth i (reference_vertices c) [])) = 0) ->
  (forall b' ii, In b' bs -> incl (b_vertices b') (b_vertices b) -> In ii (simplex_tuples (b_order b') (b_dim b')) -> f (inner_point (reference_vertices c) b' ii) = 0) ->
  (forall v, q (b_vertices b) v = 0) /\ (forall s, f (param (reference_vertices c) (b_vertices b) s) = 0).
Proof.
  intros Hs HG HD. set (vs := reference_vertices c) in *. set (d := tdim c) in *.
  destruct HG as (G & ND & Sub). destruct HD as (Ha & Hq & Ef). rewrite Forall_forall in G.
  induction n as [|n IH]; intros b Ln Hb V Z.
  { pose proof (G b Hb) as (_ & L & _). lia. }
  pose proof (G b Hb) as GB.
  assert (A : forall s, a (param vs (b_vertices b) s) = 0).
  { apply (linear_part c bs f a q b Hs); [split; [apply Forall_forall; exact G|split; assumption]|split; [exact Ha|split; assumption]|exact Hb|exact V]. }
  assert (F : forall s, f (param vs (b_vertices b) s) = bubble d (b_vertices b) (param vs (b_vertices b) s) * q (b_vertices b) s).
  { intros s. rewrite Ef, A, Rplus_0_l.
    rewrite (sumR_one b_vertices _ bs b ND Hb).
    - rewrite (inner_coords d vs b (q (b_vertices b)) s GB (Hq b Hb)). reflexivity.
    - intros b' Hb' Ne. cbv beta.
      destruct (ListDec.incl_dec Nat.eq_dec (b_vertices b') (b_vertices b)) as [I|I].
      + destruct (Sub b b' Hb Hb' I) as [E|Lt]; [contradiction|].
        destruct (IH b' ltac:(lia) Hb') as [Q _].
        * intros i Hi. apply V, I, Hi.
        * intros b2 ii H2 I2 Hii. apply (Z b2 ii H2); [intros x Hx; apply I, I2, Hx|exact Hii].
        * rewrite Q. ring.
      + assert (X : exists i, In i (b_vertices b') /\ ~ In i (b_vertices b)).
        { clear - I. induction (b_vertices b') as [|x l IHl]; [exfalso; apply I; intros y []|].
          destruct (in_dec Nat.eq_dec x (b_vertices b)) as [Y|Y]; [|exists x; split; [left; reflexivity|exact Y]].
          destruct IHl as (i & H1 & H2); [intros K; apply I; intros y [<-|Hy]; [exact Y|apply K, Hy]|]. exists i. split; [right; exact H1|exact H2]. }
        destruct X as (i & Hi1 & Hi2). pose proof (G b' Hb') as (_ & _ & K3 & _). destruct GB as (_ & _ & _ & K4 & _).
        rewrite (bubble_zero d _ _ i Hi1); [ring|]. apply K4; [apply K3, Hi1|exact Hi2]. }
  assert (Q : forall v, q (b_vertices b) v = 0).
  { apply (inner_zero (b_dim b) (b_order b)); [destruct GB; lia|apply Hq, Hb|]. intros ii Hii.
    specialize (Z b ii Hb (incl_refl _) Hii). unfold inner_point in Z. rewrite F in Z.
    pose proof (inner_point_bubble d vs b ii GB Hii) as N. unfold inner_point in N.
    apply Rmult_integral in Z. destruct Z as [Z|Z]; [contradiction|exact Z]. }
  split; [exact Q|]. intros s. rewrite F, Q. ring.
Qed.
