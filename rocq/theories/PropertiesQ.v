(** C20: the Q element on default quadrilaterals and hexahedra, and its tensor factorisation; C19 for the other point
    sets of the interval element. *)
From Coq Require Import String Arith Bool Reals Lia Lra Sorted Permutation List.
From Verif Require Import Base PolyLib PolySetsModel PolySetsProofs QuadratureModel QuadratureProofs ReferencesModel
  ReferencesSpec ReferencesProofs CiarletModel LinAlg ElementModel ElementProofs LagrangeModel UnisolvenceProofs LagrangeProofs LagrangeKey
  LagrangeUnisolvence PropertiesLagrange QProofs QDofs.
Import ListNotations.
Open Scope R_scope.

Lemma filter_all {A} (p : A -> bool) l : (forall a, In a l -> p a = true) -> filter p l = l.
Proof.
  induction l as [|a l IH]; intros H; simpl; [reflexivity|]. rewrite H by (left; reflexivity). f_equal.
  apply IH. intros; apply H; right; assumption.
Qed.

(** The lagrange element on the interval has the same points *)
Lemma lagrange_interval_closed n variant rule : (1 <= n)%nat -> get_quadrature variant (n + 1) = Ok rule ->
  lagrange_dofs (default CInterval) n variant = Ok (q_closed CInterval n (fst rule)).
Proof.
  intros Hn Hq. pose proof (quadrature_nodes variant n rule Hn Hq) as (Lp & _).
  unfold lagrange_dofs. rewrite (proj2 (Nat.eqb_neq n 0)) by lia. rewrite Hq. cbn [rbind].
  replace (negb (variant =? "equispaced")%string && negb (tensor_cell (r_type (default CInterval)))) with false
    by (rewrite andb_comm; reflexivity).
  rewrite (point_dofs_closed _ 1 (simplex_tuples n) _ (fun k e => qpoint (ent_of (default CInterval) k e) (fst rule))
    (good_tensor CInterval (or_introl eq_refl))).
  - f_equal. unfold q_closed, closed_dofs. f_equal. f_equal. f_equal.
    unfold simplex_tuples, tuples. cbn [repeat]. rewrite product_1.
    apply filter_all. intros i Hi. apply in_map_iff in Hi. destruct Hi as (a & <- & Ha).
    apply in_range2 in Ha. apply Nat.ltb_lt. simpl. lia.
  - intros k e i Hk He Hi. apply in_simplex_tuples in Hi. destruct Hi as (Li & Fi & _).
    destruct k as [|[|[|[|k]]]]; try (unfold ent_count in He; cbn in He; exfalso; lia).
    destruct e as [|e]; [|unfold ent_count in He; cbn in He; exfalso; lia].
    destruct i as [|a [|]]; try discriminate Li. apply Forall_cons_iff in Fi. destruct Fi as [Fa _].
    unfold lagrange_place. cbn [rev app map_r]. rewrite (get_nth (fst rule) a 0) by lia. cbn [rbind rmap].
    cbn -[IZR Rplus Rminus Rmult]. f_equal. f_equal. ring.
Qed.

(** * The interval *)
(** For every variant that has points for the order, the interval element has n + 1 different points, the two end
    points and n - 1 points inside, and dual basis functions. *)
Theorem C19_lagrange_interval_variants : forall n variant rule, (1 <= n)%nat -> get_quadrature variant (n + 1) = Ok rule ->
  exists dofs phi, lagrange_dofs (default CInterval) n variant = Ok dofs /\
  lagrange_basis_functions (default CInterval) n variant = Ok phi /\
  length dofs = (n + 1)%nat /\ length phi = (n + 1)%nat /\ NoDup (map fst dofs) /\
  (forall p k e, In (p, (k, e)) dofs -> exists E, entity_is (default CInterval) k e E /\
     in_interior (map (fun i => nth i [[0]; [1]] []) E) p) /\
  (forall i j, (i < length dofs)%nat -> (j < length dofs)%nat ->
     nth j phi (fun _ => 0) (env_of (fst (nth i dofs ([], (0, 0)%nat)))) = if (i =? j)%nat then 1 else 0) /\
  (forall f, In f phi -> poly_space (fun m => length m = 1%nat /\ (mdeg m <= n)%nat) f) /\
  (forall f, poly_space (fun m => length m = 1%nat /\ (mdeg m <= n)%nat) f -> forall v,
     f v = sum (length dofs) (fun i => f (env_of (fst (nth i dofs ([], (0, 0)%nat)))) * nth i phi (fun _ => 0) v)).
Proof.
  intros n variant rule Hn Hq. pose proof (quadrature_nodes variant n rule Hn Hq) as HN.
  destruct n as [|N]; [lia|]. assert (Hc : tensor CInterval) by (left; reflexivity).
  destruct (q_closed_points CInterval N (fst rule) Hc HN) as [ND LD]. cbn [tdim Nat.pow] in LD.
  destruct (polynomial_set_1d_ok 1 (S N) ltac:(lia)) as (poly & Hp & NDp & Hin & _).
  assert (LP : length (q_closed CInterval (S N) (fst rule)) = length poly).
  { pose proof (polynomial_set_1d_length 1 (S N) poly Hp) as X. destruct X as [[_ X]|[[X _]|[X _]]]; [|discriminate X|discriminate X].
    refine (eq_trans LD (eq_trans _ (eq_sym X))). lia. }
  destruct (point_element 1 (fun m => length m = 1%nat /\ (mdeg m <= S N)%nat) poly (q_closed CInterval (S N) (fst rule))
    ([], (0, 0)%nat) NDp Hin (fun m H => proj1 H) LP) as (phi & P1 & P2 & P3 & P4 & P5).
  { intros f Hf Z. apply (q_closed_zero CInterval N (fst rule) f Hc HN); [|exact Z].
    apply (poly_space_weaken (fun m => length m = 1%nat /\ (mdeg m <= S N)%nat)); [|exact Hf].
    intros m [L D]. split; [exact L|]. destruct m as [|a [|]]; try discriminate L. unfold mdeg in D. simpl in D. apply Forall_cons; [lia|apply Forall_nil]. }
  exists (q_closed CInterval (S N) (fst rule)), phi. rewrite (lagrange_interval_closed (S N) variant rule Hn Hq).
  split; [reflexivity|]. split.
  { unfold lagrange_basis_functions. rewrite (lagrange_interval_closed (S N) variant rule Hn Hq). cbn [rbind].
    unfold lagrange_poly. cbn [default make_reference reference_vertices r_type tdim]. rewrite Hp. exact P1. }
  split; [lia|]. split; [rewrite P2; lia|]. split; [exact ND|]. split; [|split; [exact P3|split; [exact P4|exact P5]]].
  intros p k e H. apply (q_located CInterval (S N) (fst rule) p k e Hc Hn HN H).
Qed.
Print Assumptions C19_lagrange_interval_variants.

Example C19_gll_case : exists rule dofs, get_quadrature "gll" 4 = Ok rule /\ lagrange_dofs (default CInterval) 3 "gll" = Ok dofs /\
  length dofs = 4%nat.
Proof.
  destruct (get_quadrature "gll" 4) as [rule|] eqn:E; [|discriminate].
  destruct (C19_lagrange_interval_variants 3 "gll" rule ltac:(lia) E) as (dofs & phi & H1 & _ & H2 & _).
  exists rule, dofs. split; [reflexivity|]. split; [exact H1|exact H2].
Qed.

(** * Q elements *)
(** The points of a Q element of order n, for every variant with points: (n+1)^d different points, each in the
    interior of the sub-entity it is attached to. *)
Theorem C20_q_points : forall c n variant rule, c = CQuadrilateral \/ c = CHexahedron -> (1 <= n)%nat ->
  get_quadrature variant (n + 1) = Ok rule ->
  exists dofs, q_dofs (default c) n variant = Ok dofs /\ length dofs = ((n + 1) ^ tdim c)%nat /\ NoDup (map fst dofs) /\
  forall p k e, In (p, (k, e)) dofs -> length p = tdim c /\ exists E, entity_is (default c) k e E /\
     in_interior (map (fun i => nth i (r_vertices (default c)) []) E) p.
Proof.
  intros c n variant rule Hc' Hn Hq. assert (Hc : tensor c) by (right; exact Hc'). clear Hc'.
  pose proof (quadrature_nodes variant n rule Hn Hq) as HN.
  exists (q_closed c n (fst rule)). split; [apply q_dofs_closed; assumption|].
  destruct n as [|N]; [lia|]. destruct (q_closed_points c N (fst rule) Hc HN) as [ND LD].
  split; [rewrite LD; f_equal; lia|]. split; [exact ND|].
  intros p k e H. exact (q_located c (S N) (fst rule) p k e Hc Hn HN H).
Qed.
Print Assumptions C20_q_points.

(** The basis functions: dual to the points, of degree at most n in each variable, and they reproduce all such
    polynomials. *)
Theorem C20_q_basis : forall c n variant rule, c = CQuadrilateral \/ c = CHexahedron -> (1 <= n)%nat ->
  get_quadrature variant (n + 1) = Ok rule ->
  exists dofs phi, q_dofs (default c) n variant = Ok dofs /\ q_basis_functions (default c) n variant = Ok phi /\
  length phi = length dofs /\
  (forall i j, (i < length dofs)%nat -> (j < length dofs)%nat ->
     nth j phi (fun _ => 0) (env_of (fst (nth i dofs ([], (0, 0)%nat)))) = if (i =? j)%nat then 1 else 0) /\
  (forall f, In f phi -> poly_space (fun m => length m = tdim c /\ Forall (fun e => (e <= n)%nat) m) f) /\
  (forall f, poly_space (fun m => length m = tdim c /\ Forall (fun e => (e <= n)%nat) m) f -> forall v,
     f v = sum (length dofs) (fun i => f (env_of (fst (nth i dofs ([], (0, 0)%nat)))) * nth i phi (fun _ => 0) v)).
Proof.
  intros c n variant rule Hc' Hn Hq. assert (Hc : tensor c) by (right; exact Hc'). clear Hc'.
  pose proof (quadrature_nodes variant n rule Hn Hq) as HN.
  destruct n as [|N]; [lia|]. destruct (q_closed_points c N (fst rule) Hc HN) as [ND LD].
  assert (Td : (tdim c <= 3)%nat) by (destruct Hc as [->|[->| ->]]; simpl; lia).
  destruct (quolynomial_set_1d_ok (tdim c) (S N) Td) as (NDp & Hin & _).
  destruct (point_element (tdim c) (fun m => length m = tdim c /\ Forall (fun e => (e <= S N)%nat) m)
    (quolynomial_set_1d (tdim c) (S N)) (q_closed c (S N) (fst rule))
    ([], (0, 0)%nat) NDp Hin (fun m H => proj1 H)) as (phi & P1 & P2 & P3 & P4 & P5).
  { rewrite LD, quolynomial_set_1d_length. f_equal. lia. }
  { intros f Hf Z. exact (q_closed_zero c N (fst rule) f Hc HN Hf Z). }
  exists (q_closed c (S N) (fst rule)), phi. pose proof (q_dofs_closed c (S N) variant rule Hc Hn Hq) as HD.
  split; [exact HD|]. split.
  { unfold q_basis_functions. rewrite HD. cbn [rbind]. unfold q_poly.
    replace (r_type (default c)) with c by (destruct Hc as [->|[->| ->]]; reflexivity). exact P1. }
  split; [exact P2|]. split; [exact P3|]. split; [exact P4|exact P5].
Qed.
Print Assumptions C20_q_basis.

(** * The tensor factorisation *)
Definition idx (N a : nat) : nat := if (a =? 0)%nat then 0%nat else if (a =? S N)%nat then 1%nat else S a.
Lemma idx_ord N : map (idx N) (ord N) = range (N + 2).
Proof.
  unfold ord, inner. cbn [map]. rewrite map_map. unfold range. replace (N + 2)%nat with (S (S N)) by lia. cbn [seq].
  f_equal. unfold idx at 1. cbn [Nat.eqb]. rewrite Nat.eqb_refl. f_equal.
  rewrite <- seq_shift, <- seq_shift, map_map. apply map_ext_in. intros a Ha. apply in_seq in Ha. unfold idx. cbn [Nat.eqb].
  rewrite (proj2 (Nat.eqb_neq a N)) by lia. reflexivity.
Qed.

Lemma sum_lincomb {D} (dofs : list D) d0 (g : D -> R) : forall (phi : list (fn point)) v, length dofs = length phi ->
  sum (length dofs) (fun i => g (nth i dofs d0) * nth i phi (fun _ => 0) v) = lincomb (map g dofs) phi v.
Proof.
  induction dofs as [|d dofs IH]; intros [|h phi] v LD; try discriminate LD; [reflexivity|].
  cbn [length]. rewrite sum_S. cbn [map nth lincomb]. rewrite (IH phi) by (simpl in LD; lia). reflexivity.
Qed.

Lemma interval_psi N : exists psi : nat -> fn point,
  lagrange_basis_functions (default CInterval) (S N) "equispaced" = Ok (map psi (ord N)) /\
  (forall a b, (a <= S N)%nat -> (b <= S N)%nat ->
     psi a (fun _ => qn (S N) (fst (equispaced (S N + 1))) b) = if (a =? b)%nat then 1 else 0) /\
  (forall a, (a <= S N)%nat -> poly_space (fun m => length m = 1%nat /\ (mdeg m <= S N)%nat) (psi a)) /\
  (forall f, poly_space (fun m => length m = 1%nat /\ (mdeg m <= S N)%nat) f -> forall v,
     f v = lincomb (map (fun a => f (fun _ => qn (S N) (fst (equispaced (S N + 1))) a)) (ord N)) (map psi (ord N)) v).
Proof.
  assert (Hq : get_quadrature "equispaced" (S N + 1) = Ok (equispaced (S N + 1))) by reflexivity.
  destruct (C19_lagrange_interval_variants (S N) "equispaced" _ ltac:(lia) Hq) as (dofs & phi & H1 & H2 & H3 & H4 & _ & _ & H5 & H6 & H7).
  pose proof (quadrature_nodes "equispaced" (S N) _ ltac:(lia) Hq) as HN.
  rewrite (lagrange_interval_closed (S N) "equispaced" _ ltac:(lia) Hq) in H1. injection H1 as <-.
  set (pts := fst (equispaced (S N + 1))) in *.
  pose proof (q_closed_lat CInterval N pts (or_introl eq_refl) HN) as HL. rewrite lat_interval, product_1, map_map in HL. cbn [map] in HL.
  set (dofs := q_closed CInterval (S N) pts) in *.
  assert (IO : forall a, In a (ord N) -> nth (idx N a) (ord N) 0%nat = a /\ (idx N a < N + 2)%nat).
  { intros a Ha. apply in_ord in Ha. unfold idx. destruct (Nat.eqb_spec a 0) as [->|N0]; [split; [reflexivity|lia]|].
    destruct (Nat.eqb_spec a (S N)) as [->|N1]; [split; [reflexivity|lia]|]. split; [|lia].
    unfold ord, inner. cbn [nth]. destruct a as [|a]; [lia|]. cbn [nth].
    apply nth_map_range. lia. }
  assert (PT : forall a, (a <= S N)%nat -> fst (nth (idx N a) dofs ([], (0, 0)%nat)) = [qn (S N) pts a]).
  { intros a Ha. apply in_ord in Ha. destruct (IO a Ha) as [E L].
    transitivity (nth (idx N a) (map fst dofs) (fst (@nil R, (0, 0)%nat))); [symmetry; exact (map_nth fst dofs ([], (0, 0)%nat) (idx N a))|].
    rewrite HL. rewrite (nth_indep _ _ [qn (S N) pts 0]) by (rewrite map_length, length_ord; exact L).
    rewrite (map_nth (fun a => [qn (S N) pts a])), E. reflexivity. }
  exists (fun a => nth (idx N a) phi (fun _ => 0)).
  assert (EQ : map (fun a => nth (idx N a) phi (fun _ => 0)) (ord N) = phi).
  { rewrite <- (map_map (idx N) (fun k => nth k phi (fun _ => 0))), idx_ord.
    replace (N + 2)%nat with (length phi) by lia. apply map_nth_range. }
  assert (IN : forall a, (a <= S N)%nat -> In (nth (idx N a) phi (fun _ => 0)) phi).
  { intros a Ha. apply nth_In. apply in_ord in Ha. destruct (IO a Ha). lia. }
  assert (LOC : forall f (x : R), poly_space (fun m => length m = 1%nat /\ (mdeg m <= S N)%nat) f -> f (fun _ => x) = f (env_of [x])).
  { intros f x Hf. apply (degree_local 1 (S N) f _ _ Hf). intros j Hj. destruct j; [reflexivity|lia]. }
  split; [rewrite EQ; exact H2|]. split; [|split].
  - intros a b Ha Hb. rewrite LOC by (apply H6, IN, Ha). rewrite <- PT by exact Hb.
    destruct (IO a (proj2 (in_ord N a) Ha)) as [Ea La]. destruct (IO b (proj2 (in_ord N b) Hb)) as [Eb Lb].
    rewrite H5 by lia. destruct (Nat.eqb_spec (idx N b) (idx N a)) as [E|E]; destruct (Nat.eqb_spec a b) as [E'|E']; try reflexivity; exfalso.
    + apply E'. rewrite <- Ea, <- Eb, E. reflexivity.
    + apply E. rewrite E'. reflexivity.
  - intros a Ha. apply H6, IN, Ha.
  - intros f Hf v. rewrite EQ. rewrite (H7 f Hf v).
    assert (LD : length dofs = length phi) by exact (eq_trans H3 (eq_sym H4)).
    assert (V : map (fun a => f (fun _ => qn (S N) pts a)) (ord N) = map (fun d => f (env_of (fst d))) dofs).
    { transitivity (map (fun p => f (env_of p)) (map fst dofs)); [|apply map_map]. rewrite HL, map_map. apply map_ext.
      intros a. apply LOC. exact Hf. }
    rewrite V. exact (sum_lincomb dofs ([], (0, 0)%nat) (fun d => f (env_of (fst d))) phi v LD).
Qed.

(** get_tensor_factorisation(): the permutation is one of the degrees of freedom, and the products of the interval
    basis functions, numbered by it, are exactly the basis functions of the element (equispaced points). *)
Theorem C20_tensor_factorisation_partial : forall c n, c = CQuadrilateral \/ c = CHexahedron -> (1 <= n)%nat ->
  exists perm dofs psi phi, q_perm c n = Ok perm /\ q_dofs (default c) n "equispaced" = Ok dofs /\
  Permutation perm (range (length dofs)) /\
  q_basis_functions_tensor c n = Ok psi /\ length psi = length dofs /\
  (forall i j, (i < length dofs)%nat -> (j < length dofs)%nat ->
     nth j psi (fun _ => 0) (env_of (fst (nth i dofs ([], (0, 0)%nat)))) = if (i =? j)%nat then 1 else 0) /\
  q_basis_functions (default c) n "equispaced" = Ok phi /\
  (forall i v, (i < length dofs)%nat -> nth i psi (fun _ => 0) v = nth i phi (fun _ => 0) v).
Proof.
  intros c n Hc' Hn. assert (Hc : tensor c) by (right; exact Hc').
  destruct n as [|N]; [lia|]. clear Hn.
  assert (Hq : get_quadrature "equispaced" (S N + 1) = Ok (equispaced (S N + 1))) by reflexivity.
  destruct (C20_q_basis c (S N) "equispaced" _ Hc' ltac:(lia) Hq) as (dofs & phi & D1 & D2 & D3 & D4 & D5 & D6).
  pose proof (quadrature_nodes "equispaced" (S N) _ ltac:(lia) Hq) as HN.
  rewrite (q_dofs_closed c (S N) "equispaced" _ Hc ltac:(lia) Hq) in D1. injection D1 as <-.
  destruct (interval_psi N) as (psi & I1 & I2 & I3 & _).
  set (pts := fst (equispaced (S N + 1))) in *. set (dofs := q_closed c (S N) pts) in *.
  destruct (lat_facts c N Hc) as (LP & LN & LI).
  pose proof (q_closed_lat c N pts Hc HN) as HL.
  assert (LL : length (lat c N) = length dofs).
  { transitivity (length (map fst dofs)); [unfold dofs; rewrite HL, map_length; reflexivity|apply map_length]. }
  assert (HP : q_perm c (S N) = Ok (perm_of c N)) by (destruct Hc' as [->| ->]; reflexivity).
  destruct (tensor_products_lat c N psi Hc) as (T & T1 & T2).
  assert (HT : q_basis_functions_tensor c (S N) = Ok (map (fun i => T (nth i (lat c N) [])) (range (length (lat c N))))).
  { unfold q_basis_functions_tensor. rewrite I1, HP. cbn [rbind]. rewrite T1, <- (perm_lat c N Hc), map_map.
    apply (scatter_ok (perm_of c N) (fun p => T (nth p (lat c N) []))). exact LP. }
  assert (PTS : forall i, (i < length dofs)%nat -> fst (nth i dofs ([], (0, 0)%nat)) = map (qn (S N) pts) (nth i (lat c N) [])).
  { intros i Hi. transitivity (nth i (map fst dofs) (fst (@nil R, (0, 0)%nat))); [symmetry; exact (map_nth fst dofs ([], (0, 0)%nat) i)|].
    unfold dofs. rewrite HL. change (fst (@nil R, (0, 0)%nat)) with (map (qn (S N) pts) []).
    apply (map_nth (map (qn (S N) pts))). }
  assert (NTH : forall j, (j < length dofs)%nat ->
    nth j (map (fun i => T (nth i (lat c N) [])) (range (length (lat c N)))) (fun _ => 0) = T (nth j (lat c N) [])).
  { intros j Hj. apply (nth_map_range (fun i => T (nth i (lat c N) []))). lia. }
  assert (LF : forall i, (i < length dofs)%nat -> length (nth i (lat c N) []) = tdim c /\ Forall (fun e => (e <= S N)%nat) (nth i (lat c N) [])).
  { intros i Hi. apply LI. apply nth_In. lia. }
  assert (DELTA : forall i j, (i < length dofs)%nat -> (j < length dofs)%nat ->
     T (nth j (lat c N) []) (env_of (fst (nth i dofs ([], (0, 0)%nat)))) = if (i =? j)%nat then 1 else 0).
  { intros i j Hi Hj. destruct (LF i Hi) as [Li Fi]. destruct (LF j Hj) as [Lj Fj]. rewrite T2 by exact Lj.
    rewrite (tens_delta (qn (S N) pts) (S N) psi I2 _ (nth i (lat c N) []) 0); [|congruence|exact Fj|exact Fi|].
    - destruct (list_eq_dec Nat.eq_dec _ _) as [E|E]; destruct (Nat.eqb_spec i j) as [E'|E']; try reflexivity; exfalso.
      + apply E'. symmetry. apply (proj1 (NoDup_nth (lat c N) []) LN); [lia|lia|exact E].
      + apply E. rewrite E'. reflexivity.
    - intros k Hk. rewrite PTS by exact Hi. unfold env_of. simpl. rewrite <- (qn_0 (S N) pts) at 1.
      apply (map_nth (qn (S N) pts)). }
  assert (POLY : forall j, (j < length dofs)%nat -> poly_space (fun m => length m = tdim c /\ Forall (fun e => (e <= S N)%nat) m) (T (nth j (lat c N) []))).
  { intros j Hj. destruct (LF j Hj) as [Lj Fj]. apply (poly_space_ext _ (tens psi 0 (nth j (lat c N) []))).
    - intros v. symmetry. apply T2. exact Lj.
    - rewrite <- Lj. apply tens_poly; [exact I3|exact Fj]. }
  exists (perm_of c N), dofs, (map (fun i => T (nth i (lat c N) [])) (range (length (lat c N)))), phi.
  split; [exact HP|]. split; [apply q_dofs_closed; [exact Hc|lia|exact Hq]|]. split; [rewrite <- LL; exact LP|].
  split; [exact HT|]. split; [rewrite map_length, length_range; exact LL|]. split.
  - intros i j Hi Hj. rewrite NTH by exact Hj. apply DELTA; assumption.
  - split; [exact D2|]. intros i v Hi. rewrite NTH by exact Hi. rewrite (D6 _ (POLY i Hi) v).
    rewrite (sum_single _ _ i) by (try exact Hi; intros k Hk Nk; rewrite DELTA by assumption;
      rewrite (proj2 (Nat.eqb_neq k i) Nk); ring).
    rewrite DELTA by assumption. rewrite Nat.eqb_refl. ring.
Qed.
Print Assumptions C20_tensor_factorisation_partial.

Ltac half_weights s :=
  apply (comb_ok s); [reflexivity|unfold sumR; simpl; lra|repeat (apply Forall_cons; [lra|]); apply Forall_nil|];
  intros j Hj; cbn in Hj; repeat (destruct j as [|j]; [|try (exfalso; lia)]); try (exfalso; lia);
  unfold sumR; cbn -[IZR Rplus Rmult Rminus]; lra.

(** Order zero: one point, and the constant one. *)
Theorem C20_order_zero : forall c, c = CQuadrilateral \/ c = CHexahedron ->
  exists p f, q_dofs (default c) 0 "equispaced" = Ok [(p, (tdim c, 0%nat))] /\
    in_interior (r_vertices (default c)) p /\ q_perm c 0 = Ok [0%nat] /\
    q_basis_functions_tensor c 0 = Ok [f] /\ forall v, f v = 1.
Proof.
  intros c Hc.
  destruct (C19_lagrange_order_zero CInterval [[0]; [1]] (default CInterval) (or_introl eq_refl)
    ltac:(split; [reflexivity|repeat constructor]) eq_refl "equispaced"%string ltac:(discriminate)) as (p0 & phi & _ & _ & HB & H1).
  destruct Hc as [->| ->]; eexists; eexists.
  - split; [reflexivity|]. split; [half_weights [1/4; 1/4; 1/4; 1/4]|]. split; [reflexivity|]. split.
    + unfold q_basis_functions_tensor. rewrite HB. reflexivity.
    + intros v. cbn. unfold in_variable. rewrite !H1. ring.
  - split; [reflexivity|]. split; [half_weights [1/8; 1/8; 1/8; 1/8; 1/8; 1/8; 1/8; 1/8]|]. split; [reflexivity|]. split.
    + unfold q_basis_functions_tensor. rewrite HB. reflexivity.
    + intros v. cbn. unfold in_variable. rewrite !H1. ring.
Qed.
Print Assumptions C20_order_zero.

(** With the variant "gll" the factorisation still uses the equispaced interval element: the tensor products are not
    dual to the degrees of freedom. *)
Theorem C20_tensor_factorisation_refuted : exists dofs psi,
  q_dofs (default CQuadrilateral) 3 "gll" = Ok dofs /\ q_basis_functions_tensor CQuadrilateral 3 = Ok psi /\
  exists i, (i < length dofs)%nat /\ nth i psi (fun _ => 0) (env_of (fst (nth i dofs ([], (0, 0)%nat)))) <> 1.
Proof.
  destruct (get_quadrature "gll" 4) as [rule|] eqn:HG; [|discriminate].
  assert (Hc : tensor CQuadrilateral) by (right; left; reflexivity).
  destruct (interval_psi 2) as (psi & I1 & I2 & I3 & I4).
  pose proof (q_dofs_closed CQuadrilateral 3 "gll" rule Hc ltac:(lia) HG) as HD.
  pose proof (quadrature_nodes "gll" 3 rule ltac:(lia) HG) as HN.
  exists (q_closed CQuadrilateral 3 (fst rule)).
  destruct (tensor_products_lat CQuadrilateral 2 psi Hc) as (T & T1 & T2).
  destruct (lat_facts CQuadrilateral 2 Hc) as (LP & _ & _).
  exists (map (fun i => T (nth i (lat CQuadrilateral 2) [])) (range (length (lat CQuadrilateral 2)))).
  split; [exact HD|]. split.
  { unfold q_basis_functions_tensor. rewrite I1. change (q_perm CQuadrilateral 3) with (Ok (perm_of CQuadrilateral 2)). cbn [rbind].
    rewrite T1, <- (perm_lat CQuadrilateral 2 Hc), map_map.
    apply (scatter_ok (perm_of CQuadrilateral 2) (fun p => T (nth p (lat CQuadrilateral 2) []))). exact LP. }
  exists 4%nat. destruct (q_closed_points CQuadrilateral 2 (fst rule) Hc HN) as [_ LD]. split; [rewrite LD; cbn; lia|].
  change (nth 4 (map (fun i => T (nth i (lat CQuadrilateral 2) [])) (range (length (lat CQuadrilateral 2)))) (fun _ => 0))
    with (T [1%nat; 0%nat]).
  rewrite T2 by reflexivity. cbn [tens].
  assert (P4 : fst (nth 4 (q_closed CQuadrilateral 3 (fst rule)) ([], (0, 0)%nat)) = [nth 1 (fst rule) 0; 0]).
  { transitivity (nth 4 (map fst (q_closed CQuadrilateral 3 (fst rule))) (fst (@nil R, (0, 0)%nat))).
    - symmetry. exact (map_nth fst (q_closed CQuadrilateral 3 (fst rule)) ([], (0, 0)%nat) 4).
    - rewrite (q_closed_lat CQuadrilateral 2 (fst rule) Hc HN). reflexivity. }
  rewrite P4. unfold env_of. cbn [nth].
  assert (Z0 : psi 0%nat (fun _ => 0) = 1) by exact (I2 0%nat 0%nat ltac:(lia) ltac:(lia)).
  rewrite Z0.
  set (t := nth 1 (fst rule) 0).
  assert (HF : psi 1%nat (fun _ => t) = 27 / 2 * (t * (t - 2 / 3) * (t - 1))).
  { set (f := fun v : point => 27 / 2 * v 0%nat ^ 3 + -(45 / 2) * v 0%nat ^ 2 + 9 * v 0%nat).
    assert (Hf : poly_space (fun m => length m = 1%nat /\ (mdeg m <= 3)%nat) f).
    { exists [(27 / 2, [3%nat]); (-(45 / 2), [2%nat]); (9, [1%nat])]. split.
      - repeat (apply Forall_cons; [split; [reflexivity|simpl; lia]|]). apply Forall_nil.
      - intros v. unfold f, reval, meval. simpl. ring. }
    pose proof (I4 f Hf (fun _ => t)) as R. cbn [ord inner map range seq lincomb] in R.
    unfold f in R. cbn -[IZR INR pow] in R.
    replace (INR 4) with 4 in R by (simpl; lra). replace (INR 2) with 2 in R by (simpl; lra). replace (INR 1) with 1 in R by reflexivity.
    lra. }
  rewrite HF. injection HG as <-. unfold t. cbn [nth fst].
  assert (S5 : 0 < sqrt 5) by (apply sqrt_lt_R0; lra).
  pose proof (sqrt_sqrt 5 ltac:(lra)) as SS.
  intros E. assert (E' : sqrt 5 = 27 / 11).
  { assert (H : 1 / sqrt 5 = sqrt 5 / 5) by (rewrite <- SS at 3; field; lra).
    rewrite H in E. nra. }
  rewrite E' in SS. lra.
Qed.
Print Assumptions C20_tensor_factorisation_refuted.

Example C20_case : exists perm dofs, q_perm CHexahedron 2 = Ok perm /\ q_dofs (default CHexahedron) 2 "equispaced" = Ok dofs /\
  length dofs = 27%nat /\ perm = [0; 4; 10; 2; 6; 14; 9; 17; 22; 1; 5; 12; 3; 7; 15; 11; 18; 23; 8; 16; 21; 13; 19; 24; 20; 25; 26]%nat.
Proof.
  destruct (C20_q_points CHexahedron 2 "equispaced" _ (or_intror eq_refl) ltac:(lia) eq_refl) as (dofs & H1 & H2 & _).
  eexists. exists dofs. split; [reflexivity|]. split; [exact H1|]. split; [exact H2|reflexivity].
Qed.
