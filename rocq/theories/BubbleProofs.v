(** Bubbles on simplices. *)
From Coq Require Import String Arith Bool Reals Lra Lia List.
From Verif Require Import Base PolyLib PolySetsModel ReferencesModel ReferencesSpec ReferencesProofs ReferencesGeometry
  LinAlg CiarletModel CiarletProofs PolySetsProofs ElementModel LagrangeModel UnisolvenceProofs LagrangeProofs LagrangeKey
  LagrangeUnisolvence PropertiesLagrange SpanLib BubbleModel.
Import ListNotations.
Open Scope R_scope.

(** * Specification: facets of a simplex *)
(** the point has the barycentric coordinate number i equal to zero: it lies on the (extended) facet opposite vertex i *)
Definition on_facet (vs : list pt) (i : nat) (p : pt) : Prop := exists w, affine_comb w vs p /\ nth i w 1 = 0.

(** * Barycentric coordinates *)
Definition bc (d : nat) (w : point) (i : nat) : R := match i with O => 1 - sum d w | S k => w k end.

(** affine combinations are parametrised by all but the first weight *)
Lemma comb_param c vs w p : simplex c -> points (nvert c) (tdim c) vs -> affine_comb w vs p -> length p = tdim c ->
  forall j, (j < tdim c)%nat -> nth j p 0 = param vs (whole c) (fun k => nth (S k) w 0) j.
Proof.
  intros Hc [Lv _] (L & S1 & E) Lp j Hj. rewrite (E j) by lia. unfold whole. unfold nvert in *.
  destruct Hc as [->|[->| ->]]; simpl in Lv; peel vs Lv; cbn [length] in L; peel w L;
    unfold sumR in *; cbn [fold_right] in S1; cbn [param psum seq length reference_vertices combine map fst snd nth fold_right]; unfold co; cbn [nth].
  - replace r with (1 - r0) by lra. change pt with (list R). ring.
  - replace r with (1 - r0 - r1) by lra. change pt with (list R). ring.
  - replace r with (1 - r0 - r1 - r2) by lra. change pt with (list R). ring.
Qed.
Lemma param_comb c vs (w : point) p : simplex c -> points (nvert c) (tdim c) vs -> length p = tdim c ->
  (forall j, (j < tdim c)%nat -> nth j p 0 = param vs (whole c) w j) -> affine_comb (map (bc (tdim c) w) (range (S (tdim c)))) vs p.
Proof.
  intros Hc [Lv _] Lp E. unfold whole, nvert in *.
  destruct Hc as [->|[->| ->]]; simpl in Lv; peel vs Lv; (split; [reflexivity|]);
    (split; [unfold sumR; cbn; ring|]); intros j Hj; rewrite Lp in Hj; rewrite (E j Hj);
    unfold sumR; cbn; unfold co; cbn [nth]; change pt with (list R); ring.
Qed.
Lemma vertex_dof c vs k : simplex c -> length vs = nvert c -> (k <= tdim c)%nat ->
  fst (nth k (map (fun nv : nat * pt => (snd nv, (0%nat, fst nv))) (enumerate vs)) ([], (0, 0)%nat)) = nth k vs [].
Proof.
  intros Hc Lv Hk. unfold nvert in Lv. destruct Hc as [->|[->| ->]]; simpl in Lv, Hk; peel vs Lv;
    destruct k as [|[|[|[|k]]]]; try reflexivity; lia.
Qed.

Lemma reference_parts c vs r : simplex c -> make_reference c vs = Ok r -> r_type r = c /\ r_vertices r = vs.
Proof. intros [->|[->| ->]] Hr; simpl in Hr; repeat (destruct vs as [|? vs]; try discriminate); injection Hr as <-; split; reflexivity. Qed.

(** the point of the cell with coordinates cs *)
Lemma place_param c vs r cs : simplex c -> points (nvert c) (tdim c) vs -> make_reference c vs = Ok r -> length cs = tdim c ->
  length (r_axes r) = tdim c /\ length (place (r_origin r) (r_axes r) cs) = tdim c /\
  forall j, (j < tdim c)%nat -> nth j (place (r_origin r) (r_axes r) cs) 0 = param vs (whole c) (as_point cs) j.
Proof.
  intros Hc [Lv F] Hr Lc. unfold nvert in Lv.
  destruct Hc as [->|[->| ->]]; simpl in Lv; peel vs Lv; injection Hr as <-; cbn [tdim] in Lc; peel cs Lc; cbn [r_axes r_origin tdim];
    repeat rewrite Forall_cons_iff in F; decompose [and] F; clear F; cbn [tdim] in *; (split; [reflexivity|]).
  all: match goal with |- context [place ?o ?a ?x] => destruct (place_spec (length o) a x o eq_refl) as [PL PN];
    [repeat (apply Forall_cons; [apply vsub_length; congruence|]); apply Forall_nil|reflexivity|] end.
  all: (split; [congruence|]); intros j Hj; rewrite PN by lia; unfold lin, sumR, whole, nvert;
    cbn [combine map fold_right fst snd reference_vertices length seq param psum];
    repeat match goal with |- context [nth j (vsub ?v ?w) 0] => rewrite (vsub_nth v w _ j) by (eassumption || exact Hj) end;
    unfold as_point, co; cbn [nth]; change pt with (list R); try ring.
Qed.

Lemma fold_fmul (phi : list (fn point)) : forall a v, fold_left fmul phi a v = a v * fold_right (fun (f : fn point) acc => f v * acc) 1 phi.
Proof. induction phi as [|f phi IH]; intros a v; simpl; [ring|]. rewrite IH. unfold fmul. ring. Qed.
Lemma prod_zero (phi : list (fn point)) v f : In f phi -> f v = 0 -> fold_right (fun (f : fn point) acc => f v * acc) 1 phi = 0.
Proof. intros H E. induction phi as [|g phi IH]; [contradiction|]. destruct H as [->|H]; simpl; [rewrite E; ring|rewrite IH by exact H; ring]. Qed.
Lemma prod_nonzero (phi : list (fn point)) v : (forall f, In f phi -> f v <> 0) -> fold_right (fun (f : fn point) acc => f v * acc) 1 phi <> 0.
Proof.
  induction phi as [|g phi IH]; intros H; simpl; [lra|]. apply Rmult_integral_contrapositive_currified; [apply H; left; reflexivity|].
  apply IH. intros f Hf. apply H. right. exact Hf.
Qed.
Lemma prod_degree d (phi : list (fn point)) : Forall (degree_space d 1) phi -> degree_space d (length phi) (fun v => fold_right (fun (f : fn point) acc => f v * acc) 1 phi).
Proof. induction 1 as [|f phi Hf _ IH]; simpl; [apply degree_const|]. exact (degree_mul d 1 _ f _ Hf IH). Qed.

Lemma dual_independent (dofs : list point_dof) (phi : list sfun) : length phi = length dofs ->
  (forall i j, (i < length dofs)%nat -> (j < length dofs)%nat -> nth j phi (fun _ => 0) (env_of (fst (nth i dofs ([], (0, 0)%nat)))) = if (i =? j)%nat then 1 else 0) ->
  independent phi.
Proof.
  intros L D cs Lc Z. apply Forall_forall. intros a Ha. destruct (In_nth cs a 0 Ha) as (i & Hi & <-).
  specialize (Z (env_of (fst (nth i dofs ([], (0, 0)%nat))))).
  assert (E : forall v, lincomb cs phi v = sum (length phi) (fun k => nth k cs 0 * nth k phi (fun _ => 0) v)).
  { clear - Lc. revert cs Lc. induction phi as [|f phi IH]; intros [|x cs] Lc v; try discriminate; [reflexivity|].
    cbn [length]. rewrite sum_S. cbn [lincomb nth]. rewrite IH by (simpl in Lc; lia). reflexivity. }
  rewrite E, (sum_single _ _ i) in Z; [|lia|].
  - rewrite D in Z by lia. rewrite Nat.eqb_refl in Z. lra.
  - intros k Hk N. rewrite D by lia. rewrite (proj2 (Nat.eqb_neq i k)) by auto. ring.
Qed.

Lemma bubble_order_ok c n : simplex c -> (tdim c + 1 <= n)%nat -> bubble_order c n = Ok (n - (tdim c + 1))%nat.
Proof. unfold bubble_order. intros [->|[->| ->]] Hn; cbn [tdim Nat.add] in *; rewrite (proj2 (Nat.ltb_ge _ _) Hn); reflexivity. Qed.
Lemma bubble_count d n poly : (d + 1 <= n)%nat -> polynomial_set_1d d (n - (d + 1)) = Ok poly -> length poly = choose d n.
Proof.
  intros Hn Ep. pose proof (polynomial_set_1d_length _ _ _ Ep) as X. clear Ep.
    destruct n as [|n]; [lia|]. destruct X as [[-> X]|[[-> X]|[-> X]]].
    - rewrite choose_1. lia.
    - pose proof (choose_2 n) as Y. apply (Nat.mul_cancel_l _ _ 2); [lia|]. rewrite X, Y.
      destruct n as [|[|n]]; [lia|lia|]. replace (S (S (S n)) - (2 + 1))%nat with n by lia. replace (S (S n) - 1)%nat with (n + 1)%nat by lia. lia.
    - pose proof (choose_3 n) as Y. apply (Nat.mul_cancel_l _ _ 6); [lia|]. rewrite X, Y.
      destruct n as [|[|[|n]]]; [lia|lia|lia|]. replace (S (S (S (S n))) - (3 + 1))%nat with n by lia.
      replace (S (S (S n)) - 1)%nat with (n + 2)%nat by lia. replace (S (S (S n)) - 2)%nat with (n + 1)%nat by lia. lia.
Qed.

Ltac lattice_case i := first [lia
  | let j := fresh "j" in let Hj := fresh "Hj" in intros j Hj; unfold as_point; cbn [param psum map nth];
    repeat match goal with H : frac 1 _ = _ |- _ => rewrite H; clear H end;
    repeat match goal with H : forall k j, nth j (nth k _ []) 0 = _ |- _ => rewrite H; clear H end; ring
  | unfold as_point; destruct i as [|[|[|[|i]]]]; try (exfalso; lia); cbn [bc sum Nat.eqb map nth];
    repeat match goal with H : frac 1 _ = _ |- _ => rewrite ?H; clear H end; ring].
Section Simplex.
Variables (c : cell_type) (vs : list pt) (r : reference).
Hypothesis (Hc : simplex c) (Hp : points (nvert c) (tdim c) vs) (HD : map_det c vs <> 0) (Hr : make_reference c vs = Ok r).
Let d := tdim c.
Let P (w : point) : point := fun j => param vs (whole c) w j.

Lemma cell_type_of : r_type r = c.
Proof. apply (reference_parts c vs r Hc Hr). Qed.
Lemma nvert_S : nvert c = S d.
Proof. destruct Hc as [->|[->| ->]]; reflexivity. Qed.
Lemma dim_pos : (1 <= d <= 3)%nat.
Proof. unfold d. destruct Hc as [->|[->| ->]]; simpl; lia. Qed.

Lemma P_degree n f : degree_space d n f -> degree_space d n (fun w => f (P w)).
Proof.
  intros Hf. apply (degree_subst d n d f (fun j w => param vs (whole c) w j) Hf). intros j _.
  unfold whole. rewrite nvert_S. cbn [seq]. apply param_degree. rewrite seq_length. lia.
Qed.
Lemma P_zero n f : degree_space d n f -> (forall w, f (P w) = 0) -> forall v, f v = 0.
Proof.
  intros Hf Z v. destruct (param_onto c vs Hc Hp HD) as (B & HB & _). rewrite <- (Z (B v)). apply (degree_local d n f _ _ Hf).
  intros j Hj. symmetry. apply HB, Hj.
Qed.

(** * The functions of order one are the barycentric coordinates *)
Lemma p1 : exists phi, lagrange_functions r 1 "equispaced" = Ok phi /\ length phi = S d /\ Forall (degree_space d 1) phi /\
  forall i w, (i <= d)%nat -> nth i phi (fun _ => 0) (P w) = bc d w i.
Proof.
  destruct (C19_lagrange_basis c vs r 1 Hc Hp HD Hr (le_n _)) as (dofs & phi & H1 & H2 & H3 & H4 & H5 & _).
  assert (Ed : dofs = vertex_dofs r).
  { pose proof (lagrange_dofs_closed r d 1 (good_simplex c vs r d Hc Hp Hr) (le_n _)) as X. rewrite H1 in X. injection X as ->.
    unfold closed_dofs, simplex_tuples, tuples. cbn [repeat range2 product seq Nat.sub flat_map filter]. unfold closed_entity. cbn [map].
    assert (Z : forall l : list nat, flat_map (fun _ => @nil point_dof) l = []) by (induction l; [reflexivity|assumption]).
    rewrite !Z, !app_nil_r. reflexivity. }
  assert (Ld : length dofs = S d).
  { rewrite Ed, length_vertex_dofs. assert (r_vertices r = vs); [apply (reference_parts c vs r Hc Hr)|]. destruct Hp as [Lv _]. rewrite <- nvert_S, H. exact Lv. }
  exists phi. split; [|split; [lia|split; [apply Forall_forall; exact H5|]]].
  - unfold lagrange_functions. rewrite cell_type_of. destruct Hc as [->|[->| ->]]; exact H2.
  - intros i w Hi.
    assert (V : forall k, (k <= d)%nat -> nth i phi (fun _ => 0) (env_of (nth k vs [])) = if (k =? i)%nat then 1 else 0).
    { intros k Hk. rewrite <- (H4 k i) by lia. f_equal. f_equal. rewrite Ed.
      assert (Ev : r_vertices r = vs) by apply (reference_parts c vs r Hc Hr).
      unfold vertex_dofs. rewrite Ev. symmetry. apply (vertex_dof c); [exact Hc|apply Hp|exact Hk]. }
    assert (Df : degree_space d 1 (nth i phi (fun _ => 0))) by (apply H5, nth_In; lia).
    set (f := nth i phi (fun _ => 0)) in *.
    enough (Q : forall w, f (P w) + - (1) * bc d w i = 0) by (specialize (Q w); lra). clear w.
    apply (simplex_lattice_zero (frac 1) d 1); [apply frac_distinct; lia| |].
    + apply poly_space_add; [apply P_degree, Df|]. apply (poly_space_scale _ (- (1)) (fun w => bc d w i)). unfold bc. destruct i as [|k]; [|apply degree_var; lia].
      apply (poly_space_ext _ (fun w => 1 + - (1) * sum d w)); [intros v; ring|]. apply poly_space_add; [apply degree_const|]. apply poly_space_scale.
      clear - d. assert (G : forall k, (k <= d)%nat -> degree_space d 1 (fun w => sum k w)).
      { induction k as [|k IH]; intros Hk; [apply (degree_const d 1 0)|]. apply (poly_space_ext _ (fun w => sum k w + w k)); [intros v; reflexivity|].
        apply poly_space_add; [apply IH; lia|apply degree_var; lia]. }
      apply G. lia.
    + intros m Lm Dm.
      assert (Vk : forall k w, (k <= d)%nat -> (forall j, (j < d)%nat -> P w j = env_of (nth k vs []) j) -> f (P w) = if (k =? i)%nat then 1 else 0).
      { intros k w Hk E. rewrite <- (V k Hk). apply (degree_local d 1 f _ _ Df). exact E. }
      assert (Hd' : forall k, (k <= d)%nat -> (forall j, (j < d)%nat -> P (as_point (map (frac 1) m)) j = env_of (nth k vs []) j) -> (if (k =? i)%nat then 1 else 0) = bc d (as_point (map (frac 1) m)) i ->
         f (P (as_point (map (frac 1) m))) + - (1) * bc d (as_point (map (frac 1) m)) i = 0).
      { intros k Hk E B. rewrite (Vk k _ Hk E), B. ring. }
      assert (F0 : frac 1 0 = 0) by (unfold frac; simpl; field). assert (F1 : frac 1 1 = 1) by (unfold frac; simpl; field).
      unfold P, whole, nvert, env_of, d in *. clear - Hc Hp Hd' Lm Dm F0 F1 Hi.
      assert (A1 : forall k j, nth j (nth k vs []) 0 = co vs k j) by reflexivity.
      destruct Hc as [->|[->| ->]]; cbn [tdim reference_vertices length seq] in *; peel m Lm; cbn [mdeg] in Dm.
      * destruct n as [|[|n]]; [apply (Hd' 0%nat)|apply (Hd' 1%nat)|lia]; lattice_case i.
      * destruct n as [|[|n]]; [destruct n0 as [|[|n0]]; [apply (Hd' 0%nat)|apply (Hd' 2%nat)|lia]|destruct n0 as [|n0]; [apply (Hd' 1%nat)|lia]|lia]; lattice_case i.
      * destruct n as [|[|n]]; [destruct n0 as [|[|n0]]; [destruct n1 as [|[|n1]]; [apply (Hd' 0%nat)|apply (Hd' 3%nat)|lia]|destruct n1 as [|n1]; [apply (Hd' 2%nat)|lia]|lia]|destruct n0 as [|n0]; [destruct n1 as [|n1]; [apply (Hd' 1%nat)|lia]|lia]|lia]; lattice_case i.
Qed.

Lemma lagrange_is_basis o : exists psi, lagrange_functions r o "equispaced" = Ok psi /\ is_basis psi (degree_space d o) /\
  forall poly, polynomial_set_1d d o = Ok poly -> length psi = length poly.
Proof.
  assert (T := cell_type_of). unfold lagrange_functions. rewrite T.
  assert (M : forall X Y : res (list (fn point)), match c with CQuadrilateral | CHexahedron => X | _ => Y end = Y) by (intros; destruct Hc as [->|[->| ->]]; reflexivity).
  rewrite M. clear M. destruct o as [|o].
  - destruct (C19_lagrange_order_zero c vs r Hc Hp Hr "equispaced" ltac:(discriminate)) as (p & phi & _ & _ & E & H1).
    exists [phi]. split; [exact E|]. split; [split; [|split]|].
    + intros [|a [|]] L Z; try discriminate L. specialize (Z (fun _ => 0)). simpl in Z. rewrite H1 in Z. apply Forall_cons; [lra|apply Forall_nil].
    + intros f [<-|[]]. apply (poly_space_ext _ (fun _ => 1)); [intros v; symmetry; apply H1|apply degree_const].
    + intros f (q & Hq & Hf). exists [f (fun _ => 0)]. split; [reflexivity|]. intros v. simpl. rewrite H1, !Hf.
      clear - Hq. induction q as [|[a m] q IH]; simpl; [ring|]. apply Forall_cons_iff in Hq. destruct Hq as [[_ Hm] Hq]. specialize (IH Hq).
      assert (Em : forall w, meval m w = 1).
      { clear - Hm. simpl in Hm. intros w. unfold meval. assert (G : forall i, meval_from i m w = 1); [|apply G]. induction m as [|e m IH]; intros i; [reflexivity|]. simpl in *.
        assert (e = 0%nat) by lia. subst. rewrite IH by lia. simpl. ring. }
      rewrite !Em. lra.
    + intros poly E'. pose proof (polynomial_set_1d_length _ _ _ E') as Lp. unfold d in Lp. destruct Hc as [->|[->| ->]]; simpl in Lp; simpl; lia.
  - destruct (C19_lagrange_basis c vs r (S o) Hc Hp HD Hr ltac:(lia)) as (dofs & phi & H1 & H2 & H3 & H4 & H5 & H6).
    exists phi. split; [exact H2|]. split; [split; [|split]|].
    + exact (dual_independent dofs phi H3 H4).
    + exact H5.
    + intros f Hf. exists (map (fun i => f (env_of (fst (nth i dofs ([], (0, 0)%nat))))) (range (length phi))). split; [rewrite map_length, length_range; reflexivity|].
      intros v. rewrite (H6 f Hf v), <- combination_lincomb. unfold combination. rewrite H3. reflexivity.
    + intros poly E. destruct (C19_lagrange_unisolvent c vs r (S o) Hc Hp HD Hr ltac:(lia)) as (dofs' & poly' & G1 & G2 & G3 & _).
      rewrite H1 in G1. injection G1 as <-. unfold lagrange_poly in G2. rewrite T in G2. fold d in G2. rewrite E in G2. injection G2 as <-. congruence.
Qed.

(** polynomials of degree n that vanish on the facets *)
Definition bubble_space (n : nat) (f : sfun) : Prop :=
  poly_space (fun m => length m = d /\ (mdeg m <= n)%nat) f /\
  forall i p, (i <= d)%nat -> length p = d -> on_facet vs i p -> f (env_of p) = 0.

Lemma bubble_subspace n : subspace (bubble_space n).
Proof.
  split; [|split].
  - split; [apply poly_space_zero|reflexivity].
  - intros a u v [Hu Zu] [Hv Zv]. split; [apply poly_space_add; [apply poly_space_scale, Hu|exact Hv]|].
    intros i p Hi Lp H. rewrite (Zu i p), (Zv i p) by assumption. ring.
  - intros u v E [Hu Zu]. split; [apply (poly_space_ext _ u); assumption|]. intros i p Hi Lp H. rewrite <- E. apply (Zu i p); assumption.
Qed.

Lemma point_P w : forall j, (j < d)%nat -> env_of (map (P w) (range d)) j = P w j.
Proof.
  intros j Hj. unfold env_of. rewrite (nth_indep _ 0 (P w 0%nat)) by (rewrite map_length, length_range; exact Hj). rewrite map_nth. unfold range. rewrite seq_nth by exact Hj. reflexivity.
Qed.
Lemma space_facet n f w i : bubble_space n f -> (i <= d)%nat -> bc d w i = 0 -> f (P w) = 0.
Proof.
  intros [Hf Z] Hi B. rewrite <- (Z i (map (P w) (range d)) Hi).
  - apply (degree_local d n f _ _ Hf). intros j Hj. symmetry. apply point_P, Hj.
  - rewrite map_length, length_range. reflexivity.
  - exists (map (bc d w) (range (S d))). split.
    + apply (param_comb c vs); [exact Hc|exact Hp|rewrite map_length, length_range; reflexivity|]. intros j Hj. apply (point_P w j Hj).
    + rewrite (nth_indep _ 1 (bc d w 0%nat)) by (rewrite map_length, length_range; lia). rewrite map_nth. unfold range. rewrite seq_nth by lia. exact B.
Qed.

Definition bubble_points (n : nat) : list point_dof :=
  map (fun i => (place (r_origin r) (r_axes r) (map (frac n) (rev i)), (d, 0%nat))) (simplex_tuples n d).
Lemma bubble_dofs_closed n : bubble_dofs r n = Ok (bubble_points n).
Proof.
  unfold bubble_dofs. rewrite cell_type_of. fold d.
  assert (F : filter (fun i => bubble_size c i <? n)%nat (product (repeat (range2 1 n) d)) = simplex_tuples n d).
  { unfold simplex_tuples, tuples. apply filter_ext. intros i. destruct Hc as [->|[->| ->]]; reflexivity. }
  rewrite F. unfold bubble_points. apply map_r_ok. intros i Hi. apply in_simplex_tuples in Hi. destruct Hi as (Li & _ & _).
  change (fun j => INR j / INR n) with (frac n).
  destruct (place_param c vs r (map (frac n) (rev i)) Hc Hp Hr) as (La & _); [rewrite map_length, rev_length; exact Li|].
  rewrite get_point_place; [reflexivity|]. rewrite map_length, rev_length, La. exact Li.
Qed.

(** a polynomial of the space that vanishes at the points inside is zero *)
Lemma bubble_unisolvent n f : (1 <= n)%nat -> bubble_space n f -> (forall p ke, In (p, ke) (bubble_points n) -> f (env_of p) = 0) -> forall v, f v = 0.
Proof.
  intros Hn Hf Z. apply (P_zero n); [apply Hf|]. assert (Pn : 0 < INR n) by (apply lt_0_INR; lia).
  apply (simplex_lattice_zero (frac n) d n); [apply frac_distinct; lia|apply P_degree, Hf|]. intros m Lm Dm. rewrite mdeg_sum in Dm.
  destruct (Nat.eq_dec (list_sum m) n) as [E|N].
  - apply (space_facet n f _ 0%nat Hf); [lia|]. cbn [bc].
    assert (S1 : sum d (as_point (map (frac n) m)) = INR (list_sum m) / INR n).
    { rewrite <- Lm. clear - Pn. induction m as [|a m IH]; [simpl; unfold Rdiv; ring|]. cbn [length]. rewrite sum_S. unfold as_point in *. cbn [map nth]. rewrite IH.
      change (list_sum (a :: m)) with (a + list_sum m)%nat. rewrite plus_INR. unfold frac. field. lra. }
    rewrite S1, E. field. lra.
  - destruct (in_dec Nat.eq_dec 0%nat m) as [I|I].
    + destruct (In_nth m 0%nat 0%nat I) as (k & Hk & Ek). apply (space_facet n f _ (S k) Hf); [lia|]. cbn [bc]. unfold as_point.
      rewrite (nth_indep _ 0 (frac n 0)) by (rewrite map_length; exact Hk). rewrite map_nth, Ek. unfold frac. simpl. field. lra.
    + destruct (place_param c vs r (map (frac n) m) Hc Hp Hr) as (La & Lp & Np); [rewrite map_length; exact Lm|].
      rewrite <- (Z (place (r_origin r) (r_axes r) (map (frac n) m)) (d, 0%nat)).
      * apply (degree_local d n f _ _ (proj1 Hf)). intros j Hj. symmetry. apply Np, Hj.
      * unfold bubble_points. apply in_map_iff. exists (rev m). rewrite rev_involutive. split; [reflexivity|]. apply in_simplex_tuples.
        rewrite rev_length. split; [exact Lm|]. assert (Sr : list_sum (rev m) = list_sum m).
        { clear. induction m as [|a m IH]; [reflexivity|]. simpl rev. rewrite list_sum_app, IH. simpl. lia. }
        split; [|rewrite Sr; lia]. apply Forall_rev. apply Forall_forall. intros a Ha. split; [destruct a; [contradiction|lia]|].
        assert (a <= list_sum m)%nat; [|lia]. clear - Ha. induction m as [|b m IH]; [contradiction|]. change (list_sum (b :: m)) with (b + list_sum m)%nat. destruct Ha as [->|Ha]; [lia|]. specialize (IH Ha). lia.
Qed.

(** the bubble *)
Lemma bubble_ok : exists phi b, lagrange_functions r 1 "equispaced" = Ok phi /\ bubble_function c phi = Ok b /\ degree_space d (d + 1) b /\
  (forall w, b (P w) = 0 <-> exists i, (i <= d)%nat /\ bc d w i = 0).
Proof.
  destruct p1 as (phi & E & L & D & V). exists phi, (fold_left fmul phi (fun _ => 1)). split; [exact E|]. split; [|split].
  - unfold bubble_function. destruct Hc as [->|[->| ->]]; reflexivity.
  - apply (poly_space_ext _ (fun v => fold_right (fun (f : fn point) acc => f v * acc) 1 phi)); [intros v; rewrite fold_fmul; ring|].
    replace (d + 1)%nat with (length phi) by lia. apply prod_degree, D.
  - intros w. rewrite fold_fmul, Rmult_1_l. split.
    + intros Z. assert (X : forall k, (k <= d + 1)%nat -> (exists i, (i < k)%nat /\ bc d w i = 0) \/ (forall i, (i < k)%nat -> bc d w i <> 0)).
      { induction k as [|k IH]; intros Hk; [right; intros; lia|]. destruct IH as [(i & Hi & B)|IH]; [lia|left; exists i; split; [lia|exact B]|].
        destruct (Req_EM_T (bc d w k) 0) as [B|B]; [left; exists k; split; [lia|exact B]|right]. intros i Hi. destruct (Nat.eq_dec i k) as [->|N]; [exact B|apply IH; lia]. }
      destruct (X (d + 1)%nat (le_n _)) as [(i & Hi & B)|X']; [exists i; split; [lia|exact B]|]. exfalso. revert Z. apply prod_nonzero.
      intros f Hf. destruct (In_nth phi f (fun _ => 0) Hf) as (i & Hi & <-). rewrite V by lia. apply X'. lia.
    + intros (i & Hi & B). apply (prod_zero phi (P w) (nth i phi (fun _ => 0))); [apply nth_In; lia|]. rewrite V by exact Hi. exact B.
Qed.

(** multiplication with the bubble loses nothing *)
Lemma bubble_cancel b q o : (forall w, b (P w) = 0 <-> exists i, (i <= d)%nat /\ bc d w i = 0) -> degree_space d o q ->
  (forall p ke, In (p, ke) (bubble_points (o + d + 1)) -> b (env_of p) * q (env_of p) = 0) -> (exists k, degree_space d k b) -> forall v, q v = 0.
Proof.
  intros Hb Hq Z [kb Db]. apply (P_zero o); [exact Hq|]. set (n := (o + d + 1)%nat) in *. assert (Pn : 0 < INR n) by (apply lt_0_INR; lia).
  apply (simplex_lattice_zero (fun i => frac n (S i)) d o); [|apply P_degree, Hq|].
  { intros i j Hij. apply (frac_distinct n ltac:(lia) (S j)). lia. }
  intros m Lm Dm. rewrite mdeg_sum in Dm.
  assert (Em : map (fun i => frac n (S i)) m = map (frac n) (map S m)) by (rewrite map_map; reflexivity). rewrite Em. clear Em.
  assert (Sm : list_sum (map S m) = (list_sum m + d)%nat) by (rewrite <- Lm; clear; induction m as [|a m IH]; simpl; lia).
  destruct (place_param c vs r (map (frac n) (map S m)) Hc Hp Hr) as (La & Lp & Np); [rewrite !map_length; exact Lm|].
  assert (IN : In (place (r_origin r) (r_axes r) (map (frac n) (map S m)), (d, 0%nat)) (bubble_points n)).
  { unfold bubble_points. apply in_map_iff. exists (rev (map S m)). rewrite rev_involutive. split; [reflexivity|]. apply in_simplex_tuples.
    rewrite rev_length, map_length. split; [exact Lm|]. assert (Sr : list_sum (rev (map S m)) = list_sum (map S m)).
    { generalize (map S m). clear. intros m. induction m as [|a m IH]; [reflexivity|]. simpl rev. rewrite list_sum_app, IH. simpl. lia. }
    split; [|rewrite Sr; lia]. apply Forall_rev. apply Forall_forall. intros a Ha.
    assert (a <= list_sum (map S m))%nat. { revert Ha. generalize (map S m). clear. intros m Ha. induction m as [|b m IH]; [contradiction|]. change (list_sum (b :: m)) with (b + list_sum m)%nat. destruct Ha as [->|Ha]; [lia|]. specialize (IH Ha). lia. }
    apply in_map_iff in Ha. destruct Ha as (a' & <- & _). lia. }
  specialize (Z _ _ IN). set (w := as_point (map (frac n) (map S m))) in *.
  assert (Loc : forall k g, degree_space d k g -> g (env_of (place (r_origin r) (r_axes r) (map (frac n) (map S m)))) = g (P w)).
  { intros k g Hg. apply (degree_local d k g _ _ Hg). intros j Hj. apply Np, Hj. }
  rewrite (Loc kb b Db), (Loc o q Hq) in Z. apply Rmult_integral in Z. destruct Z as [Z|Z]; [|exact Z]. exfalso.
  apply Hb in Z. destruct Z as ([|i] & Hi & B); cbn [bc] in B.
  - assert (S1 : sum d w = INR (list_sum (map S m)) / INR n).
    { unfold w. rewrite <- (map_length S) in Lm. rewrite <- Lm. clear - Pn. generalize (map S m). clear m. intros m. induction m as [|a m IH]; [simpl; unfold Rdiv; ring|]. cbn [length]. rewrite sum_S. unfold as_point in *. cbn [map nth]. rewrite IH.
      change (list_sum (a :: m)) with (a + list_sum m)%nat. rewrite plus_INR. unfold frac. field. lra. }
    rewrite S1, Sm in B. assert (INR (list_sum m + d) = INR n) by (apply (Rmult_eq_reg_r (/ INR n)); [unfold Rdiv in B; rewrite Rinv_r by lra; lra|apply Rinv_neq_0_compat; lra]).
    apply INR_eq in H. lia.
  - unfold w, as_point in B. rewrite (nth_indep _ 0 (frac n 0)) in B by (rewrite !map_length; lia). rewrite map_nth in B.
    rewrite (nth_indep _ 0%nat 1%nat) in B by (rewrite map_length; lia). rewrite (map_nth S) in B. unfold frac in B.
    assert (INR (S (nth i m 0%nat)) = 0) by (apply (Rmult_eq_reg_r (/ INR n)); [unfold Rdiv in B; lra|apply Rinv_neq_0_compat; lra]).
    pose proof (lt_0_INR (S (nth i m 0%nat)) ltac:(lia)). lra.
Qed.

(** a point on a facet *)
Lemma facet_P i p : (i <= d)%nat -> length p = d -> on_facet vs i p -> exists w, bc d w i = 0 /\ forall j, (j < d)%nat -> env_of p j = P w j.
Proof.
  intros Hi Lp (w & A & Z). exists (fun k => nth (S k) w 0). split; [|intros j Hj; apply (comb_param c vs w p Hc Hp A Lp j Hj)].
  destruct A as (L & S1 & _). destruct Hp as [Lv _]. rewrite Lv, nvert_S in L.
  assert (N : nth i w 0 = 0) by (rewrite (nth_indep w 0 1) by lia; exact Z).
  destruct i as [|i]; [|exact N]. cbn [bc]. destruct w as [|a w]; [discriminate|]. simpl in L, N. cbn [nth]. unfold sumR in S1. cbn [fold_right] in S1.
  assert (E : sum d (fun k => nth k w 0) = fold_right Rplus 0 w).
  { assert (Lw : length w = d) by lia. rewrite <- Lw. clear. induction w as [|x w IH]; [reflexivity|]. cbn [length]. rewrite sum_S. cbn [nth fold_right]. rewrite IH. reflexivity. }
  rewrite E. lra.
Qed.

Lemma lincomb_fmul b : forall cs psi v, lincomb cs (map (fmul b) psi) v = b v * lincomb cs psi v.
Proof. induction cs as [|x cs IH]; intros [|f psi] v; simpl; try ring. rewrite IH. unfold fmul. ring. Qed.

Lemma bubble_parts n : (d + 1 <= n)%nat -> exists b psi, make_bubble r n "equispaced" = Ok (map (fmul b) psi, bubble_points n) /\
  length psi = length (bubble_points n) /\ degree_space d (d + 1) b /\ (forall w, b (P w) = 0 <-> exists i, (i <= d)%nat /\ bc d w i = 0) /\
  is_basis psi (degree_space d (n - (d + 1))).
Proof.
  intros Hn. destruct bubble_ok as (phi & b & E1 & E2 & Db & Hb). destruct (lagrange_is_basis (n - (d + 1))) as (psi & E3 & Bp & Lp).
  assert (Lc : length psi = length (bubble_points n)).
  { destruct (polynomial_set_1d_ok d (n - (d + 1)) dim_pos) as (poly & Ep & _). rewrite (Lp poly Ep).
    unfold bubble_points. rewrite map_length, length_simplex_tuples. exact (bubble_count d n poly Hn Ep). }
  exists b, psi. split; [|split; [exact Lc|split; [exact Db|split; [exact Hb|exact Bp]]]].
  unfold make_bubble. rewrite cell_type_of.
  assert (Eo : bubble_order c n = Ok (n - (d + 1))%nat).
  { apply bubble_order_ok; assumption. }
  rewrite Eo. cbn [rbind]. rewrite E1. cbn [rbind]. rewrite E2. cbn [rbind]. rewrite E3. cbn [rbind]. rewrite bubble_dofs_closed. cbn [rbind].
  rewrite map_length, Lc, Nat.eqb_refl. reflexivity.
Qed.

Lemma fmul_space n b psi : (d + 1 <= n)%nat -> degree_space d (d + 1) b -> (forall w, b (P w) = 0 <-> exists i, (i <= d)%nat /\ bc d w i = 0) ->
  (forall f, In f psi -> degree_space d (n - (d + 1)) f) -> Forall (bubble_space n) (map (fmul b) psi).
Proof.
  intros Hn Db Hb Hpsi. apply Forall_forall. intros f Hf. apply in_map_iff in Hf. destruct Hf as (g & <- & Hg). split.
  - pose proof (degree_mul d (d + 1) (n - (d + 1)) b g Db (Hpsi g Hg)) as X. replace (d + 1 + (n - (d + 1)))%nat with n in X by lia. exact X.
  - intros i p Hi Lp Hf. destruct (facet_P i p Hi Lp Hf) as (w & B & E). unfold fmul.
    rewrite (degree_local d (d + 1) b (env_of p) (P w) Db E). rewrite (proj2 (Hb w)) by (exists i; split; assumption). ring.
Qed.

Lemma point_eval_linear (W : sfun -> Prop) (dofs : list point_dof) : Forall (linear_on W) (map point_eval dofs).
Proof. apply Forall_forall. intros l Hl. apply in_map_iff in Hl. destruct Hl as (p & <- & _). split; intros; unfold point_eval; auto. Qed.

Lemma bubble_simplex n : (d + 1 <= n)%nat -> exists poly, make_bubble r n "equispaced" = Ok (poly, bubble_points n) /\
  length poly = length (bubble_points n) /\ is_basis poly (bubble_space n) /\
  exists phi, get_basis_functions poly (map point_eval (bubble_points n)) = Ok phi /\ length phi = length (bubble_points n) /\
    (forall i j, (i < length (bubble_points n))%nat -> (j < length (bubble_points n))%nat ->
       nth j phi (fun _ => 0) (env_of (fst (nth i (bubble_points n) ([], (0, 0)%nat)))) = if (i =? j)%nat then 1 else 0).
Proof.
  intros Hn. destruct (bubble_parts n Hn) as (b & psi & E & L & Db & Hb & (Ip & Sp & _)). exists (map (fmul b) psi).
  split; [exact E|]. split; [rewrite map_length; exact L|].
  destruct (square_element (bubble_space n) (map (fmul b) psi) (map point_eval (bubble_points n)) (bubble_subspace n)
    (point_eval_linear _ _) (fmul_space n b psi Hn Db Hb Sp)) as (B & phi & G1 & G2 & G3 & _).
  - intros cs Lc Z. apply Ip; [rewrite map_length in Lc; exact Lc|]. apply (bubble_cancel b _ (n - (d + 1)) Hb).
    + apply lincomb_subspace; [|apply Forall_forall, Sp]. split; [apply poly_space_zero|]. split.
      * intros a u v Hu Hv. apply poly_space_add; [apply poly_space_scale, Hu|exact Hv].
      * intros u v Ev. apply poly_space_ext, Ev.
    + intros p ke _. rewrite <- (Z (env_of p)), lincomb_fmul. reflexivity.
    + exists (d + 1)%nat. exact Db.
  - rewrite !map_length. exact L.
  - intros f Hf Z. apply (bubble_unisolvent n f ltac:(lia) Hf). intros p ke Hin. apply (Z (point_eval (p, ke))). apply in_map, Hin.
  - split; [exact B|]. exists phi. rewrite map_length in G2, G3. split; [exact G1|]. split; [exact G2|]. intros i j Hi Hj. rewrite <- (G3 i j Hi Hj).
    rewrite (nth_indep _ _ (point_eval ([], (0, 0)%nat))) by (rewrite map_length; exact Hi). rewrite map_nth. reflexivity.
Qed.

Lemma bubble_points_inside n p ke : In (p, ke) (bubble_points n) -> ke = (d, 0%nat) /\ in_interior vs p.
Proof.
  unfold bubble_points. intros H. apply in_map_iff in H. destruct H as (i & Ei & Hi). injection Ei as <- <-. split; [reflexivity|].
  apply in_simplex_tuples in Hi. destruct Hi as (Li & Fi & Si).
  destruct (place_param c vs r (map (frac n) (rev i)) Hc Hp Hr) as (La & Lp & Np); [rewrite map_length, rev_length; exact Li|].
  exists (map (bc d (as_point (map (frac n) (rev i)))) (range (S d))). split; [apply (param_comb c vs); assumption|].
  assert (Pn : 0 < INR n) by (apply lt_0_INR; lia). apply Forall_forall. intros a Ha. apply in_map_iff in Ha. destruct Ha as (k & <- & Hk). apply in_range in Hk.
  assert (Sr : list_sum (rev i) = list_sum i).
  { clear. induction i as [|a m IH]; [reflexivity|]. simpl rev. rewrite list_sum_app, IH. simpl. lia. }
  assert (Fr := Forall_rev Fi). assert (Lr : length (rev i) = d) by (rewrite rev_length; exact Li). rewrite <- Sr in Si. revert Si Fr Lr. generalize (rev i). intros m Sm Fm Lm.
  destruct k as [|k]; cbn [bc].
  - assert (S1 : sum d (as_point (map (frac n) m)) = INR (list_sum m) / INR n).
    { rewrite <- Lm. clear - Pn. induction m as [|a m IH]; [simpl; unfold Rdiv; ring|]. cbn [length]. rewrite sum_S. unfold as_point in *. cbn [map nth]. rewrite IH.
      change (list_sum (a :: m)) with (a + list_sum m)%nat. rewrite plus_INR. unfold frac. field. lra. }
    rewrite S1. apply lt_INR in Sm. apply (Rmult_lt_reg_r (INR n)); [exact Pn|]. unfold Rdiv. rewrite Rmult_minus_distr_r, Rmult_assoc, Rinv_l by lra. lra.
  - unfold as_point. rewrite (nth_indep _ 0 (frac n 0)) by (rewrite map_length; lia). rewrite map_nth. unfold frac.
    apply Rdiv_lt_0_compat; [|exact Pn]. apply lt_0_INR. rewrite Forall_forall in Fm. apply (Fm (nth k m 0%nat)). apply nth_In. lia.
Qed.
End Simplex.
