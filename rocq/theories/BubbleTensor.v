(** Bubbles on the default interval, quadrilateral and hexahedron. *)
From Coq Require Import String Arith Bool Reals Lra Lia List.
From Verif Require Import Base PolyLib PolySetsModel QuadratureModel ReferencesModel ReferencesSpec ReferencesProofs ReferencesGeometry
  LinAlg CiarletModel CiarletProofs PolySetsProofs ElementModel LagrangeModel UnisolvenceProofs LagrangeProofs LagrangeKey
  LagrangeUnisolvence PropertiesLagrange QProofs QDofs PropertiesQ SpanLib BubbleModel BubbleProofs.
Import ListNotations.
Open Scope R_scope.

(** degree at most n in each variable *)
Definition tensor_space (d n : nat) : sfun -> Prop := poly_space (fun m => length m = d /\ Forall (fun e => (e <= n)%nat) m).

Lemma madd_Forall n k a : forall b, Forall (fun e => (e <= n)%nat) a -> Forall (fun e => (e <= k)%nat) b -> Forall (fun e => (e <= n + k)%nat) (madd a b).
Proof.
  induction a as [|x a IH]; intros [|y b] Ha Hb; simpl; try apply Forall_nil. apply Forall_cons_iff in Ha, Hb.
  destruct Ha as [Hx Ha], Hb as [Hy Hb]. apply Forall_cons; [lia|apply IH; assumption].
Qed.
Lemma tensor_mul d n k f g : tensor_space d n f -> tensor_space d k g -> tensor_space d (n + k) (fun v => f v * g v).
Proof.
  intros (p & Hp & H) (q & Hq & H').
  apply (poly_space_ext _ (fun v => reval p v * reval q v)); [intros v; rewrite H, H'; reflexivity|]. clear f g H H'.
  induction p as [|[c m] p IH]; simpl.
  - apply (poly_space_ext _ (fun _ => 0)); [intros; ring|apply poly_space_zero].
  - apply Forall_cons_iff in Hp. destruct Hp as [[L D] Hp']. simpl in L, D.
    apply (poly_space_ext _ (fun v => c * (meval m v * reval q v) + reval p v * reval q v)); [intros v; ring|].
    apply poly_space_add; [|apply IH; exact Hp']. apply poly_space_scale. clear IH Hp' p c.
    induction q as [|[c b] q IH]; simpl.
    + apply (poly_space_ext _ (fun _ => 0)); [intros; ring|apply poly_space_zero].
    + apply Forall_cons_iff in Hq. destruct Hq as [[Lb Db] Hq']. simpl in Lb, Db.
      apply (poly_space_ext _ (fun v => c * meval (madd m b) v + meval m v * reval q v)).
      { intros v. unfold meval. rewrite meval_from_madd by congruence. ring. }
      apply poly_space_add; [|apply IH; exact Hq']. apply poly_space_scale, poly_space_mono.
      rewrite madd_length by congruence. split; [congruence|]. apply madd_Forall; assumption.
Qed.
Lemma tensor_subspace d n : subspace (tensor_space d n).
Proof.
  split; [apply poly_space_zero|]. split.
  - intros a u v Hu Hv. apply poly_space_add; [apply poly_space_scale, Hu|exact Hv].
  - intros u v Ev. apply poly_space_ext, Ev.
Qed.

(** * The bubble *)
Definition cube_bubble (d : nat) (v : point) : R := fold_right (fun i acc => v i * (1 - v i) * acc) 1 (range d).
Lemma cube_bubble_zero d v : cube_bubble d v = 0 <-> exists i, (i < d)%nat /\ (v i = 0 \/ v i = 1).
Proof.
  unfold cube_bubble. assert (G : forall l, fold_right (fun i acc => v i * (1 - v i) * acc) 1 l = 0 <-> exists i, In i l /\ (v i = 0 \/ v i = 1)).
  { induction l as [|k l IH]; simpl; [split; [lra|intros (i & [] & _)]|]. split.
    - intros Z. apply Rmult_integral in Z. destruct Z as [Z|Z].
      + apply Rmult_integral in Z. exists k. split; [left; reflexivity|]. destruct Z; [left; assumption|right; lra].
      + apply IH in Z. destruct Z as (i & Hi & B). exists i. split; [right; exact Hi|exact B].
    - intros (i & [->|Hi] & B); [destruct B as [-> | ->]; ring|]. rewrite (proj2 IH) by (exists i; split; assumption). ring. }
  rewrite G. split; intros (i & Hi & B); exists i; (split; [apply in_range; exact Hi|exact B]).
Qed.
Lemma cube_bubble_space d : (d <= 3)%nat -> tensor_space d 2 (cube_bubble d).
Proof.
  intros Hd. destruct d as [|[|[|[|d]]]]; [| | | |lia].
  - exists [(1, [])]. split; [repeat constructor|intros v; unfold cube_bubble, meval; simpl; unfold meval; simpl; ring].
  - exists [(1, [1%nat]); (- (1), [2%nat])]. split; [repeat constructor|intros v; unfold cube_bubble; simpl; unfold meval; simpl; ring].
  - exists [(1, [1; 1]%nat); (- (1), [2; 1]%nat); (- (1), [1; 2]%nat); (1, [2; 2]%nat)].
    split; [repeat constructor|intros v; unfold cube_bubble; simpl; unfold meval; simpl; ring].
  - exists [(1, [1; 1; 1]%nat); (- (1), [2; 1; 1]%nat); (- (1), [1; 2; 1]%nat); (1, [2; 2; 1]%nat);
            (- (1), [1; 1; 2]%nat); (1, [2; 1; 2]%nat); (1, [1; 2; 2]%nat); (- (1), [2; 2; 2]%nat)].
    split; [repeat constructor|intros v; unfold cube_bubble; simpl; unfold meval; simpl; ring].
Qed.

Lemma default_type c : tensor c -> r_type (default c) = c.
Proof. intros [->|[->| ->]]; reflexivity. Qed.
Lemma tensor_dim c : tensor c -> (1 <= tdim c <= 3)%nat.
Proof. intros [->|[->| ->]]; simpl; lia. Qed.

Lemma q1_vertices c i : c = CQuadrilateral \/ c = CHexahedron -> exists dofs rule, get_quadrature "equispaced" 2 = Ok rule /\
  q_dofs (default c) 1 "equispaced" = Ok dofs /\ length dofs = length (lat c 0) /\
  ((i < length (lat c 0))%nat -> fst (nth i dofs ([], (0, 0)%nat)) = map INR (nth i (lat c 0) [])).
Proof.
  intros Hc'. assert (Hc : tensor c) by (right; exact Hc').
  assert (Eq : get_quadrature "equispaced" (1 + 1) = Ok (equispaced 2)) by reflexivity.
  pose proof (quadrature_nodes "equispaced" 1 _ (le_n _) Eq) as HN.
  exists (q_closed c 1 (fst (equispaced 2))), (equispaced 2). split; [reflexivity|]. split; [exact (q_dofs_closed c 1 _ _ Hc (le_n _) Eq)|].
  pose proof (q_closed_lat c 0 (fst (equispaced 2)) Hc HN) as X.
  assert (L : length (q_closed c 1 (fst (equispaced 2))) = length (lat c 0)).
  { transitivity (length (map fst (q_closed c 1 (fst (equispaced 2))))); [symmetry; apply map_length|]. rewrite X. apply map_length. }
  split; [exact L|]. intros Hi.
  transitivity (nth i (map fst (q_closed c 1 (fst (equispaced 2)))) []).
  - symmetry. exact (map_nth fst _ ([], (0, 0)%nat) i).
  - rewrite X. rewrite (nth_indep _ [] (map (qn 1 (fst (equispaced 2))) [])) by (rewrite map_length; exact Hi).
    rewrite map_nth. apply map_ext_in. intros a Ha.
    assert (F : (a <= 1)%nat).
    { destruct (lat_facts c 0 Hc) as (_ & _ & IN). destruct (proj1 (IN (nth i (lat c 0) []))) as [_ F]; [apply nth_In, Hi|]. rewrite Forall_forall in F. apply F, Ha. }
    destruct a as [|[|a]]; [reflexivity|reflexivity|lia].
Qed.

(** the value of a function at the vertices is all that is needed *)
Lemma q1_function c (f : sfun) k phi : c = CQuadrilateral \/ c = CHexahedron -> q_basis_functions (default c) 1 "equispaced" = Ok phi ->
  tensor_space (tdim c) 1 f -> (k < length (lat c 0))%nat ->
  (forall i, (i < length (lat c 0))%nat -> f (env_of (map INR (nth i (lat c 0) []))) = if (i =? k)%nat then 1 else 0) ->
  length phi = length (lat c 0) /\ forall v, nth k phi (fun _ => 0) v = f v.
Proof.
  intros Hc E Hf Hk Hv. destruct (q1_vertices c 0 Hc) as (dofs & rule & Eq & _).
  destruct (C20_q_basis c 1 "equispaced" rule Hc (le_n _) Eq) as (dofs' & phi' & H1 & H2 & H3 & _ & _ & H6).
  rewrite E in H2. injection H2 as <-.
  assert (Ld : length dofs' = length (lat c 0)).
  { destruct (q1_vertices c 0 Hc) as (dd & _ & _ & G & L & _). rewrite H1 in G. injection G as <-. exact L. }
  split; [congruence|]. intros v. rewrite (H6 f Hf v), Ld, (sum_single _ _ k); [|exact Hk|].
  - destruct (q1_vertices c k Hc) as (dd & _ & _ & G & _ & V). rewrite H1 in G. injection G as <-. rewrite (V Hk), (Hv k Hk), Nat.eqb_refl. ring.
  - intros j Hj N. destruct (q1_vertices c j Hc) as (dd & _ & _ & G & _ & V). rewrite H1 in G. injection G as <-. rewrite (V Hj), (Hv j Hj), (proj2 (Nat.eqb_neq j k)) by exact N. ring.
Qed.

Ltac corner := intros i Hi; cbn in Hi; destruct i as [|[|[|[|[|[|[|[|i]]]]]]]]; try (exfalso; lia); cbn; ring.
Lemma tensor_bubble c : tensor c -> exists phi b, lagrange_functions (default c) 1 "equispaced" = Ok phi /\ bubble_function c phi = Ok b /\
  forall v, b v = cube_bubble (tdim c) v.
Proof.
  intros [->|Hc].
  - destruct (p1 CInterval [[0]; [1]] (default CInterval) (or_introl eq_refl)) as (phi & E & L & _ & V).
    + split; [reflexivity|repeat constructor].
    + cbn. lra.
    + reflexivity.
    + exists phi. cbn [tdim] in L. destruct phi as [|f [|g [|h phi]]]; try discriminate L. eexists. split; [exact E|]. split; [reflexivity|].
      assert (D : Forall (degree_space 1 1) [f; g]).
      { destruct (p1 CInterval [[0]; [1]] (default CInterval) (or_introl eq_refl)) as (phi' & E' & _ & D & _);
          [split; [reflexivity|repeat constructor]|cbn; lra|reflexivity|]. rewrite E in E'. injection E' as <-. exact D. }
      apply Forall_cons_iff in D. destruct D as [Df D]. apply Forall_cons_iff in D. destruct D as [Dg _].
      assert (Loc : forall h, degree_space 1 1 h -> forall w, h w = h (fun j => param [[0]; [1]] (whole CInterval) w j)).
      { intros h Hh w. apply (degree_local 1 1 h _ _ Hh). intros j Hj. assert (j = 0)%nat by lia. subst j. cbn. ring. }
      intros v. cbn [fold_left]. unfold fmul, cube_bubble. cbn [range seq fold_right tdim].
      pose proof (V 0%nat v ltac:(simpl; lia)) as V0. pose proof (V 1%nat v ltac:(simpl; lia)) as V1. cbn [nth] in V0, V1.
      rewrite (Loc f Df v), (Loc g Dg v). rewrite V0, V1. cbn. ring.
  - assert (G : exists phi, q_basis_functions (default c) 1 "equispaced" = Ok phi).
    { destruct (q1_vertices c 0 Hc) as (dofs & rule & Eq & _). destruct (C20_q_basis c 1 "equispaced" rule Hc (le_n _) Eq) as (_ & phi & _ & H2 & _). exists phi. exact H2. }
    destruct G as [phi E]. exists phi. destruct Hc as [-> | ->].
    + destruct (q1_function CQuadrilateral (fun v => (1 - v 0%nat) * (1 - v 1%nat)) 0 phi (or_introl eq_refl) E) as [L V0];
        [exists [(1, [0; 0]%nat); (- (1), [1; 0]%nat); (- (1), [0; 1]%nat); (1, [1; 1]%nat)];
         split; [repeat constructor|intros v; unfold meval; simpl; unfold meval; simpl; ring]|cbn; lia|corner|].
      destruct (q1_function CQuadrilateral (fun v => v 0%nat * v 1%nat) 3 phi (or_introl eq_refl) E) as [_ V3];
        [exists [(1, [1; 1]%nat)]; split; [repeat constructor|intros v; unfold meval; simpl; unfold meval; simpl; ring]|cbn; lia|corner|].
      cbn in L. destruct phi as [|f0 [|f1 [|f2 [|f3 [|f4 phi]]]]]; try discriminate L. eexists. split; [exact E|]. split; [reflexivity|].
      intros v. cbn [nth] in V0, V3. unfold fmul. rewrite V0, V3. unfold cube_bubble. cbn. ring.
    + destruct (q1_function CHexahedron (fun v => (1 - v 0%nat) * (1 - v 1%nat) * (1 - v 2%nat)) 0 phi (or_intror eq_refl) E) as [L V0];
        [exists [(1, [0; 0; 0]%nat); (- (1), [1; 0; 0]%nat); (- (1), [0; 1; 0]%nat); (1, [1; 1; 0]%nat); (- (1), [0; 0; 1]%nat);
                 (1, [1; 0; 1]%nat); (1, [0; 1; 1]%nat); (- (1), [1; 1; 1]%nat)];
         split; [repeat constructor|intros v; unfold meval; simpl; unfold meval; simpl; ring]|cbn; lia|corner|].
      destruct (q1_function CHexahedron (fun v => v 0%nat * v 1%nat * v 2%nat) 7 phi (or_intror eq_refl) E) as [_ V3];
        [exists [(1, [1; 1; 1]%nat)]; split; [repeat constructor|intros v; unfold meval; simpl; unfold meval; simpl; ring]|cbn; lia|corner|].
      cbn in L. destruct phi as [|f0 [|f1 [|f2 [|f3 [|f4 [|f5 [|f6 [|f7 [|f8 phi]]]]]]]]]; try discriminate L. eexists. split; [exact E|]. split; [reflexivity|].
      intros v. cbn [nth] in V0, V3. unfold fmul. rewrite V0, V3. unfold cube_bubble. cbn. ring.
Qed.

(** * The other factor *)
Lemma dual_basis d (ok : mono -> Prop) (dofs : list point_dof) (phi : list (fn point)) : length phi = length dofs ->
  (forall i j, (i < length dofs)%nat -> (j < length dofs)%nat -> nth j phi (fun _ => 0) (env_of (fst (nth i dofs ([], (0, 0)%nat)))) = if (i =? j)%nat then 1 else 0) ->
  (forall f, In f phi -> poly_space ok f) ->
  (forall f, poly_space ok f -> forall v, f v = sum (length dofs) (fun i => f (env_of (fst (nth i dofs ([], (0, 0)%nat)))) * nth i phi (fun _ => 0) v)) ->
  (forall m, ok m -> length m = d) -> is_basis phi (poly_space ok).
Proof.
  intros L D S X _. split; [exact (dual_independent dofs phi L D)|]. split; [exact S|].
  intros f Hf. exists (map (fun i => f (env_of (fst (nth i dofs ([], (0, 0)%nat))))) (range (length phi))). split; [rewrite map_length, length_range; reflexivity|].
  intros v. rewrite (X f Hf v), <- combination_lincomb. unfold combination. rewrite L. reflexivity.
Qed.
Lemma interval_spaces n f : poly_space (fun m => length m = 1%nat /\ (mdeg m <= n)%nat) f <-> tensor_space 1 n f.
Proof.
  split; apply poly_space_weaken; intros m [L D]; (split; [exact L|]); destruct m as [|a [|]]; try discriminate L; simpl in *.
  - apply Forall_cons; [lia|apply Forall_nil].
  - apply Forall_cons_iff in D. destruct D as [D _]. lia.
Qed.
Lemma is_basis_ext fs (W W' : sfun -> Prop) : (forall f, W f <-> W' f) -> is_basis fs W -> is_basis fs W'.
Proof. intros E (I & S & X). split; [exact I|]. split; [intros f Hf; apply E, S, Hf|intros f Hf; apply X, E, Hf]. Qed.

Lemma tensor_functions c o variant : tensor c -> (o = 0%nat \/ exists rule, get_quadrature variant (o + 1) = Ok rule) ->
  exists psi, lagrange_functions (default c) o variant = Ok psi /\ is_basis psi (tensor_space (tdim c) o) /\ length psi = ((o + 1) ^ tdim c)%nat.
Proof.
  intros Hc Ho. destruct o as [|o].
  - clear Ho. assert (Pe : forall p ke, exists psi, point_basis_functions [repeat 0%nat (tdim c)] [(p, ke)] = Ok psi /\ is_basis psi (tensor_space (tdim c) 0) /\ length psi = 1%nat).
    { intros p ke. set (ok := fun m : mono => length m = tdim c /\ Forall (fun e => (e <= 0)%nat) m).
      assert (In0 : forall m, In m [repeat 0%nat (tdim c)] <-> ok m).
      { intros m. split.
        - intros [<-|[]]. split; [apply repeat_length|]. apply Forall_forall. intros a Ha. apply repeat_spec in Ha. lia.
        - intros [L F]. left. rewrite <- L. clear - F. induction F as [|a m Ha F IH]; [reflexivity|]. simpl. rewrite IH. f_equal. lia. }
      destruct (point_element (tdim c) ok [repeat 0%nat (tdim c)] [(p, ke)] ([], (0, 0)%nat)) as (psi & P1 & P2 & P3 & P4 & P5).
      - repeat constructor. intros [].
      - exact In0.
      - intros m [L _]. exact L.
      - reflexivity.
      - intros f (q & Hq & Hf) Z v. specialize (Z p ke (or_introl eq_refl)). rewrite <- Z, !Hf. clear - Hq In0.
        induction q as [|[a m] q IH]; [reflexivity|]. simpl. apply Forall_cons_iff in Hq. destruct Hq as [Hm Hq]. rewrite (IH Hq). cbn [snd] in Hm.
        apply In0 in Hm. destruct Hm as [<-|[]]. rewrite !meval_zeros. reflexivity.
      - exists psi. split; [exact P1|]. split; [|exact P2]. apply (dual_basis (tdim c) ok [(p, ke)]); auto. intros m [L _]. exact L. }
    destruct Hc as [->|[->| ->]].
    + destruct (Pe [0 + (1 - 0) * (1 / 2)] (1, 0)%nat) as (psi & E & X). exists psi. split; [|exact X]. rewrite <- E. reflexivity.
    + destruct (Pe [0 + (1 - 0) * (1 / 2) + (0 - 0) * (1 / 2); 0 + (0 - 0) * (1 / 2) + (1 - 0) * (1 / 2)] (2, 0)%nat) as (psi & E & X). exists psi. split; [|exact X]. rewrite <- E. reflexivity.
    + destruct (Pe [0 + (1 - 0) * (1 / 2) + (0 - 0) * (1 / 2) + (0 - 0) * (1 / 2); 0 + (0 - 0) * (1 / 2) + (1 - 0) * (1 / 2) + (0 - 0) * (1 / 2);
         0 + (0 - 0) * (1 / 2) + (0 - 0) * (1 / 2) + (1 - 0) * (1 / 2)] (3, 0)%nat) as (psi & E & X). exists psi. split; [|exact X]. rewrite <- E. reflexivity.
  - destruct Ho as [H|[rule Hq]]; [discriminate|]. destruct Hc as [->|Hc].
    + destruct (C19_lagrange_interval_variants (S o) variant rule ltac:(lia) Hq) as (dofs & phi & H1 & H2 & H3 & H4 & _ & _ & H7 & H8 & H9).
      exists phi. split; [exact H2|]. split; [|transitivity (S o + 1)%nat; [exact H4|cbn [tdim Nat.pow]; lia]].
      apply (is_basis_ext phi _ _ (interval_spaces (S o))). apply (dual_basis 1 (fun m => length m = 1%nat /\ (mdeg m <= S o)%nat) dofs); auto; [congruence|intros m [L _]; exact L].
    + destruct (C20_q_basis c (S o) variant rule Hc ltac:(lia) Hq) as (dofs & phi & H1 & H2 & H3 & H4 & H5 & H6).
      assert (Hc' : tensor c) by (right; exact Hc).
      exists phi. split; [destruct Hc as [-> | ->]; exact H2|]. split.
      * apply (dual_basis (tdim c) (fun m => length m = tdim c /\ Forall (fun e => (e <= S o)%nat) m) dofs); auto. intros m [L _]. exact L.
      * transitivity (length dofs); [exact H3|]. pose proof (q_dofs_closed c (S o) variant rule Hc' ltac:(lia) Hq) as HD. rewrite H1 in HD. injection HD as ->.
        destruct (q_closed_points c o (fst rule) Hc' (quadrature_nodes variant (S o) rule ltac:(lia) Hq)) as [_ ->]. f_equal. lia.
Qed.

(** * The element *)
Definition cube_points (c : cell_type) (n : nat) : list point_dof := map (fun i => (map (frac n) (rev i), (tdim c, 0%nat))) (tuples n (tdim c)).
Lemma list_max_lt l n : (1 <= n)%nat -> Forall (fun a => (a < n)%nat) l -> (list_max l < n)%nat.
Proof. intros Hn F. induction F as [|a l Ha F IH]; simpl; [lia|]. change (fold_right Init.Nat.max 0%nat l) with (list_max l). lia. Qed.
Lemma cube_dofs c n : tensor c -> (2 <= n)%nat -> bubble_dofs (default c) n = Ok (cube_points c n).
Proof.
  intros Hc Hn. unfold bubble_dofs. rewrite (default_type c Hc).
  rewrite filter_all.
  - unfold cube_points. apply map_r_ok. intros i Hi. apply in_tuples in Hi. destruct Hi as [Li _]. change (fun j => INR j / INR n) with (frac n).
    rewrite get_point_place by (rewrite map_length, rev_length, Li; destruct Hc as [->|[->| ->]]; reflexivity). cbn [rmap]. f_equal. f_equal.
    assert (Lr : length (map (frac n) (rev i)) = tdim c) by (rewrite map_length, rev_length; exact Li). revert Lr. generalize (map (frac n) (rev i)). intros cs Lr.
    destruct Hc as [->|[->| ->]]; cbn [tdim] in Lr; peel cs Lr; cbn; [apply list1_eq|apply list2_eq|apply list3_eq]; ring.
  - intros i Hi. apply in_tuples in Hi. destruct Hi as [Li Fi]. apply Nat.ltb_lt. assert (M : (list_max i < n)%nat) by (apply list_max_lt; [lia|]; eapply Forall_impl; [|exact Fi]; simpl; lia).
    destruct Hc as [->|[->| ->]]; cbn [bubble_size]; [|exact M|exact M]. cbn [tdim] in Li. peel i Li. apply Forall_cons_iff in Fi. destruct Fi as [Fi _]. simpl in *. lia.
Qed.

Definition cube_space (d n : nat) (f : sfun) : Prop :=
  poly_space (fun m => length m = d /\ Forall (fun e => (e <= n)%nat) m) f /\
  forall v i, (i < d)%nat -> v i = 0 \/ v i = 1 -> f v = 0.

Lemma cube_subspace d n : subspace (cube_space d n).
Proof.
  split; [|split].
  - split; [apply poly_space_zero|reflexivity].
  - intros a u w [Hu Zu] [Hv Zv]. split; [apply poly_space_add; [apply poly_space_scale, Hu|exact Hv]|].
    intros v i Hi H. rewrite (Zu v i), (Zv v i) by assumption. ring.
  - intros u w E [Hu Zu]. split; [apply (poly_space_ext _ u); assumption|]. intros v i Hi H. rewrite <- E. apply (Zu v i); assumption.
Qed.

Lemma in_cube_points c n m : length m = tdim c -> Forall (fun a => (1 <= a < n)%nat) m -> In (map (frac n) m, (tdim c, 0%nat)) (cube_points c n).
Proof.
  intros L F. unfold cube_points. apply in_map_iff. exists (rev m). rewrite rev_involutive. split; [reflexivity|]. apply in_tuples. rewrite rev_length.
  split; [exact L|]. apply Forall_rev. exact F.
Qed.
Lemma frac_bounds n a : (1 <= a < n)%nat -> 0 < frac n a < 1.
Proof.
  intros H. unfold frac. assert (0 < INR a) by (apply lt_0_INR; lia). assert (INR a < INR n) by (apply lt_INR; lia).
  split; [apply Rdiv_lt_0_compat; lra|]. apply (Rmult_lt_reg_r (INR n)); [lra|]. unfold Rdiv. rewrite Rmult_assoc, Rinv_l by lra. lra.
Qed.

Lemma cube_unisolvent c n f : (2 <= n)%nat -> cube_space (tdim c) n f -> (forall p ke, In (p, ke) (cube_points c n) -> f (env_of p) = 0) -> forall v, f v = 0.
Proof.
  intros Hn [Hf B] Z. assert (Pn : 0 < INR n) by (apply lt_0_INR; lia).
  apply (tensor_lattice_zero (frac n) (tdim c) n); [apply frac_distinct; lia|exact Hf|]. intros m Lm Fm.
  assert (Vi : forall a, In a m -> exists i, (i < tdim c)%nat /\ as_point (map (frac n) m) i = frac n a).
  { intros a Ha. destruct (In_nth m a 0%nat Ha) as (i & Hi & <-). exists i. split; [lia|]. unfold as_point.
    rewrite (nth_indep _ 0 (frac n 0)) by (rewrite map_length; exact Hi). apply map_nth. }
  destruct (in_dec Nat.eq_dec 0%nat m) as [I|I].
  { destruct (Vi _ I) as (i & Hi & E). apply (B _ i Hi). left. rewrite E. unfold frac. simpl. field. lra. }
  destruct (in_dec Nat.eq_dec n m) as [J|J].
  { destruct (Vi _ J) as (i & Hi & E). apply (B _ i Hi). right. rewrite E. unfold frac. field. lra. }
  apply (Z (map (frac n) m) (tdim c, 0%nat)). apply in_cube_points; [exact Lm|]. rewrite Forall_forall in *. intros a Ha. specialize (Fm a Ha).
  assert (a <> 0%nat) by (intros ->; contradiction). assert (a <> n) by (intros ->; contradiction). lia.
Qed.

Lemma cube_cancel c n q : (2 <= n)%nat -> tensor_space (tdim c) (n - 2) q -> (forall v, cube_bubble (tdim c) v * q v = 0) -> forall v, q v = 0.
Proof.
  intros Hn Hq Z. apply (tensor_lattice_zero (fun i => frac n (S i)) (tdim c) (n - 2)); [|exact Hq|].
  { intros i j Hij. apply (frac_distinct n ltac:(lia) (S j)). lia. }
  intros m Lm Fm. specialize (Z (as_point (map (fun i => frac n (S i)) m))). apply Rmult_integral in Z. destruct Z as [Z|Z]; [exfalso|exact Z].
  apply cube_bubble_zero in Z. destruct Z as (i & Hi & B). unfold as_point in B. rewrite (nth_indep _ 0 (frac n 1)) in B by (rewrite map_length; lia).
  rewrite (map_nth (fun i => frac n (S i)) m 0%nat) in B. rewrite Forall_forall in Fm. assert (Im : In (nth i m 0%nat) m) by (apply nth_In; lia). specialize (Fm _ Im).
  pose proof (frac_bounds n (S (nth i m 0%nat)) ltac:(lia)). lra.
Qed.

Lemma bubble_cube c n variant : tensor c -> (2 <= n)%nat -> (n = 2%nat \/ exists rule, get_quadrature variant (n - 1) = Ok rule) ->
  exists poly, make_bubble (default c) n variant = Ok (poly, cube_points c n) /\ length poly = length (cube_points c n) /\ is_basis poly (cube_space (tdim c) n) /\
  exists phi, get_basis_functions poly (map point_eval (cube_points c n)) = Ok phi /\ length phi = length (cube_points c n) /\
    (forall i j, (i < length (cube_points c n))%nat -> (j < length (cube_points c n))%nat ->
       nth j phi (fun _ => 0) (env_of (fst (nth i (cube_points c n) ([], (0, 0)%nat)))) = if (i =? j)%nat then 1 else 0).
Proof.
  intros Hc Hn Hv. destruct (tensor_bubble c Hc) as (p1 & b & E1 & E2 & Eb).
  destruct (tensor_functions c (n - 2) variant Hc) as (psi & E3 & (Ip & Sp & _) & Lp).
  { destruct Hv as [->|[rule Hq]]; [left; reflexivity|right; exists rule]. replace (n - 2 + 1)%nat with (n - 1)%nat by lia. exact Hq. }
  assert (L : length psi = length (cube_points c n)) by (unfold cube_points; rewrite map_length, length_tuples, Lp; f_equal; lia).
  exists (map (fmul b) psi). split; [|split; [rewrite map_length; exact L|]].
  { unfold make_bubble. rewrite (default_type c Hc).
    assert (Eo : bubble_order c n = Ok (n - 2)%nat).
    { unfold bubble_order. destruct Hc as [->|[->| ->]]; rewrite (proj2 (Nat.ltb_ge _ _) Hn); reflexivity. }
    rewrite Eo. cbn [rbind]. rewrite E1. cbn [rbind]. rewrite E2. cbn [rbind]. rewrite E3. cbn [rbind]. rewrite (cube_dofs c n Hc Hn). cbn [rbind].
    rewrite map_length, L, Nat.eqb_refl. reflexivity. }
  destruct (square_element (cube_space (tdim c) n) (map (fmul b) psi) (map point_eval (cube_points c n)) (cube_subspace _ n) (point_eval_linear _ _)) as (B & phi & G1 & G2 & G3 & _).
  - apply Forall_forall. intros f Hf. apply in_map_iff in Hf. destruct Hf as (g & <- & Hg). split.
    + pose proof (tensor_mul (tdim c) 2 (n - 2) b g) as X. replace (2 + (n - 2))%nat with n in X by lia. apply X; [|apply Sp, Hg].
      apply (poly_space_ext _ (cube_bubble (tdim c))); [intros v; symmetry; apply Eb|]. apply cube_bubble_space. apply tensor_dim, Hc.
    + intros v i Hi H. unfold fmul. rewrite Eb. rewrite (proj2 (cube_bubble_zero (tdim c) v)) by (exists i; split; assumption). ring.
  - intros cs Lc Z. apply Ip; [rewrite map_length in Lc; exact Lc|]. apply (cube_cancel c n _ Hn).
    + apply lincomb_subspace; [apply tensor_subspace|apply Forall_forall, Sp].
    + intros v. rewrite <- Eb. rewrite <- (Z v), lincomb_fmul. reflexivity.
  - rewrite !map_length. exact L.
  - intros f Hf Z. apply (cube_unisolvent c n f Hn Hf). intros p ke Hin. apply (Z (point_eval (p, ke))). apply in_map, Hin.
  - split; [exact B|]. exists phi. rewrite map_length in G2, G3. split; [exact G1|]. split; [exact G2|]. intros i j Hi Hj. rewrite <- (G3 i j Hi Hj).
    rewrite (nth_indep _ _ (point_eval ([], (0, 0)%nat))) by (rewrite map_length; exact Hi). rewrite map_nth. reflexivity.
Qed.

Lemma cube_points_inside c n p ke : In (p, ke) (cube_points c n) -> ke = (tdim c, 0%nat) /\ length p = tdim c /\ Forall (fun x => 0 < x < 1) p.
Proof.
  unfold cube_points. intros H. apply in_map_iff in H. destruct H as (i & Ei & Hi). injection Ei as <- <-. apply in_tuples in Hi. destruct Hi as [Li Fi].
  split; [reflexivity|]. split; [rewrite map_length, rev_length; exact Li|]. apply Forall_forall. intros x Hx. apply in_map_iff in Hx. destruct Hx as (a & <- & Ha).
  apply frac_bounds. rewrite Forall_forall in Fi. apply Fi. apply in_rev. exact Ha.
Qed.
