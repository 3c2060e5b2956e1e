(** Proofs about the points of the Lagrange and Q elements. *)
From Coq Require Import String Arith Bool Reals Lra Lia Sorted List.
From Verif Require Import Base PolyLib PolySetsModel QuadratureModel QuadratureProofs ReferencesModel ReferencesSpec
  ReferencesProofs ReferencesGeometry LinAlg CiarletModel CiarletProofs PropertiesCiarlet PolySetsProofs ElementModel
  ElementProofs LagrangeModel UnisolvenceProofs.
Import ListNotations.
Open Scope R_scope.

(** * Lists *)
Lemma map_r_ok {A B} (f : A -> res B) g : forall l, (forall a, In a l -> f a = Ok (g a)) -> map_r f l = Ok (map g l).
Proof.
  induction l as [|a l IH]; intros H; simpl; [reflexivity|]. rewrite (H a) by (left; reflexivity). simpl.
  rewrite IH by (intros; apply H; right; assumption). reflexivity.
Qed.

Lemma get_nth {A} (l : list A) i d : (i < length l)%nat -> get l i = Ok (nth i l d).
Proof. intros H. unfold get. rewrite (nth_error_nth' l d H). reflexivity. Qed.

(** * Points of entities *)
Definition place (o : pt) (axes : list pt) (cs : list R) : pt :=
  fold_left (fun p ab => map (fun ij => fst ij + snd ij * snd ab) (combine p (fst ab))) (combine axes cs) o.

Lemma get_point_place r cs : length cs = length (r_axes r) -> get_point r cs = Ok (place (r_origin r) (r_axes r) cs).
Proof. intros H. unfold get_point. rewrite H, Nat.eqb_refl. reflexivity. Qed.

Definition lin (axes : list pt) (cs : list R) (j : nat) : R :=
  sumR (map (fun ac => nth j (fst ac) 0 * snd ac) (combine axes cs)).

Lemma place_spec d : forall axes cs o, length o = d -> Forall (fun a : pt => length a = d) axes -> length cs = length axes ->
  length (place o axes cs) = d /\ forall j, (j < d)%nat -> nth j (place o axes cs) 0 = nth j o 0 + lin axes cs j.
Proof.
  induction axes as [|a axes IH]; intros [|c cs] o Lo F L; try discriminate.
  - unfold place, lin. simpl. split; [exact Lo|]. intros; ring.
  - apply Forall_cons_iff in F. destruct F as [La F].
    set (o' := map (fun ij => fst ij + snd ij * c) (combine o a)).
    assert (Lo' : length o' = d) by (unfold o'; rewrite map_length, combine_length, Lo, La; lia).
    destruct (IH cs o' Lo' F ltac:(simpl in L; lia)) as [H1 H2].
    change (place o (a :: axes) (c :: cs)) with (place o' axes cs). split; [exact H1|].
    intros j Hj. rewrite (H2 j Hj). unfold lin at 2. simpl.
    assert (E : nth j o' 0 = nth j o 0 + nth j a 0 * c).
    { unfold o'. rewrite (nth_indep _ 0 ((fun ij : R * R => fst ij + snd ij * c) (0, 0))).
      - rewrite (map_nth (fun ij : R * R => fst ij + snd ij * c)). rewrite combine_nth by congruence. reflexivity.
      - rewrite map_length, combine_length, Lo, La. lia. }
    rewrite E. unfold lin, sumR. ring.
Qed.

(** * The list of degrees of freedom in closed form *)
Definition closed_entity (k : nat) (count : nat) (idx : list (list nat)) (P : nat -> list nat -> pt) : list point_dof :=
  flat_map (fun e => map (fun i => (P e i, (k, e))) idx) (range count).

Lemma entity_point_dofs_closed r k idx plc count E P :
  sub_entity_count r k = Ok count ->
  (forall e, (e < count)%nat -> sub_entity r k e false = Ok (E e) /\ forall i, In i idx -> plc (E e) i = Ok (P e i)) ->
  entity_point_dofs r k idx plc = Ok (closed_entity k count idx P).
Proof.
  intros C H. unfold entity_point_dofs. rewrite C. cbn [rbind].
  rewrite (map_r_ok _ (fun e => map (fun i => (P e i, (k, e))) idx)).
  - cbn [rmap]. rewrite <- flat_map_concat_map. reflexivity.
  - intros e He. apply in_range in He. destruct (H e He) as [H1 H2]. rewrite H1. cbn [rbind].
    apply map_r_ok. intros i Hi. rewrite (H2 i Hi). reflexivity.
Qed.

Lemma in_closed_entity k count idx P p k' e :
  In (p, (k', e)) (closed_entity k count idx P) <-> k' = k /\ (e < count)%nat /\ exists i, In i idx /\ p = P e i.
Proof.
  unfold closed_entity. rewrite in_flat_map. split.
  - intros (e' & He & H). apply in_map_iff in H. destruct H as (i & E & Hi). injection E as <- <- <-.
    apply in_range in He. split; [reflexivity|]. split; [exact He|]. exists i. split; [exact Hi|reflexivity].
  - intros (-> & He & i & Hi & ->). exists e. split; [apply in_range; exact He|].
    apply (in_map (fun i => (P e i, (k, e)))). exact Hi.
Qed.

Lemma length_closed_entity k count idx P : length (closed_entity k count idx P) = (count * length idx)%nat.
Proof.
  unfold closed_entity. rewrite (length_flat_map_const _ _ (length idx)).
  - rewrite length_range. reflexivity.
  - intros e _. apply map_length.
Qed.

Lemma in_vertex_dofs r p k v : In (p, (k, v)) (vertex_dofs r) <-> k = 0%nat /\ nth_error (r_vertices r) v = Some p.
Proof.
  unfold vertex_dofs. rewrite in_map_iff. split.
  - intros ([w q] & E & H). injection E as <- <- <-. apply in_enumerate in H. split; [reflexivity|exact H].
  - intros (-> & H). exists (v, p). split; [reflexivity|]. apply in_enumerate. exact H.
Qed.
Lemma length_vertex_dofs r : length (vertex_dofs r) = length (r_vertices r).
Proof. unfold vertex_dofs, enumerate. rewrite map_length, combine_length, length_range. lia. Qed.

(** * Tuples *)
Lemma in_tuples n k i : In i (tuples n k) <-> length i = k /\ Forall (fun a => (1 <= a < n)%nat) i.
Proof.
  unfold tuples. rewrite in_product, repeat_length. split; intros [L H]; (split; [exact L|]).
  - apply Forall_forall. intros a Ha. destruct (In_nth i a 0%nat Ha) as (j & Hj & <-).
    specialize (H j 0%nat ltac:(lia)). rewrite nth_repeat_lt in H by lia. apply in_range2 in H. exact H.
  - intros j d Hj. rewrite nth_repeat_lt by exact Hj. apply in_range2.
    rewrite Forall_forall in H. apply H. apply nth_In. lia.
Qed.
Lemma in_simplex_tuples n k i : In i (simplex_tuples n k) <->
  length i = k /\ Forall (fun a => (1 <= a < n)%nat) i /\ (list_sum i < n)%nat.
Proof. unfold simplex_tuples. rewrite filter_In, in_tuples, Nat.ltb_lt. tauto. Qed.
Lemma NoDup_tuples n k : NoDup (tuples n k).
Proof. unfold tuples. apply NoDup_product. apply Forall_forall. intros l Hl. apply repeat_spec in Hl. subst. apply NoDup_range2. Qed.

Lemma length_tuples n k : length (tuples n k) = ((n - 1) ^ k)%nat.
Proof.
  unfold tuples. induction k as [|k IH]; [reflexivity|]. simpl.
  rewrite (length_flat_map_const _ _ ((n - 1) ^ k)%nat).
  - rewrite length_range2. reflexivity.
  - intros a _. rewrite map_length. exact IH.
Qed.

(** tuples of k numbers from 1, ..., N - 1 with sum less than m *)
Definition bounded (N k m : nat) : list (list nat) := filter (fun i => list_sum i <? m)%nat (product (repeat (range2 1 N) k)).
(** binomial coefficient (m - 1 choose k) *)
Fixpoint choose (k m : nat) : nat :=
  match k with
  | O => match m with O => 0 | _ => 1 end
  | S k' => (fix go m := match m with O => 0 | S m' => go m' + choose k' m' end) m
  end%nat.
Lemma choose_SS k m : choose (S k) (S m) = (choose (S k) m + choose k m)%nat.
Proof. reflexivity. Qed.
Lemma choose_S0 k : choose k 0 = 0%nat.
Proof. destruct k; reflexivity. Qed.

Arguments choose : simpl never.

Lemma filter_map {A B} (f : A -> B) (p : B -> bool) l : filter p (map f l) = map f (filter (fun a => p (f a)) l).
Proof. induction l as [|a l IH]; simpl; [reflexivity|]. destruct (p (f a)); simpl; rewrite IH; reflexivity. Qed.
Lemma filter_flat_map {A B} (f : A -> list B) (p : B -> bool) l : filter p (flat_map f l) = flat_map (fun a => filter p (f a)) l.
Proof. induction l as [|a l IH]; simpl; [reflexivity|]. rewrite filter_app, IH. reflexivity. Qed.

Lemma bounded_S N k m : length (bounded N (S k) m) = list_sum (map (fun a => length (bounded N k (m - a))) (range2 1 N)).
Proof.
  unfold bounded at 1. simpl. rewrite filter_flat_map, length_flat_map_sum. f_equal. apply map_ext_in. intros a Ha.
  rewrite filter_map, map_length. unfold bounded. f_equal. apply filter_ext_in. intros i Hi.
  apply in_range2 in Ha. simpl. apply eq_true_iff_eq. rewrite !Nat.ltb_lt. lia.
Qed.

Lemma choose_sum k m : forall N, (m <= N)%nat -> list_sum (map (fun a => choose k (m - a)) (range2 1 N)) = choose (S k) m.
Proof.
  induction m as [|m IH]; intros N H.
  - simpl. induction (range2 1 N) as [|a l IHl]; simpl; [reflexivity|]. rewrite IHl, choose_S0. reflexivity.
  - destruct N as [|N]; [lia|]. rewrite choose_SS. unfold range2.
    destruct N as [|N].
    + assert (m = 0)%nat by lia. subst. destruct k; reflexivity.
    + simpl. replace (m - 0)%nat with m by lia. rewrite (Nat.add_comm (choose k m)). f_equal.
      rewrite <- seq_shift, map_map. rewrite <- (IH (S N)) by lia. unfold range2. simpl.
      rewrite Nat.sub_0_r. f_equal.
Qed.

Lemma length_bounded N k : forall m, (m <= N)%nat -> length (bounded N k m) = choose k m.
Proof.
  induction k as [|k IH]; intros m H.
  - unfold bounded. simpl. destruct m; simpl; reflexivity.
  - rewrite bounded_S. rewrite <- (choose_sum k m N H). f_equal. apply map_ext_in. intros a Ha. apply IH. lia.
Qed.

Lemma length_simplex_tuples n k : length (simplex_tuples n k) = choose k n.
Proof. apply (length_bounded n k n). lia. Qed.

Lemma choose_1 m : choose 1 (S m) = m.
Proof. induction m as [|m IH]; [reflexivity|]. rewrite choose_SS, IH. change (choose 0 (S m)) with 1%nat. lia. Qed.
Lemma choose_2 m : (2 * choose 2 (S m) = m * (m - 1))%nat.
Proof.
  induction m as [|m IH]; [reflexivity|]. rewrite choose_SS, choose_1, Nat.mul_add_distr_l, IH.
  destruct m as [|m]; [reflexivity|]. simpl. rewrite Nat.sub_0_r. lia.
Qed.
Lemma choose_3 m : (6 * choose 3 (S m) = m * (m - 1) * (m - 2))%nat.
Proof.
  induction m as [|m IH]; [reflexivity|]. rewrite choose_SS, Nat.mul_add_distr_l, IH.
  replace (6 * choose 2 (S m))%nat with (3 * (2 * choose 2 (S m)))%nat by lia. rewrite choose_2.
  destruct m as [|[|m]]; [reflexivity|reflexivity|].
  replace (S (S m) - 1)%nat with (S m) by lia. replace (S (S m) - 2)%nat with m by lia.
  replace (S (S (S m)) - 1)%nat with (S (S m)) by lia. replace (S (S (S m)) - 2)%nat with (S m) by lia. ring.
Qed.

(** * Equispaced points *)
Lemma equispaced_get n j : (1 <= n)%nat -> (j <= n)%nat -> get (fst (equispaced (n + 1))) j = Ok (INR j / INR n).
Proof.
  intros Hn Hj. unfold equispaced. cbn [fst]. rewrite (get_nth _ j 0) by (rewrite map_length, length_range; lia).
  f_equal. rewrite (nth_indep _ 0 ((fun i => INR i / (INR (n + 1) - 1)) 0%nat)) by (rewrite map_length, length_range; lia).
  rewrite (map_nth (fun i => INR i / (INR (n + 1) - 1)) (range (n + 1)) 0%nat j).
  unfold range. rewrite seq_nth by lia. simpl (0 + j)%nat.
  rewrite plus_INR. simpl (INR 1). replace (INR n + 1 - 1) with (INR n) by ring. reflexivity.
Qed.

Definition frac (n : nat) (j : nat) : R := INR j / INR n.
Lemma frac_distinct n : (1 <= n)%nat -> forall m, distinct_upto (frac n) m.
Proof.
  intros Hn m i j Hij E. unfold frac in E. assert (0 < INR n) by (apply lt_0_INR; lia).
  assert (INR i = INR j) by (apply (Rmult_eq_reg_r (/ INR n)); [exact E|apply Rinv_neq_0_compat; lra]).
  apply INR_eq in H0. lia.
Qed.

Lemma lagrange_place_equispaced n (ent : reference) i : (1 <= n)%nat -> Forall (fun a => (1 <= a < n)%nat) i ->
  length i = length (r_axes ent) ->
  lagrange_place (fst (equispaced (n + 1))) ent i = Ok (place (r_origin ent) (r_axes ent) (map (frac n) (rev i))).
Proof.
  intros Hn F L. unfold lagrange_place. rewrite (map_r_ok _ (frac n)).
  - cbn [rbind]. apply get_point_place. rewrite map_length, rev_length. exact L.
  - intros a Ha. apply in_rev in Ha. rewrite Forall_forall in F. specialize (F a Ha). apply equispaced_get; lia.
Qed.

(** * Simplices *)
Definition simplex (c : cell_type) : Prop := c = CInterval \/ c = CTriangle \/ c = CTetrahedron.

Definition ent_of (r : reference) (k e : nat) : reference :=
  match sub_entity r k e false with Ok x => x | Err _ => r end.
Definition ent_count (r : reference) (k : nat) : nat := match sub_entity_count r k with Ok c => c | Err _ => 0%nat end.

Definition closed_dofs (r : reference) (idx : nat -> list (list nat)) (P : nat -> nat -> list nat -> pt) : list point_dof :=
  vertex_dofs r ++ closed_entity 1 (ent_count r 1) (idx 1%nat) (P 1%nat)
  ++ closed_entity 2 (ent_count r 2) (idx 2%nat) (P 2%nat) ++ closed_entity 3 (ent_count r 3) (idx 3%nat) (P 3%nat).

Lemma in_closed_dofs r idx P p k e : In (p, (k, e)) (closed_dofs r idx P) <->
  (k = 0%nat /\ nth_error (r_vertices r) e = Some p) \/
  ((1 <= k <= 3)%nat /\ (e < ent_count r k)%nat /\ exists i, In i (idx k) /\ p = P k e i).
Proof.
  unfold closed_dofs. rewrite !in_app_iff, in_vertex_dofs, !in_closed_entity. split.
  - intros [H|[(-> & H)|[(-> & H)|(-> & H)]]]; [left; exact H| | |]; right; (split; [lia|exact H]).
  - intros [H|(Hk & H)]; [left; exact H|right].
    destruct (Nat.eq_dec k 1) as [->|N1]; [left; auto|].
    destruct (Nat.eq_dec k 2) as [->|N2]; [right; left; auto|]. assert (k = 3)%nat by lia. subst. right; right; auto.
Qed.

Lemma length_closed_dofs r idx P : length (closed_dofs r idx P) =
  (length (r_vertices r) + ent_count r 1 * length (idx 1%nat) + ent_count r 2 * length (idx 2%nat)
   + ent_count r 3 * length (idx 3%nat))%nat.
Proof. unfold closed_dofs. rewrite !app_length, length_vertex_dofs, !length_closed_entity. lia. Qed.

(** the entities of dimension 1 to 3 exist and have as many axes as their dimension *)
Definition good_entities (r : reference) (d : nat) : Prop :=
  length (r_origin r) = d /\
  forall k, (1 <= k <= 3)%nat -> sub_entity_count r k = Ok (ent_count r k) /\
    forall e, (e < ent_count r k)%nat -> sub_entity r k e false = Ok (ent_of r k e) /\
      length (r_origin (ent_of r k e)) = d /\ length (r_axes (ent_of r k e)) = k /\
      Forall (fun a : pt => length a = d) (r_axes (ent_of r k e)).

Lemma point_dofs_closed r d idx plc P : good_entities r d ->
  (forall k e i, (1 <= k <= 3)%nat -> (e < ent_count r k)%nat -> In i (idx k) -> plc (ent_of r k e) i = Ok (P k e i)) ->
  point_dofs r idx plc = Ok (closed_dofs r idx P).
Proof.
  intros [_ G] H. unfold point_dofs.
  assert (X : forall k, (1 <= k <= 3)%nat -> entity_point_dofs r k (idx k) plc = Ok (closed_entity k (ent_count r k) (idx k) (P k))).
  { intros k Hk. destruct (G k Hk) as [C E].
    apply (entity_point_dofs_closed r k (idx k) plc (ent_count r k) (ent_of r k)); [exact C|].
    intros e He. split; [apply E; exact He|]. intros i Hi. apply H; assumption. }
  rewrite (X 1%nat), (X 2%nat), (X 3%nat) by lia. reflexivity.
Qed.

Definition lagrange_point (r : reference) (n k e : nat) (i : list nat) : pt :=
  place (r_origin (ent_of r k e)) (r_axes (ent_of r k e)) (map (frac n) (rev i)).

Lemma lagrange_dofs_closed r d n : good_entities r d -> (1 <= n)%nat ->
  lagrange_dofs r n "equispaced" = Ok (closed_dofs r (simplex_tuples n) (lagrange_point r n)).
Proof.
  intros G Hn. unfold lagrange_dofs. destruct n as [|n']; [lia|]. set (n := S n') in *.
  change (n =? 0)%nat with false. cbv iota. change (get_quadrature "equispaced" (n + 1)) with (@Ok rule (equispaced (n + 1))).
  cbn [rbind]. change (negb ("equispaced" =? "equispaced")%string && negb (tensor_cell (r_type r))) with false. cbv iota.
  apply (point_dofs_closed r d); [exact G|]. intros k e i Hk He Hi. apply in_simplex_tuples in Hi. destruct Hi as (L & F & _).
  apply lagrange_place_equispaced; [lia|exact F|]. destruct G as [_ G]. destruct (G k Hk) as [_ G']. destruct (G' e He) as (_ & _ & A & _).
  congruence.
Qed.

Lemma vsub_length (v w : pt) d : length v = d -> length w = d -> length (vsub v w) = d.
Proof. intros H H'. unfold vsub. rewrite map_length, combine_length, H, H'. lia. Qed.

Lemma good_simplex c vs r d : simplex c -> points (nvert c) d vs -> make_reference c vs = Ok r -> good_entities r d.
Proof.
  intros Hc [L F] Hr. change (nvert c) with (length (reference_vertices c)) in L.
  destruct Hc as [->|[->| ->]]; simpl in L.
  all: repeat (destruct vs as [|? vs]; [discriminate L|]); destruct vs; [|discriminate L];
    injection Hr as <-; repeat rewrite Forall_cons_iff in F; decompose [and] F; clear F L;
    (split; [assumption|]); intros k Hk;
    (destruct k as [|[|[|[|k]]]]; [lia| | | |lia]); (split; [reflexivity|]); intros e He;
    unfold ent_count in He; cbn in He;
    repeat (destruct e as [|e]; [|try (exfalso; lia)]); try (exfalso; lia);
    (split; [reflexivity|]); (split; [assumption|]); (split; [reflexivity|]);
    cbn; repeat (apply Forall_cons; [apply vsub_length; assumption|]); apply Forall_nil.
Qed.
