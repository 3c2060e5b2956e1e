(** The points of the Lagrange element are the points whose barycentric coordinates are multiples of 1/order. *)
From Coq Require Import String Arith Bool Reals Lra Lia Sorted List.
From Verif Require Import Base PolyLib PolySetsModel QuadratureModel QuadratureProofs ReferencesModel ReferencesSpec
  ReferencesProofs ReferencesGeometry LinAlg CiarletModel CiarletProofs PropertiesCiarlet PolySetsProofs ElementModel
  ElementProofs LagrangeModel UnisolvenceProofs LagrangeProofs.
Import ListNotations.
Open Scope R_scope.

(** the point with barycentric coordinates l_0/n, l_1/n, ... *)
Definition wpoint (n : nat) (l : list nat) (vs : list pt) (d : nat) : pt :=
  map (fun j => sumR (map (fun lv => INR (fst lv) / INR n * nth j (snd lv) 0) (combine l vs))) (seq 0 d).
(** the vertices with non-zero weight *)
Definition support (l : list nat) : list nat := filter (fun i => negb (nth i l 0 =? 0)%nat) (seq 0 (length l)).
(** [E] are the vertices of entity number e of dimension k *)
Definition entity_is (r : reference) (k e : nat) (E : list nat) : Prop :=
  exists tab, sub_entities r k = Ok tab /\ nth_error tab e = Some E.

Lemma wpoint_nth n l vs d j : (j < d)%nat ->
  nth j (wpoint n l vs d) 0 = sumR (map (fun lv => INR (fst lv) / INR n * nth j (snd lv) 0) (combine l vs)).
Proof.
  intros H. unfold wpoint.
  rewrite (nth_indep _ 0 ((fun j => sumR (map (fun lv => INR (fst lv) / INR n * nth j (snd lv) 0) (combine l vs))) 0%nat))
    by (rewrite map_length, seq_length; exact H).
  rewrite (map_nth (fun j => sumR (map (fun lv => INR (fst lv) / INR n * nth j (snd lv) 0) (combine l vs)))).
  rewrite seq_nth by exact H. reflexivity.
Qed.
Lemma wpoint_length n l vs d : length (wpoint n l vs d) = d.
Proof. unfold wpoint. rewrite map_length, seq_length. reflexivity. Qed.

Lemma vsub_nth (v w : pt) d j : length v = d -> length w = d -> (j < d)%nat -> nth j (vsub v w) 0 = nth j v 0 - nth j w 0.
Proof.
  intros H H' Hj. unfold vsub. rewrite (nth_indep _ 0 ((fun ij : R * R => fst ij - snd ij) (0, 0))).
  - rewrite (map_nth (fun ij : R * R => fst ij - snd ij)), combine_nth by congruence. reflexivity.
  - rewrite map_length, combine_length, H, H'. lia.
Qed.

Lemma pt_eq (p q : pt) d : length p = d -> length q = d -> (forall j, (j < d)%nat -> nth j p 0 = nth j q 0) -> p = q.
Proof. intros H H' E. apply (nth_ext p q 0 0); [congruence|]. intros j Hj. apply E. lia. Qed.

Lemma wpoint_place n l vs d o axes cs : length o = d -> Forall (fun a : pt => length a = d) axes -> length cs = length axes ->
  (forall j, (j < d)%nat -> sumR (map (fun lv => INR (fst lv) / INR n * nth j (snd lv) 0) (combine l vs)) = nth j o 0 + lin axes cs j) ->
  wpoint n l vs d = place o axes cs.
Proof.
  intros Ho Ha L E. destruct (place_spec d axes cs o Ho Ha L) as [P1 P2].
  apply (pt_eq _ _ d); [apply wpoint_length|exact P1|]. intros j Hj. rewrite wpoint_nth, P2 by exact Hj. apply E. exact Hj.
Qed.

Ltac kill_nat := exfalso; simpl in *; lia.
Ltac in_tup := apply in_simplex_tuples; split; [reflexivity|]; split;
  [repeat (apply Forall_cons; [lia|]); apply Forall_nil|cbn [list_sum fold_right]; lia].
(** the weights add up to n (EI); the goal is an identity between weighted sums of coordinates *)
Ltac weights := match goal with
  | P : 0 < INR ?n, EI : INR ?n = _ |- _ =>
      rewrite EI in P |- *; change (INR 0) with 0 in P |- *;
      repeat match goal with |- context [INR (S ?l)] => generalize dependent (INR (S l)); intros end;
      repeat match goal with |- context [nth ?j ?v 0] => generalize (nth j v 0); intros end; field; lra
  end.
Ltac vertex_case v := exists 0%nat, v; split; [eexists; split; reflexivity|];
  apply in_closed_dofs; left; split; [reflexivity|]; cbn [r_vertices nth_error]; f_equal;
  match goal with |- ?v = wpoint _ _ _ ?d => apply (pt_eq _ _ d); [assumption|apply wpoint_length|] end;
  let j := fresh "j" in let Hj := fresh "Hj" in
  intros j Hj; rewrite wpoint_nth by exact Hj; cbn [combine map fst snd sumR fold_right]; weights.
Ltac entity_case k e i := exists k, e; split; [eexists; split; reflexivity|];
  apply in_closed_dofs; right; split; [lia|]; split; [cbn; lia|]; exists i; split; [in_tup|];
  unfold lagrange_point, ent_of; cbn [sub_entity sub_entity_types r_type rbind tdim Nat.eqb sub_entities edges faces volumes
    get nth_error map_r r_vertices rmap make_reference r_origin r_axes];
  apply wpoint_place; [assumption|repeat (apply Forall_cons; [apply vsub_length; assumption|]); apply Forall_nil|reflexivity|];
  let j := fresh "j" in let Hj := fresh "Hj" in
  intros j Hj; unfold lin, frac; cbn [rev app combine map fst snd sumR fold_right];
  repeat match goal with |- context [nth j (vsub ?v ?w) 0] => rewrite (vsub_nth v w _ j) by eassumption end;
  cbn [combine map fst snd sumR fold_right]; weights.

Lemma key_interval v0 v1 d n l0 l1 r : length v0 = d -> length v1 = d -> make_reference CInterval [v0; v1] = Ok r ->
  (1 <= n)%nat -> (l0 + l1 = n)%nat ->
  exists k e, entity_is r k e (support [l0; l1]) /\
    In (wpoint n [l0; l1] [v0; v1] d, (k, e)) (closed_dofs r (simplex_tuples n) (lagrange_point r n)).
Proof.
  intros H0 H1 Hr Hn E. injection Hr as <-.
  assert (P : 0 < INR n) by (apply lt_0_INR; lia).
  assert (EI : INR n = INR l0 + INR l1) by (rewrite <- E, plus_INR; reflexivity).
  destruct l0 as [|l0], l1 as [|l1]; [kill_nat| | |].
  - vertex_case 1%nat.
  - vertex_case 0%nat.
  - entity_case 1%nat 0%nat [S l1].
Qed.

Lemma key_triangle v0 v1 v2 d n l0 l1 l2 r : length v0 = d -> length v1 = d -> length v2 = d ->
  make_reference CTriangle [v0; v1; v2] = Ok r -> (1 <= n)%nat -> (l0 + l1 + l2 = n)%nat ->
  exists k e, entity_is r k e (support [l0; l1; l2]) /\
    In (wpoint n [l0; l1; l2] [v0; v1; v2] d, (k, e)) (closed_dofs r (simplex_tuples n) (lagrange_point r n)).
Proof.
  intros H0 H1 H2 Hr Hn E. injection Hr as <-.
  assert (P : 0 < INR n) by (apply lt_0_INR; lia).
  assert (EI : INR n = INR l0 + INR l1 + INR l2) by (rewrite <- E, !plus_INR; reflexivity).
  destruct l0 as [|l0], l1 as [|l1], l2 as [|l2]; [kill_nat| | | | | | |].
  - vertex_case 2%nat.
  - vertex_case 1%nat.
  - entity_case 1%nat 0%nat [S l2].
  - vertex_case 0%nat.
  - entity_case 1%nat 1%nat [S l2].
  - entity_case 1%nat 2%nat [S l1].
  - entity_case 2%nat 0%nat [S l2; S l1].
Qed.

Lemma key_tetrahedron v0 v1 v2 v3 d n l0 l1 l2 l3 r : length v0 = d -> length v1 = d -> length v2 = d -> length v3 = d ->
  make_reference CTetrahedron [v0; v1; v2; v3] = Ok r -> (1 <= n)%nat -> (l0 + l1 + l2 + l3 = n)%nat ->
  exists k e, entity_is r k e (support [l0; l1; l2; l3]) /\
    In (wpoint n [l0; l1; l2; l3] [v0; v1; v2; v3] d, (k, e)) (closed_dofs r (simplex_tuples n) (lagrange_point r n)).
Proof.
  intros H0 H1 H2 H3 Hr Hn E. injection Hr as <-.
  assert (P : 0 < INR n) by (apply lt_0_INR; lia).
  assert (EI : INR n = INR l0 + INR l1 + INR l2 + INR l3) by (rewrite <- E, !plus_INR; reflexivity).
  destruct l0 as [|l0], l1 as [|l1], l2 as [|l2], l3 as [|l3]; [kill_nat| | | | | | | | | | | | | | |].
  - vertex_case 3%nat.
  - vertex_case 2%nat.
  - entity_case 1%nat 0%nat [S l3].
  - vertex_case 1%nat.
  - entity_case 1%nat 1%nat [S l3].
  - entity_case 1%nat 2%nat [S l2].
  - entity_case 2%nat 0%nat [S l3; S l2].
  - vertex_case 0%nat.
  - entity_case 1%nat 3%nat [S l3].
  - entity_case 1%nat 4%nat [S l2].
  - entity_case 2%nat 1%nat [S l3; S l2].
  - entity_case 1%nat 5%nat [S l1].
  - entity_case 2%nat 2%nat [S l3; S l1].
  - entity_case 2%nat 3%nat [S l2; S l1].
  - entity_case 3%nat 0%nat [S l3; S l2; S l1].
Qed.

Lemma key c vs r d n l : simplex c -> points (nvert c) d vs -> make_reference c vs = Ok r -> (1 <= n)%nat ->
  length l = nvert c -> list_sum l = n ->
  exists k e, entity_is r k e (support l) /\
    In (wpoint n l vs d, (k, e)) (closed_dofs r (simplex_tuples n) (lagrange_point r n)).
Proof.
  intros Hc [L F] Hr Hn Ll E. change (nvert c) with (length (reference_vertices c)) in L, Ll.
  destruct Hc as [->|[->| ->]]; simpl in L, Ll;
    repeat (destruct vs as [|? vs]; [discriminate L|]); (destruct vs; [|discriminate L]);
    repeat (destruct l as [|? l]; [discriminate Ll|]); (destruct l; [|discriminate Ll]);
    repeat rewrite Forall_cons_iff in F; decompose [and] F; clear F L Ll; cbn [list_sum fold_right] in E.
  - apply key_interval; auto; lia.
  - apply key_triangle; auto; lia.
  - apply key_tetrahedron; auto; lia.
Qed.

(** * Affine parametrisation of entities *)
Fixpoint psum (vs : list (list R)) (c0 : nat -> R) (rest : list nat) (k : nat) (w : nat -> R) (j : nat) : R :=
  match rest with
  | [] => 0
  | e :: rest' => w k * (co vs e j - c0 j) + psum vs c0 rest' (S k) w j
  end.
Definition param (vs : list (list R)) (E : list nat) (w : nat -> R) (j : nat) : R :=
  match E with [] => 0 | e0 :: rest => co vs e0 j + psum vs (co vs e0) rest 0 w j end.

Lemma psum_degree vs c0 rest : forall s k j, (s + length rest <= k)%nat ->
  degree_space k 1 (fun w => psum vs c0 rest s w j).
Proof.
  induction rest as [|e rest IH]; intros s k j H; simpl in *; [apply degree_const|].
  apply poly_space_add; [|apply IH; lia].
  apply (poly_space_ext _ (fun w => (co vs e j - c0 j) * w s)); [intros w; ring|].
  apply poly_space_scale. apply degree_var. lia.
Qed.
Lemma param_degree vs e0 rest k j : (length rest <= k)%nat -> degree_space k 1 (fun w => param vs (e0 :: rest) w j).
Proof. intros H. simpl. apply poly_space_add; [apply degree_const|]. apply psum_degree. exact H. Qed.

Lemma psum_weights vs c0 rest j : forall ws (f : nat -> R) s, length ws = length rest -> (forall k, (k < length ws)%nat -> f (s + k)%nat = nth k ws 0) ->
  psum vs c0 rest s f j + c0 j * sumR ws
  = sumR (map (fun wv => fst wv * nth j (snd wv) 0) (combine ws (map (fun e => nth e vs []) rest))).
Proof.
  induction rest as [|e rest IH]; intros [|w ws] f s L H; try discriminate; [simpl; ring|].
  specialize (IH ws f (S s) ltac:(simpl in L; lia)).
  pose proof (H 0%nat ltac:(simpl; lia)) as H0. rewrite Nat.add_0_r in H0. simpl in H0.
  assert (IH' := IH (fun k Hk => eq_trans (f_equal f (Nat.add_succ_comm s k)) (H (S k) ltac:(simpl; lia)))).
  cbn [psum combine map fst snd]. unfold sumR in *. cbn [fold_right]. rewrite <- IH', H0. unfold co at 1. change pt with (list R). ring.
Qed.

(** points of the affine hull of the vertices are parametrised *)
Lemma hull_param vs e0 rest p : in_affine_hull (map (fun e => nth e vs []) (e0 :: rest)) p ->
  exists w, forall j, (j < length p)%nat -> param vs (e0 :: rest) w j = nth j p 0.
Proof.
  intros (w & L & S1 & E). destruct w as [|w0 ws]; [discriminate|]. simpl in L.
  exists (fun k => nth k ws 0). intros j Hj. rewrite (E j Hj). simpl.
  pose proof (psum_weights vs (co vs e0) rest j ws (fun k => nth k ws 0) 0%nat) as P.
  rewrite map_length in L. specialize (P ltac:(lia) (fun k _ => eq_refl)).
  unfold sumR in *. simpl in S1. rewrite <- P. replace w0 with (1 - fold_right Rplus 0 ws) by lra.
  unfold co. ring.
Qed.

Lemma degree_local d n f v w : degree_space d n f -> (forall j, (j < d)%nat -> v j = w j) -> f v = f w.
Proof.
  intros (p & Hp & H) E. rewrite !H. clear H. induction p as [|[c m] p IH]; simpl; [reflexivity|].
  apply Forall_cons_iff in Hp. destruct Hp as [[L _] Hp]. rewrite IH by exact Hp. f_equal. f_equal. unfold meval. simpl in L.
  assert (G : forall m i, (forall j, (i <= j < i + length m)%nat -> v j = w j) -> meval_from i m v = meval_from i m w).
  { clear. induction m as [|e m IH]; intros i H; simpl; [reflexivity|]. rewrite (H i) by (simpl; lia). f_equal.
    apply IH. intros j Hj. apply H. simpl. lia. }
  apply G. intros j Hj. apply E. rewrite L in Hj. lia.
Qed.

(** * Weights of the lattice points of an entity *)
Definition lam (nv n : nat) (E a : list nat) : list nat :=
  match E with
  | [] => []
  | e0 :: rest => map (fun i => if (i =? e0)%nat then (n - list_sum a)%nat else
      match find (fun ea => fst ea =? i)%nat (combine rest a) with Some ea => snd ea | None => 0%nat end) (seq 0 nv)
  end.

Ltac peel a La := match type of La with
  | length a = 0%nat => destruct a; [clear La|discriminate La]
  | length a = S _ => destruct a as [|? a]; [discriminate La|cbn [length] in La; apply eq_add_S in La; peel a La]
  end.

Lemma lam_ok c vs r d n k e E a : simplex c -> points (nvert c) d vs -> make_reference c vs = Ok r -> (1 <= n)%nat ->
  entity_is r k e E -> length a = k -> (list_sum a <= n)%nat ->
  length E = S k /\ length (lam (nvert c) n E a) = nvert c /\ list_sum (lam (nvert c) n E a) = n /\
  incl (support (lam (nvert c) n E a)) E /\
  forall j, (j < d)%nat -> nth j (wpoint n (lam (nvert c) n E a) vs d) 0 = param vs E (fun i => nth i (map (frac n) a) 0) j.
Proof.
  intros Hc [L F] Hr Hn (tab & Ht & He) La Sa.
  assert (P : 0 < INR n) by (apply lt_0_INR; lia).
  assert (EI : INR (n - list_sum a) = INR n - INR (list_sum a)) by (apply minus_INR; exact Sa).
  change (nvert c) with (length (reference_vertices c)) in *.
  assert (G : forall l, (forall i, (i < length l)%nat -> nth i l 0%nat <> 0%nat -> In i E) -> incl (support l) E).
  { intros l H i Hi. unfold support in Hi. apply filter_In in Hi. destruct Hi as [Hi N]. apply in_seq in Hi.
    apply H; [lia|]. intros Z. rewrite Z in N. discriminate N. }
  assert (W : forall x y, wpoint n (lam (length (reference_vertices c)) n E a) vs d = x -> x = y -> True) by auto. clear W.
  destruct Hc as [->|[->| ->]]; simpl in L;
    repeat (destruct vs as [|? vs]; [discriminate L|]); (destruct vs; [|discriminate L]);
    injection Hr as <-;
    (destruct k as [|[|[|[|k]]]]; [| | | |discriminate Ht]); injection Ht as <-;
    repeat (destruct e as [|e]; [injection He as <-|try discriminate He]);
    try (destruct e; discriminate He);
    peel a La;
    (split; [reflexivity|]); (split; [reflexivity|]);
    cbn [length reference_vertices lam seq map Nat.eqb list_sum fold_right combine find fst snd] in *;
    (split; [lia|]); (split;
      [apply G; intros i Hi N; cbn [length] in Hi;
       repeat first [exfalso; lia|destruct i as [|i]; [first [simpl; tauto|exfalso; apply N; reflexivity]|]]|]);
    intros j Hj; rewrite wpoint_nth by exact Hj;
    unfold param, psum, co, sumR, frac; cbn [combine map fst snd fold_right nth];
    rewrite ?plus_INR in EI; rewrite EI; change (INR 0) with 0;
    repeat match goal with |- context [nth j ?v 0] => generalize (nth j v 0); intros end; field; lra.
Qed.

(** * Vanishing on the closure of an entity *)
Lemma mdeg_sum m : mdeg m = list_sum m.
Proof. induction m as [|a m IH]; simpl; [reflexivity|]. rewrite IH. reflexivity. Qed.

Lemma trace_zero c vs r d n k e E f : simplex c -> points (nvert c) d vs -> make_reference c vs = Ok r -> (1 <= n)%nat ->
  entity_is r k e E -> degree_space d n f ->
  (forall p k' e' E', In (p, (k', e')) (closed_dofs r (simplex_tuples n) (lagrange_point r n)) -> entity_is r k' e' E' -> incl E' E ->
     f (env_of p) = 0) ->
  forall w, f (fun j => param vs E w j) = 0.
Proof.
  intros Hc Hp Hr Hn HE Hf Z.
  assert (LE : length E = S k).
  { apply (lam_ok c vs r d n k e E (repeat 0%nat k) Hc Hp Hr Hn HE); [apply repeat_length|].
    rewrite <- mdeg_sum, mdeg_zeros. lia. }
  destruct E as [|e0 rest]; [discriminate LE|].
  assert (D : degree_space k n (fun w => f (fun j => param vs (e0 :: rest) w j))).
  { apply (degree_subst d n k f (fun j w => param vs (e0 :: rest) w j) Hf). intros j _. apply param_degree. simpl in LE. lia. }
  apply (simplex_lattice_zero (frac n) k n); [apply frac_distinct; exact Hn|exact D|].
  intros m Lm Dm. rewrite mdeg_sum in Dm.
  destruct (lam_ok c vs r d n k e _ m Hc Hp Hr Hn HE Lm Dm) as (_ & L1 & S1 & I1 & C1).
  destruct (key c vs r d n (lam (nvert c) n (e0 :: rest) m) Hc Hp Hr Hn L1 S1) as (k' & e' & HE' & IN).
  specialize (Z _ _ _ _ IN HE' I1). rewrite <- Z. apply (degree_local d n f _ _ Hf).
  intros j Hj. unfold env_of. rewrite (C1 j Hj). reflexivity.
Qed.

(** * The cell itself *)
Definition whole (c : cell_type) : list nat := seq 0 (nvert c).
Lemma param_onto c vs : simplex c -> points (nvert c) (tdim c) vs -> map_det c vs <> 0 ->
  exists B : (nat -> R) -> nat -> R,
    (forall v j, (j < tdim c)%nat -> param vs (whole c) (B v) j = v j) /\
    (forall w k, (k < tdim c)%nat -> B (param vs (whole c) w) k = w k).
Proof.
  intros Hc _ D. destruct Hc as [->|[->| ->]]; cbn [map_det] in D; unfold whole; cbn [nvert tdim reference_vertices length seq].
  - exists (fun v _ => (v 0%nat - co vs 0 0) / (co vs 1 0 - co vs 0 0)). split; intros v j Hj; destruct j; try lia;
      cbn [param psum]; field; lra.
  - unfold edge_det2 in D. cbv beta zeta in D.
    destruct (inv2_spec _ _ _ _ D) as (p & q & u & v & _ & I1 & I2 & I3 & I4).
    exists (fun x k => match k with
      | 0%nat => p * (x 0%nat - co vs 0 0) + q * (x 1%nat - co vs 0 1)
      | _ => u * (x 0%nat - co vs 0 0) + v * (x 1%nat - co vs 0 1) end).
    split; intros x j Hj; destruct j as [|[|j]]; try lia; cbn [param psum].
    + specialize (I3 (x 0%nat - co vs 0 0) (x 1%nat - co vs 0 1)). lra.
    + specialize (I4 (x 0%nat - co vs 0 0) (x 1%nat - co vs 0 1)). lra.
    + etransitivity; [|exact (I1 (x 0%nat) (x 1%nat))]; ring.
    + etransitivity; [|exact (I2 (x 0%nat) (x 1%nat))]; ring.
  - unfold edge_det3 in D. cbv beta zeta in D.
    destruct (inv3_spec _ _ _ _ _ _ _ _ _ D) as (p1 & p2 & p3 & q1 & q2 & q3 & r1 & r2 & r3 & _ & I1 & I2 & I3 & I4 & I5 & I6).
    exists (fun x k => match k with
      | 0%nat => p1 * (x 0%nat - co vs 0 0) + p2 * (x 1%nat - co vs 0 1) + p3 * (x 2%nat - co vs 0 2)
      | 1%nat => q1 * (x 0%nat - co vs 0 0) + q2 * (x 1%nat - co vs 0 1) + q3 * (x 2%nat - co vs 0 2)
      | _ => r1 * (x 0%nat - co vs 0 0) + r2 * (x 1%nat - co vs 0 1) + r3 * (x 2%nat - co vs 0 2) end).
    split; intros x j Hj; destruct j as [|[|[|j]]]; try lia; cbn [param psum].
    + specialize (I4 (x 0%nat - co vs 0 0) (x 1%nat - co vs 0 1) (x 2%nat - co vs 0 2)). lra.
    + specialize (I5 (x 0%nat - co vs 0 0) (x 1%nat - co vs 0 1) (x 2%nat - co vs 0 2)). lra.
    + specialize (I6 (x 0%nat - co vs 0 0) (x 1%nat - co vs 0 1) (x 2%nat - co vs 0 2)). lra.
    + etransitivity; [|exact (I1 (x 0%nat) (x 1%nat) (x 2%nat))]; ring.
    + etransitivity; [|exact (I2 (x 0%nat) (x 1%nat) (x 2%nat))]; ring.
    + etransitivity; [|exact (I3 (x 0%nat) (x 1%nat) (x 2%nat))]; ring.
Qed.
