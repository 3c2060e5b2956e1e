(** Transition elements: the element of the model in closed form. *)
From Coq Require Import String Arith Bool Reals Lra Lia List FunctionalExtensionality ListDec.
From Verif Require Import Base PolyLib PolySetsModel PolySetsProofs QuadratureModel ReferencesModel ReferencesSpec ReferencesProofs ReferencesGeometry
  LinAlg CiarletModel CiarletProofs ElementModel LagrangeModel UnisolvenceProofs LagrangeProofs LagrangeKey LagrangeUnisolvence PropertiesLagrange
  PointsSpec PointsProofs TransitionModel TransitionSpec TransitionProofs.
Import ListNotations.
Open Scope R_scope.

Lemma transition_simplex c : transition_cell c -> simplex c.
Proof. intros [->| ->]; unfold simplex; auto. Qed.

Ltac each_in H := repeat (destruct H as [H|H]; [subst|]); try destruct H.
Lemma good_cell c order eo fo : transition_cell c -> good_blocks (tdim c) (reference_vertices c) (blocks c order eo fo).
Proof.
  intros Hc. split; [|split].
  { destruct Hc as [->| ->]; unfold blocks; repeat (apply Forall_cons || apply Forall_nil); unfold good_block; cbn [b_dim b_vertices tdim];
      (split; [lia|]); (split; [reflexivity|]); (split; [intros i Hi; cbn in Hi; lia|]); (split; [|split; [|split]]).
    all: unfold param, psum, co, env_of, bubble.
    all: intros.
    all: try (match goal with i : nat |- _ => destruct i as [|[|[|[|i]]]]; try (exfalso; lia) end).
    all: cbn [bary sum nth fold_right reference_vertices].
    all: try ring.
    all: exfalso; match goal with H : ~ In _ _ |- _ => apply H; cbn; auto 6 end. }
  { destruct Hc as [->| ->]; cbn [blocks map b_vertices];
      repeat (apply NoDup_cons; [cbn; intros H; repeat (destruct H as [H|H]; [discriminate H|]); exact H|]); apply NoDup_nil. }
  { intros b b' Hb Hb'.
    destruct Hc as [->| ->]; cbn [blocks In] in Hb, Hb'; each_in Hb; each_in Hb'; cbn [b_vertices length]; intros I;
      try (left; reflexivity); try (right; lia); exfalso;
      match type of I with incl ?l _ =>
        match l with context [?x :: _] => first [
          let K := fresh in pose proof (I x) as K; cbn in K; lia ] end end. }
Qed.

(** * The space *)
Lemma transition_decomposed d bs f : transition_space d bs f <-> exists a q, decomposed d bs f a q.
Proof. reflexivity. Qed.
Lemma inner_subspace k n u q p : inner_space k n q -> inner_space k n p -> inner_space k n (fun v => u * q v + p v).
Proof.
  unfold inner_space. destruct (k <? n)%nat; intros Hq Hp; [apply poly_space_add; [apply poly_space_scale|]; assumption|].
  intros v. rewrite Hq, Hp. ring.
Qed.
Lemma sumR_lin {A} u (f g : A -> R) l : sumR (map (fun a => u * f a + g a) l) = u * sumR (map f l) + sumR (map g l).
Proof. unfold sumR. induction l as [|a l IH]; simpl; [ring|]. rewrite IH. ring. Qed.
Lemma sumR_ext {A} (f g : A -> R) l : (forall a, In a l -> f a = g a) -> sumR (map f l) = sumR (map g l).
Proof. intros H. unfold sumR. f_equal. apply map_ext_in. exact H. Qed.
Lemma transition_subspace d bs : subspace (transition_space d bs).
Proof.
  split; [|split].
  - exists (fun _ => 0), (fun _ _ => 0). split; [apply poly_space_zero|]. split.
    + intros b _. unfold inner_space. destruct (b_dim b <? b_order b)%nat; [apply poly_space_zero|reflexivity].
    + intros v. rewrite sumR_zero; [ring|]. intros; ring.
  - intros u f g (a & q & Ha & Hq & Ef) (a' & q' & Ha' & Hq' & Eg).
    exists (fun v => u * a v + a' v), (fun E v => u * q E v + q' E v). split; [apply poly_space_add; [apply poly_space_scale|]; assumption|]. split.
    + intros b Hb. apply inner_subspace; auto.
    + intros v. rewrite Ef, Eg.
      rewrite (sumR_ext (fun b => bubble d (b_vertices b) v * (u * q (b_vertices b) (coords d (b_vertices b) v) + q' (b_vertices b) (coords d (b_vertices b) v)))
        (fun b => u * (bubble d (b_vertices b) v * q (b_vertices b) (coords d (b_vertices b) v)) + bubble d (b_vertices b) v * q' (b_vertices b) (coords d (b_vertices b) v)))
        by (intros; ring).
      rewrite sumR_lin. ring.
  - intros f g E (a & q & Ha & Hq & Ef). exists a, q. split; [exact Ha|]. split; [exact Hq|]. intros v. rewrite <- E. apply Ef.
Qed.

(** All parts of a function with vanishing degrees of freedom are zero. *)
Lemma parts_zero c order eo fo f a q : transition_cell c -> decomposed (tdim c) (blocks c order eo fo) f a q ->
  (forall i, (i <= tdim c)%nat -> f (env_of (nth i (reference_vertices c) [])) = 0) ->
  (forall b ii, In b (blocks c order eo fo) -> In ii (simplex_tuples (b_order b) (b_dim b)) -> f (inner_point (reference_vertices c) b ii) = 0) ->
  (forall v, a v = 0) /\ (forall b v, In b (blocks c order eo fo) -> q (b_vertices b) v = 0) /\ (forall v, f v = 0).
Proof.
  intros Hc HD V Z. pose proof (transition_simplex c Hc) as Hs. pose proof (good_cell c order eo fo Hc) as HG.
  set (bs := blocks c order eo fo) in *.
  assert (Q : forall b v, In b bs -> q (b_vertices b) v = 0).
  { intros b v Hb. pose proof HG as (G & _). rewrite Forall_forall in G. pose proof (G b Hb) as (_ & _ & K & _).
    destruct (block_zero c bs f a q Hs HG HD _ b (le_n _) Hb) as [Q _]; [intros i Hi; apply V, K, Hi|intros; apply Z; assumption|apply Q]. }
  assert (A : forall v, a v = 0).
  { intros v. destruct HD as (Ha & Hq & Ef). rewrite (proj2 (lambda_closed c Hs) a Ha). apply sum_zero. intros i Hi.
    specialize (V i ltac:(lia)). rewrite Ef, sumR_zero in V; [rewrite Rplus_0_r in V; rewrite V; ring|]. intros b Hb. rewrite Q by exact Hb. ring. }
  split; [exact A|]. split; [exact Q|]. intros v. destruct HD as (_ & _ & Ef). rewrite Ef, A, sumR_zero; [ring|].
  intros b Hb. rewrite Q by exact Hb. ring.
Qed.

(** * The functions and the degrees of freedom of a sub-entity *)
Definition inner_functions (k n : nat) : list (fn point) :=
  if (k <? n)%nat then match lagrange_basis_functions (default (cell_dim k)) (n - k - 1) "equispaced" with Ok phi => phi | Err _ => [] end else [].
Definition block_functions (d : nat) (b : block) : list (fn point) :=
  map (fun f v => f (coords d (b_vertices b) v) * bubble d (b_vertices b) v) (inner_functions (b_dim b) (b_order b)).
Definition block_dofs (r : reference) (b : block) : list point_dof :=
  map (fun ii => (place (r_origin (ent_of r (b_dim b) (b_number b))) (r_axes (ent_of r (b_dim b) (b_number b))) (map (frac (b_order b)) ii), (b_dim b, b_number b)))
    (simplex_tuples (b_order b) (b_dim b)).

Lemma inner_functions_ok k n : (1 <= k <= 3)%nat ->
  length (inner_functions k n) = length (simplex_tuples n k) /\ (forall f, In f (inner_functions k n) -> inner_space k n f) /\
  (forall c, (forall v, combination c (inner_functions k n) v = 0) -> forall i, (i < length (inner_functions k n))%nat -> c i = 0).
Proof.
  intros Hk. unfold inner_functions, inner_space. destruct (Nat.ltb_spec k n) as [L|L].
  - destruct (lagrange_default k (n - k - 1) Hk) as (phi & -> & Lp & Sp & I). replace (n - k - 1 + k + 1)%nat with n in Lp by lia.
    split; [exact Lp|]. split; assumption.
  - split; [|split; [intros f []|intros c _ i Hi; simpl in Hi; lia]].
    assert (N : simplex_tuples n k = []); [|rewrite N; reflexivity].
    destruct (simplex_tuples n k) as [|ii l] eqn:E; [reflexivity|]. exfalso.
    assert (Hin : In ii (simplex_tuples n k)) by (rewrite E; left; reflexivity). apply in_simplex_tuples in Hin. destruct Hin as (Li & F & S1).
    assert (Q : (length ii <= list_sum ii)%nat).
    { clear - F. induction F as [|x l Hx _ IH]; simpl; [lia|]. unfold list_sum in *. lia. }
    lia.
Qed.

Definition cell_lambda (c : cell_type) : list (fn point) := map (bary (tdim c)) (range (tdim c + 1)).

Lemma req_00 : req 0 0 = true. Proof. unfold req. destruct (Req_EM_T 0 0); [reflexivity|lra]. Qed.
Lemma req_11 : req 1 1 = true. Proof. unfold req. destruct (Req_EM_T 1 1); [reflexivity|lra]. Qed.
Lemma req_01 : req 0 1 = false. Proof. unfold req. destruct (Req_EM_T 0 1); [lra|reflexivity]. Qed.
Lemma req_10 : req 1 0 = false. Proof. unfold req. destruct (Req_EM_T 1 0); [lra|reflexivity]. Qed.

Lemma block_order_closed c order eo fo b : transition_cell c -> proper_orders c eo fo -> In b (blocks c order eo fo) ->
  transition_order (default c) order (Some eo) (face_argument c fo) (b_dim b) (b_number b) = Ok (b_order b).
Proof.
  intros Hc [L1 L2] Hb. destruct Hc as [->| ->]; [clear L2|specialize (L2 eq_refl)]; simpl in L1;
    cbn [blocks In] in Hb; each_in Hb; cbn [b_dim b_number b_order]; unfold transition_order;
    cbn [default make_reference reference_vertices r_type tdim Nat.eqb face_argument];
    first [reflexivity|apply get_nth; lia].
Qed.
Lemma block_entity_closed c order eo fo b : transition_cell c -> In b (blocks c order eo fo) ->
  sub_entity (default c) (b_dim b) (b_number b) false = Ok (ent_of (default c) (b_dim b) (b_number b)) /\
  r_type (ent_of (default c) (b_dim b) (b_number b)) = cell_dim (b_dim b) /\
  length (r_axes (ent_of (default c) (b_dim b) (b_number b))) = b_dim b.
Proof.
  intros Hc Hb. destruct Hc as [->| ->]; cbn [blocks In] in Hb; each_in Hb; repeat split.
Qed.
Lemma block_bubble_closed c order eo fo b : transition_cell c -> In b (blocks c order eo fo) ->
  exists bub, transition_bubble (default c) (cell_lambda c) (b_dim b) (b_number b) = Ok bub /\ forall v, bub v = bubble (tdim c) (b_vertices b) v.
Proof.
  intros Hc Hb. destruct Hc as [->| ->]; cbn [blocks In] in Hb; each_in Hb; cbn [b_dim b_number b_vertices];
    (eexists; split; [reflexivity|]); intros v; unfold fprod, bubble, cell_lambda;
    cbn [map range seq enumerate combine length filter fst snd negb Nat.eqb existsb fold_left fold_right tdim Nat.add orb]; cbn; ring.
Qed.
Lemma block_variables_closed c order eo fo b : transition_cell c -> In b (blocks c order eo fo) ->
  exists o vars, get (r_vertices (ent_of (default c) (b_dim b) (b_number b))) 0 = Ok o /\
    transition_variables (tl (r_vertices (ent_of (default c) (b_dim b) (b_number b)))) o [] = Ok vars /\
    forall j v, (j < b_dim b)%nat -> exists g, nth_error vars j = Some g /\ g v = bary (tdim c) (nth (S j) (b_vertices b) 0%nat) v.
Proof.
  intros Hc Hb. destruct Hc as [->| ->]; cbn [blocks In] in Hb; each_in Hb; cbn [b_dim b_number b_vertices].
  all: eexists; eexists; (split; [reflexivity|]); split.
  all: try (cbn -[req IZR]; rewrite ?req_00, ?req_01, ?req_10, ?req_11; cbn -[req IZR]; rewrite ?req_00, ?req_01, ?req_10, ?req_11; cbn -[req IZR];
    rewrite ?req_00, ?req_01, ?req_10, ?req_11; cbn -[req IZR]; rewrite ?req_00, ?req_01, ?req_10, ?req_11; cbn -[req IZR]; rewrite ?req_00, ?req_01, ?req_10, ?req_11; cbn -[req IZR];
    rewrite ?req_00, ?req_01, ?req_10, ?req_11; cbn -[req IZR]; reflexivity).
  all: intros j v Hj; destruct j as [|[|[|j]]]; try lia; (eexists; split; [reflexivity|]); cbn; ring.
Qed.

Lemma inner_dofs_closed (ent : reference) (k e n : nat) : (1 <= n)%nat -> length (r_axes ent) = k ->
  map_r (fun ii => rmap (fun p => (p, (k, e))) (rbind (map_r (get (fst (equispaced (n + 1)))) ii) (get_point ent))) (simplex_tuples n k) =
  Ok (map (fun ii => (place (r_origin ent) (r_axes ent) (map (frac n) ii), (k, e))) (simplex_tuples n k)).
Proof.
  intros Hn La. apply map_r_ok. intros ii Hi. apply in_simplex_tuples in Hi. destruct Hi as (L & F & _).
  rewrite (map_r_ok _ (frac n)).
  - cbn [rbind]. rewrite get_point_place; [reflexivity|]. rewrite map_length. congruence.
  - intros x Hx. rewrite Forall_forall in F. specialize (F x Hx). apply equispaced_get; lia.
Qed.

Lemma entity_closed c order eo fo b : transition_cell c -> proper_orders c eo fo -> In b (blocks c order eo fo) -> (1 <= b_order b)%nat ->
  transition_entity (default c) order (Some eo) (face_argument c fo) "equispaced" (cell_lambda c) (b_dim b) (b_number b) =
  Ok (block_functions (tdim c) b, block_dofs (default c) b).
Proof.
  intros Hc Ho Hb Hn. unfold transition_entity.
  destruct (block_entity_closed c order eo fo b Hc Hb) as (E1 & E2 & E3).
  assert (T : r_type (default c) = c) by (destruct Hc as [->| ->]; reflexivity).
  rewrite T, E1. cbn [rbind]. rewrite (block_order_closed c order eo fo b Hc Ho Hb). cbn [rbind].
  change (get_quadrature "equispaced" (b_order b + 1)) with (@Ok rule (equispaced (b_order b + 1))). cbn [rbind].
  rewrite (inner_dofs_closed _ _ _ _ Hn E3). cbn [rbind]. unfold block_functions, inner_functions.
  destruct (Nat.ltb_spec (b_dim b) (b_order b)) as [L|L]; [|reflexivity].
  destruct (block_bubble_closed c order eo fo b Hc Hb) as (bub & -> & Bub). cbn [rbind]. rewrite E2.
  assert (Hk : (1 <= b_dim b <= 3)%nat).
  { destruct (good_cell c order eo fo Hc) as (G & _). rewrite Forall_forall in G. exact (proj1 (G b Hb)). }
  destruct (lagrange_default (b_dim b) (b_order b - b_dim b - 1) Hk) as (phi & -> & _ & Sp & _). cbn [rbind].
  destruct (block_variables_closed c order eo fo b Hc Hb) as (o & vars & G1 & G2 & HV). rewrite G1. cbn [rbind]. rewrite G2. cbn [rbind].
  refine (f_equal (fun l : list (fn point) => @Ok (list (fn point) * list point_dof) (l, block_dofs (default c) b)) _).
  apply map_ext_in. intros f Hf. apply functional_extensionality. intros v. rewrite Bub. f_equal.
  unfold substitute. apply (degree_local _ _ f _ _ (Sp f Hf)). intros j Hj. destruct (HV j v Hj) as (g & -> & ->). reflexivity.
Qed.

Lemma default_self c : transition_cell c -> ref_eqb (default c) (default c) = true.
Proof.
  intros Hc. unfold ref_eqb, same_class.
  destruct Hc as [->| ->]; cbn [default make_reference reference_vertices r_type r_vertices];
    (match goal with |- context [pts_eq_dec ?a ?a] => destruct (pts_eq_dec a a) as [_|N]; [|exfalso; apply N; reflexivity] end);
    (match goal with |- context [cell_type_eq_dec ?a ?a] => destruct (cell_type_eq_dec a a) as [_|N]; [|exfalso; apply N; reflexivity] end); reflexivity.
Qed.

Lemma transition_closed c order eo fo : transition_cell c -> proper_orders c eo fo ->
  (forall b, In b (blocks c order eo fo) -> (1 <= b_order b)%nat) ->
  exists linear, polynomial_set_1d (tdim c) 1 = Ok linear /\
  make_transition (default c) order (Some eo) (face_argument c fo) "equispaced" =
  Ok (map meval linear ++ flat_map (block_functions (tdim c)) (blocks c order eo fo),
      vertex_dofs (default c) ++ flat_map (block_dofs (default c)) (blocks c order eo fo)).
Proof.
  intros Hc Ho Hn.
  pose proof (entity_closed c order eo fo) as EC.
  assert (EC' : forall b, In b (blocks c order eo fo) -> transition_entity (default c) order (Some eo) (face_argument c fo) "equispaced" (cell_lambda c) (b_dim b) (b_number b) =
    Ok (block_functions (tdim c) b, block_dofs (default c) b)) by (intros b Hb; apply EC; auto). clear EC.
  assert (As : transition_assertions (default c) (Some eo) (face_argument c fo) = true).
  { destruct Ho as [L1 L2]. unfold transition_assertions. destruct Hc as [->| ->]; cbn; simpl in L1; rewrite L1; [reflexivity|rewrite L2 by reflexivity; reflexivity]. }
  assert (T : r_type (default c) = c) by (destruct Hc as [->| ->]; reflexivity).
  destruct (polynomial_set_1d_ok (tdim c) 1 ltac:(destruct Hc as [->| ->]; simpl; lia)) as (linear & Hq & _).
  exists linear. split; [exact Hq|].
  unfold make_transition. rewrite As, T, (proj1 (lambda_closed c (transition_simplex c Hc))). cbn [rbind]. rewrite Hq. cbn [rbind].
  fold (cell_lambda c).
  assert (P : exists p1 p2 p3, (forall k, transition_entities (default c) order (Some eo) (face_argument c fo) "equispaced" (cell_lambda c) k =
     match k with 1 => Ok p1 | 2 => Ok p2 | 3 => Ok p3 | _ => transition_entities (default c) order (Some eo) (face_argument c fo) "equispaced" (cell_lambda c) k end)%nat /\
     p1 ++ p2 ++ p3 = map (fun b => (block_functions (tdim c) b, block_dofs (default c) b)) (blocks c order eo fo)).
  { assert (X : forall k l, sub_entity_count (default c) k = Ok (length l) -> incl l (blocks c order eo fo) ->
        map (fun b => (b_dim b, b_number b)) l = map (fun e => (k, e)) (range (length l)) ->
        transition_entities (default c) order (Some eo) (face_argument c fo) "equispaced" (cell_lambda c) k = Ok (map (fun b => (block_functions (tdim c) b, block_dofs (default c) b)) l)).
    { intros k l Hc0 I M. unfold transition_entities. rewrite Hc0. cbn [rbind].
      assert (Y : forall s l', incl l' (blocks c order eo fo) -> map (fun b => (b_dim b, b_number b)) l' = map (fun e => (k, e)) (seq s (length l')) ->
        map_r (transition_entity (default c) order (Some eo) (face_argument c fo) "equispaced" (cell_lambda c) k) (seq s (length l')) =
        Ok (map (fun b => (block_functions (tdim c) b, block_dofs (default c) b)) l')).
      { intros s l'. revert s. induction l' as [|b l' IH]; intros s I' M'; [reflexivity|]. cbn [length seq map map_r] in *. injection M' as K1 K2 M'.
        pose proof (EC' b (I' b (or_introl eq_refl))) as Eb. rewrite K1, K2 in Eb. rewrite Eb. cbn [rbind].
        rewrite IH; [reflexivity|intros y Hy; apply I'; right; exact Hy|exact M']. }
      apply Y; assumption. }
    destruct Hc as [->| ->].
    - exists (map (fun b => (block_functions 2 b, block_dofs (default CTriangle) b)) (firstn 3 (blocks CTriangle order eo fo))),
        (map (fun b => (block_functions 2 b, block_dofs (default CTriangle) b)) (skipn 3 (blocks CTriangle order eo fo))), [].
      split; [|reflexivity]. intros [|[|[|[|k]]]]; try reflexivity.
      + apply X; [reflexivity| |reflexivity]. intros y Hy. cbn in Hy |- *. tauto.
      + apply X; [reflexivity| |reflexivity]. intros y Hy. cbn in Hy |- *. tauto.
    - exists (map (fun b => (block_functions 3 b, block_dofs (default CTetrahedron) b)) (firstn 6 (blocks CTetrahedron order eo fo))),
        (map (fun b => (block_functions 3 b, block_dofs (default CTetrahedron) b)) (firstn 4 (skipn 6 (blocks CTetrahedron order eo fo)))),
        (map (fun b => (block_functions 3 b, block_dofs (default CTetrahedron) b)) (skipn 10 (blocks CTetrahedron order eo fo))).
      split; [|reflexivity]. intros [|[|[|[|k]]]]; try reflexivity.
      + apply X; [reflexivity| |reflexivity]. intros y Hy. cbn in Hy |- *. tauto.
      + apply X; [reflexivity| |reflexivity]. intros y Hy. cbn in Hy |- *. tauto.
      + apply X; [reflexivity| |reflexivity]. intros y Hy. cbn in Hy |- *. tauto. }
  destruct P as (p1 & p2 & p3 & Hp & Ep). rewrite (Hp 1%nat), (Hp 2%nat), (Hp 3%nat). cbn [rbind]. rewrite Ep.
  unfold map_fns_from_default. rewrite T, (default_self c Hc). cbn [rmap]. rewrite !flat_map_concat_map, !map_map. reflexivity.
Qed.
