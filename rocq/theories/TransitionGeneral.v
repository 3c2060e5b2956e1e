(** Transition elements on any triangle and tetrahedron. *)
From Coq Require Import String Arith Bool Reals Lra Lia List FunctionalExtensionality.
From Verif Require Import Base PolyLib PolySetsModel PolySetsProofs QuadratureModel ReferencesModel ReferencesSpec ReferencesProofs ReferencesGeometry
  LinAlg CiarletModel CiarletProofs ElementModel LagrangeModel UnisolvenceProofs LagrangeProofs LagrangeKey LagrangeUnisolvence PropertiesLagrange
  PointsSpec PointsProofs TransitionModel TransitionSpec TransitionProofs TransitionElement TransitionDual.
Import ListNotations.
Open Scope R_scope.

Lemma entity_block c order eo fo k e E : transition_cell c -> entity_is (default c) k e E ->
  (k = 0%nat /\ E = [e] /\ (e <= tdim c)%nat) \/ exists b, In b (blocks c order eo fo) /\ b_dim b = k /\ b_number b = e /\ b_vertices b = E.
Proof.
  intros Hc (tab & Ht & He).
  destruct Hc as [->| ->]; (destruct k as [|[|[|[|k]]]]; cbn in Ht; try discriminate Ht); injection Ht as <-;
    destruct e as [|[|[|[|[|[|e]]]]]]; cbn in He; try discriminate He; try (destruct e; discriminate He); injection He as <-;
    first [left; split; [reflexivity|split; [reflexivity|cbn; lia]]
      |right; match goal with |- exists b, _ /\ b_dim b = ?k /\ b_number b = ?e /\ b_vertices b = ?E =>
        match goal with |- context [blocks ?c ?o ?x ?y] =>
          let l := eval cbn [blocks] in (blocks c o x y) in
          match l with context [{| b_dim := k; b_number := e; b_vertices := E; b_order := ?o' |}] =>
            exists {| b_dim := k; b_number := e; b_vertices := E; b_order := o' |} end end end; (split; [cbn [blocks In]; tauto|repeat split])].
Qed.
Lemma block_is c order eo fo b : transition_cell c -> In b (blocks c order eo fo) -> entity_is (default c) (b_dim b) (b_number b) (b_vertices b).
Proof. intros Hc Hb. destruct Hc as [->| ->]; cbn [blocks In] in Hb; each_in Hb; eexists; split; reflexivity. Qed.
Lemma vertex_is c i : transition_cell c -> (i <= tdim c)%nat -> entity_is (default c) 0 i [i].
Proof. intros Hc Hi. destruct Hc as [->| ->]; cbn in Hi; destruct i as [|[|[|[|i]]]]; try (eexists; split; reflexivity); lia. Qed.
Lemma space_local c order eo fo f v w : transition_cell c -> transition_space (tdim c) (blocks c order eo fo) f ->
  (forall j, (j < tdim c)%nat -> v j = w j) -> f v = f w.
Proof.
  intros Hc Hf E.
  pose proof (space_in_polynomials c order eo fo (1 + list_sum (map b_order (blocks c order eo fo))) f Hc ltac:(lia)) as P.
  refine (degree_local _ _ f v w (P _ Hf) E). intros b Hb. clear - Hb. induction (blocks c order eo fo) as [|x l IH]; [destruct Hb|].
  cbn [map]. unfold list_sum in *. cbn [fold_right] in *. destruct Hb as [->|Hb]; [lia|]. specialize (IH Hb). lia.
Qed.

Lemma on_entity_param vs E s j : (1 <= length E <= 4)%nat -> on_entity vs E s j = param vs E s j.
Proof.
  intros L. destruct E as [|a [|b [|c [|d [|x E]]]]]; simpl in L; try lia; unfold on_entity, param, psum, co; cbn [length nth sum Nat.sub]; ring.
Qed.
Lemma param_degree vs E j k : length E = S k -> degree_space k 1 (fun w => param vs E w j).
Proof.
  intros L. destruct E as [|e0 rest]; [discriminate L|]. injection L as L. unfold param.
  apply poly_space_add; [apply (degree_weaken _ 0); [lia|apply degree_const]|apply psum_degree; lia].
Qed.


(** * The map *)
Definition cell_at (c : cell_type) (vs : list pt) (r : reference) : Prop :=
  transition_cell c /\ points (nvert c) (tdim c) vs /\ make_reference c vs = Ok r.
Definition the_map (c : cell_type) (vs : list pt) : point -> point := on_entity vs (seq 0 (S (tdim c))).
Definition inverse_sub (c : cell_type) (vs : list pt) (sub : point -> point) : Prop :=
  (forall v j, (j < tdim c)%nat -> v j = the_map c vs (sub v) j) /\
  (forall X v, (forall j, (j < tdim c)%nat -> v j = the_map c vs X j) -> forall k, (k < tdim c)%nat -> sub v k = X k) /\
  (forall k, (k < tdim c)%nat -> degree_space (tdim c) 1 (fun v => sub v k)).

Ltac open_cell H :=
  let Hc := fresh "Hc" in let Hp := fresh "Hp" in let Hr := fresh "Hr" in
  destruct H as (Hc & Hp & Hr); destruct Hc as [->| ->]; unfold nvert, tdim in Hp; cbn [reference_vertices length] in Hp;
  split_points Hp; injection Hr as <-.

Lemma cell_type_at c vs r : cell_at c vs r -> r_type r = c /\ r_vertices r = vs.
Proof. intros H. open_cell H; split; reflexivity. Qed.

Lemma affine_degree d c0 c1 c2 c3 : (2 <= d <= 3)%nat -> (d = 2%nat -> c3 = 0) ->
  degree_space d 1 (fun v => c0 + c1 * v 0%nat + c2 * v 1%nat + c3 * v 2%nat).
Proof.
  intros Hd Z. repeat apply poly_space_add; try (apply poly_space_scale, degree_var; lia); try (apply (degree_weaken _ 0); [lia|apply degree_const]).
  destruct (Nat.eq_dec d 2) as [E|E]; [rewrite (Z E); apply (poly_space_ext _ (fun _ => 0)); [intros; ring|apply poly_space_zero]|].
  apply poly_space_scale, degree_var. lia.
Qed.

Lemma inverse_found c vs r : cell_at c vs r -> map_det c vs <> 0 ->
  exists i, get_inverse_map_to_self r = Ok i /\ (forall v, length (i v) = tdim c) /\ inverse_sub c vs (fun v k => nth k (i v) 0).
Proof.
  intros H D. open_cell H; unfold map_det, edge_det2, edge_det3, co in D; cbn [nth] in D.
  - unfold get_inverse_map_to_self, self_dim, planar_inverse, get, matrix2_inv, vsub. cbn -[inv2].
    match goal with |- context [inv2 (?a0, ?a1) (?b0, ?b1)] => destruct (inv2_spec a0 a1 b0 b1) as (p & q & u & v & -> & S1 & S2 & S3 & S4) end; [lra|].
    cbn [rbind rmap]. eexists. split; [reflexivity|]. split; [reflexivity|]. unfold inverse_sub, the_map, on_entity, apply_rows, vdot, vsub, xs.
    split; [|split].
    + intros e j Hj. cbn -[Rmult Rplus Rminus]. destruct j as [|[|j]]; [| |cbn in Hj; lia]; cbn -[Rmult Rplus Rminus].
      * match goal with |- e 0%nat = ?x + _ => pose proof (S3 (e 0%nat - x)) as K end.
        match goal with |- context [e 1%nat - ?y] => specialize (K (e 1%nat - y)) end. lra.
      * match goal with |- e 1%nat = ?y + _ => pose proof (fun x => S4 x (e 1%nat - y)) as K end.
        match goal with |- context [e 0%nat - ?x] => specialize (K (e 0%nat - x)) end. lra.
    + intros X e He k Hk. pose proof (He 0%nat ltac:(cbn; lia)) as E0. pose proof (He 1%nat ltac:(cbn; lia)) as E1. cbn -[Rmult Rplus Rminus] in E0, E1.
      pose proof (S1 (X 0%nat) (X 1%nat)) as K1. pose proof (S2 (X 0%nat) (X 1%nat)) as K2.
      destruct k as [|[|k]]; [| |cbn in Hk; lia]; cbn -[Rmult Rplus Rminus]; rewrite E0, E1; [refine (eq_trans _ K1)|refine (eq_trans _ K2)]; ring.
    + intros k Hk. destruct k as [|[|k]]; [| |cbn in Hk; lia]; cbn -[Rmult Rplus Rminus];
        (match goal with |- degree_space _ _ (fun e => 0 + ?a * (e 0%nat - ?x) + ?b * (e 1%nat - ?y)) =>
           apply (poly_space_ext _ (fun e => (- a * x - b * y) + a * e 0%nat + b * e 1%nat + 0 * e 2%nat)); [intros; ring|apply affine_degree; [lia|reflexivity]] end).
  - unfold get_inverse_map_to_self, affine_inverse, get, matrix3_inv, vsub. cbn -[inv3].
    match goal with |- context [inv3 (?a0, ?a1, ?a2) (?b0, ?b1, ?b2) (?c0, ?c1, ?c2)] =>
      destruct (inv3_spec a0 a1 a2 b0 b1 b2 c0 c1 c2) as (p1 & p2 & p3 & q1 & q2 & q3 & u1 & u2 & u3 & -> & S1 & S2 & S3 & S4 & S5 & S6) end; [lra|].
    cbn [rbind rmap]. eexists. split; [reflexivity|]. split; [reflexivity|]. unfold inverse_sub, the_map, on_entity, apply_rows, vdot, vsub, xs.
    split; [|split].
    + intros e j Hj. cbn -[Rmult Rplus Rminus].
      match goal with |- context [0 + p1 * (e 0%nat - ?x) + p2 * (e 1%nat - ?y) + p3 * (e 2%nat - ?z)] =>
        pose proof (S4 (e 0%nat - x) (e 1%nat - y) (e 2%nat - z)) as K1; pose proof (S5 (e 0%nat - x) (e 1%nat - y) (e 2%nat - z)) as K2;
        pose proof (S6 (e 0%nat - x) (e 1%nat - y) (e 2%nat - z)) as K3 end.
      destruct j as [|[|[|j]]]; [| | |cbn in Hj; lia]; cbn -[Rmult Rplus Rminus]; lra.
    + intros X e He k Hk. pose proof (He 0%nat ltac:(cbn; lia)) as E0. pose proof (He 1%nat ltac:(cbn; lia)) as E1. pose proof (He 2%nat ltac:(cbn; lia)) as E2.
      cbn -[Rmult Rplus Rminus] in E0, E1, E2.
      pose proof (S1 (X 0%nat) (X 1%nat) (X 2%nat)) as K1. pose proof (S2 (X 0%nat) (X 1%nat) (X 2%nat)) as K2. pose proof (S3 (X 0%nat) (X 1%nat) (X 2%nat)) as K3.
      destruct k as [|[|[|k]]]; [| | |cbn in Hk; lia]; cbn -[Rmult Rplus Rminus]; rewrite E0, E1, E2;
        [refine (eq_trans _ K1)|refine (eq_trans _ K2)|refine (eq_trans _ K3)]; ring.
    + intros k Hk. destruct k as [|[|[|k]]]; [| | |cbn in Hk; lia]; cbn -[Rmult Rplus Rminus];
        (match goal with |- degree_space _ _ (fun e => 0 + ?a * (e 0%nat - ?x) + ?b * (e 1%nat - ?y) + ?c * (e 2%nat - ?z)) =>
           apply (poly_space_ext _ (fun e => (- a * x - b * y - c * z) + a * e 0%nat + b * e 1%nat + c * e 2%nat)); [intros; ring|apply affine_degree; [lia|lia]] end).
Qed.

(** on the sub-entities *)
Lemma map_param c vs r order eo fo b s j : cell_at c vs r -> In b (blocks c order eo fo) -> (j < tdim c)%nat ->
  the_map c vs (param (reference_vertices c) (b_vertices b) s) j = param vs (b_vertices b) s j.
Proof.
  intros H Hb Hj. open_cell H; cbn [blocks In] in Hb; each_in Hb; unfold the_map, on_entity, param, psum, co; cbn [b_vertices tdim seq] in *;
    (destruct j as [|[|[|j]]]; try (cbn in Hj; lia)); cbn -[Rmult Rplus Rminus]; ring.
Qed.
Lemma map_vertex c vs r i j : cell_at c vs r -> (i <= tdim c)%nat -> (j < tdim c)%nat ->
  the_map c vs (env_of (nth i (reference_vertices c) [])) j = nth j (nth i vs []) 0.
Proof.
  intros H Hi Hj. open_cell H; unfold the_map, on_entity, env_of; cbn [tdim seq] in *;
    (destruct i as [|[|[|[|i]]]]; try (cbn in Hi; lia)); (destruct j as [|[|[|j]]]; try (cbn in Hj; lia)); cbn -[Rmult Rplus Rminus]; ring.
Qed.
Lemma block_point_at c vs r order eo fo b ii : cell_at c vs r -> In b (blocks c order eo fo) -> length ii = b_dim b ->
  forall j, env_of (place (r_origin (ent_of r (b_dim b) (b_number b))) (r_axes (ent_of r (b_dim b) (b_number b))) (map (frac (b_order b)) ii)) j
  = param vs (b_vertices b) (fun i => frac (b_order b) (nth i ii 0%nat)) j.
Proof.
  intros H Hb Li j. generalize (frac (b_order b)). intros fr. revert ii Li.
  open_cell H; cbn [blocks In] in Hb; each_in Hb; cbn [b_dim b_number b_vertices] in *; intros ii Li;
    repeat (destruct ii as [|? ii]; try discriminate Li); clear Li;
    unfold env_of, param, psum, co, place, vsub; cbn -[IZR INR Rmult Rplus Rminus];
    (destruct j as [|[|[|j]]]; cbn -[IZR INR Rmult Rplus Rminus]; try (destruct j); ring).
Qed.

(** * The element *)
Lemma entity_closed_at c vs r order eo fo b : cell_at c vs r -> proper_orders c eo fo -> In b (blocks c order eo fo) -> (1 <= b_order b)%nat ->
  transition_entity r order (Some eo) (face_argument c fo) "equispaced" (cell_lambda c) (b_dim b) (b_number b) =
  Ok (block_functions (tdim c) b, block_dofs r b).
Proof.
  intros H Ho Hb Hn. pose proof (entity_closed c order eo fo b (proj1 H) Ho Hb Hn) as E. destruct (cell_type_at c vs r H) as [T _].
  assert (T' : r_type (default c) = c) by (destruct H as ([->| ->] & _); reflexivity).
  assert (X : sub_entity r (b_dim b) (b_number b) false = Ok (ent_of r (b_dim b) (b_number b)) /\
    r_type (ent_of r (b_dim b) (b_number b)) = cell_dim (b_dim b) /\ length (r_axes (ent_of r (b_dim b) (b_number b))) = b_dim b).
  { clear - H Hb. open_cell H; cbn [blocks In] in Hb; each_in Hb; repeat split. }
  destruct X as (E1 & E2 & E3). destruct (block_entity_closed c order eo fo b (proj1 H) Hb) as (F1 & F2 & F3).
  pose proof (block_order_closed c order eo fo b (proj1 H) Ho Hb) as OO.
  unfold transition_entity in *. rewrite T' in E. rewrite T, E1. rewrite F1 in E |- *. cbn [rbind] in E |- *.
  assert (OO' : transition_order r order (Some eo) (face_argument c fo) (b_dim b) (b_number b) = Ok (b_order b)).
  { rewrite <- OO. unfold transition_order. rewrite T, T'. reflexivity. }
  rewrite OO in E. rewrite OO'. cbn [rbind] in E |- *.
  change (get_quadrature "equispaced" (b_order b + 1)) with (@Ok rule (equispaced (b_order b + 1))) in *. cbn [rbind] in E |- *.
  rewrite (inner_dofs_closed _ _ _ _ Hn F3) in E. rewrite (inner_dofs_closed _ _ _ _ Hn E3). cbn [rbind] in E |- *.
  assert (BB : transition_bubble r (cell_lambda c) (b_dim b) (b_number b) = transition_bubble (default c) (cell_lambda c) (b_dim b) (b_number b)).
  { unfold transition_bubble. rewrite T, T'. reflexivity. }
  rewrite BB, E2. rewrite F2 in E. revert E. destruct (b_dim b <? b_order b)%nat.
  - destruct (transition_bubble (default c) (cell_lambda c) (b_dim b) (b_number b)) as [bub|]; cbn [rbind]; [|discriminate].
    destruct (lagrange_basis_functions (default (cell_dim (b_dim b))) (b_order b - b_dim b - 1) "equispaced") as [sp|]; cbn [rbind]; [|discriminate].
    destruct (get (r_vertices (ent_of (default c) (b_dim b) (b_number b))) 0) as [o|]; cbn [rbind]; [|discriminate].
    destruct (transition_variables (tl (r_vertices (ent_of (default c) (b_dim b) (b_number b)))) o []) as [vars|]; cbn [rbind]; [|discriminate].
    intros E. injection E as E. rewrite E. reflexivity.
  - intros E. injection E as E. rewrite <- E. reflexivity.
Qed.

Lemma transition_closed_at c vs r order eo fo linear : cell_at c vs r -> map_det c vs <> 0 -> proper_orders c eo fo ->
  (forall b, In b (blocks c order eo fo) -> (1 <= b_order b)%nat) -> polynomial_set_1d (tdim c) 1 = Ok linear ->
  exists sub, inverse_sub c vs sub /\
  exists fs, make_transition r order (Some eo) (face_argument c fo) "equispaced" = Ok (fs, vertex_dofs r ++ flat_map (block_dofs r) (blocks c order eo fo)) /\
  length fs = length (map meval linear ++ flat_map (block_functions (tdim c)) (blocks c order eo fo)) /\
  forall i v, nth i fs (fun _ => 0) v = nth i (map meval linear ++ flat_map (block_functions (tdim c)) (blocks c order eo fo)) (fun _ => 0) (sub v).
Proof.
  intros H D Ho Hn Hq.
  assert (EC' : forall b, In b (blocks c order eo fo) -> transition_entity r order (Some eo) (face_argument c fo) "equispaced" (cell_lambda c) (b_dim b) (b_number b) =
    Ok (block_functions (tdim c) b, block_dofs r b)) by (intros b Hb; apply (entity_closed_at c vs); auto).
  destruct (cell_type_at c vs r H) as [T Tv].
  assert (As : transition_assertions r (Some eo) (face_argument c fo) = true).
  { destruct Ho as [L1 L2]. unfold transition_assertions. rewrite T. destruct H as ([->| ->] & _); cbn; simpl in L1; rewrite L1; [reflexivity|rewrite L2 by reflexivity; reflexivity]. }
  assert (Mk : make_transition r order (Some eo) (face_argument c fo) "equispaced" =
    rmap (fun poly => (poly, vertex_dofs r ++ flat_map (block_dofs r) (blocks c order eo fo)))
      (map_fns_from_default r (map meval linear ++ flat_map (block_functions (tdim c)) (blocks c order eo fo)))).
  { unfold make_transition. rewrite As, T, (proj1 (lambda_closed c (transition_simplex c (proj1 H)))). cbn [rbind]. rewrite Hq. cbn [rbind].
    fold (cell_lambda c).
    assert (P : exists p1 p2 p3, (forall k, transition_entities r order (Some eo) (face_argument c fo) "equispaced" (cell_lambda c) k =
       match k with 1 => Ok p1 | 2 => Ok p2 | 3 => Ok p3 | _ => transition_entities r order (Some eo) (face_argument c fo) "equispaced" (cell_lambda c) k end)%nat /\
       p1 ++ p2 ++ p3 = map (fun b => (block_functions (tdim c) b, block_dofs r b)) (blocks c order eo fo)).
    { assert (X : forall k l, sub_entity_count r k = Ok (length l) -> incl l (blocks c order eo fo) ->
          map (fun b => (b_dim b, b_number b)) l = map (fun e => (k, e)) (range (length l)) ->
          transition_entities r order (Some eo) (face_argument c fo) "equispaced" (cell_lambda c) k = Ok (map (fun b => (block_functions (tdim c) b, block_dofs r b)) l)).
      { intros k l Hc0 I M. unfold transition_entities. rewrite Hc0. cbn [rbind].
        assert (Y : forall s l', incl l' (blocks c order eo fo) -> map (fun b => (b_dim b, b_number b)) l' = map (fun e => (k, e)) (seq s (length l')) ->
          map_r (transition_entity r order (Some eo) (face_argument c fo) "equispaced" (cell_lambda c) k) (seq s (length l')) =
          Ok (map (fun b => (block_functions (tdim c) b, block_dofs r b)) l')).
        { intros s l'. revert s. induction l' as [|b l' IH]; intros s I' M'; [reflexivity|]. cbn [length seq map map_r] in *. injection M' as K1 K2 M'.
          pose proof (EC' b (I' b (or_introl eq_refl))) as Eb. rewrite K1, K2 in Eb. rewrite Eb. cbn [rbind].
          rewrite IH; [reflexivity|intros y Hy; apply I'; right; exact Hy|exact M']. }
        apply Y; assumption. }
      clear - X H T. assert (Sc : forall k, sub_entity_count r k = sub_entity_count (default c) k).
      { intros k. open_cell H; destruct k as [|[|[|[|k]]]]; reflexivity. }
      destruct H as ([->| ->] & _).
      - exists (map (fun b => (block_functions 2 b, block_dofs r b)) (firstn 3 (blocks CTriangle order eo fo))),
          (map (fun b => (block_functions 2 b, block_dofs r b)) (skipn 3 (blocks CTriangle order eo fo))), [].
        split; [|reflexivity]. intros [|[|[|[|k]]]]; try reflexivity.
        + apply X; [rewrite Sc; reflexivity| |reflexivity]. intros y Hy. cbn in Hy |- *. tauto.
        + apply X; [rewrite Sc; reflexivity| |reflexivity]. intros y Hy. cbn in Hy |- *. tauto.
        + unfold transition_entities. rewrite Sc. reflexivity.
      - exists (map (fun b => (block_functions 3 b, block_dofs r b)) (firstn 6 (blocks CTetrahedron order eo fo))),
          (map (fun b => (block_functions 3 b, block_dofs r b)) (firstn 4 (skipn 6 (blocks CTetrahedron order eo fo)))),
          (map (fun b => (block_functions 3 b, block_dofs r b)) (skipn 10 (blocks CTetrahedron order eo fo))).
        split; [|reflexivity]. intros [|[|[|[|k]]]]; try reflexivity.
        + apply X; [rewrite Sc; reflexivity| |reflexivity]. intros y Hy. cbn in Hy |- *. tauto.
        + apply X; [rewrite Sc; reflexivity| |reflexivity]. intros y Hy. cbn in Hy |- *. tauto.
        + apply X; [rewrite Sc; reflexivity| |reflexivity]. intros y Hy. cbn in Hy |- *. tauto. }
    destruct P as (p1 & p2 & p3 & Hp & Ep). rewrite (Hp 1%nat), (Hp 2%nat), (Hp 3%nat). cbn [rbind]. rewrite Ep.
    rewrite !flat_map_concat_map, !map_map. reflexivity. }
  rewrite Mk. pose proof (functions_in_space c order eo fo (proj1 H) linear Hq) as FS.
  set (fs0 := map meval linear ++ flat_map (block_functions (tdim c)) (blocks c order eo fo)) in *.
  destruct (inverse_found c vs r H D) as (i & Hi & Li & Si). exists (fun v k => nth k (i v) 0). split; [exact Si|].
  assert (FL : forall k v w, (forall j, (j < tdim c)%nat -> v j = w j) -> nth k fs0 (fun _ => 0) v = nth k fs0 (fun _ => 0) w).
  { intros k v w E. destruct (Nat.lt_ge_cases k (length fs0)) as [L|L]; [|rewrite !nth_overflow by exact L; reflexivity].
    rewrite Forall_forall in FS. apply (space_local c order eo fo); [exact (proj1 H)|apply FS, nth_In, L|exact E]. }
  unfold map_fns_from_default. rewrite T. destruct (ref_eqb r (default c)) eqn:RE.
  - exists fs0. split; [reflexivity|]. split; [reflexivity|]. intros k v. apply FL. intros j Hj. symmetry.
    apply (proj1 (proj2 Si) v v); [|exact Hj]. intros j' Hj'.
    assert (Ev : vs = reference_vertices c).
    { unfold ref_eqb in RE. apply andb_prop in RE. destruct RE as [_ RE]. rewrite Tv in RE.
      destruct (pts_eq_dec vs (r_vertices (default c))) as [E|]; [|discriminate]. rewrite E. destruct H as ([->| ->] & _); reflexivity. }
    clear - Ev Hj' H. subst vs. destruct H as ([->| ->] & _); unfold the_map, on_entity; cbn [tdim seq] in *; destruct j' as [|[|[|j']]]; try (cbn in Hj'; lia); cbn -[Rmult Rplus Rminus]; ring.
  - rewrite Hi. cbn [rbind rmap]. eexists. split; [reflexivity|]. split; [apply map_length|]. intros k v.
    destruct (Nat.lt_ge_cases k (length fs0)) as [L|L]; [|rewrite !nth_overflow by (rewrite ?map_length; exact L); reflexivity].
    rewrite (nth_indep _ _ ((fun p v0 => substitute (map (fun i0 v1 => nth i0 (i v1) 0) (range (length (i v0)))) p v0) (fun _ => 0))) by (rewrite map_length; exact L).
    rewrite (map_nth (fun p v0 => substitute (map (fun i0 v1 => nth i0 (i v1) 0) (range (length (i v0)))) p v0)). unfold substitute. apply FL. intros j Hj.
    rewrite Li. rewrite nth_error_map. unfold range. rewrite (nth_error_nth' _ 0%nat) by (rewrite seq_length; exact Hj). rewrite seq_nth by exact Hj. reflexivity.
Qed.

Definition dofs_at (c : cell_type) (r : reference) (bs : list block) : list point_dof := vertex_dofs r ++ flat_map (block_dofs r) bs.

Lemma entities_at c vs r k : cell_at c vs r -> sub_entities r k = sub_entities (default c) k.
Proof. intros H. open_cell H; destruct k as [|[|[|[|k]]]]; reflexivity. Qed.
Lemma length_at c vs r : cell_at c vs r -> length vs = S (tdim c).
Proof. intros H. open_cell H; reflexivity. Qed.
Lemma default_length c : transition_cell c -> length (r_vertices (default c)) = S (tdim c).
Proof. intros [->| ->]; reflexivity. Qed.

Section At.
Variables (c : cell_type) (vs : list pt) (r : reference) (order : nat) (eo fo : list nat).
Hypothesis H : cell_at c vs r.
Hypothesis D : map_det c vs <> 0.
Let bs := blocks c order eo fo.
Let d := tdim c.

Lemma space_on_subspace : subspace (transition_space_on c vs bs).
Proof.
  pose proof (transition_subspace d bs) as (T1 & T2 & T3). split; [|split].
  - exists (fun _ => 0). split; [exact T1|reflexivity].
  - intros u f g (f0 & F1 & F2) (g0 & G1 & G2). exists (fun v => u * f0 v + g0 v). split; [apply T2; assumption|]. intros X v E. rewrite (F2 X v E), (G2 X v E). reflexivity.
  - intros f g E (f0 & F1 & F2). exists f0. split; [exact F1|]. intros X v EX. rewrite <- E. apply F2, EX.
Qed.

(** zero at the points of a part of the cell *)
Lemma zero_at_points f g (part : list nat -> Prop) :
  (forall X v, (forall j, (j < d)%nat -> v j = the_map c vs X j) -> f v = g X) ->
  (forall p k e E, In (p, (k, e)) (dofs_at c r bs) -> entity_is r k e E -> part E -> f (env_of p) = 0) ->
  (forall i, (i <= d)%nat -> part [i] -> g (env_of (nth i (reference_vertices c) [])) = 0) /\
  (forall b ii, In b bs -> part (b_vertices b) -> In ii (simplex_tuples (b_order b) (b_dim b)) -> g (inner_point (reference_vertices c) b ii) = 0).
Proof.
  intros FG Z. destruct (cell_type_at c vs r H) as [T Tv].
  assert (Ei : forall k e E, entity_is (default c) k e E -> entity_is r k e E).
  { intros k e E (tab & A & B). exists tab. split; [|exact B]. rewrite <- A. apply (entities_at c vs), H. }
  pose proof (length_at c vs r H) as Lv. fold d in Lv.
  split.
  - intros i Hi Hp. rewrite <- (FG _ (env_of (nth i vs []))) by (intros j Hj; symmetry; apply (map_vertex c vs r); assumption).
    apply (Z _ 0%nat i [i]); [|apply Ei, vertex_is; [exact (proj1 H)|exact Hi]|exact Hp].
    unfold dofs_at. apply in_app_iff. left. apply in_vertex_dofs. split; [reflexivity|]. rewrite Tv. apply nth_error_nth'. lia.
  - intros b ii Hb Hp Hi. assert (Li : length ii = b_dim b) by (apply in_simplex_tuples in Hi; tauto).
    rewrite <- (FG _ (env_of (place (r_origin (ent_of r (b_dim b) (b_number b))) (r_axes (ent_of r (b_dim b) (b_number b))) (map (frac (b_order b)) ii)))).
    + apply (Z _ (b_dim b) (b_number b) (b_vertices b)); [|apply Ei, (block_is c order eo fo); [exact (proj1 H)|exact Hb]|exact Hp].
      unfold dofs_at. apply in_app_iff. right. apply in_flat_map. exists b. split; [exact Hb|]. unfold block_dofs. apply in_map_iff. exists ii. split; [reflexivity|exact Hi].
    + intros j Hj. rewrite (block_point_at c vs r order eo fo b ii H Hb Li). symmetry. apply (map_param c vs r order eo fo); assumption.
Qed.

Lemma unisolvent_at f : transition_space_on c vs bs f -> (forall p ke, In (p, ke) (dofs_at c r bs) -> f (env_of p) = 0) -> forall v, f v = 0.
Proof.
  intros (g & Tg & FG) Z v. destruct (inverse_found c vs r H D) as (i & _ & _ & S1 & _).
  rewrite (FG (fun k => nth k (i v) 0) v (S1 v)).
  destruct (zero_at_points f g (fun _ => True) FG (fun p k e E Hp _ _ => Z p (k, e) Hp)) as (V & I).
  apply (dofs_unisolvent c order eo fo (proj1 H) g Tg). apply all_dofs_zero; [exact (proj1 H)|]. split; [intros; apply V; auto|intros; apply I; auto].
Qed.

Hypothesis Ho : proper_orders c eo fo.
Hypothesis Hn : forall b, In b bs -> (1 <= b_order b)%nat.

Lemma transition_dual_at : let dofs := dofs_at c r bs in
  exists fs phi, make_transition r order (Some eo) (face_argument c fo) "equispaced" = Ok (fs, dofs) /\
  transition_basis (fs, dofs) = Ok phi /\ length phi = length dofs /\
  (forall i j, (i < length dofs)%nat -> (j < length dofs)%nat ->
     nth j phi (fun _ => 0) (env_of (fst (nth i dofs ([], (0, 0)%nat)))) = if (i =? j)%nat then 1 else 0) /\
  (forall f, In f phi -> transition_space_on c vs bs f) /\
  (forall f, transition_space_on c vs bs f -> forall v, f v = sum (length dofs) (fun i => f (env_of (fst (nth i dofs ([], (0, 0)%nat)))) * nth i phi (fun _ => 0) v)).
Proof.
  intros dofs. destruct (polynomial_set_1d_ok (tdim c) 1 (cell_dims c order eo fo (proj1 H))) as (linear & Hq & _).
  destruct (transition_closed_at c vs r order eo fo linear H D Ho Hn Hq) as (sub & (S1 & S2 & S3) & fs & Mk & Lf & Nf).
  fold bs in Mk. fold (dofs_at c r bs) in Mk. fold dofs in Mk.
  pose proof (functions_in_space c order eo fo (proj1 H) linear Hq) as FS. pose proof (functions_independent c order eo fo (proj1 H) linear Hq) as FI.
  pose proof (lengths c order eo fo (proj1 H) linear Hq) as Ll. cbv zeta in FI. set (fs0 := map meval linear ++ flat_map (block_functions (tdim c)) (blocks c order eo fo)) in *.
  assert (Ld : length (all_dofs c order eo fo) = length dofs).
  { unfold all_dofs, dofs, dofs_at. rewrite !app_length. f_equal.
    - rewrite !length_vertex_dofs, (proj2 (cell_type_at c vs r H)), (length_at c vs r H). apply default_length, H.
    - fold bs. clear. induction bs as [|b l IH]; [reflexivity|]. cbn [flat_map]. rewrite !app_length, IH. f_equal. unfold block_dofs. rewrite !map_length. reflexivity. }
  assert (DV : forall i (f : fn point), (i < length dofs)%nat -> nth i (map point_eval dofs) (fun _ => 0) f = f (env_of (fst (nth i dofs ([], (0, 0)%nat))))).
  { intros i f Hi. rewrite (nth_indep _ _ (point_eval ([], (0, 0)%nat))) by (rewrite map_length; exact Hi). rewrite map_nth. reflexivity. }
  assert (Lin : Forall (linear_on (transition_space_on c vs bs)) (map point_eval dofs)).
  { apply Forall_forall. intros l Hin. apply in_map_iff in Hin. destruct Hin as (d0 & <- & _). split; intros; unfold point_eval; auto. }
  assert (Loc : forall k, (k < length fs0)%nat -> forall v w, (forall j, (j < d)%nat -> v j = w j) -> nth k fs0 (fun _ => 0) v = nth k fs0 (fun _ => 0) w).
  { intros k Hk v w E. rewrite Forall_forall in FS. apply (space_local c order eo fo); [exact (proj1 H)|apply FS, nth_In, Hk|exact E]. }
  assert (Wf : Forall (transition_space_on c vs bs) fs).
  { apply Forall_forall. intros f Hf. destruct (In_nth fs f (fun _ => 0) Hf) as (k & Hk & <-). rewrite Lf in Hk.
    exists (nth k fs0 (fun _ => 0)). split; [rewrite Forall_forall in FS; apply FS, nth_In, Hk|]. intros X v E. rewrite Nf. apply Loc; [exact Hk|]. intros j Hj. apply S2; assumption. }
  assert (I : forall x, (forall v, combination x fs v = 0) -> forall i, (i < length fs)%nat -> x i = 0).
  { intros x Zx i Hi. apply FI; [|rewrite <- Lf; exact Hi]. intros X. rewrite <- (Zx (the_map c vs X)). unfold combination. rewrite Lf. apply sum_ext. intros k Hk. rewrite Nf. f_equal.
    apply Loc; [exact Hk|]. intros j Hj. symmetry. apply S2; [reflexivity|exact Hj]. }
  assert (U : forall f, transition_space_on c vs bs f -> (forall l, In l (map point_eval dofs) -> l f = 0) -> forall v, f v = 0).
  { intros f Hf Z. apply unisolvent_at; [exact Hf|]. intros p ke Hp. apply (Z (point_eval (p, ke))). apply in_map. exact Hp. }
  destruct (square_element (transition_space_on c vs bs) fs (map point_eval dofs) space_on_subspace Lin Wf I) as (phi & P1 & P2 & P3 & P4 & P5); [|exact U|].
  { rewrite map_length, <- Ld, <- Ll. exact Lf. }
  rewrite map_length in P2, P3. exists fs, phi. split; [exact Mk|]. split; [exact P1|]. split; [exact P2|]. split; [|split].
  - intros i j Hi Hj. rewrite <- (DV i) by exact Hi. apply P3; assumption.
  - intros f Hf. rewrite Forall_forall in P4. apply P4, Hf.
  - intros f Hf v. rewrite (P5 f Hf v), map_length. apply sum_ext. intros i Hi. rewrite DV by exact Hi. reflexivity.
Qed.
End At.
