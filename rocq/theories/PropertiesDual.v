(** C57, C58: dual elements on barycentric polygons. *)
From Coq Require Import String Arith ZArith Bool Reals Lra Lia List.
From Verif Require Import Base PolyLib ReferencesModel ReferencesSpec ReferencesProofs ReferencesGeometry GeometryModel PiecewiseModel PiecewiseProofs LinAlg CiarletModel ElementModel
  LagrangeModel UnisolvenceProofs LagrangeProofs LagrangeKey LagrangeUnisolvence PropertiesLagrange QDofs BubbleModel BubbleProofs DualModel DualProofs BCProofs.
Import ListNotations.
Open Scope R_scope.

(** The sub-triangle between the vertices t and t + 1 of the default polygon of n triangles. *)
Definition sub_triangle (n t : nat) : list (list R) :=
  [[0; 0]; nth t (r_vertices (default (CDualPolygon n))) []; nth ((t + 1) mod (2 * n)) (r_vertices (default (CDualPolygon n))) []].
Lemma sub_triangle_cell n t : (1 <= n)%nat -> (t < 2 * n)%nat -> sub_triangle n t = cell n t.
Proof.
  intros Hn Ht. unfold sub_triangle, cell. cbn [default r_vertices]. rewrite !polygon_vertex by (try lia; apply Nat.mod_upper_bound; lia).
  rewrite V_wrap by lia. replace (t + 1)%nat with (S t) by lia. reflexivity.
Qed.

Lemma p1_exists : exists phi, lagrange_functions (default CTriangle) 1 "equispaced" = Ok phi.
Proof.
  set (vs := [[0; 0]; [1; 0]; [0; 1]]). assert (Hp' : points 3 2 vs) by (split; [reflexivity|repeat constructor]).
  assert (HD' : map_det CTriangle vs <> 0) by (unfold map_det, edge_det2, co, vs; simpl; lra).
  destruct (p1 CTriangle vs (default CTriangle) (or_intror (or_introl eq_refl)) Hp' HD' eq_refl) as (phi & E & _). exists phi. exact E.
Qed.

Lemma dual_closed n phi : (3 <= n)%nat -> lagrange_functions (default CTriangle) 1 "equispaced" = Ok phi ->
  dual_functions (default (CDualPolygon n)) 1 =
  Ok (map (fun j => map (fun t => (cell n t, piece n phi [1 / INR n; h n j t; h n j ((t + 1) mod (2 * n))] t)) (range (2 * n))) (range n)).
Proof.
  intros Hn E. unfold dual_functions. cbn [default r_type]. cbn [Nat.ltb Nat.leb]. unfold dual_coefficients. cbn [Nat.eqb].
  rewrite (map_r_ok (dual_row n) (fun j => map (fun t => [1 / INR n; h n j t; h n j ((t + 1) mod (2 * n))]) (range (2 * n)))).
  2:{ intros j Hj. apply in_range in Hj. apply row_closed; lia. }
  cbn [rbind]. fold (default (CDualPolygon n)). unfold is_default. cbn [default r_vertices r_type]. destruct (pts_eq_dec _ _) as [_|N]; [|destruct N; reflexivity]. cbn [negb].
  fold (default CTriangle). rewrite E. cbn [rbind]. fold (default (CDualPolygon n)). rewrite map_r_map.
  rewrite (map_r_ok _ (fun j => map (fun t => (cell n t, piece n phi [1 / INR n; h n j t; h n j ((t + 1) mod (2 * n))] t)) (range (2 * n)))).
  2:{ intros j _. apply (dual_function_closed n Hn phi (fun t => [1 / INR n; h n j t; h n j ((t + 1) mod (2 * n))%nat])). }
  cbn [rbind]. unfold dual_entities. cbn [Nat.eqb]. rewrite !map_length, Nat.eqb_refl. reflexivity.
Qed.

Section Order1.
Variable n : nat.
Hypothesis Hn : (3 <= n)%nat.
Variable phi : list (fn point).
Hypothesis E : lagrange_functions (default CTriangle) 1 "equispaced" = Ok phi.
Let fj (j : nat) : pieces R := map (fun t => (cell n t, piece n phi [1 / INR n; h n j t; h n j ((t + 1) mod (2 * n))] t)) (range (2 * n)).

Lemma fj_regular j : Forall (fun cg => regular 2 (fst cg)) (fj j).
Proof.
  apply Forall_forall. intros cg I. apply in_map_iff in I. destruct I as (t & <- & _). left. split; [apply cell_points|apply cell_regular; exact Hn].
Qed.
Lemma fj_value j t p : (t < 2 * n)%nat -> length p = 2%nat -> in_hull (cell n t) p ->
  value_at (fj j) p = Ok (piece n phi [1 / INR n; h n j t; h n j ((t + 1) mod (2 * n))] t (env_of p)).
Proof.
  intros Ht Lp Hp. apply (value_at_pieces (fj j) p _ Lp (fj_regular j)).
  - intros c g I Hc. apply in_map_iff in I. destruct I as (s & X & Hs). injection X as <- <-. apply in_range in Hs. apply (pieces_agree n Hn phi (h n j)); assumption.
  - exists (cell n t), (piece n phi [1 / INR n; h n j t; h n j ((t + 1) mod (2 * n))] t). split; [|exact Hp].
    apply (in_map (fun t => (cell n t, piece n phi [1 / INR n; h n j t; h n j ((t + 1) mod (2 * n))] t))). apply in_range, Ht.
Qed.
End Order1.

(** Order 1 on every polygon of at least three triangles.  Each function has one piece on every sub-triangle; wherever
    two sub-triangles meet, their pieces have the same value (so the function is continuous and it does not matter which
    piece is evaluated); the functions sum to one on the whole polygon; function j is one at vertex 2j and zero at the
    other even vertices; outside the polygon the functions are not defined. *)
Theorem C57_dual_order_one : forall n, (3 <= n)%nat ->
  exists bfs, dual_functions (default (CDualPolygon n)) 1 = Ok bfs /\ length bfs = n /\
  (forall f, In f bfs -> map fst f = map (sub_triangle n) (range (2 * n))) /\
  (forall f cell g cell' g' p, In f bfs -> In (cell, g) f -> In (cell', g') f -> length p = 2%nat ->
     in_hull cell p -> in_hull cell' p -> g (env_of p) = g' (env_of p)) /\
  (forall f cell g p, In f bfs -> In (cell, g) f -> length p = 2%nat -> in_hull cell p -> value_at f p = Ok (g (env_of p))) /\
  (forall p t, (t < 2 * n)%nat -> length p = 2%nat -> in_hull (sub_triangle n t) p ->
     exists vals, map_r (fun f => value_at f p) bfs = Ok vals /\ sumR vals = 1) /\
  (forall p f, In f bfs -> length p = 2%nat -> (forall t, (t < 2 * n)%nat -> ~ in_hull (sub_triangle n t) p) -> value_at f p = Err NotImplementedError) /\
  (forall j k, (j < n)%nat -> (k < n)%nat -> value_at (nth j bfs []) (nth (2 * k) (r_vertices (default (CDualPolygon n))) []) = Ok (if (j =? k)%nat then 1 else 0)).
Proof.
  intros n Hn. destruct p1_exists as (phi & E). eexists. split; [apply (dual_closed n phi Hn E)|].
  split; [rewrite map_length, length_range; reflexivity|]. split; [|split; [|split; [|split; [|split]]]].
  - intros f I. apply in_map_iff in I. destruct I as (j & <- & _). rewrite map_map. cbn [fst]. apply map_ext_in. intros t Ht. apply in_range in Ht. symmetry. apply sub_triangle_cell; lia.
  - intros f c g c' g' p I Ic Ic' Lp Hc Hc'. apply in_map_iff in I. destruct I as (j & <- & _). apply in_map_iff in Ic. destruct Ic as (s & X & Hs). injection X as <- <-.
    apply in_map_iff in Ic'. destruct Ic' as (t & X & Ht). injection X as <- <-. apply in_range in Hs. apply in_range in Ht. apply (pieces_agree n Hn phi (h n j)); assumption.
  - intros f c g p I Ic Lp Hc. apply in_map_iff in I. destruct I as (j & <- & _). apply in_map_iff in Ic. destruct Ic as (s & X & Hs). injection X as <- <-. apply in_range in Hs.
    apply (fj_value n Hn phi E); assumption.
  - intros p t Ht Lp Hp. rewrite sub_triangle_cell in Hp by lia. rewrite map_r_map.
    rewrite (map_r_ok _ (fun j => piece n phi [1 / INR n; h n j t; h n j ((t + 1) mod (2 * n))] t (env_of p))) by (intros j _; apply (fj_value n Hn phi E); assumption).
    eexists. split; [reflexivity|]. destruct (proj1 (cell_hull n Hn t p) (conj Hp Lp)) as (a & b & _ & _ & _ & ->). fold (pnt n t a b).
    rewrite (map_ext _ (fun j => (1 - a - b) * (1 / INR n) + a * h n j t + b * h n j ((t + 1) mod (2 * n))%nat)) by (intros j; apply piece_value; assumption).
    assert (SR : forall (g : nat -> R) k, sumR (map g (range k)) = sum k g).
    { intros g. induction k as [|k IH]; [reflexivity|]. unfold range. rewrite seq_S, map_app. unfold sumR in *. rewrite fold_right_app. cbn [map fold_right Nat.add sum].
      rewrite <- IH. unfold range. generalize (map g (seq 0 k)). induction l as [|x l IHl]; cbn [fold_right]; [ring|]. rewrite IHl. ring. }
    assert (SC : forall c k, sum k (fun _ => c) = INR k * c) by (intros c; induction k as [|k IH]; [simpl; ring|]; cbn [sum]; rewrite IH, S_INR; ring).
    rewrite SR, !sum_plus, !sum_scal, SC, !h_sum by (try lia; apply Nat.mod_upper_bound; lia). assert (0 < INR n) by (apply lt_0_INR; lia). field. lra.
  - intros p f I Lp Hout. apply in_map_iff in I. destruct I as (j & <- & _).
    assert (Ho : forall t, (t < 2 * n)%nat -> ~ in_hull (cell n t) p) by (intros t Ht; rewrite <- sub_triangle_cell by lia; apply Hout, Ht).
    apply (value_at_pieces _ p 0 Lp (fj_regular n Hn phi j)).
    + intros c g I Hc. exfalso. apply in_map_iff in I. destruct I as (s & X & Hs). injection X as <- <-. apply in_range in Hs. exact (Ho s Hs Hc).
    + intros c g I. apply in_map_iff in I. destruct I as (s & X & Hs). injection X as <- <-. apply in_range in Hs. exact (Ho s Hs).
  - intros j k Hj Hk. cbn [default r_vertices]. rewrite polygon_vertex by lia.
    set (F := fun j => map (fun t => (cell n t, piece n phi [1 / INR n; h n j t; h n j ((t + 1) mod (2 * n))] t)) (range (2 * n))).
    assert (EN : nth j (map F (range n)) [] = F j).
    { rewrite (nth_indep _ [] (F 0%nat)) by (rewrite map_length, length_range; exact Hj). rewrite map_nth. unfold range. rewrite seq_nth by exact Hj. reflexivity. }
    transitivity (value_at (F j) (V n (2 * k))); [exact (f_equal (fun l => value_at l (V n (2 * k))) EN)|].
    assert (EV : V n (2 * k) = pnt n (2 * k) 1 0) by (unfold pnt, V; cbn [nth]; apply list2_eq; ring).
    assert (HV : in_hull (cell n (2 * k)) (V n (2 * k))).
    { apply (cell_hull n Hn (2 * k) (V n (2 * k))). exists 1, 0. repeat split; try lra. exact EV. }
    unfold F. etransitivity; [apply (fj_value n Hn phi E j (2 * k)); [lia|reflexivity|exact HV]|]. f_equal. rewrite EV. rewrite (piece_value n Hn) by exact E.
    assert (Hmod : ((2 * j + 2 * n - 1) mod (2 * n) = if j =? 0 then 2 * n - 1 else 2 * j - 1)%nat).
    { destruct (Nat.eqb_spec j 0) as [->|Z]; [apply Nat.mod_small; lia|]. replace (2 * j + 2 * n - 1)%nat with (2 * j - 1 + 1 * (2 * n))%nat by lia. rewrite Nat.mod_add by lia. apply Nat.mod_small. lia. }
    replace (h n j (2 * k)) with (if (j =? k)%nat then 1 else 0); [ring|]. unfold h. rewrite Hmod.
    destruct (Nat.eqb_spec j 0); repeat match goal with |- context [(?a =? ?b)%nat] => destruct (Nat.eqb_spec a b); try lia end; cbn [orb]; try reflexivity; lia.
Qed.
Print Assumptions C57_dual_order_one.

(** Order 0: one function, equal to one on the whole polygon. *)
Theorem C57_dual_order_zero : forall n, (3 <= n)%nat -> exists f, dual_functions (default (CDualPolygon n)) 0 = Ok [f] /\
  map fst f = map (sub_triangle n) (range (2 * n)) /\ (forall cell g e, In (cell, g) f -> g e = 1) /\
  forall p t, (t < 2 * n)%nat -> length p = 2%nat -> in_hull (sub_triangle n t) p -> value_at f p = Ok 1.
Proof.
  intros n Hn. set (vs := [[0; 0]; [1; 0]; [0; 1]]).
  destruct (C19_lagrange_order_zero CTriangle vs (default CTriangle) (or_intror (or_introl eq_refl)) ltac:(split; [reflexivity|repeat constructor]) eq_refl "equispaced" ltac:(discriminate)) as (p0 & phi & _ & _ & E & One).
  assert (E' : lagrange_functions (default CTriangle) 0 "equispaced" = Ok [phi]) by (unfold lagrange_functions; exact E).
  exists (map (fun t => (cell n t, piece n [phi] [1] t)) (range (2 * n))).
  assert (V1 : forall t e, piece n [phi] [1] t e = 1) by (intros t e; unfold piece; cbn [combine fold_left fst snd]; rewrite One; ring).
  split; [|split; [|split]].
  - unfold dual_functions. cbn [default r_type]. cbn [Nat.ltb Nat.leb]. unfold dual_coefficients. cbn [Nat.eqb rbind].
    unfold is_default. cbn [r_vertices r_type]. destruct (pts_eq_dec _ _) as [_|N]; [|destruct N; reflexivity]. cbn [negb].
    fold (default CTriangle). rewrite E'. cbn [rbind map_r].
    pose proof (dual_function_closed n Hn [phi] (fun _ => [1])) as X. cbn [default] in X. rewrite X. cbn [rbind rmap]. reflexivity.
  - rewrite map_map. cbn [fst]. apply map_ext_in. intros t Ht. apply in_range in Ht. symmetry. apply sub_triangle_cell; lia.
  - intros c g e I. apply in_map_iff in I. destruct I as (t & X & _). injection X as _ <-. apply V1.
  - intros p t Ht Lp Hp. rewrite sub_triangle_cell in Hp by lia. apply (value_at_pieces _ p 1 Lp).
    + apply Forall_forall. intros cg I. apply in_map_iff in I. destruct I as (s & <- & _). left. split; [apply cell_points|apply cell_regular; exact Hn].
    + intros c g I _. apply in_map_iff in I. destruct I as (s & X & _). injection X as _ <-. apply V1.
    + exists (cell n t), (piece n [phi] [1] t). split; [|exact Hp]. apply (in_map (fun t => (cell n t, piece n [phi] [1] t))). apply in_range, Ht.
Qed.
Print Assumptions C57_dual_order_zero.

(** Orders above 1 and cells that are no polygon are rejected, and so are polygons with other vertices. *)
Theorem C57_dual_rejects : forall r order, ((2 <= order)%nat \/ (forall n, r_type r <> CDualPolygon n) -> dual_functions r order = Err ValueError) /\
  (forall n, r_type r = CDualPolygon n -> (order <= 1)%nat -> (1 <= n)%nat -> r_vertices r <> reference_vertices (CDualPolygon n) -> dual_functions r order = Err NotImplementedError).
Proof.
  intros r order. split.
  - intros H. unfold dual_functions. destruct (r_type r) eqn:T; try reflexivity. destruct H as [H|H]; [|destruct (H n eq_refl)].
    rewrite (proj2 (Nat.ltb_lt 1 order)) by lia. reflexivity.
  - intros n T Ho Hn N. unfold dual_functions. rewrite T. rewrite (proj2 (Nat.ltb_ge 1 order)) by lia.
    assert (X : exists cs, dual_coefficients n order = Ok cs).
    { unfold dual_coefficients. destruct (order =? 0)%nat; [eauto|]. rewrite (map_r_ok (dual_row n) (fun j => map (fun t => [1 / INR n; h n j t; h n j ((t + 1) mod (2 * n))]) (range (2 * n)))); [eauto|].
      intros j Hj. apply in_range in Hj. apply row_closed; lia. }
    destruct X as (cs & ->). cbn [rbind]. unfold is_default. rewrite T. destruct (pts_eq_dec _ _) as [E|_]; [contradiction|reflexivity].
Qed.
Print Assumptions C57_dual_rejects.

(** Function i of order 1 belongs to vertex 2i, where it is one and the others are zero (C57_dual_order_one), and to no
    other entity; the function of order 0 belongs to the interior. *)
Theorem C57_dual_entities : forall n d e,
  dual_entity_dofs n 1 d e = (if ((d =? 0) && Nat.even e && (e <? 2 * n))%nat then [Nat.div2 e] else []) /\
  dual_entity_dofs n 0 d e = (if ((d =? 2) && (e =? 0))%nat then [0%nat] else []).
Proof.
  intros n d e. split.
  - unfold dual_entity_dofs, dual_entities. cbn [Nat.eqb]. rewrite map_length, length_range.
    set (g := fun ie : nat * (nat * nat) => ((fst (snd ie) =? d) && (snd (snd ie) =? e))%nat).
    assert (X : forall k s, map fst (filter g (combine (seq s k) (map (fun i => (0, 2 * i)%nat) (seq s k)))) =
      if ((d =? 0) && Nat.even e && (2 * s <=? e) && (e <? 2 * (s + k)))%nat then [Nat.div2 e] else []).
    { induction k as [|k IH]; intros s; cbn [seq map combine filter].
      - destruct (Nat.leb_spec (2 * s) e); destruct (Nat.ltb_spec e (2 * (s + 0))); rewrite ?andb_false_r; try reflexivity. lia.
      - assert (G : g (s, (0, 2 * s)%nat) = ((d =? 0) && (e =? 2 * s))%nat) by (unfold g; cbn [fst snd]; rewrite (Nat.eqb_sym 0 d), (Nat.eqb_sym (2 * s) e); reflexivity).
        rewrite G. destruct (d =? 0)%nat eqn:Ed; cbn [andb].
        + destruct (Nat.eqb_spec e (2 * s)) as [->|N]; cbn [map fst]; rewrite IH; cbn [andb].
          * rewrite Nat.even_mul, Nat.div2_double. cbn [Nat.even orb andb].
            rewrite (proj2 (Nat.leb_gt (2 * S s) (2 * s))) by lia. rewrite (proj2 (Nat.leb_le (2 * s) (2 * s))), (proj2 (Nat.ltb_lt (2 * s) (2 * (s + S k)))) by lia. reflexivity.
          * destruct (Nat.even e) eqn:Ee; cbn [andb]; [|reflexivity]. apply Nat.even_spec in Ee. destruct Ee as [m ->].
            replace (S s + k)%nat with (s + S k)%nat by lia. destruct (Nat.leb_spec (2 * S s) (2 * m)); destruct (Nat.leb_spec (2 * s) (2 * m)); try reflexivity; lia.
        + rewrite IH. reflexivity. }
    unfold range. rewrite X. cbn [Nat.mul Nat.leb]. rewrite andb_true_r. reflexivity.
  - unfold dual_entity_dofs, dual_entities. cbn [Nat.eqb length range seq combine filter map fst snd].
    destruct d as [|[|[|d]]]; destruct e; reflexivity.
Qed.
Print Assumptions C57_dual_entities.
Example C57_entities_case : map (dual_entity_dofs 4 1 0) (range 9) = [[0]; []; [1]; []; [2]; []; [3]; []; []]%nat /\ dual_entity_dofs 4 0 2 0 = [0%nat].
Proof. split; reflexivity. Qed.

Example C57_case : exists bfs, dual_functions (default (CDualPolygon 3)) 1 = Ok bfs /\ length bfs = 3%nat /\
  map_r (fun f => value_at f [0; 0]) bfs = Ok [1 / 3; 1 / 3; 1 / 3] /\ map_r (fun f => value_at f [1; 0]) bfs = Ok [1; 0; 0].
Proof.
  assert (E13 : 1 / 3 = 1 / INR 3) by (simpl; field). destruct p1_exists as (phi & E). eexists. split; [apply (dual_closed 3 phi (le_n _) E)|]. split; [reflexivity|].
  assert (VV : V 3 0 = [1; 0]) by (unfold V, rho; simpl; rewrite Rmult_0_l, cos_0, sin_0; apply list2_eq; ring).
  assert (X : forall a, 0 <= a <= 1 -> map_r (fun f => value_at f [a; 0]) (map (fun j => map (fun t => (cell 3 t, piece 3 phi [1 / INR 3; h 3 j t; h 3 j ((t + 1) mod (2 * 3))] t)) (range (2 * 3))) (range 3)) =
    Ok (map (fun j => (1 - a) * (1 / INR 3) + a * h 3 j 0) (range 3))).
  { intros a Ha. rewrite map_r_map. apply map_r_ok. intros j _.
    assert (EP : [a; 0] = pnt 3 0 a 0) by (unfold pnt; rewrite VV; cbn [nth]; apply list2_eq; ring).
    etransitivity; [apply (fj_value 3 (le_n _) phi E j 0); [lia|reflexivity|]|].
    - apply (cell_hull 3 (le_n _) 0 [a; 0]). exists a, 0. repeat split; try lra. exact EP.
    - f_equal. rewrite EP. rewrite (piece_value 3 (le_n _)) by exact E. ring. }
  split.
  - etransitivity; [apply (X 0); lra|]. rewrite E13. cbn [map range seq]. f_equal. apply list3_eq; ring.
  - etransitivity; [apply (X 1); lra|]. cbn [map range seq]. f_equal. unfold h. cbn. apply list3_eq; ring.
Qed.

(** * C58 *)
Lemma bc_closed n phi : (3 <= n)%nat ->
  bc_functions (default (CDualPolygon n)) 1 phi =
  Ok (map (fun j => map (fun t => (cell n t, bpiece n phi [c0 n j t; c1 n j (2 * n - 1) t; c2 n j (2 * n - 1) t] t)) (range (2 * n))) (range n)).
Proof.
  intros Hn. unfold bc_functions. cbn [default r_type Nat.eqb negb]. unfold bc_coefficients.
  rewrite (map_r_ok (bc_row n) (fun j => map (fun t => [c0 n j t; c1 n j (2 * n - 1) t; c2 n j (2 * n - 1) t]) (range (2 * n)))).
  2:{ intros j Hj. apply in_range in Hj. apply bc_row_closed; lia. }
  cbn [rbind]. unfold is_default. cbn [r_vertices r_type]. destruct (pts_eq_dec _ _) as [_|N]; [|destruct N; reflexivity]. cbn [negb].
  fold (default (CDualPolygon n)). rewrite map_r_map.
  rewrite (map_r_ok _ (fun j => map (fun t => (cell n t, bpiece n phi [c0 n j t; c1 n j (2 * n - 1) t; c2 n j (2 * n - 1) t] t)) (range (2 * n)))).
  2:{ intros j _. pose proof (bc_function_closed n Hn phi (fun t => [c0 n j t; c1 n j (2 * n - 1) t; c2 n j (2 * n - 1) t])) as X. cbn [default] in X. exact X. }
  cbn [rbind]. unfold dual_entities. cbn [Nat.eqb]. rewrite !map_length, Nat.eqb_refl. reflexivity.
Qed.

(** For every polygon of at least three triangles and every Buffa-Christiansen function there are two sub-triangles with a
    common edge such that the normal components of the two pieces differ by 1/n (times the inverse length of the edge) at
    every point of that edge. *)
Theorem C58_normal_jump : forall n phi, (3 <= n)%nat -> is_rt_basis phi ->
  exists bfs, bc_functions (default (CDualPolygon n)) 1 phi = Ok bfs /\ length bfs = n /\
  (forall f, In f bfs -> map fst f = map (sub_triangle n) (range (2 * n))) /\
  forall f, In f bfs -> exists t g g', (t < 2 * n)%nat /\
    let t' := ((t + 1) mod (2 * n))%nat in let v := nth t' (r_vertices (default (CDualPolygon n))) [] in
    In (sub_triangle n t, g) f /\ In (sub_triangle n t', g') f /\
    forall r, 0 <= r <= 1 -> let p := [r * nth 0 v 0; r * nth 1 v 0] in
      in_hull (sub_triangle n t) p /\ in_hull (sub_triangle n t') p /\
      (nth 0 v 0 * snd (g' (env_of p)) - nth 1 v 0 * fst (g' (env_of p))) - (nth 0 v 0 * snd (g (env_of p)) - nth 1 v 0 * fst (g (env_of p))) = 1 / INR n.
Proof.
  intros n phi Hn Hphi. eexists. split; [apply (bc_closed n phi Hn)|]. split; [rewrite map_length, length_range; reflexivity|]. split.
  - intros f I. apply in_map_iff in I. destruct I as (j & <- & _). rewrite map_map. cbn [fst]. apply map_ext_in. intros t Ht. apply in_range in Ht. symmetry. apply sub_triangle_cell; lia.
  - intros f I. apply in_map_iff in I. destruct I as (j & <- & Hj). apply in_range in Hj. set (F := fun t => bpiece n phi [c0 n j t; c1 n j (2 * n - 1) t; c2 n j (2 * n - 1) t] t).
    set (t := ((2 * j + n) mod (2 * n))%nat). assert (Ht : (t < 2 * n)%nat) by (apply Nat.mod_upper_bound; lia). set (t' := ((t + 1) mod (2 * n))%nat). assert (Ht' : (t' < 2 * n)%nat) by (apply Nat.mod_upper_bound; lia).
    exists t, (F t), (F t'). split; [exact Ht|]. cbn zeta. fold t'. rewrite !sub_triangle_cell by lia.
    split; [apply (in_map (fun t => (cell n t, F t))), in_range, Ht|]. split; [apply (in_map (fun t => (cell n t, F t))), in_range, Ht'|].
    intros r Hr. cbn [default r_vertices]. rewrite polygon_vertex by lia.
    assert (VV : V n t' = V n (S t)) by (unfold t'; rewrite V_wrap by lia; f_equal; lia).
    split; [|split].
    + rewrite VV. apply (cell_hull n Hn t). exists 0, r. repeat split; try lra. apply list2_eq; ring.
    + apply (cell_hull n Hn t'). exists r, 0. repeat split; try lra. apply list2_eq; ring.
    + unfold F. pose proof (across_first n Hn phi Hphi (c0 n j t') (c1 n j (2 * n - 1) t') (c2 n j (2 * n - 1) t') t' r) as A1.
      pose proof (across_second n Hn phi Hphi (c0 n j t) (c1 n j (2 * n - 1) t) (c2 n j (2 * n - 1) t) t r) as A2. rewrite <- VV in A2. unfold across in A1, A2. rewrite A1, A2.
      assert (R1 : rel (2 * n) j t = n).
      { rewrite rel_spec by lia. unfold t. rewrite wrap_spec by lia. destruct (Nat.ltb_spec (2 * j + n) (2 * n));
          match goal with |- (if (?a <=? ?b)%nat then _ else _) = _ => destruct (Nat.leb_spec a b) end; lia. }
      assert (R2 : rel (2 * n) j t' = (n + 1)%nat).
      { rewrite rel_spec by lia. rewrite rel_spec in R1 by lia. unfold t'. rewrite wrap_spec by lia. revert R1. destruct (Nat.ltb_spec (t + 1) (2 * n)); destruct (Nat.leb_spec (2 * j) t);
          match goal with |- _ -> (if (?a <=? ?b)%nat then _ else _) = _ => destruct (Nat.leb_spec a b) end; lia. }
      unfold c1, c2. rewrite R1, R2. replace (1 <=? n)%nat with true by (symmetry; apply Nat.leb_le; lia). replace (n <=? 2 * n - 1)%nat with true by (symmetry; apply Nat.leb_le; lia).
      replace (n + 1 <? 2 * n - 1)%nat with true by (symmetry; apply Nat.ltb_lt; lia). cbn [andb]. unfold val. rewrite minus_INR, mult_INR, plus_INR by lia. simpl (INR 2). simpl (INR 1).
      assert (0 < INR n) by (apply lt_0_INR; lia). field. lra.
Qed.
Print Assumptions C58_normal_jump.
(** The six functions of the hexagon, with the Raviart-Thomas functions of the reference triangle. *)
Example C58_normal_jump_case : exists phi bfs, is_rt_basis phi /\ bc_functions (default (CDualPolygon 6)) 1 phi = Ok bfs /\ length bfs = 6%nat.
Proof.
  destruct (C58_normal_jump 6 _ ltac:(lia) rt_exists) as (bfs & E & L & _). eexists. exists bfs. split; [exact rt_exists|]. split; [exact E|exact L].
Qed.

Theorem C58_refuted : exists n phi bfs f t g g' p, is_rt_basis phi /\ bc_functions (default (CDualPolygon n)) 1 phi = Ok bfs /\ In f bfs /\ (t < 2 * n)%nat /\
  let t' := ((t + 1) mod (2 * n))%nat in let v := nth t' (r_vertices (default (CDualPolygon n))) [] in
  In (sub_triangle n t, g) f /\ In (sub_triangle n t', g') f /\ in_hull (sub_triangle n t) p /\ in_hull (sub_triangle n t') p /\
  nth 0 v 0 * snd (g (env_of p)) - nth 1 v 0 * fst (g (env_of p)) <> nth 0 v 0 * snd (g' (env_of p)) - nth 1 v 0 * fst (g' (env_of p)).
Proof.
  destruct (C58_normal_jump 3 _ (le_n _) rt_exists) as (bfs & E & L & _ & J). destruct bfs as [|f bfs]; [discriminate|].
  destruct (J f (or_introl eq_refl)) as (t & g & g' & Ht & I1 & I2 & X). exists 3%nat. eexists. exists (f :: bfs), f, t, g, g'. eexists.
  split; [exact rt_exists|]. split; [exact E|]. split; [left; reflexivity|]. split; [exact Ht|]. cbn zeta. split; [exact I1|]. split; [exact I2|].
  destruct (X 1 ltac:(lra)) as (H1 & H2 & H3). split; [exact H1|]. split; [exact H2|]. intros Z. simpl (INR 3) in H3. lra.
Qed.
Print Assumptions C58_refuted.
