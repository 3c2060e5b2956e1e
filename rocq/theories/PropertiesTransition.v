(** Transition elements (transition.py) on every triangle and tetrahedron: a different order on each sub-entity. *)
From Coq Require Import String Arith Bool Reals Lra Lia List FunctionalExtensionality.
From Verif Require Import Base PolyLib PolySetsModel PolySetsProofs QuadratureModel ReferencesModel ReferencesSpec ReferencesProofs ReferencesGeometry
  LinAlg CiarletModel CiarletProofs ElementModel LagrangeModel UnisolvenceProofs LagrangeProofs LagrangeKey LagrangeUnisolvence PropertiesLagrange
  PointsSpec PointsProofs TransitionModel TransitionSpec TransitionProofs TransitionElement TransitionDual TransitionGeneral.
Import ListNotations.
Open Scope R_scope.

Lemma count_tuples k n : (1 <= k <= 3)%nat -> (1 <= n)%nat -> length (simplex_tuples n k) = inner_count k n.
Proof.
  intros Hk Hn. rewrite length_simplex_tuples. destruct n as [|n]; [lia|]. unfold inner_count.
  replace (S n - 1)%nat with n by lia. replace (S n - 2)%nat with (n - 1)%nat by lia. replace (S n - 3)%nat with (n - 2)%nat by lia.
  destruct k as [|[|[|[|k]]]]; try lia.
  - apply choose_1.
  - rewrite <- choose_2, Nat.mul_comm, Nat.div_mul; lia.
  - rewrite <- choose_3, Nat.mul_comm, Nat.div_mul; lia.
Qed.
Lemma count_dofs c vs r order eo fo : cell_at c vs r -> (forall b, In b (blocks c order eo fo) -> (1 <= b_order b)%nat) ->
  length (dofs_at c r (blocks c order eo fo)) = (tdim c + 1 + list_sum (map (fun b => inner_count (b_dim b) (b_order b)) (blocks c order eo fo)))%nat.
Proof.
  intros H Hn. unfold dofs_at. rewrite app_length, length_vertex_dofs, (proj2 (cell_type_at c vs r H)), (length_at c vs r H). f_equal; [lia|].
  pose proof (block_dims c order eo fo (proj1 H)) as K. revert K Hn. generalize (blocks c order eo fo) as l.
  induction l as [|b l IH]; intros K Hn; [reflexivity|]. cbn [flat_map map]. rewrite app_length, IH; [|intros; apply K; right; assumption|intros; apply Hn; right; assumption].
  unfold block_dofs. rewrite map_length, count_tuples; [reflexivity|apply K; left; reflexivity|apply Hn; left; reflexivity].
Qed.

(** For every order of the cell, of each edge and of each face (all at least 1), create_element succeeds; there is one degree
    of freedom for each vertex and (n - 1), (n - 1)(n - 2) / 2 or (n - 1)(n - 2)(n - 3) / 6 in each edge, face or
    tetrahedron of order n; basis function j is 1 at point j and 0 at the other points, and belongs to the space; every
    function of the space is the combination of the basis functions with its values at the points. *)
Theorem C85_transition_basis : forall c vs r order eo fo, transition_cell c -> points (nvert c) (tdim c) vs -> map_det c vs <> 0 ->
  make_reference c vs = Ok r -> proper_orders c eo fo -> (forall b, In b (blocks c order eo fo) -> (1 <= b_order b)%nat) ->
  exists fs dofs phi, make_transition r order (Some eo) (face_argument c fo) "equispaced" = Ok (fs, dofs) /\
  transition_basis (fs, dofs) = Ok phi /\ length phi = length dofs /\
  length dofs = (tdim c + 1 + list_sum (map (fun b => inner_count (b_dim b) (b_order b)) (blocks c order eo fo)))%nat /\
  (forall i j, (i < length dofs)%nat -> (j < length dofs)%nat ->
     nth j phi (fun _ => 0) (env_of (fst (nth i dofs ([], (0, 0)%nat)))) = if (i =? j)%nat then 1 else 0) /\
  (forall f, In f phi -> transition_space_on c vs (blocks c order eo fo) f) /\
  (forall f, transition_space_on c vs (blocks c order eo fo) f -> forall v,
     f v = sum (length dofs) (fun i => f (env_of (fst (nth i dofs ([], (0, 0)%nat)))) * nth i phi (fun _ => 0) v)).
Proof.
  intros c vs r order eo fo Hc Hp HD Hr Ho Hn. assert (H : cell_at c vs r) by (split; [exact Hc|split; assumption]).
  destruct (transition_dual_at c vs r order eo fo H HD Ho Hn) as (fs & phi & H1 & H2 & H3 & H4 & H5 & H6).
  exists fs, (dofs_at c r (blocks c order eo fo)), phi. repeat split; try assumption. apply (count_dofs c vs); assumption.
Qed.
Print Assumptions C85_transition_basis.
(** The triangle with vertices (1, 0), (3, 1), (0, 2), of order 4 with edges of orders 1, 2 and 5: 3 vertices, 0 + 1 + 4 points in
    the edges and 3 in the interior. *)
Example C85_transition_basis_example : exists r fs dofs phi, make_reference CTriangle [[1; 0]; [3; 1]; [0; 2]] = Ok r /\
  make_transition r 4 (Some [1; 2; 5]%nat) None "equispaced" = Ok (fs, dofs) /\
  transition_basis (fs, dofs) = Ok phi /\ length phi = 11%nat.
Proof.
  eexists. edestruct (C85_transition_basis CTriangle [[1; 0]; [3; 1]; [0; 2]]) with (order := 4%nat) (eo := [1; 2; 5]%nat) (fo := @nil nat)
    as (fs & dofs & phi & H1 & H2 & H3 & H4 & _).
  - left; reflexivity.
  - split; [reflexivity|repeat constructor].
  - unfold map_det, edge_det2, co. cbn [nth]. lra.
  - reflexivity.
  - split; [reflexivity|discriminate].
  - intros b Hb. cbn [blocks In] in Hb. each_in Hb; cbn; lia.
  - exists fs, dofs, phi. split; [reflexivity|]. split; [exact H1|]. split; [exact H2|]. rewrite H3, H4. reflexivity.
Qed.

(** Continuity: a function of the space whose degrees of freedom on a sub-entity and on the sub-entities of its boundary are zero
    is zero on the whole sub-entity, whatever the orders of the others are. *)
Theorem C85_transition_traces : forall c vs r order eo fo k e E, transition_cell c -> points (nvert c) (tdim c) vs -> map_det c vs <> 0 ->
  make_reference c vs = Ok r -> proper_orders c eo fo -> (forall b, In b (blocks c order eo fo) -> (1 <= b_order b)%nat) -> entity_is r k e E ->
  exists fs dofs, make_transition r order (Some eo) (face_argument c fo) "equispaced" = Ok (fs, dofs) /\
  forall f, transition_space_on c vs (blocks c order eo fo) f ->
    (forall p k' e' E', In (p, (k', e')) dofs -> entity_is r k' e' E' -> incl E' E -> f (env_of p) = 0) ->
    forall p, length p = tdim c -> in_affine_hull (map (fun i => nth i vs []) E) p -> f (env_of p) = 0.
Proof.
  intros c vs r order eo fo k e E Hc Hp HD Hr Ho Hn HE. assert (H : cell_at c vs r) by (split; [exact Hc|split; assumption]).
  destruct (transition_dual_at c vs r order eo fo H HD Ho Hn) as (fs & phi & H1 & _).
  exists fs, (dofs_at c r (blocks c order eo fo)). split; [exact H1|]. intros f (g & Tg & FG) Z p Lp HH.
  destruct (zero_at_points c vs r order eo fo H f g (fun E' => incl E' E) FG Z) as (V & I).
  assert (HE' : entity_is (default c) k e E) by (destruct HE as (tab & A & B); exists tab; split; [rewrite <- (entities_at c vs r k H); exact A|exact B]).
  destruct (entity_block c order eo fo k e E Hc HE') as [(-> & -> & He)|(b & Hb & _ & _ & <-)].
  - rewrite <- (V e He (incl_refl _)). apply FG. intros j Hj.
    destruct (hull_param vs e [] p HH) as (w & Hw). unfold env_of at 1. rewrite <- Hw by lia. unfold param, co. cbn [psum].
    rewrite Rplus_0_r. symmetry. apply (map_vertex c vs r); assumption.
  - destruct Tg as (a & q & HD'). pose proof (transition_simplex c Hc) as Hs. pose proof (good_cell c order eo fo Hc) as HG.
    assert (GB : good_block (tdim c) (reference_vertices c) b) by (destruct HG as (G & _); rewrite Forall_forall in G; apply G, Hb).
    destruct GB as (K1 & K2 & K3 & _).
    destruct (block_zero c _ g a q Hs HG HD' (length (b_vertices b)) b (le_n _) Hb) as (_ & T).
    + intros i Hi. apply V; [apply K3, Hi|intros x [<-|[]]; exact Hi].
    + intros b' ii Hb' Ib Hi. apply I; assumption.
    + pose proof (fun s j => map_param c vs r order eo fo b s j H Hb) as MP.
      destruct (b_vertices b) as [|e0 rest] eqn:EE; [discriminate K2|]. destruct (hull_param vs e0 rest p HH) as (w & Hw).
      rewrite <- (T w). apply FG. intros j Hj. unfold env_of. rewrite <- Hw by lia. symmetry. apply MP, Hj.
Qed.
Print Assumptions C85_transition_traces.
(** The last edge of a tetrahedron of order 4 whose edges have orders 1 to 6 and whose faces have orders 2 to 5. *)
Example C85_transition_traces_example : exists r fs dofs, make_reference CTetrahedron [[0; 0; 0]; [2; 0; 0]; [1; 1; 0]; [0; 0; 3]] = Ok r /\
  make_transition r 4 (Some [1; 2; 3; 4; 5; 6]%nat) (Some [2; 3; 4; 5]%nat) "equispaced" = Ok (fs, dofs) /\
  forall f, transition_space_on CTetrahedron [[0; 0; 0]; [2; 0; 0]; [1; 1; 0]; [0; 0; 3]] (blocks CTetrahedron 4 [1; 2; 3; 4; 5; 6]%nat [2; 3; 4; 5]%nat) f ->
    (forall p k' e' E', In (p, (k', e')) dofs -> entity_is r k' e' E' -> incl E' [0; 1]%nat -> f (env_of p) = 0) ->
    forall p, length p = 3%nat -> in_affine_hull [[0; 0; 0]; [2; 0; 0]] p -> f (env_of p) = 0.
Proof.
  eexists. edestruct (C85_transition_traces CTetrahedron [[0; 0; 0]; [2; 0; 0]; [1; 1; 0]; [0; 0; 3]]) with (order := 4%nat) (eo := [1; 2; 3; 4; 5; 6]%nat)
    (fo := [2; 3; 4; 5]%nat) (k := 1%nat) (e := 5%nat) (E := [0; 1]%nat) as (fs & dofs & H1 & H2).
  - right; reflexivity.
  - split; [reflexivity|repeat constructor].
  - unfold map_det, edge_det3, co. cbn [nth]. lra.
  - reflexivity.
  - split; reflexivity.
  - intros b Hb. cbn [blocks In] in Hb. each_in Hb; cbn; lia.
  - eexists. split; reflexivity.
  - exists fs, dofs. split; [reflexivity|]. split; [exact H1|exact H2].
Qed.

Lemma reference_degrees : forall c order eo fo b M f, transition_cell c -> In b (blocks c order eo fo) -> (1 <= M)%nat ->
  (forall b', In b' (blocks c order eo fo) -> incl (b_vertices b') (b_vertices b) -> (b_order b' <= M)%nat) ->
  transition_space (tdim c) (blocks c order eo fo) f ->
  P_space (b_dim b) M (fun s => f (on_entity (reference_vertices c) (b_vertices b) s)).
Proof.
  intros c order eo fo b M f Hc Hb HM HO (a & q & Ha & Hq & Ef).
  destruct (good_cell c order eo fo Hc) as (G & _). rewrite Forall_forall in G. pose proof (G b Hb) as (K1 & K2 & K3 & K4 & _).
  set (vs := reference_vertices c) in *. set (d := tdim c) in *. set (E := b_vertices b) in *.
  assert (Sub : forall n g, P_space d n g -> P_space (b_dim b) n (fun s => g (on_entity vs E s))).
  { intros n g Hg. apply (degree_subst d n (b_dim b) g (fun j s => on_entity vs E s j) Hg). intros j _.
    apply (poly_space_ext _ (fun s => param vs E s j)); [intros s; symmetry; apply on_entity_param; lia|apply param_degree, K2]. }
  assert (OE : forall s i, (i <= d)%nat -> ~ In i E -> bary d i (on_entity vs E s) = 0).
  { intros s i Hi Ni. rewrite <- (K4 i s Hi Ni). apply (degree_local d 1 (bary d i)); [apply bary_degree, Hi|]. intros j _. apply on_entity_param. lia. }
  apply (poly_space_ext _ (fun s => a (on_entity vs E s) + sumR (map (fun b' => bubble d (b_vertices b') (on_entity vs E s)
      * q (b_vertices b') (coords d (b_vertices b') (on_entity vs E s))) (blocks c order eo fo)))); [intros s; symmetry; apply Ef|].
  apply poly_space_add; [apply (degree_weaken _ 1 M _ HM), Sub, Ha|].
  clear Ef Ha a Hb. revert HO Hq G. generalize (blocks c order eo fo) as bs.
  induction bs as [|b' bs IH]; intros HO Hq G; [apply poly_space_zero|].
  apply (poly_space_ext _ (fun s => bubble d (b_vertices b') (on_entity vs E s) * q (b_vertices b') (coords d (b_vertices b') (on_entity vs E s))
    + sumR (map (fun b' => bubble d (b_vertices b') (on_entity vs E s) * q (b_vertices b') (coords d (b_vertices b') (on_entity vs E s))) bs))); [reflexivity|].
  apply poly_space_add; [|apply IH; intros; (apply HO || apply Hq || apply G); try (right; assumption); assumption].
  pose proof (G b' (or_introl eq_refl)) as (B1 & B2 & B3 & _). pose proof (Hq b' (or_introl eq_refl)) as Q.
  destruct (ListDec.incl_dec Nat.eq_dec (b_vertices b') E) as [I|I].
  - pose proof (HO b' (or_introl eq_refl) I) as Lb. unfold inner_space in Q. destruct (Nat.ltb_spec (b_dim b') (b_order b')) as [L|L].
    + apply (Sub M (fun v => bubble d (b_vertices b') v * q (b_vertices b') (coords d (b_vertices b') v))).
      apply (degree_weaken _ (length (b_vertices b') + (b_order b' - b_dim b' - 1))); [lia|]. apply degree_mul; [apply bubble_degree, B3|].
      apply (degree_subst (b_dim b') (b_order b' - b_dim b' - 1) d (q (b_vertices b')) (fun i v => bary d (nth (S i) (b_vertices b') 0%nat) v) Q).
      intros j Hj. apply bary_degree, B3, nth_In. lia.
    + apply (poly_space_ext _ (fun _ => 0)); [intros s; rewrite Q; ring|apply poly_space_zero].
  - apply (poly_space_ext _ (fun _ => 0)); [|apply poly_space_zero]. intros s.
    assert (X : exists i, In i (b_vertices b') /\ ~ In i E).
    { clear - I. induction (b_vertices b') as [|x l IH]; [exfalso; apply I; intros y []|].
      destruct (in_dec Nat.eq_dec x E) as [Hx|Hx]; [|exists x; split; [left; reflexivity|exact Hx]].
      destruct IH as (i & H1 & H2); [intros H; apply I; intros y [<-|Hy]; [exact Hx|apply H, Hy]|]. exists i. split; [right; exact H1|exact H2]. }
    destruct X as (i & Hi & Ni). rewrite (bubble_zero d (b_vertices b') _ i Hi (OE s i (B3 i Hi) Ni)). ring.
Qed.
(** The orders do what they say: on a sub-entity whose order and those of the sub-entities of its boundary are at most M, the functions of
    the space are polynomials of degree at most M; in particular on an edge of order n they are polynomials of degree at most n,
    whatever the order of the cell is. *)
Theorem C85_transition_degrees : forall c vs order eo fo b M f, transition_cell c -> points (nvert c) (tdim c) vs ->
  In b (blocks c order eo fo) -> (1 <= M)%nat ->
  (forall b', In b' (blocks c order eo fo) -> incl (b_vertices b') (b_vertices b) -> (b_order b' <= M)%nat) ->
  transition_space_on c vs (blocks c order eo fo) f ->
  P_space (b_dim b) M (fun s => f (on_entity vs (b_vertices b) s)).
Proof.
  intros c vs order eo fo b M f Hc Hp Hb HM HO (g & Tg & FG).
  assert (Hr : exists r, make_reference c vs = Ok r).
  { destruct Hp as [L _]. destruct Hc as [->| ->]; unfold nvert in L; cbn in L; repeat (destruct vs as [|? vs]; try discriminate L); eexists; reflexivity. }
  destruct Hr as (r & Hr). assert (H : cell_at c vs r) by (split; [exact Hc|split; assumption]).
  apply (poly_space_ext _ (fun s => g (on_entity (reference_vertices c) (b_vertices b) s))).
  - intros s. symmetry. apply FG. intros j Hj.
    assert (K : (1 <= length (b_vertices b) <= 4)%nat).
    { destruct (good_cell c order eo fo Hc) as (G & _). rewrite Forall_forall in G. pose proof (G b Hb) as (K1 & K2 & _). lia. }
    rewrite on_entity_param by exact K. rewrite <- (map_param c vs r order eo fo b s j H Hb Hj). unfold the_map.
    assert (EP : on_entity (reference_vertices c) (b_vertices b) s = param (reference_vertices c) (b_vertices b) s).
    { apply functional_extensionality. intros j'. apply on_entity_param, K. }
    rewrite EP. reflexivity.
  - apply (reference_degrees c order eo fo); assumption.
Qed.
Print Assumptions C85_transition_degrees.
(** On the first edge, of order 1, the functions of a triangle of order 4 are linear. *)
Example C85_transition_degrees_example : forall f, transition_space_on CTriangle [[1; 0]; [3; 1]; [0; 2]] (blocks CTriangle 4 [1; 2; 5]%nat []) f ->
  P_space 1 1 (fun s => f (on_entity [[1; 0]; [3; 1]; [0; 2]] [1; 2]%nat s)).
Proof.
  intros f Hf. refine (C85_transition_degrees CTriangle [[1; 0]; [3; 1]; [0; 2]] 4 [1; 2; 5]%nat [] {| b_dim := 1; b_number := 0; b_vertices := [1; 2]%nat; b_order := 1 |} 1 f (or_introl eq_refl) _ (or_introl eq_refl) (le_n 1) _ Hf).
  - split; [reflexivity|repeat constructor].
  - intros b' Hb' I. cbn [blocks In] in Hb'. each_in Hb'; cbn [b_order nth b_vertices] in *; try lia; exfalso; specialize (I 0%nat); cbn in I; lia.
Qed.

(** Polynomials: if every order is at least m, the space contains all polynomials of degree m; if every order is at most M, it contains no
    others than polynomials of degree M.  With the same order n everywhere it is the space of all polynomials of degree n. *)
Theorem C85_transition_polynomials : forall c vs order eo fo, transition_cell c -> points (nvert c) (tdim c) vs -> map_det c vs <> 0 ->
  (forall m f, (1 <= m)%nat -> (forall b, In b (blocks c order eo fo) -> (m <= b_order b)%nat) -> P_space (tdim c) m f ->
     transition_space_on c vs (blocks c order eo fo) f) /\
  (forall M f, (1 <= M)%nat -> (forall b, In b (blocks c order eo fo) -> (b_order b <= M)%nat) ->
     transition_space_on c vs (blocks c order eo fo) f -> P_space (tdim c) M f).
Proof.
  intros c vs order eo fo Hc Hp HD.
  assert (Hr : exists r, make_reference c vs = Ok r).
  { destruct Hp as [L _]. destruct Hc as [->| ->]; unfold nvert in L; cbn in L; repeat (destruct vs as [|? vs]; try discriminate L); eexists; reflexivity. }
  destruct Hr as (r & Hr). assert (H : cell_at c vs r) by (split; [exact Hc|split; assumption]).
  destruct (inverse_found c vs r H HD) as (i & _ & _ & S1 & _ & S3).
  split; intros m f Hm Hb Hf.
  - exists (fun X => f (the_map c vs X)). split.
    + apply (polynomials_in_space c order eo fo m); try assumption.
      apply (degree_subst (tdim c) m (tdim c) f (fun j X => the_map c vs X j) Hf). intros j _.
      apply (poly_space_ext _ (fun s => param vs (seq 0 (S (tdim c))) s j)).
      * intros s. symmetry. apply on_entity_param. rewrite seq_length. destruct Hc as [->| ->]; cbn; lia.
      * apply param_degree. apply seq_length.
    + intros X v E. apply (degree_local _ _ f _ _ Hf). exact E.
  - destruct Hf as (g & Tg & FG). apply (poly_space_ext _ (fun v => g (fun k => nth k (i v) 0))).
    + intros v. symmetry. apply FG. intros j Hj. apply S1, Hj.
    + apply (degree_subst (tdim c) m (tdim c) g (fun k v => nth k (i v) 0)); [|exact S3]. apply (space_in_polynomials c order eo fo m); assumption.
Qed.
Print Assumptions C85_transition_polynomials.
(** On a tetrahedron of order 3 with edges of order 3 and faces of order 3: all cubic polynomials. *)
Example C85_transition_polynomials_example : forall f,
  transition_space_on CTetrahedron [[0; 0; 0]; [2; 0; 0]; [1; 1; 0]; [0; 0; 3]] (blocks CTetrahedron 3 [3; 3; 3; 3; 3; 3]%nat [3; 3; 3; 3]%nat) f <-> P_space 3 3 f.
Proof.
  intros f. destruct (C85_transition_polynomials CTetrahedron [[0; 0; 0]; [2; 0; 0]; [1; 1; 0]; [0; 0; 3]] 3 [3; 3; 3; 3; 3; 3]%nat [3; 3; 3; 3]%nat (or_intror eq_refl)) as (A & B).
  - split; [reflexivity|repeat constructor].
  - unfold map_det, edge_det3, co. cbn [nth]. lra.
  - split; [apply B|apply A]; try lia; intros b Hb; cbn [blocks In] in Hb; each_in Hb; cbn; lia.
Qed.
