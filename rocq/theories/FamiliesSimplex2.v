(** More families of FamiliesModel on simplices. *)
From Coq Require Import String ZArith Arith Bool Reals Lia List Permutation.
From Verif Require Import Base PolyLib PolySetsModel PolySetsProofs RTNedelecProofs QuadratureModel ReferencesModel
  ReferencesSpec ReferencesProofs MomentsModel ElementModel LagrangeModel LagrangeProofs LagrangeKey LagrangeUnisolvence
  PropertiesLagrange QProofs QDofs PropertiesQ FamiliesModel FamiliesSpec FamiliesMoments FamiliesBuilt FamiliesSimplex.
Import ListNotations.
Local Open Scope string_scope.
Local Open Scope nat_scope.
Local Open Scope list_scope.

Lemma tri_flat {B} (f : nat -> list B) m k : (forall i, i < m -> length (f i) = (m - i) * k) ->
  length (flat_map f (range m)) = tri m * k.
Proof.
  intros H. rewrite length_flat_map_sum. rewrite (sum_range_ext _ (fun i => (m - i) * k)) by exact H. unfold tri.
  induction (range m) as [|a l IH]; simpl; [reflexivity|]. rewrite IH. lia.
Qed.
Lemma const_flat {A B} (f : A -> list B) l k : (forall a, length (f a) = k) -> length (flat_map f l) = length l * k.
Proof. intros H. apply length_flat_map_const. intros a _. apply H. Qed.

Lemma bdfm_simplex_sized c n : 1 <= n -> c = CTriangle \/ c = CTetrahedron ->
  sized (bdfm_polyset c n) (match c with CTriangle => tri n * 2 + (n - 1) * 2 + 1 | _ => tet n * 3 + tri (n - 1) * 3 + n + (n - 1) end).
Proof.
  intros Hn Hc. unfold bdfm_polyset. destruct n as [|n]; [lia|]. replace (S n - 1) with n by lia.
  destruct Hc as [->| ->]; cbn [tdim].
  - destruct (polynomial_vector_sized 2 2 n ltac:(lia)) as (l & -> & L). eexists. split; [reflexivity|].
    rewrite !app_length, L, (const_flat _ _ 2) by reflexivity. rewrite length_range. cbn [length pdim].
    replace (n + 1) with (S n) by lia. lia.
  - destruct (polynomial_vector_sized 3 3 n ltac:(lia)) as (l & -> & L). eexists. split; [reflexivity|].
    rewrite !app_length, L, (tri_flat _ n 3), !map_length, length_range, length_range2.
    + cbn [pdim]. replace (n + 1) with (S n) by lia. lia.
    + intros i Hi. rewrite (const_flat _ _ 3) by reflexivity. rewrite length_range. lia.
Qed.
Lemma bdfm_simplex_built k c n : 4 <= k -> 1 <= n -> c = CTriangle \/ c = CTetrahedron ->
  built (construct k BDFM (default c) n "equispaced")
    (match c with CTriangle => tri n * 2 + (n - 1) * 2 + 1 | _ => tet n * 3 + tri (n - 1) * 3 + n + (n - 1) end) c.
Proof.
  intros Hk Hn Hc. destruct k as [|k]; [lia|]. destruct (default_shaped c ltac:(kn)) as [D S]. assert (T := proj1 (proj2 S)).
  cbn [construct]. unfold default_cell. rewrite D, T.
  eapply bind_poly; [apply bdfm_simplex_sized; assumption|]. intros p0 L0.
  destruct n as [|[|n]]; [lia| |]; destruct Hc as [->| ->].
  all: eapply bind_moments; [apply make_by_codimension; [exact S| |]|].
  - yes S CInterval 0 3 lag_interval.
  - no S.
  - fin.
  - yes S CTriangle 0 4 lag_triangle.
  - no S.
  - fin.
  - yes S CInterval (1 + n) 3 lag_interval.
  - yes S CTriangle (1 + n) 1 n1_triangle.
  - fin.
  - yes S CTriangle (1 + n) 4 lag_triangle.
  - yes S CTetrahedron (1 + n) 1 n1_tetrahedron.
  - fin.
Qed.

Lemma mtw_built k c : 5 <= k -> c = CTriangle \/ c = CTetrahedron ->
  built (construct k MardalTaiWinther (default c) 3 "equispaced") (match c with CTriangle => 9 | _ => 24 end) c.
Proof.
  intros Hk Hc. destruct k as [|k]; [lia|]. destruct (default_shaped c ltac:(kn)) as [D S]. assert (T := proj1 (proj2 S)).
  cbn [construct]. unfold default_cell, asserted. rewrite D, T. cbn [Nat.eqb].
  destruct Hc as [->| ->].
  - eapply bind_moments; [apply make_by_codimension; [exact S|yes S CInterval 1 3 lag_interval|apply slot_none]|]. intros d1 L1 F1.
    eapply bind_moments; [apply make_by_codimension; [exact S|yes S CInterval 0 3 lag_interval|apply slot_none]|]. intros d2 L2 F2.
    apply built_ciarlet; [reflexivity|rewrite app_length, L1, L2; reflexivity|apply Forall_app; split; assumption].
  - eapply bind_moments; [apply make_by_codimension; [exact S|yes S CTriangle 1 4 lag_triangle|apply slot_none]|]. intros d1 L1 F1.
    eapply (bind_poly _ 24); [eexists; split; reflexivity|]. intros p Lp.
    eapply bind_moments; [apply make_by_codimension; [exact S|yes S CTriangle 1 4 n1_triangle|apply slot_none]|]. intros d2 L2 F2.
    apply built_ciarlet; [exact Lp|rewrite app_length, L1, L2; reflexivity|apply Forall_app; split; assumption].
Qed.

Lemma entity_map_length {A} (l : list A) (d : nat -> fdof) m : length (flat_map (fun e => map (fun _ => d e) l) (range m)) = m * length l.
Proof. rewrite (const_flat _ _ (length l)) by (intros; apply map_length). rewrite length_range. reflexivity. Qed.
Lemma entity_map_on {A} (l : list A) cl mp c dim m : m <= nth dim (entity_numbers c) 0 ->
  Forall (fun d => on_cell c (f_entity d)) (flat_map (fun e => map (fun _ => on cl mp dim e) l) (range m)).
Proof. intros H. apply Forall_flat_map'. intros i Hi. apply in_range in Hi. apply on_map. lia. Qed.
Lemma repeat_map_length {A B C} (l : list A) (l' : list B) (d : C) : length (flat_map (fun _ => map (fun _ => d) l') l) = length l * length l'.
Proof. apply const_flat. intros. apply map_length. Qed.
Lemma repeat_map_on {A B} (l : list A) (l' : list B) cl mp c dim e : e < nth dim (entity_numbers c) 0 ->
  Forall (fun d => on_cell c (f_entity d)) (flat_map (fun _ => map (fun _ => on cl mp dim e) l') l).
Proof. intros H. apply Forall_flat_map'. intros i _. apply on_map, H. Qed.

Lemma tetrahedron_regge_integral : forall n k r, n + 3 <= k -> shaped CTetrahedron r ->
  built (construct k Regge r n "integral") (pdim 3 n * 6) CTetrahedron.
Proof.
  induction n as [n IH] using lt_wf_ind; intros k r Hk S; (destruct k as [|k]; [lia|]); assert (T := proj1 (proj2 S)); cbn [construct]; rewrite T;
    change ("integral" =? "point")%string with false; change ("integral" =? "integral")%string with true; cbv iota; cbn [tdim].
  eapply bind_poly; [apply sized_map, polynomial_vector_sized; lia|]; intros p0 L0.
  eapply bind_fe; [apply lag_interval; lia|]; intros e L _. eapply bind_count; [exact S|lia|].
  cbn [shape repeat length].
  destruct n as [|n].
  { cbn [Nat.ltb Nat.leb rbind]. apply built_ciarlet; [exact L0|rewrite !app_length, entity_map_length, L; reflexivity|].
    apply Forall_app; split; [apply entity_map_on; simpl; lia|constructor]. }
  change (0 <? Datatypes.S n) with true. cbv iota. cbn [Nat.sub]. rewrite Nat.sub_0_r.
  destruct (triangle_regge_integral n k (default CTriangle) ltac:(lia) (shaped_default CTriangle ltac:(kn))) as (rs & -> & _ & Lrs & _). cbn [rbind].
  destruct (proj2 (proj2 (proj2 S)) 2 ltac:(lia)) as [-> _]. cbn [rbind shape repeat length].
  destruct n as [|n].
  { cbn [Nat.ltb Nat.leb rbind]. apply built_ciarlet; [exact L0|rewrite !app_length, !entity_map_length, L, Lrs; reflexivity|].
    apply Forall_app; split; [apply entity_map_on; simpl; lia|]. apply Forall_app; split; [apply entity_map_on; simpl; lia|constructor]. }
  change (1 <? Datatypes.S (Datatypes.S n)) with true. cbv iota.
  eapply bind_moments; [apply make_by_codimension; [exact S|apply slot_none|]|].
  - eapply (slot_yes k _ _ _ _ _ _ _ _ CTetrahedron n _ 1); [exact S|simpl; lia|reflexivity|lia|simpl; lia|].
    apply IH; [lia|lia|]. apply shaped_default. kn.
  - intros ds Ls F. apply built_ciarlet; [exact L0| |].
    + rewrite !app_length, !entity_map_length, L, Ls, Lrs; clear; numbers.
    + apply Forall_app; split; [apply entity_map_on; simpl; lia|]. apply Forall_app; split; [apply entity_map_on; simpl; lia|exact F].
Qed.

Lemma hhj_built k c n : 2 <= k -> c = CTriangle \/ c = CTetrahedron ->
  built (construct k HellanHerrmannJohnson (default c) n "equispaced") (pdim (tdim c) n * match c with CTriangle => 3 | _ => 6 end) c.
Proof.
  intros Hk Hc. destruct k as [|k]; [lia|]. destruct (default_shaped c ltac:(kn)) as [D S]. assert (T := proj1 (proj2 S)).
  pose proof (cell_of_default c ltac:(kn)) as C.
  cbn [construct]. unfold default_cell, asserted. rewrite D, T.
  destruct Hc as [->| ->]; cbn [tdim Nat.eqb].
  all: eapply bind_poly; [apply sized_map, polynomial_vector_sized; lia|]; intros p0 L0.
  all: destruct n as [|n]; (eapply bind_moments; [apply make_by_codimension; [exact S| |apply slot_none]|]).
  1: yes S CInterval 0 3 lag_interval.
  2: yes S CInterval (1 + n) 3 lag_interval.
  3: yes S CTriangle 0 4 lag_triangle.
  4: yes S CTriangle (1 + n) 4 lag_triangle.
  all: intros ds L F; cbn [Nat.ltb Nat.leb Nat.sub rbind]; rewrite ?Nat.sub_0_r.
  - destruct (lag k _ _ 0 ltac:(lia) C) as (e & -> & _ & Le & _). cbn [rbind].
    apply built_ciarlet; [exact L0|rewrite !app_length, repeat_map_length, L; cbn [length range seq]; clear; numbers|].
    apply Forall_app; split; [exact F|]. apply Forall_app; split; [constructor|]. apply repeat_map_on. simpl; lia.
  - destruct (lag k _ _ n ltac:(lia) C) as (e & -> & _ & Le & _). cbn [rbind].
    destruct (lag k _ _ (Datatypes.S n) ltac:(lia) C) as (e' & -> & _ & Le' & _). cbn [rbind].
    apply built_ciarlet; [exact L0|rewrite !app_length, !repeat_map_length, L, Le; cbn [length range seq]; clear; numbers|].
    apply Forall_app; split; [exact F|]. apply Forall_app; split; apply repeat_map_on; simpl; lia.
  - destruct (lag k _ _ 0 ltac:(lia) C) as (e & -> & _ & Le & _). cbn [rbind].
    apply built_ciarlet; [exact L0|rewrite !app_length, repeat_map_length, L, Le; cbn [length range seq]; clear; numbers|].
    apply Forall_app; split; [exact F|]. apply Forall_app; split; [constructor|]. apply repeat_map_on. simpl; lia.
  - destruct (lag k _ _ n ltac:(lia) C) as (e & -> & _ & Le & _). cbn [rbind].
    destruct (lag k _ _ (Datatypes.S n) ltac:(lia) C) as (e' & -> & _ & Le' & _). cbn [rbind].
    apply built_ciarlet; [exact L0|rewrite !app_length, !repeat_map_length, L, Le, Le'; cbn [length range seq]; clear; numbers|].
    apply Forall_app; split; [exact F|]. apply Forall_app; split; apply repeat_map_on; simpl; lia.
Qed.

Lemma aw_built k r n : 2 <= k -> 3 <= n -> cell_of CTriangle r -> (4 <= n -> aw_extra r (n - 4) "equispaced" = Ok (n - 3)) ->
  built (construct k ArnoldWinther r n "equispaced") (tri n * 3 + (n + 3)) CTriangle.
Proof.
  intros Hk Hn C X. destruct k as [|k]; [lia|]. pose proof (cell_of_shaped _ r C) as S. assert (T := proj1 (proj2 S)).
  cbn [construct]. unfold asserted. rewrite T. cbn [tdim].
  destruct n as [|[|[|n]]]; [lia|lia|lia|].
  eapply (bind_poly _ (tri (3 + n) * 3 + (3 + n + 3))).
  { unfold aw_poly. destruct (polynomial_vector_sized 2 3 (3 + n - 1) ltac:(lia)) as (l & E & L). cbn [Nat.add] in E. rewrite E.
    eexists. split; [reflexivity|]. rewrite !app_length, !map_length, L, length_range. cbn [length pdim Nat.add Nat.sub].
    replace (n + 1) with (Datatypes.S n) by lia. lia. }
  intros p0 L0. eapply bind_count; [exact S|lia|].
  eapply bind_fe; [apply lag_interval; lia|]; intros e L _.
  eapply bind_fe; [apply lag; [lia|exact C]|]; intros e' L' _.
  cbn [Nat.sub] in *. rewrite Nat.sub_0_r in L'. rewrite (proj1 (proj2 (proj2 S))). change (nvert CTriangle) with 3. cbn [shape repeat length].
  destruct n as [|n]; cbn [Nat.leb rbind rmap].
  - apply built_ciarlet; [exact L0| |].
    + rewrite !app_length, !repeat_map_length, entity_map_length, L'. rewrite (const_flat _ _ (length (fe_dofs e) * 2)) by
        (intros; rewrite repeat_map_length, length_range; reflexivity). rewrite !length_range, L. reflexivity.
    + apply Forall_app; split; [apply entity_map_on; simpl; lia|]. apply Forall_app; split.
      { apply Forall_flat_map'. intros i Hi. apply in_range in Hi. apply repeat_map_on. exact Hi. }
      apply Forall_app; split; [apply repeat_map_on; simpl; lia|constructor].
  - specialize (X ltac:(lia)). cbn [Nat.sub] in X. rewrite Nat.sub_0_r in X. replace (Datatypes.S n - 1) with n by lia. rewrite X. cbn [rbind].
    apply built_ciarlet; [exact L0| |].
    + rewrite !app_length, !repeat_map_length, entity_map_length, L', map_length. rewrite (const_flat _ _ (length (fe_dofs e) * 2)) by
        (intros; rewrite repeat_map_length, length_range; reflexivity). rewrite !length_range, L. clear. cbn [tdim pdim].
      replace (Datatypes.S (Datatypes.S (n - 0)) + 1) with (n + 3) by lia. numbers.
    + apply Forall_app; split; [apply entity_map_on; simpl; lia|]. apply Forall_app; split.
      { apply Forall_flat_map'. intros i Hi. apply in_range in Hi. apply repeat_map_on. exact Hi. }
      apply Forall_app; split; [apply repeat_map_on; simpl; lia|apply on_map; simpl; lia].
Qed.
(** with another number of the moments of aw.py:100-104 the sizes differ *)
Lemma aw_fails k r n x : 2 <= k -> 4 <= n -> cell_of CTriangle r -> aw_extra r (n - 4) "equispaced" = Ok x -> x <> n - 3 ->
  construct k ArnoldWinther r n "equispaced" = Err AssertionError.
Proof.
  intros Hk Hn C X NX. destruct k as [|k]; [lia|]. pose proof (cell_of_shaped _ r C) as S. assert (T := proj1 (proj2 S)).
  cbn [construct]. unfold asserted. rewrite T. cbn [tdim].
  destruct n as [|[|[|[|n]]]]; [lia|lia|lia|lia|].
  assert (P : sized (aw_poly 2 (4 + n)) (tri (4 + n) * 3 + (4 + n + 3))).
  { unfold aw_poly. destruct (polynomial_vector_sized 2 3 (4 + n - 1) ltac:(lia)) as (l & E & L). rewrite E.
    eexists. split; [reflexivity|]. rewrite !app_length, !map_length, L, length_range. cbn [length pdim Nat.add Nat.sub].
    replace (n + 1) with (Datatypes.S n) by lia. lia. }
  destruct P as (p0 & P & L0). cbn [Nat.add] in P. rewrite P. cbn [rbind].
  destruct (proj2 (proj2 (proj2 S)) 1 ltac:(lia)) as [-> _]. cbn [rbind].
  destruct (lag_interval k (Datatypes.S (Datatypes.S (Datatypes.S (Datatypes.S n))) - 2) ltac:(lia)) as (e & -> & _ & L & _). cbn [rbind].
  destruct (lag k CTriangle r (Datatypes.S (Datatypes.S (Datatypes.S (Datatypes.S n))) - 3) ltac:(lia) C) as (e' & -> & _ & L' & _). cbn [rbind].
  cbn [Nat.leb]. rewrite X. cbn [rbind]. unfold ciarlet. rewrite (proj1 (proj2 (proj2 S))). change (nvert CTriangle) with 3. cbn [shape repeat length].
  match goal with |- context [length p0 =? ?m] => replace (length p0 =? m) with false; [reflexivity|] end.
  symmetry. apply Nat.eqb_neq. rewrite L0, !app_length, !repeat_map_length, entity_map_length, L', map_length. rewrite (const_flat _ _ (length (fe_dofs e) * 2)) by
    (intros; rewrite repeat_map_length, length_range; reflexivity). rewrite !length_range, L. clear -NX. cbn [tdim pdim].
  replace (Datatypes.S (Datatypes.S (Datatypes.S (Datatypes.S n))) - 3) with (n + 1) in * by lia.
  replace (Datatypes.S (Datatypes.S (Datatypes.S (Datatypes.S n))) - 2) with (n + 2) by lia.
  replace (4 + n) with (n + 4) by lia. pose proof (tri_closed (n + 4)). pose proof (tri_closed (n + 1 + 1)). intros E. apply NX. nia.
Qed.

Lemma naw_built k r : 2 <= k -> cell_of CTriangle r ->
  built (construct k NonConformingArnoldWinther r 2 "equispaced") 15 CTriangle.
Proof.
  intros Hk C. destruct k as [|k]; [lia|]. pose proof (cell_of_shaped _ r C) as S. assert (T := proj1 (proj2 S)).
  cbn [construct]. unfold asserted. rewrite T. cbn [tdim].
  eapply (bind_poly _ 15); [eexists; split; reflexivity|].
  intros p0 L0. eapply bind_count; [exact S|lia|].
  eapply bind_fe; [apply lag_interval; lia|]; intros e L _.
  eapply bind_fe; [apply lag; [lia|exact C]|]; intros e' L' _.
  cbn [shape repeat length].
  apply built_ciarlet; [exact L0| |].
  + rewrite !app_length, !repeat_map_length, L'. rewrite (const_flat _ _ (length (fe_dofs e) * 2)) by
        (intros; rewrite repeat_map_length, length_range; reflexivity). rewrite !length_range, L. reflexivity.
  + apply Forall_app; split.
    { apply Forall_flat_map'. intros i Hi. apply in_range in Hi. apply repeat_map_on. exact Hi. }
    apply repeat_map_on; simpl; lia.
Qed.

(** * Tuples with bounded sum *)
Lemma dpc_points_in d n m : In m (dpc_points d n) <-> length m = d /\ list_sum m <= n.
Proof.
  unfold dpc_points. rewrite filter_In, in_product_range, Nat.leb_le. split; [tauto|]. intros [L S]. split; [|exact S].
  split; [exact L|]. apply Forall_forall. intros a Ha. assert (a <= list_sum m); [|lia]. clear -Ha. induction m as [|b m IH]; [destruct Ha|].
  destruct Ha as [->|Ha]; simpl; [lia|]. specialize (IH Ha). lia.
Qed.
Lemma dpc_points_nodup d n : NoDup (dpc_points d n).
Proof. apply NoDup_filter, NoDup_product. apply Forall_forall. intros l Hl. apply repeat_spec in Hl. subst. apply NoDup_range. Qed.
Lemma same_length {A} (l l' : list A) : NoDup l -> NoDup l' -> (forall x, In x l <-> In x l') -> length l = length l'.
Proof. intros H H' E. apply Nat.le_antisymm; apply NoDup_incl_length; [exact H| |exact H'|]; intros x Hx; apply E, Hx. Qed.
Lemma dpc_points_length d n : 1 <= d <= 3 -> length (dpc_points d n) = pdim d n.
Proof.
  intros Hd. destruct (polynomial_sized d n Hd) as (l & E & <-).
  destruct (polynomial_set_1d_ok d n Hd) as (l' & E' & ND & IN & _). rewrite E in E'. injection E' as <-.
  apply same_length; [apply dpc_points_nodup|exact ND|]. intros m. rewrite dpc_points_in, IN. unfold complete_mono.
  pose proof (mdeg_list_sum m). lia.
Qed.

Lemma taylor_built k c r n : 2 <= k -> cell_of c r ->
  built (construct k Taylor r n "equispaced") (pdim (tdim c) n) c.
Proof.
  intros Hk C. destruct k as [|k]; [lia|]. pose proof (cell_of_shaped c r C) as S. assert (T := proj1 (proj2 S)).
  cbn [construct]. rewrite T. destruct C as [Hc _].
  assert (Td : 1 <= tdim c <= 3) by (destruct Hc as [->|[->| ->]]; simpl; lia).
  assert (M : moments_res c (make_integral_moment_dofs cls string "equispaced" cls_min_order (dcount k) r
      (by_codimension None (Some (moment_data "IntegralMoment" Lagrange 0 None "equispaced")))) (0 + 1 * pdim (tdim c) 0)).
  { apply make_by_codimension; [exact S|apply slot_none|].
    eapply (slot_yes _ _ _ _ _ _ _ _ _ c 0 _ 1);
      [exact S|lia|destruct Hc as [->|[->| ->]]; reflexivity|reflexivity|simpl; lia|apply lag_default; [lia|exact Hc]]. }
  assert (P0 : pdim (tdim c) 0 = 1) by (destruct Hc as [->|[->| ->]]; reflexivity). rewrite P0 in M.
  destruct M as (ds & E & L & F).
  change (make_integral_moment_dofs cls string "equispaced" cls_min_order _ r _) with
    (make_integral_moment_dofs cls string "equispaced" cls_min_order (dcount k) r
      (by_codimension None (Some (moment_data "IntegralMoment" Lagrange 0 None "equispaced")))).
  destruct (make_integral_moment_dofs cls string "equispaced" cls_min_order (dcount k) r _) as [d0|]; [|discriminate E].
  cbn [rmap] in E. injection E as E. cbn [rbind]. rewrite E.
  destruct (polynomial_sized (tdim c) n Td) as (l & -> & Ll). cbn [rbind].
  apply built_ciarlet; [rewrite map_length; exact Ll| |].
  - rewrite app_length, map_length, L, <- (dpc_points_length (tdim c) n Td).
    match goal with |- _ + length ?t = _ => change (length (repeat 0 (tdim c) :: t) = length (dpc_points (tdim c) n)) end.
    apply same_length; [|apply dpc_points_nodup|].
    + constructor.
      * rewrite filter_In. intros [_ H]. apply andb_true_iff in H. destruct H as [H _]. apply Nat.leb_le in H.
        rewrite list_sum_repeat in H. lia.
      * apply NoDup_filter, NoDup_product. apply Forall_forall. intros l' Hl. apply repeat_spec in Hl. subst. apply NoDup_range.
    + intros m. cbn [In]. rewrite filter_In, dpc_points_in, andb_true_iff, !Nat.leb_le. split.
      * intros [<-|[H [_ H']]]; [rewrite repeat_length, list_sum_repeat; lia|]. apply in_product_range in H. tauto.
      * intros [Lm Sm]. destruct (Nat.eq_dec (list_sum m) 0) as [Z|Z].
        -- left. rewrite <- Lm. clear -Z. induction m as [|b m IH]; [reflexivity|].
           simpl in *. f_equal; [lia|]. apply IH; lia.
        -- right. split; [|lia]. assert (H : In m (dpc_points (tdim c) n)) by (apply dpc_points_in; tauto).
           unfold dpc_points in H. apply filter_In in H. tauto.
  - apply Forall_app; split; [exact F|]. apply on_map. destruct Hc as [->|[->| ->]]; simpl; lia.
Qed.
