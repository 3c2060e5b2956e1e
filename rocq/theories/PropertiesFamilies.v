(** C18: the constructors of FamiliesModel define as many degrees of freedom as functions, for all orders. *)
From Coq Require Import Reals ZArith Lia Lra Arith String List.
From Verif Require Import Base PolyLib PolySetsModel PolySetsProofs QuadratureModel ReferencesModel ReferencesSpec
  ReferencesProofs ReferencesGeometry LinAlg CiarletModel CiarletProofs MomentsModel ElementModel LagrangeModel LagrangeProofs
  LagrangeKey LagrangeUnisolvence PropertiesLagrange FamiliesModel FamiliesSpec FamiliesMoments
  FamiliesBuilt FamiliesSimplex FamiliesSimplex2 FamiliesAW FamiliesTensor FamiliesTensor2 FamiliesTensor3 FamiliesPrism.
From Verif Require QProofs.
Import ListNotations.
Local Open Scope string_scope.
Local Open Scope nat_scope.
Local Open Scope list_scope.

Lemma good_built x k f c n : built x k c -> 6 * k = six_dim f c n -> good_element x f c n.
Proof. intros (e & E & Lp & Ld & F) H. exists e. repeat split; try assumption; congruence. Qed.

Lemma create_inside f r c n v : r_type r = c -> gdim r = tdim c -> In c (references f) -> admissible f n ->
  create f r n v = construct (n + 4) f r n v.
Proof.
  intros T G Hc [H1 H2]. unfold create. rewrite T, G, Nat.eqb_refl. cbn [negb].
  replace (existsb _ (references f)) with true.
  2: { symmetry. apply existsb_exists. exists c. split; [exact Hc|]. destruct (cell_type_eq_dec c c); [reflexivity|contradiction]. }
  cbn [negb]. replace (n <? min_order f) with false by (symmetry; apply Nat.ltb_ge; exact H1).
  destruct (max_order f) as [m|]; [|reflexivity]. replace (m <? n) with false by (symmetry; apply Nat.ltb_ge; exact H2). reflexivity.
Qed.

Ltac arith := repeat match goal with
  | |- context [tri ?m] => let t := fresh "t" in pose proof (tri_closed m); set (t := tri m) in *; clearbody t
  | |- context [tet ?m] => let t := fresh "t" in pose proof (tet_closed m); set (t := tet m) in *; clearbody t
  | |- context [pdim 2 ?m] => let t := fresh "t" in pose proof (pdim2 m); set (t := pdim 2 m) in *; clearbody t
  | |- context [pdim 3 ?m] => let t := fresh "t" in pose proof (pdim3 m); set (t := pdim 3 m) in *; clearbody t
  end.
Ltac close := cbn [six_dim tdim pdim Nat.pow]; unfold pdim; arith; nia.

(** * Simplices with any vertices
    No condition on the vertices but their number and dimension. *)
Definition for_simplices (f : family) : Prop :=
  match f with
  | Lagrange | VectorLagrange | MatrixLagrange | SymmetricMatrixLagrange | RaviartThomas | NedelecFirstKind
  | NedelecSecondKind | Regge | NonConformingArnoldWinther | Taylor => True
  | _ => False
  end.
Lemma tt c : In c [CTriangle; CTetrahedron] -> c = CTriangle \/ c = CTetrahedron.
Proof. intros [<-|[<-|[]]]; tauto. Qed.
Lemma simplex_gdim c vs r : simplex c -> points (nvert c) (tdim c) vs -> make_reference c vs = Ok r -> r_type r = c /\ gdim r = tdim c.
Proof.
  intros [->|[->| ->]] [L F] H; cbn [nvert tdim] in *.
  - destruct vs as [|a [|b [|]]]; try discriminate L. injection H as <-. split; [reflexivity|]. inversion F; assumption.
  - destruct vs as [|a [|b [|d [|]]]]; try discriminate L. injection H as <-. split; [reflexivity|]. inversion F; assumption.
  - destruct vs as [|a [|b [|d [|e [|]]]]]; try discriminate L. injection H as <-. split; [reflexivity|]. inversion F; assumption.
Qed.

Theorem C18_simplices_partial : forall f c vs r n, for_simplices f -> In c (references f) -> admissible f n ->
  points (nvert c) (tdim c) vs -> make_reference c vs = Ok r ->
  good_element (create f r n (default_variant f)) f c n.
Proof.
  intros f c vs r n Hf Hc Ha Hp Hr.
  assert (Sc : simplex c) by (destruct f; try destruct Hf; cbn [references] in Hc; unfold simplex; cbn [In] in Hc; intuition (subst; auto)).
  assert (C : cell_of c r) by (split; [exact Sc|exists vs; split; assumption]).
  destruct (simplex_gdim c vs r Sc Hp Hr) as [T G]. rewrite (create_inside f r c n _ T G Hc Ha). destruct Ha as [H1 H2].
  destruct f; try destruct Hf; cbn [references min_order max_order default_variant] in *.
  - eapply good_built; [apply lag; [lia|exact C]|]. destruct Sc as [->|[->| ->]]; close.
  - eapply good_built; [apply vlag; [lia|exact C]|]. destruct Sc as [->|[->| ->]]; close.
  - eapply good_built; [apply matrix_built; [lia|apply tt, Hc|exact C]|]. destruct (tt c Hc) as [->| ->]; close.
  - eapply good_built; [apply symmetric_built; [lia|apply tt, Hc|exact C]|]. destruct (tt c Hc) as [->| ->]; close.
  - eapply good_built; [apply rt_built; [lia|lia|apply tt, Hc|exact C]|]. destruct (tt c Hc) as [->| ->]; close.
  - eapply good_built; [apply n1_built; [lia|lia|apply tt, Hc|exact C]|]. destruct (tt c Hc) as [->| ->]; close.
  - eapply good_built; [apply n2_built; [lia|lia|apply tt, Hc|exact C]|]. destruct (tt c Hc) as [->| ->]; close.
  - eapply good_built; [apply regge_built; [lia|apply tt, Hc|apply cell_of_shaped, C]|]. destruct (tt c Hc) as [->| ->]; close.
  - assert (n = 2) by lia. subst n. destruct Hc as [<-|[]]. eapply good_built; [apply naw_built; [lia|exact C]|]. reflexivity.
  - eapply good_built; [apply taylor_built; [lia|exact C]|]. destruct Sc as [->|[->| ->]]; close.
Qed.
Example C18_simplices_example : exists r, make_reference CTriangle [[0; 0]; [3; 1]; [1; 2]]%R = Ok r /\
  good_element (create RaviartThomas r 2 "equispaced") RaviartThomas CTriangle 2 /\ six_dim RaviartThomas CTriangle 2 = 6 * 8.
Proof.
  eexists. split; [reflexivity|]. split; [|reflexivity].
  apply (C18_simplices_partial RaviartThomas CTriangle [[0; 0]; [3; 1]; [1; 2]]%R); try reflexivity; try exact I.
  - left; reflexivity.
  - split; [simpl; lia|exact I].
  - split; [reflexivity|]. repeat constructor.
Qed.

(** The variant "integral" of Regge elements. *)
Theorem C18_regge_integral_partial : forall c vs r n, In c (references Regge) -> points (nvert c) (tdim c) vs -> make_reference c vs = Ok r ->
  good_element (create Regge r n "integral") Regge c n.
Proof.
  intros c vs r n Hc Hp Hr. assert (Sc : simplex c) by (unfold simplex; cbn [references In] in Hc; intuition (subst; auto)).
  assert (C : cell_of c r) by (split; [exact Sc|exists vs; split; assumption]).
  destruct (simplex_gdim c vs r Sc Hp Hr) as [T G]. rewrite (create_inside Regge r c n _ T G Hc) by (split; [simpl; lia|exact I]).
  destruct (tt c Hc) as [->| ->].
  - eapply good_built; [apply triangle_regge_integral; [lia|apply cell_of_shaped, C]|]. close.
  - eapply good_built; [apply tetrahedron_regge_integral; [lia|apply cell_of_shaped, C]|]. close.
Qed.
Example C18_regge_integral_example : good_element (create Regge (default CTetrahedron) 3 "integral") Regge CTetrahedron 3 /\ six_dim Regge CTetrahedron 3 = 6 * 120.
Proof.
  split; [|reflexivity]. apply (C18_regge_integral_partial CTetrahedron (reference_vertices CTetrahedron)); [right; left; reflexivity| |reflexivity].
  split; [reflexivity|repeat constructor].
Qed.

(** * Default cells
    All families, cells and orders that create_element accepts, but one. *)
Lemma q3 c : In c [CQuadrilateral; CHexahedron] -> two_three c.
Proof. intros [<-|[<-|[]]]; [left|right]; reflexivity. Qed.
Lemma t3 c : In c [CInterval; CQuadrilateral; CHexahedron] -> QProofs.tensor c.
Proof. intros [<-|[<-|[<-|[]]]]; unfold QProofs.tensor; tauto. Qed.

Theorem C18_default_cells_partial : forall f c n, In c (references f) -> admissible f n ->
  (f = TrimmedSerendipityHcurl -> c = CHexahedron -> n <= 3) ->
  good_element (create f (default c) n (default_variant f)) f c n.
Proof.
  intros f c n Hc Ha Hx.
  assert (TG : r_type (default c) = c /\ gdim (default c) = tdim c).
  { destruct f; cbn [references In] in Hc; repeat (destruct Hc as [<-|Hc]; [split; reflexivity|]); destruct Hc. }
  rewrite (create_inside f (default c) c n _ (proj1 TG) (proj2 TG) Hc Ha). destruct Ha as [H1 H2].
  destruct f; cbn [references min_order max_order default_variant] in *.
  - eapply good_built; [apply lag_default; [lia|unfold simplex; cbn [In] in Hc; intuition (subst; auto)]|]. repeat (destruct Hc as [<-|Hc]; [close|]). destruct Hc.
  - eapply good_built; [apply vlag; [lia|apply cell_of_default; unfold simplex; cbn [In] in Hc; intuition (subst; auto)]|]. repeat (destruct Hc as [<-|Hc]; [close|]). destruct Hc.
  - eapply good_built; [apply matrix_built; [lia|apply tt, Hc|apply cell_of_default; unfold simplex; cbn [In] in Hc; intuition (subst; auto)]|]. destruct (tt c Hc) as [->| ->]; close.
  - eapply good_built; [apply symmetric_built; [lia|apply tt, Hc|apply cell_of_default; unfold simplex; cbn [In] in Hc; intuition (subst; auto)]|]. destruct (tt c Hc) as [->| ->]; close.
  - eapply good_built; [apply rt_built; [lia|lia|apply tt, Hc|apply cell_of_default; unfold simplex; cbn [In] in Hc; intuition (subst; auto)]|]. destruct (tt c Hc) as [->| ->]; close.
  - eapply good_built; [apply n1_built; [lia|lia|apply tt, Hc|apply cell_of_default; unfold simplex; cbn [In] in Hc; intuition (subst; auto)]|]. destruct (tt c Hc) as [->| ->]; close.
  - eapply good_built; [apply n2_built; [lia|lia|apply tt, Hc|apply cell_of_default; unfold simplex; cbn [In] in Hc; intuition (subst; auto)]|]. destruct (tt c Hc) as [->| ->]; close.
  - eapply good_built; [apply bdm_built; [lia|lia|apply tt, Hc]|]. destruct (tt c Hc) as [->| ->]; close.
  - (* BDFM *) destruct Hc as [<-|[<-|[<-|[<-|[]]]]].
    + eapply good_built; [apply bdfm_simplex_built; [lia|lia|tauto]|]. destruct n as [|n]; [lia|]. replace (S n - 1) with n by lia. close.
    + eapply good_built; [apply bdfm_tensor_built; [lia|lia|left; reflexivity]|]. close.
    + eapply good_built; [apply bdfm_tensor_built; [lia|lia|right; reflexivity]|]. close.
    + eapply good_built; [apply bdfm_simplex_built; [lia|lia|tauto]|]. destruct n as [|n]; [lia|]. replace (S n - 1) with n by lia. cbn [six_dim]. replace (S n - 1) with n by lia. arith. nia.
  - eapply good_built; [apply q_built; [lia|apply t3; destruct Hc as [<-|[<-|[]]]; simpl; tauto]|]. destruct Hc as [<-|[<-|[]]]; close.
  - eapply good_built; [apply vq_built; [lia|apply q3, Hc]|]. destruct Hc as [<-|[<-|[]]]; close.
  - destruct Hc as [<-|[<-|[]]].
    + eapply good_built; [apply qn_quadrilateral; lia|]. close.
    + eapply good_built; [apply (qn_qrt_hexahedron n (n + 4)); lia|]. close.
  - destruct Hc as [<-|[<-|[]]].
    + eapply good_built; [apply qrt_quadrilateral; lia|]. close.
    + eapply good_built; [apply (qn_qrt_hexahedron n (n + 4)); lia|]. close.
  - eapply good_built; [apply dpc_built; [lia|apply t3, Hc]|]. destruct Hc as [<-|[<-|[<-|[]]]]; close.
  - eapply good_built; [apply vdpc_built; [lia|apply q3, Hc]|]. destruct Hc as [<-|[<-|[]]]; close.
  - (* Serendipity *) eapply good_built; [apply serendipity_built; [lia|lia|apply t3, Hc]|]. destruct Hc as [<-|[<-|[<-|[]]]]; cbn [six_dim].
    + close.
    + destruct n as [|[|[|[|n]]]]; [lia|reflexivity|reflexivity|reflexivity|]. cbn [Nat.eqb Nat.sub]. close.
    + destruct n as [|[|[|[|[|[|n]]]]]]; [lia|reflexivity|reflexivity|reflexivity|reflexivity|reflexivity|]. cbn [Nat.eqb Nat.sub ser3]. unfold ser3. close.
  - (* SerendipityCurl *) eapply good_built; [apply sercurl_built; [lia|lia|apply q3, Hc]|]. destruct Hc as [<-|[<-|[]]]; cbn [six_dim].
    + destruct n as [|n]; [lia|]. cbn [Nat.sub]. replace (n - 0) with n by lia. close.
    + destruct n as [|[|[|n]]]; [lia|reflexivity|reflexivity|]. cbn [Nat.sub]. replace (n - 0) with n by lia. close.
  - (* SerendipityDiv *) eapply good_built; [apply serdiv_built; [lia|lia|apply q3, Hc]|]. destruct n as [|n]; [lia|]. destruct Hc as [<-|[<-|[]]]; cbn [six_dim Nat.sub]; replace (n - 0) with n by lia; close.
  - (* trimmed serendipity *) destruct Hc as [<-|[<-|[]]].
    + eapply good_built; [apply ts_hcurl_quadrilateral_built; lia|]. destruct n as [|[|n]]; [lia|reflexivity|]. close.
    + specialize (Hx eq_refl eq_refl). eapply good_built; [apply ts_hcurl_hexahedron_built; lia|]. destruct n as [|[|[|[|n]]]]; try lia; reflexivity.
  - destruct Hc as [<-|[<-|[]]].
    + eapply good_built; [apply ts_hdiv_quadrilateral_built; lia|]. destruct n as [|[|n]]; [lia|reflexivity|]. close.
    + eapply good_built; [apply ts_hdiv_hexahedron_built; lia|]. destruct n as [|[|n]]; [lia|reflexivity|]. cbn [six_dim Nat.sub]. replace (n - 0) with n by lia. close.
  - destruct Hc as [<-|[]]. eapply good_built; [apply abf_built; lia|]. close.
  - destruct Hc as [<-|[]]. eapply good_built; [apply ac_built; lia|]. destruct n as [|n]; [reflexivity|]. close.
  - destruct Hc as [<-|[]]. eapply good_built; [apply bddf_built; lia|]. destruct n as [|n]; [lia|]. cbn [six_dim Nat.sub]. replace (n - 0) with n by lia. close.
  - assert (n = 3) by lia. subst n. eapply good_built; [apply mtw_built; [lia|apply tt, Hc]|]. destruct (tt c Hc) as [->| ->]; reflexivity.
  - destruct Hc as [<-|[]]. eapply good_built; [apply nedelec_prism_built; lia|]. destruct n as [|[|[|n]]]; try lia; reflexivity.
  - destruct Hc as [<-|[]]. destruct (prism_built (n + 4) n ltac:(lia)) as (K & B & HK). eapply good_built; [exact B|]. cbn [six_dim]. lia.
  - destruct Hc as [<-|[]]. destruct (vprism_built (n + 4) n ltac:(lia)) as (K & B & HK). eapply good_built; [exact B|]. cbn [six_dim]. lia.
  - eapply good_built; [apply regge_built; [lia|apply tt, Hc|apply shaped_default; unfold known; cbn [In] in Hc; intuition (subst; auto)]|]. destruct (tt c Hc) as [->| ->]; close.
  - eapply good_built; [apply regge_tp_built; [lia|apply q3, Hc|apply shaped_default; unfold known; cbn [In] in Hc; intuition (subst; auto)]|]. destruct Hc as [<-|[<-|[]]]; close.
  - eapply good_built; [apply hhj_built; [lia|apply tt, Hc]|]. destruct (tt c Hc) as [->| ->]; close.
  - destruct Hc as [<-|[]]. eapply good_built; [apply hz_built; lia|]. close.
  - destruct Hc as [<-|[]]. eapply good_built; [apply aw_built; [lia|lia|apply cell_of_default; unfold simplex; tauto|]|].
    + intros Hn. rewrite aw_extra_default. f_equal. lia.
    + close.
  - assert (n = 2) by lia. subst n. destruct Hc as [<-|[]]. eapply good_built; [apply naw_built; [lia|apply cell_of_default; unfold simplex; tauto]|]. reflexivity.
  - eapply good_built; [apply taylor_built; [lia|apply cell_of_default; unfold simplex; cbn [In] in Hc; intuition (subst; auto)]|]. repeat (destruct Hc as [<-|Hc]; [close|]). destruct Hc.
Qed.
Example C18_default_cells_example : good_element (create Serendipity (default CHexahedron) 7 "equispaced") Serendipity CHexahedron 7 /\ six_dim Serendipity CHexahedron 7 = 6 * 144.
Proof. split; [|reflexivity]. apply (C18_default_cells_partial Serendipity CHexahedron 7); [right; right; left; reflexivity|split; [simpl; lia|exact I]|discriminate]. Qed.

(** * The Arnold-Winther element on other triangles
    Orders 3 and 4 are right on all triangles.  On a triangle without a horizontal edge order 5 is not: of the
    Lagrange basis functions of order 1 all three, not two, have degree 1 in x (aw.py:100-104). *)
Theorem C18_arnold_winther_partial : forall vs r n, 3 <= n <= 4 -> points 3 2 vs -> make_reference CTriangle vs = Ok r ->
  good_element (create ArnoldWinther r n "equispaced") ArnoldWinther CTriangle n.
Proof.
  intros vs r n Hn Hp Hr. assert (Sc : simplex CTriangle) by (unfold simplex; tauto).
  assert (C : cell_of CTriangle r) by (split; [exact Sc|exists vs; split; assumption]).
  destruct (simplex_gdim CTriangle vs r Sc Hp Hr) as [T G].
  rewrite (create_inside ArnoldWinther r CTriangle n _ T G) by first [left; reflexivity|split; [simpl; lia|exact I]].
  eapply good_built; [apply aw_built; [lia|lia|exact C|]|].
  - intros H4. assert (n = 4) by lia. subst n. exact (aw_extra_zero vs r Hp Hr).
  - close.
Qed.
Lemma arnold_winther_five x0 y0 x1 y1 x2 y2 r : (y0 <> y1 -> y1 <> y2 -> y2 <> y0 -> map_det CTriangle [[x0; y0]; [x1; y1]; [x2; y2]] <> 0)%R ->
  (y0 <> y1)%R -> (y1 <> y2)%R -> (y2 <> y0)%R -> make_reference CTriangle [[x0; y0]; [x1; y1]; [x2; y2]] = Ok r ->
  create ArnoldWinther r 5 "equispaced" = Err AssertionError.
Proof.
  intros D N01 N12 N20 Hr. specialize (D N01 N12 N20). assert (Sc : simplex CTriangle) by (unfold simplex; tauto).
  assert (Hp : points 3 2 [[x0; y0]; [x1; y1]; [x2; y2]]) by (split; [reflexivity|repeat constructor]).
  assert (C : cell_of CTriangle r) by (split; [exact Sc|eexists; split; [exact Hp|exact Hr]]).
  destruct (simplex_gdim CTriangle _ r Sc Hp Hr) as [T G].
  rewrite (create_inside ArnoldWinther r CTriangle 5 _ T G) by first [left; reflexivity|split; [simpl; lia|exact I]].
  apply (aw_fails _ r 5 3); [lia|lia|exact C| |lia]. exact (aw_extra_one x0 y0 x1 y1 x2 y2 r N01 N12 N20 D Hr).
Qed.
Theorem C18_arnold_winther_refuted : exists vs r, points 3 2 vs /\ map_det CTriangle vs <> 0%R /\ make_reference CTriangle vs = Ok r /\
  In (r_type r) (references ArnoldWinther) /\ admissible ArnoldWinther 5 /\ create ArnoldWinther r 5 "equispaced" = Err AssertionError.
Proof.
  exists [[0; 0]; [1; 2]; [2; 1]]%R. eexists. split; [split; [reflexivity|repeat constructor]|].
  assert (D : map_det CTriangle [[0; 0]; [1; 2]; [2; 1]]%R <> 0%R) by (unfold map_det, edge_det2, co; cbn; lra).
  split; [exact D|]. split; [reflexivity|]. split; [left; reflexivity|]. split; [split; [simpl; lia|exact I]|].
  apply (arnold_winther_five 0 0 1 2 2 1); [intros _ _ _; exact D|lra|lra|lra|reflexivity].
Qed.

(** * Trimmed serendipity elements in H(curl) on the hexahedron
    From order 4 on there are fewer degrees of freedom than functions, so that no element exists. *)
Theorem C18_trimmed_serendipity_refuted : exists n0, admissible TrimmedSerendipityHcurl n0 /\ In CHexahedron (references TrimmedSerendipityHcurl) /\
  forall n, n0 <= n -> create TrimmedSerendipityHcurl (default CHexahedron) n "equispaced" = Err AssertionError.
Proof.
  exists 4. split; [split; [simpl; lia|exact I]|]. split; [right; left; reflexivity|]. intros n Hn.
  rewrite (create_inside TrimmedSerendipityHcurl (default CHexahedron) CHexahedron n _ eq_refl eq_refl) by first [right; left; reflexivity|split; [simpl; lia|exact I]].
  apply ts_hcurl_hexahedron_fails; lia.
Qed.

(** * What create_element rejects *)
Theorem C18_rejected : forall f r n v,
  tdim (r_type r) <> gdim r \/ ~ In (r_type r) (references f) \/ ~ admissible f n -> create f r n v = Err ValueError.
Proof.
  intros f r n v H. unfold create. destruct (tdim (r_type r) =? gdim r) eqn:E; cbn [negb]; [|reflexivity]. apply Nat.eqb_eq in E.
  destruct (existsb _ (references f)) eqn:X; cbn [negb]; [|reflexivity].
  apply existsb_exists in X. destruct X as (c & Hc & X). destruct (cell_type_eq_dec c (r_type r)) as [->|]; [|discriminate X].
  destruct (n <? min_order f) eqn:M; [reflexivity|]. apply Nat.ltb_ge in M.
  destruct H as [H|[H|H]]; [contradiction|contradiction|]. unfold admissible in H.
  destruct (max_order f) as [m|]; [|exfalso; apply H; split; [exact M|exact I]].
  destruct (m <? n) eqn:L; [reflexivity|]. apply Nat.ltb_ge in L. exfalso. apply H. split; assumption.
Qed.
Example C18_rejected_example : create NedelecPrism (default CPrism) 3 "equispaced" = Err ValueError /\ create RaviartThomas (default CQuadrilateral) 1 "equispaced" = Err ValueError.
Proof.
  split; apply C18_rejected.
  - right; right. intros [_ H]. simpl in H. lia.
  - right; left. simpl. intros [H|[H|[]]]; discriminate H.
Qed.

Print Assumptions C18_default_cells_partial.
Print Assumptions C18_simplices_partial.
Print Assumptions C18_regge_integral_partial.
Print Assumptions C18_arnold_winther_partial.
Print Assumptions C18_arnold_winther_refuted.
Print Assumptions C18_trimmed_serendipity_refuted.
Print Assumptions C18_rejected.
