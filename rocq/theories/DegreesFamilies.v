(** The degree attributes of the element families, family by family (C56). *)
From Coq Require Import String ZArith Arith Bool Reals Lia Lra List.
From Verif Require Import Base PolyLib PolySetsModel PolySetsProofs ReferencesModel LagrangeModel FamiliesModel FamiliesMoments FamiliesBuilt
  DegreesModel DegreesSpec DegreesLib DegreesUnits DegreesTrimmed.
Import ListNotations.
Local Open Scope nat_scope.

Lemma ciarlet_ok p d e : ciarlet p d = Ok e -> e = {| fe_poly := p; fe_dofs := d |}.
Proof. unfold ciarlet. destruct (_ =? _); intros H; [injection H as <-; reflexivity|discriminate H]. Qed.
(** takes a successful constructor apart *)
Ltac peel E := repeat match type of E with
  | Err _ = Ok _ => discriminate E
  | rbind ?a _ = Ok _ => let H := fresh "P" in destruct a eqn:H; cbn [rbind] in E; [|discriminate E]
  | (if ?b then _ else _) = Ok _ => destruct b
  | ciarlet _ _ = Ok _ => apply ciarlet_ok in E; subst
  | match ?l with _ => _ end = Ok _ => destruct l
  end.
Ltac open_constructor K E := destruct K as [|K]; [discriminate E|]; cbn [construct] in E;
  change (r_type (default CInterval)) with CInterval in E; change (r_type (default CTriangle)) with CTriangle in E;
  change (r_type (default CTetrahedron)) with CTetrahedron in E; change (r_type (default CQuadrilateral)) with CQuadrilateral in E;
  change (r_type (default CHexahedron)) with CHexahedron in E; change (r_type (default CPrism)) with CPrism in E;
  unfold default_cell, asserted, map_polyset_from_default in E; cbn [tdim Nat.eqb] in E; rewrite ?is_default_default in E by (unfold FamiliesMoments.known; tauto).

Definition ok_degrees (f : family) (c : cell_type) (n : nat) (e : fe) : Prop :=
  degrees_right (value_pattern f c) c (span (fe_poly e)) (lagrange_subdegree f c (Z.of_nat n)) (lagrange_superdegree f c (Z.of_nat n))
    (polynomial_subdegree f c (Z.of_nat n)) (polynomial_superdegree f c (Z.of_nat n)).

Ltac each_cell H := match type of H with
  | In _ [_] => destruct H as [<-|[]]
  | In _ [_; _] => destruct H as [<-|[<-|[]]]
  | In _ [_; _; _] => destruct H as [<-|[<-|[<-|[]]]]
  | In _ [_; _; _; _] => destruct H as [<-|[<-|[<-|[<-|[]]]]]
  end.
Ltac total := intros ? ? _; eapply poly1d_in; [cbn; lia|eassumption].
Ltac start k Hc E := cbn [references] in Hc; each_cell Hc; open_constructor k E; unfold lagrange_poly, polynomial_set_vector in E; 
  change (r_type (default CInterval)) with CInterval in E; change (r_type (default CTriangle)) with CTriangle in E;
  change (r_type (default CTetrahedron)) with CTetrahedron in E; peel E.
Lemma rmap_ok {A B} (f : A -> B) r y : rmap f r = Ok y -> exists x, r = Ok x /\ y = f x.
Proof. destruct r as [x|e]; [|discriminate]. cbn. intros H. injection H as <-. exists x. split; reflexivity. Qed.
Ltac unmap := repeat match goal with H : rmap _ _ = Ok _ |- _ => apply rmap_ok in H as (? & H & ->) end.


Lemma total_units pattern c n x ps : polynomial_set_1d (tdim c) n = Ok x -> 1 <= tdim c <= 3 -> units pattern (fun _ u => In u x) ps ->
  units pattern (fun _ => complete (tdim c) n) ps.
Proof. intros E T U. eapply units_ext; [|exact U]. intros s u _. apply poly1d_in; assumption. Qed.
Ltac by_total p c lem := eapply (total_degrees p c); [eapply (total_units p c); [eassumption|cbn; lia|exact lem]|cbn; tauto|cbn; tauto].
Ltac by_dpc p c lem := eapply (dpc_degrees p c); [eapply (total_units p c); [eassumption|cbn; lia|exact lem]|cbn; tauto|cbn; tauto].

Lemma lagrange_deg k c n v e : In c (references Lagrange) -> construct k Lagrange (default c) n v = Ok e -> ok_degrees Lagrange c n e.
Proof.
  intros Hc E. start k Hc E; [by_total [0] CInterval (units_scalar a0)|by_total [0] CTriangle (units_scalar a0)|by_total [0] CTetrahedron (units_scalar a0)].
Qed.
Lemma taylor_deg k c n v e : In c (references Taylor) -> construct k Taylor (default c) n v = Ok e -> ok_degrees Taylor c n e.
Proof.
  intros Hc E. start k Hc E; [by_total [0] CInterval (units_scalar a0)|by_total [0] CTriangle (units_scalar a0)|by_total [0] CTetrahedron (units_scalar a0)].
Qed.
Lemma vector_lagrange_deg k c n v e : In c (references VectorLagrange) -> construct k VectorLagrange (default c) n v = Ok e -> ok_degrees VectorLagrange c n e.
Proof.
  intros Hc E. start k Hc E; unmap; [by_total [0] CInterval (units_scalar a0)|by_total [0; 1] CTriangle (units_vectorise 2 x)|by_total [0; 1; 2] CTetrahedron (units_vectorise 3 x)].
Qed.
Lemma matrix_lagrange_deg k c n v e : In c (references MatrixLagrange) -> construct k MatrixLagrange (default c) n v = Ok e -> ok_degrees MatrixLagrange c n e.
Proof.
  intros Hc E. start k Hc E; unmap; [by_total [0; 1; 2; 3] CTriangle (units_vectorise 4 x)|by_total [0; 1; 2; 3; 4; 5; 6; 7; 8] CTetrahedron (units_vectorise 9 x)].
Qed.
Lemma in_sym2 i : In i sym2 <-> i < 3.
Proof. cbn. lia. Qed.
Lemma in_sym3 i : In i sym3 <-> i < 6.
Proof. cbn. lia. Qed.
Lemma symmetric_lagrange_deg k c n v e : In c (references SymmetricMatrixLagrange) -> construct k SymmetricMatrixLagrange (default c) n v = Ok e -> ok_degrees SymmetricMatrixLagrange c n e.
Proof.
  intros Hc E. start k Hc E; unmap; [by_total sym2 CTriangle (units_sym 3 sym2 x in_sym2)|by_total sym3 CTetrahedron (units_sym 6 sym3 x in_sym3)].
Qed.
Lemma n2_deg k c n v e : In c (references NedelecSecondKind) -> construct k NedelecSecondKind (default c) n v = Ok e -> ok_degrees NedelecSecondKind c n e.
Proof.
  intros Hc E. start k Hc E; unmap; [by_total [0; 1] CTriangle (units_vectorise 2 x0)|by_total [0; 1; 2] CTetrahedron (units_vectorise 3 x0)].
Qed.
Lemma bdm_deg k c n v e : In c (references BDM) -> construct k BDM (default c) n v = Ok e -> ok_degrees BDM c n e.
Proof.
  intros Hc E. start k Hc E; unmap; [by_total [0; 1] CTriangle (units_vectorise 2 x0)|by_total [0; 1; 2] CTetrahedron (units_vectorise 3 x0)].
Qed.
Lemma hhj_deg k c n v e : In c (references HellanHerrmannJohnson) -> construct k HellanHerrmannJohnson (default c) n v = Ok e -> ok_degrees HellanHerrmannJohnson c n e.
Proof.
  intros Hc E. start k Hc E; unmap; [by_total sym2 CTriangle (units_sym 3 sym2 x1 in_sym2)|by_total sym3 CTetrahedron (units_sym 6 sym3 x1 in_sym3)].
Qed.
Lemma units_regge ms : units sym3 (fun _ u => In u ms) (map (sym_entries sym3_regge) (vectorise 6 ms)).
Proof.
  destruct (units_sym 6 sym3_regge ms) as (U1 & U2); [intros i; cbn; lia|]. split.
  - intros s u Hs Hu. cbn in Hs.
    assert (X : exists s', In s' sym3_regge /\ unit sym3_regge s' u = unit sym3 s u).
    { assert (s = 0 \/ s = 1 \/ s = 2 \/ s = 3 \/ s = 4 \/ s = 5) as [->|[->|[->|[->|[->| ->]]]]] by lia;
        [exists 0|exists 1|exists 3|exists 2|exists 4|exists 5]; (split; [cbn; tauto|reflexivity]). }
    destruct X as (s' & H' & <-). apply U1; assumption.
  - intros p Hp. destruct (U2 p Hp) as (s & u & Hs & Hu & ->). cbn in Hs.
    assert (s = 0 \/ s = 1 \/ s = 2 \/ s = 3 \/ s = 4 \/ s = 5) as [->|[->|[->|[->|[->| ->]]]]] by lia;
      [exists 0, u|exists 1, u|exists 3, u|exists 2, u|exists 4, u|exists 5, u]; (split; [cbn; tauto|split; [exact Hu|reflexivity]]).
Qed.
Lemma regge_deg k c n v e : In c (references Regge) -> construct k Regge (default c) n v = Ok e -> ok_degrees Regge c n e.
Proof.
  intros Hc E. start k Hc E; unmap; try (match goal with H : polynomial_set_1d 2 _ = Ok ?x |- _ => by_total sym2 CTriangle (units_sym 3 sym2 x in_sym2) end);
    match goal with H : polynomial_set_1d 3 _ = Ok ?x |- _ => by_total sym3 CTetrahedron (units_regge x) end.
Qed.
Lemma q_deg k c n v e : In c (references Q) -> construct k Q (default c) n v = Ok e -> ok_degrees Q c n e.
Proof.
  intros Hc E. start k Hc E; (apply tensor_degrees; [eapply units_ext; [|apply units_scalar]|left; reflexivity|cbn; tauto]);
    intros s u _; apply quo1d_in; cbn; lia.
Qed.
Lemma vector_q_deg k c n v e : In c (references VectorQ) -> construct k VectorQ (default c) n v = Ok e -> ok_degrees VectorQ c n e.
Proof.
  intros Hc E. start k Hc E; (apply tensor_degrees; [|left; reflexivity|cbn; tauto]).
  - eapply units_ext; [|exact (units_vectorise 2 _)]. intros s u _. apply quo1d_in; cbn; lia.
  - eapply units_ext; [|exact (units_vectorise 3 _)]. intros s u _. apply quo1d_in; cbn; lia.
Qed.
Lemma dpc_deg k c n v e : In c (references DPC) -> construct k DPC (default c) n v = Ok e -> ok_degrees DPC c n e.
Proof.
  intros Hc E. start k Hc E; try match goal with H : Ok _ = Ok _ |- _ => injection H as <- end; match goal with H : polynomial_set_1d _ _ = Ok ?x |- _ =>
    first [by_dpc [0] CInterval (units_scalar x)|by_dpc [0] CQuadrilateral (units_scalar x)|by_dpc [0] CHexahedron (units_scalar x)] end.
Qed.
Lemma vector_dpc_deg k c n v e : In c (references VectorDPC) -> construct k VectorDPC (default c) n v = Ok e -> ok_degrees VectorDPC c n e.
Proof.
  intros Hc E. start k Hc E; unmap; match goal with H : polynomial_set_1d _ _ = Ok ?x |- _ =>
    first [by_dpc [0; 1] CQuadrilateral (units_vectorise 2 x)|by_dpc [0; 1; 2] CHexahedron (units_vectorise 3 x)] end.
Qed.
Lemma serendipity_deg k c n v e : 1 <= n -> In c (references Serendipity) -> construct k Serendipity (default c) n v = Ok e -> ok_degrees Serendipity c n e.
Proof.
  intros Hn Hc E. start k Hc E; try match goal with H : Ok _ = Ok _ |- _ => injection H as <- end;
    (apply serendipity_degrees; [exact Hn|eapply units_ext; [|apply units_scalar]|cbn; tauto]); intros s u _; apply serendipity_in; first [assumption|cbn; lia].
Qed.
Lemma lagrange_prism_deg k c n v e : In c (references LagrangePrism) -> construct k LagrangePrism (default c) n v = Ok e -> ok_degrees LagrangePrism c n e.
Proof.
  intros Hc E. start k Hc E. apply prism_degrees; [|left; reflexivity]. eapply units_ext; [|apply units_scalar]. intros s u _. apply prism_in. assumption.
Qed.
Lemma vector_prism_deg k c n v e : In c (references VectorLagrangePrism) -> construct k VectorLagrangePrism (default c) n v = Ok e -> ok_degrees VectorLagrangePrism c n e.
Proof.
  intros Hc E. start k Hc E. unfold prism_polynomial_set_vector in *. unmap. apply prism_degrees; [|left; reflexivity]. eapply units_ext; [|exact (units_vectorise 3 _)].
  intros s u _. apply prism_in. assumption.
Qed.
Lemma aniso_own d a b s u : s < d -> aniso d s a b u <-> length u = d /\ forall i, nth i u 0 <= own s a b i.
Proof.
  intros Hs. unfold aniso, own. split; intros (L & H); (split; [exact L|]).
  - intros i. destruct (lt_dec i d) as [Hi|Hi]; [apply H, Hi|]. rewrite nth_overflow by lia. lia.
  - intros i _. apply H.
Qed.
Lemma degrees_right_eq pattern c S a b p q a' b' p' q' : degrees_right pattern c S a b p q -> a = a' -> b = b' -> p = p' -> q = q' -> degrees_right pattern c S a' b' p' q'.
Proof. intros H -> -> -> ->. exact H. Qed.
Lemma q_rt_deg k c n v e : 1 <= n -> In c (references QRaviartThomas) -> construct k QRaviartThomas (default c) n v = Ok e -> ok_degrees QRaviartThomas c n e.
Proof.
  intros Hn Hc E. destruct n as [|n]; [lia|]. start k Hc E; unfold ok_degrees; cbn [fe_poly]; rewrite ?Nat.sub_0_r; replace (S n - 1) with n by lia.
  - destruct (rt_quolynomials 2 n ltac:(lia)) as (L & EL & F). rewrite P in EL. injection EL as <-. apply units_fields in F.
    eapply (units_ext [0; 1]) in F; [|intros s u Hs; apply aniso_own; cbn in Hs; lia].
    eapply degrees_right_eq; [exact (aniso_degrees CQuadrilateral _ _ _ F ltac:(cbn; tauto))|..]; cbn [lagrange_subdegree lagrange_superdegree polynomial_subdegree polynomial_superdegree tdim]; lia.
  - destruct (rt_quolynomials 3 n ltac:(lia)) as (L & EL & F). rewrite P in EL. injection EL as <-. apply units_fields in F.
    eapply (units_ext [0; 1; 2]) in F; [|intros s u Hs; apply aniso_own; cbn in Hs; lia].
    eapply degrees_right_eq; [exact (aniso_degrees CHexahedron _ _ _ F ltac:(cbn; tauto))|..]; cbn [lagrange_subdegree lagrange_superdegree polynomial_subdegree polynomial_superdegree tdim]; lia.
Qed.
Lemma q_nedelec_deg k c n v e : 1 <= n -> In c (references QNedelec) -> construct k QNedelec (default c) n v = Ok e -> ok_degrees QNedelec c n e.
Proof.
  intros Hn Hc E. destruct n as [|n]; [lia|]. start k Hc E; unfold ok_degrees; cbn [fe_poly]; rewrite ?Nat.sub_0_r; replace (S n - 1) with n by lia.
  - destruct (nedelec_quolynomials 2 n ltac:(lia)) as (L & EL & F). rewrite P in EL. injection EL as <-. apply units_fields in F.
    eapply (units_ext [0; 1]) in F; [|intros s u Hs; apply aniso_own; cbn in Hs; lia].
    eapply degrees_right_eq; [exact (aniso_degrees CQuadrilateral _ _ _ F ltac:(cbn; tauto))|..]; cbn [lagrange_subdegree lagrange_superdegree polynomial_subdegree polynomial_superdegree tdim]; lia.
  - destruct (nedelec_quolynomials 3 n ltac:(lia)) as (L & EL & F). rewrite P in EL. injection EL as <-. apply units_fields in F.
    eapply (units_ext [0; 1; 2]) in F; [|intros s u Hs; apply aniso_own; cbn in Hs; lia].
    eapply degrees_right_eq; [exact (aniso_degrees CHexahedron _ _ _ F ltac:(cbn; tauto))|..]; cbn [lagrange_subdegree lagrange_superdegree polynomial_subdegree polynomial_superdegree tdim]; lia.
Qed.
Lemma two_way_own A B s u : In s [0; 1] -> (length u = 2 /\ nth s u 0 < S A /\ nth (1 - s) u 0 < S B) <-> (length u = 2 /\ forall i, nth i u 0 <= own s A B i).
Proof.
  intros Hs. unfold own. split; intros (L & H); (split; [exact L|]); destruct u as [|x [|y [|]]]; try discriminate L; each_cell Hs.
  - intros [|[|[|i]]]; cbn in *; lia.
  - intros [|[|[|i]]]; cbn in *; lia.
  - pose proof (H 0). pose proof (H 1). cbn in *. lia.
  - pose proof (H 0). pose proof (H 1). cbn in *. lia.
Qed.
Lemma abf_deg k c n v e : In c (references ArnoldBoffiFalk) -> construct k ArnoldBoffiFalk (default c) n v = Ok e -> ok_degrees ArnoldBoffiFalk c n e.
Proof.
  intros Hc E. start k Hc E. assert (F := units_two_way (n + 3) (n + 1)). replace (n + 3) with (S (n + 2)) in F by lia. replace (n + 1) with (S n) in F by lia.
  eapply units_ext in F; [|intros s u Hs; apply two_way_own, Hs]. replace (S (n + 2)) with (n + 3) in F by lia. replace (S n) with (n + 1) in F by lia.
  eapply degrees_right_eq; [exact (aniso_degrees CQuadrilateral _ _ _ F ltac:(cbn; tauto))|..]; cbn [lagrange_subdegree lagrange_superdegree polynomial_subdegree polynomial_superdegree tdim]; lia.
Qed.
Lemma hz_deg k c n v e : 1 <= n -> In c (references HuangZhang) -> construct k HuangZhang (default c) n v = Ok e -> ok_degrees HuangZhang c n e.
Proof.
  intros Hn Hc E. destruct n as [|n]; [lia|]. start k Hc E. assert (F := units_two_way (S n + 1) (S n)). replace (S n + 1) with (S (S n)) in F by lia.
  eapply units_ext in F; [|intros s u Hs; apply two_way_own, Hs]. replace (S (S n)) with (S n + 1) in F by lia.
  eapply degrees_right_eq; [exact (aniso_degrees CQuadrilateral _ _ _ F ltac:(cbn; tauto))|..]; cbn [lagrange_subdegree lagrange_superdegree polynomial_subdegree polynomial_superdegree tdim]; lia.
Qed.
Lemma regge_tp_deg k c n v e : In c (references ReggeTP) -> construct k ReggeTP (default c) n v = Ok e -> ok_degrees ReggeTP c n e.
Proof.
  intros Hc E. start k Hc E.
  - eapply degrees_right_eq; [exact (regge_tp2_degrees _ _ (units_regge_tp2 n))|..]; cbn [lagrange_subdegree lagrange_superdegree polynomial_subdegree polynomial_superdegree tdim]; lia.
  - eapply degrees_right_eq; [exact (regge_tp3_degrees _ _ (units_regge_tp3 n))|..]; cbn [lagrange_subdegree lagrange_superdegree polynomial_subdegree polynomial_superdegree tdim]; lia.
Qed.
Lemma rt_deg k c n v e : 1 <= n -> In c (references RaviartThomas) -> construct k RaviartThomas (default c) n v = Ok e -> ok_degrees RaviartThomas c n e.
Proof.
  intros Hn Hc E. start k Hc E; unmap.
  - eapply (trimmed_degrees CTriangle n _ _ (fun u => 1 <= nth 0 u 0) (fun m => [0; m])); [cbn; tauto|exact Hn|eassumption|eapply rt_extra; [cbn; lia|exact Hn|eassumption]|cbn; intros; lia|cbn; lia|].
    injection P0 as <-. exists [[(1%Z, [1 + (n - 1 - 0); 0])]; [(1%Z, [n - 1 - 0; 1 + 0])]], 0, [1 + (n - 1 - 0); 0]. split; [apply (in_mapped _ _ 0); [reflexivity|apply in_range; lia]|].
    split; [reflexivity|]. split; [cbn; lia|]. cbn [nth]. rewrite coef_one. destruct (mono_eq_dec _ _); [lra|contradiction].
  - eapply (trimmed_degrees CTetrahedron n _ _ (fun u => 1 <= nth 0 u 0) (fun m => [0; 0; m])); [cbn; tauto|exact Hn|eassumption|eapply rt_extra; [cbn; lia|exact Hn|eassumption]|cbn; intros; lia|cbn; lia|].
    injection P0 as <-. exists [[(1%Z, [1 + (n - 1 - 0 - 0); 0; 0])]; [(1%Z, [n - 1 - 0 - 0; 1 + 0; 0])]; [(1%Z, [n - 1 - 0 - 0; 0; 1 + 0])]], 0, [1 + (n - 1 - 0 - 0); 0; 0].
    split; [apply (in_flat _ _ 0); [apply in_range; lia|apply (in_mapped _ _ 0); [reflexivity|apply in_range; lia]]|].
    split; [reflexivity|]. split; [cbn; lia|]. cbn [nth]. rewrite coef_one. destruct (mono_eq_dec _ _); [lra|contradiction].
Qed.
Lemma n1_deg k c n v e : 1 <= n -> In c (references NedelecFirstKind) -> construct k NedelecFirstKind (default c) n v = Ok e -> ok_degrees NedelecFirstKind c n e.
Proof.
  intros Hn Hc E. start k Hc E; unmap.
  - eapply (trimmed_degrees CTriangle n _ _ (fun u => nth 0 u 0 < n) (fun m => [m; 0])); [cbn; tauto|exact Hn|eassumption|eapply n1_extra; [cbn; lia|exact Hn|eassumption]|cbn; intros; lia|cbn; lia|].
    injection P0 as <-. exists [[(1%Z, [n - 1 - 0; 0 + 1])]; [((-1)%Z, [n - 0; 0])]], 0, [n - 1 - 0; 0 + 1]. split; [apply (in_mapped _ _ 0); [reflexivity|apply in_range; lia]|].
    split; [reflexivity|]. split; [cbn; lia|]. cbn [nth]. rewrite coef_one. destruct (mono_eq_dec _ _); [lra|contradiction].
  - eapply (trimmed_degrees CTetrahedron n _ _ (fun u => nth 0 u 0 < n) (fun m => [m; 0; 0])); [cbn; tauto|exact Hn|eassumption|eapply n1_extra; [cbn; lia|exact Hn|eassumption]|cbn; intros; lia|cbn; lia|].
    injection P0 as <-. exists [[(1%Z, [1 - 1; 0; n - 1 - 0 + 1])]; []; [((-1)%Z, [1; 0; n - 1 - 0])]], 0, [1 - 1; 0; n - 1 - 0 + 1].
    split; [apply in_or_app; left; apply (in_flat _ _ 0); [apply in_range; lia|apply (in_mapped _ _ 1); [reflexivity|apply in_range2; lia]]|].
    split; [reflexivity|]. split; [cbn; lia|]. cbn [nth]. rewrite coef_one. destruct (mono_eq_dec _ _); [lra|contradiction].
Qed.
Lemma bdfm_deg k c n v e : 1 <= n -> In c (references BDFM) -> construct k BDFM (default c) n v = Ok e -> ok_degrees BDFM c n e.
Proof.
  intros Hn Hc E. start k Hc E.
  - destruct (bdfm_extra CTriangle n _ ltac:(cbn; tauto) Hn P) as (ms & qs & E1 & -> & H1 & H2).
    apply (trimmed_degrees CTriangle n ms qs (fun u => 1 <= nth 0 u 0) (fun m => [0; m])); try assumption; cbn; try tauto; intros; lia.
  - unfold bdfm_polyset, polynomial_set_vector in P. cbn [tdim] in P. destruct (polynomial_set_1d 2 (n - 1)) as [ms|] eqn:Em; [|discriminate P]. injection P as <-.
    assert (F := units_app _ _ _ _ _ (units_vectorise 2 ms) (units_bdfm_quad n)).
    apply (bdfm_degrees CQuadrilateral); [exact Hn| |cbn; tauto]. eapply units_ext; [|exact F]. intros s u _. cbn beta. rewrite (poly1d_in 2 _ _ ltac:(lia) Em). unfold complete. cbn [tdim]. tauto.
  - unfold bdfm_polyset, polynomial_set_vector in P. cbn [tdim] in P. destruct (polynomial_set_1d 3 (n - 1)) as [ms|] eqn:Em; [|discriminate P]. injection P as <-.
    assert (F := units_app _ _ _ _ _ (units_vectorise 3 ms) (units_bdfm_hex n)).
    apply (bdfm_degrees CHexahedron); [exact Hn| |cbn; tauto]. eapply units_ext; [|exact F]. intros s u _. cbn beta. rewrite (poly1d_in 3 _ _ ltac:(lia) Em). unfold complete. cbn [tdim]. tauto.
  - destruct (bdfm_extra CTetrahedron n _ ltac:(cbn; tauto) Hn P) as (ms & qs & E1 & -> & H1 & H2).
    apply (trimmed_degrees CTetrahedron n ms qs (fun u => 1 <= nth 0 u 0) (fun m => [0; 0; m])); try assumption; cbn; try tauto; intros; lia.
Qed.
