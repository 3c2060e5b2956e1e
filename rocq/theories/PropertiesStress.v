(** C84: the functions of the Arnold-Winther, nonconforming Arnold-Winther and Mardal-Tai-Winther elements span the intended spaces. *)
From Coq Require Import String Arith Bool ZArith Reals Lia Lra List.
From Verif Require Import Base PolyLib PolyVec PolySetsModel PolySetsProofs ReferencesModel ReferencesSpec CiarletModel LinAlg PointsModel PointsSpec LagrangeProofs FamiliesModel FamiliesBuilt FamiliesSimplex2 StressSpec StressProofs StressSmall.
Import ListNotations.
Local Open Scope string_scope.
Local Open Scope R_scope.
Local Open Scope list_scope.

Lemma created f r n variant e : create f r n variant = Ok e -> construct (S (n + 3)) f r n variant = Ok e /\ (min_order f <= n)%nat /\ match max_order f with Some m => (n <= m)%nat | None => True end /\ In (r_type r) (references f).
Proof.
  unfold create. replace (S (n + 3)) with (n + 4)%nat by lia. destruct (negb _); [discriminate|]. destruct (existsb _ (references f)) eqn:X; [|discriminate]. cbn [negb]. destruct (Nat.ltb_spec n (min_order f)); [discriminate|].
  apply existsb_exists in X. destruct X as (c & Hc & Ec). destruct (cell_type_eq_dec c (r_type r)) as [->|]; [|discriminate].
  destruct (max_order f) as [m|]; [destruct (Nat.ltb_spec m n); [discriminate|]|]; intros E; (split; [exact E|]); (split; [assumption|]); (split; [exact I || assumption|exact Hc]).
Qed.
Ltac binds H := repeat match type of H with rbind ?x _ = Ok _ => let E := fresh "E" in destruct x eqn:E; [cbn [rbind] in H|discriminate H] end.
Lemma ciarlet_poly p d e : ciarlet p d = Ok e -> fe_poly e = p.
Proof. unfold ciarlet. destruct (_ =? _)%nat; [|discriminate]. intros E. injection E as <-. reflexivity. Qed.

(** * C84: the Arnold-Winther element of order n, whenever it can be created (on any triangle), is given a basis of the symmetric
    matrix fields of degree n whose divergence has degree n - 2. *)
Theorem C84_arnold_winther : forall r n variant e, create ArnoldWinther r n variant = Ok e -> basis_of_fields (fe_poly e) (arnold_winther_space n).
Proof.
  intros r n variant e H. apply created in H. destruct H as (H & Hn & _ & Hc). cbn [min_order references In] in Hn, Hc. destruct Hc as [Hc|[]]. cbn [construct] in H. rewrite <- Hc in H. cbn [tdim] in H. unfold asserted in H. cbv iota in H. binds H. apply ciarlet_poly in H. rewrite H.
  unfold aw_poly, polynomial_set_vector in E. destruct (polynomial_set_1d 2 (n - 1)) as [ms|] eqn:HM; [|discriminate]. cbn [rmap rbind] in E. injection E as <-. exact (aw_basis n ms ltac:(lia) HM).
Qed.
Print Assumptions C84_arnold_winther.
(** it can be created *)
Example C84_arnold_winther_case : exists e, create ArnoldWinther (default CTriangle) 3 "equispaced" = Ok e /\ length (fe_poly e) = 24%nat.
Proof.
  destruct (aw_built 7 (default CTriangle) 3 ltac:(lia) ltac:(lia)) as (e & E & L & _); [apply cell_of_default; unfold simplex; tauto|lia|]. exists e. split; [exact E|exact L].
Qed.
(** * C84: the nonconforming Arnold-Winther element is given a basis of the symmetric matrix fields of degree 2 whose
    normal-normal component has degree 1 on every edge of the reference triangle. *)
Theorem C84_nonconforming_partial : forall r n variant e, create NonConformingArnoldWinther r n variant = Ok e -> basis_of_fields (fe_poly e) nonconforming_space.
Proof.
  intros r n variant e H. apply created in H. destruct H as (H & Hn & Hm & Hc). cbn [min_order max_order references In] in Hn, Hm, Hc. assert (n = 2%nat) by lia. subst n. destruct Hc as [Hc|[]]. cbn [construct] in H. rewrite <- Hc in H. cbn [tdim] in H. unfold asserted in H. cbv iota in H. binds H. apply ciarlet_poly in H. rewrite H. match goal with E : naw_poly 2 2 = Ok ?l |- _ => change (Ok naw = Ok l) in E; injection E as <- end. exact naw_basis.
Qed.
Print Assumptions C84_nonconforming_partial.
Example C84_nonconforming_case : exists e, create NonConformingArnoldWinther (default CTriangle) 2 "equispaced" = Ok e /\ length (fe_poly e) = 15%nat.
Proof.
  destruct (naw_built 6 (default CTriangle) ltac:(lia)) as (e & E & L & _); [apply cell_of_default; unfold simplex; tauto|]. exists e. split; [exact E|exact L].
Qed.
(** The normal-normal component, on the edge between the second and the third vertex of a triangle, times the square of its length *)
Definition normal_normal (vs : list pt) (f : component_fn) (t : R) : R :=
  let co p i := nth i p 0 in let a := nth 1 vs [] in let b := nth 2 vs [] in
  let normal i := match i with O => co a 1%nat - co b 1%nat | _ => co b 0%nat - co a 0%nat end in
  sum 2 (fun i => sum 2 (fun j => normal i * f ((2 * i + j)%nat, fun k => co a k + t * (co b k - co a k)) * normal j)).
(** * C84 is false on other triangles: they are accepted, but the functions are the same, and the normal-normal component of one of
    them is not of degree 1 on the edge between the second and the third vertex of the triangle (0, 0), (2, 0), (0, 1). *)
Theorem C84_nonconforming_refuted : exists vs r e F, make_reference CTriangle vs = Ok r /\ create NonConformingArnoldWinther r 2 "equispaced" = Ok e /\
  In F (fe_poly e) /\ ~ affine (normal_normal vs (field F)).
Proof.
  exists [[0; 0]; [2; 0]; [0; 1]]. eexists. assert (Hr : make_reference CTriangle [[0; 0]; [2; 0]; [0; 1]] = Ok _) by reflexivity.
  assert (C : cell_of CTriangle {| r_type := CTriangle; r_vertices := [[0; 0]; [2; 0]; [0; 1]]; r_origin := [0; 0]; r_axes := [vsub [2; 0] [0; 0]; vsub [0; 1] [0; 0]] |}).
  { split; [unfold simplex; tauto|]. eexists. split; [|exact Hr]. split; [reflexivity|repeat constructor]. }
  destruct (naw_built 6 _ ltac:(lia) C) as (e & E & _). exists e, [[(1%Z, [2; 0]%nat); (1%Z, [1; 1]%nat)]; []; []; []]. split; [exact Hr|]. split; [exact E|].
  split.
  - assert (Ec : create NonConformingArnoldWinther {| r_type := CTriangle; r_vertices := [[0; 0]; [2; 0]; [0; 1]]; r_origin := [0; 0]; r_axes := [vsub [2; 0] [0; 0]; vsub [0; 1] [0; 0]] |} 2 "equispaced" = Ok e) by exact E.
    apply created in Ec. destruct Ec as (H & _). cbn [construct r_type] in H. cbn [tdim] in H. unfold asserted in H. cbv iota in H. binds H. apply ciarlet_poly in H. rewrite H. match goal with E : naw_poly 2 2 = Ok ?l |- _ => change (Ok naw = Ok l) in E; injection E as <- end. cbn [In]. do 12 right. left. reflexivity.
  - intros A. pose proof (affine_at _ A 2) as Q. unfold normal_normal, field, zeval, meval in Q. cbn [sum nth fst snd map fold_right Nat.mul Nat.add meval_from pow] in Q. lra.
Qed.
Print Assumptions C84_nonconforming_refuted.
(** * C84: the Mardal-Tai-Winther element on the triangle is given a basis of the fields of degree 3 with constant divergence whose
    normal component has degree 1 on every edge. *)
Theorem C84_mardal_tai_winther : forall r n variant e, r_type r = CTriangle -> create MardalTaiWinther r n variant = Ok e -> basis_of_fields (fe_poly e) mardal_tai_winther_space.
Proof.
  intros r n variant e Hc H. apply created in H. destruct H as (H & Hn & Hm & _). cbn [construct] in H. rewrite Hc in H. unfold asserted, default_cell in H. destruct (n =? 3)%nat; [|discriminate H]. destruct (is_default r); [|discriminate H]. binds H. apply ciarlet_poly in H. rewrite H. exact mtw_basis.
Qed.
Print Assumptions C84_mardal_tai_winther.
Example C84_mardal_tai_winther_case : exists e, create MardalTaiWinther (default CTriangle) 3 "equispaced" = Ok e /\ length (fe_poly e) = 9%nat.
Proof. destruct (mtw_built 7 CTriangle ltac:(lia) (or_introl eq_refl)) as (e & E & L & _). exists e. split; [exact E|exact L]. Qed.
