(** C77: the elements defined by integral moments. *)
From Coq Require Import String Arith Reals Lia Lra List.
From Verif Require Import Base PolyLib PolySetsModel ReferencesModel ReferencesSpec CiarletModel LinAlg ElementModel UnisolvenceProofs PointsModel PointsSpec
  MomentElementsModel MomentElementsSpec MomentsFacets MomentsRTDual MomentsNedelec MomentsBubble MomentsCurl3 MomentsBDM.
Import ListNotations.
Local Open Scope string_scope.
Local Open Scope R_scope.
Local Open Scope list_scope.

Definition simplex_cell (d : nat) := match d with 2%nat => CTriangle | _ => CTetrahedron end.

(** * C77: RaviartThomas of every order on the triangle (d = 2) and on the tetrahedron (d = 3) can be created, its space is
    the Raviart-Thomas space, get_basis_functions returns the basis of it that is dual to the degrees of freedom, and the
    normal component on a facet depends on the degrees of freedom of the facet only. *)
Theorem C77_raviart_thomas : forall d n, (2 <= d <= 3)%nat ->
  dual_moments (make_raviart_thomas (default (simplex_cell d)) (S n) "equispaced") (rt_space d (S n)) (rt_dim d (S n)) /\
  normal_conforming (make_raviart_thomas (default (simplex_cell d)) (S n) "equispaced") d (rt_space d (S n)).
Proof. intros d n Hd. exact (raviart_thomas d n Hd). Qed.
Print Assumptions C77_raviart_thomas.
Lemma var_space d c : (c < d)%nat -> P_space d 1 (fun v => v c). Proof. intros H. apply degree_var, H. Qed.
Example C77_raviart_thomas_case : rt_space 2 1 (fun x => if (fst x <? 2)%nat then snd x (fst x) else 0) /\ rt_dim 2 1 = 3%nat /\ rt_dim 3 2 = 15%nat /\
  on_facet 2 0 (fun _ => / 2).
Proof.
  split; [|split; [reflexivity|split; [reflexivity|cbn; lra]]]. exists (fun _ _ => 0), (fun _ => 1). split; [intros; apply poly_space_zero|]. split; [|split].
  - apply (poly_space_ext _ (meval [0; 0]%nat)); [intros v; cbn; ring|]. apply poly_space_mono. split; reflexivity.
  - intros c v Hc. cbn [fst snd]. destruct (Nat.ltb_spec c 2); [ring|lia].
  - intros c v Hc. cbn [fst snd]. destruct (Nat.ltb_spec c 2); [lia|reflexivity].
Qed.

(** * C77: NedelecFirstKind: the tangential components on an edge, and on a face of the tetrahedron, depend on the degrees of
    freedom of the edge, and of the face and its edges, only. *)
Theorem C77_nedelec_first_kind : forall n,
  (dual_moments (make_nedelec_first (default CTriangle) (S n) "equispaced") (nedelec_space 2 (S n)) (S n * (S n + 2)) /\
   tangential_conforming2 (make_nedelec_first (default CTriangle) (S n) "equispaced") (nedelec_space 2 (S n))) /\
  (dual_moments (make_nedelec_first (default CTetrahedron) (S n) "equispaced") (nedelec_space 3 (S n)) (S n * (S n + 2) * (S n + 3) / 2) /\
   tangential_conforming3 (make_nedelec_first (default CTetrahedron) (S n) "equispaced") (nedelec_space 3 (S n))).
Proof. intros n. exact (conj (nedelec_triangle n) (nedelec_tetrahedron n)). Qed.
Print Assumptions C77_nedelec_first_kind.
(** the rotation about the third axis *)
Example C77_nedelec_first_kind_case : nedelec_space 3 1 (fun x => match fst x with O => - snd x 1%nat | S O => snd x 0%nat | _ => 0 end) /\ ~ nedelec_space 2 1 (fun x => if (fst x <? 2)%nat then snd x (fst x) else 0).
Proof.
  split.
  - exists (fun _ _ => 0), (fun c v => match c with O => - v 1%nat | S O => v 0%nat | _ => 0 end). split; [intros; apply poly_space_zero|]. split; [|split; [|split]].
    + intros [|[|[|c]]] Hc; [| | |lia].
      * apply (poly_space_ext _ (fun v => - (1) * meval [0; 1; 0]%nat v)); [intros v; cbn; ring|]. apply poly_space_scale, poly_space_mono. split; reflexivity.
      * apply (poly_space_ext _ (meval [1; 0; 0]%nat)); [intros v; cbn; ring|]. apply poly_space_mono. split; reflexivity.
      * apply poly_space_zero.
    + intros v. cbn. ring.
    + intros [|[|c]] v Hc; cbn; ring.
    + intros [|[|c]] v Hc; [lia|lia|reflexivity].
  - intros H. apply fields_of_nedelec in H; [|lia]. destruct H as [_ H].
    assert (L : exists a b, forall s, a + b * s = s * s).
    { destruct H as (p & Hp & E).
      assert (G : exists a b, forall s, reval p (fun i => if (i =? 0)%nat then s else 0) = a + b * s).
      { clear E. induction p as [|[c m] p IH]; [exists 0, 0; intros; cbn; ring|]. inversion Hp as [|t l [Hl Hm] Hr]; subst. destruct (IH Hr) as (a & b & Hab).
        cbn [snd] in Hl, Hm. destruct m as [|i [|j [|k m]]]; try discriminate. cbn in Hm.
        assert (Q : (i = 0 /\ j = 0 \/ i = 1 /\ j = 0 \/ i = 0 /\ j = 1)%nat) by lia.
        destruct Q as [[-> ->]|[[-> ->]|[-> ->]]]; [exists (c + a), b|exists a, (c + b)|exists a, b]; intros s; cbn [reval fold_right fst snd]; fold (reval p (fun i => if (i =? 0)%nat then s else 0)); rewrite ?Hab; cbn; ring. }
      destruct G as (a & b & Hab). exists a, b. intros s. rewrite <- Hab, <- E. cbn. ring. }
    destruct L as (a & b & L). pose proof (L 0). pose proof (L 1). pose proof (L (- (1))). lra.
Qed.

(** * C77: BDM: all polynomial fields, H(div) conforming; refused on other cells than the default ones. *)
Theorem C77_bdm : forall d n, (2 <= d <= 3)%nat ->
  dual_moments (make_bdm (default (simplex_cell d)) (S n) "equispaced") (fields d (P_space d (S n))) (d * P_dim d (S n)) /\
  normal_conforming (make_bdm (default (simplex_cell d)) (S n) "equispaced") d (fields d (P_space d (S n))).
Proof. intros d n Hd. exact (bdm d n Hd). Qed.
Print Assumptions C77_bdm.
Lemma constant_field d n k : fields d (P_space d n) (fun x => if (fst x =? k)%nat then if (k <? d)%nat then 1 else 0 else 0).
Proof.
  split; cbn [fst snd].
  - intros c _. apply (poly_space_ext _ (fun _ => (if (c =? k)%nat then if (k <? d)%nat then 1 else 0 else 0))); [reflexivity|]. apply degree_const.
  - intros c v Hc. destruct (Nat.eqb_spec c k) as [->|]; [|reflexivity]. destruct (Nat.ltb_spec k d); [lia|reflexivity].
Qed.
Example C77_bdm_case : fields 3 (P_space 3 2) (fun x => if (fst x =? 1)%nat then 1 else 0) /\ (3 * P_dim 3 2 = 30)%nat /\
  (forall r, is_default r = false -> make_bdm r 2 "equispaced" = Err NotImplementedError).
Proof.
  split; [exact (constant_field 3 2 1)|]. split; [reflexivity|]. intros r H. unfold make_bdm, only_default. cbv zeta. rewrite H. reflexivity.
Qed.

(** * C77: NedelecSecondKind: all polynomial fields, H(curl) conforming. *)
Theorem C77_nedelec_second_kind : forall n,
  (dual_moments (make_nedelec_second (default CTriangle) (S n) "equispaced") (fields 2 (P_space 2 (S n))) (2 * P_dim 2 (S n)) /\
   tangential_conforming2 (make_nedelec_second (default CTriangle) (S n) "equispaced") (fields 2 (P_space 2 (S n)))) /\
  (dual_moments (make_nedelec_second (default CTetrahedron) (S n) "equispaced") (fields 3 (P_space 3 (S n))) (3 * P_dim 3 (S n)) /\
   tangential_conforming3 (make_nedelec_second (default CTetrahedron) (S n) "equispaced") (fields 3 (P_space 3 (S n)))).
Proof. intros n. exact (conj (nedelec2_triangle n) (nedelec2_tetrahedron n)). Qed.
Print Assumptions C77_nedelec_second_kind.
(** the edge of the tetrahedron between the vertices 1 and 3, and the constant field along the second axis, which is
    orthogonal to it *)
Example C77_nedelec_second_kind_case : fields 3 (P_space 3 1) (fun x => if (fst x =? 1)%nat then 1 else 0) /\ vanishes_along (fun x => if (fst x =? 1)%nat then 1 else 0) 1 3 /\
  ~ vanishes_along (fun x => if (fst x =? 1)%nat then 1 else 0) 0 2.
Proof.
  split; [exact (constant_field 3 1 1)|]. split; [intros s; cbn; ring|]. intros H. specialize (H 0). cbn in H. lra.
Qed.
