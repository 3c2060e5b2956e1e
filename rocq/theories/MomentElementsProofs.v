(** Elements whose degrees of freedom are integral moments. *)
From Coquelicot Require Import Coquelicot.
From Coq Require Import String Arith Bool ZArith Reals Lia Lra List FunctionalExtensionality.
From Verif Require Import Base PolyLib PolySetsModel PolySetsProofs PolyVec QuadratureModel ReferencesModel ReferencesSpec ReferencesProofs ReferencesGeometry CiarletModel CiarletProofs
  LinAlg ElementModel LagrangeModel UnisolvenceProofs LagrangeProofs LagrangeKey LagrangeUnisolvence PropertiesLagrange PropertiesCiarlet
  LegendreJacobi LegendreIntSpec LegendreIntegrals KmvProofs MomentsInt MomentsParts MomentsRT
  PointsModel PointsSpec PointsProofs PointsElements MomentElementsModel MomentElementsSpec.
Import ListNotations.
Local Open Scope R_scope.

(** * Values *)
Lemma with_value_upd (e : point) k s : (fun i => if (i =? k)%nat then s else e i) = PolyVec.upd e k s.
Proof. apply functional_extensionality. intros j. unfold PolyVec.upd. destruct (Nat.eqb_spec j k), (Nat.eq_dec j k); congruence. Qed.
Lemma integral_value lims : forall F v I, iterated_integral lims F v I -> integral lims F v = I.
Proof.
  induction lims as [|[[k lo] hi] ls IH]; intros F v I; cbn [iterated_integral integral]; [auto|].
  intros (G & HG & H). apply IH. apply (iterated_ext' ls G); [|exact H]. intros e. symmetry. apply (is_RInt_unique (V := R_CompleteNormedModule)).
  eapply is_RInt_eq; [apply HG| |reflexivity]. intros x _. rewrite with_value_upd. reflexivity.
Qed.
Lemma rsum_map_range n (F : nat -> R) : rsum (map F (range n)) = sum n F.
Proof.
  unfold range. assert (G : forall s, rsum (map F (seq s n)) = sum n (fun i => F (s + i)%nat)); [|rewrite G; reflexivity].
  induction n as [|n IH]; intros s; [reflexivity|]. cbn [seq map]. rewrite rsum_cons, IH, sum_S, Nat.add_0_r. f_equal. apply sum_ext. intros i _. f_equal. lia.
Qed.
Lemma rsum_enumerate {A} (l : list A) (F : nat * A -> R) (a : A) : rsum (map F (enumerate l)) = sum (length l) (fun i => F (i, nth i l a)).
Proof.
  unfold enumerate, range. assert (G : forall s, rsum (map F (combine (seq s (length l)) l)) = sum (length l) (fun i => F ((s + i)%nat, nth i l a))); [|rewrite G; reflexivity].
  induction l as [|x l IH]; intros s; [reflexivity|]. cbn [length seq combine map]. rewrite rsum_cons, IH, sum_S, Nat.add_0_r. cbn [nth]. f_equal. apply sum_ext. intros i _. do 2 f_equal. lia.
Qed.
Lemma domain_point_spec dom t : domain_point dom t = point_of dom t.
Proof. apply functional_extensionality. intros i. unfold domain_point, point_of. f_equal. apply (rsum_enumerate (r_axes dom) (fun ja => nth i (snd ja) 0 * t (fst ja)) []). Qed.
Lemma moment_value_eval m f I : moment_value m f I -> moment_eval m f = I.
Proof.
  intros H. apply integral_value. eapply iterated_ext'; [|exact H]. intros t. cbv beta. rewrite rsum_map_range, domain_point_spec. reflexivity.
Qed.
Lemma moment_value_uniq m f I J : moment_value m f I -> moment_value m f J -> I = J.
Proof. apply iterated_uniq. Qed.

(** fields with polynomial components *)
Definition poly_field (d : nat) (f : component_fn) : Prop := exists n, forall c, (c < d)%nat -> degree_space d n (fun v => f (c, v)).
(** moments with polynomial functions over domains of dimension e, for fields with d components *)
Definition good_moment (d e : nat) (m : moment_dof) : Prop :=
  (1 <= e <= 3)%nat /\ good_lims e (mo_limits m) /\ gdim (mo_domain m) = d /\ length (r_axes (mo_domain m)) = e /\ exists k, forall c, (c < d)%nat -> degree_space e k (fun t => mo_f m (c, t)).
Lemma point_of_space dom e i : length (r_axes dom) = e -> degree_space e 1 (fun t => point_of dom t i).
Proof.
  intros L. unfold point_of. rewrite L. apply (poly_space_add _ (fun _ => nth i (r_origin dom) 0)); [apply degree_const|].
  apply sum_poly. intros j Hj. apply (poly_space_scale _ (nth i (nth j (r_axes dom) []) 0) (fun t => t j)). apply degree_var, Hj.
Qed.
Lemma pulled_back dom d e n (g : sfun) : length (r_axes dom) = e -> degree_space d n g -> degree_space e n (fun t => g (point_of dom t)).
Proof.
  intros L Hg. apply (degree_subst d n e g (fun j t => point_of dom t j) Hg). intros j _. apply point_of_space, L.
Qed.
Lemma moment_exists d e m f : good_moment d e m -> poly_field d f -> exists I, moment_value m f I.
Proof.
  intros (He & El & Eg & La & k & Hk) (n & Hn). unfold moment_value. rewrite Eg.
  apply (iterated_exists e (mo_limits m) El (n + k)).
  apply (poly_space_ext _ (fun t => mo_jacobian m * sum d (fun c => f (c, point_of (mo_domain m) t) * mo_f m (c, t)))); [intros; ring|]. apply poly_space_scale, sum_poly.
  intros c Hc. apply (degree_mul e n k (fun t => f (c, point_of (mo_domain m) t)) (fun t => mo_f m (c, t))); [|apply Hk, Hc].
  apply (pulled_back (mo_domain m) d e n (fun v => f (c, v)) La), Hn, Hc.
Qed.
Lemma moment_linear d e m (W : component_fn -> Prop) : good_moment d e m -> (forall f, W f -> poly_field d f) -> linear_on W (moment_eval m).
Proof.
  intros G P. split.
  - intros a u v Hu Hv. destruct (moment_exists d e m u G (P u Hu)) as [I HI]. destruct (moment_exists d e m v G (P v Hv)) as [J HJ].
    rewrite (moment_value_eval m u I HI), (moment_value_eval m v J HJ). apply moment_value_eval. unfold moment_value in *.
    eapply iterated_ext'; [|apply (iterated_lin _ _ _ _ _ _ a HI HJ)]. intros t. cbv beta.
    rewrite <- Rmult_assoc, <- sum_scal, <- Rmult_plus_distr_r, <- sum_plus. f_equal. apply sum_ext. intros c _. ring.
  - intros u v E Hu. destruct (moment_exists d e m u G (P u Hu)) as [I HI]. rewrite (moment_value_eval m u I HI). symmetry. apply moment_value_eval.
    eapply iterated_ext'; [|exact HI]. intros t. cbv beta. f_equal. apply sum_ext. intros c _. rewrite E. reflexivity.
Qed.

(** As many independent fields of a space as unisolvent moments: the element has a dual basis. *)
Lemma moments_square d (W : component_fn -> Prop) poly dofs K made : made = Ok (poly, dofs) ->
  subspace W -> (forall f, W f -> poly_field d f) -> (forall F, In F poly -> W (field F)) ->
  (forall m, In m dofs -> exists e, good_moment d e m) -> length poly = K -> length dofs = K ->
  (forall c, (forall x, combination c (map field poly) x = 0) -> forall i, (i < K)%nat -> c i = 0) ->
  (forall f, W f -> (forall m, In m dofs -> moment_value m f 0) -> forall x, f x = 0) ->
  dual_moments made W K.
Proof.
  intros -> HS HP HF HG Lp Ld HI HZ.
  destruct (square_element W (map field poly) (map moment_eval dofs)) as (phi & E & L & D & Wp & X).
  - exact HS.
  - apply Forall_map, Forall_forall. intros m Hm. destruct (HG m Hm) as [e He]. exact (moment_linear d e m W He HP).
  - apply Forall_map, Forall_forall. exact HF.
  - intros c Hc. rewrite map_length, Lp. apply HI, Hc.
  - rewrite !map_length. congruence.
  - intros f Wf Z. apply HZ; [exact Wf|]. intros m Hm. destruct (HG m Hm) as [e He]. destruct (moment_exists d e m f He (HP f Wf)) as [I HI'].
    specialize (Z (moment_eval m) (in_map _ _ _ Hm)). rewrite (moment_value_eval m f I HI') in Z. rewrite <- Z. exact HI'.
  - rewrite map_length in L, D, X. rewrite Ld in *. exists poly, dofs, phi. split; [reflexivity|]. split; [exact E|]. split; [exact Ld|]. split; [exact L|].
    rewrite Forall_forall in Wp.
    assert (V : forall i m f, nth_error dofs i = Some m -> W f -> moment_value m f (nth i (map moment_eval dofs) (fun _ => 0) f)).
    { intros i m f Hm Wf. destruct (HG m (nth_error_In _ _ Hm)) as [e He]. destruct (moment_exists d e m f He (HP f Wf)) as [I HI'].
      rewrite (nth_error_nth (map moment_eval dofs) i (fun _ => 0) (map_nth_error moment_eval i dofs Hm)). rewrite (moment_value_eval m f I HI'). exact HI'. }
    split; [|split].
    + unfold component_fn in *. intros i j m g Hm Hg. assert (Hi : (i < K)%nat) by (rewrite <- Ld; apply nth_error_Some; rewrite Hm; discriminate).
      assert (Hj : (j < K)%nat) by (rewrite <- L; apply nth_error_Some; rewrite Hg; discriminate).
      specialize (D i j Hi Hj). rewrite (nth_error_nth phi j _ Hg) in D. rewrite <- D. apply V; [exact Hm|]. apply Wp, (nth_error_In _ _ Hg).
    + exact Wp.
    + intros f Wf. exists (fun i => nth i (map moment_eval dofs) (fun _ => 0) f). split; [intros i m Hm; apply V; assumption|]. apply X, Wf.
Qed.

(** * The moments on the sub-entities *)
Lemma map_r_ok {A B} (f : A -> res B) (g : A -> B) l : (forall a, In a l -> f a = Ok (g a)) -> map_r f l = Ok (map g l).
Proof.
  induction l as [|a l IH]; intros H; [reflexivity|]. cbn [map_r map]. rewrite (H a (or_introl eq_refl)). cbn [rbind]. rewrite IH; [reflexivity|]. intros b Hb. apply H. right. exact Hb.
Qed.
Lemma moments_on_ok {A} r dim (basis : reference -> res (list A)) moment c vs fs (mk : nat -> A -> moment_dof) :
  sub_entity_types (r_type r) dim = Ok (Same c) -> sub_entities r dim = Ok vs -> basis (default c) = Ok fs ->
  (forall i, (i < length vs)%nat -> exists dom, sub_entity r dim i false = Ok dom /\ r_type dom = c) ->
  (forall i f, (i < length vs)%nat -> In f fs -> moment r f (dim, i) = Ok (mk i f)) ->
  moments_on r dim basis moment = Ok (flat_map (fun i => map (mk i) fs) (range (length vs))).
Proof.
  intros H1 H2 H3 H4 H5. unfold moments_on. rewrite H1. cbn [rbind]. rewrite H2. cbn [rbind].
  rewrite (map_r_ok _ (fun i => map (mk i) fs)); [cbn [rmap]; rewrite flat_map_concat_map; reflexivity|].
  intros i Hi. apply in_range in Hi. destruct (H4 i Hi) as (dom & -> & E). cbn [rbind]. rewrite E, H3. cbn [rbind]. apply map_r_ok. intros f Hf. apply H5; assumption.
Qed.

(** * The bases that are integrated against *)
Lemma default_simplex c : simplex c -> points (nvert c) (tdim c) (reference_vertices c) /\ map_det c (reference_vertices c) <> 0 /\ make_reference c (reference_vertices c) = Ok (default c).
Proof.
  intros [->|[->| ->]]; (split; [split; [reflexivity|simpl; repeat (apply Forall_cons; [reflexivity|]); apply Forall_nil]|split; [unfold map_det, edge_det3, edge_det2, co; simpl; lra|reflexivity]]).
Qed.
Lemma lagrange_span c n : simplex c -> exists fs, lagrange_basis_functions (default c) n "equispaced" = Ok fs /\ length fs = P_dim (tdim c) n /\
  (forall f, In f fs -> degree_space (tdim c) n f) /\ (forall g, degree_space (tdim c) n g -> exists a, forall v, g v = sum (length fs) (fun i => a i * nth i fs (fun _ => 0) v)).
Proof.
  intros Hc. destruct (default_simplex c Hc) as (Hp & HD & Hr). destruct (lagrange_nodes c _ _ n Hc Hp HD Hr) as (ms & dofs & HL & Hq & (ND & Hin & Hl & Ld & HZ)).
  pose proof (P_dim_length _ _ _ Hq) as PL.
  destruct (point_element (tdim c) (fun m => length m = tdim c /\ (mdeg m <= n)%nat) ms dofs ([], (0, 0)%nat) ND Hin (fun m H => proj1 H) Ld HZ) as (phi & P1 & P2 & P3 & P4 & P5).
  exists phi. split.
  { unfold lagrange_basis_functions, lagrange_poly. rewrite HL. cbn [rbind]. rewrite (simplex_type c _ _ Hc Hr), Hq. exact P1. }
  split; [rewrite P2, Ld; exact PL|]. split; [exact P4|]. intros g Hg. eexists. intros v. rewrite P2. exact (P5 g Hg v).
Qed.
Lemma vector_span c n : simplex c -> (2 <= tdim c)%nat -> exists fs, vector_lagrange_basis n "equispaced" (default c) = Ok fs /\ length fs = (tdim c * P_dim (tdim c) n)%nat /\
  (forall f, In f fs -> fields (tdim c) (P_space (tdim c) n) f) /\
  (forall g, fields (tdim c) (P_space (tdim c) n) g -> exists a, forall x, g x = sum (length fs) (fun i => a i * nth i fs (fun _ => 0) x)).
Proof.
  intros Hc Ht. destruct (default_simplex c Hc) as (Hp & HD & Hr). destruct (vector_lagrange_dual c _ _ n Hc Hp HD Hr) as (poly & dofs & phi & E & B & L1 & L2 & _ & HW & HX).
  exists phi. split; [unfold vector_lagrange_basis; rewrite E; exact B|]. split; [exact L2|]. split; [exact HW|]. intros g Hg. eexists. intros x. rewrite L2. exact (HX g Hg x).
Qed.
