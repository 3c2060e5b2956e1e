(** Properties C16, C17, C64: dual bases.  [subspace], [linear_on], [combination], [dof_value], [unisolvent] are the
    specification vocabulary at the start of CiarletProofs.v; [same f g]: f and g agree at every point. *)
From Coquelicot Require Import Coquelicot.
From Coq Require Import Reals Lra Lia Arith List.
From Verif Require Import Base LinAlg CiarletModel CiarletProofs.
Import ListNotations.
Open Scope R_scope.

(** * C16.  S is any space of functions containing the basis on which the dofs are linear. *)
Theorem C16_ciarlet_duality : forall A (S : fn A -> Prop) (basis : list (fn A)) (dofs : list (fn A -> R)) phi,
  subspace S -> Forall S basis -> Forall (linear_on S) dofs -> get_basis_functions basis dofs = Ok phi ->
  length phi = length dofs /\
  (forall i j, (i < length dofs)%nat -> (j < length dofs)%nat ->
     dof_value dofs i (nth j phi (fun _ => 0)) = if (i =? j)%nat then 1 else 0) /\
  (forall f, (exists c, same f (combination c phi)) <-> (exists c, same f (combination c basis))) /\
  (forall f, (exists c, same f (combination c basis)) ->
     same f (combination (fun i => dof_value dofs i f) phi)).
Proof.
  intros A S basis dofs phi HS Hb Hd H.
  destruct (basis_functions_ok basis dofs phi H) as (_ & Hl & _).
  split; [exact Hl|]. split; [exact (duality S basis dofs HS Hb Hd phi H)|].
  assert (I : forall f, (exists c, same f (combination c basis)) -> same f (combination (fun i => dof_value dofs i f) phi)).
  { intros f [c Hc]. exact (interpolation S basis dofs HS Hb Hd phi f c H Hc). }
  split; [|exact I]. intros f. split; [|intros Hf; eexists; apply I, Hf].
  intros [c Hc]. destruct (phi_in_span basis dofs phi c H) as [d E]. exists d. intros x. rewrite (Hc x). apply E.
Qed.
Print Assumptions C16_ciarlet_duality.

(** * C64: the element has basis functions exactly if its dofs are unisolvent; a singular system is reported by an
    exception, and so are different numbers of functions and dofs (by the constructor). *)
Theorem C64_exists_iff_unisolvent : forall A (S : fn A -> Prop) (basis : list (fn A)) (dofs : list (fn A -> R)),
  subspace S -> Forall S basis -> Forall (linear_on S) dofs ->
  (length basis <> length dofs -> get_basis_functions basis dofs = Err AssertionError) /\
  (length basis = length dofs ->
     ((exists phi, get_basis_functions basis dofs = Ok phi) <-> unisolvent basis dofs) /\
     ((exists phi, get_basis_functions basis dofs = Ok phi) \/ get_basis_functions basis dofs = Err ValueError)).
Proof.
  intros A S basis dofs HS Hb Hd. split; [apply sizes_differ|]. intros E.
  split; [exact (succeeds_iff_unisolvent S basis dofs HS Hb Hd E)|].
  unfold get_basis_functions. rewrite E, Nat.eqb_refl. simpl.
  pose proof (inv_LU_spec _ _ (square_dual basis dofs E)) as H.
  destruct (inv_LU (dual_matrix basis dofs)) as [N|e]; [left; eexists; reflexivity|right].
  rewrite (proj1 H). reflexivity.
Qed.
Print Assumptions C64_exists_iff_unisolvent.

(** evaluation at a point: the dofs of the P1 element on an interval *)
Definition at_point (p : R) : fn R -> R := fun f => f p.
Definition anything : fn R -> Prop := fun _ => True.
Lemma anything_subspace : subspace anything.
Proof. split; [exact I|]. split; intros; exact I. Qed.
Lemma at_point_linear p : linear_on anything (at_point p).
Proof. split; [reflexivity|]. intros u v E _. apply E. Qed.
Definition P1_basis : list (fn R) := [fun _ => 1; fun x => x].
Lemma P1_in : Forall anything P1_basis. Proof. repeat constructor. Qed.
Example C16_C64_case : exists phi, get_basis_functions P1_basis [at_point 0; at_point 1] = Ok phi.
Proof.
  apply (C64_exists_iff_unisolvent R anything P1_basis [at_point 0; at_point 1] anything_subspace P1_in);
    [repeat (constructor; [apply at_point_linear|]); constructor|reflexivity|].
  intros c H. pose proof (H 0%nat ltac:(simpl; lia)) as H0. pose proof (H 1%nat ltac:(simpl; lia)) as H1.
  cbv [dof_value combination at_point nth sum length P1_basis] in H0, H1.
  intros [|[|i]] Hi; [lra|lra|simpl in Hi; lia].
Qed.
(** two equal dofs: the constructor accepts the element, the computation raises *)
Example C64_singular_case : get_basis_functions P1_basis [at_point 0; at_point 0] = Err ValueError.
Proof.
  destruct (C64_exists_iff_unisolvent R anything P1_basis [at_point 0; at_point 0] anything_subspace P1_in) as [_ H];
    [repeat (constructor; [apply at_point_linear|]); constructor|].
  destruct (H eq_refl) as [H1 [H2|H2]]; [|exact H2]. exfalso. apply H1 in H2.
  assert (E : delta 1 1 = 0).
  { apply (H2 (delta 1)); [|simpl; lia]. intros [|[|i]] Hi; try (simpl in Hi; lia);
      cbv [dof_value combination at_point nth sum length P1_basis delta Nat.eq_dec]; simpl; lra. }
  rewrite delta_same in E. lra.
Qed.
Example C64_sizes_case : get_basis_functions P1_basis [at_point 0] = Err AssertionError.
Proof. reflexivity. Qed.

(** * C17: the integral over the cell is linear on some algebra of functions containing the polynomials *)
Theorem C17_l2_dual : forall A (S : fn A -> Prop) (integral : fn A -> R) (poly : list (fn A)) d,
  algebra S -> linear_on S integral -> Forall S poly -> l2_dual integral poly = Ok d ->
  length d = length poly /\
  (forall i j, (i < length poly)%nat -> (j < length poly)%nat ->
     integral (fun x => nth i poly (fun _ => 0) x * nth j d (fun _ => 0) x) = if (i =? j)%nat then 1 else 0) /\
  (forall f, (exists c, same f (combination c d)) <-> (exists c, same f (combination c poly))).
Proof.
  intros A S integral poly d HA HI Hp H. pose proof HA as [HS HM].
  destruct (l2_dual_is S integral poly HA HI Hp d H) as (phi & Hphi & Hl & Hsame).
  pose proof (all_against S integral poly HA HI Hp) as Hag.
  destruct (C16_ciarlet_duality A S poly _ phi HS Hp Hag Hphi) as (L & D & Sp & _). rewrite map_length in L, D.
  split; [lia|]. split.
  - intros i j Hi Hj. specialize (D i j Hi Hj). unfold dof_value in D.
    rewrite (nth_map_lt _ poly i (fun _ => 0)) in D by exact Hi. unfold against in D. rewrite <- D.
    assert (Sphi : S (nth j phi (fun _ => 0))).
    { destruct (basis_functions_ok poly _ phi Hphi) as (_ & _ & N & _ & Hc). rewrite map_length in Hc.
      apply (S_same S poly HS Hp _ _ (Hc j Hj)). }
    symmetry. apply HI; [intros x; rewrite (Hsame j Hj x); reflexivity|].
    apply HM; [|exact Sphi]. rewrite Forall_forall in Hp. apply Hp, nth_In, Hi.
  - intros f. rewrite <- Sp. split; intros [c Hc]; exists c; intros x; rewrite (Hc x); unfold combination; rewrite Hl;
      apply sum_ext; intros i Hi; rewrite (Hsame i) by lia; reflexivity.
Qed.
Print Assumptions C17_l2_dual.

(** The computation succeeds exactly if the polynomials are linearly independent, provided the integral of the square
    of a function in S only vanishes for the zero function. *)
Theorem C17_l2_dual_exists : forall A (S : fn A -> Prop) (integral : fn A -> R) (poly : list (fn A)),
  algebra S -> linear_on S integral -> Forall S poly ->
  (forall f, S f -> integral (fun x => f x * f x) = 0 -> forall x, f x = 0) ->
  ((exists d, l2_dual integral poly = Ok d) <->
   (forall c, (forall x, combination c poly x = 0) -> forall i, (i < length poly)%nat -> c i = 0)).
Proof.
  intros A S integral poly HA HI Hp Hdef. pose proof HA as [HS HM].
  pose proof (all_against S integral poly HA HI Hp) as Hag.
  assert (E : length poly = length (map (against integral) poly)) by (rewrite map_length; reflexivity).
  transitivity (exists phi, get_basis_functions poly (map (against integral) poly) = Ok phi).
  - split; [intros [d H]|intros [phi H]].
    + destruct (l2_dual_is S integral poly HA HI Hp d H) as (phi & Hphi & _). exists phi. exact Hphi.
    + exact (l2_dual_succeeds S integral poly HA HI Hp phi H).
  - rewrite (proj1 (proj2 (C64_exists_iff_unisolvent A S poly _ HS Hp Hag) E)). split; intros U c Hc.
    + apply U. intros i Hi. rewrite <- E in Hi. unfold dof_value. rewrite (nth_map_lt _ poly i (fun _ => 0)) by exact Hi.
      unfold against. rewrite (proj2 HI _ (fun x => 0 * 0 + 0)).
      * rewrite (proj1 HI 0 (fun _ => 0) (fun _ => 0)); [|apply HS|apply HS].
        pose proof (proj1 HI (-1) (fun _ => 0) (fun _ => 0) (proj1 HS) (proj1 HS)) as Z.
        rewrite (proj2 HI _ (fun _ => 0)) in Z; [lra|intros; ring|apply HS; apply HS].
      * intros x. rewrite Hc. ring.
      * apply HM; [rewrite Forall_forall in Hp; apply Hp, nth_In, Hi|apply comb_subspace; assumption].
    + apply U. apply Hdef; [apply comb_subspace; assumption|].
      set (f := combination c poly) in *.
      assert (Sf : S f) by (apply comb_subspace; assumption).
      change (against integral f f = 0). unfold f at 2.
      rewrite (comb_linear S _ c poly HS (against_linear S integral HA HI f Sf) Hp). apply sum_zero. intros i Hi.
      specialize (Hc i ltac:(lia)). unfold dof_value in Hc. rewrite (nth_map_lt _ poly i (fun _ => 0)) in Hc by exact Hi.
      unfold against in *. rewrite (proj2 HI _ (fun x => nth i poly (fun _ => 0) x * f x)).
      * rewrite Hc. ring.
      * intros; ring.
      * apply HM; [exact Sf|rewrite Forall_forall in Hp; apply Hp, nth_In, Hi].
Qed.
Print Assumptions C17_l2_dual_exists.

(** the integral over (0,1) of continuous functions, applied to 1 and x *)
Definition int01 (f : fn R) : R := RInt f 0 1.
Definition cont : fn R -> Prop := fun f => forall x, continuous f x.
Lemma cont_algebra : algebra cont.
Proof.
  split; [split; [|split]|].
  - intros x. apply continuous_const.
  - intros a u v Hu Hv x. apply (continuous_plus (fun x => a * u x) v); [|apply Hv].
    apply (continuous_mult (fun _ => a) u); [apply continuous_const|apply Hu].
  - intros u v E Hu x. apply (continuous_ext u); [exact E|apply Hu].
  - intros u v Hu Hv x. apply (continuous_mult u v); [apply Hu|apply Hv].
Qed.
Lemma int01_linear : linear_on cont int01.
Proof.
  assert (X : forall f, cont f -> ex_RInt f 0 1) by (intros f H; apply (@ex_RInt_continuous R_CompleteNormedModule); intros; apply H).
  split.
  - intros a u v Hu Hv. unfold int01.
    rewrite (RInt_plus (fun x => a * u x) v); [|apply (@ex_RInt_scal R_NormedModule), X, Hu|apply X, Hv].
    pose proof (RInt_scal u 0 1 a (X u Hu)) as E. change (RInt (fun x => a * u x) 0 1 = a * RInt u 0 1) in E.
    rewrite E. reflexivity.
  - intros u v E Hu. apply RInt_ext. intros x _. apply E.
Qed.
Lemma P1_cont : Forall cont P1_basis.
Proof. constructor; [intros x; apply continuous_const|]. constructor; [|constructor]. intros x. apply continuous_id. Qed.
Lemma int01_value (f F : R -> R) : (forall x, is_derive F x (f x)) -> cont f -> int01 f = F 1 - F 0.
Proof. intros H C. apply is_RInt_unique. apply (is_RInt_derive F f); intros x _; [apply H|apply C]. Qed.
Example C17_case : exists d, l2_dual int01 P1_basis = Ok d.
Proof.
  apply (l2_dual_succeeds cont int01 P1_basis cont_algebra int01_linear P1_cont) with
    (phi := match get_basis_functions P1_basis (map (against int01) P1_basis) with Ok p => p | Err _ => [] end).
  assert (G : exists phi, get_basis_functions P1_basis (map (against int01) P1_basis) = Ok phi);
    [|destruct G as [phi G]; rewrite G; reflexivity].
  apply (C64_exists_iff_unisolvent R cont P1_basis (map (against int01) P1_basis) (proj1 cont_algebra) P1_cont
           (all_against cont int01 P1_basis cont_algebra int01_linear P1_cont)); [reflexivity|].
  intros c H.
  assert (C : forall p, In p P1_basis -> cont (fun x => p x * combination c P1_basis x)).
  { intros p Hp. apply cont_algebra; [pose proof P1_cont as Q; rewrite Forall_forall in Q; apply Q, Hp|].
    apply comb_subspace; [exact (proj1 cont_algebra)|exact P1_cont]. }
  pose proof (H 0%nat ltac:(simpl; lia)) as H0. pose proof (H 1%nat ltac:(simpl; lia)) as H1.
  cbv [dof_value nth map P1_basis against] in H0, H1.
  rewrite (int01_value _ (fun x => c O * x + c 1%nat * x ^ 2 / 2)) in H0;
    [|intros x; unfold combination; simpl; auto_derive; [exact I|simpl; field]|apply (C (fun _ => 1)); left; reflexivity].
  rewrite (int01_value _ (fun x => c O * x ^ 2 / 2 + c 1%nat * x ^ 3 / 3)) in H1;
    [|intros x; unfold combination; simpl; auto_derive; [exact I|simpl; field]|apply (C (fun x => x)); right; left; reflexivity].
  simpl in H0, H1. intros [|[|i]] Hi; [lra|lra|simpl in Hi; lia].
Qed.

(** polynomials in one variable, with coefficients from the lowest degree up *)
Fixpoint upoly (l : list R) (x : R) : R := match l with [] => 0 | a :: l' => a + x * upoly l' x end.
Definition polys : fn R -> Prop := fun f => exists l, forall x, f x = upoly l x.
Fixpoint uadd (k l : list R) : list R :=
  match k, l with [], _ => l | _, [] => k | a :: k', b :: l' => (a + b) :: uadd k' l' end.
Lemma upoly_add : forall k l x, upoly (uadd k l) x = upoly k x + upoly l x.
Proof. induction k as [|a k IH]; intros [|b l] x; simpl; try ring. rewrite IH. ring. Qed.
Lemma upoly_scal a : forall l x, upoly (map (Rmult a) l) x = a * upoly l x.
Proof. induction l as [|b l IH]; intros x; simpl; [ring|]. rewrite IH. ring. Qed.
Fixpoint umul (k l : list R) : list R :=
  match k with [] => [] | a :: k' => uadd (map (Rmult a) l) (0 :: umul k' l) end.
Lemma upoly_mul : forall k l x, upoly (umul k l) x = upoly k x * upoly l x.
Proof. induction k as [|a k IH]; intros l x; simpl; [ring|]. rewrite upoly_add, upoly_scal. simpl. rewrite IH. ring. Qed.
Lemma polys_algebra : algebra polys.
Proof.
  split; [split; [|split]|].
  - exists []. reflexivity.
  - intros a u v [k Hk] [l Hl]. exists (uadd (map (Rmult a) k) l). intros x. rewrite upoly_add, upoly_scal, Hk, Hl. reflexivity.
  - intros u v E [k Hk]. exists k. intros x. rewrite <- E. apply Hk.
  - intros u v [k Hk] [l Hl]. exists (umul k l). intros x. rewrite upoly_mul, Hk, Hl. reflexivity.
Qed.
Lemma upoly_cont l : cont (upoly l).
Proof.
  induction l as [|a l IH]; intros x; [apply continuous_const|].
  apply (continuous_plus (fun _ => a) (fun x => x * upoly l x)); [apply continuous_const|].
  apply (continuous_mult (fun x => x) (upoly l)); [apply continuous_id|apply IH].
Qed.
Lemma polys_cont f : polys f -> cont f.
Proof. intros [l H] x. apply (continuous_ext (upoly l)); [intros; symmetry; apply H|apply upoly_cont]. Qed.
Lemma int01_polys : linear_on polys int01.
Proof.
  destruct int01_linear as [H1 H2]. split; [intros; apply H1; apply polys_cont; assumption|].
  intros u v E H. apply H2; [exact E|apply polys_cont, H].
Qed.
(** a polynomial that vanishes between 0 and 1 vanishes *)
Lemma upoly_zero : forall l, (forall x, 0 < x < 1 -> upoly l x = 0) -> forall x, upoly l x = 0.
Proof.
  induction l as [|a l IH]; intros H x; [reflexivity|]. simpl.
  assert (Ha : a = 0).
  { (* the limit at 0 *)
    destruct (Req_EM_T a 0) as [E|E]; [exact E|exfalso].
    pose proof (upoly_cont (a :: l) 0) as C. simpl in C.
    destruct (C (fun y => Rabs (y - a) < Rabs a)) as [d Hd].
    - exists (mkposreal (Rabs a) (Rabs_pos_lt a E)). intros y Hy. simpl in Hy.
      replace (a + 0 * upoly l 0) with a in Hy by ring. exact Hy.
    - set (y := Rmin (d / 2) (1 / 2)). pose proof (cond_pos d) as Pd.
      assert (Hy : 0 < y < 1) by (unfold y, Rmin; destruct (Rle_dec _ _); lra).
      assert (By : ball 0 d y).
      { unfold ball; simpl; unfold AbsRing_ball, abs, minus, plus, opp; simpl. replace (y + - 0) with y by ring.
        rewrite Rabs_pos_eq by lra. unfold y, Rmin. destruct (Rle_dec _ _); lra. }
      specialize (Hd y By). simpl in Hd. specialize (H y Hy). simpl in H. rewrite H in Hd.
      replace (0 - a) with (- a) in Hd by ring. rewrite Rabs_Ropp in Hd. lra. }
  rewrite IH; [rewrite Ha; ring|]. intros y Hy. specialize (H y Hy). simpl in H. rewrite Ha in H.
  assert (E : y * upoly l y = 0) by lra. apply Rmult_integral in E. destruct E as [E|E]; [lra|exact E].
Qed.
Lemma int01_definite : forall f, polys f -> int01 (fun x => f x * f x) = 0 -> forall x, f x = 0.
Proof.
  intros f Pf HI. destruct Pf as [l Hl].
  assert (G : forall y, 0 < y < 1 -> upoly l y = 0).
  { intros y Hy. destruct (Req_EM_T (upoly l y) 0) as [E|E]; [exact E|exfalso].
    set (g := fun x => upoly l x * upoly l x).
    assert (Cg : cont g) by (intros x; apply (continuous_mult (upoly l) (upoly l)); apply upoly_cont).
    assert (Xg : forall a b, ex_RInt g a b) by (intros a b; apply (@ex_RInt_continuous R_CompleteNormedModule); intros; apply Cg).
    assert (Pg : forall x, 0 <= g x) by (intros x; apply Rle_0_sqr).
    assert (Py : 0 < g y) by (apply Rlt_0_sqr; exact E).
    destruct (Cg y (fun z => g y / 2 < z)) as [d Hd].
    { exists (mkposreal (g y / 2) ltac:(lra)). intros z Hz. unfold ball in Hz; simpl in Hz.
      unfold AbsRing_ball, abs, minus, plus, opp in Hz; simpl in Hz. apply Rabs_def2 in Hz. lra. }
    set (e := Rmin d (1 - y)). pose proof (cond_pos d) as Pd.
    assert (He : 0 < e /\ e <= d /\ y + e <= 1) by (unfold e, Rmin; destruct (Rle_dec _ _); lra).
    assert (I1 : int01 g = RInt g 0 y + (RInt g y (y + e / 2) + RInt g (y + e / 2) 1)).
    { unfold int01. rewrite <- (RInt_Chasles g 0 y 1) by apply Xg. rewrite <- (RInt_Chasles g y (y + e / 2) 1) by apply Xg. reflexivity. }
    assert (I2 : forall a b, a <= b -> 0 <= RInt g a b).
    { intros a b Hab. replace 0 with (RInt (fun _ => 0) a b) by (rewrite RInt_const; apply Rmult_0_r).
      apply RInt_le; [exact Hab|apply ex_RInt_const|apply Xg|intros; apply Pg]. }
    assert (I3 : g y / 2 * (e / 2) <= RInt g y (y + e / 2)).
    { replace (g y / 2 * (e / 2)) with (RInt (fun _ => g y / 2) y (y + e / 2))
        by (rewrite RInt_const; unfold scal; simpl; unfold mult; simpl; ring).
      apply RInt_le; [lra|apply ex_RInt_const|apply Xg|]. intros x Hx. apply Rlt_le, Hd.
      unfold ball; simpl; unfold AbsRing_ball, abs, minus, plus, opp; simpl. rewrite Rabs_pos_eq; lra. }
    assert (I4 : int01 g = 0).
    { rewrite <- HI. apply int01_linear; [|exact Cg]. intros x. unfold g. rewrite Hl. reflexivity. }
    pose proof (I2 0 y ltac:(lra)). pose proof (I2 (y + e / 2) 1 ltac:(lra)).
    assert (0 < g y / 2 * (e / 2)) by (apply Rmult_lt_0_compat; lra). lra. }
  intros x. rewrite Hl. apply upoly_zero. exact G.
Qed.
(** 1, x, x^2 are independent, so the L2 dual exists; x, 2x are not *)
Example C17_exists_case : exists d, l2_dual int01 [fun _ => 1; fun x => x; fun x => x * x] = Ok d.
Proof.
  apply (C17_l2_dual_exists R polys int01 _ polys_algebra int01_polys).
  - constructor; [exists [1]; intros; simpl; ring|]. constructor; [exists [0; 1]; intros; simpl; ring|].
    constructor; [exists [0; 0; 1]; intros; simpl; ring|constructor].
  - exact int01_definite.
  - intros c H. pose proof (H 0) as H0. pose proof (H 1) as H1. pose proof (H (-1)) as H2.
    cbv [combination sum nth length] in H0, H1, H2. intros [|[|[|i]]] Hi; try lra. simpl in Hi. lia.
Qed.
Example C17_dependent_case : ~ exists d, l2_dual int01 [fun x => x; fun x => 2 * x] = Ok d.
Proof.
  intros H.
  assert (P : Forall polys [fun x => x; fun x => 2 * x])
    by (constructor; [exists [0; 1]; intros; simpl; ring|constructor; [exists [0; 2]; intros; simpl; ring|constructor]]).
  pose proof (proj1 (C17_l2_dual_exists R polys int01 _ polys_algebra int01_polys P int01_definite) H) as U.
  assert (E : (fun i => if (i =? 0)%nat then 2 else -1) O = 0).
  { apply (U (fun i => if (i =? 0)%nat then 2 else -1)); [|simpl; lia]. intros x. cbv [combination sum nth length]. simpl. ring. }
  simpl in E. lra.
Qed.
