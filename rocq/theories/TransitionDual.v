(** Transition elements: the dual basis, continuity and polynomials. *)
From Coq Require Import String Arith Bool Reals Lra Lia List FunctionalExtensionality ListDec.
From Verif Require Import Base PolyLib PolySetsModel PolySetsProofs QuadratureModel ReferencesModel ReferencesSpec ReferencesProofs ReferencesGeometry
  LinAlg CiarletModel CiarletProofs ElementModel LagrangeModel UnisolvenceProofs LagrangeProofs LagrangeKey LagrangeUnisolvence PropertiesLagrange
  PointsSpec PointsProofs TransitionModel TransitionSpec TransitionProofs TransitionElement.
Import ListNotations.
Open Scope R_scope.

Lemma block_point c order eo fo b ii : transition_cell c -> In b (blocks c order eo fo) -> length ii = b_dim b ->
  env_of (place (r_origin (ent_of (default c) (b_dim b) (b_number b))) (r_axes (ent_of (default c) (b_dim b) (b_number b))) (map (frac (b_order b)) ii))
  = inner_point (reference_vertices c) b ii.
Proof.
  intros Hc Hb Li. apply functional_extensionality. intros j. unfold inner_point. generalize (frac (b_order b)). intros fr.
  destruct Hc as [->| ->]; cbn [blocks In] in Hb; each_in Hb; cbn [b_dim b_number b_vertices] in *;
    repeat (destruct ii as [|? ii]; try discriminate Li); clear Li;
    unfold env_of, param, psum, co, place, vsub; cbn -[IZR INR Rmult Rplus Rminus];
    (destruct j as [|[|[|j]]]; cbn -[IZR INR Rmult Rplus Rminus]; try (destruct j); ring).
Qed.

Lemma comb_app {A} c (l1 l2 : list (fn A)) x :
  combination c (l1 ++ l2) x = combination c l1 x + combination (fun i => c (length l1 + i)%nat) l2 x.
Proof.
  revert c. induction l1 as [|f l1 IH]; intros c.
  - unfold combination at 2. simpl. unfold combination. rewrite Rplus_0_l. reflexivity.
  - unfold combination in *. cbn [app length]. rewrite !sum_S. cbn [nth]. rewrite (IH (fun i => c (S i))). cbn [Nat.add]. ring.
Qed.
Lemma comb_scaled c (l : list (fn point)) (g : point -> point) (w : point -> R) v :
  combination c (map (fun f v => f (g v) * w v) l) v = w v * combination c l (g v).
Proof.
  revert c. induction l as [|f l IH]; intros c; [unfold combination; simpl; ring|].
  unfold combination in *. cbn [map length]. rewrite !sum_S. cbn [nth]. rewrite (IH (fun i => c (S i))). ring.
Qed.

Lemma comb_blocks d bs : NoDup (map b_vertices bs) -> forall c, exists cs : list nat -> nat -> R,
  (forall v, combination c (flat_map (block_functions d) bs) v =
     sumR (map (fun b => bubble d (b_vertices b) v * combination (cs (b_vertices b)) (inner_functions (b_dim b) (b_order b)) (coords d (b_vertices b) v)) bs)) /\
  ((forall b i, In b bs -> (i < length (inner_functions (b_dim b) (b_order b)))%nat -> cs (b_vertices b) i = 0) ->
   forall i, (i < length (flat_map (block_functions d) bs))%nat -> c i = 0).
Proof.
  induction bs as [|b bs IH]; intros ND c.
  - exists (fun _ _ => 0). split; [intros v; unfold combination; reflexivity|intros _ i Hi; simpl in Hi; lia].
  - inversion ND as [|? ? N1 N2]; subst. destruct (IH N2 (fun i => c (length (block_functions d b) + i)%nat)) as (cs & C1 & C2).
    exists (fun E => if list_eq_dec Nat.eq_dec E (b_vertices b) then c else cs E).
    assert (Old : forall b', In b' bs -> (if list_eq_dec Nat.eq_dec (b_vertices b') (b_vertices b) then c else cs (b_vertices b')) = cs (b_vertices b')).
    { intros b' Hb'. destruct (list_eq_dec Nat.eq_dec (b_vertices b') (b_vertices b)) as [E|E]; [|reflexivity].
      exfalso. apply N1. rewrite <- E. apply in_map, Hb'. }
    assert (New : (if list_eq_dec Nat.eq_dec (b_vertices b) (b_vertices b) then c else cs (b_vertices b)) = c).
    { destruct (list_eq_dec Nat.eq_dec (b_vertices b) (b_vertices b)) as [_|N]; [reflexivity|exfalso; apply N; reflexivity]. }
    assert (Lb : length (block_functions d b) = length (inner_functions (b_dim b) (b_order b))) by (unfold block_functions; apply map_length).
    split.
    + intros v. cbn [flat_map map]. rewrite comb_app, C1. unfold sumR at 2. cbn [fold_right]. rewrite New. f_equal.
      * unfold block_functions. apply comb_scaled.
      * apply sumR_ext. intros b' Hb'. rewrite Old by exact Hb'. reflexivity.
    + intros Z i Hi. cbn [flat_map] in Hi. rewrite app_length in Hi. destruct (Nat.lt_ge_cases i (length (block_functions d b))) as [L|L].
      * specialize (Z b i (or_introl eq_refl) ltac:(lia)). rewrite New in Z. exact Z.
      * replace i with (length (block_functions d b) + (i - length (block_functions d b)))%nat by lia.
        apply (C2 (fun b' i' Hb' Hi' => eq_trans (f_equal (fun g => g i') (eq_sym (Old b' Hb'))) (Z b' i' (or_intror Hb') Hi')) (i - length (block_functions d b))%nat). lia.
Qed.

Lemma inner_comb k n c : (1 <= k <= 3)%nat -> inner_space k n (combination c (inner_functions k n)).
Proof.
  intros Hk. destruct (inner_functions_ok k n Hk) as (_ & S1 & _). revert c S1. generalize (inner_functions k n) as l.
  induction l as [|f l IH]; intros c S1.
  - unfold combination, inner_space. simpl. destruct (k <? n)%nat; [apply poly_space_zero|reflexivity].
  - pose proof (IH (fun i => c (S i)) (fun g Hg => S1 g (or_intror Hg))) as IHl. pose proof (S1 f (or_introl eq_refl)) as Sf.
    pose proof (inner_subspace k n (c 0%nat) f _ Sf IHl) as R0.
    assert (E : (fun v => c 0%nat * f v + combination (fun i => c (S i)) l v) = combination c (f :: l)).
    { apply functional_extensionality. intros v. unfold combination. cbn [length]. rewrite sum_S. reflexivity. }
    rewrite E in R0. exact R0.
Qed.

Section Element.
Variables (c : cell_type) (order : nat) (eo fo : list nat).
Hypothesis Hc : transition_cell c.
Let bs := blocks c order eo fo.
Let d := tdim c.

Lemma cell_dims : (1 <= d <= 3)%nat.
Proof. unfold d. destruct Hc as [->| ->]; simpl; lia. Qed.
Lemma block_dims b : In b bs -> (1 <= b_dim b <= 3)%nat.
Proof. intros Hb. destruct (good_cell c order eo fo Hc) as (G & _). rewrite Forall_forall in G. exact (proj1 (G b Hb)). Qed.
Lemma blocks_nodup : NoDup (map b_vertices bs).
Proof. exact (proj1 (proj2 (good_cell c order eo fo Hc))). Qed.

(** a combination of the functions as an element of the space *)
Lemma comb_decomposed linear x : polynomial_set_1d d 1 = Ok linear -> exists cs,
  decomposed d bs (combination x (map meval linear ++ flat_map (block_functions d) bs)) (combination x (map meval linear))
    (fun E => match find (fun b => if list_eq_dec Nat.eq_dec (b_vertices b) E then true else false) bs with
              | Some b => combination (cs E) (inner_functions (b_dim b) (b_order b)) | None => fun _ => 0 end) /\
  (forall b, In b bs -> find (fun b' => if list_eq_dec Nat.eq_dec (b_vertices b') (b_vertices b) then true else false) bs = Some b) /\
  ((forall b i, In b bs -> (i < length (inner_functions (b_dim b) (b_order b)))%nat -> cs (b_vertices b) i = 0) ->
   forall i, (i < length (flat_map (block_functions d) bs))%nat -> x (length (map meval linear) + i)%nat = 0).
Proof.
  intros Hl. destruct (comb_blocks d bs blocks_nodup (fun i => x (length (map meval linear) + i)%nat)) as (cs & C1 & C2).
  assert (Fd : forall b, In b bs -> find (fun b' => if list_eq_dec Nat.eq_dec (b_vertices b') (b_vertices b) then true else false) bs = Some b).
  { pose proof blocks_nodup as ND. revert ND. generalize bs as l. induction l as [|b l IH]; intros ND b0 []; simpl.
    - subst. destruct (list_eq_dec Nat.eq_dec (b_vertices b0) (b_vertices b0)) as [_|N]; [reflexivity|exfalso; apply N; reflexivity].
    - simpl in ND. inversion ND as [|? ? N1 N2]; subst. destruct (list_eq_dec Nat.eq_dec (b_vertices b) (b_vertices b0)) as [E|_]; [|apply IH; assumption].
      exfalso. apply N1. rewrite E. apply in_map. assumption. }
  exists cs. split; [|split; [exact Fd|exact C2]].
  split; [|split].
  - apply (poly_space_ext _ (lincomb (map x (range (length (map meval linear)))) (map meval linear))).
    + intros v. symmetry. apply combination_lincomb.
    + apply lincomb_poly_space. intros m Hm.
      destruct (polynomial_set_1d_ok d 1 cell_dims) as (l' & Hq & _ & Hin & _).
      rewrite Hl in Hq. injection Hq as <-. apply Hin, Hm.
  - intros b Hb. rewrite (Fd b Hb). apply inner_comb, block_dims, Hb.
  - intros v. refine (eq_trans (@comb_app point x (map meval linear) (flat_map (block_functions d) bs) v) _).
    apply Rplus_eq_compat_l. refine (eq_trans (C1 v) _). apply sumR_ext. intros b Hb. rewrite (Fd b Hb). reflexivity.
Qed.

Definition all_dofs : list point_dof := vertex_dofs (default c) ++ flat_map (block_dofs (default c)) bs.

Lemma all_dofs_zero (f : sfun) : (forall p ke, In (p, ke) all_dofs -> f (env_of p) = 0) <->
  (forall i, (i <= d)%nat -> f (env_of (nth i (reference_vertices c) [])) = 0) /\
  (forall b ii, In b bs -> In ii (simplex_tuples (b_order b) (b_dim b)) -> f (inner_point (reference_vertices c) b ii) = 0).
Proof.
  assert (Rv : r_vertices (default c) = reference_vertices c) by (destruct Hc as [->| ->]; reflexivity).
  assert (Lv : length (reference_vertices c) = S d) by (unfold d; destruct Hc as [->| ->]; reflexivity).
  split.
  - intros Z. split.
    + intros i Hi. apply (Z _ (0%nat, i)). apply in_app_iff. left. apply in_vertex_dofs. split; [reflexivity|].
      rewrite Rv. apply nth_error_nth'. lia.
    + intros b ii Hb Hi. assert (Li : length ii = b_dim b) by (apply in_simplex_tuples in Hi; tauto).
      rewrite <- (block_point c order eo fo b ii Hc Hb Li). apply (Z _ (b_dim b, b_number b)). apply in_app_iff. right.
      apply in_flat_map. exists b. split; [exact Hb|]. unfold block_dofs. apply in_map_iff. exists ii. split; [reflexivity|exact Hi].
  - intros [V Z] p [k e] Hp. apply in_app_iff in Hp. destruct Hp as [Hp|Hp].
    + apply in_vertex_dofs in Hp. destruct Hp as [_ Hp]. rewrite Rv in Hp.
      assert (He : (e < S d)%nat) by (rewrite <- Lv; apply nth_error_Some; congruence).
      rewrite <- (nth_error_nth _ _ [] Hp). apply V. lia.
    + apply in_flat_map in Hp. destruct Hp as (b & Hb & Hp). unfold block_dofs in Hp. apply in_map_iff in Hp. destruct Hp as (ii & Ep & Hi).
      injection Ep as <- _ _. assert (Li : length ii = b_dim b) by (apply in_simplex_tuples in Hi; tauto).
      rewrite (block_point c order eo fo b ii Hc Hb Li). apply Z; assumption.
Qed.

Lemma lengths linear : polynomial_set_1d d 1 = Ok linear ->
  length (map meval linear ++ flat_map (block_functions d) bs) = length all_dofs.
Proof.
  intros Hl. unfold all_dofs. rewrite !app_length, map_length, length_vertex_dofs. f_equal.
  - pose proof (polynomial_set_1d_length _ _ _ Hl) as L. unfold d in L. destruct Hc as [->| ->]; simpl in L |- *; lia.
  - assert (B : forall b, In b bs -> length (block_functions d b) = length (block_dofs (default c) b)).
    { intros b Hb. unfold block_functions, block_dofs. rewrite !map_length. apply inner_functions_ok, block_dims, Hb. }
    revert B. generalize bs as l. induction l as [|b l IH]; intros B; [reflexivity|]. cbn [flat_map]. rewrite !app_length, B by (left; reflexivity).
    refine (f_equal (Nat.add _) (IH _)). intros b' Hb'. apply B. right; exact Hb'.
Qed.

Lemma dofs_unisolvent f : transition_space d bs f -> (forall p ke, In (p, ke) all_dofs -> f (env_of p) = 0) -> forall v, f v = 0.
Proof.
  intros (a & q & HD) Z'. apply all_dofs_zero in Z'. destruct Z' as [V Z']. exact (proj2 (proj2 (parts_zero c order eo fo f a q Hc HD V Z'))).
Qed.
Lemma functions_in_space linear : polynomial_set_1d d 1 = Ok linear -> Forall (transition_space d bs) (map meval linear ++ flat_map (block_functions d) bs).
Proof.
  intros Hl. set (fs := map meval linear ++ flat_map (block_functions d) bs) in *.
  assert (Dec : forall x, transition_space d bs (combination x fs)).
  { intros x. destruct (comb_decomposed linear x Hl) as (cs & HD & _). eexists. eexists. exact HD. }
  apply Forall_forall. intros f Hf. destruct (In_nth fs f (fun _ => 0) Hf) as (i & Hi & Ei).
  apply (proj2 (proj2 (transition_subspace d bs)) (combination (fun k => if (k =? i)%nat then 1 else 0) fs)); [|apply Dec].
  intros v. unfold combination. rewrite (sum_single (length fs) _ i); [rewrite Nat.eqb_refl, Rmult_1_l; exact (f_equal (fun g : fn point => g v) Ei)|exact Hi|].
  intros k _ Nk. rewrite (proj2 (Nat.eqb_neq k i) Nk). ring.
Qed.
Lemma functions_independent linear : polynomial_set_1d d 1 = Ok linear -> let fs := map meval linear ++ flat_map (block_functions d) bs in
  forall x, (forall v, combination x fs v = 0) -> forall i, (i < length fs)%nat -> x i = 0.
Proof.
  intros Hl fs.
  intros x Zx. destruct (comb_decomposed linear x Hl) as (cs & HD & Fd & C2).
    destruct (parts_zero c order eo fo _ _ _ Hc HD (fun i _ => Zx _) (fun b ii _ _ => Zx _)) as (A0 & Q0 & _).
    assert (X1 : forall b i, In b bs -> (i < length (inner_functions (b_dim b) (b_order b)))%nat -> cs (b_vertices b) i = 0).
    { intros b i Hb. destruct (inner_functions_ok (b_dim b) (b_order b) (block_dims b Hb)) as (_ & _ & K). apply K. intros v.
      specialize (Q0 b v Hb). cbv beta in Q0. rewrite (Fd b Hb) in Q0. exact Q0. }
    specialize (C2 X1). intros i Hi. destruct (Nat.lt_ge_cases i (length (map meval linear))) as [L|L].
    - destruct (polynomial_set_1d_ok d 1 cell_dims) as (l' & Hq & ND & Hin & _).
      rewrite Hl in Hq. injection Hq as <-.
      assert (In0 : independent (map meval linear)).
      { apply (monomials_independent d); [exact ND|]. apply Forall_forall. intros m Hm. apply Hin, Hm. }
      specialize (In0 (map x (range (length (map meval linear)))) ltac:(rewrite map_length, length_range; reflexivity)).
      specialize (In0 (fun v => eq_trans (eq_sym (combination_lincomb x (map meval linear) v)) (A0 v))).
      rewrite Forall_forall in In0. apply In0. apply in_map. apply in_range. exact L.
    - replace i with (length (map meval linear) + (i - length (map meval linear)))%nat by lia. apply C2.
      unfold fs in Hi. rewrite app_length in Hi. unfold sfun, fn in *. lia.
Qed.

Variable Ho : proper_orders c eo fo.
Variable Hn : forall b, In b bs -> (1 <= b_order b)%nat.

Lemma transition_dual : exists fs phi, make_transition (default c) order (Some eo) (face_argument c fo) "equispaced" = Ok (fs, all_dofs) /\
  transition_basis (fs, all_dofs) = Ok phi /\ length phi = length all_dofs /\
  (forall i j, (i < length all_dofs)%nat -> (j < length all_dofs)%nat ->
     nth j phi (fun _ => 0) (env_of (fst (nth i all_dofs ([], (0, 0)%nat)))) = if (i =? j)%nat then 1 else 0) /\
  (forall f, In f phi -> transition_space d bs f) /\
  (forall f, transition_space d bs f -> forall v, f v = sum (length all_dofs) (fun i => f (env_of (fst (nth i all_dofs ([], (0, 0)%nat)))) * nth i phi (fun _ => 0) v)).
Proof.
  destruct (transition_closed c order eo fo Hc Ho Hn) as (linear & Hl & HM). fold d bs in Hl, HM. fold all_dofs in HM.
  set (fs := map meval linear ++ flat_map (block_functions d) bs) in *.
  assert (DV : forall i (f : fn point), (i < length all_dofs)%nat -> nth i (map point_eval all_dofs) (fun _ => 0) f = f (env_of (fst (nth i all_dofs ([], (0, 0)%nat))))).
  { intros i f Hi. rewrite (nth_indep _ _ (point_eval ([], (0, 0)%nat))) by (rewrite map_length; exact Hi). rewrite map_nth. reflexivity. }
  assert (Lin : Forall (linear_on (transition_space d bs)) (map point_eval all_dofs)).
  { apply Forall_forall. intros l Hin. apply in_map_iff in Hin. destruct Hin as (d0 & <- & _). split; intros; unfold point_eval; auto. }
  assert (Wf : Forall (transition_space d bs) fs) by (apply functions_in_space, Hl).
  assert (U : forall f, transition_space d bs f -> (forall l, In l (map point_eval all_dofs) -> l f = 0) -> forall v, f v = 0).
  { intros f Hf Z. apply dofs_unisolvent; [exact Hf|]. intros p ke Hp. apply (Z (point_eval (p, ke))). apply in_map. exact Hp. }
  pose proof (functions_independent linear Hl) as I. fold fs in I.
  destruct (square_element (transition_space d bs) fs (map point_eval all_dofs) (transition_subspace d bs) Lin Wf I
    (eq_trans (lengths linear Hl) (eq_sym (map_length _ _))) U) as (phi & P1 & P2 & P3 & P4 & P5).
  rewrite map_length in P2, P3. exists fs, phi. split; [exact HM|]. split; [exact P1|]. split; [exact P2|]. split; [|split].
  - intros i j Hi Hj. rewrite <- (DV i) by exact Hi. apply P3; assumption.
  - intros f Hf. rewrite Forall_forall in P4. apply P4, Hf.
  - intros f Hf v. rewrite (P5 f Hf v), map_length. apply sum_ext. intros i Hi. rewrite DV by exact Hi. reflexivity.
Qed.
End Element.

(** * Polynomials *)
Lemma bubble_degree d E : (forall i, In i E -> (i <= d)%nat) -> P_space d (length E) (bubble d E).
Proof.
  intros H. induction E as [|x E IH]; simpl.
  - apply (poly_space_ext _ (fun _ => 1)); [reflexivity|apply degree_const].
  - change (S (length E)) with (1 + length E)%nat. apply (poly_space_ext _ (fun v => bary d x v * bubble d E v)); [reflexivity|].
    apply degree_mul; [apply bary_degree, H; left; reflexivity|apply IH; intros i Hi; apply H; right; exact Hi].
Qed.
Lemma space_in_polynomials c order eo fo M f : transition_cell c -> (1 <= M)%nat -> (forall b, In b (blocks c order eo fo) -> (b_order b <= M)%nat) ->
  transition_space (tdim c) (blocks c order eo fo) f -> P_space (tdim c) M f.
Proof.
  intros Hc HM Hb (a & q & Ha & Hq & Ef).
  apply (poly_space_ext _ (fun v => a v + sumR (map (fun b => bubble (tdim c) (b_vertices b) v * q (b_vertices b) (coords (tdim c) (b_vertices b) v)) (blocks c order eo fo)))).
  { intros v. symmetry. apply Ef. }
  apply poly_space_add; [exact (degree_weaken _ 1 M a HM Ha)|].
  destruct (good_cell c order eo fo Hc) as (G & _). rewrite Forall_forall in G. clear Ef Ha a. revert Hb Hq G. generalize (blocks c order eo fo) as bs.
  induction bs as [|b bs IH]; intros Hb Hq G; [apply poly_space_zero|].
  apply (poly_space_ext _ (fun v => bubble (tdim c) (b_vertices b) v * q (b_vertices b) (coords (tdim c) (b_vertices b) v)
    + sumR (map (fun b => bubble (tdim c) (b_vertices b) v * q (b_vertices b) (coords (tdim c) (b_vertices b) v)) bs))); [reflexivity|].
  apply poly_space_add; [|apply IH; intros; (apply Hb || apply Hq || apply G); right; assumption].
  pose proof (G b (or_introl eq_refl)) as (K1 & K2 & K3 & _). pose proof (Hq b (or_introl eq_refl)) as Q. pose proof (Hb b (or_introl eq_refl)) as Lb.
  unfold inner_space in Q. destruct (Nat.ltb_spec (b_dim b) (b_order b)) as [L|L].
  - apply (degree_weaken _ (length (b_vertices b) + (b_order b - b_dim b - 1))); [lia|]. apply degree_mul; [apply bubble_degree, K3|].
    apply (degree_subst (b_dim b) (b_order b - b_dim b - 1) (tdim c) (q (b_vertices b)) (fun i v => bary (tdim c) (nth (S i) (b_vertices b) 0%nat) v) Q).
    intros j Hj. apply bary_degree, K3, nth_In. lia.
  - apply (poly_space_ext _ (fun _ => 0)); [intros v; rewrite Q; ring|apply poly_space_zero].
Qed.

Lemma space_monotone c order eo fo order' eo' fo' f : transition_cell c ->
  (forall b b', In b (blocks c order eo fo) -> In b' (blocks c order' eo' fo') -> b_vertices b = b_vertices b' -> (b_order b <= b_order b')%nat) ->
  transition_space (tdim c) (blocks c order eo fo) f -> transition_space (tdim c) (blocks c order' eo' fo') f.
Proof.
  intros Hc H (a & q & Ha & Hq & Ef). exists a, q. split; [exact Ha|]. split.
  - intros b' Hb'. assert (X : exists b, In b (blocks c order eo fo) /\ b_vertices b = b_vertices b' /\ b_dim b = b_dim b').
    { clear - Hc Hb'. destruct Hc as [->| ->]; cbn [blocks In] in Hb'; each_in Hb'; cbn [b_vertices b_dim];
        (match goal with |- exists b, _ /\ b_vertices b = ?E /\ _ =>
          match goal with |- context [blocks ?c _ _ _] =>
            let l := eval cbn [blocks] in (blocks c order eo fo) in
            match l with context [{| b_dim := ?k; b_number := ?e; b_vertices := E; b_order := ?o |}] =>
              exists {| b_dim := k; b_number := e; b_vertices := E; b_order := o |} end end end);
        (split; [cbn [blocks In]; tauto|split; reflexivity]). }
    destruct X as (b & Hb & Ev & Ed). pose proof (Hq b Hb) as Q. pose proof (H b b' Hb Hb' Ev) as L. rewrite Ev, Ed in Q. revert Q. unfold inner_space.
    destruct (Nat.ltb_spec (b_dim b') (b_order b)) as [A|A]; destruct (Nat.ltb_spec (b_dim b') (b_order b')) as [B|B]; intros Q; try lia; try exact Q.
    + apply (degree_weaken _ (b_order b - b_dim b' - 1)); [lia|exact Q].
    + apply (poly_space_ext _ (fun _ => 0)); [intros v; symmetry; apply Q|apply poly_space_zero].
  - intros v. rewrite Ef. f_equal. set (F := fun E => bubble (tdim c) E v * q E (coords (tdim c) E v)).
    change (sumR (map (fun b => F (b_vertices b)) (blocks c order eo fo)) = sumR (map (fun b => F (b_vertices b)) (blocks c order' eo' fo'))).
    rewrite <- !(map_map b_vertices F). destruct Hc as [->| ->]; reflexivity.
Qed.

Lemma rev_tuple n k ii : In ii (simplex_tuples n k) -> In (rev ii) (simplex_tuples n k).
Proof.
  rewrite !in_simplex_tuples, rev_length. intros (L & F & S1). split; [exact L|]. split; [apply Forall_rev, F|].
  assert (E : list_sum (rev ii) = list_sum ii).
  { clear. induction ii as [|x ii IH]; [reflexivity|]. cbn [rev]. rewrite list_sum_app, IH. simpl. unfold list_sum. lia. }
  lia.
Qed.

Lemma polynomials_in_space c order eo fo m f : transition_cell c -> (1 <= m)%nat -> (forall b, In b (blocks c order eo fo) -> (m <= b_order b)%nat) ->
  P_space (tdim c) m f -> transition_space (tdim c) (blocks c order eo fo) f.
Proof.
  intros Hc Hm Hb Hf. set (bm := blocks c m (repeat m 6) (repeat m 4)).
  assert (Om : forall b, In b bm -> b_order b = m).
  { intros b H. unfold bm in H. destruct Hc as [->| ->]; cbn [blocks In] in H; each_in H; reflexivity. }
  apply (space_monotone c m (repeat m 6) (repeat m 4)); [exact Hc| |].
  { intros b b' H1 H2 _. rewrite (Om b H1). apply Hb, H2. }
  fold bm.
  assert (eo' : exists e', proper_orders c e' (repeat m 4) /\ blocks c m e' (repeat m 4) = bm).
  { destruct Hc as [->| ->]; [exists (repeat m 3)|exists (repeat m 6)]; (split; [split; reflexivity|reflexivity]). }
  destruct eo' as (e' & Ho & Eb).
  destruct (transition_dual c m e' (repeat m 4) Hc Ho) as (fs & phi & _ & _ & Lp & D & Sp & _).
  { rewrite Eb. intros b H. rewrite (Om b H). exact Hm. }
  rewrite Eb in Sp. set (dofs := all_dofs c m e' (repeat m 4)) in *.
  set (g := combination (fun i => f (env_of (fst (nth i dofs ([], (0, 0)%nat))))) phi).
  assert (Tg : transition_space (tdim c) bm g) by (apply comb_subspace; [apply transition_subspace|apply Forall_forall; exact Sp]).
  apply (proj2 (proj2 (transition_subspace (tdim c) bm)) g); [|exact Tg]. intros v.
  assert (Pg : P_space (tdim c) m g).
  { apply (space_in_polynomials c m (repeat m 6) (repeat m 4)); [exact Hc|exact Hm|intros b H; rewrite (Om b H); lia|exact Tg]. }
  assert (Vg : forall p ke, In (p, ke) dofs -> g (env_of p) = f (env_of p)).
  { intros p ke Hp. destruct (In_nth dofs (p, ke) ([], (0, 0)%nat) Hp) as (i & Hi & Ei). unfold g, combination. rewrite Lp.
    rewrite (sum_single (length dofs) _ i); [|exact Hi|].
    - pose proof (D i i Hi Hi) as X. rewrite Nat.eqb_refl, Ei in X. rewrite Ei. cbn [fst] in *. rewrite X. ring.
    - intros j Hj Nj. pose proof (D i j Hi Hj) as X. rewrite Ei in X. cbn [fst] in X. rewrite X, (proj2 (Nat.eqb_neq i j)) by auto. ring. }
  pose proof (transition_simplex c Hc) as Hs. destruct (default_ok c Hs) as (Hr & Hp & HD & _).
  assert (Z : forall v, g v + (-1) * f v = 0).
  { apply (lagrange_zero c (reference_vertices c) (default c) m); try assumption.
    - apply poly_space_add; [exact Pg|apply poly_space_scale, Hf].
    - intros p [k e] Hin. assert (Hin' : exists ke, In (p, ke) dofs); [|destruct Hin' as (ke & Hin'); rewrite (Vg p ke Hin'); ring].
      exists (k, e). unfold dofs, all_dofs. apply in_closed_dofs in Hin. apply in_app_iff. destruct Hin as [[-> Hin]|(Hk & He & ii & Hii & ->)].
      + left. apply in_vertex_dofs. split; [reflexivity|exact Hin].
      + right. rewrite Eb. apply in_flat_map.
        assert (X : exists b, In b bm /\ b_dim b = k /\ b_number b = e).
        { clear - Hc Hk He. unfold bm. destruct Hc as [->| ->]; (destruct k as [|[|[|[|k]]]]; try lia); unfold ent_count in He; cbn in He;
            repeat (destruct e as [|e]; try lia);
            match goal with |- exists b, _ /\ b_dim b = ?k /\ b_number b = ?e =>
              match goal with |- context [blocks ?c ?o ?x ?y] =>
                let l := eval cbn [blocks] in (blocks c o x y) in
                match l with context [{| b_dim := k; b_number := e; b_vertices := ?E; b_order := ?o' |}] =>
                  exists {| b_dim := k; b_number := e; b_vertices := E; b_order := o' |} end end end;
            (split; [cbn [blocks In]; tauto|split; reflexivity]). }
        destruct X as (b & Hbm & Ek & Ee). exists b. split; [exact Hbm|]. unfold block_dofs. rewrite (Om b Hbm), Ek, Ee. apply in_map_iff.
        exists (rev ii). split; [reflexivity|apply rev_tuple, Hii]. }
  specialize (Z v). lra.
Qed.
