(** Unisolvence of the Lagrange element on simplices. *)
From Coq Require Import String Arith Bool Reals Lra Lia Sorted List.
From Verif Require Import Base PolyLib PolySetsModel QuadratureModel QuadratureProofs ReferencesModel ReferencesSpec
  ReferencesProofs ReferencesGeometry LinAlg CiarletModel CiarletProofs PropertiesCiarlet PolySetsProofs ElementModel
  ElementProofs LagrangeModel UnisolvenceProofs LagrangeProofs LagrangeKey.
Import ListNotations.
Open Scope R_scope.

Lemma whole_entity c vs r : simplex c -> make_reference c vs = Ok r -> entity_is r (tdim c) 0 (whole c).
Proof.
  intros Hc Hr. assert (T : r_type r = c).
  { destruct Hc as [->|[->| ->]]; simpl in Hr; repeat (destruct vs as [|? vs]; try discriminate); injection Hr as <-; reflexivity. }
  unfold entity_is, sub_entities, whole. rewrite T. destruct Hc as [->|[->| ->]]; eexists; split; reflexivity.
Qed.

(** A polynomial of degree at most n vanishing at all points is zero. *)
Lemma lagrange_zero c vs r n f : simplex c -> points (nvert c) (tdim c) vs -> make_reference c vs = Ok r ->
  map_det c vs <> 0 -> (1 <= n)%nat -> degree_space (tdim c) n f ->
  (forall p ke, In (p, ke) (closed_dofs r (simplex_tuples n) (lagrange_point r n)) -> f (env_of p) = 0) ->
  forall v, f v = 0.
Proof.
  intros Hc Hp Hr HD Hn Hf Z v. destruct (param_onto c vs Hc Hp HD) as (B & HB & _).
  pose proof (trace_zero c vs r (tdim c) n (tdim c) 0%nat (whole c) f Hc Hp Hr Hn (whole_entity c vs r Hc Hr) Hf) as T.
  rewrite <- (T (fun p k' e' E' IN _ _ => Z p (k', e') IN) (B v)).
  apply (degree_local (tdim c) n f _ _ Hf). intros j Hj. symmetry. apply HB. exact Hj.
Qed.

(** * Distinctness *)
Lemma wpoint_whole c vs d n l j : simplex c -> points (nvert c) d vs -> (1 <= n)%nat -> length l = nvert c -> list_sum l = n ->
  (j < d)%nat -> nth j (wpoint n l vs d) 0 = param vs (whole c) (fun k => INR (nth (S k) l 0%nat) / INR n) j.
Proof.
  intros Hc [L F] Hn Ll E Hj. assert (P : 0 < INR n) by (apply lt_0_INR; lia).
  assert (EI : INR n = INR (list_sum l)) by (rewrite E; reflexivity).
  rewrite wpoint_nth by exact Hj. unfold whole, nvert in *.
  destruct Hc as [->|[->| ->]]; simpl in L, Ll;
    repeat (destruct vs as [|? vs]; [discriminate L|]); (destruct vs; [|discriminate L]);
    peel l Ll;
    cbn [list_sum fold_right] in EI; rewrite ?plus_INR in EI; change (INR 0) with 0 in EI;
    cbn [param psum seq length reference_vertices combine map fst snd nth]; unfold sumR, co; cbn [fold_right nth];
    rewrite EI in P |- *;
    repeat match goal with |- context [nth j ?v 0] => generalize (nth j v 0); intros end; field; lra.
Qed.

Lemma wpoint_inj c vs n l l' : simplex c -> points (nvert c) (tdim c) vs -> map_det c vs <> 0 -> (1 <= n)%nat ->
  length l = nvert c -> list_sum l = n -> length l' = nvert c -> list_sum l' = n ->
  wpoint n l vs (tdim c) = wpoint n l' vs (tdim c) -> l = l'.
Proof.
  intros Hc Hp D Hn L E L' E' W. assert (P : 0 < INR n) by (apply lt_0_INR; lia).
  destruct (param_onto c vs Hc Hp D) as (B & _ & HB).
  assert (Ext : forall v w k, (k < tdim c)%nat -> (forall j, (j < tdim c)%nat -> v j = w j) -> B v k = B w k -> True) by auto. clear Ext.
  set (a := fun k => INR (nth (S k) l 0%nat) / INR n). set (b := fun k => INR (nth (S k) l' 0%nat) / INR n).
  assert (Q : forall j, (j < tdim c)%nat -> param vs (whole c) a j = param vs (whole c) b j).
  { intros j Hj. unfold a, b. rewrite <- !(wpoint_whole c vs (tdim c) n) by assumption. rewrite W. reflexivity. }
  assert (K : forall k, (k < tdim c)%nat -> a k = b k).
  { destruct Hc as [->|[->| ->]]; cbn [map_det tdim] in *; unfold whole in Q; cbn [nvert tdim reference_vertices length seq param psum] in Q.
    - intros k Hk. destruct k; [|lia]. specialize (Q 0%nat ltac:(lia)). apply (Rmult_eq_reg_r (co vs 1 0 - co vs 0 0)); lra.
    - unfold edge_det2 in D. cbv beta zeta in D.
      destruct (inv2_spec _ _ _ _ D) as (p & q & u & v & _ & I1 & I2 & _ & _).
      pose proof (Q 0%nat ltac:(lia)) as Q0. pose proof (Q 1%nat ltac:(lia)) as Q1.
      set (A0 := co vs 1 0 - co vs 0 0) in *. set (A1 := co vs 1 1 - co vs 0 1) in *.
      set (B0 := co vs 2 0 - co vs 0 0) in *. set (B1 := co vs 2 1 - co vs 0 1) in *.
      intros k Hk. destruct k as [|[|k]]; [| |lia].
      + rewrite <- (I1 (a 0%nat) (a 1%nat)), <- (I1 (b 0%nat) (b 1%nat)). f_equal; f_equal; lra.
      + rewrite <- (I2 (a 0%nat) (a 1%nat)), <- (I2 (b 0%nat) (b 1%nat)). f_equal; f_equal; lra.
    - unfold edge_det3 in D. cbv beta zeta in D.
      destruct (inv3_spec _ _ _ _ _ _ _ _ _ D) as (p1 & p2 & p3 & q1 & q2 & q3 & r1 & r2 & r3 & _ & I1 & I2 & I3 & _).
      pose proof (Q 0%nat ltac:(lia)) as Q0. pose proof (Q 1%nat ltac:(lia)) as Q1. pose proof (Q 2%nat ltac:(lia)) as Q2.
      intros k Hk. destruct k as [|[|[|k]]]; [| | |lia].
      + rewrite <- (I1 (a 0%nat) (a 1%nat) (a 2%nat)), <- (I1 (b 0%nat) (b 1%nat) (b 2%nat)). f_equal; [f_equal|]; f_equal; lra.
      + rewrite <- (I2 (a 0%nat) (a 1%nat) (a 2%nat)), <- (I2 (b 0%nat) (b 1%nat) (b 2%nat)). f_equal; [f_equal|]; f_equal; lra.
      + rewrite <- (I3 (a 0%nat) (a 1%nat) (a 2%nat)), <- (I3 (b 0%nat) (b 1%nat) (b 2%nat)). f_equal; [f_equal|]; f_equal; lra. }
  assert (K' : forall k, (k < tdim c)%nat -> nth (S k) l 0%nat = nth (S k) l' 0%nat).
  { intros k Hk. specialize (K k Hk). unfold a, b in K. apply INR_eq.
    apply (Rmult_eq_reg_r (/ INR n)); [exact K|apply Rinv_neq_0_compat; lra]. }
  clear - K' L L' E E' Hc. unfold nvert in *. destruct Hc as [->|[->| ->]]; simpl in L, L'; peel l L; peel l' L'; cbn [tdim] in K'.
  - pose proof (K' 0%nat ltac:(lia)) as X. simpl in *. subst. f_equal. lia.
  - pose proof (K' 0%nat ltac:(lia)) as X. pose proof (K' 1%nat ltac:(lia)) as Y. simpl in *. subst. f_equal. lia.
  - pose proof (K' 0%nat ltac:(lia)) as X. pose proof (K' 1%nat ltac:(lia)) as Y. pose proof (K' 2%nat ltac:(lia)) as Z.
    simpl in *. subst. f_equal. lia.
Qed.

(** * Number of points *)
Lemma closed_count c vs r n poly P : simplex c -> points (nvert c) (tdim c) vs -> make_reference c vs = Ok r -> (1 <= n)%nat ->
  polynomial_set_1d (tdim c) n = Ok poly ->
  length (closed_dofs r (simplex_tuples n) P) = length poly.
Proof.
  intros Hc [L _] Hr Hn Hq. pose proof (polynomial_set_1d_length _ _ _ Hq) as Lp.
  rewrite length_closed_dofs, !length_simplex_tuples. destruct n as [|m]; [lia|].
  pose proof (choose_1 m). pose proof (choose_2 m) as C2. pose proof (choose_3 m) as C3.
  unfold nvert in L.
  destruct Hc as [->|[->| ->]]; cbn [tdim] in *; simpl in L;
    repeat (destruct vs as [|? vs]; [discriminate L|]); (destruct vs; [|discriminate L]); injection Hr as <-;
    cbn [r_vertices length]; unfold ent_count; cbn [sub_entity_count sub_entities rmap r_type edges faces volumes length].
  - lia.
  - assert (E : (2 * length poly = (S m + 1) * (S m + 2))%nat) by lia.
    destruct m as [|m]; [simpl in *; lia|]. replace (S m - 1)%nat with m in C2 by lia. nia.
  - assert (E : (6 * length poly = (S m + 1) * (S m + 2) * (S m + 3))%nat) by lia.
    destruct m as [|[|m]]; [simpl in *; lia|simpl in *; lia|].
    replace (S (S m) - 1)%nat with (S m) in * by lia. replace (S (S m) - 2)%nat with m in * by lia. nia.
Qed.

Lemma lam_whole c n l : simplex c -> length l = nvert c -> list_sum l = n -> lam (nvert c) n (whole c) (tl l) = l.
Proof.
  intros Hc L E. unfold whole, nvert in *. destruct Hc as [->|[->| ->]]; simpl in L; peel l L;
    cbn [lam seq length reference_vertices map Nat.eqb find fst snd combine tl list_sum fold_right] in *; f_equal; lia.
Qed.

Lemma points_nodup c vs r n : simplex c -> points (nvert c) (tdim c) vs -> make_reference c vs = Ok r ->
  map_det c vs <> 0 -> (1 <= n)%nat ->
  NoDup (map fst (closed_dofs r (simplex_tuples n) (lagrange_point r n))) /\
  (forall p, In p (map fst (closed_dofs r (simplex_tuples n) (lagrange_point r n))) <->
     exists l, length l = nvert c /\ list_sum l = n /\ p = wpoint n l vs (tdim c)).
Proof.
  intros Hc Hp Hr HD Hn.
  assert (Td : (1 <= tdim c <= 3)%nat) by (destruct Hc as [->|[->| ->]]; simpl; lia).
  destruct (polynomial_set_1d_ok (tdim c) n Td) as (poly & Hq & ND & Hin & _).
  set (w := fun m => wpoint n (lam (nvert c) n (whole c) m) vs (tdim c)).
  assert (LW : forall m, In m poly -> length (lam (nvert c) n (whole c) m) = nvert c /\ list_sum (lam (nvert c) n (whole c) m) = n).
  { intros m Hm. apply Hin in Hm. destruct Hm as [Lm Dm]. rewrite mdeg_sum in Dm.
    destruct (lam_ok c vs r (tdim c) n (tdim c) 0%nat (whole c) m Hc Hp Hr Hn (whole_entity c vs r Hc Hr) Lm Dm) as (_ & A & B & _).
    split; assumption. }
  assert (NDL : NoDup (map w poly)).
  { apply NoDup_map_inj; [|exact ND]. intros a b Ha Hb Eab. unfold w in Eab.
    destruct (LW a Ha) as [La Sa]. destruct (LW b Hb) as [Lb Sb].
    pose proof (wpoint_inj c vs n _ _ Hc Hp HD Hn La Sa Lb Sb Eab) as El.
    apply Hin in Ha, Hb. destruct Ha as [La' Da], Hb as [Lb' Db]. rewrite mdeg_sum in Da, Db. clear - El Hc La' Lb' Da Db.
    unfold whole, nvert in El. destruct Hc as [->|[->| ->]]; simpl in La', Lb'; peel a La'; peel b Lb';
      cbn [lam seq length reference_vertices map Nat.eqb find fst snd combine] in El; injection El; intros; subst; reflexivity. }
  assert (INC : incl (map w poly) (map fst (closed_dofs r (simplex_tuples n) (lagrange_point r n)))).
  { intros p Hp'. apply in_map_iff in Hp'. destruct Hp' as (m & <- & Hm). destruct (LW m Hm) as [La Sa].
    destruct (key c vs r (tdim c) n _ Hc Hp Hr Hn La Sa) as (k & e & _ & IN).
    apply in_map_iff. exists (w m, (k, e)). split; [reflexivity|exact IN]. }
  assert (LEN : length (map fst (closed_dofs r (simplex_tuples n) (lagrange_point r n))) = length (map w poly)).
  { rewrite !map_length. apply (closed_count c vs r n poly _ Hc Hp Hr Hn Hq). }
  split; [apply (NoDup_incl_NoDup NDL); [lia|exact INC]|].
  intros p. split.
  - intros H. assert (INC' : incl (map fst (closed_dofs r (simplex_tuples n) (lagrange_point r n))) (map w poly)).
    { apply NoDup_length_incl; [exact NDL|lia|exact INC]. }
    apply INC' in H. apply in_map_iff in H. destruct H as (m & <- & Hm). destruct (LW m Hm) as [La Sa].
    exists (lam (nvert c) n (whole c) m). split; [exact La|]. split; [exact Sa|reflexivity].
  - intros (l & Ll & Sl & ->). destruct (key c vs r (tdim c) n l Hc Hp Hr Hn Ll Sl) as (k & e & _ & IN).
    apply in_map_iff. exists (wpoint n l vs (tdim c), (k, e)). split; [reflexivity|exact IN].
Qed.

(** * Location of the points *)
Lemma in_interior_ext vs p q : (forall j, (j < length p)%nat -> nth j p 0 = nth j q 0) -> length p = length q ->
  in_interior vs q -> in_interior vs p.
Proof.
  intros H L (w & (A & B & C) & F). exists w. split; [|exact F]. split; [exact A|]. split; [exact B|].
  intros j Hj. rewrite (H j Hj). apply C. lia.
Qed.

Lemma points_located c vs r d n p k e : simplex c -> points (nvert c) d vs -> make_reference c vs = Ok r -> (1 <= n)%nat ->
  In (p, (k, e)) (closed_dofs r (simplex_tuples n) (lagrange_point r n)) ->
  length p = d /\ exists E, entity_is r k e E /\ in_interior (map (fun i => nth i vs []) E) p.
Proof.
  intros Hc Hp Hr Hn IN. assert (P : 0 < INR n) by (apply lt_0_INR; lia).
  pose proof (good_simplex c vs r d Hc Hp Hr) as [_ G].
  apply in_closed_dofs in IN. destruct IN as [(-> & Hv)|(Hk & He & i & Hi & ->)].
  - assert (RV : r_vertices r = vs).
    { destruct Hc as [->|[->| ->]]; simpl in Hr; repeat (destruct vs as [|? vs]; try discriminate); injection Hr as <-; reflexivity. }
    rewrite RV in Hv. destruct Hp as [L F]. change pt with (list R) in *. split.
    + rewrite Forall_forall in F. apply F. apply (nth_error_In vs e). exact Hv.
    + exists [e]. split.
      * eexists. split; [reflexivity|]. rewrite RV, nth_error_map. unfold range.
        assert (e < length vs)%nat by (apply nth_error_Some; congruence).
        rewrite (nth_error_nth' _ 0%nat) by (rewrite seq_length; assumption). rewrite seq_nth by assumption. reflexivity.
      * exists [1]. split; [|repeat constructor; lra]. split; [reflexivity|]. split; [unfold sumR; simpl; lra|].
        intros j _. simpl. unfold sumR. simpl. rewrite (nth_error_nth vs e [] Hv). ring.
  - destruct (G k Hk) as [_ G']. destruct (G' e He) as (_ & Lo & La & Fa). clear G G'.
    apply in_simplex_tuples in Hi. destruct Hi as (Li & Fi & Si).
    unfold lagrange_point.
    assert (Lc : length (map (frac n) (rev i)) = length (r_axes (ent_of r k e))) by (rewrite map_length, rev_length; congruence).
    destruct (place_spec d (r_axes (ent_of r k e)) (map (frac n) (rev i)) (r_origin (ent_of r k e)) Lo Fa Lc) as [PL PN].
    split; [exact PL|].
    assert (EI : INR (n - list_sum i) = INR n - INR (list_sum i)) by (apply minus_INR; lia).
    assert (EP : 0 < INR (n - list_sum i)) by (apply lt_0_INR; lia).
    assert (FP : Forall (fun a => 0 < a) (map (frac n) (rev i))).
    { apply Forall_forall. intros x Hx. apply in_map_iff in Hx. destruct Hx as (a & <- & Ha). apply in_rev in Ha.
      rewrite Forall_forall in Fi. specialize (Fi a Ha). unfold frac. apply Rdiv_lt_0_compat; [apply lt_0_INR; lia|exact P]. }
    assert (GOAL : forall E, entity_is r k e E -> affine_comb (INR (n - list_sum i) / INR n :: map (frac n) (rev i)) (map (fun i => nth i vs []) E)
               (place (r_origin (ent_of r k e)) (r_axes (ent_of r k e)) (map (frac n) (rev i))) ->
             exists E, entity_is r k e E /\ in_interior (map (fun i => nth i vs []) E)
               (place (r_origin (ent_of r k e)) (r_axes (ent_of r k e)) (map (frac n) (rev i)))).
    { intros E HE A. exists E. split; [exact HE|]. eexists. split; [exact A|]. apply Forall_cons; [|exact FP].
      apply Rdiv_lt_0_compat; assumption. }
    destruct Hp as [L F]. unfold nvert in L.
    clear EP FP.
    destruct Hc as [->|[->| ->]]; simpl in L;
      repeat (destruct vs as [|? vs]; [discriminate L|]); (destruct vs; [|discriminate L]); injection Hr as <-;
      repeat rewrite Forall_cons_iff in F; decompose [and] F; clear F;
      (destruct k as [|[|[|[|k]]]]; [exfalso; lia| | | |exfalso; lia]);
      unfold ent_count in He; cbn in He;
      repeat (destruct e as [|e]; [|try (exfalso; lia)]); try (exfalso; lia);
      peel i Li;
      (eapply GOAL; [eexists; split; reflexivity|]);
      (split; [reflexivity|]); (split;
        [unfold sumR, frac; cbn [rev app map fold_right]; rewrite EI; cbn [list_sum fold_right];
         rewrite ?plus_INR; change (INR 0) with 0; field; lra|]);
      intros j Hj; rewrite PL in Hj; rewrite (PN j Hj);
      unfold ent_of; cbn [sub_entity sub_entity_types r_type rbind tdim Nat.eqb sub_entities edges faces volumes
         get nth_error map_r r_vertices rmap make_reference r_origin r_axes];
      unfold lin, sumR, frac; cbn [rev app combine map fst snd fold_right nth];
      rewrite EI; cbn [list_sum fold_right]; rewrite ?plus_INR; change (INR 0) with 0;
      repeat match goal with |- context [nth j (vsub ?v ?w) 0] => rewrite (vsub_nth v w _ j) by eassumption end;
      repeat match goal with |- context [nth j ?v 0] => generalize (nth j v 0); intros end; field; lra.
Qed.

(** * Basis functions of point evaluation elements *)
Lemma sum_S n f : sum (S n) f = f 0%nat + sum n (fun i => f (S i)).
Proof. induction n as [|n IH]; [simpl; ring|]. change (sum (S (S n)) f) with (sum (S n) f + f (S n)). rewrite IH. simpl. ring. Qed.

Lemma combination_lincomb (c : nat -> R) (fs : list sfun) v :
  combination c fs v = lincomb (map c (range (length fs))) fs v.
Proof.
  unfold combination, range.
  assert (G : forall s, sum (length fs) (fun i => c (s + i)%nat * nth i fs (fun _ => 0) v) = lincomb (map c (seq s (length fs))) fs v).
  { induction fs as [|f fs IH]; intros s; [reflexivity|]. cbn [length seq map lincomb]. rewrite sum_S. rewrite Nat.add_0_r. cbn [nth].
    f_equal. rewrite <- (IH (S s)). apply sum_ext. intros i _. do 2 f_equal. lia. }
  apply (G 0%nat).
Qed.

Lemma lincomb_poly_space (ok : mono -> Prop) cs ms : (forall m, In m ms -> ok m) -> poly_space ok (lincomb cs (map meval ms)).
Proof.
  revert cs. induction ms as [|m ms IH]; intros [|c cs] H; try apply poly_space_zero.
  apply (poly_space_ext _ (fun v => c * meval m v + lincomb cs (map meval ms) v)); [reflexivity|].
  apply poly_space_add; [apply poly_space_scale, poly_space_mono, H; left; reflexivity|apply IH; intros; apply H; right; assumption].
Qed.

(** An element with as many point evaluations as monomials, such that only the zero polynomial vanishes at all the
    points, has dual basis functions, and they reproduce the space. *)
Lemma point_element d (ok : mono -> Prop) poly (dofs : list point_dof) dflt :
  NoDup poly -> (forall m, In m poly <-> ok m) -> (forall m, ok m -> length m = d) -> length dofs = length poly ->
  (forall f, poly_space ok f -> (forall p ke, In (p, ke) dofs -> f (env_of p) = 0) -> forall v, f v = 0) ->
  exists phi, point_basis_functions poly dofs = Ok phi /\ length phi = length dofs /\
    (forall i j, (i < length dofs)%nat -> (j < length dofs)%nat ->
       nth j phi (fun _ => 0) (env_of (fst (nth i dofs dflt))) = if (i =? j)%nat then 1 else 0) /\
    (forall f, In f phi -> poly_space ok f) /\
    (forall f, poly_space ok f -> forall v,
       f v = sum (length dofs) (fun i => f (env_of (fst (nth i dofs dflt))) * nth i phi (fun _ => 0) v)).
Proof.
  intros ND Hin Hlen L Z.
  assert (SB : @subspace point (fun _ => True)) by (repeat split).
  assert (FB : Forall (fun _ : fn point => True) (map meval poly)) by (apply Forall_forall; auto).
  assert (FD : Forall (@linear_on point (fun _ => True)) (map point_eval dofs)).
  { apply Forall_forall. intros l Hl. apply in_map_iff in Hl. destruct Hl as (d0 & <- & _). split; intros; unfold point_eval; auto. }
  assert (DV : forall i (f : fn point), (i < length dofs)%nat -> dof_value (map point_eval dofs) i f = f (env_of (fst (nth i dofs dflt)))).
  { intros i f Hi. unfold dof_value. rewrite (nth_indep _ _ (point_eval dflt)) by (rewrite map_length; exact Hi).
    rewrite map_nth. reflexivity. }
  destruct (C64_exists_iff_unisolvent point (fun _ => True) (map meval poly) (map point_eval dofs) SB FB FD) as [_ X].
  rewrite !map_length in X. destruct (X (eq_sym L)) as [[_ X1] _]. clear X.
  assert (U : unisolvent (map meval poly) (map point_eval dofs)).
  { intros c Hc. assert (Zf : forall v, combination c (map meval poly) v = 0).
    { apply Z.
      - apply (poly_space_ext _ (lincomb (map c (range (length (map meval poly)))) (map meval poly))).
        + intros v. symmetry. apply combination_lincomb.
        + apply lincomb_poly_space. intros m. apply Hin.
      - intros p ke Hp. destruct (In_nth dofs (p, ke) dflt Hp) as (i & Hi & Ei).
        specialize (Hc i). rewrite map_length in Hc. specialize (Hc Hi). rewrite DV in Hc by exact Hi. rewrite Ei in Hc. exact Hc. }
    assert (I : independent (map meval poly)).
    { apply (monomials_independent d); [exact ND|]. apply Forall_forall. intros m Hm. apply Hlen, Hin, Hm. }
    specialize (I (map c (range (length (map meval poly)))) ltac:(rewrite map_length, length_range; reflexivity)).
    specialize (I (fun v => eq_trans (eq_sym (combination_lincomb c (map meval poly) v)) (Zf v))).
    rewrite Forall_forall in I. intros i Hi. apply I. apply in_map. apply in_range. exact Hi. }
  destruct (X1 U) as [phi Hphi]. exists phi. split; [exact Hphi|].
  destruct (C16_ciarlet_duality point (fun _ => True) (map meval poly) (map point_eval dofs) phi SB FB FD Hphi) as (L1 & D1 & S1 & R1).
  rewrite map_length in *. split; [exact L1|]. split; [|split].
  - intros i j Hi Hj. rewrite <- (DV i) by exact Hi. apply D1; assumption.
  - intros f Hf. destruct (In_nth phi f (fun _ => 0) Hf) as (i & Hi & Ei).
    destruct (proj1 (S1 f)) as [c Hc].
    { exists (fun k => if (k =? i)%nat then 1 else 0). intros v. unfold combination. rewrite (sum_single _ _ i) by (auto; intros k _ Nk; rewrite (proj2 (Nat.eqb_neq k i) Nk); ring).
      rewrite Nat.eqb_refl, Ei. ring. }
    apply (poly_space_ext _ (lincomb (map c (range (length (map meval poly)))) (map meval poly))).
    + intros v. rewrite (Hc v). symmetry. apply combination_lincomb.
    + apply lincomb_poly_space. intros m. apply Hin.
  - intros f Hf v.
    assert (SP : exists c, same f (combination c (map meval poly))).
    { destruct (proj2 (proj2 (monomial_basis d ok poly ND Hin Hlen)) f Hf) as (cs & Lc & Ec).
      exists (fun i => nth i cs 0). intros w. rewrite combination_lincomb, Ec. f_equal.
      apply (nth_ext _ _ 0 0); [rewrite map_length, length_range; exact Lc|]. intros i Hi.
      assert (Hi2 : (i < length poly)%nat) by (rewrite Lc, map_length in Hi; exact Hi).
      rewrite (nth_indep (map (fun i => nth i cs 0) (range (length (map meval poly)))) 0 ((fun i => nth i cs 0) 0%nat)) by (rewrite map_length, length_range, map_length; exact Hi2).
      rewrite (map_nth (fun i => nth i cs 0)). unfold range. rewrite seq_nth by (rewrite map_length; exact Hi2). reflexivity. }
    rewrite (R1 f SP v). unfold combination. rewrite L1. apply sum_ext. intros i Hi. rewrite DV by exact Hi. reflexivity.
Qed.
