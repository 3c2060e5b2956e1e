(** Values of the degrees of freedom of NodalModel.v and duality of the functions computed from them. *)
From Coquelicot Require Import Coquelicot.
From Coq Require Import String Reals ZArith Arith Bool Lia Lra List.
From Verif Require LinAlg CiarletModel CiarletProofs ReferencesModel.
From Verif Require Import Base FunctionsModel FunctionsSpec FunctionsProofs FunctionalsModel FunctionalsSpec FunctionalsProofs FunctionalsValues MacroModel NodalModel NodalSpec.
Import ListNotations.
Local Open Scope R_scope.

(** * Readings: what a degree of freedom returns for polynomials in the first [dim] variables *)
Definition scalar_in (dim : nat) (f : expr) : Prop := polynomial f /\ symbols_in (firstn dim x_symbols) f.
Definition reading (dim : nat) (d : functional) (v : expr -> R) : Prop :=
  (forall f, scalar_in dim f -> evaluates d (FS f) (v f)) /\
  (forall f g, scalar_in dim f -> scalar_in dim g -> v (EAdd f g) = v f + v g) /\
  (forall c f, scalar_in dim f -> v (EMul (ENum c) f) = c * v f) /\
  (forall f g, scalar_in dim f -> scalar_in dim g -> (forall p, ev p f = ev p g) -> v f = v g).

Lemma scalar_add dim f g : scalar_in dim f -> scalar_in dim g -> scalar_in dim (EAdd f g).
Proof. intros [P1 S1] [P2 S2]. split; [split; assumption|]. intros s [H|H]; auto. Qed.
Lemma scalar_scale dim c f : scalar_in dim f -> scalar_in dim (EMul (ENum c) f).
Proof. intros [P S]. split; [split; [exact I|exact P]|]. intros s [[]|H]; auto. Qed.

Lemma derivatives_lin ds a b : forall F F' G G', derivatives ds F G -> derivatives ds F' G' ->
  derivatives ds (fun p => a * F p + b * F' p) (fun p => a * G p + b * G' p).
Proof.
  induction ds as [|s ds IH]; intros F F' G G' H H'; simpl in *.
  - intros p. rewrite H, H'. reflexivity.
  - destruct H as [K [D R1]], H' as [K' [D' R2]]. exists (fun p => a * K p + b * K' p). split; [|apply IH; assumption].
    intros p. apply (is_derive_plus (fun h => a * F (set_var p s h)) (fun h => b * F' (set_var p s h))).
    + apply is_derive_scal, D.
    + apply is_derive_scal, D'.
Qed.
Lemma diffs_lin ds a b f g h p : polynomial f -> polynomial g -> polynomial h -> (forall q, ev q h = a * ev q f + b * ev q g) ->
  ev p (diffs ds h) = a * ev p (diffs ds f) + b * ev p (diffs ds g).
Proof.
  intros Pf Pg Ph E.
  apply (derivatives_unique ds (fun q => ev q h) (fun q => ev q (diffs ds h)) (fun q => a * ev q (diffs ds f) + b * ev q (diffs ds g))).
  - apply derivatives_diffs, Ph.
  - apply (derivatives_ext ds (fun q => a * ev q f + b * ev q g)); [intros q; symmetry; apply E|].
    apply derivatives_lin; apply derivatives_diffs; assumption.
Qed.

Definition value_point (cs : list R) (f : expr) : R := ev (x_point cs) f.
Definition value_weighted (cs : list R) (w : R) (f : expr) : R := ev (x_point cs) f * w.
Definition value_diffs (cs : list R) (ds : list sym) (f : expr) : R := ev (x_point cs) (diffs ds f).
Definition value_along (cs ds : list R) (f : expr) : R := direction_sum ds (x_point cs) f.

Lemma reading_point cs : reading (length cs) (PointEvaluation (nums cs)) (value_point cs).
Proof.
  split; [|split; [|split]]; try reflexivity; [|intros f g _ _ E; apply E]. intros f [P S]. apply (point_evaluation f cs S). reflexivity.
Qed.
Lemma reading_weighted cs w : reading (length cs) (WeightedPointEvaluation (nums cs) (ENum w)) (value_weighted cs w).
Proof.
  split; [|split; [|split]]; [|intros; unfold value_weighted; simpl; ring..|intros f g _ _ E; unfold value_weighted; rewrite E; reflexivity]. intros f [P S]. apply (weighted_point_evaluation f cs w S). reflexivity.
Qed.
Lemma reading_diffs cs ds d : (forall f, scalar_in (length cs) f -> evaluates d (FS f) (value_diffs cs ds f)) -> reading (length cs) d (value_diffs cs ds).
Proof.
  intros H. split; [exact H|]. split; [|split].
  - intros f g [Pf _] [Pg _]. unfold value_diffs. rewrite (diffs_lin ds 1 1 f g (EAdd f g)); auto; [ring|split; assumption|intros; simpl; ring].
  - intros c f [Pf _]. unfold value_diffs. rewrite (diffs_lin ds c 0 f f (EMul (ENum c) f)); auto; [ring|split; [exact I|assumption]|intros; simpl; ring].
  - intros f g [Pf _] [Pg _] E. unfold value_diffs. rewrite (diffs_lin ds 1 0 g g f); auto; [ring|]. intros q. rewrite E. ring.
Qed.
Lemma reading_derivative cs k : reading (length cs) (DerivativePointEvaluation (nums cs) k) (value_diffs cs (multi_index k)).
Proof.
  apply reading_diffs. intros f [P S]. apply (derivative_point_evaluation f cs k P S).
  eexists. split; [apply derivatives_diffs, P|reflexivity].
Qed.
Lemma reading_second cs i j si sj : nth_error x_symbols i = Some si -> nth_error x_symbols j = Some sj ->
  reading (length cs) (PointComponentSecondDerivativeEvaluation (nums cs) (i, j)) (value_diffs cs [si; sj]).
Proof.
  intros Hi Hj. apply reading_diffs. intros f [P S]. apply (second_derivative_evaluation f cs i j si sj P S Hi Hj).
  eexists. split; [apply derivatives_diffs, P|reflexivity].
Qed.
Lemma reading_along cs ds : length ds = length cs -> reading (length cs) (PointDirectionalDerivativeEvaluation (nums cs) (nums ds)) (value_along cs ds).
Proof.
  intros L. split; [|split; [|split]].
  - intros f [P S]. apply (directional_point_evaluation f cs ds P S L). apply directional_derivative_correct; assumption.
  - intros f g _ _. unfold value_along. rewrite (dsum_lin ds _ (EAdd f g) f g 1 1) by (intros; simpl; ring). ring.
  - intros c f _. unfold value_along. rewrite (dsum_lin ds _ (EMul (ENum c) f) f f c 0) by (intros; simpl; ring). ring.
  - intros f g [Pf _] [Pg _] E. unfold value_along. rewrite (dsum_lin ds _ f g g 1 0); [ring|].
    intros s. apply (diffs_lin [s] 1 0 g g f); auto. intros q. rewrite E. ring.
Qed.

(** * Duality *)
Definition values_of (values : list (expr -> R)) (basis : list expr) : list (list R) := map (fun f => map (fun v => v f) values) basis.

Lemma values_matrix_of dim basis dofs values : Forall (scalar_in dim) basis -> Forall2 (reading dim) dofs values -> dof_matrix basis dofs (values_of values basis).
Proof.
  intros Hb Hv. unfold dof_matrix, values_of. induction Hb as [|f basis Hf _ IH]; constructor; [|exact IH].
  clear IH. induction Hv as [|d v dofs values R _ IH]; constructor; [apply R, Hf|exact IH].
Qed.

Lemma sum_S_l n f : LinAlg.sum (S n) f = f 0%nat + LinAlg.sum n (fun i => f (S i)).
Proof. change (S n) with (1 + n)%nat. rewrite LinAlg.sum_split. cbn [LinAlg.sum]. rewrite Rplus_0_l. reflexivity. Qed.

Lemma row_reading dim d v : reading dim d v -> forall ps cs, Forall (scalar_in dim) ps -> length cs = length ps -> (0 < length ps)%nat ->
  scalar_in dim (function_row cs ps) /\ v (function_row cs ps) = LinAlg.sum (length ps) (fun k => nth k cs 0 * v (nth k ps (ENum 0))).
Proof.
  intros (_ & A & S & _) ps cs Hp L Z. destruct ps as [|p0 ps]; [simpl in Z; lia|]. destruct cs as [|c0 cs]; [discriminate|]. clear Z.
  simpl in L. injection L as L. inversion Hp as [|? ? H0 Hps]; subst. unfold function_row.
  assert (G : forall ps cs acc, Forall (scalar_in dim) ps -> length cs = length ps -> scalar_in dim acc ->
    let r := fold_left (fun sf cd => EAdd sf (EMul (ENum (fst cd)) (snd cd))) (combine cs ps) acc in
    scalar_in dim r /\ v r = v acc + LinAlg.sum (length ps) (fun k => nth k cs 0 * v (nth k ps (ENum 0)))).
  { clear -A S. induction ps as [|p ps IH]; intros [|c cs] acc Hp L Ha; try discriminate; cbn [combine fold_left length].
    - split; [exact Ha|]. cbn [LinAlg.sum]. ring.
    - inversion Hp as [|? ? H0 Hps]; subst. destruct (IH cs (EAdd acc (EMul (ENum (fst (c, p))) (snd (c, p)))) Hps ltac:(simpl in L; congruence)) as [I1 I2].
      { apply scalar_add; [exact Ha|apply scalar_scale, H0]. }
      split; [exact I1|]. rewrite I2. cbn [fst snd]. rewrite A by (try apply scalar_scale; assumption). rewrite S by exact H0.
      rewrite sum_S_l. cbn [nth]. ring. }
  destruct (G ps cs (EMul (ENum c0) p0) Hps L (scalar_scale dim c0 p0 H0)) as [G1 G2].
  split; [exact G1|]. rewrite G2. cbn [length]. rewrite sum_S_l, S by exact H0. reflexivity.
Qed.

Definition trivial_kernel (n : nat) (M : list (list R)) : Prop :=
  forall x, (forall i, (i < n)%nat -> LinAlg.sum n (fun j => CiarletModel.entry M i j * x j) = 0) -> forall p, (p < n)%nat -> x p = 0.
(** combinations of the functions on which all degrees of freedom vanish *)
Definition trivial_left (n : nat) (M : list (list R)) : Prop :=
  forall x, (forall j, (j < n)%nat -> LinAlg.sum n (fun i => x i * CiarletModel.entry M i j) = 0) -> forall p, (p < n)%nat -> x p = 0.

Lemma kernel_left n M : trivial_left n M -> trivial_kernel n M.
Proof.
  intros T x H p Hp. destruct (Req_dec (x p) 0) as [E|E]; [exact E|]. exfalso.
  destruct (LinAlg.right_kernel_left n (CiarletModel.entry M) x p Hp E H) as (c & (i & Hi & Nz) & Z). exact (Nz (T c Z i Hi)).
Qed.

Lemma combination_sum cs basis p : length cs = length basis ->
  combination cs basis p = LinAlg.sum (length basis) (fun k => nth k cs 0 * ev p (nth k basis (ENum 0))).
Proof.
  unfold combination. revert cs. induction basis as [|f basis IH]; intros [|c cs] L; try discriminate; [reflexivity|].
  cbn [combine map fold_right length fst snd]. rewrite IH by (simpl in L; congruence). rewrite sum_S_l. reflexivity.
Qed.
(** evaluation at a point is linear, so it can be used for rows as well *)
Lemma row_value p ps cs : length cs = length ps -> (0 < length ps)%nat ->
  ev p (function_row cs ps) = LinAlg.sum (length ps) (fun k => nth k cs 0 * ev p (nth k ps (ENum 0))).
Proof.
  intros L Z. destruct ps as [|p0 ps]; [simpl in Z; lia|]. destruct cs as [|c0 cs]; [discriminate|]. simpl in L. injection L as L. unfold function_row.
  assert (G : forall ps cs acc, length cs = length ps ->
    ev p (fold_left (fun sf cd => EAdd sf (EMul (ENum (fst cd)) (snd cd))) (combine cs ps) acc) = ev p acc + LinAlg.sum (length ps) (fun k => nth k cs 0 * ev p (nth k ps (ENum 0)))).
  { clear. induction ps as [|q ps IH]; intros [|c cs] acc L; try discriminate; cbn [combine fold_left length].
    - cbn [LinAlg.sum]. ring.
    - rewrite IH by (simpl in L; congruence). rewrite sum_S_l. cbn [ev fst snd nth]. ring. }
  rewrite G by exact L. cbn [length]. rewrite sum_S_l. reflexivity.
Qed.

Lemma entry_values values basis i k : (i < length basis)%nat -> (k < length values)%nat ->
  CiarletModel.entry (values_of values basis) i k = nth k values (fun _ => 0) (nth i basis (ENum 0)).
Proof.
  intros Hi Hk. unfold CiarletModel.entry, values_of.
  rewrite (CiarletProofs.nth_map_lt (fun f => map (fun v : expr -> R => v f) values) basis i (ENum 0) []) by exact Hi.
  apply (CiarletProofs.nth_map_lt (fun v : expr -> R => v (nth i basis (ENum 0))) values k (fun _ => 0) 0). exact Hk.
Qed.

Lemma evaluates_unique d f v w : evaluates d (FS f) v -> (exists g, eval_symbolic d (FS f) = Ok (Value (FS g))) -> evaluates d (FS f) w -> v = w.
Proof. intros H [g E] H'. unfold evaluates in *. rewrite E in *. rewrite <- (H (fun _ => 0)), <- (H' (fun _ => 0)). reflexivity. Qed.

Lemma same_length {A B} (P : A -> B -> Prop) l l' : Forall2 P l l' -> length l = length l'.
Proof. induction 1; simpl; congruence. Qed.

(** the degree of freedom is a value, no integral *)
Definition direct (dim : nat) (d : functional) : Prop := forall f, scalar_in dim f -> exists g, eval_symbolic d (FS f) = Ok (Value (FS g)).

Theorem nodal_dual dim n basis dofs values : (0 < n)%nat -> length basis = n -> length dofs = n ->
  Forall (scalar_in dim) basis -> Forall2 (reading dim) dofs values -> Forall (direct dim) dofs -> trivial_left n (values_of values basis) ->
  exists M phi, dof_matrix basis dofs M /\ element_functions M basis = Ok phi /\ dual_to dim basis dofs phi.
Proof.
  intros Hn Lb Ld Hb Hv Hd K. exists (values_of values basis).
  assert (Lv : length values = n) by (rewrite <- (same_length _ _ _ Hv); exact Ld).
  pose proof (kernel_left _ _ K) as K'. set (M := values_of values basis) in *.
  assert (Sq : CiarletProofs.square n M).
  { unfold M, values_of. split; [rewrite map_length; exact Lb|]. intros r Hr. apply in_map_iff in Hr. destruct Hr as (f & <- & _). rewrite map_length. exact Lv. }
  pose proof (CiarletProofs.inv_LU_spec n M Sq) as I. unfold element_functions.
  destruct (CiarletModel.inv_LU M) as [N|e]; [|destruct I as [_ [x [p [Hp [Nz Z]]]]]; destruct (Nz (K' x Z p Hp))].
  destruct I as [[SN1 SN2] Id]. eexists. split; [apply (values_matrix_of dim); assumption|]. split; [reflexivity|].
  set (phi := map (fun i => function_row (nth i N []) basis) (range (length basis))).
  assert (Lphi : length phi = n) by (unfold phi; rewrite map_length; unfold range; rewrite seq_length; exact Lb).
  assert (Nphi : forall i, (i < n)%nat -> nth i phi (ENum 0) = function_row (nth i N []) basis).
  { intros i Hi. unfold phi. apply (CiarletProofs.nth_map_range (fun i => function_row (nth i N []) basis)). rewrite Lb. exact Hi. }
  assert (LN : forall i, (i < n)%nat -> length (nth i N []) = n) by (intros i Hi; apply SN2, nth_In; rewrite SN1; exact Hi).
  assert (RN : forall d v i, reading dim d v -> (i < n)%nat -> scalar_in dim (nth i phi (ENum 0)) /\ v (nth i phi (ENum 0)) = LinAlg.sum n (fun j => CiarletModel.entry N i j * v (nth j basis (ENum 0)))).
  { intros d v i R Hi. rewrite Nphi by exact Hi. pose proof (row_reading dim d v R basis (nth i N []) Hb) as X. rewrite Lb in X. apply X; [apply LN, Hi|exact Hn]. }
  assert (V : forall k, (k < n)%nat -> reading dim (nth k dofs (PointEvaluation [])) (nth k values (fun _ => 0))).
  { intros k Hk. rewrite <- Ld in Hk. clear -Hv Hk. revert k Hk. induction Hv as [|d v dofs values R _ IH]; intros [|k] Hk; simpl in *; try lia; [exact R|apply IH; lia]. }
  assert (E : forall i k, (i < n)%nat -> (k < n)%nat -> CiarletModel.entry M i k = nth k values (fun _ => 0) (nth i basis (ENum 0))).
  { intros i k Hi Hk. apply entry_values; lia. }
  split; [lia|]. split; [|split].
  - intros i k f d Hf Hk. assert (Hi : (i < n)%nat) by (rewrite <- Lphi; apply nth_error_Some; congruence). assert (Hk' : (k < n)%nat) by (rewrite <- Ld; apply nth_error_Some; congruence).
    apply (nth_error_nth _ _ (ENum 0)) in Hf. apply (nth_error_nth _ _ (PointEvaluation [])) in Hk. subst f d.
    pose proof (V k Hk') as R. destruct (RN _ _ i R Hi) as [Sc Eq].
    replace (if (i =? k)%nat then 1 else 0) with (nth k values (fun _ => 0) (nth i phi (ENum 0))); [apply R, Sc|].
    rewrite Eq. transitivity (LinAlg.delta i k).
    + rewrite <- (Id i k Hi Hk'). unfold LinAlg.mmul. apply LinAlg.sum_ext. intros j Hj. rewrite E by assumption. reflexivity.
    + unfold LinAlg.delta. destruct (Nat.eq_dec i k), (Nat.eqb_spec i k); congruence || reflexivity.
  - intros f Hf. unfold phi in Hf. apply in_map_iff in Hf. destruct Hf as (i & <- & Hi). unfold range in Hi. apply in_seq in Hi. rewrite Lb in Hi.
    exists (nth i N []). split; [rewrite LN by lia; symmetry; exact Lb|]. intros p. rewrite row_value, combination_sum; try reflexivity; rewrite ?LN, ?Lb; lia.
  - intros f vals Pf Sf [cs [Lcs Hcs]] Hvals p. assert (Hvl : length vals = n) by (rewrite <- (same_length _ _ _ Hvals); exact Ld).
    rewrite combination_sum by lia. rewrite Lphi.
    assert (Ev : forall k, (k < n)%nat -> nth k vals 0 = LinAlg.sum n (fun i => nth i cs 0 * CiarletModel.entry M i k)).
    { intros k Hk. pose proof (V k Hk) as R.
      assert (Ek : evaluates (nth k dofs (PointEvaluation [])) (FS f) (nth k vals 0)).
      { rewrite <- Ld in Hk. clear -Hvals Hk. revert k Hk. induction Hvals as [|d v dofs vals R _ IH]; intros [|k] Hk; simpl in *; try lia; [exact R|apply IH; lia]. }
      assert (Hin : In (nth k dofs (PointEvaluation [])) dofs) by (apply nth_In; lia).
      rewrite (evaluates_unique _ _ _ _ Ek (proj1 (Forall_forall _ _) Hd _ Hin f (conj Pf Sf)) (proj1 R f (conj Pf Sf))).
      destruct (row_reading dim _ _ R basis cs Hb Lcs ltac:(lia)) as [Sr Er].
      rewrite (proj2 (proj2 (proj2 R)) f (function_row cs basis) (conj Pf Sf) Sr).
      - rewrite Er, Lb. apply LinAlg.sum_ext. intros i Hi. rewrite E by assumption. reflexivity.
      - intros q. rewrite Hcs, row_value, combination_sum by lia. reflexivity. }
    rewrite Hcs, combination_sum, Lb by exact Lcs. symmetry.
    rewrite (LinAlg.sum_ext n _ (fun k => LinAlg.sum n (fun j => LinAlg.sum n (fun i => nth i cs 0 * CiarletModel.entry M i k) * CiarletModel.entry N k j * ev p (nth j basis (ENum 0))))).
    2:{ intros k Hk. rewrite Nphi by exact Hk. rewrite row_value by (rewrite ?LN; lia). rewrite Lb, Ev by exact Hk. rewrite <- LinAlg.sum_scal. apply LinAlg.sum_ext.
        intros j Hj. unfold CiarletModel.entry at 3. ring. }
    rewrite LinAlg.sum_swap. apply LinAlg.sum_ext. intros j Hj.
    rewrite (LinAlg.sum_ext n _ (fun k => LinAlg.sum n (fun i => nth i cs 0 * (CiarletModel.entry M i k * CiarletModel.entry N k j)) * ev p (nth j basis (ENum 0)))).
    2:{ intros k Hk. f_equal. rewrite <- LinAlg.sum_scal_r. apply LinAlg.sum_ext. intros. ring. }
    rewrite LinAlg.sum_scal_r, LinAlg.sum_swap. f_equal.
    rewrite (LinAlg.sum_ext n _ (fun i => nth i cs 0 * LinAlg.delta i j)); [apply LinAlg.sum_delta, Hj|].
    intros i Hi. rewrite LinAlg.sum_scal. f_equal. exact (LinAlg.left_right_inverse n _ _ Id i j Hi Hj).
Qed.

(** * The value of a degree of freedom at points given by numbers *)
Definition number (e : expr) : R := ev (fun _ => 0) e.
Definition read (d : functional) : expr -> R :=
  match d with
  | PointEvaluation p => value_point (map number p)
  | WeightedPointEvaluation p w => value_weighted (map number p) (number w)
  | DerivativePointEvaluation p k => value_diffs (map number p) (multi_index k)
  | PointDirectionalDerivativeEvaluation p v => value_along (map number p) (map number v)
  | PointComponentSecondDerivativeEvaluation p (i, j) => value_diffs (map number p) [nth i x_symbols "x"%string; nth j x_symbols "x"%string]
  | _ => fun _ => 0
  end.
Definition at_numbers (dim : nat) (p : list expr) : Prop := exists cs, p = nums cs /\ length cs = dim.
Definition simple (dim : nat) (d : functional) : Prop :=
  match d with
  | PointEvaluation p => at_numbers dim p
  | WeightedPointEvaluation p w => at_numbers dim p /\ exists c, w = ENum c
  | DerivativePointEvaluation p k => at_numbers dim p
  | PointDirectionalDerivativeEvaluation p v => at_numbers dim p /\ at_numbers dim v
  | PointComponentSecondDerivativeEvaluation p (i, j) => at_numbers dim p /\ (i < 3)%nat /\ (j < 3)%nat
  | _ => False
  end.
Lemma number_nums cs : map number (nums cs) = cs.
Proof. exact (ev_nums (fun _ => 0) cs). Qed.

Lemma simple_reading dim d : simple dim d -> reading dim d (read d).
Proof.
  destruct d; cbn [simple read]; try contradiction.
  - intros (cs & -> & <-). rewrite number_nums. apply reading_point.
  - intros ((cs & -> & <-) & c & ->). rewrite number_nums. apply reading_weighted.
  - intros (cs & -> & <-). rewrite number_nums. apply reading_derivative.
  - intros ((cs & -> & <-) & ds & -> & L). rewrite !number_nums. apply reading_along, L.
  - destruct component as [i j]. intros ((cs & -> & <-) & Hi & Hj). rewrite number_nums. apply reading_second; apply nth_error_nth'; assumption.
Qed.
Lemma simple_direct dim d : simple dim d -> direct dim d.
Proof.
  intros H f Hf. destruct d; simpl in H; try contradiction; unfold eval_symbolic; cbn [eval_raw].
  - rewrite at_point_S. cbn [rbind rmap]. eexists; reflexivity.
  - destruct H as (_ & c & ->). rewrite at_point_S. cbn [rbind rmap]. eexists; reflexivity.
  - rewrite diffs_along_S. cbn [rbind]. rewrite at_point_S. cbn [rbind rmap]. eexists; reflexivity.
  - unfold f_directional_derivative. cbn [rbind]. rewrite at_point_S. cbn [rbind rmap]. eexists; reflexivity.
  - destruct component as [i j]. destruct H as (_ & Hi & Hj). cbn [fst snd]. unfold jacobian_component, x_at.
    rewrite (nth_error_nth' x_symbols "x"%string Hi), (nth_error_nth' x_symbols "x"%string Hj). cbn [opt_res rbind]. rewrite at_point_S. cbn [rbind rmap]. eexists; reflexivity.
Qed.

Lemma read_all dim dofs : Forall (simple dim) dofs -> Forall2 (reading dim) dofs (map read dofs) /\ Forall (direct dim) dofs.
Proof.
  induction 1 as [|d dofs H _ [IH1 IH2]]; [split; constructor|]. simpl. split; constructor; try assumption; [apply simple_reading, H|apply simple_direct, H].
Qed.

(** the matrix of an element with such degrees of freedom, and its duality from the triviality of the kernel *)
Corollary simple_dual dim n basis dofs : (0 < n)%nat -> length basis = n -> length dofs = n ->
  Forall (scalar_in dim) basis -> Forall (simple dim) dofs -> trivial_left n (values_of (map read dofs) basis) ->
  exists M phi, dof_matrix basis dofs M /\ element_functions M basis = Ok phi /\ dual_to dim basis dofs phi.
Proof.
  intros Hn Lb Ld Hb Hs K. destruct (read_all dim dofs Hs) as [R D].
  exact (nodal_dual dim n basis dofs (map read dofs) Hn Lb Ld Hb R D K).
Qed.

Lemma mono_scalar dim m : length m = dim -> scalar_in dim (mono_expr m).
Proof.
  intros <-. unfold mono_expr, scalar_in. generalize x_symbols. intros l. split.
  - revert l. induction m as [|k m IH]; intros [|v l]; simpl; auto.
  - revert l. induction m as [|k m IH]; intros [|v l] s H; simpl in *; try contradiction.
    destruct H as [H|H]; [left; symmetry; exact H|right; apply IH, H].
Qed.
