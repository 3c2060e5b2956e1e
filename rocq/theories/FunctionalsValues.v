(** Proofs about the values of degrees of freedom. *)
From Coquelicot Require Import Coquelicot.
From Coq Require Import String Reals ZArith Arith Bool Lia Lra List.
From Verif Require Import Base.
From Verif Require ReferencesModel.
From Verif Require Import FunctionsModel FunctionsSpec FunctionsProofs FunctionsArith FunctionsSubs.
From Verif Require Import FunctionalsModel FunctionalsSpec FunctionalsProofs.
Import ListNotations.
Local Open Scope R_scope.

Lemma x_not_dummy v i : In v x_symbols -> v <> dummy i.
Proof. simpl. intros [<-|[<-|[<-|[]]]]; unfold dummy; discriminate. Qed.

Lemma t_not_dummy v i : In v t_symbols -> v <> dummy i.
Proof. simpl. intros [<-|[<-|[<-|[]]]]; unfold dummy; discriminate. Qed.

Lemma in_firstn {A} n (l : list A) x : In x (firstn n l) -> In x l.
Proof. revert l. induction n; intros [|y l]; simpl; [tauto|tauto|tauto|]. intros [->|H]; auto. Qed.

(** The values assigned do not depend on the base point. *)
Lemma assign_covered vs cs p q s : In s (firstn (length cs) vs) -> assign vs cs p s = assign vs cs q s.
Proof.
  revert cs. induction vs as [|v vs IH]; intros [|c cs]; simpl; try tauto.
  intros H. unfold upd. destruct (String.eqb_spec v s) as [E|E]; [reflexivity|]. apply IH. destruct H; [congruence|assumption].
Qed.

Lemma in_symbols_x n f : symbols_in (firstn n x_symbols) f -> no_dummy f.
Proof. intros H i Hi. apply H in Hi. apply in_firstn in Hi. exact (x_not_dummy _ i Hi eq_refl). Qed.

(** function.subs(x, point) for expressions [es] as point. *)
Lemma subs_at p f es : no_dummy f -> Forall no_dummy es ->
  exists h, subs_expr f (VarList x_symbols) (PSeq (map PExpr es)) = Ok h /\ ev p h = ev (assign x_symbols (map (ev p) es) p) f.
Proof.
  intros Hf He. destruct (subs_expr_list_value p f x_symbols (map PExpr es) es Hf x_not_dummy He (map_res_as_expr es)) as [h [H1 [H2 _]]].
  eauto.
Qed.

Lemma no_dummy_nums cs : Forall no_dummy (map ENum cs).
Proof. apply Forall_forall. intros e He. apply in_map_iff in He. destruct He as [c [<- _]]. intros i []. Qed.

Lemma ev_nums p cs : map (ev p) (map ENum cs) = cs.
Proof. rewrite map_map. simpl. apply map_id. Qed.

Lemma sub_at_value p f cs : symbols_in (firstn (length cs) x_symbols) f -> ev p (sub_at (map ENum cs) f) = ev (x_point cs) f.
Proof.
  intros H. destruct (subs_at p f (map ENum cs) (in_symbols_x _ _ H) (no_dummy_nums cs)) as [h [E1 E2]].
  rewrite subs_expr_at in E1. injection E1 as <-. rewrite E2, ev_nums. apply ev_ext. intros s Hs. apply assign_covered. apply H. exact Hs.
Qed.

Lemma at_point_S f pt : at_point (FS f) pt = Ok (FS (sub_at pt f)).
Proof. unfold at_point, f_subs. rewrite subs_expr_at. reflexivity. Qed.

Lemma map_res_subs pt v : map_res (fun i => subs_expr i (VarList x_symbols) (PSeq (map PExpr pt))) v = Ok (map (sub_at pt) v).
Proof. induction v as [|e v IH]; [reflexivity|]. cbn [map_res map]. rewrite subs_expr_at, IH. reflexivity. Qed.

Lemma at_point_V v pt : at_point (FV v) pt = Ok (FV (map (sub_at pt) v)).
Proof. unfold at_point, f_subs. rewrite map_res_subs. reflexivity. Qed.

Lemma at_point_M m pt : rectangular m -> at_point (FM m) pt = Ok (FM (map (map (sub_at pt)) m)).
Proof.
  intros Hr. unfold at_point, f_subs.
  replace (map_res _ m) with (Ok (map (map (sub_at pt)) m)).
  - cbn [rbind]. apply mk_mat_ok. apply rect_map_map. exact Hr.
  - symmetry. clear Hr. induction m as [|r m IH]; [reflexivity|]. cbn [map_res map]. rewrite map_res_subs, IH. reflexivity.
Qed.

Lemma evaluates_S d f e : eval_raw d f = Ok (Value (FS e)) -> forall w, (forall p, ev p e = w) -> forall v, evaluates d f v <-> v = w.
Proof.
  intros E w Hw v. unfold evaluates, eval_symbolic. rewrite E. cbn [rbind]. split.
  - intros H. rewrite <- (H (fun _ => 0)). apply Hw.
  - intros -> p. apply Hw.
Qed.

Lemma point_evaluation f cs : symbols_in (firstn (length cs) x_symbols) f ->
  forall v, evaluates (PointEvaluation (map ENum cs)) (FS f) v <-> v = ev (x_point cs) f.
Proof.
  intros H. apply (evaluates_S _ _ (sub_at (map ENum cs) f)); [cbn [eval_raw]; rewrite at_point_S; reflexivity|].
  intros p. apply sub_at_value. exact H.
Qed.

Lemma weighted_point_evaluation f cs w : symbols_in (firstn (length cs) x_symbols) f ->
  forall v, evaluates (WeightedPointEvaluation (map ENum cs) (ENum w)) (FS f) v <-> v = ev (x_point cs) f * w.
Proof.
  intros H. apply (evaluates_S _ _ (EMul (sub_at (map ENum cs) f) (ENum w))); [cbn [eval_raw]; rewrite at_point_S; reflexivity|].
  intros p. simpl. rewrite sub_at_value by exact H. reflexivity.
Qed.

(** Derivatives. *)
Lemma occurs_diff s s' e : occurs s (ediff s' e) -> occurs s e.
Proof.
  induction e; simpl; try tauto.
  - destruct (String.eqb s' s0); simpl; tauto.
  - destruct n; simpl; tauto.
Qed.

Lemma polynomial_smooth p e : polynomial e -> smooth p e.
Proof. induction e; simpl; tauto. Qed.
Lemma polynomial_diff s e : polynomial e -> polynomial (ediff s e).
Proof.
  induction e; simpl; try tauto.
  - destruct (String.eqb s s0); simpl; tauto.
  - destruct n; simpl; tauto.
Qed.
Lemma polynomial_diffs ds e : polynomial e -> polynomial (diffs ds e).
Proof. revert e. induction ds as [|s ds IH]; intros e H; [exact H|]. apply IH. apply polynomial_diff. exact H. Qed.
Lemma symbols_diff l s e : symbols_in l e -> symbols_in l (ediff s e).
Proof. intros H s' Hs. apply H. exact (occurs_diff _ _ _ Hs). Qed.
Lemma symbols_diffs l ds e : symbols_in l e -> symbols_in l (diffs ds e).
Proof. revert e. induction ds as [|s ds IH]; intros e H; [exact H|]. apply IH. apply symbols_diff. exact H. Qed.

Lemma diffs_app ds ds' e : diffs (ds ++ ds') e = diffs ds' (diffs ds e).
Proof. apply fold_left_app. Qed.

Lemma derivatives_diffs ds e : polynomial e -> derivatives ds (fun p => ev p e) (fun p => ev p (diffs ds e)).
Proof.
  revert e. induction ds as [|s ds IH]; intros e H; simpl; [reflexivity|].
  exists (fun p => ev p (ediff s e)). split; [|apply (IH (ediff s e)), polynomial_diff, H].
  intros p. apply (ediff_correct p s e). apply polynomial_smooth. exact H.
Qed.

Lemma derivatives_ext ds F F' G : (forall p, F p = F' p) -> derivatives ds F G -> derivatives ds F' G.
Proof.
  destruct ds as [|s ds]; simpl; intros E H.
  - intros p. rewrite <- E. apply H.
  - destruct H as [K [H1 H2]]. exists K. split; [|exact H2]. intros p. apply (is_derive_ext (fun h => F (set_var p s h))).
    + intros h. apply E.
    + apply H1.
Qed.

Lemma derivatives_unique ds F G G' : derivatives ds F G -> derivatives ds F G' -> forall p, G p = G' p.
Proof.
  revert F. induction ds as [|s ds IH]; intros F H H'; simpl in *.
  - intros p. rewrite <- H. apply H'.
  - destruct H as [K [H1 H2]]. destruct H' as [K' [H1' H2']]. apply (IH K H2). apply derivatives_ext with (2 := H2').
    intros p. rewrite <- (is_derive_unique _ _ _ (H1 p)). symmetry. apply is_derive_unique. apply H1'.
Qed.

Lemma iterate_diff n s e : iterate n (fun f => f_diff f s) (FS e) = Ok (FS (diffs (repeat s n) e)).
Proof. revert e. induction n as [|n IH]; intros e; [reflexivity|]. cbn [iterate f_diff rbind repeat]. rewrite IH. reflexivity. Qed.

Lemma diffs_along_S l e : diffs_along (FS e) l = Ok (FS (diffs (flat_map (fun sn => repeat (fst sn) (snd sn)) l) e)).
Proof.
  revert e. induction l as [|[s n] l IH]; intros e; [reflexivity|]. cbn [diffs_along flat_map fst snd].
  rewrite iterate_diff. cbn [rbind]. rewrite IH, diffs_app. reflexivity.
Qed.

Lemma derivative_point_evaluation f cs k : polynomial f -> symbols_in (firstn (length cs) x_symbols) f ->
  forall v, evaluates (DerivativePointEvaluation (map ENum cs) k) (FS f) v <->
    exists G, derivatives (multi_index k) (fun p => ev p f) G /\ v = G (x_point cs).
Proof.
  intros Hp Hs v. rewrite (evaluates_S _ _ (sub_at (map ENum cs) (diffs (multi_index k) f))) with (w := ev (x_point cs) (diffs (multi_index k) f)).
  - pose proof (derivatives_diffs (multi_index k) f Hp) as D. split.
    + intros ->. eauto.
    + intros [G [HG ->]]. exact (derivatives_unique _ _ _ _ HG D _).
  - cbn [eval_raw]. rewrite diffs_along_S. cbn [rbind]. rewrite at_point_S. unfold multi_index. rewrite zip_combine. reflexivity.
  - intros p. apply sub_at_value. apply symbols_diffs. exact Hs.
Qed.

(** Second derivatives by components of the Hessian. *)
Lemma second_derivative_evaluation f cs i j si sj : polynomial f -> symbols_in (firstn (length cs) x_symbols) f ->
  nth_error x_symbols i = Some si -> nth_error x_symbols j = Some sj ->
  forall v, evaluates (PointComponentSecondDerivativeEvaluation (map ENum cs) (i, j)) (FS f) v <->
    exists G, derivatives [si; sj] (fun p => ev p f) G /\ v = G (x_point cs).
Proof.
  intros Hp Hs Hi Hj v. rewrite (evaluates_S _ _ (sub_at (map ENum cs) (diffs [si; sj] f))) with (w := ev (x_point cs) (diffs [si; sj] f)).
  - pose proof (derivatives_diffs [si; sj] f Hp) as D. split.
    + intros ->. eauto.
    + intros [G [HG ->]]. exact (derivatives_unique _ _ _ _ HG D _).
  - cbn [eval_raw fst snd]. unfold jacobian_component, x_at. rewrite Hi, Hj. cbn [opt_res rbind]. rewrite at_point_S. reflexivity.
  - intros p. apply sub_at_value. apply symbols_diffs. exact Hs.
Qed.

(** The directional derivative. *)
Definition direction_sum (ds : list R) (q : env) (e : expr) : R :=
  fold_right Rplus 0 (map (fun sd => snd sd * ev q (ediff (fst sd) e)) (combine x_symbols ds)).

Lemma dsum_lin ds q e e1 e2 (c1 c2 : R) :
  (forall s, ev q (ediff s e) = c1 * ev q (ediff s e1) + c2 * ev q (ediff s e2)) ->
  direction_sum ds q e = c1 * direction_sum ds q e1 + c2 * direction_sum ds q e2.
Proof.
  intros H. unfold direction_sum. induction (combine x_symbols ds) as [|[s d] l IH]; simpl; [ring|]. rewrite H, IH. ring.
Qed.

Lemma x_point_along cs ds h s : length ds = length cs -> In s (firstn (length cs) x_symbols) ->
  x_point (along cs ds h) s = x_point cs s + h * x_point ds s.
Proof.
  intros L. destruct cs as [|c0 [|c1 [|c2 cs]]], ds as [|d0 [|d1 [|d2 ds]]]; try discriminate L; intros H; simpl in H; rewrite ?firstn_nil in H; simpl in H;
    intuition (subst; unfold x_point, along, upd; simpl; reflexivity).
Qed.

Lemma direction_sum_sym (cs ds : list R) s q : length ds = length cs -> In s (firstn (length cs) x_symbols) ->
  direction_sum ds q (ESym s) = x_point ds s.
Proof.
  intros L. destruct cs as [|c0 [|c1 [|c2 cs]]], ds as [|d0 [|d1 [|d2 ds]]]; try discriminate L; intros H; simpl in H; rewrite ?firstn_nil in H; simpl in H;
    intuition (subst; unfold direction_sum, x_point, x_symbols; simpl; unfold upd; simpl; ring).
Qed.

Lemma along_zero cs ds : length ds = length cs -> along cs ds 0 = cs.
Proof.
  revert ds. induction cs as [|c cs IH]; intros [|d ds] L; try discriminate; [reflexivity|]. unfold along in *. simpl.
  rewrite IH by (simpl in L; congruence). f_equal. ring.
Qed.

Lemma directional_derivative_correct f cs ds : polynomial f -> symbols_in (firstn (length cs) x_symbols) f -> length ds = length cs ->
  is_derive (fun h => ev (x_point (along cs ds h)) f) 0 (direction_sum ds (x_point cs) f).
Proof.
  intros Hp Hs L. induction f as [c|s|f1 IH1 f2 IH2|f1 IH1 f2 IH2| |f IH n| |]; simpl in Hp; try contradiction.
  - replace (direction_sum ds (x_point cs) (ENum c)) with 0 by (rewrite (dsum_lin ds _ (ENum c) (ENum c) (ENum c) 0 0); [ring|intros; simpl; ring]).
    simpl. apply @is_derive_const.
  - assert (In s (firstn (length cs) x_symbols)) as I by (apply Hs; reflexivity).
    rewrite (direction_sum_sym cs ds s _ L I).
    apply (is_derive_ext (fun h => x_point cs s + h * x_point ds s)); [intros h; simpl; symmetry; apply x_point_along; assumption|].
    auto_derive; [trivial|ring].
  - rewrite (dsum_lin ds _ (EAdd f1 f2) f1 f2 1 1) by (intros; simpl; ring). rewrite !Rmult_1_l. simpl.
    apply (is_derive_plus (fun h => ev (x_point (along cs ds h)) f1) (fun h => ev (x_point (along cs ds h)) f2));
      [apply IH1|apply IH2]; try tauto; intros s0 H0; apply Hs; simpl; tauto.
  - rewrite (dsum_lin ds _ (EMul f1 f2) f1 f2 (ev (x_point cs) f2) (ev (x_point cs) f1)) by (intros; simpl; ring). simpl.
    assert (D1 : is_derive (fun h => ev (x_point (along cs ds h)) f1) 0 (direction_sum ds (x_point cs) f1)) by (apply IH1; [tauto|intros s0 H0; apply Hs; simpl; tauto]).
    assert (D2 : is_derive (fun h => ev (x_point (along cs ds h)) f2) 0 (direction_sum ds (x_point cs) f2)) by (apply IH2; [tauto|intros s0 H0; apply Hs; simpl; tauto]).
    pose proof (is_derive_mult (fun h => ev (x_point (along cs ds h)) f1) (fun h => ev (x_point (along cs ds h)) f2) 0 _ _ D1 D2 Rmult_comm) as D.
    cbv beta in D. rewrite (along_zero cs ds L) in D.
    replace (ev (x_point cs) f2 * direction_sum ds (x_point cs) f1 + ev (x_point cs) f1 * direction_sum ds (x_point cs) f2)
      with (plus (mult (direction_sum ds (x_point cs) f1) (ev (x_point cs) f2)) (mult (ev (x_point cs) f1) (direction_sum ds (x_point cs) f2))).
    + exact D.
    + unfold plus, mult. simpl. ring.
  - assert (D : is_derive (fun h => ev (x_point (along cs ds h)) f) 0 (direction_sum ds (x_point cs) f)) by (apply IH; [exact Hp|intros s0 H0; apply Hs; exact H0]).
    pose proof (is_derive_pow (fun h => ev (x_point (along cs ds h)) f) n 0 _ D) as D'. cbv beta in D'. rewrite (along_zero cs ds L) in D'.
    rewrite (dsum_lin ds _ (EPow f n) f f (INR n * ev (x_point cs) f ^ pred n) 0).
    + replace (INR n * ev (x_point cs) f ^ pred n * direction_sum ds (x_point cs) f + 0 * direction_sum ds (x_point cs) f)
        with (INR n * direction_sum ds (x_point cs) f * ev (x_point cs) f ^ pred n) by ring. exact D'.
    + intros s0. destruct n as [|n]; [simpl; ring|]. cbn [ediff ev pred]. try rewrite <- INR_IZR_INZ; ring.
Qed.

Lemma directional_point_evaluation f cs ds : polynomial f -> symbols_in (firstn (length cs) x_symbols) f -> length ds = length cs ->
  forall v, evaluates (PointDirectionalDerivativeEvaluation (map ENum cs) (map ENum ds)) (FS f) v <->
    is_derive (fun h => ev (x_point (along cs ds h)) f) 0 v.
Proof.
  intros Hp Hs L v. pose proof (directional_derivative_correct f cs ds Hp Hs L) as D.
  transitivity (v = direction_sum ds (x_point cs) f).
  - set (e := fold_left (fun out p => EAdd out (EMul (snd p) (ediff (fst p) f))) (zip x_symbols (map ENum ds)) (ENum 0)).
    apply (evaluates_S _ _ (sub_at (map ENum cs) e)); [cbn [eval_raw]; unfold f_directional_derivative; cbn [rbind]; rewrite at_point_S; reflexivity|].
    assert (G : forall l e0, symbols_in (firstn (length cs) x_symbols) e0 ->
      symbols_in (firstn (length cs) x_symbols) (fold_left (fun out p => EAdd out (EMul (snd p) (ediff (fst p) f))) (zip l (map ENum ds)) e0) /\
      ev (x_point cs) (fold_left (fun out p => EAdd out (EMul (snd p) (ediff (fst p) f))) (zip l (map ENum ds)) e0) =
        ev (x_point cs) e0 + fold_right Rplus 0 (map (fun sd => snd sd * ev (x_point cs) (ediff (fst sd) f)) (combine l ds))).
    { clear e D L. induction ds as [|d ds IH]; intros [|s l] e0 He; simpl; try (split; [exact He|ring]; fail).
      destruct (IH l (EAdd e0 (EMul (ENum d) (ediff s f)))) as [I1 I2].
      - intros s0 [H0|[[]|H0]]; [apply He; exact H0|]. apply Hs. exact (occurs_diff _ _ _ H0).
      - split; [exact I1|]. rewrite I2. simpl. ring. }
    destruct (G x_symbols (ENum 0)) as [G1 G2]; [intros s []|].
    intros p. rewrite sub_at_value by exact G1. unfold e. rewrite G2. unfold direction_sum. simpl (ev _ (ENum 0)). ring.
  - split; [intros ->; exact D|]. intros H. rewrite <- (is_derive_unique _ _ _ H). apply is_derive_unique in D. exact D.
Qed.

(** Inner products at points. *)
Lemma vec_dot_ev v w : length v = length w ->
  exists e, vec_dot v w = Ok e /\ forall p, ev p e = inner (map (ev p) v) (map (ev p) w).
Proof.
  intros L. unfold vec_dot. rewrite L, Nat.eqb_refl. eexists. split; [reflexivity|]. intros p.
  assert (G : forall e0, ev p (fold_left (fun out p => EAdd out (EMul (fst p) (snd p))) (zip v w) e0) = ev p e0 + inner (map (ev p) v) (map (ev p) w)).
  { clear L. revert w. induction v as [|a v IH]; intros [|b w] e0; unfold inner in *; simpl; try ring. rewrite IH. simpl. ring. }
  rewrite G. simpl. ring.
Qed.

Lemma map_sub_value p cs v : Forall (symbols_in (firstn (length cs) x_symbols)) v ->
  map (ev p) (map (sub_at (map ENum cs)) v) = map (ev (x_point cs)) v.
Proof. intros H. rewrite map_map. apply map_ext_in. intros e He. apply sub_at_value. rewrite Forall_forall in H. exact (H e He). Qed.

Lemma dot_point_evaluation v w cs : length v = length w -> Forall (symbols_in (firstn (length cs) x_symbols)) v ->
  Forall (symbols_in (firstn (length cs) x_symbols)) w ->
  forall u, evaluates (DotPointEvaluation (map ENum cs) (FV w)) (FV v) u <->
    u = inner (map (ev (x_point cs)) v) (map (ev (x_point cs)) w).
Proof.
  intros L Hv Hw. destruct (vec_dot_ev (map (sub_at (map ENum cs)) v) (map (sub_at (map ENum cs)) w)) as [e [E1 E2]]; [rewrite !map_length; exact L|].
  apply (evaluates_S _ _ e).
  - cbn [eval_raw]. rewrite !at_point_V. cbn [rbind]. unfold f_dot. cbn [parse_function_input rbind]. rewrite E1. reflexivity.
  - intros p. rewrite E2, !map_sub_value by assumption. reflexivity.
Qed.

Lemma div_ev v : (length v <= 3)%nat -> Forall polynomial v ->
  exists e, f_div (FV v) = Ok (FS e) /\ (forall l, Forall (symbols_in l) v -> symbols_in l e) /\ forall p, divergence v p (ev p e).
Proof.
  intros L Hp. unfold f_div. eexists. split; [reflexivity|].
  assert (G : forall xs e0, (forall l, Forall (symbols_in l) v -> symbols_in l e0 -> symbols_in l (fold_left (fun out p => EAdd out (ediff (snd p) (fst p))) (zip v xs) e0)) /\
    forall p, exists ds, Forall2 (fun se d => is_derive (fun h => ev (set_var p (fst se) h) (snd se)) (p (fst se)) d) (combine xs v) ds /\
      ev p (fold_left (fun out p => EAdd out (ediff (snd p) (fst p))) (zip v xs) e0) = ev p e0 + fold_right Rplus 0 ds).
  { clear L. induction Hp as [|a v Ha _ IH]; intros [|s xs] e0.
    - split; [intros; assumption|]. intros p. exists []. split; [constructor|]. simpl. ring.
    - split; [intros; assumption|]. intros p. exists []. split; [constructor|]. simpl. ring.
    - split; [intros; assumption|]. intros p. exists []. split; [constructor|]. simpl. ring.
    - destruct (IH xs (EAdd e0 (ediff s a))) as [I1 I2]. split.
      + intros l Hl He. simpl. inversion Hl; subst. apply I1; [assumption|]. intros s0 [H0|H0]; [apply He; exact H0|].
        match goal with H : symbols_in l a |- _ => apply H end. exact (occurs_diff _ _ _ H0).
      + intros p. destruct (I2 p) as [ds [D1 D2]]. exists (ev p (ediff s a) :: ds). split.
        * simpl. constructor; [|exact D1]. apply (ediff_correct p s a). apply polynomial_smooth. exact Ha.
        * simpl. simpl in D2. rewrite D2. ring. }
  destruct (G x_symbols (ENum 0)) as [G1 G2]. split.
  - intros l Hl. apply G1; [exact Hl|]. intros s [].
  - intros p. destruct (G2 p) as [ds [D1 D2]]. exists ds. split; [exact D1|]. rewrite D2. simpl. ring.
Qed.

Lemma Forall2_unique {A} (P : A -> R -> Prop) l u v : (forall a x y, P a x -> P a y -> x = y) -> Forall2 P l u -> Forall2 P l v -> u = v.
Proof.
  intros H. revert u v. induction l as [|a l IH]; intros u v Hu Hv; inversion Hu; inversion Hv; subst; [reflexivity|].
  f_equal; [eapply H; eassumption|apply IH; assumption].
Qed.

Lemma divergence_unique v p a b : divergence v p a -> divergence v p b -> a = b.
Proof.
  intros [ds [H1 ->]] [ds' [H1' ->]]. f_equal. revert H1 H1'. apply Forall2_unique.
  intros se x y Hx Hy. rewrite <- (is_derive_unique _ _ _ Hx). apply is_derive_unique. exact Hy.
Qed.

Lemma divergence_point_evaluation v cs : (length v <= 3)%nat -> Forall polynomial v -> Forall (symbols_in (firstn (length cs) x_symbols)) v ->
  forall u, evaluates (PointDivergenceEvaluation (map ENum cs)) (FV v) u <-> divergence v (x_point cs) u.
Proof.
  intros L Hp Hs u. destruct (div_ev v L Hp) as [e [E1 [E2 E3]]].
  rewrite (evaluates_S _ _ (sub_at (map ENum cs) e)) with (w := ev (x_point cs) e).
  - split; [intros ->; apply E3|]. intros H. exact (divergence_unique _ _ _ _ H (E3 _)).
  - cbn [eval_raw]. rewrite E1. cbn [rbind]. rewrite at_point_S. reflexivity.
  - intros p. apply sub_at_value. apply E2. exact Hs.
Qed.

(** l^T M r. *)
Lemma inner_product_evaluation m cs l r : rectangular m -> length m = length l -> (forall row, In row m -> length row = length r) ->
  m <> [] -> Forall (Forall (symbols_in (firstn (length cs) x_symbols))) m ->
  forall u, evaluates (PointInnerProduct (map ENum cs) (map ENum l) (map ENum r)) (FM m) u <->
    u = inner l (map (fun row => inner (map (ev (x_point cs)) row) r) m).
Proof.
  intros Hr Hl Hrow Hne Hs.
  set (m' := map (map (sub_at (map ENum cs))) m).
  assert (Hr' : rectangular m') by (apply rect_map_map; exact Hr).
  assert (S : fst (mat_shape m') = length m /\ snd (mat_shape m') = length r).
  { unfold mat_shape. unfold m'. rewrite map_length. split; [reflexivity|]. destruct m as [|row m0]; [contradiction|].
    simpl. rewrite map_length. apply Hrow. left. reflexivity. }
  destruct S as [S1 S2].
  assert (W : exists w, fun_of (py_matmul (PFun (FM m')) (PFun (FV (map ENum r)))) = Ok (FV w) /\ length w = length m /\
    forall p, map (ev p) w = map (fun row => inner (map (ev (x_point cs)) row) r) m).
  { unfold py_matmul, f_matmul, f_rmatmul. cbn [same_class finish fun_of rbind]. rewrite S1, S2, map_length, Nat.eqb_refl.
    assert (G : forall k, (k <= length m)%nat -> exists w, map_res (fun i => rbind (mat_row m' i) (fun row => vec_dot row (map ENum r))) (range k) = Ok w /\
      length w = k /\ forall p, map (ev p) w = map (fun row => inner (map (ev (x_point cs)) row) r) (firstn k m)).
    { intros k. unfold range. induction k as [|k IH]; intros Hk.
      - exists []. repeat split.
      - destruct IH as [w [W1 [W2 W3]]]; [lia|]. rewrite seq_S. cbn [Nat.add].
        assert (Happ : forall {A B} (f : A -> res B) l1 l2 r1 r2, map_res f l1 = Ok r1 -> map_res f l2 = Ok r2 -> map_res f (l1 ++ l2) = Ok (r1 ++ r2)).
        { clear. intros A B f. induction l1 as [|a l1 IH]; intros l2 r1 r2 H1 H2; simpl in *; [injection H1 as <-; exact H2|].
          destruct (f a) as [b|]; [|discriminate]. simpl in *. destruct (map_res f l1) as [q|] eqn:E; [|discriminate]. simpl in *. injection H1 as <-.
          rewrite (IH l2 q r2 eq_refl H2). reflexivity. }
        destruct (nth_error m k) as [row|] eqn:Ek; [|apply nth_error_None in Ek; lia].
        assert (Ek' : nth_error m' k = Some (map (sub_at (map ENum cs)) row)) by (unfold m'; apply map_nth_error; exact Ek).
        pose proof (nth_error_In _ _ Ek) as Hin.
        assert (Emr : mat_row m' k = Ok (map (sub_at (map ENum cs)) row)) by (apply mat_row_value; assumption).
        destruct (vec_dot_ev (map (sub_at (map ENum cs)) row) (map ENum r)) as [e [V1 V2]]; [rewrite !map_length; apply Hrow; exact Hin|].
        exists (w ++ [e]). split; [|split].
        + apply Happ; [exact W1|]. cbn [map_res]. rewrite Emr. cbn [rbind]. rewrite V1. reflexivity.
        + rewrite app_length, W2. simpl. lia.
        + intros p. rewrite map_app, W3. cbn [map]. rewrite V2, ev_nums.
          rewrite map_sub_value by (rewrite Forall_forall in Hs; apply Hs; exact Hin).
          replace (firstn (S k) m) with (firstn k m ++ [row]); [rewrite map_app; reflexivity|].
          clear - Ek. revert k Ek. induction m as [|r0 m IH]; intros [|k] Ek; simpl in *; try discriminate; [injection Ek as ->; reflexivity|].
          f_equal. apply IH. exact Ek. }
    destruct (G (length m)) as [w [W1 [W2 W3]]]; [lia|]. rewrite W1. exists w. split; [reflexivity|]. split; [exact W2|].
    intros p. rewrite W3, firstn_all. reflexivity. }
  destruct W as [w [W1 [W2 W3]]]. destruct (vec_dot_ev (map ENum l) w) as [e [V1 V2]]; [rewrite map_length; congruence|].
  apply (evaluates_S _ _ e).
  - cbn [eval_raw]. rewrite at_point_M by exact Hr. cbn [rbind]. fold m'. rewrite W1. cbn [rbind]. unfold f_dot. cbn [parse_function_input rbind].
    rewrite V1. reflexivity.
  - intros p. rewrite V2, ev_nums, W3. reflexivity.
Qed.

(** Integral moments. *)
Lemma columns1 term o a0 : length a0 = length o ->
  forall p, map (ev p) (add_columns term o (ReferencesModel.zip_star [a0])) =
    map (fun i => nth i o 0 + ev p (term (nth i a0 0) "t0"%string)) (seq 0 (length o)).
Proof.
  intros L p. simpl. revert a0 L. induction o as [|c o IH]; intros [|a a0] L; try discriminate; [reflexivity|].
  simpl. f_equal. rewrite <- seq_shift, map_map. rewrite IH by (simpl in L; congruence). reflexivity.
Qed.
Lemma columns2 term o a0 a1 : length a0 = length o -> length a1 = length o ->
  forall p, map (ev p) (add_columns term o (ReferencesModel.zip_star [a0; a1])) =
    map (fun i => nth i o 0 + ev p (term (nth i a0 0) "t0"%string) + ev p (term (nth i a1 0) "t1"%string)) (seq 0 (length o)).
Proof.
  intros L L1 p. simpl. revert a0 a1 L L1. induction o as [|c o IH]; intros [|a a0] [|b a1] L L1; try discriminate; [reflexivity|].
  simpl. f_equal. rewrite <- seq_shift, map_map. rewrite IH by (simpl in *; congruence). reflexivity.
Qed.
Lemma columns3 term o a0 a1 a2 : length a0 = length o -> length a1 = length o -> length a2 = length o ->
  forall p, map (ev p) (add_columns term o (ReferencesModel.zip_star [a0; a1; a2])) =
    map (fun i => nth i o 0 + ev p (term (nth i a0 0) "t0"%string) + ev p (term (nth i a1 0) "t1"%string) + ev p (term (nth i a2 0) "t2"%string)) (seq 0 (length o)).
Proof.
  intros L L1 L2 p. simpl. revert a0 a1 a2 L L1 L2. induction o as [|c o IH]; intros [|a a0] [|b a1] [|d a2] L L1 L2; try discriminate; [reflexivity|].
  simpl. f_equal. rewrite <- seq_shift, map_map. rewrite IH by (simpl in *; congruence). reflexivity.
Qed.

(** The symbols t0, t1, t2 have the values tv. *)
Definition t_values (q : env) (tv : nat -> R) : Prop := q "t0"%string = tv 0%nat /\ q "t1"%string = tv 1%nat /\ q "t2"%string = tv 2%nat.

Lemma with_t_values p tv : t_values (with_t p tv) tv.
Proof. repeat split. Qed.

Lemma columns_placed term origin axes q tv : t_values q tv ->
  (forall a s, ev q (term a s) = q s * a) ->
  (1 <= length axes <= 3)%nat -> Forall (fun a => length a = length origin) axes ->
  map (ev q) (add_columns term origin (ReferencesModel.zip_star axes)) = placed origin axes tv.
Proof.
  intros [T0 [T1 T2]] Ht L F. destruct axes as [|a0 [|a1 [|a2 [|]]]]; simpl in L; try lia;
    repeat match goal with H : Forall _ (_ :: _) |- _ => apply Forall_inv in H as ?; apply Forall_inv_tail in H end.
  - rewrite columns1 by assumption. unfold placed. apply map_ext. intros i. rewrite !Ht, T0. simpl. ring.
  - rewrite columns2 by assumption. unfold placed. apply map_ext. intros i. rewrite !Ht, T0, T1. simpl. ring.
  - rewrite columns3 by assumption. unfold placed. apply map_ext. intros i. rewrite !Ht, T0, T1, T2. simpl. ring.
Qed.

Lemma columns_occurs term origin cols : (forall a s s', occurs s' (term a s) -> s' = s) ->
  Forall (symbols_in t_symbols) (add_columns term origin cols).
Proof.
  intros Ht. revert cols. induction origin as [|o os IH]; intros [|c cs]; simpl.
  - constructor.
  - constructor.
  - constructor; [intros s []|]. apply Forall_forall. intros e He. apply in_map_iff in He. destruct He as [r [<- _]]. intros s [].
  - constructor; [|apply IH].
    assert (G : forall c ts e, symbols_in t_symbols e -> (forall s, In s ts -> In s t_symbols) ->
      symbols_in t_symbols (fold_left (fun e jk => EAdd e (term (fst jk) (snd jk))) (zip c ts) e)).
    { clear - Ht. induction c as [|a c IH]; intros [|s ts] e He Hi; simpl; try exact He.
      apply IH; [|intros s' Hs; apply Hi; right; exact Hs]. intros s' [H|H]; [exact (He _ H)|]. rewrite (Ht _ _ _ H). apply Hi. left. reflexivity. }
    apply (G c t_symbols); [intros s []|trivial].
Qed.

Lemma symbols_t_no_dummy e : symbols_in t_symbols e -> no_dummy e.
Proof. intros H i Hi. apply H in Hi. exact (t_not_dummy _ i Hi eq_refl). Qed.

Lemma length_columns term origin cols : length (add_columns term origin cols) = length origin.
Proof. revert cols. induction origin as [|o os IH]; intros [|c cs]; simpl; auto; rewrite ?map_length; auto. Qed.

(** The value of the substituted integrand. *)
Lemma sub_at_placed domain f q tv : t_values q tv -> (1 <= length (r_axes domain) <= 3)%nat ->
  Forall (fun a => length a = length (r_origin domain)) (r_axes domain) ->
  symbols_in (firstn (length (r_origin domain)) x_symbols) f ->
  ev q (sub_at (point_of domain) f) = ev (x_point (placed (r_origin domain) (r_axes domain) tv)) f.
Proof.
  intros T L F H.
  assert (A : Forall (symbols_in t_symbols) (point_of domain)).
  { apply columns_occurs. intros a s s' [[]|H']. exact H'. }
  destruct (subs_at q f (point_of domain) (in_symbols_x _ _ H)) as [h [E1 E2]].
  { apply Forall_impl with (2 := A). intros e. apply symbols_t_no_dummy. }
  rewrite subs_expr_at in E1. injection E1 as <-. rewrite E2.
  unfold point_of. rewrite (columns_placed _ _ _ q tv T); [|intros; simpl; ring|exact L|exact F].
  apply ev_ext. intros s Hs. apply assign_covered. apply H in Hs.
  unfold placed. rewrite map_length, seq_length. exact Hs.
Qed.

(** The symbols that are not substituted keep their values. *)
Lemma fold_esubs_keeps l p : exists q, (forall e, ev p (fold_left (fun e (sv : sym * expr) => esubs (fst sv) (snd sv) e) l e) = ev q e) /\
  forall s, ~ In s (map fst l) -> q s = p s.
Proof.
  revert p. induction l as [|[s v] l IH]; intros p; [exists p; split; reflexivity|].
  destruct (IH p) as [q [Hq Hk]]. exists (upd q s (ev q v)). split.
  - intros e. cbn [fold_left fst snd]. rewrite Hq. apply ev_esubs.
  - intros s' Hs. simpl in Hs. rewrite upd_other by tauto. apply Hk. tauto.
Qed.

Lemma fst_zip {A B} (l : list A) (m : list B) x : In x (map fst (zip l m)) -> In x l.
Proof. rewrite zip_combine. intros H. apply in_map_iff in H. destruct H as [[a b] [<- H]]. exact (in_combine_l _ _ _ _ H). Qed.

Lemma jacobian_axes domain j : ReferencesModel.jacobian domain = Ok j -> (1 <= length (r_axes domain) <= 3)%nat.
Proof.
  unfold ReferencesModel.jacobian. destruct (Nat.eqb _ _); [|discriminate].
  destruct (ReferencesModel.tdim _) as [|[|[|[|n]]]]; try discriminate;
    destruct (ReferencesModel.r_axes domain) as [|a0 [|a1 [|a2 [|]]]]; try discriminate; simpl; lia.
Qed.

Lemma limits_not_point c l : ReferencesModel.integration_limits c = Ok l -> c <> ReferencesModel.CPoint.
Proof. intros H ->. discriminate H. Qed.

(** The integral of an integrand whose value depends on t only. *)
Lemma integral_value e domain lims j (F : (nat -> R) -> R) d f :
  ReferencesModel.integration_limits (r_type domain) = Ok lims -> ReferencesModel.jacobian domain = Ok j ->
  Forall (fun a => length a = length (r_origin domain)) (r_axes domain) ->
  (forall q tv, t_values q tv -> ev q e = F tv) ->
  eval_raw d f = f_integral (FS e) domain ->
  forall v, evaluates d f v <-> integrates lims (fun tv => F tv * j) v.
Proof.
  intros Hl Hj Hf HF Hd v. unfold evaluates, eval_symbolic. rewrite Hd. unfold f_integral, integral.
  pose proof (limits_not_point _ _ Hl) as Np.
  assert (P : integral_point domain = Ok (add_columns (fun a ti => EMul (ESym ti) (ENum a)) (r_origin domain) (ReferencesModel.zip_star (r_axes domain)))).
  { unfold integral_point. replace (forallb _ _) with true; [reflexivity|]. symmetry. apply forallb_forall. intros a Ha. apply in_firstn in Ha.
    rewrite Forall_forall in Hf. apply Nat.eqb_eq. exact (Hf a Ha). }
  assert (E : rmap (fun el => Integral (fst el) (snd el))
     match r_type domain with
     | ReferencesModel.CPoint => Err AssertionError
     | c => rbind (ReferencesModel.integration_limits c) (fun limits => rbind (integral_point domain) (fun point =>
         rbind (ReferencesModel.jacobian domain) (fun j => Ok (EMul (fold_left (fun e vp => esubs (fst vp) (snd vp) e) (zip x_symbols point) e) (ENum j), limits))))
     end = Ok (Integral (EMul (fold_left (fun e vp => esubs (fst vp) (snd vp) e) (zip x_symbols
        (add_columns (fun a ti => EMul (ESym ti) (ENum a)) (r_origin domain) (ReferencesModel.zip_star (r_axes domain)))) e) (ENum j)) lims)).
  { rewrite P, Hj. destruct (r_type domain); try contradiction; rewrite Hl; reflexivity. }
  rewrite E. cbn [rbind].
  set (pt := add_columns _ _ _).
  assert (V : forall p tv, ev (with_t p tv) (EMul (fold_left (fun e vp => esubs (fst vp) (snd vp) e) (zip x_symbols pt) e) (ENum j)) = F tv * j).
  { intros p tv. cbn [ev]. f_equal. destruct (fold_esubs_keeps (zip x_symbols pt) (with_t p tv)) as [q [Hq Hk]]. rewrite Hq. apply HF.
    assert (K : forall s, In s t_symbols -> q s = with_t p tv s).
    { intros s Hs. apply Hk. intros Hin. apply fst_zip in Hin. simpl in Hs, Hin. intuition (subst; discriminate). }
    unfold t_values. rewrite !K by (simpl; tauto). apply with_t_values. }
  split.
  - intros H. apply integrates_ext with (2 := H (fun _ => 0)). intros tv. apply V.
  - intros H p. apply integrates_ext with (2 := H). intros tv. symmetry. apply V.
Qed.

Lemma t_symbols_value g q tv : t_values q tv -> symbols_in t_symbols g -> ev q g = ev (t_point tv) g.
Proof.
  intros [T0 [T1 T2]] H. apply ev_ext. intros s Hs. apply H in Hs. simpl in Hs. intuition (subst; unfold t_point, assign, t_symbols, upd; simpl; assumption).
Qed.

Lemma integral_moment_scalar domain lims j f g :
  ReferencesModel.integration_limits (r_type domain) = Ok lims -> ReferencesModel.jacobian domain = Ok j ->
  Forall (fun a => length a = length (r_origin domain)) (r_axes domain) ->
  symbols_in (firstn (length (r_origin domain)) x_symbols) f -> symbols_in t_symbols g ->
  forall v, evaluates (IntegralMoment domain (FS g)) (FS f) v <->
    integrates lims (fun tv => ev (x_point (placed (r_origin domain) (r_axes domain) tv)) f * ev (t_point tv) g * j) v.
Proof.
  intros Hl Hj Hf Sf Sg. apply (integral_value (EMul (sub_at (point_of domain) f) g) domain lims j); auto.
  - intros q tv T. cbn [ev]. rewrite (sub_at_placed domain f q tv T (jacobian_axes _ _ Hj) Hf Sf), (t_symbols_value g q tv T Sg). reflexivity.
  - cbn [eval_raw]. rewrite at_point_S. reflexivity.
Qed.

Lemma integral_moment_vector domain lims j f g : length f = length g ->
  ReferencesModel.integration_limits (r_type domain) = Ok lims -> ReferencesModel.jacobian domain = Ok j ->
  Forall (fun a => length a = length (r_origin domain)) (r_axes domain) ->
  Forall (symbols_in (firstn (length (r_origin domain)) x_symbols)) f -> Forall (symbols_in t_symbols) g ->
  forall v, evaluates (IntegralMoment domain (FV g)) (FV f) v <->
    integrates lims (fun tv => inner (map (ev (x_point (placed (r_origin domain) (r_axes domain) tv))) f) (map (ev (t_point tv)) g) * j) v.
Proof.
  intros L Hl Hj Hf Sf Sg. destruct (vec_dot_ev (map (sub_at (point_of domain)) f) g) as [e [E1 E2]]; [rewrite map_length; exact L|].
  apply (integral_value e domain lims j); auto.
  - intros q tv T. rewrite E2. f_equal.
    + rewrite map_map. apply map_ext_in. intros a Ha. rewrite Forall_forall in Sf. apply (sub_at_placed domain a q tv T (jacobian_axes _ _ Hj) Hf (Sf a Ha)).
    + apply map_ext_in. intros a Ha. rewrite Forall_forall in Sg. apply (t_symbols_value a q tv T (Sg a Ha)).
  - cbn [eval_raw]. rewrite at_point_V. cbn [rbind]. unfold f_dot. cbn [parse_function_input rbind]. rewrite E1. reflexivity.
Qed.

(** Moments of derivatives. *)
Lemma divergence_moment domain lims j f g : (length f <= 3)%nat -> Forall polynomial f ->
  ReferencesModel.integration_limits (r_type domain) = Ok lims -> ReferencesModel.jacobian domain = Ok j ->
  Forall (fun a => length a = length (r_origin domain)) (r_axes domain) ->
  Forall (symbols_in (firstn (length (r_origin domain)) x_symbols)) f -> symbols_in t_symbols g ->
  exists div : env -> R, (forall p, divergence f p (div p)) /\
  forall d, d = DivergenceIntegralMoment domain (FS g) \/ d = IntegralOfDivergenceAgainst domain (FS g) ->
  forall v, evaluates d (FV f) v <->
    integrates lims (fun tv => div (x_point (placed (r_origin domain) (r_axes domain) tv)) * ev (t_point tv) g * j) v.
Proof.
  intros L Hp Hl Hj Hf Sf Sg. destruct (div_ev f L Hp) as [e [E1 [E2 E3]]]. exists (fun p => ev p e). split; [exact E3|].
  intros d Hd. apply (integral_value (EMul (sub_at (point_of domain) e) g) domain lims j); auto.
  - intros q tv T. cbn [ev]. rewrite (sub_at_placed domain e q tv T (jacobian_axes _ _ Hj) Hf (E2 _ Sf)), (t_symbols_value g q tv T Sg). reflexivity.
  - destruct Hd as [-> | ->]; cbn [eval_raw is_vector check]; rewrite E1; cbn [rbind]; rewrite at_point_S; reflexivity.
Qed.

Lemma matmul_ev m r : rectangular m -> snd (mat_shape m) = length r ->
  exists w, fun_of (py_matmul (PFun (FM m)) (PFun (FV r))) = Ok (FV w) /\ length w = length m /\
    forall p, map (ev p) w = map (fun row => inner (map (ev p) row) (map (ev p) r)) m.
Proof.
  intros Hr L. destruct (mat_vec_value (fun _ => 0) m r Hr L) as [w [E [E2 _]]]. exists w. rewrite E. split; [reflexivity|].
  split; [rewrite map_map in E2; rewrite <- (map_length (ev (fun _ => 0)) w), E2, map_length; reflexivity|].
  intros p. destruct (mat_vec_value p m r Hr L) as [w' [E' [E2' _]]]. rewrite E in E'. injection E' as <-. rewrite E2', map_map. reflexivity.
Qed.

Lemma inner_moment domain lims j m g l r : rectangular m -> length l = length m -> snd (mat_shape m) = length r ->
  ReferencesModel.integration_limits (r_type domain) = Ok lims -> ReferencesModel.jacobian domain = Ok j ->
  Forall (fun a => length a = length (r_origin domain)) (r_axes domain) ->
  Forall (Forall (symbols_in (firstn (length (r_origin domain)) x_symbols))) m -> symbols_in t_symbols g ->
  forall v, evaluates (InnerProductIntegralMoment domain (FS g) (map ENum l) (map ENum r)) (FM m) v <->
    integrates lims (fun tv => inner l (map (fun row => inner (map (ev (x_point (placed (r_origin domain) (r_axes domain) tv))) row) r) m)
                               * ev (t_point tv) g * j * j) v.
Proof.
  intros Hr Ll Lr Hl Hj Hf Sf Sg. set (m' := map (map (sub_at (point_of domain))) m).
  assert (Hr' : rectangular m') by (apply rect_map_map; exact Hr).
  destruct (matmul_ev m' (map ENum r) Hr') as [w [W1 [W2 W3]]].
  { rewrite map_length, <- Lr. unfold m', mat_shape. cbn [snd]. destruct m as [|row m0]; [reflexivity|]. simpl. apply map_length. }
  destruct (vec_dot_ev (map ENum l) w) as [e [E1 E2]]; [rewrite map_length, W2; unfold m'; rewrite map_length; exact Ll|].
  apply (integral_value (EMul (EMul e g) (ENum j)) domain lims j); auto.
  - intros q tv T. cbn [ev]. rewrite E2, W3, !ev_nums, (t_symbols_value g q tv T Sg). do 3 f_equal. unfold m'. rewrite map_map. apply map_ext_in.
    intros row Hrow. f_equal. rewrite map_map. apply map_ext_in. intros a Ha. rewrite Forall_forall in Sf. specialize (Sf row Hrow). rewrite Forall_forall in Sf.
    apply (sub_at_placed domain a q tv T (jacobian_axes _ _ Hj) Hf (Sf a Ha)).
  - cbn [eval_raw]. rewrite at_point_M by exact Hr. cbn [rbind is_matrix check]. fold m'. rewrite W1. cbn [rbind]. unfold f_dot.
    cbn [parse_function_input rbind]. rewrite E1. cbn [rmap rbind]. rewrite Hj. reflexivity.
Qed.

(** Integrals of polynomials over cells exist. *)
Inductive poly_in (V : nat -> Prop) : ((nat -> R) -> R) -> Prop :=
| poly_const c : poly_in V (fun _ => c)
| poly_var i : V i -> poly_in V (fun e => e i)
| poly_add F G : poly_in V F -> poly_in V G -> poly_in V (fun e => F e + G e)
| poly_mul F G : poly_in V F -> poly_in V G -> poly_in V (fun e => F e * G e)
| poly_ext F G : (forall e, F e = G e) -> poly_in V F -> poly_in V G.

Lemma poly_weaken (V W : nat -> Prop) F : (forall i, V i -> W i) -> poly_in V F -> poly_in W F.
Proof. intros H. induction 1; try (constructor; auto; fail). apply (poly_ext W F G); auto. Qed.

Lemma poly_pow V F n : poly_in V F -> poly_in V (fun e => F e ^ n).
Proof. intros H. induction n as [|n IH]; simpl; [apply poly_const|apply poly_mul; assumption]. Qed.

(** A polynomial in one variable with coefficients. *)
Definition horner (cs : list ((nat -> R) -> R)) (e : nat -> R) (s : R) : R :=
  fold_right (fun c acc => c e + s * acc) 0 cs.

Fixpoint add_coeffs (c d : list ((nat -> R) -> R)) : list ((nat -> R) -> R) :=
  match c, d with
  | [], _ => d
  | _, [] => c
  | a :: c', b :: d' => (fun e => a e + b e) :: add_coeffs c' d'
  end.
Fixpoint mul_coeffs (c d : list ((nat -> R) -> R)) : list ((nat -> R) -> R) :=
  match c with
  | [] => []
  | a :: c' => add_coeffs (map (fun b e => a e * b e) d) ((fun _ => 0) :: mul_coeffs c' d)
  end.

Lemma add_coeffs_ok V c d e s : Forall (poly_in V) c -> Forall (poly_in V) d ->
  Forall (poly_in V) (add_coeffs c d) /\ horner (add_coeffs c d) e s = horner c e s + horner d e s.
Proof.
  intros Hc. revert d. induction Hc as [|a c Ha Hc IH]; intros d Hd; simpl; [split; [exact Hd|ring]|].
  destruct Hd as [|b d Hb Hd]; simpl; [split; [constructor; assumption|ring]|]. destruct (IH d Hd) as [I1 I2]. split.
  - constructor; [apply poly_add; assumption|exact I1].
  - rewrite I2. ring.
Qed.
Lemma scale_coeffs a c e s : horner (map (fun b e => a e * b e) c) e s = a e * horner c e s.
Proof. induction c as [|b c IH]; simpl; [ring|]. rewrite IH. ring. Qed.
Lemma mul_coeffs_ok V c d e s : Forall (poly_in V) c -> Forall (poly_in V) d ->
  Forall (poly_in V) (mul_coeffs c d) /\ horner (mul_coeffs c d) e s = horner c e s * horner d e s.
Proof.
  intros Hc Hd. induction Hc as [|a c Ha Hc [I1 I2]]; cbn [mul_coeffs]; [split; [constructor|simpl; ring]|].
  assert (M : Forall (poly_in V) (map (fun b e => a e * b e) d)).
  { apply Forall_forall. intros x Hx. apply in_map_iff in Hx. destruct Hx as [b [<- Hb]]. apply poly_mul; [exact Ha|]. rewrite Forall_forall in Hd. exact (Hd b Hb). }
  destruct (add_coeffs_ok V (map (fun b e => a e * b e) d) ((fun _ => 0) :: mul_coeffs c d) e s) as [A1 A2]; [exact M|constructor; [apply poly_const|exact I1]|].
  split; [exact A1|]. rewrite A2, scale_coeffs. simpl. rewrite I2. ring.
Qed.

Lemma poly_coeffs (V : nat -> Prop) v F : poly_in V F -> exists cs, Forall (poly_in (fun i => V i /\ i <> v)) cs /\
  forall e s, F (fun i => if Nat.eqb i v then s else e i) = horner cs e s.
Proof.
  induction 1 as [c|i Hi|F G _ [c [C1 C2]] _ [d [D1 D2]]|F G _ [c [C1 C2]] _ [d [D1 D2]]|F G E _ [c [C1 C2]]].
  - exists [fun _ => c]. split; [constructor; [apply poly_const|constructor]|]. intros. simpl. ring.
  - destruct (Nat.eqb_spec i v) as [->|N].
    + exists [fun _ => 0; fun _ => 1]. split; [repeat (apply Forall_cons; [apply poly_const|]); constructor|]. intros. simpl. ring.
    + exists [fun e => e i]. split; [constructor; [apply poly_var; auto|constructor]|]. intros. simpl. ring.
  - exists (add_coeffs c d). split; [apply (add_coeffs_ok _ c d (fun _ => 0) 0 C1 D1)|]. intros e s.
    rewrite C2, D2. symmetry. apply (add_coeffs_ok _ c d e s C1 D1).
  - exists (mul_coeffs c d). split; [apply (mul_coeffs_ok _ c d (fun _ => 0) 0 C1 D1)|]. intros e s.
    rewrite C2, D2. symmetry. apply (mul_coeffs_ok _ c d e s C1 D1).
  - exists c. split; [exact C1|]. intros e s. rewrite <- E. apply C2.
Qed.

(** The antiderivative of c_0 s^k + c_1 s^(k+1) + ... *)
Fixpoint primitive (k : nat) (cs : list ((nat -> R) -> R)) (e : nat -> R) (s : R) : R :=
  match cs with [] => 0 | c :: cs' => c e * (s ^ S k / INR (S k)) + primitive (S k) cs' e s end.

Lemma primitive_derive cs e : forall k s, is_derive (primitive k cs e) s (s ^ k * horner cs e s).
Proof.
  induction cs as [|c cs IH]; intros k s.
  - simpl. rewrite Rmult_0_r. apply @is_derive_const.
  - cbn [primitive]. simpl (horner (c :: cs) e s).
    replace (s ^ k * (c e + s * horner cs e s)) with (plus (c e * s ^ k) (s ^ S k * horner cs e s)) by (unfold plus; simpl; ring).
    apply (is_derive_plus (fun s => c e * (s ^ S k / INR (S k))) (primitive (S k) cs e)); [|apply IH].
    assert (INR (S k) <> 0) by (apply not_0_INR; discriminate).
    apply (is_derive_ext (fun s => c e / INR (S k) * s ^ S k)); [intros t; change (c e / INR (S k) * t ^ S k = c e * (t ^ S k / INR (S k))); field; assumption|].
    replace (c e * s ^ k) with (c e / INR (S k) * (INR (S k) * 1 * s ^ k)) by (field; assumption).
    apply (is_derive_scal (fun s => s ^ S k) s (c e / INR (S k))). apply (is_derive_pow (fun s => s) (S k) s 1). apply @is_derive_id.
Qed.

Lemma primitive_poly W cs F k : Forall (poly_in W) cs -> poly_in W F -> poly_in W (fun e => primitive k cs e (F e)).
Proof.
  intros Hc HF. revert k. induction Hc as [|c cs Hc _ IH]; intros k; cbn [primitive]; [apply poly_const|].
  apply poly_add; [|apply IH]. apply poly_mul; [exact Hc|]. apply (poly_mul W (fun e => F e ^ S k) (fun _ => / INR (S k))); [apply poly_pow; exact HF|apply poly_const].
Qed.

Lemma horner_continuous cs e s : continuous (horner cs e) s.
Proof.
  induction cs as [|c cs IH]; [apply continuous_const|].
  apply (continuous_plus (fun _ => c e) (fun s => s * horner cs e s)); [apply continuous_const|].
  apply (continuous_mult (fun s => s) (horner cs e)); [apply continuous_id|exact IH].
Qed.

(** Limits that use only variables integrated later. *)
Fixpoint good_limits (V : nat -> Prop) (lims : list ReferencesModel.limit) : Prop :=
  match lims with
  | [] => forall i, ~ V i
  | (v, lo, hi) :: ls => let W := fun i => V i /\ i <> v in poly_in W lo /\ poly_in W hi /\ good_limits W ls
  end.

Lemma poly_integrates V lims F : good_limits V lims -> poly_in V F -> exists v, integrates lims F v.
Proof.
  revert V F. induction lims as [|[[v lo] hi] lims IH]; intros V F HL HF; simpl in *.
  - assert (C : exists c, forall e, F e = c).
    { induction HF as [c|i Hi|F G _ [c C] _ [d D]|F G _ [c C] _ [d D]|F G E _ [c C]].
      - exists c. reflexivity.
      - destruct (HL i Hi).
      - exists (c + d). intros e. rewrite C, D. reflexivity.
      - exists (c * d). intros e. rewrite C, D. reflexivity.
      - exists c. intros e. rewrite <- E. apply C. }
    exact C.
  - destruct HL as [Hlo [Hhi HL]]. destruct (poly_coeffs V v F HF) as [cs [C1 C2]].
    set (G := fun e => primitive 0 cs e (hi e) - primitive 0 cs e (lo e)).
    destruct (IH _ G HL) as [w Hw].
    + apply (poly_ext _ (fun e => primitive 0 cs e (hi e) + (-1) * primitive 0 cs e (lo e))); [intros e; unfold G; ring|].
      apply poly_add; [apply primitive_poly; assumption|]. apply poly_mul; [apply poly_const|apply primitive_poly; assumption].
    + exists w, G. split; [|exact Hw]. intros e. apply (is_RInt_ext (horner cs e)); [intros s _; symmetry; apply C2|].
      apply (is_RInt_derive (primitive 0 cs e) (horner cs e)).
      * intros s _. pose proof (primitive_derive cs e 0 s) as D. simpl pow in D. rewrite Rmult_1_l in D. exact D.
      * intros s _. apply horner_continuous.
Qed.

Lemma poly_in_expr V e q : polynomial e -> (forall s, occurs s e -> poly_in V (fun tv => q tv s)) -> poly_in V (fun tv => ev (q tv) e).
Proof.
  induction e; simpl; intros Hp Hq; try contradiction.
  - apply poly_const.
  - apply Hq. reflexivity.
  - apply poly_add; [apply IHe1|apply IHe2]; try tauto; intros; apply Hq; tauto.
  - apply poly_mul; [apply IHe1|apply IHe2]; try tauto; intros; apply Hq; tauto.
  - apply poly_pow. apply IHe; auto.
Qed.

Lemma good_cell_limits c lims : ReferencesModel.integration_limits c = Ok lims -> good_limits (fun i => (i < ReferencesModel.tdim c)%nat) lims.
Proof.
  intros H. destruct c; simpl in H; try discriminate; injection H as <-; cbn [good_limits ReferencesModel.tdim];
    repeat split; try lia; try apply poly_const.
  all: repeat first
    [ apply (poly_ext _ (fun e => 1 + (-1) * e 0%nat)); [intros; ring|]; apply poly_add; [apply poly_const|]; apply poly_mul; [apply poly_const|]; apply poly_var; lia
    | apply (poly_ext _ (fun e => 1 + (-1) * e 2%nat)); [intros; ring|]; apply poly_add; [apply poly_const|]; apply poly_mul; [apply poly_const|]; apply poly_var; lia
    | apply (poly_ext _ (fun e => 1 + ((-1) * e 1%nat + (-1) * e 2%nat))); [intros; ring|]; apply poly_add; [apply poly_const|];
      apply poly_add; (apply poly_mul; [apply poly_const|]; apply poly_var; lia) ].
Qed.

Lemma x_point_nth s : In s x_symbols -> exists i, forall cs, x_point cs s = nth i cs 0.
Proof.
  simpl. intros [<-|[<-|[<-|[]]]]; [exists 0%nat|exists 1%nat|exists 2%nat]; intros [|c0 [|c1 [|c2 cs']]]; unfold x_point, x_symbols, assign, upd; simpl; reflexivity.
Qed.

Lemma poly_sum V (l : list nat) (F : nat -> (nat -> R) -> R) : (forall j, In j l -> poly_in V (F j)) ->
  poly_in V (fun tv => fold_right Rplus 0 (map (fun j => F j tv) l)).
Proof.
  induction l as [|j l IH]; intros H; simpl; [apply poly_const|]. apply poly_add; [apply H; left; reflexivity|].
  apply IH. intros i Hi. apply H. right. exact Hi.
Qed.

Lemma nth_map_seq (F : nat -> R) n i : (i < n)%nat -> nth i (map F (seq 0 n)) 0 = F i.
Proof.
  intros H. rewrite (nth_indep (map F (seq 0 n)) 0 (F 0%nat)) by (rewrite map_length, seq_length; exact H).
  rewrite map_nth, seq_nth by exact H. reflexivity.
Qed.

Lemma poly_placed o axes i : poly_in (fun j => (j < length axes)%nat) (fun tv => nth i (placed o axes tv) 0).
Proof.
  unfold placed. destruct (Nat.lt_ge_cases i (length o)) as [H|H].
  - apply (poly_ext _ (fun tv => nth i o 0 + fold_right Rplus 0 (map (fun j => tv j * nth i (nth j axes []) 0) (seq 0 (length axes))))).
    + intros tv. symmetry. apply (nth_map_seq (fun i => nth i o 0 + fold_right Rplus 0 (map (fun j => tv j * nth i (nth j axes []) 0) (seq 0 (length axes))))). exact H.
    + apply poly_add; [apply poly_const|]. apply (poly_sum _ _ (fun j tv => tv j * nth i (nth j axes []) 0)). intros j Hj. apply in_seq in Hj.
      apply poly_mul; [apply poly_var; lia|apply poly_const].
  - apply (poly_ext _ (fun _ => 0)); [|apply poly_const]. intros tv. rewrite nth_overflow; [reflexivity|]. rewrite map_length, seq_length. exact H.
Qed.

Lemma poly_t (V : nat -> Prop) s : (forall i, In s (firstn (S i) t_symbols) -> ~ In s (firstn i t_symbols) -> V i) -> In s t_symbols -> poly_in V (fun tv => t_point tv s).
Proof.
  intros H Hs. simpl in Hs. destruct Hs as [<-|[<-|[<-|[]]]].
  - apply (poly_ext _ (fun tv => tv 0%nat)); [reflexivity|]. apply poly_var. apply H; simpl; [tauto|tauto].
  - apply (poly_ext _ (fun tv => tv 1%nat)); [reflexivity|]. apply poly_var. apply H; simpl; [tauto|]. intros [E|[]]. discriminate E.
  - apply (poly_ext _ (fun tv => tv 2%nat)); [reflexivity|]. apply poly_var. apply H; simpl; [tauto|]. intros [E|[E|[]]]; discriminate E.
Qed.

Lemma firstn_mono {A} n m (l : list A) x : (n <= m)%nat -> In x (firstn n l) -> In x (firstn m l).
Proof.
  revert m l. induction n as [|n IH]; intros m [|a l] H Hx; simpl in *; try contradiction. destruct m as [|m]; [lia|]. simpl.
  destruct Hx as [->|Hx]; [left; reflexivity|right]. apply (IH m l); [lia|exact Hx].
Qed.

Lemma jacobian_tdim domain j : ReferencesModel.jacobian domain = Ok j -> length (r_axes domain) = ReferencesModel.tdim (r_type domain).
Proof. unfold ReferencesModel.jacobian. destruct (Nat.eqb_spec (length (ReferencesModel.r_axes domain)) (ReferencesModel.tdim (ReferencesModel.r_type domain))); [auto|discriminate]. Qed.

Lemma moment_exists domain lims j f g :
  ReferencesModel.integration_limits (r_type domain) = Ok lims -> ReferencesModel.jacobian domain = Ok j ->
  Forall (fun a => length a = length (r_origin domain)) (r_axes domain) ->
  polynomial f -> polynomial g ->
  symbols_in (firstn (length (r_origin domain)) x_symbols) f -> symbols_in (firstn (length (r_axes domain)) t_symbols) g ->
  exists v, evaluates (IntegralMoment domain (FS g)) (FS f) v.
Proof.
  intros Hl Hj Hf Pf Pg Sf Sg. pose proof (good_cell_limits _ _ Hl) as GL. pose proof (jacobian_tdim _ _ Hj) as TD. rewrite <- TD in GL.
  assert (Sg' : symbols_in t_symbols g) by (intros s Hs; apply (in_firstn (length (r_axes domain))); apply Sg; exact Hs).
  destruct (poly_integrates _ lims (fun tv => ev (x_point (placed (r_origin domain) (r_axes domain) tv)) f * ev (t_point tv) g * j) GL) as [v Hv].
  - apply poly_mul; [apply poly_mul|apply poly_const].
    + apply (poly_in_expr _ f (fun tv => x_point (placed (r_origin domain) (r_axes domain) tv)) Pf). intros s Hs. apply Sf in Hs. apply in_firstn in Hs.
      destruct (x_point_nth s Hs) as [i Hi]. apply (poly_ext _ (fun tv => nth i (placed (r_origin domain) (r_axes domain) tv) 0)); [intros tv; symmetry; apply Hi|].
      apply poly_placed.
    + apply (poly_in_expr _ g t_point Pg). intros s Hs. apply Sg in Hs. pose proof (in_firstn _ _ _ Hs) as Ht. apply poly_t; [|exact Ht].
      intros i Hi Ni. destruct (Nat.lt_ge_cases i (length (r_axes domain))) as [H|H]; [exact H|]. destruct Ni. exact (firstn_mono _ _ _ _ H Hs).
  - exists v. apply (integral_moment_scalar domain lims j f g); assumption.
Qed.
