(** C48: degrees of freedom are linear.  C68: degrees of freedom have the value that their definition says. *)
From Coquelicot Require Import Coquelicot.
From Coq Require Import String Reals ZArith Arith Bool Lia Lra List.
From Verif Require Import Base.
From Verif Require ReferencesModel.
From Verif Require Import FunctionsModel FunctionsSpec FunctionsProofs.
From Verif Require Import FunctionalsModel FunctionalsSpec FunctionalsProofs FunctionalsValues.
Import ListNotations.
Local Open Scope R_scope.
Local Open Scope string_scope.

(** * C48 *)

(** For every class of degrees of freedom: if its values at f and g are u and v, then its value at f*a + g*b,
    built by the python operators, is a*u + b*v; and there is at most one value. *)
Theorem C48_functionals_linear d f a g b h u v :
  linear_combination f a g b = Ok (PFun h) -> evaluates d f u -> evaluates d g v ->
  evaluates d h (a * u + b * v) /\ (forall w, evaluates d h w -> w = a * u + b * v).
Proof.
  intros Hc Hu Hv. pose proof (evaluates_linear a b d f g h u v Hc Hu Hv) as H. split; [exact H|].
  intros w Hw. exact (evaluates_unique d h w _ Hw H).
Qed.
Print Assumptions C48_functionals_linear.

(** The interval from (0,0) to (2,0). *)
Definition edge2 : reference :=
  ReferencesModel.Build_reference ReferencesModel.CInterval [[0; 0]; [2; 0]] [0; 0] [[2; 0]].

Lemma edge2_jacobian : ReferencesModel.jacobian edge2 = Ok 2.
Proof.
  unfold ReferencesModel.jacobian, edge2. cbn. unfold ReferencesModel.fnorm. cbn. f_equal.
  match goal with |- sqrt ?x = _ => replace x with (2 * 2) by (cbn; ring) end. apply sqrt_square. lra.
Qed.

Lemma edge2_axes : Forall (fun a => length a = length (r_origin edge2)) (r_axes edge2).
Proof. repeat constructor. Qed.

Definition lims1 : list ReferencesModel.limit := [(0%nat, fun _ => 0, fun _ => 1)].

Lemma is_RInt_affine (c d v : R) : v = c / 2 + d -> is_RInt (fun s => c * s + d) 0 1 v.
Proof.
  intros ->.
  replace (c / 2 + d) with ((fun s => c * s * s / 2 + d * s) 1 - (fun s => c * s * s / 2 + d * s) 0) by (simpl; field).
  apply (is_RInt_derive (fun s => c * s * s / 2 + d * s) (fun s => c * s + d)).
  - intros s _. auto_derive; [trivial|field].
  - intros s _. apply (continuous_plus (fun s => c * s) (fun _ => d)); [|apply continuous_const].
    apply (continuous_mult (fun _ => c) (fun s => s)); [apply continuous_const|apply continuous_id].
Qed.

(** The mean over the edge from (0,0) to (2,0), of x and of 1. *)
Example C48_case :
  evaluates (IntegralMoment edge2 (FS (ENum 1))) (FS (ESym "x")) 2 /\
  evaluates (IntegralMoment edge2 (FS (ENum 1))) (FS (ENum 1)) 2 /\
  linear_combination (FS (ESym "x")) 3 (FS (ENum 1)) (-1) =
    Ok (PFun (FS (EAdd (EMul (ESym "x") (ENum 3)) (EMul (ENum 1) (ENum (-1)))))) /\
  evaluates (IntegralMoment edge2 (FS (ENum 1))) (FS (EAdd (EMul (ESym "x") (ENum 3)) (EMul (ENum 1) (ENum (-1))))) 4.
Proof.
  assert (A : evaluates (IntegralMoment edge2 (FS (ENum 1))) (FS (ESym "x")) 2).
  { apply (integral_moment_scalar edge2 lims1 2); [reflexivity|apply edge2_jacobian|apply edge2_axes|intros s ->; simpl; tauto|intros s []|].
    exists (fun _ => 2). split; [|intros e; reflexivity]. intros e. apply (is_RInt_ext (fun s => 4 * s + 0)).
    - intros s _. unfold placed, x_point. simpl. unfold upd. simpl. ring.
    - apply is_RInt_affine; field. }
  assert (B : evaluates (IntegralMoment edge2 (FS (ENum 1))) (FS (ENum 1)) 2).
  { apply (integral_moment_scalar edge2 lims1 2); [reflexivity|apply edge2_jacobian|apply edge2_axes|intros s []|intros s []|].
    exists (fun _ => 2). split; [|intros e; reflexivity]. intros e. apply (is_RInt_ext (fun s => 0 * s + 2)).
    - intros s _. simpl. ring.
    - apply is_RInt_affine; field. }
  split; [exact A|]. split; [exact B|]. split; [reflexivity|].
  replace 4 with (3 * 2 + -1 * 2) by ring.
  exact (proj1 (C48_functionals_linear _ (FS (ESym "x")) 3 (FS (ENum 1)) (-1) _ 2 2 eq_refl A B)).
Qed.

(** * C68 *)

(** PointEvaluation, WeightedPointEvaluation: the value at the point. *)
Theorem C68_point_evaluations f cs w : symbols_in (firstn (length cs) x_symbols) f ->
  (forall v, evaluates (PointEvaluation (map ENum cs)) (FS f) v <-> v = ev (x_point cs) f) /\
  (forall v, evaluates (WeightedPointEvaluation (map ENum cs) (ENum w)) (FS f) v <-> v = ev (x_point cs) f * w).
Proof. intros H. split; [apply point_evaluation|apply weighted_point_evaluation]; exact H. Qed.
Print Assumptions C68_point_evaluations.

Example C68_point_case :
  evaluates (PointEvaluation (map ENum [1; 2])) (FS (EMul (ESym "x") (EPow (ESym "y") 2))) 4.
Proof.
  apply (C68_point_evaluations (EMul (ESym "x") (EPow (ESym "y") 2)) [1; 2] 0).
  - intros s [->| ->]; simpl; tauto.
  - unfold x_point. simpl. unfold upd. simpl. ring.
Qed.

(** DerivativePointEvaluation, PointComponentSecondDerivativeEvaluation, PointDirectionalDerivativeEvaluation:
    the derivatives at the point. *)
Theorem C68_derivative_evaluations f cs : polynomial f -> symbols_in (firstn (length cs) x_symbols) f ->
  (forall k v, evaluates (DerivativePointEvaluation (map ENum cs) k) (FS f) v <->
     exists G, derivatives (multi_index k) (fun p => ev p f) G /\ v = G (x_point cs)) /\
  (forall i j si sj v, nth_error x_symbols i = Some si -> nth_error x_symbols j = Some sj ->
     (evaluates (PointComponentSecondDerivativeEvaluation (map ENum cs) (i, j)) (FS f) v <->
      exists G, derivatives [si; sj] (fun p => ev p f) G /\ v = G (x_point cs))) /\
  (forall ds v, length ds = length cs ->
     (evaluates (PointDirectionalDerivativeEvaluation (map ENum cs) (map ENum ds)) (FS f) v <->
      is_derive (fun h => ev (x_point (along cs ds h)) f) 0 v)) /\
  (forall k, exists v, evaluates (DerivativePointEvaluation (map ENum cs) k) (FS f) v).
Proof.
  intros Hp Hs. split; [|split; [|split]].
  - intros k. apply derivative_point_evaluation; assumption.
  - intros i j si sj v Hi Hj. apply second_derivative_evaluation; assumption.
  - intros ds v L. apply directional_point_evaluation; assumption.
  - intros k. eexists. apply derivative_point_evaluation; [assumption|assumption|].
    exists (fun p => ev p (diffs (multi_index k) f)). split; [apply derivatives_diffs; exact Hp|reflexivity].
Qed.
Print Assumptions C68_derivative_evaluations.

(** d2/dxdy of x y^2 at (1,2) is 4. *)
Example C68_derivative_case :
  evaluates (DerivativePointEvaluation (map ENum [1; 2]) [1%nat; 1%nat]) (FS (EMul (ESym "x") (EPow (ESym "y") 2))) 4.
Proof.
  destruct (C68_derivative_evaluations (EMul (ESym "x") (EPow (ESym "y") 2)) [1; 2]) as [H _].
  - simpl. auto.
  - intros s [->| ->]; simpl; tauto.
  - apply H. exists (fun p => 2 * p "y"). split.
    + exists (fun p => p "y" ^ 2). split.
      * intros p. apply (is_derive_ext (fun h => h * p "y" ^ 2)); [intros t; reflexivity|]. auto_derive; [trivial|ring].
      * exists (fun p => 2 * p "y"). split; [|intros p; reflexivity].
        intros p. apply (is_derive_ext (fun h => h ^ 2)); [intros t; reflexivity|]. auto_derive; [trivial|simpl; ring].
    + unfold x_point. simpl. unfold upd. simpl. ring.
Qed.

(** DotPointEvaluation, PointDivergenceEvaluation, PointInnerProduct. *)
Theorem C68_vector_evaluations cs v : Forall (symbols_in (firstn (length cs) x_symbols)) v ->
  (forall w u, length v = length w -> Forall (symbols_in (firstn (length cs) x_symbols)) w ->
     (evaluates (DotPointEvaluation (map ENum cs) (FV w)) (FV v) u <->
      u = inner (map (ev (x_point cs)) v) (map (ev (x_point cs)) w))) /\
  (forall u, (length v <= 3)%nat -> Forall polynomial v ->
     (evaluates (PointDivergenceEvaluation (map ENum cs)) (FV v) u <-> divergence v (x_point cs) u)).
Proof.
  intros Hs. split.
  - intros w u L Hw. apply dot_point_evaluation; assumption.
  - intros u L Hp. apply divergence_point_evaluation; assumption.
Qed.
Print Assumptions C68_vector_evaluations.

Theorem C68_inner_product_evaluation m cs l r : rectangular m -> length m = length l ->
  (forall row, In row m -> length row = length r) -> m <> [] ->
  Forall (Forall (symbols_in (firstn (length cs) x_symbols))) m ->
  forall u, evaluates (PointInnerProduct (map ENum cs) (map ENum l) (map ENum r)) (FM m) u <->
    u = inner l (map (fun row => inner (map (ev (x_point cs)) row) r) m).
Proof. exact (inner_product_evaluation m cs l r). Qed.
Print Assumptions C68_inner_product_evaluation.

Local Ltac syms :=
  repeat (apply Forall_cons; [try (intros s; simpl; tauto); try (intros s; simpl; intros ->; tauto)|]); try apply Forall_nil.

Example C68_vector_case :
  evaluates (DotPointEvaluation (map ENum [3]) (FV [ENum 2; ESym "x"])) (FV [ESym "x"; ENum 1]) 9 /\
  evaluates (PointInnerProduct (map ENum [3]) (map ENum [1; 0]) (map ENum [0; 1])) (FM [[ENum 1; ESym "x"]; [ENum 7; ENum 8]]) 3.
Proof.
  split.
  - destruct (C68_vector_evaluations [3] [ESym "x"; ENum 1]) as [H _].
    + syms.
    + apply H; [reflexivity|syms|].
      unfold inner, x_point. simpl. unfold upd. simpl. ring.
  - apply (C68_inner_product_evaluation [[ENum 1; ESym "x"]; [ENum 7; ENum 8]] [3] [1; 0] [0; 1]); try reflexivity.
    + intros a b Ha Hb. simpl in *. intuition (subst; reflexivity).
    + intros row H. simpl in H. intuition (subst; reflexivity).
    + discriminate.
    + apply Forall_cons; [|apply Forall_cons; [|apply Forall_nil]]; syms.
    + unfold inner, x_point. simpl. unfold upd. simpl. ring.
Qed.

(** IntegralMoment (also IntegralAgainst, TangentIntegralMoment, NormalIntegralMoment): the integral over the
    cell, parametrised by t over the reference cell, of f . g; and for polynomials it has a value. *)
Theorem C68_integral_moments domain lims j :
  ReferencesModel.integration_limits (r_type domain) = Ok lims -> ReferencesModel.jacobian domain = Ok j ->
  Forall (fun a => length a = length (r_origin domain)) (r_axes domain) ->
  (forall f g v, symbols_in (firstn (length (r_origin domain)) x_symbols) f -> symbols_in t_symbols g ->
     (evaluates (IntegralMoment domain (FS g)) (FS f) v <->
      integrates lims (fun tv => ev (x_point (placed (r_origin domain) (r_axes domain) tv)) f * ev (t_point tv) g * j) v)) /\
  (forall f g v, length f = length g ->
     Forall (symbols_in (firstn (length (r_origin domain)) x_symbols)) f -> Forall (symbols_in t_symbols) g ->
     (evaluates (IntegralMoment domain (FV g)) (FV f) v <->
      integrates lims (fun tv => inner (map (ev (x_point (placed (r_origin domain) (r_axes domain) tv))) f)
                                       (map (ev (t_point tv)) g) * j) v)) /\
  (forall f g, polynomial f -> polynomial g -> symbols_in (firstn (length (r_origin domain)) x_symbols) f ->
     symbols_in (firstn (length (r_axes domain)) t_symbols) g ->
     exists v, evaluates (IntegralMoment domain (FS g)) (FS f) v).
Proof.
  intros Hl Hj Hf. split; [|split].
  - intros f g v Sf Sg. apply integral_moment_scalar; assumption.
  - intros f g v L Sf Sg. apply integral_moment_vector; assumption.
  - intros f g Pf Pg Sf Sg. exact (moment_exists domain lims j f g Hl Hj Hf Pf Pg Sf Sg).
Qed.
Print Assumptions C68_integral_moments.

(** DivergenceIntegralMoment, IntegralOfDivergenceAgainst: the same with the divergence. *)
Theorem C68_divergence_moments domain lims j f g : (length f <= 3)%nat -> Forall polynomial f ->
  ReferencesModel.integration_limits (r_type domain) = Ok lims -> ReferencesModel.jacobian domain = Ok j ->
  Forall (fun a => length a = length (r_origin domain)) (r_axes domain) ->
  Forall (symbols_in (firstn (length (r_origin domain)) x_symbols)) f -> symbols_in t_symbols g ->
  exists div : env -> R, (forall p, divergence f p (div p)) /\
  forall d, d = DivergenceIntegralMoment domain (FS g) \/ d = IntegralOfDivergenceAgainst domain (FS g) ->
  forall v, evaluates d (FV f) v <->
    integrates lims (fun tv => div (x_point (placed (r_origin domain) (r_axes domain) tv)) * ev (t_point tv) g * j) v.
Proof. exact (divergence_moment domain lims j f g). Qed.
Print Assumptions C68_divergence_moments.

(** The hypotheses hold for the edge from (0,0) to (2,0), and the moment of x^2 y + x against t0 exists. *)
Example C68_moment_case :
  ReferencesModel.integration_limits (r_type edge2) = Ok lims1 /\ ReferencesModel.jacobian edge2 = Ok 2 /\
  Forall (fun a => length a = length (r_origin edge2)) (r_axes edge2) /\
  exists v, evaluates (IntegralMoment edge2 (FS (ESym "t0"))) (FS (EAdd (EMul (EPow (ESym "x") 2) (ESym "y")) (ESym "x"))) v.
Proof.
  split; [reflexivity|]. split; [apply edge2_jacobian|]. split; [apply edge2_axes|].
  destruct (C68_integral_moments edge2 lims1 2 eq_refl edge2_jacobian edge2_axes) as [_ [_ H]].
  apply H; simpl; auto.
  - intros s [[->| ->]| ->]; simpl; tauto.
  - intros s ->. simpl. tauto.
Qed.

(** InnerProductIntegralMoment multiplies by the jacobian twice: on the edge from (0,0) to (2,0), the moment of
    the identity matrix with l = r = (1,0) and f = 1 is 4, while the integral of l^T V r over the edge, which
    get_tex displays, is 2. *)
Theorem C68_inner_product_moment_refuted :
  exists domain lims j g m l r v w, ReferencesModel.integration_limits (r_type domain) = Ok lims /\
    ReferencesModel.jacobian domain = Ok j /\
    evaluates (InnerProductIntegralMoment domain (FS g) (map ENum l) (map ENum r)) (FM m) v /\
    integrates lims (fun tv => inner l (map (fun row => inner (map (ev (x_point (placed (r_origin domain) (r_axes domain) tv))) row) r) m)
                               * ev (t_point tv) g * j) w /\ v <> w.
Proof.
  exists edge2, lims1, 2, (ENum 1), [[ENum 1; ENum 0]; [ENum 0; ENum 1]], [1; 0], [1; 0], 4, 2.
  split; [reflexivity|]. split; [apply edge2_jacobian|]. split; [|split; [|lra]].
  - apply (inner_moment edge2 lims1 2); try reflexivity.
    + intros a b Ha Hb. simpl in *. intuition (subst; reflexivity).
    + apply edge2_jacobian.
    + apply edge2_axes.
    + apply Forall_cons; [|apply Forall_cons; [|apply Forall_nil]]; syms.
    + intros s [].
    + exists (fun _ => 4). split; [|intros e; reflexivity]. intros e. apply (is_RInt_ext (fun s => 0 * s + 4)).
      * intros s _. unfold inner. simpl. ring.
      * apply is_RInt_affine; field.
  - exists (fun _ => 2). split; [|intros e; reflexivity]. intros e. apply (is_RInt_ext (fun s => 0 * s + 2)).
    + intros s _. unfold inner. simpl. ring.
    + apply is_RInt_affine; field.
Qed.
Print Assumptions C68_inner_product_moment_refuted.
