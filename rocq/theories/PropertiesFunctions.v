(** Properties C40-C44 of symfem/functions.py. *)
From Coquelicot Require Import Coquelicot.
From Coq Require Import Ascii String Reals ZArith Arith Bool Lia Lra List.
From Verif Require Import Base FunctionsModel FunctionsSpec FunctionsProofs FunctionsArith FunctionsSubs.
Import ListNotations.
Local Open Scope R_scope.

Local Notation "'X'" := (ESym "x"%string).
Local Notation "'Y'" := (ESym "y"%string).
Local Notation "'Zz'" := (ESym "z"%string).

(** * C40: arithmetic is point-wise *)

(** Sums and differences of operands of the same size (functions, numbers, expressions, lists of numbers,
    sympy matrices) exist and have the componentwise values, at every point; they are defined wherever the
    operands are. *)
Theorem C40_add_sub_pointwise p a b u v w :
  is_function a \/ is_function b -> not_sympy_matrix a -> wf a -> wf b ->
  denotes p a u -> denotes p b v ->
  (componentwise Rplus u v = Some w ->
   exists r, py_add a b = Ok r /\ denotes p r w /\ wf r /\ (defined p a -> defined p b -> defined p r)) /\
  (componentwise Rminus u v = Some w ->
   exists r, py_sub a b = Ok r /\ denotes p r w /\ wf r /\ (defined p a -> defined p b -> defined p r)).
Proof.
  intros. split; intros; [apply (py_add_value p a b u v w)|apply (py_sub_value p a b u v w)]; assumption.
Qed.
Print Assumptions C40_add_sub_pointwise.

(** (x, y) - (1, x) = (x - 1, y - x), the second operand given as a python list. *)
Example C40_add_sub_example p :
  exists r, py_sub (PFun (FV [X; Y])) (PSeq [PInt 1; PExpr X]) = Ok r /\
    denotes p r (VV [p "x"%string - 1; p "y"%string - p "x"%string]).
Proof.
  destruct (C40_add_sub_pointwise p (PFun (FV [X; Y])) (PSeq [PInt 1; PExpr X])
    (VV [p "x"%string; p "y"%string]) (VV [1; p "x"%string]) (VV [p "x"%string - 1; p "y"%string - p "x"%string]))
    as [_ H]; try (simpl; auto; fail).
  - simpl. repeat constructor.
  - destruct (H eq_refl) as [r [H1 [H2 _]]]. exists r. auto.
Qed.

(** Full statement: "operands of incompatible size are rejected rather than truncated".  Proved here for all
    operands except lists whose length differs from the function's; there it is false, see
    [C40_list_truncation_refuted]. *)
Theorem C40_incompatible_rejected_partial p a b :
  wf a -> wf b -> lists_fit a b ->
  match py_add a b with
  | Ok r => exists u v w, denotes p a u /\ denotes p b v /\ componentwise Rplus u v = Some w /\ denotes p r w
  | Err e => e = TypeError \/ e = AssertionError
  end /\
  match py_sub a b with
  | Ok r => exists u v w, denotes p a u /\ denotes p b v /\ componentwise Rminus u v = Some w /\ denotes p r w
  | Err e => e = TypeError \/ e = AssertionError
  end.
Proof.
  intros Ha Hb Hf. split.
  - destruct (py_add a b) eqn:E; [apply py_add_sound; assumption|].
    exact (binop_rejects EAdd a b e Ha Hb E).
  - destruct (py_sub a b) eqn:E; [apply py_sub_sound; assumption|].
    exact (binop_rejects esub a b e Ha Hb E).
Qed.
Print Assumptions C40_incompatible_rejected_partial.

(** A 2x2 and a 2x1 matrix: rejected. *)
Example C40_incompatible_example : py_add (PFun (FM [[X; Y]; [Y; X]])) (PFun (FM [[X]; [Y]])) = Err AssertionError.
Proof. reflexivity. Qed.

(** A vector of length 2 plus a list of length 1 is accepted and is a vector of length 1. *)
Theorem C40_list_truncation_refuted :
  exists a b r, py_add a b = Ok r /\ wf a /\ wf b /\
    forall p u v, denotes p a u -> denotes p b v -> componentwise Rplus u v = None.
Proof.
  exists (PFun (FV [X; Y])), (PSeq [PInt 1]). eexists. split; [reflexivity|]. split; [exact I|]. split; [exact I|].
  intros p u v Hu Hv. destruct u; simpl in Hu; try contradiction. subst.
  destruct v as [c|c|c]; simpl in Hv; try contradiction.
  - inversion Hv as [|? ? ? ? _ H]; subst. inversion H; subst. reflexivity.
  - inversion Hv as [|? ? ? ? H _]; subst. destruct H.
Qed.
Print Assumptions C40_list_truncation_refuted.

(** Negation and integer powers act on every entry. *)
Theorem C40_neg_pow_pointwise p self n u :
  wf (PFun self) -> denotes p (PFun self) u ->
  (exists h, f_neg self = Ok h /\ denotes p (PFun h) (entrywise Ropp u) /\
     (defined p (PFun self) -> defined p (PFun h))) /\
  (exists h, f_pow self n = Ok h /\ denotes p (PFun h) (entrywise (fun a => powerRZ a n) u) /\
     ((0 <= n)%Z -> defined p (PFun self) -> defined p (PFun h))).
Proof. intros Hwf Hu. split; [apply f_neg_value|apply f_pow_value]; assumption. Qed.
Print Assumptions C40_neg_pow_pointwise.

Example C40_neg_pow_example p :
  exists h, f_pow (FV [X; Y]) (-1)%Z = Ok h /\ denotes p (PFun h) (VV [/ (p "x"%string * 1); / (p "y"%string * 1)]).
Proof.
  destruct (C40_neg_pow_pointwise p (FV [X; Y]) (-1)%Z (VV [p "x"%string; p "y"%string]) I eq_refl) as [_ [h [H1 [H2 _]]]].
  exists h. auto.
Qed.

(** Multiplication with a scalar on either side and division by a scalar act on every entry; all other
    products with [*] and quotients are rejected. *)
Theorem C40_scaling_pointwise p a b u v :
  is_function a \/ is_function b -> wf a -> wf b -> not_sympy_matrix a -> not_sympy_matrix b ->
  (match a, b with PSeq _, _ | _, PSeq _ => False | _, _ => True end) ->
  denotes p a u -> denotes p b v ->
  match scaled u v with
  | Some w => exists r, py_mul a b = Ok r /\ denotes p r w /\ wf r /\ (defined p a -> defined p b -> defined p r)
  | None => py_mul a b = Err TypeError
  end /\
  match v with
  | VS c => exists r, py_truediv a b = Ok r /\ denotes p r (entrywise (fun x => x / c) u) /\ wf r /\
              (c <> 0 -> defined p a -> defined p b -> defined p r)
  | _ => py_truediv a b = Err TypeError
  end.
Proof.
  intros Hf Ha Hb Hma Hmb Hs Hu Hv. split.
  - destruct (scaled u v) as [w|] eqn:E; [apply (py_mul_value p a b u v w)|eapply py_mul_rejects]; eauto.
  - destruct v as [c|c|c]; [|eapply py_div_rejects; eauto|eapply py_div_rejects; eauto].
    apply py_div_value; auto. destruct a; auto.
Qed.
Print Assumptions C40_scaling_pointwise.

(** x * ((x, y), (1, 2)). *)
Example C40_scaling_example p :
  exists r, py_mul (PExpr X) (PFun (FM [[X; Y]; [ENum 1; ENum 2]])) = Ok r /\
    denotes p r (VM [[p "x"%string * p "x"%string; p "x"%string * p "y"%string]; [p "x"%string * 1; p "x"%string * 2]]).
Proof.
  destruct (C40_scaling_pointwise p (PExpr X) (PFun (FM [[X; Y]; [ENum 1; ENum 2]])) (VS (p "x"%string))
    (VM [[p "x"%string; p "y"%string]; [1; 2]])) as [[r [H1 [H2 _]]] _]; try (simpl; auto; fail).
  - simpl. intros r r' Hr Hr'. simpl in *. intuition (subst; reflexivity).
  - exists r. auto.
Qed.

(** Full statement: matrix-vector, matrix-matrix and vector-matrix products are the usual ones and exist for
    all compatible sizes.  Missing: a vector times a matrix that is not square
    ([C40_vector_times_matrix_refuted]).  Incompatible sizes are always rejected. *)
Theorem C40_matrix_products_partial p f g u v :
  wf (PFun f) -> wf (PFun g) -> denotes p (PFun f) u -> denotes p (PFun g) v ->
  match matrix_product u v with
  | Some w =>
      (match u, v with VV a, VM b => ncols b = length a | _, _ => True end) ->
      exists r, py_matmul (PFun f) (PFun g) = Ok r /\ denotes p r w /\ wf r /\
        (defined p (PFun f) -> defined p (PFun g) -> defined p r)
  | None => exists e, py_matmul (PFun f) (PFun g) = Err e
  end.
Proof.
  intros Hf Hg Hu Hv.
  destruct f as [f|f|f], u as [a|a|a]; simpl in Hu; try contradiction; subst a;
  destruct g as [g|g|g], v as [b|b|b]; simpl in Hv; try contradiction; subst b;
  cbn [matrix_product]; try (eexists; reflexivity).
  - rewrite !map_length. destruct (Nat.eqb (length f) (length g)) eqn:E.
    + apply Nat.eqb_eq in E. rewrite ncols_map. intros Hsq.
      destruct (vec_mat_value p f g Hg) as [h [H1 [H2 H3]]]; [simpl; congruence|exact Hsq|].
      exists (PFun (FV h)). split; [exact H1|]. split; [simpl; rewrite H2, ncols_map; reflexivity|]. split; [exact I|].
      simpl. auto.
    + apply Nat.eqb_neq in E. unfold py_matmul. cbn [f_matmul].
      destruct (Nat.eqb (snd (mat_shape g)) (length f)) eqn:E2; [|eexists; reflexivity].
      apply Nat.eqb_eq in E2. destruct g as [|g0 g]; [simpl in *; congruence|].
      destruct (vec_mat_nonsquare f (g0 :: g) Hg) as [e [He _]]; [simpl; lia|rewrite E2; simpl in *; congruence|].
      unfold py_matmul in He. cbn [f_matmul] in He. rewrite E2, Nat.eqb_refl in He. exists e. exact He.
  - rewrite ncols_map, map_length. destruct (Nat.eqb (snd (mat_shape f)) (length g)) eqn:E.
    + intros _. apply Nat.eqb_eq in E. destruct (mat_vec_value p f g Hf E) as [h [H1 [H2 H3]]].
      exists (PFun (FV h)). split; [exact H1|]. split; [simpl; auto|]. split; [exact I|]. exact H3.
    + exists AssertionError. unfold py_matmul. cbn [f_matmul same_class f_rmatmul finish]. rewrite E. reflexivity.
  - rewrite ncols_map, map_length. destruct (Nat.eqb (snd (mat_shape f)) (length g)) eqn:E.
    + intros _. apply Nat.eqb_eq in E. destruct (mat_mat_product p f g Hf Hg E) as [h [H1 [H2 [H3 H4]]]].
      exists (PFun (FM h)). split; [exact H1|]. split; [simpl; auto|]. split; [exact H3|]. exact H4.
    + exists AssertionError. unfold py_matmul. cbn [f_matmul]. rewrite Nat.eqb_sym in E. simpl fst in *. rewrite E.
      reflexivity.
Qed.
Print Assumptions C40_matrix_products_partial.

(** ((x, y)) @ (2, 3) = (2x + 3y). *)
Example C40_matrix_products_example p :
  exists r, py_matmul (PFun (FM [[X; Y]])) (PFun (FV [ENum 2; ENum 3])) = Ok r /\
    denotes p r (VV [p "x"%string * 2 + (p "y"%string * 3 + 0)]).
Proof.
  pose proof (C40_matrix_products_partial p (FM [[X; Y]]) (FV [ENum 2; ENum 3])
    (VM [[p "x"%string; p "y"%string]]) (VV [2; 3])) as H. simpl in H.
  destruct H as [r [H1 [H2 _]]]; auto.
  - intros r r' Hr Hr'. simpl in *. intuition (subst; reflexivity).
  - exists r. auto.
Qed.

(** (1, 2) @ ((1, 0, 0), (0, 1, 0)) has a value but raises AssertionError. *)
Theorem C40_vector_times_matrix_refuted :
  exists v m p u, denotes p (PFun (FV v)) (VV (map (ev p) v)) /\ wf (PFun (FM m)) /\
    matrix_product (VV (map (ev p) v)) (VM (map (map (ev p)) m)) = Some u /\
    py_matmul (PFun (FV v)) (PFun (FM m)) = Err AssertionError.
Proof.
  exists [ENum 1; ENum 2], [[ENum 1; ENum 0; ENum 0]; [ENum 0; ENum 1; ENum 0]], (fun _ => 0). eexists.
  split; [reflexivity|]. split; [|split; reflexivity].
  intros r r' Hr Hr'. simpl in *. intuition (subst; reflexivity).
Qed.
Print Assumptions C40_vector_times_matrix_refuted.

(** .dot of scalars, vectors and square matrices, .cross and .norm.  Full statement: .dot of all matrices of
    equal shape; false for matrices that are not square ([C40_matrix_dot_refuted]). *)
Theorem C40_dot_cross_norm_partial p :
  (forall f g, exists e, f_dot (FS f) (PFun (FS g)) = Ok (FS e) /\ ev p e = ev p f * ev p g /\
     (defd p f -> defd p g -> defd p e)) /\
  (forall v w, if Nat.eqb (length v) (length w)
     then exists e, f_dot (FV v) (PFun (FV w)) = Ok (FS e) /\ ev p e = inner (map (ev p) v) (map (ev p) w) /\
            (Forall (defd p) v -> Forall (defd p) w -> defd p e)
     else f_dot (FV v) (PFun (FV w)) = Err AssertionError) /\
  (forall m m', rectangular m -> rectangular m' ->
     if shape_eqb (mat_shape m) (mat_shape m')
     then fst (mat_shape m) = snd (mat_shape m) ->
          exists e, f_dot (FM m) (PFun (FM m')) = Ok (FS e) /\
            dot_product (VM (map (map (ev p)) m)) (VM (map (map (ev p)) m')) = Some (ev p e) /\
            (Forall (Forall (defd p)) m -> Forall (Forall (defd p)) m' -> defd p e)
     else f_dot (FM m) (PFun (FM m')) = Err AssertionError) /\
  (forall v w, match cross_product (VV (map (ev p) v)) (VV (map (ev p) w)) with
     | Some u => exists h, f_cross (FV v) (PFun (FV w)) = Ok h /\ denotes p (PFun h) u /\
                   (Forall (defd p) v -> Forall (defd p) w -> defined p (PFun h))
     | None => f_cross (FV v) (PFun (FV w)) = Err AssertionError
     end) /\
  (forall v, exists e, f_norm (FV v) = Ok (FS e) /\ ev p e = sqrt (inner (map (ev p) v) (map (ev p) v)) /\
     (Forall (defd p) v -> defd p e)) /\
  (forall f, exists e, f_norm (FS f) = Ok (FS e) /\ ev p e = Rabs (ev p f) /\ (defd p f -> defd p e)).
Proof.
  split; [apply f_dot_scalar_value|]. split; [|split; [|split; [|split; [apply f_norm_value|]]]].
  - intros v w. destruct (Nat.eqb (length v) (length w)) eqn:E.
    + apply Nat.eqb_eq in E. destruct (vec_dot_value p v w E) as [e [H1 [H2 H3]]]. exists e.
      unfold f_dot. simpl. rewrite H1. auto.
    + apply Nat.eqb_neq in E. unfold f_dot. simpl. rewrite (vec_dot_rejects v w E). reflexivity.
  - intros m m' Hm Hm'. destruct (shape_eqb (mat_shape m) (mat_shape m')) eqn:E.
    + intros Hsq. assert (Es : mat_shape m = mat_shape m').
      { unfold shape_eqb in E. apply andb_prop in E. destruct E as [E1 E2]. apply Nat.eqb_eq in E1, E2.
        apply injective_projections; assumption. }
      destruct (mat_dot_value p m m' Hm Hm' Es Hsq) as [e [H1 [H2 H3]]]. exists e. split; [exact H1|].
      split; [|exact H3]. cbn [dot_product]. rewrite !map_length, !ncols_map.
      assert (El : length m = length m') by (injection Es; auto).
      rewrite El, <- Es, !Nat.eqb_refl. simpl. rewrite H2. reflexivity.
    + unfold f_dot. simpl. unfold mat_dot. rewrite E. reflexivity.
  - intros v w. destruct (cross_product _ _) as [u|] eqn:E; [apply f_cross_value, E|eapply f_cross_rejects; eauto].
  - intros f. eexists. split; [reflexivity|]. simpl. auto.
Qed.
Print Assumptions C40_dot_cross_norm_partial.

(** (x, y, 0) x (0, 0, 1) = (y, -x, 0). *)
Example C40_cross_example p :
  exists h, f_cross (FV [X; Y; ENum 0]) (PFun (FV [ENum 0; ENum 0; ENum 1])) = Ok h /\
    exists u, denotes p (PFun h) u /\ u = VV [p "y"%string; - p "x"%string; 0].
Proof.
  pose proof (C40_dot_cross_norm_partial p) as [_ [_ [_ [H _]]]].
  specialize (H [X; Y; ENum 0] [ENum 0; ENum 0; ENum 1]). cbn [map cross_product ev] in H. destruct H as [h [H1 [H2 _]]].
  exists h. split; [exact H1|]. eexists. split; [exact H2|]. f_equal. f_equal; [ring|f_equal; [ring|f_equal; ring]].
Qed.

(** ((1, 1)) . ((1, 1)) is computed as 1 instead of 2: the column loop runs over the number of rows. *)
Theorem C40_matrix_dot_refuted :
  exists m m' e, rectangular m /\ rectangular m' /\ f_dot (FM m) (PFun (FM m')) = Ok (FS e) /\
    forall p, exists c, dot_product (VM (map (map (ev p)) m)) (VM (map (map (ev p)) m')) = Some c /\ ev p e <> c.
Proof.
  exists [[ENum 1; ENum 1]], [[ENum 1; ENum 1]]. eexists.
  assert (R1 : rectangular [[ENum 1; ENum 1]]) by (intros r r' Hr Hr'; simpl in *; intuition (subst; reflexivity)).
  split; [exact R1|]. split; [exact R1|]. split; [reflexivity|]. intros p. eexists. split; [reflexivity|].
  unfold inner. simpl. lra.
Qed.
Print Assumptions C40_matrix_dot_refuted.

(** * C41: simultaneous substitution *)

(** For functions and values that do not use the reserved symbols DUMMY_0, DUMMY_1, ...: after
    f.subs(vars, values) the value at p is the value of f at the point where each variable has the value of
    the expression assigned to it, all taken at p. *)
Theorem C41_subs_simultaneous p self vs values l es :
  values = PSeq l \/ (exists w, values = PFun (FV w) /\ l = map PExpr w) ->
  wf (PFun self) -> Forall no_dummy (components self) -> (forall v i, In v vs -> v <> dummy i) ->
  Forall no_dummy es -> map_res as_expr l = Ok es ->
  exists h, f_subs self (VarList vs) values = Ok h /\
    value_at p h = value_at (assign vs (map (ev p) es) p) self.
Proof.
  intros Hval Hwf Hc Hv Hes Hl.
  assert (E : f_subs self (VarList vs) values = f_subs self (VarList vs) (PSeq l)).
  { destruct Hval as [-> |[w [-> ->]]]; [reflexivity|]. destruct self as [f|f|f]; reflexivity. }
  rewrite E. apply f_subs_values; [exact Hwf|]. intros e He. rewrite Forall_forall in Hc.
  destruct (subs_expr_list_value p e vs l es (Hc e He) Hv Hes Hl) as [h [H1 [H2 _]]]. eauto.
Qed.
Print Assumptions C41_subs_simultaneous.

(** One variable: the value is taken at p as well. *)
Theorem C41_subs_single p self s v e :
  wf (PFun self) -> as_expr v = Ok e ->
  exists h, f_subs self (VarOne s) v = Ok h /\ value_at p h = value_at (upd p s (ev p e)) self.
Proof.
  intros Hwf He. apply f_subs_values; [exact Hwf|]. intros f _.
  destruct (subs_expr_one_value p f s v e He) as [h [H1 [H2 _]]]. eauto.
Qed.
Print Assumptions C41_subs_single.

(** The substituted expression is defined wherever the values are and f is at their values. *)
Theorem C41_subs_defined p f vs l es :
  no_dummy f -> (forall v i, In v vs -> v <> dummy i) -> Forall no_dummy es -> map_res as_expr l = Ok es ->
  Forall (defd p) es -> defd (assign vs (map (ev p) es) p) f ->
  exists h, subs_expr f (VarList vs) (PSeq l) = Ok h /\ defd p h.
Proof.
  intros Hf Hv Hes Hl Hd Hdf. destruct (subs_expr_list_value p f vs l es Hf Hv Hes Hl) as [h [H1 [_ H3]]]. eauto.
Qed.
Print Assumptions C41_subs_defined.

(** Swapping x and y in x - 2y. *)
Example C41_subs_example p :
  exists h, f_subs (FS (esub X (EMul (ENum 2) Y))) (VarList ["x"; "y"]%string) (PSeq [PExpr Y; PExpr X]) = Ok h /\
    value_at p h = VS (p "y"%string - 2 * p "x"%string).
Proof.
  assert (ND : forall s, (exists c s', s = String c s' /\ c <> "D"%char) -> forall i, s <> dummy i).
  { intros s [c [s' [-> Hc]]] i E. unfold dummy in E. simpl in E. injection E as E _. apply Hc. auto. }
  assert (Hx : forall i, "x"%string <> dummy i) by (apply ND; exists "x"%char, EmptyString; split; [reflexivity|discriminate]).
  assert (Hy : forall i, "y"%string <> dummy i) by (apply ND; exists "y"%char, EmptyString; split; [reflexivity|discriminate]).
  destruct (C41_subs_simultaneous p (FS (esub X (EMul (ENum 2) Y))) ["x"; "y"]%string (PSeq [PExpr Y; PExpr X])
    [PExpr Y; PExpr X] [Y; X]) as [h [H1 H2]]; auto.
  - exact I.
  - repeat constructor. intros i Hi. simpl in Hi. specialize (Hx i). specialize (Hy i). intuition congruence.
  - intros v i [<-|[<-|[]]]; auto.
  - repeat constructor; intros i Hi; simpl in Hi; [apply (Hy i)|apply (Hx i)]; auto.
  - exists h. split; [exact H1|]. rewrite H2. unfold value_at. f_equal. simpl. unfold upd. simpl. ring.
Qed.

(** The reserved symbols cannot be allowed: substituting y for x in DUMMY_0 gives y. *)
Theorem C41_reserved_symbols_refuted :
  exists f vs es p h, subs_expr f (VarList vs) (PSeq (map PExpr es)) = Ok h /\
    ev p h <> ev (assign vs (map (ev p) es) p) f.
Proof.
  exists (ESym (dummy 0)), ["x"%string], [Y], (fun s => if String.eqb s "y" then 1 else 0). eexists.
  split; [reflexivity|]. simpl. unfold upd. simpl. lra.
Qed.
Print Assumptions C41_reserved_symbols_refuted.

(** * C42: vector calculus *)

Lemma grad_ok f dim : (dim <= 3)%nat ->
  f_grad (FS f) dim = Ok (FV (map (fun s => ediff s f) (firstn dim x_symbols))).
Proof. intros H. destruct dim as [|[|[|[|d]]]]; try lia; reflexivity. Qed.

(** The components of grad f, of v.diff and the entries of the jacobian are the partial derivatives, wherever the
    function is differentiable. *)
Theorem C42_gradient_and_hessian_are_derivatives p f dim :
  smooth p f -> (dim <= 3)%nat ->
  exists g h, f_grad (FS f) dim = Ok (FV g) /\ f_jacobian (FS f) dim = Ok (FM h) /\
    length g = dim /\ length h = dim /\
    (forall i s, (i < dim)%nat -> nth_error x_symbols i = Some s -> partial p s f (ev p (nth i g (ENum 0)))) /\
    (forall i j s, (i < dim)%nat -> (j < dim)%nat -> nth_error x_symbols j = Some s ->
       partial p s (nth i g (ENum 0)) (ev p (nth j (nth i h []) (ENum 0)))).
Proof.
  intros Hf Hd. destruct dim as [|[|[|[|d]]]]; try lia;
  do 2 eexists; (split; [reflexivity|]); (split; [reflexivity|]); (split; [reflexivity|]); (split; [reflexivity|]); split.
  all: try (intros i s Hi; lia).
  all: try (intros i j s Hi; lia).
  - intros [|i] s Hi E; [|lia]. injection E as <-. apply ediff_correct, Hf.
  - intros [|i] [|j] s Hi Hj E; try lia. injection E as <-. apply ediff_correct, smooth_diff, Hf.
  - intros [|[|i]] s Hi E; try lia; injection E as <-; apply ediff_correct, Hf.
  - intros [|[|i]] [|[|j]] s Hi Hj E; try lia; injection E as <-; apply ediff_correct, smooth_diff, Hf.
  - intros [|[|[|i]]] s Hi E; try lia; injection E as <-; apply ediff_correct, Hf.
  - intros [|[|[|i]]] [|[|[|j]]] s Hi Hj E; try lia; injection E as <-; apply ediff_correct, smooth_diff, Hf.
Qed.
Print Assumptions C42_gradient_and_hessian_are_derivatives.

Theorem C42_vector_derivative p v s :
  Forall (smooth p) v -> exists w, f_diff (FV v) s = Ok (FV w) /\ Forall2 (fun e d => partial p s e (ev p d)) v w.
Proof.
  intros H. eexists. split; [reflexivity|]. induction H as [|e v He Hv IH]; simpl; constructor; [|exact IH].
  apply ediff_correct, He.
Qed.
Print Assumptions C42_vector_derivative.

Theorem C42_curl_grad_is_zero p f :
  smooth p f ->
  exists g c, f_grad (FS f) 3 = Ok g /\ f_curl g = Ok (FV c) /\ length c = 3%nat /\ Forall (fun e => ev p e = 0) c.
Proof.
  intros H. do 2 eexists. split; [reflexivity|]. split; [reflexivity|]. split; [reflexivity|].
  repeat (apply Forall_cons; [rewrite ev_sub; rewrite ediff_comm by exact H; ring|]). apply Forall_nil.
Qed.
Print Assumptions C42_curl_grad_is_zero.

Theorem C42_div_curl_is_zero p v0 v1 v2 :
  smooth p v0 -> smooth p v1 -> smooth p v2 ->
  exists c d, f_curl (FV [v0; v1; v2]) = Ok c /\ f_div c = Ok (FS d) /\ ev p d = 0.
Proof.
  intros H0 H1 H2. do 2 eexists. split; [reflexivity|]. split; [reflexivity|]. simpl.
  rewrite (ediff_comm p "x"%string "y"%string v2), (ediff_comm p "x"%string "z"%string v1),
    (ediff_comm p "y"%string "z"%string v0) by assumption. ring.
Qed.
Print Assumptions C42_div_curl_is_zero.

(** div(grad f) is the trace of the matrix returned by f.jacobian(dim). *)
Theorem C42_laplacian_is_trace_of_hessian p f dim :
  (dim <= 3)%nat ->
  exists g d h, f_grad (FS f) dim = Ok g /\ f_div g = Ok (FS d) /\ f_jacobian (FS f) dim = Ok (FM h) /\
    ev p d = fold_right Rplus 0 (map (fun i => ev p (nth i (nth i h []) (ENum 0))) (seq 0 dim)).
Proof.
  intros H. destruct dim as [|[|[|[|d]]]]; try lia; do 3 eexists; (split; [reflexivity|]); (split; [reflexivity|]);
    (split; [reflexivity|]); simpl; ring.
Qed.
Print Assumptions C42_laplacian_is_trace_of_hessian.

(** directional_derivative(d) = d . grad f for directions with up to three components. *)
Theorem C42_directional_derivative p f d :
  (length d <= 3)%nat ->
  exists e g, f_directional_derivative (FS f) d = Ok (FS e) /\ f_grad (FS f) (length d) = Ok (FV g) /\
    ev p e = inner (map (ev p) d) (map (ev p) g).
Proof.
  intros H. destruct d as [|d0 [|d1 [|d2 [|d3 d]]]]; simpl in H; try lia;
    do 2 eexists; (split; [reflexivity|]); (split; [reflexivity|]); unfold inner; simpl; ring.
Qed.
Print Assumptions C42_directional_derivative.

(** The product rule: div(f v) = grad f . v + f div v. *)
Theorem C42_product_rule p f v :
  (length v <= 3)%nat ->
  exists fv d g dv, py_mul (PFun (FS f)) (PFun (FV v)) = Ok (PFun fv) /\ f_div fv = Ok (FS d) /\
    f_grad (FS f) (length v) = Ok (FV g) /\ f_div (FV v) = Ok (FS dv) /\
    ev p d = inner (map (ev p) g) (map (ev p) v) + ev p f * ev p dv.
Proof.
  intros H. destruct v as [|v0 [|v1 [|v2 [|v3 v]]]]; simpl in H; try lia;
    do 4 eexists; (split; [reflexivity|]); (split; [reflexivity|]); (split; [reflexivity|]); (split; [reflexivity|]);
    unfold inner; simpl; ring.
Qed.
Print Assumptions C42_product_rule.

(** f = x^2 y / z at a point with z = 2; the hypothesis [smooth] holds there. *)
Example C42_example : smooth (fun s => if String.eqb s "z" then 2 else 3) (EDiv (EMul (EPow X 2) Y) Zz) /\
  exists g, f_grad (FS (EDiv (EMul (EPow X 2) Y) Zz)) 3 = Ok (FV g) /\
    map (ev (fun s => if String.eqb s "z" then 2 else 3)) g = [9; 9/2; -27/4].
Proof.
  split; [simpl; repeat split; lra|]. eexists. split; [reflexivity|]. simpl.
  f_equal; [lra|f_equal; [lra|f_equal; lra]].
Qed.

(** * C43: maximum_degree *)

Definition total_degree (m : nat * nat * nat) : nat := (exponent 0 m + exponent 1 m + exponent 2 m)%nat.
Definition max_exponent (m : nat * nat * nat) : nat := Nat.max (Nat.max (exponent 0 m) (exponent 1 m)) (exponent 2 m).

(** On quadrilaterals and hexahedra the result is the largest exponent of any variable in any term. *)
Theorem C43_tensor_product_cells cell p :
  cell = "quadrilateral"%string \/ cell = "hexahedron"%string -> p <> [] ->
  exists k, maximum_degree cell p = Ok (Z.of_nat k) /\
    (forall c m, In (c, m) p -> (max_exponent m <= k)%nat) /\ (exists c m, In (c, m) p /\ max_exponent m = k).
Proof.
  intros Hc Hp. destruct (maximum_degree_nonzero p Hp) as [d0 [d1 [d2 [H0 [H1 [H2 [E0 [E1 E2]]]]]]]].
  exists (Nat.max (Nat.max d0 d1) d2). split.
  - unfold maximum_degree. destruct Hc as [-> | ->]; simpl; rewrite E0, E1, E2; f_equal; lia.
  - split.
    + intros c m Hin. unfold max_exponent. pose proof (proj1 H0 c m Hin). pose proof (proj1 H1 c m Hin).
      pose proof (proj1 H2 c m Hin). lia.
    + assert (G : forall v d, (v < 3)%nat -> is_degree v p d -> (d = Nat.max (Nat.max d0 d1) d2) ->
          exists c m, In (c, m) p /\ max_exponent m = Nat.max (Nat.max d0 d1) d2).
      { intros v d Hv [_ [c [m [Hin Hd]]]] E. exists c, m. split; [exact Hin|]. unfold max_exponent.
        pose proof (proj1 H0 c m Hin). pose proof (proj1 H1 c m Hin). pose proof (proj1 H2 c m Hin).
        destruct v as [|[|[|v]]]; lia. }
      destruct (le_lt_dec d1 d0), (le_lt_dec d2 d0), (le_lt_dec d2 d1);
        first [apply (G 0%nat d0); [lia|exact H0|lia] | apply (G 1%nat d1); [lia|exact H1|lia]
              | apply (G 2%nat d2); [lia|exact H2|lia]].
Qed.
Print Assumptions C43_tensor_product_cells.

Example C43_tensor_example :
  maximum_degree "quadrilateral" [(1, (1, 3, 0)%nat); (2, (2, 0, 0)%nat)] = Ok 3%Z.
Proof. reflexivity. Qed.

(** Full statement: on simplices the result is the largest total degree, on prisms the largest of the
    horizontal total degree and the vertical degree.  Proved: the result is never too small, and it is exact
    when one term attains the largest exponent of every variable (for instance for polynomials in x alone, or
    a single monomial).  False in general, see [C43_maximum_degree_refuted]. *)
Theorem C43_simplices_partial cell p :
  cell = "interval"%string \/ cell = "triangle"%string \/ cell = "tetrahedron"%string -> p <> [] ->
  exists k, maximum_degree cell p = Ok (Z.of_nat k) /\
    (forall c m, In (c, m) p -> (total_degree m <= k)%nat) /\
    ((exists c m, In (c, m) p /\ forall c' m' v, In (c', m') p -> (v < 3)%nat -> (exponent v m' <= exponent v m)%nat) ->
     exists c m, In (c, m) p /\ total_degree m = k).
Proof.
  intros Hc Hp. destruct (maximum_degree_nonzero p Hp) as [d0 [d1 [d2 [H0 [H1 [H2 [E0 [E1 E2]]]]]]]].
  exists (d0 + d1 + d2)%nat. split.
  - unfold maximum_degree. destruct Hc as [-> |[-> | ->]]; simpl; rewrite E0, E1, E2; f_equal; lia.
  - split.
    + intros c m Hin. unfold total_degree. pose proof (proj1 H0 c m Hin). pose proof (proj1 H1 c m Hin).
      pose proof (proj1 H2 c m Hin). lia.
    + intros [c [m [Hin Hmax]]]. exists c, m. split; [exact Hin|]. unfold total_degree.
      assert (G : forall v d, (v < 3)%nat -> is_degree v p d -> exponent v m = d).
      { intros v d Hv [Hle [c' [m' [Hin' Hd]]]]. pose proof (Hmax c' m' v Hin' Hv). pose proof (Hle c m Hin). lia. }
      rewrite (G 0%nat d0), (G 1%nat d1), (G 2%nat d2); auto; lia.
Qed.
Print Assumptions C43_simplices_partial.

Example C43_simplices_example : maximum_degree "triangle" [(1, (2, 1, 0)%nat); (-1, (1, 0, 0)%nat)] = Ok 3%Z.
Proof. reflexivity. Qed.

Theorem C43_prism_partial p : p <> [] ->
  exists k, maximum_degree "prism" p = Ok (Z.of_nat k) /\
    (forall c m, In (c, m) p -> (exponent 0 m + exponent 1 m <= k)%nat /\ (exponent 2 m <= k)%nat).
Proof.
  intros Hp. destruct (maximum_degree_nonzero p Hp) as [d0 [d1 [d2 [H0 [H1 [H2 [E0 [E1 E2]]]]]]]].
  exists (Nat.max (d0 + d1) d2). split.
  - unfold maximum_degree. simpl. rewrite E0, E1, E2. f_equal. lia.
  - intros c m Hin. pose proof (proj1 H0 c m Hin). pose proof (proj1 H1 c m Hin).
    pose proof (proj1 H2 c m Hin). lia.
Qed.
Print Assumptions C43_prism_partial.

Example C43_prism_example : maximum_degree "prism" [(1, (2, 1, 0)%nat); (1, (0, 0, 5)%nat)] = Ok 5%Z.
Proof. reflexivity. Qed.

(** x + y has total degree 1 but maximum_degree on a triangle is 2; the zero function gets -3 there. *)
Theorem C43_maximum_degree_refuted :
  (exists p, p <> [] /\ (forall c m, In (c, m) p -> c <> 0 /\ total_degree m = 1%nat) /\
    maximum_degree "triangle" p = Ok 2%Z) /\
  maximum_degree "triangle" [] = Ok (-3)%Z.
Proof.
  split; [|reflexivity]. exists [(1, (1, 0, 0)%nat); (1, (0, 1, 0)%nat)]. split; [discriminate|]. split; [|reflexivity].
  intros c m [E|[E|[]]]; injection E as <- <-; (split; [lra|reflexivity]).
Qed.
Print Assumptions C43_maximum_degree_refuted.

(** * C44: iteration *)

(** Full statement: every iteration yields all components in order, however many iterations are in progress.
    Proved: one iteration at a time, whatever happened to the object before (the state is arbitrary). *)
Theorem C44_single_iteration_partial st fuel :
  (length (it_vec st) < fuel)%nat ->
  exists st', for_loop fuel collect [] st = Some (it_vec st, st') /\ it_vec st' = it_vec st.
Proof. intros H. eexists. split; [apply for_loop_collects, H|reflexivity]. Qed.
Print Assumptions C44_single_iteration_partial.

Example C44_single_example :
  for_loop 9 collect [] {| it_vec := [X; Y; Zz]; it_n := Some 2%nat |}
  = Some ([X; Y; Zz], {| it_vec := [X; Y; Zz]; it_n := Some 3%nat |}).
Proof. reflexivity. Qed.

(** Two nested loops over the same vector: the outer loop stops after its first component, however large the
    bound on the number of steps. *)
Definition nested_body (fuel : nat) (acc : list (expr * list expr)) (e : expr) (st : iter_state)
    : list (expr * list expr) * iter_state :=
  match for_loop fuel collect [] st with
  | Some (inner, st') => ((acc ++ [(e, inner)])%list, st')
  | None => (acc, st)
  end.

Theorem C44_nested_iteration_refuted v fuel :
  (2 <= length v)%nat -> (S (length v) < fuel)%nat ->
  exists a st', nth_error v 0 = Some a /\
    for_loop fuel (nested_body fuel) [] {| it_vec := v; it_n := None |} = Some ([(a, v)], st').
Proof.
  intros Hv Hf. destruct v as [|a v]; [simpl in Hv; lia|]. exists a. eexists. split; [reflexivity|].
  destruct fuel as [|[|fuel]]; try (simpl in Hf; lia).
  unfold for_loop at 1. unfold vec_iter. cbn [it_vec].
  cbn [for_next]. unfold vec_next at 1. cbn [it_n it_vec length Nat.ltb Nat.leb nth_error Nat.sub].
  unfold nested_body at 1.
  rewrite for_loop_collects by (cbn [it_vec]; simpl in Hf |- *; lia). cbn [it_vec].
  unfold vec_next at 1. cbn [it_n it_vec]. rewrite Nat.ltb_irrefl. reflexivity.
Qed.
Print Assumptions C44_nested_iteration_refuted.

(** zip(v, v) for v = (x, y) gives [(x, y)] instead of [(x, x), (y, y)]; matrices cannot be iterated over. *)
Theorem C44_zip_and_matrix_refuted :
  (exists v, zip_self 9 {| it_vec := v; it_n := None |} <> Some (combine v v)) /\
  (exists m, m <> [] /\ f_iter (FM m) = Err TypeError).
Proof.
  split.
  - exists [X; Y]. discriminate.
  - exists [[X; Y]]. split; [discriminate|reflexivity].
Qed.
Print Assumptions C44_zip_and_matrix_refuted.

(** * C69: what a user may give as a function *)

Lemma item_expr_value p v c : item_value p v c -> exists e, item_expr v = Ok e /\ ev p e = c.
Proof. destruct v as [z|e|[f|f|f]|l|m|]; simpl; try contradiction; intros ->; eauto. Qed.

Lemma item_exprs_value p l r : Forall2 (item_value p) l r -> exists es, map_res item_expr l = Ok es /\ map (ev p) es = r.
Proof.
  induction 1 as [|v c l r H _ [es [I1 I2]]]; [exists []; auto|]. destruct (item_expr_value p v c H) as [e [E1 E2]].
  exists (e :: es). simpl. rewrite E1. simpl. rewrite I1. simpl. split; congruence.
Qed.

Lemma item_exprs_inv p l es : map_res item_expr l = Ok es -> Forall2 (item_value p) l (map (ev p) es).
Proof.
  revert es. induction l as [|v l IH]; intros es H; simpl in H; [injection H as <-; constructor|].
  destruct (item_expr v) as [e|] eqn:E; [|discriminate]. simpl in H. destruct (map_res item_expr l) as [es'|]; [|discriminate].
  simpl in H. injection H as <-. constructor; [|apply IH; reflexivity].
  destruct v as [z|x|[f|f|f]|l'|m|]; simpl in E; try discriminate; injection E as <-; reflexivity.
Qed.

Lemma rows_value p l r : Forall2 (row_value p) l r ->
  exists rows es, map_res (fun i => match i with PSeq r => Ok r | _ => Err AssertionError end) l = Ok rows /\
    map_res (map_res item_expr) rows = Ok es /\ map (map (ev p)) es = r.
Proof.
  induction 1 as [|v c l r H _ [rows [es [I1 [I2 I3]]]]]; [exists [], []; auto|]. destruct v; simpl in H; try contradiction.
  destruct (item_exprs_value p l0 c H) as [e [E1 E2]]. exists (l0 :: rows), (e :: es). simpl. rewrite I1. simpl. rewrite E1. simpl.
  rewrite I2. simpl. repeat split; congruence.
Qed.

Lemma rows_inv p l rows es : map_res (fun i => match i with PSeq r => Ok r | _ => Err AssertionError end) l = Ok rows ->
  map_res (map_res item_expr) rows = Ok es -> Forall2 (row_value p) l (map (map (ev p)) es).
Proof.
  revert rows es. induction l as [|v l IH]; intros rows es H1 H2; simpl in H1.
  - injection H1 as <-. simpl in H2. injection H2 as <-. constructor.
  - destruct v as [z|x|f|l'|m|]; simpl in H1; try discriminate. destruct (map_res _ l) as [rows'|] eqn:E in H1; [|discriminate].
    simpl in H1. injection H1 as <-. simpl in H2. destruct (map_res item_expr l') as [e|] eqn:E2; [|discriminate]. simpl in H2.
    destruct (map_res (map_res item_expr) rows') as [es'|] eqn:E3; [|discriminate]. simpl in H2. injection H2 as <-.
    constructor; [apply item_exprs_inv; exact E2|]. apply (IH rows'); assumption.
Qed.

(** A number, a sympy expression, a function, a non-empty list of numbers or a non-empty list of rows of equal
    length is read as the function with these values. *)
Theorem C69_function_input_read p v u : denotes p v u -> wf v -> not_sympy_matrix v ->
  match u with VV [] | VM [] => False | VM m => rectangular m | _ => True end ->
  exists f, parse_function_input v = Ok f /\ denotes p (PFun f) u /\ wf (PFun f).
Proof.
  intros Hd Hw Hm Hu. destruct v as [z|e|f|l|m|]; try contradiction.
  - destruct u; simpl in Hd; try contradiction. subst. exists (FS (ENum (IZR z))). repeat split.
  - destruct u; simpl in Hd; try contradiction. subst. exists (FS e). repeat split.
  - exists f. repeat split; [exact Hd|exact Hw].
  - destruct u as [c|c|c]; simpl in Hd; try contradiction.
    + destruct (item_exprs_value p l c Hd) as [es [E1 E2]]. exists (FV es). split; [|split; [simpl; congruence|exact I]].
      destruct Hd as [|i c0 l c Hi Hd]; [contradiction|]. simpl. assert (S : is_seq i = false) by (destruct i as [z|x|[f|f|f]|l'|m|]; simpl in Hi; try contradiction; reflexivity).
      rewrite S. change (rmap FV (map_res item_expr (i :: l)) = Ok (FV es)). rewrite E1. reflexivity.
    + destruct (rows_value p l c Hd) as [rows [es [E1 [E2 E3]]]]. exists (FM es).
      assert (Hr : rectangular es).
      { destruct c as [|c0 c]; [contradiction|]. apply (rect_of_values (c0 :: c) es); [|exact Hu]. rewrite <- E3. rewrite map_map. apply map_ext. intros a. apply map_length. }
      split; [|split; [simpl; congruence|exact Hr]].
      destruct Hd as [|i c0 l c Hi Hd]; [contradiction|]. simpl. assert (S : is_seq i = true) by (destruct i as [z|x|f|l'|m|]; simpl in Hi; try contradiction; reflexivity).
      rewrite S. cbv beta in *.
      change (rbind (map_res (fun i => match i with PSeq r => Ok r | _ => Err AssertionError end) (i :: l)) (fun rows => rbind (map_res (map_res item_expr) rows) mk_mat) = Ok (FM es)).
      rewrite E1. cbn [rbind]. rewrite E2. cbn [rbind]. apply mk_mat_ok. exact Hr.
Qed.
Print Assumptions C69_function_input_read.

(** Nothing else is read: what is accepted has a meaning, which is that of the function. *)
Theorem C69_function_input_meaning p v f : parse_function_input v = Ok f ->
  exists u, denotes p v u /\ denotes p (PFun f) u.
Proof.
  intros H. destruct v as [z|e|g|l|m|]; try discriminate.
  - injection H as <-. exists (VS (IZR z)). split; reflexivity.
  - injection H as <-. exists (VS (ev p e)). split; reflexivity.
  - injection H as <-. exists (value_at p g). destruct g; split; reflexivity.
  - destruct l as [|i l]; [discriminate|]. simpl in H. destruct (is_seq i).
    + change (rbind (map_res (fun i => match i with PSeq r => Ok r | _ => Err AssertionError end) (i :: l)) (fun rows => rbind (map_res (map_res item_expr) rows) mk_mat) = Ok f) in H.
      destruct (map_res _ (i :: l)) as [rows|] eqn:E1 in H; [|discriminate]. cbn [rbind] in H.
      destruct (map_res (map_res item_expr) rows) as [es|] eqn:E2; [|discriminate]. cbn [rbind] in H.
      unfold mk_mat in H. destruct (forallb _ es); [|discriminate]. injection H as <-.
      exists (VM (map (map (ev p)) es)). split; [|reflexivity]. simpl. apply (rows_inv p (i :: l) rows); assumption.
    + change (rmap FV (map_res item_expr (i :: l)) = Ok f) in H. destruct (map_res item_expr (i :: l)) as [es|] eqn:E; [|discriminate].
      simpl in H. injection H as <-. exists (VV (map (ev p) es)). split; [|reflexivity]. simpl. apply item_exprs_inv. exact E.
Qed.
Print Assumptions C69_function_input_meaning.

Example C69_case : parse_function_input (PSeq [PInt 1; PExpr X; PFun (FS Y)]) = Ok (FV [ENum 1; X; Y]) /\
  parse_function_input (PSeq [PSeq [PInt 1; PExpr X]; PSeq [PExpr Y; PInt 0]]) = Ok (FM [[ENum 1; X]; [Y; ENum 0]]) /\
  parse_function_input (PSeq [PInt 1; PSeq [PInt 1]]) = Err AssertionError /\
  parse_function_input (PSeq [PSeq [PInt 1]; PSeq [PInt 1; PInt 2]]) = Err AssertionError.
Proof. repeat split. Qed.

(** A sympy matrix, which the type FunctionInput (functions.py:1823) announces, is refused. *)
Theorem C69_sympy_matrix_refuted : exists m p u, denotes p (PMat m) u /\ rectangular m /\
  parse_function_input (PMat m) = Err ValueError.
Proof.
  exists [[X]], (fun _ => 0), (VM [[0]]). split; [reflexivity|]. split; [|reflexivity].
  intros r r' [<-|[]] [<-|[]]. reflexivity.
Qed.
Print Assumptions C69_sympy_matrix_refuted.
