(** Properties C38, C39, C66: pull-backs and push-forwards.  [affine n m A b]: the tuple [m] of expressions is the
    map x -> A x + b of n coordinates; [inverse_maps n m mi]: the two maps undo each other; [at_map m p] is the
    image of the point p.  n is 1, 2 or 3 (symfem has three coordinate symbols). *)
From Coquelicot Require Import Coquelicot.
From Coq Require Import String Reals ZArith Arith Lia Lra List.
From Verif Require Import Base LinAlg FunctionsModel FunctionsSpec FunctionsProofs FunctionsArith FunctionsSubs MappingsModel MappingsProofs.
Import ListNotations.
Local Open Scope R_scope.

(** a shear combined with a scaling and a translation in the plane, and its inverse *)
Definition ex_map : list expr :=
  [EAdd (ENum 1) (EMul (ENum 2) (EAdd (ESym "x") (ESym "y"))); EMul (ENum 2) (ESym "y")]%string.
Definition ex_inv : list expr :=
  [EAdd (EDiv (EAdd (ESym "x") (ENum (-1))) (ENum 2)) (EMul (ENum (-1/2)) (ESym "y")); EDiv (ESym "y") (ENum 2)]%string.
Definition ex_A (i j : nat) : R := match i, j with 0%nat, _ => 2 | 1%nat, 1%nat => 2 | _, _ => 0 end.
Definition ex_b (i : nat) : R := match i with 0%nat => 1 | _ => 0 end.
Definition ex_B (i j : nat) : R := match i, j with 0%nat, 0%nat => 1/2 | 0%nat, _ => -1/2 | 1%nat, 1%nat => 1/2 | _, _ => 0 end.
Definition ex_c (i : nat) : R := match i with 0%nat => -1/2 | _ => 0 end.
Lemma ex_affine : affine 2 ex_map ex_A ex_b.
Proof.
  split; [reflexivity|]. intros [|[|i]] Hi p; [| |lia]; (split; [simpl; tauto|]); unfold sum, xs; simpl; lra.
Qed.
Lemma ex_affine_inv : affine 2 ex_inv ex_B ex_c.
Proof.
  split; [reflexivity|]. intros [|[|i]] Hi p; [| |lia]; (split; [simpl; repeat split; lra|]); unfold sum, xs; simpl; lra.
Qed.
Lemma ex_inverse : inverse_maps 2 ex_map ex_inv.
Proof.
  intros p [|[|i]] Hi; [| |lia]; unfold at_map, xs, x_symbols; simpl; unfold upd; simpl; split; lra.
Qed.

(** f is mapped by [push], the result by [pull], and the values of f come back *)
Definition round_trip (push pull : pyval -> list expr -> list expr -> bool -> res func) (m mi : list expr) (f : func) : Prop :=
  exists g h, push (PFun f) m mi true = Ok g /\ pull (PFun g) m mi true = Ok h /\ forall p, value_at p h = value_at p f.

Theorem C38_pull_back_push_forward : forall n m mi A b B c, (0 < n <= 3)%nat ->
  affine n m A b -> affine n mi B c -> inverse_maps n m mi ->
  (forall f, wf (PFun f) -> no_reserved f -> round_trip identity identity_inverse m mi f) /\
  (forall f, is_scalar_fn f -> no_reserved f -> round_trip l2 l2_inverse m mi f) /\
  (forall f, is_vector_fn n f -> no_reserved f -> round_trip covariant covariant_inverse m mi f) /\
  (forall f, is_vector_fn n f -> no_reserved f -> round_trip contravariant contravariant_inverse m mi f) /\
  (forall f, is_matrix_fn n f -> no_reserved f -> round_trip double_covariant double_covariant_inverse m mi f) /\
  (forall f, is_matrix_fn n f -> no_reserved f -> round_trip double_contravariant double_contravariant_inverse m mi f).
Proof.
  intros n m mi A b B c Hn Ha Hb Hi.
  pose proof (inverse_matrices n m mi A b B c (proj2 Hn) Ha Hb Hi) as BA.
  pose proof (left_right_inverse n A B BA) as AB.
  pose proof (det_inverse n B A (proj2 Hn) BA) as D.
  assert (Back : forall p s, at_map mi (at_map m p) s = p s).
  { intros p s. apply (at_map_back n); [lia|apply Ha|apply Hb|exact Hi]. }
  split; [|split; [|split; [|split; [|split]]]]; intros f Sf Hf.
  - destruct (identity_value n m mi B c Hn Hb f Sf Hf) as (g & E & Hg & Wg & V).
    destruct (identity_value n mi m A b Hn Ha g Wg Hg) as (h & E' & _ & _ & V').
    exists g, h. split; [exact E|]. split; [exact E'|]. intros p. rewrite V', V. apply value_env_ext. apply Back.
  - destruct (l2_value n m mi A B b c Hn Ha Hb f Sf Hf) as (g & E & Sg & Hg & V).
    destruct (l2_value n mi m B A c b Hn Hb Ha g Sg Hg) as (h & E' & Sh & _ & V').
    exists g, h. split; [exact E|]. split; [exact E'|]. intros p.
    transitivity (value_at (at_map mi (at_map m p)) f); [|apply value_env_ext; apply Back].
    apply scalar_value_eq; [exact Sh|exact Sf|]. rewrite V', V.
    assert (D' : Rabs (det n B) * Rabs (det n A) = 1) by (rewrite <- Rabs_mult, D; apply Rabs_R1).
    assert (Rabs (det n A) <> 0) by (intros E0; rewrite E0 in D'; lra).
    assert (Rabs (det n B) <> 0) by (intros E0; rewrite E0 in D'; lra).
    transitivity (scalar_val (at_map mi (at_map m p)) f / (Rabs (det n B) * Rabs (det n A))); [field; auto|rewrite D'; field].
  - destruct (covariant_value n m mi B c Hn Hb f Sf Hf) as (g & E & Sg & Hg & V).
    destruct (covariant_value n mi m A b Hn Ha g Sg Hg) as (h & E' & Sh & _ & V').
    exists g, h. split; [exact E|]. split; [exact E'|]. intros p. apply (vector_value_eq n); [exact Sh|exact Sf|]. intros i Hi'.
    rewrite V' by exact Hi'.
    rewrite (app_mat_ext n (transp A) (transp A) _ (app_mat n (transp B) (comp p f)) i (fun _ _ => eq_refl)).
    + rewrite app_app. apply app_id; [|exact Hi']. apply transp_inverse. exact BA.
    + intros j Hj. rewrite V by exact Hj. apply app_mat_ext; [reflexivity|]. intros k _. apply comp_env_ext. apply Back.
  - destruct (contravariant_value n m mi A B b c Hn Ha Hb f Sf Hf) as (g & E & Sg & Hg & V).
    destruct (contravariant_value n mi m B A c b Hn Hb Ha g Sg Hg) as (h & E' & Sh & _ & V').
    exists g, h. split; [exact E|]. split; [exact E'|]. intros p. apply (vector_value_eq n); [exact Sh|exact Sf|]. intros i Hi'.
    rewrite V' by exact Hi'.
    rewrite (app_mat_ext n (piola n B) (piola n B) _ (app_mat n (piola n A) (comp p f)) i (fun _ _ => eq_refl)).
    + rewrite app_app. apply app_id; [|exact Hi']. apply piola_inverse; [lia|exact BA].
    + intros j Hj. rewrite V by exact Hj. apply app_mat_ext; [reflexivity|]. intros k _. apply comp_env_ext. apply Back.
  - destruct (double_covariant_value n m mi B c Hn Hb f Sf Hf) as (g & E & Sg & Hg & V).
    destruct (double_covariant_value n mi m A b Hn Ha g Sg Hg) as (h & E' & Sh & _ & V').
    exists g, h. split; [exact E|]. split; [exact E'|]. intros p. apply (matrix_value_eq n); [exact Sh|exact Sf|]. intros i j Hi' Hj.
    rewrite V' by assumption.
    rewrite (conj_ext n _ _ (conj n (transp B) (comp2 p f))).
    + apply conj_conj; [apply transp_inverse; exact BA|exact Hi'|exact Hj].
    + intros k l Hk Hl. rewrite V by assumption. apply conj_ext. intros k' l' _ _. apply comp2_env_ext. apply Back.
  - destruct (double_contravariant_value n m mi A B b c Hn Ha Hb f Sf Hf) as (g & E & Sg & Hg & V).
    destruct (double_contravariant_value n mi m B A c b Hn Hb Ha g Sg Hg) as (h & E' & Sh & _ & V').
    exists g, h. split; [exact E|]. split; [exact E'|]. intros p. apply (matrix_value_eq n); [exact Sh|exact Sf|]. intros i j Hi' Hj.
    rewrite V' by assumption.
    rewrite (conj_ext n _ _ (conj n (piola n A) (comp2 p f))).
    + apply conj_conj; [apply piola_inverse; [lia|exact BA]|exact Hi'|exact Hj].
    + intros k l Hk Hl. rewrite V by assumption. apply conj_ext. intros k' l' _ _. apply comp2_env_ext. apply Back.
Qed.
Print Assumptions C38_pull_back_push_forward.
Example C38_case :
  round_trip contravariant contravariant_inverse ex_map ex_inv (FV [EMul (ESym "x") (ESym "y"); EPow (ESym "x") 2]%string).
Proof.
  apply (proj1 (proj2 (proj2 (proj2 (C38_pull_back_push_forward 2 ex_map ex_inv ex_A ex_b ex_B ex_c ltac:(lia)
    ex_affine ex_affine_inv ex_inverse))))).
  - eexists. split; reflexivity.
  - intros p q H. simpl. rewrite !(H "x"%string), !(H "y"%string) by (intros; unfold dummy; discriminate). reflexivity.
Qed.

(** The inverse transposes are adjoint to the mappings: the pairing of the two results at a point is the pairing of
    the two functions at the corresponding reference point. *)
Theorem C38_inverse_transpose_adjoint : forall n m mi A b B c, (0 < n <= 3)%nat ->
  affine n m A b -> affine n mi B c -> inverse_maps n m mi ->
  (forall f, wf (PFun f) -> no_reserved f -> exists g, identity_inverse_transpose (PFun f) m mi true = Ok g /\
     forall p, value_at p g = value_at (at_map mi p) f) /\
  (forall f g, is_scalar_fn f -> no_reserved f -> is_scalar_fn g -> no_reserved g ->
     exists f' g', l2 (PFun f) m mi true = Ok f' /\ l2_inverse_transpose (PFun g) m mi true = Ok g' /\
     is_scalar_fn f' /\ is_scalar_fn g' /\
     forall p, scalar_val p f' * scalar_val p g' = scalar_val (at_map mi p) f * scalar_val (at_map mi p) g) /\
  (forall f g, is_vector_fn n f -> no_reserved f -> is_vector_fn n g -> no_reserved g ->
     exists f' g', covariant (PFun f) m mi true = Ok f' /\ covariant_inverse_transpose (PFun g) m mi true = Ok g' /\
     is_vector_fn n f' /\ is_vector_fn n g' /\
     forall p, dot n (comp p f') (comp p g') = dot n (comp (at_map mi p) f) (comp (at_map mi p) g)) /\
  (forall f g, is_vector_fn n f -> no_reserved f -> is_vector_fn n g -> no_reserved g ->
     exists f' g', contravariant (PFun f) m mi true = Ok f' /\ contravariant_inverse_transpose (PFun g) m mi true = Ok g' /\
     is_vector_fn n f' /\ is_vector_fn n g' /\
     forall p, dot n (comp p f') (comp p g') = dot n (comp (at_map mi p) f) (comp (at_map mi p) g)).
Proof.
  intros n m mi A b B c Hn Ha Hb Hi.
  pose proof (inverse_matrices n m mi A b B c (proj2 Hn) Ha Hb Hi) as BA.
  pose proof (left_right_inverse n A B BA) as AB.
  pose proof (det_inverse n B A (proj2 Hn) BA) as D.
  assert (DA : det n A <> 0) by (intros E; rewrite E in D; lra).
  assert (DB : det n B <> 0) by (intros E; rewrite E in D; lra).
  split; [|split; [|split]].
  - intros f Wf Hf. destruct (identity_value n m mi B c Hn Hb f Wf Hf) as (g & E & _ & _ & V). exists g. split; [exact E|exact V].
  - intros f g Sf Hf Sg Hg. destruct (l2_value n m mi A B b c Hn Ha Hb f Sf Hf) as (f' & E & Sf' & _ & V).
    destruct (l2_it_value n m mi A B b c Hn Ha Hb g Sg Hg) as (g' & E' & Sg' & V').
    exists f', g'. do 4 (split; [assumption|]). intros p. rewrite V, V'. field. apply Rabs_no_R0. exact DA.
  - intros f g Sf Hf Sg Hg. destruct (covariant_value n m mi B c Hn Hb f Sf Hf) as (f' & E & Sf' & _ & V).
    destruct (covariant_it_value n m mi A B b c Hn Ha Hb g Sg Hg) as (g' & E' & Sg' & V').
    exists f', g'. do 4 (split; [assumption|]). intros p.
    rewrite (dot_ext n _ _ _ _ (V p) (V' p)), dot_app. apply dot_ext; [reflexivity|]. intros i Hi'. rewrite app_app.
    apply app_id; [exact BA|exact Hi'].
  - intros f g Sf Hf Sg Hg. destruct (contravariant_value n m mi A B b c Hn Ha Hb f Sf Hf) as (f' & E & Sf' & _ & V).
    destruct (contravariant_it_value n m mi B c Hn Hb g Sg Hg) as (g' & E' & Sg' & V').
    exists f', g'. do 4 (split; [assumption|]). intros p.
    rewrite (dot_ext n _ _ _ _ (V p) (V' p)), dot_app. apply dot_ext; [reflexivity|]. intros i Hi'. rewrite app_app.
    apply app_id; [|exact Hi']. apply (identity_ext n (mmul n (transp A) (transp B))); [apply transp_inverse; exact BA|].
    intros k l _ _. unfold mmul, transp, piola.
    rewrite (sum_ext n _ (fun r => / (det n B * det n A) * (A r k * B l r))) by (intros; field; auto).
    rewrite sum_scal, D. field.
Qed.
Print Assumptions C38_inverse_transpose_adjoint.
Example C38_adjoint_case : exists f' g',
  covariant (PFun (FV [ESym "x"; ESym "y"]%string)) ex_map ex_inv true = Ok f' /\
  covariant_inverse_transpose (PFun (FV [ESym "y"; ENum 1]%string)) ex_map ex_inv true = Ok g' /\
  forall p, dot 2 (comp p f') (comp p g') =
    dot 2 (comp (at_map ex_inv p) (FV [ESym "x"; ESym "y"]%string)) (comp (at_map ex_inv p) (FV [ESym "y"; ENum 1]%string)).
Proof.
  destruct (proj1 (proj2 (proj2 (C38_inverse_transpose_adjoint 2 ex_map ex_inv ex_A ex_b ex_B ex_c ltac:(lia)
    ex_affine ex_affine_inv ex_inverse))) (FV [ESym "x"; ESym "y"]%string) (FV [ESym "y"; ENum 1]%string))
    as (f' & g' & E & E' & _ & _ & V).
  - eexists. split; reflexivity.
  - intros p q H. simpl. rewrite !(H "x"%string), !(H "y"%string) by (intros; unfold dummy; discriminate). reflexivity.
  - eexists. split; reflexivity.
  - intros p q H. simpl. rewrite !(H "y"%string) by (intros; unfold dummy; discriminate). reflexivity.
  - exists f', g'. auto.
Qed.

(** Traces.  A t is the image of a tangent t, B^T nu (B is the inverse of A) the direction of the image of a normal
    nu.  [I_ref] is the integral over the reference cell: symfem integrates g over the mapped cell as the integral of
    g(map(t)) |det A| over the reference cell. *)
Theorem C39_piola_traces : forall n m mi A b B c, (0 < n <= 3)%nat ->
  affine n m A b -> affine n mi B c -> inverse_maps n m mi ->
  is_identity n (mmul n B A) /\
  (forall f, is_vector_fn n f -> no_reserved f -> exists g, covariant (PFun f) m mi true = Ok g /\ is_vector_fn n g /\
     forall p t, dot n (comp (at_map m p) g) (app_mat n A t) = dot n (comp p f) t) /\
  (forall f, is_vector_fn n f -> no_reserved f -> exists g, contravariant (PFun f) m mi true = Ok g /\ is_vector_fn n g /\
     forall p nu, det n A * dot n (comp (at_map m p) g) (app_mat n (transp B) nu) = dot n (comp p f) nu) /\
  (forall f, is_matrix_fn n f -> no_reserved f -> exists g, double_covariant (PFun f) m mi true = Ok g /\ is_matrix_fn n g /\
     forall p t s, dot n (app_mat n A t) (app_mat n (comp2 (at_map m p) g) (app_mat n A s)) = dot n t (app_mat n (comp2 p f) s)) /\
  (forall f, is_matrix_fn n f -> no_reserved f -> exists g, double_contravariant (PFun f) m mi true = Ok g /\ is_matrix_fn n g /\
     forall p nu mu, det n A ^ 2 * dot n (app_mat n (transp B) nu) (app_mat n (comp2 (at_map m p) g) (app_mat n (transp B) mu))
       = dot n nu (app_mat n (comp2 p f) mu)) /\
  (forall f, is_scalar_fn f -> no_reserved f -> exists g, l2 (PFun f) m mi true = Ok g /\ is_scalar_fn g /\
     forall I_ref : (env -> R) -> R, (forall u v, (forall p, u p = v p) -> I_ref u = I_ref v) ->
       I_ref (fun p => scalar_val (at_map m p) g * Rabs (det n A)) = I_ref (fun p => scalar_val p f)).
Proof.
  intros n m mi A b B c Hn Ha Hb Hi.
  pose proof (inverse_matrices n m mi A b B c (proj2 Hn) Ha Hb Hi) as BA.
  pose proof (left_right_inverse n A B BA) as AB.
  pose proof (det_inverse n B A (proj2 Hn) BA) as D.
  assert (DA : det n A <> 0) by (intros E; rewrite E in D; lra).
  assert (Back : forall p s, at_map mi (at_map m p) s = p s).
  { intros p s. apply (at_map_back n); [lia|apply Ha|apply Hb|exact Hi]. }
  split; [exact BA|]. split; [|split; [|split; [|split]]]; intros f Sf Hf.
  - destruct (covariant_value n m mi B c Hn Hb f Sf Hf) as (g & E & Sg & _ & V). exists g. split; [exact E|]. split; [exact Sg|].
    intros p t. rewrite (dot_ext n _ _ _ _ (V (at_map m p)) (fun _ _ => eq_refl)), dot_app.
    apply dot_ext; [intros; apply comp_env_ext; apply Back|]. intros i Hi'. rewrite app_app. apply app_id; [exact BA|exact Hi'].
  - destruct (contravariant_value n m mi A B b c Hn Ha Hb f Sf Hf) as (g & E & Sg & _ & V). exists g. split; [exact E|]. split; [exact Sg|].
    intros p nu. rewrite (dot_ext n _ _ _ _ (V (at_map m p)) (fun _ _ => eq_refl)), dot_app.
    unfold dot. rewrite <- sum_scal. apply sum_ext. intros i Hi'. rewrite (comp_env_ext f _ _ i (Back p)).
    rewrite app_app. rewrite (app_mat_ext n _ (fun k l => / det n A * mmul n (transp A) (transp B) k l) nu nu).
    + rewrite <- (app_id n (mmul n (transp A) (transp B)) nu i (transp_inverse n B A BA) Hi'). unfold app_mat.
      rewrite (sum_ext n (fun j => / det n A * mmul n (transp A) (transp B) i j * nu j)
                 (fun j => / det n A * (mmul n (transp A) (transp B) i j * nu j))) by (intros; ring).
      rewrite sum_scal. field. exact DA.
    + intros l _. unfold mmul, transp, piola. rewrite <- sum_scal. apply sum_ext. intros k _. field. exact DA.
    + reflexivity.
  - destruct (double_covariant_value n m mi B c Hn Hb f Sf Hf) as (g & E & Sg & _ & V). exists g. split; [exact E|]. split; [exact Sg|].
    intros p t s.
    rewrite (dot_ext n _ (app_mat n A t) _ (app_mat n (conj n (transp B) (comp2 p f)) (app_mat n A s)) (fun _ _ => eq_refl)).
    + apply dot_conj'; intros i Hi'; rewrite app_app; apply app_id; try exact Hi'; exact BA.
    + intros i Hi'. apply app_mat_ext; [|reflexivity]. intros j Hj. rewrite V by assumption. apply conj_ext. intros k l _ _.
      apply comp2_env_ext. apply Back.
  - destruct (double_contravariant_value n m mi A B b c Hn Ha Hb f Sf Hf) as (g & E & Sg & _ & V). exists g. split; [exact E|]. split; [exact Sg|].
    intros p nu mu.
    rewrite (dot_ext n _ (app_mat n (transp B) nu) _ (app_mat n (conj n (piola n A) (comp2 p f)) (app_mat n (transp B) mu)) (fun _ _ => eq_refl)).
    + assert (Q : forall w i, (i < n)%nat -> app_mat n (transp (piola n A)) (app_mat n (transp B) w) i = / det n A * w i).
      { intros w i Hi'. rewrite app_app. rewrite <- (app_id n (mmul n (transp A) (transp B)) w i (transp_inverse n B A BA) Hi').
        unfold app_mat. rewrite <- sum_scal. apply sum_ext. intros k _. unfold mmul, transp, piola.
        rewrite <- Rmult_assoc, <- sum_scal. f_equal. apply sum_ext. intros l _. field. exact DA. }
      rewrite (dot_conj' n (piola n A) _ (fun i => / det n A * nu i) (fun i => / det n A * mu i) _ _ (Q nu) (Q mu)).
      unfold dot. rewrite <- sum_scal. apply sum_ext. intros i _. unfold app_mat.
      rewrite (sum_ext n (fun j => comp2 p f i j * (/ det n A * mu j)) (fun j => / det n A * (comp2 p f i j * mu j))) by (intros; ring).
      rewrite sum_scal. field. exact DA.
    + intros i Hi'. apply app_mat_ext; [|reflexivity]. intros j Hj. rewrite V by assumption. apply conj_ext. intros k l _ _.
      apply comp2_env_ext. apply Back.
  - destruct (l2_value n m mi A B b c Hn Ha Hb f Sf Hf) as (g & E & Sg & _ & V). exists g. split; [exact E|]. split; [exact Sg|].
    intros I Hext. apply Hext. intros p. rewrite V. destruct Sf as [e ->]. simpl.
    rewrite (ev_ext _ p e) by (intros; apply Back). field. apply Rabs_no_R0. exact DA.
Qed.
Print Assumptions C39_piola_traces.
Example C39_case : exists g, covariant (PFun (FV [ESym "x"; ESym "y"]%string)) ex_map ex_inv true = Ok g /\
  forall p t, dot 2 (comp (at_map ex_map p) g) (app_mat 2 ex_A t) = dot 2 (comp p (FV [ESym "x"; ESym "y"]%string)) t.
Proof.
  destruct (proj1 (proj2 (C39_piola_traces 2 ex_map ex_inv ex_A ex_b ex_B ex_c ltac:(lia) ex_affine ex_affine_inv ex_inverse))
    (FV [ESym "x"; ESym "y"]%string)) as (g & E & _ & V).
  - eexists. split; reflexivity.
  - intros p q H. simpl. rewrite !(H "x"%string), !(H "y"%string) by (intros; unfold dummy; discriminate). reflexivity.
  - exists g. auto.
Qed.

(** The two-dimensional cells of a surface mesh (a map with three components and an inverse map with two): the
    covariant map returns a vector with only two components and loses tangential components.  The map is the one
    onto the triangle (0,0,0), (1,0,0), (0,0,1): (s,t) -> (s, 0, t), with inverse (x,y,z) -> (x,z). *)
Theorem C39_surface_covariant_refuted : exists m mi f g, length m = 3%nat /\ length mi = 2%nat /\
  (forall p, ev (at_map m p) (nth 0 mi (ENum 0)) = p "x"%string /\ ev (at_map m p) (nth 1 mi (ENum 0)) = p "y"%string) /\
  is_vector_fn 2 f /\ no_reserved f /\ covariant (PFun f) m mi true = Ok g /\ is_vector_fn 2 g /\
  (* f has tangential component 1 along the second edge of the reference cell, but every component of g vanishes *)
  (forall p, comp p f 1 = 1) /\ (forall p i, comp p g i = 0).
Proof.
  exists [ESym "x"; ENum 0; ESym "y"]%string, [ESym "x"; ESym "z"]%string, (FV [ENum 0; ENum 1]).
  eexists. split; [reflexivity|]. split; [reflexivity|]. split.
  { intros p. unfold at_map, x_symbols. simpl. unfold upd. simpl. split; reflexivity. }
  split; [eexists; split; reflexivity|]. split; [intros p q H; reflexivity|]. split; [reflexivity|].
  split; [eexists; split; reflexivity|]. split; [reflexivity|].
  intros p i. destruct i as [|[|[|i]]]; simpl; try reflexivity; lra.
Qed.
Print Assumptions C39_surface_covariant_refuted.

(** * C66: names.  What is true: the documented names with the documented flags give the function of that name;
    double_... has no inverse transpose, a transpose without inverse does not exist, and a name that is no global of
    the module is rejected. *)
Theorem C66_get_mapping_partial :
  (forall name, In name ["identity"; "l2"; "covariant"; "contravariant"; "double_covariant"; "double_contravariant"]%string ->
     get_mapping name false false = Ok name /\
     get_mapping name true false = Ok (name ++ "_inverse")%string /\
     get_mapping name false true = Err ValueError) /\
  (forall name, In name ["identity"; "l2"; "covariant"; "contravariant"]%string ->
     get_mapping name true true = Ok (name ++ "_inverse_transpose")%string) /\
  (forall name, In name ["double_covariant"; "double_contravariant"]%string -> get_mapping name true true = Err ValueError) /\
  (forall name inv tr r, get_mapping name inv tr = Ok r ->
     In r (mapping_functions ++ other_globals) /\
     r = (name ++ (if inv then "_inverse" else "") ++ (if tr then "_transpose" else ""))%string).
Proof.
  split; [|split; [|split]].
  - intros name H. repeat (destruct H as [<-|H]; [repeat split|]). destruct H.
  - intros name H. repeat (destruct H as [<-|H]; [repeat split|]). destruct H.
  - intros name H. repeat (destruct H as [<-|H]; [repeat split|]). destruct H.
  - intros name inv tr r H. unfold get_mapping in H. destruct (existsb _ _) eqn:E; [|discriminate]. injection H as <-.
    split; [|reflexivity]. apply existsb_exists in E. destruct E as (s & Hs & E). apply String.eqb_eq in E. rewrite E. exact Hs.
Qed.
Print Assumptions C66_get_mapping_partial.
Example C66_case : get_mapping "covariant" true true = Ok "covariant_inverse_transpose"%string /\
  get_mapping "double_covariant" true true = Err ValueError /\ get_mapping "Piola" false false = Err ValueError.
Proof. repeat split. Qed.
(** False in general: any global name of the module is accepted, for example the symbol tuple "x". *)
Theorem C66_get_mapping_refuted : exists name : string,
  ~ In name mapping_functions /\ get_mapping name false false = Ok name.
Proof. exists "x"%string. split; [|reflexivity]. simpl. intuition discriminate. Qed.
Print Assumptions C66_get_mapping_refuted.
