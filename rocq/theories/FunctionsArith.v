(** Lemmas about functions.py: python operators, products, norms. *)
From Coquelicot Require Import Coquelicot.
From Coq Require Import String Reals ZArith Arith Bool Lia Lra List.
From Verif Require Import Base FunctionsModel FunctionsSpec FunctionsProofs.
Import ListNotations.
Local Open Scope R_scope.

(** Lists combined with a function have as many items as the function has components / rows. *)
Definition lists_fit (a b : pyval) : Prop :=
  match a, b with
  | PFun f, _ => fits f b
  | _, PFun g => fits g a
  | _, _ => True
  end.

Section Binop.
  Variables (op : expr -> expr -> expr) (rop : R -> R -> R).
  Hypothesis op_ev : forall p a b, ev p (op a b) = rop (ev p a) (ev p b).
  Hypothesis op_defd : forall p a b, defd p a -> defd p b -> defd p (op a b).

  Let lop := additive op.
  Let rlop := additive (fun a b => op b a).

  Lemma binop_value p a b u v w :
    is_function a \/ is_function b -> not_sympy_matrix a -> wf a -> wf b ->
    denotes p a u -> denotes p b v -> componentwise rop u v = Some w ->
    exists r, binop lop rlop op a b = Ok r /\ denotes p r w /\ wf r /\ (defined p a -> defined p b -> defined p r).
  Proof.
    intros Hf Hm Ha Hb Hu Hv Hw.
    assert (Fwd : forall f, a = PFun f -> exists r, binop lop rlop op a b = Ok r /\ denotes p r w /\ wf r /\
                    (defined p a -> defined p b -> defined p r)).
    { intros f ->. destruct (additive_value p op rop (op_ev p) (op_defd p) f b u v w Ha Hb Hu Hv Hw)
        as [h [H1 [H2 [H3 H4]]]].
      exists (PFun h). cbn [binop]. unfold lop. rewrite H1. auto. }
    assert (Bwd : forall g, b = PFun g -> (forall f, a <> PFun f) -> (a = PExpr (ENum 0) -> False) \/ True ->
       exists h, rlop g a = Some (Ok h) /\ denotes p (PFun h) w /\ wf (PFun h) /\
                    (defined p a -> defined p b -> defined p (PFun h))).
    { intros g -> Hna _. rewrite <- (componentwise_flip rop u v) in Hw.
      destruct (additive_value p (fun x y => op y x) (fun x y => rop y x) (fun x y => op_ev p y x)
         (fun x y Hx Hy => op_defd p y x Hy Hx) g a v u w Hb Ha Hv Hu Hw) as [h [H1 [H2 [H3 H4]]]].
      exists h. unfold rlop. rewrite H1. auto 6. }
    destruct a as [z|e|f|l|m|]; [| |apply (Fwd f eq_refl)| |destruct Hm|destruct u; contradiction].
    - destruct Hf as [[]|Hf]. destruct b as [| |g| | |]; try contradiction.
      destruct (Bwd g eq_refl) as [h [H1 H2]]; [discriminate|right; exact I|].
      exists (PFun h). cbn [binop]; destruct g; rewrite H1; simpl; auto.
    - destruct Hf as [[]|Hf]. destruct b as [| |g| | |]; try contradiction.
      destruct (Bwd g eq_refl) as [h [H1 H2]]; [discriminate|right; exact I|].
      destruct g as [g|g|g].
      + exists (PExpr (op e g)). split; [reflexivity|].
        destruct u; simpl in Hu; try contradiction; destruct v; simpl in Hv; try contradiction.
        simpl in Hw. injection Hw as <-. subst. split; [simpl; rewrite op_ev; reflexivity|]. split; [exact I|].
        simpl. apply op_defd.
      + exists (PFun h). cbn [binop]; rewrite H1; simpl; auto.
      + exists (PFun h). cbn [binop]; rewrite H1; simpl; auto.
    - destruct Hf as [[]|Hf]. destruct b as [| |g| | |]; try contradiction.
      destruct (Bwd g eq_refl) as [h [H1 H2]]; [discriminate|right; exact I|].
      exists (PFun h). cbn [binop]; destruct g; rewrite H1; simpl; auto.
  Qed.

  Lemma binop_sound p a b r :
    wf a -> wf b -> lists_fit a b -> binop lop rlop op a b = Ok r ->
    exists u v w, denotes p a u /\ denotes p b v /\ componentwise rop u v = Some w /\ denotes p r w.
  Proof.
    intros Ha Hb Hfit H.
    assert (Bwd : forall g, b = PFun g -> fits g a -> forall h, rlop g a = Some (Ok h) ->
       exists u v w, denotes p a u /\ denotes p b v /\ componentwise rop u v = Some w /\ denotes p (PFun h) w).
    { intros g -> Hg h Hh.
      destruct (additive_sound p (fun x y => op y x) (fun x y => rop y x) (fun x y => op_ev p y x)
          g a h Hb Ha Hg Hh) as [v [u [w [H1 [H2 [H3 H4]]]]]].
      exists u, v, w. rewrite componentwise_flip in H3. auto. }
    assert (Fin : forall g, b = PFun g -> fits g a -> finish (rlop g a) = Ok r ->
       exists u v w, denotes p a u /\ denotes p b v /\ componentwise rop u v = Some w /\ denotes p r w).
    { intros g -> Hg E. unfold finish in E. destruct (rlop g a) as [[h|x]|] eqn:E2; simpl in E; try discriminate.
      injection E as <-. eapply Bwd; eauto. }
    destruct a as [z|e|f|l|m|].
    - destruct b as [| |g| | |]; simpl in H; try discriminate. apply (Fin g eq_refl Hfit H).
    - destruct b as [| |[g|g|g]| | |]; simpl in H; try discriminate.
      injection H as <-. exists (VS (ev p e)), (VS (ev p g)). eexists. repeat split. simpl. rewrite op_ev. reflexivity.
    - simpl in H. destruct (lop f b) as [[h|x]|] eqn:E; simpl in H; try discriminate.
      + injection H as <-. apply (additive_sound p op rop (op_ev p) f b h Ha Hb Hfit E).
      + destruct b as [| |g| | |]; try discriminate.
        destruct f as [f|f|f], g as [g|g|g]; simpl in H; discriminate.
    - destruct b as [| |g| | |]; simpl in H; try discriminate.
      apply (Fin g eq_refl Hfit). destruct g; exact H.
    - destruct b; discriminate.
    - destruct b; discriminate.
  Qed.

  Lemma binop_rejects a b e :
    wf a -> wf b -> binop lop rlop op a b = Err e -> rejection e.
  Proof.
    intros Ha Hb H.
    assert (Fin : forall g, wf (PFun g) -> finish (rlop g a) = Err e -> rejection e).
    { intros g Hg E. unfold finish in E. destruct (rlop g a) as [[h|x]|] eqn:E2; simpl in E; try discriminate.
      - injection E as <-. eapply additive_rejects; [| |exact E2]; assumption.
      - injection E as <-. left; reflexivity. }
    assert (T : (Err TypeError : res pyval) = Err e -> rejection e)
      by (intros E; injection E as <-; left; reflexivity).
    destruct a as [z|x|f|l|m|].
    - destruct b as [| |g| | |]; simpl in H; auto. apply (Fin g Hb). destruct g; exact H.
    - destruct b as [| |[g|g|g]| | |]; simpl in H; auto; try discriminate; apply (Fin _ Hb H).
    - simpl in H. destruct (lop f b) as [[h|x]|] eqn:E; simpl in H; try discriminate.
      + injection H as <-. eapply additive_rejects; [| |exact E]; assumption.
      + destruct b as [| |g| | |]; auto.
        destruct (same_class f g); [auto|]. apply (Fin g Hb H).
    - destruct b as [| |g| | |]; simpl in H; auto. apply (Fin g Hb). destruct g; exact H.
    - destruct b; auto.
    - destruct b; auto.
  Qed.
End Binop.

Lemma ev_add p a b : ev p (EAdd a b) = ev p a + ev p b.
Proof. reflexivity. Qed.
Lemma ev_neg p a : ev p (eneg a) = - ev p a.
Proof. simpl. ring. Qed.
Lemma ev_sub p a b : ev p (esub a b) = ev p a - ev p b.
Proof. simpl. ring. Qed.
Lemma defd_add p a b : defd p a -> defd p b -> defd p (EAdd a b).
Proof. simpl. auto. Qed.
Lemma defd_sub p a b : defd p a -> defd p b -> defd p (esub a b).
Proof. simpl. auto. Qed.

Lemma py_add_value p a b u v w :
  is_function a \/ is_function b -> not_sympy_matrix a -> wf a -> wf b ->
  denotes p a u -> denotes p b v -> componentwise Rplus u v = Some w ->
  exists r, py_add a b = Ok r /\ denotes p r w /\ wf r /\ (defined p a -> defined p b -> defined p r).
Proof. apply (binop_value EAdd Rplus ev_add defd_add). Qed.

Lemma py_sub_value p a b u v w :
  is_function a \/ is_function b -> not_sympy_matrix a -> wf a -> wf b ->
  denotes p a u -> denotes p b v -> componentwise Rminus u v = Some w ->
  exists r, py_sub a b = Ok r /\ denotes p r w /\ wf r /\ (defined p a -> defined p b -> defined p r).
Proof. apply (binop_value esub Rminus ev_sub defd_sub). Qed.

Lemma py_add_sound p a b r :
  wf a -> wf b -> lists_fit a b -> py_add a b = Ok r ->
  exists u v w, denotes p a u /\ denotes p b v /\ componentwise Rplus u v = Some w /\ denotes p r w.
Proof. apply (binop_sound EAdd Rplus ev_add). Qed.

Lemma py_sub_sound p a b r :
  wf a -> wf b -> lists_fit a b -> py_sub a b = Ok r ->
  exists u v w, denotes p a u /\ denotes p b v /\ componentwise Rminus u v = Some w /\ denotes p r w.
Proof. apply (binop_sound esub Rminus ev_sub). Qed.

(** * Entrywise operations *)

Lemma map_lift (f : expr -> expr) (g : R -> R) p l :
  (forall a, ev p (f a) = g (ev p a)) -> map (ev p) (map f l) = map g (map (ev p) l).
Proof. intros H. rewrite !map_map. apply map_ext. exact H. Qed.

Lemma map_map_lift (f : expr -> expr) (g : R -> R) p m :
  (forall a, ev p (f a) = g (ev p a)) -> map (map (ev p)) (map (map f) m) = map (map g) (map (map (ev p)) m).
Proof. intros H. rewrite !map_map. apply map_ext. intros l. apply map_lift, H. Qed.

Lemma Forall_map_lift (f : expr -> expr) p l :
  (forall a, defd p a -> defd p (f a)) -> Forall (defd p) l -> Forall (defd p) (map f l).
Proof. intros H Hl. apply Forall_map. eapply Forall_impl; [|exact Hl]. exact H. Qed.

Lemma Forall_map_map_lift (f : expr -> expr) p m :
  (forall a, defd p a -> defd p (f a)) -> Forall (Forall (defd p)) m -> Forall (Forall (defd p)) (map (map f) m).
Proof. intros H Hl. apply Forall_map. eapply Forall_impl; [|exact Hl]. intros l. apply Forall_map_lift, H. Qed.

Lemma rect_map_map (f : expr -> expr) m : rectangular m -> rectangular (map (map f) m).
Proof. apply rect_map. intros r _. apply map_length. Qed.

Lemma entrywise_value p (self : func) (f : expr -> expr) (g : R -> R) u :
  (forall a, ev p (f a) = g (ev p a)) -> wf (PFun self) -> denotes p (PFun self) u ->
  let h := match self with FS a => Ok (FS (f a)) | FV v => Ok (FV (map f v)) | FM m => mk_mat (map (map f) m) end in
  exists k, h = Ok k /\ denotes p (PFun k) (entrywise g u) /\ wf (PFun k) /\
    ((forall a, defd p a -> defd p (f a)) -> defined p (PFun self) -> defined p (PFun k)).
Proof.
  intros Hf Hwf Hu. destruct self as [a|a|a]; destruct u as [c|c|c]; simpl in Hu; try contradiction; subst c; simpl.
  - eexists. split; [reflexivity|]. simpl. rewrite Hf. split; [reflexivity|]. auto.
  - eexists. split; [reflexivity|]. simpl. rewrite (map_lift f g p a Hf). split; [reflexivity|].
    split; [exact I|]. apply Forall_map_lift.
  - rewrite (mk_mat_ok _ (rect_map_map f a Hwf)). eexists. split; [reflexivity|]. simpl.
    rewrite (map_map_lift f g p a Hf). split; [reflexivity|]. split; [apply rect_map_map, Hwf|]. apply Forall_map_map_lift.
Qed.

Lemma f_neg_value p self u :
  wf (PFun self) -> denotes p (PFun self) u ->
  exists h, f_neg self = Ok h /\ denotes p (PFun h) (entrywise Ropp u) /\
    (defined p (PFun self) -> defined p (PFun h)).
Proof.
  intros Hwf Hu. destruct (entrywise_value p self eneg Ropp u (ev_neg p) Hwf Hu) as [k [H1 [H2 [H3 H4]]]].
  exists k. split; [exact H1|]. split; [exact H2|]. apply H4. intros a Ha. simpl. auto.
Qed.

Lemma ev_epow p a n : ev p (epow a n) = powerRZ (ev p a) n.
Proof.
  destruct n as [|q|q]; simpl; try reflexivity. unfold Rdiv. rewrite Rmult_1_l. reflexivity.
Qed.

Lemma f_pow_value p self n u :
  wf (PFun self) -> denotes p (PFun self) u ->
  exists h, f_pow self n = Ok h /\ denotes p (PFun h) (entrywise (fun a => powerRZ a n) u) /\
    ((0 <= n)%Z -> defined p (PFun self) -> defined p (PFun h)).
Proof.
  intros Hwf Hu.
  destruct (entrywise_value p self (fun a => epow a n) (fun a => powerRZ a n) u (fun a => ev_epow p a n) Hwf Hu)
    as [k [H1 [H2 [H3 H4]]]].
  exists k. split; [exact H1|]. split; [exact H2|]. intros Hn. apply H4. intros a Ha. destruct n; simpl; auto; lia.
Qed.

(** * Products and quotients with scalars *)

Lemma scalar_operand p other v e :
  as_expr other = Ok e -> denotes p other v -> v = VS (ev p e).
Proof.
  destruct other as [z|x|[f|f|f]|l|m|]; simpl; intros H Hv; try discriminate; injection H as <-;
    destruct v; simpl in Hv; try contradiction; subst; reflexivity.
Qed.

Lemma scaling_value p op rop self other u c :
  (forall a b, ev p (op a b) = rop (ev p a) (ev p b)) ->
  wf (PFun self) -> denotes p (PFun self) u -> denotes p other (VS c) ->
  exists h, scaling op self other = Some (Ok h) /\ denotes p (PFun h) (entrywise (fun a => rop a c) u) /\ wf (PFun h) /\
    ((forall a e, defd p a -> item_defined p other -> as_expr other = Ok e -> defd p (op a e)) ->
      defined p (PFun self) -> defined p other -> defined p (PFun h)).
Proof.
  intros Hop Hwf Hu Hv.
  assert (He : exists e, as_expr other = Ok e /\ ev p e = c /\ (defined p other -> item_defined p other) /\
     scaling op self other = Some (match self with FS a => Ok (FS (op a e)) | FV v => Ok (FV (map (fun i => op i e) v))
        | FM m => mk_mat (map (map (fun i => op i e)) m) end)).
  { destruct other as [z|x|[f|f|f]|l|m|]; simpl in Hv; try contradiction; subst c;
      eexists; (split; [reflexivity|]); (split; [reflexivity|]); (split; [simpl; auto|]); destruct self; reflexivity. }
  destruct He as [e [He [Ec [Hd ->]]]].
  destruct (entrywise_value p self (fun a => op a e) (fun a => rop a c) u) as [k [H1 [H2 [H3 H4]]]]; auto.
  { intros a. rewrite Hop, Ec. reflexivity. }
  exists k. rewrite H1. split; [reflexivity|]. split; [exact H2|]. split; [exact H3|].
  intros Hdef Hself Hother. apply H4; [|exact Hself]. intros a Ha. apply Hdef; auto.
Qed.

Lemma defd_other p other e : as_expr other = Ok e -> item_defined p other -> defd p e.
Proof. apply as_expr_defd. Qed.

Lemma scaled_cases u v w :
  scaled u v = Some w ->
  (exists c, v = VS c /\ w = entrywise (fun a => a * c) u) \/
  (exists c, u = VS c /\ (forall d, v <> VS d) /\ w = entrywise (fun a => c * a) v).
Proof.
  destruct u as [a|a|a], v as [b|b|b]; simpl; intros H; try discriminate; injection H as <-.
  - left. eauto.
  - right. exists a. repeat split. discriminate.
  - right. exists a. repeat split. discriminate.
  - left; eauto.
  - left; eauto.
Qed.

Lemma entrywise_scalar f c : entrywise f (VS c) = VS (f c).
Proof. reflexivity. Qed.

Lemma py_mul_value p a b u v w :
  is_function a \/ is_function b -> wf a -> wf b -> not_sympy_matrix a -> not_sympy_matrix b ->
  (match a, b with PSeq _, _ | _, PSeq _ => False | _, _ => True end) ->
  denotes p a u -> denotes p b v -> scaled u v = Some w ->
  exists r, py_mul a b = Ok r /\ denotes p r w /\ wf r /\ (defined p a -> defined p b -> defined p r).
Proof.
  intros Hf Ha Hb Hma Hmb Hseq Hu Hv Hw.
  assert (Dm : forall x e o, defd p x -> item_defined p o -> as_expr o = Ok e -> defd p (EMul x e)).
  { intros x e o Hx Ho Ee. split; [exact Hx|]. eapply defd_other; eauto. }
  assert (Dm' : forall x e o, defd p x -> item_defined p o -> as_expr o = Ok e -> defd p (EMul e x)).
  { intros x e o Hx Ho Ee. split; [eapply defd_other; eauto|exact Hx]. }
  assert (Fwd : forall f c, a = PFun f -> v = VS c -> w = entrywise (fun a => a * c) u ->
     exists r, py_mul a b = Ok r /\ denotes p r w /\ wf r /\ (defined p a -> defined p b -> defined p r)).
  { intros f c -> -> ->.
    destruct (scaling_value p EMul Rmult f b u c) as [h [H1 [H2 [H3 H4]]]]; auto.
    exists (PFun h). unfold py_mul. simpl. change f_mul with (scaling EMul). rewrite H1. simpl.
    split; [reflexivity|]. split; [exact H2|]. split; [exact H3|]. apply H4. intros x e Hx Ho Ee. eapply Dm; eauto. }
  assert (Bwd : forall g c, b = PFun g -> u = VS c -> w = entrywise (fun a => c * a) v ->
     exists h, f_rmul g a = Some (Ok h) /\ denotes p (PFun h) w /\ wf (PFun h) /\ (defined p a -> defined p b -> defined p (PFun h))).
  { intros g c -> -> ->.
    destruct (scaling_value p (fun x y => EMul y x) (fun x y => y * x) g a v c) as [h [H1 [H2 [H3 H4]]]]; auto.
    exists h. split; [exact H1|]. split; [exact H2|]. split; [exact H3|]. intros D1 D2. apply H4; auto.
    intros x e Hx Ho Ee. eapply Dm'; eauto. }
  apply scaled_cases in Hw.
  destruct a as [z|e|f|l|m|]; try contradiction.
  - destruct Hf as [[]|Hf]. destruct b as [| |g| | |]; try contradiction.
    destruct u as [c|c|c]; simpl in Hu; try contradiction.
    destruct (Bwd g c eq_refl eq_refl) as [h [H1 H2]].
    { destruct Hw as [[d [-> ->]]|[d [E [_ ->]]]]; [rewrite !entrywise_scalar; reflexivity|injection E as ->; reflexivity]. }
    exists (PFun h). unfold py_mul. cbn [binop f_mul scaling same_class]. rewrite H1. simpl. auto.
  - destruct Hf as [[]|Hf]. destruct b as [| |g| | |]; try contradiction.
    destruct u as [c|c|c]; simpl in Hu; try contradiction.
    destruct (Bwd g c eq_refl eq_refl) as [h [H1 H2]].
    { destruct Hw as [[d [-> ->]]|[d [E [_ ->]]]]; [rewrite !entrywise_scalar; reflexivity|injection E as ->; reflexivity]. }
    destruct g as [g|g|g].
    + exists (PExpr (EMul e g)). split; [reflexivity|]. destruct v as [d|d|d]; simpl in Hv; try contradiction.
      destruct Hw as [[d' [E ->]]|[d' [_ [E _]]]]; [|exfalso; eapply E; reflexivity].
      injection E as ->. subst. simpl. auto.
    + exists (PFun h). unfold py_mul. cbn [binop f_mul scaling same_class]. rewrite H1. simpl. auto.
    + exists (PFun h). unfold py_mul. cbn [binop f_mul scaling same_class]. rewrite H1. simpl. auto.
  - destruct Hw as [[c [-> ->]]|[c [-> [Hnv ->]]]]; [apply (Fwd f c); reflexivity|].
    destruct f as [f|f|f]; simpl in Hu; try contradiction.
    destruct b as [z|e|[g|g|g]|l|m|]; simpl in Hv; try contradiction;
      destruct v as [d|d|d]; simpl in Hv; try contradiction; try (exfalso; eapply Hnv; reflexivity).
    + destruct (Bwd (FV g) c eq_refl eq_refl eq_refl) as [h [H1 H2]].
      exists (PFun h). unfold py_mul. cbn [binop f_mul scaling same_class]. rewrite H1. simpl. auto.
    + destruct (Bwd (FM g) c eq_refl eq_refl eq_refl) as [h [H1 H2]].
      exists (PFun h). unfold py_mul. cbn [binop f_mul scaling same_class]. rewrite H1. simpl. auto.
Qed.

Lemma py_div_value p a b u c :
  is_function a \/ is_function b -> wf a -> not_sympy_matrix a ->
  (match a with PSeq _ => False | _ => True end) ->
  denotes p a u -> denotes p b (VS c) ->
  exists r, py_truediv a b = Ok r /\ denotes p r (entrywise (fun x => x / c) u) /\ wf r /\
    (c <> 0 -> defined p a -> defined p b -> defined p r).
Proof.
  intros Hf Ha Hma Hseq Hu Hv.
  destruct a as [z|e|f|l|m|]; try contradiction.
  - destruct Hf as [[]|Hf]. destruct b as [| |[g|g|g]| | |]; simpl in Hv; try contradiction.
    destruct u as [d|d|d]; simpl in Hu; try contradiction. subst.
    eexists. split; [reflexivity|]. split; [reflexivity|]. split; [exact I|]. simpl. auto.
  - destruct Hf as [[]|Hf]. destruct b as [| |[g|g|g]| | |]; simpl in Hv; try contradiction.
    destruct u as [d|d|d]; simpl in Hu; try contradiction. subst.
    eexists. split; [reflexivity|]. split; [reflexivity|]. split; [exact I|]. simpl. auto.
  - destruct (scaling_value p EDiv Rdiv f b u c) as [h [H1 [H2 [H3 H4]]]]; auto.
    exists (PFun h). unfold py_truediv. simpl. change f_truediv with (scaling EDiv). rewrite H1. simpl.
    split; [reflexivity|]. split; [exact H2|]. split; [exact H3|]. intros Hc. apply H4. intros x e Hx Ho Ee.
    split; [exact Hx|]. split; [eapply defd_other; eauto|].
    pose proof (scalar_operand p b (VS c) e Ee Hv) as E. injection E as <-. exact Hc.
Qed.

(** Products of two vectors / matrices with [*], and division by one of them, are rejected. *)
Lemma py_mul_rejects p a b u v :
  denotes p a u -> denotes p b v -> scaled u v = None -> py_mul a b = Err TypeError.
Proof.
  intros Hu Hv Hs. destruct u as [c|c|c], v as [d|d|d]; try discriminate;
    destruct a as [z|e|[f|f|f]|l|m|]; simpl in Hu; try contradiction;
    destruct b as [z'|e'|[g|g|g]|l'|m'|]; simpl in Hv; try contradiction; reflexivity.
Qed.

Lemma py_div_rejects p a b u v :
  denotes p a u -> denotes p b v -> divided u v = None -> py_truediv a b = Err TypeError.
Proof.
  intros Hu Hv Hs. destruct v as [d|d|d]; try discriminate;
    destruct b as [z'|e'|[g|g|g]|l'|m'|]; simpl in Hv; try contradiction;
    destruct a as [z|e|[f|f|f]|l|m|]; simpl in Hu; try contradiction; try reflexivity; destruct u; contradiction.
Qed.

(** * Inner products *)

Lemma fold_add_shift p (l : list (expr * expr)) e :
  ev p (fold_left (fun out q => EAdd out (EMul (fst q) (snd q))) l e)
  = ev p e + fold_right Rplus 0 (map (fun q => ev p (fst q) * ev p (snd q)) l).
Proof.
  revert e. induction l as [|a l IH]; intros e; simpl; [ring|]. rewrite IH. simpl. ring.
Qed.

Lemma fold_add_defd p (l : list (expr * expr)) e :
  defd p e -> (forall q, In q l -> defd p (fst q) /\ defd p (snd q)) ->
  defd p (fold_left (fun out q => EAdd out (EMul (fst q) (snd q))) l e).
Proof.
  revert e. induction l as [|a l IH]; intros e He H; simpl; [exact He|]. apply IH.
  - simpl. split; [exact He|]. apply H. left; reflexivity.
  - intros q Hq. apply H. right; exact Hq.
Qed.

Lemma zip_combine {A B} (l : list A) (l' : list B) : zip l l' = combine l l'.
Proof. revert l'. induction l; intros [|b l']; simpl; try reflexivity. f_equal. auto. Qed.

Lemma combine_map {A B C D} (f : A -> C) (g : B -> D) l l' :
  combine (map f l) (map g l') = map (fun q => (f (fst q), g (snd q))) (combine l l').
Proof. revert l'. induction l; intros [|b l']; simpl; try reflexivity. f_equal. auto. Qed.

Lemma vec_dot_value p v w :
  length v = length w ->
  exists e, vec_dot v w = Ok e /\ ev p e = inner (map (ev p) v) (map (ev p) w) /\
    (Forall (defd p) v -> Forall (defd p) w -> defd p e).
Proof.
  intros H. unfold vec_dot. rewrite H, Nat.eqb_refl. eexists. split; [reflexivity|]. split.
  - rewrite fold_add_shift. unfold inner. rewrite combine_map, map_map, zip_combine. simpl. ring.
  - intros Hv Hw. apply fold_add_defd; [exact I|]. intros [a b] Hab. apply in_zip in Hab.
    rewrite Forall_forall in Hv, Hw. simpl. split; [apply Hv|apply Hw]; tauto.
Qed.

Lemma vec_dot_rejects v w : length v <> length w -> vec_dot v w = Err AssertionError.
Proof. intros H. unfold vec_dot. destruct (Nat.eqb _ _) eqn:E; [apply Nat.eqb_eq in E; contradiction|reflexivity]. Qed.

(** * Rows and columns *)

Lemma mat_row_value m i r :
  rectangular m -> nth_error m i = Some r -> mat_row m i = Ok r.
Proof.
  intros Hm Hr. unfold mat_row.
  assert (Hl : length r = snd (mat_shape m)) by (apply rect_shape; [exact Hm|eapply nth_error_In; eauto]).
  rewrite <- Hl.
  rewrite (map_res_all _ (fun j => nth j r (ENum 0))).
  - f_equal. clear. unfold range.
    assert (G : forall k (l : list expr), (forall j, nth j l (ENum 0) = nth (k + j) r (ENum 0)) ->
              map (fun j => nth j r (ENum 0)) (seq k (length l)) = l).
    { intros k l. revert k. induction l as [|a l IH]; intros k H; [reflexivity|]. simpl. f_equal.
      - specialize (H 0%nat). rewrite Nat.add_0_r in H. auto.
      - apply IH. intros j. specialize (H (S j)). simpl in H. rewrite H. f_equal. lia. }
    apply G. reflexivity.
  - intros j Hj. apply in_range in Hj. rewrite (entry_nth m i j r Hr).
    rewrite (nth_error_nth' r (ENum 0)) by exact Hj. reflexivity.
Qed.

Definition ecol (m : list (list expr)) (j : nat) : list expr := map (fun r => nth j r (ENum 0)) m.

Lemma ecol_value p m j : map (ev p) (ecol m j) = column (map (map (ev p)) m) j.
Proof.
  unfold ecol, column. rewrite !map_map. apply map_ext. intros r. change 0 with (ev p (ENum 0)) at 2.
  symmetry. apply map_nth.
Qed.

Lemma mat_col_value m j :
  rectangular m -> (j < snd (mat_shape m))%nat -> mat_col m j = Ok (ecol m j).
Proof.
  intros Hm Hj. unfold mat_col. change (fst (mat_shape m)) with (length m).
  rewrite (map_res_all _ (fun i => nth j (nth i m []) (ENum 0))).
  - f_equal. unfold ecol, range.
    assert (G : forall k (l : list (list expr)), (forall i, nth i l [] = nth (k + i) m []) ->
              map (fun i => nth j (nth i m []) (ENum 0)) (seq k (length l)) = map (fun r => nth j r (ENum 0)) l).
    { intros k l. revert k. induction l as [|a l IH]; intros k H; [reflexivity|]. simpl. f_equal.
      - specialize (H 0%nat). rewrite Nat.add_0_r in H. simpl in H. rewrite <- H. reflexivity.
      - apply IH. intros i. specialize (H (S i)). simpl in H. rewrite H. f_equal. lia. }
    apply G. reflexivity.
  - intros i Hi. apply in_range in Hi. rewrite (entry_nth m i j (nth i m [])).
    + rewrite (nth_error_nth' (nth i m []) (ENum 0)); [reflexivity|].
      rewrite (rect_shape m); [exact Hj|exact Hm|]. apply nth_In, Hi.
    + apply nth_error_nth', Hi.
Qed.

Lemma ecol_defd p m j : Forall (Forall (defd p)) m -> Forall (defd p) (ecol m j).
Proof.
  intros H. apply Forall_map. eapply Forall_impl; [|exact H]. intros r Hr. simpl.
  destruct (nth_in_or_default j r (ENum 0)) as [Hin | ->]; [|exact I].
  rewrite Forall_forall in Hr. apply Hr, Hin.
Qed.

Lemma length_ecol m j : length (ecol m j) = length m.
Proof. apply map_length. Qed.

Lemma ncols_map p (m : list (list expr)) : ncols (map (map (ev p)) m) = snd (mat_shape m).
Proof. destruct m; simpl; [reflexivity|apply map_length]. Qed.

(** Matrix times vector. *)
Lemma mat_vec_value p m v :
  rectangular m -> snd (mat_shape m) = length v ->
  exists h, py_matmul (PFun (FM m)) (PFun (FV v)) = Ok (PFun (FV h)) /\
    map (ev p) h = map (fun r => inner r (map (ev p) v)) (map (map (ev p)) m) /\
    (Forall (Forall (defd p)) m -> Forall (defd p) v -> Forall (defd p) h).
Proof.
  intros Hm Hl. unfold py_matmul. cbn [f_matmul same_class f_rmatmul finish]. rewrite Hl, Nat.eqb_refl.
  change (fst (mat_shape m)) with (length m).
  set (g := fun i => fold_left (fun out q => EAdd out (EMul (fst q) (snd q))) (zip (nth i m []) v) (ENum 0)).
  rewrite (map_res_all _ g).
  - exists (map g (range (length m))). split; [reflexivity|]. split.
    + rewrite !map_map. unfold range.
      assert (G : forall k (l : list (list expr)), (forall i, nth i l [] = nth (k + i) m []) ->
              (forall r, In r l -> length r = length v) ->
              map (fun i => ev p (g i)) (seq k (length l)) = map (fun r => inner (map (ev p) r) (map (ev p) v)) l).
      { intros k l. revert k. induction l as [|a l IH]; intros k H Hr; [reflexivity|]. simpl. f_equal.
        - specialize (H 0%nat). rewrite Nat.add_0_r in H. simpl in H. unfold g. rewrite <- H.
          rewrite fold_add_shift. unfold inner. rewrite combine_map, map_map, zip_combine. simpl. ring.
        - apply IH; [|intros r Hr'; apply Hr; right; exact Hr'].
          intros i. specialize (H (S i)). simpl in H. rewrite H. f_equal. lia. }
      apply G; [reflexivity|]. intros r Hr. rewrite <- Hl. apply rect_shape; assumption.
    + intros Hd Hv. apply Forall_map, Forall_forall. intros i Hi. unfold g. apply in_range in Hi.
      apply fold_add_defd; [exact I|]. intros [a b] Hab. apply in_zip in Hab.
      rewrite Forall_forall in Hd, Hv. pose proof (Hd (nth i m []) (nth_In _ _ Hi)) as Hd'.
      rewrite Forall_forall in Hd'. simpl. split; [apply Hd'|apply Hv]; tauto.
  - intros i Hi. apply in_range in Hi. rewrite (mat_row_value m i (nth i m [])) by (auto using nth_error_nth').
    simpl. unfold vec_dot. rewrite (rect_shape m (nth i m [])), Hl, Nat.eqb_refl by (auto using nth_In). reflexivity.
Qed.

(** Matrix times matrix. *)
Lemma mat_mat_product p m m' :
  rectangular m -> rectangular m' -> snd (mat_shape m) = fst (mat_shape m') ->
  exists h, py_matmul (PFun (FM m)) (PFun (FM m')) = Ok (PFun (FM h)) /\
    map (map (ev p)) h = map (fun r => map (fun j => inner r (column (map (map (ev p)) m') j))
                                   (seq 0 (ncols (map (map (ev p)) m')))) (map (map (ev p)) m) /\
    rectangular h /\
    (Forall (Forall (defd p)) m -> Forall (Forall (defd p)) m' -> Forall (Forall (defd p)) h).
Proof.
  intros Hm Hm' Hl. unfold py_matmul. cbn [f_matmul]. rewrite Hl, Nat.eqb_refl.
  change (fst (mat_shape m)) with (length m).
  set (g := fun i j => fold_left (fun out q => EAdd out (EMul (fst q) (snd q))) (zip (nth i m []) (ecol m' j)) (ENum 0)).
  set (n := snd (mat_shape m')).
  rewrite (map_res_all _ (fun i => map (g i) (range n))).
  - set (h := map (fun i => map (g i) (range n)) (range (length m))).
    assert (Hrect : rectangular h).
    { apply (rect_intro _ n). intros r Hr. apply in_map_iff in Hr. destruct Hr as [i [<- _]].
      rewrite map_length. apply length_range. }
    exists h. simpl. rewrite (mk_mat_ok h Hrect). split; [reflexivity|]. split; [|split; [exact Hrect|]].
    + rewrite ncols_map. fold n. unfold h. rewrite map_map, map_map. unfold range at 2.
      assert (G : forall k (l : list (list expr)), (forall i, nth i l [] = nth (k + i) m []) ->
              map (fun i => map (ev p) (map (g i) (range n))) (seq k (length l))
              = map (fun r => map (fun j => inner (map (ev p) r) (column (map (map (ev p)) m') j)) (seq 0 n)) l).
      { intros k l. revert k. induction l as [|a l IH]; intros k H; [reflexivity|]. simpl. f_equal.
        - specialize (H 0%nat). rewrite Nat.add_0_r in H. simpl in H. unfold range. rewrite map_map.
          apply map_ext. intros j. unfold g. rewrite <- H.
          rewrite fold_add_shift, <- ecol_value. unfold inner. rewrite combine_map, map_map, zip_combine. simpl. ring.
        - apply IH. intros i. specialize (H (S i)). simpl in H. rewrite H. f_equal. lia. }
      apply G. reflexivity.
    + intros Hd Hd'. apply Forall_map, Forall_forall. intros i Hi. apply in_range in Hi.
      apply Forall_map, Forall_forall. intros j Hj. unfold g. apply fold_add_defd; [exact I|].
      intros [a b] Hab. apply in_zip in Hab.
      rewrite Forall_forall in Hd. pose proof (Hd (nth i m []) (nth_In _ _ Hi)) as Hdi.
      pose proof (ecol_defd p m' j Hd') as Hdj. rewrite Forall_forall in Hdi, Hdj. simpl. split; [apply Hdi|apply Hdj]; tauto.
  - intros i Hi. apply in_range in Hi. apply map_res_all. intros j Hj. apply in_range in Hj.
    rewrite (mat_row_value m i (nth i m [])) by (auto using nth_error_nth'). simpl.
    rewrite (mat_col_value m' j Hm' Hj). simpl. unfold vec_dot.
    rewrite (rect_shape m (nth i m [])), length_ecol, Hl by (auto using nth_In). simpl. rewrite Nat.eqb_refl. reflexivity.
Qed.

(** Vector times a square matrix. *)
Lemma vec_mat_value p v m :
  rectangular m -> fst (mat_shape m) = length v -> snd (mat_shape m) = length v ->
  exists h, py_matmul (PFun (FV v)) (PFun (FM m)) = Ok (PFun (FV h)) /\
    map (ev p) h = map (fun j => inner (map (ev p) v) (column (map (map (ev p)) m) j))
                       (seq 0 (ncols (map (map (ev p)) m))) /\
    (Forall (Forall (defd p)) m -> Forall (defd p) v -> Forall (defd p) h).
Proof.
  intros Hm Hr Hl. unfold py_matmul. cbn [f_matmul]. rewrite Hl, Nat.eqb_refl, Hr.
  set (g := fun j => fold_left (fun out q => EAdd out (EMul (fst q) (snd q))) (zip (ecol m j) v) (ENum 0)).
  rewrite (map_res_all _ g).
  - exists (map g (range (length v))). split; [reflexivity|]. split.
    + rewrite map_map, ncols_map, Hl. unfold range. apply map_ext. intros j. unfold g.
      rewrite fold_add_shift, <- ecol_value. unfold inner. rewrite !combine_map, !map_map, zip_combine. simpl.
      rewrite Rplus_0_l. generalize (ecol m j). clear. intros l. revert v.
      induction l as [|a l IH]; intros [|b v]; simpl; try reflexivity. rewrite IH. ring.
    + intros Hd Hv. apply Forall_map, Forall_forall. intros j Hj. unfold g.
      apply fold_add_defd; [exact I|]. intros [a b] Hab. apply in_zip in Hab.
      pose proof (ecol_defd p m j Hd) as Hd'. rewrite Forall_forall in Hd', Hv. simpl. split; [apply Hd'|apply Hv]; tauto.
  - intros j Hj. apply in_range in Hj. rewrite mat_col_value by (auto; lia). simpl. unfold vec_dot.
    rewrite length_ecol. simpl in Hr. rewrite Hr, Nat.eqb_refl. reflexivity.
Qed.

Lemma vec_mat_nonsquare v m :
  rectangular m -> (0 < fst (mat_shape m))%nat -> fst (mat_shape m) <> snd (mat_shape m) ->
  exists e, py_matmul (PFun (FV v)) (PFun (FM m)) = Err e /\ (e = AssertionError \/ e = IndexError).
Proof.
  intros Hm H0 Hne. unfold py_matmul. cbn [f_matmul].
  destruct (Nat.eqb (snd (mat_shape m)) (length v)) eqn:E; [|exists AssertionError; auto].
  apply Nat.eqb_eq in E. destruct (fst (mat_shape m)) as [|k] eqn:Ek; [lia|].
  change (range (S k)) with (0%nat :: seq 1 k). cbn [map_res].
  destruct (snd (mat_shape m)) as [|c] eqn:Ec.
  - destruct m as [|r m]; [simpl in Ek; discriminate|]. simpl in Ec. destruct r; [|discriminate].
    exists IndexError. split; [|auto]. unfold mat_col. simpl. reflexivity.
  - rewrite mat_col_value by (auto; lia). simpl. rewrite vec_dot_rejects.
    + exists AssertionError. auto.
    + rewrite length_ecol. simpl in Ek. lia.
Qed.

(** * .dot, .cross, .norm *)

Lemma f_dot_scalar_value p f g :
  exists e, f_dot (FS f) (PFun (FS g)) = Ok (FS e) /\ ev p e = ev p f * ev p g /\ (defd p f -> defd p g -> defd p e).
Proof. eexists. split; [reflexivity|]. simpl. auto. Qed.

Lemma rows_inner p m m' :
  Forall2 (fun a b : list expr => length a = length b) m m' ->
  fold_right Rplus 0 (map (fun q => inner (map (ev p) (fst q)) (map (ev p) (snd q))) (combine m m'))
  = inner (concat (map (map (ev p)) m)) (concat (map (map (ev p)) m')).
Proof.
  induction 1 as [|a b m m' Hab H IH]; simpl; [reflexivity|]. rewrite IH. unfold inner.
  clear IH H. revert b Hab. induction a as [|x a IHa]; intros [|y b] Hab; simpl in Hab; try discriminate; simpl.
  - ring.
  - injection Hab as Hab. rewrite <- (IHa b Hab). ring.
Qed.

Lemma mat_dot_fold p m m' (l : list (nat * nat)) e :
  (forall ij, In ij l -> exists a b, entry m (fst ij) (snd ij) = Some a /\ entry m' (fst ij) (snd ij) = Some b) ->
  exists e', fold_left (fun out ij => rbind out (fun o => rmap (EAdd o) (entry_op EMul m m' (fst ij) (snd ij)))) l (Ok e)
    = Ok e' /\
    ev p e' = ev p e + fold_right Rplus 0 (map (fun ij => match entry m (fst ij) (snd ij), entry m' (fst ij) (snd ij) with
        Some a, Some b => ev p a * ev p b | _, _ => 0 end) l) /\
    (defd p e -> (forall i j a, entry m i j = Some a -> defd p a) -> (forall i j a, entry m' i j = Some a -> defd p a) -> defd p e').
Proof.
  revert e. induction l as [|[i j] l IH]; intros e H; cbn [fold_left].
  - exists e. split; [reflexivity|]. simpl. split; [ring|auto].
  - destruct (H (i, j) (or_introl eq_refl)) as [a [b [Ea Eb]]]. cbn [fst snd] in *.
    unfold entry_op at 2. rewrite Ea, Eb. cbn [rbind rmap].
    destruct (IH (EAdd e (EMul a b)) (fun q Hq => H q (or_intror Hq))) as [e' [H1 [H2 H3]]].
    exists e'. split; [exact H1|]. split.
    + rewrite H2. simpl. rewrite Ea, Eb. ring.
    + intros He Hm Hm'. apply H3; auto. simpl. split; [exact He|]. split; [eapply Hm|eapply Hm']; eauto.
Qed.

Lemma entry_defd p m i j a : Forall (Forall (defd p)) m -> entry m i j = Some a -> defd p a.
Proof.
  unfold entry. intros H E. destruct (nth_error m i) as [r|] eqn:Er; [|discriminate].
  rewrite Forall_forall in H. pose proof (H r (nth_error_In _ _ Er)) as Hr. rewrite Forall_forall in Hr.
  apply Hr. eapply nth_error_In; eauto.
Qed.

(** The Frobenius product of square matrices. *)
Lemma entry_some m i j : rectangular m -> (i < fst (mat_shape m))%nat -> (j < snd (mat_shape m))%nat ->
  entry m i j = Some (nth j (nth i m []) (ENum 0)).
Proof.
  intros Hm Hi Hj. simpl in Hi. rewrite (entry_nth m i j (nth i m [])) by (apply nth_error_nth', Hi).
  apply nth_error_nth'. rewrite (rect_shape m); auto using nth_In.
Qed.

Lemma sum_flat_map {A} (f : A -> list R) l :
  fold_right Rplus 0 (flat_map f l) = fold_right Rplus 0 (map (fun a => fold_right Rplus 0 (f a)) l).
Proof.
  induction l as [|a l IH]; simpl; [reflexivity|]. rewrite <- IH. generalize (flat_map f l) as r. intros r.
  induction (f a) as [|b t IHt]; simpl; [ring|]. rewrite IHt. ring.
Qed.

Lemma inner_nth (u v : list R) :
  length u = length v -> inner u v = fold_right Rplus 0 (map (fun j => nth j u 0 * nth j v 0) (seq 0 (length u))).
Proof.
  revert v. induction u as [|a u IH]; intros [|b v] H; simpl in H; try discriminate; [reflexivity|].
  injection H as H. simpl. unfold inner in *. simpl. rewrite (IH v H). f_equal.
  rewrite <- seq_shift, map_map. reflexivity.
Qed.

Lemma sum_nth_combine {A} (f : list A -> list A -> R) (m m' : list (list A)) :
  length m = length m' ->
  fold_right Rplus 0 (map (fun i => f (nth i m []) (nth i m' [])) (seq 0 (length m)))
  = fold_right Rplus 0 (map (fun q => f (fst q) (snd q)) (combine m m')).
Proof.
  revert m'. induction m as [|a m IH]; intros [|b m'] H; simpl in H; try discriminate; [reflexivity|].
  injection H as H. simpl. f_equal. rewrite <- (IH m' H). rewrite <- seq_shift, map_map. reflexivity.
Qed.

Lemma mat_dot_value p m m' :
  rectangular m -> rectangular m' -> mat_shape m = mat_shape m' -> fst (mat_shape m) = snd (mat_shape m) ->
  exists e, f_dot (FM m) (PFun (FM m')) = Ok (FS e) /\
    ev p e = inner (concat (map (map (ev p)) m)) (concat (map (map (ev p)) m')) /\
    (Forall (Forall (defd p)) m -> Forall (Forall (defd p)) m' -> defd p e).
Proof.
  intros Hm Hm' Es Hsq. unfold f_dot. cbn [parse_function_input rbind]. unfold mat_dot.
  unfold shape_eqb. rewrite <- Es, !Nat.eqb_refl. cbn [andb].
  set (l := flat_map (fun i => map (pair i) (range (fst (mat_shape m)))) (range (fst (mat_shape m)))).
  destruct (mat_dot_fold p m m' l (ENum 0)) as [e [H1 [H2 H3]]].
  { intros [i j] Hij. unfold l in Hij. apply in_flat_map in Hij. destruct Hij as [i' [Hi Hj]].
    apply in_map_iff in Hj. destruct Hj as [j' [E Hj]]. injection E as -> ->. apply in_range in Hi, Hj.
    cbn [fst snd]. rewrite Hsq in Hj. do 2 eexists. split.
    - apply entry_some; auto.
    - apply entry_some; [auto| |]; rewrite <- Es; auto. }
  rewrite H1. exists e. split; [reflexivity|]. split.
  - rewrite H2. unfold l. rewrite flat_map_concat_map, concat_map, map_map, <- flat_map_concat_map.
    rewrite sum_flat_map. rewrite <- (rows_inner p m m' (same_shape_rows m m' Hm Hm' Es)).
    rewrite <- (sum_nth_combine (fun a b => inner (map (ev p) a) (map (ev p) b)) m m') by (injection Es; auto).
    simpl (ev p (ENum 0)). rewrite Rplus_0_l. change (fst (mat_shape m)) with (length m). unfold range.
    f_equal. apply map_ext_in. intros i Hi. apply in_seq in Hi.
    assert (L : length (nth i m []) = length m).
    { rewrite (rect_shape m); [simpl in Hsq; auto|exact Hm|apply nth_In; lia]. }
    assert (L' : length (nth i m' []) = length m).
    { rewrite (rect_shape m'); [rewrite <- Es, <- Hsq; reflexivity|exact Hm'|apply nth_In].
      injection Es as El _. rewrite <- El. lia. }
    rewrite inner_nth by (rewrite !map_length; congruence). rewrite map_length, L. f_equal.
    rewrite map_map. apply map_ext_in. intros j Hj. apply in_seq in Hj. cbn [fst snd].
    rewrite (entry_some m), (entry_some m'); auto.
    + change 0 with (ev p (ENum 0)). rewrite !map_nth. reflexivity.
    + rewrite <- Es. simpl. lia.
    + rewrite <- Es, <- Hsq. simpl. lia.
    + simpl. lia.
    + rewrite <- Hsq. simpl. lia.
  - intros Hd Hd'. apply H3; [exact I| |]; intros i j a Ha; [apply (entry_defd p m i j a Hd Ha)|apply (entry_defd p m' i j a Hd' Ha)].
Qed.

Lemma f_cross_value p v w u :
  cross_product (VV (map (ev p) v)) (VV (map (ev p) w)) = Some u ->
  exists h, f_cross (FV v) (PFun (FV w)) = Ok h /\ denotes p (PFun h) u /\
    (Forall (defd p) v -> Forall (defd p) w -> defined p (PFun h)).
Proof.
  destruct v as [|v0 [|v1 [|v2 [|v3 v]]]]; simpl; try discriminate;
  destruct w as [|w0 [|w1 [|w2 [|w3 w]]]]; simpl; try discriminate; intros H; injection H as <-;
  eexists; (split; [reflexivity|]); simpl.
  - split; [ring|]. intros Hv Hw. inversion Hv; inversion Hw; subst.
    repeat match goal with H : Forall _ (_ :: _) |- _ => inversion H; clear H; subst end. tauto.
  - split; [f_equal; [ring|f_equal; [ring|f_equal; ring]]|]. intros Hv Hw.
    repeat match goal with H : Forall _ (_ :: _) |- _ => inversion H; clear H; subst end.
    repeat constructor; simpl; tauto.
Qed.

Lemma f_cross_rejects p v w :
  cross_product (VV (map (ev p) v)) (VV (map (ev p) w)) = None -> f_cross (FV v) (PFun (FV w)) = Err AssertionError.
Proof.
  destruct v as [|v0 [|v1 [|v2 [|v3 v]]]]; simpl; try reflexivity;
  destruct w as [|w0 [|w1 [|w2 [|w3 w]]]]; simpl; try reflexivity; discriminate.
Qed.

Lemma norm_fold p v e :
  ev p (fold_left (fun a i => EAdd a (EPow i 2)) v e)
  = ev p e + fold_right Rplus 0 (map (fun a => a * a) (map (ev p) v)).
Proof. revert e. induction v as [|a v IH]; intros e; simpl; [ring|]. rewrite IH. simpl. ring. Qed.

Lemma norm_fold_defd p v e : defd p e -> Forall (defd p) v ->
  defd p (fold_left (fun a i => EAdd a (EPow i 2)) v e).
Proof.
  revert e. induction v as [|a v IH]; intros e He H; simpl; [exact He|]. inversion H; subst. apply IH; simpl; auto.
Qed.

Lemma sum_squares_pos l : 0 <= fold_right Rplus 0 (map (fun a => a * a) l).
Proof. induction l as [|a l IH]; simpl; [lra|]. pose proof (Rle_0_sqr a). unfold Rsqr in *. lra. Qed.

Lemma f_norm_value p v :
  exists e, f_norm (FV v) = Ok (FS e) /\ ev p e = sqrt (inner (map (ev p) v) (map (ev p) v)) /\
    (Forall (defd p) v -> defd p e).
Proof.
  eexists. split; [reflexivity|]. split.
  - cbn [ev]. rewrite norm_fold. simpl. rewrite Rplus_0_l. f_equal. unfold inner.
    induction (map (ev p) v) as [|a l IH]; simpl; [reflexivity|]. rewrite IH. reflexivity.
  - intros H. cbn [defd]. split; [apply norm_fold_defd; [exact I|exact H]|].
    rewrite norm_fold. simpl. rewrite Rplus_0_l. apply sum_squares_pos.
Qed.
