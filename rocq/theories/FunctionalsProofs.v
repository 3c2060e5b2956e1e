(** Proofs that degrees of freedom are linear. *)
From Coquelicot Require Import Coquelicot.
From Coq Require Import String Reals ZArith Arith Bool Lia Lra List.
From Verif Require Import Base.
From Verif Require ReferencesModel.
From Verif Require Import FunctionsModel FunctionsSpec FunctionsProofs FunctionsSubs FunctionalsModel FunctionalsSpec.
Import ListNotations.
Local Open Scope R_scope.

(** Three lists of equal length whose items are related. *)
Inductive all3 {A} (P : A -> A -> A -> Prop) : list A -> list A -> list A -> Prop :=
| all3_nil : all3 P [] [] []
| all3_cons x y z l m n : P x y z -> all3 P l m n -> all3 P (x :: l) (y :: m) (z :: n).

Lemma all3_length {A} P (l m n : list A) : all3 P l m n -> length m = length l /\ length n = length l.
Proof. induction 1 as [|x y z l m n _ _ [IH1 IH2]]; simpl; [auto|rewrite IH1, IH2; auto]. Qed.

Lemma all3_impl {A} (P Q : A -> A -> A -> Prop) l m n : (forall x y z, P x y z -> Q x y z) -> all3 P l m n -> all3 Q l m n.
Proof. intros H. induction 1; constructor; auto. Qed.

Lemma all3_map {A B} (P : A -> A -> A -> Prop) (Q : B -> B -> B -> Prop) (f : A -> B) l m n :
  (forall x y z, P x y z -> Q (f x) (f y) (f z)) -> all3 P l m n -> all3 Q (map f l) (map f m) (map f n).
Proof. intros H. induction 1; simpl; constructor; auto. Qed.

Lemma all3_nth {A} P (l m n : list A) i x y : all3 P l m n -> nth_error l i = Some x -> nth_error m i = Some y ->
  exists z, nth_error n i = Some z /\ P x y z.
Proof.
  intros H. revert i. induction H as [|x' y' z' l m n Hp _ IH]; intros [|i] Hx Hy; simpl in *; try discriminate.
  - injection Hx as <-. injection Hy as <-. eauto.
  - eauto.
Qed.

Lemma map_res_all3 {A B} (P : A -> A -> A -> Prop) (Q : B -> B -> B -> Prop) (f : A -> res B) l m n :
  (forall x y z x' y', P x y z -> f x = Ok x' -> f y = Ok y' -> exists z', f z = Ok z' /\ Q x' y' z') ->
  all3 P l m n -> forall l' m', map_res f l = Ok l' -> map_res f m = Ok m' ->
  exists n', map_res f n = Ok n' /\ all3 Q l' m' n'.
Proof.
  intros H. induction 1 as [|x y z l m n Hp _ IH]; intros l' m' Hl Hm; simpl in *.
  - injection Hl as <-. injection Hm as <-. exists []. split; constructor.
  - destruct (f x) as [x'|] eqn:Ex; [|discriminate]. destruct (f y) as [y'|] eqn:Ey; [|discriminate]. simpl in *.
    destruct (map_res f l) as [l0|] eqn:El; [|discriminate]. destruct (map_res f m) as [m0|] eqn:Em; [|discriminate].
    simpl in *. injection Hl as <-. injection Hm as <-. destruct (H x y z x' y' Hp Ex Ey) as [z' [Ez Hq]].
    destruct (IH l0 m0 eq_refl eq_refl) as [n0 [En Hn]]. rewrite Ez, En. simpl. exists (z' :: n0). split; [reflexivity|].
    constructor; assumption.
Qed.

Lemma map_res_index {B} (Q : B -> B -> B -> Prop) (f g h : nat -> res B) l :
  (forall i x y, In i l -> f i = Ok x -> g i = Ok y -> exists z, h i = Ok z /\ Q x y z) ->
  forall l' m', map_res f l = Ok l' -> map_res g l = Ok m' -> exists n', map_res h l = Ok n' /\ all3 Q l' m' n'.
Proof.
  induction l as [|i l IH]; intros H l' m' Hl Hm; simpl in *.
  - injection Hl as <-. injection Hm as <-. exists []. split; constructor.
  - destruct (f i) as [x'|] eqn:Ex; [|discriminate]. destruct (g i) as [y'|] eqn:Ey; [|discriminate]. simpl in *.
    destruct (map_res f l) as [l0|] eqn:El; [|discriminate]. destruct (map_res g l) as [m0|] eqn:Em; [|discriminate].
    simpl in *. injection Hl as <-. injection Hm as <-. destruct (H i x' y' (or_introl eq_refl) Ex Ey) as [z' [Ez Hq]].
    destruct (IH (fun j x y Hj => H j x y (or_intror Hj)) l0 m0 eq_refl eq_refl) as [n0 [En Hn]].
    rewrite Ez, En. simpl. exists (z' :: n0). split; [reflexivity|]. constructor; assumption.
Qed.

Section Lin.
Variables a b : R.

Definition diffs (ds : list sym) (e : expr) : expr := fold_left (fun e s => ediff s e) ds e.

(** The value of h is a*f + b*g; the same for all its derivatives. *)
Definition L0 (f g h : expr) : Prop := forall p, ev p h = a * ev p f + b * ev p g.
Definition LD (f g h : expr) : Prop := forall ds p, ev p (diffs ds h) = a * ev p (diffs ds f) + b * ev p (diffs ds g).

Lemma LD_L0 f g h : LD f g h -> L0 f g h.
Proof. intros H. exact (H []). Qed.
Lemma LD_diff s f g h : LD f g h -> LD (ediff s f) (ediff s g) (ediff s h).
Proof. intros H ds. exact (H (s :: ds)). Qed.

Lemma diffs_add ds p u v : ev p (diffs ds (EAdd u v)) = ev p (diffs ds u) + ev p (diffs ds v).
Proof. revert u v. induction ds as [|s ds IH]; intros u v; [reflexivity|]. unfold diffs in *. simpl. apply IH. Qed.

Lemma diffs_zero ds p : ev p (diffs ds (ENum 0)) = 0.
Proof. induction ds as [|s ds IH]; [reflexivity|]. exact IH. Qed.

Lemma diffs_const ds p u c : ev p (diffs ds (EMul u (ENum c))) = c * ev p (diffs ds u).
Proof.
  revert u c. induction ds as [|s ds IH]; intros u c; [simpl; ring|].
  change (diffs (s :: ds) (EMul u (ENum c))) with (diffs ds (EAdd (EMul (ediff s u) (ENum c)) (EMul u (ENum 0)))).
  rewrite diffs_add, !IH. change (diffs (s :: ds) u) with (diffs ds (ediff s u)). ring.
Qed.

Lemma LD_base f g : LD f g (EAdd (EMul f (ENum a)) (EMul g (ENum b))).
Proof. intros ds p. rewrite diffs_add, !diffs_const. reflexivity. Qed.

Lemma LD_zero : LD (ENum 0) (ENum 0) (ENum 0).
Proof. intros ds p. rewrite diffs_zero. ring. Qed.

Lemma LD_add f g h f' g' h' : LD f g h -> LD f' g' h' -> LD (EAdd f f') (EAdd g g') (EAdd h h').
Proof. intros H H' ds p. rewrite !diffs_add, H, H'. ring. Qed.

Lemma LD_mul f g h d : LD f g h -> LD (EMul f d) (EMul g d) (EMul h d).
Proof.
  intros H ds. revert f g h d H. induction ds as [|s ds IH]; intros f g h d H p.
  - unfold diffs. simpl. rewrite (LD_L0 _ _ _ H). ring.
  - change (diffs (s :: ds) (EMul h d)) with (diffs ds (EAdd (EMul (ediff s h) d) (EMul h (ediff s d)))).
    change (diffs (s :: ds) (EMul f d)) with (diffs ds (EAdd (EMul (ediff s f) d) (EMul f (ediff s d)))).
    change (diffs (s :: ds) (EMul g d)) with (diffs ds (EAdd (EMul (ediff s g) d) (EMul g (ediff s d)))).
    rewrite !diffs_add. rewrite (IH _ _ _ d (LD_diff s _ _ _ H)), (IH _ _ _ (ediff s d) H). ring.
Qed.

Lemma L0_zero : L0 (ENum 0) (ENum 0) (ENum 0).
Proof. exact (LD_L0 _ _ _ LD_zero). Qed.
Lemma L0_add f g h f' g' h' : L0 f g h -> L0 f' g' h' -> L0 (EAdd f f') (EAdd g g') (EAdd h h').
Proof. intros H H' p. simpl. rewrite H, H'. ring. Qed.
Lemma L0_mul f g h d : L0 f g h -> L0 (EMul f d) (EMul g d) (EMul h d).
Proof. intros H p. simpl. rewrite H. ring. Qed.
Lemma L0_mul_l f g h d : L0 f g h -> L0 (EMul d f) (EMul d g) (EMul d h).
Proof. intros H p. simpl. rewrite H. ring. Qed.

(** The same for scalar, vector and matrix functions. *)
Inductive flin (L : expr -> expr -> expr -> Prop) : func -> func -> func -> Prop :=
| flin_S f g h : L f g h -> flin L (FS f) (FS g) (FS h)
| flin_V v w u : all3 L v w u -> flin L (FV v) (FV w) (FV u)
| flin_M m n k : all3 (all3 L) m n k -> flin L (FM m) (FM n) (FM k).

Lemma flin_impl (L L' : expr -> expr -> expr -> Prop) f g h :
  (forall x y z, L x y z -> L' x y z) -> flin L f g h -> flin L' f g h.
Proof.
  intros H. destruct 1; constructor; auto; apply (all3_impl _ _ _ _ _) with (2 := H0); auto.
  intros x y z. apply all3_impl. exact H.
Qed.
Lemma flin_D0 f g h : flin LD f g h -> flin L0 f g h.
Proof. apply flin_impl. exact LD_L0. Qed.

Lemma mk_mat_all3 L m n k f g : all3 (all3 L) m n k -> mk_mat m = Ok f -> mk_mat n = Ok g ->
  mk_mat k = Ok (FM k) /\ flin L f g (FM k).
Proof.
  intros H Hm Hn. destruct (mk_mat_inv m f Hm) as [-> Rm]. destruct (mk_mat_inv n g Hn) as [-> _]. split; [|constructor; exact H].
  apply mk_mat_ok. apply (rect_intro k (snd (mat_shape m))). intros r Hr. apply In_nth_error in Hr. destruct Hr as [i Hi].
  destruct (all3_length _ _ _ _ H) as [E1 E2].
  assert (Li : (i < length m)%nat). { rewrite <- E2. apply nth_error_Some. congruence. }
  destruct (nth_error m i) as [r1|] eqn:E; [|apply nth_error_None in E; lia].
  destruct (nth_error n i) as [r2|] eqn:E'; [|apply nth_error_None in E'; lia].
  destruct (all3_nth _ _ _ _ i r1 r2 H E E') as [r3 [E3 Hr]]. rewrite E3 in Hi. injection Hi as <-.
  destruct (all3_length _ _ _ _ Hr) as [_ ->]. apply rect_shape; [exact Rm|]. exact (nth_error_In _ _ E).
Qed.

(** f.diff *)
Lemma lin_diff s f g h f' g' : flin LD f g h -> f_diff f s = Ok f' -> f_diff g s = Ok g' ->
  exists h', f_diff h s = Ok h' /\ flin LD f' g' h'.
Proof.
  intros H Hf Hg. destruct H as [f g h H|v w u H|m n k H]; simpl in *.
  - injection Hf as <-. injection Hg as <-. eexists. split; [reflexivity|]. constructor. apply LD_diff. exact H.
  - injection Hf as <-. injection Hg as <-. eexists. split; [reflexivity|]. constructor.
    apply all3_map with (2 := H). intros x y z. apply LD_diff.
  - assert (A : all3 (all3 LD) (map (map (ediff s)) m) (map (map (ediff s)) n) (map (map (ediff s)) k)).
    { apply all3_map with (2 := H). intros x y z. apply all3_map. intros x' y' z'. apply LD_diff. }
    destruct (mk_mat_all3 LD _ _ _ _ _ A Hf Hg) as [E F]. eexists. split; [exact E|exact F].
Qed.

Lemma lin_iterate n F f g h f' g' :
  (forall f g h f' g', flin LD f g h -> F f = Ok f' -> F g = Ok g' -> exists h', F h = Ok h' /\ flin LD f' g' h') ->
  flin LD f g h -> iterate n F f = Ok f' -> iterate n F g = Ok g' -> exists h', iterate n F h = Ok h' /\ flin LD f' g' h'.
Proof.
  intros HF. revert f g h. induction n as [|n IH]; intros f g h H Hf Hg; cbn [iterate] in *.
  - injection Hf as <-. injection Hg as <-. eauto.
  - destruct (F f) as [f1|] eqn:Ef; [|discriminate]. destruct (F g) as [g1|] eqn:Eg; [|discriminate]. cbn [rbind] in *.
    destruct (HF f g h f1 g1 H Ef Eg) as [h1 [Eh H1]]. rewrite Eh. cbn [rbind]. exact (IH f1 g1 h1 H1 Hf Hg).
Qed.

Lemma lin_diffs_along dirs f g h f' g' : flin LD f g h -> diffs_along f dirs = Ok f' -> diffs_along g dirs = Ok g' ->
  exists h', diffs_along h dirs = Ok h' /\ flin LD f' g' h'.
Proof.
  revert f g h. induction dirs as [|[i j] dirs IH]; intros f g h H Hf Hg; cbn [diffs_along] in *.
  - injection Hf as <-. injection Hg as <-. eauto.
  - destruct (iterate j (fun f => f_diff f i) f) as [f1|] eqn:Ef; [|discriminate].
    destruct (iterate j (fun f => f_diff f i) g) as [g1|] eqn:Eg; [|discriminate]. cbn [rbind] in *.
    destruct (lin_iterate j (fun f => f_diff f i) f g h f1 g1 (lin_diff i) H Ef Eg) as [h1 [Eh H1]].
    rewrite Eh. cbn [rbind]. exact (IH f1 g1 h1 H1 Hf Hg).
Qed.

(** f.grad *)
Lemma lin_grad dim f g h f' g' : flin LD f g h -> f_grad f dim = Ok f' -> f_grad g dim = Ok g' ->
  exists h', f_grad h dim = Ok h' /\ flin LD f' g' h'.
Proof.
  intros H Hf Hg. destruct H as [f g h H|v w u H|m n k H]; simpl in Hf, Hg; try discriminate.
  unfold f_grad in *.
  destruct (map_res (fun i => rmap (fun s => ediff s f) (x_at i)) (range dim)) as [lf|] eqn:Ef; [|discriminate].
  destruct (map_res (fun i => rmap (fun s => ediff s g) (x_at i)) (range dim)) as [lg|] eqn:Eg; [|discriminate].
  simpl in Hf, Hg. injection Hf as <-. injection Hg as <-.
  destruct (map_res_index LD (fun i => rmap (fun s => ediff s f) (x_at i)) (fun i => rmap (fun s => ediff s g) (x_at i))
    (fun i => rmap (fun s => ediff s h) (x_at i)) (range dim)) with (2 := Ef) (3 := Eg) as [lh [Eh Hl]].
  - intros i x y _ Hx Hy. destruct (x_at i) as [s|]; [|discriminate]. simpl in *. injection Hx as <-. injection Hy as <-.
    eexists. split; [reflexivity|]. apply LD_diff. exact H.
  - rewrite Eh. simpl. eexists. split; [reflexivity|]. constructor. exact Hl.
Qed.

(** Sums of products *)
Lemma lin_sum (L : expr -> expr -> expr -> Prop) v1 v2 v3 w e1 e2 e3 :
  (forall f g h f' g' h', L f g h -> L f' g' h' -> L (EAdd f f') (EAdd g g') (EAdd h h')) ->
  (forall f g h d, L f g h -> L (EMul f d) (EMul g d) (EMul h d)) ->
  all3 L v1 v2 v3 -> L e1 e2 e3 ->
  L (fold_left (fun out p => EAdd out (EMul (fst p) (snd p))) (zip v1 w) e1)
    (fold_left (fun out p => EAdd out (EMul (fst p) (snd p))) (zip v2 w) e2)
    (fold_left (fun out p => EAdd out (EMul (fst p) (snd p))) (zip v3 w) e3).
Proof.
  intros HA HM H. revert w e1 e2 e3. induction H as [|x y z v1 v2 v3 Hx _ IH]; intros [|d w] e1 e2 e3 He; simpl; auto.
Qed.
Lemma lin_sum_l v1 v2 v3 w e1 e2 e3 :
  all3 L0 v1 v2 v3 -> L0 e1 e2 e3 ->
  L0 (fold_left (fun out p => EAdd out (EMul (fst p) (snd p))) (zip w v1) e1)
     (fold_left (fun out p => EAdd out (EMul (fst p) (snd p))) (zip w v2) e2)
     (fold_left (fun out p => EAdd out (EMul (fst p) (snd p))) (zip w v3) e3).
Proof.
  intros H. revert w e1 e2 e3. induction H as [|x y z v1 v2 v3 Hx _ IH]; intros [|d w] e1 e2 e3 He; simpl; auto.
  apply IH. apply L0_add; [exact He|]. apply L0_mul_l. exact Hx.
Qed.

Lemma lin_vec_dot (L : expr -> expr -> expr -> Prop) v1 v2 v3 w e1 e2 :
  (forall f g h f' g' h', L f g h -> L f' g' h' -> L (EAdd f f') (EAdd g g') (EAdd h h')) ->
  (forall f g h d, L f g h -> L (EMul f d) (EMul g d) (EMul h d)) -> L (ENum 0) (ENum 0) (ENum 0) ->
  all3 L v1 v2 v3 -> vec_dot v1 w = Ok e1 -> vec_dot v2 w = Ok e2 -> exists e3, vec_dot v3 w = Ok e3 /\ L e1 e2 e3.
Proof.
  intros HA HM H0 H E1 E2. destruct (all3_length _ _ _ _ H) as [L1 L2]. unfold vec_dot in *. rewrite L2. rewrite L1 in E2.
  destruct (Nat.eqb (length v1) (length w)); [|discriminate]. injection E1 as <-. injection E2 as <-.
  eexists. split; [reflexivity|]. apply lin_sum; auto.
Qed.
Lemma lin_vec_dot_l v1 v2 v3 w e1 e2 :
  all3 L0 v1 v2 v3 -> vec_dot w v1 = Ok e1 -> vec_dot w v2 = Ok e2 -> exists e3, vec_dot w v3 = Ok e3 /\ L0 e1 e2 e3.
Proof.
  intros H E1 E2. destruct (all3_length _ _ _ _ H) as [L1 L2]. unfold vec_dot in *. rewrite L2. rewrite L1 in E2.
  destruct (Nat.eqb (length w) (length v1)); [|discriminate]. injection E1 as <-. injection E2 as <-.
  eexists. split; [reflexivity|]. apply lin_sum_l; [exact H|]. exact L0_zero.
Qed.

Lemma lin_directional_diffs dirs f g h f' g' : flin LD f g h ->
  directional_diffs f dirs = Ok f' -> directional_diffs g dirs = Ok g' ->
  exists h', directional_diffs h dirs = Ok h' /\ flin LD f' g' h'.
Proof.
  revert f g h. induction dirs as [|[dir o] dirs IH]; intros f g h H Hf Hg; cbn [directional_diffs] in *.
  - injection Hf as <-. injection Hg as <-. eauto.
  - set (F := fun f => rbind (f_grad f (length dir)) (fun g => f_dot g (PFun (FV dir)))) in *.
    destruct (iterate o F f) as [f1|] eqn:Ef; [|discriminate]. destruct (iterate o F g) as [g1|] eqn:Eg; [|discriminate].
    cbn [rbind] in *.
    assert (HF : forall f g h f' g', flin LD f g h -> F f = Ok f' -> F g = Ok g' -> exists h', F h = Ok h' /\ flin LD f' g' h').
    { clear. intros f g h f' g' H Hf Hg. unfold F in *.
      destruct (f_grad f (length dir)) as [f1|] eqn:Ef; [|discriminate]. destruct (f_grad g (length dir)) as [g1|] eqn:Eg; [|discriminate].
      cbn [rbind] in *. destruct (lin_grad _ _ _ _ _ _ H Ef Eg) as [h1 [Eh H1]]. rewrite Eh. cbn [rbind].
      destruct H1 as [f0 g0 h0 H1|v w u H1|m n k H1]; cbn [f_dot parse_function_input rbind] in *; try discriminate.
      destruct (vec_dot v dir) as [e1|] eqn:E1; [|discriminate]. destruct (vec_dot w dir) as [e2|] eqn:E2; [|discriminate].
      cbn [rmap] in *. injection Hf as <-. injection Hg as <-.
      destruct (lin_vec_dot LD v w u dir e1 e2 LD_add LD_mul LD_zero H1 E1 E2) as [e3 [E3 H3]].
      rewrite E3. cbn [rmap]. eexists. split; [reflexivity|]. constructor. exact H3. }
    destruct (lin_iterate o F f g h f1 g1 HF H Ef Eg) as [h1 [Eh H1]]. rewrite Eh. cbn [rbind]. exact (IH f1 g1 h1 H1 Hf Hg).
Qed.

Lemma lin_directional_derivative dir f g h f' g' : flin LD f g h ->
  f_directional_derivative f dir = Ok f' -> f_directional_derivative g dir = Ok g' ->
  exists h', f_directional_derivative h dir = Ok h' /\ flin L0 f' g' h'.
Proof.
  intros H Hf Hg. destruct H as [f g h H|v w u H|m n k H]; simpl in Hf, Hg; try discriminate.
  unfold f_directional_derivative in *. injection Hf as <-. injection Hg as <-. eexists. split; [reflexivity|]. constructor.
  set (l := zip x_symbols dir). assert (G : forall l e1 e2 e3, L0 e1 e2 e3 ->
    L0 (fold_left (fun out p => EAdd out (EMul (snd p) (ediff (fst p) f))) l e1)
       (fold_left (fun out p => EAdd out (EMul (snd p) (ediff (fst p) g))) l e2)
       (fold_left (fun out p => EAdd out (EMul (snd p) (ediff (fst p) h))) l e3)); [|apply G; exact L0_zero].
  clear l. induction l as [|[s d] l IH]; intros e1 e2 e3 He; simpl; [exact He|]. apply IH. apply L0_add; [exact He|].
  apply L0_mul_l. apply LD_L0. apply LD_diff. exact H.
Qed.

Lemma lin_div f g h f' g' : flin LD f g h -> f_div f = Ok f' -> f_div g = Ok g' ->
  exists h', f_div h = Ok h' /\ flin L0 f' g' h'.
Proof.
  intros H Hf Hg. destruct H as [f g h H|v w u H|m n k H]; simpl in Hf, Hg; try discriminate.
  unfold f_div in *. injection Hf as <-. injection Hg as <-. eexists. split; [reflexivity|]. constructor.
  assert (G : forall l e1 e2 e3, L0 e1 e2 e3 ->
    L0 (fold_left (fun out p => EAdd out (ediff (snd p) (fst p))) (zip v l) e1)
       (fold_left (fun out p => EAdd out (ediff (snd p) (fst p))) (zip w l) e2)
       (fold_left (fun out p => EAdd out (ediff (snd p) (fst p))) (zip u l) e3)); [|apply G; exact L0_zero].
  induction H as [|x y z v w u Hx _ IH]; intros [|s l] e1 e2 e3 He; simpl; try exact He.
  apply IH. apply L0_add; [exact He|]. apply LD_L0. apply LD_diff. exact Hx.
Qed.

(** Substitution: the value of the result is the value of the expression at a point that does not depend on
    the expression. *)
Lemma fold_esubs_env l p : exists q, forall e, ev p (fold_left (fun e (sv : sym * expr) => esubs (fst sv) (snd sv) e) l e) = ev q e.
Proof.
  revert p. induction l as [|[s v] l IH]; intros p; [exists p; reflexivity|].
  destruct (IH p) as [q Hq]. exists (upd q s (ev q v)). intros e. cbn [fold_left fst snd]. rewrite Hq. apply ev_esubs.
Qed.

Lemma map_res_as_expr l : map_res as_expr (map PExpr l) = Ok l.
Proof. induction l as [|e l IH]; [reflexivity|]. simpl. rewrite IH. reflexivity. Qed.

Definition sub_at (point : list expr) (e : expr) : expr :=
  let dummies := map dummy (range (length (map PExpr point))) in
  fold_left (fun e p => esubs (fst p) (snd p) e) (zip dummies point)
    (fold_left (fun e p => esubs (fst p) (ESym (snd p)) e) (zip x_symbols dummies) e).

Lemma subs_expr_at point e : subs_expr e (VarList x_symbols) (PSeq (map PExpr point)) = Ok (sub_at point e).
Proof. unfold subs_expr. cbn [as_sympy]. rewrite map_res_as_expr. reflexivity. Qed.

Lemma sub_at_env point p : exists q, forall e, ev p (sub_at point e) = ev q e.
Proof.
  unfold sub_at. set (ds := map dummy (range (length (map PExpr point)))).
  destruct (fold_esubs_env (zip ds point) p) as [q1 H1].
  destruct (fold_esubs_env (map (fun p => (fst p, ESym (snd p))) (zip x_symbols ds)) q1) as [q2 H2].
  exists q2. intros e. rewrite H1. rewrite <- H2. f_equal. generalize (zip x_symbols ds). clear. intros l.
  revert e. induction l as [|[s v] l IH]; intros e; [reflexivity|]. simpl. apply IH.
Qed.

Lemma L0_sub point f g h : L0 f g h -> L0 (sub_at point f) (sub_at point g) (sub_at point h).
Proof. intros H p. destruct (sub_at_env point p) as [q Hq]. rewrite !Hq. apply H. Qed.

Lemma lin_at_point point f g h f' g' : flin L0 f g h -> at_point f point = Ok f' -> at_point g point = Ok g' ->
  exists h', at_point h point = Ok h' /\ flin L0 f' g' h'.
Proof.
  assert (B : forall x y z x' y', L0 x y z -> subs_expr x (VarList x_symbols) (PSeq (map PExpr point)) = Ok x' ->
    subs_expr y (VarList x_symbols) (PSeq (map PExpr point)) = Ok y' ->
    exists z', subs_expr z (VarList x_symbols) (PSeq (map PExpr point)) = Ok z' /\ L0 x' y' z').
  { intros x y z x' y' H. rewrite !subs_expr_at. intros Hx Hy. injection Hx as <-. injection Hy as <-. eexists.
    split; [reflexivity|]. apply L0_sub. exact H. }
  intros H Hf Hg. unfold at_point in *. destruct H as [f g h H|v w u H|m n k H]; unfold f_subs in *.
  - destruct (subs_expr f _ _) as [f1|] eqn:Ef; [|discriminate]. destruct (subs_expr g _ _) as [g1|] eqn:Eg; [|discriminate].
    destruct (B _ _ _ _ _ H Ef Eg) as [h1 [Eh H1]]. rewrite Eh. simpl in *. injection Hf as <-. injection Hg as <-.
    eexists. split; [reflexivity|]. constructor. exact H1.
  - destruct (map_res _ v) as [f1|] eqn:Ef; [|discriminate]. destruct (map_res _ w) as [g1|] eqn:Eg; [|discriminate].
    destruct (map_res_all3 L0 L0 _ v w u B H _ _ Ef Eg) as [h1 [Eh H1]]. rewrite Eh. cbn [rmap] in *.
    injection Hf as <-. injection Hg as <-. eexists. split; [reflexivity|]. constructor. exact H1.
  - destruct (map_res _ m) as [f1|] eqn:Ef; [|discriminate]. destruct (map_res _ n) as [g1|] eqn:Eg; [|discriminate].
    destruct (map_res_all3 (all3 L0) (all3 L0) (map_res (fun i => subs_expr i (VarList x_symbols) (PSeq (map PExpr point)))) m n k) with (2 := H) (3 := Ef) (4 := Eg) as [h1 [Eh H1]].
    { intros x y z x' y' Hxyz. apply (map_res_all3 L0 L0 _ x y z B Hxyz). }
    rewrite Eh. cbn [rbind] in *. destruct (mk_mat_all3 L0 _ _ _ _ _ H1 Hf Hg) as [E F]. eauto.
Qed.

(** Multiplication by a number. *)
Lemma lin_mul f g h c f' g' :
  flin L0 f g h -> fun_of (py_mul (PFun f) (PExpr c)) = Ok f' -> fun_of (py_mul (PFun g) (PExpr c)) = Ok g' ->
  exists h', fun_of (py_mul (PFun h) (PExpr c)) = Ok h' /\ flin L0 f' g' h'.
Proof.
  intros H. destruct H as [f g h H|v w u H|m n k H]; unfold py_mul, binop, f_mul, scaling; cbn [as_expr rmap fun_of rbind].
  - intros Hf Hg. injection Hf as <-. injection Hg as <-. eexists. split; [reflexivity|]. constructor. apply L0_mul. exact H.
  - intros Hf Hg. injection Hf as <-. injection Hg as <-. eexists. split; [reflexivity|]. constructor.
    apply all3_map with (2 := H). intros x y z. apply L0_mul.
  - destruct (mk_mat (map (map (fun i => EMul i c)) m)) as [f1|] eqn:Ef; [|discriminate].
    destruct (mk_mat (map (map (fun i => EMul i c)) n)) as [g1|] eqn:Eg; [|discriminate].
    cbn [rmap rbind]. intros Hf Hg. injection Hf as <-. injection Hg as <-.
    assert (A : all3 (all3 L0) (map (map (fun i => EMul i c)) m) (map (map (fun i => EMul i c)) n) (map (map (fun i => EMul i c)) k)).
    { apply all3_map with (2 := H). intros x y z. apply all3_map. intros x' y' z'. apply L0_mul. }
    destruct (mk_mat_all3 L0 _ _ _ _ _ A Ef Eg) as [E F]. rewrite E. eexists. split; [reflexivity|exact F].
Qed.

Lemma py_mul_scalar v e : fun_of (py_mul (PFun v) (PFun (FS e))) = fun_of (py_mul (PFun v) (PExpr e)).
Proof. destruct v; reflexivity. Qed.

(** Multiplication by a function: only scalars give a scalar. *)
Lemma py_mul_scalar_inv v f e : fun_of (py_mul (PFun v) (PFun f)) = Ok (FS e) -> exists c d, v = FS c /\ f = FS d.
Proof.
  destruct v as [c|v|m], f as [d|w|n]; unfold py_mul, binop, f_mul, f_rmul, scaling; cbn [as_expr rmap fun_of rbind same_class finish];
    intros H; try discriminate H; eauto.
  - destruct (mk_mat _) as [k|] eqn:E in H; [|discriminate]. apply mk_mat_inv in E. destruct E as [-> _]. discriminate H.
  - destruct (mk_mat _) as [k|] eqn:E in H; [|discriminate]. apply mk_mat_inv in E. destruct E as [-> _]. discriminate H.
Qed.

(** .dot with a fixed function. *)
Lemma lin_entry L m n k i j x y : all3 (all3 L) m n k -> entry m i j = Some x -> entry n i j = Some y ->
  exists z, entry k i j = Some z /\ L x y z.
Proof.
  intros H Hx Hy. unfold entry in *. destruct (nth_error m i) as [r|] eqn:Er; [|discriminate].
  destruct (nth_error n i) as [s|] eqn:Es; [|discriminate]. destruct (all3_nth _ _ _ _ i r s H Er Es) as [q [Eq Hq]].
  rewrite Eq. exact (all3_nth _ _ _ _ j x y Hq Hx Hy).
Qed.

Lemma all3_shape L (m n k : list (list expr)) : all3 (all3 L) m n k -> mat_shape n = mat_shape m /\ mat_shape k = mat_shape m.
Proof.
  intros H. destruct (all3_length _ _ _ _ H) as [L1 L2]. unfold mat_shape. rewrite L1, L2.
  destruct H as [|r s q m n k Hr _]; [split; reflexivity|]. destruct (all3_length _ _ _ _ Hr) as [-> ->]. split; reflexivity.
Qed.

Lemma lin_mat_dot m n k w e1 e2 : all3 (all3 L0) m n k -> mat_dot m w = Ok e1 -> mat_dot n w = Ok e2 ->
  exists e3, mat_dot k w = Ok e3 /\ L0 e1 e2 e3.
Proof.
  intros H. destruct (all3_shape _ _ _ _ H) as [S1 S2]. unfold mat_dot. rewrite S1, S2.
  destruct (shape_eqb (mat_shape m) (mat_shape w)); [|discriminate].
  set (ij := flat_map _ _). clearbody ij.
  assert (Err_stuck : forall q x l, fold_left (fun out ij => rbind out (fun o => rmap (EAdd o) (entry_op EMul q w (fst ij) (snd ij)))) l (Err x) = Err x).
  { intros q x l. induction l as [|i l IH]; [reflexivity|]. simpl. exact IH. }
  assert (G : forall l o1 o2 o3, L0 o1 o2 o3 ->
    fold_left (fun out ij => rbind out (fun o => rmap (EAdd o) (entry_op EMul m w (fst ij) (snd ij)))) l (Ok o1) = Ok e1 ->
    fold_left (fun out ij => rbind out (fun o => rmap (EAdd o) (entry_op EMul n w (fst ij) (snd ij)))) l (Ok o2) = Ok e2 ->
    exists e3, fold_left (fun out ij => rbind out (fun o => rmap (EAdd o) (entry_op EMul k w (fst ij) (snd ij)))) l (Ok o3) = Ok e3 /\ L0 e1 e2 e3).
  { induction l as [|[i j] l IH]; intros o1 o2 o3 Ho E1 E2; cbn [fold_left fst snd rbind] in *.
    - injection E1 as <-. injection E2 as <-. eauto.
    - destruct (entry_op EMul m w i j) as [x|] eqn:X; [|cbn [rmap] in E1; rewrite Err_stuck in E1; discriminate].
      destruct (entry_op EMul n w i j) as [y|] eqn:Y; [|cbn [rmap] in E2; rewrite Err_stuck in E2; discriminate].
      assert (Z : exists z, entry_op EMul k w i j = Ok z /\ L0 x y z).
      { unfold entry_op in *. destruct (entry m i j) as [x0|] eqn:Ex; [|discriminate]. destruct (entry n i j) as [y0|] eqn:Ey; [|discriminate].
        destruct (lin_entry _ _ _ _ i j x0 y0 H Ex Ey) as [z [Ez Hz]]. rewrite Ez.
        destruct (entry w i j) as [d|] eqn:Ed; [|discriminate]. injection X as <-. injection Y as <-.
        eexists. split; [reflexivity|]. apply L0_mul. exact Hz. }
      destruct Z as [z [Ez Hz]]. rewrite Ez. cbn [rmap] in *. apply (IH (EAdd o1 x) (EAdd o2 y)); auto. apply L0_add; assumption. }
  apply G. exact L0_zero.
Qed.

Lemma lin_dot f g h w f' g' : flin L0 f g h -> f_dot f (PFun w) = Ok f' -> f_dot g (PFun w) = Ok g' ->
  exists h', f_dot h (PFun w) = Ok h' /\ flin L0 f' g' h'.
Proof.
  intros H. unfold f_dot. cbn [parse_function_input rbind].
  destruct H as [f g h H|v1 v2 v3 H|m n k H]; destruct w as [d|w|w]; try discriminate.
  - intros Hf Hg. injection Hf as <-. injection Hg as <-. eexists. split; [reflexivity|]. constructor. apply L0_mul. exact H.
  - destruct (vec_dot v1 w) as [e1|] eqn:E1; [|discriminate]. destruct (vec_dot v2 w) as [e2|] eqn:E2; [|discriminate].
    destruct (lin_vec_dot L0 v1 v2 v3 w e1 e2 L0_add L0_mul L0_zero H E1 E2) as [e3 [E3 H3]]. rewrite E3. cbn [rmap].
    intros Hf Hg. injection Hf as <-. injection Hg as <-. eexists. split; [reflexivity|]. constructor. exact H3.
  - destruct (mat_dot m w) as [e1|] eqn:E1; [|discriminate]. destruct (mat_dot n w) as [e2|] eqn:E2; [|discriminate].
    destruct (lin_mat_dot m n k w e1 e2 H E1 E2) as [e3 [E3 H3]]. rewrite E3. cbn [rmap].
    intros Hf Hg. injection Hf as <-. injection Hg as <-. eexists. split; [reflexivity|]. constructor. exact H3.
Qed.

Lemma lin_dot_l f g h v f' g' : flin L0 f g h -> f_dot (FV v) (PFun f) = Ok f' -> f_dot (FV v) (PFun g) = Ok g' ->
  exists h', f_dot (FV v) (PFun h) = Ok h' /\ flin L0 f' g' h'.
Proof.
  intros H. unfold f_dot. cbn [parse_function_input rbind].
  destruct H as [f g h H|v1 v2 v3 H|m n k H]; try discriminate.
  destruct (vec_dot v v1) as [e1|] eqn:E1; [|discriminate]. destruct (vec_dot v v2) as [e2|] eqn:E2; [|discriminate].
  destruct (lin_vec_dot_l v1 v2 v3 v e1 e2 H E1 E2) as [e3 [E3 H3]]. rewrite E3. cbn [rmap].
  intros Hf Hg. injection Hf as <-. injection Hg as <-. eexists. split; [reflexivity|]. constructor. exact H3.
Qed.

(** matrix @ vector *)
Lemma lin_row m n k i r s : all3 (all3 L0) m n k -> mat_row m i = Ok r -> mat_row n i = Ok s ->
  exists q, mat_row k i = Ok q /\ all3 L0 r s q.
Proof.
  intros H. destruct (all3_shape _ _ _ _ H) as [S1 S2]. unfold mat_row. rewrite S1, S2. apply map_res_index.
  intros j x y _. destruct (entry m i j) as [x'|] eqn:Ex; [|discriminate]. destruct (entry n i j) as [y'|] eqn:Ey; [|discriminate].
  destruct (lin_entry _ _ _ _ i j x' y' H Ex Ey) as [z [Ez Hz]]. rewrite Ez. simpl. intros Hx Hy. injection Hx as <-. injection Hy as <-.
  eauto.
Qed.

Lemma lin_matmul f g h v f' g' : flin L0 f g h ->
  fun_of (py_matmul (PFun f) (PFun (FV v))) = Ok f' -> fun_of (py_matmul (PFun g) (PFun (FV v))) = Ok g' ->
  exists h', fun_of (py_matmul (PFun h) (PFun (FV v))) = Ok h' /\ flin L0 f' g' h'.
Proof.
  intros H. destruct H as [f g h H|v1 v2 v3 H|m n k H]; unfold py_matmul, f_matmul, f_rmatmul; cbn [same_class finish fun_of rbind]; try discriminate.
  destruct (all3_shape _ _ _ _ H) as [S1 S2]. rewrite S1, S2.
  destruct (Nat.eqb (snd (mat_shape m)) (length v)); [|discriminate].
  set (F := fun q i => rbind (mat_row q i) (fun r => vec_dot r v)).
  change (fun i => rbind (mat_row m i) (fun r => vec_dot r v)) with (F m).
  change (fun i => rbind (mat_row n i) (fun r => vec_dot r v)) with (F n).
  change (fun i => rbind (mat_row k i) (fun r => vec_dot r v)) with (F k).
  destruct (map_res (F m) _) as [l1|] eqn:E1; [|discriminate]. destruct (map_res (F n) _) as [l2|] eqn:E2; [|discriminate].
  destruct (map_res_index L0 (F m) (F n) (F k) (range (fst (mat_shape m)))) with (2 := E1) (3 := E2) as [l3 [E3 H3]].
  - intros i x y _. unfold F. destruct (mat_row m i) as [r1|] eqn:R1; [|discriminate]. destruct (mat_row n i) as [r2|] eqn:R2; [|discriminate].
    destruct (lin_row m n k i r1 r2 H R1 R2) as [r3 [R3 Hr]]. rewrite R3. cbn [rbind].
    apply (lin_vec_dot L0 r1 r2 r3 v x y L0_add L0_mul L0_zero Hr).
  - rewrite E3. cbn [rmap rbind]. intros Hf Hg. injection Hf as <-. injection Hg as <-. eexists. split; [reflexivity|]. constructor. exact H3.
Qed.

(** The integral. *)
Lemma integrates_ext lims F G v : (forall e, F e = G e) -> integrates lims F v -> integrates lims G v.
Proof.
  revert F G. induction lims as [|[[w lo] hi] lims IH]; intros F G H HF; simpl in *.
  - intros e. rewrite <- H. apply HF.
  - destruct HF as [K [HK HI]]. exists K. split; [|exact HI]. intros e. apply (is_RInt_ext (fun s => F (fun i => if Nat.eqb i w then s else e i))).
    + intros s _. apply H.
    + apply HK.
Qed.

Lemma integrates_linear lims F G u v : integrates lims F u -> integrates lims G v ->
  integrates lims (fun e => a * F e + b * G e) (a * u + b * v).
Proof.
  revert F G. induction lims as [|[[w lo] hi] lims IH]; intros F G HF HG; simpl in *.
  - intros e. rewrite HF, HG. reflexivity.
  - destruct HF as [K [HK HI]]. destruct HG as [K' [HK' HI']]. exists (fun e => a * K e + b * K' e). split; [|apply IH; assumption].
    intros e. apply (is_RInt_plus (V := R_NormedModule)); apply (is_RInt_scal (V := R_NormedModule)); auto.
Qed.

Lemma lin_integral f g h domain o1 o2 : flin L0 f g h -> f_integral f domain = Ok o1 -> f_integral g domain = Ok o2 ->
  exists e1 e2 e3 lims, o1 = Integral e1 lims /\ o2 = Integral e2 lims /\ f_integral h domain = Ok (Integral e3 lims) /\ L0 e1 e2 e3.
Proof.
  intros H. destruct H as [f g h H|v1 v2 v3 H|m n k H]; unfold f_integral; try discriminate.
  unfold integral. destruct (r_type domain); try discriminate;
    (destruct (ReferencesModel.integration_limits _) as [lims|]; [|discriminate]; cbn [rbind];
     destruct (integral_point domain) as [pt|]; [|discriminate]; cbn [rbind];
     destruct (ReferencesModel.jacobian domain) as [j|]; [|discriminate]; cbn [rbind rmap fst snd];
     intros Hf Hg; injection Hf as <-; injection Hg as <-; do 4 eexists; split; [reflexivity|]; split; [reflexivity|];
     split; [reflexivity|]; apply L0_mul; intros p; destruct (fold_esubs_env (zip x_symbols pt) p) as [q Hq]; rewrite !Hq; apply H).
Qed.

(** Assembling: what the statement needs of an outcome. *)
Definition olin (o1 o2 o3 : outcome) : Prop :=
  match o1, o2, o3 with
  | Value f, Value g, Value h => flin L0 f g h
  | Integral e1 l1, Integral e2 l2, Integral e3 l3 => l1 = l2 /\ l3 = l1 /\ L0 e1 e2 e3
  | _, _, _ => False
  end.

Ltac two X H1 H2 E1 E2 :=
  match type of H1 with context [rbind ?u _] => destruct u as [?|] eqn:E1; [|discriminate] end;
  match type of H2 with context [rbind ?u _] => destruct u as [?|] eqn:E2; [|discriminate] end; cbn [rbind] in H1, H2.

Lemma rmap_Ok {A B} (f : A -> B) r y : rmap f r = Ok y -> exists x, r = Ok x /\ y = f x.
Proof. destruct r; simpl; intros H; [injection H as <-; eauto|discriminate]. Qed.
Lemma rbind_Ok {A B} (f : A -> res B) r y : rbind r f = Ok y -> exists x, r = Ok x /\ f x = Ok y.
Proof. destruct r; simpl; intros H; [eauto|discriminate]. Qed.
Lemma check_Ok b0 {A} (r : res A) y : check b0 r = Ok y -> b0 = true /\ r = Ok y.
Proof. destruct b0; simpl; intros H; [auto|discriminate]. Qed.

Lemma integral_olin f g h domain o1 o2 : flin L0 f g h -> f_integral f domain = Ok o1 -> f_integral g domain = Ok o2 ->
  exists o3, f_integral h domain = Ok o3 /\ olin o1 o2 o3.
Proof.
  intros H H1 H2. destruct (lin_integral f g h domain o1 o2 H H1 H2) as [e1 [e2 [e3 [lims [-> [-> [E3 HL]]]]]]].
  eexists. split; [exact E3|]. simpl. auto.
Qed.

Lemma f_integral_scalar f domain o : f_integral f domain = Ok o -> exists e, f = FS e.
Proof. destruct f; simpl; intros H; [eauto|discriminate|discriminate]. Qed.

(** Multiplying by a stored function and integrating. *)
Lemma mul_integral f g h w domain o1 o2 : flin L0 f g h ->
  rbind (fun_of (py_mul (PFun f) (PFun w))) (fun i => f_integral i domain) = Ok o1 ->
  rbind (fun_of (py_mul (PFun g) (PFun w))) (fun i => f_integral i domain) = Ok o2 ->
  exists o3, rbind (fun_of (py_mul (PFun h) (PFun w))) (fun i => f_integral i domain) = Ok o3 /\ olin o1 o2 o3.
Proof.
  intros H H1 H2. apply rbind_Ok in H1. destruct H1 as [f1 [E1 I1]]. apply rbind_Ok in H2. destruct H2 as [g1 [E2 I2]].
  destruct (f_integral_scalar _ _ _ I1) as [e ->]. destruct (py_mul_scalar_inv _ _ _ E1) as [c [d [-> ->]]].
  rewrite py_mul_scalar in *. destruct (lin_mul _ _ _ d _ _ H E1 E2) as [h1 [E3 H3]]. rewrite E3. cbn [rbind].
  exact (integral_olin _ _ _ domain o1 o2 H3 I1 I2).
Qed.

Lemma flin_class L f g h : flin L f g h -> is_vector h = is_vector f /\ is_matrix h = is_matrix f.
Proof. destruct 1; split; reflexivity. Qed.

Lemma eval_raw_linear d f g h o1 o2 : flin LD f g h -> eval_raw d f = Ok o1 -> eval_raw d g = Ok o2 ->
  exists o3, eval_raw d h = Ok o3 /\ olin o1 o2 o3.
Proof.
  intros H H1 H2. pose proof (flin_D0 _ _ _ H) as HZ. destruct d as [pt|pt w|pt dv|pt dir|pt c|pt l r|pt v|pt|dom w|dom w|dom dirs os sc|dom w dw|dom w|dom w l r];
    cbn [eval_raw] in *.
  - apply rmap_Ok in H1. destruct H1 as [f1 [E1 ->]]. apply rmap_Ok in H2. destruct H2 as [g1 [E2 ->]].
    destruct (lin_at_point pt f g h f1 g1 HZ E1 E2) as [h1 [E3 H3]]. rewrite E3. simpl. eauto.
  - apply rbind_Ok in H1. destruct H1 as [f1 [E1 H1]]. apply rbind_Ok in H2. destruct H2 as [g1 [E2 H2]].
    destruct (lin_at_point pt f g h f1 g1 HZ E1 E2) as [h1 [E3 H3]]. rewrite E3. cbn [rbind].
    apply rmap_Ok in H1. destruct H1 as [f2 [E1' ->]]. apply rmap_Ok in H2. destruct H2 as [g2 [E2' ->]].
    destruct (lin_mul f1 g1 h1 w f2 g2 H3 E1' E2') as [h2 [E3' H3']]. rewrite E3'. simpl. eauto.
  - apply rbind_Ok in H1. destruct H1 as [f1 [E1 H1]]. apply rbind_Ok in H2. destruct H2 as [g1 [E2 H2]].
    destruct (lin_diffs_along _ f g h f1 g1 H E1 E2) as [h1 [E3 H3]]. rewrite E3. cbn [rbind].
    apply rmap_Ok in H1. destruct H1 as [f2 [E1' ->]]. apply rmap_Ok in H2. destruct H2 as [g2 [E2' ->]].
    destruct (lin_at_point pt f1 g1 h1 f2 g2 (flin_D0 _ _ _ H3) E1' E2') as [h2 [E3' H3']]. rewrite E3'. simpl. eauto.
  - apply rbind_Ok in H1. destruct H1 as [f1 [E1 H1]]. apply rbind_Ok in H2. destruct H2 as [g1 [E2 H2]].
    destruct (lin_directional_derivative _ f g h f1 g1 H E1 E2) as [h1 [E3 H3]]. rewrite E3. cbn [rbind].
    apply rmap_Ok in H1. destruct H1 as [f2 [E1' ->]]. apply rmap_Ok in H2. destruct H2 as [g2 [E2' ->]].
    destruct (lin_at_point pt f1 g1 h1 f2 g2 H3 E1' E2') as [h2 [E3' H3']]. rewrite E3'. simpl. eauto.
  - destruct H as [f g h H|v1 v2 v3 H|m n k H]; try discriminate.
    unfold jacobian_component in *. destruct (x_at (fst c)) as [xi|]; [|discriminate]. destruct (x_at (snd c)) as [xj|]; [|discriminate].
    cbn [rbind] in *. apply rmap_Ok in H1. destruct H1 as [f1 [E1 ->]]. apply rmap_Ok in H2. destruct H2 as [g1 [E2 ->]].
    destruct (lin_at_point pt (FS (ediff xj (ediff xi f))) (FS (ediff xj (ediff xi g))) (FS (ediff xj (ediff xi h))) f1 g1) with (2 := E1) (3 := E2) as [h1 [E3 H3]].
    { constructor. apply LD_L0. apply LD_diff. apply LD_diff. exact H. }
    rewrite E3. simpl. eauto.
  - apply rbind_Ok in H1. destruct H1 as [f1 [E1 H1]]. apply rbind_Ok in H2. destruct H2 as [g1 [E2 H2]].
    destruct (lin_at_point pt f g h f1 g1 HZ E1 E2) as [h1 [E3 H3]]. rewrite E3. cbn [rbind].
    apply rbind_Ok in H1. destruct H1 as [f2 [E1' H1]]. apply rbind_Ok in H2. destruct H2 as [g2 [E2' H2]].
    destruct (lin_matmul f1 g1 h1 r f2 g2 H3 E1' E2') as [h2 [E3' H3']]. rewrite E3'. cbn [rbind].
    apply rmap_Ok in H1. destruct H1 as [f3 [E1'' ->]]. apply rmap_Ok in H2. destruct H2 as [g3 [E2'' ->]].
    destruct (lin_dot_l f2 g2 h2 l f3 g3 H3' E1'' E2'') as [h3 [E3'' H3'']]. rewrite E3''. simpl. eauto.
  - apply rbind_Ok in H1. destruct H1 as [f1 [E1 H1]]. apply rbind_Ok in H2. destruct H2 as [g1 [E2 H2]].
    destruct (lin_at_point pt f g h f1 g1 HZ E1 E2) as [h1 [E3 H3]]. rewrite E3. cbn [rbind].
    destruct (at_point v pt) as [v2|]; [|discriminate]. cbn [rbind] in *.
    apply rmap_Ok in H1. destruct H1 as [f2 [E1' ->]]. apply rmap_Ok in H2. destruct H2 as [g2 [E2' ->]].
    destruct (lin_dot f1 g1 h1 v2 f2 g2 H3 E1' E2') as [h2 [E3' H3']]. rewrite E3'. simpl. eauto.
  - destruct H as [f g h H|v1 v2 v3 H|m n k H]; try discriminate.
    apply rbind_Ok in H1. destruct H1 as [f1 [E1 H1]]. apply rbind_Ok in H2. destruct H2 as [g1 [E2 H2]].
    destruct (lin_div (FV v1) (FV v2) (FV v3) f1 g1 (flin_V _ _ _ _ H) E1 E2) as [h1 [E3 H3]]. rewrite E3. cbn [rbind].
    apply rmap_Ok in H1. destruct H1 as [f2 [E1' ->]]. apply rmap_Ok in H2. destruct H2 as [g2 [E2' ->]].
    destruct (lin_at_point pt f1 g1 h1 f2 g2 H3 E1' E2') as [h2 [E3' H3']]. rewrite E3'. simpl. eauto.
  - apply rbind_Ok in H1. destruct H1 as [f1 [E1 H1]]. apply rbind_Ok in H2. destruct H2 as [g1 [E2 H2]].
    destruct (lin_at_point _ f g h f1 g1 HZ E1 E2) as [h1 [E3 H3]]. rewrite E3. cbn [rbind].
    apply rbind_Ok in H1. destruct H1 as [f2 [E1' H1]]. apply rbind_Ok in H2. destruct H2 as [g2 [E2' H2]].
    destruct (lin_dot f1 g1 h1 w f2 g2 H3 E1' E2') as [h2 [E3' H3']]. rewrite E3'. cbn [rbind].
    exact (integral_olin _ _ _ dom o1 o2 H3' H1 H2).
  - apply rbind_Ok in H1. destruct H1 as [f0 [E1 H1]]. apply rbind_Ok in H2. destruct H2 as [g0 [E2 H2]].
    destruct (lin_div f g h f0 g0 H E1 E2) as [h0 [E3 H3]]. rewrite E3. cbn [rbind].
    apply rbind_Ok in H1. destruct H1 as [f1 [E1' H1]]. apply rbind_Ok in H2. destruct H2 as [g1 [E2' H2]].
    destruct (lin_at_point _ f0 g0 h0 f1 g1 H3 E1' E2') as [h1 [E3' H3']]. rewrite E3'. cbn [rbind].
    exact (mul_integral f1 g1 h1 w dom o1 o2 H3' H1 H2).
  - apply rbind_Ok in H1. destruct H1 as [f0 [E1 H1]]. apply rbind_Ok in H2. destruct H2 as [g0 [E2 H2]].
    destruct (lin_directional_diffs _ f g h f0 g0 H E1 E2) as [h0 [E3 H3]]. rewrite E3. cbn [rbind].
    apply rbind_Ok in H1. destruct H1 as [f1 [E1' H1]]. apply rbind_Ok in H2. destruct H2 as [g1 [E2' H2]].
    destruct (lin_at_point _ f0 g0 h0 f1 g1 (flin_D0 _ _ _ H3) E1' E2') as [h1 [E3' H3']]. rewrite E3'. cbn [rbind].
    apply rbind_Ok in H1. destruct H1 as [f2 [E1'' H1]]. apply rbind_Ok in H2. destruct H2 as [g2 [E2'' H2]].
    destruct (f_integral_scalar _ _ _ H1) as [e ->]. destruct (py_mul_scalar_inv _ _ _ E1'') as [c [d0 [_ ->]]].
    destruct (f_integral_scalar _ _ _ H2) as [e' ->]. destruct (py_mul_scalar_inv _ _ _ E2'') as [c' [d0' [_ ->]]].
    inversion H3' as [? ? h1' HL| |]; subst. unfold py_mul, binop, f_mul, scaling in *. cbn [as_expr rmap rbind fun_of] in *.
    injection E1'' as <-. injection E2'' as <-.
    apply (integral_olin (FS (EMul (ENum sc) d0)) (FS (EMul (ENum sc) d0')) (FS (EMul (ENum sc) h1')) dom o1 o2); auto.
    constructor. apply L0_mul_l. exact HL.
  - apply rbind_Ok in H1. destruct H1 as [f0 [E1 H1]]. apply rbind_Ok in H2. destruct H2 as [g0 [E2 H2]].
    destruct (lin_grad _ f g h f0 g0 H E1 E2) as [h0 [E3 H3]]. rewrite E3. cbn [rbind].
    apply rbind_Ok in H1. destruct H1 as [f1 [E1' H1]]. apply rbind_Ok in H2. destruct H2 as [g1 [E2' H2]].
    destruct (lin_at_point _ f0 g0 h0 f1 g1 (flin_D0 _ _ _ H3) E1' E2') as [h1 [E3' H3']]. rewrite E3'. cbn [rbind].
    apply check_Ok in H1. destruct H1 as [C1 H1]. apply check_Ok in H2. destruct H2 as [_ H2].
    apply check_Ok in H1. destruct H1 as [C2 H1]. apply check_Ok in H2. destruct H2 as [_ H2].
    rewrite (proj1 (flin_class _ _ _ _ H3')), C1, C2. cbn [check].
    apply rbind_Ok in H1. destruct H1 as [f2 [E1'' H1]]. apply rbind_Ok in H2. destruct H2 as [g2 [E2'' H2]].
    destruct (lin_dot f1 g1 h1 dw f2 g2 H3' E1'' E2'') as [h2 [E3'' H3'']]. rewrite E3''. cbn [rbind].
    exact (mul_integral f2 g2 h2 w dom o1 o2 H3'' H1 H2).
  - apply check_Ok in H1. destruct H1 as [C1 H1]. apply check_Ok in H2. destruct H2 as [_ H2].
    rewrite (proj1 (flin_class _ _ _ _ H)), C1. cbn [check].
    apply rbind_Ok in H1. destruct H1 as [f0 [E1 H1]]. apply rbind_Ok in H2. destruct H2 as [g0 [E2 H2]].
    destruct (lin_div f g h f0 g0 H E1 E2) as [h0 [E3 H3]]. rewrite E3. cbn [rbind].
    apply rbind_Ok in H1. destruct H1 as [f1 [E1' H1]]. apply rbind_Ok in H2. destruct H2 as [g1 [E2' H2]].
    destruct (lin_at_point _ f0 g0 h0 f1 g1 H3 E1' E2') as [h1 [E3' H3']]. rewrite E3'. cbn [rbind].
    apply rbind_Ok in H1. destruct H1 as [f2 [E1'' H1]]. apply rbind_Ok in H2. destruct H2 as [g2 [E2'' H2]].
    destruct (lin_dot f1 g1 h1 w f2 g2 H3' E1'' E2'') as [h2 [E3'' H3'']]. rewrite E3''. cbn [rbind].
    exact (integral_olin _ _ _ dom o1 o2 H3'' H1 H2).
  - apply rbind_Ok in H1. destruct H1 as [f1 [E1 H1]]. apply rbind_Ok in H2. destruct H2 as [g1 [E2 H2]].
    destruct (lin_at_point _ f g h f1 g1 HZ E1 E2) as [h1 [E3 H3]]. rewrite E3. cbn [rbind].
    apply check_Ok in H1. destruct H1 as [C1 H1]. apply check_Ok in H2. destruct H2 as [_ H2].
    rewrite (proj2 (flin_class _ _ _ _ H3)), C1. cbn [check].
    apply rbind_Ok in H1. destruct H1 as [f2 [E1' H1]]. apply rbind_Ok in H2. destruct H2 as [g2 [E2' H2]].
    destruct (lin_matmul f1 g1 h1 r f2 g2 H3 E1' E2') as [h2 [E3' H3']]. rewrite E3'. cbn [rbind].
    apply rbind_Ok in H1. destruct H1 as [f3 [E1'' H1]]. apply rbind_Ok in H2. destruct H2 as [g3 [E2'' H2]].
    destruct (lin_dot_l f2 g2 h2 l f3 g3 H3' E1'' E2'') as [h3 [E3'' H3'']]. rewrite E3''. cbn [rbind].
    apply rbind_Ok in H1. destruct H1 as [f4 [E1a H1]]. apply rbind_Ok in H2. destruct H2 as [g4 [E2a H2]].
    destruct (ReferencesModel.jacobian dom) as [j|] eqn:Ej; [|discriminate]. cbn [rbind] in H1, H2.
    apply rbind_Ok in H1. destruct H1 as [f5 [E1b H1]]. apply rbind_Ok in H2. destruct H2 as [g5 [E2b H2]].
    destruct (f_integral_scalar _ _ _ H1) as [e ->].
    rewrite <- (py_mul_scalar f4 (ENum j)) in E1b. destruct (py_mul_scalar_inv _ _ _ E1b) as [c [d0 [-> _]]]. rewrite py_mul_scalar in E1b.
    destruct (py_mul_scalar_inv _ _ _ E1a) as [c1 [d1 [-> ->]]]. rewrite py_mul_scalar in *.
    destruct (lin_mul _ _ _ d1 _ _ H3'' E1a E2a) as [h4 [E3a H3a]]. rewrite E3a. cbn [rbind].
    destruct (lin_mul _ _ _ (ENum j) _ _ H3a E1b E2b) as [h5 [E3b H3b]]. rewrite E3b. cbn [rbind].
    exact (integral_olin _ _ _ dom o1 o2 H3b H1 H2).
Qed.

(** What f*a + g*b builds. *)
Lemma zip_base v w : length v = length w ->
  all3 LD v w (zip_with EAdd (map (fun i => EMul i (ENum a)) v) (map (fun i => EMul i (ENum b)) w)).
Proof.
  revert w. induction v as [|x v IH]; intros [|y w] H; try discriminate; [constructor|].
  unfold zip_with in *. simpl. constructor; [apply LD_base|]. apply IH. simpl in H. congruence.
Qed.

Lemma mat_base m n : length m = length n ->
  (forall i r s, nth_error m i = Some r -> nth_error n i = Some s -> length r = length s) ->
  all3 (all3 LD) m n (zip_with (zip_with EAdd) (map (map (fun i => EMul i (ENum a))) m) (map (map (fun i => EMul i (ENum b))) n)).
Proof.
  revert n. induction m as [|r m IH]; intros [|s n] H Hr; try discriminate; [constructor|].
  unfold zip_with at 1. simpl. constructor.
  - apply zip_base. exact (Hr 0%nat r s eq_refl eq_refl).
  - apply IH; [simpl in H; congruence|]. intros i. exact (Hr (S i)).
Qed.

Lemma combination_linear f g h : linear_combination f a g b = Ok (PFun h) -> flin LD f g h.
Proof.
  unfold linear_combination. intros H. apply rbind_Ok in H. destruct H as [fa [Ef H]]. apply rbind_Ok in H. destruct H as [gb [Eg H]].
  destruct f as [f|v|m], g as [g|w|n]; unfold py_mul, binop, f_mul, scaling in Ef, Eg; cbn [as_expr rmap] in Ef, Eg;
    try (destruct (mk_mat (map (map (fun i => EMul i (ENum a))) m)) as [fm|] eqn:Em in Ef; [|discriminate]; apply mk_mat_inv in Em; destruct Em as [-> Rm]);
    try (destruct (mk_mat (map (map (fun i => EMul i (ENum b))) n)) as [gm|] eqn:En in Eg; [|discriminate]; apply mk_mat_inv in En; destruct En as [-> Rn]);
    cbn [rmap] in Ef, Eg; injection Ef as <-; injection Eg as <-;
    unfold py_add, binop, f_add, f_radd, additive in H; cbn [same_class finish rmap] in H; try discriminate H.
  - injection H as <-. constructor. apply LD_base.
  - rewrite !map_length in H. destruct (Nat.eqb_spec (length v) (length w)) as [E|E]; [|discriminate]. cbn [rmap] in H.
    injection H as <-. constructor. apply zip_base. exact E.
  - unfold mat_mat_op in H.
    destruct (shape_eqb _ _) eqn:Es in H; [|discriminate].
    destruct (mk_mat _) as [k|] eqn:Ek in H; [|discriminate]. cbn [rmap] in H. injection H as <-.
    apply mk_mat_inv in Ek. destruct Ek as [-> Rk]. constructor.
    unfold shape_eqb in Es. apply andb_prop in Es. destruct Es as [Es1 Es2]. apply Nat.eqb_eq in Es1. apply Nat.eqb_eq in Es2.
    set (m' := map (map (fun i => EMul i (ENum a))) m) in *. set (n' := map (map (fun i => EMul i (ENum b))) n) in *.
    apply mat_base.
    + unfold mat_shape in Es1. cbn [fst] in Es1. unfold m', n' in Es1. rewrite !map_length in Es1. exact Es1.
    + intros i r s Hr Hs.
      assert (A : length (map (fun i => EMul i (ENum a)) r) = snd (mat_shape m')).
      { apply rect_shape; [exact Rm|]. unfold m'. apply in_map. exact (nth_error_In _ _ Hr). }
      assert (B : length (map (fun i => EMul i (ENum b)) s) = snd (mat_shape n')).
      { apply rect_shape; [exact Rn|]. unfold n'. apply in_map. exact (nth_error_In _ _ Hs). }
      rewrite map_length in A, B. congruence.
Qed.

(** Degrees of freedom are linear. *)
Lemma evaluates_linear d f g h u v : linear_combination f a g b = Ok (PFun h) ->
  evaluates d f u -> evaluates d g v -> evaluates d h (a * u + b * v).
Proof.
  intros Hc. apply combination_linear in Hc. unfold evaluates, eval_symbolic.
  destruct (eval_raw d f) as [o1|] eqn:E1; [|intros []]. destruct (eval_raw d g) as [o2|] eqn:E2; [|intros _ []].
  destruct (eval_raw_linear d f g h o1 o2 Hc E1 E2) as [o3 [E3 H]]. rewrite E3. cbn [rbind].
  destruct o1 as [f1|e1 l1], o2 as [g1|e2 l2], o3 as [h1|e3 l3]; try contradiction H.
  - destruct H as [x y z H| |]; cbn [is_scalar]; try (intros []; fail).
    intros Hu Hv p. rewrite H, Hu, Hv. reflexivity.
  - destruct H as [<- [-> HL]]. intros Hu Hv p. apply integrates_ext with (2 := integrates_linear l1 _ _ u v (Hu p) (Hv p)).
    intros e. symmetry. apply HL.
Qed.
End Lin.

(** The value is determined. *)
Lemma integrates_unique lims F u v : integrates lims F u -> integrates lims F v -> u = v.
Proof.
  revert F. induction lims as [|[[w lo] hi] lims IH]; intros F Hu Hv; simpl in *.
  - rewrite <- (Hu (fun _ => 0)). apply Hv.
  - destruct Hu as [K [HK HI]]. destruct Hv as [K' [HK' HI']]. apply (IH K); [exact HI|].
    apply integrates_ext with (2 := HI'). intros e. rewrite <- (is_RInt_unique _ _ _ _ (HK e)).
    symmetry. apply is_RInt_unique. apply HK'.
Qed.

Lemma evaluates_unique d f u v : evaluates d f u -> evaluates d f v -> u = v.
Proof.
  unfold evaluates. destruct (eval_symbolic d f) as [[[e| |]|e lims]|]; try contradiction.
  - intros Hu Hv. rewrite <- (Hu (fun _ => 0)). apply Hv.
  - intros Hu Hv. exact (integrates_unique _ _ _ _ (Hu (fun _ => 0)) (Hv (fun _ => 0))).
Qed.
