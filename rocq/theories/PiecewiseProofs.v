(** Proofs about piecewise functions. *)
From Coquelicot Require Import Coquelicot.
From Coq Require Import String Reals ZArith Arith Bool Lia Lra List.
From Verif Require Import Base.
From Verif Require Import ReferencesSpec ReferencesGeometry GeometryModel GeometryProofs.
From Verif Require Import FunctionsModel FunctionsSpec FunctionsProofs FunctionsSubs FunctionalsModel PiecewiseModel.
Import ListNotations.
Local Open Scope R_scope.

(** What the constructor guarantees: at least one piece, distinct sub-cells, pieces of one kind. *)
Definition pw_ok (f : piecewise) : Prop :=
  pw_pieces f <> [] /\ NoDup (map fst (pw_pieces f)) /\
  forall a b, In a (pw_pieces f) -> In b (pw_pieces f) -> same_kind (snd a) (snd b) = true.

Lemma dict_set_new {V} (d : list (list pt * V)) k v : ~ In k (map fst d) -> dict_set d k v = (d ++ [(k, v)])%list.
Proof.
  induction d as [|[k' v'] d IH]; simpl; intros H; [reflexivity|].
  destruct (pts_eq_dec k' k) as [E|E]; [tauto|]. f_equal. apply IH. tauto.
Qed.

Lemma dict_set_keys {V} (d : list (list pt * V)) k v : NoDup (map fst d) ->
  NoDup (map fst (dict_set d k v)) /\ (forall x, In x (map fst (dict_set d k v)) <-> x = k \/ In x (map fst d)).
Proof.
  induction d as [|[k' v'] d IH]; simpl; intros H.
  - split; [repeat constructor; auto|]. intros x. intuition.
  - inversion H as [|? ? Hn Hd]; subst. destruct (IH Hd) as [I1 I2].
    destruct (pts_eq_dec k' k) as [E|E]; simpl.
    + subst. split; [constructor; assumption|]. intros x. intuition.
    + split; [constructor; [rewrite I2; intuition|exact I1]|]. intros x. rewrite I2. intuition.
Qed.

Lemma dict_of_nodup {V} (items : list (list pt * V)) : NoDup (map fst items) -> dict_of items = items.
Proof.
  unfold dict_of. intros H.
  assert (G : forall pre, NoDup (map fst (pre ++ items)) -> fold_left (fun d kv => dict_set d (fst kv) (snd kv)) items pre = (pre ++ items)%list).
  { clear H. induction items as [|[k v] items IH]; intros pre H; simpl; [rewrite app_nil_r; reflexivity|].
    rewrite dict_set_new.
    - rewrite IH; rewrite <- app_assoc; [reflexivity|exact H].
    - rewrite map_app in H. simpl in H. apply NoDup_remove_2 in H. intros Hin. apply H. apply in_or_app. left. exact Hin. }
  apply (G []). exact H.
Qed.

Lemma dict_of_keys {V} (items : list (list pt * V)) : NoDup (map fst (dict_of items)).
Proof.
  unfold dict_of.
  assert (G : forall pre, NoDup (map fst pre) -> NoDup (map fst (fold_left (fun d kv => dict_set d (fst kv) (snd kv)) items pre))).
  { induction items as [|[k v] items IH]; intros pre H; simpl; [exact H|]. apply IH. apply dict_set_keys. exact H. }
  apply G. constructor.
Qed.

Lemma same_kind_sym f g : same_kind f g = same_kind g f.
Proof. destruct f, g; reflexivity. Qed.
Lemma same_kind_trans f g h : same_kind f g = true -> same_kind f h = true -> same_kind g h = true.
Proof. destruct f, g, h; simpl; congruence. Qed.

Lemma make_pw_ok pieces n c : make_pw pieces n = Ok c -> pw_ok c /\ pw_tdim c = n.
Proof.
  unfold make_pw. destruct (map_res _ pieces) as [items|]; [|discriminate]. cbn [rbind].
  pose proof (dict_of_keys items) as Hk. destruct (dict_of items) as [|[k f] d]; [discriminate|].
  destruct (forallb _ _) eqn:E; [|discriminate]. intros H. injection H as <-. split; [|reflexivity].
  unfold pw_ok; cbn [pw_pieces]. split; [intros E'; discriminate E'|]. split; [exact Hk|]. rewrite forallb_forall in E. intros a b Ha Hb.
  apply (same_kind_trans f); [apply (E a Ha)|apply (E b Hb)].
Qed.

Lemma map_res_split {A B} (f : A -> res B) l r : map_res f l = Ok r <-> Forall2 (fun a b => f a = Ok b) l r.
Proof.
  split.
  - revert r. induction l as [|a l IH]; intros r H; simpl in H.
    + injection H as <-. constructor.
    + destruct (f a) as [b|] eqn:E; [|discriminate]. simpl in H. destruct (map_res f l) as [r'|]; [|discriminate].
      simpl in H. injection H as <-. constructor; auto.
  - induction 1 as [|a b l r H _ IH]; simpl; [reflexivity|]. rewrite H. simpl. rewrite IH. reflexivity.
Qed.

(** When the cells are distinct the constructor keeps every piece. *)
Lemma make_pw_pieces pieces n c : NoDup (map fst pieces) -> make_pw pieces n = Ok c ->
  Forall2 (fun a b => fst b = fst a /\ parse_function_input (snd a) = Ok (snd b)) pieces (pw_pieces c) /\ pw_tdim c = n.
Proof.
  intros Hn. unfold make_pw. destruct (map_res _ pieces) as [items|] eqn:E; [|discriminate]. cbn [rbind].
  apply map_res_split in E.
  assert (F : Forall2 (fun a b => fst b = fst a /\ parse_function_input (snd a) = Ok (snd b)) pieces items).
  { clear Hn. induction E as [|a b l r H _ IH]; constructor; [|exact IH].
    destruct (parse_function_input (snd a)); [|discriminate]. simpl in H. injection H as <-. auto. }
  assert (K : map fst items = map fst pieces).
  { clear - F. induction F as [|a b l r [H _] _ IH]; simpl; [reflexivity|]. congruence. }
  rewrite dict_of_nodup by (rewrite K; exact Hn). destruct items as [|[k f] d]; [discriminate|].
  destruct (forallb _ _); [|discriminate]. intros H. injection H as <-. auto.
Qed.

Lemma make_pw_success pieces fs n : pieces <> [] -> NoDup (map fst pieces) ->
  Forall2 (fun a f => parse_function_input (snd a) = Ok f) pieces fs ->
  (forall f g, In f fs -> In g fs -> same_kind f g = true) ->
  make_pw pieces n = Ok {| pw_pieces := combine (map fst pieces) fs; pw_tdim := n |}.
Proof.
  intros Hne Hn F Hk. unfold make_pw.
  assert (E : map_res (fun sf => rmap (pair (fst sf)) (parse_function_input (snd sf))) pieces = Ok (combine (map fst pieces) fs)).
  { apply map_res_split. clear - F. induction F as [|a f l r H _ IH]; simpl; constructor; [|exact IH]. rewrite H. reflexivity. }
  rewrite E. cbn [rbind].
  assert (L : length pieces = length fs) by (clear - F; induction F; simpl; congruence).
  assert (K : map fst (combine (map fst pieces) fs) = map fst pieces).
  { clear - L. revert fs L. induction pieces as [|a l IH]; intros [|f fs] L; simpl; try discriminate; [reflexivity|].
    f_equal. apply IH. simpl in L. congruence. }
  rewrite dict_of_nodup by (rewrite K; exact Hn).
  destruct (combine (map fst pieces) fs) as [|[k f] d] eqn:Ec.
  - destruct pieces; [congruence|]. destruct fs; discriminate.
  - assert (G : forallb (fun sf => same_kind f (snd sf)) ((k, f) :: d) = true).
    { apply forallb_forall. intros [k' g] Hg. rewrite <- Ec in Hg. apply in_combine_r in Hg. apply Hk; [|exact Hg].
      assert (Hf : In (k, f) (combine (map fst pieces) fs)) by (rewrite Ec; left; reflexivity). apply in_combine_r in Hf. exact Hf. }
    rewrite G. reflexivity.
Qed.

(** Looking up the piece in lists with the same cells. *)
Lemma first_piece_related (Rel : func -> func -> Prop) fl n p l r :
  Forall2 (fun a b => fst b = fst a /\ Rel (snd a) (snd b)) l r ->
  match first_piece fl n p l with
  | Ok f => exists h, first_piece fl n p r = Ok h /\ Rel f h
  | Err e => first_piece fl n p r = Err e
  end.
Proof.
  induction 1 as [|[k f] [k' h] l r [E H] _ IH]; simpl; [reflexivity|]. simpl in E, H. subst k'.
  destruct (in_cell fl n p k) as [[]|]; simpl; [eauto|exact IH|reflexivity].
Qed.

Lemma get_piece_related (Rel : func -> func -> Prop) fl p a b : pw_tdim a = pw_tdim b ->
  Forall2 (fun x y => fst y = fst x /\ Rel (snd x) (snd y)) (pw_pieces a) (pw_pieces b) ->
  match get_piece fl a p with
  | Ok f => exists h, get_piece fl b p = Ok h /\ Rel f h
  | Err e => get_piece fl b p = Err e
  end.
Proof.
  intros E F. unfold get_piece. rewrite E. destruct (pw_tdim b) as [|[|[|[|n]]]]; simpl; try reflexivity; apply first_piece_related; exact F.
Qed.

Definition function_result (r : res pyval) : res func := rbind r parse_function_input.

Lemma pw_map_pieces g a c : pw_ok a -> pw_map g a = Ok c ->
  Forall2 (fun x y => fst y = fst x /\ function_result (g (snd x)) = Ok (snd y)) (pw_pieces a) (pw_pieces c) /\ pw_tdim c = pw_tdim a.
Proof.
  intros [_ [Hn _]]. unfold pw_map. destruct (map_res _ (pw_pieces a)) as [items|] eqn:E; [|discriminate]. cbn [rbind].
  apply map_res_split in E. intros H.
  assert (F : Forall2 (fun x y => fst y = fst x /\ g (snd x) = Ok (snd y)) (pw_pieces a) items).
  { clear - E. induction E as [|x y l r H _ IH]; constructor; [|exact IH]. destruct (g (snd x)); [|discriminate].
    simpl in H. injection H as <-. auto. }
  assert (K : map fst items = map fst (pw_pieces a)).
  { clear - F. induction F as [|x y l r [H _] _ IH]; simpl; [reflexivity|]. congruence. }
  apply make_pw_pieces in H; [|rewrite K; exact Hn]. destruct H as [H1 H2]. split; [|exact H2].
  clear - F H1. revert H1. generalize (pw_pieces c). induction F as [|x y l r [H E] _ IH]; intros m Hm; inversion Hm as [|? z ? m' [E1 E2] Hm']; subst; constructor.
  - split; [congruence|]. unfold function_result. rewrite E. exact E2.
  - apply IH. exact Hm'.
Qed.

(** Evaluation commutes with an operation on every piece. *)
Lemma pw_map_evaluates g a c fl p : pw_ok a -> pw_map g a = Ok c ->
  get_piece fl c p = rbind (get_piece fl a p) (fun f => function_result (g f)).
Proof.
  intros Ha H. destruct (pw_map_pieces g a c Ha H) as [F T].
  pose proof (get_piece_related (fun f h => function_result (g f) = Ok h) fl p a c (eq_sym T) F) as G.
  destruct (get_piece fl a p) as [f|e]; simpl; [|exact G]. destruct G as [h [-> E]]. symmetry. exact E.
Qed.

Lemma map_zip_nodup {A B} (l : list (list pt * A)) (m : list (list pt * B)) : NoDup (map fst l) ->
  NoDup (map (fun ab => fst (fst ab)) (zip l m)).
Proof.
  revert m. induction l as [|a l IH]; intros [|b m] H; simpl; try constructor.
  - inversion H as [|? ? Hn _]; subst. intros Hin. apply Hn. clear - Hin. revert m Hin.
    induction l as [|x l IH]; intros [|y m] Hin; simpl in *; try tauto. destruct Hin as [E|Hin]; [left; exact E|right; eapply IH; exact Hin].
  - apply IH. inversion H; assumption.
Qed.

Lemma pw_zip_pieces op a b c : pw_ok a -> pw_zip op a b = Ok c ->
  Forall2 (fun xy z => fst (fst xy) = fst (snd xy) /\ fst z = fst (fst xy) /\
             function_result (op (PFun (snd (fst xy))) (PFun (snd (snd xy)))) = Ok (snd z))
    (zip (pw_pieces a) (pw_pieces b)) (pw_pieces c) /\ pw_tdim c = pw_tdim a.
Proof.
  intros [_ [Hn _]]. unfold pw_zip. destruct (map_res _ (zip (pw_pieces a) (pw_pieces b))) as [items|] eqn:E; [|discriminate].
  cbn [rbind]. apply map_res_split in E. intros H.
  assert (F : Forall2 (fun xy z => fst (fst xy) = fst (snd xy) /\ fst z = fst (fst xy) /\ op (PFun (snd (fst xy))) (PFun (snd (snd xy))) = Ok (snd z))
     (zip (pw_pieces a) (pw_pieces b)) items).
  { clear - E. induction E as [|x y l r H _ IH]; constructor; [|exact IH]. destruct (pts_eq_dec _ _) as [Ek|]; [|discriminate].
    destruct (op _ _); [|discriminate]. simpl in H. injection H as <-. auto. }
  assert (K : map fst items = map (fun ab => fst (fst ab)) (zip (pw_pieces a) (pw_pieces b))).
  { clear - F. induction F as [|x y l r [_ [H _]] _ IH]; simpl; [reflexivity|]. congruence. }
  apply make_pw_pieces in H; [|rewrite K; apply map_zip_nodup; exact Hn]. destruct H as [H1 H2]. split; [|exact H2].
  clear - F H1. revert H1. generalize (pw_pieces c). induction F as [|x y l r [Ek [H E]] _ IH]; intros m Hm; inversion Hm as [|? z ? m' [E1 E2] Hm']; subst; constructor.
  - split; [exact Ek|]. split; [congruence|]. unfold function_result. rewrite E. exact E2.
  - apply IH. exact Hm'.
Qed.

Lemma pw_zip_evaluates op a b c fl p h : pw_ok a -> pw_tdim a = pw_tdim b -> pw_zip op a b = Ok c ->
  (get_piece fl c p = Ok h <->
   exists f g, get_piece fl a p = Ok f /\ get_piece fl b p = Ok g /\ function_result (op (PFun f) (PFun g)) = Ok h).
Proof.
  intros Ha T H. destruct (pw_zip_pieces op a b c Ha H) as [F T']. unfold get_piece. rewrite T', <- T.
  assert (G : forall n, first_piece fl n p (pw_pieces c) = Ok h <->
    exists f g, first_piece fl n p (pw_pieces a) = Ok f /\ first_piece fl n p (pw_pieces b) = Ok g /\ function_result (op (PFun f) (PFun g)) = Ok h).
  { intros n. revert F. generalize (pw_pieces a) (pw_pieces b) (pw_pieces c). clear.
    induction l as [|[k f] l IH]; intros [|[k' g] m] r F; simpl in F; inversion F as [|? z ? r' [E1 [E2 E3]] F']; subst; simpl.
    - split; [discriminate|]. intros [f [g [H _]]]. discriminate.
    - split; [discriminate|]. intros [f [g0 [H _]]]. discriminate.
    - split; [discriminate|]. intros [f0 [g [_ [H _]]]]. discriminate.
    - destruct z as [kz hz]. simpl in E1, E2, E3. subst k' kz. destruct (in_cell fl n p k) as [[]|]; simpl.
      + split.
        * intros Hh. injection Hh as <-. eauto.
        * intros [f0 [g0 [H1 [H2 H3]]]]. injection H1 as <-. injection H2 as <-. congruence.
      + apply IH. exact F'.
      + split; [discriminate|]. intros [f0 [g0 [H1 _]]]. discriminate. }
  destruct (pw_tdim a) as [|[|[|[|n]]]]; try apply G; (split; [discriminate|]; intros [f [g [H1 _]]]; discriminate).
Qed.

(** The cells for which the tests of geometry.py are exact. *)
Definition regular (n : nat) (cell : list pt) : Prop :=
  match n with
  | 1%nat => points 2 1 cell /\ co cell 0 0 <> co cell 1 0
  | 2%nat => (points 3 2 cell /\ edge_det2 cell 1 2 <> 0) \/ (points 4 2 cell /\ convex_quad 1 cell)
  | 3%nat => points 4 3 cell /\ edge_det3 cell 1 2 3 <> 0
  | _ => False
  end.

Lemma in_cell_decides n p cell : length p = n -> regular n cell -> decides (in_cell false n p cell) (in_hull cell p).
Proof.
  intros Hp Hr. destruct n as [|[|[|[|n]]]]; try contradiction; cbn [in_cell].
  - destruct Hr as [H1 H2]. rewrite firstn_all2 by lia. apply interval_decides; assumption.
  - rewrite firstn_all2 by lia. destruct Hr as [[H1 H2]|[H1 H2]]; pose proof (proj1 H1) as L; change pt with (list R) in *; rewrite L.
    + apply triangle_decides; assumption.
    + apply quad_decides; assumption.
  - destruct Hr as [H1 H2]. pose proof (proj1 H1) as L. change pt with (list R) in *. rewrite L. apply tetrahedron_decides; assumption.
Qed.

(** f is the function of the first piece whose cell contains p. *)
Definition first_at (pieces : list (list pt * func)) (p : list R) (f : func) : Prop :=
  exists before cell after, pieces = (before ++ (cell, f) :: after)%list /\ in_hull cell p /\
    Forall (fun sf => ~ in_hull (fst sf) p) before.

Lemma first_piece_spec n p l : length p = n -> Forall (fun sf => regular n (fst sf)) l ->
  (forall f, first_piece false n p l = Ok f <-> first_at l p f) /\
  ((forall sf, In sf l -> ~ in_hull (fst sf) p) -> first_piece false n p l = Err NotImplementedError).
Proof.
  intros Hp. induction l as [|[k f0] l IH]; intros Hr; simpl.
  - split; [|reflexivity]. intros f. split; [discriminate|]. intros [bf [c [af [E _]]]]. destruct bf; discriminate.
  - inversion Hr as [|? ? Hk Hl]; subst. simpl in Hk. destruct (IH Hl) as [I1 I2].
    destruct (in_cell_decides (length p) p k eq_refl Hk) as [b [Eb Hb]]. rewrite Eb. cbn [rbind]. destruct b.
    + split.
      * intros f. split.
        -- intros E. injection E as <-. exists [], k, l. split; [reflexivity|]. split; [apply Hb; reflexivity|constructor].
        -- intros [bf [c [af [E [Hc Hbf]]]]]. destruct bf as [|x bf]; simpl in E; injection E as E1 E2.
           ++ congruence.
           ++ subst. inversion Hbf as [|? ? Hx _]; subst. destruct Hx. apply Hb. reflexivity.
      * intros H. destruct (H (k, f0) (or_introl eq_refl)). apply Hb. reflexivity.
    + assert (Hn : ~ in_hull k p) by (intros Hin; apply Hb in Hin; discriminate). split.
      * intros f. rewrite I1. split.
        -- intros [bf [c [af [E [Hc Hbf]]]]]. exists ((k, f0) :: bf), c, af. rewrite E. split; [reflexivity|]. split; [exact Hc|]. constructor; assumption.
        -- intros [bf [c [af [E [Hc Hbf]]]]]. destruct bf as [|x bf]; simpl in E; injection E as E1 E2.
           ++ subst. contradiction.
           ++ subst. inversion Hbf; subst. exists bf, c, af. auto.
      * intros H. apply I2. intros sf Hsf. apply H. right. exact Hsf.
Qed.

Lemma get_piece_spec n a p : pw_tdim a = n -> (1 <= n <= 3)%nat -> length p = n ->
  Forall (fun sf => regular n (fst sf)) (pw_pieces a) ->
  (forall f, get_piece false a p = Ok f <-> first_at (pw_pieces a) p f) /\
  ((forall sf, In sf (pw_pieces a) -> ~ in_hull (fst sf) p) -> get_piece false a p = Err NotImplementedError).
Proof.
  intros T Hn Hp Hr. unfold get_piece. rewrite T. destruct n as [|[|[|[|n]]]]; try lia; apply first_piece_spec; assumption.
Qed.

(** Constant values. *)
Lemma number_ev p e : symbol_free e = true -> number e = ev p e.
Proof.
  induction e; simpl; intros H; try reflexivity; try discriminate;
    try (apply andb_prop in H; destruct H as [H1 H2]; rewrite IHe1, IHe2 by assumption; reflexivity);
    rewrite IHe by assumption; reflexivity.
Qed.

Lemma constants_spec l es : constants l = Ok (Some es) -> map_res as_expr l = Ok es /\ Forall (fun e => symbol_free e = true) es.
Proof.
  revert es. induction l as [|v l IH]; intros es H; simpl in H.
  - injection H as <-. split; [reflexivity|constructor].
  - assert (G : exists e, as_expr v = Ok e /\ symbol_free e = true /\ rmap (option_map (cons e)) (constants l) = Ok (Some es)).
    { destruct v as [z|e|[f|f|f]|[|? ?]|m|]; simpl in H; try discriminate.
      - exists (ENum (IZR z)). auto.
      - exists e. destruct (symbol_free e); [auto|discriminate].
      - exists f. destruct (symbol_free f); [auto|discriminate]. }
    destruct G as [e [E1 [E2 E3]]]. destruct (constants l) as [[es'|]|]; simpl in E3; try discriminate. injection E3 as <-.
    destruct (IH es' eq_refl) as [I1 I2]. simpl. rewrite E1. simpl. rewrite I1. split; [reflexivity|]. constructor; assumption.
Qed.
