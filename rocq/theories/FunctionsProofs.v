(** Lemmas about functions.py: arithmetic. *)
From Coquelicot Require Import Coquelicot.
From Coq Require Import String Reals ZArith Arith Bool Lia Lra List.
From Verif Require Import Base FunctionsModel FunctionsSpec.
Import ListNotations.
Local Open Scope R_scope.

(** * Lists *)

Lemma map_res_Ok {A B} (f : A -> res B) l l' :
  map_res f l = Ok l' <-> Forall2 (fun a b => f a = Ok b) l l'.
Proof.
  revert l'. induction l as [|a l IH]; intros l'; simpl.
  - split; intro H; [injection H as <-; constructor | inversion H; reflexivity].
  - destruct (f a) as [b|e] eqn:E; simpl.
    + destruct (map_res f l) as [bs|e] eqn:E2; simpl.
      * split; intro H.
        -- injection H as <-. constructor; [exact E|]. apply IH. reflexivity.
        -- inversion H as [|? b' ? l2 Hb Hl]; subst. rewrite E in Hb. injection Hb as <-.
           apply IH in Hl. injection Hl as <-. reflexivity.
      * split; intro H; [discriminate|]. inversion H as [|? b' ? l2 Hb Hl]; subst. apply IH in Hl. discriminate.
    + split; intro H; [discriminate|]. inversion H; subst. congruence.
Qed.

Lemma map_res_all {A B} (f : A -> res B) (g : A -> B) l :
  (forall a, In a l -> f a = Ok (g a)) -> map_res f l = Ok (map g l).
Proof.
  intros H. apply map_res_Ok. induction l as [|a l IH]; simpl; constructor.
  - apply H. left; reflexivity.
  - apply IH. intros b Hb. apply H. right; exact Hb.
Qed.

Lemma Forall2_length_eq {A B} (R : A -> B -> Prop) l l' : Forall2 R l l' -> length l = length l'.
Proof. induction 1; simpl; congruence. Qed.

Lemma map_ext_Forall2 {A B} (f g : A -> B) l : (forall a, In a l -> f a = g a) -> map f l = map g l.
Proof. apply map_ext_in. Qed.

Lemma length_zip {A B} (l : list A) (l' : list B) : length l = length l' -> length (zip l l') = length l.
Proof. revert l'. induction l; intros [|b l'] H; simpl in *; try discriminate; auto. Qed.

Lemma length_zip_with {A B C} (f : A -> B -> C) l l' :
  length l = length l' -> length (zip_with f l l') = length l.
Proof. intros H. unfold zip_with. rewrite map_length. apply length_zip, H. Qed.

Lemma same_size_length {A B C} (op : A -> B -> option C) u v w :
  same_size op u v = Some w -> length u = length v /\ length w = length u.
Proof.
  revert v w. induction u as [|a u IH]; intros [|b v] w H; simpl in H; try discriminate.
  - injection H as <-. auto.
  - destruct (op a b); [|discriminate]. destruct (same_size op u v) eqn:E; [|discriminate].
    injection H as <-. apply IH in E. simpl. lia.
Qed.

Lemma same_size_total {A B C} (op : A -> B -> C) u v :
  length u = length v -> exists w, same_size (fun a b => Some (op a b)) u v = Some w.
Proof.
  revert v. induction u as [|a u IH]; intros [|b v] H; simpl in *; try discriminate; [eauto|].
  injection H as H. destruct (IH v H) as [w ->]. eauto.
Qed.

Lemma same_size_flip {A B C} (op : A -> B -> option C) u v :
  same_size (fun b a => op a b) v u = same_size op u v.
Proof.
  revert v. induction u as [|a u IH]; intros [|b v]; simpl; try reflexivity. rewrite IH. reflexivity.
Qed.

Lemma same_size_ext {A B C} (op op' : A -> B -> option C) u v :
  (forall a b, op a b = op' a b) -> same_size op u v = same_size op' u v.
Proof.
  intros H. revert v. induction u as [|a u IH]; intros [|b v]; simpl; try reflexivity. rewrite H, IH. reflexivity.
Qed.

Lemma componentwise_flip op u v : componentwise (fun a b => op b a) v u = componentwise op u v.
Proof.
  destruct u, v; simpl; try reflexivity.
  - f_equal. apply (same_size_flip (fun x y => Some (op x y))).
  - f_equal. rewrite <- (same_size_flip (same_size (fun x y => Some (op x y)))).
    apply same_size_ext. intros a b. apply (same_size_flip (fun x y => Some (op x y))).
Qed.

(** * Shapes *)

Lemma mk_mat_ok m : rectangular m -> mk_mat m = Ok (FM m).
Proof.
  intros H. unfold mk_mat. replace (forallb _ m) with true; [reflexivity|].
  symmetry. apply forallb_forall. intros r Hr. apply Nat.eqb_eq.
  destruct m as [|r0 m]; [destruct Hr|]. simpl. apply H; [exact Hr | left; reflexivity].
Qed.

Lemma mk_mat_inv m f : mk_mat m = Ok f -> f = FM m /\ rectangular m.
Proof.
  unfold mk_mat. destruct (forallb _ m) eqn:E; [|discriminate]. intros H. injection H as <-. split; [reflexivity|].
  rewrite forallb_forall in E. intros r r' Hr Hr'.
  apply E in Hr. apply E in Hr'. apply Nat.eqb_eq in Hr, Hr'. congruence.
Qed.

Lemma rect_cols {A} (r0 : list A) m r : rectangular (r0 :: m) -> In r (r0 :: m) -> length r = length r0.
Proof. intros H Hr. apply H; [exact Hr | left; reflexivity]. Qed.

Lemma rect_tail {A} (r : list A) m : rectangular (r :: m) -> rectangular m.
Proof. intros H a b Ha Hb. apply H; right; assumption. Qed.

Lemma rect_intro {A} (m : list (list A)) n : (forall r, In r m -> length r = n) -> rectangular m.
Proof. intros H r r' Hr Hr'. rewrite (H r Hr), (H r' Hr'). reflexivity. Qed.

Lemma rect_shape (m : list (list expr)) r : rectangular m -> In r m -> length r = snd (mat_shape m).
Proof. intros H Hr. destruct m as [|r0 m]; [destruct Hr|]. simpl. apply (rect_cols r0 m); assumption. Qed.

Lemma rect_map {A B} (f : list A -> list B) m :
  (forall r, In r m -> length (f r) = length r) -> rectangular m -> rectangular (map f m).
Proof.
  intros Hf H a b Ha Hb. apply in_map_iff in Ha, Hb.
  destruct Ha as [r [<- Hr]]. destruct Hb as [r' [<- Hr']]. rewrite !Hf by assumption. apply H; assumption.
Qed.

Lemma in_zip {A B} (a : A) (b : B) l l' : In (a, b) (zip l l') -> In a l /\ In b l'.
Proof.
  revert l'. induction l as [|x l IH]; intros [|y l']; simpl; try tauto.
  intros [H|H]; [injection H as -> ->; auto | apply IH in H; tauto].
Qed.

Lemma entry_nth (m : list (list expr)) i j r : nth_error m i = Some r -> entry m i j = nth_error r j.
Proof. unfold entry. intros ->. reflexivity. Qed.

(** * Pointwise operations on expressions *)

Section Additive.
  Variables (p : env) (op : expr -> expr -> expr) (rop : R -> R -> R).
  Hypothesis op_ev : forall a b, ev p (op a b) = rop (ev p a) (ev p b).
  Hypothesis op_defd : forall a b, defd p a -> defd p b -> defd p (op a b).

  Lemma zip_with_value v w :
    length v = length w ->
    same_size (fun x y => Some (rop x y)) (map (ev p) v) (map (ev p) w) = Some (map (ev p) (zip_with op v w)).
  Proof.
    revert w. induction v as [|a v IH]; intros [|b w] H; simpl in *; try discriminate; [reflexivity|].
    injection H as H. rewrite (IH w H). rewrite op_ev. reflexivity.
  Qed.

  Lemma zip_with_defd v w : Forall (defd p) v -> Forall (defd p) w -> Forall (defd p) (zip_with op v w).
  Proof.
    revert w. induction v as [|a v IH]; intros [|b w] Hv Hw; try (constructor; fail).
    inversion Hv; inversion Hw; subst. unfold zip_with. simpl. constructor; [auto|]. apply IH; assumption.
  Qed.

  Lemma zip_rows_value m m' :
    Forall2 (fun a b => length a = length b) m m' ->
    same_size (same_size (fun x y => Some (rop x y))) (map (map (ev p)) m) (map (map (ev p)) m')
    = Some (map (map (ev p)) (zip_with (zip_with op) m m')).
  Proof.
    induction 1 as [|a b m m' Hab H IH]; [reflexivity|]. simpl. rewrite IH.
    rewrite (zip_with_value a b Hab). reflexivity.
  Qed.

  Lemma zip_rows_defd m m' :
    Forall (Forall (defd p)) m -> Forall (Forall (defd p)) m' ->
    Forall (Forall (defd p)) (zip_with (zip_with op) m m').
  Proof.
    revert m'. induction m as [|a m IH]; intros [|b m'] Hv Hw; try (constructor; fail).
    inversion Hv; inversion Hw; subst. unfold zip_with at 1. simpl. constructor; [apply zip_with_defd; auto|].
    apply IH; assumption.
  Qed.

  Lemma item_value_expr i c : item_value p i c -> exists e, as_expr i = Ok e /\ ev p e = c.
  Proof. destruct i as [z|e|[f|f|f]|l|m|]; simpl; intros H; try contradiction; eauto. Qed.

  Lemma item_value_item i c : item_value p i c -> exists e, item_expr i = Ok e /\ ev p e = c.
  Proof. destruct i as [z|e|[f|f|f]|l|m|]; simpl; intros H; try contradiction; eauto. Qed.

  Lemma as_expr_value i e : as_expr i = Ok e -> item_value p i (ev p e).
  Proof. destruct i as [z|e0|[f|f|f]|l|m|]; simpl; intros H; try discriminate; injection H as <-; reflexivity. Qed.

  Lemma as_expr_defd i e : as_expr i = Ok e -> item_defined p i -> defd p e.
  Proof. destruct i as [z|e0|[f|f|f]|l|m|]; simpl; intros H; try discriminate; injection H as <-; simpl; auto. Qed.

  Definition seq_item (q : expr * pyval) : res expr := rmap (op (fst q)) (as_expr (snd q)).

  Lemma seq_items_value v l cs w :
    Forall2 (item_value p) l cs ->
    same_size (fun x y => Some (rop x y)) (map (ev p) v) cs = Some w ->
    exists h, map_res seq_item (zip v l) = Ok h /\ map (ev p) h = w.
  Proof.
    intros H. revert v w. induction H as [|i c l cs Hi Hl IH]; intros v w Hw.
    - destruct v; simpl in Hw; [|discriminate]. injection Hw as <-. exists []. auto.
    - destruct v as [|a v]; simpl in Hw; [discriminate|].
      destruct (same_size _ (map (ev p) v) cs) as [w'|] eqn:E; [|discriminate]. injection Hw as <-.
      destruct (IH v w' E) as [h [Hh Eh]]. destruct (item_value_expr i c Hi) as [e [He Ee]].
      exists (op a e :: h). simpl. unfold seq_item at 1. simpl. rewrite He. simpl. rewrite Hh. simpl.
      split; [reflexivity|]. rewrite op_ev, Ee, Eh. reflexivity.
  Qed.

  Lemma seq_items_sound v l h :
    length v = length l -> map_res seq_item (zip v l) = Ok h ->
    exists cs, Forall2 (item_value p) l cs /\
      same_size (fun x y => Some (rop x y)) (map (ev p) v) cs = Some (map (ev p) h).
  Proof.
    revert l h. induction v as [|a v IH]; intros [|i l] h Hl H; simpl in Hl; try discriminate.
    - simpl in H. injection H as <-. exists []. split; [constructor|reflexivity].
    - simpl in H. unfold seq_item at 1 in H. simpl in H.
      destruct (as_expr i) as [e|x] eqn:Ei; simpl in H; [|discriminate].
      destruct (map_res seq_item (zip v l)) as [h'|x] eqn:E; simpl in H; [|discriminate]. injection H as <-.
      injection Hl as Hl. destruct (IH l h' Hl E) as [cs [Hc Es]].
      exists (ev p e :: cs). split; [constructor; [apply as_expr_value, Ei|exact Hc]|].
      simpl. rewrite Es, op_ev. reflexivity.
  Qed.

  Lemma seq_items_defd v l h :
    map_res seq_item (zip v l) = Ok h -> Forall (defd p) v -> Forall (item_defined p) l -> Forall (defd p) h.
  Proof.
    revert l h. induction v as [|a v IH]; intros [|i l] h H Hv Hd; simpl in H;
      try (injection H as <-; constructor).
    unfold seq_item at 1 in H. simpl in H.
    destruct (as_expr i) as [e|x] eqn:Ei; simpl in H; [|discriminate].
    destruct (map_res seq_item (zip v l)) as [h'|x] eqn:E; simpl in H; [|discriminate]. injection H as <-.
    inversion Hv; inversion Hd; subst. constructor; [apply op_defd; [assumption|eapply as_expr_defd; eauto]|].
    eapply IH; eauto.
  Qed.

  Lemma seq_items_length v l h : map_res seq_item (zip v l) = Ok h -> length h = length (zip v l).
  Proof. intros H. apply map_res_Ok in H. symmetry. eapply Forall2_length_eq, H. Qed.

  Lemma mat_seq_row_eq n r l :
    mat_seq_row op n (r, PSeq l) = if Nat.eqb (length l) n then map_res seq_item (zip r l) else Err AssertionError.
  Proof. reflexivity. Qed.

  Lemma mat_seq_value n m l cs w :
    (forall r, In r m -> length r = n) ->
    Forall2 (row_value p) l cs ->
    same_size (same_size (fun x y => Some (rop x y))) (map (map (ev p)) m) cs = Some w ->
    exists h, map_res (mat_seq_row op n) (zip m l) = Ok h /\ map (map (ev p)) h = w /\
      (forall r, In r h -> length r = n) /\
      (Forall (Forall (defd p)) m -> Forall (row_defined p) l -> Forall (Forall (defd p)) h).
  Proof.
    intros Hn H. revert m w Hn. induction H as [|i c l cs Hi Hl IH]; intros m w Hn Hw.
    - destruct m; simpl in Hw; [|discriminate]. injection Hw as <-. exists []. split; [reflexivity|]. split; [reflexivity|]. split; [intros r []|intros; constructor].
    - destruct m as [|a m]; simpl in Hw; [discriminate|].
      destruct (same_size _ (map (ev p) a) c) as [wr|] eqn:Er; [|discriminate].
      destruct (same_size _ (map (map (ev p)) m) cs) as [w'|] eqn:E; [|discriminate]. injection Hw as <-.
      destruct (IH m w' (fun r Hr => Hn r (or_intror Hr)) E) as [h [Hh [Eh [Hlen Hdef]]]].
      destruct i as [z|e|f|li|mm|]; simpl in Hi; try contradiction.
      destruct (seq_items_value a li c wr Hi Er) as [hr [Hr1 Hr2]].
      assert (La : length a = n) by (apply Hn; left; reflexivity).
      assert (Lli : length li = n).
      { apply Forall2_length_eq in Hi. apply same_size_length in Er. rewrite map_length in Er. lia. }
      exists (hr :: h). cbn [zip map_res]. rewrite mat_seq_row_eq, Lli, Nat.eqb_refl, Hr1. simpl. rewrite Hh. simpl.
      split; [reflexivity|]. split; [rewrite Hr2, Eh; reflexivity|]. split.
      + intros r [<-|Hr]; [|apply Hlen, Hr]. rewrite (seq_items_length _ _ _ Hr1).
        rewrite length_zip; congruence.
      + intros Hm Hd. inversion Hm; inversion Hd; subst. constructor; [|apply Hdef; assumption].
        eapply seq_items_defd; eauto.
  Qed.

  Lemma mat_seq_sound n m l h :
    (forall r, In r m -> length r = n) -> length m = length l ->
    map_res (mat_seq_row op n) (zip m l) = Ok h ->
    exists cs, Forall2 (row_value p) l cs /\
      same_size (same_size (fun x y => Some (rop x y))) (map (map (ev p)) m) cs = Some (map (map (ev p)) h).
  Proof.
    revert l h. induction m as [|a m IH]; intros [|i l] h Hn Hl H; simpl in Hl; try discriminate.
    - simpl in H. injection H as <-. exists []. split; [constructor|reflexivity].
    - cbn [zip map_res] in H.
      destruct i as [z|e|f|li|mm|]; try (simpl in H; discriminate).
      rewrite mat_seq_row_eq in H. destruct (Nat.eqb (length li) n) eqn:En; [|simpl in H; discriminate].
      apply Nat.eqb_eq in En.
      destruct (map_res seq_item (zip a li)) as [hr|x] eqn:Er; simpl in H; [|discriminate].
      destruct (map_res (mat_seq_row op n) (zip m l)) as [h'|x] eqn:E; simpl in H; [|discriminate].
      injection H as <-. injection Hl as Hl.
      destruct (IH l h' (fun r Hr => Hn r (or_intror Hr)) Hl E) as [cs [Hc Es]].
      assert (La : length a = n) by (apply Hn; left; reflexivity).
      destruct (seq_items_sound a li hr (eq_trans La (eq_sym En)) Er) as [c [Hc1 Hc2]].
      exists (c :: cs). split; [constructor; [exact Hc1|exact Hc]|]. simpl. rewrite Hc2, Es. reflexivity.
  Qed.

  (** The sympy.Matrix branch gives the same rows as the MatrixFunction branch. *)
  Lemma row_entries_op m m' i r r' :
    nth_error m i = Some r -> nth_error m' i = Some r' -> length r = length r' ->
    map_res (entry_op op m m' i) (range (length r)) = Ok (zip_with op r r').
  Proof.
    intros Hr Hr' Hl. apply map_res_Ok.
    assert (G : forall k (r r' : list expr), length r = length r' ->
       (forall j, nth_error r j = entry m i (k + j)) -> (forall j, nth_error r' j = entry m' i (k + j)) ->
       Forall2 (fun a b => entry_op op m m' i a = Ok b) (seq k (length r)) (zip_with op r r')).
    { clear r r' Hr Hr' Hl. intros k r. revert k. induction r as [|a r IH]; intros k [|b r'] Hl H1 H2;
        simpl in Hl; try discriminate; [constructor|].
      injection Hl as Hl. cbn [seq length]. unfold zip_with. cbn [zip map fst snd]. constructor.
      - unfold entry_op. specialize (H1 0%nat). specialize (H2 0%nat). rewrite Nat.add_0_r in H1, H2.
        simpl in H1, H2. rewrite <- H1, <- H2. reflexivity.
      - apply (IH (S k) r' Hl); intros j.
        + specialize (H1 (S j)). simpl in H1. rewrite H1. f_equal. lia.
        + specialize (H2 (S j)). simpl in H2. rewrite H2. f_equal. lia. }
    apply (G 0%nat r r' Hl); intros j; simpl; [rewrite (entry_nth m i j r Hr)|rewrite (entry_nth m' i j r' Hr')]; reflexivity.
  Qed.

  Lemma mat_entries_op m m' n :
    length m = length m' -> (forall r, In r m -> length r = n) -> (forall r, In r m' -> length r = n) ->
    map_res (fun i => map_res (entry_op op m m' i) (range n)) (range (length m)) = Ok (zip_with (zip_with op) m m').
  Proof.
    intros Hl Hn Hn'. apply map_res_Ok.
    assert (G : forall k (l l' : list (list expr)), length l = length l' ->
       (forall j, nth_error l j = nth_error m (k + j)) -> (forall j, nth_error l' j = nth_error m' (k + j)) ->
       Forall2 (fun a b => map_res (entry_op op m m' a) (range n) = Ok b) (seq k (length l))
         (zip_with (zip_with op) l l')).
    { intros k l. revert k. induction l as [|a l IH]; intros k [|b l'] Hll H1 H2;
        simpl in Hll; try discriminate; [constructor|].
      injection Hll as Hll. cbn [seq length]. unfold zip_with at 1. cbn [zip map fst snd]. constructor.
      - specialize (H1 0%nat). specialize (H2 0%nat). rewrite Nat.add_0_r in H1, H2. simpl in H1, H2.
        assert (La : length a = n) by (apply Hn; apply nth_error_In with k; auto).
        assert (Lb : length b = n) by (apply Hn'; apply nth_error_In with k; auto).
        rewrite <- La. apply row_entries_op; [auto|auto|congruence].
      - apply (IH (S k) l' Hll); intros j.
        + specialize (H1 (S j)). simpl in H1. rewrite H1. f_equal. lia.
        + specialize (H2 (S j)). simpl in H2. rewrite H2. f_equal. lia. }
    apply (G 0%nat m m' Hl); intros j; reflexivity.
  Qed.

  Lemma same_shape_rows (m m' : list (list expr)) :
    rectangular m -> rectangular m' -> mat_shape m = mat_shape m' ->
    Forall2 (fun a b : list expr => length a = length b) m m'.
  Proof.
    intros H H' E. unfold mat_shape in E. injection E as El Ec.
    set (c := match m with [] => 0%nat | r :: _ => length r end) in *.
    assert (Hc : forall r, In r m -> length r = c).
    { intros r Hr. unfold c. apply (rect_shape m r H Hr). }
    assert (Hc' : forall r, In r m' -> length r = c).
    { intros r Hr. rewrite Ec. apply (rect_shape m' r H' Hr). }
    clearbody c. clear Ec H H'. revert m' El Hc'. induction m as [|a m IH]; intros [|b m'] El Hc'; simpl in El;
      try discriminate; [constructor|]. constructor.
    - rewrite (Hc a), (Hc' b); [reflexivity|left; reflexivity|left; reflexivity].
    - apply IH; [intros r Hr; apply Hc; right; exact Hr | congruence | intros r Hr; apply Hc'; right; exact Hr].
  Qed.

  Lemma same_size_shape (m m' : list (list expr)) w :
    same_size (same_size (fun x y => Some (rop x y))) (map (map (ev p)) m) (map (map (ev p)) m') = Some w ->
    mat_shape m = mat_shape m'.
  Proof.
    intros H. pose proof (same_size_length _ _ _ _ H) as [Hl _]. rewrite !map_length in Hl.
    unfold mat_shape. rewrite Hl. f_equal. destruct m as [|a m], m' as [|b m']; try discriminate; [reflexivity|].
    simpl in H. destruct (same_size _ (map (ev p) a) (map (ev p) b)) as [wr|] eqn:E; [|discriminate].
    apply same_size_length in E. rewrite !map_length in E. tauto.
  Qed.

  Lemma zip_rows_rect m m' n :
    (forall r, In r m -> length r = n) -> (forall r, In r m' -> length r = n) ->
    rectangular (zip_with (zip_with op) m m').
  Proof.
    intros H H'. apply (rect_intro _ n). intros r Hr. unfold zip_with at 1 in Hr. apply in_map_iff in Hr.
    destruct Hr as [[a b] [<- Hab]]. apply in_zip in Hab. simpl. rewrite length_zip_with.
    - apply H, Hab.
    - rewrite (H a), (H' b); tauto.
  Qed.

  Lemma mat_mat_value m m' w :
    rectangular m -> rectangular m' ->
    same_size (same_size (fun x y => Some (rop x y))) (map (map (ev p)) m) (map (map (ev p)) m') = Some w ->
    mat_mat_op op m m' = Ok (FM (zip_with (zip_with op) m m')) /\
    mat_sympy_op op m m' = Ok (FM (zip_with (zip_with op) m m')) /\
    rectangular (zip_with (zip_with op) m m') /\
    w = map (map (ev p)) (zip_with (zip_with op) m m').
  Proof.
    intros H H' Hw. pose proof (same_size_shape m m' w Hw) as Es.
    assert (Hn : forall r, In r m -> length r = snd (mat_shape m)) by (intros r Hr; apply rect_shape; assumption).
    assert (Hn' : forall r, In r m' -> length r = snd (mat_shape m))
      by (intros r Hr; rewrite Es; apply rect_shape; assumption).
    assert (Hr : rectangular (zip_with (zip_with op) m m')) by (apply (zip_rows_rect _ _ _ Hn Hn')).
    repeat split.
    - unfold mat_mat_op, shape_eqb. rewrite Es, !Nat.eqb_refl. simpl. apply mk_mat_ok, Hr.
    - unfold mat_sympy_op. rewrite Es, !Nat.eqb_refl. cbn [andb]. rewrite <- Es.
      change (fst (mat_shape m)) with (length m).
      rewrite mat_entries_op by (try assumption; unfold mat_shape in Es; injection Es as El _; exact El).
      simpl. apply mk_mat_ok, Hr.
    - exact Hr.
    - rewrite (zip_rows_value m m' (same_shape_rows m m' H H' Es)) in Hw. injection Hw as <-. reflexivity.
  Qed.

  (** Compatible operands are combined component by component. *)
  Lemma additive_value self other u v w :
    wf (PFun self) -> wf other -> denotes p (PFun self) u -> denotes p other v ->
    componentwise rop u v = Some w ->
    exists h, additive op self other = Some (Ok h) /\ denotes p (PFun h) w /\ wf (PFun h) /\
      (defined p (PFun self) -> defined p other -> defined p (PFun h)).
  Proof.
    intros Hs Ho Hu Hv Hw.
    destruct self as [f|f|f]; destruct u as [a|a|a]; simpl in Hu; try contradiction; subst a;
    destruct v as [b|b|b]; simpl in Hw; try discriminate.
    - injection Hw as <-. destruct other as [z|e|[g|g|g]|l|m|]; simpl in Hv; try contradiction; subst b;
        eexists; (split; [reflexivity|]); (split; [simpl; rewrite op_ev; reflexivity|]); (split; [exact I|]);
        simpl; intros; apply op_defd; simpl; auto.
    - destruct (same_size _ (map (ev p) f) b) as [wl|] eqn:E; simpl in Hw; [|discriminate]. injection Hw as <-.
      destruct other as [z|e|[g|g|g]|l|m|]; simpl in Hv; try contradiction.
      + subst b. pose proof (same_size_length _ _ _ _ E) as [Hl _]. rewrite !map_length in Hl.
        rewrite (zip_with_value f g Hl) in E. injection E as <-.
        eexists. split; [simpl; rewrite Hl, Nat.eqb_refl; reflexivity|]. split; [reflexivity|]. split; [exact I|].
        simpl. apply zip_with_defd.
      + destruct (seq_items_value f l b wl Hv E) as [h [Hh Eh]].
        exists (FV h). split; [simpl; unfold vec_seq_op; fold seq_item|].
        { change (fun p0 : expr * pyval => rmap (op (fst p0)) (as_expr (snd p0))) with seq_item.
          rewrite Hh. reflexivity. }
        split; [simpl; auto|]. split; [exact I|]. simpl. intros Hf Hl.
        eapply seq_items_defd; eauto.
        apply Forall_forall. intros i Hi. rewrite Forall_forall in Hl. apply Hl in Hi.
        destruct i as [z|e|[g|g|g]|l'|m|]; simpl in *; auto.
    - destruct (same_size _ (map (map (ev p)) f) b) as [wl|] eqn:E; simpl in Hw; [|discriminate].
      injection Hw as <-. simpl in Hs.
      destruct other as [z|e|[g|g|g]|l|m|]; simpl in Hv; try contradiction.
      + subst b. simpl in Ho. destruct (mat_mat_value f g wl Hs Ho E) as [H1 [_ [H3 H4]]].
        eexists. split; [simpl; rewrite H1; reflexivity|]. split; [exact H4|]. split; [exact H3|].
        simpl. apply zip_rows_defd.
      + destruct (mat_seq_value (snd (mat_shape f)) f l b wl) as [h [H1 [H2 [H3 H4]]]]; auto.
        { intros r Hr. apply rect_shape; assumption. }
        assert (Hrect : rectangular h) by (apply (rect_intro _ _ H3)).
        exists (FM h). split; [simpl; unfold mat_seq_op; rewrite H1; simpl; rewrite (mk_mat_ok h Hrect); reflexivity|].
        split; [simpl; auto|]. split; [exact Hrect|]. exact H4.
      + subst b. simpl in Ho. destruct (mat_mat_value f m wl Hs Ho E) as [_ [H2 [H3 H4]]].
        eexists. split; [simpl; rewrite H2; reflexivity|]. split; [exact H4|]. split; [exact H3|].
        simpl. apply zip_rows_defd.
  Qed.

  (** Only compatible operands are combined, provided that lists have the right length. *)
  Definition fits (self : func) (other : pyval) : Prop :=
    match self, other with
    | FV v, PSeq l => length v = length l
    | FM m, PSeq l => length m = length l
    | _, _ => True
    end.

  Lemma additive_sound self other h :
    wf (PFun self) -> wf other -> fits self other -> additive op self other = Some (Ok h) ->
    exists u v w, denotes p (PFun self) u /\ denotes p other v /\ componentwise rop u v = Some w /\
      denotes p (PFun h) w.
  Proof.
    intros Hs Ho Hf H.
    destruct self as [f|f|f].
    - destruct other as [z|e|[g|g|g]|l|m|]; simpl in H; try discriminate; injection H as <-.
      + exists (VS (ev p f)), (VS (IZR z)). eexists. repeat split. simpl. rewrite op_ev. reflexivity.
      + exists (VS (ev p f)), (VS (ev p e)). eexists. repeat split. simpl. rewrite op_ev. reflexivity.
      + exists (VS (ev p f)), (VS (ev p g)). eexists. repeat split. simpl. rewrite op_ev. reflexivity.
    - destruct other as [z|e|[g|g|g]|l|m|]; simpl in H; try discriminate; injection H as H.
      + destruct (Nat.eqb (length f) (length g)) eqn:E; [|discriminate]. apply Nat.eqb_eq in E. injection H as <-.
        exists (VV (map (ev p) f)), (VV (map (ev p) g)). eexists. repeat split.
        * simpl. rewrite (zip_with_value f g E). reflexivity.
        * reflexivity.
      + unfold vec_seq_op in H.
        change (fun p0 : expr * pyval => rmap (op (fst p0)) (as_expr (snd p0))) with seq_item in H.
        destruct (map_res seq_item (zip f l)) as [hl|x] eqn:E; simpl in H; [|discriminate]. injection H as <-.
        destruct (seq_items_sound f l hl Hf E) as [cs [Hc Es]].
        exists (VV (map (ev p) f)), (VV cs). eexists. repeat split; [exact Hc|simpl; rewrite Es; reflexivity|reflexivity].
    - simpl in Hs. destruct other as [z|e|[g|g|g]|l|m|]; simpl in H; try discriminate; injection H as H.
      + simpl in Ho. unfold mat_mat_op in H. destruct (shape_eqb _ _) eqn:E; [|discriminate].
        apply mk_mat_inv in H. destruct H as [-> _]. unfold shape_eqb in E. apply andb_prop in E.
        destruct E as [E1 E2]. apply Nat.eqb_eq in E1, E2.
        assert (Es : mat_shape f = mat_shape g) by (apply injective_projections; assumption).
        exists (VM (map (map (ev p)) f)), (VM (map (map (ev p)) g)). eexists. repeat split.
        * simpl. rewrite (zip_rows_value f g (same_shape_rows f g Hs Ho Es)). reflexivity.
        * reflexivity.
      + unfold mat_seq_op in H. destruct (map_res _ (zip f l)) as [hl|x] eqn:E; simpl in H; [|discriminate].
        apply mk_mat_inv in H. destruct H as [-> _].
        destruct (mat_seq_sound _ f l hl (fun r Hr => rect_shape f r Hs Hr) Hf E) as [cs [Hc Es]].
        exists (VM (map (map (ev p)) f)), (VM cs). eexists. repeat split; [exact Hc|simpl; rewrite Es; reflexivity|reflexivity].
      + simpl in Ho. unfold mat_sympy_op in H.
        destruct (Nat.eqb (fst (mat_shape m)) (fst (mat_shape f)) && Nat.eqb (snd (mat_shape m)) (snd (mat_shape f))) eqn:E;
          [|discriminate].
        apply andb_prop in E. destruct E as [E1 E2]. apply Nat.eqb_eq in E1, E2.
        assert (Es : mat_shape f = mat_shape m) by (apply injective_projections; auto).
        change (fst (mat_shape f)) with (length f) in H.
        rewrite (mat_entries_op f m (snd (mat_shape f))) in H.
        * simpl in H. apply mk_mat_inv in H. destruct H as [-> _].
          exists (VM (map (map (ev p)) f)), (VM (map (map (ev p)) m)). eexists. repeat split.
          -- simpl. rewrite (zip_rows_value f m (same_shape_rows f m Hs Ho Es)). reflexivity.
          -- reflexivity.
        * simpl in E1. auto.
        * intros r Hr. apply rect_shape; assumption.
        * intros r Hr. rewrite Es. apply rect_shape; assumption.
  Qed.
End Additive.

(** Which exceptions incompatible operands raise: the methods return NotImplemented (hence TypeError), or fail
    on an assertion, or (an item of a list that is no number) raise TypeError. *)
Definition rejection (e : exn) : Prop := e = TypeError \/ e = AssertionError.

Lemma rejection_map_res {A B} (f : A -> res B) l e :
  (forall a e, In a l -> f a = Err e -> rejection e) -> map_res f l = Err e -> rejection e.
Proof.
  induction l as [|a l IH]; intros H E; simpl in E; [discriminate|].
  destruct (f a) as [b|x] eqn:Ef; simpl in E.
  - destruct (map_res f l) as [bs|x] eqn:El; simpl in E; [discriminate|]. injection E as <-.
    apply IH; [|reflexivity]. intros a' e' Ha. apply H. right; exact Ha.
  - injection E as <-. apply (H a); [left; reflexivity|exact Ef].
Qed.

Lemma rejection_as_expr v e : as_expr v = Err e -> rejection e.
Proof. destruct v as [z|x|[f|f|f]|l|m|]; simpl; intros H; try discriminate; injection H as <-; left; reflexivity. Qed.

Lemma rejection_mk_mat m e : mk_mat m = Err e -> rejection e.
Proof. unfold mk_mat. destruct (forallb _ m); intros H; try discriminate. injection H as <-. right; reflexivity. Qed.

Lemma rejection_seq_items op (l : list (expr * pyval)) e :
  map_res (fun q => rmap (op (fst q)) (as_expr (snd q))) l = (Err e : res (list expr)) -> rejection e.
Proof.
  apply rejection_map_res. intros [a v] x _ H. simpl in H.
  destruct (as_expr v) eqn:E; simpl in H; [discriminate|]. injection H as <-. eapply rejection_as_expr; eauto.
Qed.

Lemma additive_rejects op self other e :
  wf (PFun self) -> wf other -> additive op self other = Some (Err e) -> rejection e.
Proof.
  intros Hs Ho H.
  destruct self as [f|f|f]; destruct other as [z|x|[g|g|g]|l|m|]; simpl in H; try discriminate; injection H as H.
  - destruct (Nat.eqb _ _); try discriminate. injection H as <-. right; reflexivity.
  - unfold vec_seq_op in H. destruct (map_res _ (zip f l)) eqn:E; simpl in H; [discriminate|]. injection H as <-.
    eapply rejection_seq_items; eauto.
  - unfold mat_mat_op in H. destruct (shape_eqb _ _); [eapply rejection_mk_mat; eauto|]. injection H as <-. right; reflexivity.
  - unfold mat_seq_op in H. destruct (map_res _ (zip f l)) eqn:E; simpl in H; [eapply rejection_mk_mat; eauto|].
    injection H as <-. eapply rejection_map_res; [|exact E]. intros [r v] e' _ E'. unfold mat_seq_row in E'. simpl in E'.
    destruct v; try (injection E' as <-; right; reflexivity).
    destruct (Nat.eqb _ _); [eapply rejection_seq_items; eauto|injection E' as <-; right; reflexivity].
  - simpl in Hs, Ho. unfold mat_sympy_op in H.
    destruct (Nat.eqb (fst (mat_shape m)) (fst (mat_shape f)) && Nat.eqb (snd (mat_shape m)) (snd (mat_shape f))) eqn:E;
      [|injection H as <-; right; reflexivity].
    apply andb_prop in E. destruct E as [E1 E2]. apply Nat.eqb_eq in E1, E2.
    change (fst (mat_shape f)) with (length f) in H. rewrite (mat_entries_op op f m (snd (mat_shape f))) in H.
    + simpl in H. eapply rejection_mk_mat; eauto.
    + simpl in E1. auto.
    + intros r Hr. apply rect_shape; assumption.
    + intros r Hr. rewrite <- E2. apply rect_shape; assumption.
Qed.
