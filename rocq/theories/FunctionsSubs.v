(** Lemmas about functions.py: substitution, differential operators, iteration, maximum_degree. *)
From Coquelicot Require Import Coquelicot.
From Coq Require Import String Reals ZArith Arith Bool Lia Lra List FunctionalExtensionality.
From Coq Require DecimalString DecimalNat.
From Verif Require Import Base FunctionsModel FunctionsSpec FunctionsProofs FunctionsArith.
Import ListNotations.
Local Open Scope R_scope.

(** * Substitution *)

Lemma upd_same p s v : upd p s v s = v.
Proof. unfold upd. rewrite String.eqb_refl. reflexivity. Qed.
Lemma upd_other p s s' v : s <> s' -> upd p s v s' = p s'.
Proof. intros H. unfold upd. apply String.eqb_neq in H. rewrite H. reflexivity. Qed.

Lemma ev_ext p q e : (forall s, occurs s e -> p s = q s) -> ev p e = ev q e.
Proof.
  induction e; simpl; intros H; auto; try (rewrite IHe1, IHe2 by auto; reflexivity); rewrite IHe by auto; reflexivity.
Qed.

Lemma defd_ext p q e : (forall s, occurs s e -> p s = q s) -> defd p e -> defd q e.
Proof.
  induction e; simpl; intros H; auto.
  - intros [H1 H2]; split; auto.
  - intros [H1 H2]; split; auto.
  - intros [H1 [H2 H3]]; repeat split; auto. rewrite <- (ev_ext p q e2); auto.
  - intros [H1 H2]; split; auto. rewrite <- (ev_ext p q e); auto.
Qed.

Lemma ev_esubs p s v e : ev p (esubs s v e) = ev (upd p s (ev p v)) e.
Proof.
  induction e; simpl; try (rewrite IHe1, IHe2; reflexivity); try (rewrite IHe; reflexivity); try reflexivity.
  unfold upd. destruct (String.eqb s s0) eqn:E; reflexivity.
Qed.

Lemma defd_esubs p s v e : defd p v -> defd (upd p s (ev p v)) e -> defd p (esubs s v e).
Proof.
  intros Hv. induction e; simpl; try tauto.
  - intros _. destruct (String.eqb s s0); simpl; auto.
  - rewrite ev_esubs. tauto.
  - rewrite ev_esubs. tauto.
Qed.

Lemma dummy_inj i j : dummy i = dummy j -> i = j.
Proof.
  unfold dummy. intros H. simpl in H.
  assert (E : DecimalString.NilEmpty.string_of_uint (Nat.to_uint i) = DecimalString.NilEmpty.string_of_uint (Nat.to_uint j))
    by (repeat (injection H as H); exact H).
  assert (E2 : Some (Nat.to_uint i) = Some (Nat.to_uint j))
    by (rewrite <- !DecimalString.NilEmpty.usu, E; reflexivity).
  injection E2 as E2. apply DecimalNat.Unsigned.to_uint_inj, E2.
Qed.

(** The last substitutions: DUMMY_k, DUMMY_(k+1), ... become the values. *)
Lemma fold_values p vs k e :
  (forall v i, In v vs -> ~ occurs (dummy i) v) ->
  let q := fun s => assign (map dummy (seq k (length vs))) (map (ev p) vs) p s in
  ev p (fold_left (fun e c => esubs (fst c) (snd c) e) (zip (map dummy (seq k (length vs))) vs) e) = ev q e.
Proof.
  revert k e. induction vs as [|v vs IH]; intros k e Hv; simpl; [reflexivity|].
  rewrite IH by (intros; apply Hv; right; assumption).
  set (q := assign (map dummy (seq (S k) (length vs))) (map (ev p) vs) p).
  rewrite ev_esubs.
  assert (E : ev q v = ev p v).
  { apply ev_ext. intros s Hs. unfold q.
    assert (G : forall l cs, (forall x, In x l -> x <> s) -> assign l cs p s = p s).
    { induction l as [|x l IHl]; intros [|c cs] Hl; simpl; try reflexivity.
      rewrite upd_other by (apply Hl; left; reflexivity). apply IHl. intros y Hy. apply Hl. right; exact Hy. }
    apply G. intros x Hx ->. apply in_map_iff in Hx. destruct Hx as [i [<- _]].
    apply (Hv v i (or_introl eq_refl) Hs). }
  change (fun s : sym => q s) with q. rewrite E. reflexivity.
Qed.

Lemma fold_values_defd p vs k e :
  (forall v i, In v vs -> ~ occurs (dummy i) v) ->
  (forall v, In v vs -> defd p v) ->
  defd (assign (map dummy (seq k (length vs))) (map (ev p) vs) p) e ->
  defd p (fold_left (fun e c => esubs (fst c) (snd c) e) (zip (map dummy (seq k (length vs))) vs) e).
Proof.
  revert k e. induction vs as [|v vs IH]; intros k e Hv Hd He; simpl; [exact He|].
  apply IH; [intros; apply Hv; right; assumption|intros; apply Hd; right; assumption|].
  set (q := assign (map dummy (seq (S k) (length vs))) (map (ev p) vs) p) in *.
  assert (Eq : forall s, occurs s v -> q s = p s).
  { intros s Hs. unfold q.
    assert (G : forall l cs, (forall x, In x l -> x <> s) -> assign l cs p s = p s).
    { induction l as [|x l IHl]; intros [|c cs] Hl; simpl; try reflexivity.
      rewrite upd_other by (apply Hl; left; reflexivity). apply IHl. intros y Hy. apply Hl. right; exact Hy. }
    apply G. intros x Hx ->. apply in_map_iff in Hx. destruct Hx as [i [<- _]].
    apply (Hv v i (or_introl eq_refl) Hs). }
  apply defd_esubs.
  - apply (defd_ext p q); [intros s Hs; symmetry; auto|]. apply Hd. left; reflexivity.
  - rewrite (ev_ext q p v) by auto. exact He.
Qed.

(** The first substitutions: the variables become DUMMY_k, DUMMY_(k+1), ... *)
Lemma fold_vars q vs k n e :
  (forall v i, In v vs -> v <> dummy i) ->
  ev q (fold_left (fun e c => esubs (fst c) (ESym (snd c)) e) (zip vs (map dummy (seq k n))) e)
  = ev (assign vs (map q (map dummy (seq k n))) q) e.
Proof.
  revert k n e. induction vs as [|v vs IH]; intros k n e Hv; [reflexivity|].
  destruct n as [|n]; [reflexivity|]. simpl.
  rewrite IH by (intros; apply Hv; right; assumption). rewrite ev_esubs. simpl.
  replace (assign vs (map q (map dummy (seq (S k) n))) q (dummy k)) with (q (dummy k)); [reflexivity|].
  assert (G : forall cs, q (dummy k) = assign vs cs q (dummy k)).
  { intros cs. revert Hv. clear. revert cs. induction vs as [|x l IHl]; intros [|c cs] Hl; simpl; try reflexivity.
    rewrite upd_other by (apply Hl; right; left; reflexivity).
    apply IHl. intros y i [Hy|Hy]; [apply Hl; left; exact Hy|apply Hl; right; right; exact Hy]. }
  apply G.
Qed.

Lemma fold_vars_defd q vs k n e :
  (forall v i, In v vs -> v <> dummy i) ->
  defd (assign vs (map q (map dummy (seq k n))) q) e ->
  defd q (fold_left (fun e c => esubs (fst c) (ESym (snd c)) e) (zip vs (map dummy (seq k n))) e).
Proof.
  revert k n e. induction vs as [|v vs IH]; intros k n e Hv He; [exact He|].
  destruct n as [|n]; [exact He|]. simpl.
  apply IH; [intros; apply Hv; right; assumption|]. apply defd_esubs; [exact I|]. simpl.
  replace (assign vs (map q (map dummy (seq (S k) n))) q (dummy k)) with (q (dummy k)); [exact He|].
  assert (G : forall cs, q (dummy k) = assign vs cs q (dummy k)).
  { intros cs. revert Hv. clear. revert cs. induction vs as [|x l IHl]; intros [|c cs] Hl; simpl; try reflexivity.
    rewrite upd_other by (apply Hl; right; left; reflexivity).
    apply IHl. intros y i [Hy|Hy]; [apply Hl; left; exact Hy|apply Hl; right; right; exact Hy]. }
  apply G.
Qed.

(** The reserved names DUMMY_0, DUMMY_1, ... do not occur. *)
Definition no_dummy (e : expr) : Prop := forall i, ~ occurs (dummy i) e.

Lemma assign_dummies p cs k :
  map (assign (map dummy (seq k (length cs))) cs p) (map dummy (seq k (length cs))) = cs.
Proof.
  revert k. induction cs as [|c cs IH]; intros k; [reflexivity|]. simpl. rewrite upd_same. f_equal.
  etransitivity; [|apply (IH (S k))]. rewrite !map_map. apply map_ext_in. intros i Hi. apply in_seq in Hi.
  apply upd_other. intros E. apply dummy_inj in E. lia.
Qed.

Lemma assign_other p vs cs s : ~ In s vs -> assign vs cs p s = p s.
Proof.
  revert cs. induction vs as [|v vs IH]; intros [|c cs] H; simpl; try reflexivity.
  rewrite upd_other by (intros ->; apply H; left; reflexivity). apply IH. intros Hs. apply H. right; exact Hs.
Qed.

Lemma assign_base_ext p q vs cs s : p s = q s -> assign vs cs p s = assign vs cs q s.
Proof.
  intros H. revert cs. induction vs as [|v vs IH]; intros [|c cs]; simpl; auto.
  unfold upd. destruct (String.eqb v s); [reflexivity|]. apply IH.
Qed.

Definition value_exprs (l : list pyval) (es : list expr) : Prop := Forall2 (fun v e => as_expr v = Ok e) l es.

Lemma subs_expr_list_value p f vs l es :
  no_dummy f -> (forall v i, In v vs -> v <> dummy i) -> Forall no_dummy es -> map_res as_expr l = Ok es ->
  exists h, subs_expr f (VarList vs) (PSeq l) = Ok h /\ ev p h = ev (assign vs (map (ev p) es) p) f /\
    (Forall (defd p) es -> defd (assign vs (map (ev p) es) p) f -> defd p h).
Proof.
  intros Hf Hv Hes Hl.
  assert (Hlen : length l = length es) by (apply map_res_Ok in Hl; eapply Forall2_length_eq; eauto).
  assert (Hes' : forall v i, In v es -> ~ occurs (dummy i) v).
  { intros v i Hin. rewrite Forall_forall in Hes. apply (Hes v Hin). }
  simpl. rewrite Hl. simpl. unfold range. rewrite Hlen. eexists. split; [reflexivity|].
  set (q := assign (map dummy (seq 0 (length es))) (map (ev p) es) p).
  assert (Eq : map q (map dummy (seq 0 (length es))) = map (ev p) es).
  { unfold q. rewrite <- (map_length (ev p) es) at 1 2. apply assign_dummies. }
  assert (Ext : forall s, occurs s f -> assign vs (map (ev p) es) q s = assign vs (map (ev p) es) p s).
  { intros s Hs. apply assign_base_ext. unfold q. apply assign_other. intros Hin. apply in_map_iff in Hin.
    destruct Hin as [i [<- _]]. apply (Hf i Hs). }
  split.
  - rewrite (fold_values p es 0 _ Hes'). cbv zeta. fold q. change (fun s : sym => q s) with q.
    rewrite (fold_vars q vs 0 (length es) f Hv), Eq. apply ev_ext, Ext.
  - intros Hd Hdf. apply fold_values_defd; [exact Hes'|intros v Hin; rewrite Forall_forall in Hd; auto|].
    fold q. apply fold_vars_defd; [exact Hv|]. rewrite Eq. eapply defd_ext; [|exact Hdf]. intros s Hs. symmetry. auto.
Qed.

Lemma subs_expr_one_value p f s v e :
  as_expr v = Ok e ->
  exists h, subs_expr f (VarOne s) v = Ok h /\ ev p h = ev (upd p s (ev p e)) f /\
    (defd p e -> defd (upd p s (ev p e)) f -> defd p h).
Proof.
  intros He. exists (esubs s e f). split.
  - destruct v as [z|x|[g|g|g]|l|m|]; simpl in *; try discriminate; injection He as <-; reflexivity.
  - rewrite ev_esubs. split; [reflexivity|]. apply defd_esubs.
Qed.

(** All components of a function. *)
Definition components (f : func) : list expr :=
  match f with FS e => [e] | FV v => v | FM m => concat m end.

Definition value_at (p : env) (f : func) : val :=
  match f with FS e => VS (ev p e) | FV v => VV (map (ev p) v) | FM m => VM (map (map (ev p)) m) end.

Lemma map_res_values (g : expr -> res expr) p q l :
  (forall e, In e l -> exists h, g e = Ok h /\ ev p h = ev q e) ->
  exists hs, map_res g l = Ok hs /\ map (ev p) hs = map (ev q) l.
Proof.
  induction l as [|a l IH]; intros H; [exists []; auto|].
  destruct IH as [hs [H1 H2]]; [intros e He; apply H; right; exact He|].
  destruct (H a (or_introl eq_refl)) as [h [E1 E2]]. exists (h :: hs). simpl. rewrite E1. simpl. rewrite H1. simpl.
  rewrite E2, H2. auto.
Qed.

Lemma map_res_rows_values (g : expr -> res expr) p q m :
  (forall e, In e (concat m) -> exists h, g e = Ok h /\ ev p h = ev q e) ->
  exists hs, map_res (map_res g) m = Ok hs /\ map (map (ev p)) hs = map (map (ev q)) m.
Proof.
  induction m as [|a m IH]; intros H; [exists []; auto|].
  destruct IH as [hs [H1 H2]]; [intros e He; apply H; simpl; apply in_or_app; right; exact He|].
  destruct (map_res_values g p q a) as [h [E1 E2]]; [intros e He; apply H; simpl; apply in_or_app; left; exact He|].
  exists (h :: hs). simpl. rewrite E1. simpl. rewrite H1. simpl. rewrite E2, H2. auto.
Qed.

Lemma rect_of_values {A B} (m : list (list A)) (m' : list (list B)) :
  map (@length A) m = map (@length B) m' -> rectangular m -> rectangular m'.
Proof.
  intros E H r r' Hr Hr'.
  assert (G : forall r, In r m' -> exists s, In s m /\ length s = length r).
  { intros s Hs. assert (Hin : In (length s) (map (@length B) m')) by (apply in_map, Hs).
    rewrite <- E in Hin. apply in_map_iff in Hin. destruct Hin as [t [Et Ht]]. eauto. }
  destruct (G r Hr) as [s [Hs <-]]. destruct (G r' Hr') as [s' [Hs' <-]]. apply H; assumption.
Qed.

Lemma f_subs_values self vars values p q :
  wf (PFun self) ->
  (forall e, In e (components self) -> exists h, subs_expr e vars values = Ok h /\ ev p h = ev q e) ->
  exists h, f_subs self vars values = Ok h /\ value_at p h = value_at q self.
Proof.
  intros Hwf H. destruct self as [e|v|m]; simpl in *.
  - destruct (H e (or_introl eq_refl)) as [h [E1 E2]]. exists (FS h). rewrite E1. simpl. rewrite E2. auto.
  - destruct (map_res_values _ p q v H) as [hs [E1 E2]]. exists (FV hs). rewrite E1. simpl. rewrite E2. auto.
  - destruct (map_res_rows_values _ p q m H) as [hs [E1 E2]]. exists (FM hs). rewrite E1. simpl.
    rewrite mk_mat_ok.
    + simpl. rewrite E2. auto.
    + apply (rect_of_values m hs); [|exact Hwf].
      assert (G : map (@length R) (map (map (ev q)) m) = map (@length R) (map (map (ev p)) hs)) by (rewrite E2; reflexivity).
      rewrite !map_map in G. etransitivity; [|etransitivity; [exact G|]]; apply map_ext; intros r; rewrite map_length; reflexivity.
Qed.

(** * Derivatives *)

Lemma smooth_defd p e : smooth p e -> defd p e.
Proof. induction e; simpl; try tauto. intros [H1 H2]; split; [auto|lra]. Qed.

Lemma upd_self p s : upd p s (p s) = p.
Proof.
  apply functional_extensionality. intros s'. unfold upd. destruct (String.eqb_spec s s'); [subst|]; reflexivity.
Qed.

Lemma ediff_correct p s e : smooth p e -> partial p s e (ev p (ediff s e)).
Proof.
  unfold partial. induction e; simpl; intros H.
  - apply is_derive_Reals. apply derivable_pt_lim_const.
  - destruct (String.eqb s s0) eqn:E.
    + apply String.eqb_eq in E. subst. apply (is_derive_ext (fun h => h)); [intros h; symmetry; apply upd_same|].
      simpl. apply @is_derive_id.
    + apply String.eqb_neq in E. apply (is_derive_ext (fun _ => p s0)); [intros h; symmetry; apply upd_other, E|].
      simpl. apply @is_derive_const.
  - destruct H. apply (is_derive_plus (fun h => ev (upd p s h) e1) (fun h => ev (upd p s h) e2)); auto.
  - destruct H as [H1 H2]. specialize (IHe1 H1). specialize (IHe2 H2).
    pose proof (is_derive_mult (fun h => ev (upd p s h) e1) (fun h => ev (upd p s h) e2) (p s) _ _ IHe1 IHe2 Rmult_comm) as D.
    cbv beta in D; rewrite upd_self in D. exact D.
  - destruct H as [H1 [H2 H3]]. specialize (IHe1 H1). specialize (IHe2 H2).
    pose proof (is_derive_div (fun h => ev (upd p s h) e1) (fun h => ev (upd p s h) e2) (p s) _ _ IHe1 IHe2) as D.
    cbv beta in D; rewrite upd_self in D. specialize (D H3).
    match goal with |- is_derive _ _ ?t => replace t with ((ev p (ediff s e1) * ev p e2 - ev p e1 * ev p (ediff s e2)) / ev p e2 ^ 2); [exact D|] end.
    simpl. field. exact H3.
  - specialize (IHe H). pose proof (is_derive_pow (fun h => ev (upd p s h) e) n (p s) _ IHe) as D.
    cbv beta in D; rewrite upd_self in D. eapply is_derive_ext_loc in D; [|apply filter_forall; intros h; reflexivity].
    replace (ev p match n with O => ENum 0 | S k => EMul (EMul (ENum (INR n)) (EPow e k)) (ediff s e) end)
      with (INR n * ev p (ediff s e) * ev p e ^ Nat.pred n); [exact D|].
    destruct n; simpl; ring.
  - destruct H as [H1 H2]. specialize (IHe H1).
    pose proof (is_derive_sqrt (fun h => ev (upd p s h) e) (p s) _ IHe) as D. cbv beta in D; rewrite upd_self in D. exact (D H2).
  - destruct H as [H1 H2]. specialize (IHe H1).
    pose proof (is_derive_Rabs (fun h => ev (upd p s h) e) (p s) _ IHe) as D. cbv beta in D; rewrite upd_self in D. specialize (D H2).
    match goal with |- is_derive _ _ ?t => replace t with (sign (ev p e) * ev p (ediff s e)); [exact D|] end.
    unfold sign. destruct (total_order_T 0 (ev p e)) as [[Hlt|Heq]|Hgt].
    + rewrite Rabs_right by lra. field. lra.
    + lra.
    + rewrite Rabs_left by lra. field. lra.
Qed.

Lemma smooth_diff p s e : smooth p e -> smooth p (ediff s e).
Proof.
  induction e; simpl; auto.
  - destruct (String.eqb s s0); simpl; auto.
  - intros [H1 H2]. auto.
  - intros [H1 H2]. auto.
  - intros [H1 [H2 H3]]. repeat (split; auto).
  - destruct n; simpl; auto.
  - intros [H1 H2]. repeat (split; [solve [auto]|]). apply Rmult_integral_contrapositive_currified; [lra|].
    intros E. apply sqrt_eq_0 in E; lra.
  - intros [H1 H2]. repeat (split; [solve [auto]|]). apply Rabs_no_R0, H2.
Qed.

Lemma ediff_comm p s s' e : smooth p e -> ev p (ediff s (ediff s' e)) = ev p (ediff s' (ediff s e)).
Proof.
  induction e; simpl; intros H.
  - reflexivity.
  - destruct (String.eqb s s0), (String.eqb s' s0); reflexivity.
  - rewrite IHe1, IHe2 by tauto. reflexivity.
  - rewrite IHe1, IHe2 by tauto. ring.
  - destruct H as [H1 [H2 H3]]. rewrite IHe1, IHe2 by tauto. field. exact H3.
  - destruct n as [|[|n]]; simpl; [reflexivity| |]; rewrite IHe by tauto; ring.
  - destruct H as [H1 H2]. rewrite IHe by tauto.
    assert (sqrt (ev p e) <> 0) by (intros E; apply sqrt_eq_0 in E; lra). field. assumption.
  - destruct H as [H1 H2]. rewrite IHe by tauto.
    assert (Rabs (ev p e) <> 0) by (apply Rabs_no_R0, H2). field. assumption.
Qed.

(** * Iteration *)

Definition collect (acc : list expr) (e : expr) (st : iter_state) : list expr * iter_state := ((acc ++ [e])%list, st).

Lemma for_next_collect l n acc fuel :
  (n <= length l)%nat -> (length l - n < fuel)%nat ->
  for_next fuel collect acc {| it_vec := l; it_n := Some n |}
  = Some ((acc ++ skipn n l)%list, {| it_vec := l; it_n := Some (length l) |}).
Proof.
  revert n acc. induction fuel as [|fuel IH]; intros n acc Hn Hf; [lia|].
  cbn [for_next]. unfold vec_next. cbn [it_n it_vec].
  destruct (Nat.ltb n (length l)) eqn:E.
  - apply Nat.ltb_lt in E. replace (S n - 1)%nat with n by lia.
    destruct (nth_error l n) as [e|] eqn:En; [|apply nth_error_None in En; lia].
    cbn [collect]. rewrite IH by lia. f_equal. f_equal. rewrite <- app_assoc. f_equal.
    clear - En. revert n En. induction l as [|a l IHl]; intros n En; [destruct n; discriminate|].
    destruct n; simpl in En; [injection En as <-; reflexivity|]. apply IHl, En.
  - apply Nat.ltb_ge in E. assert (n = length l) by lia. subst. rewrite skipn_all, app_nil_r. reflexivity.
Qed.

Lemma for_loop_collects st fuel :
  (length (it_vec st) < fuel)%nat ->
  for_loop fuel collect [] st = Some (it_vec st, {| it_vec := it_vec st; it_n := Some (length (it_vec st)) |}).
Proof. intros H. unfold for_loop, vec_iter. apply (for_next_collect (it_vec st) 0 [] fuel); lia. Qed.

(** * maximum_degree *)

Lemma poly_diff_spec v p c m :
  In (c, m) (poly_diff v p) <->
  exists c' m', In (c', m') p /\ (0 < exponent v m')%nat /\ c = c' * INR (exponent v m') /\ m = lower v m'.
Proof.
  unfold poly_diff. rewrite in_flat_map. split.
  - intros [[c' m'] [Hin H]]. cbn [fst snd] in H. destruct (exponent v m') as [|k] eqn:E; [destruct H|].
    destruct H as [H|[]]. injection H as <- <-. exists c', m'. rewrite E. repeat split; [exact Hin|lia].
  - intros [c' [m' [Hin [H0 [-> ->]]]]]. exists (c', m'). split; [exact Hin|]. cbn [fst snd].
    destruct (exponent v m') as [|k]; [lia|]. left. reflexivity.
Qed.

Lemma exponent_lower v m : (v < 3)%nat -> exponent v (lower v m) = (exponent v m - 1)%nat.
Proof. destruct m as [[a b] c]. destruct v as [|[|[|v]]]; simpl; intros; try reflexivity; lia. Qed.

(** The largest exponent of variable v among the terms. *)
Definition is_degree (v : nat) (p : poly3) (d : nat) : Prop :=
  (forall c m, In (c, m) p -> (exponent v m <= d)%nat) /\ (exists c m, In (c, m) p /\ exponent v m = d).

Lemma degree_exists v (p : poly3) : p <> [] -> exists d, is_degree v p d.
Proof.
  induction p as [|[c m] p IH]; intros H; [congruence|]. destruct p as [|t p].
  - exists (exponent v m). split; [|exists c, m; split; [left; reflexivity|reflexivity]].
    intros c' m' [E|[]]. injection E as _ <-. lia.
  - destruct IH as [d [H1 [c' [m' [H2 H3]]]]]; [discriminate|].
    destruct (le_lt_dec (exponent v m) d).
    + exists d. split; [|exists c', m'; split; [right; exact H2|exact H3]].
      intros c2 m2 [E|E]; [injection E as _ <-; assumption|eapply H1; eauto].
    + exists (exponent v m). split; [|exists c, m; split; [left; reflexivity|reflexivity]].
      intros c2 m2 [E|E]; [injection E as _ <-; lia|]. apply H1 in E. lia.
Qed.

Lemma count_diffs_spec v : (v < 3)%nat -> forall d p fuel k,
  is_degree v p d -> (d < fuel)%nat -> count_diffs fuel v p k = Some (k + Z.of_nat (S d))%Z.
Proof.
  intros Hv. induction d as [|d IH]; intros p fuel k [H1 [c [m [H2 H3]]]] Hf.
  - destruct fuel as [|fuel]; [lia|]. destruct p as [|t p]; [destruct H2|]. cbn [count_diffs].
    replace (poly_diff v (t :: p)) with (@nil (R * (nat * nat * nat))).
    + destruct fuel; simpl; reflexivity.
    + symmetry. destruct (poly_diff v (t :: p)) as [|[c' m'] q] eqn:E; [reflexivity|]. exfalso.
      assert (Hin : In (c', m') (poly_diff v (t :: p))) by (rewrite E; left; reflexivity).
      apply poly_diff_spec in Hin. destruct Hin as [c2 [m2 [Hin [H0 _]]]]. apply H1 in Hin. lia.
  - destruct fuel as [|fuel]; [lia|]. destruct p as [|t p]; [destruct H2|]. cbn [count_diffs].
    rewrite (IH (poly_diff v (t :: p)) fuel (k + 1)%Z); [f_equal; lia| |lia].
    split.
    + intros c' m' Hin. apply poly_diff_spec in Hin. destruct Hin as [c2 [m2 [Hin [H0 [_ ->]]]]].
      rewrite exponent_lower by exact Hv. apply H1 in Hin. lia.
    + exists (c * INR (exponent v m)), (lower v m). split.
      * apply poly_diff_spec. exists c, m. repeat split; [exact H2|lia].
      * rewrite exponent_lower by exact Hv. lia.
Qed.

Lemma fuel_enough v p d : (v < 3)%nat -> is_degree v p d -> (d < fuel_for p)%nat.
Proof.
  intros Hv [_ [c [m [Hin <-]]]]. unfold fuel_for. apply Nat.lt_succ_r.
  induction p as [|[c' m'] p IH]; [destruct Hin|]. destruct Hin as [E|Hin]; cbn [fold_right snd].
  - injection E as -> ->. cbn [snd]. destruct v as [|[|[|v]]]; cbn [exponent]; lia.
  - specialize (IH Hin). cbn [snd]. lia.
Qed.

Lemma degree_in_spec v p d : (v < 3)%nat -> is_degree v p d -> degree_in v p = Some (Z.of_nat d).
Proof.
  intros Hv H. unfold degree_in. rewrite (count_diffs_spec v Hv d p (fuel_for p) 0%Z H (fuel_enough v p d Hv H)).
  cbn [option_map]. apply f_equal. lia.
Qed.

Lemma maximum_degree_nonzero p : p <> [] ->
  exists d0 d1 d2, is_degree 0 p d0 /\ is_degree 1 p d1 /\ is_degree 2 p d2 /\
    degree_in 0 p = Some (Z.of_nat d0) /\ degree_in 1 p = Some (Z.of_nat d1) /\ degree_in 2 p = Some (Z.of_nat d2).
Proof.
  intros H. destruct (degree_exists 0 p H) as [d0 H0], (degree_exists 1 p H) as [d1 H1], (degree_exists 2 p H) as [d2 H2].
  exists d0, d1, d2. repeat (split; [assumption|]). repeat split; apply degree_in_spec; auto; lia.
Qed.
