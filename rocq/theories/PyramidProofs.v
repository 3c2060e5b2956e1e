(** The pyramid set (rational functions), away from the apex plane z = 1. *)
From Coq Require Import String Arith ZArith Reals Lia Lra List.
From Verif Require Import Base PolyLib PolySetsModel PolySetsProofs.
Import ListNotations.
Open Scope R_scope.

Definition off_apex (v : point) : Prop := v 2%nat <> 1.

(** spans and independence of functions defined for z <> 1 *)
Definition in_span_off (fs : list sfun) (f : sfun) : Prop :=
  exists cs, length cs = length fs /\ forall v, off_apex v -> f v = lincomb cs fs v.
Definition independent_off (fs : list sfun) : Prop :=
  forall cs, length cs = length fs -> (forall v, off_apex v -> lincomb cs fs v = 0) ->
    Forall (fun c => c = 0) cs.

Definition pyr_list (n : nat) : list ratmono :=
  flat_map (fun k => flat_map (fun i => map (fun j => ([i; j; k], Nat.min i j))
        (range (n + 1 - k))) (range (n + 1 - k))) (range (n + 1)).

Lemma pyr_list_ok n : pyramid_polynomial_set_1d 3 n = Ok (pyr_list n).
Proof. reflexivity. Qed.

Lemma pyr_list_in n m : In m (pyr_list n) <->
  exists i j k, m = ([i; j; k], Nat.min i j) /\ (i + k <= n)%nat /\ (j + k <= n)%nat.
Proof.
  unfold pyr_list. rewrite in_flat_map. split.
  - intros (k & Hk & H). apply in_flat_map in H. destruct H as (i & Hi & H).
    apply in_map_iff in H. destruct H as (j & <- & Hj). apply in_range in Hk, Hi, Hj.
    exists i, j, k. split; [reflexivity|lia].
  - intros (i & j & k & -> & Hi & Hj). exists k. split; [apply in_range; lia|].
    apply in_flat_map. exists i. split; [apply in_range; lia|].
    apply in_map_iff. exists j. split; [reflexivity|apply in_range; lia].
Qed.

Lemma pyr_list_nodup n : NoDup (pyr_list n).
Proof.
  apply NoDup_flat_map; [apply NoDup_range| |].
  - intros a _. apply NoDup_flat_map; [apply NoDup_range| |].
    + intros b _. apply NoDup_map_inj; [intros x y _ _ E; congruence|apply NoDup_range].
    + intros b c x _ _ Hb Hc. list_in. congruence.
  - intros a b x _ _ Ha Hb. list_in. congruence.
Qed.

Lemma in_span_off_ext fs f g : (forall v, off_apex v -> f v = g v) -> in_span_off fs f -> in_span_off fs g.
Proof. intros H [cs [Hc Hv]]. exists cs. split; [exact Hc|]. intros v Ho. rewrite <- H by exact Ho. apply Hv; exact Ho. Qed.

Lemma in_span_off_of fs f : in_span fs f -> in_span_off fs f.
Proof. intros [cs [Hc Hv]]. exists cs. split; [exact Hc|]. intros v _. apply Hv. Qed.

Lemma in_span_off_add fs f g : in_span_off fs f -> in_span_off fs g -> in_span_off fs (fun v => f v + g v).
Proof.
  intros [cs [Hc Hcv]] [ds [Hd Hdv]].
  exists (map (fun p => fst p + snd p) (combine cs ds)). split.
  - rewrite map_length, combine_length. lia.
  - intros v Ho. rewrite lincomb_add by lia. rewrite Hcv, Hdv by exact Ho. reflexivity.
Qed.

Lemma in_span_off_scale fs a f : in_span_off fs f -> in_span_off fs (fun v => a * f v).
Proof.
  intros [cs [Hc Hcv]]. exists (map (Rmult a) cs). split; [rewrite map_length; exact Hc|].
  intros v Ho. rewrite lincomb_scale, Hcv by exact Ho. reflexivity.
Qed.

Lemma pyr_step n a b l : forall c, (c + l + Nat.max a b <= n)%nat ->
  in_span_off (map rmeval (pyr_list n))
    (fun v => v 0%nat ^ a * v 1%nat ^ b * v 2%nat ^ c * (1 - v 2%nat) ^ l / (1 - v 2%nat) ^ Nat.min a b).
Proof.
  induction l as [|l IH]; intros c Hc.
  - apply in_span_off_of. apply in_span_ext with (f := rmeval ([a; b; c], Nat.min a b)).
    + intros v. unfold rmeval, meval. simpl. unfold Rdiv. ring.
    + apply in_span_member. apply in_map. apply pyr_list_in. exists a, b, c. split; [reflexivity|lia].
  - pose proof (IH c ltac:(lia)) as H1. pose proof (IH (S c) ltac:(lia)) as H2.
    apply (in_span_off_scale _ (-1)) in H2. pose proof (in_span_off_add _ _ _ H1 H2) as H.
    apply in_span_off_ext with (2 := H). intros v _. simpl. unfold Rdiv. ring.
Qed.

Lemma pyramid_contains_complete n f : poly_space (complete_mono 3 n) f ->
  in_span_off (map rmeval (pyr_list n)) f.
Proof.
  intros (p & Hp & Hf). apply in_span_off_ext with (f := reval p); [intros; symmetry; apply Hf|]. clear f Hf.
  induction p as [|[c m] p IH].
  - apply in_span_off_of. apply in_span_zero.
  - apply Forall_cons_iff in Hp. destruct Hp as [[Hl Hd] Hp]. simpl in *.
    apply (in_span_off_add _ (fun v => c * meval m v) (reval p)); [|apply IH; exact Hp].
    apply in_span_off_scale.
    destruct m as [|a [|b [|e [|? ?]]]]; try discriminate. simpl in Hd.
    apply in_span_off_ext with (2 := pyr_step n a b (Nat.min a b) e ltac:(lia)).
    intros v Ho. unfold meval. simpl. unfold off_apex in Ho. field. apply pow_nonzero. lra.
Qed.

Lemma cont_zero_off a f : continuity_pt f a -> (forall t, t <> a -> f t = 0) -> f a = 0.
Proof.
  intros Hc Hz. destruct (Req_dec (f a) 0) as [E|E]; [exact E|exfalso].
  destruct (Hc (Rabs (f a))) as [al [Hal H]]; [apply Rabs_pos_lt; exact E|].
  specialize (H (a + al/2)). simpl in H. unfold dist in H. simpl in H. unfold R_dist in H.
  rewrite (Hz (a + al/2)) in H by lra.
  replace (0 - f a) with (- f a) in H by ring. rewrite Rabs_Ropp in H.
  assert (HH : Rabs (f a) < Rabs (f a)).
  { apply H. split.
    - unfold D_x, no_cond. split; [exact I|lra].
    - replace (a + al / 2 - a) with (al/2) by ring. rewrite Rabs_right; lra. }
  lra.
Qed.

(** coefficient sum over members with given exponents *)
Fixpoint usel (i j : nat) (cs : list R) (ms : list ratmono) : list (R * nat) :=
  match cs, ms with
  | c :: cs', (m, _) :: ms' =>
      match m with
      | [a; b; k] => if andb (a =? i)%nat (b =? j)%nat then (c, k) :: usel i j cs' ms' else usel i j cs' ms'
      | _ => usel i j cs' ms'
      end
  | _, _ => []
  end.

Fixpoint plane (z : R) (cs : list R) (ms : list ratmono) : rpoly :=
  match cs, ms with
  | c :: cs', (m, d) :: ms' =>
      (c * z ^ nth 2 m 0%nat / (1 - z) ^ d, [nth 0 m 0%nat; nth 1 m 0%nat]) :: plane z cs' ms'
  | _, _ => []
  end.

Definition wf_pyr (m : ratmono) : Prop := exists i j k, m = ([i; j; k], Nat.min i j).

Lemma plane_eval z cs : forall ms v, Forall wf_pyr ms -> v 2%nat = z ->
  reval (plane z cs ms) v = lincomb cs (map rmeval ms) v.
Proof.
  induction cs as [|c cs IH]; intros [|m ms] v Hw Hz; simpl; try reflexivity.
  apply Forall_cons_iff in Hw. destruct Hw as [(i & j & k & ->) Hw]. cbn [plane].
    simpl. rewrite IH by assumption. f_equal. unfold rmeval, meval. simpl. rewrite Hz. unfold Rdiv. ring.
Qed.

Lemma plane_coef z i j cs : forall ms, Forall wf_pyr ms ->
  coef (plane z cs ms) [i; j] = ueval (usel i j cs ms) z / (1 - z) ^ Nat.min i j.
Proof.
  induction cs as [|c cs IH]; intros [|m ms] Hw; simpl; try (unfold Rdiv; ring).
  apply Forall_cons_iff in Hw. destruct Hw as [(a & b & k & ->) Hw]. simpl.
  rewrite IH by exact Hw.
  destruct (mono_eq_dec [a; b] [i; j]) as [E|E].
    + injection E as -> ->. rewrite !Nat.eqb_refl. simpl. unfold Rdiv. ring.
    + destruct (Nat.eqb_spec a i) as [->|]; [destruct (Nat.eqb_spec b j) as [->|]|]; simpl; try congruence; unfold Rdiv; ring.
Qed.

Lemma usel_zero cs ms : NoDup ms -> Forall wf_pyr ms -> length cs = length ms ->
  (forall i j k, ucoef (usel i j cs ms) k = 0) -> Forall (fun c => c = 0) cs.
Proof.
  revert ms. induction cs as [|c cs IH]; intros [|m ms] Hnd Hw Hl Hz; try discriminate; constructor.
  - apply Forall_cons_iff in Hw. destruct Hw as [(a & b & k & ->) Hw].
    specialize (Hz a b k). simpl in Hz. rewrite !Nat.eqb_refl in Hz. simpl in Hz.
    destruct (Nat.eq_dec k k); [|congruence].
    assert (E : ucoef (usel a b cs ms) k = 0).
    { apply NoDup_cons_iff in Hnd. destruct Hnd as [Hnin _].
      clear - Hnin Hw. revert cs. induction ms as [|m ms IH]; intros [|c cs]; simpl; try reflexivity.
      apply Forall_cons_iff in Hw. destruct Hw as [(i & j & l & ->) Hw].
        destruct (andb _ _) eqn:E; simpl.
        + rewrite IH; [|intros H; apply Hnin; right; exact H|exact Hw].
          apply Bool.andb_true_iff in E. destruct E as [E1 E2]. apply Nat.eqb_eq in E1, E2. subst.
          destruct (Nat.eq_dec l k); [|lra]. subst. exfalso. apply Hnin. left. reflexivity.
        + apply IH; [intros H; apply Hnin; right; exact H|exact Hw]. }
    rewrite E in Hz. lra.
  - apply NoDup_cons_iff in Hnd. destruct Hnd as [Hnin Hnd].
    apply Forall_cons_iff in Hw. destruct Hw as [(a & b & k & ->) Hw].
    apply (IH ms Hnd Hw); [simpl in Hl; lia|]. intros i j l. specialize (Hz i j l). simpl in Hz.
    destruct (andb _ _) eqn:E; [|exact Hz]. simpl in Hz.
    apply Bool.andb_true_iff in E. destruct E as [E1 E2]. apply Nat.eqb_eq in E1, E2. subst.
    destruct (Nat.eq_dec k l) as [->|Hne]; [|lra].
    (* coefficient l of the tail vanishes because the head is the only such member *)
    clear - Hnin Hw. revert cs. induction ms as [|m ms IH]; intros [|c' cs]; simpl; try reflexivity.
    apply Forall_cons_iff in Hw. destruct Hw as [(i' & j' & l' & ->) Hw].
      destruct (andb _ _) eqn:E; simpl.
      * rewrite IH; [|intros H; apply Hnin; right; exact H|exact Hw].
        apply Bool.andb_true_iff in E. destruct E as [E1 E2]. apply Nat.eqb_eq in E1, E2. subst.
        destruct (Nat.eq_dec l' l); [|lra]. subst. exfalso. apply Hnin. left. reflexivity.
      * apply IH; [intros H; apply Hnin; right; exact H|exact Hw].
Qed.

Lemma plane_len z cs : forall ms, Forall (fun t => length (snd t) = 2%nat) (plane z cs ms).
Proof.
  induction cs as [|c cs IH]; intros [|[m d] ms]; simpl; constructor; [reflexivity|apply IH].
Qed.

Lemma pyramid_independent n : independent_off (map rmeval (pyr_list n)).
Proof.
  intros cs Hl Hz. rewrite map_length in Hl.
  assert (Hw : Forall wf_pyr (pyr_list n)).
  { apply Forall_forall. intros m Hm. apply pyr_list_in in Hm. destruct Hm as (i & j & k & -> & _).
    exists i, j, k. reflexivity. }
  apply (usel_zero cs (pyr_list n) (pyr_list_nodup n) Hw Hl).
  intros i j k. apply univariate_identity.
  assert (Hoff : forall z, z <> 1 -> ueval (usel i j cs (pyr_list n)) z = 0).
  { intros z Hne.
    assert (E : coef (plane z cs (pyr_list n)) [i; j] = 0).
    { apply (poly_identity 2); [apply plane_len| |reflexivity].
      intros v. set (w := fun a => match a with 2%nat => z | _ => v a end).
      assert (Ew : reval (plane z cs (pyr_list n)) v = reval (plane z cs (pyr_list n)) w).
      { generalize (plane_len z cs (pyr_list n)). generalize (plane z cs (pyr_list n)). clear.
        induction r as [|[c m] r IH]; intros H; simpl; [reflexivity|].
        apply Forall_cons_iff in H. destruct H as [H1 H]. rewrite IH by exact H. f_equal. f_equal.
        simpl in H1. destruct m as [|a [|b [|? ?]]]; try discriminate. unfold meval. simpl. reflexivity. }
      rewrite Ew, plane_eval; [|exact Hw|reflexivity]. apply Hz. unfold off_apex. simpl. exact Hne. }
    rewrite plane_coef in E by exact Hw.
    assert (Hp : (1 - z) ^ Nat.min i j <> 0) by (apply pow_nonzero; lra).
    unfold Rdiv in E. apply Rmult_integral in E. destruct E as [E|E]; [exact E|].
    exfalso. apply (Rinv_neq_0_compat _ Hp). exact E. }
  intros t. destruct (Req_dec t 1) as [->|Hne]; [|apply Hoff; exact Hne].
  apply (cont_zero_off 1 (ueval (usel i j cs (pyr_list n)))); [apply ueval_continuous|exact Hoff].
Qed.

Lemma sum_sq_rev n c : (n <= c)%nat ->
  (list_sum (map (fun k => (c - k) * (c - k)) (range n)) + list_sum (map (fun k => k * k) (range (S (c - n)))) =
   list_sum (map (fun k => k * k) (range (S c))))%nat.
Proof.
  induction n as [|n IH]; intros Hc; [simpl; rewrite Nat.sub_0_r; reflexivity|].
  rewrite sum_range_S. specialize (IH ltac:(lia)).
  replace (S (c - n))%nat with (S (S (c - S n)))%nat in IH by lia.
  rewrite sum_range_S in IH. replace (S (c - S n)) with (c - n)%nat in IH at 2 by lia.
  replace (S (c - S n)) with (c - n)%nat in IH at 2 by lia. lia.
Qed.

(** the number of functions is 1 + 4 + 9 + ... + (n+1)^2 *)
Lemma pyr_length n : length (pyr_list n) = list_sum (map (fun k => k * k)%nat (range (S (n + 1)))).
Proof.
  unfold pyr_list. rewrite length_flat_map_sum.
  rewrite (map_ext _ (fun k => (n + 1 - k) * (n + 1 - k))%nat).
  - pose proof (sum_sq_rev (n+1) (n+1) ltac:(lia)) as H. rewrite Nat.sub_diag in H.
    change (list_sum (map (fun k => k * k)%nat (range 1))) with 0%nat in H. lia.
  - intros k. rewrite length_flat_map_const with (n := (n + 1 - k)%nat).
    + rewrite length_range. reflexivity.
    + intros i _. rewrite map_length, length_range. reflexivity.
Qed.
