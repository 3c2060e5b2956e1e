(** Finite sums of reals and the two facts about square real matrices that the proofs about dual bases need:
    more than n vectors of length n are dependent, and a left inverse of a square matrix is a right inverse.
    No repository code is modelled here. *)
From Coq Require Import Reals Lra Lia Arith List.
Import ListNotations.
Open Scope R_scope.

(** sum of f i over i < n *)
Fixpoint sum (n : nat) (f : nat -> R) : R :=
  match n with O => 0 | S m => sum m f + f m end.

Lemma sum_ext n f g : (forall i, (i < n)%nat -> f i = g i) -> sum n f = sum n g.
Proof. induction n; intros H; [reflexivity|]. simpl. rewrite IHn, H by (auto; lia). reflexivity. Qed.
Lemma sum_zero n f : (forall i, (i < n)%nat -> f i = 0) -> sum n f = 0.
Proof. induction n; intros H; [reflexivity|]. simpl. rewrite IHn, H by (auto; lia). lra. Qed.
Lemma sum_plus n f g : sum n (fun i => f i + g i) = sum n f + sum n g.
Proof. induction n; simpl; [lra|]. rewrite IHn. lra. Qed.
Lemma sum_scal n a f : sum n (fun i => a * f i) = a * sum n f.
Proof. induction n; simpl; [lra|]. rewrite IHn. lra. Qed.
Lemma sum_scal_r n a f : sum n (fun i => f i * a) = sum n f * a.
Proof. induction n; simpl; [lra|]. rewrite IHn. lra. Qed.
Lemma sum_opp n f : sum n (fun i => - f i) = - sum n f.
Proof. induction n; simpl; [lra|]. rewrite IHn. lra. Qed.
Lemma sum_swap n m f : sum n (fun i => sum m (fun j => f i j)) = sum m (fun j => sum n (fun i => f i j)).
Proof.
  induction n; simpl; [symmetry; apply sum_zero; reflexivity|].
  rewrite IHn, <- sum_plus. reflexivity.
Qed.
Lemma sum_single n f k : (k < n)%nat -> (forall i, (i < n)%nat -> i <> k -> f i = 0) -> sum n f = f k.
Proof.
  induction n; intros Hk H; [lia|]. simpl. destruct (Nat.eq_dec k n) as [->|Hn].
  - rewrite sum_zero; [lra|]. intros i Hi. apply H; lia.
  - rewrite IHn, (H n) by (try lia; intros; apply H; lia). lra.
Qed.
Lemma sum_split n m f : sum (n + m) f = sum n f + sum m (fun i => f (n + i)%nat).
Proof.
  induction m; simpl; [rewrite Nat.add_0_r; lra|].
  rewrite Nat.add_succ_r. simpl. rewrite IHm. lra.
Qed.
(** index i with position p left out *)
Definition skip (p i : nat) : nat := if (i <? p)%nat then i else S i.
Lemma skip_neq p i : skip p i <> p.
Proof. unfold skip. destruct (Nat.ltb_spec i p); lia. Qed.
Lemma skip_lt p i n : (i < n)%nat -> (skip p i < S n)%nat.
Proof. unfold skip. destruct (Nat.ltb_spec i p); lia. Qed.
Lemma skip_onto p i n : (p < S n)%nat -> (i < S n)%nat -> i <> p -> exists j, (j < n)%nat /\ i = skip p j.
Proof.
  intros Hp Hi Hn. unfold skip. destruct (Nat.lt_ge_cases i p).
  - exists i. destruct (Nat.ltb_spec i p); lia.
  - exists (i - 1)%nat. destruct (Nat.ltb_spec (i - 1) p); lia.
Qed.
Lemma sum_skip n p f : (p < S n)%nat -> sum (S n) f = f p + sum n (fun i => f (skip p i)).
Proof.
  induction n; intros Hp.
  - replace p with O by lia. simpl. lra.
  - change (sum (S n) f + f (S n) = f p + (sum n (fun i => f (skip p i)) + f (skip p n))).
    destruct (Nat.eq_dec p (S n)) as [->|Hn].
    + rewrite (sum_ext (S n) f (fun i => f (skip (S n) i))).
      * simpl. lra.
      * intros i Hi. unfold skip. destruct (Nat.ltb_spec i (S n)); [reflexivity|lia].
    + rewrite IHn by lia. unfold skip at 3. destruct (Nat.ltb_spec n p); [lia|lra].
Qed.

Definition delta (i j : nat) : R := if Nat.eq_dec i j then 1 else 0.
Lemma delta_same i : delta i i = 1.
Proof. unfold delta. destruct (Nat.eq_dec i i); [reflexivity|contradiction]. Qed.
Lemma delta_other i j : i <> j -> delta i j = 0.
Proof. unfold delta. destruct (Nat.eq_dec i j); [contradiction|reflexivity]. Qed.
Lemma delta_sym i j : delta i j = delta j i.
Proof. unfold delta. destruct (Nat.eq_dec i j), (Nat.eq_dec j i); congruence. Qed.
Lemma sum_delta n k f : (k < n)%nat -> sum n (fun i => f i * delta i k) = f k.
Proof.
  intros Hk. rewrite (sum_single n _ k Hk).
  - rewrite delta_same. lra.
  - intros i _ Hi. rewrite delta_other by exact Hi. lra.
Qed.
Lemma sum_delta_l n k f : (k < n)%nat -> sum n (fun i => delta k i * f i) = f k.
Proof.
  intros Hk. rewrite <- (sum_delta n k f Hk). apply sum_ext. intros i _. rewrite (delta_sym k i). lra.
Qed.

(** m > n vectors of length n satisfy a non-trivial linear relation *)
Theorem dependent : forall n m (v : nat -> nat -> R), (n < m)%nat ->
  exists c : nat -> R, (exists i, (i < m)%nat /\ c i <> 0) /\
    forall j, (j < n)%nat -> sum m (fun i => c i * v i j) = 0.
Proof.
  induction n as [|n IH]; intros m v Hm.
  - exists (fun _ => 1). split; [exists O; split; [lia|lra]|intros j Hj; lia].
  - assert (D : (forall i, (i < m)%nat -> v i n = 0) \/ exists p, (p < m)%nat /\ v p n <> 0).
    { clear. induction m as [|m [H|(p & Hp & H)]].
      - left; intros; lia.
      - destruct (Req_EM_T (v m n) 0) as [E|E].
        + left. intros i Hi. destruct (Nat.eq_dec i m) as [->|]; [exact E|apply H; lia].
        + right. exists m. split; [lia|exact E].
      - right. exists p. split; [lia|exact H]. }
    destruct D as [Hz|(p & Hp & Hv)].
    + destruct (IH m v) as (c & Hc & H); [lia|]. exists c. split; [exact Hc|]. intros j Hj.
      destruct (Nat.eq_dec j n) as [->|]; [|apply H; lia].
      apply sum_zero. intros i Hi. rewrite Hz by exact Hi. lra.
    + destruct m as [|m]; [lia|].
      destruct (IH m (fun i j => v (skip p i) j - v (skip p i) n / v p n * v p j)) as (c & (i0 & Hi0 & Hc) & H); [lia|].
      (* coefficients of the original vectors *)
      set (cp := - sum m (fun i => c i * (v (skip p i) n / v p n))).
      set (d := fun i => if Nat.eq_dec i p then cp else if (i <? p)%nat then c i else c (i - 1)%nat).
      assert (Ds : forall i, d (skip p i) = c i).
      { intros i. unfold d. destruct (Nat.eq_dec (skip p i) p) as [E|_]; [destruct (skip_neq p i E)|].
        unfold skip. destruct (Nat.ltb_spec i p).
        - destruct (Nat.ltb_spec i p); [reflexivity|lia].
        - destruct (Nat.ltb_spec (S i) p); [lia|]. f_equal. lia. }
      assert (Dp : d p = cp). { unfold d. destruct (Nat.eq_dec p p); [reflexivity|contradiction]. }
      exists d. split.
      * exists (skip p i0). split; [apply skip_lt; exact Hi0|rewrite Ds; exact Hc].
      * intros j Hj. rewrite (sum_skip m p) by exact Hp. rewrite Dp.
        rewrite (sum_ext m _ (fun i => c i * (v (skip p i) j - v (skip p i) n / v p n * v p j)
                                       + c i * (v (skip p i) n / v p n) * v p j)).
        2:{ intros i _. rewrite Ds. lra. }
        rewrite sum_plus, sum_scal_r. unfold cp.
        destruct (Nat.eq_dec j n) as [->|Hjn].
        -- rewrite (sum_zero m (fun i => c i * (v (skip p i) n - v (skip p i) n / v p n * v p n))); [lra|].
           intros i _. field_simplify; [lra|exact Hv].
        -- rewrite H by lia. lra.
Qed.

(** the identity, entrywise, for products of square matrices *)
Definition is_identity (n : nat) (P : nat -> nat -> R) : Prop :=
  forall i j, (i < n)%nat -> (j < n)%nat -> P i j = delta i j.
Definition mmul (n : nat) (N M : nat -> nat -> R) (i j : nat) : R := sum n (fun k => N i k * M k j).

(** If rows of M only combine to zero trivially, every vector is a combination of rows *)
Lemma rows_span n (M : nat -> nat -> R) :
  (forall c, (forall j, (j < n)%nat -> sum n (fun i => c i * M i j) = 0) -> forall i, (i < n)%nat -> c i = 0) ->
  forall v, exists c, forall j, (j < n)%nat -> sum n (fun i => c i * M i j) = v j.
Proof.
  intros H v.
  destruct (dependent n (S n) (fun i j => if (i <? n)%nat then M i j else v j)) as (c & (i0 & Hi0 & Hc) & Hz); [lia|].
  assert (E : forall j, (j < n)%nat -> sum n (fun i => c i * M i j) + c n * v j = 0).
  { intros j Hj. specialize (Hz j Hj). simpl in Hz. destruct (Nat.ltb_spec n n) as [A|_]; [lia|].
    rewrite <- Hz. f_equal. apply sum_ext. intros i Hi. destruct (Nat.ltb_spec i n); [reflexivity|lia]. }
  assert (Hn : c n <> 0).
  { intros En. assert (Hall : forall i, (i < n)%nat -> c i = 0).
    { apply H. intros j Hj. specialize (E j Hj). rewrite En in E. lra. }
    destruct (Nat.eq_dec i0 n) as [->|]; [contradiction|]. apply Hc, Hall. lia. }
  exists (fun i => - c i / c n). intros j Hj.
  rewrite (sum_ext n _ (fun i => (- / c n) * (c i * M i j))) by (intros; field; exact Hn).
  rewrite sum_scal. specialize (E j Hj). replace (sum n (fun i => c i * M i j)) with (- (c n * v j)) by lra. field. exact Hn.
Qed.

Lemma mmul_assoc n A B C i j : mmul n (mmul n A B) C i j = mmul n A (mmul n B C) i j.
Proof.
  unfold mmul.
  rewrite (sum_ext n _ (fun k => sum n (fun l => A i l * B l k * C k j))) by (intros; rewrite <- sum_scal_r; reflexivity).
  rewrite sum_swap. apply sum_ext. intros l _. rewrite <- sum_scal. apply sum_ext. intros k _. lra.
Qed.
Lemma mmul_id_l n P A i j : is_identity n P -> (i < n)%nat -> mmul n P A i j = A i j.
Proof.
  intros H Hi. unfold mmul. rewrite (sum_ext n _ (fun k => delta i k * A k j)).
  - exact (sum_delta_l n i (fun k => A k j) Hi).
  - intros k Hk. rewrite H by assumption. reflexivity.
Qed.
Lemma mmul_id_r n P A i j : is_identity n P -> (j < n)%nat -> mmul n A P i j = A i j.
Proof.
  intros H Hj. unfold mmul. rewrite (sum_ext n _ (fun k => A i k * delta k j)).
  - exact (sum_delta n j (fun k => A i k) Hj).
  - intros k Hk. rewrite H by assumption. reflexivity.
Qed.
Lemma mmul_ext n A A' B B' i j : (forall k, (k < n)%nat -> A i k = A' i k) -> (forall k, (k < n)%nat -> B k j = B' k j) ->
  mmul n A B i j = mmul n A' B' i j.
Proof. intros H1 H2. unfold mmul. apply sum_ext. intros k Hk. rewrite H1, H2 by exact Hk. reflexivity. Qed.

(** rows combining only trivially give a left inverse *)
Lemma left_inverse_exists n (M : nat -> nat -> R) :
  (forall c, (forall j, (j < n)%nat -> sum n (fun i => c i * M i j) = 0) -> forall i, (i < n)%nat -> c i = 0) ->
  exists N, is_identity n (mmul n N M).
Proof.
  intros H.
  assert (G : forall m, (m <= n)%nat -> exists N, forall i j, (i < m)%nat -> (j < n)%nat -> mmul n N M i j = delta i j).
  { induction m as [|m IH]; intros Hm; [exists (fun _ _ => 0); intros; lia|].
    destruct IH as [N HN]; [lia|]. destruct (rows_span n M H (fun j => delta m j)) as [c Hc].
    exists (fun i k => if Nat.eq_dec i m then c k else N i k). intros i j Hi Hj. unfold mmul.
    destruct (Nat.eq_dec i m) as [->|]; [apply Hc; exact Hj|]. apply HN; [lia|exact Hj]. }
  exact (G n (le_n n)).
Qed.

(** a right inverse makes rows combine only trivially *)
Lemma right_inverse_rows n M N : is_identity n (mmul n M N) ->
  forall c, (forall j, (j < n)%nat -> sum n (fun i => c i * M i j) = 0) -> forall i, (i < n)%nat -> c i = 0.
Proof.
  intros H c Hc i Hi.
  transitivity (mmul n (fun _ => c) (mmul n M N) O i).
  - symmetry. exact (mmul_id_r n _ (fun _ => c) O i H Hi).
  - rewrite <- mmul_assoc. unfold mmul at 1. apply sum_zero. intros k Hk. unfold mmul. rewrite Hc by exact Hk. lra.
Qed.

Theorem left_right_inverse n M N : is_identity n (mmul n N M) -> is_identity n (mmul n M N).
Proof.
  intros H. (* N has the right inverse M, so N's rows are independent and N has a left inverse L; L = M *)
  destruct (left_inverse_exists n N (right_inverse_rows n N M H)) as [L HL].
  intros i j Hi Hj. rewrite <- (HL i j Hi Hj). apply mmul_ext; [|reflexivity]. intros k Hk.
  rewrite <- (mmul_id_r n (mmul n N M) L i k H Hk), <- mmul_assoc.
  symmetry. apply mmul_id_l; assumption.
Qed.

(** a non-trivial vector in the right kernel gives a non-trivial combination of the rows *)
Lemma right_kernel_left n (M : nat -> nat -> R) x p : (p < n)%nat -> x p <> 0 ->
  (forall i, (i < n)%nat -> sum n (fun j => M i j * x j) = 0) ->
  exists c, (exists i, (i < n)%nat /\ c i <> 0) /\ forall j, (j < n)%nat -> sum n (fun i => c i * M i j) = 0.
Proof.
  intros Hp Hx H. destruct n as [|n]; [lia|].
  destruct (dependent n (S n) (fun i j => M i (skip p j))) as (c & Hc & Hz); [lia|].
  exists c. split; [exact Hc|].
  assert (Hs : forall j, (j < S n)%nat -> j <> p -> sum (S n) (fun i => c i * M i j) = 0).
  { intros j Hj Hjp. destruct (skip_onto p j n Hp Hj Hjp) as (j' & Hj' & ->). apply Hz. exact Hj'. }
  intros j Hj. destruct (Nat.eq_dec j p) as [->|]; [|apply Hs; assumption].
  assert (E : sum (S n) (fun j => sum (S n) (fun i => c i * M i j) * x j) = 0).
  { rewrite (sum_ext (S n) _ (fun j => sum (S n) (fun i => c i * (M i j * x j)))).
    - rewrite sum_swap. apply sum_zero. intros i Hi. rewrite sum_scal, H by exact Hi. lra.
    - intros k _. rewrite <- sum_scal_r. apply sum_ext. intros; lra. }
  rewrite (sum_single (S n) _ p Hp) in E by (intros i Hi Hip; rewrite Hs by assumption; lra).
  apply Rmult_integral in E. destruct E as [E|E]; [exact E|contradiction].
Qed.
