(** Proofs about the scalar and vector polynomial sets. *)
From Coq Require Import String Arith ZArith Reals Lia Lra List.
From Verif Require Import Base PolyLib PolySetsModel.
Import ListNotations.
Open Scope nat_scope.

(** * Specifications *)

(** Monomials in [d] variables of total degree at most [n]. *)
Definition complete_mono (d n : nat) (m : mono) : Prop := length m = d /\ mdeg m <= n.

(** Monomials in [d] variables with every exponent at most [n]. *)
Definition tensor_mono (d n : nat) (m : mono) : Prop := length m = d /\ Forall (fun e => e <= n) m.

(** Triangle-times-interval monomials. *)
Definition prism_mono (n : nat) (m : mono) : Prop :=
  exists i j k, m = [i; j; k] /\ i + j <= n /\ k <= n.

(** Superlinear degree: total degree not counting variables that enter linearly. *)
Fixpoint superlinear_degree (m : mono) : nat :=
  match m with
  | [] => 0
  | e :: m' => (if e =? 1 then 0 else e) + superlinear_degree m'
  end.
Definition serendipity_mono (d n : nat) (m : mono) : Prop :=
  length m = d /\ superlinear_degree m <= n.

(** [l] lists exactly the monomials satisfying [ok], each once, and (therefore)
    the corresponding functions are a basis of the functions they span. *)
Definition lists_basis (l : list mono) (ok : mono -> Prop) : Prop :=
  NoDup l /\ (forall m, In m l <-> ok m) /\ is_basis (map meval l) (poly_space ok).

Lemma lists_basis_intro d l ok :
  NoDup l -> (forall m, In m l <-> ok m) -> (forall m, ok m -> length m = d) -> lists_basis l ok.
Proof. intros H1 H2 H3. split; [exact H1|split; [exact H2|]]. apply (monomial_basis d); assumption. Qed.

(** * polynomial_set_1d *)
Ltac list_in := repeat match goal with
  | H : In _ (flat_map _ _) |- _ => apply in_flat_map in H; destruct H as [? [? H]]
  | H : In _ (map _ _) |- _ => apply in_map_iff in H; destruct H as [? [? H]]; subst
  | H : In _ (range _) |- _ => apply in_range in H
  | H : In _ (range2 _ _) |- _ => apply in_range2 in H
  end.

Lemma poly1_in n m : In m (map (fun i => [i]) (range (n + 1))) <-> complete_mono 1 n m.
Proof.
  unfold complete_mono. split.
  - intros H. list_in. simpl. lia.
  - intros [Hl Hd]. destruct m as [|a [|b m]]; try discriminate. simpl in Hd.
    apply in_map_iff. exists a. split; [reflexivity|]. apply in_range. lia.
Qed.

Lemma poly2_in n m :
  In m (flat_map (fun j => map (fun i => [i; j]) (range (n + 1 - j))) (range (n + 1)))
  <-> complete_mono 2 n m.
Proof.
  unfold complete_mono. split.
  - intros H. list_in. simpl. lia.
  - intros [Hl Hd]. destruct m as [|a [|b [|c m]]]; try discriminate. simpl in Hd.
    apply in_flat_map. exists b. split; [apply in_range; lia|].
    apply in_map_iff. exists a. split; [reflexivity|]. apply in_range. lia.
Qed.

Lemma poly3_in n m :
  In m (flat_map (fun k => flat_map (fun j => map (fun i => [i; j; k])
               (range (n + 1 - k - j))) (range (n + 1 - k))) (range (n + 1)))
  <-> complete_mono 3 n m.
Proof.
  unfold complete_mono. split.
  - intros H. list_in. simpl. lia.
  - intros [Hl Hd]. destruct m as [|a [|b [|c [|d m]]]]; try discriminate. simpl in Hd.
    apply in_flat_map. exists c. split; [apply in_range; lia|].
    apply in_flat_map. exists b. split; [apply in_range; lia|].
    apply in_map_iff. exists a. split; [reflexivity|]. apply in_range. lia.
Qed.

Lemma poly1_nodup n : NoDup (map (fun i => [i]) (range (n + 1))).
Proof. apply NoDup_map_inj; [intros a b _ _ E; congruence|apply NoDup_range]. Qed.

Lemma poly2_nodup n :
  NoDup (flat_map (fun j => map (fun i => [i; j]) (range (n + 1 - j))) (range (n + 1))).
Proof.
  apply NoDup_flat_map; [apply NoDup_range| |].
  - intros a _. apply NoDup_map_inj; [intros x y _ _ E; congruence|apply NoDup_range].
  - intros a b x _ _ Ha Hb. list_in. congruence.
Qed.

Lemma poly3_nodup n :
  NoDup (flat_map (fun k => flat_map (fun j => map (fun i => [i; j; k])
               (range (n + 1 - k - j))) (range (n + 1 - k))) (range (n + 1))).
Proof.
  apply NoDup_flat_map; [apply NoDup_range| |].
  - intros a _. apply NoDup_flat_map; [apply NoDup_range| |].
    + intros b _. apply NoDup_map_inj; [intros x y _ _ E; congruence|apply NoDup_range].
    + intros b c x _ _ Hb Hc. list_in. congruence.
  - intros a b x _ _ Ha Hb. list_in. congruence.
Qed.

Lemma polynomial_set_1d_ok d n : 1 <= d <= 3 ->
  exists l, polynomial_set_1d d n = Ok l /\ lists_basis l (complete_mono d n).
Proof.
  intros Hd. destruct d as [|[|[|[|d]]]]; try lia; simpl; eexists; (split; [reflexivity|]);
    eapply lists_basis_intro.
  - apply poly1_nodup.
  - apply poly1_in.
  - intros m [H _]; exact H.
  - apply poly2_nodup.
  - apply poly2_in.
  - intros m [H _]; exact H.
  - apply poly3_nodup.
  - apply poly3_in.
  - intros m [H _]; exact H.
Qed.

Lemma polynomial_set_1d_err d n : ~ (1 <= d <= 3) -> polynomial_set_1d d n = Err ValueError.
Proof. intros H. destruct d as [|[|[|[|d]]]]; try reflexivity; exfalso; lia. Qed.

(** ** Number of members *)
Lemma list_sum_const {A} (l : list A) c : list_sum (map (fun _ => c) l) = length l * c.
Proof. induction l; simpl; lia. Qed.

Lemma list_sum_app l1 l2 : list_sum (l1 ++ l2) = list_sum l1 + list_sum l2.
Proof. induction l1; simpl; lia. Qed.

Lemma range_S n : range (S n) = range n ++ [n].
Proof. unfold range. rewrite seq_S. reflexivity. Qed.

Lemma sum_range_S f n : list_sum (map f (range (S n))) = list_sum (map f (range n)) + f n.
Proof. rewrite range_S, map_app, list_sum_app. simpl. lia. Qed.

Lemma sum_range_ext f g n : (forall i, i < n -> f i = g i) ->
  list_sum (map f (range n)) = list_sum (map g (range n)).
Proof.
  intros H. f_equal. apply map_ext_in. intros i Hi. apply in_range in Hi. auto.
Qed.

Lemma sum_rev n c : n <= c -> 2 * list_sum (map (fun j => c - j) (range n)) + n * n = 2 * c * n + n.
Proof.
  revert c. induction n as [|n IH]; intros c Hc; [simpl; lia|].
  rewrite sum_range_S. specialize (IH c ltac:(lia)). nia.
Qed.

Lemma length_poly2 n :
  2 * length (flat_map (fun j => map (fun i => [i; j]) (range (n + 1 - j))) (range (n + 1)))
  = (n + 1) * (n + 2).
Proof.
  rewrite length_flat_map_sum.
  rewrite (map_ext _ (fun j => n + 1 - j)) by (intros; rewrite map_length, length_range; reflexivity).
  pose proof (sum_rev (n+1) (n+1) ltac:(lia)). nia.
Qed.

Definition tri (n : nat) : nat := list_sum (map (fun j => n - j) (range n)).
Lemma tri_S n : tri (S n) = tri n + S n.
Proof.
  unfold tri. pose proof (sum_rev (S n) (S n) ltac:(lia)).
  pose proof (sum_rev n n ltac:(lia)). nia.
Qed.
Lemma tri_closed n : 2 * tri n = n * (n + 1).
Proof. unfold tri. pose proof (sum_rev n n ltac:(lia)). nia. Qed.

Lemma sum_tri n c : n <= c ->
  list_sum (map (fun k => tri (c - k)) (range n)) + list_sum (map tri (range (S (c - n)))) =
  list_sum (map tri (range (S c))).
Proof.
  induction n as [|n IH]; intros Hc; [simpl; rewrite Nat.sub_0_r; reflexivity|].
  rewrite sum_range_S. specialize (IH ltac:(lia)).
  replace (S (c - n)) with (S (S (c - S n))) in IH by lia.
  rewrite sum_range_S in IH. replace (c - n) with (S (c - S n)) at 1 by lia. lia.
Qed.

Lemma sum_tri_closed n : 6 * list_sum (map tri (range (S n))) = n * (n + 1) * (n + 2).
Proof.
  induction n as [|n IH]; [reflexivity|]. rewrite sum_range_S. pose proof (tri_closed (S n)). nia.
Qed.

Lemma length_poly3 n :
  6 * length (flat_map (fun k => flat_map (fun j => map (fun i => [i; j; k])
               (range (n + 1 - k - j))) (range (n + 1 - k))) (range (n + 1)))
  = (n + 1) * (n + 2) * (n + 3).
Proof.
  rewrite length_flat_map_sum.
  rewrite (map_ext _ (fun k => tri (n + 1 - k))).
  2: { intros k. rewrite length_flat_map_sum. unfold tri. f_equal. apply map_ext. intros j.
       rewrite map_length, length_range; reflexivity. }
  pose proof (sum_tri (n+1) (n+1) ltac:(lia)) as H. rewrite Nat.sub_diag in H.
  change (list_sum (map tri (range 1))) with 0 in H.
  pose proof (sum_tri_closed (n+1)). nia.
Qed.

(** Number of members in closed form: binomial(n + d, d), division free. *)
Lemma polynomial_set_1d_length d n l : polynomial_set_1d d n = Ok l ->
  (d = 1 /\ length l = n + 1) \/ (d = 2 /\ 2 * length l = (n + 1) * (n + 2)) \/
  (d = 3 /\ 6 * length l = (n + 1) * (n + 2) * (n + 3)).
Proof.
  intros H. destruct d as [|[|[|[|d]]]]; try discriminate; simpl in H; injection H as <-.
  - left. split; [reflexivity|]. rewrite map_length, length_range. reflexivity.
  - right; left. split; [reflexivity|apply length_poly2].
  - right; right. split; [reflexivity|apply length_poly3].
Qed.

(** * quolynomial_set_1d *)
Lemma map_zip_vars_id d n : d <= 3 ->
  map zip_vars (product (repeat (range (n + 1)) d)) = product (repeat (range (n + 1)) d).
Proof.
  intros Hd. rewrite <- (map_id (product _)) at 2. apply map_ext_in. intros j Hj.
  apply in_product in Hj. destruct Hj as [Hl _]. rewrite repeat_length in Hl.
  unfold zip_vars. apply firstn_all2. lia.
Qed.

Lemma in_product_range d n m : In m (product (repeat (range n) d)) <->
  length m = d /\ Forall (fun e => e < n) m.
Proof.
  rewrite in_product, repeat_length. split; intros [Hl H]; (split; [exact Hl|]).
  - apply Forall_forall. intros e He. apply In_nth with (d := 0) in He. destruct He as [i [Hi <-]].
    specialize (H i 0 ltac:(lia)). rewrite nth_indep with (d' := range n) in H by (rewrite repeat_length; lia).
    rewrite nth_repeat in H. apply in_range in H. exact H.
  - intros i e Hi. rewrite nth_indep with (d' := range n) by (rewrite repeat_length; lia).
    rewrite nth_repeat. apply in_range. rewrite Forall_forall in H. apply H. apply nth_In. lia.
Qed.

Lemma quolynomial_set_1d_ok d n : d <= 3 -> lists_basis (quolynomial_set_1d d n) (tensor_mono d n).
Proof.
  intros Hd. unfold quolynomial_set_1d. rewrite map_zip_vars_id by exact Hd.
  apply (lists_basis_intro d).
  - apply NoDup_product. apply Forall_forall. intros l Hl. apply repeat_spec in Hl. subst. apply NoDup_range.
  - intros m. rewrite in_product_range. unfold tensor_mono. split; intros [Hl H]; (split; [exact Hl|]);
    apply Forall_impl with (2 := H); intros; lia.
  - intros m [H _]; exact H.
Qed.

Lemma length_product {A} (ls : list (list A)) :
  length (product ls) = fold_right (fun l acc => length l * acc) 1 ls.
Proof.
  induction ls as [|l ls IH]; simpl; [reflexivity|].
  rewrite length_flat_map_const with (n := length (product ls)); [rewrite IH; reflexivity|].
  intros a _. apply map_length.
Qed.

Lemma quolynomial_set_1d_length d n : length (quolynomial_set_1d d n) = (n + 1) ^ d.
Proof.
  unfold quolynomial_set_1d. rewrite map_length, length_product.
  induction d as [|d IH]; simpl; [reflexivity|]. rewrite IH, length_range. reflexivity.
Qed.

(** * prism *)
Lemma prism_polynomial_set_1d_ok n :
  exists l, prism_polynomial_set_1d 3 n = Ok l /\ lists_basis l (prism_mono n)
    /\ 2 * length l = (n + 1) * (n + 1) * (n + 2).
Proof.
  unfold prism_polynomial_set_1d. simpl. eexists. split; [reflexivity|]. split.
  - apply (lists_basis_intro 3).
    + apply NoDup_flat_map; [apply NoDup_range| |].
      * intros a _. apply NoDup_flat_map; [apply NoDup_range| |].
        -- intros b _. apply NoDup_map_inj; [intros x y _ _ E; congruence|apply NoDup_range].
        -- intros b c x _ _ Hb Hc. list_in. congruence.
      * intros a b x _ _ Ha Hb. list_in. congruence.
    + intros m. unfold prism_mono. split.
      * intros H. list_in. do 3 eexists. split; [reflexivity|]. lia.
      * intros (i & j & k & -> & Hij & Hk).
        apply in_flat_map. exists k. split; [apply in_range; lia|].
        apply in_flat_map. exists j. split; [apply in_range; lia|].
        apply in_map_iff. exists i. split; [reflexivity|]. apply in_range. lia.
    + intros m (i & j & k & -> & _). reflexivity.
  - rewrite length_flat_map_const with (n := tri (n + 1)).
    + rewrite length_range. pose proof (tri_closed (n+1)). nia.
    + intros k _. rewrite length_flat_map_sum. unfold tri. f_equal. apply map_ext. intros j.
      rewrite map_length, length_range; reflexivity.
Qed.

Lemma prism_polynomial_set_1d_err d n : d <> 3 -> prism_polynomial_set_1d d n = Err AssertionError.
Proof. intros H. unfold prism_polynomial_set_1d. destruct (Nat.eqb_spec d 3); [lia|reflexivity]. Qed.

(** * serendipity *)
Lemma count_occ_app (l1 l2 : list nat) a :
  count_occ Nat.eq_dec (l1 ++ l2) a = count_occ Nat.eq_dec l1 a + count_occ Nat.eq_dec l2 a.
Proof. induction l1 as [|b l1 IH]; simpl; [reflexivity|]. rewrite IH. destruct (Nat.eq_dec b a); lia. Qed.

Lemma serendipity_rec_in total linear rem : forall done j, list_sum done <= total ->
  (In j (serendipity_indices_rec total linear rem done) <->
   exists t, j = done ++ t /\ length t = rem /\
     linear <= count_occ Nat.eq_dec j 1 /\ (0 < rem -> list_sum j = total)).
Proof.
  induction rem as [|rem IH]; intros done j Hs.
  - cbn [serendipity_indices_rec].
    destruct (Nat.leb_spec linear (count_occ Nat.eq_dec done 1)) as [Hle|Hlt].
    + split.
      * intros [<-|[]]. exists []. rewrite app_nil_r. repeat split; [exact Hle|lia].
      * intros (t & -> & Ht & _). destruct t; [|discriminate]. rewrite app_nil_r. left; reflexivity.
    + split; [intros []|]. intros (t & -> & Ht & Hc & _). destruct t; [|discriminate].
      rewrite app_nil_r in Hc. lia.
  - destruct rem as [|rem].
    + change (serendipity_indices_rec total linear 1 done) with
        (serendipity_indices_rec total linear 0 (done ++ [total - list_sum done])).
      rewrite IH by (rewrite list_sum_app; simpl; lia). split.
      * intros (t & -> & Ht & Hc & _). destruct t; [|discriminate].
        rewrite app_nil_r in *. eexists. repeat split; [exact Hc|]. intros _.
        rewrite list_sum_app. simpl. lia.
      * intros (t & -> & Ht & Hc & Hsum). destruct t as [|a [|b t]]; try discriminate.
        specialize (Hsum ltac:(lia)). rewrite list_sum_app in Hsum. simpl in Hsum.
        exists []. rewrite app_nil_r. replace (total - list_sum done) with a by lia.
        repeat split; [exact Hc|lia].
    + change (serendipity_indices_rec total linear (S (S rem)) done) with
        (flat_map (fun i => serendipity_indices_rec total linear (S rem) (done ++ [i]))
           (range (total - list_sum done + 1))).
      rewrite in_flat_map. split.
      * intros (i & Hi & Hj). apply in_range in Hi.
        apply IH in Hj; [|rewrite list_sum_app; simpl; lia].
        destruct Hj as (t & -> & Ht & Hc & Hsum). rewrite <- app_assoc in *. simpl in *.
        exists (i :: t). repeat split; [simpl; lia|exact Hc|]. intros _. apply Hsum; lia.
      * intros (t & -> & Ht & Hc & Hsum). destruct t as [|a t]; [discriminate|].
        specialize (Hsum ltac:(lia)). rewrite list_sum_app in Hsum. simpl in Hsum.
        exists a. split; [apply in_range; lia|].
        apply IH; [rewrite list_sum_app; simpl; lia|].
        exists t. rewrite <- app_assoc. simpl. repeat split; [simpl in Ht; lia|exact Hc|].
        intros _. rewrite list_sum_app. simpl. lia.
Qed.

Lemma serendipity_rec_nodup total linear rem : forall done, list_sum done <= total ->
  NoDup (serendipity_indices_rec total linear rem done).
Proof.
  induction rem as [|rem IH]; intros done Hs.
  - cbn [serendipity_indices_rec]. destruct (_ <=? _); repeat constructor. simpl; tauto.
  - destruct rem as [|rem].
    + change (serendipity_indices_rec total linear 1 done) with
        (serendipity_indices_rec total linear 0 (done ++ [total - list_sum done])).
      apply IH. rewrite list_sum_app; simpl; lia.
    + change (serendipity_indices_rec total linear (S (S rem)) done) with
        (flat_map (fun i => serendipity_indices_rec total linear (S rem) (done ++ [i]))
           (range (total - list_sum done + 1))).
      apply NoDup_flat_map; [apply NoDup_range| |].
      * intros i Hi. apply in_range in Hi. apply IH. rewrite list_sum_app; simpl; lia.
      * intros a b x Ha Hb Hxa Hxb. apply in_range in Ha, Hb.
        apply serendipity_rec_in in Hxa; [|rewrite list_sum_app; simpl; lia].
        apply serendipity_rec_in in Hxb; [|rewrite list_sum_app; simpl; lia].
        destruct Hxa as (t & -> & _), Hxb as (u & E & _).
        rewrite <- !app_assoc in E. apply app_inv_head in E. simpl in E. congruence.
Qed.

Lemma mdeg_list_sum m : mdeg m = list_sum m.
Proof. induction m; simpl; lia. Qed.

Lemma superlinear_split m : superlinear_degree m + count_occ Nat.eq_dec m 1 = mdeg m.
Proof.
  induction m as [|e m IH]; simpl; [reflexivity|].
  destruct (Nat.eq_dec e 1) as [->|Hne]; simpl; [lia|].
  destruct (Nat.eqb_spec e 1); lia.
Qed.

Lemma count_occ_le_length (m : list nat) a : count_occ Nat.eq_dec m a <= length m.
Proof. induction m as [|e m IH]; simpl; [lia|]. destruct (Nat.eq_dec e a); lia. Qed.

Lemma serendipity_set_1d_in d n m : 1 <= d <= 3 ->
  (In m (serendipity_set_1d d n) <-> length m = d /\ n < mdeg m /\ superlinear_degree m <= n).
Proof.
  intros Hd. unfold serendipity_set_1d. rewrite in_flat_map. split.
  - intros (s & Hs & Hm). apply in_range2 in Hs. apply in_map_iff in Hm. destruct Hm as (j & <- & Hj).
    unfold serendipity_indices in Hj. apply serendipity_rec_in in Hj; [|simpl; lia].
    destruct Hj as (t & E & Ht & Hc & Hsum). simpl in E. subst t. specialize (Hsum ltac:(lia)).
    assert (E : zip_vars j = j) by (apply firstn_all2; lia). rewrite E.
    rewrite mdeg_list_sum, Hsum. pose proof (superlinear_split j) as Hsp. rewrite mdeg_list_sum in Hsp.
    lia.
  - intros (Hl & Hlt & Hsl). exists (mdeg m).
    pose proof (superlinear_split m) as Hsp. pose proof (count_occ_le_length m 1) as Hc.
    split; [apply in_range2; lia|]. apply in_map_iff. exists m. split; [apply firstn_all2; lia|].
    unfold serendipity_indices. apply serendipity_rec_in; [simpl; lia|].
    exists m. split; [reflexivity|]. split; [exact Hl|]. split; [lia|]. intros _. exact (eq_sym (mdeg_list_sum m)).
Qed.

Lemma serendipity_set_1d_nodup d n : 1 <= d <= 3 -> NoDup (serendipity_set_1d d n).
Proof.
  intros Hd. unfold serendipity_set_1d. apply NoDup_flat_map; [apply NoDup_range2| |].
  - intros s Hs. apply NoDup_map_inj; [|apply serendipity_rec_nodup; simpl; lia].
    intros a b Ha Hb E. unfold serendipity_indices in *.
    apply serendipity_rec_in in Ha; [|simpl; lia]. apply serendipity_rec_in in Hb; [|simpl; lia].
    destruct Ha as (t & -> & Ht & _), Hb as (u & -> & Hu & _). simpl in *.
    unfold zip_vars in E. rewrite !firstn_all2 in E by lia. exact E.
  - intros a b x Ha Hb Hxa Hxb. apply in_map_iff in Hxa, Hxb.
    destruct Hxa as (j & Ej & Hj), Hxb as (k & Ek & Hk). unfold serendipity_indices in *.
    apply serendipity_rec_in in Hj; [|simpl; lia]. apply serendipity_rec_in in Hk; [|simpl; lia].
    destruct Hj as (t & -> & Ht & _ & Hsj), Hk as (u & -> & Hu & _ & Hsk). simpl in *.
    unfold zip_vars in *. rewrite firstn_all2 in Ej by lia. rewrite firstn_all2 in Ek by lia.
    subst. specialize (Hsj ltac:(lia)). specialize (Hsk ltac:(lia)). congruence.
Qed.

Lemma serendipity_complete d n : 1 <= d <= 3 ->
  exists l, polynomial_set_1d d n = Ok l /\
    lists_basis (l ++ serendipity_set_1d d n) (serendipity_mono d n).
Proof.
  intros Hd. destruct (polynomial_set_1d_ok d n Hd) as (l & Hl & Hnd & Hin & _).
  exists l. split; [exact Hl|]. apply (lists_basis_intro d).
  - apply NoDup_app_intro; [exact Hnd|apply serendipity_set_1d_nodup; exact Hd|].
    intros m H1 H2. apply Hin in H1. apply serendipity_set_1d_in in H2; [|exact Hd].
    destruct H1 as [_ H1]. lia.
  - intros m. rewrite in_app_iff, Hin, serendipity_set_1d_in by exact Hd.
    unfold complete_mono, serendipity_mono. pose proof (superlinear_split m).
    destruct (le_lt_dec (mdeg m) n); intuition lia.
  - intros m [H _]; exact H.
Qed.

(** * Vector-valued sets *)

(** The field whose component [c] is the monomial [m] and whose other
    components are zero (d components). *)
Definition unit_field (d c : nat) (m : mono) (F : vpoly) : Prop :=
  length F = d /\ forall j, j < d -> nth j F [] = if j =? c then [(1%Z, m)] else [].

Lemma map_unit_field d c m :
  unit_field d c m (map (fun j => if c =? j then [(1%Z, m)] else []) (range d)).
Proof.
  split; [rewrite map_length, length_range; reflexivity|].
  intros j Hj. rewrite nth_indep with (d' := (fun j => if c =? j then [(1%Z, m)] else []) 0)
    by (rewrite map_length, length_range; lia).
  rewrite (map_nth (fun j => if c =? j then [(1%Z, m)] else []) (range d) 0 j).
  unfold range. rewrite seq_nth by lia. rewrite Nat.eqb_sym. reflexivity.
Qed.

Lemma unit_field_unique d c m F G : unit_field d c m F -> unit_field d c m G -> F = G.
Proof.
  intros [HlF HF] [HlG HG]. apply (nth_ext F G [] []); [congruence|].
  intros n Hn. rewrite HF, HG by lia. reflexivity.
Qed.

Lemma unit_field_inj d c1 m1 c2 m2 F : c1 < d -> unit_field d c1 m1 F -> unit_field d c2 m2 F ->
  c1 = c2 /\ m1 = m2.
Proof.
  intros Hc [_ H1] [_ H2]. specialize (H1 c1 Hc). specialize (H2 c1 Hc).
  rewrite Nat.eqb_refl in H1. rewrite H1 in H2. destruct (Nat.eqb_spec c1 c2); [|discriminate].
  split; [assumption|congruence].
Qed.

(** [L] lists, each exactly once, the unit fields (d components) for the pairs
    (component, monomial) satisfying [ok]. *)
Definition lists_unit_fields (L : list vpoly) (d : nat) (ok : nat -> mono -> Prop) : Prop :=
  NoDup L /\ (forall F, In F L <-> exists c m, c < d /\ ok c m /\ unit_field d c m F).

Lemma vectorise_ok d l ok : NoDup l -> (forall m, In m l <-> ok m) ->
  lists_unit_fields (vectorise d l) d (fun _ => ok).
Proof.
  intros Hnd Hin. split.
  - unfold vectorise. apply NoDup_flat_map; [exact Hnd| |].
    + intros m _. apply NoDup_map_inj; [|apply NoDup_range].
      intros a b Ha Hb E. apply in_range in Ha, Hb.
      pose proof (map_unit_field d a m) as Ua. rewrite E in Ua.
      apply (unit_field_inj d a m b m _ Ha Ua (map_unit_field d b m)).
    + intros a b x _ _ Ha Hb. apply in_map_iff in Ha, Hb.
      destruct Ha as (i & <- & Hi), Hb as (j & E & Hj). apply in_range in Hi, Hj.
      pose proof (map_unit_field d j b) as U. rewrite E in U.
      destruct (unit_field_inj d i a j b _ Hi (map_unit_field d i a) U). assumption.
  - intros F. unfold vectorise. rewrite in_flat_map. split.
    + intros (m & Hm & HF). apply in_map_iff in HF. destruct HF as (c & <- & Hc). apply in_range in Hc.
      exists c, m. split; [exact Hc|]. split; [apply Hin; exact Hm|apply map_unit_field].
    + intros (c & m & Hc & Hok & HF). exists m. split; [apply Hin; exact Hok|].
      apply in_map_iff. exists c. split; [|apply in_range; exact Hc].
      apply (unit_field_unique d c m); [apply map_unit_field|exact HF].
Qed.

Lemma length_vectorise d l : length (vectorise d l) = length l * d.
Proof.
  unfold vectorise. apply length_flat_map_const. intros a _. rewrite map_length, length_range. reflexivity.
Qed.

(** ** Tensor-product H(div) and H(curl) sets *)
Lemma length_combo d (j : list nat) n : d <= length j -> length (firstn d j ++ [n] ++ skipn d j) = S (length j).
Proof. intros H. rewrite app_length. simpl. rewrite firstn_length, skipn_length. lia. Qed.

(** exponent in variable c at most a, others at most b *)
Definition aniso (d c a b : nat) (m : mono) : Prop :=
  length m = d /\ forall i, i < d -> nth i m 0 <= if i =? c then a else b.

Lemma nth_combo_at d (j : list nat) n : d <= length j -> nth d (firstn d j ++ [n] ++ skipn d j) 0 = n.
Proof.
  intros H. rewrite app_nth2; rewrite firstn_length, Nat.min_l by lia; [|lia].
  rewrite Nat.sub_diag. reflexivity.
Qed.

Lemma insert_remove d (m : list nat) : d < length m ->
  firstn d (firstn d m ++ skipn (S d) m) ++ [nth d m 0] ++ skipn d (firstn d m ++ skipn (S d) m) = m.
Proof.
  revert m. induction d as [|d IH]; intros [|a m] H; simpl in *; try lia; [reflexivity|].
  f_equal. apply IH. lia.
Qed.

Lemma remove_insert d (j : list nat) n : d <= length j ->
  firstn d (firstn d j ++ [n] ++ skipn d j) ++ skipn (S d) (firstn d j ++ [n] ++ skipn d j) = j.
Proof.
  revert j. induction d as [|d IH]; intros j H; simpl; [reflexivity|].
  destruct j as [|a j]; simpl in *; [lia|]. f_equal. apply IH. lia.
Qed.

Lemma nth_insert_other d (j : list nat) n i : d <= length j -> i <> d ->
  nth i (firstn d j ++ [n] ++ skipn d j) 0 = nth (if i <? d then i else i - 1) j 0.
Proof.
  revert j i. induction d as [|d IH]; intros j i H Hne; simpl.
  - destruct i as [|i]; [lia|]. simpl. rewrite Nat.sub_0_r. reflexivity.
  - destruct j as [|a j]; simpl in *; [lia|]. destruct i as [|i]; [reflexivity|].
    specialize (IH j i ltac:(lia) ltac:(lia)). simpl in IH. rewrite IH.
    destruct (Nat.ltb_spec i d), (Nat.ltb_spec (S i) (S d)); try lia.
    destruct i; [lia|]. simpl. rewrite Nat.sub_0_r. reflexivity.
Qed.

Lemma map_unit_field' d c m :
  unit_field d c m (map (fun j => if j =? c then [(1%Z, m)] else []) (range d)).
Proof.
  erewrite map_ext; [apply map_unit_field|]. intros a. simpl. rewrite Nat.eqb_sym. reflexivity.
Qed.

Lemma Hdiv_quolynomials_ok d n : 1 <= d <= 3 ->
  exists L, Hdiv_quolynomials d d n = Ok L /\
    lists_unit_fields L d (fun c m => length m = d /\ nth c m 0 = n /\
       forall i, i < d -> i <> c -> nth i m 0 < n).
Proof.
  intros Hd. unfold Hdiv_quolynomials. rewrite Nat.eqb_refl. simpl negb. cbn iota.
  eexists. split; [reflexivity|].
  assert (Hz : forall c j, c < d -> In j (product (repeat (range n) (d - 1))) ->
    zip_vars (firstn c j ++ [n] ++ skipn c j) = firstn c j ++ [n] ++ skipn c j /\ length j = d - 1).
  { intros c j Hc Hj. apply in_product_range in Hj. destruct Hj as [Hl _].
    split; [|exact Hl]. apply firstn_all2. rewrite length_combo by lia. lia. }
  split.
  - apply NoDup_flat_map; [apply NoDup_range| |].
    + intros c Hc. apply in_range in Hc. apply NoDup_map_inj.
      * intros j k Hj Hk E. destruct (Hz c j Hc Hj) as [Ej Lj], (Hz c k Hc Hk) as [Ek Lk].
        cbn zeta in E. rewrite Ej, Ek in E.
        pose proof (map_unit_field' d c (firstn c j ++ [n] ++ skipn c j)) as U. rewrite E in U.
        destruct (unit_field_inj _ _ _ _ _ _ Hc U (map_unit_field' d c (firstn c k ++ [n] ++ skipn c k))) as [_ E2].
        rewrite <- (remove_insert c j n) by lia. rewrite E2. apply remove_insert. lia.
      * apply NoDup_product. apply Forall_forall. intros l Hl. apply repeat_spec in Hl. subst. apply NoDup_range.
    + intros a b x Ha Hb Hxa Hxb. apply in_range in Ha, Hb. apply in_map_iff in Hxa, Hxb.
      destruct Hxa as (j & <- & Hj), Hxb as (k & E & Hk). cbn zeta in E.
      pose proof (map_unit_field' d b (zip_vars (firstn b k ++ [n] ++ skipn b k))) as U. rewrite E in U.
      destruct (unit_field_inj _ _ _ _ _ _ Ha (map_unit_field' d a _) U) as [E1 _]. exact E1.
  - intros F. rewrite in_flat_map. split.
    + intros (c & Hc & HF). apply in_range in Hc. apply in_map_iff in HF. destruct HF as (j & <- & Hj).
      destruct (Hz c j Hc Hj) as [Ej Lj]. cbn zeta. rewrite Ej.
      exists c, (firstn c j ++ [n] ++ skipn c j).
      split; [exact Hc|]. split; [|apply map_unit_field'].
      apply in_product_range in Hj. destruct Hj as [_ Hj]. rewrite Forall_forall in Hj.
      split; [rewrite length_combo by lia; lia|]. split; [apply nth_combo_at; lia|].
      intros i Hi Hne. rewrite nth_insert_other by lia. apply Hj. apply nth_In.
      destruct (Nat.ltb_spec i c); lia.
    + intros (c & m & Hc & (Hl & Hn & Hoth) & HF). exists c. split; [apply in_range; exact Hc|].
      apply in_map_iff. exists (firstn c m ++ skipn (S c) m).
      assert (Hj : In (firstn c m ++ skipn (S c) m) (product (repeat (range n) (d - 1)))).
      { apply in_product_range. split; [rewrite app_length, firstn_length, skipn_length; lia|].
        apply Forall_forall. intros e He. apply in_app_iff in He.
        assert (Hex : exists i, i < d /\ i <> c /\ nth i m 0 = e).
        { destruct He as [He|He]; apply In_nth with (d := 0) in He; destruct He as (i & Hi & He).
          - rewrite firstn_length in Hi. exists i. split; [lia|]. split; [lia|].
            rewrite <- He. rewrite <- (firstn_skipn c m) at 1. rewrite app_nth1 by (rewrite firstn_length; lia). reflexivity.
          - rewrite skipn_length in Hi. exists (S c + i). split; [lia|]. split; [lia|].
            rewrite <- He. rewrite <- (firstn_skipn (S c) m) at 1.
            rewrite app_nth2; rewrite firstn_length, Nat.min_l by lia; [|lia]. f_equal. lia. }
        destruct Hex as (i & Hi & Hne & <-). apply Hoth; assumption. }
      split; [|exact Hj]. cbn zeta. destruct (Hz c _ Hc Hj) as [Ej _]. rewrite Ej.
      apply (unit_field_unique d c m); [|exact HF].
      rewrite <- Hn. rewrite insert_remove by lia. apply map_unit_field'.
Qed.

Lemma Hcurl_quolynomials_ok d n : 1 <= d <= 3 ->
  exists L, Hcurl_quolynomials d d n = Ok L /\
    lists_unit_fields L d (fun c m => length m = d /\ nth c m 0 < n /\
       (forall i, i < d -> nth i m 0 <= n) /\ exists i, i < d /\ nth i m 0 = n).
Proof.
  intros Hd. unfold Hcurl_quolynomials. rewrite Nat.eqb_refl. simpl negb. cbn iota.
  eexists. split; [reflexivity|].
  set (dom := fun c => product (map (fun i => if i =? c then range n else range (n + 1)) (range d))).
  assert (Hdom : forall c j, In j (dom c) <-> length j = d /\
     forall i, i < d -> nth i j 0 < if i =? c then n else n + 1).
  { intros c j. unfold dom. rewrite in_product, map_length, length_range.
    assert (Hn : forall i, i < d -> nth i (map (fun i => if i =? c then range n else range (n + 1)) (range d)) [] =
       if i =? c then range n else range (n + 1)).
    { intros i Hi. rewrite nth_indep with (d' := (fun i => if i =? c then range n else range (n + 1)) 0)
        by (rewrite map_length, length_range; lia).
      rewrite (map_nth (fun i => if i =? c then range n else range (n + 1)) (range d) 0 i).
      assert (E : nth i (range d) 0 = i) by (unfold range; rewrite seq_nth by lia; reflexivity).
      rewrite E. reflexivity. }
    split; intros [Hl H]; (split; [exact Hl|]).
    - intros i Hi. specialize (H i 0 Hi). rewrite Hn in H by exact Hi.
      destruct (i =? c); apply in_range in H; exact H.
    - intros i e Hi. rewrite Hn by exact Hi. specialize (H i Hi).
      rewrite nth_indep with (d' := 0) by lia. destruct (i =? c); apply in_range; exact H. }
  assert (Hz : forall c j, In j (dom c) -> zip_vars j = j).
  { intros c j Hj. apply Hdom in Hj. apply firstn_all2. lia. }
  assert (Hex : forall j, existsb (Nat.eqb n) j = true <-> exists i, i < length j /\ nth i j 0 = n).
  { intros j. rewrite existsb_exists. split.
    - intros (e & He & E). apply Nat.eqb_eq in E. subst. apply In_nth with (d := 0) in He. exact He.
    - intros (i & Hi & E). exists n. split; [rewrite <- E; apply nth_In; exact Hi|apply Nat.eqb_refl]. }
  split.
  - apply NoDup_flat_map; [apply NoDup_range| |].
    + intros c Hc. apply in_range in Hc. apply NoDup_flat_map.
      * apply NoDup_product. apply Forall_forall. intros l Hl. apply in_map_iff in Hl.
        destruct Hl as (i & <- & _). destruct (i =? c); apply NoDup_range.
      * intros j _. destruct (existsb _ j); repeat constructor. simpl; tauto.
      * intros j k x Hj Hk Hxj Hxk. fold (dom c) in Hj, Hk.
        destruct (existsb (Nat.eqb n) j); [|contradiction]. destruct (existsb (Nat.eqb n) k); [|contradiction].
        destruct Hxj as [<-|[]]. destruct Hxk as [E|[]]. rewrite (Hz c j Hj), (Hz c k Hk) in E.
        pose proof (map_unit_field' d c k) as U. rewrite E in U.
        destruct (unit_field_inj _ _ _ _ _ _ Hc (map_unit_field' d c j) U). assumption.
    + intros a b x Ha Hb Hxa Hxb. apply in_range in Ha. apply in_flat_map in Hxa, Hxb.
      destruct Hxa as (j & Hj & Hxj), Hxb as (k & Hk & Hxk).
      destruct (existsb (Nat.eqb n) j); [|contradiction]. destruct (existsb (Nat.eqb n) k); [|contradiction].
      destruct Hxj as [<-|[]]. destruct Hxk as [E|[]].
      pose proof (map_unit_field' d b (zip_vars k)) as U. cbn zeta in E. rewrite E in U.
      destruct (unit_field_inj _ _ _ _ _ _ Ha (map_unit_field' d a _) U). assumption.
  - intros F. rewrite in_flat_map. split.
    + intros (c & Hc & HF). apply in_range in Hc. apply in_flat_map in HF. destruct HF as (j & Hj & HF).
      destruct (existsb (Nat.eqb n) j) eqn:He; [|contradiction]. destruct HF as [<-|[]].
      fold (dom c) in Hj. rewrite (Hz c j Hj). apply Hdom in Hj. destruct Hj as [Hl Hb].
      apply Hex in He. rewrite Hl in He.
      exists c, j. split; [exact Hc|]. split; [|apply map_unit_field'].
      split; [exact Hl|]. split; [specialize (Hb c Hc); rewrite Nat.eqb_refl in Hb; exact Hb|].
      split; [|exact He]. intros i Hi. specialize (Hb i Hi). destruct (i =? c); lia.
    + intros (c & m & Hc & (Hl & Hcn & Hle & He) & HF). exists c. split; [apply in_range; exact Hc|].
      assert (Hj : In m (dom c)).
      { apply Hdom. split; [exact Hl|]. intros i Hi. specialize (Hle i Hi).
        destruct (Nat.eqb_spec i c); subst; lia. }
      apply in_flat_map. exists m. split; [exact Hj|].
      rewrite <- Hl in He. apply Hex in He. rewrite He. left. rewrite (Hz c m Hj).
      apply (unit_field_unique d c m); [apply map_unit_field'|exact HF].
Qed.

Lemma quolynomial_set_vector_ok d r n : d <= 3 ->
  lists_unit_fields (quolynomial_set_vector d r n) r (fun _ => tensor_mono d n).
Proof.
  intros Hd. destruct (quolynomial_set_1d_ok d n Hd) as (H1 & H2 & _).
  apply vectorise_ok; assumption.
Qed.

Lemma lists_unit_fields_app L1 L2 d ok1 ok2 ok :
  lists_unit_fields L1 d ok1 -> lists_unit_fields L2 d ok2 ->
  (forall c m, c < d -> ok1 c m -> ok2 c m -> False) ->
  (forall c m, c < d -> (ok c m <-> ok1 c m \/ ok2 c m)) ->
  lists_unit_fields (L1 ++ L2) d ok.
Proof.
  intros [N1 I1] [N2 I2] Hdis Hok. split.
  - apply NoDup_app_intro; [exact N1|exact N2|]. intros F H1 H2. apply I1 in H1. apply I2 in H2.
    destruct H1 as (c & m & Hc & Ho & U), H2 as (c' & m' & Hc' & Ho' & U').
    destruct (unit_field_inj _ _ _ _ _ _ Hc U U') as [<- <-]. apply (Hdis c m); assumption.
  - intros F. rewrite in_app_iff, I1, I2. split.
    + intros [(c & m & Hc & Ho & U)|(c & m & Hc & Ho & U)]; exists c, m;
        (split; [exact Hc|split; [apply Hok; auto|exact U]]).
    + intros (c & m & Hc & Ho & U). apply Hok in Ho; [|exact Hc]. destruct Ho as [Ho|Ho]; [left|right];
        exists c, m; (split; [exact Hc|split; [exact Ho|exact U]]).
Qed.

Lemma tensor_nth d n m : tensor_mono d n m <-> length m = d /\ forall i, i < d -> nth i m 0 <= n.
Proof.
  unfold tensor_mono. split; intros [Hl H]; (split; [exact Hl|]).
  - rewrite Forall_forall in H. intros i Hi. apply H. apply nth_In. lia.
  - apply Forall_forall. intros e He. apply In_nth with (d := 0) in He. destruct He as (i & Hi & <-).
    apply H. lia.
Qed.

Lemma rt_quolynomials d n : 2 <= d <= 3 ->
  exists L, Hdiv_quolynomials d d (S n) = Ok L /\
    lists_unit_fields (quolynomial_set_vector d d n ++ L) d (fun c m => aniso d c (S n) n m).
Proof.
  intros Hd. destruct (Hdiv_quolynomials_ok d (S n) ltac:(lia)) as (L & HL & HU).
  exists L. split; [exact HL|].
  eapply lists_unit_fields_app; [apply quolynomial_set_vector_ok; lia|exact HU| |].
  - intros c m Hc H1 (_ & H2 & _). apply tensor_nth in H1. destruct H1 as [_ H1]. specialize (H1 c Hc). lia.
  - intros c m Hc. rewrite tensor_nth. unfold aniso. split.
    + intros (Hl & H). destruct (le_lt_dec (nth c m 0) n) as [Hle|Hlt].
      * left. split; [exact Hl|]. intros i Hi. specialize (H i Hi). destruct (Nat.eqb_spec i c); subst; lia.
      * right. split; [exact Hl|]. split.
        -- specialize (H c Hc). rewrite Nat.eqb_refl in H. lia.
        -- intros i Hi Hne. specialize (H i Hi). destruct (Nat.eqb_spec i c); [contradiction|]. lia.
    + intros [(Hl & H)|(Hl & H1 & H2)]; (split; [exact Hl|]); intros i Hi.
      * specialize (H i Hi). destruct (i =? c); lia.
      * destruct (Nat.eqb_spec i c); [subst; lia|]. specialize (H2 i Hi ltac:(assumption)). lia.
Qed.

Lemma nedelec_quolynomials d n : 2 <= d <= 3 ->
  exists L, Hcurl_quolynomials d d (S n) = Ok L /\
    lists_unit_fields (quolynomial_set_vector d d n ++ L) d (fun c m => aniso d c n (S n) m).
Proof.
  intros Hd. destruct (Hcurl_quolynomials_ok d (S n) ltac:(lia)) as (L & HL & HU).
  exists L. split; [exact HL|].
  eapply lists_unit_fields_app; [apply quolynomial_set_vector_ok; lia|exact HU| |].
  - intros c m Hc H1 (_ & _ & _ & i & Hi & E). apply tensor_nth in H1. destruct H1 as [_ H1].
    specialize (H1 i Hi). lia.
  - intros c m Hc. rewrite tensor_nth. unfold aniso. split.
    + intros (Hl & H).
      assert (Hdec : (forall i, i < d -> nth i m 0 <= n) \/ exists i, i < d /\ n < nth i m 0).
      { clear - d. induction d as [|k IH]; [left; intros; lia|].
        destruct IH as [IH|(i & Hi & E)]; [|right; exists i; lia].
        destruct (le_lt_dec (nth k m 0) n).
        - left. intros i Hi. destruct (Nat.eq_dec i k); [subst; assumption|apply IH; lia].
        - right. exists k. lia. }
      destruct Hdec as [Ha|(i & Hi & E)]; [left; split; assumption|right].
      split; [exact Hl|]. split; [specialize (H c Hc); rewrite Nat.eqb_refl in H; lia|].
      split; [intros j Hj; specialize (H j Hj); destruct (j =? c); lia|].
      exists i. split; [exact Hi|]. specialize (H i Hi). destruct (i =? c); lia.
    + intros [(Hl & H)|(Hl & H1 & H2 & _)]; (split; [exact Hl|]); intros i Hi.
      * specialize (H i Hi). destruct (i =? c); lia.
      * destruct (Nat.eqb_spec i c); [subst; lia|]. apply H2; exact Hi.
Qed.

(** ** Unit fields are independent vector functions *)
Lemma vcomp_unit d c m F v k : unit_field d c m F -> c < d ->
  vcomp (veval F) k v = if k =? c then meval m v else 0%R.
Proof.
  intros [Hl H] Hc. unfold vcomp, veval.
  destruct (lt_dec k d) as [Hk|Hk].
  - rewrite nth_indep with (d' := zeval [] v) by (rewrite map_length; lia).
    rewrite (map_nth (fun p => zeval p v) F [] k). rewrite H by exact Hk.
    destruct (k =? c); simpl; lra.
  - rewrite nth_overflow by (rewrite map_length; lia).
    destruct (Nat.eqb_spec k c); [lia|reflexivity].
Qed.
