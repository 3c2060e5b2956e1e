(** The tables of all cells against the specification vocabulary. *)
From Coq Require Import String Arith ZArith Reals Lia Lra Bool Sorted List.
From Verif Require Import Base PolyLib PolySetsModel PolyVec LinAlg LegendreModel LegendreSpec LegendreTables LegendreProofs LegendreTet LegendreRows LegendrePyramid.
Import ListNotations.
Open Scope R_scope.

Lemma multi_indices1 n : multi_indices 1 n = map (fun s => [s]) (range (n + 1)).
Proof. unfold multi_indices. rewrite flat_map_concat_map. induction (range (n + 1)) as [|a l IH]; [reflexivity|]. simpl. rewrite <- IH. reflexivity. Qed.
Lemma map_flat_map {A B C} (g : B -> C) (f : A -> list B) l : map g (flat_map f l) = flat_map (fun a => map g (f a)) l.
Proof. induction l as [|a l IH]; [reflexivity|]. simpl. rewrite map_app, IH. reflexivity. Qed.
Lemma homogeneous2 s : homogeneous 2 s = map (fun q => [s - q; q]%nat) (range (s + 1)).
Proof. cbn [homogeneous]. induction (range (s + 1)) as [|a l IH]; [reflexivity|]. simpl. rewrite <- IH. reflexivity. Qed.
Lemma multi_indices2 n : multi_indices 2 n = map (fun '(p, q) => [p; q]) (order2 n).
Proof.
  unfold multi_indices, order2. rewrite map_flat_map. apply flat_map_ext. intros s. rewrite homogeneous2, map_map. reflexivity.
Qed.
Lemma multi_indices3 n : multi_indices 3 n = map (fun '(p, q, r) => [p; q; r]) (order3 n).
Proof.
  unfold multi_indices, order3. rewrite map_flat_map. apply flat_map_ext. intros s. rewrite map_flat_map.
  change (homogeneous 3 s) with (flat_map (fun u => map (cons (s - u)%nat) (homogeneous 2 u)) (range (s + 1))).
  apply flat_map_ext. intros u. rewrite homogeneous2, !map_map. reflexivity.
Qed.
Lemma nth_error_map_inv {A B} (f : A -> B) l n b : nth_error (map f l) n = Some b -> exists a, nth_error l n = Some a /\ b = f a.
Proof. rewrite nth_error_map. destruct (nth_error l n) as [a|]; [|discriminate]. intros E. injection E as <-. exists a. auto. Qed.
Lemma multi1_inv n a m : nth_error (multi_indices 1 n) a = Some m -> m = [a] /\ (a <= n)%nat.
Proof.
  rewrite multi_indices1. intros E. apply nth_error_map_inv in E. destruct E as (b & E & ->).
  assert (a < n + 1)%nat. { rewrite <- (seq_length (n + 1) 0). apply nth_error_Some. unfold range in E. rewrite E. discriminate. }
  rewrite nth_error_range in E by assumption. injection E as <-. split; [reflexivity|lia].
Qed.
Lemma multi2_inv n a m : nth_error (multi_indices 2 n) a = Some m -> exists p q, m = [p; q] /\ (p + q <= n)%nat /\ a = index2 p q.
Proof.
  rewrite multi_indices2. intros E. apply nth_error_map_inv in E. destruct E as ([p' q'] & E & ->).
  assert (L : (a < length (order2 n))%nat) by (apply nth_error_Some; rewrite E; discriminate).
  rewrite (proj1 (order2_nth n)) in L. destruct (index2_surj n a L) as (p & q & H & <-).
  rewrite (proj2 (order2_nth n) p q H) in E. injection E as <- <-. exists p, q. auto.
Qed.
Lemma multi3_inv n a m : nth_error (multi_indices 3 n) a = Some m -> exists p q r, m = [p; q; r] /\ (p + q + r <= n)%nat /\ a = index3 p q r.
Proof.
  rewrite multi_indices3. intros E. apply nth_error_map_inv in E. destruct E as ([[p' q'] r'] & E & ->).
  assert (L : (a < length (order3 n))%nat) by (apply nth_error_Some; rewrite E; discriminate).
  rewrite (proj1 (order3_nth n)) in L. destruct (index3_surj n a L) as (p & q & r & H & <-).
  rewrite (proj2 (order3_nth n) p q r H) in E. injection E as <- <- <-. exists p, q, r. auto.
Qed.
Lemma length_multi1 n : length (multi_indices 1 n) = (n + 1)%nat.
Proof. rewrite multi_indices1, map_length. apply seq_length. Qed.
Lemma length_multi2 n : length (multi_indices 2 n) = ((n + 1) * (n + 2) / 2)%nat.
Proof. rewrite multi_indices2, map_length. apply order2_nth. Qed.
Lemma length_multi3 n : length (multi_indices 3 n) = ((n + 1) * (n + 2) * (n + 3) / 6)%nat.
Proof. rewrite multi_indices3, map_length. apply order3_nth. Qed.

(** a table filled with a family G closed under derivatives on D *)
Definition good_table (D : point -> Prop) (d ni : nat) (vars : list nat) (derivs : nat) (t : table) : Prop :=
  shape (length (multi_indices d derivs)) ni t /\
  exists G : nat -> list nat -> point -> R,
    (forall a m i, nth_error (multi_indices d derivs) a = Some m -> (i < ni)%nat -> entry t (a, i) (G i m)) /\
    forall i m k, (i < ni)%nat -> (k < d)%nat -> length m = d -> forall v, D v -> is_partial (nth k vars 0%nat) (G i m) v (G i (incr m k) v).

Lemma der_mul_l k f f' c : der k f f' -> (forall v t, c (upd v k t) = c v) -> der k (fun v => f v * c v) (fun v => f' v * c v).
Proof.
  intros H E. eapply der_eq; [apply der_mult; [exact H|apply (der_indep k c E)]|]. intros v. cbv beta. ring.
Qed.
Lemma der_mul_r k f f' c : der k f f' -> (forall v t, c (upd v k t) = c v) -> der k (fun v => c v * f v) (fun v => c v * f' v).
Proof.
  intros H E. eapply der_eq; [apply der_mult; [apply (der_indep k c E)|exact H]|]. intros v. cbv beta. ring.
Qed.
Lemma gi_indep v0 k n : v0 <> k -> forall d v t, gi v0 n d (upd v k t) = gi v0 n d v.
Proof.
  intros N. induction n as [| |n IH1 IH2] using two_step; intros d v t; [reflexivity| |]; match goal with |- gi _ (S ?m) _ _ = _ => rewrite (gi_S v0 m d v), (gi_S v0 m d (upd v k t)) end; cbv iota zeta.
  - rewrite upd_other by exact N. reflexivity.
  - rewrite upd_other by exact N. rewrite !IH1, !IH2. reflexivity.
Qed.
Lemma tp_indep v0 v1 k n : v0 <> k -> v1 <> k -> forall dx dy v t, tp v0 v1 n dx dy (upd v k t) = tp v0 v1 n dx dy v.
Proof.
  intros N N'. induction n as [| |n IH1 IH2] using two_step; intros dx dy v t; [reflexivity| |]; match goal with |- tp _ _ (S ?m) _ _ _ = _ => rewrite (tp_S v0 v1 m dx dy v), (tp_S v0 v1 m dx dy (upd v k t)) end; cbv iota zeta.
  - rewrite !upd_other by assumption. reflexivity.
  - rewrite !upd_other by assumption. rewrite !IH1, !IH2. reflexivity.
Qed.
Lemma tq_indep v0 v1 k q p : v0 <> k -> v1 <> k -> forall dx dy v t, tq v0 v1 q p dx dy (upd v k t) = tq v0 v1 q p dx dy v.
Proof.
  intros N N'. induction q as [| |q IH1 IH2] using two_step; intros dx dy v t; [apply tp_indep; assumption| |]; match goal with |- tq _ _ (S ?m) _ _ _ _ = _ => rewrite (tq_S v0 v1 m p dx dy v), (tq_S v0 v1 m p dx dy (upd v k t)) end; destruct (jrc _ _) as [[a b] c]; cbv iota zeta.
  - rewrite !upd_other by assumption. assert (E : forall dx dy, tq v0 v1 0 p dx dy (upd v k t) = tq v0 v1 0 p dx dy v) by (intros; apply tp_indep; assumption). rewrite !E. reflexivity.
  - rewrite !upd_other by assumption. rewrite !IH1, !IH2. reflexivity.
Qed.

Definition everywhere (v : point) : Prop := True.
Lemma interval_good order derivs v0 : exists t, orthogonal_basis_interval order derivs [v0] = Ok t /\ good_table everywhere 1 (order + 1) [v0] derivs t.
Proof.
  destruct (interval_table order derivs v0) as (t & E & Sh & H). exists t. split; [exact E|]. split; [rewrite length_multi1; exact Sh|].
  exists (fun i m => gi v0 i (nth 0 m 0%nat)). split.
  - intros a m i Hm Hi. apply multi1_inv in Hm. destruct Hm as [-> Ha]. apply (H a i); lia.
  - intros i m k Hi Hk Lm v _. destruct m as [|x [|y m]]; try discriminate Lm. destruct k as [|k]; [|lia]. apply gi_der.
Qed.
Lemma triangle_good order derivs v0 v1 : v0 <> v1 -> exists t, orthogonal_basis_triangle order derivs [v0; v1] = Ok t /\
  good_table everywhere 2 ((order + 1) * (order + 2) / 2) [v0; v1] derivs t.
Proof.
  intros N. destruct (triangle_table order derivs v0 v1) as (t & E & Sh & H). exists t. split; [exact E|]. split; [rewrite length_multi2; exact Sh|].
  exists (fun i m v => match nth_error (order2 order) i, m with Some (q, p), [dx; dy] => tq v0 v1 q p dx dy v | _, _ => 0 end). split.
  - intros a m i Hm Hi. apply multi2_inv in Hm. destruct Hm as (dx & dy & -> & Hd & ->). destruct (index2_surj order i Hi) as (q & p & A & <-).
    rewrite (proj2 (order2_nth order) q p A). apply H; [exact Hd|lia].
  - intros i m k Hi Hk Lm v _. destruct m as [|dx [|dy [|z m]]]; try discriminate Lm. destruct (index2_surj order i Hi) as (q & p & A & <-).
    rewrite (proj2 (order2_nth order) q p A). destruct (tq_der v0 v1 N p q dx dy) as [H0 H1].
    destruct k as [|[|k]]; [| |lia]; [apply H0|apply H1].
Qed.
Lemma divmod2 n i : (i < (n + 1) ^ 2)%nat -> exists a b, (a <= n)%nat /\ (b <= n)%nat /\ i = (a * (n + 1) + b)%nat.
Proof.
  intros H. exists (i / (n + 1))%nat, (i mod (n + 1))%nat. pose proof (Nat.mod_upper_bound i (n + 1) ltac:(lia)). 
  assert (i / (n + 1) < n + 1)%nat by (apply Nat.div_lt_upper_bound; [lia|rewrite <- Nat.pow_2_r; exact H]).
  split; [lia|]. split; [lia|]. rewrite (Nat.div_mod i (n + 1)) at 1 by lia. ring.
Qed.
Lemma divmod_r N n i : (i < N * (n + 1))%nat -> exists a b, (a < N)%nat /\ (b <= n)%nat /\ i = (a * (n + 1) + b)%nat.
Proof.
  intros H. exists (i / (n + 1))%nat, (i mod (n + 1))%nat. pose proof (Nat.mod_upper_bound i (n + 1) ltac:(lia)). 
  assert (i / (n + 1) < N)%nat by (apply Nat.div_lt_upper_bound; [lia|rewrite Nat.mul_comm; exact H]).
  split; [lia|]. split; [lia|]. rewrite (Nat.div_mod i (n + 1)) at 1 by lia. ring.
Qed.
Lemma divmod_eq (N n a b : nat) : (b <= n)%nat -> ((a * (n + 1) + b) / (n + 1) = a)%nat /\ ((a * (n + 1) + b) mod (n + 1) = b)%nat.
Proof. intros H. split; [rewrite Nat.div_add_l by lia; rewrite Nat.div_small by lia; lia|rewrite Nat.add_comm, Nat.mod_add by lia; apply Nat.mod_small; lia]. Qed.
Lemma quadrilateral_good order derivs v0 v1 : v0 <> v1 -> exists t, orthogonal_basis_quadrilateral order derivs [v0; v1] = Ok t /\
  good_table everywhere 2 ((order + 1) ^ 2) [v0; v1] derivs t.
Proof.
  intros N. assert (N' : v1 <> v0) by auto. destruct (quadrilateral_table order derivs v0 v1) as (t & E & Sh & H). exists t. split; [exact E|]. split; [rewrite length_multi2; exact Sh|].
  exists (fun i m v => gi v0 (i / (order + 1)) (nth 0 m 0%nat) v * gi v1 (i mod (order + 1)) (nth 1 m 0%nat) v). split.
  - intros a m i Hm Hi. apply multi2_inv in Hm. destruct Hm as (dx & dy & -> & Hd & ->). destruct (divmod2 order i Hi) as (p & q & A & B & ->).
    destruct (divmod_eq 0 order p q B) as [-> ->]. apply H; assumption.
  - intros i m k Hi Hk Lm v _. destruct m as [|dx [|dy [|z m]]]; try discriminate Lm.
    destruct k as [|[|k]]; [| |lia]; cbn [incr nth].
    + apply (der_mul_l v0 (gi v0 _ dx)); [apply gi_der|intros; apply gi_indep; assumption].
    + apply (der_mul_r v1 (gi v1 _ dy)); [apply gi_der|intros; apply gi_indep; assumption].
Qed.
Lemma tetrahedron_good order derivs v0 v1 v2 : NoDup [v0; v1; v2] -> exists t, orthogonal_basis_tetrahedron order derivs [v0; v1; v2] = Ok t /\
  good_table everywhere 3 ((order + 1) * (order + 2) * (order + 3) / 6) [v0; v1; v2] derivs t.
Proof.
  intros ND. inversion ND as [|? ? A1 ND1]; subst. inversion ND1 as [|? ? A2 _]; subst. simpl in A1, A2.
  assert (v0 <> v1 /\ v0 <> v2 /\ v1 <> v2 /\ v1 <> v0 /\ v2 <> v0 /\ v2 <> v1) as (N01 & N02 & N12 & N10 & N20 & N21) by (repeat split; intro; subst; auto).
  destruct (tetrahedron_table order derivs v0 v1 v2) as (t & E & Sh & H). exists t. split; [exact E|]. split; [rewrite length_multi3; exact Sh|].
  exists (fun i m v => match nth_error (order3 order) i, m with Some (r, q, p), [dx; dy; dz] => hr v0 v1 v2 r q p dx dy dz v | _, _ => 0 end). split.
  - intros a m i Hm Hi. apply multi3_inv in Hm. destruct Hm as (dx & dy & dz & -> & Hd & ->). destruct (index3_surj order i Hi) as (r & q & p & A & <-).
    rewrite (proj2 (order3_nth order) r q p A). apply H; [exact Hd|lia].
  - intros i m k Hi Hk Lm v _. destruct m as [|dx [|dy [|dz [|z m]]]]; try discriminate Lm. destruct (index3_surj order i Hi) as (r & q & p & A & <-).
    rewrite (proj2 (order3_nth order) r q p A). destruct (hr_der v0 v1 v2 N01 N02 N12 N10 N20 N21 p q r dx dy dz) as (H0 & H1 & H2).
    destruct k as [|[|[|k]]]; [| | |lia]; [apply H0|apply H1|apply H2].
Qed.
Lemma hexahedron_good order derivs v0 v1 v2 : NoDup [v0; v1; v2] -> exists t, orthogonal_basis_hexahedron order derivs [v0; v1; v2] = Ok t /\
  good_table everywhere 3 ((order + 1) ^ 3) [v0; v1; v2] derivs t.
Proof.
  intros ND. inversion ND as [|? ? A1 ND1]; subst. inversion ND1 as [|? ? A2 _]; subst. simpl in A1, A2.
  assert (v0 <> v1 /\ v0 <> v2 /\ v1 <> v2 /\ v1 <> v0 /\ v2 <> v0 /\ v2 <> v1) as (N01 & N02 & N12 & N10 & N20 & N21) by (repeat split; intro; subst; auto).
  destruct (hexahedron_table order derivs v0 v1 v2) as (t & E & Sh & H). exists t. split; [exact E|]. split; [rewrite length_multi3; exact Sh|].
  exists (fun i m v => gi v0 (i / (order + 1) / (order + 1)) (nth 0 m 0%nat) v * gi v1 ((i / (order + 1)) mod (order + 1)) (nth 1 m 0%nat) v * gi v2 (i mod (order + 1)) (nth 2 m 0%nat) v). split.
  - intros a m i Hm Hi. apply multi3_inv in Hm. destruct Hm as (dx & dy & dz & -> & Hd & ->).
    replace ((order + 1) ^ 3)%nat with ((order + 1) ^ 2 * (order + 1))%nat in Hi by (simpl; ring).
    destruct (divmod_r _ order i Hi) as (pq & r & A & B & ->). destruct (divmod_eq 0 order pq r B) as [-> ->].
    destruct (divmod2 order pq A) as (p & q & C & D & ->). destruct (divmod_eq 0 order p q D) as [-> ->]. apply H; assumption.
  - intros i m k Hi Hk Lm v _. destruct m as [|dx [|dy [|dz [|z m]]]]; try discriminate Lm.
    destruct k as [|[|[|k]]]; [| | |lia]; cbn [incr nth].
    + apply (der_mul_l v0 (fun v => gi v0 _ dx v * gi v1 _ dy v) (fun v => gi v0 _ (S dx) v * gi v1 _ dy v)); [apply (der_mul_l v0 (gi v0 _ dx)); [apply gi_der|]|]; intros; apply gi_indep; assumption.
    + apply (der_mul_l v1 (fun v => gi v0 _ dx v * gi v1 _ dy v) (fun v => gi v0 _ dx v * gi v1 _ (S dy) v)); [apply (der_mul_r v1 (gi v1 _ dy)); [apply gi_der|]|]; intros; apply gi_indep; assumption.
    + apply (der_mul_r v2 (gi v2 _ dz) (gi v2 _ (S dz)) (fun v => gi v0 _ dx v * gi v1 _ dy v)); [apply gi_der|]. intros. rewrite !gi_indep by assumption. reflexivity.
Qed.
Lemma prism_count n : ((n + 1) * (n + 1) * (n + 2) / 2 = (n + 1) * (n + 2) / 2 * (n + 1))%nat.
Proof.
  assert (H : exists k, ((n + 1) * (n + 2) = k * 2)%nat).
  { induction n as [|n [k IH]]; [exists 1%nat; reflexivity|]. exists (k + n + 2)%nat. nia. }
  destruct H as [k H]. replace ((n + 1) * (n + 1) * (n + 2))%nat with (k * (n + 1) * 2)%nat by (rewrite <- Nat.mul_assoc, (Nat.mul_comm _ 2), Nat.mul_assoc, (Nat.mul_comm k 2); nia).
  rewrite H, !Nat.div_mul by lia. reflexivity.
Qed.
Lemma prism_good order derivs v0 v1 v2 : NoDup [v0; v1; v2] -> exists t, orthogonal_basis_prism order derivs [v0; v1; v2] = Ok t /\
  good_table everywhere 3 ((order + 1) * (order + 1) * (order + 2) / 2) [v0; v1; v2] derivs t.
Proof.
  intros ND. inversion ND as [|? ? A1 ND1]; subst. inversion ND1 as [|? ? A2 _]; subst. simpl in A1, A2.
  assert (v0 <> v1 /\ v0 <> v2 /\ v1 <> v2 /\ v1 <> v0 /\ v2 <> v0 /\ v2 <> v1) as (N01 & N02 & N12 & N10 & N20 & N21) by (repeat split; intro; subst; auto).
  destruct (prism_table order derivs v0 v1 v2) as (t & E & Sh & H). exists t. split; [exact E|]. split; [rewrite length_multi3; exact Sh|].
  exists (fun i m v => match nth_error (order2 order) (i / (order + 1)) with Some (q, p) => tq v0 v1 q p (nth 0 m 0%nat) (nth 1 m 0%nat) v * gi v2 (i mod (order + 1)) (nth 2 m 0%nat) v | None => 0 end).
  rewrite prism_count. split.
  - intros a m i Hm Hi. apply multi3_inv in Hm. destruct Hm as (dx & dy & dz & -> & Hd & ->).
    destruct (divmod_r _ order i Hi) as (qp & c & A & B & ->). destruct (divmod_eq 0 order qp c B) as [-> ->].
    destruct (index2_surj order qp A) as (q & p & C & <-). rewrite (proj2 (order2_nth order) q p C). apply H; assumption.
  - intros i m k Hi Hk Lm v _. destruct m as [|dx [|dy [|dz [|z m]]]]; try discriminate Lm.
    destruct (divmod_r _ order i Hi) as (qp & c & A & B & ->). destruct (divmod_eq 0 order qp c B) as [-> ->].
    destruct (index2_surj order qp A) as (q & p & C & <-). rewrite (proj2 (order2_nth order) q p C).
    destruct (tq_der v0 v1 N01 p q dx dy) as [H0 H1].
    destruct k as [|[|[|k]]]; [| | |lia]; cbn [incr nth].
    + apply (der_mul_l v0 (tq v0 v1 q p dx dy) (tq v0 v1 q p (S dx) dy)); [exact H0|intros; apply gi_indep; assumption].
    + apply (der_mul_l v1 (tq v0 v1 q p dx dy) (tq v0 v1 q p dx (S dy))); [exact H1|intros; apply gi_indep; assumption].
    + apply (der_mul_r v2 (gi v2 c dz) (gi v2 c (S dz)) (tq v0 v1 q p dx dy)); [apply gi_der|intros; apply tq_indep; assumption].
Qed.
Lemma pyramid_good order derivs v0 v1 v2 : NoDup [v0; v1; v2] -> exists t, orthogonal_basis_pyramid order derivs [v0; v1; v2] = Ok t /\
  good_table (fun v => v v2 <> 1) 3 ((2 * order + 3) * (order + 2) * (order + 1) / 6) [v0; v1; v2] derivs t.
Proof.
  intros ND. inversion ND as [|? ? A1 ND1]; subst. inversion ND1 as [|? ? A2 _]; subst. simpl in A1, A2.
  assert (v0 <> v1 /\ v0 <> v2 /\ v1 <> v2 /\ v1 <> v0 /\ v2 <> v0 /\ v2 <> v1) as (N01 & N02 & N12 & N10 & N20 & N21) by (repeat split; intro; subst; auto).
  destruct (pyramid_table order derivs v0 v1 v2) as (t & E & Sh & H). exists t. split; [exact E|]. split; [rewrite length_multi3; exact Sh|].
  exists (fun i m v => match nth_error (orderp order) i, m with Some [i; j; k], [dx; dy; dz] => yk v0 v1 v2 k i j dx dy dz v | _, _ => 0 end). split.
  - intros a m i Hm Hi. apply multi3_inv in Hm. destruct Hm as (dx & dy & dz & -> & Hd & ->). destruct (pyramid_index_surj order i Hi) as (r & q & p & A & <-).
    rewrite (proj2 (orderp_nth order) r q p A). apply H; [exact Hd|lia].
  - intros i m k Hi Hk Lm v Hv. destruct m as [|dx [|dy [|dz [|z m]]]]; try discriminate Lm. destruct (pyramid_index_surj order i Hi) as (r & q & p & A & <-).
    rewrite (proj2 (orderp_nth order) r q p A). 
    destruct (yk_der v0 v1 v2 ltac:(assumption) ltac:(assumption) ltac:(assumption) ltac:(assumption) ltac:(assumption) ltac:(assumption) p r q dx dy dz) as (H0 & H1 & H2).
    destruct k as [|[|[|k]]]; [| | |lia]; [apply H0|apply H1|apply H2]; exact Hv.
Qed.
