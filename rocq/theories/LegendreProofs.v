(** The tables of orthogonal polynomials: closed recursions and derivatives. *)
From Coq Require Import String Arith ZArith Reals Lia Lra Bool Sorted List.
From Verif Require Import Base PolyLib PolySetsModel PolyVec LegendreModel LegendreTables.
Import ListNotations.
Open Scope R_scope.

(** * Partial derivatives of functions *)
Definition der (k : nat) (f g : point -> R) : Prop := forall v, is_partial k f v (g v).
Lemma der_eq k f g g' : der k f g' -> (forall v, g' v = g v) -> der k f g.
Proof. intros H E v. rewrite <- E. apply H. Qed.
Lemma der_ext k f f' g : (forall v, f v = f' v) -> der k f g -> der k f' g.
Proof. intros E H v. specialize (H v). unfold is_partial in *. eapply derivable_pt_lim_ext; [|exact H]. intros t. apply E. Qed.
Lemma der_const k c : der k (fun _ => c) (fun _ => 0).
Proof. intros v. exact (derivable_pt_lim_const c (v k)). Qed.
Lemma der_var k : der k (fun v => v k) (fun _ => 1).
Proof.
  intros v. unfold is_partial. eapply derivable_pt_lim_ext; [|apply derivable_pt_lim_id].
  intros t. rewrite upd_same. reflexivity.
Qed.
Lemma der_var_other k j : j <> k -> der k (fun v => v j) (fun _ => 0).
Proof.
  intros N v. unfold is_partial. eapply derivable_pt_lim_ext; [|exact (derivable_pt_lim_const (v j) (v k))].
  intros t. rewrite upd_other by exact N. reflexivity.
Qed.
Lemma der_plus k f g f' g' : der k f f' -> der k g g' -> der k (fun v => f v + g v) (fun v => f' v + g' v).
Proof. intros H1 H2 v. apply (derivable_pt_lim_plus _ _ _ _ _ (H1 v) (H2 v)). Qed.
Lemma der_minus k f g f' g' : der k f f' -> der k g g' -> der k (fun v => f v - g v) (fun v => f' v - g' v).
Proof. intros H1 H2 v. apply (derivable_pt_lim_minus _ _ _ _ _ (H1 v) (H2 v)). Qed.
Lemma upd_id v k : upd v k (v k) = v.
Proof. apply FunctionalExtensionality.functional_extensionality. intros j. apply upd_self. Qed.
Lemma der_mult k f g f' g' : der k f f' -> der k g g' -> der k (fun v => f v * g v) (fun v => f' v * g v + f v * g' v).
Proof.
  intros H1 H2 v. pose proof (derivable_pt_lim_mult _ _ _ _ _ (H1 v) (H2 v)) as H. cbv beta in H. rewrite upd_id in H. exact H.
Qed.
Lemma der_opp k f f' : der k f f' -> der k (fun v => - f v) (fun v => - f' v).
Proof. intros H v. apply (derivable_pt_lim_opp _ _ _ (H v)). Qed.
Lemma der_indep k f : (forall v t, f (upd v k t) = f v) -> der k f (fun _ => 0).
Proof.
  intros H v. unfold is_partial. eapply derivable_pt_lim_ext; [|exact (derivable_pt_lim_const (f v) (v k))]. intros t. symmetry. apply H.
Qed.

Ltac der_step :=
  match goal with
  | |- der _ (fun v => _ + _) _ => apply der_plus
  | |- der _ (fun v => _ - _) _ => apply der_minus
  | |- der _ (fun v => _ * _) _ => apply der_mult
  | |- der _ (fun v => - _) _ => apply der_opp
  | |- der ?k (fun v => v ?k) _ => apply der_var
  | |- der ?k (fun v => v ?j) _ => apply der_var_other; assumption
  | |- der _ (fun v => ?c) _ => apply der_const
  | |- der _ (fun v => ?f ?a ?b ?c ?d v) _ => first [assumption | eassumption]
  end.

(** * Interval *)
Fixpoint gi (v0 n d : nat) (v : point) : R :=
  match n with
  | O => if is0 d then 1 else 0
  | S n1 =>
      let r := INR (2 * n - 1) / INR n in
      gi v0 n1 d v * ((2 * v v0 - 1) * r) + gi v0 n1 (d - 1) v * (2 * INR d * r) +
      match n1 with O => 0 | S n2 => gi v0 n2 d v * (- (INR n1 / INR n)) end
  end.

Lemma two_step (P : nat -> Prop) : P 0%nat -> P 1%nat -> (forall n, P n -> P (S n) -> P (S (S n))) -> forall n, P n.
Proof. intros H0 H1 HS n. assert (P n /\ P (S n)) as [H _]; [|exact H]. induction n as [|n [A B]]; auto. Qed.

Lemma gi_S v0 n1 d v : gi v0 (S n1) d v =
      gi v0 n1 d v * ((2 * v v0 - 1) * (INR (2 * S n1 - 1) / INR (S n1))) + gi v0 n1 (d - 1) v * (2 * INR d * (INR (2 * S n1 - 1) / INR (S n1))) +
      match n1 with O => 0 | S n2 => gi v0 n2 d v * (- (INR n1 / INR (S n1))) end.
Proof. reflexivity. Qed.
Lemma gi_der v0 n : forall d, der v0 (gi v0 n d) (gi v0 n (S d)).
Proof.
  assert (H0 : forall d, der v0 (gi v0 0 d) (gi v0 0 (S d))).
  { intros d. simpl. destruct (is0 d); apply der_const. }
  induction n as [| |n IH1 IH2] using two_step; intros d.
  - apply H0.
  - eapply der_ext; [intros v; symmetry; apply gi_S|]. cbv iota. set (r := INR (2 * 1 - 1) / INR 1).
    eapply der_eq.
    + apply der_plus; [apply der_plus|]; [apply der_mult; [apply H0|]|apply der_mult; [apply H0|]|]; repeat der_step.
    + intros v. cbv beta. rewrite gi_S. fold r. cbv iota.
      destruct d as [|d]; cbn [Nat.sub]; rewrite ?Nat.sub_0_r, ?S_INR; simpl (INR 0); ring.
  - eapply der_ext; [intros v; symmetry; apply gi_S|]. cbv iota.
    set (r := INR (2 * S (S n) - 1) / INR (S (S n))). set (s := INR (S n) / INR (S (S n))).
    eapply der_eq.
    + apply der_plus; [apply der_plus|]; apply der_mult; try apply IH1; try apply IH2; repeat der_step.
    + intros v. cbv beta. rewrite (gi_S v0 (S n) (S d)). fold r s. cbv iota.
      destruct d as [|d]; cbn [Nat.sub]; rewrite ?Nat.sub_0_r, ?S_INR; simpl (INR 0); ring.
Qed.

Lemma sorted_2 l1 l2 : StronglySorted lt l1 -> StronglySorted lt l2 ->
  StronglySorted lexlt (nest l1 (fun _ => map (fun q => [q]) l2)).
Proof. intros. apply sorted_nest; [assumption|]. intros. apply sorted_leaf. assumption. Qed.

Definition key_interval (m : list nat) : nat * nat := match m with [d; i] => (d, i) | _ => (0, 0)%nat end.

Ltac entry_of H :=
  match goal with
  | |- exists f, tget ?t ?d ?i = Ok f /\ _ => exact H
  end.

Lemma interval_init order derivs d : (d <= derivs)%nat ->
  tget (map (fun d => repeat (const (if is0 d then 1 else 0)) (order + 1)) (range (derivs + 1))) d 0 = Ok (const (if is0 d then 1 else 0)).
Proof.
  intros H. unfold tget. erewrite map_nth_error; [|apply nth_error_range; lia].
  replace (order + 1)%nat with (S order) by lia. reflexivity.
Qed.

Lemma interval_table order derivs v0 : exists t, orthogonal_basis_interval order derivs [v0] = Ok t /\
  shape (derivs + 1) (order + 1) t /\
  forall d i, (d <= derivs)%nat -> (i <= order)%nat -> entry t (d, i) (gi v0 i d).
Proof.
  set (ms := nest (range (derivs + 1)) (fun _ => map (fun q => [q]) (range2 1 (order + 1)))).
  set (t0 := map (fun d => repeat (const (if is0 d then 1 else 0)) (order + 1)) (range (derivs + 1))).
  set (step := fun (m : list nat) t => match m with [dx; i] =>
        let r := INR (2 * i - 1) / INR i in
        assign dx i
          [T true dx (i - 1) (fun v => (2 * v v0 - 1) * r);
           T (0 <? dx)%nat (dx - 1) (i - 1) (fun v => 2 * INR dx * r);
           T (1 <? i)%nat dx (i - 2) (fun v => - (INR (i - 1) / INR i))] t | _ => Ok t end).
  assert (Hin : forall m, In m ms <-> exists d i, m = [d; i] /\ (d <= derivs)%nat /\ (1 <= i <= order)%nat).
  { intros m. unfold ms. rewrite in_nest. split.
    - intros (a & m' & -> & Ha & Hm). apply in_map_iff in Hm. destruct Hm as (i & <- & Hi). apply in_range in Ha. apply in_range2 in Hi.
      exists a, i. split; [reflexivity|lia].
    - intros (d & i & -> & Hd & Hi). exists d, [i]. split; [reflexivity|]. split; [apply in_range; lia|]. apply in_map_iff. exists i. split; [reflexivity|apply in_range2; lia]. }
  destruct (fill lexlt step key_interval (fun m => match m with [d; i] => gi v0 i d | _ => fun _ => 0 end) (derivs + 1) (order + 1) ms t0) as (t & E & Sh & K & H).
  - apply sorted_2; apply sorted_seq.
  - apply lexlt_irrefl.
  - intros a b. apply lexlt_asym.
  - intros a b Ha Hb Ek. apply Hin in Ha. apply Hin in Hb. destruct Ha as (d & i & -> & _). destruct Hb as (d' & i' & -> & _).
    cbn [key_interval] in Ek. congruence.
  - intros m Hm. apply Hin in Hm. destruct Hm as (d & i & -> & Hd & Hi). cbn [key_interval fst snd]. lia.
  - unfold t0. split; [rewrite map_length; apply seq_length|]. apply Forall_forall. intros row Hr. apply in_map_iff in Hr.
    destruct Hr as (d & <- & _). apply repeat_length.
  - intros m t Hm Sh K H. apply Hin in Hm. destruct Hm as (d & i & -> & Hd & Hi).
    assert (Rd : forall d' i', (d' <= derivs)%nat -> (i' < i)%nat -> lexlt [d'; i'] [d; i] \/ i' = 0%nat -> exists f, tget t d' i' = Ok f /\ forall v, f v = gi v0 i' d' v).
    { intros d' i' Hd' Hi' Hlt. destruct (Nat.eq_dec i' 0) as [->|N].
      - exists (const (if is0 d' then 1 else 0)). split; [|reflexivity]. rewrite <- (interval_init order derivs d' Hd').
        apply (K (d', 0%nat)). intros m' Hm'. apply Hin in Hm'. destruct Hm' as (a & b & -> & _ & Hb). cbn [key_interval]. intros Q. injection Q. lia.
      - apply (H [d'; i']); [apply Hin; exists d', i'; split; [reflexivity|lia]|]. destruct Hlt as [Hlt|Hlt]; [exact Hlt|lia]. }
    unfold step, key_interval. cbn [fst snd].
    destruct i as [|i1]; [lia|]. replace (S i1 - 1)%nat with i1 by lia.
    cbv zeta.
    match goal with |- context [assign _ _ ?l ?t] =>
      destruct (assign_spec d (S i1) l t [gi v0 i1 d; gi v0 i1 (d - 1); gi v0 (S i1 - 2) d]) as (f & Ef & Hf) end.
    + constructor; [|constructor; [|constructor; [|constructor]]]; cbn [guard t_d t_i].
      * intros _. apply Rd; [lia|lia|]. left. right. split; [reflexivity|]. left. lia.
      * intros Gd. apply Nat.ltb_lt in Gd. apply Rd; [lia|lia|]. left. left. lia.
      * intros Gd. apply Nat.ltb_lt in Gd. apply Rd; [lia|lia|]. left. right. split; [reflexivity|]. left. lia.
    + exists f. split; [exact Ef|]. intros v. rewrite Hf. rewrite gi_S. cbn [combine map fold_right fst snd guard t_c].
      destruct i1 as [|i2].
      * cbn [Nat.ltb Nat.leb]. destruct d as [|d]; cbn [Nat.ltb Nat.leb INR]; ring.
      * cbn [Nat.ltb Nat.leb Nat.sub]. destruct d as [|d]; cbn [Nat.ltb Nat.leb Nat.sub]; change (INR 0) with 0; rewrite ?Nat.sub_0_r; ring.
  - exists t. split; [|split; [exact Sh|]].
    + unfold orthogonal_basis_interval. fold t0. rewrite <- E. unfold ms. rewrite for_in_nest. apply for_in_ext. intros dx s _. symmetry. apply for_in_map.
    + intros d i Hd Hi. destruct (Nat.eq_dec i 0) as [->|N].
      * exists (const (if is0 d then 1 else 0)). split; [|reflexivity]. rewrite <- (interval_init order derivs d Hd).
        apply (K (d, 0%nat)). intros m' Hm'. apply Hin in Hm'. destruct Hm' as (a & b & -> & _ & Hb). cbn [key_interval]. intros Q. injection Q. lia.
      * apply (H [d; i]). apply Hin. exists d, i. split; [reflexivity|lia].
Qed.

(** * Triangle *)
Fixpoint tp (v0 v1 p dx dy : nat) (v : point) : R :=
  match p with
  | O => if is0 dx && is0 dy then 1 else 0
  | S p1 =>
      let pinv := 1 / INR p in
      tp v0 v1 p1 dx dy v * ((2 * v v0 + v v1 - 1) * (2 - pinv)) +
      tp v0 v1 p1 dx (dy - 1) v * (INR dy * (2 - pinv)) +
      tp v0 v1 p1 (dx - 1) dy v * (2 * INR dx * (2 - pinv)) +
      match p1 with
      | O => 0
      | S p2 =>
          tp v0 v1 p2 dx dy v * (- ((1 - v v1) * (1 - v v1) * (1 - pinv))) +
          tp v0 v1 p2 dx (dy - 1) v * (2 * INR dy * (1 - v v1) * (1 - pinv)) +
          tp v0 v1 p2 dx (dy - 2) v * (- (INR dy * INR (dy - 1) * (1 - pinv)))
      end
  end.
Lemma tp_S v0 v1 p1 dx dy v : tp v0 v1 (S p1) dx dy v =
      let pinv := 1 / INR (S p1) in
      tp v0 v1 p1 dx dy v * ((2 * v v0 + v v1 - 1) * (2 - pinv)) +
      tp v0 v1 p1 dx (dy - 1) v * (INR dy * (2 - pinv)) +
      tp v0 v1 p1 (dx - 1) dy v * (2 * INR dx * (2 - pinv)) +
      match p1 with
      | O => 0
      | S p2 =>
          tp v0 v1 p2 dx dy v * (- ((1 - v v1) * (1 - v v1) * (1 - pinv))) +
          tp v0 v1 p2 dx (dy - 1) v * (2 * INR dy * (1 - v v1) * (1 - pinv)) +
          tp v0 v1 p2 dx (dy - 2) v * (- (INR dy * INR (dy - 1) * (1 - pinv)))
      end.
Proof. reflexivity. Qed.
Fixpoint tq (v0 v1 q p dx dy : nat) (v : point) : R :=
  match q with
  | O => tp v0 v1 p dx dy v
  | S q1 =>
      let '(a, b, c) := jrc (2 * p + 1) q1 in
      tq v0 v1 q1 p dx dy v * ((2 * v v1 - 1) * a + b) +
      tq v0 v1 q1 p dx (dy - 1) v * (2 * INR dy * a) +
      match q1 with O => 0 | S q2 => tq v0 v1 q2 p dx dy v * (- c) end
  end.
Lemma tq_S v0 v1 q1 p dx dy v : tq v0 v1 (S q1) p dx dy v =
      let '(a, b, c) := jrc (2 * p + 1) q1 in
      tq v0 v1 q1 p dx dy v * ((2 * v v1 - 1) * a + b) +
      tq v0 v1 q1 p dx (dy - 1) v * (2 * INR dy * a) +
      match q1 with O => 0 | S q2 => tq v0 v1 q2 p dx dy v * (- c) end.
Proof. reflexivity. Qed.

(** products with known derivatives of the first factors *)
Ltac der_sum IH :=
  match goal with
  | |- der _ (fun v => _ + _) _ => apply der_plus; der_sum IH
  | |- der _ (fun v => _ * _) _ => apply der_mult; [IH|repeat der_step]
  | |- der _ (fun v => 0) _ => apply der_const
  end.
Ltac guards d := destruct d as [|[|d]]; cbn [Nat.sub]; rewrite ?Nat.sub_0_r, ?S_INR; change (INR 0) with 0; ring.

Section Triangle.
Context (v0 v1 : nat) (N01 : v0 <> v1).
Lemma N10 : v1 <> v0. Proof. congruence. Qed.
Lemma tp_der p : forall dx dy, der v0 (tp v0 v1 p dx dy) (tp v0 v1 p (S dx) dy) /\ der v1 (tp v0 v1 p dx dy) (tp v0 v1 p dx (S dy)).
Proof.
  pose proof N10 as N10.
  assert (H0 : forall dx dy, der v0 (tp v0 v1 0 dx dy) (tp v0 v1 0 (S dx) dy) /\ der v1 (tp v0 v1 0 dx dy) (tp v0 v1 0 dx (S dy))).
  { intros dx dy. simpl. rewrite andb_false_r. split; apply der_const. }
  induction p as [| |p IH1 IH2] using two_step; intros dx dy; [apply H0| |].
  - split.
    + eapply der_ext; [intros v; symmetry; apply tp_S|]. cbv iota zeta. set (pinv := 1 / INR 1).
      eapply der_eq; [der_sum ltac:(exact (proj1 (H0 _ _)))|]. intros v. cbv beta. rewrite tp_S. cbv iota zeta. fold pinv.
      guards dx.
    + eapply der_ext; [intros v; symmetry; apply tp_S|]. cbv iota zeta. set (pinv := 1 / INR 1).
      eapply der_eq; [der_sum ltac:(exact (proj2 (H0 _ _)))|]. intros v. cbv beta. rewrite tp_S. cbv iota zeta. fold pinv.
      guards dy.
  - split.
    + eapply der_ext; [intros v; symmetry; apply tp_S|]. cbv iota zeta. set (pinv := 1 / INR (S (S p))).
      eapply der_eq; [der_sum ltac:(first [exact (proj1 (IH1 _ _))|exact (proj1 (IH2 _ _))])|]. intros v. cbv beta. rewrite (tp_S v0 v1 (S p)). cbv iota zeta. fold pinv.
      guards dx.
    + eapply der_ext; [intros v; symmetry; apply tp_S|]. cbv iota zeta. set (pinv := 1 / INR (S (S p))).
      eapply der_eq; [der_sum ltac:(first [exact (proj2 (IH1 _ _))|exact (proj2 (IH2 _ _))])|]. intros v. cbv beta. rewrite (tp_S v0 v1 (S p)). cbv iota zeta. fold pinv.
      guards dy.
Qed.
Lemma tq_der p q : forall dx dy, der v0 (tq v0 v1 q p dx dy) (tq v0 v1 q p (S dx) dy) /\ der v1 (tq v0 v1 q p dx dy) (tq v0 v1 q p dx (S dy)).
Proof.
  pose proof N10 as N10.
  assert (H0 : forall dx dy, der v0 (tq v0 v1 0 p dx dy) (tq v0 v1 0 p (S dx) dy) /\ der v1 (tq v0 v1 0 p dx dy) (tq v0 v1 0 p dx (S dy)))
    by exact (tp_der p).
  induction q as [| |q IH1 IH2] using two_step; intros dx dy; [apply H0| |].
  - destruct (jrc (2 * p + 1) 0) as [[a b] c] eqn:Ej. split.
    + eapply der_ext; [intros v; symmetry; apply tq_S|]. rewrite Ej. cbv iota zeta. 
      eapply der_eq; [der_sum ltac:(exact (proj1 (H0 _ _)))|]. intros v. cbv beta. rewrite tq_S, Ej. cbv iota zeta. 
      guards dx.
    + eapply der_ext; [intros v; symmetry; apply tq_S|]. rewrite Ej. cbv iota zeta. 
      eapply der_eq; [der_sum ltac:(exact (proj2 (H0 _ _)))|]. intros v. cbv beta. rewrite tq_S, Ej. cbv iota zeta. 
      guards dy.
  - destruct (jrc (2 * p + 1) (S q)) as [[a b] c] eqn:Ej. split.
    + eapply der_ext; [intros v; symmetry; apply tq_S|]. rewrite Ej. cbv iota zeta.
      eapply der_eq; [der_sum ltac:(first [exact (proj1 (IH1 _ _))|exact (proj1 (IH2 _ _))])|]. intros v. cbv beta. rewrite (tq_S v0 v1 (S q)), Ej. cbv iota zeta.
      guards dx.
    + eapply der_ext; [intros v; symmetry; apply tq_S|]. rewrite Ej. cbv iota zeta.
      eapply der_eq; [der_sum ltac:(first [exact (proj2 (IH1 _ _))|exact (proj2 (IH2 _ _))])|]. intros v. cbv beta. rewrite (tq_S v0 v1 (S q)), Ej. cbv iota zeta.
      guards dy.
Qed.
End Triangle.

Definition key_triangle (m : list nat) : nat * nat :=
  match m with [dx; dy; p; q] => (index2 dx dy, index2 q p) | _ => (0, 0)%nat end.
Ltac nest_in := repeat (rewrite in_nest).

Lemma triangle_table order derivs v0 v1 : exists t, orthogonal_basis_triangle order derivs [v0; v1] = Ok t /\
  shape ((derivs + 1) * (derivs + 2) / 2) ((order + 1) * (order + 2) / 2) t /\
  forall dx dy p q, (dx + dy <= derivs)%nat -> (q + p <= order)%nat -> entry t (index2 dx dy, index2 q p) (tq v0 v1 q p dx dy).
Proof.
  set (ms := nest (range (derivs + 1)) (fun dx => nest (range (derivs + 1 - dx)) (fun dy =>
             nest (range (order + 1)) (fun p => map (fun q => [q]) (range (order - p + 1)))))).
  set (step := fun (m : list nat) => match m with [dx; dy; p; q] =>
        if is0 q then triangle_p v0 v1 dx dy p else triangle_q v1 dx dy p q | _ => fun t => Ok t end).
  assert (Hin : forall m, In m ms <-> exists dx dy p q, m = [dx; dy; p; q] /\ (dx + dy <= derivs)%nat /\ (q + p <= order)%nat).
  { intros m. unfold ms. split.
    - rewrite in_nest. intros (dx & m1 & -> & H1 & Hm). rewrite in_nest in Hm. destruct Hm as (dy & m2 & -> & H2 & Hm).
      rewrite in_nest in Hm. destruct Hm as (p & m3 & -> & H3 & Hm). apply in_map_iff in Hm. destruct Hm as (q & <- & H4).
      apply in_range in H1, H2, H3, H4. exists dx, dy, p, q. split; [reflexivity|lia].
    - intros (dx & dy & p & q & -> & Hd & Hi). apply in_nest. exists dx, [dy; p; q]. split; [reflexivity|]. split; [apply in_range; lia|].
      apply in_nest. exists dy, [p; q]. split; [reflexivity|]. split; [apply in_range; lia|].
      apply in_nest. exists p, [q]. split; [reflexivity|]. split; [apply in_range; lia|]. apply in_map_iff. exists q. split; [reflexivity|apply in_range; lia]. }
  destruct (fill lexlt step key_triangle (fun m => match m with [dx; dy; p; q] => tq v0 v1 q p dx dy | _ => fun _ => 0 end)
    ((derivs + 1) * (derivs + 2) / 2) ((order + 1) * (order + 2) / 2) ms (zeros ((derivs + 1) * (derivs + 2) / 2) ((order + 1) * (order + 2) / 2)))
    as (t & E & Sh & K & H).
  - repeat (apply sorted_nest; [apply sorted_seq|intros ? _]). apply sorted_leaf, sorted_seq.
  - apply lexlt_irrefl.
  - intros a b. apply lexlt_asym.
  - intros a b Ha Hb Ek. apply Hin in Ha. apply Hin in Hb. destruct Ha as (dx & dy & p & q & -> & _). destruct Hb as (dx' & dy' & p' & q' & -> & _).
    cbn [key_triangle] in Ek. injection Ek as E1 E2. apply index2_inj in E1, E2. destruct E1 as [-> ->], E2 as [-> ->]. reflexivity.
  - intros m Hm. apply Hin in Hm. destruct Hm as (dx & dy & p & q & -> & Hd & Hi). cbn [key_triangle fst snd]. split; apply index2_lt; assumption.
  - apply zeros_shape.
  - intros m t Hm Sh K H. apply Hin in Hm. destruct Hm as (dx & dy & p & q & -> & Hd & Hi).
    assert (Rd : forall dx' dy' p' q', (dx' + dy' <= derivs)%nat -> (q' + p' <= order)%nat -> lexlt [dx'; dy'; p'; q'] [dx; dy; p; q] ->
       exists f, tget t (index2 dx' dy') (index2 q' p') = Ok f /\ forall v, f v = tq v0 v1 q' p' dx' dy' v).
    { intros dx' dy' p' q' Hd' Hi' Lt. apply (H [dx'; dy'; p'; q']); [|exact Lt]. apply Hin. exists dx', dy', p', q'. auto. }
    clear H K. unfold step, key_triangle. cbn [fst snd]. destruct q as [|q1]; cbn [is0 Nat.eqb].
    + unfold triangle_p. destruct p as [|p1]; cbn [is0 Nat.eqb].
      * eexists. split; [reflexivity|]. intros v. reflexivity.
      * cbv zeta. match goal with |- context [assign ?d ?i ?l ?t] =>
          destruct (assign_spec d i l t [tp v0 v1 p1 dx dy; tp v0 v1 p1 dx (dy - 1); tp v0 v1 p1 (dx - 1) dy;
            tp v0 v1 (S p1 - 2) dx dy; tp v0 v1 (S p1 - 2) dx (dy - 1); tp v0 v1 (S p1 - 2) dx (dy - 2)]) as (f & Ef & Hf) end.
        -- replace (S p1 - 1)%nat with p1 by lia.
           constructor; [|constructor; [|constructor; [|constructor; [|constructor; [|constructor; [|constructor]]]]]]; cbn [guard t_d t_i]; intros Gd;
             repeat match goal with G : (_ && _)%bool = true |- _ => apply andb_prop in G; destruct G end;
             repeat match goal with G : (_ <? _)%nat = true |- _ => apply Nat.ltb_lt in G end;
             (match goal with |- exists f, tget t (index2 ?a ?b) (index2 0 ?c) = _ /\ _ => apply (Rd a b c 0%nat) end; [lia|lia|cbn [lexlt]; lia]).
        -- exists f. split; [exact Ef|]. intros v. rewrite Hf. cbn [combine map fold_right fst snd guard t_c tq]. rewrite tp_S. cbv zeta.
           destruct p1 as [|p2]; destruct dx as [|dx]; destruct dy as [|[|dy]]; cbn [Nat.ltb Nat.leb andb Nat.sub]; rewrite ?Nat.sub_0_r; change (INR 0) with 0; ring.
    + unfold triangle_q. replace (S q1 - 1)%nat with q1 by lia. destruct (jrc (2 * p + 1) q1) as [[a b] c] eqn:Ej.
      match goal with |- context [assign ?d ?i ?l ?t] =>
          destruct (assign_spec d i l t [tq v0 v1 q1 p dx dy; tq v0 v1 (S q1 - 2) p dx dy; tq v0 v1 q1 p dx (dy - 1)]) as (f & Ef & Hf) end.
      -- constructor; [|constructor; [|constructor; [|constructor]]]; cbn [guard t_d t_i]; intros Gd;
             repeat match goal with G : (_ <? _)%nat = true |- _ => apply Nat.ltb_lt in G end;
             (match goal with |- exists f, tget t (index2 ?a ?b) (index2 ?d ?c) = _ /\ _ => apply (Rd a b c d) end; [lia|lia|cbn [lexlt]; lia]).
      -- exists f. split; [exact Ef|]. intros v. rewrite Hf. cbn [combine map fold_right fst snd guard t_c]. rewrite tq_S, Ej.
         destruct q1 as [|q2]; destruct dy as [|dy]; cbn [Nat.ltb Nat.leb andb Nat.sub]; rewrite ?Nat.sub_0_r; change (INR 0) with 0; ring.
  - exists t. split; [|split; [exact Sh|]].
    + unfold orthogonal_basis_triangle. rewrite <- E. unfold ms. rewrite for_in_nest. apply for_in_ext. intros dx s1 _.
      rewrite for_in_nest. apply for_in_ext. intros dy s2 _. rewrite for_in_nest. apply for_in_ext. intros p s3 _.
      rewrite for_in_map. rewrite for_in_peel. reflexivity.
    + intros dx dy p q Hd Hi. apply (H [dx; dy; p; q]). apply Hin. exists dx, dy, p, q. auto.
Qed.
