(** Proofs about quadrature rules. *)
From Coquelicot Require Import Coquelicot.
From Coq Require Import String ZArith Reals Lia Lra Sorted List.
From Verif Require Import Base QuadratureModel.
Import ListNotations.
Open Scope R_scope.

(** * Specification *)
(** c0 + c1 x + c2 x^2 + ... *)
Fixpoint peval (c : list R) (x : R) : R := match c with [] => 0 | a :: c' => a + x * peval c' x end.
(** weighted sum of the rule *)
Definition rule_sum (r : rule) (f : R -> R) : R :=
  fold_right (fun xw acc => snd xw * f (fst xw) + acc) 0 (combine (fst r) (snd r)).
(** the rule integrates every polynomial of degree at most d over [0,1] exactly *)
Definition exact_to (r : rule) (d : nat) : Prop :=
  forall c, (length c <= S d)%nat -> is_RInt (peval c) 0 1 (rule_sum r (peval c)).
(** strictly increasing points of [0,1], positive weights, one weight per point *)
Definition proper (r : rule) : Prop :=
  length (fst r) = length (snd r) /\ StronglySorted Rlt (fst r) /\ Forall (fun x => 0 <= x <= 1) (fst r)
  /\ Forall (fun w => 0 < w) (snd r).

(** * From moments to polynomials *)
Lemma rule_sum_plus r f g : rule_sum r (fun x => f x + g x) = rule_sum r f + rule_sum r g.
Proof.
  unfold rule_sum. generalize (combine (fst r) (snd r)). intros l.
  induction l as [|xw l IH]; simpl; [ring|]. rewrite IH. ring.
Qed.
Lemma rule_sum_scal r a f : rule_sum r (fun x => a * f x) = a * rule_sum r f.
Proof.
  unfold rule_sum. generalize (combine (fst r) (snd r)). intros l.
  induction l as [|xw l IH]; simpl; [ring|]. rewrite IH. ring.
Qed.
Lemma rule_sum_ext r f g : (forall x, f x = g x) -> rule_sum r f = rule_sum r g.
Proof.
  intros H. unfold rule_sum. generalize (combine (fst r) (snd r)). intros l.
  induction l as [|xw l IH]; simpl; [reflexivity|]. rewrite IH, H. reflexivity.
Qed.

Lemma is_RInt_monomial k : is_RInt (fun x => x ^ k) 0 1 (1 / INR (S k)).
Proof.
  assert (Hne : INR (S k) <> 0) by (apply not_0_INR; discriminate).
  evar_last.
  - apply (is_RInt_derive (fun x => x ^ S k / INR (S k)) (fun x => x ^ k)).
    + intros x _. auto_derive; [exact I|]. replace (match k with O => 1 | S _ => INR k + 1 end) with (INR (S k)) by (destruct k; reflexivity).
      simpl pred. field. exact Hne.
    + intros x _. apply (@ex_derive_continuous R_AbsRing R_NormedModule). auto_derive. exact I.
  - unfold minus, plus, opp; simpl. rewrite Rmult_0_l, pow1. field. destruct k; [simpl; lra|exact Hne].
Qed.

Lemma exact_of_moments r d : (forall k, (k <= d)%nat -> rule_sum r (fun x => x ^ k) = 1 / INR (S k)) -> exact_to r d.
Proof.
  intros H c Hc.
  assert (G : forall k, (k + length c <= S d)%nat -> is_RInt (fun x => x ^ k * peval c x) 0 1 (rule_sum r (fun x => x ^ k * peval c x))).
  { clear Hc. induction c as [|a c IH]; intros k Hk.
    - apply (is_RInt_ext (fun _ => 0)); [intros; simpl; ring|].
      rewrite (rule_sum_ext r _ (fun x => 0 * x)) by (intros; simpl; ring). rewrite rule_sum_scal.
      evar_last; [apply (@is_RInt_const R_NormedModule)|]. unfold scal; simpl. unfold mult; simpl. ring.
    - apply (is_RInt_ext (fun x => plus (scal a (x ^ k)) (x ^ S k * peval c x))).
      { intros x _. unfold plus, scal; simpl. unfold mult; simpl. ring. }
      rewrite (rule_sum_ext r _ (fun x => a * x ^ k + x ^ S k * peval c x)) by (intros; simpl; ring).
      rewrite rule_sum_plus, rule_sum_scal. simpl in Hk.
      apply (@is_RInt_plus R_NormedModule); [|apply IH; lia].
      apply (@is_RInt_scal R_NormedModule). rewrite H by lia. apply is_RInt_monomial. }
  apply (is_RInt_ext (fun x => x ^ 0 * peval c x)); [intros; simpl; ring|].
  rewrite (rule_sum_ext r _ (fun x => x ^ 0 * peval c x)) by (intros; simpl; ring). apply G. lia.
Qed.

(** * Power sums of the symmetric point pairs *)
Lemma ps4 (t x y : R) : t * t = (1) -> x + y = 1 -> x * y = (1/5) + (0) * t ->
  x ^ 0 + y ^ 0 = (2) + (0) * t /\
  x ^ 1 + y ^ 1 = (1) + (0) * t /\
  x ^ 2 + y ^ 2 = (3/5) + (0) * t /\
  x ^ 3 + y ^ 3 = (2/5) + (0) * t /\
  x ^ 4 + y ^ 4 = (7/25) + (0) * t /\
  x ^ 5 + y ^ 5 = (1/5) + (0) * t.
Proof.
  intros Ht Hs Hp.
  assert (S0 : x ^ 0 + y ^ 0 = (2) + (0) * t) by (simpl; field).
  assert (S1 : x ^ 1 + y ^ 1 = (1) + (0) * t) by (simpl; lra).
  assert (S2 : x ^ 2 + y ^ 2 = (3/5) + (0) * t).
  { transitivity ((x + y) * (x ^ 1 + y ^ 1) - (x * y) * (x ^ 0 + y ^ 0)); [ring|]. rewrite Hs, Hp, S1, S0.
    transitivity ((3/5) + (0) * t - (0) * (t * t - (1))); [field|rewrite Ht; field]. }
  assert (S3 : x ^ 3 + y ^ 3 = (2/5) + (0) * t).
  { transitivity ((x + y) * (x ^ 2 + y ^ 2) - (x * y) * (x ^ 1 + y ^ 1)); [ring|]. rewrite Hs, Hp, S2, S1.
    transitivity ((2/5) + (0) * t - (0) * (t * t - (1))); [field|rewrite Ht; field]. }
  assert (S4 : x ^ 4 + y ^ 4 = (7/25) + (0) * t).
  { transitivity ((x + y) * (x ^ 3 + y ^ 3) - (x * y) * (x ^ 2 + y ^ 2)); [ring|]. rewrite Hs, Hp, S3, S2.
    transitivity ((7/25) + (0) * t - (0) * (t * t - (1))); [field|rewrite Ht; field]. }
  assert (S5 : x ^ 5 + y ^ 5 = (1/5) + (0) * t).
  { transitivity ((x + y) * (x ^ 4 + y ^ 4) - (x * y) * (x ^ 3 + y ^ 3)); [ring|]. rewrite Hs, Hp, S4, S3.
    transitivity ((1/5) + (0) * t - (0) * (t * t - (1))); [field|rewrite Ht; field]. }
  split; [exact S0|]. split; [exact S1|]. split; [exact S2|]. split; [exact S3|]. split; [exact S4|]. exact S5.
Qed.

Lemma ps5 (t x y : R) : t * t = (1) -> x + y = 1 -> x * y = (1/7) + (0) * t ->
  x ^ 0 + y ^ 0 = (2) + (0) * t /\
  x ^ 1 + y ^ 1 = (1) + (0) * t /\
  x ^ 2 + y ^ 2 = (5/7) + (0) * t /\
  x ^ 3 + y ^ 3 = (4/7) + (0) * t /\
  x ^ 4 + y ^ 4 = (23/49) + (0) * t /\
  x ^ 5 + y ^ 5 = (19/49) + (0) * t /\
  x ^ 6 + y ^ 6 = (110/343) + (0) * t /\
  x ^ 7 + y ^ 7 = (13/49) + (0) * t.
Proof.
  intros Ht Hs Hp.
  assert (S0 : x ^ 0 + y ^ 0 = (2) + (0) * t) by (simpl; field).
  assert (S1 : x ^ 1 + y ^ 1 = (1) + (0) * t) by (simpl; lra).
  assert (S2 : x ^ 2 + y ^ 2 = (5/7) + (0) * t).
  { transitivity ((x + y) * (x ^ 1 + y ^ 1) - (x * y) * (x ^ 0 + y ^ 0)); [ring|]. rewrite Hs, Hp, S1, S0.
    transitivity ((5/7) + (0) * t - (0) * (t * t - (1))); [field|rewrite Ht; field]. }
  assert (S3 : x ^ 3 + y ^ 3 = (4/7) + (0) * t).
  { transitivity ((x + y) * (x ^ 2 + y ^ 2) - (x * y) * (x ^ 1 + y ^ 1)); [ring|]. rewrite Hs, Hp, S2, S1.
    transitivity ((4/7) + (0) * t - (0) * (t * t - (1))); [field|rewrite Ht; field]. }
  assert (S4 : x ^ 4 + y ^ 4 = (23/49) + (0) * t).
  { transitivity ((x + y) * (x ^ 3 + y ^ 3) - (x * y) * (x ^ 2 + y ^ 2)); [ring|]. rewrite Hs, Hp, S3, S2.
    transitivity ((23/49) + (0) * t - (0) * (t * t - (1))); [field|rewrite Ht; field]. }
  assert (S5 : x ^ 5 + y ^ 5 = (19/49) + (0) * t).
  { transitivity ((x + y) * (x ^ 4 + y ^ 4) - (x * y) * (x ^ 3 + y ^ 3)); [ring|]. rewrite Hs, Hp, S4, S3.
    transitivity ((19/49) + (0) * t - (0) * (t * t - (1))); [field|rewrite Ht; field]. }
  assert (S6 : x ^ 6 + y ^ 6 = (110/343) + (0) * t).
  { transitivity ((x + y) * (x ^ 5 + y ^ 5) - (x * y) * (x ^ 4 + y ^ 4)); [ring|]. rewrite Hs, Hp, S5, S4.
    transitivity ((110/343) + (0) * t - (0) * (t * t - (1))); [field|rewrite Ht; field]. }
  assert (S7 : x ^ 7 + y ^ 7 = (13/49) + (0) * t).
  { transitivity ((x + y) * (x ^ 6 + y ^ 6) - (x * y) * (x ^ 5 + y ^ 5)); [ring|]. rewrite Hs, Hp, S6, S5.
    transitivity ((13/49) + (0) * t - (0) * (t * t - (1))); [field|rewrite Ht; field]. }
  split; [exact S0|]. split; [exact S1|]. split; [exact S2|]. split; [exact S3|]. split; [exact S4|]. split; [exact S5|]. split; [exact S6|]. exact S7.
Qed.

Lemma ps6a (t x y : R) : t * t = (7) -> x + y = 1 -> x * y = (1/6) + (-1/42) * t ->
  x ^ 0 + y ^ 0 = (2) + (0) * t /\
  x ^ 1 + y ^ 1 = (1) + (0) * t /\
  x ^ 2 + y ^ 2 = (2/3) + (1/21) * t /\
  x ^ 3 + y ^ 3 = (1/2) + (1/14) * t /\
  x ^ 4 + y ^ 4 = (25/63) + (5/63) * t /\
  x ^ 5 + y ^ 5 = (41/126) + (5/63) * t /\
  x ^ 6 + y ^ 6 = (103/378) + (100/1323) * t /\
  x ^ 7 + y ^ 7 = (25/108) + (53/756) * t /\
  x ^ 8 + y ^ 8 = (1577/7938) + (254/3969) * t /\
  x ^ 9 + y ^ 9 = (101/588) + (17/294) * t.
Proof.
  intros Ht Hs Hp.
  assert (S0 : x ^ 0 + y ^ 0 = (2) + (0) * t) by (simpl; field).
  assert (S1 : x ^ 1 + y ^ 1 = (1) + (0) * t) by (simpl; lra).
  assert (S2 : x ^ 2 + y ^ 2 = (2/3) + (1/21) * t).
  { transitivity ((x + y) * (x ^ 1 + y ^ 1) - (x * y) * (x ^ 0 + y ^ 0)); [ring|]. rewrite Hs, Hp, S1, S0.
    transitivity ((2/3) + (1/21) * t - (0) * (t * t - (7))); [field|rewrite Ht; field]. }
  assert (S3 : x ^ 3 + y ^ 3 = (1/2) + (1/14) * t).
  { transitivity ((x + y) * (x ^ 2 + y ^ 2) - (x * y) * (x ^ 1 + y ^ 1)); [ring|]. rewrite Hs, Hp, S2, S1.
    transitivity ((1/2) + (1/14) * t - (0) * (t * t - (7))); [field|rewrite Ht; field]. }
  assert (S4 : x ^ 4 + y ^ 4 = (25/63) + (5/63) * t).
  { transitivity ((x + y) * (x ^ 3 + y ^ 3) - (x * y) * (x ^ 2 + y ^ 2)); [ring|]. rewrite Hs, Hp, S3, S2.
    transitivity ((25/63) + (5/63) * t - (-1/882) * (t * t - (7))); [field|rewrite Ht; field]. }
  assert (S5 : x ^ 5 + y ^ 5 = (41/126) + (5/63) * t).
  { transitivity ((x + y) * (x ^ 4 + y ^ 4) - (x * y) * (x ^ 3 + y ^ 3)); [ring|]. rewrite Hs, Hp, S4, S3.
    transitivity ((41/126) + (5/63) * t - (-1/588) * (t * t - (7))); [field|rewrite Ht; field]. }
  assert (S6 : x ^ 6 + y ^ 6 = (103/378) + (100/1323) * t).
  { transitivity ((x + y) * (x ^ 5 + y ^ 5) - (x * y) * (x ^ 4 + y ^ 4)); [ring|]. rewrite Hs, Hp, S5, S4.
    transitivity ((103/378) + (100/1323) * t - (-5/2646) * (t * t - (7))); [field|rewrite Ht; field]. }
  assert (S7 : x ^ 7 + y ^ 7 = (25/108) + (53/756) * t).
  { transitivity ((x + y) * (x ^ 6 + y ^ 6) - (x * y) * (x ^ 5 + y ^ 5)); [ring|]. rewrite Hs, Hp, S6, S5.
    transitivity ((25/108) + (53/756) * t - (-5/2646) * (t * t - (7))); [field|rewrite Ht; field]. }
  assert (S8 : x ^ 8 + y ^ 8 = (1577/7938) + (254/3969) * t).
  { transitivity ((x + y) * (x ^ 7 + y ^ 7) - (x * y) * (x ^ 6 + y ^ 6)); [ring|]. rewrite Hs, Hp, S7, S6.
    transitivity ((1577/7938) + (254/3969) * t - (-50/27783) * (t * t - (7))); [field|rewrite Ht; field]. }
  assert (S9 : x ^ 9 + y ^ 9 = (101/588) + (17/294) * t).
  { transitivity ((x + y) * (x ^ 8 + y ^ 8) - (x * y) * (x ^ 7 + y ^ 7)); [ring|]. rewrite Hs, Hp, S8, S7.
    transitivity ((101/588) + (17/294) * t - (-53/31752) * (t * t - (7))); [field|rewrite Ht; field]. }
  split; [exact S0|]. split; [exact S1|]. split; [exact S2|]. split; [exact S3|]. split; [exact S4|]. split; [exact S5|]. split; [exact S6|]. split; [exact S7|]. split; [exact S8|]. exact S9.
Qed.

Lemma ps6b (t x y : R) : t * t = (7) -> x + y = 1 -> x * y = (1/6) + (1/42) * t ->
  x ^ 0 + y ^ 0 = (2) + (0) * t /\
  x ^ 1 + y ^ 1 = (1) + (0) * t /\
  x ^ 2 + y ^ 2 = (2/3) + (-1/21) * t /\
  x ^ 3 + y ^ 3 = (1/2) + (-1/14) * t /\
  x ^ 4 + y ^ 4 = (25/63) + (-5/63) * t /\
  x ^ 5 + y ^ 5 = (41/126) + (-5/63) * t /\
  x ^ 6 + y ^ 6 = (103/378) + (-100/1323) * t /\
  x ^ 7 + y ^ 7 = (25/108) + (-53/756) * t /\
  x ^ 8 + y ^ 8 = (1577/7938) + (-254/3969) * t /\
  x ^ 9 + y ^ 9 = (101/588) + (-17/294) * t.
Proof.
  intros Ht Hs Hp.
  assert (S0 : x ^ 0 + y ^ 0 = (2) + (0) * t) by (simpl; field).
  assert (S1 : x ^ 1 + y ^ 1 = (1) + (0) * t) by (simpl; lra).
  assert (S2 : x ^ 2 + y ^ 2 = (2/3) + (-1/21) * t).
  { transitivity ((x + y) * (x ^ 1 + y ^ 1) - (x * y) * (x ^ 0 + y ^ 0)); [ring|]. rewrite Hs, Hp, S1, S0.
    transitivity ((2/3) + (-1/21) * t - (0) * (t * t - (7))); [field|rewrite Ht; field]. }
  assert (S3 : x ^ 3 + y ^ 3 = (1/2) + (-1/14) * t).
  { transitivity ((x + y) * (x ^ 2 + y ^ 2) - (x * y) * (x ^ 1 + y ^ 1)); [ring|]. rewrite Hs, Hp, S2, S1.
    transitivity ((1/2) + (-1/14) * t - (0) * (t * t - (7))); [field|rewrite Ht; field]. }
  assert (S4 : x ^ 4 + y ^ 4 = (25/63) + (-5/63) * t).
  { transitivity ((x + y) * (x ^ 3 + y ^ 3) - (x * y) * (x ^ 2 + y ^ 2)); [ring|]. rewrite Hs, Hp, S3, S2.
    transitivity ((25/63) + (-5/63) * t - (-1/882) * (t * t - (7))); [field|rewrite Ht; field]. }
  assert (S5 : x ^ 5 + y ^ 5 = (41/126) + (-5/63) * t).
  { transitivity ((x + y) * (x ^ 4 + y ^ 4) - (x * y) * (x ^ 3 + y ^ 3)); [ring|]. rewrite Hs, Hp, S4, S3.
    transitivity ((41/126) + (-5/63) * t - (-1/588) * (t * t - (7))); [field|rewrite Ht; field]. }
  assert (S6 : x ^ 6 + y ^ 6 = (103/378) + (-100/1323) * t).
  { transitivity ((x + y) * (x ^ 5 + y ^ 5) - (x * y) * (x ^ 4 + y ^ 4)); [ring|]. rewrite Hs, Hp, S5, S4.
    transitivity ((103/378) + (-100/1323) * t - (-5/2646) * (t * t - (7))); [field|rewrite Ht; field]. }
  assert (S7 : x ^ 7 + y ^ 7 = (25/108) + (-53/756) * t).
  { transitivity ((x + y) * (x ^ 6 + y ^ 6) - (x * y) * (x ^ 5 + y ^ 5)); [ring|]. rewrite Hs, Hp, S6, S5.
    transitivity ((25/108) + (-53/756) * t - (-5/2646) * (t * t - (7))); [field|rewrite Ht; field]. }
  assert (S8 : x ^ 8 + y ^ 8 = (1577/7938) + (-254/3969) * t).
  { transitivity ((x + y) * (x ^ 7 + y ^ 7) - (x * y) * (x ^ 6 + y ^ 6)); [ring|]. rewrite Hs, Hp, S7, S6.
    transitivity ((1577/7938) + (-254/3969) * t - (-50/27783) * (t * t - (7))); [field|rewrite Ht; field]. }
  assert (S9 : x ^ 9 + y ^ 9 = (101/588) + (-17/294) * t).
  { transitivity ((x + y) * (x ^ 8 + y ^ 8) - (x * y) * (x ^ 7 + y ^ 7)); [ring|]. rewrite Hs, Hp, S8, S7.
    transitivity ((101/588) + (-17/294) * t - (-53/31752) * (t * t - (7))); [field|rewrite Ht; field]. }
  split; [exact S0|]. split; [exact S1|]. split; [exact S2|]. split; [exact S3|]. split; [exact S4|]. split; [exact S5|]. split; [exact S6|]. split; [exact S7|]. split; [exact S8|]. exact S9.
Qed.

Lemma ps7a (t x y : R) : t * t = (5/3) -> x + y = 1 -> x * y = (3/22) + (-1/22) * t ->
  x ^ 0 + y ^ 0 = (2) + (0) * t /\
  x ^ 1 + y ^ 1 = (1) + (0) * t /\
  x ^ 2 + y ^ 2 = (8/11) + (1/11) * t /\
  x ^ 3 + y ^ 3 = (13/22) + (3/22) * t /\
  x ^ 4 + y ^ 4 = (181/363) + (19/121) * t /\
  x ^ 5 + y ^ 5 = (311/726) + (20/121) * t /\
  x ^ 6 + y ^ 6 = (991/2662) + (665/3993) * t /\
  x ^ 7 + y ^ 7 = (5213/15972) + (2611/15972) * t /\
  x ^ 8 + y ^ 8 = (75961/263538) + (6926/43923) * t /\
  x ^ 9 + y ^ 9 = (14999/58564) + (4399/29282) * t /\
  x ^ 10 + y ^ 10 = (663139/2898918) + (822295/5797836) * t /\
  x ^ 11 + y ^ 11 = (216323/1054152) + (140185/1054152) * t.
Proof.
  intros Ht Hs Hp.
  assert (S0 : x ^ 0 + y ^ 0 = (2) + (0) * t) by (simpl; field).
  assert (S1 : x ^ 1 + y ^ 1 = (1) + (0) * t) by (simpl; lra).
  assert (S2 : x ^ 2 + y ^ 2 = (8/11) + (1/11) * t).
  { transitivity ((x + y) * (x ^ 1 + y ^ 1) - (x * y) * (x ^ 0 + y ^ 0)); [ring|]. rewrite Hs, Hp, S1, S0.
    transitivity ((8/11) + (1/11) * t - (0) * (t * t - (5/3))); [field|rewrite Ht; field]. }
  assert (S3 : x ^ 3 + y ^ 3 = (13/22) + (3/22) * t).
  { transitivity ((x + y) * (x ^ 2 + y ^ 2) - (x * y) * (x ^ 1 + y ^ 1)); [ring|]. rewrite Hs, Hp, S2, S1.
    transitivity ((13/22) + (3/22) * t - (0) * (t * t - (5/3))); [field|rewrite Ht; field]. }
  assert (S4 : x ^ 4 + y ^ 4 = (181/363) + (19/121) * t).
  { transitivity ((x + y) * (x ^ 3 + y ^ 3) - (x * y) * (x ^ 2 + y ^ 2)); [ring|]. rewrite Hs, Hp, S3, S2.
    transitivity ((181/363) + (19/121) * t - (-1/242) * (t * t - (5/3))); [field|rewrite Ht; field]. }
  assert (S5 : x ^ 5 + y ^ 5 = (311/726) + (20/121) * t).
  { transitivity ((x + y) * (x ^ 4 + y ^ 4) - (x * y) * (x ^ 3 + y ^ 3)); [ring|]. rewrite Hs, Hp, S4, S3.
    transitivity ((311/726) + (20/121) * t - (-3/484) * (t * t - (5/3))); [field|rewrite Ht; field]. }
  assert (S6 : x ^ 6 + y ^ 6 = (991/2662) + (665/3993) * t).
  { transitivity ((x + y) * (x ^ 5 + y ^ 5) - (x * y) * (x ^ 4 + y ^ 4)); [ring|]. rewrite Hs, Hp, S5, S4.
    transitivity ((991/2662) + (665/3993) * t - (-19/2662) * (t * t - (5/3))); [field|rewrite Ht; field]. }
  assert (S7 : x ^ 7 + y ^ 7 = (5213/15972) + (2611/15972) * t).
  { transitivity ((x + y) * (x ^ 6 + y ^ 6) - (x * y) * (x ^ 5 + y ^ 5)); [ring|]. rewrite Hs, Hp, S6, S5.
    transitivity ((5213/15972) + (2611/15972) * t - (-10/1331) * (t * t - (5/3))); [field|rewrite Ht; field]. }
  assert (S8 : x ^ 8 + y ^ 8 = (75961/263538) + (6926/43923) * t).
  { transitivity ((x + y) * (x ^ 7 + y ^ 7) - (x * y) * (x ^ 6 + y ^ 6)); [ring|]. rewrite Hs, Hp, S7, S6.
    transitivity ((75961/263538) + (6926/43923) * t - (-665/87846) * (t * t - (5/3))); [field|rewrite Ht; field]. }
  assert (S9 : x ^ 9 + y ^ 9 = (14999/58564) + (4399/29282) * t).
  { transitivity ((x + y) * (x ^ 8 + y ^ 8) - (x * y) * (x ^ 7 + y ^ 7)); [ring|]. rewrite Hs, Hp, S8, S7.
    transitivity ((14999/58564) + (4399/29282) * t - (-2611/351384) * (t * t - (5/3))); [field|rewrite Ht; field]. }
  assert (S10 : x ^ 10 + y ^ 10 = (663139/2898918) + (822295/5797836) * t).
  { transitivity ((x + y) * (x ^ 9 + y ^ 9) - (x * y) * (x ^ 8 + y ^ 8)); [ring|]. rewrite Hs, Hp, S9, S8.
    transitivity ((663139/2898918) + (822295/5797836) * t - (-3463/483153) * (t * t - (5/3))); [field|rewrite Ht; field]. }
  assert (S11 : x ^ 11 + y ^ 11 = (216323/1054152) + (140185/1054152) * t).
  { transitivity ((x + y) * (x ^ 10 + y ^ 10) - (x * y) * (x ^ 9 + y ^ 9)); [ring|]. rewrite Hs, Hp, S10, S9.
    transitivity ((216323/1054152) + (140185/1054152) * t - (-4399/644204) * (t * t - (5/3))); [field|rewrite Ht; field]. }
  split; [exact S0|]. split; [exact S1|]. split; [exact S2|]. split; [exact S3|]. split; [exact S4|]. split; [exact S5|]. split; [exact S6|]. split; [exact S7|]. split; [exact S8|]. split; [exact S9|]. split; [exact S10|]. exact S11.
Qed.

Lemma ps7b (t x y : R) : t * t = (5/3) -> x + y = 1 -> x * y = (3/22) + (1/22) * t ->
  x ^ 0 + y ^ 0 = (2) + (0) * t /\
  x ^ 1 + y ^ 1 = (1) + (0) * t /\
  x ^ 2 + y ^ 2 = (8/11) + (-1/11) * t /\
  x ^ 3 + y ^ 3 = (13/22) + (-3/22) * t /\
  x ^ 4 + y ^ 4 = (181/363) + (-19/121) * t /\
  x ^ 5 + y ^ 5 = (311/726) + (-20/121) * t /\
  x ^ 6 + y ^ 6 = (991/2662) + (-665/3993) * t /\
  x ^ 7 + y ^ 7 = (5213/15972) + (-2611/15972) * t /\
  x ^ 8 + y ^ 8 = (75961/263538) + (-6926/43923) * t /\
  x ^ 9 + y ^ 9 = (14999/58564) + (-4399/29282) * t /\
  x ^ 10 + y ^ 10 = (663139/2898918) + (-822295/5797836) * t /\
  x ^ 11 + y ^ 11 = (216323/1054152) + (-140185/1054152) * t.
Proof.
  intros Ht Hs Hp.
  assert (S0 : x ^ 0 + y ^ 0 = (2) + (0) * t) by (simpl; field).
  assert (S1 : x ^ 1 + y ^ 1 = (1) + (0) * t) by (simpl; lra).
  assert (S2 : x ^ 2 + y ^ 2 = (8/11) + (-1/11) * t).
  { transitivity ((x + y) * (x ^ 1 + y ^ 1) - (x * y) * (x ^ 0 + y ^ 0)); [ring|]. rewrite Hs, Hp, S1, S0.
    transitivity ((8/11) + (-1/11) * t - (0) * (t * t - (5/3))); [field|rewrite Ht; field]. }
  assert (S3 : x ^ 3 + y ^ 3 = (13/22) + (-3/22) * t).
  { transitivity ((x + y) * (x ^ 2 + y ^ 2) - (x * y) * (x ^ 1 + y ^ 1)); [ring|]. rewrite Hs, Hp, S2, S1.
    transitivity ((13/22) + (-3/22) * t - (0) * (t * t - (5/3))); [field|rewrite Ht; field]. }
  assert (S4 : x ^ 4 + y ^ 4 = (181/363) + (-19/121) * t).
  { transitivity ((x + y) * (x ^ 3 + y ^ 3) - (x * y) * (x ^ 2 + y ^ 2)); [ring|]. rewrite Hs, Hp, S3, S2.
    transitivity ((181/363) + (-19/121) * t - (-1/242) * (t * t - (5/3))); [field|rewrite Ht; field]. }
  assert (S5 : x ^ 5 + y ^ 5 = (311/726) + (-20/121) * t).
  { transitivity ((x + y) * (x ^ 4 + y ^ 4) - (x * y) * (x ^ 3 + y ^ 3)); [ring|]. rewrite Hs, Hp, S4, S3.
    transitivity ((311/726) + (-20/121) * t - (-3/484) * (t * t - (5/3))); [field|rewrite Ht; field]. }
  assert (S6 : x ^ 6 + y ^ 6 = (991/2662) + (-665/3993) * t).
  { transitivity ((x + y) * (x ^ 5 + y ^ 5) - (x * y) * (x ^ 4 + y ^ 4)); [ring|]. rewrite Hs, Hp, S5, S4.
    transitivity ((991/2662) + (-665/3993) * t - (-19/2662) * (t * t - (5/3))); [field|rewrite Ht; field]. }
  assert (S7 : x ^ 7 + y ^ 7 = (5213/15972) + (-2611/15972) * t).
  { transitivity ((x + y) * (x ^ 6 + y ^ 6) - (x * y) * (x ^ 5 + y ^ 5)); [ring|]. rewrite Hs, Hp, S6, S5.
    transitivity ((5213/15972) + (-2611/15972) * t - (-10/1331) * (t * t - (5/3))); [field|rewrite Ht; field]. }
  assert (S8 : x ^ 8 + y ^ 8 = (75961/263538) + (-6926/43923) * t).
  { transitivity ((x + y) * (x ^ 7 + y ^ 7) - (x * y) * (x ^ 6 + y ^ 6)); [ring|]. rewrite Hs, Hp, S7, S6.
    transitivity ((75961/263538) + (-6926/43923) * t - (-665/87846) * (t * t - (5/3))); [field|rewrite Ht; field]. }
  assert (S9 : x ^ 9 + y ^ 9 = (14999/58564) + (-4399/29282) * t).
  { transitivity ((x + y) * (x ^ 8 + y ^ 8) - (x * y) * (x ^ 7 + y ^ 7)); [ring|]. rewrite Hs, Hp, S8, S7.
    transitivity ((14999/58564) + (-4399/29282) * t - (-2611/351384) * (t * t - (5/3))); [field|rewrite Ht; field]. }
  assert (S10 : x ^ 10 + y ^ 10 = (663139/2898918) + (-822295/5797836) * t).
  { transitivity ((x + y) * (x ^ 9 + y ^ 9) - (x * y) * (x ^ 8 + y ^ 8)); [ring|]. rewrite Hs, Hp, S9, S8.
    transitivity ((663139/2898918) + (-822295/5797836) * t - (-3463/483153) * (t * t - (5/3))); [field|rewrite Ht; field]. }
  assert (S11 : x ^ 11 + y ^ 11 = (216323/1054152) + (-140185/1054152) * t).
  { transitivity ((x + y) * (x ^ 10 + y ^ 10) - (x * y) * (x ^ 9 + y ^ 9)); [ring|]. rewrite Hs, Hp, S10, S9.
    transitivity ((216323/1054152) + (-140185/1054152) * t - (-4399/644204) * (t * t - (5/3))); [field|rewrite Ht; field]. }
  split; [exact S0|]. split; [exact S1|]. split; [exact S2|]. split; [exact S3|]. split; [exact S4|]. split; [exact S5|]. split; [exact S6|]. split; [exact S7|]. split; [exact S8|]. split; [exact S9|]. split; [exact S10|]. exact S11.
Qed.

Lemma psl2 (t x y : R) : t * t = (1) -> x + y = 1 -> x * y = (1/6) + (0) * t ->
  x ^ 0 + y ^ 0 = (2) + (0) * t /\
  x ^ 1 + y ^ 1 = (1) + (0) * t /\
  x ^ 2 + y ^ 2 = (2/3) + (0) * t /\
  x ^ 3 + y ^ 3 = (1/2) + (0) * t.
Proof.
  intros Ht Hs Hp.
  assert (S0 : x ^ 0 + y ^ 0 = (2) + (0) * t) by (simpl; field).
  assert (S1 : x ^ 1 + y ^ 1 = (1) + (0) * t) by (simpl; lra).
  assert (S2 : x ^ 2 + y ^ 2 = (2/3) + (0) * t).
  { transitivity ((x + y) * (x ^ 1 + y ^ 1) - (x * y) * (x ^ 0 + y ^ 0)); [ring|]. rewrite Hs, Hp, S1, S0.
    transitivity ((2/3) + (0) * t - (0) * (t * t - (1))); [field|rewrite Ht; field]. }
  assert (S3 : x ^ 3 + y ^ 3 = (1/2) + (0) * t).
  { transitivity ((x + y) * (x ^ 2 + y ^ 2) - (x * y) * (x ^ 1 + y ^ 1)); [ring|]. rewrite Hs, Hp, S2, S1.
    transitivity ((1/2) + (0) * t - (0) * (t * t - (1))); [field|rewrite Ht; field]. }
  split; [exact S0|]. split; [exact S1|]. split; [exact S2|]. exact S3.
Qed.

Lemma psl3 (t x y : R) : t * t = (1) -> x + y = 1 -> x * y = (1/10) + (0) * t ->
  x ^ 0 + y ^ 0 = (2) + (0) * t /\
  x ^ 1 + y ^ 1 = (1) + (0) * t /\
  x ^ 2 + y ^ 2 = (4/5) + (0) * t /\
  x ^ 3 + y ^ 3 = (7/10) + (0) * t /\
  x ^ 4 + y ^ 4 = (31/50) + (0) * t /\
  x ^ 5 + y ^ 5 = (11/20) + (0) * t.
Proof.
  intros Ht Hs Hp.
  assert (S0 : x ^ 0 + y ^ 0 = (2) + (0) * t) by (simpl; field).
  assert (S1 : x ^ 1 + y ^ 1 = (1) + (0) * t) by (simpl; lra).
  assert (S2 : x ^ 2 + y ^ 2 = (4/5) + (0) * t).
  { transitivity ((x + y) * (x ^ 1 + y ^ 1) - (x * y) * (x ^ 0 + y ^ 0)); [ring|]. rewrite Hs, Hp, S1, S0.
    transitivity ((4/5) + (0) * t - (0) * (t * t - (1))); [field|rewrite Ht; field]. }
  assert (S3 : x ^ 3 + y ^ 3 = (7/10) + (0) * t).
  { transitivity ((x + y) * (x ^ 2 + y ^ 2) - (x * y) * (x ^ 1 + y ^ 1)); [ring|]. rewrite Hs, Hp, S2, S1.
    transitivity ((7/10) + (0) * t - (0) * (t * t - (1))); [field|rewrite Ht; field]. }
  assert (S4 : x ^ 4 + y ^ 4 = (31/50) + (0) * t).
  { transitivity ((x + y) * (x ^ 3 + y ^ 3) - (x * y) * (x ^ 2 + y ^ 2)); [ring|]. rewrite Hs, Hp, S3, S2.
    transitivity ((31/50) + (0) * t - (0) * (t * t - (1))); [field|rewrite Ht; field]. }
  assert (S5 : x ^ 5 + y ^ 5 = (11/20) + (0) * t).
  { transitivity ((x + y) * (x ^ 4 + y ^ 4) - (x * y) * (x ^ 3 + y ^ 3)); [ring|]. rewrite Hs, Hp, S4, S3.
    transitivity ((11/20) + (0) * t - (0) * (t * t - (1))); [field|rewrite Ht; field]. }
  split; [exact S0|]. split; [exact S1|]. split; [exact S2|]. split; [exact S3|]. split; [exact S4|]. exact S5.
Qed.

Lemma INR_lit n z : Z.of_nat n = z -> INR n = IZR z.
Proof. intros <-. apply INR_IZR_INZ. Qed.
Ltac inr := rewrite (INR_lit _ _ eq_refl); cbn [Z.of_nat Pos.of_succ_nat Pos.succ].
Ltac small_nat k := let rec go := (lia || (destruct k as [|k]; [|go])) in go.

(** * The individual rules *)
Lemma lobatto2 : exact_to ([0; 1], [1/2; 1/2]) 1.
Proof.
  apply exact_of_moments. intros k Hk. do 2 (destruct k as [|k]; [inr; unfold rule_sum; simpl; lra|]). lia.
Qed.
Lemma lobatto3 : exact_to ([0; 1/2; 1], [1/6; 2/3; 1/6]) 3.
Proof.
  apply exact_of_moments. intros k Hk. do 4 (destruct k as [|k]; [inr; unfold rule_sum; simpl; lra|]). lia.
Qed.
Lemma legendre1 : exact_to ([1/2], [1]) 1.
Proof.
  apply exact_of_moments. intros k Hk. do 2 (destruct k as [|k]; [inr; unfold rule_sum; simpl; lra|]). lia.
Qed.
Lemma radau2 : exact_to ([0; 2/3], [1/4; 3/4]) 2.
Proof.
  apply exact_of_moments. intros k Hk. do 3 (destruct k as [|k]; [inr; unfold rule_sum; simpl; lra|]). lia.
Qed.
(** three free points, one of them 0, two conjugate over Q(t) *)
Lemma radau3 t : t * t = 6 -> exact_to ([0; (6 - t) / 10; (6 + t) / 10], [1/9; (16 + t) / 36; (16 - t) / 36]) 4.
Proof.
  intros Ht. apply exact_of_moments. intros k Hk.
  assert (H3 : t * t * t = 6 * t) by (rewrite Ht; ring).
  assert (H4 : t * t * t * t = 36) by (rewrite H3; lra).
  assert (H5 : t * t * t * t * t = 36 * t) by (rewrite H4; ring).
  do 5 (destruct k as [|k]; [inr; unfold rule_sum; simpl; lra|]). lia.
Qed.

(** one symmetric pair x, y with weight w, inner points: either none or 1/2 *)
Lemma pair_sum l1 l2 w x y k : rule_sum ([x; y], [w; w]) (fun z => z ^ k) + l1 + l2 = w * (x ^ k + y ^ k) + l1 + l2.
Proof. unfold rule_sum. cbn [combine fold_right fst snd]. ring. Qed.

Ltac finish H := inr; unfold rule_sum; cbn [combine fold_right fst snd]; simpl in H |- *; lra.

Lemma legendre2 x y : x + y = 1 -> x * y = 1/6 -> exact_to ([x; y], [1/2; 1/2]) 3.
Proof.
  intros Hs Hp. assert (Hp' : x * y = 1/6 + 0 * 1) by lra.
  destruct (psl2 1 x y ltac:(lra) Hs Hp') as (S0 & S1 & S2 & S3).
  apply exact_of_moments. intros k Hk.
  destruct k as [|k]; [finish S0|]. destruct k as [|k]; [finish S1|]. destruct k as [|k]; [finish S2|].
  destruct k as [|k]; [finish S3|]. lia.
Qed.
Lemma legendre3 x y : x + y = 1 -> x * y = 1/10 -> exact_to ([x; 1/2; y], [5/18; 4/9; 5/18]) 5.
Proof.
  intros Hs Hp. assert (Hp' : x * y = 1/10 + 0 * 1) by lra.
  destruct (psl3 1 x y ltac:(lra) Hs Hp') as (S0 & S1 & S2 & S3 & S4 & S5).
  apply exact_of_moments. intros k Hk.
  destruct k as [|k]; [finish S0|]. destruct k as [|k]; [finish S1|]. destruct k as [|k]; [finish S2|].
  destruct k as [|k]; [finish S3|]. destruct k as [|k]; [finish S4|]. destruct k as [|k]; [finish S5|]. lia.
Qed.
Lemma lobatto4 x y : x + y = 1 -> x * y = 1/5 -> exact_to ([0; x; y; 1], [1/12; 5/12; 5/12; 1/12]) 5.
Proof.
  intros Hs Hp. assert (Hp' : x * y = 1/5 + 0 * 1) by lra.
  destruct (ps4 1 x y ltac:(lra) Hs Hp') as (S0 & S1 & S2 & S3 & S4 & S5).
  apply exact_of_moments. intros k Hk.
  destruct k as [|k]; [finish S0|]. destruct k as [|k]; [finish S1|]. destruct k as [|k]; [finish S2|].
  destruct k as [|k]; [finish S3|]. destruct k as [|k]; [finish S4|]. destruct k as [|k]; [finish S5|]. lia.
Qed.
Lemma lobatto5 x y : x + y = 1 -> x * y = 1/7 -> exact_to ([0; x; 1/2; y; 1], [1/20; 49/180; 16/45; 49/180; 1/20]) 7.
Proof.
  intros Hs Hp. assert (Hp' : x * y = 1/7 + 0 * 1) by lra.
  destruct (ps5 1 x y ltac:(lra) Hs Hp') as (S0 & S1 & S2 & S3 & S4 & S5 & S6 & S7).
  apply exact_of_moments. intros k Hk.
  destruct k as [|k]; [finish S0|]. destruct k as [|k]; [finish S1|]. destruct k as [|k]; [finish S2|].
  destruct k as [|k]; [finish S3|]. destruct k as [|k]; [finish S4|]. destruct k as [|k]; [finish S5|].
  destruct k as [|k]; [finish S6|]. destruct k as [|k]; [finish S7|]. lia.
Qed.

Ltac finish2 S T Ht :=
  inr; unfold rule_sum; cbn [combine fold_right fst snd];
  match goal with |- ?w0 * 0 ^ ?k + (?w1 * ?x1 ^ ?k + (?w2 * ?x2 ^ ?k + (?w2 * ?y2 ^ ?k + (?w1 * ?y1 ^ ?k + (?w0 * 1 ^ ?k + 0))))) = ?r =>
    transitivity (w0 * 0 ^ k + w1 * (x1 ^ k + y1 ^ k) + w2 * (x2 ^ k + y2 ^ k) + w0 * 1 ^ k); [ring|]; rewrite S, T; simpl; lra
  end.
Lemma lobatto6 t x1 y1 x2 y2 : t * t = 7 -> x1 + y1 = 1 -> x1 * y1 = 1/6 + (-1/42) * t ->
  x2 + y2 = 1 -> x2 * y2 = 1/6 + (1/42) * t ->
  exact_to ([0; x1; x2; y2; y1; 1], [1/30; (14 - t) / 60; (14 + t) / 60; (14 + t) / 60; (14 - t) / 60; 1/30]) 9.
Proof.
  intros Ht A1 B1 A2 B2.
  destruct (ps6a t x1 y1 Ht A1 B1) as (S0 & S1 & S2 & S3 & S4 & S5 & S6 & S7 & S8 & S9).
  destruct (ps6b t x2 y2 Ht A2 B2) as (T0 & T1 & T2 & T3 & T4 & T5 & T6 & T7 & T8 & T9).
  apply exact_of_moments. intros k Hk.
  destruct k as [|k]; [finish2 S0 T0 Ht|]. destruct k as [|k]; [finish2 S1 T1 Ht|].
  destruct k as [|k]; [finish2 S2 T2 Ht|]. destruct k as [|k]; [finish2 S3 T3 Ht|].
  destruct k as [|k]; [finish2 S4 T4 Ht|]. destruct k as [|k]; [finish2 S5 T5 Ht|].
  destruct k as [|k]; [finish2 S6 T6 Ht|]. destruct k as [|k]; [finish2 S7 T7 Ht|].
  destruct k as [|k]; [finish2 S8 T8 Ht|]. destruct k as [|k]; [finish2 S9 T9 Ht|]. lia.
Qed.
Ltac finish3 S T Ht :=
  inr; unfold rule_sum; cbn [combine fold_right fst snd];
  match goal with |- ?w0 * 0 ^ ?k + (?w1 * ?x1 ^ ?k + (?w2 * ?x2 ^ ?k + (?w3 * ?m ^ ?k + (?w2 * ?y2 ^ ?k + (?w1 * ?y1 ^ ?k + (?w0 * 1 ^ ?k + 0)))))) = ?r =>
    transitivity (w0 * 0 ^ k + w1 * (x1 ^ k + y1 ^ k) + w2 * (x2 ^ k + y2 ^ k) + w3 * m ^ k + w0 * 1 ^ k); [ring|]; rewrite S, T; simpl; lra
  end.
Lemma lobatto7 t x1 y1 x2 y2 : t * t = 5/3 -> x1 + y1 = 1 -> x1 * y1 = 3/22 + (-1/22) * t ->
  x2 + y2 = 1 -> x2 * y2 = 3/22 + (1/22) * t ->
  exact_to ([0; x1; x2; 1/2; y2; y1; 1],
            [1/42; (124 - 7 * (3 * t)) / 700; (124 + 7 * (3 * t)) / 700; 128/525;
             (124 + 7 * (3 * t)) / 700; (124 - 7 * (3 * t)) / 700; 1/42]) 11.
Proof.
  intros Ht A1 B1 A2 B2.
  destruct (ps7a t x1 y1 Ht A1 B1) as (S0 & S1 & S2 & S3 & S4 & S5 & S6 & S7 & S8 & S9 & S10 & S11).
  destruct (ps7b t x2 y2 Ht A2 B2) as (T0 & T1 & T2 & T3 & T4 & T5 & T6 & T7 & T8 & T9 & T10 & T11).
  apply exact_of_moments. intros k Hk.
  destruct k as [|k]; [finish3 S0 T0 Ht|]. destruct k as [|k]; [finish3 S1 T1 Ht|].
  destruct k as [|k]; [finish3 S2 T2 Ht|]. destruct k as [|k]; [finish3 S3 T3 Ht|].
  destruct k as [|k]; [finish3 S4 T4 Ht|]. destruct k as [|k]; [finish3 S5 T5 Ht|].
  destruct k as [|k]; [finish3 S6 T6 Ht|]. destruct k as [|k]; [finish3 S7 T7 Ht|].
  destruct k as [|k]; [finish3 S8 T8 Ht|]. destruct k as [|k]; [finish3 S9 T9 Ht|].
  destruct k as [|k]; [finish3 S10 T10 Ht|]. destruct k as [|k]; [finish3 S11 T11 Ht|]. lia.
Qed.

(** * The rules of the code are proper and exact *)
Lemma sqrt_bounds a lo hi : 0 <= lo -> 0 <= hi -> lo * lo < a -> a < hi * hi -> lo < sqrt a < hi.
Proof.
  intros Hlo Hhi H1 H2. split.
  - rewrite <- (sqrt_square lo Hlo). apply sqrt_lt_1; nra.
  - rewrite <- (sqrt_square hi Hhi). apply sqrt_lt_1; nra.
Qed.
Ltac sorted := repeat (constructor; [|repeat (constructor; [lra|]); constructor]); constructor.
Ltac forall_lra := repeat (constructor; [lra|]); constructor.
Ltac proper_tac := split; [reflexivity|split; [sorted|split; forall_lra]].

Definition good (r : rule) (d : nat) : Prop := proper r /\ exact_to r d.

Lemma lobatto_good n r : lobatto n = Ok r -> good r (2 * n - 3).
Proof.
  destruct n as [|[|[|[|[|[|[|[|n]]]]]]]]; try discriminate; intros E; injection E as <-; simpl minus; simpl mult; (split; [|]).
  - proper_tac.
  - exact lobatto2.
  - proper_tac.
  - exact lobatto3.
  - destruct (sqrt_bounds 5 2 3) as [A B]; try lra.
    assert (0 < 1 / sqrt 5 < 1).
    { split; [apply Rdiv_lt_0_compat; lra|]. apply (Rmult_lt_reg_r (sqrt 5)); [lra|]. replace (1 / sqrt 5 * sqrt 5) with 1 by (field; lra). lra. }
    proper_tac.
  - apply lobatto4; [lra|]. assert (H : sqrt 5 * sqrt 5 = 5) by (apply sqrt_sqrt; lra).
    assert (sqrt 5 <> 0) by nra. replace ((1 - 1 / sqrt 5) / 2 * ((1 + 1 / sqrt 5) / 2)) with ((1 - 1 / (sqrt 5 * sqrt 5)) / 4) by (field; assumption).
    rewrite H. lra.
  - destruct (sqrt_bounds 3 1 2) as [A B]; try lra. destruct (sqrt_bounds 7 2 3) as [C D]; try lra.
    assert (0 < sqrt 3 / sqrt 7 < 1).
    { split; [apply Rdiv_lt_0_compat; lra|]. apply (Rmult_lt_reg_r (sqrt 7)); [lra|]. replace (sqrt 3 / sqrt 7 * sqrt 7) with (sqrt 3) by (field; lra). lra. }
    proper_tac.
  - assert (H : sqrt 3 * sqrt 3 = 3) by (apply sqrt_sqrt; lra). assert (H' : sqrt 7 * sqrt 7 = 7) by (apply sqrt_sqrt; lra).
    assert (sqrt 7 <> 0) by nra. apply lobatto5; [lra|].
    replace ((1 - sqrt 3 / sqrt 7) / 2 * ((1 + sqrt 3 / sqrt 7) / 2)) with ((1 - (sqrt 3 * sqrt 3) / (sqrt 7 * sqrt 7)) / 4) by (field; assumption).
    rewrite H, H'. lra.
  - destruct (sqrt_bounds 7 2 3) as [A B]; try lra.
    destruct (sqrt_bounds (1/3 + 2 * sqrt 7 / 21) (7/10) 1) as [C D]; try lra.
    destruct (sqrt_bounds (1/3 - 2 * sqrt 7 / 21) (1/10) (6/10)) as [E F]; try lra.
    proper_tac.
  - destruct (sqrt_bounds 7 2 3) as [A B]; try lra.
    assert (H' : sqrt 7 * sqrt 7 = 7) by (apply sqrt_sqrt; lra).
    assert (H1 := sqrt_sqrt (1/3 + 2 * sqrt 7 / 21) ltac:(lra)).
    assert (H2 := sqrt_sqrt (1/3 - 2 * sqrt 7 / 21) ltac:(lra)).
    apply lobatto6; try lra; nra.
  - destruct (sqrt_bounds 3 (17/10) (174/100)) as [A1 A2]; try lra. destruct (sqrt_bounds 5 (22/10) (224/100)) as [B1 B2]; try lra.
    destruct (sqrt_bounds 15 (38/10) (39/10)) as [C1 C2]; try lra.
    assert (D1 : 12/10 < sqrt 5 / sqrt 3 < 14/10).
    { assert (sqrt 5 / sqrt 3 * sqrt 3 = sqrt 5) by (field; lra). split; nra. }
    replace (2 * sqrt 5 / sqrt 3) with (2 * (sqrt 5 / sqrt 3)) by (field; lra).
    destruct (sqrt_bounds ((5 + 2 * (sqrt 5 / sqrt 3)) / 11) (8/10) 1) as [E F]; try lra.
    destruct (sqrt_bounds ((5 - 2 * (sqrt 5 / sqrt 3)) / 11) (1/10) (6/10)) as [G K]; try lra.
    proper_tac.
  - destruct (sqrt_bounds 3 (17/10) (174/100)) as [A1 A2]; try lra. destruct (sqrt_bounds 5 (22/10) (224/100)) as [B1 B2]; try lra.
    assert (D1 : 12/10 < sqrt 5 / sqrt 3 < 14/10).
    { assert (sqrt 5 / sqrt 3 * sqrt 3 = sqrt 5) by (field; lra). split; nra. }
    replace (2 * sqrt 5 / sqrt 3) with (2 * (sqrt 5 / sqrt 3)) by (field; lra).
    assert (H3 : sqrt 3 * sqrt 3 = 3) by (apply sqrt_sqrt; lra). assert (H5 : sqrt 5 * sqrt 5 = 5) by (apply sqrt_sqrt; lra).
    set (t := sqrt 5 / sqrt 3) in *.
    assert (Ht : t * t = 5/3).
    { unfold t. replace (sqrt 5 / sqrt 3 * (sqrt 5 / sqrt 3)) with ((sqrt 5 * sqrt 5) / (sqrt 3 * sqrt 3)) by (field; lra). rewrite H3, H5. reflexivity. }
    assert (H15 : sqrt 15 = 3 * t).
    { apply sqrt_lem_1; [lra|lra|]. nra. }
    rewrite H15.
    assert (H1 := sqrt_sqrt ((5 + 2 * t) / 11) ltac:(lra)).
    assert (H2 := sqrt_sqrt ((5 - 2 * t) / 11) ltac:(lra)).
    apply lobatto7; try lra; nra.
Qed.

Lemma radau_good n r : radau n = Ok r -> good r (2 * n - 2).
Proof.
  destruct n as [|[|[|[|n]]]]; try discriminate; intros E; injection E as <-; simpl minus; simpl mult; (split; [|]).
  - proper_tac.
  - exact radau2.
  - destruct (sqrt_bounds 6 2 3) as [A B]; try lra. proper_tac.
  - apply radau3. apply sqrt_sqrt. lra.
Qed.

Lemma legendre_good n r : legendre n = Ok r -> good r (2 * n - 1).
Proof.
  destruct n as [|[|[|[|n]]]]; try discriminate; intros E; injection E as <-; simpl minus; simpl mult; (split; [|]).
  - proper_tac.
  - exact legendre1.
  - destruct (sqrt_bounds 3 1 2) as [A B]; try lra. proper_tac.
  - assert (H : sqrt 3 * sqrt 3 = 3) by (apply sqrt_sqrt; lra). apply legendre2; nra.
  - destruct (sqrt_bounds 15 3 4) as [A B]; try lra. proper_tac.
  - assert (H : sqrt 15 * sqrt 15 = 15) by (apply sqrt_sqrt; lra). apply legendre3; nra.
Qed.

(** * Equispaced *)
Lemma INR_ge_2 n : (2 <= n)%nat -> 2 <= INR n.
Proof. intros H. apply le_INR in H. simpl in H. lra. Qed.

Lemma sorted_map_seq f n : forall s, (forall i j, (s <= i < j)%nat -> (j < s + n)%nat -> f i < f j) -> StronglySorted Rlt (map f (seq s n)).
Proof.
  induction n as [|n IH]; intros s H; simpl; constructor.
  - apply IH. intros i j H1 H2. apply H; lia.
  - apply Forall_map, Forall_forall. intros j Hj. apply in_seq in Hj. apply H; lia.
Qed.

Lemma equispaced_proper n : (2 <= n)%nat -> proper (equispaced n).
Proof.
  intros Hn. assert (H := INR_ge_2 n Hn). unfold equispaced. split; [simpl; rewrite !map_length; reflexivity|]. cbn [fst snd].
  split; [|split].
  - apply sorted_map_seq. intros i j Hij _. apply Rmult_lt_compat_r; [apply Rinv_0_lt_compat; lra|]. apply lt_INR. lia.
  - apply Forall_map, Forall_forall. intros i Hi. apply in_range in Hi.
    assert (INR i <= INR n - 1). { assert (Hle : (i + 1 <= n)%nat) by lia. apply le_INR in Hle. rewrite plus_INR in Hle. simpl in Hle. lra. }
    assert (0 <= INR i) by apply pos_INR.
    split; [apply Rmult_le_pos; [assumption|left; apply Rinv_0_lt_compat; lra]|].
    apply (Rmult_le_reg_r (INR n - 1)); [lra|]. replace (INR i / (INR n - 1) * (INR n - 1)) with (INR i) by (field; lra). lra.
  - apply Forall_map, Forall_forall. intros i _. destruct (_ || _)%bool; apply Rdiv_lt_0_compat; lra.
Qed.

Lemma combine_map_map {A B C} (f : A -> B) (g : A -> C) l : combine (map f l) (map g l) = map (fun x => (f x, g x)) l.
Proof. induction l; simpl; congruence. Qed.

(** sum of f over s, s+1, ..., s+n-1 *)
Definition sumf (f : nat -> R) s n := fold_right (fun i acc => f i + acc) 0 (seq s n).
Lemma sumf_ext f g s n : (forall i, (s <= i < s + n)%nat -> f i = g i) -> sumf f s n = sumf g s n.
Proof.
  revert s. induction n as [|n IH]; intros s H; unfold sumf in *; simpl; [reflexivity|].
  rewrite H by lia. f_equal. apply IH. intros; apply H; lia.
Qed.
Lemma sumf_last f s n : sumf f s (S n) = sumf f s n + f (s + n)%nat.
Proof.
  revert s. induction n as [|n IH]; intros s; [unfold sumf; simpl; rewrite Nat.add_0_r; ring|].
  change (sumf f s (S (S n))) with (f s + sumf f (S s) (S n)). rewrite IH.
  change (sumf f s (S n)) with (f s + sumf f (S s) n). rewrite Nat.add_succ_comm. ring.
Qed.
Lemma sumf_inner h m : sumf (fun _ => h) 1 m = INR m * h.
Proof. induction m as [|m IH]; [unfold sumf; simpl; ring|]. rewrite sumf_last, IH, S_INR. ring. Qed.
Lemma sumf_inner1 h m : sumf (fun i => h * INR i) 1 m = h * (INR m * (INR m + 1) / 2).
Proof. induction m as [|m IH]; [unfold sumf; simpl; lra|]. rewrite sumf_last, IH. replace (1 + m)%nat with (S m) by lia. rewrite S_INR. field. Qed.

Lemma equispaced_exact n : (2 <= n)%nat -> exact_to (equispaced n) 1.
Proof.
  intros Hn. assert (HR := INR_ge_2 n Hn). apply exact_of_moments. intros k Hk.
  unfold rule_sum, equispaced. cbn [fst snd]. rewrite combine_map_map.
  set (N := INR n - 1) in *. assert (HN : N <> 0) by (unfold N; lra).
  assert (E : forall (g : nat -> R) l, fold_right (fun xw acc => snd xw * fst xw ^ k + acc) 0
      (map (fun i => (INR i / N, if ((i =? 0) || (i =? n - 1))%nat%bool then 1 / (2 * N) else 1 / N)) l)
      = fold_right (fun i acc => (if ((i =? 0) || (i =? n - 1))%nat%bool then 1 / (2 * N) else 1 / N) * (INR i / N) ^ k + acc) 0 l).
  { intros _ l. induction l as [|i l IH]; simpl; [reflexivity|]. rewrite IH. reflexivity. }
  rewrite (E INR). clear E. unfold range.
  set (f := fun i => (if ((i =? 0) || (i =? n - 1))%nat%bool then 1 / (2 * N) else 1 / N) * (INR i / N) ^ k).
  change (sumf f 0 n = 1 / INR (S k)).
  destruct n as [|[|m]]; [lia|lia|]. rewrite sumf_last. change (sumf f 0 (S m)) with (f 0%nat + sumf f 1 m).
  assert (HNm : N = INR m + 1) by (unfold N; rewrite !S_INR; ring).
  assert (F0 : f 0%nat = 1 / (2 * N) * (INR 0 / N) ^ k) by reflexivity.
  assert (FL : f (0 + S m)%nat = 1 / (2 * N) * 1).
  { unfold f. cbn [Nat.add]. replace (S (S m) - 1)%nat with (S m) by lia. rewrite Nat.eqb_refl, Bool.orb_true_r.
    replace (INR (S m) / N) with 1 by (rewrite HNm, S_INR; field; lra). rewrite pow1. reflexivity. }
  assert (FI : forall i, (1 <= i < 1 + m)%nat -> f i = 1 / N * (INR i / N) ^ k).
  { intros i Hi. unfold f. replace (i =? 0)%nat with false by (symmetry; apply Nat.eqb_neq; lia).
    replace (i =? S (S m) - 1)%nat with false by (symmetry; apply Nat.eqb_neq; lia). reflexivity. }
  rewrite F0, FL, (sumf_ext f _ 1 m FI). destruct k as [|[|k]]; [| |lia].
  - simpl pow. rewrite (sumf_ext _ (fun _ => 1 / N)) by (intros; ring). rewrite sumf_inner. simpl INR. rewrite HNm in *. field. exact HN.
  - rewrite (sumf_ext _ (fun i => (1 / N / N) * INR i)) by (intros; simpl; field; exact HN). rewrite sumf_inner1.
    simpl INR. rewrite HNm in *. field. exact HN.
Qed.
