(** Tables filled by nested loops: loop lemmas, index maps (C13) and the fill lemma. *)
From Coq Require Import String Arith ZArith Reals Lia Lra Bool Sorted List.
From Verif Require Import Base PolyLib LegendreModel.
Import ListNotations.
Open Scope R_scope.

(** * Loops *)
Lemma for_in_err {A T} (l : list A) (f : A -> T -> res T) e :
  fold_left (fun acc a => rbind acc (f a)) l (Err e) = Err e.
Proof. induction l as [|a l IH]; [reflexivity|exact IH]. Qed.
Lemma for_in_nil {A T} (f : A -> T -> res T) s : for_in [] f s = Ok s.
Proof. reflexivity. Qed.
Lemma for_in_cons {A T} a (l : list A) (f : A -> T -> res T) s :
  for_in (a :: l) f s = rbind (f a s) (for_in l f).
Proof.
  unfold for_in. simpl. destruct (f a s) as [s'|e]; [reflexivity|apply for_in_err].
Qed.
Lemma for_in_app {A T} (l1 l2 : list A) (f : A -> T -> res T) : forall s,
  for_in (l1 ++ l2) f s = rbind (for_in l1 f s) (for_in l2 f).
Proof.
  induction l1 as [|a l1 IH]; intros s; [reflexivity|]. rewrite <- app_comm_cons, !for_in_cons.
  destruct (f a s) as [s'|e]; [apply IH|reflexivity].
Qed.
Lemma for_in_ext {A T} (l : list A) (f g : A -> T -> res T) :
  (forall a s, In a l -> f a s = g a s) -> forall s, for_in l f s = for_in l g s.
Proof.
  induction l as [|a l IH]; intros H s; [reflexivity|]. rewrite !for_in_cons, (H a) by (left; reflexivity).
  destruct (g a s) as [s'|e]; [apply IH; intros; apply H; right; assumption|reflexivity].
Qed.
Lemma for_in_flat_map {A B T} (g : B -> list A) (l : list B) (f : A -> T -> res T) : forall s,
  for_in (flat_map g l) f s = for_in l (fun b => for_in (g b) f) s.
Proof.
  induction l as [|b l IH]; intros s; [reflexivity|]. cbn [flat_map]. rewrite for_in_app, for_in_cons.
  destruct (for_in (g b) f s) as [s'|e]; [apply IH|reflexivity].
Qed.
Lemma for_in_map {A B T} (g : B -> A) (l : list B) (f : A -> T -> res T) : forall s,
  for_in (map g l) f s = for_in l (fun b => f (g b)) s.
Proof.
  induction l as [|b l IH]; intros s; [reflexivity|]. cbn [map]. rewrite !for_in_cons.
  destruct (f (g b) s) as [s'|e]; [apply IH|reflexivity].
Qed.
Lemma range_cons n : range (n + 1) = 0%nat :: range2 1 (n + 1).
Proof. unfold range, range2. replace (n + 1)%nat with (S n) by lia. replace (S n - 1)%nat with n by lia. reflexivity. Qed.
(** first iteration peeled off *)
Lemma for_in_peel {T} n (f0 : T -> res T) (f : nat -> T -> res T) s :
  rbind (f0 s) (for_in (range2 1 (n + 1)) f) =
  for_in (range (n + 1)) (fun q => if is0 q then f0 else f q) s.
Proof.
  rewrite range_cons, for_in_cons. cbn [is0 Nat.eqb]. destruct (f0 s) as [s'|e]; [|reflexivity]. cbn [rbind].
  apply for_in_ext. intros a x Ha. apply in_range2 in Ha. unfold is0. destruct (Nat.eqb_spec a 0); [lia|reflexivity].
Qed.

(** * Nested loops over multi-indices, in lexicographic order *)
Definition nest (l : list nat) (rest : nat -> list (list nat)) : list (list nat) :=
  flat_map (fun a => map (cons a) (rest a)) l.
Lemma in_nest l rest m : In m (nest l rest) <-> exists a m', m = a :: m' /\ In a l /\ In m' (rest a).
Proof.
  unfold nest. rewrite in_flat_map. split.
  - intros (a & Ha & Hm). apply in_map_iff in Hm. destruct Hm as (m' & <- & Hm). exists a, m'. auto.
  - intros (a & m' & -> & Ha & Hm). exists a. split; [exact Ha|apply in_map, Hm].
Qed.
Lemma for_in_nest {T} l rest (f : list nat -> T -> res T) s :
  for_in (nest l rest) f s = for_in l (fun a => for_in (rest a) (fun m => f (a :: m))) s.
Proof.
  unfold nest. rewrite for_in_flat_map. apply for_in_ext. intros a x _. apply for_in_map.
Qed.
Fixpoint lexlt (a b : list nat) : Prop :=
  match a, b with
  | i :: a', j :: b' => (i < j)%nat \/ (i = j /\ lexlt a' b')
  | _, _ => False
  end.
Lemma lexlt_irrefl a : ~ lexlt a a.
Proof. induction a as [|i a IH]; simpl; [tauto|]. intros [H|[_ H]]; [lia|exact (IH H)]. Qed.
Lemma lexlt_asym a : forall b, lexlt a b -> lexlt b a -> False.
Proof.
  induction a as [|i a IH]; intros [|j b]; simpl; try tauto. intros [H|[E H]] [H'|[E' H']]; try lia. exact (IH b H H').
Qed.
Lemma sorted_app {A} (P : A -> A -> Prop) l1 l2 : StronglySorted P l1 -> StronglySorted P l2 ->
  (forall a b, In a l1 -> In b l2 -> P a b) -> StronglySorted P (l1 ++ l2).
Proof.
  induction l1 as [|a l1 IH]; intros S1 S2 H; [exact S2|]. inversion S1 as [|? ? S1' F]; subst.
  simpl. constructor.
  - apply IH; [exact S1'|exact S2|]. intros x y Hx Hy. apply H; [right; exact Hx|exact Hy].
  - apply Forall_app. split; [exact F|]. apply Forall_forall. intros b Hb. apply H; [left; reflexivity|exact Hb].
Qed.
Lemma sorted_map_cons a l : StronglySorted lexlt l -> StronglySorted lexlt (map (cons a) l).
Proof.
  induction 1 as [|b l S IH F]; [constructor|]. simpl. constructor; [exact IH|]. apply Forall_forall. intros c Hc.
  apply in_map_iff in Hc. destruct Hc as (m & <- & Hm). right. split; [reflexivity|].
  rewrite Forall_forall in F. apply F, Hm.
Qed.
Lemma sorted_nest l rest : StronglySorted lt l -> (forall a, In a l -> StronglySorted lexlt (rest a)) ->
  StronglySorted lexlt (nest l rest).
Proof.
  unfold nest. induction 1 as [|a l S IH F]; intros H; [constructor|]. cbn [flat_map]. apply sorted_app.
  - apply sorted_map_cons, H. left. reflexivity.
  - apply IH. intros b Hb. apply H. right. exact Hb.
  - intros x y Hx Hy. apply in_map_iff in Hx. destruct Hx as (m & <- & _).
    apply in_nest in Hy. destruct Hy as (b & m' & -> & Hb & _). left. rewrite Forall_forall in F. apply F, Hb.
Qed.
Lemma sorted_seq a n : StronglySorted lt (seq a n).
Proof.
  revert a. induction n as [|n IH]; intros a; simpl; constructor; [apply IH|]. apply Forall_forall. intros b Hb.
  apply in_seq in Hb. lia.
Qed.
Lemma sorted_leaf l : StronglySorted lt l -> StronglySorted lexlt (map (fun q => [q]) l).
Proof.
  induction 1 as [|a l S IH F]; simpl; constructor; [exact IH|]. apply Forall_forall. intros c Hc.
  apply in_map_iff in Hc. destruct Hc as (m & <- & Hm). left. rewrite Forall_forall in F. apply F, Hm.
Qed.

(** * Reads and writes *)
Lemma lset_length {A} (l : list A) : forall i a l', lset l i a = Ok l' -> length l' = length l.
Proof.
  induction l as [|b l IH]; intros [|i] a l' H; simpl in *; try discriminate.
  - injection H as <-. reflexivity.
  - destruct (lset l i a) as [x|e] eqn:E; [|discriminate]. injection H as <-. simpl. f_equal. apply (IH i a x E).
Qed.
Lemma lset_ok {A} (l : list A) : forall i a, (i < length l)%nat -> exists l', lset l i a = Ok l'.
Proof.
  induction l as [|b l IH]; intros [|i] a H; simpl in *; try lia; [eexists; reflexivity|].
  destruct (IH i a) as [l' E]; [lia|]. rewrite E. eexists; reflexivity.
Qed.
Lemma lset_same {A} (l : list A) : forall i a l', lset l i a = Ok l' -> nth_error l' i = Some a.
Proof.
  induction l as [|b l IH]; intros [|i] a l' H; simpl in *; try discriminate.
  - injection H as <-. reflexivity.
  - destruct (lset l i a) as [x|e] eqn:E; [|discriminate]. injection H as <-. simpl. apply (IH i a x E).
Qed.
Lemma lset_other {A} (l : list A) : forall i a l' j, lset l i a = Ok l' -> j <> i -> nth_error l' j = nth_error l j.
Proof.
  induction l as [|b l IH]; intros [|i] a l' [|j] H N; simpl in *; try discriminate; try congruence.
  - injection H as <-. reflexivity.
  - destruct (lset l i a) as [x|e] eqn:E; [|discriminate]. injection H as <-. reflexivity.
  - destruct (lset l i a) as [x|e] eqn:E; [|discriminate]. injection H as <-. simpl. apply (IH i a x j E). congruence.
Qed.

Definition shape (nd ni : nat) (t : table) : Prop := length t = nd /\ Forall (fun row => length row = ni) t.
Lemma shape_row nd ni t d row : shape nd ni t -> nth_error t d = Some row -> length row = ni.
Proof. intros [_ F] E. rewrite Forall_forall in F. apply F. eapply nth_error_In; exact E. Qed.
Lemma tset_ok nd ni t d i f : shape nd ni t -> (d < nd)%nat -> (i < ni)%nat ->
  exists t', tset t d i f = Ok t' /\ shape nd ni t' /\ tget t' d i = Ok f /\
    (forall d' i', (d', i') <> (d, i) -> tget t' d' i' = tget t d' i').
Proof.
  intros Sh Hd Hi. destruct (nth_error t d) as [row|] eqn:E; [|apply nth_error_None in E; destruct Sh; lia].
  pose proof (shape_row _ _ _ _ _ Sh E) as Lr. destruct (lset_ok row i f) as [row' Er]; [lia|].
  destruct (lset_ok t d row') as [t' Et]; [destruct Sh; lia|]. exists t'. unfold tset. rewrite E, Er. cbn [rbind].
  split; [exact Et|]. split; [|split].
  - split; [rewrite (lset_length _ _ _ _ Et); apply Sh|]. apply Forall_forall. intros r Hr.
    apply In_nth_error in Hr. destruct Hr as [k Hk]. destruct (Nat.eq_dec k d) as [->|N].
    + rewrite (lset_same _ _ _ _ Et) in Hk. injection Hk as <-. rewrite (lset_length _ _ _ _ Er). exact Lr.
    + rewrite (lset_other _ _ _ _ k Et N) in Hk. exact (shape_row _ _ _ _ _ Sh Hk).
  - unfold tget. rewrite (lset_same _ _ _ _ Et), (lset_same _ _ _ _ Er). reflexivity.
  - intros d' i' N. unfold tget. destruct (Nat.eq_dec d' d) as [->|Nd].
    + rewrite (lset_same _ _ _ _ Et), E. rewrite (lset_other _ _ _ _ i' Er); [reflexivity|]. intros ->. apply N. reflexivity.
    + rewrite (lset_other _ _ _ _ d' Et Nd). reflexivity.
Qed.

(** entry (d, i) of the table has the values of g *)
Definition entry (t : table) (k : nat * nat) (g : point -> R) : Prop :=
  exists f, tget t (fst k) (snd k) = Ok f /\ forall v, f v = g v.

(** * The fill lemma *)
Lemma fill {M} (P : M -> M -> Prop) (step : M -> table -> res table) (key : M -> nat * nat) (G : M -> point -> R) nd ni ms t0 :
  StronglySorted P ms -> (forall a, ~ P a a) -> (forall a b, P a b -> P b a -> False) ->
  (forall a b, In a ms -> In b ms -> key a = key b -> a = b) ->
  (forall m, In m ms -> (fst (key m) < nd)%nat /\ (snd (key m) < ni)%nat) ->
  shape nd ni t0 ->
  (forall m t, In m ms -> shape nd ni t ->
     (forall k, (forall m', In m' ms -> key m' <> k) -> tget t (fst k) (snd k) = tget t0 (fst k) (snd k)) ->
     (forall m', In m' ms -> P m' m -> entry t (key m') (G m')) ->
     exists f, step m t = tset t (fst (key m)) (snd (key m)) f /\ forall v, f v = G m v) ->
  exists t, for_in ms step t0 = Ok t /\ shape nd ni t /\
    (forall k, (forall m', In m' ms -> key m' <> k) -> tget t (fst k) (snd k) = tget t0 (fst k) (snd k)) /\
    (forall m, In m ms -> entry t (key m) (G m)).
Proof.
  intros Srt Irr Asym Inj Rng Sh0 Step.
  assert (Main : forall post pre t, ms = pre ++ post -> shape nd ni t ->
     (forall k, (forall m', In m' ms -> key m' <> k) -> tget t (fst k) (snd k) = tget t0 (fst k) (snd k)) ->
     (forall m', In m' pre -> entry t (key m') (G m')) ->
     exists t', for_in post step t = Ok t' /\ shape nd ni t' /\
       (forall k, (forall m', In m' ms -> key m' <> k) -> tget t' (fst k) (snd k) = tget t0 (fst k) (snd k)) /\
       (forall m, In m ms -> entry t' (key m) (G m))).
  { induction post as [|m post IH]; intros pre t E Sh K H.
    - rewrite app_nil_r in E. subst pre. exists t. split; [reflexivity|]. auto.
    - assert (Hm : In m ms) by (rewrite E; apply in_or_app; right; left; reflexivity).
      assert (Spost : StronglySorted P (m :: post)).
      { clear - Srt E. rewrite E in Srt. clear E. induction pre as [|x pre IH]; [exact Srt|]. inversion Srt; subst. apply IH. assumption. }
      destruct (Step m t Hm Sh K) as (f & Ef & Hf).
      { intros m' Hm' Lt. apply H. rewrite E in Hm'. apply in_app_or in Hm'. destruct Hm' as [Hm'|[<-|Hm']]; [exact Hm'| |].
        - exfalso. exact (Irr _ Lt).
        - exfalso. inversion Spost as [|? ? _ F]; subst. rewrite Forall_forall in F. exact (Asym _ _ Lt (F _ Hm')). }
      destruct (Rng m Hm) as [Hd Hi].
      destruct (tset_ok nd ni t _ _ f Sh Hd Hi) as (t' & Et & Sh' & Eg & Eo).
      assert (Npre : forall m', In m' pre -> m' <> m).
      { intros m' Hm' ->. rewrite E in Srt. clear - Srt Hm' Irr. induction pre as [|x pre IH]; [destruct Hm'|].
        inversion Srt as [|? ? S F]; subst. destruct Hm' as [->|Hm']; [|exact (IH S Hm')].
        rewrite Forall_forall in F. apply (Irr m), F. apply in_or_app. right. left. reflexivity. }
      destruct (IH (pre ++ [m]) t') as (t'' & E'' & R).
      + rewrite <- app_assoc. exact E.
      + exact Sh'.
      + intros k Hk. rewrite <- (K k Hk). apply Eo. intros Q. apply (Hk m Hm). destruct k, (key m). simpl in Q. congruence.
      + intros m' Hm'. apply in_app_or in Hm'. destruct Hm' as [Hm'|[<-|[]]].
        * destruct (H m' Hm') as (g & Eg' & Hg). exists g. split; [|exact Hg]. rewrite Eo; [exact Eg'|].
          intros Q. apply (Npre m' Hm'). apply Inj; [rewrite E; apply in_or_app; left; exact Hm'|exact Hm|].
          destruct (key m'), (key m). simpl in Q. congruence.
        * exists f. split; [exact Eg|exact Hf].
      + exists t''. split; [|exact R]. rewrite for_in_cons, Ef, Et. exact E''. }
  destruct (Main ms [] t0 eq_refl Sh0) as (t' & R); [reflexivity|intros m' []|]. exists t'. exact R.
Qed.

(** * Values of the merged assignments *)
Lemma total_spec t l (ws : list (point -> R)) :
  Forall2 (fun s w => guard s = true -> exists f, tget t (t_d s) (t_i s) = Ok f /\ forall v, f v = w v) l ws ->
  exists f, total t l = Ok f /\
    forall v, f v = fold_right Rplus 0 (map (fun sw => if guard (fst sw) then snd sw v * t_c (fst sw) v else 0) (combine l ws)).
Proof.
  induction 1 as [|s w l ws H F IH]; [exists (fun _ => 0); split; reflexivity|].
  destruct IH as (g & Eg & Hg). cbn [total]. destruct (guard s) eqn:Gs.
  - destruct (H eq_refl) as (f & Ef & Hf). rewrite Ef, Eg. cbn [rbind rmap]. eexists. split; [reflexivity|].
    intros v. cbn [combine map fold_right fst snd]. rewrite Gs, Hf, Hg. reflexivity.
  - exists g. split; [exact Eg|]. intros v. cbn [combine map fold_right fst snd]. rewrite Gs, Hg. ring.
Qed.
Lemma assign_spec d i l t ws :
  Forall2 (fun s w => guard s = true -> exists f, tget t (t_d s) (t_i s) = Ok f /\ forall v, f v = w v) l ws ->
  exists f, assign d i l t = tset t d i f /\
    forall v, f v = fold_right Rplus 0 (map (fun sw => if guard (fst sw) then snd sw v * t_c (fst sw) v else 0) (combine l ws)).
Proof.
  intros H. destruct (total_spec t l ws H) as (f & Ef & Hf). exists f. split; [|exact Hf].
  unfold assign. rewrite Ef. reflexivity.
Qed.
Lemma zeros_shape m n : shape m n (zeros m n).
Proof.
  split; [apply repeat_length|]. apply Forall_forall. intros r Hr. apply repeat_spec in Hr. subst. apply repeat_length.
Qed.

(** * Index maps *)
Definition tri (n : nat) : nat := n * (n + 1) / 2.
Lemma tri_0 : tri 0 = 0%nat. Proof. reflexivity. Qed.
Lemma tri_S n : tri (S n) = (tri n + S n)%nat.
Proof.
  unfold tri. replace (S n * (S n + 1))%nat with (n * (n + 1) + S n * 2)%nat by ring. rewrite Nat.div_add by lia. reflexivity.
Qed.
Lemma tri_mono a b : (a <= b)%nat -> (tri a <= tri b)%nat.
Proof. induction 1 as [|b H IH]; [reflexivity|]. rewrite tri_S. lia. Qed.
Definition tetr (n : nat) : nat := n * (n + 1) * (n + 2) / 6.
Lemma tri_2 n : (2 * tri n = n * (n + 1))%nat.
Proof. induction n as [|n IH]; [reflexivity|]. rewrite tri_S. nia. Qed.
Lemma tetr_S n : tetr (S n) = (tetr n + tri (S n))%nat.
Proof.
  unfold tetr. replace (S n * (S n + 1) * (S n + 2))%nat with (n * (n + 1) * (n + 2) + tri (S n) * 6)%nat.
  - rewrite Nat.div_add by lia. reflexivity.
  - pose proof (tri_2 (S n)) as E. replace (tri (S n) * 6)%nat with (3 * (2 * tri (S n)))%nat by ring. rewrite E. ring.
Qed.
Lemma tetr_mono a b : (a <= b)%nat -> (tetr a <= tetr b)%nat.
Proof. induction 1 as [|b H IH]; [reflexivity|]. rewrite tetr_S. lia. Qed.
Lemma index2_eq p q : index2 p q = (tri (p + q) + q)%nat.
Proof. unfold index2, tri. rewrite (Nat.mul_comm (p + q + 1)). reflexivity. Qed.
Lemma index3_eq p q r : index3 p q r = (tetr (p + q + r) + tri (q + r) + r)%nat.
Proof. reflexivity. Qed.
Lemma tri_unique a b q q' : (q <= a)%nat -> (q' <= b)%nat -> (tri a + q = tri b + q')%nat -> a = b /\ q = q'.
Proof.
  intros Ha Hb E. assert (a = b); [|subst b; lia]. destruct (Nat.lt_trichotomy a b) as [L|[L|L]]; [|exact L|]; exfalso.
  - pose proof (tri_mono (S a) b L) as M. rewrite tri_S in M. lia.
  - pose proof (tri_mono (S b) a L) as M. rewrite tri_S in M. lia.
Qed.
Lemma index2_inj p q p' q' : index2 p q = index2 p' q' -> p = p' /\ q = q'.
Proof. rewrite !index2_eq. intros E. destruct (tri_unique (p + q) (p' + q') q q' ltac:(lia) ltac:(lia) E)%nat. lia. Qed.
Lemma index2_lt p q n : (p + q <= n)%nat -> (index2 p q < (n + 1) * (n + 2) / 2)%nat.
Proof.
  intros H. rewrite index2_eq. change ((n + 1) * (n + 2) / 2)%nat with ((n + 1) * (n + 2) / 2)%nat.
  replace ((n + 1) * (n + 2) / 2)%nat with (tri (S n)) by (unfold tri; f_equal; ring).
  pose proof (tri_mono (p + q)%nat n H). rewrite tri_S. lia.
Qed.
Lemma index3_inj p q r p' q' r' : index3 p q r = index3 p' q' r' -> p = p' /\ q = q' /\ r = r'.
Proof.
  rewrite !index3_eq. intros E. assert (H : forall a b : nat, (a <= b)%nat -> (tri a + a <= tri b + b)%nat).
  { intros a b L. pose proof (tri_mono a b L). lia. }
  assert (N : (p + q + r = p' + q' + r')%nat).
  { pose proof (H (q + r) (p + q + r) ltac:(lia))%nat. pose proof (H (q' + r') (p' + q' + r') ltac:(lia))%nat.
    destruct (Nat.lt_trichotomy (p + q + r) (p' + q' + r'))%nat as [L|[L|L]]; [|exact L|]; exfalso.
    - pose proof (tetr_mono _ _ L) as M. rewrite tetr_S, tri_S in M. lia.
    - pose proof (tetr_mono _ _ L) as M. rewrite tetr_S, tri_S in M. lia. }
  rewrite N in E. assert (E' : (tri (q + r) + r = tri (q' + r') + r')%nat) by lia. destruct (tri_unique (q + r) (q' + r') r r' ltac:(lia) ltac:(lia) E')%nat. lia.
Qed.
Lemma index3_lt p q r n : (p + q + r <= n)%nat -> (index3 p q r < (n + 1) * (n + 2) * (n + 3) / 6)%nat.
Proof.
  intros H. rewrite index3_eq. replace ((n + 1) * (n + 2) * (n + 3) / 6)%nat with (tetr (S n)) by (unfold tetr; f_equal; ring).
  pose proof (tetr_mono _ _ H). rewrite tetr_S, tri_S. pose proof (tri_mono (q + r)%nat n ltac:(lia)). lia.
Qed.

(** The order of the positions: by total degree, then by the last variables. *)
Definition order2 (n : nat) : list (nat * nat) :=
  flat_map (fun s => map (fun q => (s - q, q))%nat (range (s + 1))) (range (n + 1)).
Definition order3 (n : nat) : list (nat * nat * nat) :=
  flat_map (fun s => flat_map (fun u => map (fun r => (s - u, u - r, r))%nat (range (u + 1))) (range (s + 1))) (range (n + 1)).

Lemma nth_error_flat_map_seq {A} (g : nat -> list A) (off : nat -> nat) n :
  off 0%nat = 0%nat -> (forall s, (s < n)%nat -> off (S s) = (off s + length (g s))%nat) ->
  length (flat_map g (seq 0 n)) = off n /\
  forall s k a, (s < n)%nat -> nth_error (g s) k = Some a -> nth_error (flat_map g (seq 0 n)) (off s + k) = Some a.
Proof.
  intros H0. induction n as [|n IH]; intros HS; [split; [simpl; lia|lia]|].
  destruct IH as [L H]; [intros s Hs; apply HS; lia|]. rewrite seq_S, flat_map_app. simpl. rewrite app_nil_r. split.
  - rewrite app_length, L, HS by lia. reflexivity.
  - intros s k a Hs E. destruct (Nat.eq_dec s n) as [->|N].
    + rewrite nth_error_app2 by lia. rewrite L. replace (off n + k - off n)%nat with k by lia. exact E.
    + assert (Lt : (off s + k < off n)%nat).
      { assert (Hk : (k < length (g s))%nat) by (apply nth_error_Some; congruence).
        assert (Mono : forall m, (S s <= m)%nat -> (m <= n)%nat -> (off (S s) <= off m)%nat).
        { induction 1 as [|m Hm IHm]; intros Hn; [lia|]. rewrite (HS m) by lia. specialize (IHm ltac:(lia)). lia. }
        specialize (Mono n ltac:(lia) ltac:(lia)). rewrite (HS s) in Mono by lia. lia. }
      rewrite nth_error_app1 by lia. apply H; [lia|exact E].
Qed.
Lemma nth_error_range n k : (k < n)%nat -> nth_error (range n) k = Some k.
Proof.
  intros H. unfold range. rewrite (nth_error_nth' _ 0%nat) by (rewrite seq_length; exact H). rewrite seq_nth by exact H. reflexivity.
Qed.
Lemma order2_nth n : length (order2 n) = ((n + 1) * (n + 2) / 2)%nat /\
  forall p q, (p + q <= n)%nat -> nth_error (order2 n) (index2 p q) = Some (p, q).
Proof.
  destruct (nth_error_flat_map_seq (fun s => map (fun q => (s - q, q))%nat (range (s + 1))) tri (n + 1)) as [L H].
  - reflexivity.
  - intros s _. rewrite map_length, tri_S. unfold range. rewrite seq_length. lia.
  - unfold order2. change (range (n + 1)) with (seq 0 (n + 1)). split.
    + rewrite L. unfold tri. f_equal. ring.
    + intros p q Hpq. rewrite index2_eq. apply H; [lia|]. erewrite map_nth_error; [|apply nth_error_range; lia]. repeat f_equal. lia.
Qed.
Lemma order3_nth n : length (order3 n) = ((n + 1) * (n + 2) * (n + 3) / 6)%nat /\
  forall p q r, (p + q + r <= n)%nat -> nth_error (order3 n) (index3 p q r) = Some (p, q, r).
Proof.
  assert (I : forall s, length (flat_map (fun u => map (fun r => (s - u, u - r, r))%nat (range (u + 1))) (seq 0 (s + 1))) = tri (S s) /\
     forall u k a, (u < s + 1)%nat -> nth_error (map (fun r => (s - u, u - r, r))%nat (range (u + 1))) k = Some a ->
       nth_error (flat_map (fun u => map (fun r => (s - u, u - r, r))%nat (range (u + 1))) (seq 0 (s + 1))) (tri u + k) = Some a).
  { intros s. destruct (nth_error_flat_map_seq (fun u => map (fun r => (s - u, u - r, r))%nat (range (u + 1))) tri (s + 1)) as [L H].
    - reflexivity.
    - intros u _. rewrite map_length, tri_S. unfold range. rewrite seq_length. lia.
    - split; [|exact H]. rewrite L. f_equal. lia. }
  destruct (nth_error_flat_map_seq (fun s => flat_map (fun u => map (fun r => (s - u, u - r, r))%nat (range (u + 1))) (range (s + 1))) tetr (n + 1)) as [L H].
  - reflexivity.
  - intros s _. rewrite tetr_S. f_equal. symmetry. apply I.
  - unfold order3. change (range (n + 1)) with (seq 0 (n + 1)). split.
    + rewrite L. unfold tetr. f_equal. ring.
    + intros p q r Hpq. rewrite index3_eq, <- Nat.add_assoc. apply H; [lia|].
      apply I; [lia|]. erewrite map_nth_error; [|apply nth_error_range; lia]. repeat f_equal; lia.
Qed.
