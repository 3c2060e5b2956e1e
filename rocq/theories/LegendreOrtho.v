(** The polynomials of the tables as products of (homogenised) Jacobi polynomials, and their integrals. *)
From Coquelicot Require Import Coquelicot.
From Coq Require Import String Arith ZArith Reals Lia Lra Bool List.
From Verif Require Import Base PolyLib PolySetsModel PolyVec LinAlg LegendreModel LegendreSpec LegendreTables LegendreProofs LegendreTet LegendreRows LegendrePyramid LegendreJacobi.
Import ListNotations.
Open Scope R_scope.

(** * Homogenised three-term recurrences *)
Fixpoint hom (co : nat -> R * R * R) (n : nat) (x c : R) : R :=
  match n with
  | O => 1
  | S n1 => hom co n1 x c * ((2 * x - c) * fst (fst (co n1)) + c * snd (fst (co n1))) +
            match n1 with O => 0 | S n2 => hom co n2 x c * - (c * c * snd (co n1)) end
  end.
Fixpoint dhom (co : nat -> R * R * R) (n : nat) (x : R) : R :=
  match n with
  | O => 0
  | S n1 => dhom co n1 x * ((2 * x - 1) * fst (fst (co n1)) + snd (fst (co n1))) + hom co n1 x 1 * (2 * fst (fst (co n1))) +
            match n1 with O => 0 | S n2 => dhom co n2 x * - (snd (co n1)) end
  end.
Lemma hom_S co n1 x c : hom co (S n1) x c = hom co n1 x c * ((2 * x - c) * fst (fst (co n1)) + c * snd (fst (co n1))) +
            match n1 with O => 0 | S n2 => hom co n2 x c * - (c * c * snd (co n1)) end.
Proof. reflexivity. Qed.
Lemma dhom_S co n1 x : dhom co (S n1) x = dhom co n1 x * ((2 * x - 1) * fst (fst (co n1)) + snd (fst (co n1))) + hom co n1 x 1 * (2 * fst (fst (co n1))) +
            match n1 with O => 0 | S n2 => dhom co n2 x * - (snd (co n1)) end.
Proof. reflexivity. Qed.
Lemma hom_scale co n x c : c <> 0 -> hom co n x c = c ^ n * hom co n (x / c) 1.
Proof.
  intros Hc. induction n as [| |n IH1 IH2] using two_step; [simpl; ring| |].
  - simpl. field. exact Hc.
  - rewrite (hom_S _ _ x c), (hom_S _ (S n) (x / c)), IH1, IH2. cbn [pow]. field. exact Hc.
Qed.
Lemma der_lin (f : R -> R) (x l a b : R) : is_derive f x l -> is_derive (fun t : R => f t * ((2 * t - 1) * a + 1 * b)) x (l * ((2 * x - 1) * a + b) + f x * (2 * a)).
Proof. intros H. auto_derive; [repeat split; exists l; exact H|]. replace (Derive (fun x0 : R => f x0) x) with l by (symmetry; exact (is_derive_unique _ _ _ H)). ring. Qed.
Lemma der_lin2 (f g : R -> R) (x l m c : R) : is_derive f x l -> is_derive g x m -> is_derive (fun t : R => f t + g t * c) x (l + m * c).
Proof.
  intros H G. auto_derive; [repeat split; [exists l; exact H|exists m; exact G]|].
  replace (Derive (fun x0 : R => f x0) x) with l by (symmetry; exact (is_derive_unique _ _ _ H)). replace (Derive (fun x0 : R => g x0) x) with m by (symmetry; exact (is_derive_unique _ _ _ G)). ring.
Qed.
Lemma hom_der co n x : is_derive (fun x : R => hom co n x 1) x (dhom co n x).
Proof.
  revert x. induction n as [| |n IH1 IH2] using two_step; intros x.
  - exact (@is_derive_const R_AbsRing R_NormedModule 1 x).
  - pose proof (der_lin (fun _ => 1) x 0 (fst (fst (co 0%nat))) (snd (fst (co 0%nat))) (@is_derive_const R_AbsRing R_NormedModule 1 x)) as H.
    cbn [hom dhom]. rewrite Rplus_0_r. eapply is_derive_ext; [|exact H]. intros t. cbn. symmetry. apply Rplus_0_r.
  - pose proof (der_lin2 _ _ x _ _ (- (1 * 1 * snd (co (S n)))) (der_lin _ x _ (fst (fst (co (S n)))) (snd (fst (co (S n)))) (IH2 x)) (IH1 x)) as H.
    rewrite (dhom_S co (S n)). replace (- snd (co (S n))) with (- (1 * 1 * snd (co (S n)))) by ring. exact H.
Qed.
Lemma dhom_cont co n x : continuous (dhom co n) x.
Proof.
  apply (@ex_derive_continuous R_AbsRing R_NormedModule).
  assert (E : exists l : R, is_derive (dhom co n) x l); [|destruct E as [l El]; exists l; exact El].
  induction n as [| |n IH1 IH2] using two_step.
  - exists 0. exact (@is_derive_const R_AbsRing R_NormedModule 0 x).
  - exists 0. eapply is_derive_ext; [|exact (@is_derive_const R_AbsRing R_NormedModule (1 * (2 * fst (fst (co 0%nat)))) x)]. intros t. cbn [hom dhom]. match goal with |- @eq _ ?l ?r => change (@eq R l r) end. ring.
  - destruct IH1 as [l1 H1], IH2 as [l2 H2]. pose proof (hom_der co (S n) x) as H3.
    eexists. eapply is_derive_ext; [|exact (der_lin2 _ _ x _ _ 1 (der_lin2 _ _ x _ _ (- snd (co (S n))) (der_lin _ x _ (fst (fst (co (S n)))) (snd (fst (co (S n)))) H2) H1) (der_lin2 (fun _ => 0) _ x _ _ (2 * fst (fst (co (S n)))) (@is_derive_const R_AbsRing R_NormedModule 0 x) H3))].
    intros t. rewrite (dhom_S co (S n)). match goal with |- @eq _ ?l ?r => change (@eq R l r) end. ring.
Qed.

(** coefficients of the Jacobi polynomials P^(a,0) *)
Definition jacobi_co (a : nat) (co : nat -> R * R * R) : Prop :=
  (fst (fst (co 0%nat)) = (INR a + 2) / 2 /\ snd (fst (co 0%nat)) = INR a / 2) /\
  forall n, let N := INR (S n) in let A := INR a in
    fst (fst (co (S n))) = (2 * N + A + 1) * (2 * N + A + 2) / (2 * (N + 1) * (N + A + 1)) /\
    snd (fst (co (S n))) = A * A * (2 * N + A + 1) / (2 * (N + 1) * (N + A + 1) * (2 * N + A)) /\
    snd (co (S n)) = N * (N + A) * (2 * N + A + 2) / ((N + 1) * (N + A + 1) * (2 * N + A)).
Definition lco (n : nat) : R * R * R := (INR (2 * n + 1) / INR (n + 1), 0, INR n / INR (n + 1)).
Lemma lco_ok : jacobi_co 0 lco.
Proof.
  split; [unfold lco; simpl; split; field|]. intros n. cbv zeta. unfold lco. cbn [fst snd]. pose proof (pos_INR n). 
  rewrite !plus_INR, !mult_INR, !S_INR. change (INR 0) with 0. change (INR 1) with 1. repeat split; field; lra.
Qed.
Lemma jrc_ok a : (1 <= a)%nat -> jacobi_co a (jrc a).
Proof.
  intros Ha. apply le_INR in Ha. change (INR 1) with 1 in Ha. split; [|intros n; cbv zeta; pose proof (pos_INR n)]; unfold jrc; cbn [fst snd];
    rewrite ?mult_INR, ?plus_INR, ?mult_INR, ?plus_INR, ?S_INR; change (INR 0) with 0; change (INR 1) with 1; repeat split; field; lra.
Qed.
Section Co.
Context (a : nat) (co : nat -> R * R * R) (Hco : jacobi_co a co).
Let P n x := hom co n x 1.
Local Notation A := (INR a).
Lemma co_1 x : P 1 x = ((A + 2) * (2 * x - 1) + A) / 2.
Proof. destruct Hco as [[E1 E2] _]. unfold P. cbn [hom]. rewrite E1, E2. field. Qed.
Lemma co_d1 x : dhom co 1 x = A + 2.
Proof. destruct Hco as [[E1 E2] _]. cbn [dhom hom]. rewrite E1, E2. field. Qed.
Lemma co_S n x : let N := INR (S n) in 2 * (N + 1) * (N + A + 1) * (2 * N + A) * P (S (S n)) x =
   (2 * N + A + 1) * ((2 * N + A + 2) * (2 * N + A) * (2 * x - 1) + A * A) * P (S n) x - 2 * N * (N + A) * (2 * N + A + 2) * P n x.
Proof.
  cbv zeta. destruct Hco as [_ H]. specialize (H n). cbv zeta in H. destruct H as (E1 & E2 & E3). pose proof (pos_INR a). pose proof (pos_INR n).
  unfold P. rewrite (hom_S co (S n)), E1, E2, E3. cbv iota. rewrite S_INR. field. lra.
Qed.
Lemma co_dS n x : let N := INR (S n) in 2 * (N + 1) * (N + A + 1) * (2 * N + A) * dhom co (S (S n)) x =
   (2 * N + A + 1) * ((2 * N + A + 2) * (2 * N + A) * (2 * x - 1) + A * A) * dhom co (S n) x
   + (2 * N + A + 1) * (2 * N + A + 2) * (2 * N + A) * 2 * P (S n) x - 2 * N * (N + A) * (2 * N + A + 2) * dhom co n x.
Proof.
  cbv zeta. destruct Hco as [_ H]. specialize (H n). cbv zeta in H. destruct H as (E1 & E2 & E3). pose proof (pos_INR a). pose proof (pos_INR n).
  unfold P. rewrite (dhom_S co (S n)), E1, E2, E3. cbv iota. rewrite S_INR. field. lra.
Qed.
Lemma co_integral n m : is_RInt (fun x => (1 - x) ^ a * P n x * P m x) 0 1 (if Nat.eqb n m then / (2 * INR n + A + 1) else 0).
Proof.
  assert (H0 : forall x, P 0 x = 1) by reflexivity. assert (H1 : forall x, dhom co 0 x = 0) by reflexivity.
  destruct (Nat.eqb_spec n m) as [<-|N].
  - exact (norm a P (dhom co) (hom_der co) (dhom_cont co) H0 co_1 H1 co_d1 co_S co_dS n).
  - exact (orthogonal a P (dhom co) (hom_der co) (dhom_cont co) H0 co_1 H1 co_d1 co_S co_dS n m N).
Qed.
(** over [0, c] with the homogenised polynomials *)
Lemma hom_integral n m c : is_RInt (fun x => (c - x) ^ a * hom co n x c * hom co m x c) 0 c (if Nat.eqb n m then c ^ (2 * n + a + 1) / (2 * INR n + A + 1) else 0).
Proof.
  destruct (Req_dec c 0) as [->|Hc].
  - assert (E : (if Nat.eqb n m then 0 ^ (2 * n + a + 1) / (2 * INR n + A + 1) else 0) = 0).
    { destruct (Nat.eqb n m); [|reflexivity]. rewrite Nat.add_1_r. simpl. unfold Rdiv. ring. }
    eapply is_RInt_eq; [exact (@is_RInt_point R_NormedModule (fun x => (0 - x) ^ a * hom co n x 0 * hom co m x 0) 0)|reflexivity|symmetry; exact E].
  - assert (H : is_RInt (fun x => (1 - x) ^ a * P n x * P m x) (/ c * 0 + 0) (/ c * c + 0) (if Nat.eqb n m then / (2 * INR n + A + 1) else 0)).
    { replace (/ c * 0 + 0) with 0 by ring. replace (/ c * c + 0) with 1 by (field; exact Hc). apply co_integral. }
    apply is_RInt_comp_lin in H. apply (is_RInt_scal _ _ _ (c ^ (n + m + a + 1))) in H.
    eapply is_RInt_eq; [exact H| |].
    + intros x _. unfold scal. simpl. unfold mult. simpl. unfold P. rewrite (hom_scale co n x c Hc), (hom_scale co m x c Hc).
      replace (/ c * x + 0) with (x / c) by (field; exact Hc). replace (c - x) with (c * (1 - x / c)) by (field; exact Hc). rewrite Rpow_mult_distr, !pow_add, pow_1.
      field. exact Hc.
    + unfold scal. simpl. unfold mult. simpl. destruct (Nat.eqb_spec n m) as [<-|_]; [|ring].
      replace (n + n + a + 1)%nat with (2 * n + a + 1)%nat by lia. reflexivity.
Qed.
End Co.
Lemma leg_integral n m c : is_RInt (fun x => hom lco n x c * hom lco m x c) 0 c (if Nat.eqb n m then c ^ (2 * n + 1) / (2 * INR n + 1) else 0).
Proof.
  eapply is_RInt_eq; [exact (hom_integral 0 lco lco_ok n m c)| |].
  - intros x _. cbn [pow]. ring.
  - destruct (Nat.eqb n m); [|reflexivity]. change (INR 0) with 0. rewrite Nat.add_0_r, Rplus_0_r. reflexivity.
Qed.

(** * The entries of row 0 *)
Lemma pinv_lco n : 1 <= INR (S n) -> fst (fst (lco n)) = 2 - 1 / INR (S n) /\ snd (lco n) = 1 - 1 / INR (S n).
Proof.
  intros _. pose proof (pos_INR n). unfold lco. cbn [fst snd]. rewrite !plus_INR, mult_INR, !S_INR. change (INR 0) with 0. split; field; lra.
Qed.
Lemma one_le_S n : 1 <= INR (S n).
Proof. rewrite S_INR. pose proof (pos_INR n). lra. Qed.
Lemma gi_hom v0 n v : gi v0 n 0 v = hom lco n (v v0) 1.
Proof.
  assert (R0 : forall k, INR (2 * S k - 1) / INR (S k) = fst (fst (lco k))) by (intros k; unfold lco; cbn [fst]; rewrite Nat.add_1_r; f_equal; f_equal; lia).
  assert (R1 : forall k, INR k / INR (S k) = snd (lco k)) by (intros k; unfold lco; cbn [snd]; rewrite Nat.add_1_r; reflexivity).
  induction n as [| |n IH1 IH2] using two_step; [reflexivity| |].
  - rewrite gi_S, hom_S, R0. change (INR 0) with 0. cbn [gi hom is0 Nat.eqb]. change (snd (fst (lco 0))) with 0. ring.
  - rewrite gi_S, (hom_S lco (S n)), R0, R1, IH1, IH2. change (INR 0) with 0. change (snd (fst (lco (S n)))) with 0. ring.
Qed.
Lemma tp_hom v0 v1 p v : tp v0 v1 p 0 0 v = hom lco p (v v0) (1 - v v1).
Proof.
  induction p as [| |p IH1 IH2] using two_step; [reflexivity| |]; rewrite tp_S; cbv zeta; match goal with |- _ = hom lco (S ?k) _ _ => rewrite (hom_S lco k); destruct (pinv_lco k (one_le_S k)) as [E1 E2] end; change (INR 0) with 0.
  - cbn [tp hom is0 Nat.eqb andb]. rewrite E1. change (snd (fst (lco 0))) with 0. ring.
  - rewrite E1, E2, IH1, IH2. change (snd (fst (lco (S p)))) with 0. ring.
Qed.
Lemma tq_hom v0 v1 q p v : tq v0 v1 q p 0 0 v = hom lco p (v v0) (1 - v v1) * hom (jrc (2 * p + 1)) q (v v1) 1.
Proof.
  induction q as [| |q IH1 IH2] using two_step; [cbn [tq hom]; rewrite tp_hom; ring| |]; rewrite tq_S; match goal with |- _ = _ * hom ?co (S ?k) _ _ => rewrite (hom_S co k) end;
    destruct (jrc (2 * p + 1) _) as [[a b] c]; cbn [fst snd]; change (INR 0) with 0.
  - cbn [tq hom]. rewrite tp_hom. ring.
  - rewrite IH1, IH2. ring.
Qed.
Lemma hp_hom v0 v1 v2 p v : hp v0 v1 v2 p 0 0 0 v = hom lco p (v v0) (1 - v v1 - v v2).
Proof.
  induction p as [| |p IH1 IH2] using two_step; [reflexivity| |]; rewrite hp_S; cbv zeta; match goal with |- _ = hom lco (S ?k) _ _ => rewrite (hom_S lco k); destruct (pinv_lco k (one_le_S k)) as [E1 E2] end; change (INR 0) with 0.
  - cbn [hp hom is0 Nat.eqb andb]. rewrite E1. change (snd (fst (lco 0))) with 0. ring.
  - rewrite E1, E2, IH1, IH2. change (snd (fst (lco (S p)))) with 0. ring.
Qed.
Lemma hq_hom v0 v1 v2 q p v : hq v0 v1 v2 q p 0 0 0 v = hom lco p (v v0) (1 - v v1 - v v2) * hom (jrc (2 * p + 1)) q (v v1) (1 - v v2).
Proof.
  induction q as [| |q IH1 IH2] using two_step; [cbn [hq hom]; rewrite hp_hom; ring| |]; rewrite hq_S; match goal with |- _ = _ * hom ?co (S ?k) _ _ => rewrite (hom_S co k) end;
    destruct (jrc (2 * p + 1) _) as [[a b] c]; cbn [fst snd]; change (INR 0) with 0.
  - cbn [hq hom]. rewrite hp_hom. ring.
  - rewrite IH1, IH2. ring.
Qed.
Lemma hr_hom v0 v1 v2 r q p v : hr v0 v1 v2 r q p 0 0 0 v =
  hom lco p (v v0) (1 - v v1 - v v2) * hom (jrc (2 * p + 1)) q (v v1) (1 - v v2) * hom (jrc (2 * p + 2 * q + 2)) r (v v2) 1.
Proof.
  induction r as [| |r IH1 IH2] using two_step; [cbn [hr hom]; rewrite hq_hom; ring| |]; rewrite hr_S; match goal with |- _ = _ * hom ?co (S ?k) _ _ => rewrite (hom_S co k) end;
    destruct (jrc (2 * p + 2 * q + 2) _) as [[a b] c]; cbn [fst snd]; change (INR 0) with 0.
  - cbn [hr hom]. rewrite hq_hom. ring.
  - rewrite IH1, IH2. ring.
Qed.
Lemma yi_hom v0 v2 i v : yi v0 v2 i 0 0 0 v = hom lco i (v v0) (1 - v v2).
Proof.
  assert (R0 : forall k, INR (2 * S k - 1) / INR (S k) = fst (fst (lco k))) by (intros k; unfold lco; cbn [fst]; rewrite Nat.add_1_r; f_equal; f_equal; lia).
  assert (R1 : forall k, INR k / INR (S k) = snd (lco k)) by (intros k; unfold lco; cbn [snd]; rewrite Nat.add_1_r; reflexivity).
  induction i as [| |i IH1 IH2] using two_step; [reflexivity| |]; rewrite yi_S; cbv zeta; rewrite R0, ?R1; match goal with |- _ = hom lco (S ?k) _ _ => rewrite (hom_S lco k) end; change (INR 0) with 0.
  - cbn [yi hom is0 Nat.eqb andb]. change (snd (fst (lco 0))) with 0. ring.
  - rewrite IH1, IH2. change (snd (fst (lco (S i)))) with 0. ring.
Qed.
Lemma yj_hom v0 v1 v2 i j v : v v2 <> 1 -> yj v0 v1 v2 i j 0 0 0 v = hom lco i (v v0) (1 - v v2) * ((1 - v v2) ^ (j - i) * hom lco j (v v1 / (1 - v v2)) 1).
Proof.
  intros Hv. assert (Hc : 1 - v v2 <> 0) by lra.
  assert (R0 : forall k, INR (2 * S k - 1) / INR (S k) = fst (fst (lco k))) by (intros k; unfold lco; cbn [fst]; rewrite Nat.add_1_r; f_equal; f_equal; lia).
  assert (R1 : forall k, INR k / INR (S k) = snd (lco k)) by (intros k; unfold lco; cbn [snd]; rewrite Nat.add_1_r; reflexivity).
  assert (C00 : combinations 0 0 = 1%nat) by reflexivity.
  induction j as [| |j IH1 IH2] using two_step; [cbn [yj hom Nat.sub pow]; rewrite yi_hom; ring| |]; rewrite yj_S; unfold ystep; cbv zeta; rewrite R0, ?R1;
    match goal with |- _ = _ * (_ * hom lco (S ?k) _ _) => rewrite (hom_S lco k); remember (S k - i)%nat as e eqn:He end; cbn [Nat.sub sum]; rewrite C00; change (INR 0) with 0; change (INR 1) with 1; unfold w; cbn [pow].
  - change (yj v0 v1 v2 i 0) with (yi v0 v2 i). rewrite yi_hom. cbn [hom]. change (snd (fst (lco 0))) with 0. unfold zero3.
    destruct (Nat.leb_spec 1 i) as [L|L].
    + replace e with 0%nat by lia. cbn [pow]. field. exact Hc.
    + replace e with 1%nat by lia. replace i with 0%nat by lia. cbn [Nat.sub pow Nat.add Nat.eqb]. field. exact Hc.
  - rewrite IH1, IH2. change (snd (fst (lco (S j)))) with 0.
    destruct (Nat.leb_spec (S (S j)) i) as [L|L].
    + replace e with 0%nat by lia. replace (S j - i)%nat with 0%nat by lia. replace (j - i)%nat with 0%nat by lia. cbn [pow]. field. exact Hc.
    + destruct (Nat.eqb_spec (i + 1) (S (S j))) as [E|E].
      * replace e with 1%nat by lia. replace (S j - i)%nat with 0%nat by lia. replace (j - i)%nat with 0%nat by lia. cbn [pow]. field. exact Hc.
      * replace e with (S (S (j - i))) by lia. replace (S j - i)%nat with (S (j - i)) by lia. cbn [pow]. field. exact Hc.
Qed.
Lemma yk_hom v0 v1 v2 k i j v : yk v0 v1 v2 k i j 0 0 0 v = yj v0 v1 v2 i j 0 0 0 v * hom (jrc (2 * Nat.max i j + 2)) k (v v2) 1.
Proof.
  induction k as [| |k IH1 IH2] using two_step; [cbn [yk hom]; ring| |]; rewrite yk_S; match goal with |- _ = _ * hom ?co (S ?k) _ _ => rewrite (hom_S co k) end;
    destruct (jrc (2 * Nat.max i j + 2) _) as [[a b] c]; cbn [fst snd]; change (INR 0) with 0.
  - cbn [yk hom]. ring.
  - rewrite IH1, IH2. ring.
Qed.
