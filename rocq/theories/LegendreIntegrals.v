(** Integrals of products of two polynomials of row 0, cell by cell. *)
From Coquelicot Require Import Coquelicot.
From Coq Require Import String Arith ZArith Reals Lia Lra Bool List.
From Verif Require Import Base PolyLib PolySetsModel PolyVec LinAlg LegendreModel LegendreSpec LegendreTables LegendreProofs LegendreTet LegendreRows LegendrePyramid LegendreDeriv LegendreJacobi LegendreOrtho LegendreIntSpec.
From Verif Require ReferencesModel.
Import ListNotations.
Open Scope R_scope.

Ltac req := match goal with |- @eq _ ?a ?b => change (@eq R a b) end.
Lemma iterated_ext' lims : forall F F' v I, (forall e, F e = F' e) -> iterated_integral lims F v I -> iterated_integral lims F' v I.
Proof.
  induction lims as [|[[k lo] hi] ls IH]; intros F F' v I E; cbn [iterated_integral]; [intros <-; symmetry; apply E|].
  intros (G & H1 & H2). exists G. split; [|exact H2]. intros e. eapply is_RInt_eq; [apply H1| |reflexivity]. intros x _. apply E.
Qed.

Lemma int_scal (k : R) f a b I : is_RInt f a b I -> is_RInt (fun x => k * f x) a b (k * I).
Proof. intros H. exact (is_RInt_scal f a b k I H). Qed.
Lemma int_plus (f g : R -> R) a b I J : is_RInt f a b I -> is_RInt g a b J -> is_RInt (fun x => f x + g x) a b (I + J).
Proof. intros H K. exact (is_RInt_plus f g a b I J H K). Qed.

(** * Exchanging the order of integration over the triangle, for polynomials *)
Definition tri_xy (F : R -> R -> R) (I : R) : Prop := exists G, (forall y, is_RInt (fun x => F x y) 0 (1 - y) (G y)) /\ is_RInt G 0 1 I.
Definition tri_yx (F : R -> R -> R) (I : R) : Prop := exists G, (forall x, is_RInt (fun y => F x y) 0 (1 - x) (G x)) /\ is_RInt G 0 1 I.
Definition swap (F : R -> R -> R) : Prop := exists I, tri_xy F I /\ tri_yx F I.
Lemma int_pow n c : is_RInt (fun x => x ^ n) 0 c (c ^ S n / INR (S n)).
Proof.
  assert (N : INR (S n) <> 0) by (apply not_0_INR; discriminate).
  eapply is_RInt_eq; [apply (@is_RInt_derive R_CompleteNormedModule (fun x => x ^ S n / INR (S n)) (fun x => x ^ n))| |].
  - intros x _. auto_derive; [exact I|]. change (match n with O => 1 | S _ => INR n + 1 end) with (INR (S n)). change (Init.Nat.pred (S n)) with n. req; field. exact N.
  - intros x _. apply (@ex_derive_continuous R_AbsRing R_NormedModule). auto_derive. exact I.
  - intros x _. reflexivity.
  - unfold minus, plus, opp. simpl pow. cbn -[INR pow]. req; field. exact N.
Qed.
Fixpoint beta (i k : nat) : R := match k with O => / INR (S i) | S k' => INR k / INR (S i) * beta (S i) k' end.
Lemma beta_int k : forall i, is_RInt (fun x => x ^ i * (1 - x) ^ k) 0 1 (beta i k).
Proof.
  induction k as [|k IH]; intros i; assert (N : INR (S i) <> 0) by (apply not_0_INR; discriminate).
  - eapply is_RInt_eq; [apply (int_pow i 1)| |]; [intros x _; simpl; req; ring|cbn [beta]; rewrite pow1; req; field; exact N].
  - assert (H : is_RInt (fun x => INR (S i) * (x ^ i * (1 - x) ^ S k) + - INR (S k) * (x ^ S i * (1 - x) ^ k)) 0 1 0).
    { eapply is_RInt_eq; [apply (@is_RInt_derive R_CompleteNormedModule (fun x => x ^ S i * (1 - x) ^ S k) (fun x => INR (S i) * (x ^ i * (1 - x) ^ S k) + - INR (S k) * (x ^ S i * (1 - x) ^ k)))| |].
      - intros x _. auto_derive; [exact I|]. change (match i with O => 1 | S _ => INR i + 1 end) with (INR (S i)). change (match k with O => 1 | S _ => INR k + 1 end) with (INR (S k)).
        change (Init.Nat.pred (S i)) with i. change (Init.Nat.pred (S k)) with k. cbn [pow]. unfold Rminus. generalize ((1 + - x) ^ k) (x ^ i). intros. req; ring.
      - intros x _. apply (@ex_derive_continuous R_AbsRing R_NormedModule). auto_derive. exact I.
      - intros x _. reflexivity.
      - unfold minus, plus, opp. cbn -[INR]. req; ring. }
    pose proof (int_plus _ _ _ _ _ _ (int_scal (/ INR (S i)) _ _ _ _ H) (int_scal (INR (S k) / INR (S i)) _ _ _ _ (IH (S i)))) as H2.
    eapply is_RInt_eq; [exact H2| |].
    + intros x _. cbn beta. req; field. exact N.
    + cbn [beta]. req; ring.
Qed.
Lemma beta_fact k : forall i, beta i k * INR (fact (i + k + 1)) = INR (fact i) * INR (fact k).
Proof.
  induction k as [|k IH]; intros i; assert (N : INR (S i) <> 0) by (apply not_0_INR; discriminate); cbn [beta].
  - replace (i + 0 + 1)%nat with (S i) by lia. rewrite fact_simpl, mult_INR. change (INR (fact 0)) with 1. req; field. exact N.
  - specialize (IH (S i)). replace (S i + k + 1)%nat with (i + S k + 1)%nat in IH by lia.
    rewrite Rmult_assoc, IH, (fact_simpl i), (fact_simpl k), !mult_INR. req; field. exact N.
Qed.
Lemma swap_mono i j : swap (fun x y => x ^ i * y ^ j).
Proof.
  exists (/ INR (S i) * beta j (S i)). split.
  - exists (fun y => / INR (S i) * (y ^ j * (1 - y) ^ S i)). split; [|apply int_scal, beta_int].
    intros y. eapply is_RInt_eq; [apply (int_scal (y ^ j)), (int_pow i (1 - y))| |]; [intros x _; cbv beta; req; ring|unfold Rdiv; req; ring].
  - replace (/ INR (S i) * beta j (S i)) with (/ INR (S j) * beta i (S j)).
    + exists (fun x => / INR (S j) * (x ^ i * (1 - x) ^ S j)). split; [|apply int_scal, beta_int].
      intros x. eapply is_RInt_eq; [apply (int_scal (x ^ i)), int_pow| |]; [intros y _; reflexivity|unfold Rdiv; req; ring].
    + apply (Rmult_eq_reg_r (INR (fact (i + j + 2)))); [|apply INR_fact_neq_0].
      pose proof (beta_fact (S j) i) as H1. pose proof (beta_fact (S i) j) as H2. replace (i + S j + 1)%nat with (i + j + 2)%nat in H1 by lia. replace (j + S i + 1)%nat with (i + j + 2)%nat in H2 by lia.
      rewrite !Rmult_assoc, H1, H2, (fact_simpl i), (fact_simpl j), !mult_INR. req; field. split; apply not_0_INR; discriminate.
Qed.
Lemma swap_ext F F' : (forall x y, F x y = F' x y) -> swap F -> swap F'.
Proof.
  intros E (I & (G & A & B) & (G' & A' & B')). exists I. split; [exists G|exists G']; (split; [|assumption]).
  - intros y. eapply is_RInt_eq; [apply A| |reflexivity]. intros x _. apply E.
  - intros x. eapply is_RInt_eq; [apply A'| |reflexivity]. intros y _. apply E.
Qed.
Lemma swap_plus F F' : swap F -> swap F' -> swap (fun x y => F x y + F' x y).
Proof.
  intros (I & (G & A & B) & (G1 & A1 & B1)) (J & (G2 & A2 & B2) & (G3 & A3 & B3)). exists (I + J). split.
  - exists (fun y => G y + G2 y). split; [intros y; apply int_plus; auto|apply int_plus; assumption].
  - exists (fun x => G1 x + G3 x). split; [intros y; apply int_plus; auto|apply int_plus; assumption].
Qed.
Lemma swap_scal k F : swap F -> swap (fun x y => k * F x y).
Proof.
  intros (I & (G & A & B) & (G1 & A1 & B1)). exists (k * I). split.
  - exists (fun y => k * G y). split; [intros y; apply int_scal; auto|apply int_scal; assumption].
  - exists (fun x => k * G1 x). split; [intros y; apply int_scal; auto|apply int_scal; assumption].
Qed.
Definition ev (l : list (R * (nat * nat))) (x y : R) : R := fold_right (fun c s => fst c * (x ^ fst (snd c) * y ^ snd (snd c)) + s) 0 l.
Lemma swap_ev l : swap (ev l).
Proof.
  induction l as [|[c [i j]] l IH].
  - eapply swap_ext; [|apply (swap_scal 0), (swap_mono 0 0)]. intros x y. cbn. req; ring.
  - apply (swap_plus (fun x y => c * (x ^ i * y ^ j)) (ev l)); [apply swap_scal, swap_mono|exact IH].
Qed.
Definition poly2 (F : R -> R -> R) : Prop := exists l, forall x y, F x y = ev l x y.
Lemma ev_cons c l x y : ev (c :: l) x y = fst c * (x ^ fst (snd c) * y ^ snd (snd c)) + ev l x y.
Proof. reflexivity. Qed.
Lemma ev_app l l' x y : ev (l ++ l') x y = ev l x y + ev l' x y.
Proof. induction l as [|c l IH]; [change (ev l' x y = 0 + ev l' x y); ring|]. rewrite <- app_comm_cons, !ev_cons, IH. ring. Qed.
Lemma poly2_ext F F' : (forall x y, F' x y = F x y) -> poly2 F -> poly2 F'.
Proof. intros E (l & H). exists l. intros x y. rewrite E. apply H. Qed.
Lemma poly2_plus F F' : poly2 F -> poly2 F' -> poly2 (fun x y => F x y + F' x y).
Proof. intros (l & H) (l' & H'). exists (l ++ l'). intros x y. rewrite ev_app, H, H'. reflexivity. Qed.
Lemma poly2_mono c i j : poly2 (fun x y => c * (x ^ i * y ^ j)).
Proof. exists [(c, (i, j))]. intros x y. cbn. req; ring. Qed.
Lemma poly2_mult F F' : poly2 F -> poly2 F' -> poly2 (fun x y => F x y * F' x y).
Proof.
  intros (l & H) (l' & H'). exists (flat_map (fun c => map (fun d => (fst c * fst d, ((fst (snd c) + fst (snd d))%nat, (snd (snd c) + snd (snd d))%nat))) l') l).
  intros x y. rewrite H, H'. clear. induction l as [|c l IH]; [change (0 * ev l' x y = 0); ring|]. cbn [flat_map]. rewrite ev_app, <- IH, ev_cons, Rmult_plus_distr_r. f_equal. clear.
  induction l' as [|d l' IH]; [change (ev [] x y) with 0; cbn [map]; change (ev [] x y) with 0; ring|]. cbn [map]. rewrite !ev_cons, <- IH. cbn [fst snd]. rewrite !pow_add. ring.
Qed.
Lemma poly2_const c : poly2 (fun _ _ => c).
Proof. eapply poly2_ext; [|apply (poly2_mono c 0 0)]. intros. cbn. req; ring. Qed.
Lemma poly2_x : poly2 (fun x _ => x).
Proof. eapply poly2_ext; [|apply (poly2_mono 1 1 0)]. intros. cbn. req; ring. Qed.
Lemma poly2_y : poly2 (fun _ y => y).
Proof. eapply poly2_ext; [|apply (poly2_mono 1 0 1)]. intros. cbn. req; ring. Qed.
Lemma poly2_hom co n (X C : R -> R -> R) : poly2 X -> poly2 C -> poly2 (fun x y => hom co n (X x y) (C x y)).
Proof.
  intros HX HC.
  assert (L : forall a b, poly2 (fun x y => (2 * X x y - C x y) * a + C x y * b)).
  { intros a b. eapply poly2_ext; [|apply (poly2_plus _ _ (poly2_mult _ _ (poly2_const (2 * a)) HX) (poly2_mult _ _ (poly2_const (b - a)) HC))]. intros. cbn. req; ring. }
  induction n as [| |n IH1 IH2] using two_step; [exact (poly2_const 1)| |].
  - eapply poly2_ext; [|apply (L (fst (fst (co 0%nat))) (snd (fst (co 0%nat))))]. intros. rewrite hom_S. cbn [hom]. req; ring.
  - eapply poly2_ext; [|exact (poly2_plus _ _ (poly2_mult _ _ IH2 (L (fst (fst (co (S n)))) (snd (fst (co (S n)))))) (poly2_mult _ _ IH1 (poly2_mult _ _ (poly2_mult _ _ HC HC) (poly2_const (- snd (co (S n)))))))].
    intros. rewrite (hom_S co (S n)). cbn. req; ring.
Qed.
Lemma poly2_swap F : poly2 F -> swap F.
Proof. intros (l & H). eapply swap_ext; [|apply (swap_ev l)]. intros. symmetry. apply H. Qed.
Lemma swapped F I : swap F -> tri_xy F I -> tri_yx F I.
Proof.
  intros (J & (G & A & B) & H) (G' & A' & B'). replace I with J; [exact H|].
  eapply is_RInt_uniq; [exact B|]. eapply is_RInt_eq; [exact B'| |reflexivity]. intros x _. eapply is_RInt_uniq; [apply A'|apply A].
Qed.

(** * The integrals on the cells *)
Definition delta (b : bool) (x : R) : R := if b then x else 0.
Lemma delta_mul b c x y : delta b x * delta c y = delta (b && c) (x * y).
Proof. destruct b, c; cbn; ring. Qed.
Lemma delta_scal b x y : x * delta b y = delta b (x * y).
Proof. destruct b; cbn; ring. Qed.
Section Cells.
Context (v0 v1 v2 : nat).
Lemma interval_int n m v : iterated_integral (with_variables [v0] [(0%nat, (fun _ => 0), (fun _ => 1))])
   (fun v => gi v0 n 0 v * gi v0 m 0 v) v (delta (Nat.eqb n m) (/ (2 * INR n + 1))).
Proof.
  cbn [with_variables map iterated_integral nth]. eexists (fun _ => _). split; [|reflexivity]. intros e.
  eapply is_RInt_eq; [exact (leg_integral n m 1)| |].
  - intros x _. rewrite !gi_hom, upd_same. reflexivity.
  - unfold delta. destruct (Nat.eqb n m); [|reflexivity]. rewrite pow1. unfold Rdiv. req; ring.
Qed.
Lemma gi_int k n m (e : point) : is_RInt (fun s => gi k n 0 (upd e k s) * gi k m 0 (upd e k s)) 0 1 (delta (Nat.eqb n m) (/ (2 * INR n + 1))).
Proof.
  eapply is_RInt_eq; [exact (leg_integral n m 1)| |].
  - intros x _. rewrite !gi_hom, upd_same. reflexivity.
  - unfold delta. destruct (Nat.eqb n m); [|reflexivity]. rewrite pow1. unfold Rdiv. req; ring.
Qed.
Lemma quad_int a b a' b' v : v0 <> v1 -> iterated_integral (with_variables [v0; v1] [(1%nat, (fun _ => 0), (fun _ => 1)); (0%nat, (fun _ => 0), (fun _ => 1))])
   (fun v => (gi v0 a 0 v * gi v1 b 0 v) * (gi v0 a' 0 v * gi v1 b' 0 v)) v
   (delta (Nat.eqb a a' && Nat.eqb b b') (/ (2 * INR a + 1) * / (2 * INR b + 1))).
Proof.
  intros N. cbn [with_variables map iterated_integral nth]. exists (fun e => gi v0 a 0 e * gi v0 a' 0 e * delta (Nat.eqb b b') (/ (2 * INR b + 1))). split.
  - intros e. eapply is_RInt_eq; [apply (int_scal (gi v0 a 0 e * gi v0 a' 0 e)), (gi_int v1 b b' e)| |reflexivity].
    intros x _. rewrite !(gi_indep v0 v1) by exact N. cbv beta. req; ring.
  - eexists (fun _ => _). split; [|reflexivity]. intros e. eapply is_RInt_eq; [apply (int_scal (delta (Nat.eqb b b') (/ (2 * INR b + 1)))), (gi_int v0 a a' e)| |].
    + intros x _. cbv beta. req; ring.
    + rewrite Rmult_comm, delta_mul. reflexivity.
Qed.
Lemma hex_int a b c a' b' c' v : v0 <> v1 -> v0 <> v2 -> v1 <> v2 ->
   iterated_integral (with_variables [v0; v1; v2] [(2%nat, (fun _ => 0), (fun _ => 1)); (1%nat, (fun _ => 0), (fun _ => 1)); (0%nat, (fun _ => 0), (fun _ => 1))])
   (fun v => (gi v0 a 0 v * gi v1 b 0 v * gi v2 c 0 v) * (gi v0 a' 0 v * gi v1 b' 0 v * gi v2 c' 0 v)) v
   (delta (Nat.eqb a a' && Nat.eqb b b' && Nat.eqb c c') (/ (2 * INR a + 1) * / (2 * INR b + 1) * / (2 * INR c + 1))).
Proof.
  intros N N' N''. set (lims := with_variables [v0; v1; v2] _).
  assert (Q := quad_int a b a' b' v N). cbn [with_variables map iterated_integral nth] in Q. destruct Q as (G & H1 & G' & H2 & H3).
  unfold lims. cbn [with_variables map iterated_integral nth].
  set (d := delta (Nat.eqb c c') (/ (2 * INR c + 1))).
  exists (fun e => d * (gi v0 a 0 e * gi v1 b 0 e * (gi v0 a' 0 e * gi v1 b' 0 e))). split.
  - intros e. eapply is_RInt_eq; [apply (int_scal (gi v0 a 0 e * gi v1 b 0 e * (gi v0 a' 0 e * gi v1 b' 0 e))), (gi_int v2 c c' e)| |apply Rmult_comm].
    intros x _. rewrite !(gi_indep v0 v2), !(gi_indep v1 v2) by assumption. cbv beta. req; ring.
  - exists (fun e => d * G e). split; [intros e; apply (int_scal d), H1|]. exists (fun e => d * G' e). split; [intros e; apply (int_scal d), H2|].
    rewrite H3. unfold d. rewrite Rmult_comm, delta_mul. reflexivity.
Qed.
(** triangle *)
Definition ntri (q p : nat) : R := / (2 * INR p + 1) * / (2 * INR q + INR (2 * p + 1) + 1).
Lemma tri_int_xy q p q' p' : tri_xy (fun x y => (hom lco p x (1 - y) * hom (jrc (2 * p + 1)) q y 1) * (hom lco p' x (1 - y) * hom (jrc (2 * p' + 1)) q' y 1)) (delta (Nat.eqb p p' && Nat.eqb q q') (ntri q p)).
Proof.
  exists (fun y => hom (jrc (2 * p + 1)) q y 1 * hom (jrc (2 * p' + 1)) q' y 1 * delta (Nat.eqb p p') ((1 - y) ^ (2 * p + 1) / (2 * INR p + 1))). split.
  - intros y. eapply is_RInt_eq; [apply (int_scal (hom (jrc (2 * p + 1)) q y 1 * hom (jrc (2 * p' + 1)) q' y 1)), (leg_integral p p' (1 - y))| |reflexivity].
    intros x _. cbv beta. req; ring.
  - destruct (Nat.eqb_spec p p') as [<-|N]; cbn [delta andb].
    + eapply is_RInt_eq; [apply (int_scal (/ (2 * INR p + 1))), (hom_integral (2 * p + 1) (jrc (2 * p + 1)) (jrc_ok (2 * p + 1) ltac:(lia)) q q' 1)| |].
      * intros x _. cbv beta. unfold Rdiv. req; ring.
      * unfold ntri, delta. destruct (Nat.eqb q q'); rewrite ?pow1; unfold Rdiv; req; ring.
    + eapply is_RInt_eq; [apply (int_scal 0), (int_pow 0 1)| |]; [intros x _; cbv beta|]; req; ring.
Qed.
Lemma tri_int_yx q p q' p' : tri_yx (fun x y => (hom lco p x (1 - y) * hom (jrc (2 * p + 1)) q y 1) * (hom lco p' x (1 - y) * hom (jrc (2 * p' + 1)) q' y 1)) (delta (Nat.eqb p p' && Nat.eqb q q') (ntri q p)).
Proof.
  apply swapped; [|apply tri_int_xy]. apply poly2_swap.
  assert (C : poly2 (fun x y => 1 - y)). { eapply poly2_ext; [|apply (poly2_plus _ _ (poly2_const 1) (poly2_mult _ _ (poly2_const (-1)) poly2_y))]. intros. cbv beta. ring. }
  apply (poly2_mult (fun x y => hom lco p x (1 - y) * hom (jrc (2 * p + 1)) q y 1) (fun x y => hom lco p' x (1 - y) * hom (jrc (2 * p' + 1)) q' y 1));
    [apply (poly2_mult (fun x y => hom lco p x (1 - y)) (fun x y => hom (jrc (2 * p + 1)) q y 1))|apply (poly2_mult (fun x y => hom lco p' x (1 - y)) (fun x y => hom (jrc (2 * p' + 1)) q' y 1))];
    apply (poly2_hom _ _ (fun x y => _) (fun x y => _)); first [exact poly2_x|exact poly2_y|exact C|exact (poly2_const 1)].
Qed.
Lemma triangle_int q p q' p' v : v0 <> v1 -> iterated_integral (with_variables [v0; v1] [(1%nat, (fun _ => 0), (fun e => 1 - e 0%nat)); (0%nat, (fun _ => 0), (fun _ => 1))])
   (fun v => tq v0 v1 q p 0 0 v * tq v0 v1 q' p' 0 0 v) v (delta (Nat.eqb p p' && Nat.eqb q q') (ntri q p)).
Proof.
  intros N. destruct (tri_int_yx q p q' p') as (G & A & B). cbn [with_variables map iterated_integral nth].
  exists (fun e => G (e v0)). split.
  - intros e. eapply is_RInt_eq; [exact (A (e v0))| |reflexivity]. intros x _. rewrite !tq_hom, upd_same, upd_other by exact N. reflexivity.
  - eexists (fun _ => _). split; [|reflexivity]. intros e. eapply is_RInt_eq; [exact B| |reflexivity]. intros x _. rewrite upd_same. reflexivity.
Qed.
Lemma prism_int q p c q' p' c' v : v0 <> v1 -> v0 <> v2 -> v1 <> v2 ->
  iterated_integral (with_variables [v0; v1; v2] [(2%nat, (fun _ => 0), (fun _ => 1)); (1%nat, (fun _ => 0), (fun e => 1 - e 0%nat)); (0%nat, (fun _ => 0), (fun _ => 1))])
   (fun v => (tq v0 v1 q p 0 0 v * gi v2 c 0 v) * (tq v0 v1 q' p' 0 0 v * gi v2 c' 0 v)) v
   (delta (Nat.eqb p p' && Nat.eqb q q' && Nat.eqb c c') (ntri q p * / (2 * INR c + 1))).
Proof.
  intros N N' N''. set (lims := with_variables [v0; v1; v2] _).
  assert (Q := triangle_int q p q' p' v N). cbn [with_variables map iterated_integral nth] in Q. destruct Q as (G & H1 & G' & H2 & H3).
  unfold lims. cbn [with_variables map iterated_integral nth].
  set (d := delta (Nat.eqb c c') (/ (2 * INR c + 1))).
  exists (fun e => d * (tq v0 v1 q p 0 0 e * tq v0 v1 q' p' 0 0 e)). split.
  - intros e. eapply is_RInt_eq; [apply (int_scal (tq v0 v1 q p 0 0 e * tq v0 v1 q' p' 0 0 e)), (gi_int v2 c c' e)| |apply Rmult_comm].
    intros x _. rewrite !(tq_indep v0 v1 v2) by assumption. cbv beta. req; ring.
  - exists (fun e => d * G e). split; [intros e; apply (int_scal d), H1|]. exists (fun e => d * G' e). split; [intros e; apply (int_scal d), H2|].
    rewrite H3. unfold d. rewrite Rmult_comm, delta_mul. reflexivity.
Qed.
(** tetrahedron *)
Lemma int_zero a b : is_RInt (fun _ => 0) a b 0.
Proof. eapply is_RInt_eq; [apply (is_RInt_const a b 0)|reflexivity|]. unfold scal. cbn. unfold mult. cbn. ring. Qed.
Definition ntet (r q p : nat) : R := / (2 * INR p + 1) * / (2 * INR q + INR (2 * p + 1) + 1) * / (2 * INR r + INR (2 * p + 2 * q + 2) + 1).
Lemma tetrahedron_int r q p r' q' p' v : v0 <> v1 -> v0 <> v2 -> v1 <> v2 ->
  iterated_integral (with_variables [v0; v1; v2] [(0%nat, (fun _ => 0), (fun e => 1 - e 1%nat - e 2%nat)); (1%nat, (fun _ => 0), (fun e => 1 - e 2%nat)); (2%nat, (fun _ => 0), (fun _ => 1))])
   (fun v => hr v0 v1 v2 r q p 0 0 0 v * hr v0 v1 v2 r' q' p' 0 0 0 v) v
   (delta (Nat.eqb p p' && Nat.eqb q q' && Nat.eqb r r') (ntet r q p)).
Proof.
  intros N N' N''. cbn [with_variables map iterated_integral nth].
  set (Q := fun y z => hom (jrc (2 * p + 1)) q y (1 - z) * hom (jrc (2 * p' + 1)) q' y (1 - z)).
  set (Z := fun z => hom (jrc (2 * p + 2 * q + 2)) r z 1 * hom (jrc (2 * p' + 2 * q' + 2)) r' z 1).
  exists (fun e => Q (e v1) (e v2) * Z (e v2) * delta (Nat.eqb p p') ((1 - e v1 - e v2) ^ (2 * p + 1) / (2 * INR p + 1))). split.
  { intros e. eapply is_RInt_eq; [apply (int_scal (Q (e v1) (e v2) * Z (e v2))), (leg_integral p p' (1 - e v1 - e v2))| |reflexivity].
    intros x _. rewrite !hr_hom, upd_same, !upd_other by auto. unfold Q, Z. cbv beta. req; ring. }
  exists (fun e => Z (e v2) * delta (Nat.eqb p p' && Nat.eqb q q') ((1 - e v2) ^ (2 * p + 2 * q + 2) * (/ (2 * INR p + 1) * / (2 * INR q + INR (2 * p + 1) + 1)))). split.
  { intros e. destruct (Nat.eqb_spec p p') as [<-|Np]; cbn [delta andb].
    - eapply is_RInt_eq; [apply (int_scal (Z (e v2) * / (2 * INR p + 1))), (hom_integral (2 * p + 1) (jrc (2 * p + 1)) (jrc_ok (2 * p + 1) ltac:(lia)) q q' (1 - e v2))| |].
      + intros x _. rewrite upd_same, !upd_other by auto. unfold Q. cbv beta. replace (1 - x - e v2) with (1 - e v2 - x) by ring. unfold Rdiv. req; ring.
      + unfold delta. destruct (Nat.eqb q q'); [|req; ring]. replace (2 * q + (2 * p + 1) + 1)%nat with (2 * p + 2 * q + 2)%nat by lia. unfold Rdiv. req; ring.
    - eapply is_RInt_eq; [apply int_zero| |]; [intros x _|]; cbv beta; unfold delta; req; ring. }
  eexists (fun _ => _). split; [|reflexivity]. intros e. unfold Z.
  destruct (Nat.eqb_spec p p') as [<-|Np]; cbn [delta andb].
  - destruct (Nat.eqb_spec q q') as [<-|Nq]; cbn [delta andb].
    + eapply is_RInt_eq; [apply (int_scal (/ (2 * INR p + 1) * / (2 * INR q + INR (2 * p + 1) + 1))), (hom_integral (2 * p + 2 * q + 2) (jrc (2 * p + 2 * q + 2)) (jrc_ok (2 * p + 2 * q + 2) ltac:(lia)) r r' 1)| |].
      * intros x _. rewrite upd_same. cbv beta. req; ring.
      * unfold ntet, delta. destruct (Nat.eqb r r'); rewrite ?pow1; unfold Rdiv; req; ring.
    + eapply is_RInt_eq; [apply int_zero| |]; [intros x _|]; cbv beta; unfold delta; req; ring.
  - eapply is_RInt_eq; [apply int_zero| |]; [intros x _|]; cbv beta; unfold delta; req; ring.
Qed.
(** pyramid *)
Definition npyr (k i j : nat) : R := / (2 * INR i + 1) * / (2 * INR j + 1) * / (2 * INR k + INR (2 * Nat.max i j + 2) + 1).
Lemma pyramid_int k i j k' i' j' v : v0 <> v1 -> v0 <> v2 -> v1 <> v2 ->
  iterated_integral (with_variables [v0; v1; v2] [(0%nat, (fun _ => 0), (fun e => 1 - e 2%nat)); (1%nat, (fun _ => 0), (fun e => 1 - e 2%nat)); (2%nat, (fun _ => 0), (fun _ => 1))])
   (fun v => yk v0 v1 v2 k i j 0 0 0 v * yk v0 v1 v2 k' i' j' 0 0 0 v) v
   (delta (Nat.eqb i i' && Nat.eqb j j' && Nat.eqb k k') (npyr k i j)).
Proof.
  intros N N' N''. cbn [with_variables map iterated_integral nth].
  set (Y := fun y c => (c ^ (j - i) * hom lco j (y / c) 1) * (c ^ (j' - i') * hom lco j' (y / c) 1)).
  set (Z := fun z => hom (jrc (2 * Nat.max i j + 2)) k z 1 * hom (jrc (2 * Nat.max i' j' + 2)) k' z 1).
  exists (fun e => Z (e v2) * Y (e v1) (1 - e v2) * delta (Nat.eqb i i') ((1 - e v2) ^ (2 * i + 1) / (2 * INR i + 1))). split.
  { intros e. destruct (Req_dec (1 - e v2) 0) as [E|E].
    - replace (delta _ _) with 0; [rewrite Rmult_0_r; rewrite E; exact (@is_RInt_point R_NormedModule _ 0)|].
      rewrite E, Nat.add_1_r. unfold delta, Rdiv. destruct (Nat.eqb i i'); [cbn [pow]; ring|reflexivity].
    - eapply is_RInt_eq; [apply (int_scal (Z (e v2) * Y (e v1) (1 - e v2))), (leg_integral i i' (1 - e v2))| |reflexivity].
      intros x _. rewrite !yk_hom, !yj_hom by (rewrite upd_other by auto; intros X; apply E; rewrite X; ring). rewrite upd_same, !upd_other by auto. unfold Y, Z. cbv beta. req; ring. }
  exists (fun e => Z (e v2) * delta (Nat.eqb i i' && Nat.eqb j j') ((1 - e v2) ^ (2 * Nat.max i j + 2) * (/ (2 * INR i + 1) * / (2 * INR j + 1)))). split.
  { intros e. destruct (Nat.eqb_spec i i') as [<-|Np]; cbn [delta andb].
    - destruct (Req_dec (1 - e v2) 0) as [E|E].
      + replace (delta _ _) with 0; [rewrite Rmult_0_r; rewrite E; exact (@is_RInt_point R_NormedModule _ 0)|].
        rewrite E. unfold delta. destruct (Nat.eqb j j'); [|reflexivity]. replace (2 * Nat.max i j + 2)%nat with (S (2 * Nat.max i j + 1)) by lia. cbn [pow]. ring.
      + pose proof (leg_integral j j' (1 - e v2)) as L. set (c := 1 - e v2) in *.
        eapply is_RInt_eq; [apply (int_scal (Z (e v2) * c ^ (2 * i + 1) * / (2 * INR i + 1) * c ^ (j - i) * c ^ (j' - i) * / c ^ j * / c ^ j')), L| |].
        * intros x _. rewrite upd_same, !upd_other by auto. unfold Y. cbv beta. fold c. rewrite (hom_scale lco j x c E), (hom_scale lco j' x c E).
          assert (c ^ j <> 0) by (apply pow_nonzero, E). assert (c ^ j' <> 0) by (apply pow_nonzero, E). pose proof (pos_INR i). req; field. repeat split; lra.
        * unfold delta. destruct (Nat.eqb_spec j j') as [<-|Nj]; [|req; ring].
          assert (Hj : c ^ j <> 0) by (apply pow_nonzero, E). pose proof (pos_INR i). pose proof (pos_INR j).
          replace (2 * j + 1)%nat with (j + j + 1)%nat by lia. rewrite (pow_add c (j + j) 1), (pow_add c j j).
          replace (c ^ (2 * Nat.max i j + 2)) with (c ^ (2 * i + 1) * c ^ (j - i) * c ^ (j - i) * c ^ 1) by (rewrite <- !pow_add; f_equal; lia).
          req; field. repeat split; lra.
    - eapply is_RInt_eq; [apply int_zero| |]; [intros x _|]; cbv beta; unfold delta; req; ring. }
  eexists (fun _ => _). split; [|reflexivity]. intros e. unfold Z.
  destruct (Nat.eqb_spec i i') as [<-|Np]; cbn [delta andb].
  - destruct (Nat.eqb_spec j j') as [<-|Nq]; cbn [delta andb].
    + eapply is_RInt_eq; [apply (int_scal (/ (2 * INR i + 1) * / (2 * INR j + 1))), (hom_integral (2 * Nat.max i j + 2) (jrc (2 * Nat.max i j + 2)) (jrc_ok (2 * Nat.max i j + 2) ltac:(lia)) k k' 1)| |].
      * intros x _. rewrite upd_same. cbv beta. req; ring.
      * unfold npyr, delta. destruct (Nat.eqb k k'); rewrite ?pow1; unfold Rdiv; req; ring.
    + eapply is_RInt_eq; [apply int_zero| |]; [intros x _|]; cbv beta; unfold delta; req; ring.
  - eapply is_RInt_eq; [apply int_zero| |]; [intros x _|]; cbv beta; unfold delta; req; ring.
Qed.
End Cells.
