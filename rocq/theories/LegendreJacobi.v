(** Orthogonality of polynomials defined by the recurrence of the Jacobi polynomials P^(a,0), for the weight
    (1-x)^a on [0,1]; a = 0 gives the Legendre polynomials.  Proved from the recurrence alone. *)
From Coquelicot Require Import Coquelicot.
From Coq Require Import Arith ZArith Reals Lia Lra List.
Import ListNotations.
Open Scope R_scope.

(** * Integrals of real functions *)
Lemma is_RInt_lin2 (f g : R -> R) u v a b c d : is_RInt f a b u -> is_RInt g a b v -> is_RInt (fun x => c * f x + d * g x) a b (c * u + d * v).
Proof.
  intros Hf Hg. pose proof (is_RInt_plus _ _ _ _ _ _ (is_RInt_scal _ _ _ c _ Hf) (is_RInt_scal _ _ _ d _ Hg)) as H. exact H.
Qed.
Lemma is_RInt_eq (f g : R -> R) a b u v : is_RInt f a b u -> (forall x, Rmin a b < x < Rmax a b -> f x = g x) -> u = v -> is_RInt g a b v.
Proof. intros H E <-. exact (is_RInt_ext f g a b u E H). Qed.
Lemma is_RInt_uniq (f : R -> R) a b u v : is_RInt f a b u -> is_RInt f a b v -> u = v.
Proof. intros H1 H2. rewrite <- (is_RInt_unique _ _ _ _ H1). exact (is_RInt_unique _ _ _ _ H2). Qed.
Lemma ex_int (f : R -> R) a b : (forall x : R, continuous f x) -> exists v, is_RInt f a b v.
Proof. intros H. destruct (ex_RInt_continuous f a b ltac:(intros; apply H)) as [v Hv]. exists v. exact Hv. Qed.

Section Jacobi.
Context (a : nat) (P D : nat -> R -> R).
Local Notation A := (INR a).
Context (HD : forall n x, is_derive (P n) x (D n x)) (HC : forall n x, continuous (D n) x).
Context (P0 : forall x, P 0 x = 1) (P1 : forall x, P 1 x = ((A + 2) * (2 * x - 1) + A) / 2).
Context (D0 : forall x, D 0 x = 0) (D1 : forall x, D 1 x = A + 2).
Context (PS : forall n x, let N := INR (S n) in 2 * (N + 1) * (N + A + 1) * (2 * N + A) * P (S (S n)) x =
   (2 * N + A + 1) * ((2 * N + A + 2) * (2 * N + A) * (2 * x - 1) + A * A) * P (S n) x - 2 * N * (N + A) * (2 * N + A + 2) * P n x).
Context (DS : forall n x, let N := INR (S n) in 2 * (N + 1) * (N + A + 1) * (2 * N + A) * D (S (S n)) x =
   (2 * N + A + 1) * ((2 * N + A + 2) * (2 * N + A) * (2 * x - 1) + A * A) * D (S n) x
   + (2 * N + A + 1) * (2 * N + A + 2) * (2 * N + A) * 2 * P (S n) x - 2 * N * (N + A) * (2 * N + A + 2) * D n x).

Definition lowering n x := let N := INR (S n) in
  2 * (2 * N + A) * (x * (1 - x) * D (S n) x) = N * (A - (2 * N + A) * (2 * x - 1)) * P (S n) x + 2 * N * (N + A) * P n x.
Definition raising n x := let N := INR n in
  2 * (2 * N + A + 2) * (x * (1 - x) * D n x) = (N + A + 1) * (A + (2 * N + A + 2) * (2 * x - 1)) * P n x - 2 * (N + 1) * (N + A + 1) * P (S n) x.
Lemma solve_eq (c y z : R) : c <> 0 -> c * y = z -> y = z / c.
Proof. intros Hc <-. field. exact Hc. Qed.
Lemma relations n x : lowering n x /\ raising n x.
Proof.
  pose proof (pos_INR a) as Ap. unfold lowering, raising. cbv zeta. induction n as [|n [L U]].
  - change (INR 1) with 1. change (INR 0) with 0. rewrite P0, P1, D0, D1. split; field.
  - pose proof (PS n x) as E. pose proof (DS n x) as E'. cbv zeta in E, E'. rewrite !S_INR in *. pose proof (pos_INR n) as Np. set (N := INR n) in *.
    assert (E1 : P (S (S n)) x = ((2 * (N + 1) + A + 1) * ((2 * (N + 1) + A + 2) * (2 * (N + 1) + A) * (2 * x - 1) + A * A) * P (S n) x - 2 * (N + 1) * ((N + 1) + A) * (2 * (N + 1) + A + 2) * P n x) / (2 * ((N + 1) + 1) * ((N + 1) + A + 1) * (2 * (N + 1) + A)))
      by (apply solve_eq; [repeat apply Rmult_integral_contrapositive_currified; lra|exact E]).
    assert (E2 : D (S (S n)) x = ((2 * (N + 1) + A + 1) * ((2 * (N + 1) + A + 2) * (2 * (N + 1) + A) * (2 * x - 1) + A * A) * D (S n) x + (2 * (N + 1) + A + 1) * (2 * (N + 1) + A + 2) * (2 * (N + 1) + A) * 2 * P (S n) x - 2 * (N + 1) * ((N + 1) + A) * (2 * (N + 1) + A + 2) * D n x) / (2 * ((N + 1) + 1) * ((N + 1) + A + 1) * (2 * (N + 1) + A)))
      by (apply solve_eq; [repeat apply Rmult_integral_contrapositive_currified; lra|exact E']).
    apply solve_eq in L; [|apply Rmult_integral_contrapositive_currified; lra].
    apply solve_eq in U; [|apply Rmult_integral_contrapositive_currified; lra].
    split.
    + transitivity (2 * (2 * (N + 1 + 1) + A) * (((2 * (N + 1) + A + 1) * ((2 * (N + 1) + A + 2) * (2 * (N + 1) + A) * (2 * x - 1) + A * A) * (x * (1 - x) * D (S n) x) + (2 * (N + 1) + A + 1) * (2 * (N + 1) + A + 2) * (2 * (N + 1) + A) * 2 * (x * (1 - x)) * P (S n) x - 2 * (N + 1) * ((N + 1) + A) * (2 * (N + 1) + A + 2) * (x * (1 - x) * D n x)) / (2 * ((N + 1) + 1) * ((N + 1) + A + 1) * (2 * (N + 1) + A)))).
      * rewrite E2. field. repeat split; lra.
      * rewrite L, U, E1. field. repeat split; lra.
    + rewrite L, E1. field. repeat split; lra.
Qed.

(** x (1 - x) P_n', without the derivative *)
Definition F n x := match n with O => 0 | S n1 => (INR n * (A - (2 * INR n + A) * (2 * x - 1)) * P n x + 2 * INR n * (INR n + A) * P n1 x) / (2 * (2 * INR n + A)) end.
Definition F' n x := match n with O => 0 | S n1 => (INR n * (- 2 * (2 * INR n + A)) * P n x + INR n * (A - (2 * INR n + A) * (2 * x - 1)) * D n x + 2 * INR n * (INR n + A) * D n1 x) / (2 * (2 * INR n + A)) end.
Lemma F_eq n x : F n x = x * (1 - x) * D n x.
Proof.
  pose proof (pos_INR a) as Ap. destruct n as [|n]; [unfold F; rewrite D0; ring|]. destruct (relations n x) as [L _]. unfold lowering in L. cbv zeta in L.
  apply solve_eq in L; [|rewrite S_INR; pose proof (pos_INR n); apply Rmult_integral_contrapositive_currified; lra]. rewrite L. unfold F. reflexivity.
Qed.
Lemma F_der n x : is_derive (F n) x (F' n x).
Proof.
  destruct n as [|n]; unfold F, F'; [apply @is_derive_const|].
  generalize (HD (S n) x), (HD n x). set (f := P (S n)). set (g := P n). intros Hf Hg.
  set (u := INR (S n)). auto_derive.
  - repeat split; [exists (D (S n) x)|exists (D n x)]; assumption.
  - change (fun x0 => f x0) with f. change (fun x0 => g x0) with g. rewrite (is_derive_unique _ _ _ Hf), (is_derive_unique _ _ _ Hg). unfold Rdiv. ring.
Qed.
Lemma ode n x : x * (1 - x) * (F' n x - A * x * D n x + INR n * (INR n + A + 1) * P n x) = 0.
Proof.
  pose proof (pos_INR a) as Ap. destruct n as [|n]; [unfold F'; rewrite D0; simpl; ring|].
  destruct (relations n x) as [L U]. unfold lowering, raising in L, U. cbv zeta in L, U.
  pose proof (pos_INR n) as Np. rewrite !S_INR in *. 
  apply solve_eq in L; [|apply Rmult_integral_contrapositive_currified; lra].
  apply solve_eq in U; [|apply Rmult_integral_contrapositive_currified; lra].
  unfold F'. rewrite !S_INR. set (N := INR n) in *.
  transitivity ((((N + 1) * (- 2 * (2 * (N + 1) + A)) * P (S n) x * (x * (1 - x)) + (N + 1) * (A - (2 * (N + 1) + A) * (2 * x - 1)) * (x * (1 - x) * D (S n) x) + 2 * (N + 1) * (N + 1 + A) * (x * (1 - x) * D n x)) / (2 * (2 * (N + 1) + A)))
    - A * x * (x * (1 - x) * D (S n) x) + x * (1 - x) * ((N + 1) * (N + 1 + A + 1) * P (S n) x)).
  - field. lra.
  - rewrite L, U. field. lra.
Qed.

Definition W x := (1 - x) ^ a.
Definition W' x := - (INR a * (1 - x) ^ pred a).
Lemma W_der x : is_derive W x (W' x).
Proof.
  unfold W, W'. auto_derive; [exact I|]. unfold Rminus. generalize ((1 + - x) ^ pred a). intros r. ring.
Qed.
Lemma P_cont n x : continuous (P n) x.
Proof. apply (@ex_derive_continuous R_AbsRing R_NormedModule). exists (D n x). apply HD. Qed.
Lemma W_cont x : continuous W x.
Proof. apply (@ex_derive_continuous R_AbsRing R_NormedModule). exists (W' x). apply W_der. Qed.
Lemma W'_cont x : continuous W' x.
Proof. apply (@ex_derive_continuous R_AbsRing R_NormedModule). unfold W'. auto_derive. exact I. Qed.
Lemma cmul (f g : R -> R) x : continuous f x -> continuous g x -> continuous (fun x => f x * g x) x.
Proof. intros Hf Hg. exact (continuous_mult f g x Hf Hg). Qed.
Lemma cadd (f g : R -> R) x : continuous f x -> continuous g x -> continuous (fun x => f x + g x) x.
Proof. intros Hf Hg. exact (continuous_plus f g x Hf Hg). Qed.
Lemma csub (f g : R -> R) x : continuous f x -> continuous g x -> continuous (fun x => f x - g x) x.
Proof. intros Hf Hg. exact (continuous_minus f g x Hf Hg). Qed.
Lemma ccst (c x : R) : continuous (fun _ : R => c) x.
Proof. apply continuous_const. Qed.
Lemma F_cont n x : continuous (F n) x.
Proof. apply (@ex_derive_continuous R_AbsRing R_NormedModule). exists (F' n x). apply F_der. Qed.
Lemma F'_cont n x : continuous (F' n) x.
Proof.
  destruct n as [|n]; unfold F'; [apply ccst|]. unfold Rdiv. apply cmul; [|apply ccst].
  repeat apply cadd; repeat apply cmul; try apply ccst; try apply P_cont; try apply HC.
  apply csub; [apply ccst|]. apply cmul; [apply ccst|]. apply csub; [|apply ccst]. apply cmul; [apply ccst|apply continuous_id].
Qed.

Lemma orthogonal n m : n <> m -> is_RInt (fun x => W x * P n x * P m x) 0 1 0.
Proof.
  intros Hnm. set (lam k := INR k * (INR k + A + 1)).
  set (G x := W x * (F n x * P m x - F m x * P n x)).
  set (G' x := W' x * (F n x * P m x - F m x * P n x) + W x * ((F' n x * P m x + F n x * D m x) - (F' m x * P n x + F m x * D n x))).
  assert (HG : forall x, is_derive G x (G' x)).
  { intros x. unfold G, G'. pose proof (is_derive_mult _ _ x _ _ (F_der n x) (HD m x) Rmult_comm) as H1.
    pose proof (is_derive_mult _ _ x _ _ (F_der m x) (HD n x) Rmult_comm) as H2.
    pose proof (is_derive_minus _ _ x _ _ H1 H2) as H3. exact (is_derive_mult _ _ x _ _ (W_der x) H3 Rmult_comm). }
  assert (CG : forall x, continuous G' x).
  { intros x. unfold G'. apply cadd; apply cmul; try apply W_cont; try apply W'_cont; apply csub; try apply cadd; apply cmul;
      auto using F_cont, F'_cont, P_cont. }
  assert (I1 : is_RInt G' 0 1 (minus (G 1) (G 0))) by (apply (@is_RInt_derive R_CompleteNormedModule G G'); intros; [apply HG|apply CG]).
  assert (G0 : G 0 = 0) by (unfold G; rewrite !F_eq; ring).
  assert (G1 : G 1 = 0) by (unfold G; rewrite !F_eq; ring).
  assert (Z : minus (G 1) (G 0) = 0) by (rewrite G0, G1; unfold minus, plus, opp; simpl; ring). rewrite Z in I1.
  assert (Hl : lam m - lam n <> 0).
  { unfold lam. replace (INR m * (INR m + A + 1) - INR n * (INR n + A + 1)) with ((INR m - INR n) * (INR m + INR n + A + 1)) by ring.
    apply Rmult_integral_contrapositive_currified.
    - intros E. apply Hnm. apply INR_eq. lra.
    - pose proof (pos_INR m). pose proof (pos_INR n). pose proof (pos_INR a). lra. }
  pose proof (is_RInt_scal _ _ _ (/ (lam m - lam n)) _ I1) as I2.
  eapply is_RInt_eq; [exact I2| |unfold scal; simpl; unfold mult; simpl; ring].
  rewrite Rmin_left, Rmax_right by lra. intros x Hx. unfold scal. simpl. unfold mult. simpl.
  assert (Q : forall k, F' k x = A * x * D k x - lam k * P k x).
  { intros k. pose proof (ode k x) as O. apply Rmult_integral in O. destruct O as [O|O]; [exfalso; apply Rmult_integral in O; lra|]. unfold lam. lra. }
  unfold G'. rewrite !Q, !F_eq. 
  assert (WW : W' x * (1 - x) = - A * W x). { unfold W', W. destruct a as [|a']; [simpl; ring|]. cbn [pred]. rewrite <- tech_pow_Rmult. ring. }
  replace (W' x * (x * (1 - x) * D n x * P m x - x * (1 - x) * D m x * P n x)) with ((W' x * (1 - x)) * (x * D n x * P m x - x * D m x * P n x)) by ring.
  rewrite WW. field. exact Hl.
Qed.

Lemma norm n : is_RInt (fun x => W x * P n x * P n x) 0 1 (/ (2 * INR n + A + 1)).
Proof.
  pose proof (pos_INR a) as Ap.
  assert (CC : forall n m x, continuous (fun x => W x * P n x * P m x) x) by (intros; repeat apply cmul; auto using W_cont, P_cont).
  induction n as [|n IH].
  - assert (I1 : is_RInt W 0 1 (minus (- (1 - 1) ^ S a / (A + 1)) (- (1 - 0) ^ S a / (A + 1)))).
    { apply (@is_RInt_derive R_CompleteNormedModule (fun x => - (1 - x) ^ S a / (A + 1)) W); intros x _; [|apply W_cont].
      unfold W. auto_derive; [exact I|]. match goal with |- context [match a with O => _ | S _ => _ end] => change (match a with O => 1 | S _ => INR a + 1 end) with (INR (S a)) end. rewrite S_INR. cbn [pred]. unfold Rminus. generalize ((1 + - x) ^ a). intros r. field. lra. }
    eapply is_RInt_eq; [exact I1| |].
    + intros x _. rewrite P0. ring.
    + unfold minus, plus, opp. simpl. rewrite Rminus_0_r, pow1. field. lra.
  - destruct (ex_int _ 0 1 (CC (S n) (S n))) as [h Hh].
    assert (h = / (2 * INR (S n) + A + 1)); [|subst; exact Hh].
    pose proof (pos_INR n) as Np. rewrite S_INR.
    pose proof (orthogonal (S (S n)) n ltac:(lia)) as O2. pose proof (orthogonal (S n) n ltac:(lia)) as O1.
    destruct n as [|n].
    + change (INR 0) with 0 in *.
      pose (N := 1). assert (al : 2 * (N + 1) * (N + A + 1) * (2 * N + A) <> 0) by (unfold N; repeat apply Rmult_integral_contrapositive_currified; lra).
      pose proof (is_RInt_scal _ _ _ (2 * (N + 1) * (N + A + 1) * (2 * N + A)) _ O2) as I4.
      pose proof (is_RInt_lin2 _ _ _ _ _ _ ((2 * N + A + 1) * (2 * N + A + 2) * 2) 1 Hh
        (is_RInt_lin2 _ _ _ _ _ _ ((2 * N + A + 1) * (A * A - (2 * N + A + 2) * A)) (- (2 * N * (N + A) * (2 * N + A + 2))) O1 IH)) as I3.
      assert (Q : (2 * N + A + 1) * (2 * N + A + 2) * 2 * h + 1 * ((2 * N + A + 1) * (A * A - (2 * N + A + 2) * A) * 0 + - (2 * N * (N + A) * (2 * N + A + 2)) * / (2 * 0 + A + 1)) = 2 * (N + 1) * (N + A + 1) * (2 * N + A) * 0).
      { eapply is_RInt_uniq; [exact I3|]. eapply is_RInt_eq; [exact I4| |reflexivity].
        intros x _. unfold scal. simpl. unfold mult. simpl. pose proof (PS 0 x) as E. cbv zeta in E. change (INR 1) with 1 in E.
        transitivity (W x * P 0 x * (2 * (1 + 1) * (1 + A + 1) * (2 * 1 + A) * P 2 x)); [unfold N; ring|]. rewrite E, !P0, P1. unfold N. field. }
      unfold N in Q. replace (2 * (0 + 1) + A + 1) with (2 * 1 + A + 1) by ring.
      assert (H : h * ((2 * 1 + A + 1) * (2 * 1 + A + 2) * 2) = (2 * 1 * (1 + A) * (2 * 1 + A + 2)) * / (2 * 0 + A + 1)) by lra.
      apply Rmult_eq_reg_r with ((2 * 1 + A + 1) * (2 * 1 + A + 2) * 2); [|repeat apply Rmult_integral_contrapositive_currified; lra].
      rewrite H. field. lra.
    + pose proof (orthogonal (S (S n)) n ltac:(lia)) as O3.
      pose proof (PS (S n)) as EA. pose proof (PS n) as EB. cbv zeta in EA, EB. 
      assert (SN : INR (S n) = INR n + 1) by apply S_INR. assert (SSN : INR (S (S n)) = INR n + 1 + 1) by (rewrite S_INR, SN; reflexivity).
      rewrite SSN in *. rewrite SN in *. pose proof (pos_INR n) as Np'. set (K := INR n) in *.
      (* EA: recurrence for P (n+3), with N = K + 2; EB: for P (n+2), with M = K + 1 *)
      set (N := K + 1 + 1) in *. set (M := K + 1) in *.
      set (t1 := (2 * N + A + 1) * (2 * N + A + 2) * (2 * N + A)).
      set (s1 := (2 * M + A + 1) * (2 * M + A + 2) * (2 * M + A)).
      assert (Hs : s1 <> 0) by (unfold s1, M; repeat apply Rmult_integral_contrapositive_currified; lra).
      pose proof (is_RInt_lin2 _ _ _ _ _ _ (t1 / s1 * (2 * (M + 1) * (M + A + 1) * (2 * M + A))) 1 Hh
        (is_RInt_lin2 _ _ _ _ _ _ ((2 * N + A + 1) * (A * A) - t1 / s1 * (2 * M + A + 1) * (A * A)) 1 O1
        (is_RInt_lin2 _ _ _ _ _ _ (t1 / s1 * (2 * M * (M + A) * (2 * M + A + 2))) (- (2 * N * (N + A) * (2 * N + A + 2))) O3 IH))) as I3.
      pose proof (is_RInt_scal _ _ _ (2 * (N + 1) * (N + A + 1) * (2 * N + A)) _ O2) as I4.
      match type of I3 with is_RInt _ _ _ ?v => assert (Q : v = 2 * (N + 1) * (N + A + 1) * (2 * N + A) * 0) end.
      { eapply is_RInt_uniq; [exact I3|]. eapply is_RInt_eq; [exact I4| |reflexivity].
        intros x _. unfold scal. simpl. unfold mult. simpl.
        transitivity (W x * P (S n) x * (2 * (N + 1) * (N + A + 1) * (2 * N + A) * P (S (S (S n))) x)); [ring|].
        assert (T : (2 * x - 1) * P (S n) x = (2 * (M + 1) * (M + A + 1) * (2 * M + A) * P (S (S n)) x - (2 * M + A + 1) * (A * A) * P (S n) x + 2 * M * (M + A) * (2 * M + A + 2) * P n x) / s1).
        { pose proof (EB x) as EBx. apply solve_eq; [exact Hs|]. unfold N in EBx. rewrite EBx. unfold s1. ring. }
        rewrite (EA x).
        transitivity (W x * (t1 * P (S (S n)) x * ((2 * x - 1) * P (S n) x) + (2 * N + A + 1) * (A * A) * P (S (S n)) x * P (S n) x - 2 * N * (N + A) * (2 * N + A + 2) * P (S n) x * P (S n) x)); [unfold t1; ring|].
        rewrite T. field. exact Hs. }
      assert (Q' : h * (t1 / s1 * (2 * (M + 1) * (M + A + 1) * (2 * M + A))) = (2 * N * (N + A) * (2 * N + A + 2)) * / (2 * M + A + 1)).
      { rewrite !Rmult_0_r, !Rmult_1_l, !Rplus_0_l in Q. lra. }
      assert (Hx : t1 / s1 * (2 * (M + 1) * (M + A + 1) * (2 * M + A)) <> 0).
      { apply Rmult_integral_contrapositive_currified; [apply Rmult_integral_contrapositive_currified; [|apply Rinv_neq_0_compat; exact Hs]|].
        - unfold t1, N, M. repeat apply Rmult_integral_contrapositive_currified; lra.
        - unfold M. repeat apply Rmult_integral_contrapositive_currified; lra. }
      apply Rmult_eq_reg_r with (2 := Hx). rewrite Q'. unfold t1, s1, N, M. field. repeat split; lra.
Qed.
End Jacobi.
