(** The points and weights of Kong-Mulder-Veldhuizen elements. *)
From Coquelicot Require Import Coquelicot.
From Coq Require Import String Reals ZArith Arith Bool Lia Lra List.
From Verif Require LinAlg CiarletModel CiarletProofs ReferencesModel.
From Verif Require Import Base PolyLib PolySetsModel PolySetsProofs PolyVec UnisolvenceProofs LegendreJacobi LegendreIntSpec LegendreIntegrals.
From Verif Require Import FunctionsModel FunctionsSpec FunctionalsModel FunctionalsSpec FunctionalsProofs FunctionalsValues MacroModel NodalModel NodalSpec NodalProofs NodalElements.
Import ListNotations.
Local Open Scope R_scope.

(** * Integrals of monomials *)
Lemma beta_scaled k : forall i c, is_RInt (fun x => x ^ i * (c - x) ^ k) 0 c (c ^ (i + k + 1) * beta i k).
Proof.
  induction k as [|k IH]; intros i c; assert (N : INR (S i) <> 0) by (apply not_0_INR; discriminate).
  - eapply is_RInt_eq; [apply (int_pow i c)| |]; [intros x _; simpl; req; ring|].
    cbn [beta]. replace (i + 0 + 1)%nat with (S i) by lia. reflexivity.
  - assert (H : is_RInt (fun x => INR (S i) * (x ^ i * (c - x) ^ S k) + - INR (S k) * (x ^ S i * (c - x) ^ k)) 0 c 0).
    { eapply is_RInt_eq; [apply (@is_RInt_derive R_CompleteNormedModule (fun x => x ^ S i * (c - x) ^ S k) (fun x => INR (S i) * (x ^ i * (c - x) ^ S k) + - INR (S k) * (x ^ S i * (c - x) ^ k)))| |].
      - intros x _. auto_derive; [exact I|]. change (match i with O => 1 | S _ => INR i + 1 end) with (INR (S i)). change (match k with O => 1 | S _ => INR k + 1 end) with (INR (S k)).
        change (Init.Nat.pred (S i)) with i. change (Init.Nat.pred (S k)) with k. cbn [pow]. unfold Rminus. generalize ((c + - x) ^ k) (x ^ i). intros. req; ring.
      - intros x _. apply (@ex_derive_continuous R_AbsRing R_NormedModule). auto_derive. exact I.
      - intros x _. reflexivity.
      - unfold minus, plus, opp. cbn -[INR]. req; ring. }
    pose proof (int_plus _ _ _ _ _ _ (int_scal (/ INR (S i)) _ _ _ _ H) (int_scal (INR (S k) / INR (S i)) _ _ _ _ (IH (S i) c))) as H2.
    eapply is_RInt_eq; [exact H2| |].
    + intros x _. cbn beta. req; field. exact N.
    + cbn [beta]. replace (S i + k + 1)%nat with (i + S k + 1)%nat by lia. req; ring.
Qed.

Definition tri_lims : list ReferencesModel.limit := [(1%nat, (fun _ => 0), (fun e => 1 - e 0%nat)); (0%nat, (fun _ => 0), (fun _ => 1))].
Definition tet_lims : list ReferencesModel.limit := [(0%nat, (fun _ => 0), (fun e => 1 - e 1%nat - e 2%nat)); (1%nat, (fun _ => 0), (fun e => 1 - e 2%nat)); (2%nat, (fun _ => 0), (fun _ => 1))].
Ltac upds := unfold PolyVec.upd; repeat (destruct (Nat.eq_dec _ _); [try lia|try lia]); try congruence.
Lemma tri_mono i j v : iterated_integral tri_lims (meval [i; j]) v (/ INR (S j) * beta i (S j)).
Proof.
  unfold tri_lims. cbn [iterated_integral].
  exists (fun e => / INR (S j) * (e 0%nat ^ i * (1 - e 0%nat) ^ S j)). split.
  - intros e. eapply is_RInt_eq; [apply (int_scal (e 0%nat ^ i)), (int_pow j (1 - e 0%nat))| |].
    + intros x _. unfold meval; cbn [meval_from]. change (PolyVec.upd e 1 x 0%nat) with (e 0%nat). change (PolyVec.upd e 1 x 1%nat) with x. req; ring.
    + unfold Rdiv. req; ring.
  - exists (fun _ => / INR (S j) * beta i (S j)). split; [|reflexivity]. intros e.
    eapply is_RInt_eq; [apply (int_scal (/ INR (S j))), (beta_int (S j) i)| |reflexivity]. intros x _. reflexivity.
Qed.
Lemma tet_mono i j k v : iterated_integral tet_lims (meval [i; j; k]) v (/ INR (S i) * beta j (S i) * beta k (i + j + 2)).
Proof.
  unfold tet_lims. cbn [iterated_integral].
  exists (fun e => / INR (S i) * e 2%nat ^ k * (e 1%nat ^ j * (1 - e 2%nat - e 1%nat) ^ S i)). split.
  - intros e. eapply is_RInt_eq; [apply (int_scal (e 1%nat ^ j * e 2%nat ^ k)), (int_pow i (1 - e 1%nat - e 2%nat))| |].
    + intros x _. unfold meval; cbn [meval_from]. change (PolyVec.upd e 0 x 0%nat) with x. change (PolyVec.upd e 0 x 1%nat) with (e 1%nat). change (PolyVec.upd e 0 x 2%nat) with (e 2%nat). req; ring.
    + replace (1 - e 2%nat - e 1%nat) with (1 - e 1%nat - e 2%nat) by ring. unfold Rdiv. req; ring.
  - exists (fun e => / INR (S i) * beta j (S i) * (e 2%nat ^ k * (1 - e 2%nat) ^ (i + j + 2))). split.
    + intros e. eapply is_RInt_eq; [apply (int_scal (/ INR (S i) * e 2%nat ^ k)), (beta_scaled (S i) j (1 - e 2%nat))| |].
      * intros x _. change (PolyVec.upd e 1 x 2%nat) with (e 2%nat). change (PolyVec.upd e 1 x 1%nat) with x. reflexivity.
      * replace (j + S i + 1)%nat with (i + j + 2)%nat by lia. req; ring.
    + exists (fun _ => / INR (S i) * beta j (S i) * beta k (i + j + 2)). split; [|reflexivity]. intros e.
      eapply is_RInt_eq; [apply int_scal, (beta_int (i + j + 2) k)| |reflexivity]. intros x _. reflexivity.
Qed.

(** * Linearity *)
Lemma iterated_lin lims : forall F F' v I I' a, iterated_integral lims F v I -> iterated_integral lims F' v I' ->
  iterated_integral lims (fun e => a * F e + F' e) v (a * I + I').
Proof.
  induction lims as [|[[k lo] hi] ls IH]; intros F F' v I I' a; cbn [iterated_integral]; [intros -> ->; reflexivity|].
  intros (G & A & B) (G' & A' & B'). exists (fun e => a * G e + G' e). split; [|apply IH; assumption].
  intros e. apply (int_plus (fun s => a * F (PolyVec.upd e k s)) (fun s => F' (PolyVec.upd e k s))); [apply int_scal, A|apply A'].
Qed.
Lemma iterated_zero lims : forall v, iterated_integral lims (fun _ => 0) v 0.
Proof.
  induction lims as [|[[k lo] hi] ls IH]; intros v; cbn [iterated_integral]; [reflexivity|]. exists (fun _ => 0). split; [intros e; apply int_zero|apply IH].
Qed.
Definition rule (q : list (list R * R)) (F : sfun) : R := fold_right Rplus 0 (map (fun pw => snd pw * F (fun i => nth i (fst pw) 0)) q).
Lemma rule_lin q a F F' : rule q (fun e => a * F e + F' e) = a * rule q F + rule q F'.
Proof. unfold rule. induction q as [|[p w] q IH]; cbn [map fold_right fst snd]; [ring|]. rewrite IH. ring. Qed.
Lemma rule_ext q F F' : (forall e, F e = F' e) -> rule q F = rule q F'.
Proof. intros E. unfold rule. f_equal. apply map_ext. intros pw. rewrite E. reflexivity. Qed.
Lemma rule_zero q : rule q (fun _ => 0) = 0.
Proof. unfold rule. induction q as [|[p w] q IH]; cbn [map fold_right fst snd]; [ring|]. rewrite IH. ring. Qed.

Lemma span_exact lims q fs : Forall (fun F => forall v, iterated_integral lims F v (rule q F)) fs ->
  forall F v, in_span fs F -> iterated_integral lims F v (rule q F).
Proof.
  intros H F v (cs & L & E). assert (G : iterated_integral lims (lincomb cs fs) v (rule q (lincomb cs fs))).
  { clear L E. revert cs. induction H as [|f fs Hf _ IH]; intros cs.
    - assert (Z : forall e, lincomb cs [] e = 0) by (destruct cs; reflexivity). match goal with |- iterated_integral _ _ _ ?r => replace r with 0 by (symmetry; etransitivity; [exact (rule_ext q _ (fun _ => 0) Z)|apply rule_zero]) end.
      apply (iterated_ext' lims (fun _ => 0)); [intros e; symmetry; apply Z|apply iterated_zero].
    - destruct cs as [|c cs].
      + match goal with |- iterated_integral _ _ _ ?r => replace r with 0 by (symmetry; etransitivity; [exact (rule_ext q _ (fun _ => 0) (fun _ => eq_refl))|apply rule_zero]) end. apply iterated_zero.
      + cbn [lincomb]. change (fun v0 : point => c * f v0 + lincomb cs fs v0) with (fun e => c * f e + lincomb cs fs e).
        rewrite rule_lin. apply iterated_lin; [apply Hf|apply IH]. }
  rewrite (rule_ext q _ _ E). apply (iterated_ext' lims (lincomb cs fs)); [intros e; symmetry; apply E|exact G].
Qed.

(** * From the rule to the degrees of freedom *)
Definition bare (w : weighted) : list R * R := fst w.
Lemma exact_dofs c lims k l (ws : list weighted) : ReferencesModel.integration_limits c = Ok lims -> (1 <= ReferencesModel.tdim c <= 3)%nat ->
  polynomial_set_1d (ReferencesModel.tdim c) k = Ok l -> Forall (fun w : weighted => length (fst (fst w)) = ReferencesModel.tdim c) ws ->
  Forall (fun m => forall v, iterated_integral lims (meval m) v (rule (map bare ws) (meval m))) l ->
  integrates_exactly c (map fst (map weighted_dof ws)) k.
Proof.
  intros El Hd Ep Lw H. exists lims. split; [exact El|]. intros f v Pf Sf Df. set (d := ReferencesModel.tdim c) in *.
  exists (map (fun w : weighted => snd (fst w) * as_function d f (fun i => nth i (fst (fst w)) 0)) ws). split.
  - clear -Lw Pf Sf. induction Lw as [|[[p w] en] ws L _ IH]; cbn [map]; constructor; [|exact IH]. cbn [weighted_dof fst snd] in *.
    assert (Sd : simple d (WeightedPointEvaluation (nums p) (ENum w))) by (split; [exists p; split; [reflexivity|exact L]|exists w; reflexivity]).
    pose proof (proj1 (simple_reading d _ Sd) f (conj Pf Sf)) as E. cbn [read] in E. rewrite number_nums in E. unfold value_weighted, number in E. cbn [ev] in E.
    replace (w * as_function d f (fun i => nth i p 0)) with (ev (x_point p) f * w); [exact E|].
    unfold as_function. replace (map (fun i => nth i p 0) (range d)) with p; [ring|].
    rewrite <- L. unfold range. symmetry. clear. induction p as [|a p IH]; [reflexivity|]. cbn [length seq map nth]. f_equal. rewrite <- seq_shift, map_map. exact IH.
  - replace (fold_right Rplus 0 (map (fun w : weighted => snd (fst w) * as_function d f (fun i => nth i (fst (fst w)) 0)) ws)) with (rule (map bare ws) (as_function d f))
      by (unfold rule; rewrite map_map; reflexivity).
    apply (span_exact lims _ (map meval l)).
    + apply Forall_forall. intros F HF. apply in_map_iff in HF. destruct HF as (m & <- & Hm). rewrite Forall_forall in H. intros v'. apply H, Hm.
    + destruct (polynomial_set_1d_ok d k Hd) as (l' & El' & (_ & _ & _ & _ & Gen)). rewrite Ep in El'. injection El' as <-. exact (Gen _ Df).
Qed.
Lemma positive_dofs d (ws : list weighted) : Forall (fun w : weighted => length (fst (fst w)) = d /\ 0 < snd (fst w)) ws -> positive_weights (map fst (map weighted_dof ws)).
Proof.
  intros F. exists (map (fun w : weighted => snd (fst w)) ws). split.
  - induction F as [|[[p w] en] ws [L _] _ IH]; cbn [map]; constructor; [|exact IH]. cbn [weighted_dof fst snd] in *.
    assert (Sd : simple d (WeightedPointEvaluation (nums p) (ENum w))) by (split; [exists p; split; [reflexivity|exact L]|exists w; reflexivity]).
    assert (S1 : scalar_in d (ENum 1)) by (split; [exact I|intros s []]).
    pose proof (proj1 (simple_reading d _ Sd) _ S1) as E. cbn [read] in E. rewrite number_nums in E. unfold value_weighted, number in E. cbn [ev] in E. rewrite Rmult_1_l in E. exact E.
  - induction F as [|w ws [_ P] _ IH]; cbn [map]; constructor; assumption.
Qed.
