(** Properties C14, C15: quadrature rules.  [exact_to], [proper], [rule_sum], [peval] are defined at the head of
    QuadratureProofs.v; the integral is Coquelicot's. *)
From Coquelicot Require Import Coquelicot.
From Coq Require Import String ZArith Reals Lia Lra Sorted List.
From Verif Require Import Base QuadratureModel QuadratureProofs.
Import ListNotations.
Open Scope R_scope.

Theorem C14_named_quadrature :
  (forall n r, get_quadrature "legendre" n = Ok r -> length (fst r) = n /\ proper r /\ exact_to r (2 * n - 1)) /\
  (forall s n r, In s ["lobatto"; "gll"]%string -> get_quadrature s n = Ok r ->
     length (fst r) = n /\ proper r /\ exact_to r (2 * n - 3)) /\
  (forall n r, get_quadrature "radau" n = Ok r -> length (fst r) = n /\ proper r /\ exact_to r (2 * n - 2)) /\
  (* which n are supported *)
  (forall n, (1 <= n <= 3)%nat <-> exists r, get_quadrature "legendre" n = Ok r) /\
  (forall n, (2 <= n <= 7)%nat <-> exists r, get_quadrature "lobatto" n = Ok r) /\
  (forall n, (2 <= n <= 3)%nat <-> exists r, get_quadrature "radau" n = Ok r).
Proof.
  assert (HL : forall n r, lobatto n = Ok r -> length (fst r) = n).
  { intros n r. destruct n as [|[|[|[|[|[|[|[|n]]]]]]]]; try discriminate; intros E; injection E as <-; reflexivity. }
  split; [|split; [|split; [|split; [|split]]]].
  - intros n r E. destruct (legendre_good n r E) as [P X]. split; [|split; assumption].
    change (get_quadrature "legendre" n) with (legendre n) in E.
    destruct n as [|[|[|[|n]]]]; try discriminate; injection E as <-; reflexivity.
  - intros s n r [<-|[<-|[]]] E; (destruct (lobatto_good n r E) as [P X]; split; [exact (HL n r E)|split; assumption]).
  - intros n r E. destruct (radau_good n r E) as [P X]. split; [|split; assumption].
    change (get_quadrature "radau" n) with (radau n) in E.
    destruct n as [|[|[|[|n]]]]; try discriminate; injection E as <-; reflexivity.
  - intros n. change (get_quadrature "legendre" n) with (legendre n).
    destruct n as [|[|[|[|n]]]]; (split; [intros H; try lia; eexists; reflexivity|intros [r H]; try discriminate; lia]).
  - intros n. change (get_quadrature "lobatto" n) with (lobatto n).
    destruct n as [|[|[|[|[|[|[|[|n]]]]]]]]; (split; [intros H; try lia; eexists; reflexivity|intros [r H]; try discriminate; lia]).
  - intros n. change (get_quadrature "radau" n) with (radau n).
    destruct n as [|[|[|[|n]]]]; (split; [intros H; try lia; eexists; reflexivity|intros [r H]; try discriminate; lia]).
Qed.
Print Assumptions C14_named_quadrature.
(** the integral of 1 + 2x - 5 x^7 by the 5-point Lobatto rule *)
Example C14_case : exists r, get_quadrature "gll" 5 = Ok r /\ rule_sum r (peval [1; 2; 0; 0; 0; 0; 0; -5]) = 1 + 1 - 5 / 8.
Proof.
  eexists. split; [reflexivity|].
  match goal with |- rule_sum ?r (peval ?c) = _ => assert (H : is_RInt (peval c) 0 1 (rule_sum r (peval c)));
    [apply (lobatto_good 5 r eq_refl); simpl; lia|] end.
  assert (H2 : is_RInt (peval [1; 2; 0; 0; 0; 0; 0; -5]) 0 1 (1 + 1 - 5 / 8)).
  { evar_last.
    - apply (is_RInt_derive (fun x => x + x ^ 2 - 5 / 8 * x ^ 8)).
      + intros x _. simpl peval. auto_derive; [exact I|]. simpl. field.
      + intros x _. apply (@ex_derive_continuous R_AbsRing R_NormedModule). simpl peval. auto_derive. exact I.
    - unfold minus, plus, opp; simpl. field. }
  rewrite <- (is_RInt_unique _ _ _ _ H). exact (is_RInt_unique _ _ _ _ H2).
Qed.

Theorem C15_equispaced_quadrature : forall n, (2 <= n)%nat -> exists r,
  get_quadrature "equispaced" n = Ok r /\
  length (fst r) = n /\ (forall i, (i < n)%nat -> nth_error (fst r) i = Some (INR i / (INR n - 1))) /\
  proper r /\ exact_to r 1 /\
  (* composite trapezium rule: half weights at the ends *)
  (forall i, (i < n)%nat -> nth_error (snd r) i =
     Some (if ((i =? 0) || (i =? n - 1))%nat%bool then / (INR n - 1) / 2 else / (INR n - 1))) /\
  (forall s m, ~ In s ["equispaced"; "lobatto"; "gll"; "radau"; "legendre"]%string -> get_quadrature s m = Err ValueError).
Proof.
  intros n Hn. exists (equispaced n). split; [reflexivity|]. split; [simpl; rewrite map_length; apply length_range|].
  assert (Hr := INR_ge_2 n Hn).
  assert (N : forall {A} (f : nat -> A) i, (i < n)%nat -> nth_error (map f (range n)) i = Some (f i)).
  { intros A f i H. rewrite nth_error_map. unfold range. rewrite (nth_error_nth' _ 0%nat) by (rewrite seq_length; exact H).
    rewrite seq_nth by exact H. reflexivity. }
  split; [intros i Hi; apply (N R (fun i => INR i / (INR n - 1)) i Hi)|].
  split; [exact (equispaced_proper n Hn)|]. split; [exact (equispaced_exact n Hn)|]. split.
  - intros i Hi. unfold equispaced. cbn [snd]. rewrite N by exact Hi. f_equal. destruct (_ || _)%bool; field; lra.
  - intros s m Hs. simpl in Hs. unfold get_quadrature.
    destruct (String.eqb_spec s "equispaced"); [subst; tauto|]. destruct (String.eqb_spec s "lobatto"); [subst; tauto|].
    destruct (String.eqb_spec s "gll"); [subst; tauto|]. destruct (String.eqb_spec s "radau"); [subst; tauto|].
    destruct (String.eqb_spec s "legendre"); [subst; tauto|]. reflexivity.
Qed.
Print Assumptions C15_equispaced_quadrature.
Example C15_case : fst (equispaced 3) = [0 / 2; 1 / 2; 2 / 2] /\ get_quadrature "simpson" 3 = Err ValueError.
Proof. split; [|reflexivity]. simpl. repeat f_equal; lra. Qed.
