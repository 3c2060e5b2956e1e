(** Proofs about matrix inversion and dual bases, and their specification vocabulary. *)
From Coq Require Import Reals Lra Lia Arith Bool List.
From Verif Require Import Base LinAlg CiarletModel.
Import ListNotations.
Open Scope R_scope.

(** * Specification vocabulary *)
Section Spec.
Context {A : Type}.
Implicit Types (S : fn A -> Prop) (L : fn A -> R).
(** a vector space of functions *)
Definition subspace S : Prop :=
  S (fun _ => 0) /\ (forall a u v, S u -> S v -> S (fun x => a * u x + v x)) /\
  (forall u v, (forall x, u x = v x) -> S u -> S v).
(** ... closed under products *)
Definition algebra S : Prop := subspace S /\ forall u v, S u -> S v -> S (fun x => u x * v x).
(** a functional linear on S that depends only on the values of the function *)
Definition linear_on S L : Prop :=
  (forall a u v, S u -> S v -> L (fun x => a * u x + v x) = a * L u + L v) /\
  (forall u v, (forall x, u x = v x) -> S u -> L u = L v).
(** sum of c i times the i-th function *)
Definition combination (c : nat -> R) (l : list (fn A)) : fn A :=
  fun x => sum (length l) (fun i => c i * nth i l (fun _ => 0) x).
Definition same (f g : fn A) : Prop := forall x, f x = g x.
(** the i-th degree of freedom of f *)
Definition dof_value (dofs : list (fn A -> R)) (i : nat) (f : fn A) : R := nth i dofs (fun _ => 0) f.
(** no non-trivial combination of the functions has all dofs zero *)
Definition unisolvent (basis : list (fn A)) (dofs : list (fn A -> R)) : Prop :=
  forall c, (forall i, (i < length dofs)%nat -> dof_value dofs i (combination c basis) = 0) ->
    forall i, (i < length basis)%nat -> c i = 0.
End Spec.

(** * Gauss-Jordan elimination *)
Lemma find_pivot_some c : forall todo p rest, find_pivot c todo = Some (p, rest) ->
  fst p c <> 0 /\ length todo = S (length rest) /\ (forall r, In r todo <-> r = p \/ In r rest).
Proof.
  induction todo as [|r todo IH]; intros p rest H; [discriminate|]. simpl in H.
  destruct (Req_EM_T (fst r c) 0) as [E|E].
  - destruct (find_pivot c todo) as [[p0 rest0]|] eqn:F; [|discriminate]. injection H as -> <-.
    destruct (IH p rest0 eq_refl) as (H1 & H2 & H3). split; [exact H1|]. split; [simpl; lia|].
    intros q. simpl. rewrite H3. tauto.
  - injection H as -> ->. split; [exact E|]. split; [reflexivity|]. intros q. simpl. intuition congruence.
Qed.
Lemma find_pivot_none c : forall todo, find_pivot c todo = None -> forall r, In r todo -> fst r c = 0.
Proof.
  induction todo as [|r todo IH]; intros H q Hq; [contradiction|]. simpl in H.
  destruct (Req_EM_T (fst r c) 0) as [E|E]; [|discriminate].
  destruct (find_pivot c todo) as [[p0 rest0]|] eqn:F; [discriminate|].
  destruct Hq as [<-|Hq]; [exact E|exact (IH eq_refl q Hq)].
Qed.

Section Elim.
Variables (n : nat) (M : nat -> nat -> R).

Definition sound (r : row) : Prop := forall j, (j < n)%nat -> fst r j = sum n (fun k => snd r k * M k j).
Definition vanish (x : nat -> R) (r : row) : Prop := sum n (fun j => fst r j * x j) = 0.

Definition inv_state (c : nat) (dn todo : list row) : Prop :=
  length dn = c /\ (length todo + c)%nat = n /\
  (forall r, In r dn \/ In r todo -> sound r) /\
  (forall x, (forall r, In r dn \/ In r todo -> vanish x r) -> forall i, (i < n)%nat -> sum n (fun j => M i j * x j) = 0) /\
  (forall i j r, nth_error dn i = Some r -> (j < c)%nat -> fst r j = delta i j) /\
  (forall r j, In r todo -> (j < c)%nat -> fst r j = 0).

Lemma sound_normalise c p : fst p c <> 0 -> sound p -> sound (row_normalise c p).
Proof.
  intros Hp H j Hj. simpl. rewrite (H j Hj).
  rewrite (sum_ext n (fun k => snd p k / fst p c * M k j) (fun k => / fst p c * (snd p k * M k j))) by (intros; field; exact Hp).
  rewrite sum_scal. field. exact Hp.
Qed.
Lemma sound_eliminate c p r : sound p -> sound r -> sound (row_eliminate c p r).
Proof.
  intros Hp Hr j Hj. simpl. rewrite (Hp j Hj), (Hr j Hj).
  rewrite (sum_ext n (fun k => (snd r k - fst r c * snd p k) * M k j)
             (fun k => snd r k * M k j + (- fst r c) * (snd p k * M k j))) by (intros; ring).
  rewrite sum_plus, sum_scal. ring.
Qed.
Lemma vanish_normalise x c p : fst p c <> 0 -> vanish x (row_normalise c p) -> vanish x p.
Proof.
  intros Hp H. unfold vanish in *. simpl in H.
  rewrite (sum_ext n _ (fun j => fst p c * (fst p j / fst p c * x j))) by (intros; field; exact Hp).
  rewrite sum_scal, H. ring.
Qed.
Lemma vanish_eliminate x c p r : vanish x p -> vanish x (row_eliminate c p r) -> vanish x r.
Proof.
  unfold vanish. intros Hp H. simpl in H.
  rewrite (sum_ext n _ (fun j => fst r j * x j + (- fst r c) * (fst p j * x j))) in H by (intros; ring).
  rewrite sum_plus, sum_scal, Hp in H. lra.
Qed.

Lemma inv_step c dn todo p rest : inv_state c dn todo -> find_pivot c todo = Some (p, rest) ->
  inv_state (S c) (map (row_eliminate c (row_normalise c p)) dn ++ [row_normalise c p])
            (map (row_eliminate c (row_normalise c p)) rest).
Proof.
  intros (L1 & L2 & Hs & Hv & Hd & Ht) F. destruct (find_pivot_some _ _ _ _ F) as (Hp & Hl & Hin).
  set (p' := row_normalise c p). assert (P1 : fst p' c = 1) by (simpl; field; exact Hp).
  assert (Sp : sound p') by (apply sound_normalise; [exact Hp|apply Hs; right; apply Hin; left; reflexivity]).
  assert (Zp : forall j, (j < c)%nat -> fst p' j = 0).
  { intros j Hj. simpl. rewrite (Ht p j) by (try exact Hj; apply Hin; left; reflexivity). unfold Rdiv. ring. }
  split; [rewrite app_length, map_length; simpl; lia|]. split; [rewrite map_length; lia|]. split; [|split; [|split]].
  - intros r [H|H].
    + apply in_app_iff in H. destruct H as [H|[<-|[]]]; [|exact Sp].
      apply in_map_iff in H. destruct H as (q & <- & Hq). apply sound_eliminate; [exact Sp|apply Hs; left; exact Hq].
    + apply in_map_iff in H. destruct H as (q & <- & Hq). apply sound_eliminate; [exact Sp|apply Hs; right; apply Hin; right; exact Hq].
  - intros x H. apply Hv.
    assert (Vp : vanish x p') by (apply H; left; apply in_app_iff; right; left; reflexivity).
    intros r [Hr|Hr].
    + apply (vanish_eliminate x c p'); [exact Vp|]. apply H. left. apply in_app_iff. left. apply in_map. exact Hr.
    + apply Hin in Hr. destruct Hr as [->|Hr]; [exact (vanish_normalise x c p Hp Vp)|].
      apply (vanish_eliminate x c p'); [exact Vp|]. apply H. right. apply in_map. exact Hr.
  - intros i j r Hi Hj. destruct (Nat.lt_ge_cases i c) as [Hic|Hic].
    + rewrite nth_error_app1 in Hi by (rewrite map_length; lia). rewrite nth_error_map in Hi.
      destruct (nth_error dn i) as [q|] eqn:Q; [|discriminate]. injection Hi as <-. simpl.
      destruct (Nat.eq_dec j c) as [->|Hjc].
      * change (fst p c / fst p c) with (fst p' c). rewrite P1, delta_other by lia. ring.
      * change (fst p j / fst p c) with (fst p' j). rewrite Zp, (Hd i j q Q) by lia. ring.
    + rewrite nth_error_app2 in Hi by (rewrite map_length; lia). rewrite map_length, L1 in Hi.
      destruct (i - c)%nat as [|k] eqn:Ek; [|simpl in Hi; destruct k; discriminate].
      replace i with c by lia. injection Hi as <-. destruct (Nat.eq_dec j c) as [->|Hjc].
      * rewrite P1, delta_same. reflexivity.
      * rewrite Zp, delta_other by lia. reflexivity.
  - intros r j Hr Hj. apply in_map_iff in Hr. destruct Hr as (q & <- & Hq). simpl.
    destruct (Nat.eq_dec j c) as [->|Hjc].
    * change (fst p c / fst p c) with (fst p' c). rewrite P1. ring.
    * change (fst p j / fst p c) with (fst p' j). rewrite Zp by lia. rewrite (Ht q j); [ring|apply Hin; right; exact Hq|lia].
Qed.

Lemma inv_singular c dn todo : inv_state c dn todo -> (c < n)%nat -> find_pivot c todo = None ->
  exists x p, (p < n)%nat /\ x p <> 0 /\ forall i, (i < n)%nat -> sum n (fun j => M i j * x j) = 0.
Proof.
  intros (L1 & L2 & Hs & Hv & Hd & Ht) Hc F. pose proof (find_pivot_none _ _ F) as Hz.
  set (x := fun j => if Nat.eq_dec j c then 1 else if (j <? c)%nat then - fst (nth j dn (fun _ => 0, fun _ => 0)) c else 0).
  assert (Xc : x c = 1) by (unfold x; destruct (Nat.eq_dec c c); [reflexivity|contradiction]).
  exists x, c. split; [exact Hc|]. split; [rewrite Xc; lra|]. apply Hv.
  assert (Hlate : forall (r : row) j, (j < n)%nat -> (c < j)%nat -> fst r j * x j = 0).
  { intros r j _ Hj. unfold x. destruct (Nat.eq_dec j c); [lia|]. destruct (Nat.ltb_spec j c); [lia|]. ring. }
  assert (Hsum : forall r : row, sum n (fun j => fst r j * x j) = sum c (fun j => fst r j * x j) + fst r c).
  { intros r. replace n with (S c + (n - S c))%nat by lia. rewrite sum_split. simpl. rewrite Xc.
    rewrite (sum_zero (n - S c)); [ring|]. intros i Hi. apply Hlate; lia. }
  intros r [Hr|Hr]; unfold vanish; rewrite Hsum.
  - apply In_nth_error in Hr. destruct Hr as [i Hi].
    assert (Hic : (i < c)%nat) by (rewrite <- L1; apply nth_error_Some; congruence).
    rewrite (sum_single c _ i Hic).
    + rewrite (Hd i i r Hi Hic), delta_same. unfold x. destruct (Nat.eq_dec i c); [lia|].
      destruct (Nat.ltb_spec i c); [|lia]. rewrite (nth_error_nth dn i _ Hi). ring.
    + intros j Hj Hji. rewrite (Hd i j r Hi Hj), delta_other by lia. ring.
  - rewrite sum_zero; [rewrite (Hz r Hr); ring|]. intros j Hj. rewrite (Ht r j Hr Hj). ring.
Qed.

Lemma eliminate_spec : forall steps c dn todo, inv_state c dn todo -> (steps + c)%nat = n ->
  match eliminate steps c dn todo with
  | Some rows => length rows = n /\ forall i r, nth_error rows i = Some r ->
      forall j, (j < n)%nat -> sum n (fun k => snd r k * M k j) = delta i j
  | None => exists x p, (p < n)%nat /\ x p <> 0 /\ forall i, (i < n)%nat -> sum n (fun j => M i j * x j) = 0
  end.
Proof.
  induction steps as [|k IH]; intros c dn todo H Hn; simpl.
  - destruct H as (L1 & L2 & Hs & Hv & Hd & Ht). split; [lia|]. intros i r Hi j Hj.
    assert (Hr : sound r) by (apply Hs; left; apply (nth_error_In _ _ Hi)).
    rewrite <- (Hr j Hj). apply Hd; [exact Hi|lia].
  - destruct (find_pivot c todo) as [[p rest]|] eqn:F.
    + apply IH; [apply (inv_step c dn todo); assumption|lia].
    + apply (inv_singular c dn todo H); [lia|exact F].
Qed.
End Elim.

Definition square (n : nat) (M : matrix) : Prop := length M = n /\ forall r, In r M -> length r = n.
(** the inverse is a left inverse; an exception means there is a non-trivial vector in the kernel *)
Lemma inv_LU_spec n M : square n M ->
  match inv_LU M with
  | Ok N => square n N /\ is_identity n (mmul n (entry N) (entry M))
  | Err e => e = ValueError /\
      exists x p, (p < n)%nat /\ x p <> 0 /\ forall i, (i < n)%nat -> sum n (fun j => entry M i j * x j) = 0
  end.
Proof.
  intros [Hl Hr]. unfold inv_LU. rewrite Hl.
  assert (F : forallb (fun r => length r =? n)%nat M = true).
  { apply forallb_forall. intros r H. apply Nat.eqb_eq, Hr, H. }
  rewrite F. clear F.
  set (rows := map _ (range n)).
  assert (I : inv_state n (entry M) 0 [] rows).
  { assert (R : forall r, In r rows -> exists i, (i < n)%nat /\ r = (entry M i, fun j => if (i =? j)%nat then 1 else 0)).
    { intros r H. apply in_map_iff in H. destruct H as (i & <- & Hi). exists i. split; [apply in_range; exact Hi|reflexivity]. }
    split; [reflexivity|]. split; [unfold rows; rewrite map_length, length_range; lia|]. split; [|split; [|split]].
    - intros r [[]|H]. apply R in H. destruct H as (i & Hi & ->). intros j Hj. simpl.
      rewrite (sum_ext n _ (fun k => delta i k * entry M k j)).
      + symmetry. exact (sum_delta_l n i (fun k => entry M k j) Hi).
      + intros k _. unfold delta. destruct (Nat.eqb_spec i k), (Nat.eq_dec i k); congruence.
    - intros x H i Hi. apply (H (entry M i, fun j => if (i =? j)%nat then 1 else 0)). right.
      apply in_map_iff. exists i. split; [reflexivity|apply in_range; exact Hi].
    - intros i j r H. destruct i; discriminate.
    - intros r j _ Hj. lia. }
  pose proof (eliminate_spec n (entry M) n 0 [] rows I ltac:(lia)) as E.
  destruct (eliminate n 0 [] rows) as [out|]; [|split; [reflexivity|exact E]].
  destruct E as [E1 E2]. split.
  - split; [rewrite map_length; exact E1|]. intros r H. apply in_map_iff in H. destruct H as (q & <- & _).
    rewrite map_length. apply length_range.
  - intros i j Hi Hj. unfold mmul.
    destruct (nth_error out i) as [r|] eqn:Q; [|apply nth_error_None in Q; lia].
    rewrite <- (E2 i r Q j Hj). apply sum_ext. intros k Hk. f_equal. unfold entry at 1.
    rewrite (nth_error_nth _ _ [] (map_nth_error (fun r : row => map (snd r) (range n)) i out Q)).
    rewrite (nth_indep _ 0 (snd r O)) by (rewrite map_length, length_range; exact Hk).
    rewrite map_nth. unfold range. rewrite seq_nth by exact Hk. reflexivity.
Qed.

Lemma nth_map_lt {X Y} (f : X -> Y) l i dx dy : (i < length l)%nat -> nth i (map f l) dy = f (nth i l dx).
Proof.
  intros H. rewrite (nth_indep _ dy (f dx)) by (rewrite map_length; exact H). apply map_nth.
Qed.
Lemma nth_map_range {Y} (f : nat -> Y) n i dy : (i < n)%nat -> nth i (map f (range n)) dy = f i.
Proof.
  intros H. rewrite (nth_map_lt f _ i O) by (rewrite length_range; exact H). unfold range. rewrite seq_nth by exact H. reflexivity.
Qed.

(** * Combinations *)
Section Functions.
Context {A : Type}.
Notation fn := (fn A).
Implicit Types (S : fn -> Prop) (basis : list fn) (dofs : list (fn -> R)).

Lemma sum_subspace S n (c : nat -> R) (p : nat -> fn) : subspace S -> (forall i, (i < n)%nat -> S (p i)) ->
  S (fun x => sum n (fun i => c i * p i x)).
Proof.
  intros (H0 & H1 & H2). induction n as [|n IH]; intros H; [exact H0|].
  apply (H2 (fun x => c n * p n x + sum n (fun i => c i * p i x))); [intros x; simpl; ring|].
  apply H1; [apply H; lia|apply IH; intros; apply H; lia].
Qed.
Lemma sum_linear S L n (c : nat -> R) (p : nat -> fn) : subspace S -> linear_on S L -> (forall i, (i < n)%nat -> S (p i)) ->
  L (fun x => sum n (fun i => c i * p i x)) = sum n (fun i => c i * L (p i)).
Proof.
  intros HS [H1 H2]. induction n as [|n IH]; intros H.
  - simpl. pose proof (H1 (-1) (fun _ => 0) (fun _ => 0) (proj1 HS) (proj1 HS)) as E.
    rewrite (H2 _ (fun _ => 0)) in E; [lra|intros; ring|]. apply HS; apply HS.
  - assert (Sn : S (fun x => sum n (fun i => c i * p i x))) by (apply sum_subspace; [exact HS|intros; apply H; lia]).
    simpl. rewrite <- IH by (intros; apply H; lia).
    rewrite (H2 _ (fun x => c n * p n x + sum n (fun i => c i * p i x))).
    + rewrite H1; [ring|apply H; lia|exact Sn].
    + intros x. ring.
    + apply (proj2 (proj2 HS) (fun x => c n * p n x + sum n (fun i => c i * p i x))); [intros; ring|].
      apply HS; [apply H; lia|exact Sn].
Qed.
Lemma comb_subspace S c l : subspace S -> Forall S l -> S (combination c l).
Proof.
  intros HS H. apply (sum_subspace S _ c (fun i => nth i l (fun _ => 0)) HS).
  intros i Hi. rewrite Forall_forall in H. apply H, nth_In, Hi.
Qed.
Lemma comb_linear S L c l : subspace S -> linear_on S L -> Forall S l ->
  L (combination c l) = sum (length l) (fun i => c i * L (nth i l (fun _ => 0))).
Proof.
  intros HS HL H. apply (sum_linear S L _ c (fun i => nth i l (fun _ => 0)) HS HL).
  intros i Hi. rewrite Forall_forall in H. apply H, nth_In, Hi.
Qed.

(** the loops of the code compute combinations *)
Lemma fold_combination : forall cs (l : list fn) acc x, length cs = length l ->
  fold_left (fun (sf : fn) cd => fun x => sf x + fst cd * snd cd x) (combine cs l) acc x =
  acc x + sum (length l) (fun i => nth i cs 0 * nth i l (fun _ => 0) x).
Proof.
  induction cs as [|c cs IH]; intros [|p l] acc x H; try discriminate; simpl; [ring|].
  injection H as H. rewrite IH by exact H.
  pose proof (sum_skip (length l) 0 (fun i => nth i (c :: cs) 0 * nth i (p :: l) (fun _ => 0) x) ltac:(lia)) as E.
  simpl in E. simpl. rewrite E. ring.
Qed.
Lemma row_combination_eq cs (l : list fn) : length cs = length l ->
  same (row_combination cs l) (combination (fun i => nth i cs 0) l).
Proof.
  intros H x. destruct cs as [|c cs], l as [|p l]; try discriminate; [reflexivity|].
  simpl. rewrite fold_combination by (injection H; trivial). unfold combination.
  change (length (p :: l)) with (Datatypes.S (length l)). rewrite (sum_skip (length l) 0) by lia. reflexivity.
Qed.

Lemma entry_dual basis dofs i j : (i < length basis)%nat -> (j < length dofs)%nat ->
  entry (dual_matrix basis dofs) i j = dof_value dofs j (nth i basis (fun _ => 0)).
Proof.
  intros Hi Hj. unfold entry, dual_matrix, dof_value.
  rewrite (nth_map_lt _ basis i (fun _ => 0)) by exact Hi.
  rewrite (nth_map_lt _ dofs j (fun _ => 0)) by exact Hj. reflexivity.
Qed.
Lemma square_dual basis dofs : length basis = length dofs -> square (length dofs) (dual_matrix basis dofs).
Proof.
  intros H. split; [unfold dual_matrix; rewrite map_length; exact H|]. intros r Hr.
  unfold dual_matrix in Hr. apply in_map_iff in Hr. destruct Hr as (b & <- & _). apply map_length.
Qed.

Section Dual.
Variables (S : fn -> Prop) (basis : list fn) (dofs : list (fn -> R)).
Hypotheses (HS : subspace S) (Hb : Forall S basis) (Hd : Forall (linear_on S) dofs).

Lemma dof_linear i : (i < length dofs)%nat -> linear_on S (dof_value dofs i).
Proof. intros Hi. rewrite Forall_forall in Hd. apply Hd, nth_In, Hi. Qed.

Lemma basis_functions_ok phi : get_basis_functions basis dofs = Ok phi ->
  length basis = length dofs /\ length phi = length dofs /\
  exists N, is_identity (length dofs) (mmul (length dofs) N (entry (dual_matrix basis dofs))) /\
    forall i, (i < length dofs)%nat -> same (nth i phi (fun _ => 0)) (combination (N i) basis).
Proof.
  unfold get_basis_functions. destruct (Nat.eqb_spec (length basis) (length dofs)) as [E|E]; [|discriminate]. simpl.
  pose proof (inv_LU_spec _ _ (square_dual basis dofs E)) as H.
  destruct (inv_LU (dual_matrix basis dofs)) as [N|e]; [|discriminate]. intros Hp. injection Hp as <-.
  split; [exact E|]. split; [rewrite map_length; apply length_range|].
  exists (entry N). destruct H as [[Q1 Q2] H]. split; [exact H|]. intros i Hi x.
  rewrite nth_map_range by exact Hi.
  rewrite row_combination_eq; [reflexivity|]. rewrite E. apply Q2, nth_In. rewrite Q1. exact Hi.
Qed.

Lemma sizes_differ : length basis <> length dofs -> get_basis_functions basis dofs = Err AssertionError.
Proof. intros H. unfold get_basis_functions. destruct (Nat.eqb_spec (length basis) (length dofs)); [contradiction|reflexivity]. Qed.

Lemma same_value f g i : (i < length dofs)%nat -> same f g -> S f -> dof_value dofs i f = dof_value dofs i g.
Proof. intros Hi Hfg Hf. apply (dof_linear i Hi); assumption. Qed.

Lemma dof_comb c i : (i < length dofs)%nat ->
  dof_value dofs i (combination c basis) = sum (length basis) (fun k => c k * dof_value dofs i (nth k basis (fun _ => 0))).
Proof. intros Hi. apply (comb_linear S); [exact HS|apply dof_linear; exact Hi|exact Hb]. Qed.

Lemma S_same f c : same f (combination c basis) -> S f.
Proof.
  intros E. apply (proj2 (proj2 HS) (combination c basis)); [intros x; symmetry; apply E|]. apply comb_subspace; assumption.
Qed.

Lemma duality phi : get_basis_functions basis dofs = Ok phi ->
  forall i j, (i < length dofs)%nat -> (j < length dofs)%nat ->
    dof_value dofs i (nth j phi (fun _ => 0)) = if (i =? j)%nat then 1 else 0.
Proof.
  intros H i j Hi Hj. destruct (basis_functions_ok phi H) as (Hl & Hp & N & HN & Hphi).
  rewrite (same_value _ _ i Hi (Hphi j Hj) (S_same _ _ (Hphi j Hj))), dof_comb by exact Hi.
  rewrite (sum_ext _ _ (fun k => N j k * entry (dual_matrix basis dofs) k i)).
  - rewrite Hl. change (mmul (length dofs) N (entry (dual_matrix basis dofs)) j i = if (i =? j)%nat then 1 else 0).
    rewrite (HN j i Hj Hi). unfold delta. destruct (Nat.eq_dec j i), (Nat.eqb_spec i j); congruence.
  - intros k Hk. rewrite entry_dual by (assumption || lia). reflexivity.
Qed.

Lemma phi_in_span phi c : get_basis_functions basis dofs = Ok phi ->
  exists d, same (combination c phi) (combination d basis).
Proof.
  intros H. destruct (basis_functions_ok phi H) as (Hl & Hp & N & HN & Hphi).
  exists (fun k => sum (length dofs) (fun i => c i * N i k)). intros x. unfold combination. rewrite Hp.
  rewrite (sum_ext (length dofs) _ (fun i => sum (length basis) (fun k => c i * N i k * nth k basis (fun _ => 0) x))).
  - rewrite sum_swap. apply sum_ext. intros k _. rewrite <- sum_scal_r. reflexivity.
  - intros i Hi. rewrite (Hphi i Hi). unfold combination. rewrite <- sum_scal. apply sum_ext. intros; ring.
Qed.

(** the right inverse property gives the expansion of basis functions in phi *)
Lemma basis_expansion phi k : get_basis_functions basis dofs = Ok phi -> (k < length basis)%nat ->
  same (nth k basis (fun _ => 0)) (combination (fun i => dof_value dofs i (nth k basis (fun _ => 0))) phi).
Proof.
  intros H Hk x. destruct (basis_functions_ok phi H) as (Hl & Hp & N & HN & Hphi).
  pose proof (left_right_inverse _ _ _ HN) as HR. unfold combination. rewrite Hp.
  rewrite (sum_ext (length dofs) _ (fun i => sum (length basis)
     (fun l => entry (dual_matrix basis dofs) k i * N i l * nth l basis (fun _ => 0) x))).
  2:{ intros i Hi. rewrite (Hphi i Hi). unfold combination. rewrite <- sum_scal. apply sum_ext. intros l _.
      rewrite entry_dual by assumption. ring. }
  rewrite sum_swap, (sum_ext (length basis) _ (fun l => delta k l * nth l basis (fun _ => 0) x)).
  - symmetry. exact (sum_delta_l _ k (fun l => nth l basis (fun _ => 0) x) Hk).
  - intros l Hll. rewrite sum_scal_r. f_equal. apply (HR k l); lia.
Qed.

Lemma interpolation phi f c : get_basis_functions basis dofs = Ok phi -> same f (combination c basis) ->
  same f (combination (fun i => dof_value dofs i f) phi).
Proof.
  intros H Hf x. pose proof (S_same f c Hf) as Sf.
  destruct (basis_functions_ok phi H) as (Hl & Hp & N & HN & Hphi).
  rewrite (Hf x). unfold combination at 1 2.
  rewrite (sum_ext (length basis) _ (fun k => sum (length phi)
     (fun i => c k * dof_value dofs i (nth k basis (fun _ => 0)) * nth i phi (fun _ => 0) x))).
  2:{ intros k Hk. rewrite (basis_expansion phi k H Hk x) at 1. unfold combination. rewrite <- sum_scal. apply sum_ext. intros; ring. }
  rewrite sum_swap. apply sum_ext. intros i Hi. rewrite sum_scal_r. f_equal. rewrite Hp in Hi.
  rewrite (same_value f _ i Hi Hf Sf), dof_comb by exact Hi. reflexivity.
Qed.

Lemma succeeds_iff_unisolvent : length basis = length dofs ->
  ((exists phi, get_basis_functions basis dofs = Ok phi) <-> unisolvent basis dofs).
Proof.
  intros E. split.
  - intros [phi H] c Hc. destruct (basis_functions_ok phi H) as (_ & _ & N & HN & _).
    pose proof (left_right_inverse _ _ _ HN) as HR. rewrite E. apply (right_inverse_rows _ _ N HR c). intros j Hj.
    rewrite <- (Hc j Hj), dof_comb, E by exact Hj. apply sum_ext. intros k Hk. rewrite entry_dual by lia. reflexivity.
  - intros U. unfold get_basis_functions. rewrite E, Nat.eqb_refl. simpl.
    pose proof (inv_LU_spec _ _ (square_dual basis dofs E)) as H.
    destruct (inv_LU (dual_matrix basis dofs)) as [N|e]; [eexists; reflexivity|exfalso].
    destruct H as (_ & x & p & Hp & Hx & Hz).
    destruct (right_kernel_left _ _ x p Hp Hx Hz) as (c & (i & Hi & Hci) & Hc).
    apply Hci. apply (U c); [|rewrite E; exact Hi]. intros j Hj. rewrite dof_comb, E by exact Hj.
    etransitivity; [|exact (Hc j Hj)]. apply sum_ext. intros k Hk. rewrite entry_dual by lia. reflexivity.
Qed.
End Dual.

(** * L2 duals *)
Section L2.
Variables (S : fn -> Prop) (integral : fn -> R) (poly : list fn).
Hypotheses (HA : algebra S) (HI : linear_on S integral) (Hp : Forall S poly).
Definition against (p : fn) : fn -> R := fun q => integral (fun x => p x * q x).

Lemma against_linear p : S p -> linear_on S (against p).
Proof.
  intros Sp. destruct HA as [HS HM]. split.
  - intros a u v Su Sv. unfold against.
    rewrite (proj2 HI _ (fun x => a * (p x * u x) + p x * v x)).
    + apply HI; apply HM; assumption.
    + intros; ring.
    + apply HM; [exact Sp|]. apply HS; assumption.
  - intros u v E Su. unfold against. apply HI; [intros x; rewrite E; reflexivity|apply HM; assumption].
Qed.
Lemma all_against : Forall (linear_on S) (map against poly).
Proof.
  apply Forall_forall. intros L H. apply in_map_iff in H. destruct H as (p & <- & H).
  apply against_linear. rewrite Forall_forall in Hp. apply Hp, H.
Qed.
(** the Gram matrix is symmetric, so it is the dual matrix for the dofs "integral against p" *)
Lemma gram_dual : gram integral poly = dual_matrix poly (map against poly).
Proof.
  unfold gram, dual_matrix. apply map_ext_in. intros p Hin. rewrite map_map. apply map_ext_in. intros q Hq.
  unfold against. rewrite Forall_forall in Hp. apply HI; [intros; ring|]. apply HA; apply Hp; assumption.
Qed.
(** ... and the result consists of the same functions *)
Lemma l2_dual_is d : l2_dual integral poly = Ok d ->
  exists phi, get_basis_functions poly (map against poly) = Ok phi /\ length d = length phi /\
    forall i, (i < length poly)%nat -> same (nth i d (fun _ => 0)) (nth i phi (fun _ => 0)).
Proof.
  unfold l2_dual, get_basis_functions. rewrite map_length, Nat.eqb_refl. simpl. rewrite gram_dual.
  pose proof (inv_LU_spec _ _ (square_dual poly (map against poly) ltac:(rewrite map_length; reflexivity))) as H.
  destruct (inv_LU (dual_matrix poly (map against poly))) as [N|e]; [|discriminate]. intros E. injection E as <-.
  eexists. split; [reflexivity|]. split; [rewrite !map_length; reflexivity|]. intros i Hi x.
  rewrite map_length in H. destruct H as [[Q1 Q2] _].
  rewrite !nth_map_range by exact Hi.
  assert (Hn : length (nth i N []) = length poly) by (apply Q2, nth_In; rewrite Q1; exact Hi).
  rewrite fold_combination, row_combination_eq by exact Hn. unfold fzero, combination. ring.
Qed.
Lemma l2_dual_succeeds phi : get_basis_functions poly (map against poly) = Ok phi -> exists d, l2_dual integral poly = Ok d.
Proof.
  unfold l2_dual, get_basis_functions. rewrite map_length, Nat.eqb_refl. simpl. rewrite gram_dual.
  destruct (inv_LU _); [eexists; reflexivity|discriminate].
Qed.
End L2.
End Functions.
