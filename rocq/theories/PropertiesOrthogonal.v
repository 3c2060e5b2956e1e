(** C11, C70: orthogonality of the orthogonal bases, orthonormality of the orthonormal ones
    (symfem/polynomials/legendre.py). *)
From Coquelicot Require Import Coquelicot.
From Coq Require Import String Arith ZArith Reals Lia Lra Bool List.
From Verif Require Import Base PolyLib PolySetsModel PolyVec LinAlg LegendreModel LegendreSpec LegendreTables LegendreProofs LegendreTet LegendreRows LegendrePyramid LegendreDeriv LegendreJacobi LegendreOrtho LegendreIntSpec LegendreIntegrals LegendreBases PropertiesLegendre.
From Verif Require ReferencesModel.
Import ListNotations.
Open Scope R_scope.

(** * End values and degree of the Legendre polynomials *)
Lemma lco_diff n : fst (fst (lco (S n))) - snd (lco (S n)) = 1.
Proof. destruct (pinv_lco (S n) (one_le_S _)) as [-> ->]. ring. Qed.
Lemma leg_one n : hom lco n 1 1 = 1.
Proof.
  induction n as [| |n IH1 IH2] using two_step; [reflexivity| |].
  - cbn. field.
  - rewrite (hom_S lco (S n)), IH1, IH2. change (snd (fst (lco (S n)))) with 0. pose proof (lco_diff n). lra.
Qed.
Lemma leg_zero n : hom lco n 0 1 = (-1) ^ n.
Proof.
  induction n as [| |n IH1 IH2] using two_step; [reflexivity| |].
  - cbn. field.
  - rewrite (hom_S lco (S n)), IH1, IH2. change (snd (fst (lco (S n)))) with 0. pose proof (lco_diff n) as H.
    replace (fst (fst (lco (S n)))) with (1 + snd (lco (S n))) by lra. cbn [pow]. ring.
Qed.
Definition shift (c : nat -> R) (k : nat) : R := match k with O => 0 | S k' => c k' end.
Lemma sum_shift m c x : sum (S m) (fun k => shift c k * x ^ k) = x * sum m (fun k => c k * x ^ k).
Proof. induction m as [|m IH]; [cbn; ring|]. change (sum (S (S m)) (fun k => shift c k * x ^ k)) with (sum (S m) (fun k => shift c k * x ^ k) + c m * x ^ S m). rewrite IH. cbn [sum pow]. ring. Qed.
Lemma leg_degree n : exists c : nat -> R, (forall k, (n < k)%nat -> c k = 0) /\ 0 < c n /\ forall x m, (n < m)%nat -> hom lco n x 1 = sum m (fun k => c k * x ^ k).
Proof.
  assert (P : forall k, 0 < fst (fst (lco k))) by (intros k; unfold lco; cbn [fst]; apply Rdiv_lt_0_compat; apply lt_0_INR; lia).
  assert (E0 : exists c : nat -> R, (forall k, (0 < k)%nat -> c k = 0) /\ 0 < c 0%nat /\ forall x m, (0 < m)%nat -> hom lco 0 x 1 = sum m (fun k => c k * x ^ k)).
  { exists (fun k => match k with O => 1 | _ => 0 end). split; [intros [|k] H; [lia|reflexivity]|]. split; [lra|]. intros x m Hm. rewrite (sum_single m _ 0%nat Hm); [cbn; ring|]. intros [|i] _ Ni; [congruence|ring]. }
  assert (Step : forall n1 c, (forall k, (n1 < k)%nat -> c k = 0) -> 0 < c n1 -> (forall x m, (n1 < m)%nat -> hom lco n1 x 1 = sum m (fun k => c k * x ^ k)) ->
     exists c', (forall k, (S n1 < k)%nat -> c' k = 0) /\ 0 < c' (S n1) /\ forall x m, (S n1 < m)%nat -> hom lco n1 x 1 * ((2 * x - 1) * fst (fst (lco n1)) + 1 * 0) = sum m (fun k => c' k * x ^ k)).
  { intros n1 c Hz Hp He. exists (fun k => fst (fst (lco n1)) * (2 * shift c k - c k)). split; [|split].
    - intros [|k] Hk; [lia|]. cbn [shift]. rewrite !Hz by lia. ring.
    - cbn [shift]. rewrite (Hz (S n1)) by lia. apply Rmult_lt_0_compat; [apply P|lra].
    - intros x [|m] Hm; [lia|].
      rewrite (sum_ext (S m) _ (fun k => (2 * fst (fst (lco n1))) * (shift c k * x ^ k) + (- fst (fst (lco n1))) * (c k * x ^ k))) by (intros; ring).
      rewrite sum_plus, !sum_scal, sum_shift, <- (He x m), <- (He x (S m)) by lia. ring. }
  induction n as [| |n IH1 IH2] using two_step; [exact E0| |].
  - destruct E0 as (c & Hz & Hp & He). destruct (Step 0%nat c Hz Hp He) as (c' & Hz' & Hp' & He'). exists c'. split; [exact Hz'|]. split; [exact Hp'|].
    intros x m Hm. rewrite <- (He' x m Hm), hom_S. change (snd (fst (lco 0))) with 0. ring.
  - destruct IH1 as (c1 & Hz1 & Hp1 & He1). destruct IH2 as (c & Hz & Hp & He). destruct (Step (S n) c Hz Hp He) as (c' & Hz' & Hp' & He').
    exists (fun k => c' k + - snd (lco (S n)) * c1 k). split; [|split].
    + intros k Hk. rewrite Hz', Hz1 by lia. ring.
    + rewrite (Hz1 (S (S n))) by lia. rewrite Rmult_0_r, Rplus_0_r. exact Hp'.
    + intros x m Hm. rewrite (sum_ext m _ (fun k => c' k * x ^ k + - snd (lco (S n)) * (c1 k * x ^ k))) by (intros; ring).
      rewrite sum_plus, sum_scal, <- (He' x m Hm), <- (He1 x m), (hom_S lco (S n)) by lia. change (snd (fst (lco (S n)))) with 0. ring.
Qed.

(** C11.  The polynomials on the interval: polynomial i has degree exactly i, value 1 at 1 and (-1)^i at 0,
    and the integrals over [0,1] of the products are 0 or 1/(2i+1). *)
Theorem C11_interval order derivs v0 : exists t, orthogonal_basis "interval" order derivs (Some [v0]) = Ok t /\
  (forall row, nth_error t 0 = Some row -> length row = (order + 1)%nat) /\
  forall i f, at2 t 0 i = Some f ->
    (forall v : point, v v0 = 1 -> f v = 1) /\ (forall v : point, v v0 = 0 -> f v = (-1) ^ i) /\
    (exists c : nat -> R, c i <> 0 /\ forall v, f v = sum (i + 1) (fun k => c k * v v0 ^ k)) /\
    forall j g, at2 t 0 j = Some g -> forall v : point,
      is_RInt (fun s => f (upd v v0 s) * g (upd v v0 s)) 0 1 (if Nat.eqb i j then 1 / (2 * INR i + 1) else 0).
Proof.
  destruct (interval_table order derivs v0) as (t & E & Sh & H). exists t. split; [exact E|]. split; [intros row; apply (shape_row _ _ _ _ _ Sh)|].
  assert (Hat : forall i f, at2 t 0 i = Some f -> forall v, f v = hom lco i (v v0) 1).
  { intros i f Hf v. destruct (at2_entry _ _ _ _ _ Sh Hf) as [Li Ef]. rewrite <- gi_hom. apply Ef. apply (H 0%nat i); lia. }
  intros i f Hf. pose proof (Hat i f Hf) as Ef. split; [intros v E1; rewrite Ef, E1; apply leg_one|]. split; [intros v E1; rewrite Ef, E1; apply leg_zero|]. split.
  - destruct (leg_degree i) as (c & _ & Hp & He). exists c. split; [lra|]. intros v. rewrite Ef. apply He. lia.
  - intros j g Hg v. eapply is_RInt_eq; [exact (leg_integral i j 1)| |].
    + intros x _. rewrite Ef, (Hat j g Hg), upd_same. reflexivity.
    + destruct (Nat.eqb i j); [rewrite pow1|]; reflexivity.
Qed.
Print Assumptions C11_interval.
(** the polynomial of degree 2 is 6x² - 6x + 1 and its square integrates to 1/5 *)
Example C11_case : exists t f, orthogonal_basis "interval" 3 0 None = Ok t /\ at2 t 0 2 = Some f /\ (forall v, f v = 6 * v 0%nat ^ 2 - 6 * v 0%nat + 1) /\
  is_RInt (fun s => f (upd (fun _ => 0) 0 s) * f (upd (fun _ => 0) 0 s)) 0 1 (1 / 5).
Proof.
  destruct (C11_interval 3 0 0) as (t & E & L & H). exists t.
  destruct (interval_table 3 0 0) as (t' & E' & _ & K). change (orthogonal_basis_interval 3 0 [0%nat] = Ok t) in E. pose proof (eq_trans (eq_sym E') E) as X. injection X as <-.
  destruct (K 0 2 ltac:(lia) ltac:(lia))%nat as (f & Ef & Hf). exists f.
  assert (A : at2 t' 0 2 = Some f). { unfold tget in Ef. unfold at2. cbn [fst snd] in Ef. destruct (nth_error t' 0) as [row|]; [|discriminate]. destruct (nth_error row 2); [|discriminate]. injection Ef as ->. reflexivity. }
  split; [exact E'|]. split; [exact A|]. split; [intros v; rewrite Hf, gi_hom; cbn; field|].
  destruct (H 2%nat f A) as (_ & _ & _ & I). eapply is_RInt_eq; [apply (I 2%nat f A (fun _ => 0))|reflexivity|]. cbn. field.
Qed.

(** C70.  On every cell the integral of the product of two different polynomials of the table over the
    reference cell (with the limits of the Reference object, in the given variables) is 0, and the
    integral of the square of each is positive. *)
Theorem C70_orthogonal cell d np vars order derivs :
  In (cell, (d, np)) cells -> length vars = d -> NoDup vars ->
  exists t, orthogonal_basis cell order derivs (Some vars) = Ok t /\
    forall i f, at2 t 0 i = Some f ->
      (forall j g v, at2 t 0 j = Some g -> j <> i -> integral_over cell vars (fun e => f e * g e) v 0) /\
      exists norm, 0 < norm /\ forall v, integral_over cell vars (fun e => f e * f e) v norm.
Proof.
  intros Hc L ND. destruct (C12_derivative_tables cell d np vars order derivs Hc L ND) as (t & E & _). exists t. split; [exact E|].
  destruct (all_ortho cell d np vars order derivs t Hc L ND E) as [H _]. intros i f Hf. split.
  - intros j g v Hg N. destruct (H i j f g Hf Hg) as (n & _ & I). specialize (I v). destruct (Nat.eqb_spec i j); [congruence|]. exact I.
  - destruct (H i i f f Hf Hf) as (n & P & I). exists n. split; [exact P|]. intros v. specialize (I v). rewrite Nat.eqb_refl in I. exact I.
Qed.
Print Assumptions C70_orthogonal.

(** * The normalised tables *)
Lemma scale_loop (n : nat * nat -> R) nd ni : forall ks t, shape nd ni t -> NoDup ks -> (forall k, In k ks -> (fst k < nd)%nat /\ (snd k < ni)%nat) ->
  exists t', for_in ks (fun k t => rbind (tget t (fst k) (snd k)) (fun f => tset t (fst k) (snd k) (fun v => f v / n k))) t = Ok t' /\ shape nd ni t' /\
    (forall k, ~ In k ks -> tget t' (fst k) (snd k) = tget t (fst k) (snd k)) /\
    (forall k f, In k ks -> tget t (fst k) (snd k) = Ok f -> exists f', tget t' (fst k) (snd k) = Ok f' /\ forall v, f' v = f v / n k).
Proof.
  induction ks as [|k ks IH]; intros t Sh ND Rng.
  - exists t. split; [reflexivity|]. split; [exact Sh|]. split; [reflexivity|]. intros k f [].
  - inversion ND as [|? ? Nk NDk]; subst. destruct (Rng k (or_introl eq_refl)) as [Hd Hi].
    assert (G : exists f0, tget t (fst k) (snd k) = Ok f0).
    { unfold tget. destruct (nth_error t (fst k)) as [row|] eqn:Er; [|apply nth_error_None in Er; destruct Sh; lia].
      destruct (nth_error row (snd k)) as [f0|] eqn:Ef; [exists f0; reflexivity|]. apply nth_error_None in Ef. rewrite (shape_row _ _ _ _ _ Sh Er) in Ef. lia. }
    destruct G as [f0 Ef0]. destruct (tset_ok nd ni t (fst k) (snd k) (fun v => f0 v / n k) Sh Hd Hi) as (t1 & E1 & Sh1 & G1 & O1).
    destruct (IH t1 Sh1 NDk (fun k' H => Rng k' (or_intror H))) as (t2 & E2 & Sh2 & O2 & G2). exists t2.
    rewrite for_in_cons, Ef0. cbn [rbind]. rewrite E1. cbn [rbind]. split; [exact E2|]. split; [exact Sh2|]. split.
    + intros k' Hk'. rewrite O2 by (intros X; apply Hk'; right; exact X). apply O1. intros X. apply Hk'. left. destruct k, k'. cbn in X. congruence.
    + intros k' f [<-|Hk'] Hf.
      * rewrite Ef0 in Hf. injection Hf as <-. exists (fun v => f0 v / n k). split; [|reflexivity]. rewrite O2 by exact Nk. exact G1.
      * apply G2; [exact Hk'|]. rewrite O1; [exact Hf|]. intros X. apply Nk. destruct k, k'. cbn in X. injection X as -> ->. exact Hk'.
Qed.
Lemma combine_range {A} (l : list A) d : forall s, combine (seq s (length l)) l = map (fun i => (i, nth (i - s) l d)) (seq s (length l)).
Proof.
  induction l as [|a l IH]; intros s; [reflexivity|]. cbn [length seq combine map]. rewrite Nat.sub_diag. f_equal. rewrite IH. apply map_ext_in. intros i Hi. apply in_seq in Hi.
  replace (i - s)%nat with (S (i - S s)) by lia. reflexivity.
Qed.
Lemma orthonormal_entries integrate cell order derivs vars nd ni t row : orthogonal_basis cell order derivs vars = Ok t -> shape nd ni t -> nth_error t 0 = Some row ->
  let xs := match vars with Some l => l | None => range 3 end in
  let n i := sqrt (integrate (substituted xs (fun v => nth i row (fun _ => 0) v ^ 2))) in
  exists t', orthonormal_basis integrate cell order derivs vars = Ok t' /\ shape nd ni t' /\
    forall d i f, at2 t d i = Some f -> exists f', at2 t' d i = Some f' /\ forall v, f' v = f v / n i.
Proof.
  intros E Sh Er xs n. unfold orthonormal_basis. rewrite E. cbn [rbind]. unfold trow. rewrite Er. cbn [rbind]. fold xs.
  set (norms := map (fun f : sfun => sqrt (integrate (substituted xs (fun v => f v ^ 2)))) row).
  assert (Ln : length norms = ni). { unfold norms. rewrite map_length. apply (shape_row _ _ _ _ _ Sh Er). }
  set (ks := flat_map (fun i => map (fun j => (j, i)) (range (length t))) (range ni)).
  destruct (scale_loop (fun k => n (snd k)) nd ni ks t Sh) as (t' & E' & Sh' & _ & G').
  { unfold ks. apply NoDup_flat_map; [apply seq_NoDup| |].
    - intros a _. apply NoDup_map_inj; [intros x y _ _ X; congruence|apply seq_NoDup].
    - intros a b k _ _ H1 H2. apply in_map_iff in H1. apply in_map_iff in H2. destruct H1 as (x & <- & _). destruct H2 as (y & Hy & _). congruence. }
  { intros k Hk. unfold ks in Hk. apply in_flat_map in Hk. destruct Hk as (i & Hi & Hk). apply in_map_iff in Hk. destruct Hk as (j & <- & Hj). apply in_range in Hi. apply in_range in Hj. destruct Sh. cbn. lia. }
  exists t'. split; [|split; [exact Sh'|]].
  - rewrite <- E'. unfold ks. rewrite for_in_flat_map. unfold range at 1. rewrite (combine_range norms 0 0), for_in_map, Ln. apply for_in_ext. intros i s Hi. rewrite for_in_map. apply for_in_ext. intros j s' _.
    cbn [fst snd]. apply in_seq in Hi. rewrite Nat.sub_0_r. replace (nth i norms 0) with (n i); [reflexivity|].
    unfold norms, n. rewrite (nth_indep _ 0 (sqrt (integrate (substituted xs (fun v => (fun _ : point => 0) v ^ 2))))) by (fold norms; lia).
    symmetry. exact (map_nth (fun f : sfun => sqrt (integrate (substituted xs (fun v => f v ^ 2)))) row (fun _ => 0) i).
  - intros d i f Hf.
    assert (Hk : (d < nd)%nat /\ (i < ni)%nat).
    { unfold at2 in Hf. destruct (nth_error t d) as [r|] eqn:Er'; [|discriminate]. split.
      - destruct Sh as [<- _]. apply nth_error_Some. rewrite Er'. discriminate.
      - rewrite <- (shape_row _ _ _ _ _ Sh Er'). apply nth_error_Some. rewrite Hf. discriminate. }
    destruct (G' (d, i) f) as (f' & Ef' & Hf').
    + unfold ks. apply in_flat_map. exists i. split; [apply in_range; lia|]. apply in_map_iff. exists d. split; [reflexivity|]. apply in_range. destruct Sh. lia.
    + unfold at2 in Hf. unfold tget. cbn [fst snd]. destruct (nth_error t d); [|discriminate]. rewrite Hf. reflexivity.
    + exists f'. split; [|exact Hf']. unfold tget in Ef'. cbn [fst snd] in Ef'. unfold at2. destruct (nth_error t' d); [|discriminate]. destruct (nth_error l i); [|discriminate]. injection Ef' as ->. reflexivity.
Qed.

Lemma substituted_same vars xs f : depends vars f -> (forall k, (k < 3)%nat -> (k < length xs)%nat -> In k vars -> nth k xs 0%nat = k) -> forall v, substituted xs f v = f v.
Proof.
  intros D H. unfold substituted.
  assert (Hp : forall k p, In (k, p) (combine (range 3) xs) -> In k vars -> p = k).
  { intros k p Hk Hv. apply In_nth_error in Hk. destruct Hk as [n Hn].
    assert (X : nth_error (range 3) n = Some k /\ nth_error xs n = Some p).
    { clear - Hn. revert n xs Hn. generalize (range 3). induction l as [|a l IH]; intros [|n] [|b xs] Hn; try discriminate Hn; cbn in *; [injection Hn as -> ->; auto|]. apply IH, Hn. }
    destruct X as [Xk Xp]. assert (Ln : (n < 3)%nat) by (change 3%nat with (length (range 3)); apply nth_error_Some; rewrite Xk; discriminate).
    rewrite nth_error_range in Xk by exact Ln. injection Xk as ->. rewrite <- (H k Ln); [symmetry; apply nth_error_nth, Xp| |exact Hv]. apply nth_error_Some. rewrite Xp. discriminate. }
  revert Hp f D. generalize (combine (range 3) xs). induction l as [|[k p] l IH]; intros Hp f D v; [reflexivity|]. cbn [fold_left fst snd].
  assert (E : forall v : point, f (fun i => if Nat.eq_dec i k then v p else v i) = f v).
  { intros u. apply D. intros i Hi. destruct (Nat.eq_dec i k) as [->|]; [|reflexivity]. rewrite (Hp k p) by (simpl; auto). reflexivity. }
  rewrite IH; [apply E|intros k' p' X; apply Hp; right; exact X|]. intros u w Huw. rewrite !E. apply D, Huw.
Qed.
Lemma iterated_scal k lims : forall F v I, iterated_integral lims F v I -> iterated_integral lims (fun e => k * F e) v (k * I).
Proof.
  induction lims as [|[[x lo] hi] ls IH]; intros F v I; cbn [iterated_integral]; [intros ->; reflexivity|].
  intros (G & A & B). exists (fun e => k * G e). split; [intros e; apply int_scal, A|apply IH, B].
Qed.
Lemma over_scal k cell vars F F' v I I' : (forall e, F' e = k * F e) -> I' = k * I -> integral_over cell vars F v I -> integral_over cell vars F' v I'.
Proof. intros E -> (c & lims & A & B & C). exists c, lims. split; [exact A|]. split; [exact B|]. eapply iterated_ext'; [|apply iterated_scal, C]. intros e. symmetry. apply E. Qed.

(** [integrate] computes the integrals over the cell in the variables, where they exist *)
Definition integrates_over (cell : string) (vars : list nat) (integrate : sfun -> R) : Prop :=
  forall g value, (forall v, integral_over cell vars g v value) -> integrate g = value.
(** the variables of a call; none of the axis variables x_0, ..., x_(d-1) at another place than its own *)
Definition variables_of (d : nat) (variables : option (list nat)) : list nat := match variables with Some l => l | None => range d end.
Definition in_place (d : nat) (vars : list nat) : Prop := forall k i, (i < d)%nat -> nth_error vars k = Some i -> k = i.

(** C70.  orthonormal_basis divides every column of the table by one positive number; the integrals of the
    products of the entries of row 0 are 0 and 1.  The variables must not contain an axis variable out of
    its place. *)
Theorem C70_orthonormal_partial integrate cell d np variables order derivs :
  In (cell, (d, np)) cells -> length (variables_of d variables) = d -> NoDup (variables_of d variables) -> in_place d (variables_of d variables) ->
  integrates_over cell (variables_of d variables) integrate ->
  exists t t', orthogonal_basis cell order derivs variables = Ok t /\ orthonormal_basis integrate cell order derivs variables = Ok t' /\
    length t' = length t /\ (forall row, In row t' -> length row = np order) /\
    (forall i, exists c, forall a f, at2 t a i = Some f -> 0 < c /\ exists f', at2 t' a i = Some f' /\ forall v, f' v = c * f v) /\
    (forall i j f g v, at2 t' 0 i = Some f -> at2 t' 0 j = Some g ->
       integral_over cell (variables_of d variables) (fun e => f e * g e) v (if Nat.eqb i j then 1 else 0)).
Proof.
  intros Hc L ND Pl Hint. set (vars := variables_of d variables) in *.
  destruct (C12_derivative_tables cell d np vars order derivs Hc L ND) as (t & E & Lt & Lr & _).
  assert (E' : orthogonal_basis cell order derivs variables = Ok t).
  { destruct variables as [l|]; [exact E|]. rewrite (proj1 (proj1 (C12_arguments cell order derivs) d np Hc)). exact E. }
  destruct (all_ortho cell d np vars order derivs t Hc L ND E) as [Ho Hd].
  set (nd := length t). assert (Sh : shape nd (np order) t) by (split; [reflexivity|apply Forall_forall, Lr]).
  assert (Lt0 : (0 < length t)%nat).
  { rewrite Lt. destruct Hc as [X|[X|[X|[X|[X|[X|[X|[]]]]]]]]; injection X as _ <- _; rewrite ?length_multi1, ?length_multi2, ?length_multi3; try lia; (apply Nat.div_str_pos; nia). }
  destruct (nth_error t 0) as [row|] eqn:Er; [|apply nth_error_None in Er; lia].
  destruct (orthonormal_entries integrate cell order derivs variables nd (np order) t row E' Sh Er) as (t' & Et' & Sh' & Hs). cbv zeta in Hs.
  set (xs := match variables with Some l => l | None => range 3 end) in *.
  assert (Hxs : forall k, (k < 3)%nat -> (k < length xs)%nat -> In k vars -> nth k xs 0%nat = k).
  { intros k K3 Kx Kv. unfold xs. destruct variables as [l|]; [|unfold range; rewrite seq_nth by lia; reflexivity].
    apply In_nth_error in Kv. destruct Kv as [i Hi]. change vars with l in Hi. change (length l = d) in L. change (length xs) with (length l) in Kx.
    assert (i = k) by (apply (Pl i k); [lia|exact Hi]). subst i. apply nth_error_nth, Hi. }
  assert (Row : forall i f, at2 t 0 i = Some f -> nth i row (fun _ => 0) = f) by (intros i f Hf; unfold at2 in Hf; rewrite Er in Hf; apply nth_error_nth, Hf).
  set (n := fun i => sqrt (integrate (substituted xs (fun v => nth i row (fun _ => 0) v ^ 2)))) in Hs.
  assert (Hn : forall i f, at2 t 0 i = Some f -> 0 < n i /\ forall v, integral_over cell vars (fun e => f e * f e) v (n i * n i)).
  { intros i f Hf. destruct (Ho i i f f Hf Hf) as (N & P & I). rewrite Nat.eqb_refl in I. cbn [delta] in I.
    assert (V : integrate (substituted xs (fun v => f v ^ 2)) = N).
    { apply Hint. intros v. apply (over_scal 1 cell vars _ _ v N N) with (3 := I v); [|ring]. intros e.
      rewrite (substituted_same vars xs (fun v => f v ^ 2)); [cbn [pow]; ring| |exact Hxs]. intros u w Huw. cbv beta. rewrite (Hd i f Hf u w Huw). reflexivity. }
    unfold n. rewrite (Row i f Hf), V. split; [apply sqrt_lt_R0, P|]. rewrite sqrt_sqrt by lra. exact I. }
  assert (A0 : forall a i f, at2 t a i = Some f -> exists f0, at2 t 0 i = Some f0).
  { intros a i f Hf. unfold at2 in *. rewrite Er. destruct (nth_error t a) as [r|] eqn:Ea; [|discriminate].
    destruct (nth_error row i) as [f0|] eqn:Ei; [exists f0; reflexivity|]. apply nth_error_None in Ei. rewrite (shape_row _ _ _ _ _ Sh Er) in Ei.
    assert (i < length r)%nat by (apply nth_error_Some; rewrite Hf; discriminate). rewrite (shape_row _ _ _ _ _ Sh Ea) in H. lia. }
  exists t, t'. split; [exact E'|]. split; [exact Et'|]. split; [exact (proj1 Sh')|]. split; [intros r Hr; destruct Sh' as [_ F]; rewrite Forall_forall in F; apply F, Hr|]. split.
  - intros i. exists (/ n i). intros a f Hf. destruct (A0 a i f Hf) as [f0 Hf0]. destruct (Hn i f0 Hf0) as [P _]. split; [apply Rinv_0_lt_compat, P|].
    destruct (Hs a i f Hf) as (f' & Ef' & Hf'). exists f'. split; [exact Ef'|]. intros v. rewrite Hf'. unfold Rdiv. apply Rmult_comm.
  - assert (Back : forall i f', at2 t' 0 i = Some f' -> exists f, at2 t 0 i = Some f /\ forall v, f' v = f v / n i).
    { intros i f' Hf'. destruct (nth_error row i) as [f|] eqn:Ei.
      - assert (Hf : at2 t 0 i = Some f) by (unfold at2; rewrite Er; exact Ei). exists f. split; [exact Hf|].
        destruct (Hs 0%nat i f Hf) as (f'' & Ef'' & Hf''). rewrite Hf' in Ef''. injection Ef'' as <-. exact Hf''.
      - exfalso. apply nth_error_None in Ei. rewrite (shape_row _ _ _ _ _ Sh Er) in Ei. destruct (at2_entry _ _ _ _ _ Sh' Hf') as [Li _]. lia. }
    intros i j f' g' v Hf' Hg'. destruct (Back i f' Hf') as (f & Hf & Ef). destruct (Back j g' Hg') as (g & Hg & Eg).
    destruct (Hn i f Hf) as [Pi Ii]. destruct (Hn j g Hg) as [Pj _].
    destruct (Nat.eqb_spec i j) as [<-|N].
    + rewrite Hf in Hg. injection Hg as <-. apply (over_scal (/ (n i * n i)) cell vars _ _ v (n i * n i) 1) with (3 := Ii v).
      * intros e. rewrite Ef, Eg. field. lra.
      * field. lra.
    + destruct (Ho i j f g Hf Hg) as (M & _ & I). specialize (I v). destruct (Nat.eqb_spec i j); [contradiction|]. cbn [delta] in I.
      apply (over_scal (/ (n i * n j)) cell vars _ _ v 0 0) with (3 := I); [|ring]. intros e. rewrite Ef, Eg. field. lra.
Qed.
Print Assumptions C70_orthonormal_partial.

(** An [integrate] as in the theorem exists for every cell: the iterated integral of Coquelicot. *)
Fixpoint iint (lims : list ReferencesModel.limit) (F : point -> R) : point -> R :=
  match lims with
  | [] => F
  | (k, lo, hi) :: ls => iint ls (fun e => RInt (fun s => F (upd e k s)) (lo e) (hi e))
  end.
Lemma iint_ext lims : forall F F', (forall e, F e = F' e) -> forall v, iint lims F v = iint lims F' v.
Proof.
  induction lims as [|[[k lo] hi] ls IH]; intros F F' E v; [apply E|]. cbn [iint]. apply IH. intros e. apply RInt_ext. intros x _. apply E.
Qed.
Lemma iint_spec lims : forall F v I, iterated_integral lims F v I -> iint lims F v = I.
Proof.
  induction lims as [|[[k lo] hi] ls IH]; intros F v I; cbn [iterated_integral iint]; [auto|]. intros (G & A & B). rewrite <- (IH G v I B). apply iint_ext.
  intros e. apply is_RInt_unique, A.
Qed.
Lemma iint_over cell c lims vars : In (cell, c) cell_names -> ReferencesModel.integration_limits c = Ok lims -> integrates_over cell vars (fun g => iint (with_variables vars lims) g (fun _ => 0)).
Proof.
  intros Hc Hl g value H. destruct (H (fun _ => 0)) as (c' & lims' & Hc' & Hl' & I). apply iint_spec.
  assert (c' = c). { unfold cell_names in *. clear - Hc Hc'. simpl in Hc, Hc'. repeat (destruct Hc as [X|Hc]; [injection X as <- <-; repeat (destruct Hc' as [Y|Hc']; [first [discriminate Y|injection Y as <-; reflexivity]|]); destruct Hc'|]). destruct Hc. }
  subst c'. rewrite Hl in Hl'. injection Hl' as <-. exact I.
Qed.
(** The tetrahedron of order 2 with the default variables, normalised by these integrals: 10 polynomials. *)
Example C70_case : exists lims t t', ReferencesModel.integration_limits ReferencesModel.CTetrahedron = Ok lims /\
  orthogonal_basis "tetrahedron" 2 1 None = Ok t /\
  orthonormal_basis (fun g => iint (with_variables [0; 1; 2]%nat lims) g (fun _ => 0)) "tetrahedron" 2 1 None = Ok t' /\
  (exists f, at2 t' 0 9 = Some f) /\ forall f v, at2 t' 0 9 = Some f -> integral_over "tetrahedron" [0; 1; 2]%nat (fun e => f e * f e) v 1.
Proof.
  destruct (ReferencesModel.integration_limits ReferencesModel.CTetrahedron) as [lims|] eqn:El; [|discriminate]. exists lims. destruct (C70_orthonormal_partial (fun g => iint (with_variables [0; 1; 2]%nat lims) g (fun _ => 0)) "tetrahedron" 3 (fun n => (n + 1) * (n + 2) * (n + 3) / 6)%nat None 2 1) as (t & t' & E & E' & L & Lr & S & O).
  - simpl. auto 10.
  - reflexivity.
  - apply seq_NoDup.
  - intros k i Hi H. change (nth_error [0; 1; 2]%nat k = Some i) in H. destruct k as [|[|[|k]]]; cbn in H; try congruence. destruct k; discriminate H.
  - apply (iint_over "tetrahedron" ReferencesModel.CTetrahedron); [simpl; auto 10|exact El].
  - exists t, t'. split; [reflexivity|]. split; [exact E|]. split; [exact E'|]. split.
    + destruct (orthogonal_basis "tetrahedron" 2 1 None) as [u|] eqn:Eu; [|discriminate]. injection E as ->.
      destruct (S 9%nat) as [c Hc].
      destruct (tetrahedron_table 2 1 0 1 2) as (t2 & E2 & Sh2 & H2). change (orthogonal_basis_tetrahedron 2 1 [0; 1; 2]%nat = Ok t) in Eu. rewrite E2 in Eu. injection Eu as ->.
      destruct (H2 0 0 0 2 0 0 ltac:(lia) ltac:(lia))%nat as (f & Ef & _). destruct (Hc 0%nat f) as (_ & f' & Ef' & _); [|exists f'; exact Ef'].
      unfold tget in Ef. cbn [fst snd] in Ef. unfold at2. change (index3 0 0 0) with 0%nat in Ef. change (index3 0 0 2) with 9%nat in Ef. destruct (nth_error t 0) as [r|]; [|discriminate]. destruct (nth_error r 9); [|discriminate]. injection Ef as ->. reflexivity.
    + intros f v Hf. exact (O 9 9 f f v Hf Hf)%nat.
Qed.

(** With axis variables out of their places the norm is wrong: the substitution of the axis variables one
    after the other identifies the two variables of (2x_1-1)(2x_2-1), and its square is integrated as
    (2x_2-1)^4. *)
Theorem C70_orthonormal_refuted : exists cell d np vars, In (cell, (d, np)) cells /\ length vars = d /\ NoDup vars /\
  (exists integrate, integrates_over cell vars integrate) /\
  forall integrate, integrates_over cell vars integrate ->
  exists t i f value, orthonormal_basis integrate cell 1 0 (Some vars) = Ok t /\ at2 t 0 i = Some f /\
    (forall v, integral_over cell vars (fun e => f e * f e) v value) /\ value <> 1.
Proof.
  exists "quadrilateral"%string, 2%nat, (fun n => (n + 1) ^ 2)%nat, [1; 2]%nat. split; [simpl; auto 10|]. split; [reflexivity|]. split; [repeat constructor; simpl; lia|].
  split; [eexists; apply (iint_over "quadrilateral" ReferencesModel.CQuadrilateral); [simpl; auto 10|reflexivity]|]. intros integrate Hint.
  destruct (quadrilateral_table 1 0 1 2) as (t & E & Sh & H). destruct (H 0 0 1 1 ltac:(lia) ltac:(lia) ltac:(lia))%nat as (f & Ef & Hf).
  assert (At : at2 t 0 3 = Some f).
  { unfold tget in Ef. cbn [fst snd] in Ef. unfold at2. change (index2 0 0) with 0%nat in Ef. change (1 * (1 + 1) + 1)%nat with 3%nat in Ef. destruct (nth_error t 0) as [r|]; [|discriminate]. destruct (nth_error r 3); [|discriminate]. injection Ef as ->. reflexivity. }
  assert (Hv : forall v, f v = (2 * v 1%nat - 1) * (2 * v 2%nat - 1)) by (intros v; rewrite Hf; cbn; field).
  destruct (nth_error t 0) as [row|] eqn:Er; [|unfold at2 in At; rewrite Er in At; discriminate].
  destruct (orthonormal_entries integrate "quadrilateral" 1 0 (Some [1; 2]%nat) _ _ t row E Sh Er) as (t' & E' & _ & S). cbv zeta in S.
  destruct (S 0%nat 3%nat f At) as (f' & Ef' & Hf'). clear S.
  assert (Row : nth 3 row (fun _ => 0) = f) by (unfold at2 in At; rewrite Er in At; apply nth_error_nth, At). rewrite Row in Hf'.
  assert (I2 : forall v, integral_over "quadrilateral" [1; 2]%nat (fun e => f e * f e) v (/ 9)).
  { intros v. exists ReferencesModel.CQuadrilateral. eexists. split; [simpl; auto 10|]. split; [reflexivity|].
    eapply iterated_ext'; [|eapply eq_ind; [exact (quad_int 1 2 1 1 1 1 v ltac:(lia))|cbn; field]]. intros e. cbv beta. rewrite !Hf. reflexivity. }
  assert (P4 : is_RInt (fun s => (2 * s - 1) ^ 4) 0 1 (/ 5)).
  { eapply is_RInt_eq; [apply (@is_RInt_derive R_CompleteNormedModule (fun s => (2 * s - 1) ^ 5 / 10) (fun s => (2 * s - 1) ^ 4))| |].
    - intros x _. auto_derive; [exact I|]. cbn [INR Init.Nat.pred]. field.
    - intros x _. apply (@ex_derive_continuous R_AbsRing R_NormedModule). auto_derive. exact I.
    - intros x _. reflexivity.
    - unfold minus, plus, opp. cbn. field. }
  assert (V : integrate (substituted [1; 2]%nat (fun v => f v ^ 2)) = / 5).
  { apply Hint. intros v. exists ReferencesModel.CQuadrilateral. eexists. split; [simpl; auto 10|]. split; [reflexivity|]. cbn [with_variables map iterated_integral nth].
    exists (fun _ => / 5). split.
    - intros e. eapply is_RInt_eq; [exact P4| |reflexivity]. intros x _. unfold substituted. cbn [range seq combine fold_left fst snd]. rewrite Hv. cbn. ring.
    - exists (fun _ => / 5). split; [|reflexivity]. intros e. eapply is_RInt_eq; [apply (is_RInt_const 0 1 (/ 5))|reflexivity|]. unfold scal. cbn. unfold mult. cbn. ring. }
  exists t', 3%nat, f', (5 / 9). split; [exact E'|]. split; [exact Ef'|]. split; [|lra].
  intros v. apply (over_scal 5 "quadrilateral" [1; 2]%nat _ _ v (/ 9) (5 / 9)) with (3 := I2 v); [|field].
  intros e. rewrite !Hf', V. unfold Rdiv.
  assert (Q : / sqrt (/ 5) * / sqrt (/ 5) = 5). { rewrite <- Rinv_mult, sqrt_sqrt by lra. lra. }
  replace (f e * / sqrt (/ 5) * (f e * / sqrt (/ 5))) with (/ sqrt (/ 5) * / sqrt (/ 5) * (f e * f e)) by ring. rewrite Q. ring.
Qed.
Print Assumptions C70_orthonormal_refuted.

(** C11, last part: on the interval orthonormal_basis has unit norms for every variable. *)
Theorem C11_orthonormal integrate v0 order derivs : integrates_over "interval" [v0] integrate ->
  exists t, orthonormal_basis integrate "interval" order derivs (Some [v0]) = Ok t /\
    forall i j f g v, at2 t 0 i = Some f -> at2 t 0 j = Some g ->
      is_RInt (fun s => f (upd v v0 s) * g (upd v v0 s)) 0 1 (if Nat.eqb i j then 1 else 0).
Proof.
  intros Hint. destruct (C70_orthonormal_partial integrate "interval" 1 (fun n => n + 1)%nat (Some [v0]) order derivs) as (t & t' & E & E' & L & Lr & S & O).
  - simpl. auto.
  - reflexivity.
  - repeat constructor. simpl. tauto.
  - intros [|[|k]] i Hi H; cbn in H; [lia|discriminate|destruct k; discriminate].
  - exact Hint.
  - exists t'. split; [exact E'|]. intros i j f g v Hf Hg. destruct (O i j f g v Hf Hg) as (c & lims & Hc & Hl & HI).
    unfold cell_names in Hc. simpl in Hc. repeat (destruct Hc as [X|Hc]; [first [discriminate X|injection X as <-]|]); [|destruct Hc]. 
    injection Hl as <-. cbn [with_variables map iterated_integral nth] in HI. destruct HI as (G & A & B). specialize (A v).
    change (G v = if Nat.eqb i j then 1 else 0) in B. rewrite B in A. exact A.
Qed.
Print Assumptions C11_orthonormal.
