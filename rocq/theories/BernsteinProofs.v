(** Lemmas about the Bernstein polynomials. *)
From Coq Require Import String Arith ZArith Reals Lra Lia List.
From Verif Require Import Base PolyLib PolySetsModel PolySetsProofs LinAlg UnisolvenceProofs LagrangeUnisolvence BernsteinModel.
Import ListNotations.
Open Scope R_scope.

(** * Multinomial coefficients *)
Definition fct (n : nat) : R := INR (fact n).
Lemma fct_pos n : 0 < fct n.
Proof. apply INR_fact_lt_0. Qed.
Lemma fct_S n : fct (S n) = INR (S n) * fct n.
Proof. unfold fct. rewrite <- mult_INR. reflexivity. Qed.

Lemma fold_mul_range : forall m k a, fold_left (fun out i => out * INR i) (seq (S k) m) a = a * (fct (k + m) / fct k).
Proof.
  induction m as [|m IH]; intros k a.
  - simpl. rewrite Nat.add_0_r. pose proof (fct_pos k). field. lra.
  - cbn [seq fold_left]. rewrite IH. replace (k + S m)%nat with (S k + m)%nat by lia. rewrite (fct_S k).
    pose proof (fct_pos k). pose proof (lt_0_INR (S k) ltac:(lia)). field. split; lra.
Qed.
Lemma fold_div_range : forall m k a, fold_left (fun out i => out / INR i) (seq (S k) m) a = a * (fct k / fct (k + m)).
Proof.
  induction m as [|m IH]; intros k a.
  - simpl. rewrite Nat.add_0_r. pose proof (fct_pos k). field. lra.
  - cbn [seq fold_left]. rewrite IH. replace (k + S m)%nat with (S k + m)%nat by lia. rewrite (fct_S k).
    pose proof (fct_pos k). pose proof (lt_0_INR (S k) ltac:(lia)). pose proof (fct_pos (S k + m)). field. split; lra.
Qed.
Lemma single_choose_fact n k : (k <= n)%nat -> single_choose n k = fct n / (fct k * fct (n - k)).
Proof.
  intros H. unfold single_choose, range2. replace (k + 1)%nat with (S k) by lia.
  rewrite fold_mul_range, fold_div_range. replace (k + (n + 1 - S k))%nat with n by lia.
  replace (0 + (n - k + 1 - 1))%nat with (n - k)%nat by lia. unfold fct at 3. simpl (INR (fact 0)).
  pose proof (fct_pos k). pose proof (fct_pos (n - k)). field. split; lra.
Qed.

Fixpoint fcts (p : list nat) : R := match p with [] => 1 | a :: p' => fct a * fcts p' end.
Lemma fcts_pos p : 0 < fcts p.
Proof. induction p as [|a p IH]; simpl; [lra|]. apply Rmult_lt_0_compat; [apply fct_pos|exact IH]. Qed.

Lemma choose_fold : forall p n a, (list_sum p <= n)%nat ->
  snd (fold_left (fun s p => ((fst s - p)%nat, snd s * single_choose (fst s) p)) p (n, a)) =
  a * (fct n / (fcts p * fct (n - list_sum p))).
Proof.
  induction p as [|b p IH]; intros n a H.
  - simpl. rewrite Nat.sub_0_r. pose proof (fct_pos n). field. lra.
  - change (list_sum (b :: p)) with (b + list_sum p)%nat in *. cbn [fold_left fst snd]. rewrite IH by lia.
    rewrite single_choose_fact by lia. replace (n - (b + list_sum p))%nat with (n - b - list_sum p)%nat by lia. cbn [fcts].
    pose proof (fct_pos n). pose proof (fct_pos b). pose proof (fct_pos (n - b)). pose proof (fct_pos (n - b - list_sum p)). pose proof (fcts_pos p).
    field. repeat split; lra.
Qed.
Lemma choose_fact n p : list_sum p = n -> choose n p = fct n / fcts p.
Proof.
  intros H. unfold choose. rewrite choose_fold by lia. replace (n - list_sum p)%nat with 0%nat by lia.
  unfold fct at 2. simpl (INR (fact 0)). pose proof (fcts_pos p). field. lra.
Qed.
Lemma choose_pos n p : list_sum p = n -> 0 < choose n p.
Proof. intros H. rewrite choose_fact by exact H. apply Rdiv_lt_0_compat; [apply fct_pos|apply fcts_pos]. Qed.

(** * The exponents *)
Definition good_dim (d : nat) : Prop := d = 1%nat \/ d = 2%nat \/ d = 3%nat.

Lemma powers_in d n : good_dim d -> exists ps, powers n d = Ok ps /\ NoDup ps /\
  forall p, In p ps <-> length p = S d /\ list_sum p = n.
Proof.
  intros [-> | [-> | ->]]; eexists; (split; [reflexivity|]); split.
  - apply NoDup_map_inj; [|apply NoDup_range]. intros a b _ _ E. congruence.
  - intros p. rewrite in_map_iff. split.
    + intros (i & <- & Hi). apply in_range in Hi. simpl. split; lia.
    + intros [L S]. destruct p as [|a [|b [|]]]; try discriminate L. simpl in S. exists b. split; [f_equal; lia|]. apply in_range. lia.
  - apply NoDup_flat_map; [apply NoDup_range| |].
    + intros a _. apply NoDup_map_inj; [|apply NoDup_range]. intros x y _ _ E. congruence.
    + intros a b x _ _ H1 H2. apply in_map_iff in H1, H2. destruct H1 as (? & <- & _), H2 as (? & E & _). congruence.
  - intros p. rewrite in_flat_map. split.
    + intros (i & Hi & H). apply in_map_iff in H. destruct H as (j & <- & Hj). apply in_range in Hi, Hj. simpl. split; lia.
    + intros [L S]. destruct p as [|a [|b [|c [|]]]]; try discriminate L. simpl in S. exists c. split; [apply in_range; lia|].
      apply in_map_iff. exists b. split; [f_equal; lia|]. apply in_range. lia.
  - apply NoDup_flat_map; [apply NoDup_range| |].
    + intros a _. apply NoDup_flat_map; [apply NoDup_range| |].
      * intros b _. apply NoDup_map_inj; [|apply NoDup_range]. intros x y _ _ E. congruence.
      * intros b c x _ _ H1 H2. apply in_map_iff in H1, H2. destruct H1 as (? & <- & _), H2 as (? & E & _). congruence.
    + intros a b x _ _ H1 H2. apply in_flat_map in H1, H2. destruct H1 as (? & _ & H1), H2 as (? & _ & H2).
      apply in_map_iff in H1, H2. destruct H1 as (? & <- & _), H2 as (? & E & _). congruence.
  - intros p. rewrite in_flat_map. split.
    + intros (i & Hi & H). apply in_flat_map in H. destruct H as (j & Hj & H). apply in_map_iff in H. destruct H as (k & <- & Hk).
      apply in_range in Hi, Hj, Hk. simpl. split; lia.
    + intros [L S]. destruct p as [|a [|b [|c [|e [|]]]]]; try discriminate L. simpl in S. exists e. split; [apply in_range; lia|].
      apply in_flat_map. exists c. split; [apply in_range; lia|]. apply in_map_iff. exists b. split; [f_equal; lia|]. apply in_range. lia.
Qed.

(** * The barycentric coordinates and products of their powers *)
Definition bary (d : nat) (v : point) : list R :=
  match lambdas d v with Ok l => l | Err _ => [] end.
Definition pp (l : list R) (p : list nat) : R := fold_right (fun ab acc => fst ab ^ snd ab * acc) 1 (combine l p).

Lemma fold_pp : forall l p a, fold_left (fun f ab => f * fst ab ^ snd ab) (combine l p) a = a * pp l p.
Proof.
  induction l as [|x l IH]; intros [|e p] a; try (unfold pp; simpl; ring).
  simpl combine. cbn [fold_left fst snd]. rewrite IH. unfold pp. simpl. ring.
Qed.
Lemma bernstein_pp d n p v : good_dim d -> bernstein n d p v = choose n p * pp (bary d v) p.
Proof. intros [-> | [-> | ->]]; unfold bernstein, bary; cbn [lambdas]; apply fold_pp. Qed.
Lemma bary_length d v : good_dim d -> length (bary d v) = S d.
Proof. intros [-> | [-> | ->]]; reflexivity. Qed.
Lemma bary_sum d v : good_dim d -> fold_right Rplus 0 (bary d v) = 1.
Proof. intros [-> | [-> | ->]]; unfold bary; simpl; ring. Qed.
Lemma bary_S d v i : good_dim d -> (i < d)%nat -> nth (S i) (bary d v) 0 = v i.
Proof.
  intros [-> | [-> | ->]] H; unfold bary; cbn [lambdas];
    repeat (destruct i as [|i]; [reflexivity|]); lia.
Qed.

Lemma pp_nonneg : forall l p, Forall (fun x => 0 <= x) l -> 0 <= pp l p.
Proof.
  induction l as [|x l IH]; intros [|e p] F; unfold pp; simpl; try lra.
  inversion F; subst. apply Rmult_le_pos; [apply pow_le; assumption|apply IH; assumption].
Qed.

(** * Spans *)
Lemma span_trans fs gs f : (forall g, In g fs -> in_span gs g) -> in_span fs f -> in_span gs f.
Proof.
  intros H (cs & L & E). apply (in_span_ext gs (fun v => lincomb cs fs v)); [intros; symmetry; apply E|].
  clear E. revert cs L. induction fs as [|g fs IH]; intros [|c cs] L; try discriminate.
  - apply in_span_zero.
  - apply (in_span_ext gs (fun v => c * g v + lincomb cs fs v)); [reflexivity|].
    apply in_span_add; [apply in_span_scale, H; left; reflexivity|]. apply IH; [intros; apply H; right; assumption|]. simpl in L. lia.
Qed.
Lemma lincomb_mul (h : sfun) cs : forall fs v, lincomb cs (map (fun (g : sfun) w => h w * g w) fs) v = h v * lincomb cs fs v.
Proof. induction cs as [|c cs IH]; intros [|f fs] v; simpl; try ring. rewrite IH. ring. Qed.
Lemma span_mul (h : sfun) fs gs f : (forall g, In g fs -> in_span gs (fun v => h v * g v)) -> in_span fs f ->
  in_span gs (fun v => h v * f v).
Proof.
  intros H (cs & L & E).
  apply (span_trans (map (fun (g : sfun) w => h w * g w) fs)).
  - intros g Hg. apply in_map_iff in Hg. destruct Hg as (g' & <- & Hg'). apply H. exact Hg'.
  - exists cs. split; [rewrite map_length; exact L|]. intros v. rewrite lincomb_mul, E. reflexivity.
Qed.

Fixpoint inc (p : list nat) (i : nat) : list nat :=
  match p, i with [], _ => [] | a :: p', O => S a :: p' | a :: p', S i' => a :: inc p' i' end.
Lemma inc_length p : forall i, length (inc p i) = length p.
Proof. induction p as [|a p IH]; intros [|i]; simpl; auto. Qed.
Lemma inc_sum p : forall i, (i < length p)%nat -> list_sum (inc p i) = S (list_sum p).
Proof.
  induction p as [|a p IH]; intros [|i] H; simpl in *; try lia. change (list_sum (a :: inc p i)) with (a + list_sum (inc p i))%nat.
  rewrite IH by lia. change (fold_right Nat.add 0%nat p) with (list_sum p). lia.
Qed.
Lemma pp_inc : forall l p i, length l = length p -> (i < length p)%nat -> pp l (inc p i) = nth i l 0 * pp l p.
Proof.
  induction l as [|x l IH]; intros [|a p] [|i] L H; simpl in *; try discriminate; try lia.
  - unfold pp. simpl. ring.
  - unfold pp in *. simpl. rewrite IH by lia. ring.
Qed.

Definition bern (n d : nat) : list sfun := match bernstein_polynomials n d with Ok l => l | Err _ => [] end.
Lemma bern_eq n d : good_dim d -> bernstein_polynomials n d = Ok (bern n d).
Proof. intros [-> | [-> | ->]]; reflexivity. Qed.
Lemma bern_powers n d ps : powers n d = Ok ps -> bern n d = map (bernstein n d) ps.
Proof. unfold bern, bernstein_polynomials. intros ->. reflexivity. Qed.

Lemma pp_in_span d n p : good_dim d -> length p = S d -> list_sum p = n -> in_span (bern n d) (fun v => pp (bary d v) p).
Proof.
  intros G L S. destruct (powers_in d n G) as (ps & E & _ & I). rewrite (bern_powers n d ps E).
  apply (in_span_ext _ (fun v => / choose n p * bernstein n d p v)).
  - intros v. rewrite bernstein_pp by exact G. pose proof (choose_pos n p S). field. lra.
  - apply in_span_scale, in_span_member, in_map, I. split; assumption.
Qed.
Lemma span_raise d n i f : good_dim d -> (i < S d)%nat -> in_span (bern n d) f -> in_span (bern (S n) d) (fun v => nth i (bary d v) 0 * f v).
Proof.
  intros G Hi. apply (span_mul (fun v => nth i (bary d v) 0)). intros g Hg.
  destruct (powers_in d n G) as (ps & E & _ & I). rewrite (bern_powers n d ps E) in Hg. apply in_map_iff in Hg. destruct Hg as (p & <- & Hp).
  apply I in Hp. destruct Hp as [L S0].
  apply (in_span_ext _ (fun v => choose n p * pp (bary d v) (inc p i))).
  - intros v. rewrite bernstein_pp, pp_inc by (try exact G; try rewrite bary_length by exact G; lia). ring.
  - apply in_span_scale, pp_in_span; [exact G|rewrite inc_length; exact L|]. rewrite inc_sum by lia. lia.
Qed.
Lemma sum_bary d : good_dim d -> forall (g : sfun) v, g v = lincomb (bary d v) (repeat g (S d)) v.
Proof. intros [-> | [-> | ->]] g v; unfold bary; simpl; ring. Qed.
Lemma span_weaken d n f : good_dim d -> in_span (bern n d) f -> in_span (bern (S n) d) f.
Proof.
  intros G H. pose proof (fun i => span_raise d n i f G) as R.
  destruct G as [-> | [-> | ->]].
  - apply (in_span_ext _ (fun v => nth 0 (bary 1 v) 0 * f v + nth 1 (bary 1 v) 0 * f v)); [intros v; unfold bary; simpl; ring|].
    apply in_span_add; apply R; try lia; exact H.
  - apply (in_span_ext _ (fun v => nth 0 (bary 2 v) 0 * f v + (nth 1 (bary 2 v) 0 * f v + nth 2 (bary 2 v) 0 * f v))); [intros v; unfold bary; simpl; ring|].
    repeat apply in_span_add; apply R; try lia; exact H.
  - apply (in_span_ext _ (fun v => nth 0 (bary 3 v) 0 * f v + (nth 1 (bary 3 v) 0 * f v + (nth 2 (bary 3 v) 0 * f v + nth 3 (bary 3 v) 0 * f v)))); [intros v; unfold bary; simpl; ring|].
    repeat apply in_span_add; apply R; try lia; exact H.
Qed.
Lemma meval_pp d m v : good_dim d -> length m = d -> meval m v = pp (bary d v) (0%nat :: m).
Proof.
  intros [-> | [-> | ->]] L.
  - destruct m as [|a [|]]; try discriminate. unfold meval, pp, bary. simpl. ring.
  - destruct m as [|a [|b [|]]]; try discriminate. unfold meval, pp, bary. simpl. ring.
  - destruct m as [|a [|b [|c [|]]]]; try discriminate. unfold meval, pp, bary. simpl. ring.
Qed.
Lemma mdeg_sum m : mdeg m = list_sum m.
Proof. induction m as [|a m IH]; simpl; [reflexivity|]. rewrite IH. reflexivity. Qed.
Lemma meval_in_span d n m : good_dim d -> length m = d -> (mdeg m <= n)%nat -> in_span (bern n d) (meval m).
Proof.
  intros G L H. remember (n - mdeg m)%nat as k eqn:K. revert n H K. induction k as [|k IH]; intros n H K.
  - apply (in_span_ext _ (fun v => pp (bary d v) (0%nat :: m))); [intros v; symmetry; apply meval_pp; assumption|].
    apply pp_in_span; [exact G|simpl; lia|]. change (list_sum (0%nat :: m)) with (list_sum m). rewrite <- mdeg_sum. lia.
  - destruct n as [|n]; [lia|]. apply span_weaken; [exact G|]. apply IH; lia.
Qed.
Lemma space_in_span d n f : good_dim d -> degree_space d n f -> in_span (bern n d) f.
Proof.
  intros G (p & Hp & E). apply (in_span_ext _ (reval p)); [intros; symmetry; apply E|]. clear E f.
  induction p as [|[c m] p IH]; [apply in_span_zero|]. apply Forall_cons_iff in Hp. destruct Hp as [[L D] Hp].
  apply (in_span_ext _ (fun v => c * meval m v + reval p v)); [reflexivity|].
  apply in_span_add; [apply in_span_scale, meval_in_span; assumption|apply IH, Hp].
Qed.

Lemma bary_degree d i : good_dim d -> degree_space d 1 (fun v => nth i (bary d v) 0).
Proof.
  intros G. destruct (le_lt_dec (S d) i) as [H|H].
  - apply (poly_space_ext _ (fun _ => 0)); [|apply degree_const]. intros v. rewrite nth_overflow; [reflexivity|]. rewrite bary_length by exact G. exact H.
  - destruct i as [|i].
    + destruct G as [-> | [-> | ->]]; unfold bary; cbn [lambdas nth].
      * apply (poly_space_ext _ (fun v => 1 + -1 * v 0%nat)); [intros; ring|]. apply poly_space_add; [apply degree_const|apply poly_space_scale, degree_var; lia].
      * apply (poly_space_ext _ (fun v => 1 + (-1 * v 0%nat + -1 * v 1%nat))); [intros; ring|].
        repeat apply poly_space_add; try apply degree_const; apply poly_space_scale, degree_var; lia.
      * apply (poly_space_ext _ (fun v => 1 + (-1 * v 0%nat + (-1 * v 1%nat + -1 * v 2%nat)))); [intros; ring|].
        repeat apply poly_space_add; try apply degree_const; apply poly_space_scale, degree_var; lia.
    + apply (poly_space_ext _ (fun v => v i)); [intros v; symmetry; apply bary_S; [exact G|lia]|]. apply degree_var. lia.
Qed.
Lemma pp_degree d : forall (a : list sfun) p, length a = length p -> (forall g, In g a -> degree_space d 1 g) ->
  degree_space d (list_sum p) (fun v => pp (map (fun g : sfun => g v) a) p).
Proof.
  induction a as [|g a IH]; intros [|e p] L H; try discriminate.
  - unfold pp. simpl. apply degree_const.
  - change (list_sum (e :: p)) with (e + list_sum p)%nat.
    apply (poly_space_ext _ (fun v => g v ^ e * pp (map (fun g : sfun => g v) a) p)); [reflexivity|].
    apply (degree_mul d e (list_sum p)); [|apply IH; [simpl in L; lia|intros; apply H; right; assumption]].
    pose proof (degree_pow d 1 g (H g (or_introl eq_refl)) e) as D. rewrite Nat.mul_1_r in D. exact D.
Qed.
Lemma bary_map d v : good_dim d -> bary d v = map (fun g : sfun => g v) (map (fun i v => nth i (bary d v) 0) (range (S d))).
Proof. intros [-> | [-> | ->]]; reflexivity. Qed.
Lemma bernstein_degree d n p : good_dim d -> length p = S d -> list_sum p = n -> degree_space d n (bernstein n d p).
Proof.
  intros G L S. subst n. apply (poly_space_ext _ (fun v => choose (list_sum p) p * pp (bary d v) p)); [intros; symmetry; apply bernstein_pp; exact G|].
  apply poly_space_scale. apply (poly_space_ext _ (fun v => pp (map (fun g : sfun => g v) (map (fun i v => nth i (bary d v) 0) (range (length p)))) p)).
  - intros v. rewrite (bary_map d v G), L. reflexivity.
  - apply pp_degree; [rewrite map_length, length_range; reflexivity|]. intros g Hg. apply in_map_iff in Hg. destruct Hg as (i & <- & _). apply bary_degree. exact G.
Qed.

(** * Independence *)
Fixpoint tot (l : list R) : R := match l with [] => 0 | x :: l' => x + tot l' end.
Lemma pp_scale k : forall l p, length l = length p -> pp (map (fun x => x / k) l) p = pp l p * / k ^ list_sum p.
Proof.
  induction l as [|x l IH]; intros [|e p] L; try discriminate.
  - unfold pp. simpl. field.
  - change (list_sum (e :: p)) with (e + list_sum p)%nat. change (pp (map (fun x => x / k) (x :: l)) (e :: p)) with ((x / k) ^ e * pp (map (fun x => x / k) l) p).
    change (pp (x :: l) (e :: p)) with (x ^ e * pp l p). rewrite IH by (simpl in L; lia). unfold Rdiv. rewrite Rpow_mult_distr, pow_add, Rinv_mult, pow_inv. ring.
Qed.
Lemma projective d y : good_dim d -> length y = d -> Forall (fun x => 0 <= x) y -> exists v k, 0 < k /\ bary d v = map (fun x => x / k) (1 :: y).
Proof.
  intros G L F. exists (fun i => nth i y 0 / (1 + tot y)), (1 + tot y).
  assert (P : 0 < 1 + tot y). { enough (0 <= tot y) by lra. clear - F. induction F as [|x y Hx F IH]; simpl; lra. }
  split; [exact P|]. destruct G as [-> | [-> | ->]].
  - destruct y as [|a [|]]; try discriminate. unfold bary. simpl in *. f_equal; field; lra.
  - destruct y as [|a [|b [|]]]; try discriminate. unfold bary. simpl in *. f_equal; field; lra.
  - destruct y as [|a [|b [|c [|]]]]; try discriminate. unfold bary. simpl in *. f_equal; field; lra.
Qed.
Lemma pp_one y p : pp (1 :: y) p = mv (tl p) y.
Proof.
  destruct p as [|e p]; unfold pp; simpl; [destruct y; reflexivity|]. rewrite pow1, Rmult_1_l.
  revert p. induction y as [|x y IH]; intros [|a p]; simpl; try reflexivity. rewrite IH. reflexivity.
Qed.
Lemma bernstein_projective d n p v k y : good_dim d -> length p = S d -> list_sum p = n -> 0 < k -> length y = d ->
  bary d v = map (fun x => x / k) (1 :: y) -> bernstein n d p v = choose n p * / k ^ n * meval (tl p) (as_point y).
Proof.
  intros G L S K Ly E. rewrite bernstein_pp, E, pp_scale by (try exact G; simpl; lia). rewrite pp_one, S.
  unfold as_point. rewrite meval_mv by (destruct p; simpl in *; lia). ring.
Qed.
Lemma bernstein_independent d n : good_dim d -> independent (bern n d).
Proof.
  intros G cs Lc Z. destruct (powers_in d n G) as (ps & E & ND & I). rewrite (bern_powers n d ps E) in *.
  assert (Ip : forall p, In p ps -> length p = S d /\ list_sum p = n) by (intros p H; apply I; exact H).
  set (ds := map (fun cp => fst cp * choose n (snd cp)) (combine cs ps)).
  assert (Ld : length ds = length (map (@tl nat) ps)). { unfold ds. rewrite !map_length, combine_length. rewrite map_length in Lc. lia. }
  assert (V : forall v, lincomb ds (map meval (map (@tl nat) ps)) v = 0).
  { apply (simplex_lattice_zero INR d n).
    - intros i j Hij Eij. apply INR_eq in Eij. lia.
    - apply (lincomb_poly_space _ ds). intros m Hm. apply in_map_iff in Hm. destruct Hm as (p & <- & Hp). apply Ip in Hp. destruct Hp as [L S].
      split; [destruct p; simpl in *; lia|]. rewrite mdeg_sum. destruct p as [|a p]; [simpl; lia|]. simpl tl. change (list_sum (a :: p)) with (a + list_sum p)%nat in S. lia.
    - intros m Lm _. destruct (projective d (map INR m) G) as (v & k & K & Ev); [rewrite map_length; exact Lm| |].
      { apply Forall_forall. intros x Hx. apply in_map_iff in Hx. destruct Hx as (a & <- & _). apply pos_INR. }
      specialize (Z v).
      assert (Q : lincomb cs (map (bernstein n d) ps) v = / k ^ n * lincomb ds (map meval (map (@tl nat) ps)) (as_point (map INR m))).
      { unfold ds. clear Z ds Ld E ND I. rewrite map_length in Lc. revert cs Lc. induction ps as [|p ps IH]; intros [|c cs] Lc; try discriminate; [simpl; ring|].
        simpl. rewrite IH; [|intros; apply Ip; right; assumption|simpl in Lc; lia].
        destruct (Ip p (or_introl eq_refl)) as [L S].
        rewrite (bernstein_projective d n p v k (map INR m) G L S K) by (try rewrite map_length; assumption). ring. }
      rewrite Q in Z. apply Rmult_integral in Z. destruct Z as [Z|Z]; [|exact Z].
      exfalso. pose proof (Rinv_0_lt_compat _ (pow_lt k n K)). lra. }
  assert (NDt : NoDup (map (@tl nat) ps)).
  { apply NoDup_map_inj; [|exact ND]. intros p q Hp Hq T. apply Ip in Hp, Hq. destruct Hp as [Lp Sp], Hq as [Lq Sq].
    destruct p as [|a p], q as [|b q]; try discriminate. simpl in T. subst q. f_equal. simpl in Sp, Sq. lia. }
  pose proof (monomials_independent d _ NDt) as MI. assert (FL : Forall (fun m => length m = d) (map (@tl nat) ps)).
  { apply Forall_forall. intros m Hm. apply in_map_iff in Hm. destruct Hm as (p & <- & Hp). apply Ip in Hp. destruct p; simpl in *; lia. }
  specialize (MI FL ds). rewrite map_length in MI. specialize (MI Ld V). clear V NDt FL Z ND I E.
  unfold ds in MI. rewrite map_length in Lc. clear Ld ds. revert cs Lc MI. induction ps as [|p ps IH]; intros [|c cs] Lc MI; try discriminate; [constructor|].
  simpl in MI. apply Forall_cons_iff in MI. destruct MI as [M0 MI]. constructor.
  - apply Rmult_integral in M0. destruct M0 as [M0|M0]; [exact M0|]. exfalso. pose proof (choose_pos n p (proj2 (Ip p (or_introl eq_refl)))). lra.
  - apply IH; [intros; apply Ip; right; assumption|simpl in Lc; lia|exact MI].
Qed.
