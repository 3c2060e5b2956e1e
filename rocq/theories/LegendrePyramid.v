(** The table of orthogonal functions on the pyramid: the index map, the closed recursion and the derivatives
    away from the plane z = 1. *)
From Coq Require Import String Arith ZArith Reals Lia Lra Bool Sorted List.
From Verif Require Import Base LinAlg PolyLib PolySetsModel PolyVec LegendreModel LegendreTables LegendreProofs LegendreTet LegendreRows.
Import ListNotations.
Open Scope R_scope.

(** * The index map enumerates (i, j, k) lexicographically *)
Definition orderp (n : nat) : list (list nat) :=
  nest (range (n + 1)) (fun i => nest (range (n + 1)) (fun j => map (fun k => [k]) (range (n + 1 - Nat.max i j)))).
Fixpoint offJ (n i j : nat) : nat := match j with O => 0 | S j' => offJ n i j' + (n + 1 - Nat.max i j') end.
Fixpoint offI (n i : nat) : nat := match i with O => 0 | S i' => offI n i' + offJ n i' (n + 1) end.

Lemma offJ_val n i j : (i <= n)%nat -> (j <= n + 1)%nat ->
  (2 * Z.of_nat (offJ n i j) = let o := Z.of_nat n in let i := Z.of_nat i in let j := Z.of_nat j in
     if (j <=? i)%Z then 2 * j * (o + 1 - i) else 2 * j * (o + 1) - 2 * i * i - j * (j - 1) + i * (i - 1))%Z.
Proof.
  intros Hi. induction j as [|j IH]; intros Hj.
  - cbv zeta. destruct (Z.leb_spec (Z.of_nat 0) (Z.of_nat i)); [|lia]. change (offJ n i 0) with 0%nat. lia.
  - specialize (IH ltac:(lia)). cbn [offJ]. rewrite Nat2Z.inj_add, Z.mul_add_distr_l, IH. cbv zeta.
    destruct (Z.leb_spec (Z.of_nat (S j)) (Z.of_nat i)).
    + destruct (Z.leb_spec (Z.of_nat j) (Z.of_nat i)); [|lia]. rewrite Nat.max_l by lia.
      rewrite Nat2Z.inj_sub, Nat2Z.inj_succ, Nat2Z.inj_add by lia. simpl (Z.of_nat 1). ring.
    + rewrite Nat.max_r by lia. rewrite Nat2Z.inj_sub, Nat2Z.inj_succ, Nat2Z.inj_add by lia. simpl (Z.of_nat 1).
      destruct (Z.leb_spec (Z.of_nat j) (Z.of_nat i)); [|ring].
      assert (Z.of_nat j = Z.of_nat i) as -> by lia. ring.
Qed.
Lemma offI_val n i : (i <= n + 1)%nat ->
  (6 * Z.of_nat (offI n i) = let o := Z.of_nat n in let i := Z.of_nat i in 3 * i * (o + 1) * (o + 2) - (i * i * i - i))%Z.
Proof.
  induction i as [|i IH]; intros Hi; [reflexivity|]. specialize (IH ltac:(lia)). cbn [offI].
  rewrite Nat2Z.inj_add, Z.mul_add_distr_l, IH. pose proof (offJ_val n i (n + 1) ltac:(lia) ltac:(lia)) as J. cbv zeta in *.
  destruct (Z.leb_spec (Z.of_nat (n + 1)) (Z.of_nat i)); [lia|]. rewrite Nat2Z.inj_add in J. simpl (Z.of_nat 1) in J.
  replace (6 * Z.of_nat (offJ n i (n + 1)))%Z with (3 * (2 * Z.of_nat (offJ n i (n + 1))))%Z by ring. rewrite J, Nat2Z.inj_succ. unfold Z.succ. ring.
Qed.
Lemma even_prod x : exists m, (x * (x - 1) = m * 2)%Z.
Proof. destruct (Z.Even_or_Odd x) as [[k ->]|[k ->]]; [exists (k * (2 * k - 1))%Z|exists ((2 * k + 1) * k)%Z]; ring. Qed.
Lemma six_prod (i : nat) : exists m, (Z.of_nat i * (Z.of_nat i ^ 2 + 5) = m * 6)%Z.
Proof.
  induction i as [|i [m IH]]; [exists 0%Z; reflexivity|]. destruct (even_prod (Z.of_nat i + 1)) as [e He].
  exists (m + e + 1)%Z. rewrite Nat2Z.inj_succ. unfold Z.succ. replace ((m + e + 1) * 6)%Z with (m * 6 + 3 * (e * 2) + 6)%Z by ring.
  rewrite <- IH, <- He. ring.
Qed.
Lemma pyramid_index_eq n i j k : (i <= n)%nat -> (j <= n)%nat -> pyramid_index n i j k = (offI n i + (offJ n i j + k))%nat.
Proof.
  intros Hi Hj. unfold pyramid_index. pose proof (offI_val n i ltac:(lia)) as EI. pose proof (offJ_val n i j Hi ltac:(lia)) as EJ. cbv zeta in *.
  destruct (even_prod (Z.of_nat n + 2)) as [a Ha]. destruct (six_prod i) as [b Hb].
  destruct (even_prod (Z.of_nat i)) as [c Hc]. destruct (even_prod (Z.of_nat j)) as [d Hd].
  replace (Z.of_nat i * (Z.of_nat n + 1) * (Z.of_nat n + 2))%Z with (Z.of_nat i * a * 2)%Z by (rewrite <- Z.mul_assoc, <- Ha; ring).
  rewrite Hb, Hc, Hd, !Z.div_mul by lia.
  apply Nat2Z.inj. rewrite !Nat2Z.inj_add. 
  assert (A1 : (3 * Z.of_nat i * (Z.of_nat n + 1) * (Z.of_nat n + 2) = 6 * (Z.of_nat i * a))%Z).
  { replace (3 * Z.of_nat i * (Z.of_nat n + 1) * (Z.of_nat n + 2))%Z with (3 * Z.of_nat i * ((Z.of_nat n + 2) * (Z.of_nat n + 2 - 1)))%Z by ring. rewrite Ha. ring. }
  rewrite A1 in EI.
  assert (B1 : (6 * Z.of_nat (offI n i) = 6 * (Z.of_nat i * a) - 6 * b + 6 * Z.of_nat i)%Z).
  { rewrite EI. replace (6 * b)%Z with (b * 6)%Z by ring. rewrite <- Hb. ring. }
  destruct (Z.ltb_spec (Z.of_nat j) (Z.of_nat i)) as [L|L].
  - destruct (Z.leb_spec (Z.of_nat j) (Z.of_nat i)) as [L'|L']; [|lia]. rewrite Z2Nat.id; lia.
  - assert (EJ' : (2 * Z.of_nat (offJ n i j) = 2 * Z.of_nat j * (Z.of_nat n + 1) - 2 * Z.of_nat i * Z.of_nat i - Z.of_nat j * (Z.of_nat j - 1) + Z.of_nat i * (Z.of_nat i - 1))%Z).
    { rewrite EJ. destruct (Z.leb_spec (Z.of_nat j) (Z.of_nat i)) as [L'|L']; [|ring]. assert (Z.of_nat j = Z.of_nat i) as -> by lia. ring. }
    assert (C1 : (2 * Z.of_nat i * Z.of_nat i = 4 * c + 2 * Z.of_nat i)%Z) by lia.
    rewrite Hc, Hd, C1 in EJ'. rewrite Z2Nat.id; lia.
Qed.
Lemma offJ_nth n i : (i <= n)%nat -> length (nest (range (n + 1)) (fun j => map (fun k => [k]) (range (n + 1 - Nat.max i j)))) = offJ n i (n + 1) /\
  forall j k, (j <= n)%nat -> (k < n + 1 - Nat.max i j)%nat ->
    nth_error (nest (range (n + 1)) (fun j => map (fun k => [k]) (range (n + 1 - Nat.max i j)))) (offJ n i j + k) = Some [j; k].
Proof.
  intros Hi. unfold nest. destruct (nth_error_flat_map_seq (fun j => map (cons j) (map (fun k => [k]) (range (n + 1 - Nat.max i j)))) (offJ n i) (n + 1)) as [L H].
  - reflexivity.
  - intros s _. cbn [offJ]. rewrite !map_length. unfold range. rewrite seq_length. reflexivity.
  - split; [exact L|]. intros j k Hj Hk. apply H; [lia|]. erewrite map_nth_error; [reflexivity|]. erewrite map_nth_error; [reflexivity|]. apply nth_error_range, Hk.
Qed.
Lemma orderp_nth n : length (orderp n) = ((2 * n + 3) * (n + 2) * (n + 1) / 6)%nat /\
  forall i j k, (Nat.max i j + k <= n)%nat -> nth_error (orderp n) (pyramid_index n i j k) = Some [i; j; k].
Proof.
  unfold orderp. unfold nest at 1 3.
  destruct (nth_error_flat_map_seq (fun i => map (cons i) (nest (range (n + 1)) (fun j => map (fun k => [k]) (range (n + 1 - Nat.max i j))))) (offI n) (n + 1)) as [L H].
  - reflexivity.
  - intros s Hs. cbn [offI]. rewrite map_length. destruct (offJ_nth n s ltac:(lia)) as [LJ _]. rewrite LJ. reflexivity.
  - split.
    + refine (eq_trans L _). pose proof (offI_val n (n + 1) ltac:(lia)) as V. cbv zeta in V.
      assert (E : ((2 * n + 3) * (n + 2) * (n + 1) = offI n (n + 1) * 6)%nat).
      { apply Nat2Z.inj. rewrite Nat2Z.inj_mul with (n := offI n (n + 1)). rewrite Z.mul_comm. change (Z.of_nat 6) with 6%Z. rewrite V. lia. }
      rewrite E, Nat.div_mul by lia. reflexivity.
    + intros i j k Hm. rewrite pyramid_index_eq by lia. apply H; [lia|]. erewrite map_nth_error; [reflexivity|].
      apply offJ_nth; lia.
Qed.
Lemma in_orderp n m : In m (orderp n) <-> exists i j k, m = [i; j; k] /\ (Nat.max i j + k <= n)%nat.
Proof.
  unfold orderp. rewrite in_nest. split.
  - intros (i & m' & -> & Hi & Hm). rewrite in_nest in Hm. destruct Hm as (j & m'' & -> & Hj & Hm). apply in_map_iff in Hm. destruct Hm as (k & <- & Hk).
    apply in_range in Hi, Hj, Hk. exists i, j, k. split; [reflexivity|lia].
  - intros (i & j & k & -> & H). exists i, [j; k]. split; [reflexivity|]. split; [apply in_range; lia|]. apply in_nest. exists j, [k].
    split; [reflexivity|]. split; [apply in_range; lia|]. apply in_map_iff. exists k. split; [reflexivity|apply in_range; lia].
Qed.
Lemma sorted_orderp n : StronglySorted lexlt (orderp n).
Proof. unfold orderp. repeat (apply sorted_nest; [apply sorted_seq|intros ? _]). apply sorted_leaf, sorted_seq. Qed.
Lemma sorted_NoDup l : StronglySorted lexlt l -> NoDup l.
Proof.
  induction 1 as [|a l S IH F]; constructor; [|exact IH]. intros H. rewrite Forall_forall in F. exact (lexlt_irrefl a (F a H)).
Qed.
Lemma pyramid_index_inj n i j k i' j' k' : (Nat.max i j + k <= n)%nat -> (Nat.max i' j' + k' <= n)%nat ->
  pyramid_index n i j k = pyramid_index n i' j' k' -> i = i' /\ j = j' /\ k = k'.
Proof.
  intros H H' E. pose proof (proj2 (orderp_nth n) i j k H) as A. rewrite E, (proj2 (orderp_nth n) i' j' k' H') in A. injection A. auto.
Qed.
Lemma pyramid_index_lt n i j k : (Nat.max i j + k <= n)%nat -> (pyramid_index n i j k < (2 * n + 3) * (n + 2) * (n + 1) / 6)%nat.
Proof. intros H. rewrite <- (proj1 (orderp_nth n)). apply nth_error_Some. rewrite (proj2 (orderp_nth n) i j k H). discriminate. Qed.
Lemma pyramid_index_surj n d : (d < (2 * n + 3) * (n + 2) * (n + 1) / 6)%nat -> exists i j k, (Nat.max i j + k <= n)%nat /\ pyramid_index n i j k = d.
Proof.
  intros H. rewrite <- (proj1 (orderp_nth n)) in H. destruct (nth_error (orderp n) d) as [m|] eqn:E; [|apply nth_error_None in E; lia].
  pose proof (nth_error_In _ _ E) as Hm. apply in_orderp in Hm. destruct Hm as (i & j & k & -> & Hm). exists i, j, k. split; [exact Hm|].
  assert (B : nth_error (orderp n) (pyramid_index n i j k) = nth_error (orderp n) d) by (rewrite E; exact (proj2 (orderp_nth n) i j k Hm)).
  apply (proj1 (NoDup_nth_error (orderp n)) (sorted_NoDup _ (sorted_orderp n))); [|exact B].
  rewrite (proj1 (orderp_nth n)). apply pyramid_index_lt, Hm.
Qed.

(** * Derivatives away from z = 1 *)
Section DerD.
Context (z : nat).
Definition derD (k : nat) (f g : point -> R) : Prop := forall v, v z <> 1 -> is_partial k f v (g v).
Lemma der_derD k f g : der k f g -> derD k f g.
Proof. intros H v _. apply H. Qed.
Lemma derD_eq k f g g' : derD k f g' -> (forall v, v z <> 1 -> g' v = g v) -> derD k f g.
Proof. intros H E v Hv. rewrite <- E by exact Hv. apply H, Hv. Qed.
Lemma derD_ext k f f' g : (forall v, f v = f' v) -> derD k f g -> derD k f' g.
Proof. intros E H v Hv. specialize (H v Hv). unfold is_partial in *. eapply derivable_pt_lim_ext; [|exact H]. intros t. apply E. Qed.
Lemma derD_plus k f g f' g' : derD k f f' -> derD k g g' -> derD k (fun v => f v + g v) (fun v => f' v + g' v).
Proof. intros H1 H2 v Hv. apply (derivable_pt_lim_plus _ _ _ _ _ (H1 v Hv) (H2 v Hv)). Qed.
Lemma derD_mult k f g f' g' : derD k f f' -> derD k g g' -> derD k (fun v => f v * g v) (fun v => f' v * g v + f v * g' v).
Proof.
  intros H1 H2 v Hv. pose proof (derivable_pt_lim_mult _ _ _ _ _ (H1 v Hv) (H2 v Hv)) as H. cbv beta in H. rewrite upd_id in H. exact H.
Qed.
Lemma derD_sum k n (f g : nat -> point -> R) : (forall i, derD k (f i) (g i)) -> derD k (fun v => sum n (fun i => f i v)) (fun v => sum n (fun i => g i v)).
Proof.
  intros H. induction n as [|n IH]; [exact (der_derD k _ _ (der_const k 0))|]. cbn [sum]. apply (derD_plus k _ (f n)); [exact IH|apply H].
Qed.
(** powers of 1 / (1 - z) *)
Definition w (n : nat) (v : point) : R := (/ (1 - v z)) ^ n.
Lemma w_der n : derD z (w n) (fun v => INR n * w (S n) v).
Proof.
  intros v Hv. unfold is_partial, w.
  eapply derivable_pt_lim_ext with (f := fun t => comp (fun u => u ^ n) (fun t => / (1 - t)) t); [intros t; unfold comp; rewrite upd_same; reflexivity|].
  replace (INR n * (/ (1 - v z)) ^ S n) with ((INR n * (/ (1 - v z)) ^ pred n) * (/ (1 - v z) * / (1 - v z))).
  - apply derivable_pt_lim_comp; [|apply derivable_pt_lim_pow].
    replace (/ (1 - v z) * / (1 - v z)) with (- (-1) / Rsqr (1 - v z)) by (unfold Rsqr; field; lra).
    eapply derivable_pt_lim_ext with (f := fun t => 1 / (1 - t)); [intros t; unfold Rdiv; ring|].
    pose proof (derivable_pt_lim_div (fct_cte 1) (fun t => 1 - t) (v z) 0 (-1) (derivable_pt_lim_const 1 (v z))) as D.
    unfold div_fct, fct_cte in D. replace (- -1 / Rsqr (1 - v z)) with ((0 * (1 - v z) - -1 * 1) / Rsqr (1 - v z)).
    + apply D; [|lra]. replace (-1) with (0 - 1) by ring. apply (derivable_pt_lim_minus (fct_cte 1) id (v z) 0 1 (derivable_pt_lim_const 1 (v z)) (derivable_pt_lim_id (v z))).
    + unfold Rsqr. field. lra.
  - destruct n as [|n]; [simpl; ring|]. simpl pred. simpl pow. ring.
Qed.
Lemma w_other k n : k <> z -> derD k (w n) (fun _ => 0).
Proof. intros N. apply der_derD, der_indep. intros v t. unfold w. rewrite upd_other by congruence. reflexivity. Qed.
End DerD.

Lemma comb_S n k : combinations n (S k) = (combinations n k * (n - k))%nat.
Proof. unfold combinations, range. rewrite seq_S, fold_left_app. reflexivity. Qed.
Lemma comb_SS n k : combinations (S n) (S k) = (S n * combinations n k)%nat.
Proof. induction k as [|k IH]; [unfold combinations; simpl; lia|]. rewrite comb_S, IH, comb_S. simpl (S n - S k)%nat. ring. Qed.
Lemma comb_step n k : (k <= n)%nat -> combinations (S n) (S k) = (combinations n (S k) + S k * combinations n k)%nat.
Proof. intros H. rewrite comb_SS, comb_S. replace (S n) with (n - k + S k)%nat at 1 by lia. ring. Qed.
Lemma comb_top n : combinations n (S n) = 0%nat.
Proof. rewrite comb_S, Nat.sub_diag. lia. Qed.
Lemma comb_0 n : combinations n 0 = 1%nat. Proof. reflexivity. Qed.

(** Leibniz rule for the powers of 1 / (1 - z) *)
Lemma leibniz n (a b : nat -> R) :
  sum (S n) (fun d => INR (combinations n d) * (a (S n - d)%nat * b d + a (n - d)%nat * (INR (S d) * b (S d)))) =
  sum (S (S n)) (fun d => INR (combinations (S n) d) * (a (S n - d)%nat * b d)).
Proof.
  rewrite (sum_skip (S n) 0 (fun d => INR (combinations (S n) d) * (a (S n - d)%nat * b d))) by lia.
  rewrite (sum_ext (S n) _ (fun d => INR (combinations n d) * (a (S n - d)%nat * b d) + INR (combinations n d) * (a (n - d)%nat * (INR (S d) * b (S d))))) by (intros; ring).
  rewrite sum_plus.
  assert (E : sum (S n) (fun d => INR (combinations n d) * (a (S n - d)%nat * b d)) =
     a (S n) * b 0%nat + sum (S n) (fun d => INR (combinations n (S d)) * (a (n - d)%nat * b (S d)))).
  { assert (E1 : sum (S (S n)) (fun d => INR (combinations n d) * (a (S n - d)%nat * b d)) = sum (S n) (fun d => INR (combinations n d) * (a (S n - d)%nat * b d))).
    { cbn [sum]. rewrite comb_top. simpl (INR 0). ring. }
    rewrite <- E1. rewrite (sum_skip (S n) 0) by lia. rewrite comb_0, Nat.sub_0_r. simpl (INR 1). rewrite Rmult_1_l. apply f_equal.
    apply sum_ext. intros d _. reflexivity. }
  rewrite E, comb_0, Nat.sub_0_r. simpl (INR 1). rewrite Rmult_1_l, Rplus_assoc. apply f_equal. rewrite <- sum_plus. apply sum_ext. intros d Hd.
  change (skip 0 d) with (S d). rewrite comb_step by lia. rewrite plus_INR, mult_INR. simpl (S n - S d)%nat. ring.
Qed.

(** * The closed recursions *)
Fixpoint yi (v0 v2 i dx dy dz : nat) (v : point) : R :=
  match i with
  | O => if is0 dx && is0 dy && is0 dz then 1 else 0
  | S i1 =>
      let r := INR (2 * i - 1) / INR i in
      let s := INR i1 / INR i in
      yi v0 v2 i1 dx dy dz v * ((2 * v v0 + v v2 - 1) * r) +
      yi v0 v2 i1 (dx - 1) dy dz v * (2 * INR dx * r) +
      yi v0 v2 i1 dx dy (dz - 1) v * (INR dz * r) +
      match i1 with
      | O => 0
      | S i2 =>
          yi v0 v2 i2 dx dy dz v * (- ((1 - v v2) * (1 - v v2) * s)) +
          yi v0 v2 i2 dx dy (dz - 1) v * (2 * (1 - v v2) * INR dz * s) +
          yi v0 v2 i2 dx dy (dz - 2) v * (- (INR dz * INR (dz - 1) * s))
      end
  end.
Lemma yi_S v0 v2 i1 dx dy dz v : yi v0 v2 (S i1) dx dy dz v =
      let r := INR (2 * S i1 - 1) / INR (S i1) in
      let s := INR i1 / INR (S i1) in
      yi v0 v2 i1 dx dy dz v * ((2 * v v0 + v v2 - 1) * r) +
      yi v0 v2 i1 (dx - 1) dy dz v * (2 * INR dx * r) +
      yi v0 v2 i1 dx dy (dz - 1) v * (INR dz * r) +
      match i1 with
      | O => 0
      | S i2 =>
          yi v0 v2 i2 dx dy dz v * (- ((1 - v v2) * (1 - v v2) * s)) +
          yi v0 v2 i2 dx dy (dz - 1) v * (2 * (1 - v v2) * INR dz * s) +
          yi v0 v2 i2 dx dy (dz - 2) v * (- (INR dz * INR (dz - 1) * s))
      end.
Proof. reflexivity. Qed.

(** the step of the middle index, F1 and F2 the two previous families *)
Definition ystep (v1 v2 i j1 : nat) (F1 F2 : nat -> nat -> nat -> point -> R) (dx dy dz : nat) (v : point) : R :=
  let r := INR (2 * S j1 - 1) / INR (S j1) in
  let s := INR j1 / INR (S j1) in
  if (S j1 <=? i)%nat then
    F1 dx dy dz v * (- r) +
    sum (S dz) (fun di => (F1 dx dy (dz - di)%nat v * v v1 + F1 dx (dy - 1)%nat (dz - di)%nat v * INR dy) * (w v2 (S di) v * (2 * r * INR (combinations dz di)))) +
    F2 dx dy dz v * (- s)
  else
    F1 dx dy dz v * ((2 * v v1 + v v2 - 1) * r) +
    F1 dx (dy - 1)%nat dz v * (2 * INR dy * r) +
    F1 dx dy (dz - 1)%nat v * (INR dz * r) +
    (if (i + 1 =? S j1)%nat then
       F2 dx dy dz v * (- ((1 - v v2) * s)) +
       F2 dx dy (dz - 1)%nat v * (INR dz * s)
     else
       F2 dx dy dz v * (- ((1 - v v2) * (1 - v v2) * s)) +
       F2 dx dy (dz - 1)%nat v * (2 * (1 - v v2) * INR dz * s) +
       F2 dx dy (dz - 2)%nat v * (- (INR dz * INR (dz - 1) * s))).
Definition zero3 : nat -> nat -> nat -> point -> R := fun _ _ _ _ => 0.
Fixpoint yj (v0 v1 v2 i j : nat) : nat -> nat -> nat -> point -> R :=
  match j with
  | O => yi v0 v2 i
  | S j1 => ystep v1 v2 i j1 (yj v0 v1 v2 i j1) (match j1 with O => zero3 | S j2 => yj v0 v1 v2 i j2 end)
  end.
Fixpoint yk (v0 v1 v2 k i j dx dy dz : nat) (v : point) : R :=
  match k with
  | O => yj v0 v1 v2 i j dx dy dz v
  | S k1 =>
      let '(a, b, c) := jrc (2 * Nat.max i j + 2) k1 in
      yk v0 v1 v2 k1 i j dx dy dz v * (a * (2 * v v2 - 1)) +
      yk v0 v1 v2 k1 i j dx dy (dz - 1) v * (a * 2 * INR dz) +
      yk v0 v1 v2 k1 i j dx dy dz v * b +
      match k1 with O => 0 | S k2 => yk v0 v1 v2 k2 i j dx dy dz v * (- c) end
  end.
Lemma yk_S v0 v1 v2 k1 i j dx dy dz v : yk v0 v1 v2 (S k1) i j dx dy dz v =
      let '(a, b, c) := jrc (2 * Nat.max i j + 2) k1 in
      yk v0 v1 v2 k1 i j dx dy dz v * (a * (2 * v v2 - 1)) +
      yk v0 v1 v2 k1 i j dx dy (dz - 1) v * (a * 2 * INR dz) +
      yk v0 v1 v2 k1 i j dx dy dz v * b +
      match k1 with O => 0 | S k2 => yk v0 v1 v2 k2 i j dx dy dz v * (- c) end.
Proof. reflexivity. Qed.

Definition derD3 (v0 v1 v2 : nat) (F : nat -> nat -> nat -> point -> R) : Prop :=
  forall dx dy dz, derD v2 v0 (F dx dy dz) (F (S dx) dy dz) /\ derD v2 v1 (F dx dy dz) (F dx (S dy) dz) /\ derD v2 v2 (F dx dy dz) (F dx dy (S dz)).

Section Pyr.
Context (v0 v1 v2 : nat) (N01 : v0 <> v1) (N02 : v0 <> v2) (N12 : v1 <> v2) (N10 : v1 <> v0) (N20 : v2 <> v0) (N21 : v2 <> v1).

Ltac go eqS IH1 IH2 k d :=
  eapply der_ext; [intros v; symmetry; apply eqS|]; cbv iota zeta;
  eapply der_eq; [der_sum ltac:(first [proj k IH1 | proj k IH2])|]; intros v; cbv beta; rewrite eqS; cbv iota zeta; guards d.
Lemma yi_der i : der3 v0 v1 v2 (yi v0 v2 i).
Proof.
  assert (H0 : der3 v0 v1 v2 (yi v0 v2 0)).
  { intros dx dy dz. simpl. rewrite !andb_false_r. simpl. repeat split; apply der_const. }
  induction i as [| |i IH1 IH2] using two_step; [exact H0| |]; intros dx dy dz.
  - split; [|split].
    + go (yi_S v0 v2 0) H0 H0 0%nat dx.
    + go (yi_S v0 v2 0) H0 H0 1%nat dy.
    + go (yi_S v0 v2 0) H0 H0 2%nat dz.
  - generalize (yi_S v0 v2 (S i)). cbv iota zeta. generalize (INR (2 * S (S i) - 1) / INR (S (S i))), (INR (S i) / INR (S (S i))). intros r s Es. split; [|split].
    + go Es IH1 IH2 0%nat dx.
    + go Es IH1 IH2 1%nat dy.
    + go Es IH1 IH2 2%nat dz.
Qed.

(** combinators: F * c with c derivable everywhere *)
Lemma derD_mul_r z k F F' c c' : derD z k F F' -> der k c c' -> derD z k (fun v => F v * c v) (fun v => F' v * c v + F v * c' v).
Proof. intros H1 H2. apply derD_mult; [exact H1|apply der_derD, H2]. Qed.
Ltac derD_sum IH :=
  match goal with
  | |- derD _ _ (fun v => _ + _) _ => apply derD_plus; derD_sum IH
  | |- derD _ _ (fun v => _ * _) _ => apply derD_mul_r; [IH|repeat der_step]
  | |- derD _ _ (fun v => 0) _ => apply der_derD, der_const
  end.
Ltac gD eqS IH1 IH2 k d :=
  eapply derD_ext; [intros v; symmetry; apply eqS|]; cbv iota zeta;
  eapply derD_eq; [derD_sum ltac:(first [proj k IH1 | proj k IH2])|]; intros v Hv; cbv beta; rewrite eqS; cbv iota zeta; guards d.

Lemma w_shift z n v : v z <> 1 -> (1 - v z) * w z (S n) v = w z n v.
Proof. intros H. unfold w. simpl. field. lra. Qed.

Lemma ystep_der i j1 F1 F2 : derD3 v0 v1 v2 F1 -> derD3 v0 v1 v2 F2 -> derD3 v0 v1 v2 (ystep v1 v2 i j1 F1 F2).
Proof.
  intros H1 H2 dx dy dz.
  assert (Es : forall dx dy dz v, ystep v1 v2 i j1 F1 F2 dx dy dz v = ystep v1 v2 i j1 F1 F2 dx dy dz v) by reflexivity.
  unfold ystep at 2 in Es. revert Es.
  generalize (INR (2 * S j1 - 1) / INR (S j1)), (INR j1 / INR (S j1)). intros r s. cbv zeta.
  destruct (S j1 <=? i)%nat.
  - intros Es. split; [|split].
    + eapply derD_ext; [intros v; symmetry; apply Es|]. eapply derD_eq.
      * apply derD_plus; [apply derD_plus|]; [apply derD_mul_r; [apply H1|apply der_const]| |apply derD_mul_r; [apply H2|apply der_const]].
        apply (derD_sum v2 v0 (S dz) (fun di v => (F1 dx dy (dz - di)%nat v * v v1 + F1 dx (dy - 1)%nat (dz - di)%nat v * INR dy) * (w v2 (S di) v * (2 * r * INR (combinations dz di))))).
        intros di. apply derD_mult.
        -- apply derD_plus; [apply derD_mul_r; [apply H1|apply der_var_other; assumption]|apply derD_mul_r; [apply H1|apply der_const]].
        -- apply derD_mul_r; [apply w_other; assumption|apply der_const].
      * intros v Hv. cbv beta. rewrite Es.
        match goal with |- ?a + ?b + ?c = ?a' + ?b' + ?c' => replace b with b'; [ring|] end. apply sum_ext. intros di _. ring.
    + eapply derD_ext; [intros v; symmetry; apply Es|]. eapply derD_eq.
      * apply derD_plus; [apply derD_plus|]; [apply derD_mul_r; [apply (proj1 (proj2 (H1 _ _ _)))|apply der_const]| |apply derD_mul_r; [apply (proj1 (proj2 (H2 _ _ _)))|apply der_const]].
        apply (derD_sum v2 v1 (S dz) (fun di v => (F1 dx dy (dz - di)%nat v * v v1 + F1 dx (dy - 1)%nat (dz - di)%nat v * INR dy) * (w v2 (S di) v * (2 * r * INR (combinations dz di))))).
        intros di. apply derD_mult.
        -- apply derD_plus; [apply derD_mul_r; [apply (proj1 (proj2 (H1 _ _ _)))|apply der_var]|apply derD_mul_r; [apply (proj1 (proj2 (H1 _ _ _)))|apply der_const]].
        -- apply derD_mul_r; [apply w_other; assumption|apply der_const].
      * intros v Hv. cbv beta. rewrite Es.
        match goal with |- ?a + ?b + ?c = ?a' + ?b' + ?c' => replace b with b'; [ring|] end. apply sum_ext. intros di _.
        destruct dy as [|dy]; cbn [Nat.sub]; rewrite ?Nat.sub_0_r, ?S_INR; change (INR 0) with 0; ring.
    + eapply derD_ext; [intros v; symmetry; apply Es|]. eapply derD_eq.
      * apply derD_plus; [apply derD_plus|]; [apply derD_mul_r; [apply (proj2 (proj2 (H1 _ _ _)))|apply der_const]| |apply derD_mul_r; [apply (proj2 (proj2 (H2 _ _ _)))|apply der_const]].
        apply (derD_sum v2 v2 (S dz) (fun di v => (F1 dx dy (dz - di)%nat v * v v1 + F1 dx (dy - 1)%nat (dz - di)%nat v * INR dy) * (w v2 (S di) v * (2 * r * INR (combinations dz di))))).
        intros di. apply derD_mult.
        -- apply derD_plus; [apply derD_mul_r; [apply (proj2 (proj2 (H1 _ _ _)))|apply der_var_other; assumption]|apply derD_mul_r; [apply (proj2 (proj2 (H1 _ _ _)))|apply der_const]].
        -- apply derD_mul_r; [apply w_der|apply der_const].
      * intros v Hv. cbv beta. rewrite Es.
        match goal with |- ?a + ?b + ?c = ?a' + ?b' + ?c' => replace b with b'; [ring|] end.
        set (A := fun n => (F1 dx dy n v * v v1 + F1 dx (dy - 1)%nat n v * INR dy) * (2 * r)).
        pose proof (leibniz dz A (fun d => w v2 (S d) v)) as Lb. unfold A in Lb.
        transitivity (sum (S (S dz)) (fun d => INR (combinations (S dz) d) * ((F1 dx dy (S dz - d)%nat v * v v1 + F1 dx (dy - 1)%nat (S dz - d)%nat v * INR dy) * (2 * r) * w v2 (S d) v))).
        -- apply sum_ext. intros d _. ring.
        -- rewrite <- Lb. apply sum_ext. intros d Hd. rewrite Nat.sub_succ_l by lia. ring.
  - destruct (i + 1 =? S j1)%nat; intros Es; (split; [|split]).
    + gD Es H1 H2 0%nat dx.
    + gD Es H1 H2 1%nat dy.
    + gD Es H1 H2 2%nat dz.
    + gD Es H1 H2 0%nat dx.
    + gD Es H1 H2 1%nat dy.
    + gD Es H1 H2 2%nat dz.
Qed.
Lemma zero3_der : derD3 v0 v1 v2 zero3.
Proof. intros dx dy dz. repeat split; apply der_derD, der_const. Qed.
Lemma yj_der i j : derD3 v0 v1 v2 (yj v0 v1 v2 i j).
Proof.
  assert (H0 : derD3 v0 v1 v2 (yj v0 v1 v2 i 0)).
  { intros dx dy dz. destruct (yi_der i dx dy dz) as (A & B & C). repeat split; apply der_derD; assumption. }
  induction j as [| |j IH1 IH2] using two_step; [exact H0| |].
  - apply (ystep_der i 0 _ zero3); [exact H0|exact zero3_der].
  - apply (ystep_der i (S j) (yj v0 v1 v2 i (S j)) (yj v0 v1 v2 i j)); assumption.
Qed.
Lemma yk_der k i j : derD3 v0 v1 v2 (yk v0 v1 v2 k i j).
Proof.
  assert (H0 : derD3 v0 v1 v2 (yk v0 v1 v2 0 i j)) by exact (yj_der i j).
  induction k as [| |k IH1 IH2] using two_step; [exact H0| |]; intros dx dy dz.
  - generalize (yk_S v0 v1 v2 0 i j). destruct (jrc (2 * Nat.max i j + 2) 0) as [[a b] c]. intros Es. split; [|split].
    + gD Es H0 H0 0%nat dx.
    + gD Es H0 H0 1%nat dy.
    + gD Es H0 H0 2%nat dz.
  - generalize (yk_S v0 v1 v2 (S k) i j). destruct (jrc (2 * Nat.max i j + 2) (S k)) as [[a b] c]. intros Es. split; [|split].
    + gD Es IH1 IH2 0%nat dx.
    + gD Es IH1 IH2 1%nat dy.
    + gD Es IH1 IH2 2%nat dz.
Qed.
End Pyr.

(** * The table of the pyramid *)
Definition tsum (l : list term) (ws : list (point -> R)) (v : point) : R :=
  fold_right Rplus 0 (map (fun sw => if guard (fst sw) then snd sw v * t_c (fst sw) v else 0) (combine l ws)).
Lemma tsum_app l l' ws ws' v : length l = length ws -> tsum (l ++ l') (ws ++ ws') v = tsum l ws v + tsum l' ws' v.
Proof.
  unfold tsum. revert ws. induction l as [|a l IH]; intros [|b ws] L; try discriminate L; [simpl; ring|].
  cbn [app combine map fold_right]. rewrite IH by (simpl in L; lia). ring.
Qed.
Lemma tsum_flat_map (f : nat -> list term) (g : nat -> list (point -> R)) a n v : (forall d, length (f d) = length (g d)) ->
  tsum (flat_map f (seq a n)) (flat_map g (seq a n)) v = sum n (fun i => tsum (f (a + i)%nat) (g (a + i)%nat) v).
Proof.
  intros L. revert a. induction n as [|n IH]; intros a; [reflexivity|].
  cbn [seq flat_map]. rewrite tsum_app by apply L. rewrite IH.
  rewrite (sum_skip n 0) by lia. rewrite Nat.add_0_r. f_equal. apply sum_ext. intros i _. unfold skip. simpl. rewrite <- plus_n_Sm. reflexivity.
Qed.
Lemma Forall2_flat_map {A B} (P : A -> B -> Prop) (f : nat -> list A) (g : nat -> list B) l :
  (forall d, In d l -> Forall2 P (f d) (g d)) -> Forall2 P (flat_map f l) (flat_map g l).
Proof.
  induction l as [|d l IH]; intros H; [constructor|]. cbn [flat_map]. apply Forall2_app; [apply H; left; reflexivity|apply IH; intros; apply H; right; assumption].
Qed.
Lemma length_flat_map2 {A B} (f : nat -> list A) (g : nat -> list B) l : (forall d, length (f d) = length (g d)) -> length (flat_map f l) = length (flat_map g l).
Proof. intros H. induction l as [|d l IH]; [reflexivity|]. cbn [flat_map]. rewrite !app_length, H, IH. reflexivity. Qed.
Lemma yj_S v0 v1 v2 i j1 dx dy dz v : yj v0 v1 v2 i (S j1) dx dy dz v =
  ystep v1 v2 i j1 (yj v0 v1 v2 i j1) (match j1 with O => zero3 | S j2 => yj v0 v1 v2 i j2 end) dx dy dz v.
Proof. reflexivity. Qed.
Definition key_pyr order (m : list nat) : nat * nat :=
  match m with [dx; dy; dz; i; j; k] => (index3 dx dy dz, pyramid_index order i j k) | _ => (0, 0)%nat end.
Lemma pyramid_index_0 n : pyramid_index n 0 0 0 = 0%nat.
Proof. rewrite pyramid_index_eq by lia. reflexivity. Qed.

Lemma pyramid_table order derivs v0 v1 v2 : exists t, orthogonal_basis_pyramid order derivs [v0; v1; v2] = Ok t /\
  shape ((derivs + 1) * (derivs + 2) * (derivs + 3) / 6) ((2 * order + 3) * (order + 2) * (order + 1) / 6) t /\
  forall dx dy dz i j k, (dx + dy + dz <= derivs)%nat -> (Nat.max i j + k <= order)%nat ->
    entry t (index3 dx dy dz, pyramid_index order i j k) (yk v0 v1 v2 k i j dx dy dz).
Proof.
  set (nd := ((derivs + 1) * (derivs + 2) * (derivs + 3) / 6)%nat). set (ni := ((2 * order + 3) * (order + 2) * (order + 1) / 6)%nat).
  set (ms := nest (range (derivs + 1)) (fun dx => nest (range (derivs + 1 - dx)) (fun dy => nest (range (derivs + 1 - dx - dy)) (fun dz => orderp order)))).
  set (step := fun (m : list nat) => match m with [dx; dy; dz; i; j; k] =>
        if is0 k then (if is0 j then (if is0 i then fun t => tset t (index3 dx dy dz) 0 (const (if is0 dx && is0 dy && is0 dz then 1 else 0))
                                      else pyramid_i order v0 v2 dx dy dz i) else pyramid_j order v1 v2 dx dy dz i j)
        else pyramid_k order v2 dx dy dz i j k | _ => fun t => Ok t end).
  assert (Hin : forall m, In m ms <-> exists dx dy dz i j k, m = [dx; dy; dz; i; j; k] /\ (dx + dy + dz <= derivs)%nat /\ (Nat.max i j + k <= order)%nat).
  { intros m. unfold ms. split.
    - rewrite in_nest. intros (dx & m1 & -> & H1 & Hm). rewrite in_nest in Hm. destruct Hm as (dy & m2 & -> & H2 & Hm).
      rewrite in_nest in Hm. destruct Hm as (dz & m3 & -> & H3 & Hm). apply in_orderp in Hm. destruct Hm as (i & j & k & -> & Hm).
      apply in_range in H1, H2, H3. exists dx, dy, dz, i, j, k. split; [reflexivity|lia].
    - intros (dx & dy & dz & p & q & r & -> & Hd & Hi). apply in_nest. exists dx, [dy; dz; p; q; r]. split; [reflexivity|]. split; [apply in_range; lia|].
      apply in_nest. exists dy, [dz; p; q; r]. split; [reflexivity|]. split; [apply in_range; lia|].
      apply in_nest. exists dz, [p; q; r]. split; [reflexivity|]. split; [apply in_range; lia|].
      apply in_orderp. exists p, q, r. auto. }
  destruct (fill lexlt step (key_pyr order) (fun m => match m with [dx; dy; dz; i; j; k] => yk v0 v1 v2 k i j dx dy dz | _ => fun _ => 0 end) nd ni ms (zeros nd ni))
    as (t & E & Sh & K & H).
  - repeat (apply sorted_nest; [apply sorted_seq|intros ? _]). apply sorted_leaf, sorted_seq.
  - apply lexlt_irrefl.
  - intros a b. apply lexlt_asym.
  - intros a b Ha Hb Ek. apply Hin in Ha. apply Hin in Hb. destruct Ha as (dx & dy & dz & p & q & r & -> & _ & Ha). destruct Hb as (dx' & dy' & dz' & p' & q' & r' & -> & _ & Hb).
    cbn [key_pyr] in Ek. injection Ek as E1 E2. apply index3_inj in E1. apply pyramid_index_inj in E2; [|assumption..]. destruct E1 as (-> & -> & ->), E2 as (-> & -> & ->). reflexivity.
  - intros m Hm. apply Hin in Hm. destruct Hm as (dx & dy & dz & p & q & r & -> & Hd & Hi). cbn [key_pyr fst snd]. split; [apply index3_lt; assumption|apply pyramid_index_lt; assumption].
  - apply zeros_shape.
  - intros m t Hm Sh K H. apply Hin in Hm. destruct Hm as (dx & dy & dz & i & j & k & -> & Hd & Hi).
    assert (Rd : forall dx' dy' dz' p' q' r', (dx' + dy' + dz' <= derivs)%nat -> (Nat.max p' q' + r' <= order)%nat -> lexlt [dx'; dy'; dz'; p'; q'; r'] [dx; dy; dz; i; j; k] ->
       exists f, tget t (index3 dx' dy' dz') (pyramid_index order p' q' r') = Ok f /\ forall v, f v = yk v0 v1 v2 r' p' q' dx' dy' dz' v).
    { intros dx' dy' dz' p' q' r' Hd' Hi' Lt. apply (H [dx'; dy'; dz'; p'; q'; r']); [|exact Lt]. apply Hin. exists dx', dy', dz', p', q', r'. auto. }
    clear H K. unfold step, key_pyr. cbn [fst snd]. destruct k as [|k1]; cbn [is0 Nat.eqb]; [destruct j as [|j1]; cbn [is0 Nat.eqb]; [destruct i as [|i1]; cbn [is0 Nat.eqb]|]|].
    + rewrite pyramid_index_0. eexists. split; [reflexivity|]. intros v. reflexivity.
    + unfold pyramid_i. cbv zeta. replace (S i1 - 1)%nat with i1 by lia.
      match goal with |- context [assign ?d ?i ?l ?t] =>
          destruct (assign_spec d i l t [yi v0 v2 i1 dx dy dz; yi v0 v2 i1 (dx - 1) dy dz; yi v0 v2 i1 dx dy (dz - 1);
            yi v0 v2 (S i1 - 2) dx dy dz; yi v0 v2 (S i1 - 2) dx dy (dz - 1); yi v0 v2 (S i1 - 2) dx dy (dz - 2)]) as (f & Ef & Hf) end.
      -- repeat (apply Forall2_cons; [|]); [..|apply Forall2_nil]; cbn [guard t_d t_i]; intros Gd;
             repeat match goal with G : (_ && _)%bool = true |- _ => apply andb_prop in G; destruct G end;
             repeat match goal with G : (_ <? _)%nat = true |- _ => apply Nat.ltb_lt in G end;
             (match goal with |- exists f, tget t (index3 ?a ?b ?e) (pyramid_index _ ?c 0 0) = _ /\ _ => apply (Rd a b e c 0 0)%nat end; [lia|lia|cbn [lexlt]; lia]).
      -- exists f. split; [exact Ef|]. intros v. rewrite Hf. cbn [combine map fold_right fst snd guard t_c yk yj]. rewrite yi_S. cbv zeta.
         destruct i1 as [|i2]; destruct dx as [|dx]; destruct dz as [|[|dz]]; cbn [Nat.ltb Nat.leb andb Nat.sub]; rewrite ?Nat.sub_0_r; change (INR 0) with 0; ring.
    + unfold pyramid_j. cbv zeta. replace (S j1 - 1)%nat with j1 by lia. cbn [yk].
      set (r := INR (2 * S j1 - 1) / INR (S j1)). set (s := INR j1 / INR (S j1)).
      assert (Ey : forall v, yj v0 v1 v2 i (S j1) dx dy dz v = ystep v1 v2 i j1 (yj v0 v1 v2 i j1) (match j1 with O => zero3 | S j2 => yj v0 v1 v2 i j2 end) dx dy dz v) by reflexivity.
      unfold ystep in Ey. fold r s in Ey. cbv zeta in Ey. destruct (S j1 <=? i)%nat.
      * match goal with |- context [assign ?d ?i' ?l ?t] =>
          destruct (assign_spec d i' l t ([yj v0 v1 v2 i j1 dx dy dz; yj v0 v1 v2 i j1 dx (dy - 1) dz] ++
             flat_map (fun di => [yj v0 v1 v2 i j1 dx dy (dz - di); yj v0 v1 v2 i j1 dx (dy - 1) (dz - di)]) (range2 1 (dz + 1)) ++ [yj v0 v1 v2 i (S j1 - 2) dx dy dz])) as (f & Ef & Hf) end.
        -- apply Forall2_app; [|apply Forall2_app; [apply Forall2_flat_map; intros di Hdi; apply in_range2 in Hdi|]];
             (repeat (apply Forall2_cons; [|]); [..|apply Forall2_nil]; cbn [guard t_d t_i]; intros Gd;
             repeat match goal with G : (_ <? _)%nat = true |- _ => apply Nat.ltb_lt in G end;
             (match goal with |- exists f, tget t (index3 ?a ?b ?e) (pyramid_index _ ?c ?d 0) = _ /\ _ => apply (Rd a b e c d 0)%nat end; [lia|lia|cbn [lexlt]; lia])).
        -- exists f. split; [exact Ef|]. intros v. rewrite Hf, Ey.
           match goal with |- fold_right Rplus 0 (map _ (combine ?l ?ws)) = _ => fold (tsum l ws v) end.
           rewrite tsum_app by reflexivity. unfold range2.
           rewrite tsum_app by (apply length_flat_map2; reflexivity).
           rewrite tsum_flat_map by reflexivity. replace (dz + 1 - 1)%nat with dz by lia.
           rewrite (sum_skip dz 0) by lia.
           match goal with |- ?a + (sum dz ?g + ?b) = _ => rewrite (sum_ext dz g (fun x => (yj v0 v1 v2 i j1 dx dy (dz - skip 0 x)%nat v * v v1 + yj v0 v1 v2 i j1 dx (dy - 1)%nat (dz - skip 0 x)%nat v * INR dy) * (w v2 (S (skip 0 x)) v * (2 * r * INR (combinations dz (skip 0 x)))))) end.
           2:{ intros x _. unfold skip, w. cbn [Nat.ltb Nat.leb]. rewrite pow_inv. unfold tsum. cbn [combine map fold_right fst snd guard t_c].
               replace (1 + x)%nat with (S x) by lia. replace (S x + 1)%nat with (S (S x)) by lia. unfold Rdiv.
               destruct dy as [|dy]; cbn [Nat.ltb Nat.leb]; change (INR 0) with 0; ring. }
           unfold tsum. cbn [combine map fold_right fst snd guard t_c]. replace (w v2 1 v) with (/ (1 - v v2)) by (unfold w; simpl; ring). rewrite Nat.sub_0_r, comb_0. change (INR 1) with 1. unfold Rdiv.
           match goal with |- context [sum dz ?g] => generalize (sum dz g) end. intros Sm.
           destruct j1 as [|j2]; destruct dy as [|dy]; cbn [Nat.ltb Nat.leb Nat.sub pow zero3]; rewrite ?Nat.sub_0_r; change (INR 0) with 0; unfold zero3; ring.
      * destruct (i + 1 =? S j1)%nat.
        -- match goal with |- context [assign ?d ?i' ?l ?t] =>
             destruct (assign_spec d i' l t [yj v0 v1 v2 i j1 dx dy dz; yj v0 v1 v2 i j1 dx (dy - 1) dz; yj v0 v1 v2 i j1 dx dy (dz - 1);
               yj v0 v1 v2 i (S j1 - 2) dx dy dz; yj v0 v1 v2 i (S j1 - 2) dx dy (dz - 1)]) as (f & Ef & Hf) end.
           ++ repeat (apply Forall2_cons; [|]); [..|apply Forall2_nil]; cbn [guard t_d t_i]; intros Gd;
             repeat match goal with G : (_ && _)%bool = true |- _ => apply andb_prop in G; destruct G end;
             repeat match goal with G : (_ <? _)%nat = true |- _ => apply Nat.ltb_lt in G end;
             (match goal with |- exists f, tget t (index3 ?a ?b ?e) (pyramid_index _ ?c ?d 0) = _ /\ _ => apply (Rd a b e c d 0)%nat end; [lia|lia|cbn [lexlt]; lia]).
           ++ exists f. split; [exact Ef|]. intros v. rewrite Hf, Ey. cbn [app combine map fold_right fst snd guard t_c].
              destruct j1 as [|j2]; destruct dy as [|dy]; destruct dz as [|dz]; cbn [Nat.ltb Nat.leb andb Nat.sub]; rewrite ?Nat.sub_0_r; change (INR 0) with 0; unfold zero3; ring.
        -- match goal with |- context [assign ?d ?i' ?l ?t] =>
             destruct (assign_spec d i' l t [yj v0 v1 v2 i j1 dx dy dz; yj v0 v1 v2 i j1 dx (dy - 1) dz; yj v0 v1 v2 i j1 dx dy (dz - 1);
               yj v0 v1 v2 i (S j1 - 2) dx dy dz; yj v0 v1 v2 i (S j1 - 2) dx dy (dz - 1); yj v0 v1 v2 i (S j1 - 2) dx dy (dz - 2)]) as (f & Ef & Hf) end.
           ++ repeat (apply Forall2_cons; [|]); [..|apply Forall2_nil]; cbn [guard t_d t_i]; intros Gd;
             repeat match goal with G : (_ && _)%bool = true |- _ => apply andb_prop in G; destruct G end;
             repeat match goal with G : (_ <? _)%nat = true |- _ => apply Nat.ltb_lt in G end;
             (match goal with |- exists f, tget t (index3 ?a ?b ?e) (pyramid_index _ ?c ?d 0) = _ /\ _ => apply (Rd a b e c d 0)%nat end; [lia|lia|cbn [lexlt]; lia]).
           ++ exists f. split; [exact Ef|]. intros v. rewrite Hf, Ey. cbn [app combine map fold_right fst snd guard t_c].
              destruct j1 as [|j2]; destruct dy as [|dy]; destruct dz as [|[|dz]]; cbn [Nat.ltb Nat.leb andb Nat.sub]; rewrite ?Nat.sub_0_r; change (INR 0) with 0; unfold zero3; ring.
    + unfold pyramid_k. replace (S k1 - 1)%nat with k1 by lia. destruct (jrc (2 * Nat.max i j + 2) k1) as [[a b] c] eqn:Ej. cbv zeta.
      match goal with |- context [assign ?d ?i' ?l ?t] =>
          destruct (assign_spec d i' l t [yk v0 v1 v2 k1 i j dx dy dz; yk v0 v1 v2 k1 i j dx dy (dz - 1); yk v0 v1 v2 k1 i j dx dy dz; yk v0 v1 v2 (S k1 - 2) i j dx dy dz]) as (f & Ef & Hf) end.
      -- repeat (apply Forall2_cons; [|]); [..|apply Forall2_nil]; cbn [guard t_d t_i]; intros Gd;
             repeat match goal with G : (_ <? _)%nat = true |- _ => apply Nat.ltb_lt in G end;
             (match goal with |- exists f, tget t (index3 ?a ?b ?e) (pyramid_index _ ?c ?d ?h) = _ /\ _ => apply (Rd a b e c d h)%nat end; [lia|lia|cbn [lexlt]; lia]).
      -- exists f. split; [exact Ef|]. intros v. rewrite Hf. cbn [combine map fold_right fst snd guard t_c]. rewrite yk_S, Ej.
         destruct k1 as [|k2]; destruct dz as [|dz]; cbn [Nat.ltb Nat.leb andb Nat.sub]; rewrite ?Nat.sub_0_r; change (INR 0) with 0; ring.
  - exists t. split; [|split; [exact Sh|]].
    + unfold orthogonal_basis_pyramid. fold nd ni. rewrite <- E. unfold ms. rewrite for_in_nest. apply for_in_ext. intros dx s1 _.
      rewrite for_in_nest. apply for_in_ext. intros dy s2 _. rewrite for_in_nest. apply for_in_ext. intros dz s3 _.
      unfold orderp. rewrite (for_in_peel2 order (fun t => tset t (index3 dx dy dz) 0 (const (if is0 dx && is0 dy && is0 dz then 1 else 0)))
        (pyramid_i order v0 v2 dx dy dz)).
      rewrite for_in_nest. apply for_in_ext. intros i s4 Hi. apply in_range in Hi. rewrite (for_in_peel2 order (fun t => if is0 i then tset t (index3 dx dy dz) 0 (const (if is0 dx && is0 dy && is0 dz then 1 else 0)) else pyramid_i order v0 v2 dx dy dz i t) (pyramid_j order v1 v2 dx dy dz i)), for_in_nest. apply for_in_ext. intros j s5 Hj. apply in_range in Hj.
      rewrite for_in_map. replace (order + 1 - Nat.max i j)%nat with (order - Nat.max i j + 1)%nat by lia.
      rewrite (for_in_peel (order - Nat.max i j) (fun t => if is0 j then (if is0 i then tset t (index3 dx dy dz) 0 (const (if is0 dx && is0 dy && is0 dz then 1 else 0)) else pyramid_i order v0 v2 dx dy dz i t) else pyramid_j order v1 v2 dx dy dz i j t)).
      apply for_in_ext. intros k s6 _. cbn [step]. destruct (is0 i), (is0 j), (is0 k); reflexivity.
    + intros dx dy dz i j k Hd Hi. apply (H [dx; dy; dz; i; j; k]). apply Hin. exists dx, dy, dz, i, j, k. auto.
Qed.
