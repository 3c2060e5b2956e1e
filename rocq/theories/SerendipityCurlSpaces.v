(** The polynomials of the H(curl) serendipity element on the cube. *)
From Coquelicot Require Import Coquelicot.
From Coq Require Import String Arith Bool ZArith Reals Lia Lra List FunctionalExtensionality.
From Verif Require Import Base PolyLib PolySetsModel PolySetsProofs PolyVec QuadratureModel ReferencesModel ReferencesSpec CiarletModel CiarletProofs
  LinAlg ElementModel LagrangeModel UnisolvenceProofs LagrangeKey LagrangeUnisolvence
  LegendreIntSpec MomentsInt MomentsParts MomentsRT MomentsBox
  PointsModel PointsSpec PointsProofs PointsElements MomentElementsModel MomentElementsSpec MomentElementsProofs MomentsRaviart
  SerendipitySpec SerendipityKernel SerendipityProofs SerendipityFieldSpec SerendipityFieldKernel SerendipityFieldSpaces SerendipityCurlSpec SerendipityCurlKernel.
Import PolyVec ListNotations.
Local Open Scope R_scope.

(** * The multiples of the three fields *)
Definition curl_k1 (n i : nat) : vpoly := [ [(1%Z, [i; 1; 1 + (n - 1 - i)]%nat)]; []; [((-1)%Z, [1 + i; 1; n - 1 - i]%nat)] ].
Definition curl_k2 (n i : nat) : vpoly := [ []; [(1%Z, [1; i; 1 + (n - 1 - i)]%nat)]; [((-1)%Z, [1; 1 + i; n - 1 - i]%nat)] ].
Definition curl_k3 (n i : nat) : vpoly := [ [(1%Z, [i; 1 + (n - 1 - i); 1]%nat)]; [((-1)%Z, [1 + i; n - 1 - i; 1]%nat)]; [] ].
Definition curl_kinds (n : nat) : list vpoly :=
  if (n =? 1)%nat then [ [ []; [(1%Z, [1; 0; 1]%nat)]; [((-1)%Z, [1; 1; 0]%nat)] ]; [ [(1%Z, [0; 1; 1]%nat)]; []; [((-1)%Z, [1; 1; 0]%nat)] ] ]
  else flat_map (fun i => [curl_k1 n i; curl_k2 n i; curl_k3 n i]) (range n).
Definition curl_grad (m : mono) : vpoly := map (fun i => zdiff i [(1%Z, m)]) (range 3).
Lemma curl_extra n X : Hcurl_serendipity 3 3 n = Ok X -> X = curl_kinds n ++ map curl_grad (serendipity_set_1d 3 (n + 1)).
Proof. cbn [Hcurl_serendipity Nat.eqb negb]. intros H. injection H as <-. reflexivity. Qed.
Definition curl_of (h1 h2 h3 : sfun) : nat -> sfun :=
  tri_fn (fun v => v 1%nat * v 2%nat * (h2 v + h3 v)) (fun v => v 0%nat * v 2%nat * (h1 v - h3 v)) (fun v => - (v 0%nat * v 1%nat * (h1 v + h2 v))).
Ltac kind_value := unfold field, curl_k1, curl_k2, curl_k3; cbn [fst snd nth]; unfold zeval; cbn [map fold_right fst snd]; unfold meval; cbn [meval_from pow Nat.add].
Lemma kind_value n i h1 h2 h3 F k v : (k < 3)%nat ->
  (F = curl_k1 n i /\ h1 = (fun _ => 0) /\ h2 = meval [i; 0; n - 1 - i]%nat /\ h3 = (fun _ => 0)) \/ (F = curl_k2 n i /\ h1 = meval [0; i; n - 1 - i]%nat /\ h2 = (fun _ => 0) /\ h3 = (fun _ => 0)) \/
  (F = curl_k3 n i /\ h1 = (fun _ => 0) /\ h2 = (fun _ => 0) /\ h3 = meval [i; n - 1 - i; 0]%nat) ->
  field F (k, v) = curl_of h1 h2 h3 k v.
Proof.
  intros Hk C. destruct C as [(-> & -> & -> & ->)|[(-> & -> & -> & ->)|(-> & -> & -> & ->)]]; (destruct k as [|[|[|k]]]; [| | |lia]); unfold curl_of; cbn [tri_fn]; kind_value; ring.
Qed.
Lemma curl_of_zero m h1 h2 h3 : (1 <= m)%nat -> H_without 0 m h1 -> H_without 1 m h2 -> H_without 2 m h3 -> (forall k v, (k < 3)%nat -> curl_of h1 h2 h3 k v = 0) ->
  forall v, v 0%nat * v 1%nat * v 2%nat * h1 v = 0 /\ v 0%nat * v 1%nat * v 2%nat * h2 v = 0 /\ v 0%nat * v 1%nat * v 2%nat * h3 v = 0.
Proof.
  intros Hm H1 H2 H3 Z. assert (D : forall i h, H_without i m h -> degree_space 3 m h) by (intros i h H; apply H_degree, (without_homogeneous i), H).
  assert (E : forall x y z, x <> 0 -> y <> 0 -> z <> 0 -> h2 (pt3 x y z) = - h3 (pt3 x y z) /\ h1 (pt3 x y z) = h3 (pt3 x y z)).
  { intros x y z Hx Hy Hz. pose proof (Z 0%nat (pt3 x y z) ltac:(lia)) as Z0. pose proof (Z 1%nat (pt3 x y z) ltac:(lia)) as Z1. unfold curl_of in Z0, Z1. cbn [tri_fn] in Z0, Z1. change (pt3 x y z 0%nat) with x in *. change (pt3 x y z 1%nat) with y in *. change (pt3 x y z 2%nat) with z in *.
    assert (Hyz : y * z <> 0) by (apply Rmult_integral_contrapositive_currified; assumption). assert (Hxz : x * z <> 0) by (apply Rmult_integral_contrapositive_currified; assumption).
    apply Rmult_integral in Z0. apply Rmult_integral in Z1. destruct Z0 as [Z0|Z0]; [contradiction|]. destruct Z1 as [Z1|Z1]; [contradiction|]. split; lra. }
  assert (V : forall x y z, x <> 0 -> y <> 0 -> z <> 0 -> h3 (pt3 x y z) = 0).
  { intros x y z Hx Hy Hz. assert (Q : h3 (pt3 x y z) = 2 ^ m * h3 (pt3 x y z)).
    { rewrite <- (homogeneous_scaled 3 m h3 2 _ (without_homogeneous _ _ _ H3)). transitivity (h3 (pt3 (2 * x) (2 * y) (2 * z))); [|at3 (D _ _ H3)].
      rewrite (without_2 m h3 (2 * x) (2 * y) (2 * z) H3), <- (without_2 m h3 (2 * x) (2 * y) z H3). destruct (E x y z Hx Hy Hz) as [_ <-]. destruct (E (2 * x) (2 * y) z) as [E2 _]; [lra|lra|lra|]. rewrite <- (Ropp_involutive (h3 (pt3 (2 * x) (2 * y) z))), <- E2.
      rewrite (without_1 m h2 (2 * x) (2 * y) z H2), <- (without_1 m h2 (2 * x) y z H2). destruct (E (2 * x) y z) as [-> E3]; [lra|lra|lra|]. rewrite <- E3, (without_0 m h1 (2 * x) y z H1), <- (without_0 m h1 x y z H1). ring. }
    assert (P : 2 <= 2 ^ m) by (destruct m as [|m]; [lia|]; cbn [pow]; assert (1 <= 2 ^ m) by (apply pow_R1_Rle; lra); lra). nra. }
  intros v. rewrite (pt3_eta 3 m h1 v), (pt3_eta 3 m h2 v), (pt3_eta 3 m h3 v) by (first [lia|eapply D; eassumption]).
  destruct (Req_dec (v 0%nat) 0) as [->|X]; [repeat split; ring|]. destruct (Req_dec (v 1%nat) 0) as [->|Y]; [repeat split; ring|]. destruct (Req_dec (v 2%nat) 0) as [->|W]; [repeat split; ring|].
  destruct (E _ _ _ X Y W) as [-> ->]. rewrite (V _ _ _ X Y W). repeat split; ring.
Qed.
Lemma kinds_combination n c : (1 <= n)%nat -> exists h1 h2 h3, H_without 0 (n - 1) h1 /\ H_without 1 (n - 1) h2 /\ H_without 2 (n - 1) h3 /\
  (forall k v, (k < 3)%nat -> combination c (map field (curl_kinds n)) (k, v) = curl_of h1 h2 h3 k v) /\
  ((forall k v, (k < 3)%nat -> curl_of h1 h2 h3 k v = 0) -> forall i, (i < length (curl_kinds n))%nat -> c i = 0).
Proof.
  intros Hn. unfold curl_kinds. destruct (Nat.eqb_spec n 1) as [->|Hn1].
  - exists (fun _ => c 0%nat), (fun _ => c 1%nat), (fun _ => 0).
    assert (K : forall i a, H_without i 0 (fun _ => a)). { intros i a. apply (poly_space_ext _ (fun v => a * meval [0; 0; 0]%nat v)); [intros v; unfold meval; cbn; ring|]. apply poly_space_scale, poly_space_mono. repeat split. destruct i as [|[|[|i]]]; try reflexivity. destruct i; reflexivity. }
    split; [apply K|]. split; [apply K|]. split; [apply K|]. split.
    + intros k v Hk. unfold combination. cbn [map length]. rewrite !sum_S. cbn [sum nth]. unfold curl_of. destruct k as [|[|[|k]]]; [| | |lia]; cbn [tri_fn]; kind_value; ring.
    + intros Z i Hi. pose proof (Z 0%nat (fun _ => 1) ltac:(lia)) as Z0. pose proof (Z 1%nat (fun _ => 1) ltac:(lia)) as Z1. unfold curl_of in Z0, Z1. cbn [tri_fn] in Z0, Z1. cbn [length] in Hi. destruct i as [|[|i]]; [lra|lra|lia].
  - assert (N : (n = (n - 1) + 1)%nat) by lia.
    set (h2 := fun v => sum n (fun i => c (3 * i)%nat * meval [i; 0; n - 1 - i]%nat v)). set (h1 := fun v => sum n (fun i => c (3 * i + 1)%nat * meval [0; i; n - 1 - i]%nat v)). set (h3 := fun v => sum n (fun i => c (3 * i + 2)%nat * meval [i; n - 1 - i; 0]%nat v)).
    assert (H2 : H_without 1 (n - 1) h2) by (apply (without_sum 1 (n - 1) n (fun i => c (3 * i)%nat) (fun i => [i; 0; n - 1 - i]%nat)); intros j Hj; apply h2_mono; lia).
    assert (H1 : H_without 0 (n - 1) h1) by (apply (without_sum 0 (n - 1) n (fun i => c (3 * i + 1)%nat) (fun i => [0; i; n - 1 - i]%nat)); intros j Hj; apply h1_mono; lia).
    assert (H3 : H_without 2 (n - 1) h3) by (apply (without_sum 2 (n - 1) n (fun i => c (3 * i + 2)%nat) (fun i => [i; n - 1 - i; 0]%nat)); intros j Hj; apply h3_mono; lia).
    exists h1, h2, h3. split; [exact H1|]. split; [exact H2|]. split; [exact H3|]. split.
    + intros k v Hk.
      assert (EM : map field (flat_map (fun i => [curl_k1 n i; curl_k2 n i; curl_k3 n i]) (range n)) = flat_map (fun i => [field (curl_k1 n i); field (curl_k2 n i); field (curl_k3 n i)]) (seq 0 n)).
      { unfold range. generalize (seq 0 n). induction l as [|i l IH]; [reflexivity|]. cbn [flat_map map app]. rewrite IH. reflexivity. }
      rewrite EM. etransitivity; [apply (combination_triples (fun i => field (curl_k1 n i)) (fun i => field (curl_k2 n i)) (fun i => field (curl_k3 n i)) (k, v))|].
      rewrite (sum_ext _ _ (fun i => curl_of (fun v => c (3 * i + 1)%nat * meval [0; i; n - 1 - i]%nat v) (fun v => c (3 * i)%nat * meval [i; 0; n - 1 - i]%nat v) (fun v => c (3 * i + 2)%nat * meval [i; n - 1 - i; 0]%nat v) k v)).
      * unfold curl_of, h1, h2, h3. destruct k as [|[|[|k]]]; [| | |lia]; cbn [tri_fn].
        -- rewrite sum_scal, sum_plus. reflexivity.
        -- rewrite sum_scal. f_equal. rewrite (sum_ext _ _ (fun i => c (3 * i + 1)%nat * meval [0; i; n - 1 - i]%nat v + (-1) * (c (3 * i + 2)%nat * meval [i; n - 1 - i; 0]%nat v))) by (intros; ring). rewrite sum_plus, sum_scal. ring.
        -- rewrite (sum_ext _ _ (fun i => (- (v 0%nat * v 1%nat)) * (c (3 * i + 1)%nat * meval [0; i; n - 1 - i]%nat v + c (3 * i)%nat * meval [i; 0; n - 1 - i]%nat v))) by (intros; ring). rewrite sum_scal, sum_plus. ring.
      * intros i Hi. cbn [Nat.add]. rewrite (kind_value n i (fun _ => 0) (meval [i; 0; n - 1 - i]%nat) (fun _ => 0) (curl_k1 n i) k v), (kind_value n i (meval [0; i; n - 1 - i]%nat) (fun _ => 0) (fun _ => 0) (curl_k2 n i) k v), (kind_value n i (fun _ => 0) (fun _ => 0) (meval [i; n - 1 - i; 0]%nat) (curl_k3 n i) k v) by (lia || tauto).
        unfold curl_of. destruct k as [|[|[|k]]]; [| | |lia]; cbn [tri_fn]; ring.
    + intros Z i Hi. assert (LX : length (flat_map (fun i => [curl_k1 n i; curl_k2 n i; curl_k3 n i]) (range n)) = (3 * n)%nat).
      { clear. rewrite <- (length_range n) at 2. generalize (range n). induction l as [|i l IH]; [reflexivity|]. cbn [flat_map length app]. rewrite IH. lia. }
      rewrite LX in Hi. pose proof (curl_of_zero (n - 1) h1 h2 h3 ltac:(lia) H1 H2 H3 Z) as Q.
      set (j := (i / 3)%nat). assert (Hj : (j < n)%nat) by (apply Nat.div_lt_upper_bound; lia). pose proof (Nat.div_mod i 3 ltac:(lia)) as D. pose proof (Nat.mod_upper_bound i 3 ltac:(lia)) as B. fold j in D.
      assert (C : (i = 3 * j \/ i = 3 * j + 1 \/ i = 3 * j + 2)%nat) by lia. destruct C as [Ei|[Ei|Ei]]; rewrite Ei.
      * apply (family_zero (n - 1) (fun i => [S i; 1; S (n - 1 - i)]%nat) (fun i => c (3 * i)%nat)); [reflexivity|intros a b E; congruence| |lia]. rewrite <- N. intros v. destruct (Q v) as (_ & <- & _). unfold h2. rewrite <- sum_scal. apply sum_ext. intros a Ha. unfold meval. cbn [meval_from pow]. ring.
      * apply (family_zero (n - 1) (fun i => [1; S i; S (n - 1 - i)]%nat) (fun i => c (3 * i + 1)%nat)); [reflexivity|intros a b E; congruence| |lia]. rewrite <- N. intros v. destruct (Q v) as (<- & _ & _). unfold h1. rewrite <- sum_scal. apply sum_ext. intros a Ha. unfold meval. cbn [meval_from pow]. ring.
      * apply (family_zero (n - 1) (fun i => [S i; S (n - 1 - i); 1]%nat) (fun i => c (3 * i + 2)%nat)); [reflexivity|intros a b E; congruence| |lia]. rewrite <- N. intros v. destruct (Q v) as (_ & _ & <-). unfold h3. rewrite <- sum_scal. apply sum_ext. intros a Ha. unfold meval. cbn [meval_from pow]. ring.
Qed.

(** * Gradients *)
Lemma grad_value m k v : (k < 3)%nat -> field (curl_grad m) (k, v) = INR (nth k m 0%nat) * meval (dec_at k m) v.
Proof.
  intros Hk. unfold field, curl_grad. cbn [fst snd]. rewrite (nth_map_range (fun i => zdiff i [(1%Z, m)])) by exact Hk. cbn [zdiff map fst snd zeval fold_right]. rewrite mult_IZR, <- INR_IZR_INZ. ring.
Qed.
Lemma grad_euler m v : length m = 3%nat -> sum 3 (fun k => v k * field (curl_grad m) (k, v)) = INR (mdeg m) * meval m v.
Proof.
  intros L. rewrite (sum_ext 3 _ (fun k => v k * (INR (nth k m 0%nat) * meval (dec_at k m) v))) by (intros k Hk; rewrite grad_value by exact Hk; reflexivity).
  rewrite (sum_ext 3 _ (fun k => INR (nth k m 0%nat) * meval m v)).
  - destruct m as [|a [|b [|c [|]]]]; try discriminate L. cbn [sum nth mdeg]. rewrite !plus_INR. cbn [INR]. ring.
  - intros k Hk. destruct (Nat.eq_dec (nth k m 0%nat) 0) as [->|Hne]; [cbn [INR]; ring|]. rewrite <- (inc_dec k m) at 4 by lia. rewrite meval_inc by (rewrite dec_length; lia). ring.
Qed.
Lemma coef_list (m : nat -> mono) c x N : forall s, coef (map (fun j => (c j, m j)) (seq s N)) x = sum N (fun j => if mono_eq_dec (m (s + j)%nat) x then c (s + j)%nat else 0).
Proof.
  induction N as [|N IH]; intros s; [reflexivity|]. cbn [seq map]. rewrite coef_cons, IH, sum_S, Nat.add_0_r. f_equal. apply sum_ext. intros j _. replace (S s + j)%nat with (s + S j)%nat by lia. reflexivity.
Qed.
Lemma reval_list (m : nat -> mono) c v N : forall s, reval (map (fun j => (c j, m j)) (seq s N)) v = sum N (fun j => c (s + j)%nat * meval (m (s + j)%nat) v).
Proof.
  induction N as [|N IH]; intros s; [reflexivity|]. cbn [seq map]. rewrite reval_cons, IH, sum_S, Nat.add_0_r. f_equal. apply sum_ext. intros j _. replace (S s + j)%nat with (s + S j)%nat by lia. reflexivity.
Qed.
(** monomials of high degree are independent of polynomials of low degree *)
Lemma high_zero N gs c (p : sfun) : NoDup gs -> (forall m, In m gs -> length m = 3%nat /\ (N < mdeg m)%nat) -> degree_space 3 N p -> (forall v, p v + sum (length gs) (fun j => c j * meval (nth j gs []) v) = 0) -> forall j, (j < length gs)%nat -> c j = 0.
Proof.
  intros ND HG (A & HA & EA) Z i Hi. set (B := map (fun j => (c j, nth j gs [])) (seq 0 (length gs))).
  assert (SB : sized 3 B). { apply Forall_forall. intros t Ht. apply in_map_iff in Ht. destruct Ht as (j & <- & Hj). apply in_seq in Hj. cbn [snd]. apply HG, nth_In. lia. }
  assert (SA : sized 3 A) by (eapply Forall_impl; [|exact HA]; intros t Ht; apply Ht). pose proof (HG (nth i gs []) (nth_In _ _ Hi)) as [Li Di].
  assert (Q : coef (A ++ B) (nth i gs []) = 0). { apply (poly_identity 3); [apply Forall_app; split; assumption| |exact Li]. intros v. rewrite reval_app, <- EA. unfold B. rewrite reval_list. apply Z. }
  rewrite coef_app in Q. rewrite (coef_outside (fun m => length m = 3%nat /\ (mdeg m <= N)%nat) A _ HA) in Q by (intros [_ D]; lia). unfold B in Q. rewrite coef_list, (sum_single _ _ i Hi) in Q.
  - cbn [Nat.add] in Q. destruct (mono_eq_dec (nth i gs []) (nth i gs [])); [lra|congruence].
  - intros j Hj Hne. cbn [Nat.add]. destruct (mono_eq_dec (nth j gs []) (nth i gs [])) as [E|]; [|reflexivity]. exfalso. apply Hne. apply (proj1 (NoDup_nth gs []) ND); assumption.
Qed.

(** * The elements of the list, and their independence *)
Lemma combination_split {A} N c (l1 l2 : list (fn A)) x : length l1 = N -> combination c (l1 ++ l2) x = combination c l1 x + combination (fun i => c (N + i)%nat) l2 x.
Proof. intros <-. apply combination_app. Qed.
Lemma curl_of_H n h1 h2 h3 k : (1 <= n)%nat -> (k < 3)%nat -> H_without 0 (n - 1) h1 -> H_without 1 (n - 1) h2 -> H_without 2 (n - 1) h3 -> H_space 3 (n + 1) (curl_of h1 h2 h3 k).
Proof.
  intros Hn Hk H1 H2 H3.
  assert (M : forall i j (h : sfun), (i < 3)%nat -> (j < 3)%nat -> H_space 3 (n - 1) h -> H_space 3 (n + 1) (fun v => v i * v j * h v)).
  { intros i j h Hi Hj (p & Hp & Ep). assert (SP : sized 3 p) by (eapply Forall_impl; [|exact Hp]; intros t Ht; apply Ht). exists (rinc i (rinc j p)). split; [|intros v; rewrite (reval_rinc 3 i), (reval_rinc 3 j), Ep by (try assumption; apply sized_rinc, SP); ring].
    assert (D : forall i m, (i < length m)%nat -> mdeg (inc_at i m) = S (mdeg m)) by (clear; intros i m; revert i; induction m as [|a m IH]; intros [|i] H; cbn [inc_at mdeg length] in *; try lia; rewrite IH by lia; lia).
    apply (Forall_rinc (fun m => length m = 3%nat /\ mdeg m = n) (fun m => length m = 3%nat /\ mdeg m = (n + 1)%nat) i (rinc j p)); [|intros m [L E]; rewrite inc_length, D by lia; lia].
    apply (Forall_rinc (fun m => length m = 3%nat /\ mdeg m = (n - 1)%nat) (fun m => length m = 3%nat /\ mdeg m = n) j p Hp). intros m [L E]. rewrite inc_length, D by lia. lia. }
  apply without_homogeneous in H1. apply without_homogeneous in H2. apply without_homogeneous in H3.
  destruct k as [|[|[|k]]]; [| | |lia]; unfold curl_of; cbn [tri_fn].
  - apply (M 1%nat 2%nat (fun v => h2 v + h3 v)); [lia|lia|]. apply poly_space_add; assumption.
  - apply (M 0%nat 2%nat (fun v => h1 v - h3 v)); [lia|lia|]. apply (poly_space_ext _ (fun v => h1 v + -1 * h3 v)); [intros; ring|]. apply (poly_space_add _ h1 (fun v => -1 * h3 v)); [exact H1|apply poly_space_scale, H3].
  - apply (poly_space_ext _ (fun v => -1 * (v 0%nat * v 1%nat * (h1 v + h2 v)))); [intros; ring|]. apply (poly_space_scale _ (-1) (fun v => v 0%nat * v 1%nat * (h1 v + h2 v))). apply (M 0%nat 1%nat (fun v => h1 v + h2 v)); [lia|lia|]. apply poly_space_add; assumption.
Qed.
Lemma scurl3_poly n ms X : (1 <= n)%nat -> polynomial_set_1d 3 n = Ok ms -> Hcurl_serendipity 3 3 n = Ok X ->
  (forall F, In F (vectorise 3 ms ++ X) -> scurl_space3 n (field F)) /\
  forall c, (forall x, combination c (map field (vectorise 3 ms ++ X)) x = 0) -> forall i, (i < length (vectorise 3 ms ++ X))%nat -> c i = 0.
Proof.
  intros Hn HM HX. apply curl_extra in HX. set (gs := serendipity_set_1d 3 (n + 1)) in *. split.
  - intros F HF. apply in_app_or in HF. destruct HF as [HF|HF]; [|rewrite HX in HF; apply in_app_or in HF; destruct HF as [HF|HF]].
    + destruct (unit_part 3 n ms F ltac:(lia) HM HF) as [A B]. exists (fun c v => field F (c, v)), (fun _ => 0), (fun _ => 0), (fun _ => 0), (fun _ => 0), (fun _ _ => 0). split; [exact A|]. do 3 (split; [apply without_zero|]). split; [apply poly_space_zero|].
      split; [intros i v Hi; exact (derivable_pt_lim_const 0 (v i))|]. split; [intros; ring|]. split; [intros; ring|]. split; [intros; ring|exact B].
    + apply In_nth with (d := []) in HF. destruct HF as (j & Hj & <-). destruct (kinds_combination n (fun i => if (i =? j)%nat then 1 else 0) Hn) as (h1 & h2 & h3 & H1 & H2 & H3 & E & _).
      assert (EF : forall k v, (k < 3)%nat -> field (nth j (curl_kinds n) []) (k, v) = curl_of h1 h2 h3 k v).
      { intros k v Hk. rewrite <- E by exact Hk. unfold combination. rewrite map_length, (sum_single _ _ j Hj), Nat.eqb_refl; [|intros i Hi Hne; rewrite (proj2 (Nat.eqb_neq i j) Hne); ring]. rewrite (nth_map_lt field (curl_kinds n) j []) by exact Hj. ring. }
      exists (fun _ _ => 0), h1, h2, h3, (fun _ => 0), (fun _ _ => 0). split; [intros; apply poly_space_zero|]. do 3 (split; [assumption|]). split; [apply poly_space_zero|]. split; [intros i v Hi; exact (derivable_pt_lim_const 0 (v i))|].
      split; [intros v; rewrite EF by lia; unfold curl_of; cbn [tri_fn]; ring|]. split; [intros v; rewrite EF by lia; unfold curl_of; cbn [tri_fn]; ring|]. split; [intros v; rewrite EF by lia; unfold curl_of; cbn [tri_fn]; ring|].
      intros c v Hc. apply field_beyond. assert (L : forall F, In F (curl_kinds n) -> length F = 3%nat).
      { unfold curl_kinds. destruct (n =? 1)%nat; intros F HF; [destruct HF as [<-|[<-|[]]]; reflexivity|]. apply in_flat_map in HF. destruct HF as (a & _ & [<-|[<-|[<-|[]]]]); reflexivity. }
      rewrite (L _ (nth_In _ _ Hj)). exact Hc.
    + apply in_map_iff in HF. destruct HF as (m & <- & Hm). apply serendipity_set_1d_in in Hm; [|lia]. destruct Hm as (L & _ & SL). rewrite superlinear_same in SL.
      exists (fun _ _ => 0), (fun _ => 0), (fun _ => 0), (fun _ => 0), (meval m), (fun i v => field (curl_grad m) (i, v)). split; [intros; apply poly_space_zero|]. do 3 (split; [apply without_zero|]). split; [apply poly_space_mono; split; assumption|].
      split; [intros i v Hi; rewrite grad_value by exact Hi; apply meval_partial|]. split; [intros; ring|]. split; [intros; ring|]. split; [intros; ring|]. intros c v Hc. apply field_beyond. exact Hc.
  - intros c Z. destruct (polynomial_set_1d_ok 3 n ltac:(lia)) as (ms' & HM' & ND & Hin & _). rewrite HM in HM'. injection HM' as <-.
    assert (LU : length (map field (vectorise 3 ms)) = (3 * length ms)%nat) by (rewrite map_length, length_vectorise; lia).
    set (cK := fun i => c (3 * length ms + i)%nat). set (cG := fun i => c (3 * length ms + (length (curl_kinds n) + i))%nat).
    destruct (kinds_combination n cK Hn) as (h1 & h2 & h3 & H1 & H2 & H3 & EK & HR).
    set (p := fun k v => sum (length ms) (fun a => c (3 * a + k)%nat * meval (nth a ms []) v)).
    assert (DP : forall k, degree_space 3 n (p k)) by (intros k; apply sum_poly; intros a Ha; apply poly_space_scale, poly_space_mono; apply Hin, nth_In, Ha).
    assert (S : forall k v, (k < 3)%nat -> p k v + (curl_of h1 h2 h3 k v + sum (length gs) (fun j => cG j * field (curl_grad (nth j gs [])) (k, v))) = 0).
    { intros k v Hk. rewrite <- (EK k v Hk). unfold p. rewrite <- (comb_vectorise 3 ms c k v Hk). pose proof (Z (k, v)) as Q. rewrite HX, !map_app in Q. rewrite <- Q. symmetry.
      etransitivity; [exact (combination_split (3 * length ms) c (map field (vectorise 3 ms)) _ (k, v) LU)|]. f_equal. etransitivity; [exact (combination_split (length (curl_kinds n)) cK (map field (curl_kinds n)) _ (k, v) (map_length _ _))|]. f_equal. unfold combination. rewrite !map_length. apply sum_ext. intros j Hj. unfold cK, cG.
      f_equal. rewrite map_map. exact (f_equal (fun g : component_fn => g (k, v)) (nth_map_lt (fun m => field (curl_grad m)) gs j [] (fun _ => 0) Hj)). }
    assert (G0 : forall j, (j < length gs)%nat -> cG j = 0).
    { intros j Hj. assert (Q : cG j * INR (mdeg (nth j gs [])) = 0).
      { apply (high_zero (n + 1) gs (fun j => cG j * INR (mdeg (nth j gs []))) (fun v => sum 3 (fun k => v k * p k v))); [apply serendipity_set_1d_nodup; lia| | | |exact Hj].
        - intros m Hm. apply serendipity_set_1d_in in Hm; [|lia]. split; apply Hm.
        - apply sum_poly. intros k Hk. apply (degree_weaken 3 (1 + n)); [lia|]. apply (degree_mul 3 1 n (fun v => v k) (p k)); [apply degree_var, Hk|apply DP].
        - intros v. assert (Q : sum 3 (fun k => v k * (p k v + (curl_of h1 h2 h3 k v + sum (length gs) (fun j => cG j * field (curl_grad (nth j gs [])) (k, v))))) = 0) by (apply sum_zero; intros k Hk; rewrite S by exact Hk; ring).
          rewrite <- Q. clear Q. rewrite (sum_ext (length gs) _ (fun j => sum 3 (fun k => cG j * (v k * field (curl_grad (nth j gs [])) (k, v))))).
          + rewrite sum_swap. rewrite (sum_ext 3 (fun k => v k * (p k v + (curl_of h1 h2 h3 k v + _))) (fun k => v k * p k v + (v k * curl_of h1 h2 h3 k v + sum (length gs) (fun j => cG j * (v k * field (curl_grad (nth j gs [])) (k, v)))))).
            * rewrite !sum_plus. assert (E0 : sum 3 (fun k => v k * curl_of h1 h2 h3 k v) = 0) by (unfold curl_of; cbn [sum tri_fn]; ring). rewrite E0. ring.
            * intros k Hk. rewrite !Rmult_plus_distr_l. f_equal. f_equal. rewrite <- sum_scal. apply sum_ext. intros; ring.
          + intros a Ha. rewrite sum_scal, grad_euler; [exact (Rmult_assoc _ _ _)|]. pose proof (nth_In gs [] Ha) as I. apply serendipity_set_1d_in in I; [|lia]. apply I. }
      apply Rmult_integral in Q. destruct Q as [Q|Q]; [exact Q|]. exfalso. revert Q. apply not_0_INR. pose proof (nth_In gs [] Hj) as I. apply serendipity_set_1d_in in I; [|lia]. lia. }
    assert (S' : forall k v, (k < 3)%nat -> p k v + curl_of h1 h2 h3 k v = 0).
    { intros k v Hk. rewrite <- (S k v Hk). rewrite (sum_zero (length gs)); [ring|]. intros j Hj. rewrite (G0 j Hj). ring. }
    assert (K0 : forall k v, (k < 3)%nat -> curl_of h1 h2 h3 k v = 0).
    { intros k v Hk. apply (homogeneous_below 3 (n + 1) (curl_of h1 h2 h3 k) (fun v => -1 * p k v) (curl_of_H n h1 h2 h3 k Hn Hk H1 H2 H3)); [|intros w; specialize (S' k w Hk); lra].
      apply (poly_space_scale _ (-1) (p k)). eapply poly_space_weaken; [|apply DP]. intros m [L D]. split; [exact L|lia]. }
    assert (P0 : forall k a, (k < 3)%nat -> (a < length ms)%nat -> c (3 * a + k)%nat = 0).
    { intros k a Hk Ha. apply (comb_indep 3 ms (fun a => c (3 * a + k)%nat) ND); [intros m Hm; apply Hin, Hm| |exact Ha]. intros v. specialize (S' k v Hk). rewrite (K0 k v Hk) in S'. change (p k v = 0). lra. }
    intros i Hi. rewrite HX, !app_length, length_vectorise, map_length in Hi. fold gs in Hi. destruct (Nat.lt_ge_cases i (3 * length ms)) as [H|H].
    + pose proof (Nat.div_mod i 3 ltac:(lia)) as D. pose proof (Nat.mod_upper_bound i 3 ltac:(lia)) as B. rewrite D. apply P0; [exact B|]. apply Nat.div_lt_upper_bound; lia.
    + destruct (Nat.lt_ge_cases i (3 * length ms + length (curl_kinds n))) as [H'|H'].
      * specialize (HR K0 (i - 3 * length ms)%nat ltac:(lia)). unfold cK in HR. replace (3 * length ms + (i - 3 * length ms))%nat with i in HR by lia. exact HR.
      * specialize (G0 (i - 3 * length ms - length (curl_kinds n))%nat ltac:(lia)). unfold cG in G0. replace (3 * length ms + (length (curl_kinds n) + (i - 3 * length ms - length (curl_kinds n))))%nat with i in G0 by lia. exact G0.
Qed.
