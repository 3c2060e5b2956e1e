(** The polynomials of the H(curl) and H(div) serendipity elements. *)
From Coquelicot Require Import Coquelicot.
From Coq Require Import String Arith Bool ZArith Reals Lia Lra List FunctionalExtensionality.
From Verif Require Import Base PolyLib PolySetsModel PolySetsProofs PolyVec QuadratureModel ReferencesModel ReferencesSpec CiarletModel CiarletProofs
  LinAlg ElementModel LagrangeModel UnisolvenceProofs LagrangeKey LagrangeUnisolvence
  LegendreIntSpec MomentsParts MomentsRT MomentsBox
  PointsModel PointsSpec PointsProofs PointsElements MomentElementsModel MomentElementsSpec MomentElementsProofs MomentsRaviart
  SerendipitySpec SerendipityKernel SerendipityFieldSpec SerendipityFieldKernel.
Import PolyVec ListNotations.
Local Open Scope R_scope.

(** A polynomial of degree n in every component, plus a variable times a homogeneous polynomial of degree n that is determined by
    its values where the variable is 0. *)
Definition split_field (d n : nat) (ax : nat -> nat) (f : component_fn) : Prop :=
  exists p G : nat -> sfun, (forall c, (c < d)%nat -> degree_space d n (p c)) /\ (forall c, (c < d)%nat -> H_space d n (G c)) /\
  (forall c v, (c < d)%nat -> f (c, v) = p c v + v (ax c) * G c v) /\
  ((forall c v, (c < d)%nat -> v (ax c) = 0 -> G c v = 0) -> forall c v, (c < d)%nat -> G c v = 0).
Definition good_space (d n : nat) (ax : nat -> nat) (W : component_fn -> Prop) : Prop :=
  subspace W /\ forall f, W f -> split_field d n ax f /\ forall c v, (d <= c)%nat -> f (c, v) = 0.
Lemma split_poly d n ax f : (forall c, (c < d)%nat -> (ax c < d)%nat) -> split_field d n ax f -> poly_field d f.
Proof.
  intros Hax (p & G & Hp & HG & E & _). exists (S n). intros c Hc. apply (poly_space_ext _ (fun v => p c v + v (ax c) * G c v)); [intros v; symmetry; apply E, Hc|].
  apply (poly_space_add _ (p c) (fun v => v (ax c) * G c v)); [apply (degree_weaken d n); [lia|apply Hp, Hc]|]. apply (degree_mul d 1 n (fun v => v (ax c)) (G c)); [apply degree_var, Hax, Hc|apply H_degree, HG, Hc].
Qed.
Lemma split_low d n ax f : (1 <= d <= 3)%nat -> (forall c, (c < d)%nat -> (ax c < d)%nat) -> split_field d n ax f ->
  (forall c v, (c < d)%nat -> v (ax c) = 0 \/ v (ax c) = 1 -> f (c, v) = 0) ->
  (forall psi : nat -> sfun, (2 <= n)%nat -> (forall c, (c < d)%nat -> P_space d (n - 2) (psi c)) -> iterated_integral (blims d) (fun v => sum d (fun c => f (c, v) * psi c v)) (fun _ => 0) 0) ->
  forall c v, (c < d)%nat -> f (c, v) = 0.
Proof.
  intros Hd Hax (p & G & Hp & HG & E & HR) Z. assert (G0 : forall c v, (c < d)%nat -> G c v = 0).
  { apply HR. intros c v Hc. apply (ends_cut d n (ax c) (p c) (G c) (Hax c Hc) (Hp c Hc) (HG c Hc)); intros w Hw; rewrite <- E by exact Hc; apply Z; tauto. }
  apply (low_zero d n ax (fun c v => f (c, v)) Hd Hax); [|exact Z]. intros c Hc. apply (poly_space_ext _ (p c)); [|apply Hp, Hc]. intros v. rewrite E, G0 by exact Hc. ring.
Qed.

(** * Independence *)
Lemma combination_app {A} c (l1 l2 : list (fn A)) x : combination c (l1 ++ l2) x = combination c l1 x + combination (fun i => c (length l1 + i)%nat) l2 x.
Proof.
  unfold combination. rewrite app_length, sum_split. f_equal; apply sum_ext; intros i Hi; [rewrite app_nth1 by exact Hi; reflexivity|]. rewrite app_nth2 by lia. do 2 f_equal. replace (length l1 + i - length l1)%nat with i by lia. reflexivity.
Qed.
Lemma split_independent d n ax ms X : (1 <= d <= 3)%nat -> (forall c, (c < d)%nat -> (ax c < d)%nat) -> polynomial_set_1d d n = Ok ms ->
  (forall c, exists G : nat -> sfun, (forall k, (k < d)%nat -> H_space d n (G k)) /\ (forall k v, (k < d)%nat -> combination c (map field X) (k, v) = v (ax k) * G k v) /\
     ((forall k v, (k < d)%nat -> v (ax k) = 0 -> G k v = 0) -> forall i, (i < length X)%nat -> c i = 0)) ->
  forall c, (forall x, combination c (map field (vectorise d ms ++ X)) x = 0) -> forall i, (i < length (vectorise d ms ++ X))%nat -> c i = 0.
Proof.
  intros Hd Hax HM HX c Z. destruct (polynomial_set_1d_ok d n Hd) as (ms' & HM' & ND & Hin & _). rewrite HM in HM'. injection HM' as <-.
  assert (LU : length (vectorise d ms) = (d * length ms)%nat). { rewrite length_vectorise. lia. }
  destruct (HX (fun i => c (length (map field (vectorise d ms)) + i)%nat)) as (G & HG & EG & HR).
  assert (S : forall k v, (k < d)%nat -> sum (length ms) (fun a => c (d * a + k)%nat * meval (nth a ms []) v) + v (ax k) * G k v = 0).
  { intros k v Hk. rewrite <- (EG k v Hk), <- (comb_vectorise d ms c k v Hk). pose proof (Z (k, v)) as Q. rewrite map_app in Q. exact (eq_trans (eq_sym (combination_app c (map field (vectorise d ms)) (map field X) (k, v))) Q). }
  assert (DP : forall k, degree_space d n (fun v => sum (length ms) (fun a => c (d * a + k)%nat * meval (nth a ms []) v))).
  { intros k. apply sum_poly. intros a Ha. apply poly_space_scale, poly_space_mono. apply Hin, nth_In, Ha. }
  assert (CX : forall i, (i < length X)%nat -> c (d * length ms + i)%nat = 0).
  { intros i Hi. rewrite <- LU, <- (map_length field). apply HR; [|exact Hi]. intros k v Hk. apply (ends_cut d n (ax k) _ (G k) (Hax k Hk) (DP k) (HG k Hk)); intros w _; apply S, Hk. }
  assert (GX : forall k v, (k < d)%nat -> v (ax k) * G k v = 0).
  { intros k v Hk. rewrite <- EG by exact Hk. unfold combination. apply sum_zero. intros i Hi. rewrite map_length in Hi |- *. rewrite LU, CX by exact Hi. ring. }
  assert (CU : forall a k, (a < length ms)%nat -> (k < d)%nat -> c (d * a + k)%nat = 0).
  { intros a k Ha Hk. apply (comb_indep d ms (fun a => c (d * a + k)%nat) ND); [intros m Hm; apply Hin, Hm| |exact Ha]. intros v. specialize (S k v Hk). rewrite (GX k v Hk), Rplus_0_r in S. exact S. }
  intros i Hi. rewrite app_length, LU in Hi. destruct (Nat.lt_ge_cases i (d * length ms)) as [H|H].
  - rewrite (Nat.div_mod i d) by lia. apply CU; [apply Nat.div_lt_upper_bound; lia|apply Nat.mod_upper_bound; lia].
  - replace i with (d * length ms + (i - d * length ms))%nat by lia. apply CX. lia.
Qed.

(** * The square *)
Lemma pow_H i n : (i < 2)%nat -> H_space 2 n (fun v => v i ^ n).
Proof.
  intros Hi. assert (C : i = 0%nat \/ i = 1%nat) by lia. destruct C as [->| ->].
  - apply (poly_space_ext _ (meval [n; 0%nat])); [intros v; unfold meval; cbn [meval_from pow]; ring|]. apply poly_space_mono. split; [reflexivity|]. cbn [mdeg]. lia.
  - apply (poly_space_ext _ (meval [0%nat; n])); [intros v; unfold meval; cbn [meval_from pow]; ring|]. apply poly_space_mono. split; [reflexivity|]. cbn [mdeg]. lia.
Qed.
Definition pair_fn (A B : sfun) (k : nat) : sfun := match k with O => A | _ => B end.
Lemma pows_H n a b : H_space 2 n (fun v => a * v 0%nat ^ n + b * v 1%nat ^ n).
Proof. apply (poly_space_add _ (fun v => a * v 0%nat ^ n) (fun v => b * v 1%nat ^ n)); [apply (poly_space_scale _ a (fun v => v 0%nat ^ n))|apply (poly_space_scale _ b (fun v => v 1%nat ^ n))]; apply pow_H; lia. Qed.
Lemma pair_H n a b a' b' k : (k < 2)%nat -> H_space 2 n (pair_fn (fun v => a * v 0%nat ^ n + b * v 1%nat ^ n) (fun v => a' * v 0%nat ^ n + b' * v 1%nat ^ n) k).
Proof. intros Hk. destruct k as [|k]; apply pows_H. Qed.
Lemma INR_pos n : 0 < INR (n + 1). Proof. rewrite Nat.add_1_r. apply lt_0_INR. lia. Qed.
Lemma div_rigid2 n a b : (1 <= n)%nat -> (forall k v, (k < 2)%nat -> v k = 0 -> pair_fn (fun v => a * v 0%nat ^ n + (b * INR (n + 1)) * v 1%nat ^ n) (fun v => (a * INR (n + 1)) * v 0%nat ^ n + b * v 1%nat ^ n) k v = 0) -> a = 0 /\ b = 0.
Proof.
  intros Hn H. pose proof (INR_pos n) as P. pose proof (H 0%nat (fun i => match i with O => 0 | _ => 1 end) ltac:(lia) eq_refl) as H0. pose proof (H 1%nat (fun i => match i with O => 1 | _ => 0 end) ltac:(lia) eq_refl) as H1.
  cbn [pair_fn] in H0, H1. rewrite pow1, pow_i in H0, H1 by lia. split; nra.
Qed.
Lemma curl_rigid2 n a b : (1 <= n)%nat -> (forall k v, (k < 2)%nat -> v (1 - k)%nat = 0 -> pair_fn (fun v => (a * INR (n + 1)) * v 0%nat ^ n + b * v 1%nat ^ n) (fun v => (- a) * v 0%nat ^ n + (b * INR (n + 1)) * v 1%nat ^ n) k v = 0) -> a = 0 /\ b = 0.
Proof.
  intros Hn H. pose proof (INR_pos n) as P. pose proof (H 1%nat (fun i => match i with O => 0 | _ => 1 end) ltac:(lia) eq_refl) as H0. pose proof (H 0%nat (fun i => match i with O => 1 | _ => 0 end) ltac:(lia) eq_refl) as H1.
  cbn [pair_fn] in H0, H1. rewrite pow1, pow_i in H0, H1 by lia. split; nra.
Qed.
Lemma sdiv2_good n : (1 <= n)%nat -> good_space 2 n (fun c => c) (sdiv_space2 n).
Proof.
  intros Hn. split; [split; [|split]|].
  - exists (fun _ _ => 0), 0, 0. split; [intros; apply poly_space_zero|]. repeat split; intros; ring.
  - intros a u w (p & x & y & Hp & E0 & E1 & EB) (p' & x' & y' & Hp' & E0' & E1' & EB'). exists (fun c v => a * p c v + p' c v), (a * x + x'), (a * y + y').
    split; [intros c Hc; apply (poly_space_add _ (fun v => a * p c v) (p' c)); [apply poly_space_scale, Hp, Hc|apply Hp', Hc]|].
    split; [intros v; rewrite E0, E0'; ring|]. split; [intros v; rewrite E1, E1'; ring|]. intros c v Hc. rewrite EB, EB' by exact Hc. ring.
  - intros u w E (p & x & y & Hp & E0 & E1 & EB). exists p, x, y. split; [exact Hp|]. repeat split; intros; rewrite <- E; auto.
  - intros f (p & x & y & Hp & E0 & E1 & EB). split; [|exact EB].
    exists p, (pair_fn (fun v => x * v 0%nat ^ n + (y * INR (n + 1)) * v 1%nat ^ n) (fun v => (x * INR (n + 1)) * v 0%nat ^ n + y * v 1%nat ^ n)).
    split; [exact Hp|]. split; [intros c Hc; apply pair_H, Hc|]. split.
    + intros [|[|c]] v Hc; [| |lia]; cbn [pair_fn]; [rewrite E0|rewrite E1]; rewrite pow_add; ring.
    + intros R c v Hc. destruct (div_rigid2 n x y Hn R) as [-> ->]. destruct c; cbn [pair_fn]; ring.
Qed.
Lemma scurl2_good n : (1 <= n)%nat -> good_space 2 n (fun c => (1 - c)%nat) (scurl_space2 n).
Proof.
  intros Hn. split; [split; [|split]|].
  - exists (fun _ _ => 0), 0, 0. split; [intros; apply poly_space_zero|]. repeat split; intros; ring.
  - intros a u w (p & x & y & Hp & E0 & E1 & EB) (p' & x' & y' & Hp' & E0' & E1' & EB'). exists (fun c v => a * p c v + p' c v), (a * x + x'), (a * y + y').
    split; [intros c Hc; apply (poly_space_add _ (fun v => a * p c v) (p' c)); [apply poly_space_scale, Hp, Hc|apply Hp', Hc]|].
    split; [intros v; rewrite E0, E0'; ring|]. split; [intros v; rewrite E1, E1'; ring|]. intros c v Hc. rewrite EB, EB' by exact Hc. ring.
  - intros u w E (p & x & y & Hp & E0 & E1 & EB). exists p, x, y. split; [exact Hp|]. repeat split; intros; rewrite <- E; auto.
  - intros f (p & x & y & Hp & E0 & E1 & EB). split; [|exact EB].
    exists p, (pair_fn (fun v => (x * INR (n + 1)) * v 0%nat ^ n + y * v 1%nat ^ n) (fun v => (- x) * v 0%nat ^ n + (y * INR (n + 1)) * v 1%nat ^ n)).
    split; [exact Hp|]. split; [intros c Hc; apply pair_H, Hc|]. split.
    + intros [|[|c]] v Hc; [| |lia]; cbn [pair_fn Nat.sub]; [rewrite E0|rewrite E1]; rewrite pow_add; ring.
    + intros R c v Hc. destruct (curl_rigid2 n x y Hn R) as [-> ->]. destruct c; cbn [pair_fn]; ring.
Qed.
Lemma unit_part d n ms F : (1 <= d <= 3)%nat -> polynomial_set_1d d n = Ok ms -> In F (vectorise d ms) -> (forall c, (c < d)%nat -> P_space d n (fun v => field F (c, v))) /\ forall c v, (d <= c)%nat -> field F (c, v) = 0.
Proof.
  intros Hd HM HF. assert (HU : polynomial_set_vector d d n = Ok (vectorise d ms)) by (unfold polynomial_set_vector; rewrite HM; reflexivity). exact (vector_in_space d n _ F HU Hd HF).
Qed.
Ltac fv := unfold field; cbn [fst snd nth]; unfold zeval; cbn [map fold_right fst snd]; unfold meval; cbn [meval_from]; rewrite <- ?INR_IZR_INZ.
Lemma sdiv2_poly n ms X : (1 <= n)%nat -> polynomial_set_1d 2 n = Ok ms -> Hdiv_serendipity 2 2 n = Ok X ->
  length X = 2%nat /\ (forall F, In F (vectorise 2 ms ++ X) -> sdiv_space2 n (field F)) /\
  forall c, (forall x, combination c (map field (vectorise 2 ms ++ X)) x = 0) -> forall i, (i < length (vectorise 2 ms ++ X))%nat -> c i = 0.
Proof.
  intros Hn HM HX. injection HX as <-. split; [reflexivity|]. split.
  - intros F HF. apply in_app_or in HF. destruct HF as [HF|HF].
    + destruct (unit_part 2 n ms F ltac:(lia) HM HF) as [A B]. exists (fun c v => field F (c, v)), 0, 0. split; [exact A|]. split; [intros; ring|]. split; [intros; ring|exact B].
    + destruct HF as [<-|[<-|[]]].
      * exists (fun _ _ => 0), 1, 0. split; [intros; apply poly_space_zero|]. split; [intros v; fv; cbn [pow]; ring|]. split; [intros v; fv; cbn [pow]; ring|]. intros c v Hc. apply field_beyond. exact Hc.
      * exists (fun _ _ => 0), 0, 1. split; [intros; apply poly_space_zero|]. split; [intros v; fv; cbn [pow]; ring|]. split; [intros v; fv; cbn [pow]; ring|]. intros c v Hc. apply field_beyond. exact Hc.
  - apply (split_independent 2 n (fun c => c) ms); [lia|auto|exact HM|]. intros c.
    exists (pair_fn (fun v => c 0%nat * v 0%nat ^ n + (c 1%nat * INR (n + 1)) * v 1%nat ^ n) (fun v => (c 0%nat * INR (n + 1)) * v 0%nat ^ n + c 1%nat * v 1%nat ^ n)).
    split; [intros k Hk; apply pair_H, Hk|]. split.
    + intros k v Hk. unfold combination. cbn [map length]. rewrite !sum_S. cbn [nth sum]. destruct k as [|[|k]]; [| |lia]; fv; cbn [pair_fn pow]; rewrite ?pow_add; cbn [pow]; ring.
    + intros R i Hi. destruct (div_rigid2 n (c 0%nat) (c 1%nat) Hn R) as [E0 E1]. cbn [length] in Hi. destruct i as [|[|i]]; [exact E0|exact E1|lia].
Qed.
Lemma scurl2_poly n ms X : (1 <= n)%nat -> polynomial_set_1d 2 n = Ok ms -> Hcurl_serendipity 2 2 n = Ok X ->
  length X = 2%nat /\ (forall F, In F (vectorise 2 ms ++ X) -> scurl_space2 n (field F)) /\
  forall c, (forall x, combination c (map field (vectorise 2 ms ++ X)) x = 0) -> forall i, (i < length (vectorise 2 ms ++ X))%nat -> c i = 0.
Proof.
  intros Hn HM HX. injection HX as <-. split; [reflexivity|]. split.
  - intros F HF. apply in_app_or in HF. destruct HF as [HF|HF].
    + destruct (unit_part 2 n ms F ltac:(lia) HM HF) as [A B]. exists (fun c v => field F (c, v)), 0, 0. split; [exact A|]. split; [intros; ring|]. split; [intros; ring|exact B].
    + destruct HF as [<-|[<-|[]]].
      * exists (fun _ _ => 0), 1, 0. split; [intros; apply poly_space_zero|]. split; [intros v; fv; cbn [pow]; ring|]. split; [intros v; fv; cbn [pow]; ring|]. intros c v Hc. apply field_beyond. exact Hc.
      * exists (fun _ _ => 0), 0, 1. split; [intros; apply poly_space_zero|]. split; [intros v; fv; cbn [pow]; ring|]. split; [intros v; fv; cbn [pow]; ring|]. intros c v Hc. apply field_beyond. exact Hc.
  - apply (split_independent 2 n (fun c => (1 - c)%nat) ms); [lia|intros; lia|exact HM|]. intros c.
    exists (pair_fn (fun v => (c 0%nat * INR (n + 1)) * v 0%nat ^ n + c 1%nat * v 1%nat ^ n) (fun v => (- c 0%nat) * v 0%nat ^ n + (c 1%nat * INR (n + 1)) * v 1%nat ^ n)).
    split; [intros k Hk; apply pair_H, Hk|]. split.
    + intros k v Hk. unfold combination. cbn [map length]. rewrite !sum_S. cbn [nth sum]. destruct k as [|[|k]]; [| |lia]; fv; cbn [pair_fn Nat.sub pow]; rewrite ?pow_add; cbn [pow]; ring.
    + intros R i Hi. destruct (curl_rigid2 n (c 0%nat) (c 1%nat) Hn R) as [E0 E1]. cbn [length] in Hi. destruct i as [|[|i]]; [exact E0|exact E1|lia].
Qed.

(** * The cube *)
Definition tri_fn (A B C : sfun) (k : nat) : sfun := match k with O => A | S O => B | _ => C end.
Lemma tri_H n a1 b1 c1 a2 b2 c2 a3 b3 c3 h1 h2 h3 k : H_without 0 n h1 -> H_without 1 n h2 -> H_without 2 n h3 ->
  H_space 3 n (tri_fn (fun v => a1 * h1 v + b1 * h2 v + c1 * h3 v) (fun v => a2 * h1 v + b2 * h2 v + c2 * h3 v) (fun v => a3 * h1 v + b3 * h2 v + c3 * h3 v) k).
Proof.
  intros H1 H2 H3. apply without_homogeneous in H1, H2, H3.
  assert (Q : forall a b c, H_space 3 n (fun v => a * h1 v + b * h2 v + c * h3 v)).
  { intros a b c. apply (poly_space_add _ (fun v => a * h1 v + b * h2 v) (fun v => c * h3 v)); [|apply poly_space_scale, H3]. apply (poly_space_add _ (fun v => a * h1 v) (fun v => b * h2 v)); apply poly_space_scale; assumption. }
  destruct k as [|[|k]]; apply Q.
Qed.
Definition div_parts (n : nat) (h1 h2 h3 : sfun) : nat -> sfun :=
  tri_fn (fun v => - INR (n + 2) * h1 v + -1 * h2 v + 1 * h3 v) (fun v => 1 * h1 v + INR (n + 2) * h2 v + 1 * h3 v) (fun v => 1 * h1 v + -1 * h2 v + - INR (n + 2) * h3 v).
Lemma div_rigid3 n h1 h2 h3 : (1 <= n)%nat -> H_without 0 n h1 -> H_without 1 n h2 -> H_without 2 n h3 ->
  (forall k v, (k < 3)%nat -> v k = 0 -> div_parts n h1 h2 h3 k v = 0) -> forall v, h1 v = 0 /\ h2 v = 0 /\ h3 v = 0.
Proof.
  intros Hn H1 H2 H3 R. apply (rigid3 n h1 h2 h3 Hn H1 H2 H3); intros v Hv.
  - pose proof (R 0%nat v ltac:(lia) Hv) as Q. unfold div_parts in Q. cbn [tri_fn] in Q. lra.
  - pose proof (R 1%nat v ltac:(lia) Hv) as Q. unfold div_parts in Q. cbn [tri_fn] in Q. lra.
  - pose proof (R 2%nat v ltac:(lia) Hv) as Q. unfold div_parts in Q. cbn [tri_fn] in Q. lra.
Qed.
Lemma without_lin i n a (h h' : sfun) : H_without i n h -> H_without i n h' -> H_without i n (fun v => a * h v + h' v).
Proof. intros H H'. apply (poly_space_add _ (fun v => a * h v) h'); [apply poly_space_scale, H|exact H']. Qed.
Lemma sdiv3_good n : (1 <= n)%nat -> good_space 3 n (fun c => c) (sdiv_space3 n).
Proof.
  intros Hn. split; [split; [|split]|].
  - exists (fun _ _ => 0), (fun _ => 0), (fun _ => 0), (fun _ => 0). split; [intros; apply poly_space_zero|]. do 3 (split; [apply poly_space_zero|]). repeat split; intros; ring.
  - intros a u w (p & h1 & h2 & h3 & Hp & H1 & H2 & H3 & E0 & E1 & E2 & EB) (p' & h1' & h2' & h3' & Hp' & H1' & H2' & H3' & E0' & E1' & E2' & EB').
    exists (fun c v => a * p c v + p' c v), (fun v => a * h1 v + h1' v), (fun v => a * h2 v + h2' v), (fun v => a * h3 v + h3' v).
    split; [intros c Hc; apply (poly_space_add _ (fun v => a * p c v) (p' c)); [apply poly_space_scale, Hp, Hc|apply Hp', Hc]|]. do 3 (split; [apply without_lin; assumption|]).
    split; [intros v; rewrite E0, E0'; ring|]. split; [intros v; rewrite E1, E1'; ring|]. split; [intros v; rewrite E2, E2'; ring|]. intros c v Hc. rewrite EB, EB' by exact Hc. ring.
  - intros u w E (p & h1 & h2 & h3 & Hp & H1 & H2 & H3 & E0 & E1 & E2 & EB). exists p, h1, h2, h3. split; [exact Hp|]. do 3 (split; [assumption|]). repeat split; intros; rewrite <- E; auto.
  - intros f (p & h1 & h2 & h3 & Hp & H1 & H2 & H3 & E0 & E1 & E2 & EB). split; [|exact EB].
    exists p, (div_parts n h1 h2 h3). split; [exact Hp|]. split; [intros c Hc; apply tri_H; assumption|]. split.
    + intros [|[|[|c]]] v Hc; [| | |lia]; unfold div_parts; cbn [tri_fn]; [rewrite E0|rewrite E1|rewrite E2]; ring.
    + intros R c v Hc. destruct (div_rigid3 n h1 h2 h3 Hn H1 H2 H3 R v) as (Z1 & Z2 & Z3). unfold div_parts. destruct c as [|[|c]]; cbn [tri_fn]; rewrite Z1, Z2, Z3; ring.
Qed.
Definition div_a (n i : nat) : vpoly := vcurl [ []; [(1%Z, [1; i; 1 + (n - i)]%nat)]; [((-1)%Z, [1; 1 + i; n - i]%nat)] ].
Definition div_b (n i : nat) : vpoly := vcurl [ [(1%Z, [i; 1; 1 + (n - i)]%nat)]; []; [((-1)%Z, [1 + i; 1; n - i]%nat)] ].
Definition div_c (n i : nat) : vpoly := vcurl [ [(1%Z, [i; 1 + (n - i); 1]%nat)]; [((-1)%Z, [1 + i; n - i; 1]%nat)]; [] ].
Ltac curl_value := unfold field, div_a, div_b, div_c, vcurl; cbn [fst snd nth zadd zneg zdiff map app]; unfold zeval; cbn [map fold_right fst snd nth dec_at Nat.add Nat.sub]; unfold meval; cbn [meval_from pow];
  rewrite ?Nat.sub_0_r, ?Nat.add_0_r; rewrite ?opp_IZR, ?mult_IZR, ?opp_IZR, <- ?INR_IZR_INZ, ?S_INR; cbn [INR].
Lemma tri_value n i h1 h2 h3 F k v : (i <= n)%nat -> (k < 3)%nat ->
  (F = div_a n i /\ h1 = meval [0; i; n - i]%nat /\ h2 = (fun _ => 0) /\ h3 = (fun _ => 0)) \/ (F = div_b n i /\ h1 = (fun _ => 0) /\ h2 = meval [i; 0; n - i]%nat /\ h3 = (fun _ => 0)) \/ (F = div_c n i /\ h1 = (fun _ => 0) /\ h2 = (fun _ => 0) /\ h3 = meval [i; n - i; 0]%nat) ->
  field F (k, v) = v k * div_parts n h1 h2 h3 k v.
Proof.
  intros Hi Hk C. assert (N : INR (n + 2) = INR i + INR (n - i) + 2) by (rewrite <- plus_INR; replace (i + (n - i))%nat with n by lia; rewrite plus_INR; cbn; ring). unfold div_parts. rewrite N.
  destruct C as [(-> & -> & -> & ->)|[(-> & -> & -> & ->)|(-> & -> & -> & ->)]]; (destruct k as [|[|[|k]]]; [| | |lia]); cbn [tri_fn]; curl_value; ring.
Qed.
Lemma combination_triples {A} (a b c : nat -> fn A) x N : forall co s, combination co (flat_map (fun i => [a i; b i; c i]) (seq s N)) x =
  sum N (fun i => co (3 * i)%nat * a (s + i)%nat x + co (3 * i + 1)%nat * b (s + i)%nat x + co (3 * i + 2)%nat * c (s + i)%nat x).
Proof.
  induction N as [|N IH]; intros co s; [reflexivity|]. cbn [seq flat_map]. rewrite (combination_app co [a s; b s; c s]), IH, sum_S. f_equal.
  - unfold combination. cbn [length]. rewrite !sum_S. cbn [nth sum]. rewrite Nat.add_0_r. cbn [Nat.mul Nat.add]. ring.
  - apply sum_ext. intros i _. cbn [length]. replace (3 + 3 * i)%nat with (3 * S i)%nat by lia. replace (3 + (3 * i + 1))%nat with (3 * S i + 1)%nat by lia. replace (3 + (3 * i + 2))%nat with (3 * S i + 2)%nat by lia.
    replace (S s + i)%nat with (s + S i)%nat by lia. reflexivity.
Qed.
Lemma without_mono i n m : length m = 3%nat -> mdeg m = n -> nth i m 0%nat = 0%nat -> H_without i n (meval m).
Proof. intros. apply poly_space_mono. auto. Qed.
Lemma without_zero i n : H_without i n (fun _ => 0). Proof. apply poly_space_zero. Qed.
Lemma div3_extra n X : (1 <= n)%nat -> Hdiv_serendipity 3 3 n = Ok X -> X = flat_map (fun i => [div_a n i; div_b n i; div_c n i]) (range (n + 1)).
Proof.
  intros Hn HX. cbn [Hdiv_serendipity Nat.eqb negb] in HX. destruct (Nat.eqb_spec n 0) as [|_]; [lia|]. injection HX as <-. generalize (range (n + 1)). induction l as [|i l IH]; [reflexivity|]. cbn [flat_map map app]. rewrite IH. reflexivity.
Qed.
Lemma h1_mono n i : (i <= n)%nat -> H_without 0 n (meval [0; i; n - i]%nat). Proof. intros. apply without_mono; [reflexivity|cbn [mdeg]; lia|reflexivity]. Qed.
Lemma h2_mono n i : (i <= n)%nat -> H_without 1 n (meval [i; 0; n - i]%nat). Proof. intros. apply without_mono; [reflexivity|cbn [mdeg]; lia|reflexivity]. Qed.
Lemma h3_mono n i : (i <= n)%nat -> H_without 2 n (meval [i; n - i; 0]%nat). Proof. intros. apply without_mono; [reflexivity|cbn [mdeg]; lia|reflexivity]. Qed.
Lemma without_sum i n N co (m : nat -> mono) : (forall j, (j < N)%nat -> H_without i n (meval (m j))) -> H_without i n (fun v => sum N (fun j => co j * meval (m j) v)).
Proof. intros H. apply sum_poly. intros j Hj. apply poly_space_scale, H, Hj. Qed.
Lemma family_zero n (m : nat -> mono) co : (forall j, length (m j) = 3%nat) -> (forall j j', m j = m j' -> j = j') -> (forall v, sum (n + 1) (fun j => co j * meval (m j) v) = 0) -> forall j, (j < n + 1)%nat -> co j = 0.
Proof.
  intros L I Z j Hj. apply (comb_indep 3 (map m (range (n + 1))) co).
  - apply FinFun.Injective_map_NoDup; [exact I|apply seq_NoDup].
  - intros x Hx. apply in_map_iff in Hx. destruct Hx as (a & <- & _). apply L.
  - intros v. rewrite map_length, length_range. rewrite <- (Z v). apply sum_ext. intros a Ha. rewrite (nth_map_range m) by exact Ha. reflexivity.
  - rewrite map_length, length_range. exact Hj.
Qed.
Lemma sdiv3_poly n ms X : (1 <= n)%nat -> polynomial_set_1d 3 n = Ok ms -> Hdiv_serendipity 3 3 n = Ok X ->
  length X = (3 * (n + 1))%nat /\ (forall F, In F (vectorise 3 ms ++ X) -> sdiv_space3 n (field F)) /\
  forall c, (forall x, combination c (map field (vectorise 3 ms ++ X)) x = 0) -> forall i, (i < length (vectorise 3 ms ++ X))%nat -> c i = 0.
Proof.
  intros Hn HM HX. apply (div3_extra n X Hn) in HX. assert (LX : length X = (3 * (n + 1))%nat). { subst X. generalize (n + 1)%nat. intros N. rewrite <- (length_range N) at 2. generalize (range N). induction l as [|i l IH]; [reflexivity|]. cbn [flat_map length app]. rewrite IH. lia. }
  split; [exact LX|]. split.
  - intros F HF. apply in_app_or in HF. destruct HF as [HF|HF].
    + destruct (unit_part 3 n ms F ltac:(lia) HM HF) as [A B]. exists (fun c v => field F (c, v)), (fun _ => 0), (fun _ => 0), (fun _ => 0). split; [exact A|]. do 3 (split; [apply without_zero|]). split; [intros; ring|]. split; [intros; ring|]. split; [intros; ring|exact B].
    + rewrite HX in HF. apply in_flat_map in HF. destruct HF as (i & Hi & HF). apply in_range in Hi.
      assert (C : exists h1 h2 h3, H_without 0 n h1 /\ H_without 1 n h2 /\ H_without 2 n h3 /\ length F = 3%nat /\ forall k v, (k < 3)%nat -> field F (k, v) = v k * div_parts n h1 h2 h3 k v).
      { destruct HF as [<-|[<-|[<-|[]]]].
        - exists (meval [0; i; n - i]%nat), (fun _ => 0), (fun _ => 0). split; [apply h1_mono; lia|]. do 2 (split; [apply without_zero|]). split; [reflexivity|]. intros k v Hk. apply (tri_value n i); [lia|exact Hk|]. tauto.
        - exists (fun _ => 0), (meval [i; 0; n - i]%nat), (fun _ => 0). split; [apply without_zero|]. split; [apply h2_mono; lia|]. split; [apply without_zero|]. split; [reflexivity|]. intros k v Hk. apply (tri_value n i); [lia|exact Hk|]. tauto.
        - exists (fun _ => 0), (fun _ => 0), (meval [i; n - i; 0]%nat). do 2 (split; [apply without_zero|]). split; [apply h3_mono; lia|]. split; [reflexivity|]. intros k v Hk. apply (tri_value n i); [lia|exact Hk|]. tauto. }
      destruct C as (h1 & h2 & h3 & H1 & H2 & H3 & L & E). exists (fun _ _ => 0), h1, h2, h3. split; [intros; apply poly_space_zero|]. do 3 (split; [assumption|]).
      split; [intros v; rewrite (E 0%nat) by lia; unfold div_parts; cbn [tri_fn]; ring|]. split; [intros v; rewrite (E 1%nat) by lia; unfold div_parts; cbn [tri_fn]; ring|]. split; [intros v; rewrite (E 2%nat) by lia; unfold div_parts; cbn [tri_fn]; ring|].
      intros c v Hc. apply field_beyond. rewrite L. exact Hc.
  - apply (split_independent 3 n (fun c => c) ms); [lia|auto|exact HM|]. intros c.
    set (h1 := fun v => sum (n + 1) (fun i => c (3 * i)%nat * meval [0; i; n - i]%nat v)). set (h2 := fun v => sum (n + 1) (fun i => c (3 * i + 1)%nat * meval [i; 0; n - i]%nat v)). set (h3 := fun v => sum (n + 1) (fun i => c (3 * i + 2)%nat * meval [i; n - i; 0]%nat v)).
    assert (H1 : H_without 0 n h1) by (apply (without_sum 0 n (n + 1) (fun i => c (3 * i)%nat) (fun i => [0; i; n - i]%nat)); intros j Hj; apply h1_mono; lia).
    assert (H2 : H_without 1 n h2) by (apply (without_sum 1 n (n + 1) (fun i => c (3 * i + 1)%nat) (fun i => [i; 0; n - i]%nat)); intros j Hj; apply h2_mono; lia).
    assert (H3 : H_without 2 n h3) by (apply (without_sum 2 n (n + 1) (fun i => c (3 * i + 2)%nat) (fun i => [i; n - i; 0]%nat)); intros j Hj; apply h3_mono; lia).
    exists (div_parts n h1 h2 h3). split; [intros k Hk; apply tri_H; assumption|]. split.
    + intros k v Hk. rewrite HX.
      assert (EM : map field (flat_map (fun i => [div_a n i; div_b n i; div_c n i]) (range (n + 1))) = flat_map (fun i => [field (div_a n i); field (div_b n i); field (div_c n i)]) (seq 0 (n + 1))).
      { unfold range. generalize (seq 0 (n + 1)). induction l as [|i l IH]; [reflexivity|]. cbn [flat_map map app]. rewrite IH. reflexivity. }
      rewrite EM. etransitivity; [apply (combination_triples (fun i => field (div_a n i)) (fun i => field (div_b n i)) (fun i => field (div_c n i)) (k, v))|].
      rewrite (sum_ext _ _ (fun i => v k * div_parts n (fun v => c (3 * i)%nat * meval [0; i; n - i]%nat v) (fun v => c (3 * i + 1)%nat * meval [i; 0; n - i]%nat v) (fun v => c (3 * i + 2)%nat * meval [i; n - i; 0]%nat v) k v)).
      * rewrite sum_scal. f_equal. unfold div_parts, h1, h2, h3. destruct k as [|[|[|k]]]; [| | |lia]; cbn [tri_fn]; rewrite !sum_plus, !sum_scal; reflexivity.
      * intros i Hi. cbn [Nat.add]. rewrite (tri_value n i (meval [0; i; n - i]%nat) (fun _ => 0) (fun _ => 0) (div_a n i) k v), (tri_value n i (fun _ => 0) (meval [i; 0; n - i]%nat) (fun _ => 0) (div_b n i) k v), (tri_value n i (fun _ => 0) (fun _ => 0) (meval [i; n - i; 0]%nat) (div_c n i) k v) by (lia || tauto).
        unfold div_parts. destruct k as [|[|[|k]]]; [| | |lia]; cbn [tri_fn]; ring.
    + intros R i Hi. pose proof (div_rigid3 n h1 h2 h3 Hn H1 H2 H3 R) as Z. rewrite LX in Hi. set (j := (i / 3)%nat). assert (Hj : (j < n + 1)%nat) by (apply Nat.div_lt_upper_bound; lia). pose proof (Nat.div_mod i 3 ltac:(lia)) as D. pose proof (Nat.mod_upper_bound i 3 ltac:(lia)) as B. fold j in D.
      assert (C : (i = 3 * j \/ i = 3 * j + 1 \/ i = 3 * j + 2)%nat) by lia. destruct C as [Ei|[Ei|Ei]]; rewrite Ei.
      * apply (family_zero n (fun i => [0; i; n - i]%nat) (fun i => c (3 * i)%nat)); [reflexivity|intros a b E; congruence|intros v; apply (Z v)|exact Hj].
      * apply (family_zero n (fun i => [i; 0; n - i]%nat) (fun i => c (3 * i + 1)%nat)); [reflexivity|intros a b E; congruence|intros v; apply (Z v)|exact Hj].
      * apply (family_zero n (fun i => [i; n - i; 0]%nat) (fun i => c (3 * i + 2)%nat)); [reflexivity|intros a b E; congruence|intros v; apply (Z v)|exact Hj].
Qed.
