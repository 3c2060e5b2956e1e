(** Sums, counts and positions of the Bernstein polynomials. *)
From Coq Require Import String Arith ZArith Reals Lra Lia List.
From Verif Require Import Base PolyLib PolySetsModel PolySetsProofs LinAlg UnisolvenceProofs BernsteinModel BernsteinProofs.
Import ListNotations.
Open Scope R_scope.

Lemma tot_app l l' : tot (l ++ l') = tot l + tot l'.
Proof. induction l as [|x l IH]; simpl; [ring|]. rewrite IH. ring. Qed.
Lemma tot_range (f : nat -> R) n : tot (map f (range (n + 1))) = sum_f_R0 f n.
Proof.
  rewrite Nat.add_1_r. induction n as [|n IH]; [simpl; ring|]. rewrite range_S, map_app, tot_app, IH. simpl. ring.
Qed.
Lemma tot_flat_map {A} (f : A -> list R) l : tot (flat_map f l) = tot (map (fun a => tot (f a)) l).
Proof. induction l as [|a l IH]; simpl; [reflexivity|]. rewrite tot_app, IH. reflexivity. Qed.
Lemma flat_map_map {A B C} (f : B -> C) (g : A -> list B) l : map f (flat_map g l) = flat_map (fun a => map f (g a)) l.
Proof. induction l as [|a l IH]; simpl; [reflexivity|]. rewrite map_app, IH. reflexivity. Qed.

Lemma binom_fct n a b : sum_f_R0 (fun i => b ^ i / fct i * (a ^ (n - i) / fct (n - i))) n = (a + b) ^ n / fct n.
Proof.
  rewrite Rplus_comm, binomial. unfold Rdiv at 3. rewrite Rmult_comm, scal_sum. apply sum_eq. intros i Hi.
  unfold C. fold (fct n) (fct i) (fct (n - i)). pose proof (fct_pos n). pose proof (fct_pos i). pose proof (fct_pos (n - i)).
  field. repeat split; lra.
Qed.

Lemma bern_sum d n v : good_dim d -> tot (map (fun f : sfun => f v) (bern n d)) = 1.
Proof.
  intros G. destruct (powers_in d n G) as (ps & E & _ & I). rewrite (bern_powers n d ps E), map_map.
  assert (T : tot (map (fun p => bernstein n d p v) ps) = fct n * tot (map (fun p => pp (bary d v) p / fcts p) ps)).
  { assert (Ip : forall p, In p ps -> list_sum p = n) by (intros p H; apply I; exact H). clear E I.
    induction ps as [|p ps IH]; [simpl; ring|]. cbn [map tot]. rewrite IH by (intros; apply Ip; right; assumption).
    rewrite bernstein_pp, choose_fact by (try exact G; apply Ip; left; reflexivity). unfold Rdiv. ring. }
  rewrite T. clear T I.
  enough (Q : tot (map (fun p => pp (bary d v) p / fcts p) ps) = 1 / fct n).
  { rewrite Q. pose proof (fct_pos n). field. lra. }
  destruct G as [-> | [-> | ->]]; injection E as <-; unfold bary; cbn [lambdas].
  - rewrite map_map, tot_range.
    rewrite (sum_eq _ (fun i => v 0%nat ^ i / fct i * ((1 - v 0%nat) ^ (n - i) / fct (n - i)))).
    + rewrite binom_fct. replace (1 - v 0%nat + v 0%nat) with 1 by ring. rewrite pow1. reflexivity.
    + intros i Hi. unfold pp. cbn [combine fold_right fst snd fcts]. pose proof (fct_pos i). pose proof (fct_pos (n - i)). field. split; lra.
  - rewrite flat_map_map, tot_flat_map, tot_range.
    rewrite (sum_eq _ (fun i => v 1%nat ^ i / fct i * ((1 - v 1%nat) ^ (n - i) / fct (n - i)))).
    + rewrite binom_fct. replace (1 - v 1%nat + v 1%nat) with 1 by ring. rewrite pow1. reflexivity.
    + intros i Hi. rewrite map_map. replace (n + 1 - i)%nat with (n - i + 1)%nat by lia. rewrite tot_range.
      replace (1 - v 1%nat) with ((1 - v 0%nat - v 1%nat) + v 0%nat) by ring. rewrite <- binom_fct, scal_sum. apply sum_eq. intros j Hj.
      unfold pp. cbn [combine fold_right fst snd fcts]. pose proof (fct_pos i). pose proof (fct_pos j). pose proof (fct_pos (n - i - j)). field. repeat split; lra.
  - rewrite flat_map_map, tot_flat_map, tot_range.
    rewrite (sum_eq _ (fun i => v 2%nat ^ i / fct i * ((1 - v 2%nat) ^ (n - i) / fct (n - i)))).
    + rewrite binom_fct. replace (1 - v 2%nat + v 2%nat) with 1 by ring. rewrite pow1. reflexivity.
    + intros i Hi. rewrite flat_map_map, tot_flat_map. replace (n + 1 - i)%nat with (n - i + 1)%nat by lia. rewrite tot_range.
      replace (1 - v 2%nat) with ((1 - v 1%nat - v 2%nat) + v 1%nat) by ring. rewrite <- binom_fct, scal_sum. apply sum_eq. intros j Hj.
      rewrite map_map. replace (n - i + 1 - j)%nat with (n - i - j + 1)%nat by lia. rewrite tot_range.
      replace (1 - v 1%nat - v 2%nat) with ((1 - v 0%nat - v 1%nat - v 2%nat) + v 0%nat) by ring.
      rewrite <- binom_fct. match goal with |- _ = ?a * ?s * ?b => transitivity ((a * b) * s); [|ring] end. rewrite scal_sum. apply sum_eq. intros k Hk.
      unfold pp. cbn [combine fold_right fst snd fcts]. pose proof (fct_pos i). pose proof (fct_pos j). pose proof (fct_pos k). pose proof (fct_pos (n - i - j - k)). field. repeat split; lra.
Qed.

(** * Number *)
Lemma powers_length d n ps poly : good_dim d -> powers n d = Ok ps -> polynomial_set_1d d n = Ok poly -> length ps = length poly.
Proof.
  intros [-> | [-> | ->]] E E'; injection E as <-; injection E' as <-.
  - rewrite !map_length. reflexivity.
  - rewrite !length_flat_map_sum. f_equal. apply map_ext. intros i. rewrite !map_length. reflexivity.
  - rewrite !length_flat_map_sum. f_equal. apply map_ext. intros i. rewrite !length_flat_map_sum. f_equal. apply map_ext. intros j. rewrite !map_length. reflexivity.
Qed.
Lemma polyset_binomial d n poly : good_dim d -> polynomial_set_1d d n = Ok poly -> INR (length poly) = C (n + d) d.
Proof.
  intros G H0. pose proof (polynomial_set_1d_length _ _ _ H0) as H. unfold C. fold (fct (n + d)) (fct d) (fct (n + d - d)). replace (n + d - d)%nat with n by lia.
  pose proof (fct_pos n) as P.
  destruct G as [-> | [-> | ->]].
  - replace (length poly) with (n + 1)%nat by lia. replace (n + 1)%nat with (S n) by lia. rewrite fct_S. replace (fct 1) with 1 by (unfold fct; simpl; ring). field. lra.
  - assert (Q : 2 * INR (length poly) = INR (S n) * INR (S (S n))). { replace 2 with (INR 2) by (simpl; ring). rewrite <- !mult_INR. f_equal. lia. }
    replace (n + 2)%nat with (S (S n)) by lia. replace (fct 2) with 2 by (unfold fct; simpl; ring). rewrite !fct_S.
    apply (Rmult_eq_reg_l 2); [|lra]. rewrite Q. field. lra.
  - assert (Q : 6 * INR (length poly) = INR (S n) * INR (S (S n)) * INR (S (S (S n)))). { replace 6 with (INR 6) by (simpl; ring). rewrite <- !mult_INR. f_equal. lia. }
    replace (n + 3)%nat with (S (S (S n))) by lia. replace (fct 3) with 6 by (unfold fct; simpl; ring). rewrite !fct_S.
    apply (Rmult_eq_reg_l 6); [|lra]. rewrite Q. field. lra.
Qed.

(** * Positions *)
Lemma nth_error_flat_map {B} (f : nat -> list B) : forall m s i r, (i < m)%nat -> (r < length (f (s + i)%nat))%nat ->
  nth_error (flat_map f (seq s m)) (list_sum (map (fun k => length (f (s + k)%nat)) (range i)) + r) = nth_error (f (s + i)%nat) r.
Proof.
  induction m as [|m IH]; intros s i r Hi Hr; [lia|]. cbn [seq flat_map].
  destruct i as [|i].
  - rewrite Nat.add_0_r in *. cbn [range seq map list_sum fold_right]. rewrite nth_error_app1 by exact Hr. reflexivity.
  - change (range (S i)) with (0%nat :: seq 1 i). rewrite <- (seq_shift i 0). cbn [map list_sum fold_right]. rewrite Nat.add_0_r, map_map.
    change (fold_right Nat.add 0%nat) with list_sum. rewrite nth_error_app2 by lia.
    replace (length (f s) + list_sum (map (fun x => length (f (s + S x)%nat)) (seq 0 i)) + r - length (f s))%nat
      with (list_sum (map (fun k => length (f (S s + k)%nat)) (range i)) + r)%nat.
    + rewrite IH by (try lia; replace (S s + i)%nat with (s + S i)%nat by lia; exact Hr). f_equal. f_equal. lia.
    + unfold range. rewrite (map_ext (fun k => length (f (S s + k)%nat)) (fun x => length (f (s + S x)%nat))); [lia|]. intros a. f_equal. f_equal. lia.
Qed.
Lemma nth_error_range n i : (i < n)%nat -> nth_error (range n) i = Some i.
Proof. intros H. unfold range. rewrite (nth_error_nth' _ 0%nat) by (rewrite seq_length; exact H). rewrite seq_nth by exact H. reflexivity. Qed.

Open Scope Z_scope.
Lemma sum_lin n i : (i <= n + 1)%nat -> 2 * Z.of_nat (list_sum (map (fun k => (n + 1 - k)%nat) (range i))) = Z.of_nat i * (2 * Z.of_nat n + 3 - Z.of_nat i).
Proof.
  induction i as [|i IH]; intros H; [reflexivity|]. rewrite sum_range_S, Nat2Z.inj_add, Z.mul_add_distr_l, IH by lia. nia.
Qed.
Lemma index2_pos n x y : (x + y <= n)%nat -> Z.to_nat (index (Z.of_nat n) (Z.of_nat x) (Z.of_nat y) 0) = (list_sum (map (fun k => (n + 1 - k)%nat) (range y)) + x)%nat.
Proof.
  intros H. unfold index. replace (0 * _ / 6) with 0 by reflexivity. rewrite Z.sub_0_r, Z.add_0_l.
  rewrite <- sum_lin by lia. rewrite Z.mul_comm, Z.div_mul by lia. lia.
Qed.
Lemma sum_quad n i : (i <= n + 1)%nat ->
  6 * Z.of_nat (list_sum (map (fun k => list_sum (map (fun j => (n + 1 - k - j)%nat) (range (n + 1 - k)))) (range i)))
  = Z.of_nat i * (Z.of_nat i ^ 2 - 3 * Z.of_nat i * Z.of_nat n - 6 * Z.of_nat i + 3 * Z.of_nat n ^ 2 + 12 * Z.of_nat n + 11).
Proof.
  induction i as [|i IH]; intros H; [reflexivity|]. rewrite sum_range_S, Nat2Z.inj_add, Z.mul_add_distr_l, IH by lia.
  assert (E : (n + 1 - i = (n - i) + 1)%nat) by lia. rewrite E.
  pose proof (sum_lin (n - i) (n - i + 1) (le_n _)) as S.
  replace (6 * Z.of_nat (list_sum (map (fun k => (n - i + 1 - k)%nat) (range (n - i + 1))))) with
    (3 * (2 * Z.of_nat (list_sum (map (fun k => (n - i + 1 - k)%nat) (range (n - i + 1)))))) by ring.
  rewrite S. rewrite !Nat2Z.inj_add, Nat2Z.inj_succ, Nat2Z.inj_sub by lia. nia.
Qed.
Lemma index3_pos n x y z : (x + y + z <= n)%nat ->
  Z.to_nat (index (Z.of_nat n) (Z.of_nat x) (Z.of_nat y) (Z.of_nat z)) =
  (list_sum (map (fun k => list_sum (map (fun j => (n + 1 - k - j)%nat) (range (n + 1 - k)))) (range z))
   + (list_sum (map (fun k => (n + 1 - z - k)%nat) (range y)) + x))%nat.
Proof.
  intros H. unfold index. rewrite <- sum_quad by lia. rewrite (Z.mul_comm 6), Z.div_mul by lia.
  replace (Z.of_nat n - Z.of_nat z) with (Z.of_nat (n - z)) by lia. rewrite <- sum_lin by lia. rewrite (Z.mul_comm 2), Z.div_mul by lia.
  replace (n + 1 - z)%nat with (n - z + 1)%nat by lia. rewrite <- !Nat2Z.inj_add, Nat2Z.id. lia.
Qed.
Open Scope R_scope.

Lemma position1 n x ps : (x <= n)%nat -> powers n 1 = Ok ps -> nth_error ps x = Some [(n - x)%nat; x].
Proof. intros H E. injection E as <-. rewrite nth_error_map, nth_error_range by lia. reflexivity. Qed.
Lemma position2 n x y ps : (x + y <= n)%nat -> powers n 2 = Ok ps ->
  nth_error ps (Z.to_nat (index (Z.of_nat n) (Z.of_nat x) (Z.of_nat y) 0)) = Some [(n - x - y)%nat; x; y].
Proof.
  intros H E. injection E as <-. rewrite index2_pos by exact H. unfold range at 3.
  pose proof (nth_error_flat_map (fun i => map (fun j => [(n - i - j)%nat; j; i]) (range (n + 1 - i))) (n + 1) 0 y x) as P.
  rewrite (map_ext _ (fun k => length ((fun i => map (fun j => [(n - i - j)%nat; j; i]) (range (n + 1 - i))) (0 + k)%nat))).
  - unfold range in *. rewrite P; [|lia|rewrite map_length, seq_length; lia]. rewrite nth_error_map. fold (range (n + 1 - y)).
    rewrite nth_error_range by (simpl; lia). simpl. f_equal. f_equal. lia.
  - intros k. rewrite map_length, length_range. reflexivity.
Qed.
Lemma position3 n x y z ps : (x + y + z <= n)%nat -> powers n 3 = Ok ps ->
  nth_error ps (Z.to_nat (index (Z.of_nat n) (Z.of_nat x) (Z.of_nat y) (Z.of_nat z))) = Some [(n - x - y - z)%nat; x; y; z].
Proof.
  intros H E. injection E as <-. rewrite index3_pos by exact H.
  set (g := fun i => flat_map (fun j => map (fun k => [(n - i - j - k)%nat; k; j; i]) (range (n + 1 - i - j))) (range (n + 1 - i))).
  pose proof (nth_error_flat_map g (n + 1) 0 z) as P.
  rewrite (map_ext _ (fun k => length (g (0 + k)%nat))).
  - change (range (n + 1)) with (seq 0 (n + 1)). rewrite P; [|lia|].
    + cbn [Nat.add]. unfold g.
      pose proof (nth_error_flat_map (fun j => map (fun k => [(n - z - j - k)%nat; k; j; z]) (range (n + 1 - z - j))) (n + 1 - z) 0 y x) as Q.
      rewrite (map_ext _ (fun k => length ((fun j => map (fun k => [(n - z - j - k)%nat; k; j; z]) (range (n + 1 - z - j))) (0 + k)%nat))).
      * change (range (n + 1 - z)) with (seq 0 (n + 1 - z)). rewrite Q; [|lia|rewrite map_length, length_range; lia].
        cbn [Nat.add]. rewrite nth_error_map, nth_error_range by lia. simpl. f_equal. f_equal. lia.
      * intros k. rewrite map_length, length_range. reflexivity.
    + cbn [Nat.add]. unfold g. rewrite length_flat_map_sum.
      rewrite (map_ext (fun a => length (map (fun k => [(n - z - a - k)%nat; k; a; z]) (range (n + 1 - z - a)))) (fun k => (n + 1 - z - k)%nat)) by (intros k; rewrite map_length, length_range; reflexivity).
      assert (Y : (y < n + 1 - z)%nat) by lia.
      assert (L : forall f m k, (k < m)%nat -> (list_sum (map f (range k)) + f k <= list_sum (map f (range m)))%nat).
      { clear. intros f m k Hk. induction m as [|m IH]; [lia|]. rewrite sum_range_S. destruct (Nat.eq_dec k m) as [->|N]; [lia|]. specialize (IH ltac:(lia)). lia. }
      specialize (L (fun k => (n + 1 - z - k)%nat) (n + 1 - z)%nat y Y). cbv beta in L. lia.
  - intros k. unfold g. rewrite length_flat_map_sum. cbn [Nat.add]. f_equal. apply map_ext. intros j. rewrite map_length, length_range. reflexivity.
Qed.
