(** Which polynomials the functions of the direct serendipity element reproduce. *)
From Coquelicot Require Import Coquelicot.
From Coq Require Import String Arith Bool ZArith Reals Lia Lra List.
From Verif Require Import Base PolyLib PolySetsModel PolySetsProofs PolyVec ReferencesModel ReferencesSpec LinAlg UnisolvenceProofs LagrangeKey LagrangeUnisolvence
  MomentsInt PointsModel PointsSpec PropertiesPoints DirectModel DirectSpec DirectProofs.
Import PolyVec ListNotations.
Local Open Scope R_scope.

Definition spanned (fs : list (point -> R)) (f : point -> R) : Prop := exists a, forall v, f v = comb fs a v.
Lemma spanned_ext fs f g : (forall v, f v = g v) -> spanned fs f -> spanned fs g.
Proof. intros E [a H]. exists a. intros v. rewrite <- E. apply H. Qed.
Lemma spanned_add fs f g : spanned fs f -> spanned fs g -> spanned fs (fun v => f v + g v).
Proof. intros [a Ha] [b Hb]. exists (fun i => a i + b i). intros v. rewrite Ha, Hb. unfold comb. rewrite <- sum_plus. apply sum_ext. intros i _. ring. Qed.
Lemma spanned_scale fs c f : spanned fs f -> spanned fs (fun v => c * f v).
Proof. intros [a Ha]. exists (fun i => c * a i). intros v. rewrite Ha. unfold comb. rewrite <- sum_scal. apply sum_ext. intros i _. ring. Qed.
Lemma spanned_zero fs : spanned fs (fun _ => 0).
Proof. exists (fun _ => 0). intros v. symmetry. apply sum_zero. intros i _. ring. Qed.
Lemma spanned_in fs f : In f fs -> spanned fs f.
Proof.
  intros H. apply In_nth with (d := fun _ => 0) in H. destruct H as (i & Hi & E). exists (fun j => if (j =? i)%nat then 1 else 0). intros v. unfold comb. rewrite (sum_single _ _ i Hi).
  - rewrite Nat.eqb_refl, E. ring.
  - intros j Hj Hne. rewrite (proj2 (Nat.eqb_neq j i) Hne). ring.
Qed.
Lemma spanned_sub fs f g : spanned fs f -> spanned fs g -> spanned fs (fun v => f v - g v).
Proof. intros F G. apply (spanned_ext _ (fun v => f v + -1 * g v)); [intros; ring|]. apply (spanned_add _ f (fun v => -1 * g v) F), (spanned_scale _ _ g G). Qed.

(** powers of the variable from powers of lambda *)
Lemma shifted_powers fs (g : point -> R) k M : (forall j, (j <= M)%nat -> spanned fs (fun v => g v * ds_lambda (v k) ^ j)) -> forall m j, (m + j <= M)%nat -> spanned fs (fun v => g v * v k ^ m * ds_lambda (v k) ^ j).
Proof.
  intros H. induction m as [|m IH]; intros j Hj.
  - apply (spanned_ext _ (fun v => g v * ds_lambda (v k) ^ j)); [intros v; cbn [pow]; ring|]. apply H. lia.
  - apply (spanned_ext _ (fun v => g v * v k ^ m * ds_lambda (v k) ^ S j - 2 * (g v * v k ^ m * ds_lambda (v k) ^ j))).
    + intros v. cbn [pow]. unfold ds_lambda at 1. ring.
    + apply (spanned_sub _ (fun v => g v * v k ^ m * ds_lambda (v k) ^ S j)); [apply IH; lia|]. apply (spanned_scale _ 2 (fun v => g v * v k ^ m * ds_lambda (v k) ^ j)), IH. lia.
Qed.
Lemma edge_powers n k l fs : (2 <= n)%nat -> incl (edge_fns n k l) fs -> (forall m, (m + 2 <= n)%nat -> spanned fs (fun v => (1 - v k) * v k * v k ^ m)) /\ (forall m, (m + 3 <= n)%nat -> spanned fs (fun v => (1 - v k) * v k * v k ^ m * v l)).
Proof.
  intros Hn I.
  assert (P : forall m, (m + 2 <= n)%nat -> spanned fs (fun v => (1 - v k) * v k * v k ^ m)).
  { intros m Hm. apply (spanned_ext _ (fun v => (1 - v k) * v k * v k ^ m * ds_lambda (v k) ^ 0)); [intros v; cbn [pow]; ring|].
    apply (shifted_powers fs (fun v => (1 - v k) * v k) k (n - 2)); [|lia]. intros j Hj. apply spanned_in, I. apply in_or_app. left. apply in_map_iff. exists j. split; [reflexivity|]. apply in_range. lia. }
  split; [exact P|]. intros m Hm.
  apply (spanned_ext _ (fun v => 2 * ((1 - v k) * v k * v k ^ m) - (1 - v k) * v k * ds_mixed (v l) * v k ^ m * ds_lambda (v k) ^ 0)); [intros v; cbn [pow]; unfold ds_mixed; ring|].
  apply (spanned_sub _ (fun v => 2 * ((1 - v k) * v k * v k ^ m))); [apply (spanned_scale _ 2 (fun v => (1 - v k) * v k * v k ^ m)), P; lia|].
  apply (shifted_powers fs (fun v => (1 - v k) * v k * ds_mixed (v l)) k (n - 3)); [|lia]. intros j Hj. apply spanned_in, I. apply in_or_app. right. apply in_or_app. left. apply in_map_iff. exists j. split; [reflexivity|]. apply in_range. lia.
Qed.
Lemma two_monomial a b v : meval [a; b] v = v 0%nat ^ a * v 1%nat ^ b.
Proof. unfold meval. cbn [meval_from]. ring. Qed.
Lemma spans_polynomials n fs : (1 <= n <= 8)%nat -> incl corner_fns fs -> incl (edges_if n) fs ->
  ((4 <= n)%nat -> forall q, P_space 2 4 q -> spanned fs (fun v => v 0%nat * v 1%nat * (1 - v 0%nat) * (1 - v 1%nat) * q v)) ->
  forall f, P_space 2 n f -> spanned fs f.
Proof.
  intros Hn IC IE II.
  assert (C : forall i j, (i <= 1)%nat -> (j <= 1)%nat -> spanned fs (fun v => v 0%nat ^ i * v 1%nat ^ j)).
  { assert (K : forall f, In f corner_fns -> spanned fs f) by (intros f Hf; apply spanned_in, IC, Hf). unfold corner_fns in K. cbn in K.
    pose proof (K _ (or_introl eq_refl)) as K0. pose proof (K _ (or_intror (or_introl eq_refl))) as K1. pose proof (K _ (or_intror (or_intror (or_introl eq_refl)))) as K2. pose proof (K _ (or_intror (or_intror (or_intror (or_introl eq_refl))))) as K3.
    intros [|[|i]] [|[|j]] Hi Hj; try lia.
    - apply (spanned_ext _ (fun v => ((1 - v 1%nat) * (1 - v 0%nat) + (1 - v 1%nat) * v 0%nat) + (v 1%nat * (1 - v 0%nat) + v 1%nat * v 0%nat))); [intros v; cbn [pow]; ring|].
      apply (spanned_add _ (fun v => (1 - v 1%nat) * (1 - v 0%nat) + (1 - v 1%nat) * v 0%nat) (fun v => v 1%nat * (1 - v 0%nat) + v 1%nat * v 0%nat)); [apply (spanned_add _ _ _ K0 K1)|apply (spanned_add _ _ _ K2 K3)].
    - apply (spanned_ext _ (fun v => v 1%nat * (1 - v 0%nat) + v 1%nat * v 0%nat)); [intros v; cbn [pow]; ring|apply (spanned_add _ _ _ K2 K3)].
    - apply (spanned_ext _ (fun v => (1 - v 1%nat) * v 0%nat + v 1%nat * v 0%nat)); [intros v; cbn [pow]; ring|apply (spanned_add _ _ _ K1 K3)].
    - apply (spanned_ext _ (fun v => v 1%nat * v 0%nat)); [intros v; cbn [pow]; ring|exact K3]. }
  assert (E : (2 <= n)%nat -> incl (edge_fns n 1 0) fs /\ incl (edge_fns n 0 1) fs).
  { intros G. unfold edges_if in IE. rewrite (proj2 (Nat.leb_le 2 n) G) in IE. split; intros f Hf; apply IE, in_or_app; tauto. }
  assert (X : forall i j, (i + 2 + j <= n)%nat -> spanned fs (fun v => (1 - v 0%nat) * v 0%nat * v 0%nat ^ i * v 1%nat ^ j)).
  { intros i j Hij. destruct (edge_powers n 0 1 fs ltac:(lia) (proj2 (E ltac:(lia)))) as [P0 P1]. revert i Hij. induction j as [|j IH]; intros i Hij.
    - apply (spanned_ext _ (fun v => (1 - v 0%nat) * v 0%nat * v 0%nat ^ i)); [intros v; cbn [pow]; ring|]. apply P0. lia.
    - destruct j as [|j].
      + apply (spanned_ext _ (fun v => (1 - v 0%nat) * v 0%nat * v 0%nat ^ i * v 1%nat)); [intros v; cbn [pow]; ring|]. apply P1. lia.
      + apply (spanned_ext _ (fun v => (1 - v 0%nat) * v 0%nat * v 0%nat ^ i * v 1%nat ^ S j - v 0%nat * v 1%nat * (1 - v 0%nat) * (1 - v 1%nat) * meval [i; j] v)); [intros v; rewrite two_monomial; cbn [pow]; ring|].
        apply (spanned_sub _ (fun v => (1 - v 0%nat) * v 0%nat * v 0%nat ^ i * v 1%nat ^ S j)); [apply IH; lia|]. apply II; [lia|]. apply poly_space_mono. split; [reflexivity|]. cbn [mdeg]. lia. }
  assert (Y : forall i j, (i <= 1)%nat -> (j + 2 + i <= n)%nat -> spanned fs (fun v => (1 - v 1%nat) * v 1%nat * v 1%nat ^ j * v 0%nat ^ i)).
  { intros i j Hi Hij. destruct (edge_powers n 1 0 fs ltac:(lia) (proj1 (E ltac:(lia)))) as [P0 P1]. destruct i as [|[|i]]; [| |lia].
    - apply (spanned_ext _ (fun v => (1 - v 1%nat) * v 1%nat * v 1%nat ^ j)); [intros v; cbn [pow]; ring|]. apply P0. lia.
    - apply (spanned_ext _ (fun v => (1 - v 1%nat) * v 1%nat * v 1%nat ^ j * v 0%nat)); [intros v; cbn [pow]; ring|]. apply P1. lia. }
  assert (M1 : forall j i, (i <= 1)%nat -> (i + j <= n)%nat -> spanned fs (fun v => v 0%nat ^ i * v 1%nat ^ j)).
  { induction j as [|j IH]; intros i Hi Hij; [apply C; lia|]. destruct j as [|j]; [apply C; lia|].
    apply (spanned_ext _ (fun v => v 0%nat ^ i * v 1%nat ^ S j - (1 - v 1%nat) * v 1%nat * v 1%nat ^ j * v 0%nat ^ i)); [intros v; cbn [pow]; ring|].
    apply (spanned_sub _ (fun v => v 0%nat ^ i * v 1%nat ^ S j)); [apply IH; lia|apply Y; lia]. }
  assert (M : forall i j, (i + j <= n)%nat -> spanned fs (fun v => v 0%nat ^ i * v 1%nat ^ j)).
  { induction i as [|i IH]; intros j Hij; [apply M1; lia|]. destruct i as [|i]; [apply M1; lia|].
    apply (spanned_ext _ (fun v => v 0%nat ^ S i * v 1%nat ^ j - (1 - v 0%nat) * v 0%nat * v 0%nat ^ i * v 1%nat ^ j)); [intros v; cbn [pow]; ring|].
    apply (spanned_sub _ (fun v => v 0%nat ^ S i * v 1%nat ^ j)); [apply IH; lia|apply X; lia]. }
  intros f (p & Hp & Ef). apply (spanned_ext _ (reval p)); [intros v; symmetry; apply Ef|]. clear Ef. induction p as [|[c m] p IH]; [apply spanned_zero|].
  inversion Hp as [|t q [Hl Hm] Hr]; subst. cbn [snd] in Hl, Hm. destruct m as [|i [|j [|]]]; try discriminate Hl. cbn [mdeg] in Hm.
  apply (spanned_ext _ (fun v => c * (v 0%nat ^ i * v 1%nat ^ j) + reval p v)); [intros v; cbn [reval fold_right fst snd]; rewrite two_monomial; reflexivity|].
  apply (spanned_add _ (fun v => c * (v 0%nat ^ i * v 1%nat ^ j)) (reval p)); [apply (spanned_scale _ c (fun v => v 0%nat ^ i * v 1%nat ^ j)), M; lia|apply IH, Hr].
Qed.
Lemma direct_reproduces n e f : (1 <= n <= 8)%nat -> make_direct_serendipity (default CQuadrilateral) n = Ok e -> P_space 2 n f -> reproduces e f.
Proof.
  intros Hn He Hf. destruct (direct_made n) as (e' & phi & E & M & _ & L & W & S & _). rewrite He in E. injection E as ->.
  assert (G : spanned (map fst e') f).
  { apply (spans_polynomials n _ Hn); [| | |exact Hf]; rewrite M.
    - intros g Hg. apply in_or_app. tauto.
    - intros g Hg. apply in_or_app. right. apply in_or_app. tauto.
    - intros G q Hq. destruct (S q Hq) as [a Ha].
      assert (Q : spanned (inner_fns phi) (fun v => v 0%nat * v 1%nat * (1 - v 0%nat) * (1 - v 1%nat) * q v)) by (exists a; intros v; rewrite (inner_comb phi a v L), <- Ha; reflexivity).
      rewrite (proj2 (Nat.leb_le 4 n) G). destruct Q as [b Hb]. set (k := (length (corner_fns ++ edges_if n))%nat). rewrite app_assoc.
      exists (fun i => if (i <? k)%nat then 0 else b (i - k)%nat). intros v. rewrite (Hb v), comb_app. fold k.
      match goal with |- _ = ?x + _ => assert (Z : x = 0); [unfold comb; apply sum_zero|rewrite Z, Rplus_0_l; clear Z] end.
      + intros i Hi. fold k in Hi. rewrite (proj2 (Nat.ltb_lt i k)) by exact Hi. ring.
      + unfold comb. apply sum_ext. intros i Hi. rewrite (proj2 (Nat.ltb_ge (k + i) k)) by lia. replace (k + i - k)%nat with i by lia. reflexivity. }
  destruct G as [a Ha]. exists a. intros v _. rewrite direct_comb. apply Ha.
Qed.

(** * Orders from 9 *)
Definition diff8 (g : R -> R) : R := g 0 - 8 * g (1/8) + 28 * g (2/8) - 56 * g (3/8) + 70 * g (4/8) - 56 * g (5/8) + 28 * g (6/8) - 8 * g (7/8) + g 1.
Definition diff3 (g : R -> R) : R := g 0 - 3 * g (1/3) + 3 * g (2/3) - g 1.
Definition at2 (x y : R) : point := fun i => match i with O => x | _ => y end.
Definition probe (f : point -> R) : R := diff8 (fun x => (1 + x) * diff3 (fun y => (1 + y) * f (at2 x y))).
Lemma probe_ext f g : (forall v, in_square v -> f v = g v) -> probe f = probe g.
Proof.
  intros H. assert (Q : forall x y, 0 <= x <= 1 -> 0 <= y <= 1 -> f (at2 x y) = g (at2 x y)) by (intros x y Hx Hy; apply H; split; assumption).
  unfold probe, diff8, diff3. repeat rewrite Q by lra. reflexivity.
Qed.
Lemma probe_sum m (a : nat -> R) (fs : nat -> point -> R) : probe (fun v => sum m (fun i => a i * fs i v)) = sum m (fun i => a i * probe (fs i)).
Proof.
  induction m as [|m IH]; cbn [sum]; [unfold probe, diff8, diff3; ring|]. rewrite <- IH. unfold probe, diff8, diff3. ring.
Qed.
Lemma probe_product g h : probe (fun v => g (v 0%nat) * h (v 1%nat)) = diff8 (fun x => (1 + x) * g x) * diff3 (fun y => (1 + y) * h y).
Proof. unfold probe, diff8, diff3. cbn [at2]. ring. Qed.
Lemma ds_r_times t : 0 <= t <= 1 -> (1 + t) * ds_r t = -4 * t.
Proof. intros H. unfold ds_r. field. lra. Qed.
Lemma probe_edges n k l f : (k = 0%nat /\ l = 1%nat) \/ (k = 1%nat /\ l = 0%nat) -> In f (edge_fns n k l) -> probe f = 0.
Proof.
  intros Hkl Hf. assert (G : exists g h, (forall v, f v = g (v l) * h (v k)) /\ (g = (fun _ => 1) \/ g = ds_mixed \/ g = ds_r)).
  { apply in_app_or in Hf. destruct Hf as [Hf|Hf]; [|apply in_app_or in Hf; destruct Hf as [Hf|[<-|[]]]].
    - apply in_map_iff in Hf. destruct Hf as (j & <- & _). exists (fun _ => 1), (fun t => (1 - t) * t * ds_lambda t ^ j). split; [intros v; ring|tauto].
    - apply in_map_iff in Hf. destruct Hf as (j & <- & _). exists ds_mixed, (fun t => (1 - t) * t * ds_lambda t ^ j). split; [intros v; ring|tauto].
    - exists ds_r, (fun t => (1 - t) * t * ds_lambda t ^ (n - 2)). split; [intros v; ring|tauto]. }
  destruct G as (g & h & E & Hg).
  assert (Z : diff8 (fun x => (1 + x) * g x) = 0 /\ diff3 (fun x => (1 + x) * g x) = 0).
  { destruct Hg as [->|[->| ->]]; unfold diff8, diff3; [|unfold ds_mixed|repeat rewrite ds_r_times by lra]; split; lra. }
  destruct Z as [Z8 Z3]. destruct Hkl as [[-> ->]|[-> ->]].
  - rewrite (probe_ext f (fun v => h (v 0%nat) * g (v 1%nat))) by (intros v _; rewrite E; ring). rewrite probe_product, Z3. ring.
  - rewrite (probe_ext f (fun v => g (v 0%nat) * h (v 1%nat))) by (intros v _; rewrite E; ring). rewrite probe_product, Z8. ring.
Qed.
Lemma probe_corner f : In f corner_fns -> probe f = 0.
Proof. intros H. cbn in H. destruct H as [<-|[<-|[<-|[<-|[]]]]]; unfold probe, diff8, diff3; cbn [at2]; lra. Qed.
Lemma diff8_low a : (a <= 6)%nat -> diff8 (fun x => (1 + x) * x ^ a) = 0.
Proof. intros H. do 7 (destruct a as [|a]; [unfold diff8; cbn [pow]; lra|]). lia. Qed.
Lemma diff8_seven : diff8 (fun x => (1 + x) * x ^ 7) <> 0.
Proof. unfold diff8. cbn [pow]. lra. Qed.
Lemma diff3_two : diff3 (fun x => (1 + x) * x ^ 2) <> 0.
Proof. unfold diff3. cbn [pow]. lra. Qed.
Lemma probe_low f : poly_space (fun m => length m = 2%nat /\ (nth 0 m 0 <= 6)%nat) f -> probe f = 0.
Proof.
  intros (p & Hp & E). rewrite (probe_ext f (reval p)) by (intros v _; apply E). clear E f. induction p as [|[c m] p IH]; [unfold probe, diff8, diff3; cbn; ring|].
  inversion Hp as [|t q [Hl Hm] Hr]; subst. cbn [snd] in Hl, Hm. destruct m as [|i [|j [|]]]; try discriminate Hl. cbn [nth] in Hm.
  rewrite (probe_ext _ (fun v => c * (v 0%nat ^ i * v 1%nat ^ j) + reval p v)) by (intros v _; cbn [reval fold_right fst snd]; rewrite two_monomial; reflexivity).
  transitivity (c * probe (fun v => v 0%nat ^ i * v 1%nat ^ j) + probe (reval p)); [unfold probe, diff8, diff3; ring|].
  rewrite (IH Hr), (probe_product (fun x => x ^ i) (fun y => y ^ j)), (diff8_low i Hm). ring.
Qed.
Lemma direct_misses n e : make_direct_serendipity (default CQuadrilateral) n = Ok e -> ~ reproduces e (fun v => v 0%nat ^ 7 * v 1%nat ^ 2).
Proof.
  intros He (a & Ha). destruct (direct_made n) as (e' & phi & E & M & _ & L & W & _). rewrite He in E. injection E as ->.
  pose proof (probe_ext _ _ Ha) as P. rewrite (probe_product (fun x => x ^ 7) (fun y => y ^ 2)) in P.
  rewrite (probe_ext _ (fun v => sum (length (map fst e')) (fun i => a i * nth i (map fst e') (fun _ => 0) v))) in P by (intros v _; apply direct_comb). rewrite probe_sum, sum_zero in P.
  - apply Rmult_integral in P. destruct P as [P|P]; [exact (diff8_seven P)|exact (diff3_two P)].
  - intros i Hi. assert (Z : probe (nth i (map fst e') (fun _ => 0)) = 0); [|change (a i * probe (nth i (map fst e') (fun _ => 0)) = 0); rewrite Z; ring]. assert (I : In (nth i (map fst e') (fun _ => 0)) (map fst e')) by (apply nth_In, Hi). revert I. generalize (nth i (map fst e') (fun _ => 0)). intros f Hf.
    rewrite M in Hf. apply in_app_or in Hf. destruct Hf as [Hf|Hf]; [apply probe_corner, Hf|]. apply in_app_or in Hf. destruct Hf as [Hf|Hf].
    + unfold edges_if in Hf. destruct (2 <=? n)%nat; [|destruct Hf]. apply in_app_or in Hf. destruct Hf as [Hf|Hf]; [apply (probe_edges n 1 0 f); [tauto|exact Hf]|apply (probe_edges n 0 1 f); [tauto|exact Hf]].
    + destruct (4 <=? n)%nat; [|destruct Hf]. apply in_map_iff in Hf. destruct Hf as (g & <- & Hg). apply probe_low.
      destruct (W g Hg) as (p & Hp & Ep).
      apply (poly_space_ext _ (fun v => v 0%nat * v 1%nat * (1 - v 0%nat) * (1 - v 1%nat) * reval p v)); [intros v; assert (K : forall r, r = reval p v -> v 0%nat * v 1%nat * (1 - v 0%nat) * (1 - v 1%nat) * reval p v = r * v 0%nat * v 1%nat * (1 - v 0%nat) * (1 - v 1%nat)) by (intros r ->; ring); exact (K _ (Ep v))|]. clear Ep Hg g. induction p as [|[c m] p IH].
      * apply (poly_space_ext _ (fun _ => 0)); [intros v; cbn; ring|apply poly_space_zero].
      * inversion Hp as [|t q [Hl Hm] Hr]; subst. cbn [snd] in Hl, Hm. destruct m as [|x [|y [|]]]; try discriminate Hl. cbn [mdeg] in Hm.
        apply (poly_space_ext _ (fun v => c * (meval [S x; S y] v + -1 * meval [S (S x); S y] v + (-1 * meval [S x; S (S y)] v + meval [S (S x); S (S y)] v)) + v 0%nat * v 1%nat * (1 - v 0%nat) * (1 - v 1%nat) * reval p v)).
        { intros v. cbn [reval fold_right fst snd]. fold (reval p v). rewrite !two_monomial. cbn [pow]. ring. }
        apply (poly_space_add _ (fun v => c * (meval [S x; S y] v + -1 * meval [S (S x); S y] v + (-1 * meval [S x; S (S y)] v + meval [S (S x); S (S y)] v))) (fun v => v 0%nat * v 1%nat * (1 - v 0%nat) * (1 - v 1%nat) * reval p v)); [|apply IH, Hr].
        apply (poly_space_scale _ c (fun v => meval [S x; S y] v + -1 * meval [S (S x); S y] v + (-1 * meval [S x; S (S y)] v + meval [S (S x); S (S y)] v))).
        apply (poly_space_add _ (fun v => meval [S x; S y] v + -1 * meval [S (S x); S y] v) (fun v => -1 * meval [S x; S (S y)] v + meval [S (S x); S (S y)] v)).
        { apply (poly_space_add _ (meval [S x; S y]) (fun v => -1 * meval [S (S x); S y] v)); [|apply poly_space_scale]; apply poly_space_mono; split; try reflexivity; cbn [nth]; lia. }
        apply (poly_space_add _ (fun v => -1 * meval [S x; S (S y)] v) (meval [S (S x); S (S y)])); [apply poly_space_scale|]; apply poly_space_mono; split; try reflexivity; cbn [nth]; lia.
Qed.
