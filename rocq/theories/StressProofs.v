(** The functions of the Arnold-Winther element. *)
From Coquelicot Require Import Coquelicot.
From Coq Require Import String Arith Bool ZArith Reals Lia Lra List FunctionalExtensionality.
From Verif Require Import Base PolyLib PolySetsModel PolySetsProofs PolyVec ReferencesModel ReferencesSpec LinAlg CiarletModel CiarletProofs UnisolvenceProofs LagrangeUnisolvence
  PointsModel PointsSpec PointsProofs SerendipityFieldSpaces SerendipityCurlKernel SerendipityCurlSpaces StressSpec.
From Verif Require FamiliesModel.
Import PolyVec ListNotations.
Local Open Scope R_scope.

(** * Polynomials *)
Lemma mono_span ms ok (g : sfun) : lists_basis ms ok -> poly_space ok g -> exists a : nat -> R, forall v, g v = sum (length ms) (fun j => a j * meval (nth j ms []) v).
Proof.
  intros (_ & _ & (_ & _ & G)) Hg. destruct (G g Hg) as (cs & L & E). exists (fun j => nth j cs 0). intros v. rewrite E. rewrite map_length in L. clear E G Hg. revert cs L. induction ms as [|m ms IH]; intros [|c cs] L; try discriminate L; [reflexivity|].
  cbn [map lincomb length]. rewrite sum_S. cbn [nth]. f_equal. apply IH, Nat.succ_inj, L.
Qed.
Lemma degree_sized d n p : Forall (fun t : R * mono => length (snd t) = d /\ (mdeg (snd t) <= n)%nat) p -> sized d p.
Proof. intros H. eapply Forall_impl; [|exact H]. intros t Ht. apply Ht. Qed.
Lemma dec_deg i m : (1 <= nth i m 0)%nat -> mdeg (dec_at i m) = (mdeg m - 1)%nat /\ (1 <= mdeg m)%nat.
Proof. revert i. induction m as [|a m IH]; intros [|i] H; cbn [dec_at mdeg nth] in *; try lia. destruct (IH i H). lia. Qed.
Lemma rdiff_degree d n i p : Forall (fun t : R * mono => length (snd t) = d /\ (mdeg (snd t) <= n)%nat) p -> Forall (fun t : R * mono => length (snd t) = d /\ (mdeg (snd t) <= n - 1)%nat) (rdiff i p).
Proof.
  intros H. apply (Forall_rdiff (fun m => length m = d /\ (mdeg m <= n)%nat) (fun m => length m = d /\ (mdeg m <= n - 1)%nat) i p H). intros m [L D] H1. rewrite dec_length. destruct (dec_deg i m H1). lia.
Qed.
Lemma div_low n (f g : sfun) : (1 <= n)%nat -> degree_space 2 n f -> degree_space 2 n g -> divergence_in (n - 1) f g.
Proof.
  intros Hn (A & HA & EA) (B & HB & EB). exists (fun v => reval (rdiff 0 A) v + reval (rdiff 1 B) v). split.
  - apply (poly_space_add _ (reval (rdiff 0 A)) (reval (rdiff 1 B))); [exists (rdiff 0 A)|exists (rdiff 1 B)]; (split; [apply (rdiff_degree 2); assumption|reflexivity]).
  - intros v. exists (reval (rdiff 0 A) v), (reval (rdiff 1 B) v). assert (F : f = reval A) by (apply functional_extensionality, EA). assert (G : g = reval B) by (apply functional_extensionality, EB). rewrite F, G. split; [apply reval_partial|]. split; [apply reval_partial|reflexivity].
Qed.
Lemma mono_partial i c m v : is_partial i (fun v => c * meval m v) v (c * INR (nth i m 0%nat) * meval (dec_at i m) v).
Proof.
  assert (E : (fun v => c * meval m v) = reval [(c, m)]) by (apply functional_extensionality; intros w; rewrite reval_cons; cbn; ring). rewrite E.
  assert (H := reval_partial i [(c, m)] v). replace (c * INR (nth i m 0%nat) * meval (dec_at i m) v) with (reval (rdiff i [(c, m)]) v); [exact H|].
  unfold rdiff. cbn [filter snd]. destruct (Nat.leb_spec 1 (nth i m 0%nat)); [cbn [map fst snd]; rewrite reval_cons; cbn; ring|]. replace (nth i m 0%nat) with 0%nat by lia. cbn. ring.
Qed.
(** the coefficients of degree n of a pair with divergence of degree n - 2 *)
Lemma div_top n (f g : sfun) A B : (2 <= n)%nat -> sized 2 A -> sized 2 B -> (forall v, f v = reval A v) -> (forall v, g v = reval B v) -> divergence_in (n - 2) f g ->
  forall j, (j < n)%nat -> INR (j + 1) * coef A [S j; n - 1 - j]%nat + INR (n - j) * coef B [j; n - j]%nat = 0.
Proof.
  intros Hn SA SB EA EB (h & (H & HH & EH) & D) j Hj. assert (F : f = reval A) by (apply functional_extensionality, EA). assert (G : g = reval B) by (apply functional_extensionality, EB). subst f g.
  assert (SD : forall i p, sized 2 p -> sized 2 (rdiff i p)) by (intros i p Hp; apply (Forall_rdiff (fun m => length m = 2%nat) (fun m => length m = 2%nat) i p Hp); intros m L _; rewrite dec_length; exact L).
  assert (E : coef (rdiff 0 A ++ rdiff 1 B) [j; n - 1 - j]%nat = coef H [j; n - 1 - j]%nat).
  { apply (coef_unique 2); [apply Forall_app; split; apply SD; assumption|apply (degree_sized 2 (n - 2)), HH| |reflexivity]. intros v. destruct (D v) as (a & b & Pa & Pb & Eh). rewrite reval_app, <- EH, Eh. f_equal; eapply is_partial_unique; (apply reval_partial || eassumption). }
  rewrite coef_app, (coef_rdiff 2 0), (coef_rdiff 2 1) in E by (try lia; try assumption; reflexivity). rewrite (coef_outside (fun m => length m = 2%nat /\ (mdeg m <= n - 2)%nat) H _ HH) in E by (intros [_ Q]; cbn [mdeg] in Q; lia).
  cbn [inc_at nth] in E. replace (S (n - 1 - j)) with (n - j)%nat in E by lia. replace (j + 1)%nat with (S j) by lia. exact E.
Qed.
Definition tops (n : nat) (e : nat -> R) : rpoly := map (fun j => (e j, [j; n - j]%nat)) (seq 0 (n + 1)).
Lemma reval_tops n e v : reval (tops n e) v = sum (n + 1) (fun j => e j * meval [j; n - j]%nat v).
Proof. unfold tops. apply (reval_list (fun j => [j; n - j]%nat) e v (n + 1) 0). Qed.
Lemma sized_tops n e : sized 2 (tops n e).
Proof. apply Forall_forall. intros t Ht. apply in_map_iff in Ht. destruct Ht as (j & <- & _). reflexivity. Qed.
Lemma coef_tops n e j : (j <= n)%nat -> coef (tops n e) [j; n - j]%nat = e j.
Proof.
  intros Hj. unfold tops. rewrite (coef_list (fun j => [j; n - j]%nat)), (sum_single (n + 1) _ j ltac:(lia)); cbn [Nat.add].
  - destruct (mono_eq_dec [j; n - j]%nat [j; n - j]%nat); [reflexivity|congruence].
  - intros i Hi Hne. destruct (mono_eq_dec [i; n - i]%nat [j; n - j]%nat) as [E|]; [|reflexivity]. injection E as E _. contradiction.
Qed.
Lemma low_rest n A e (f : sfun) : (1 <= n)%nat -> Forall (fun t : R * mono => length (snd t) = 2%nat /\ (mdeg (snd t) <= n)%nat) A -> (forall v, f v = reval A v) -> (forall j, (j <= n)%nat -> e j = coef A [j; n - j]%nat) ->
  degree_space 2 (n - 1) (fun v => f v - sum (n + 1) (fun j => e j * meval [j; n - j]%nat v)).
Proof.
  intros Hn HA EA HE. set (p := A ++ tops n (fun j => - e j)). set (bad := fun m => (mdeg m =? n)%nat).
  assert (SP : sized 2 p) by (apply Forall_app; split; [apply (degree_sized 2 n), HA|apply sized_tops]).
  exists (filter (fun t => negb (bad (snd t))) p). split.
  - apply Forall_forall. intros t Ht. apply filter_In in Ht. destruct Ht as [Ht Hb]. apply negb_true_iff, Nat.eqb_neq in Hb. unfold sized in SP. rewrite Forall_forall in SP. split; [apply SP, Ht|]. apply in_app_or in Ht. destruct Ht as [Ht|Ht].
    + rewrite Forall_forall in HA. destruct (HA t Ht). lia.
    + apply in_map_iff in Ht. destruct Ht as (j & <- & Hj). apply in_seq in Hj. cbn [snd mdeg] in *. lia.
  - intros v. rewrite <- (drop_terms bad p).
    + unfold p. rewrite reval_app, <- EA, reval_tops. unfold Rminus. f_equal. rewrite <- sum_opp. apply sum_ext. intros; ring.
    + intros m Hm. apply Nat.eqb_eq in Hm. destruct (Nat.eq_dec (length m) 2) as [L|L].
      * destruct m as [|a [|b [|]]]; try discriminate L. cbn [mdeg] in Hm. assert (b = n - a)%nat by lia. subst b. unfold p. rewrite coef_app, coef_tops, HE by lia. ring.
      * apply (coef_outside (fun m => length m = 2%nat) p m SP L).
Qed.
Lemma top_zero n e (p : sfun) : (1 <= n)%nat -> degree_space 2 (n - 1) p -> (forall v, p v + sum (n + 1) (fun j => e j * meval [j; n - j]%nat v) = 0) -> forall j, (j <= n)%nat -> e j = 0.
Proof.
  intros Hn (A & HA & EA) Z j Hj. assert (Q : coef (A ++ tops n e) [j; n - j]%nat = 0).
  { apply (poly_identity 2); [apply Forall_app; split; [apply (degree_sized 2 (n - 1)), HA|apply sized_tops]| |reflexivity]. intros v. rewrite reval_app, <- EA, reval_tops. apply Z. }
  rewrite coef_app, coef_tops in Q by exact Hj. rewrite (coef_outside (fun m => length m = 2%nat /\ (mdeg m <= n - 1)%nat) A _ HA) in Q by (intros [_ D]; cbn [mdeg] in D; lia). lra.
Qed.

(** * The functions of degree n *)
Definition airy (n : nat) : list vpoly :=
  map (fun k => let b : zpoly := [((- (Z.of_nat k * Z.of_nat (n - k + 2)%nat))%Z, [k - 1; n - k + 1]%nat)] in
       [[((Z.of_nat (n - k + 1)%nat * Z.of_nat (n - k + 2)%nat)%Z, [k; n - k]%nat)]; b; b; [((Z.of_nat k * (Z.of_nat k - 1))%Z, [k - 2; n - k + 2]%nat)]]) (range (n + 1))
  ++ [ [[]; [(1%Z, [n; 0]%nat)]; [(1%Z, [n; 0]%nat)]; [((- Z.of_nat n)%Z, [n - 1; 1]%nat)]]; [[]; []; []; [(1%Z, [n; 0]%nat)]] ].
Definition airy_coef (n : nat) (d : nat -> R) (k j : nat) : R :=
  match k with
  | O => INR (n - j + 1) * INR (n - j + 2) * d j
  | S (S (S O)) => INR (j + 2) * INR (j + 1) * d (j + 2)%nat
  | _ => - (INR (j + 1) * INR (n - j + 1)) * d (j + 1)%nat
  end.
Definition airy_weights (n : nat) (c : nat -> R) (k : nat) : R :=
  if (k <=? n)%nat then c k else if (k =? n + 1)%nat then - c (n + 1)%nat / INR (n + 1) else c (n + 2)%nat / (INR (n + 1) * INR (n + 2)).
Lemma weights_low n c k : (k <= n)%nat -> airy_weights n c k = c k.
Proof. intros H. unfold airy_weights. destruct (Nat.leb_spec k n); [reflexivity|lia]. Qed.
Lemma weights_next n c : airy_weights n c (n + 1) = - c (n + 1)%nat / INR (n + 1).
Proof. unfold airy_weights. destruct (Nat.leb_spec (n + 1) n); [lia|]. rewrite Nat.eqb_refl. reflexivity. Qed.
Lemma weights_last n c : airy_weights n c (n + 2) = c (n + 2)%nat / (INR (n + 1) * INR (n + 2)).
Proof. unfold airy_weights. destruct (Nat.leb_spec (n + 2) n); [lia|]. rewrite (proj2 (Nat.eqb_neq (n + 2) (n + 1))) by lia. reflexivity. Qed.
Lemma IZR_nat k : IZR (Z.of_nat k) = INR k. Proof. symmetry. apply INR_IZR_INZ. Qed.
Lemma INR_pos k : (1 <= k)%nat -> INR k <> 0. Proof. intros H. apply not_0_INR. lia. Qed.
Lemma airy_first n c k v : (k < 4)%nat ->
  combination c (map field (airy n)) (k, v) = sum (n + 1) (fun i => c i * field (nth i (airy n) []) (k, v)) + (c (n + 1)%nat * field (nth (n + 1) (airy n) []) (k, v) + c (n + 2)%nat * field (nth (n + 2) (airy n) []) (k, v)).
Proof.
  intros Hk. unfold combination. rewrite map_length. assert (L : length (airy n) = (n + 1 + 2)%nat) by (unfold airy; rewrite app_length, map_length, length_range; reflexivity). rewrite L, sum_split. f_equal.
  - apply sum_ext. intros i Hi. rewrite (nth_map_lt field (airy n) i []) by lia. reflexivity.
  - cbn [sum]. rewrite !(nth_map_lt field (airy n) _ []) by lia. replace (n + 1 + 0)%nat with (n + 1)%nat by lia. replace (n + 1 + 1)%nat with (n + 2)%nat by lia. ring.
Qed.
Lemma airy_low n i k v : (i <= n)%nat -> (k < 4)%nat -> field (nth i (airy n) []) (k, v) = match k with
   | O => INR (n - i + 1) * INR (n - i + 2) * meval [i; n - i]%nat v
   | S (S (S O)) => INR i * (INR i - 1) * meval [i - 2; n - i + 2]%nat v
   | _ => - (INR i * INR (n - i + 2)) * meval [i - 1; n - i + 1]%nat v end.
Proof.
  intros Hi Hk. unfold airy. rewrite app_nth1 by (rewrite map_length, length_range; lia). rewrite nth_map_range by lia. unfold field. cbn [fst snd]. destruct k as [|[|[|[|k]]]]; [| | | |lia]; cbn [nth zeval fold_right map fst snd]; unfold zeval; cbn [map fold_right fst snd]; rewrite ?opp_IZR, !mult_IZR, ?minus_IZR, !IZR_nat; ring.
Qed.
Lemma airy_next n k v : (k < 4)%nat -> field (nth (n + 1) (airy n) []) (k, v) = match k with O => 0 | S (S (S O)) => - INR n * meval [n - 1; 1]%nat v | _ => meval [n; 0]%nat v end.
Proof.
  intros Hk. unfold airy. rewrite app_nth2 by (rewrite map_length, length_range; lia). rewrite map_length, length_range, Nat.sub_diag. unfold field. cbn [nth fst snd]. destruct k as [|[|[|[|k]]]]; [| | | |lia]; cbn [nth]; unfold zeval; cbn [map fold_right fst snd]; rewrite ?opp_IZR, ?IZR_nat; ring.
Qed.
Lemma airy_last n k v : (k < 4)%nat -> field (nth (n + 2) (airy n) []) (k, v) = match k with S (S (S O)) => meval [n; 0]%nat v | _ => 0 end.
Proof.
  intros Hk. unfold airy. rewrite app_nth2 by (rewrite map_length, length_range; lia). rewrite map_length, length_range. replace (n + 2 - (n + 1))%nat with 1%nat by lia. unfold field. cbn [nth fst snd]. destruct k as [|[|[|[|k]]]]; [| | | |lia]; cbn [nth]; unfold zeval; cbn [map fold_right fst snd]; ring.
Qed.
Lemma airy_comb n c k v : (1 <= n)%nat -> (k < 4)%nat -> combination c (map field (airy n)) (k, v) = sum (n + 1) (fun j => airy_coef n (airy_weights n c) k j * meval [j; n - j]%nat v).
Proof.
  intros Hn Hk. rewrite airy_first by exact Hk. rewrite (sum_ext (n + 1) _ (fun i => c i * match k with
   | O => INR (n - i + 1) * INR (n - i + 2) * meval [i; n - i]%nat v
   | S (S (S O)) => INR i * (INR i - 1) * meval [i - 2; n - i + 2]%nat v
   | _ => - (INR i * INR (n - i + 2)) * meval [i - 1; n - i + 1]%nat v end)) by (intros i Hi; rewrite airy_low by lia; reflexivity).
  rewrite airy_next, airy_last by exact Hk.
  assert (P1 := INR_pos (n + 1) ltac:(lia)). assert (P2 := INR_pos (n + 2) ltac:(lia)).
  assert (K1 : sum (n + 1) (fun i => c i * (- (INR i * INR (n - i + 2)) * meval [i - 1; n - i + 1]%nat v)) + (c (n + 1)%nat * meval [n; 0]%nat v + c (n + 2)%nat * 0)
      = sum (n + 1) (fun j => - (INR (j + 1) * INR (n - j + 1)) * airy_weights n c (j + 1) * meval [j; n - j]%nat v)).
  { replace (n + 1)%nat with (S n) at 1 3 by lia. rewrite sum_S. cbn [sum]. rewrite weights_next, Nat.sub_diag. cbn [Nat.add]. change (INR 0) with 0. change (INR 1) with 1. rewrite (sum_ext n _ (fun j => - (INR (j + 1) * INR (n - j + 1)) * airy_weights n c (j + 1) * meval [j; n - j]%nat v)).
    - field. exact P1.
    - intros j Hj. rewrite weights_low by lia. replace (S j) with (j + 1)%nat by lia. replace (n - (j + 1) + 2)%nat with (n - j + 1)%nat by lia. replace (j + 1 - 1)%nat with j by lia. replace (n - (j + 1) + 1)%nat with (n - j)%nat by lia. ring. }
  destruct k as [|[|[|[|k]]]]; [|exact K1|exact K1| |lia].
  - rewrite !Rmult_0_r, !Rplus_0_r. apply sum_ext. intros j Hj. cbn [airy_coef]. rewrite weights_low by lia. ring.
  - destruct n as [|m]; [lia|]. replace (S m + 1)%nat with (S (S m)) at 1 3 by lia. etransitivity; [apply f_equal2; [etransitivity; [apply sum_S|apply f_equal2; [reflexivity|apply sum_S]]|reflexivity]|]. cbn [sum airy_coef]. replace (m + 2)%nat with (S m + 1)%nat by lia. rewrite weights_next, weights_last. rewrite (sum_ext m _ (fun j => INR (j + 2) * INR (j + 1) * airy_weights (S m) c (j + 2) * meval [j; S m - j]%nat v)).
    + replace (S m - 1)%nat with m by lia. replace (S m - m)%nat with 1%nat by lia. rewrite Nat.sub_diag. replace (m + 1)%nat with (S m) by lia. change (INR 0) with 0. change (INR 1) with 1. field. split; assumption.
    + intros j Hj. rewrite weights_low by lia. replace (S (S j)) with (j + 2)%nat by lia. replace (j + 2 - 2)%nat with j by lia. replace (S m - (j + 2) + 2)%nat with (S m - j)%nat by lia. rewrite (plus_INR j 2), (plus_INR j 1). cbn [INR]. ring.
Qed.

(** * The Arnold-Winther space *)
Definition sym_low (ms : list mono) : list vpoly := map (arrange [0; 1; 1; 2]%nat) (vectorise 3 ms).
Lemma length_sym ms : length (sym_low ms) = (3 * length ms)%nat.
Proof. unfold sym_low. rewrite map_length. unfold vectorise. apply length_flat. intros p. rewrite map_length. apply length_range. Qed.
Lemma sym_comb ms c k v : (k < 4)%nat -> combination c (map field (sym_low ms)) (k, v) = sum (length ms) (fun a => c (3 * a + nth k [0; 1; 1; 2] 0)%nat * meval (nth a ms []) v).
Proof. intros Hk. unfold sym_low. rewrite comb_arrange by exact Hk. apply comb_vectorise. destruct k as [|[|[|[|k]]]]; cbn; lia. Qed.
Lemma sum_fields c X x : sum (length X) (fun i => c i * field (nth i X []) x) = combination c (map field X) x.
Proof. unfold combination. rewrite map_length. apply sum_ext. intros i Hi. rewrite (nth_map_lt field X i []) by exact Hi. reflexivity. Qed.
Lemma sym_in ms n F : (forall m, In m ms -> length m = 2%nat /\ (mdeg m <= n)%nat) -> In F (sym_low ms) -> symmetric_fields n (field F).
Proof.
  intros H HF. apply in_map_iff in HF. destruct HF as (G & <- & HG). unfold vectorise in HG. apply in_flat_map in HG. destruct HG as (m & Hm & HG). apply in_map_iff in HG. destruct HG as (k & <- & Hk).
  split; [|split].
  - intros c Hc. assert (Q : (nth c [0; 1; 1; 2] 0 < 3)%nat) by (destruct c as [|[|[|[|c]]]]; cbn; lia). apply (poly_space_ext _ (fun v => if (k =? nth c [0; 1; 1; 2] 0)%nat then meval m v else 0)).
    + intros v. rewrite field_arrange by exact Hc. rewrite field_unit by exact Q. reflexivity.
    + destruct (k =? _)%nat; [|apply poly_space_zero]. exists [(1, m)]. split; [constructor; [apply H, Hm|constructor]|]. intros v. rewrite reval_cons. cbn. ring.
  - reflexivity.
  - intros c v Hc. apply field_beyond. unfold arrange. rewrite map_length. exact Hc.
Qed.
Lemma symmetric_weaken n N f : (n <= N)%nat -> symmetric_fields n f -> symmetric_fields N f.
Proof. intros L (H & S & B). split; [|split; assumption]. intros c Hc. apply (degree_weaken 2 n); [exact L|apply H, Hc]. Qed.
Lemma mono_degree n c m : length m = 2%nat -> (mdeg m <= n)%nat -> degree_space 2 n (fun v => c * meval m v).
Proof. intros L D. exists [(c, m)]. split; [repeat constructor; assumption|]. intros v. rewrite reval_cons. cbn. ring. Qed.
Lemma divergence_free n (f g : sfun) a ma b mb : (forall v, f v = a * meval ma v) -> (forall v, g v = b * meval mb v) ->
  (forall v, a * INR (nth 0 ma 0%nat) * meval (dec_at 0 ma) v + b * INR (nth 1 mb 0%nat) * meval (dec_at 1 mb) v = 0) -> divergence_in n f g.
Proof.
  intros F G Z. exists (fun _ => 0). split; [apply poly_space_zero|]. intros v. eexists _, _. split; [|split].
  - replace f with (fun v => a * meval ma v) by (symmetry; apply functional_extensionality, F). apply mono_partial.
  - replace g with (fun v => b * meval mb v) by (symmetry; apply functional_extensionality, G). apply mono_partial.
  - symmetry. apply Z.
Qed.
Lemma length_airy n : length (airy n) = (n + 3)%nat.
Proof. unfold airy. rewrite app_length, map_length, length_range. cbn [length]. lia. Qed.
Lemma airy_in n F : (2 <= n)%nat -> In F (airy n) -> arnold_winther_space n (field F).
Proof.
  intros Hn HF. apply In_nth with (d := []) in HF. destruct HF as (i & Hi & <-). rewrite length_airy in Hi.
  assert (B : forall c v, (4 <= c)%nat -> field (nth i (airy n) []) (c, v) = 0).
  { intros c v Hc. apply field_beyond. enough (Q : length (nth i (airy n) []) = 4%nat) by lia. assert (L := length_airy n). unfold airy in *. destruct (Nat.lt_ge_cases i (n + 1)) as [Lt|Ge].
    - rewrite app_nth1 by (rewrite map_length, length_range; lia). rewrite nth_map_range by lia. reflexivity.
    - rewrite app_nth2 by (rewrite map_length, length_range; lia). rewrite map_length, length_range. assert (C : (i - (n + 1) = 0 \/ i - (n + 1) = 1)%nat) by lia. destruct C as [-> | ->]; reflexivity. }
  assert (C : (i <= n \/ i = n + 1 \/ i = n + 2)%nat) by lia. destruct C as [C|[-> | ->]].
  - assert (E := fun k v Hk => airy_low n i k v C Hk). set (F := field (nth i (airy n) [])) in *. clearbody F.
    assert (T : symmetric_fields n F).
    { split; [|split; [intros v; rewrite !E by lia; reflexivity|exact B]]. intros c Hc. destruct c as [|[|[|[|c]]]]; [| | | |lia].
      - apply (poly_space_ext _ (fun v => INR (n - i + 1) * INR (n - i + 2) * meval [i; n - i]%nat v)); [intros v; rewrite E by lia; reflexivity|]. apply mono_degree; [reflexivity|cbn [mdeg]; lia].
      - destruct i as [|i]; [apply (poly_space_ext _ (fun _ => 0)); [intros v; rewrite E by lia; change (INR 0) with 0; ring|apply poly_space_zero]|]. apply (poly_space_ext _ (fun v => - (INR (S i) * INR (n - S i + 2)) * meval [S i - 1; n - S i + 1]%nat v)); [intros v; rewrite E by lia; reflexivity|]. apply mono_degree; [reflexivity|cbn [mdeg]; lia].
      - destruct i as [|i]; [apply (poly_space_ext _ (fun _ => 0)); [intros v; rewrite E by lia; change (INR 0) with 0; ring|apply poly_space_zero]|]. apply (poly_space_ext _ (fun v => - (INR (S i) * INR (n - S i + 2)) * meval [S i - 1; n - S i + 1]%nat v)); [intros v; rewrite E by lia; reflexivity|]. apply mono_degree; [reflexivity|cbn [mdeg]; lia].
      - destruct i as [|[|i]]; [apply (poly_space_ext _ (fun _ => 0)); [intros v; rewrite E by lia; change (INR 0) with 0; ring|apply poly_space_zero]|apply (poly_space_ext _ (fun _ => 0)); [intros v; rewrite E by lia; change (INR 1) with 1; ring|apply poly_space_zero]|].
        apply (poly_space_ext _ (fun v => INR (S (S i)) * (INR (S (S i)) - 1) * meval [S (S i) - 2; n - S (S i) + 2]%nat v)); [intros v; rewrite E by lia; reflexivity|]. apply mono_degree; [reflexivity|cbn [mdeg]; lia]. }
    split; [exact T|]. split.
    + apply (divergence_free _ _ _ (INR (n - i + 1) * INR (n - i + 2)) [i; n - i]%nat (- (INR i * INR (n - i + 2))) [i - 1; n - i + 1]%nat); [intros v; rewrite E by lia; reflexivity|intros v; rewrite E by lia; reflexivity|].
      intros v. cbn [nth dec_at]. replace (n - i + 1 - 1)%nat with (n - i)%nat by lia. ring.
    + apply (divergence_free _ _ _ (- (INR i * INR (n - i + 2))) [i - 1; n - i + 1]%nat (INR i * (INR i - 1)) [i - 2; n - i + 2]%nat); [intros v; rewrite E by lia; reflexivity|intros v; rewrite E by lia; reflexivity|].
      intros v. cbn [nth dec_at]. replace (n - i + 2 - 1)%nat with (n - i + 1)%nat by lia. replace (i - 1 - 1)%nat with (i - 2)%nat by lia. destruct i as [|i]; [change (INR 0) with 0; ring|]. rewrite minus_INR by lia. change (INR 1) with 1. ring.
  - assert (E := fun k v Hk => airy_next n k v Hk). set (F := field (nth (n + 1) (airy n) [])) in *. clearbody F. split; [split; [|split; [intros v; rewrite !E by lia; reflexivity|exact B]]|split].
    + intros c Hc. destruct c as [|[|[|[|c]]]]; [| | | |lia].
      * apply (poly_space_ext _ (fun _ => 0)); [intros v; rewrite E by lia; reflexivity|apply poly_space_zero].
      * apply (poly_space_ext _ (fun v => 1 * meval [n; 0]%nat v)); [intros v; rewrite E by lia; ring|]. apply mono_degree; [reflexivity|cbn [mdeg]; lia].
      * apply (poly_space_ext _ (fun v => 1 * meval [n; 0]%nat v)); [intros v; rewrite E by lia; ring|]. apply mono_degree; [reflexivity|cbn [mdeg]; lia].
      * apply (poly_space_ext _ (fun v => - INR n * meval [n - 1; 1]%nat v)); [intros v; rewrite E by lia; reflexivity|]. apply mono_degree; [reflexivity|cbn [mdeg]; lia].
    + apply (divergence_free _ _ _ 0 [0; 0]%nat 1 [n; 0]%nat); [intros v; rewrite E by lia; ring|intros v; rewrite E by lia; ring|]. intros v. cbn [nth dec_at]. change (INR 0) with 0. ring.
    + apply (divergence_free _ _ _ 1 [n; 0]%nat (- INR n) [n - 1; 1]%nat); [intros v; rewrite E by lia; ring|intros v; rewrite E by lia; ring|]. intros v. cbn [nth dec_at Nat.sub]. change (INR 1) with 1. ring.
  - assert (E := fun k v Hk => airy_last n k v Hk). set (F := field (nth (n + 2) (airy n) [])) in *. clearbody F. split; [split; [|split; [intros v; rewrite !E by lia; reflexivity|exact B]]|split].
    + intros c Hc. destruct c as [|[|[|[|c]]]]; [| | | |lia].
      1-3: apply (poly_space_ext _ (fun _ => 0)); [intros v; rewrite E by lia; reflexivity|apply poly_space_zero].
      apply (poly_space_ext _ (fun v => 1 * meval [n; 0]%nat v)); [intros v; rewrite E by lia; ring|]. apply mono_degree; [reflexivity|cbn [mdeg]; lia].
    + apply (divergence_free _ _ _ 0 [0; 0]%nat 0 [n; 0]%nat); [intros v; rewrite E by lia; ring|intros v; rewrite E by lia; ring|]. intros v. ring.
    + apply (divergence_free _ _ _ 0 [n; 0]%nat 1 [n; 0]%nat); [intros v; rewrite E by lia; ring|intros v; rewrite E by lia; ring|]. intros v. cbn [nth dec_at]. change (INR 0) with 0. ring.
Qed.
Lemma aw_basis n ms : (2 <= n)%nat -> polynomial_set_1d 2 (n - 1) = Ok ms -> basis_of_fields (sym_low ms ++ airy n) (arnold_winther_space n).
Proof.
  intros Hn HM. destruct (polynomial_set_1d_ok 2 (n - 1) ltac:(lia)) as (ms' & HM' & LB). rewrite HM in HM'. injection HM' as <-. assert (LB' := LB). destruct LB' as (ND & Hin & _).
  assert (Hms : forall m, In m ms -> length m = 2%nat /\ (mdeg m <= n - 1)%nat) by (intros m Hm; apply Hin, Hm).
  split; [|split].
  - intros F HF. apply in_app_or in HF. destruct HF as [HF|HF]; [|apply airy_in; assumption]. pose proof (sym_in ms (n - 1) F Hms HF) as T. destruct T as (T1 & T2 & T3). split; [apply (symmetric_weaken (n - 1)); [lia|split; [|split]; assumption]|].
    replace (n - 2)%nat with (n - 1 - 1)%nat by lia. split; apply div_low; try lia; apply T1; lia.
  - intros c Z. set (N := length (sym_low ms)) in *. set (d := airy_weights n (fun i => c (N + i)%nat)).
    assert (Z' : forall k v, (k < 4)%nat -> sum (length ms) (fun a => c (3 * a + nth k [0; 1; 1; 2] 0)%nat * meval (nth a ms []) v) + sum (n + 1) (fun j => airy_coef n d k j * meval [j; n - j]%nat v) = 0).
    { intros k v Hk. rewrite <- (Z (k, v)). rewrite sum_fields, map_app. rewrite (combination_split N c (map field (sym_low ms)) _ (k, v)) by (apply map_length). f_equal; [symmetry; apply sym_comb, Hk|symmetry; apply airy_comb; [lia|exact Hk]]. }
    assert (T : forall k j, (k < 4)%nat -> (j <= n)%nat -> airy_coef n d k j = 0).
    { intros k j Hk Hj. apply (top_zero n (airy_coef n d k) (fun v => sum (length ms) (fun a => c (3 * a + nth k [0; 1; 1; 2] 0)%nat * meval (nth a ms []) v))); [lia| |intros v; apply Z', Hk|exact Hj].
      exists (map (fun j => (c (3 * j + nth k [0; 1; 1; 2] 0)%nat, nth j ms [])) (seq 0 (length ms))). split; [apply Forall_forall; intros t Ht; apply in_map_iff in Ht; destruct Ht as (a & <- & Ha); apply in_seq in Ha; cbn [snd]; apply Hms, nth_In; lia|].
      intros v. symmetry. apply (reval_list (fun j => nth j ms []) (fun j => c (3 * j + nth k [0; 1; 1; 2] 0)%nat) v (length ms) 0). }
    assert (D : forall j, (j < n + 3)%nat -> c (N + j)%nat = 0).
    { intros j Hj. assert (C : (j <= n \/ j = n + 1 \/ j = n + 2)%nat) by lia. destruct C as [C|[-> | ->]].
      - specialize (T 0%nat j ltac:(lia) C). cbn [airy_coef] in T. unfold d in T. rewrite weights_low in T by exact C. assert (P1 := INR_pos (n - j + 1) ltac:(lia)). assert (P2 := INR_pos (n - j + 2) ltac:(lia)).
        apply Rmult_integral in T. destruct T as [T|T]; [exfalso; apply Rmult_integral in T; tauto|exact T].
      - specialize (T 1%nat n ltac:(lia) ltac:(lia)). cbn [airy_coef] in T. unfold d in T. rewrite weights_next, Nat.sub_diag in T. assert (P1 := INR_pos (n + 1) ltac:(lia)). change (INR (0 + 1)) with 1 in T. replace (- (INR (n + 1) * 1) * (- c (N + (n + 1))%nat / INR (n + 1))) with (c (N + (n + 1))%nat) in T by (field; exact P1). exact T.
      - specialize (T 3%nat n ltac:(lia) ltac:(lia)). cbn [airy_coef] in T. unfold d in T. rewrite weights_last in T. assert (P1 := INR_pos (n + 1) ltac:(lia)). assert (P2 := INR_pos (n + 2) ltac:(lia)). replace (INR (n + 2) * INR (n + 1) * (c (N + (n + 2))%nat / (INR (n + 1) * INR (n + 2)))) with (c (N + (n + 2))%nat) in T by (field; split; assumption). exact T. }
    assert (Lo : forall k a, (k < 4)%nat -> (a < length ms)%nat -> c (3 * a + nth k [0; 1; 1; 2] 0)%nat = 0).
    { intros k a Hk Ha. apply (comb_indep 2 ms (fun a => c (3 * a + nth k [0; 1; 1; 2] 0)%nat) ND); [intros m Hm; apply Hms, Hm| |exact Ha]. intros v. rewrite <- (Z' k v Hk). rewrite (sum_zero (n + 1)); [symmetry; apply Rplus_0_r|]. intros j Hj. rewrite T by lia. ring. }
    intros i Hi. rewrite app_length, length_airy in Hi. fold N in Hi. destruct (Nat.lt_ge_cases i N) as [Lt|Ge]; [|replace i with (N + (i - N))%nat by lia; apply D; lia].
    unfold N in Lt. rewrite length_sym in Lt. pose proof (Nat.div_mod i 3 ltac:(lia)) as E. pose proof (Nat.mod_upper_bound i 3 ltac:(lia)) as B. assert (Ha : (i / 3 < length ms)%nat) by (apply Nat.div_lt_upper_bound; lia).
    rewrite E. destruct (i mod 3)%nat as [|[|[|r]]]; [apply (Lo 0%nat)|apply (Lo 1%nat)|apply (Lo 3%nat)|lia]; (lia || exact Ha).
  - intros f ((P & Sy & B) & D0 & D1). destruct (P 0%nat ltac:(lia)) as (A0 & H0 & E0). destruct (P 1%nat ltac:(lia)) as (A1 & H1 & E1). destruct (P 3%nat ltac:(lia)) as (A3 & H3 & E3).
    assert (R0 := div_top n _ _ A0 A1 Hn (degree_sized 2 n A0 H0) (degree_sized 2 n A1 H1) E0 E1 D0).
    assert (R1 := div_top n _ _ A1 A3 Hn (degree_sized 2 n A1 H1) (degree_sized 2 n A3 H3) (fun v => eq_trans (eq_sym (Sy v)) (E1 v)) E3 D1).
    set (cc := fun i => if (i <=? n)%nat then coef A0 [i; n - i]%nat / (INR (n - i + 1) * INR (n - i + 2)) else if (i =? n + 1)%nat then coef A1 [n; 0]%nat else coef A3 [n; 0]%nat). set (d := airy_weights n cc).
    assert (P1 := INR_pos (n + 1) ltac:(lia)). assert (P2 := INR_pos (n + 2) ltac:(lia)).
    assert (L : forall j, (j <= n)%nat -> d j = coef A0 [j; n - j]%nat / (INR (n - j + 1) * INR (n - j + 2))) by (intros j Hj; unfold d; rewrite weights_low by exact Hj; unfold cc; destruct (Nat.leb_spec j n); [reflexivity|lia]).
    assert (T0 : forall j, (j <= n)%nat -> airy_coef n d 0 j = coef A0 [j; n - j]%nat) by (intros j Hj; cbn [airy_coef]; rewrite L by exact Hj; field; split; apply INR_pos; lia).
    assert (T1 : forall j, (j <= n)%nat -> airy_coef n d 1 j = coef A1 [j; n - j]%nat).
    { intros j Hj. cbn [airy_coef]. destruct (Nat.eq_dec j n) as [->|Hne].
      - unfold d. rewrite weights_next, Nat.sub_diag. unfold cc. destruct (Nat.leb_spec (n + 1) n); [lia|]. rewrite Nat.eqb_refl. change (INR (0 + 1)) with 1. field. exact P1.
      - rewrite L by lia. specialize (R0 j ltac:(lia)). replace (S j) with (j + 1)%nat in R0 by lia. replace (n - (j + 1))%nat with (n - 1 - j)%nat by lia. replace (n - 1 - j + 1)%nat with (n - j)%nat by lia. replace (n - 1 - j + 2)%nat with (n - j + 1)%nat by lia.
        assert (Q1 := INR_pos (n - j) ltac:(lia)). assert (Q2 := INR_pos (n - j + 1) ltac:(lia)). apply (Rmult_eq_reg_l (INR (n - j))); [|exact Q1]. transitivity (- (INR (j + 1) * coef A0 [(j + 1)%nat; (n - 1 - j)%nat])); [field; split; assumption|lra]. }
    assert (T3 : forall j, (j <= n)%nat -> airy_coef n d 3 j = coef A3 [j; n - j]%nat).
    { intros j Hj. destruct (Nat.eq_dec j n) as [->|Hne].
      - cbn [airy_coef]. unfold d. rewrite weights_last. unfold cc. rewrite Nat.sub_diag. destruct (Nat.leb_spec (n + 2) n); [lia|]. rewrite (proj2 (Nat.eqb_neq (n + 2) (n + 1))) by lia. field. split; assumption.
      - specialize (R1 j ltac:(lia)). replace (n - 1 - j)%nat with (n - S j)%nat in R1 by lia. rewrite <- T1 in R1 by lia. cbn [airy_coef] in *. replace (S j + 1)%nat with (j + 2)%nat in R1 by lia. replace (n - S j + 1)%nat with (n - j)%nat in R1 by lia.
        assert (Q1 := INR_pos (n - j) ltac:(lia)). apply (Rmult_eq_reg_l (INR (n - j))); [|exact Q1]. lra. }
    destruct (mono_span ms _ _ LB (low_rest n A0 (airy_coef n d 0) _ ltac:(lia) H0 E0 T0)) as (a0 & G0). destruct (mono_span ms _ _ LB (low_rest n A1 (airy_coef n d 1) _ ltac:(lia) H1 E1 T1)) as (a1 & G1). destruct (mono_span ms _ _ LB (low_rest n A3 (airy_coef n d 3) _ ltac:(lia) H3 E3 T3)) as (a3 & G3).
    set (N := length (sym_low ms)). set (low := fun i => match (i mod 3)%nat with O => a0 (i / 3)%nat | S O => a1 (i / 3)%nat | _ => a3 (i / 3)%nat end). exists (fun i => if (i <? N)%nat then low i else cc (i - N)%nat).
    assert (LL : forall k a, (k < 3)%nat -> low (3 * a + k)%nat = match k with O => a0 a | S O => a1 a | _ => a3 a end).
    { intros k a Hk. unfold low. replace ((3 * a + k) mod 3)%nat with k; [replace ((3 * a + k) / 3)%nat with a; [reflexivity|]|].
      - apply (Nat.div_unique (3 * a + k) 3 a k); lia.
      - apply (Nat.mod_unique (3 * a + k) 3 a k); lia. }
    intros [k v]. rewrite sum_fields. destruct (Nat.lt_ge_cases k 4) as [Hk|Hk].
    + rewrite map_app, (combination_split N _ (map field (sym_low ms)) _ (k, v)) by (apply map_length). rewrite sym_comb by exact Hk.
      assert (EC : combination (fun i => if (N + i <? N)%nat then low (N + i)%nat else cc (N + i - N)%nat) (map field (airy n)) (k, v) = sum (n + 1) (fun j => airy_coef n d k j * meval [j; n - j]%nat v)).
      { rewrite airy_comb by lia. replace (fun i => if (N + i <? N)%nat then low (N + i)%nat else cc (N + i - N)%nat) with cc; [reflexivity|]. apply functional_extensionality. intros i. destruct (Nat.ltb_spec (N + i) N); [lia|]. f_equal. lia. }
      rewrite EC. assert (NL : N = (3 * length ms)%nat) by apply length_sym.
      rewrite (sum_ext (length ms) _ (fun a => match nth k [0; 1; 1; 2]%nat 0%nat with O => a0 a | S O => a1 a | _ => a3 a end * meval (nth a ms []) v)).
      * specialize (G0 v). specialize (G1 v). specialize (G3 v). cbv beta in G0, G1, G3. destruct k as [|[|[|[|k]]]]; [| | | |lia]; cbn [nth].
        -- rewrite <- G0. ring.
        -- rewrite <- G1. ring.
        -- rewrite <- G1, <- Sy. cbn [airy_coef]. ring.
        -- rewrite <- G3. ring.
      * intros a Ha. assert (Q : (nth k [0; 1; 1; 2] 0 < 3)%nat) by (destruct k as [|[|[|[|k]]]]; cbn; lia). destruct (Nat.ltb_spec (3 * a + nth k [0; 1; 1; 2] 0)%nat N); [rewrite LL by exact Q; reflexivity|lia].
    + rewrite B by exact Hk. symmetry. unfold combination. apply sum_zero. intros i Hi. rewrite map_length in Hi. rewrite (nth_map_lt field _ i []) by exact Hi.
      rewrite field_beyond; [ring|]. enough (Q : forall F, In F (sym_low ms ++ airy n) -> length F = 4%nat) by (rewrite (Q _ (nth_In _ _ Hi)); exact Hk). clear. intros F I. apply in_app_or in I. destruct I as [I|I].
      * apply in_map_iff in I. destruct I as (G & <- & _). reflexivity.
      * apply in_app_or in I. destruct I as [I|I]; [apply in_map_iff in I; destruct I as (j & <- & _); reflexivity|]. destruct I as [<-|[<-|[]]]; reflexivity.
Qed.
