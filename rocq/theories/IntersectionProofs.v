(** Proofs about Reference.intersection. *)
From Coq Require Import Reals ZArith Arith Bool Lia Lra Psatz List.
From Verif Require Import Base ReferencesModel ReferencesSpec ReferencesGeometry GeometryModel.
Import ListNotations.
Local Open Scope R_scope.

(** The affine function whose sign _which_side looks at. *)
Definition aff (p q v : list R) : R :=
  if Nat.eqb (length q) 2
  then (nth 0 v 0 - nth 0 p 0) * (nth 1 q 0 - nth 1 p 0) - (nth 1 v 0 - nth 1 p 0) * (nth 0 q 0 - nth 0 p 0)
  else (nth 0 v 0 - nth 0 p 0) * nth 0 q 0 + (nth 1 v 0 - nth 1 p 0) * nth 1 q 0
       + (nth 2 v 0 - nth 2 p 0) * nth 2 q 0.

Lemma get_nth (l : list R) n a : get l n = Ok a -> nth n l 0 = a.
Proof.
  unfold get. destruct (nth_error l n) eqn:E; [|discriminate]. intros H. injection H as <-.
  apply nth_error_nth. exact E.
Qed.

Ltac getting H :=
  repeat match type of H with rbind (get ?l ?n) _ = _ =>
    let E := fresh "G" in destruct (get l n) eqn:E; cbn [rbind] in H; [|discriminate H]; apply get_nth in E end.

Lemma side_value_aff p q v c : side_value p q v = Ok (Some c) -> c = aff p q v /\ (2 <= length q <= 3)%nat.
Proof.
  unfold side_value, aff. change pt with (list R) in *. destruct (Nat.eqb (length q) 2) eqn:E.
  - apply Nat.eqb_eq in E. intros H. getting H. injection H as <-. split; [congruence|lia].
  - destruct (Nat.eqb (length q) 3) eqn:E3; [|discriminate]. apply Nat.eqb_eq in E3. intros H. getting H.
    injection H as <-. split; [congruence|lia].
Qed.

Lemma sides_of_aff p q vs s : sides_of p q vs = Ok (Some s) ->
  s = map (fun v => sign_of (aff p q v)) vs /\ (vs <> [] -> (2 <= length q <= 3)%nat).
Proof.
  revert s. induction vs as [|v vs IH]; simpl; intros s H.
  - injection H as <-. split; [reflexivity|congruence].
  - destruct (side_value p q v) as [[c|]|] eqn:E; cbn [rbind] in H; try discriminate.
    apply side_value_aff in E. destruct E as [-> E2].
    destruct (sides_of p q vs) as [[s'|]|]; cbn [rmap option_map] in H; try discriminate.
    injection H as <-. destruct (IH s' eq_refl) as [-> _]. split; [reflexivity|auto].
Qed.

Lemma which_side_spec vs p q z : which_side vs p q = Ok (Some z) ->
  ((0 < z)%Z -> (forall v, In v vs -> 0 <= aff p q v) /\ (exists v, In v vs /\ 0 < aff p q v)) /\
  ((z < 0)%Z -> (forall v, In v vs -> aff p q v <= 0) /\ (exists v, In v vs /\ aff p q v < 0)) /\
  (z <> 0%Z -> (2 <= length q <= 3)%nat).
Proof.
  unfold which_side. destruct (sides_of p q vs) as [[s|]|] eqn:E; cbn [rmap]; try discriminate.
  intros H. injection H as H. apply sides_of_aff in E. destruct E as [-> Hq].
  set (s := map _ _) in H.
  assert (P : existsb is_pos s = true <-> exists v, In v vs /\ 0 < aff p q v).
  { unfold s. rewrite existsb_exists. split.
    - intros [x [Hx Hp]]. apply in_map_iff in Hx. destruct Hx as [v [<- Hv]]. exists v. split; [exact Hv|].
      unfold sign_of in Hp. destruct (Req_EM_T _ _); [discriminate|]. destruct (Rlt_dec _ _); [assumption|discriminate].
    - intros [v [Hv Hp]]. exists (sign_of (aff p q v)). split; [apply in_map_iff; exists v; auto|].
      unfold sign_of. destruct (Req_EM_T _ _); [lra|]. destruct (Rlt_dec _ _); [reflexivity|lra]. }
  assert (N : existsb is_neg s = true <-> exists v, In v vs /\ aff p q v < 0).
  { unfold s. rewrite existsb_exists. split.
    - intros [x [Hx Hp]]. apply in_map_iff in Hx. destruct Hx as [v [<- Hv]]. exists v. split; [exact Hv|].
      unfold sign_of in Hp. destruct (Req_EM_T _ _); [discriminate|]. destruct (Rlt_dec _ _); [discriminate|lra].
    - intros [v [Hv Hp]]. exists (sign_of (aff p q v)). split; [apply in_map_iff; exists v; auto|].
      unfold sign_of. destruct (Req_EM_T _ _); [lra|]. destruct (Rlt_dec _ _); [lra|reflexivity]. }
  clearbody s. unfold classify in H.
  destruct (existsb is_neg s) eqn:En, (existsb is_pos s) eqn:Ep; cbn [andb] in H; try discriminate.
  - assert (Hz : (z < 0)%Z) by (injection H as <-; destruct (existsb is_zero s); lia).
    split; [lia|]. split; [intros _|intros _].
    + split; [|apply N; reflexivity]. intros v Hv. destruct (Rle_dec (aff p q v) 0); [assumption|].
      assert (false = true) by (apply P; exists v; split; [exact Hv|lra]). discriminate.
    + destruct N as [N _]. destruct (N eq_refl) as [v [Hv _]]. apply Hq. intros ->. contradiction.
  - assert (Hz : (0 < z)%Z) by (injection H as <-; destruct (existsb is_zero s); lia).
    split; [intros _|]. 2:{ split; [lia|]. intros _. destruct P as [P _]. destruct (P eq_refl) as [v [Hv _]].
      apply Hq. intros ->. contradiction. }
    split; [|apply P; reflexivity]. intros v Hv. destruct (Rle_dec 0 (aff p q v)); [assumption|].
    assert (false = true) by (apply N; exists v; split; [exact Hv|lra]). discriminate.
  - injection H as <-. split; [lia|]. split; [lia|congruence].
Qed.

(** The affine function commutes with affine combinations. *)
Lemma aff_comb p q vs w x : (2 <= length q <= 3)%nat -> (length q <= length x)%nat -> affine_comb w vs x ->
  aff p q x = sumR (map (fun wv => fst wv * aff p q (snd wv)) (combine w vs)).
Proof.
  intros Hq Hx (Hl & Hs & Hc).
  assert (Sw : sumR (map (fun wv : R * list R => fst wv) (combine w vs)) = 1).
  { rewrite <- Hs. f_equal. clear -Hl. revert vs Hl. induction w as [|a w IH]; intros [|v vs] H; simpl in *; try discriminate; auto.
    f_equal. apply IH. lia. }
  assert (C : forall j, (j < length q)%nat -> nth j x 0 = sumR (map (fun wv => fst wv * nth j (snd wv) 0) (combine w vs)))
    by (intros j Hj; apply Hc; lia).
  set (L := combine w vs) in *.
  assert (Lin : forall a b c d,
    sumR (map (fun wv : R * list R => fst wv * (a * nth 0 (snd wv) 0 + b * nth 1 (snd wv) 0 + c * nth 2 (snd wv) 0 + d)) L)
    = a * sumR (map (fun wv => fst wv * nth 0 (snd wv) 0) L) + b * sumR (map (fun wv => fst wv * nth 1 (snd wv) 0) L)
      + c * sumR (map (fun wv => fst wv * nth 2 (snd wv) 0) L) + d * sumR (map (fun wv => fst wv) L)).
  { intros a b c d. rewrite <- !sumR_scal, <- !sumR_plus. apply sumR_ext. intros. ring. }
  unfold aff. destruct (Nat.eqb (length q) 2) eqn:E.
  - apply Nat.eqb_eq in E.
    set (q1 := nth 1 q 0 - nth 1 p 0). set (q0 := nth 0 q 0 - nth 0 p 0).
    rewrite (sumR_ext _ (fun wv : R * list R => fst wv * (q1 * nth 0 (snd wv) 0 + (- q0) * nth 1 (snd wv) 0
              + 0 * nth 2 (snd wv) 0 + (nth 1 p 0 * q0 - nth 0 p 0 * q1)))) by (intros; ring).
    rewrite Lin, Sw, <- !C by lia. ring.
  - apply Nat.eqb_neq in E.
    rewrite (sumR_ext _ (fun wv : R * list R => fst wv * (nth 0 q 0 * nth 0 (snd wv) 0 + nth 1 q 0 * nth 1 (snd wv) 0
              + nth 2 q 0 * nth 2 (snd wv) 0 + (- nth 0 p 0 * nth 0 q 0 - nth 1 p 0 * nth 1 q 0 - nth 2 p 0 * nth 2 q 0))))
      by (intros; ring).
    rewrite Lin, Sw, <- !C by lia. ring.
Qed.

(** A positive combination of numbers with one sign, not all zero, has that sign. *)
Lemma positive_sum (f : list R -> R) w vs : length w = length vs -> Forall (fun a => 0 < a) w ->
  (forall v, In v vs -> 0 <= f v) -> (exists v, In v vs /\ 0 < f v) ->
  0 < sumR (map (fun wv => fst wv * f (snd wv)) (combine w vs)).
Proof.
  intros Hl Hw Hn [v0 [Hv0 Hp]]. revert w Hl Hw. induction vs as [|v vs IH]; intros [|a w] Hl Hw; try discriminate; [contradiction|].
  simpl. inversion_clear Hw. change (fold_right Rplus 0) with sumR.
  assert (Hrest : 0 <= sumR (map (fun wv : R * list R => fst wv * f (snd wv)) (combine w vs))).
  { clear -H0 Hn. assert (forall v', In v' vs -> 0 <= f v') by (intros; apply Hn; right; assumption). clear Hn.
    revert w H0. induction vs as [|v' vs IH]; intros [|b w] Hw; simpl; try lra.
    inversion_clear Hw. change (fold_right Rplus 0) with sumR.
    assert (0 <= b * f v') by (apply Rmult_le_pos; [lra|apply H; left; reflexivity]).
    specialize (IH ltac:(intros; apply H; right; assumption) w H1). lra. }
  assert (0 <= a * f v) by (apply Rmult_le_pos; [lra|apply Hn; left; reflexivity]).
  destruct Hv0 as [->|Hin].
  - assert (0 < a * f v0) by (apply Rmult_lt_0_compat; assumption). unfold sumR in *. simpl in *. lra.
  - assert (0 < sumR (map (fun wv : R * list R => fst wv * f (snd wv)) (combine w vs)))
      by (apply IH; auto; intros; apply Hn; right; assumption). unfold sumR in *. simpl in *. lra.
Qed.

(** Cells on opposite sides have no common interior point. *)
Lemma opposite_disjoint vs1 vs2 p q d1 d2 x :
  which_side vs1 p q = Ok d1 -> which_side vs2 p q = Ok d2 -> opposite d1 d2 = true ->
  (length q <= length x)%nat -> in_interior vs1 x -> in_interior vs2 x -> False.
Proof.
  intros H1 H2 Ho Hx [w1 [A1 P1]] [w2 [A2 P2]].
  destruct d1 as [z1|], d2 as [z2|]; try discriminate. cbn [opposite] in Ho. apply Z.ltb_lt in Ho.
  apply which_side_spec in H1. apply which_side_spec in H2.
  assert (Hq : (2 <= length q <= 3)%nat) by (apply H1; intros ->; simpl in Ho; lia).
  pose proof (aff_comb p q vs1 w1 x Hq Hx A1) as E1. pose proof (aff_comb p q vs2 w2 x Hq Hx A2) as E2.
  assert (Z : ((0 < z1 /\ z2 < 0) \/ (z1 < 0 /\ 0 < z2))%Z)
    by (destruct (Z.lt_trichotomy z1 0) as [|[|]]; [right|subst; simpl in Ho; lia|left]; split; nia).
  destruct H1 as (H1p & H1n & _), H2 as (H2p & H2n & _).
  assert (Pos : forall vs w, length w = length vs -> Forall (fun a => 0 < a) w ->
    (forall v, In v vs -> 0 <= aff p q v) /\ (exists v, In v vs /\ 0 < aff p q v) ->
    0 < sumR (map (fun wv => fst wv * aff p q (snd wv)) (combine w vs))).
  { intros vs w Hl Hp [Ha Hb]. apply positive_sum; assumption. }
  assert (Ng : forall vs w, length w = length vs -> Forall (fun a => 0 < a) w ->
    (forall v, In v vs -> aff p q v <= 0) /\ (exists v, In v vs /\ aff p q v < 0) ->
    sumR (map (fun wv => fst wv * aff p q (snd wv)) (combine w vs)) < 0).
  { intros vs w Hl Hp [Ha [v [Hv Hb]]].
    assert (0 < sumR (map (fun wv => fst wv * (- aff p q (snd wv))) (combine w vs))).
    { apply (positive_sum (fun v => - aff p q v)); auto; [intros v' Hv'; specialize (Ha v' Hv'); lra|].
      exists v. split; [exact Hv|lra]. }
    rewrite (sumR_ext _ (fun wv : R * list R => -1 * (fst wv * aff p q (snd wv)))) in H by (intros; ring).
    rewrite sumR_scal in H. lra. }
  destruct A1 as [L1 _], A2 as [L2 _].
  destruct Z as [[Z1 Z2]|[Z1 Z2]].
  - specialize (Pos vs1 w1 L1 P1 (H1p Z1)). specialize (Ng vs2 w2 L2 P2 (H2n Z2)). lra.
  - specialize (Pos vs2 w2 L2 P2 (H2p Z2)). specialize (Ng vs1 w1 L1 P1 (H1n Z1)). lra.
Qed.

Lemma nth_map_upto (f : nat -> R) n k : (k < n)%nat -> nth k (map f (range n)) 0 = f k.
Proof.
  intros Hk. rewrite (nth_indep _ 0 (f 0%nat)) by (rewrite map_length, length_range; exact Hk).
  rewrite map_nth. unfold range. rewrite seq_nth by exact Hk. reflexivity.
Qed.
Lemma map_nth_upto (l : list R) : map (fun k => nth k l 0) (range (length l)) = l.
Proof.
  apply (nth_ext _ _ 0 0); [rewrite map_length, length_range; reflexivity|].
  intros k Hk. rewrite map_length, length_range in Hk. apply (nth_map_upto (fun k => nth k l 0)). exact Hk.
Qed.

(** Convex combinations of points of a convex hull are in the hull. *)
Lemma hull_convex vs us d x : Forall (fun v => length v = d) us -> length x = d ->
  (forall u, In u us -> in_hull vs u) -> in_hull us x -> in_hull vs x.
Proof.
  intros Hd Hx Hu (w & (Hl & Hs & Hc) & Hp).
  (* weights for each vertex *)
  assert (W : exists W : list (list R), length W = length us /\
    forall k, (k < length us)%nat -> affine_comb (nth k W []) vs (nth k us []) /\ Forall (fun a => 0 <= a) (nth k W [])).
  { clear -Hu. induction us as [|u us IH]; [exists []; split; [reflexivity|intros k Hk; simpl in Hk; lia]|].
    destruct IH as [W [HW HK]]; [intros; apply Hu; right; assumption|].
    destruct (Hu u (or_introl eq_refl)) as [a [Ha Hap]]. exists (a :: W). split; [simpl; congruence|].
    intros [|k] Hk; simpl; [auto|]. apply HK. simpl in Hk. lia. }
  destruct W as [W [HW HK]].
  set (n := length us) in *. set (m := length vs).
  set (c := map (fun i => sumR (map (fun k => nth k w 0 * nth i (nth k W []) 0) (range n))) (range m)).
  assert (Lc : length c = m) by (unfold c; rewrite map_length, length_range; reflexivity).
  assert (Nc : forall i, (i < m)%nat -> nth i c 0 = sumR (map (fun k => nth k w 0 * nth i (nth k W []) 0) (range n))).
  { intros i Hi. unfold c. exact (nth_map_upto _ m i Hi). }
  assert (Sw : sumR (map (fun k => nth k w 0) (range n)) = 1).
  { rewrite <- Hl, map_nth_upto. exact Hs. }
  exists c. split; [split; [exact Lc|]; split|].
  - unfold c. rewrite (sumR_swap (fun i k => nth k w 0 * nth i (nth k W []) 0)).
    rewrite <- Sw at 1. apply sumR_ext. intros k Hk. apply in_range in Hk.
    rewrite sumR_scal. destruct (HK k Hk) as [(La & Sa & _) _].
    replace (sumR (map (fun i => nth i (nth k W []) 0) (range m))) with 1; [ring|].
    rewrite <- Sa. unfold m. rewrite <- La, map_nth_upto. reflexivity.
  - intros j Hj. rewrite (Hc j Hj). rewrite (combine_nth_map w us 0 []) by exact Hl. rewrite map_map. cbn [fst snd].
    fold n. rewrite (combine_nth_map c vs 0 []) by exact Lc. rewrite map_map. cbn [fst snd]. fold m.
    rewrite (sumR_ext (fun i => nth i c 0 * nth j (nth i vs []) 0)
              (fun i => sumR (map (fun k => nth k w 0 * nth i (nth k W []) 0 * nth j (nth i vs []) 0) (range n)))).
    2:{ intros i Hi. apply in_range in Hi. rewrite (Nc i Hi). rewrite Rmult_comm, <- sumR_scal. apply sumR_ext. intros. ring. }
    rewrite (sumR_swap (fun i k => nth k w 0 * nth i (nth k W []) 0 * nth j (nth i vs []) 0)).
    apply sumR_ext. intros k Hk. apply in_range in Hk. destruct (HK k Hk) as [(La & _ & Ca) _].
    rewrite (Ca j). 2:{ rewrite Forall_forall in Hd. rewrite (Hd (nth k us [])) by (apply nth_In; exact Hk). lia. }
    rewrite (combine_nth_map (nth k W []) vs 0 []) by exact La. rewrite map_map. cbn [fst snd]. fold m.
    rewrite <- sumR_scal. apply sumR_ext. intros. ring.
  - unfold c. rewrite Forall_forall. intros a Ha. apply in_map_iff in Ha. destruct Ha as [i [<- Hi]].
    assert (forall l : list nat, (forall k, In k l -> (k < n)%nat) -> 0 <= sumR (map (fun k => nth k w 0 * nth i (nth k W []) 0) l)).
    { induction l as [|k l IH]; intros Hb; simpl; [unfold sumR; simpl; lra|]. change (fold_right Rplus 0) with sumR.
      assert (0 <= nth k w 0 * nth i (nth k W []) 0).
      { apply Rmult_le_pos.
        - rewrite Forall_forall in Hp. destruct (Nat.lt_ge_cases k (length w)); [apply Hp, nth_In; assumption|rewrite nth_overflow by assumption; lra].
        - destruct (HK k (Hb k (or_introl eq_refl))) as [_ Hq]. rewrite Forall_forall in Hq.
          destruct (Nat.lt_ge_cases i (length (nth k W []))); [apply Hq, nth_In; assumption|rewrite nth_overflow by assumption; lra]. }
      specialize (IH ltac:(intros; apply Hb; right; assumption)). unfold sumR in *. simpl in *. lra. }
    apply H. intros k Hk. apply in_range in Hk. exact Hk.
Qed.
