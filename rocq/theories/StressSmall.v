(** The functions of the nonconforming Arnold-Winther and of the Mardal-Tai-Winther element on the triangle. *)
From Coquelicot Require Import Coquelicot.
From Coq Require Import String Arith Bool ZArith Reals Lia Lra List FunctionalExtensionality.
From Verif Require Import Base PolyLib PolySetsModel PolySetsProofs PolyVec ReferencesModel ReferencesSpec LinAlg CiarletModel CiarletProofs UnisolvenceProofs LagrangeUnisolvence
  PointsModel PointsSpec PointsProofs SerendipityCurlKernel StressSpec StressProofs.
From Verif Require FamiliesModel.
Import PolyVec ListNotations.
Local Open Scope R_scope.

Definition to_r (p : zpoly) : rpoly := map (fun t => (IZR (fst t), snd t)) p.
Lemma to_r_value p v : zeval p v = reval (to_r p) v.
Proof. induction p as [|[c m] p IH]; [reflexivity|]. exact (f_equal (fun y => IZR c * meval m v + y) IH). Qed.
Lemma zpoly_space n p : forallb (fun t => (length (snd t) =? 2)%nat && (mdeg (snd t) <=? n)%nat) p = true -> P_space 2 n (zeval p).
Proof.
  intros H. exists (to_r p). split; [|apply to_r_value]. rewrite forallb_forall in H. apply Forall_forall. intros t Ht. apply in_map_iff in Ht. destruct Ht as (u & <- & Hu). specialize (H u Hu). apply andb_true_iff in H. destruct H as [H1 H2]. apply Nat.eqb_eq in H1. apply Nat.leb_le in H2. split; assumption.
Qed.
Lemma affine_intro f : (forall t, f t = f 0 + (f 1 - f 0) * t) -> affine f.
Proof. intros H. exists (f 0), (f 1 - f 0). exact H. Qed.
Lemma affine_at f : affine f -> forall t, f t = f 0 + (f 1 - f 0) * t.
Proof. intros (p & q & H) t. rewrite !H. ring. Qed.
Lemma div_const p q c : (forall v, reval (rdiff 0 (to_r p)) v + reval (rdiff 1 (to_r q)) v = c) -> divergence_in 0 (zeval p) (zeval q).
Proof.
  intros H. exists (fun _ => c). split; [exists [(c, [0; 0]%nat)]; split; [repeat constructor|intros v; cbn; ring]|]. intros v. exists (reval (rdiff 0 (to_r p)) v), (reval (rdiff 1 (to_r q)) v).
  replace (zeval p) with (reval (to_r p)) by (symmetry; apply functional_extensionality, to_r_value). replace (zeval q) with (reval (to_r q)) by (symmetry; apply functional_extensionality, to_r_value).
  split; [apply reval_partial|]. split; [apply reval_partial|symmetry; apply H].
Qed.
(** the coefficients of polynomials of degree 2, of degree 3 and of constants *)
Lemma quadratic (f : sfun) : P_space 2 2 f -> exists a, forall v, f v = reval [(a 0%nat, [0; 0]%nat); (a 1%nat, [1; 0]%nat); (a 2%nat, [2; 0]%nat); (a 3%nat, [0; 1]%nat); (a 4%nat, [1; 1]%nat); (a 5%nat, [0; 2]%nat)] v.
Proof.
  intros H. destruct (polynomial_set_1d_ok 2 2 ltac:(lia)) as (ms & HM & LB). injection HM as <-. destruct (mono_span _ _ f LB H) as (a & E). exists a. intros v. rewrite E. cbn [length sum nth reval fold_right fst snd map]. ring.
Qed.
Lemma cubic (f : sfun) : P_space 2 3 f -> exists a, forall v, f v = reval [(a 0%nat, [0; 0]%nat); (a 1%nat, [1; 0]%nat); (a 2%nat, [2; 0]%nat); (a 3%nat, [3; 0]%nat); (a 4%nat, [0; 1]%nat); (a 5%nat, [1; 1]%nat); (a 6%nat, [2; 1]%nat); (a 7%nat, [0; 2]%nat); (a 8%nat, [1; 2]%nat); (a 9%nat, [0; 3]%nat)] v.
Proof.
  intros H. destruct (polynomial_set_1d_ok 2 3 ltac:(lia)) as (ms & HM & LB). injection HM as <-. destruct (mono_span _ _ f LB H) as (a & E). exists a. intros v. rewrite E. cbn [length sum nth reval fold_right fst snd map]. ring.
Qed.
Lemma constant (f : sfun) : P_space 2 0 f -> exists a, forall v, f v = a.
Proof.
  intros H. destruct (polynomial_set_1d_ok 2 0 ltac:(lia)) as (ms & HM & LB). injection HM as <-. destruct (mono_span _ _ f LB H) as (a & E). exists (a 0%nat). intros v. rewrite E. cbn [length sum nth]. unfold meval. cbn [meval_from pow]. ring.
Qed.
Definition at2 (x y : R) : point := fun i => match i with O => x | S O => y | _ => 0 end.
Ltac values := unfold field, zeval, meval; cbn [fst snd nth map fold_right meval_from pow].

(** * Nonconforming Arnold-Winther *)
Definition naw : list vpoly := Eval cbv in match FamiliesModel.naw_poly 2 2 with Ok l => l | Err _ => [] end.
Lemma naw_value c k v : sum (length naw) (fun i => c i * field (nth i naw []) (k, v)) = match k with
  | O => c 0%nat + c 3%nat * v 0%nat + c 6%nat * v 1%nat + (- 2 * c 10%nat + c 12%nat + c 13%nat + c 14%nat) * (v 0%nat * v 0%nat) + (- 2 * c 11%nat + c 12%nat) * (v 0%nat * v 1%nat)
  | S O | S (S O) => c 1%nat + c 4%nat * v 0%nat + c 7%nat * v 1%nat + c 9%nat * (v 1%nat * v 1%nat) + c 10%nat * (v 0%nat * v 0%nat) + c 11%nat * (v 0%nat * v 1%nat)
  | S (S (S O)) => c 2%nat + c 5%nat * v 0%nat + c 8%nat * v 1%nat + (- 2 * c 9%nat - c 14%nat) * (v 1%nat * v 1%nat) + c 13%nat * (v 0%nat * v 1%nat)
  | _ => 0 end.
Proof. unfold naw. cbn [length sum]. destruct k as [|[|[|[|k]]]]; values; try ring. destruct k; cbn [nth map fold_right]; ring. Qed.
Lemma naw_basis : basis_of_fields naw nonconforming_space.
Proof.
  split; [|split].
  - intros F HF. split; [split; [|split]|].
    + intros c Hc. apply (zpoly_space 2 (nth c F [])). unfold naw in HF. repeat (destruct HF as [<-|HF]); try destruct HF; do 4 (destruct c as [|c]; [reflexivity|]); lia.
    + intros v. unfold naw in HF. repeat (destruct HF as [<-|HF]); try destruct HF; reflexivity.
    + intros c v Hc. apply field_beyond. unfold naw in HF. repeat (destruct HF as [<-|HF]); try destruct HF; exact Hc.
    + intros e He. apply affine_intro. intros t. unfold naw in HF. repeat (destruct HF as [<-|HF]); try destruct HF; (destruct e as [|[|[|e]]]; [| | |lia]); cbn [sum Nat.mul Nat.add edge_normal]; values; cbn [triangle_edge]; ring.
  - intros c Z. assert (V : forall k x y, _) by (intros k x y; exact (eq_trans (eq_sym (naw_value c k (at2 x y))) (Z (k, at2 x y)))). clear Z. cbn [at2] in V.
    pose proof (V 0%nat 0 0) as A1. pose proof (V 0%nat 1 0) as A2. pose proof (V 0%nat 2 0) as A3. pose proof (V 0%nat 0 1) as A4. pose proof (V 0%nat 1 1) as A5.
    pose proof (V 1%nat 0 0) as B1. pose proof (V 1%nat 1 0) as B2. pose proof (V 1%nat 2 0) as B3. pose proof (V 1%nat 0 1) as B4. pose proof (V 1%nat 0 2) as B5. pose proof (V 1%nat 1 1) as B6.
    pose proof (V 3%nat 0 0) as C1. pose proof (V 3%nat 1 0) as C2. pose proof (V 3%nat 0 1) as C3. pose proof (V 3%nat 0 2) as C4. pose proof (V 3%nat 1 1) as C5. clear V. cbv iota in *.
    assert (c 1%nat = 0) by lra. assert (c 4%nat = 0) by lra. assert (c 10%nat = 0) by lra. assert (c 7%nat = 0) by lra. assert (c 9%nat = 0) by lra. assert (c 11%nat = 0) by lra.
    assert (c 0%nat = 0) by lra. assert (c 6%nat = 0) by lra. assert (c 2%nat = 0) by lra. assert (c 5%nat = 0) by lra. assert (c 8%nat = 0) by lra. assert (c 14%nat = 0) by lra. assert (c 13%nat = 0) by lra. assert (c 3%nat = 0) by lra. assert (c 12%nat = 0) by lra.
    intros i Hi. cbn in Hi. do 15 (destruct i as [|i]; [assumption|]). lia.
  - intros f ((P & Sy & B) & N). destruct (quadratic _ (P 0%nat ltac:(lia))) as (a & Ea). destruct (quadratic _ (P 1%nat ltac:(lia))) as (b & Eb). destruct (quadratic _ (P 3%nat ltac:(lia))) as (d & Ed). cbv beta in Ea, Eb, Ed.
    pose proof (affine_at _ (N 0%nat ltac:(lia)) 2) as N0. pose proof (affine_at _ (N 1%nat ltac:(lia)) 2) as N1. pose proof (affine_at _ (N 2%nat ltac:(lia)) 2) as N2. clear N P. cbn [sum Nat.mul Nat.add edge_normal] in N0, N1, N2.
    rewrite <- !Sy, !Ea, !Eb, !Ed in N0, N1, N2. unfold reval, meval in *. cbn [fold_right fst snd meval_from pow triangle_edge] in *.
    assert (Q1 : a 5%nat = 0) by lra. assert (Q2 : d 2%nat = 0) by lra. assert (Q3 : a 2%nat = (a 4%nat + 2 * b 4%nat) + d 4%nat - (d 5%nat + 2 * b 5%nat) - 2 * b 2%nat) by lra.
    exists (fun i => nth i [a 0%nat; b 0%nat; d 0%nat; a 1%nat; b 1%nat; d 1%nat; a 3%nat; b 3%nat; d 3%nat; b 5%nat; b 2%nat; b 4%nat; (a 4%nat + 2 * b 4%nat); d 4%nat; - (d 5%nat + 2 * b 5%nat)] 0).
    intros [k v]. rewrite naw_value. cbn [nth]. destruct k as [|[|[|[|k]]]]; [rewrite Ea, Q1, Q3; ring|rewrite Eb; ring|rewrite <- Sy, Eb; ring|rewrite Ed, Q2; ring|apply B; lia].
Qed.

(** * Mardal-Tai-Winther *)
Definition mtw : list vpoly := Eval cbv in FamiliesModel.mtw_triangle_poly.
Lemma mtw_value c k v : sum (length mtw) (fun i => c i * field (nth i mtw []) (k, v)) = match k with
  | O => c 0%nat + c 1%nat * v 0%nat + c 2%nat * v 1%nat + (c 6%nat + 2 * c 7%nat + c 8%nat) * (v 0%nat * v 0%nat) + 2 * c 6%nat * (v 0%nat * v 1%nat)
         - c 7%nat * (v 0%nat * v 0%nat * v 0%nat) + 2 * c 8%nat * (v 0%nat * v 0%nat * v 1%nat) + (3 * c 7%nat + 3 * c 8%nat) * (v 0%nat * v 1%nat * v 1%nat)
  | S O => c 3%nat + c 4%nat * v 0%nat + c 5%nat * v 1%nat + (- 2 * c 6%nat - 4 * c 7%nat - 2 * c 8%nat) * (v 0%nat * v 1%nat) - c 6%nat * (v 1%nat * v 1%nat)
         + 3 * c 7%nat * (v 0%nat * v 0%nat * v 1%nat) - 2 * c 8%nat * (v 0%nat * v 1%nat * v 1%nat) - (c 7%nat + c 8%nat) * (v 1%nat * v 1%nat * v 1%nat)
  | _ => 0 end.
Proof. unfold mtw. cbn [length sum]. destruct k as [|[|k]]; values; try ring. destruct k; cbn [nth map fold_right]; ring. Qed.
Lemma mtw_basis : basis_of_fields mtw mardal_tai_winther_space.
Proof.
  split; [|split].
  - intros F HF. split; [|split; [|split]].
    + intros c Hc. apply (zpoly_space 3 (nth c F [])). unfold mtw in HF. repeat (destruct HF as [<-|HF]); try destruct HF; do 2 (destruct c as [|c]; [reflexivity|]); lia.
    + intros c v Hc. apply field_beyond. unfold mtw in HF. repeat (destruct HF as [<-|HF]); try destruct HF; exact Hc.
    + change (divergence_in 0 (zeval (nth 0 F [])) (zeval (nth 1 F []))). enough (Q : exists c, forall v, reval (rdiff 0 (to_r (nth 0 F []))) v + reval (rdiff 1 (to_r (nth 1 F []))) v = c) by (destruct Q as [c Q]; exact (div_const _ _ c Q)).
      unfold mtw in HF. repeat (destruct HF as [<-|HF]); try destruct HF; [exists 0|exists 1|exists 0|exists 0|exists 0|exists 1|exists 0|exists 0|exists 0]; intros v; unfold rdiff, to_r, reval, meval; cbn [map filter fst snd nth Nat.leb fold_right dec_at meval_from pow Nat.sub INR]; ring.
    + intros e He. apply affine_intro. intros t. unfold mtw in HF. repeat (destruct HF as [<-|HF]); try destruct HF; (destruct e as [|[|[|e]]]; [| | |lia]); cbn [sum edge_normal]; values; cbn [triangle_edge]; ring.
  - intros c Z. assert (V : forall k x y, _) by (intros k x y; exact (eq_trans (eq_sym (mtw_value c k (at2 x y))) (Z (k, at2 x y)))). clear Z. cbn [at2] in V.
    pose proof (V 0%nat 0 0) as A1. pose proof (V 0%nat 1 0) as A2. pose proof (V 0%nat 2 0) as A3. pose proof (V 0%nat 3 0) as A6. pose proof (V 0%nat 0 1) as A4. pose proof (V 0%nat 1 1) as A5. pose proof (V 0%nat 1 2) as A7. pose proof (V 0%nat 2 1) as A8.
    pose proof (V 1%nat 0 0) as B1. pose proof (V 1%nat 1 0) as B2. pose proof (V 1%nat 0 1) as B3. clear V. cbv iota in *.
    assert (c 0%nat = 0) by lra. assert (c 7%nat = 0) by lra. assert (c 2%nat = 0) by lra. assert (c 8%nat = 0) by lra. assert (c 6%nat = 0) by lra. assert (c 1%nat = 0) by lra. assert (c 3%nat = 0) by lra. assert (c 4%nat = 0) by lra. assert (c 5%nat = 0) by lra.
    intros i Hi. cbn in Hi. do 9 (destruct i as [|i]; [assumption|]). lia.
  - intros f (P & B & (h & Hh & D) & N). destruct (cubic _ (P 0%nat ltac:(lia))) as (a & Ea). destruct (cubic _ (P 1%nat ltac:(lia))) as (b & Eb). destruct (constant _ Hh) as (g & Eg). cbv beta in Ea, Eb.
    assert (V : forall x y, a 1%nat + 2 * a 2%nat * x + 3 * a 3%nat * (x * x) + a 5%nat * y + 2 * a 6%nat * (x * y) + a 8%nat * (y * y) + (b 4%nat + b 5%nat * x + b 6%nat * (x * x) + 2 * b 7%nat * y + 2 * b 8%nat * (x * y) + 3 * b 9%nat * (y * y)) = g).
    { intros x y. destruct (D (at2 x y)) as (p & q & Pp & Pq & E). rewrite Eg in E. rewrite E.
      rewrite (functional_extensionality _ _ Ea) in Pp. rewrite (functional_extensionality _ _ Eb) in Pq. rewrite (is_partial_unique _ _ _ _ _ Pp (reval_partial _ _ _)), (is_partial_unique _ _ _ _ _ Pq (reval_partial _ _ _)).
      unfold rdiff, reval, meval. cbn [map filter fst snd nth Nat.leb fold_right dec_at meval_from pow Nat.sub INR at2]. ring. }
    pose proof (V 0 0) as V1. pose proof (V 1 0) as V2. pose proof (V 2 0) as V3. pose proof (V 0 1) as V4. pose proof (V 0 2) as V5. pose proof (V 1 1) as V6. clear V D Hh Eg.
    pose proof (affine_at _ (N 0%nat ltac:(lia)) 2) as N0. pose proof (affine_at _ (N 1%nat ltac:(lia)) 2) as N1. pose proof (affine_at _ (N 2%nat ltac:(lia)) 2) as N2. pose proof (affine_at _ (N 0%nat ltac:(lia)) 3) as M0. pose proof (affine_at _ (N 1%nat ltac:(lia)) 3) as M1. pose proof (affine_at _ (N 2%nat ltac:(lia)) 3) as M2. clear N P.
    cbn [sum edge_normal] in N0, N1, N2, M0, M1, M2. rewrite !Ea, !Eb in N0, N1, N2, M0, M1, M2. unfold reval, meval in *. cbn [fold_right fst snd meval_from pow triangle_edge] in *.
    assert (Q1 : a 7%nat = 0) by lra. assert (Q2 : a 9%nat = 0) by lra. assert (Q3 : b 2%nat = 0) by lra. assert (Q4 : b 3%nat = 0) by lra.
    assert (Q5 : b 5%nat = - 2 * a 2%nat) by lra. assert (Q6 : b 6%nat = - 3 * a 3%nat) by lra. assert (Q7 : b 8%nat = - a 6%nat) by lra.
    set (w := a 2%nat + 2 * a 3%nat - a 6%nat / 2). assert (Q8 : a 5%nat = 2 * w) by (unfold w; lra). assert (Q9 : b 7%nat = - w) by (unfold w; lra). assert (Q10 : a 8%nat = - 3 * a 3%nat + 3 / 2 * a 6%nat) by lra. assert (Q11 : b 9%nat = a 3%nat - a 6%nat / 2) by lra.
    exists (fun i => nth i [a 0%nat; a 1%nat; a 4%nat; b 0%nat; b 1%nat; b 4%nat; w; - a 3%nat; a 6%nat / 2] 0).
    intros [k v]. rewrite mtw_value. cbn [nth]. destruct k as [|[|k]]; [rewrite Ea, Q1, Q2, Q8, Q10; unfold w; field|rewrite Eb, Q3, Q4, Q5, Q6, Q7, Q9, Q11; unfold w; field|apply B; lia].
Qed.
