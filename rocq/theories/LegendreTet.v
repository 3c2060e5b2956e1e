(** The table of orthogonal polynomials on the tetrahedron. *)
From Coq Require Import String Arith ZArith Reals Lia Lra Bool Sorted List.
From Verif Require Import Base PolyLib PolySetsModel PolyVec LegendreModel LegendreTables LegendreProofs.
Import ListNotations.
Open Scope R_scope.

Fixpoint hp (v0 v1 v2 p dx dy dz : nat) (v : point) : R :=
  match p with
  | O => if is0 dx && is0 dy && is0 dz then 1 else 0
  | S p1 =>
      let w := 1 / INR p in
      hp v0 v1 v2 p1 dx dy dz v * ((2 * v v0 + v v1 + v v2 - 1) * (2 - w)) +
      hp v0 v1 v2 p1 (dx - 1) dy dz v * (2 * INR dx * (2 - w)) +
      hp v0 v1 v2 p1 dx (dy - 1) dz v * (INR dy * (2 - w)) +
      hp v0 v1 v2 p1 dx dy (dz - 1) v * (INR dz * (2 - w)) +
      match p1 with
      | O => 0
      | S p2 =>
          hp v0 v1 v2 p2 dx dy dz v * (- ((v v1 + v v2 - 1) * (v v1 + v v2 - 1) * (1 - w))) +
          hp v0 v1 v2 p2 dx (dy - 1) dz v * (- (2 * (v v1 + v v2 - 1) * INR dy * (1 - w))) +
          hp v0 v1 v2 p2 dx (dy - 2) dz v * (- (INR dy * INR (dy - 1) * (1 - w))) +
          hp v0 v1 v2 p2 dx dy (dz - 1) v * (- (2 * (v v1 + v v2 - 1) * INR dz * (1 - w))) +
          hp v0 v1 v2 p2 dx dy (dz - 2) v * (- (INR dz * INR (dz - 1) * (1 - w))) +
          hp v0 v1 v2 p2 dx (dy - 1) (dz - 1) v * (- (2 * INR dz * INR dy * (1 - w)))
      end
  end.
Lemma hp_S v0 v1 v2 p1 dx dy dz v : hp v0 v1 v2 (S p1) dx dy dz v =
      let w := 1 / INR (S p1) in
      hp v0 v1 v2 p1 dx dy dz v * ((2 * v v0 + v v1 + v v2 - 1) * (2 - w)) +
      hp v0 v1 v2 p1 (dx - 1) dy dz v * (2 * INR dx * (2 - w)) +
      hp v0 v1 v2 p1 dx (dy - 1) dz v * (INR dy * (2 - w)) +
      hp v0 v1 v2 p1 dx dy (dz - 1) v * (INR dz * (2 - w)) +
      match p1 with
      | O => 0
      | S p2 =>
          hp v0 v1 v2 p2 dx dy dz v * (- ((v v1 + v v2 - 1) * (v v1 + v v2 - 1) * (1 - w))) +
          hp v0 v1 v2 p2 dx (dy - 1) dz v * (- (2 * (v v1 + v v2 - 1) * INR dy * (1 - w))) +
          hp v0 v1 v2 p2 dx (dy - 2) dz v * (- (INR dy * INR (dy - 1) * (1 - w))) +
          hp v0 v1 v2 p2 dx dy (dz - 1) v * (- (2 * (v v1 + v v2 - 1) * INR dz * (1 - w))) +
          hp v0 v1 v2 p2 dx dy (dz - 2) v * (- (INR dz * INR (dz - 1) * (1 - w))) +
          hp v0 v1 v2 p2 dx (dy - 1) (dz - 1) v * (- (2 * INR dz * INR dy * (1 - w)))
      end.
Proof. reflexivity. Qed.
Fixpoint hq (v0 v1 v2 q p dx dy dz : nat) (v : point) : R :=
  match q with
  | O => hp v0 v1 v2 p dx dy dz v
  | S q1 =>
      let '(a, b, c) := jrc (2 * p + 1) q1 in
      hq v0 v1 v2 q1 p dx dy dz v * ((2 * v v1 + v v2 - 1) * a + (1 - v v2) * b) +
      hq v0 v1 v2 q1 p dx (dy - 1) dz v * (2 * a * INR dy) +
      hq v0 v1 v2 q1 p dx dy (dz - 1) v * ((a - b) * INR dz) +
      match q1 with
      | O => 0
      | S q2 =>
          hq v0 v1 v2 q2 p dx dy dz v * (- ((1 - v v2) * (1 - v v2) * c)) +
          hq v0 v1 v2 q2 p dx dy (dz - 1) v * (2 * (1 - v v2) * INR dz * c) +
          hq v0 v1 v2 q2 p dx dy (dz - 2) v * (- (INR dz * INR (dz - 1) * c))
      end
  end.
Lemma hq_S v0 v1 v2 q1 p dx dy dz v : hq v0 v1 v2 (S q1) p dx dy dz v =
      let '(a, b, c) := jrc (2 * p + 1) q1 in
      hq v0 v1 v2 q1 p dx dy dz v * ((2 * v v1 + v v2 - 1) * a + (1 - v v2) * b) +
      hq v0 v1 v2 q1 p dx (dy - 1) dz v * (2 * a * INR dy) +
      hq v0 v1 v2 q1 p dx dy (dz - 1) v * ((a - b) * INR dz) +
      match q1 with
      | O => 0
      | S q2 =>
          hq v0 v1 v2 q2 p dx dy dz v * (- ((1 - v v2) * (1 - v v2) * c)) +
          hq v0 v1 v2 q2 p dx dy (dz - 1) v * (2 * (1 - v v2) * INR dz * c) +
          hq v0 v1 v2 q2 p dx dy (dz - 2) v * (- (INR dz * INR (dz - 1) * c))
      end.
Proof. reflexivity. Qed.
Fixpoint hr (v0 v1 v2 r q p dx dy dz : nat) (v : point) : R :=
  match r with
  | O => hq v0 v1 v2 q p dx dy dz v
  | S r1 =>
      let '(a, b, c) := jrc (2 * p + 2 * q + 2) r1 in
      hr v0 v1 v2 r1 q p dx dy dz v * ((v v2 * 2 - 1) * a + b) +
      hr v0 v1 v2 r1 q p dx dy (dz - 1) v * (2 * a * INR dz) +
      match r1 with O => 0 | S r2 => hr v0 v1 v2 r2 q p dx dy dz v * (- c) end
  end.
Lemma hr_S v0 v1 v2 r1 q p dx dy dz v : hr v0 v1 v2 (S r1) q p dx dy dz v =
      let '(a, b, c) := jrc (2 * p + 2 * q + 2) r1 in
      hr v0 v1 v2 r1 q p dx dy dz v * ((v v2 * 2 - 1) * a + b) +
      hr v0 v1 v2 r1 q p dx dy (dz - 1) v * (2 * a * INR dz) +
      match r1 with O => 0 | S r2 => hr v0 v1 v2 r2 q p dx dy dz v * (- c) end.
Proof. reflexivity. Qed.

(** the three derivatives of a family indexed by derivative orders *)
Definition der3 (v0 v1 v2 : nat) (F : nat -> nat -> nat -> point -> R) : Prop :=
  forall dx dy dz, der v0 (F dx dy dz) (F (S dx) dy dz) /\ der v1 (F dx dy dz) (F dx (S dy) dz) /\ der v2 (F dx dy dz) (F dx dy (S dz)).
Ltac proj k H :=
  lazymatch k with
  | 0%nat => exact (proj1 (H _ _ _))
  | 1%nat => exact (proj1 (proj2 (H _ _ _)))
  | 2%nat => exact (proj2 (proj2 (H _ _ _)))
  end.

Section Tet.
Context (v0 v1 v2 : nat) (N01 : v0 <> v1) (N02 : v0 <> v2) (N12 : v1 <> v2) (N10 : v1 <> v0) (N20 : v2 <> v0) (N21 : v2 <> v1).

Ltac go eqS IH1 IH2 k d :=
  eapply der_ext; [intros v; symmetry; apply eqS|]; cbv iota zeta;
  eapply der_eq; [der_sum ltac:(first [proj k IH1 | proj k IH2])|]; intros v; cbv beta; rewrite eqS; cbv iota zeta; guards d.

Lemma hp_der p : der3 v0 v1 v2 (hp v0 v1 v2 p).
Proof.
  assert (H0 : der3 v0 v1 v2 (hp v0 v1 v2 0)).
  { intros dx dy dz. simpl. rewrite !andb_false_r. simpl. repeat split; apply der_const. }
  induction p as [| |p IH1 IH2] using two_step; [exact H0| |]; intros dx dy dz.
  - split; [|split].
    + go (hp_S v0 v1 v2 0) H0 H0 0%nat dx.
    + go (hp_S v0 v1 v2 0) H0 H0 1%nat dy.
    + go (hp_S v0 v1 v2 0) H0 H0 2%nat dz.
  - generalize (hp_S v0 v1 v2 (S p)). cbv iota zeta. generalize (1 / INR (S (S p))). intros w Es. split; [|split].
    + go Es IH1 IH2 0%nat dx.
    + go Es IH1 IH2 1%nat dy.
    + go Es IH1 IH2 2%nat dz.
Qed.
Lemma hq_der p q : der3 v0 v1 v2 (hq v0 v1 v2 q p).
Proof.
  assert (H0 : der3 v0 v1 v2 (hq v0 v1 v2 0 p)) by exact (hp_der p).
  induction q as [| |q IH1 IH2] using two_step; [exact H0| |]; intros dx dy dz.
  - generalize (hq_S v0 v1 v2 0 p). destruct (jrc (2 * p + 1) 0) as [[a b] c]. intros Es. split; [|split].
    + go Es H0 H0 0%nat dx.
    + go Es H0 H0 1%nat dy.
    + go Es H0 H0 2%nat dz.
  - generalize (hq_S v0 v1 v2 (S q) p). destruct (jrc (2 * p + 1) (S q)) as [[a b] c]. intros Es. split; [|split].
    + go Es IH1 IH2 0%nat dx.
    + go Es IH1 IH2 1%nat dy.
    + go Es IH1 IH2 2%nat dz.
Qed.
Lemma hr_der p q r : der3 v0 v1 v2 (hr v0 v1 v2 r q p).
Proof.
  assert (H0 : der3 v0 v1 v2 (hr v0 v1 v2 0 q p)) by exact (hq_der p q).
  induction r as [| |r IH1 IH2] using two_step; [exact H0| |]; intros dx dy dz.
  - generalize (hr_S v0 v1 v2 0 q p). destruct (jrc (2 * p + 2 * q + 2) 0) as [[a b] c]. intros Es. split; [|split].
    + go Es H0 H0 0%nat dx.
    + go Es H0 H0 1%nat dy.
    + go Es H0 H0 2%nat dz.
  - generalize (hr_S v0 v1 v2 (S r) q p). destruct (jrc (2 * p + 2 * q + 2) (S r)) as [[a b] c]. intros Es. split; [|split].
    + go Es IH1 IH2 0%nat dx.
    + go Es IH1 IH2 1%nat dy.
    + go Es IH1 IH2 2%nat dz.
Qed.
End Tet.

Definition key_tet (m : list nat) : nat * nat :=
  match m with [dx; dy; dz; p; q; r] => (index3 dx dy dz, index3 r q p) | _ => (0, 0)%nat end.

Lemma rbind_assoc {A B C} (a : res A) (f : A -> res B) (g : B -> res C) : rbind (rbind a f) g = rbind a (fun x => rbind (f x) g).
Proof. destruct a; reflexivity. Qed.
(** a first step before a loop whose first iteration only runs the inner loop *)
Lemma for_in_peel2 {T} n (f0 : T -> res T) (g : nat -> T -> res T) (inner : nat -> T -> res T) (s : T) :
  rbind (f0 s) (for_in (range (n + 1)) (fun q t => rbind (if (0 <? q)%nat then g q t else Ok t) (inner q))) =
  for_in (range (n + 1)) (fun q t => rbind (if is0 q then f0 t else g q t) (inner q)) s.
Proof.
  rewrite range_cons, for_in_cons. cbn [is0 Nat.eqb]. rewrite rbind_assoc. destruct (f0 s) as [s'|e]; [|reflexivity]. cbn [rbind].
  rewrite for_in_cons. change (0 <? 0)%nat with false. cbn [rbind]. destruct (inner 0%nat s') as [s''|e]; [|reflexivity]. cbn [rbind].
  apply for_in_ext. intros a x Ha. apply in_range2 in Ha. unfold is0. destruct a as [|a]; [lia|]. reflexivity.
Qed.

Lemma tetrahedron_table order derivs v0 v1 v2 : exists t, orthogonal_basis_tetrahedron order derivs [v0; v1; v2] = Ok t /\
  shape ((derivs + 1) * (derivs + 2) * (derivs + 3) / 6) ((order + 1) * (order + 2) * (order + 3) / 6) t /\
  forall dx dy dz p q r, (dx + dy + dz <= derivs)%nat -> (r + q + p <= order)%nat ->
    entry t (index3 dx dy dz, index3 r q p) (hr v0 v1 v2 r q p dx dy dz).
Proof.
  set (nd := ((derivs + 1) * (derivs + 2) * (derivs + 3) / 6)%nat). set (ni := ((order + 1) * (order + 2) * (order + 3) / 6)%nat).
  set (ms := nest (range (derivs + 1)) (fun dx => nest (range (derivs + 1 - dx)) (fun dy => nest (range (derivs + 1 - dx - dy)) (fun dz =>
             nest (range (order + 1)) (fun p => nest (range (order - p + 1)) (fun q => map (fun r => [r]) (range (order - p - q + 1)))))))).
  set (step := fun (m : list nat) => match m with [dx; dy; dz; p; q; r] =>
        if is0 r then (if is0 q then tetrahedron_p v0 v1 v2 dx dy dz p else tetrahedron_q v1 v2 dx dy dz p q)
        else tetrahedron_r v2 dx dy dz p q r | _ => fun t => Ok t end).
  assert (Hin : forall m, In m ms <-> exists dx dy dz p q r, m = [dx; dy; dz; p; q; r] /\ (dx + dy + dz <= derivs)%nat /\ (r + q + p <= order)%nat).
  { intros m. unfold ms. split.
    - rewrite in_nest. intros (dx & m1 & -> & H1 & Hm). rewrite in_nest in Hm. destruct Hm as (dy & m2 & -> & H2 & Hm).
      rewrite in_nest in Hm. destruct Hm as (dz & m3 & -> & H3 & Hm). rewrite in_nest in Hm. destruct Hm as (p & m4 & -> & H4 & Hm).
      rewrite in_nest in Hm. destruct Hm as (q & m5 & -> & H5 & Hm). apply in_map_iff in Hm. destruct Hm as (r & <- & H6).
      apply in_range in H1, H2, H3, H4, H5, H6. exists dx, dy, dz, p, q, r. split; [reflexivity|lia].
    - intros (dx & dy & dz & p & q & r & -> & Hd & Hi). apply in_nest. exists dx, [dy; dz; p; q; r]. split; [reflexivity|]. split; [apply in_range; lia|].
      apply in_nest. exists dy, [dz; p; q; r]. split; [reflexivity|]. split; [apply in_range; lia|].
      apply in_nest. exists dz, [p; q; r]. split; [reflexivity|]. split; [apply in_range; lia|].
      apply in_nest. exists p, [q; r]. split; [reflexivity|]. split; [apply in_range; lia|].
      apply in_nest. exists q, [r]. split; [reflexivity|]. split; [apply in_range; lia|]. apply in_map_iff. exists r. split; [reflexivity|apply in_range; lia]. }
  destruct (fill lexlt step key_tet (fun m => match m with [dx; dy; dz; p; q; r] => hr v0 v1 v2 r q p dx dy dz | _ => fun _ => 0 end) nd ni ms (zeros nd ni))
    as (t & E & Sh & K & H).
  - repeat (apply sorted_nest; [apply sorted_seq|intros ? _]). apply sorted_leaf, sorted_seq.
  - apply lexlt_irrefl.
  - intros a b. apply lexlt_asym.
  - intros a b Ha Hb Ek. apply Hin in Ha. apply Hin in Hb. destruct Ha as (dx & dy & dz & p & q & r & -> & _). destruct Hb as (dx' & dy' & dz' & p' & q' & r' & -> & _).
    cbn [key_tet] in Ek. injection Ek as E1 E2. apply index3_inj in E1, E2. destruct E1 as (-> & -> & ->), E2 as (-> & -> & ->). reflexivity.
  - intros m Hm. apply Hin in Hm. destruct Hm as (dx & dy & dz & p & q & r & -> & Hd & Hi). cbn [key_tet fst snd]. split; apply index3_lt; assumption.
  - apply zeros_shape.
  - intros m t Hm Sh K H. apply Hin in Hm. destruct Hm as (dx & dy & dz & p & q & r & -> & Hd & Hi).
    assert (Rd : forall dx' dy' dz' p' q' r', (dx' + dy' + dz' <= derivs)%nat -> (r' + q' + p' <= order)%nat -> lexlt [dx'; dy'; dz'; p'; q'; r'] [dx; dy; dz; p; q; r] ->
       exists f, tget t (index3 dx' dy' dz') (index3 r' q' p') = Ok f /\ forall v, f v = hr v0 v1 v2 r' q' p' dx' dy' dz' v).
    { intros dx' dy' dz' p' q' r' Hd' Hi' Lt. apply (H [dx'; dy'; dz'; p'; q'; r']); [|exact Lt]. apply Hin. exists dx', dy', dz', p', q', r'. auto. }
    clear H K. unfold step, key_tet. cbn [fst snd]. destruct r as [|r1]; cbn [is0 Nat.eqb]; [destruct q as [|q1]; cbn [is0 Nat.eqb]|].
    + unfold tetrahedron_p. destruct p as [|p1]; cbn [is0 Nat.eqb].
      * eexists. split; [reflexivity|]. intros v. reflexivity.
      * cbv zeta. replace (S p1 - 1)%nat with p1 by lia. match goal with |- context [assign ?d ?i ?l ?t] =>
          destruct (assign_spec d i l t [hp v0 v1 v2 p1 dx dy dz; hp v0 v1 v2 p1 (dx - 1) dy dz; hp v0 v1 v2 p1 dx (dy - 1) dz; hp v0 v1 v2 p1 dx dy (dz - 1);
            hp v0 v1 v2 (S p1 - 2) dx dy dz; hp v0 v1 v2 (S p1 - 2) dx (dy - 1) dz; hp v0 v1 v2 (S p1 - 2) dx (dy - 2) dz;
            hp v0 v1 v2 (S p1 - 2) dx dy (dz - 1); hp v0 v1 v2 (S p1 - 2) dx dy (dz - 2); hp v0 v1 v2 (S p1 - 2) dx (dy - 1) (dz - 1)]) as (f & Ef & Hf) end.
        -- repeat (apply Forall2_cons; [|]); [..|apply Forall2_nil]; cbn [guard t_d t_i]; intros Gd;
             repeat match goal with G : (_ && _)%bool = true |- _ => apply andb_prop in G; destruct G end;
             repeat match goal with G : (_ <? _)%nat = true |- _ => apply Nat.ltb_lt in G end;
             (match goal with |- exists f, tget t (index3 ?a ?b ?e) (index3 0 0 ?c) = _ /\ _ => apply (Rd a b e c 0 0)%nat end; [lia|lia|cbn [lexlt]; lia]).
        -- exists f. split; [exact Ef|]. intros v. rewrite Hf. cbn [combine map fold_right fst snd guard t_c hr hq]. rewrite hp_S. cbv zeta.
           destruct p1 as [|p2]; destruct dx as [|dx]; destruct dy as [|[|dy]]; destruct dz as [|[|dz]]; cbn [Nat.ltb Nat.leb andb Nat.sub]; rewrite ?Nat.sub_0_r; change (INR 0) with 0; ring.
    + unfold tetrahedron_q. replace (S q1 - 1)%nat with q1 by lia. destruct (jrc (2 * p + 1) q1) as [[a b] c] eqn:Ej. cbv zeta.
      match goal with |- context [assign ?d ?i ?l ?t] =>
          destruct (assign_spec d i l t [hq v0 v1 v2 q1 p dx dy dz; hq v0 v1 v2 q1 p dx (dy - 1) dz; hq v0 v1 v2 q1 p dx dy (dz - 1);
             hq v0 v1 v2 (S q1 - 2) p dx dy dz; hq v0 v1 v2 (S q1 - 2) p dx dy (dz - 1); hq v0 v1 v2 (S q1 - 2) p dx dy (dz - 2)]) as (f & Ef & Hf) end.
      -- repeat (apply Forall2_cons; [|]); [..|apply Forall2_nil]; cbn [guard t_d t_i]; intros Gd;
             repeat match goal with G : (_ && _)%bool = true |- _ => apply andb_prop in G; destruct G end;
             repeat match goal with G : (_ <? _)%nat = true |- _ => apply Nat.ltb_lt in G end;
             (match goal with |- exists f, tget t (index3 ?a ?b ?e) (index3 0 ?d ?c) = _ /\ _ => apply (Rd a b e c d 0)%nat end; [lia|lia|cbn [lexlt]; lia]).
      -- exists f. split; [exact Ef|]. intros v. rewrite Hf. cbn [combine map fold_right fst snd guard t_c hr]. rewrite hq_S, Ej.
         destruct q1 as [|q2]; destruct dy as [|dy]; destruct dz as [|[|dz]]; cbn [Nat.ltb Nat.leb andb Nat.sub]; rewrite ?Nat.sub_0_r; change (INR 0) with 0; ring.
    + unfold tetrahedron_r. replace (S r1 - 1)%nat with r1 by lia. destruct (jrc (2 * p + 2 * q + 2) r1) as [[a b] c] eqn:Ej. cbv zeta.
      match goal with |- context [assign ?d ?i ?l ?t] =>
          destruct (assign_spec d i l t [hr v0 v1 v2 r1 q p dx dy dz; hr v0 v1 v2 r1 q p dx dy (dz - 1); hr v0 v1 v2 (S r1 - 2) q p dx dy dz]) as (f & Ef & Hf) end.
      -- repeat (apply Forall2_cons; [|]); [..|apply Forall2_nil]; cbn [guard t_d t_i]; intros Gd;
             repeat match goal with G : (_ <? _)%nat = true |- _ => apply Nat.ltb_lt in G end;
             (match goal with |- exists f, tget t (index3 ?a ?b ?e) (index3 ?h ?d ?c) = _ /\ _ => apply (Rd a b e c d h)%nat end; [lia|lia|cbn [lexlt]; lia]).
      -- exists f. split; [exact Ef|]. intros v. rewrite Hf. cbn [combine map fold_right fst snd guard t_c]. rewrite hr_S, Ej.
         destruct r1 as [|r2]; destruct dz as [|dz]; cbn [Nat.ltb Nat.leb andb Nat.sub]; rewrite ?Nat.sub_0_r; change (INR 0) with 0; ring.
  - exists t. split; [|split; [exact Sh|]].
    + unfold orthogonal_basis_tetrahedron. fold nd ni. rewrite <- E. unfold ms. rewrite for_in_nest. apply for_in_ext. intros dx s1 _.
      rewrite for_in_nest. apply for_in_ext. intros dy s2 _. rewrite for_in_nest. apply for_in_ext. intros dz s3 _.
      rewrite for_in_nest. apply for_in_ext. intros p s4 _. rewrite for_in_peel2, for_in_nest. apply for_in_ext. intros q s5 _.
      rewrite for_in_map. rewrite (for_in_peel (order - p - q) (fun t => if is0 q then tetrahedron_p v0 v1 v2 dx dy dz p t else tetrahedron_q v1 v2 dx dy dz p q t)).
      apply for_in_ext. intros r s6 _. cbn [step]. destruct (is0 r), (is0 q); reflexivity.
    + intros dx dy dz p q r Hd Hi. apply (H [dx; dy; dz; p; q; r]). apply Hin. exists dx, dy, dz, p, q, r. auto.
Qed.
