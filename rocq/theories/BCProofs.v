(** Proofs about the Buffa-Christiansen functions of DualModel.v. *)
From Coquelicot Require Import Coquelicot.
From Coq Require Import String Arith ZArith Bool Reals Lra Lia List.
From Verif Require Import Base PolyLib ReferencesModel ReferencesSpec ReferencesProofs ReferencesGeometry PropertiesReferences LinAlg CiarletModel ElementModel
  LagrangeProofs QDofs DualModel DualProofs.
Import ListNotations.
Open Scope R_scope.

(** * The functions of the fine space *)
(** phi are basis functions of the Raviart-Thomas element: combinations of its polynomial set, dual to its moments. *)
Definition is_rt_basis (phi : list vfn) : Prop :=
  length phi = 3%nat /\
  (forall i, (i < 3)%nat -> exists a b c, forall v, nth i phi (fun _ => (0, 0)) v = (a + c * v 0%nat, b + c * v 1%nat)) /\
  (forall e i, (e < 3)%nat -> (i < 3)%nat -> exists g, rt_integrand e (nth i phi (fun _ => (0, 0))) = Ok g /\ is_RInt g 0 1 (if (e =? i)%nat then 1 else 0)).

Lemma affine_integral (al be I : R) (g : R -> R) : (forall s, g s = al + be * s) -> is_RInt g 0 1 I -> I = al + be / 2.
Proof.
  intros Hg HI. apply (@is_RInt_unique R_CompleteNormedModule) in HI. rewrite <- HI.
  assert (J : is_RInt g 0 1 ((al * 1 + be * 1 ^ 2 / 2) - (al * 0 + be * 0 ^ 2 / 2))).
  { apply (@is_RInt_derive R_CompleteNormedModule (fun s => al * s + be * s ^ 2 / 2) g).
    - intros s _. rewrite Hg. auto_derive; [exact Logic.I|]. field.
    - intros s _. apply (@ex_derive_continuous R_AbsRing R_NormedModule). apply (ex_derive_ext (fun s => al + be * s)); [intros u; symmetry; apply Hg|]. auto_derive. exact Logic.I. }
  apply (@is_RInt_unique R_CompleteNormedModule) in J. rewrite J. field.
Qed.

Lemma rt_explicit phi : is_rt_basis phi ->
  (forall v, nth 0 phi (fun _ => (0, 0)) v = (- v 0%nat, - v 1%nat)) /\
  (forall v, nth 1 phi (fun _ => (0, 0)) v = (v 0%nat - 1, v 1%nat)) /\
  (forall v, nth 2 phi (fun _ => (0, 0)) v = (- v 0%nat, 1 - v 1%nat)).
Proof.
  intros (_ & F & D).
  assert (S2 : sqrt 2 <> 0) by (apply Rgt_not_eq, sqrt_lt_R0; lra).
  assert (Q : forall i a b c, (i < 3)%nat -> (forall v, nth i phi (fun _ => (0, 0)) v = (a + c * v 0%nat, b + c * v 1%nat)) ->
    - a - b - c = (if (i =? 0)%nat then 1 else 0) /\ - a = (if (i =? 1)%nat then 1 else 0) /\ b = (if (i =? 2)%nat then 1 else 0)).
  { intros i a b c Hi Hf. repeat split.
    - destruct (D 0%nat i ltac:(lia) Hi) as (g & Eg & Ig). apply (affine_integral (- a - b - c) 0) in Ig; [destruct i as [|[|[|]]]; try lia; cbn in *; lra|].
      intros s. cbn in Eg. injection Eg as <-. rewrite Hf. unfold env_of. cbn [fst snd nth].
      unfold vnormalise, vnorm, vdot, fnorm. cbn. 
      replace (sqrt (0 + (0 - 1) * ((0 - 1) * 1) + (1 - 0) * ((1 - 0) * 1))) with (sqrt 2) by (f_equal; ring).
      match goal with |- context [sqrt ?X] => replace (sqrt X) with (sqrt 2) by (f_equal; ring) end. field. exact S2.
    - destruct (D 1%nat i ltac:(lia) Hi) as (g & Eg & Ig). apply (affine_integral (- a) 0) in Ig; [destruct i as [|[|[|]]]; try lia; cbn in *; lra|].
      intros s. cbn in Eg. injection Eg as <-. rewrite Hf. unfold env_of. cbn [fst snd nth].
      unfold vnormalise, vnorm, vdot, fnorm. cbn.
      repeat match goal with |- context [sqrt ?X] => replace (sqrt X) with 1 by (symmetry; etransitivity; [|apply sqrt_1]; f_equal; ring) end. field.
    - destruct (D 2%nat i ltac:(lia) Hi) as (g & Eg & Ig). apply (affine_integral b 0) in Ig; [destruct i as [|[|[|]]]; try lia; cbn in *; lra|].
      intros s. cbn in Eg. injection Eg as <-. rewrite Hf. unfold env_of. cbn [fst snd nth].
      unfold vnormalise, vnorm, vdot, fnorm. cbn.
      repeat match goal with |- context [sqrt ?X] => replace (sqrt X) with 1 by (symmetry; etransitivity; [|apply sqrt_1]; f_equal; ring) end. field. }
  repeat split; intros v.
  - destruct (F 0%nat ltac:(lia)) as (a & b & c & Hf). destruct (Q 0%nat a b c ltac:(lia) Hf) as (Q0 & Q1 & Q2). cbn in Q0, Q1, Q2. rewrite Hf. f_equal; nra.
  - destruct (F 1%nat ltac:(lia)) as (a & b & c & Hf). destruct (Q 1%nat a b c ltac:(lia) Hf) as (Q0 & Q1 & Q2). cbn in Q0, Q1, Q2. rewrite Hf. f_equal; nra.
  - destruct (F 2%nat ltac:(lia)) as (a & b & c & Hf). destruct (Q 2%nat a b c ltac:(lia) Hf) as (Q0 & Q1 & Q2). cbn in Q0, Q1, Q2. rewrite Hf. f_equal; nra.
Qed.

(** such a basis exists *)
Lemma rt_exists : is_rt_basis [fun v => (- v 0%nat, - v 1%nat); fun v => (v 0%nat - 1, v 1%nat); fun v => (- v 0%nat, 1 - v 1%nat)].
Proof.
  assert (S2 : sqrt 2 <> 0) by (apply Rgt_not_eq, sqrt_lt_R0; lra).
  assert (K : forall (g : R -> R) (k : R), (forall s, g s = k) -> is_RInt g 0 1 k).
  { intros g k Hg. replace k with (k * 1 - k * 0) by ring. apply (@is_RInt_derive R_CompleteNormedModule (fun s => k * s) g).
    - intros s _. rewrite Hg. auto_derive; [exact Logic.I|]. ring.
    - intros s _. apply (@ex_derive_continuous R_AbsRing R_NormedModule). apply (ex_derive_ext (fun _ : R => k)); [intros u; symmetry; apply Hg|]. auto_derive. exact Logic.I. }
  split; [reflexivity|]. split.
  - intros i Hi. destruct i as [|[|[|i]]]; [exists 0, 0, (-1)|exists (-1), 0, 1|exists 0, 1, (-1)|lia]; intros v; cbn [nth]; f_equal; ring.
  - intros e i He Hi. destruct e as [|[|[|e]]]; [| | |lia]; (eexists; split; [cbn; reflexivity|]); apply K; intros s; unfold vnormalise, vnorm, vdot, fnorm, env_of; cbn;
      (destruct i as [|[|[|i]]]; [| | |lia]); cbn; unfold env_of; cbn.
    1-3: repeat match goal with |- context [sqrt ?X] => progress replace (sqrt X) with (sqrt 2) by (f_equal; ring) end; field; exact S2.
    all: repeat match goal with |- context [sqrt ?X] => replace (sqrt X) with 1 by (symmetry; etransitivity; [|apply sqrt_1]; f_equal; ring) end; field.
Qed.

(** * The coefficients *)
Lemma sets_app row l1 l2 : sets row (l1 ++ l2) = rbind (sets row l1) (fun row => sets row l2).
Proof.
  revert row. induction l1 as [|[[i k] v] l1 IH]; intros row; [reflexivity|]. cbn [app sets]. destruct (set2 row i k v) as [r|e]; [apply IH|reflexivity].
Qed.
Lemma py_index_nat N i : (i < N)%nat -> py_index N (Z.of_nat i) = Ok i.
Proof.
  intros H. unfold py_index. replace (0 <=? _)%Z with true by (symmetry; apply Z.leb_le; lia). replace (_ <? _)%Z with true by (symmetry; apply Z.ltb_lt; lia). cbn [andb]. f_equal. lia.
Qed.

(** the number of the sub-triangle counted from the sub-triangle 2 j on *)
Definition rel (N j t : nat) : nat := ((t + N - 2 * j) mod N)%nat.
Definition val (n i : nat) : R := (INR i + 1 - INR n) / INR (2 * n).
Definition c0 (n j t : nat) : R := if ((t =? 2 * j) || (t =? (2 * j + 2 * n - 1) mod (2 * n)))%nat then -1 / 2 else 0.
Definition c1 (n j k t : nat) : R := let d := rel (2 * n) j t in if ((1 <=? d) && (d <=? k))%nat then val n (d - 1) else 0.
Definition c2 (n j k t : nat) : R := let d := rel (2 * n) j t in if (d <? k)%nat then val n d else 0.

Lemma rel_spec N j t : (2 * j < N)%nat -> (t < N)%nat -> rel N j t = if (2 * j <=? t)%nat then (t - 2 * j)%nat else (t + N - 2 * j)%nat.
Proof.
  intros Hj Ht. unfold rel. destruct (Nat.leb_spec (2 * j) t).
  - replace (t + N - 2 * j)%nat with (t - 2 * j + 1 * N)%nat by lia. rewrite Nat.mod_add by lia. apply Nat.mod_small. lia.
  - apply Nat.mod_small. lia.
Qed.
Lemma wrap_spec N i : (i < 2 * N)%nat -> i mod N = if (i <? N)%nat then i else (i - N)%nat.
Proof.
  intros Hi. destruct (Nat.ltb_spec i N); [apply Nat.mod_small; assumption|]. replace i with (i - N + 1 * N)%nat at 1 by lia. rewrite Nat.mod_add by lia. apply Nat.mod_small. lia.
Qed.

Lemma bc_row_closed n j : (1 <= n)%nat -> (j < n)%nat ->
  bc_row n j = Ok (map (fun t => [c0 n j t; c1 n j (2 * n - 1) t; c2 n j (2 * n - 1) t]) (range (2 * n))).
Proof.
  intros Hn Hj. unfold bc_row. set (N := (2 * n)%nat). set (f0 := fun _ : nat => [0; 0; 0]).
  set (i1 := ((2 * j + N - 1) mod N)%nat).
  assert (H1 : i1 = if (j =? 0)%nat then (N - 1)%nat else (2 * j - 1)%nat).
  { unfold i1. rewrite wrap_spec by lia. destruct (Nat.eqb_spec j 0) as [Z|Z]; destruct (Nat.ltb_spec (2 * j + N - 1) N); lia. }
  assert (Q1 : py_index N (2 * Z.of_nat j - 1) = Ok i1).
  { unfold py_index. rewrite H1. destruct (Nat.eqb_spec j 0) as [->|Z].
    - replace (0 <=? _)%Z with false by (symmetry; apply Z.leb_gt; lia). cbn [andb]. replace (_ <=? _)%Z with true by (symmetry; apply Z.leb_le; lia). replace (_ <? 0)%Z with true by (symmetry; apply Z.ltb_lt; lia). cbn [andb]. f_equal. lia.
    - replace (0 <=? _)%Z with true by (symmetry; apply Z.leb_le; lia). replace (_ <? _)%Z with true by (symmetry; apply Z.ltb_lt; lia). cbn [andb]. f_equal. lia. }
  assert (B1 : (i1 < N)%nat) by (apply Nat.mod_upper_bound; lia).
  assert (Q3 : py_index N (2 * Z.of_nat j) = Ok (2 * j)%nat) by (replace (2 * Z.of_nat j)%Z with (Z.of_nat (2 * j)) by lia; apply py_index_nat; lia).
  cbn [sets]. rewrite (set2_map f0 N _ (2 * j) _ _ Q3) by (simpl; lia). cbn [rbind].
  set (f1 := fun t => if (t =? 2 * j)%nat then set_nth (f0 (2 * j)%nat) 0 (-1 / 2) else f0 t).
  assert (L1 : forall t, length (f1 t) = 3%nat) by (intros t; unfold f1; destruct (t =? 2 * j)%nat; reflexivity).
  rewrite (set2_map f1 N _ i1 _ _ Q1) by (rewrite ?L1; lia). cbn [rbind].
  assert (M0 : forall k, (k <= N - 1)%nat ->
    sets (map (fun t => if (t =? i1)%nat then set_nth (f1 i1) 0 (-1 / 2) else f1 t) (range N))
      (flat_map (fun i => [(Z.of_nat ((2 * j + i) mod N), 2%nat, (INR i + 1 - INR (N / 2)) / INR N); (Z.of_nat ((2 * j + i + 1) mod N), 1%nat, (INR i + 1 - INR (N / 2)) / INR N)]) (range k))
    = Ok (map (fun t => [c0 n j t; c1 n j k t; c2 n j k t]) (range N))).
  { assert (HN : (N / 2 = n)%nat) by (unfold N; rewrite Nat.mul_comm; apply Nat.div_mul; lia). rewrite HN.
    induction k as [|k IH]; intros Hk.
    - cbn [range seq flat_map sets]. f_equal. apply map_ext_in. intros t Ht. unfold c0, c1, c2, f1, f0. fold N. fold i1.
      replace ((1 <=? rel N j t) && (rel N j t <=? 0))%nat with false by (symmetry; apply andb_false_iff; destruct (rel N j t); [left|right]; reflexivity). cbn [Nat.ltb Nat.leb].
      destruct (Nat.eqb_spec t i1) as [E1|E1]; destruct (Nat.eqb_spec t (2 * j)) as [E2|E2]; cbn [orb]; try (destruct (Nat.eqb_spec i1 (2 * j))); reflexivity.
    - unfold range. rewrite seq_S, flat_map_app. cbn [Nat.add flat_map app]. rewrite sets_app. fold (range k). fold (range N).
      rewrite IH by lia. cbn [rbind sets].
      assert (Ba : ((2 * j + k) mod N < N)%nat) by (apply Nat.mod_upper_bound; lia). assert (Bb : ((2 * j + k + 1) mod N < N)%nat) by (apply Nat.mod_upper_bound; lia).
      rewrite (set2_map _ N _ ((2 * j + k) mod N) _ _ (py_index_nat N _ Ba) Ba) by (cbn [length]; lia). cbn [rbind].
      rewrite (set2_map _ N _ ((2 * j + k + 1) mod N) _ _ (py_index_nat N _ Bb) Bb).
      2:{ destruct ((2 * j + k + 1) mod N =? (2 * j + k) mod N)%nat; cbn; lia. }
      cbn [rbind]. f_equal. apply map_ext_in. intros t Ht. apply in_range in Ht. fold (val n k). unfold c1, c2. fold N.
      assert (X1 : forall u, (u < N)%nat -> (u =? (2 * j + k) mod N)%nat = (rel N j u =? k)%nat).
      { intros u Hu. rewrite rel_spec by lia. rewrite wrap_spec by lia. destruct (Nat.ltb_spec (2 * j + k) N); destruct (Nat.leb_spec (2 * j) u);
          match goal with |- (?a =? ?b)%nat = (?c =? ?d)%nat => destruct (Nat.eqb_spec a b); destruct (Nat.eqb_spec c d); try reflexivity; lia end. }
      assert (X2 : forall u, (u < N)%nat -> (u =? (2 * j + k + 1) mod N)%nat = (rel N j u =? S k)%nat).
      { intros u Hu. rewrite rel_spec by lia. rewrite wrap_spec by lia. destruct (Nat.ltb_spec (2 * j + k + 1) N); destruct (Nat.leb_spec (2 * j) u);
          match goal with |- (?a =? ?b)%nat = (?c =? ?d)%nat => destruct (Nat.eqb_spec a b); destruct (Nat.eqb_spec c d); try reflexivity; lia end. }
      rewrite (X1 _ Bb), (X1 t Ht), (X2 t Ht).
      assert (Ra : rel N j ((2 * j + k) mod N) = k) by (apply Nat.eqb_eq; rewrite <- X1 by exact Ba; apply Nat.eqb_refl).
      assert (Rb : rel N j ((2 * j + k + 1) mod N) = S k) by (apply Nat.eqb_eq; rewrite <- X2 by exact Bb; apply Nat.eqb_refl).
      assert (RI : forall u v, (u < N)%nat -> (v < N)%nat -> rel N j u = rel N j v -> u = v).
      { intros u v Hu Hv. rewrite !rel_spec by lia. destruct (Nat.leb_spec (2 * j) u); destruct (Nat.leb_spec (2 * j) v); lia. }
      rewrite Ra, Rb. replace (S k =? k)%nat with false by (symmetry; apply Nat.eqb_neq; lia).
      assert (Lk : (k <? k)%nat = false) by (apply Nat.ltb_irrefl). assert (Lk' : (k <? S k)%nat = true) by (apply Nat.ltb_lt; lia).
      destruct (Nat.eqb_spec (rel N j t) (S k)) as [E|E].
      + assert (t = ((2 * j + k + 1) mod N)%nat) by (apply RI; [exact Ht|exact Bb|congruence]). rewrite <- H. rewrite E.
        replace (1 <=? S k)%nat with true by (symmetry; apply Nat.leb_le; lia). replace (S k <=? S k)%nat with true by (symmetry; apply Nat.leb_le; lia).
        replace (S k <? S k)%nat with false by (symmetry; apply Nat.ltb_irrefl). replace (S k <? k)%nat with false by (symmetry; apply Nat.ltb_ge; lia).
        cbn [andb]. replace (S k - 1)%nat with k by lia. reflexivity.
      + destruct (Nat.eqb_spec (rel N j t) k) as [E'|E'].
        * assert (t = ((2 * j + k) mod N)%nat) by (apply RI; [exact Ht|exact Ba|congruence]). rewrite <- H. rewrite E', Lk'.
          replace (k <=? S k)%nat with true by (symmetry; apply Nat.leb_le; lia). replace (k <=? k)%nat with true by (symmetry; apply Nat.leb_le; lia). reflexivity.
        * replace (rel N j t <? S k)%nat with (rel N j t <? k)%nat by (destruct (Nat.ltb_spec (rel N j t) k); destruct (Nat.ltb_spec (rel N j t) (S k)); try reflexivity; lia).
          replace (rel N j t <=? S k)%nat with (rel N j t <=? k)%nat by (destruct (Nat.leb_spec (rel N j t) k); destruct (Nat.leb_spec (rel N j t) (S k)); try reflexivity; lia). reflexivity. }
  apply M0. lia.
Qed.

(** * The pieces *)
Lemma map_triangle x y x' y' m : get_map_to (default CTriangle) [[0; 0]; [x; y]; [x'; y']] = Ok m -> forall a b, m (env_of [a; b]) = [a * x + b * x'; a * y + b * y'].
Proof. intros Em a b. unfold get_map_to in Em. rewrite is_default_default in Em. cbn in Em. injection Em as <-. cbn. apply list2_eq; ring. Qed.
Definition bpiece (n : nat) (phi : list vfn) (c : list R) (t : nat) : vfn := fun e =>
  match get_inverse_map_to (default CTriangle) (cell n t) with
  | Ok inv => (fold_left (fun s ab => s + fst ab * fst (contravariant_on (cell n t) inv (snd ab) e)) (combine c phi) 0,
               fold_left (fun s ab => s + fst ab * snd (contravariant_on (cell n t) inv (snd ab) e)) (combine c phi) 0)
  | Err _ => (0, 0)
  end.
(** the component of w orthogonal to v, times the length of v *)
Definition across (v : list R) (w : R * R) : R := nth 0 v 0 * snd w - nth 1 v 0 * fst w.

Section Pieces.
Variable n : nat.
Hypothesis Hn : (3 <= n)%nat.
Variable phi : list vfn.
Hypothesis Hphi : is_rt_basis phi.

Lemma bc_function_closed cs : bc_function (default (CDualPolygon n)) phi (map cs (range (2 * n))) = Ok (map (fun t => (cell n t, bpiece n phi (cs t) t)) (range (2 * n))).
Proof.
  unfold bc_function. rewrite sub_triangles_closed by lia. rewrite combine_map, map_r_map. apply map_r_ok. intros t _. cbn [fst snd].
  destruct (proj1 (C30_maps_are_inverse_partial CTriangle (cell n t) (conj (cell_points n t) (cell_regular n Hn t)))) as (m & i & _ & Ei & _).
  unfold bpiece. rewrite Ei. reflexivity.
Qed.

Lemma bpiece_value k0 k1 k2 t a b :
  let D := edge_det2 (cell n t) 1 2 in
  let w0 := - k0 * a + k1 * (a - 1) - k2 * a in let w1 := - k0 * b + k1 * b + k2 * (1 - b) in
  bpiece n phi [k0; k1; k2] t (env_of (pnt n t a b)) =
    ((nth 0 (V n t) 0 * w0 + nth 0 (V n (S t)) 0 * w1) / D, (nth 1 (V n t) 0 * w0 + nth 1 (V n (S t)) 0 * w1) / D).
Proof.
  intros D w0 w1. pose proof (cell_points n t) as Hp. pose proof (cell_regular n Hn t) as HD.
  destruct (proj1 (C30_maps_are_inverse_partial CTriangle (cell n t) (conj Hp HD))) as (m & i & Em & Ei & _ & I2 & _).
  unfold bpiece. rewrite Ei.
  assert (Hm : m (env_of [a; b]) = pnt n t a b).
  { unfold cell, V in Em. unfold pnt, V. cbn [nth]. apply (map_triangle _ _ _ _ m Em). }
  destruct (rt_explicit phi Hphi) as (R0 & R1 & R2). destruct Hphi as (L & _).
  unfold contravariant_on. rewrite <- Hm, I2 by reflexivity. clear Hm.
  destruct phi as [|p0 [|p1 [|p2 [|]]]]; try discriminate L. cbn [nth] in R0, R1, R2. cbn [combine fold_left fst snd]. rewrite R0, R1, R2. unfold env_of. cbn [nth fst snd].
  assert (D' : nth 0 (V n t) 0 * nth 1 (V n (S t)) 0 - nth 0 (V n (S t)) 0 * nth 1 (V n t) 0 <> 0).
  { unfold edge_det2, co, cell in HD. cbn [nth] in HD. intros Z. apply HD. unfold V in *. cbn [nth] in *. lra. }
  unfold D, w0, w1, edge_det2, co, cell. cbn [nth]. unfold vsub, V in *. cbn [combine map fst snd nth] in *.
  f_equal; field; repeat split; intros Z; apply D'; rewrite <- Z; ring.
Qed.

Lemma V2 m : exists x y, V n m = [x; y]. Proof. unfold V. eauto. Qed.

(** On the edge from the origin to vertex t + 1 the piece of sub-triangle t has the normal component k1, and on the edge
    to vertex t the piece of sub-triangle t has the normal component k2. *)
Lemma across_second k0 k1 k2 t r : across (V n (S t)) (bpiece n phi [k0; k1; k2] t (env_of [r * nth 0 (V n (S t)) 0; r * nth 1 (V n (S t)) 0])) = k1.
Proof.
  replace [r * nth 0 (V n (S t)) 0; r * nth 1 (V n (S t)) 0] with (pnt n t 0 r) by (unfold pnt; apply list2_eq; ring).
  rewrite bpiece_value. pose proof (cell_regular n Hn t) as HD. unfold across, edge_det2, co, cell in *. cbn [nth fst snd] in *.
  destruct (V2 t) as (x & y & E1). destruct (V2 (S t)) as (x' & y' & E2). rewrite E1, E2 in *. cbn [nth] in *. field.
  repeat split; intros Z; apply HD; clear - Z; nra.
Qed.
Lemma across_first k0 k1 k2 t r : across (V n t) (bpiece n phi [k0; k1; k2] t (env_of [r * nth 0 (V n t) 0; r * nth 1 (V n t) 0])) = k2.
Proof.
  replace [r * nth 0 (V n t) 0; r * nth 1 (V n t) 0] with (pnt n t r 0) by (unfold pnt; apply list2_eq; ring).
  rewrite bpiece_value. pose proof (cell_regular n Hn t) as HD. unfold across, edge_det2, co, cell in *. cbn [nth fst snd] in *.
  destruct (V2 t) as (x & y & E1). destruct (V2 (S t)) as (x' & y' & E2). rewrite E1, E2 in *. cbn [nth] in *. field.
  repeat split; intros Z; apply HD; clear - Z; nra.
Qed.
End Pieces.
