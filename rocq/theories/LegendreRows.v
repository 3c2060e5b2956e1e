(** The tables on quadrilaterals, hexahedra and prisms: rows of products. *)
From Coq Require Import String Arith ZArith Reals Lia Lra Bool Sorted List.
From Verif Require Import Base PolyLib PolySetsModel PolyVec LegendreModel LegendreTables LegendreProofs LegendreTet.
Import ListNotations.
Open Scope R_scope.

Lemma fill_rows {M} (step : M -> table -> res table) (key : M -> nat) (row : M -> list sfun) nd ms :
  (forall m t, In m ms -> length t = nd -> step m t = lset t (key m) (row m)) ->
  (forall a b, In a ms -> In b ms -> key a = key b -> a = b) ->
  (forall m, In m ms -> (key m < nd)%nat) ->
  forall t0, length t0 = nd -> exists t, for_in ms step t0 = Ok t /\ length t = nd /\
    (forall k, (forall m, In m ms -> key m <> k) -> nth_error t k = nth_error t0 k) /\
    forall m, In m ms -> nth_error t (key m) = Some (row m).
Proof.
  induction ms as [|m ms IH] using rev_ind; intros St Inj Rg t0 L0.
  - exists t0. split; [reflexivity|]. split; [exact L0|]. split; [reflexivity|intros m []].
  - assert (I1 : forall a, In a ms -> In a (ms ++ [m])) by (intros; apply in_or_app; left; assumption).
    assert (Im : In m (ms ++ [m])) by (apply in_or_app; right; left; reflexivity).
    destruct (IH (fun a t Ha => St a t (I1 a Ha)) (fun a b Ha Hb => Inj a b (I1 a Ha) (I1 b Hb)) (fun a Ha => Rg a (I1 a Ha)) t0 L0)
      as (t & E & L & K & H).
    destruct (lset_ok t (key m) (row m)) as [t' Et]; [rewrite L; apply Rg, Im|].
    exists t'. split; [|split; [|split]].
    + rewrite for_in_app, E. cbn [rbind]. rewrite for_in_cons, (St m t Im L), Et. reflexivity.
    + rewrite (lset_length _ _ _ _ Et). exact L.
    + intros k Hk. rewrite (lset_other _ _ _ _ k Et); [apply K; intros a Ha; apply Hk, I1, Ha|]. intros ->. apply (Hk m Im). reflexivity.
    + intros a Ha. destruct (Nat.eq_dec (key a) (key m)) as [Q|Q].
      * rewrite (Inj a m Ha Im Q). exact (lset_same _ _ _ _ Et).
      * rewrite (lset_other _ _ _ _ (key a) Et Q). apply H. apply in_app_or in Ha. destruct Ha as [Ha|[<-|[]]]; [exact Ha|congruence].
Qed.

Lemma mul_rows_length r0 r1 : length (mul_rows r0 r1) = (length r0 * length r1)%nat.
Proof. unfold mul_rows. apply length_flat_map_const. intros. apply map_length. Qed.
Lemma mul_rows_nth r0 r1 : forall a b f g, nth_error r0 a = Some f -> nth_error r1 b = Some g ->
  nth_error (mul_rows r0 r1) (a * length r1 + b) = Some (fun v => f v * g v).
Proof.
  induction r0 as [|f0 r0 IH]; intros [|a] b f g Hf Hg; try discriminate.
  - injection Hf as ->. unfold mul_rows. cbn [flat_map]. assert (Hb : (b < length (map (fun (b : sfun) (v : point) => (f v * b v)%R) r1))%nat) by (rewrite map_length; apply nth_error_Some; congruence).
    cbn [Nat.mul Nat.add]. rewrite nth_error_app1 by exact Hb. erewrite map_nth_error; [reflexivity|exact Hg].
  - unfold mul_rows in *. cbn [flat_map]. 
    match goal with |- nth_error (?m ++ _) _ = _ => assert (Lm : length m = length r1) by apply map_length end.
    rewrite nth_error_app2 by (rewrite Lm; simpl; lia). rewrite Lm.
    replace (S a * length r1 + b - length r1)%nat with (a * length r1 + b)%nat by (simpl; lia). apply IH; assumption.
Qed.
Lemma row_of (t : table) nd ni d : shape nd ni t -> (d < nd)%nat -> exists r, trow t d = Ok r /\ nth_error t d = Some r /\ length r = ni.
Proof.
  intros Sh Hd. unfold trow. destruct (nth_error t d) as [r|] eqn:E; [|apply nth_error_None in E; destruct Sh; lia].
  exists r. split; [reflexivity|]. split; [reflexivity|]. exact (shape_row _ _ _ _ _ Sh E).
Qed.
Lemma entry_row (t : table) d r i g : nth_error t d = Some r -> entry t (d, i) g -> exists f, nth_error r i = Some f /\ forall v, f v = g v.
Proof.
  intros E (f & Ef & Hf). cbn [fst snd] in Ef. unfold tget in Ef. rewrite E in Ef. destruct (nth_error r i) as [f'|]; [|discriminate].
  injection Ef as ->. exists f. auto.
Qed.
Lemma row_entry (t : table) d r i (f : sfun) : nth_error t d = Some r -> nth_error r i = Some f -> forall g, (forall v, f v = g v) -> entry t (d, i) g.
Proof. intros E Ef g Hg. exists f. split; [|exact Hg]. unfold tget. cbn [fst snd]. rewrite E, Ef. reflexivity. Qed.

Lemma loops2 derivs m : In m (nest (range (derivs + 1)) (fun i => map (fun j => [j]) (range (derivs + 1 - i)))) <->
  exists i j, m = [i; j] /\ (i + j <= derivs)%nat.
Proof.
  rewrite in_nest. split.
  - intros (i & m' & -> & Hi & Hm). apply in_map_iff in Hm. destruct Hm as (j & <- & Hj). apply in_range in Hi, Hj. exists i, j. split; [reflexivity|lia].
  - intros (i & j & -> & H). exists i, [j]. split; [reflexivity|]. split; [apply in_range; lia|]. apply in_map_iff. exists j. split; [reflexivity|apply in_range; lia].
Qed.
Lemma loops3 derivs m : In m (nest (range (derivs + 1)) (fun i => nest (range (derivs + 1 - i)) (fun j => map (fun k => [k]) (range (derivs + 1 - i - j))))) <->
  exists i j k, m = [i; j; k] /\ (i + j + k <= derivs)%nat.
Proof.
  rewrite in_nest. split.
  - intros (i & m' & -> & Hi & Hm). rewrite in_nest in Hm. destruct Hm as (j & m'' & -> & Hj & Hm).
    apply in_map_iff in Hm. destruct Hm as (k & <- & Hk). apply in_range in Hi, Hj, Hk. exists i, j, k. split; [reflexivity|lia].
  - intros (i & j & k & -> & H). exists i, [j; k]. split; [reflexivity|]. split; [apply in_range; lia|]. apply in_nest. exists j, [k].
    split; [reflexivity|]. split; [apply in_range; lia|]. apply in_map_iff. exists k. split; [reflexivity|apply in_range; lia].
Qed.

(** positions are exhausted by the index maps *)
Lemma tri_split n : forall i, (i < tri (S n))%nat -> exists s q, (s <= n)%nat /\ (q <= s)%nat /\ i = (tri s + q)%nat.
Proof.
  induction n as [|n IH]; intros i H.
  - exists 0%nat, i. rewrite tri_S, tri_0 in *. lia.
  - rewrite tri_S in H. destruct (lt_dec i (tri (S n))) as [L|L].
    + destruct (IH i L) as (s & q & A & B & C). exists s, q. lia.
    + exists (S n), (i - tri (S n))%nat. lia.
Qed.
Lemma tetr_split n : forall i, (i < tetr (S n))%nat -> exists s j, (s <= n)%nat /\ (j < tri (S s))%nat /\ i = (tetr s + j)%nat.
Proof.
  induction n as [|n IH]; intros i H.
  - exists 0%nat, i. rewrite tetr_S in *. change (tetr 0) with 0%nat in *. lia.
  - rewrite tetr_S in H. destruct (lt_dec i (tetr (S n))) as [L|L].
    + destruct (IH i L) as (s & q & A & B & C). exists s, q. lia.
    + exists (S n), (i - tetr (S n))%nat. lia.
Qed.
Lemma index2_surj n i : (i < (n + 1) * (n + 2) / 2)%nat -> exists p q, (p + q <= n)%nat /\ index2 p q = i.
Proof.
  intros H. replace ((n + 1) * (n + 2) / 2)%nat with (tri (S n)) in H by (unfold tri; f_equal; ring).
  destruct (tri_split n i H) as (s & q & A & B & C). exists (s - q)%nat, q. rewrite index2_eq. replace (s - q + q)%nat with s by lia. lia.
Qed.
Lemma index3_surj n i : (i < (n + 1) * (n + 2) * (n + 3) / 6)%nat -> exists p q r, (p + q + r <= n)%nat /\ index3 p q r = i.
Proof.
  intros H. replace ((n + 1) * (n + 2) * (n + 3) / 6)%nat with (tetr (S n)) in H by (unfold tetr; f_equal; ring).
  destruct (tetr_split n i H) as (s & j & A & B & C). destruct (tri_split s j B) as (u & r & D & F & G).
  exists (s - u)%nat, (u - r)%nat, r. rewrite index3_eq. replace (s - u + (u - r) + r)%nat with s by lia. replace (u - r + r)%nat with u by lia. lia.
Qed.

Lemma quadrilateral_table order derivs v0 v1 : exists t, orthogonal_basis_quadrilateral order derivs [v0; v1] = Ok t /\
  shape ((derivs + 1) * (derivs + 2) / 2) ((order + 1) ^ 2) t /\
  forall i j a b, (i + j <= derivs)%nat -> (a <= order)%nat -> (b <= order)%nat ->
    entry t (index2 i j, (a * (order + 1) + b)%nat) (fun v => gi v0 a i v * gi v1 b j v).
Proof.
  destruct (interval_table order derivs v0) as (t0 & E0 & S0 & H0). destruct (interval_table order derivs v1) as (t1 & E1 & S1 & H1).
  unfold orthogonal_basis_quadrilateral. rewrite E0, E1. cbn [rbind].
  set (nd := ((derivs + 1) * (derivs + 2) / 2)%nat).
  set (row := fun m => match m with [i; j] => mul_rows (nth i t0 []) (nth j t1 []) | _ => [] end).
  set (key := fun m => match m with [i; j] => index2 i j | _ => 0%nat end).
  destruct (fill_rows (fun m t => match m with [i; j] => rbind (trow t0 i) (fun a => rbind (trow t1 j) (fun b => lset t (index2 i j) (mul_rows a b))) | _ => Ok t end)
     key row nd (nest (range (derivs + 1)) (fun i => map (fun j => [j]) (range (derivs + 1 - i))))) with (t0 := zeros nd ((order + 1) ^ 2)) as (t & E & L & K & H).
  - intros m t Hm _. apply loops2 in Hm. destruct Hm as (i & j & -> & Hij).
    destruct (row_of t0 _ _ i S0 ltac:(lia)) as (r0 & -> & N0 & _). destruct (row_of t1 _ _ j S1 ltac:(lia)) as (r1 & -> & N1 & _). cbn [rbind key row].
    rewrite (nth_error_nth _ _ [] N0), (nth_error_nth _ _ [] N1). reflexivity.
  - intros a b Ha Hb. apply loops2 in Ha, Hb. destruct Ha as (i & j & -> & _), Hb as (i' & j' & -> & _). cbn [key]. intros Q. apply index2_inj in Q. destruct Q as [-> ->]. reflexivity.
  - intros m Hm. apply loops2 in Hm. destruct Hm as (i & j & -> & Hij). apply index2_lt, Hij.
  - apply zeros_shape.
  - assert (Rows : forall i j, (i + j <= derivs)%nat -> exists r0 r1, nth_error t (index2 i j) = Some (mul_rows r0 r1) /\
        nth_error t0 i = Some r0 /\ nth_error t1 j = Some r1 /\ length r0 = (order + 1)%nat /\ length r1 = (order + 1)%nat).
    { intros i j Hij. destruct (row_of t0 _ _ i S0 ltac:(lia)) as (r0 & _ & N0 & L0). destruct (row_of t1 _ _ j S1 ltac:(lia)) as (r1 & _ & N1 & L1).
      exists r0, r1. split; [|auto]. refine (eq_trans (H [i; j] (proj2 (loops2 derivs [i; j]) (ex_intro _ i (ex_intro _ j (conj eq_refl Hij))))) _). unfold row. rewrite (nth_error_nth _ _ [] N0), (nth_error_nth _ _ [] N1). reflexivity. }
    exists t. split; [|split; [split; [exact L|]|]].
    + rewrite <- E. rewrite for_in_nest. apply for_in_ext. intros i s _. symmetry. apply for_in_map.
    + apply Forall_forall. intros r Hr. apply In_nth_error in Hr. destruct Hr as [d Hd].
      assert (Hlt : (d < nd)%nat) by (rewrite <- L; apply nth_error_Some; congruence).
      destruct (index2_surj derivs d Hlt) as (i & j & Hij & <-). destruct (Rows i j Hij) as (r0 & r1 & Er & _ & _ & L0 & L1).
      rewrite Er in Hd. injection Hd as <-. rewrite mul_rows_length, L0, L1. simpl. lia.
    + intros i j a b Hij Ha Hb. destruct (Rows i j Hij) as (r0 & r1 & Er & N0 & N1 & L0 & L1).
      destruct (entry_row _ _ _ _ _ N0 (H0 i a ltac:(lia) Ha)) as (f & Ef & Hf).
      destruct (entry_row _ _ _ _ _ N1 (H1 j b ltac:(lia) Hb)) as (g & Eg & Hg).
      eapply row_entry; [exact Er|rewrite <- L1; apply mul_rows_nth; [exact Ef|exact Eg]|]. intros v. cbv beta. rewrite Hf, Hg. reflexivity.
Qed.

Lemma hexahedron_table order derivs v0 v1 v2 : exists t, orthogonal_basis_hexahedron order derivs [v0; v1; v2] = Ok t /\
  shape ((derivs + 1) * (derivs + 2) * (derivs + 3) / 6) ((order + 1) ^ 3) t /\
  forall i j k a b c, (i + j + k <= derivs)%nat -> (a <= order)%nat -> (b <= order)%nat -> (c <= order)%nat ->
    entry t (index3 i j k, ((a * (order + 1) + b) * (order + 1) + c)%nat) (fun v => gi v0 a i v * gi v1 b j v * gi v2 c k v).
Proof.
  destruct (interval_table order derivs v0) as (t0 & E0 & S0 & H0). destruct (interval_table order derivs v1) as (t1 & E1 & S1 & H1).
  destruct (interval_table order derivs v2) as (t2 & E2 & S2 & H2).
  unfold orthogonal_basis_hexahedron. rewrite E0, E1, E2. cbn [rbind].
  set (nd := ((derivs + 1) * (derivs + 2) * (derivs + 3) / 6)%nat).
  set (row := fun m => match m with [i; j; k] => mul_rows (mul_rows (nth i t0 []) (nth j t1 [])) (nth k t2 []) | _ => [] end).
  set (key := fun m => match m with [i; j; k] => index3 i j k | _ => 0%nat end).
  destruct (fill_rows (fun m t => match m with [i; j; k] => rbind (trow t0 i) (fun a => rbind (trow t1 j) (fun b => rbind (trow t2 k) (fun c =>
       lset t (index3 i j k) (mul_rows (mul_rows a b) c)))) | _ => Ok t end)
     key row nd (nest (range (derivs + 1)) (fun i => nest (range (derivs + 1 - i)) (fun j => map (fun k => [k]) (range (derivs + 1 - i - j)))))) with (t0 := zeros nd ((order + 1) ^ 3)) as (t & E & L & K & H).
  - intros m t Hm _. apply loops3 in Hm. destruct Hm as (i & j & k & -> & Hij).
    destruct (row_of t0 _ _ i S0 ltac:(lia)) as (r0 & -> & N0 & _). destruct (row_of t1 _ _ j S1 ltac:(lia)) as (r1 & -> & N1 & _).
    destruct (row_of t2 _ _ k S2 ltac:(lia)) as (r2 & -> & N2 & _). cbn [rbind key row].
    rewrite (nth_error_nth _ _ [] N0), (nth_error_nth _ _ [] N1), (nth_error_nth _ _ [] N2). reflexivity.
  - intros a b Ha Hb. apply loops3 in Ha, Hb. destruct Ha as (i & j & k & -> & _), Hb as (i' & j' & k' & -> & _). cbn [key]. intros Q. apply index3_inj in Q. destruct Q as (-> & -> & ->). reflexivity.
  - intros m Hm. apply loops3 in Hm. destruct Hm as (i & j & k & -> & Hij). apply index3_lt, Hij.
  - apply zeros_shape.
  - assert (Rows : forall i j k, (i + j + k <= derivs)%nat -> exists r0 r1 r2, nth_error t (index3 i j k) = Some (mul_rows (mul_rows r0 r1) r2) /\
        nth_error t0 i = Some r0 /\ nth_error t1 j = Some r1 /\ nth_error t2 k = Some r2 /\ length r0 = (order + 1)%nat /\ length r1 = (order + 1)%nat /\ length r2 = (order + 1)%nat).
    { intros i j k Hij. destruct (row_of t0 _ _ i S0 ltac:(lia)) as (r0 & _ & N0 & L0). destruct (row_of t1 _ _ j S1 ltac:(lia)) as (r1 & _ & N1 & L1).
      destruct (row_of t2 _ _ k S2 ltac:(lia)) as (r2 & _ & N2 & L2).
      exists r0, r1, r2. split; [|auto 10]. refine (eq_trans (H [i; j; k] (proj2 (loops3 derivs [i; j; k]) (ex_intro _ i (ex_intro _ j (ex_intro _ k (conj eq_refl Hij)))))) _). unfold row.
      rewrite (nth_error_nth _ _ [] N0), (nth_error_nth _ _ [] N1), (nth_error_nth _ _ [] N2). reflexivity. }
    exists t. split; [|split; [split; [exact L|]|]].
    + rewrite <- E. rewrite for_in_nest. apply for_in_ext. intros i s _. rewrite for_in_nest. apply for_in_ext. intros j s' _. symmetry. apply for_in_map.
    + apply Forall_forall. intros r Hr. apply In_nth_error in Hr. destruct Hr as [d Hd].
      assert (Hlt : (d < nd)%nat) by (rewrite <- L; apply nth_error_Some; congruence).
      destruct (index3_surj derivs d Hlt) as (i & j & k & Hij & <-). destruct (Rows i j k Hij) as (r0 & r1 & r2 & Er & _ & _ & _ & L0 & L1 & L2).
      rewrite Er in Hd. injection Hd as <-. rewrite !mul_rows_length, L0, L1, L2. simpl. lia.
    + intros i j k a b c Hij Ha Hb Hc. destruct (Rows i j k Hij) as (r0 & r1 & r2 & Er & N0 & N1 & N2 & L0 & L1 & L2).
      destruct (entry_row _ _ _ _ _ N0 (H0 i a ltac:(lia) Ha)) as (f & Ef & Hf).
      destruct (entry_row _ _ _ _ _ N1 (H1 j b ltac:(lia) Hb)) as (g & Eg & Hg).
      destruct (entry_row _ _ _ _ _ N2 (H2 k c ltac:(lia) Hc)) as (h & Eh & Hh).
      eapply row_entry; [exact Er|rewrite <- L2 at 2; apply mul_rows_nth; [rewrite <- L1; apply mul_rows_nth; [exact Ef|exact Eg]|exact Eh]|].
      intros v. cbv beta. rewrite Hf, Hg, Hh. reflexivity.
Qed.

Lemma prism_table order derivs v0 v1 v2 : exists t, orthogonal_basis_prism order derivs [v0; v1; v2] = Ok t /\
  shape ((derivs + 1) * (derivs + 2) * (derivs + 3) / 6) ((order + 1) * (order + 1) * (order + 2) / 2) t /\
  forall i j k q p c, (i + j + k <= derivs)%nat -> (q + p <= order)%nat -> (c <= order)%nat ->
    entry t (index3 i j k, (index2 q p * (order + 1) + c)%nat) (fun v => tq v0 v1 q p i j v * gi v2 c k v).
Proof.
  destruct (triangle_table order derivs v0 v1) as (t0 & E0 & S0 & H0). destruct (interval_table order derivs v2) as (t2 & E2 & S2 & H2).
  unfold orthogonal_basis_prism. rewrite E0, E2. cbn [rbind].
  set (nd := ((derivs + 1) * (derivs + 2) * (derivs + 3) / 6)%nat).
  set (row := fun m => match m with [i; j; k] => mul_rows (nth (index2 i j) t0 []) (nth k t2 []) | _ => [] end).
  set (key := fun m => match m with [i; j; k] => index3 i j k | _ => 0%nat end).
  destruct (fill_rows (fun m t => match m with [i; j; k] => rbind (trow t0 (index2 i j)) (fun a => rbind (trow t2 k) (fun b => lset t (index3 i j k) (mul_rows a b))) | _ => Ok t end)
     key row nd (nest (range (derivs + 1)) (fun i => nest (range (derivs + 1 - i)) (fun j => map (fun k => [k]) (range (derivs + 1 - i - j))))))
     with (t0 := zeros nd ((order + 1) * (order + 1) * (order + 2) / 2)) as (t & E & L & K & H).
  - intros m t Hm _. apply loops3 in Hm. destruct Hm as (i & j & k & -> & Hij).
    destruct (row_of t0 _ _ (index2 i j) S0 (index2_lt i j derivs ltac:(lia))) as (r0 & -> & N0 & _).
    destruct (row_of t2 _ _ k S2 ltac:(lia)) as (r2 & -> & N2 & _). cbn [rbind key row].
    rewrite (nth_error_nth _ _ [] N0), (nth_error_nth _ _ [] N2). reflexivity.
  - intros a b Ha Hb. apply loops3 in Ha, Hb. destruct Ha as (i & j & k & -> & _), Hb as (i' & j' & k' & -> & _). cbn [key]. intros Q. apply index3_inj in Q. destruct Q as (-> & -> & ->). reflexivity.
  - intros m Hm. apply loops3 in Hm. destruct Hm as (i & j & k & -> & Hij). apply index3_lt, Hij.
  - apply zeros_shape.
  - assert (Rows : forall i j k, (i + j + k <= derivs)%nat -> exists r0 r2, nth_error t (index3 i j k) = Some (mul_rows r0 r2) /\
        nth_error t0 (index2 i j) = Some r0 /\ nth_error t2 k = Some r2 /\ length r0 = ((order + 1) * (order + 2) / 2)%nat /\ length r2 = (order + 1)%nat).
    { intros i j k Hij. destruct (row_of t0 _ _ (index2 i j) S0 (index2_lt i j derivs ltac:(lia))) as (r0 & _ & N0 & L0).
      destruct (row_of t2 _ _ k S2 ltac:(lia)) as (r2 & _ & N2 & L2).
      exists r0, r2. split; [|auto 10]. refine (eq_trans (H [i; j; k] (proj2 (loops3 derivs [i; j; k]) (ex_intro _ i (ex_intro _ j (ex_intro _ k (conj eq_refl Hij)))))) _). unfold row.
      rewrite (nth_error_nth _ _ [] N0), (nth_error_nth _ _ [] N2). reflexivity. }
    exists t. split; [|split; [split; [exact L|]|]].
    + rewrite <- E. rewrite for_in_nest. apply for_in_ext. intros i s _. rewrite for_in_nest. apply for_in_ext. intros j s' _. symmetry. apply for_in_map.
    + apply Forall_forall. intros r Hr. apply In_nth_error in Hr. destruct Hr as [d Hd].
      assert (Hlt : (d < nd)%nat) by (rewrite <- L; apply nth_error_Some; congruence).
      destruct (index3_surj derivs d Hlt) as (i & j & k & Hij & <-). destruct (Rows i j k Hij) as (r0 & r2 & Er & _ & _ & L0 & L2).
      rewrite Er in Hd. injection Hd as <-. rewrite mul_rows_length, L0, L2.
      replace ((order + 1) * (order + 2) / 2)%nat with (tri (S order)) by (unfold tri; f_equal; ring).
      replace ((order + 1) * (order + 1) * (order + 2))%nat with ((order + 1) * (2 * tri (S order)))%nat by (rewrite tri_2; ring).
      replace ((order + 1) * (2 * tri (S order)))%nat with (tri (S order) * (order + 1) * 2)%nat by ring. rewrite Nat.div_mul by lia. reflexivity.
    + intros i j k q p c Hij Hi Hc. destruct (Rows i j k Hij) as (r0 & r2 & Er & N0 & N2 & L0 & L2).
      destruct (entry_row _ _ _ _ _ N0 (H0 i j p q ltac:(lia) Hi)) as (f & Ef & Hf).
      destruct (entry_row _ _ _ _ _ N2 (H2 k c ltac:(lia) Hc)) as (h & Eh & Hh).
      eapply row_entry; [exact Er|rewrite <- L2; apply mul_rows_nth; [exact Ef|exact Eh]|]. intros v. cbv beta. rewrite Hf, Hh. reflexivity.
Qed.
