(** Proofs about make_lattice and make_lattice_with_lines. *)
From Coq Require Import String Reals ZArith Arith Bool Lia Lra List.
From Verif Require Import Base ReferencesModel ReferencesSpec ReferencesProofs ReferencesGeometry ReferencesTopology.
Import ListNotations.
Open Scope R_scope.

(** ** The interior of the default cells *)
Ltac pos_weights :=
  let w := fresh "w" in let Hl := fresh "Hl" in let Hs := fresh "Hs" in let H := fresh "Hc" in let Hp := fresh "Hp" in
  intros (w & (Hl & Hs & H) & Hp);
  repeat (destruct w as [|? w]; try discriminate Hl); clear Hl;
  try (pose proof (H 0%nat ltac:(simpl; lia)));
  try (pose proof (H 1%nat ltac:(simpl; lia)));
  try (pose proof (H 2%nat ltac:(simpl; lia)));
  clear H; unfold sumR in *; cbn [reference_vertices combine map fold_right fst snd nth] in *;
  repeat match goal with H : Forall _ (_ :: _) |- _ => inversion_clear H end.
Ltac give_pos ws :=
  exists ws; split;
  [ split; [reflexivity|]; split;
    [ unfold sumR; cbn [fold_right]; try (ring || field; lra)
    | intros [|[|[|?]]] ?; try (exfalso; simpl in *; lia);
      unfold sumR; cbn [reference_vertices combine map fold_right fst snd nth]; try (ring || field; lra) ]
  | repeat match goal with |- Forall _ (_ :: _) => apply Forall_cons | |- Forall _ [] => apply Forall_nil end;
    try (repeat apply Rmult_lt_0_compat; lra) ].

Lemma interior_interval x : in_interior (reference_vertices CInterval) [x] <-> 0 < x < 1.
Proof. split; [pos_weights; lra|intros H; give_pos [1 - x; x]]. Qed.
Lemma interior_triangle x y : in_interior (reference_vertices CTriangle) [x; y] <-> 0 < x /\ 0 < y /\ x + y < 1.
Proof. split; [pos_weights; lra|intros H; give_pos [1 - x - y; x; y]]. Qed.
Lemma interior_tetrahedron x y z : in_interior (reference_vertices CTetrahedron) [x; y; z] <->
  0 < x /\ 0 < y /\ 0 < z /\ x + y + z < 1.
Proof. split; [pos_weights; lra|intros H; give_pos [1 - x - y - z; x; y; z]]. Qed.
Lemma interior_quadrilateral x y : in_interior (reference_vertices CQuadrilateral) [x; y] <-> 0 < x < 1 /\ 0 < y < 1.
Proof. split; [pos_weights; lra|intros H; give_pos [(1 - x) * (1 - y); x * (1 - y); (1 - x) * y; x * y]]. Qed.
Lemma interior_hexahedron x y z : in_interior (reference_vertices CHexahedron) [x; y; z] <->
  0 < x < 1 /\ 0 < y < 1 /\ 0 < z < 1.
Proof.
  split; [pos_weights; lra|intros H].
  give_pos [(1 - x) * (1 - y) * (1 - z); x * (1 - y) * (1 - z); (1 - x) * y * (1 - z); x * y * (1 - z);
            (1 - x) * (1 - y) * z; x * (1 - y) * z; (1 - x) * y * z; x * y * z].
Qed.
Lemma interior_prism x y z : in_interior (reference_vertices CPrism) [x; y; z] <->
  0 < x /\ 0 < y /\ x + y < 1 /\ 0 < z < 1.
Proof.
  split; [pos_weights; lra|intros H].
  give_pos [(1 - x - y) * (1 - z); x * (1 - z); y * (1 - z); (1 - x - y) * z; x * z; y * z].
Qed.

(** ** The half lattice *)
Definition half_coordinate (n i : nat) : R := (2 * INR i + 1) / (2 * (INR n + 1)).
Definition half_point (n : nat) (idx : list nat) : list R := map (half_coordinate n) idx.

Lemma half_eq n i : half n i = half_coordinate n i.
Proof.
  unfold half, half_coordinate. rewrite !plus_INR, !mult_INR, plus_INR. cbn [INR].
  replace (1 + 1) with 2 by ring. reflexivity.
Qed.
Lemma INR_pos1 n : 0 < INR n + 1.
Proof. pose proof (pos_INR n). lra. Qed.
Lemma half_pos n i : 0 < half_coordinate n i.
Proof.
  unfold half_coordinate. pose proof (INR_pos1 n). pose proof (pos_INR i).
  apply Rmult_lt_0_compat; [lra|apply Rinv_0_lt_compat; lra].
Qed.
Lemma half_sum n (s : R) : s / (2 * (INR n + 1)) < 1 <-> s < 2 * INR n + 2.
Proof.
  pose proof (INR_pos1 n) as P. split; intros H.
  - apply (Rmult_lt_compat_r (2 * (INR n + 1))) in H; [|lra]. unfold Rdiv in H. rewrite Rmult_assoc, Rinv_l in H by lra. lra.
  - apply (Rmult_lt_reg_r (2 * (INR n + 1))); [lra|]. unfold Rdiv. rewrite Rmult_assoc, Rinv_l by lra. lra.
Qed.
Lemma half_lt1 n i : half_coordinate n i < 1 <-> (i <= n)%nat.
Proof.
  unfold half_coordinate. rewrite half_sum. split; intros H.
  - apply INR_le. apply Rnot_lt_le. intros H2. apply INR_lt in H2. apply (proj2 (Nat.le_succ_l _ _)) in H2.
    apply le_INR in H2. rewrite S_INR in H2. lra.
  - apply le_INR in H. lra.
Qed.
Lemma half_lt2 n i j : half_coordinate n i + half_coordinate n j < 1 <-> (i + j < n)%nat.
Proof.
  replace (half_coordinate n i + half_coordinate n j) with ((2 * INR i + 1 + (2 * INR j + 1)) / (2 * (INR n + 1)))
    by (unfold half_coordinate; pose proof (INR_pos1 n); field; lra).
  rewrite half_sum. split; intros H.
  - apply INR_lt. rewrite plus_INR. lra.
  - apply lt_INR in H. rewrite plus_INR in H. lra.
Qed.
Lemma half_lt3 n i j k : half_coordinate n i + half_coordinate n j + half_coordinate n k < 1 <-> (i + j + k < n)%nat.
Proof.
  replace (half_coordinate n i + half_coordinate n j + half_coordinate n k)
    with ((2 * INR i + 1 + (2 * INR j + 1) + (2 * INR k + 1)) / (2 * (INR n + 1)))
    by (unfold half_coordinate; pose proof (INR_pos1 n); field; lra).
  rewrite half_sum. split; intros H.
  - assert (E : 2 * (INR i + INR j + INR k) + 1 < 2 * INR n) by lra.
    apply INR_lt. rewrite !plus_INR. lra.
  - apply (proj2 (Nat.le_succ_l _ _)) in H. apply le_INR in H. rewrite S_INR, !plus_INR in H. lra.
Qed.
Lemma half_inj n i j : half_coordinate n i = half_coordinate n j -> i = j.
Proof.
  unfold half_coordinate. intros H. pose proof (INR_pos1 n). apply INR_eq.
  apply (Rmult_eq_compat_r (2 * (INR n + 1))) in H. unfold Rdiv in H. rewrite !Rmult_assoc, !Rinv_l in H by lra. lra.
Qed.
Lemma half_point_inj n a b : half_point n a = half_point n b -> a = b.
Proof.
  revert b. induction a as [|i a IH]; intros [|j b] H; try discriminate H; [reflexivity|].
  simpl in H. injection H as H1 H2. apply half_inj in H1. rewrite H1, (IH b H2). reflexivity.
Qed.

(** The lattice contains each half lattice point of the interior once, and nothing else. *)
Definition is_lattice (c : cell_type) (n : nat) (L : list (list R)) : Prop :=
  NoDup L /\
  forall p, In p L <-> exists idx, length idx = tdim c /\ p = half_point n idx /\ in_interior (reference_vertices c) p.

Lemma lattice_of_indices c n (I : list (list nat)) : NoDup I ->
  (forall idx, In idx I <-> length idx = tdim c /\ in_interior (reference_vertices c) (half_point n idx)) ->
  is_lattice c n (map (half_point n) I).
Proof.
  intros HN H. split; [apply NoDup_map_inj; [intros; eapply half_point_inj; eassumption|exact HN]|].
  intros p. rewrite in_map_iff. split.
  - intros [idx [<- Hi]]. apply H in Hi. exists idx. tauto.
  - intros [idx [Hl [-> Hi]]]. exists idx. split; [reflexivity|]. apply H. tauto.
Qed.

Definition idx2 (n : nat) (m : nat -> nat) : list (list nat) :=
  flat_map (fun i => map (fun j => [i; j]) (range (m i))) (range n).
Definition idx3 (n : nat) (m : nat -> nat) (l : nat -> nat -> nat) : list (list nat) :=
  flat_map (fun i => flat_map (fun j => map (fun k => [i; j; k]) (range (l i j))) (range (m i))) (range n).
Lemma in_idx2 n m idx : In idx (idx2 n m) <-> exists i j, idx = [i; j] /\ (i < n)%nat /\ (j < m i)%nat.
Proof.
  unfold idx2. rewrite in_flat_map. split.
  - intros [i [Hi H]]. apply in_map_iff in H. destruct H as [j [<- Hj]]. apply in_range in Hi, Hj. eauto 6.
  - intros (i & j & -> & Hi & Hj). exists i. rewrite in_range. split; [exact Hi|].
    apply (in_map (fun j => [i; j])). apply in_range. exact Hj.
Qed.
Lemma in_idx3 n m l idx : In idx (idx3 n m l) <->
  exists i j k, idx = [i; j; k] /\ (i < n)%nat /\ (j < m i)%nat /\ (k < l i j)%nat.
Proof.
  unfold idx3. rewrite in_flat_map. split.
  - intros [i [Hi H]]. apply in_flat_map in H. destruct H as [j [Hj H]]. apply in_map_iff in H.
    destruct H as [k [<- Hk]]. apply in_range in Hi, Hj, Hk. eauto 8.
  - intros (i & j & k & -> & Hi & Hj & Hk). exists i. rewrite in_range. split; [exact Hi|].
    apply in_flat_map. exists j. rewrite in_range. split; [exact Hj|].
    apply (in_map (fun k => [i; j; k])). apply in_range. exact Hk.
Qed.
Lemma NoDup_idx2 n m : NoDup (idx2 n m).
Proof.
  apply NoDup_flat_map; [apply NoDup_range| |].
  - intros i _. apply NoDup_map_inj; [congruence|apply NoDup_range].
  - intros a b x _ _ Ha Hb. apply in_map_iff in Ha, Hb. destruct Ha as [y [<- _]], Hb as [z [E _]]. congruence.
Qed.
Lemma NoDup_idx3 n m l : NoDup (idx3 n m l).
Proof.
  apply NoDup_flat_map; [apply NoDup_range| |].
  - intros i _. apply NoDup_flat_map; [apply NoDup_range| |].
    + intros j _. apply NoDup_map_inj; [congruence|apply NoDup_range].
    + intros a b x _ _ Ha Hb. apply in_map_iff in Ha, Hb. destruct Ha as [y [<- _]], Hb as [z [E _]]. congruence.
  - intros a b x _ _ Ha Hb. apply in_flat_map in Ha, Hb. destruct Ha as [j [_ Ha]], Hb as [j' [_ Hb]].
    apply in_map_iff in Ha, Hb. destruct Ha as [y [<- _]], Hb as [z [E _]]. congruence.
Qed.
Lemma map_idx2 {B} (f : list nat -> B) n m :
  map f (idx2 n m) = flat_map (fun i => map (fun j => f [i; j]) (range (m i))) (range n).
Proof.
  unfold idx2. rewrite flat_map_concat_map, concat_map, map_map, <- flat_map_concat_map.
  apply flat_map_ext. intros i. rewrite map_map. reflexivity.
Qed.
Lemma map_flat_map {A B C} (f : B -> C) (g : A -> list B) l : map f (flat_map g l) = flat_map (fun a => map f (g a)) l.
Proof. rewrite !flat_map_concat_map, concat_map, map_map. reflexivity. Qed.
Lemma map_idx3 {B} (f : list nat -> B) n m l :
  map f (idx3 n m l) = flat_map (fun i => flat_map (fun j => map (fun k => f [i; j; k]) (range (l i j))) (range (m i))) (range n).
Proof.
  unfold idx3. rewrite map_flat_map. apply flat_map_ext. intros i. rewrite map_flat_map. apply flat_map_ext.
  intros j. rewrite map_map. reflexivity.
Qed.

(** ** Lattices of general cells are images of the default lattice under the cell's map *)
Definition lattice_indices (c : cell_type) (n : nat) : list (list nat) :=
  match c with
  | CInterval => map (fun i => [i]) (range n)
  | CTriangle => idx2 n (fun i => n - i)
  | CTetrahedron => idx3 n (fun i => n - i) (fun i j => n - i - j)
  | CQuadrilateral => idx2 (n + 1) (fun _ => n + 1)
  | CHexahedron => idx3 (n + 1) (fun _ => n + 1) (fun _ _ => n + 1)
  | CPrism => idx3 (n + 1) (fun i => n + 1 - i) (fun _ _ => n + 1)
  | _ => []
  end%nat.
Lemma frac2 n i : INR (2 * i + 1) / 2 / INR (n + 1) = half_coordinate n i.
Proof.
  unfold half_coordinate. pose proof (INR_pos1 n). rewrite !plus_INR, mult_INR. cbn [INR].
  replace (1 + 1) with 2 by ring. field. lra.
Qed.
Lemma default_lattice c n : (match c with CInterval | CTriangle | CTetrahedron | CQuadrilateral | CHexahedron | CPrism => True | _ => False end) ->
  make_lattice (default c) n = Ok (map (half_point n) (lattice_indices c n)).
Proof.
  intros Hc. unfold make_lattice. rewrite is_default_default.
  destruct c; try contradiction; cbn [default make_reference reference_vertices r_type r_vertices r_origin r_axes lattice_indices];
  f_equal; unfold triangle_lattice, vsub; cbn [combine map fst snd zip_star].
  - rewrite map_map. apply map_ext. intros i. cbn [nth half_point map]. rewrite half_eq. f_equal. ring.
  - rewrite map_idx2. apply flat_map_ext. intros i. apply map_ext. intros j. cbn [nth half_point map].
    rewrite <- !frac2. f_equal; [unfold Rdiv; ring|f_equal; unfold Rdiv; ring].
  - rewrite map_idx3. apply flat_map_ext. intros i. apply flat_map_ext. intros j. apply map_ext. intros k. cbn [nth half_point map].
    rewrite <- !frac2. f_equal; [unfold Rdiv; ring|f_equal; [unfold Rdiv; ring|f_equal; unfold Rdiv; ring]].
  - rewrite map_idx2. apply flat_map_ext. intros i. apply map_ext. intros j. cbn [nth half_point map].
    rewrite <- !frac2. f_equal; [unfold Rdiv; ring|f_equal; unfold Rdiv; ring].
  - rewrite map_idx3. apply flat_map_ext. intros i. apply flat_map_ext. intros j. apply map_ext. intros k.
    cbn [half_point map]. rewrite !half_eq. reflexivity.
  - rewrite map_idx3. apply flat_map_ext. intros i. apply flat_map_ext. intros j. apply map_ext. intros k.
    cbn [half_point map]. rewrite !half_eq. reflexivity.
Qed.

Lemma interior_lattice c n : (match c with CTriangle | CTetrahedron | CQuadrilateral | CHexahedron => True | _ => False end) ->
  is_lattice c n (map (half_point n) (lattice_indices c n)).
Proof.
  intros Hc. apply lattice_of_indices.
  - destruct c; try contradiction; first [apply NoDup_idx2|apply NoDup_idx3].
  - intros idx. destruct c; try contradiction; cbn [lattice_indices tdim]; rewrite ?in_idx2, ?in_idx3.
    + split.
      * intros (i & j & -> & Hi & Hj). split; [reflexivity|]. apply interior_triangle.
        repeat split; try apply half_pos. apply half_lt2. lia.
      * intros [Hl H]. destruct idx as [|i [|j [|]]]; try discriminate Hl. apply interior_triangle in H.
        destruct H as (_ & _ & H). apply half_lt2 in H. exists i, j. repeat split; lia.
    + split.
      * intros (i & j & k & -> & Hi & Hj & Hk). split; [reflexivity|]. apply interior_tetrahedron.
        repeat split; try apply half_pos. apply half_lt3. lia.
      * intros [Hl H]. destruct idx as [|i [|j [|k [|]]]]; try discriminate Hl. apply interior_tetrahedron in H.
        destruct H as (_ & _ & _ & H). apply half_lt3 in H. exists i, j, k. repeat split; lia.
    + split.
      * intros (i & j & -> & Hi & Hj). split; [reflexivity|]. apply interior_quadrilateral.
        repeat split; try apply half_pos; apply half_lt1; lia.
      * intros [Hl H]. destruct idx as [|i [|j [|]]]; try discriminate Hl. apply interior_quadrilateral in H.
        destruct H as ((_ & H1) & (_ & H2)). apply half_lt1 in H1, H2. exists i, j. repeat split; lia.
    + split.
      * intros (i & j & k & -> & Hi & Hj & Hk). split; [reflexivity|]. apply interior_hexahedron.
        repeat split; try apply half_pos; apply half_lt1; lia.
      * intros [Hl H]. destruct idx as [|i [|j [|k [|]]]]; try discriminate Hl. apply interior_hexahedron in H.
        destruct H as ((_ & H1) & (_ & H2) & (_ & H3)). apply half_lt1 in H1, H2, H3. exists i, j, k. repeat split; lia.
Qed.
(** The interval: every point but the last one of the half lattice. *)
Lemma interval_lattice n : let L := map (half_point n) (lattice_indices CInterval n) in
  NoDup L /\ (forall p, In p L <-> exists i, p = half_point n [i] /\ in_interior (reference_vertices CInterval) p /\ i <> n).
Proof.
  cbv zeta. split.
  - apply NoDup_map_inj; [intros; eapply half_point_inj; eassumption|].
    apply NoDup_map_inj; [congruence|apply NoDup_range].
  - intros p. cbn [lattice_indices]. rewrite map_map, in_map_iff. split.
    + intros [i [<- Hi]]. apply in_range in Hi. exists i. repeat split; [|lia].
      apply interior_interval. split; [apply half_pos|apply half_lt1; lia].
    + intros [i [-> [Hi Hn]]]. exists i. split; [reflexivity|]. apply interior_interval in Hi. apply in_range.
      destruct Hi as [_ Hi]. apply half_lt1 in Hi. lia.
Qed.
(** The prism: all half lattice points of the closed triangle times the interval. *)
Lemma prism_lattice n : let L := map (half_point n) (lattice_indices CPrism n) in
  NoDup L /\ (forall p, In p L <-> exists i j k, p = half_point n [i; j; k] /\ (i + j <= n)%nat /\ (k <= n)%nat).
Proof.
  cbv zeta. split.
  - apply NoDup_map_inj; [intros; eapply half_point_inj; eassumption|apply NoDup_idx3].
  - intros p. rewrite in_map_iff. cbn [lattice_indices]. split.
    + intros [idx [<- H]]. apply in_idx3 in H. destruct H as (i & j & k & -> & H). exists i, j, k. repeat split; lia.
    + intros (i & j & k & -> & H). exists [i; j; k]. split; [reflexivity|]. apply in_idx3. exists i, j, k. repeat split; lia.
Qed.

Lemma general_lattice c vs d r n : (match c with CInterval => points 2 d vs | CTriangle => points 3 d vs
     | CTetrahedron => points 4 d vs | CQuadrilateral => points 4 d vs /\ parallelogram vs 0 1 2 3 | _ => False end) ->
  (1 <= d <= 3)%nat ->
  make_reference c vs = Ok r ->
  exists f L, get_map_to_self r = Ok f /\ make_lattice (default c) n = Ok L /\
    make_lattice r n = Ok (map (fun p => f (env_of p)) L).
Proof.
  intros H Hd Hr.
  destruct c; try contradiction.
  - rewrite default_lattice by exact I. revert n Hr. destruct d as [|[|[|[|]]]]; try lia; split_points H; intros n Hr; injection Hr as <-;
    (eexists; eexists; split; [reflexivity|]; split; [reflexivity|]);
    unfold make_lattice; cbn [r_type r_vertices]; f_equal; cbn [lattice_indices]; rewrite !map_map; apply map_ext; intros i;
    rewrite half_eq; cbn [half_point map zip_star combine fst snd nth env_of]; pteq ring.
  - rewrite default_lattice by exact I. revert n Hr. destruct d as [|[|[|[|]]]]; try lia; split_points H; intros n Hr; injection Hr as <-;
    (eexists; eexists; split; [reflexivity|]; split; [reflexivity|]);
    unfold make_lattice; cbn [r_type r_vertices r_origin r_axes]; f_equal; cbn [lattice_indices]; unfold triangle_lattice;
    rewrite map_map, map_idx2; apply flat_map_ext; intros i; apply map_ext; intros j;
    cbn [half_point map zip_star combine fst snd nth env_of vsub]; rewrite <- !frac2; pteq ltac:(unfold Rdiv; ring).
  - rewrite default_lattice by exact I. revert n Hr. destruct d as [|[|[|[|]]]]; try lia; split_points H; intros n Hr; injection Hr as <-;
    (eexists; eexists; split; [reflexivity|]; split; [reflexivity|]);
    unfold make_lattice; cbn [r_type r_vertices r_origin r_axes]; f_equal; cbn [lattice_indices];
    rewrite map_map, map_idx3; apply flat_map_ext; intros i; apply flat_map_ext; intros j; apply map_ext; intros k;
    cbn [half_point map zip_star combine fst snd nth env_of vsub]; rewrite <- !frac2; pteq ltac:(unfold Rdiv; ring).
  - destruct H as [H P]. rewrite default_lattice by exact I. revert n Hr P. destruct d as [|[|[|[|]]]]; try lia; split_points H; intros n Hr P; injection Hr as <-;
    (eexists; eexists; split; [reflexivity|]; split; [reflexivity|]);
    unfold make_lattice; cbn [r_type r_vertices r_origin r_axes]; f_equal; cbn [lattice_indices];
    rewrite map_map, map_idx2; apply flat_map_ext; intros i; apply map_ext; intros j;
    pose proof (P 0%nat) as P0; pose proof (P 1%nat) as P1; pose proof (P 2%nat) as P2; unfold co in P0, P1, P2; cbn [nth] in P0, P1, P2;
    cbn [half_point map zip_star combine fst snd nth env_of vsub]; rewrite <- !frac2;
    pteq ltac:(idtac; match goal with P : ?a + ?e = ?b + ?c |- _ => replace e with (b + c - a) by lra; unfold Rdiv; ring end).
Qed.

(** ** make_lattice_with_lines *)
Definition grid (rows : nat) (m : nat -> nat) : list (nat * nat) :=
  flat_map (fun i => map (fun j => (i, j)) (range (m i))) (range rows).
Fixpoint start (m : nat -> nat) (i : nat) : nat := match i with O => 0 | S i' => start m i' + m i' end%nat.
Lemma flat_map_range_S {A} (f : nat -> list A) n : flat_map f (range (S n)) = flat_map f (range n) ++ f n.
Proof. unfold range. rewrite seq_S, flat_map_app. simpl. rewrite app_nil_r. reflexivity. Qed.
Lemma length_grid n m : length (grid n m) = start m n.
Proof.
  induction n as [|n IH]; [reflexivity|]. unfold grid in *. rewrite flat_map_range_S, app_length, IH, map_length, length_range. reflexivity.
Qed.
Lemma nth_grid n m i j : (i < n)%nat -> (j < m i)%nat -> nth_error (grid n m) (start m i + j) = Some (i, j).
Proof.
  induction n as [|n IH]; intros Hi Hj; [lia|]. unfold grid in *. rewrite flat_map_range_S.
  destruct (Nat.eq_dec i n) as [->|N].
  - fold (grid n m). rewrite nth_error_app2 by (rewrite length_grid; lia). rewrite length_grid.
    replace (start m n + j - start m n)%nat with j by lia. rewrite nth_error_map.
    unfold range. rewrite nth_error_nth' with (d := 0%nat) by (rewrite seq_length; exact Hj).
    rewrite seq_nth by exact Hj. reflexivity.
  - specialize (IH ltac:(lia) Hj). rewrite nth_error_app1; [exact IH|]. apply nth_error_Some. congruence.
Qed.
Lemma in_grid n m i j : In (i, j) (grid n m) <-> (i < n)%nat /\ (j < m i)%nat.
Proof.
  unfold grid. rewrite in_flat_map. split.
  - intros [a [Ha H]]. apply in_map_iff in H. destruct H as [b [E Hb]]. injection E as -> ->. apply in_range in Ha, Hb. tauto.
  - intros [Hi Hj]. exists i. rewrite in_range. split; [exact Hi|]. apply in_map. apply in_range. exact Hj.
Qed.
Lemma NoDup_grid n m : NoDup (grid n m).
Proof.
  apply NoDup_flat_map; [apply NoDup_range| |].
  - intros i _. apply NoDup_map_inj; [congruence|apply NoDup_range].
  - intros a b x _ _ Ha Hb. apply in_map_iff in Ha, Hb. destruct Ha as [y [<- _]], Hb as [z [E _]]. congruence.
Qed.
Lemma nth_grid_inv n m a i j : nth_error (grid n m) a = Some (i, j) -> (i < n)%nat /\ (j < m i)%nat /\ a = (start m i + j)%nat.
Proof.
  intros H. pose proof (nth_error_In _ _ H) as Hi. apply in_grid in Hi. destruct Hi as [Hi Hj].
  repeat split; try assumption. pose proof (nth_grid n m i j Hi Hj) as H2.
  apply (proj1 (NoDup_nth_error (grid n m)) (NoDup_grid n m)); [apply nth_error_Some; congruence|congruence].
Qed.

(** Adjacent grid points: one step along a row, along a column, or along the diagonal. *)
Definition adjacent (p q : nat * nat) : Prop :=
  (fst q = fst p /\ snd q = snd p + 1)%nat \/ (fst q = fst p + 1 /\ snd q = snd p)%nat \/
  (fst q = fst p + 1 /\ snd q + 1 = snd p)%nat.
Definition joins (g : list (nat * nat)) (ab : nat * nat) : Prop :=
  exists p q, nth_error g (fst ab) = Some p /\ nth_error g (snd ab) = Some q /\ adjacent p q.
Definition lines_ok (g : list (nat * nat)) (pairs : list (nat * nat)) : Prop :=
  NoDup pairs /\ forall ab, In ab pairs <-> joins g ab.

Lemma quad_lines n : (1 <= n)%nat -> lines_ok (grid n (fun _ => n)) (lattice_lines_pairs CQuadrilateral n).
Proof.
  intros Hn. cbn [lattice_lines_pairs].
  assert (ST : forall i, start (fun _ => n) i = (i * n)%nat) by (induction i; simpl; lia).
  assert (Inj : forall i i' j j', (j < n)%nat -> (j' < n)%nat -> (i * n + j = i' * n + j')%nat -> i = i' /\ j = j').
  { intros i i' j j' H H' E. assert (i = i') by nia. subst. split; [reflexivity|lia]. }
  set (node := fun i j : nat => ((if j =? n - 1 then [] else [(i * n + j, i * n + j + 1)])
        ++ (if i =? n - 1 then []
            else (i * n + j, i * n + j + n) :: (if j =? 0 then [] else [(i * n + j, i * n + j + n - 1)])))%nat).
  assert (Fst : forall i j ab, In ab (node i j) -> fst ab = (i * n + j)%nat).
  { intros i j ab H. unfold node in H.
    destruct (j =? n - 1)%nat, (i =? n - 1)%nat, (j =? 0)%nat; simpl in H;
      repeat (destruct H as [<-|H]; [reflexivity|]); contradiction. }
  assert (Node : forall i j ab, (i < n)%nat -> (j < n)%nat -> (In ab (node i j) <->
     fst ab = (i * n + j)%nat /\
     ((j + 1 < n /\ snd ab = i * n + (j + 1)) \/ (i + 1 < n /\ snd ab = (i + 1) * n + j) \/
      (i + 1 < n /\ 1 <= j /\ snd ab = (i + 1) * n + (j - 1)))%nat)).
  { intros i j [a b] Hi Hj. unfold node. cbn [fst snd].
    destruct (Nat.eqb_spec j (n - 1)), (Nat.eqb_spec i (n - 1)), (Nat.eqb_spec j 0); cbn [app In];
      (split; [intros H; repeat (destruct H as [H|H]; [injection H; intros; lia|]); try contradiction; try lia
              |intros (-> & H); repeat (destruct H as [H|H]);
               try (exfalso; lia);
               try (left; f_equal; lia); try (right; left; f_equal; lia); try (right; right; left; f_equal; lia)]). }
  split.
  - apply NoDup_flat_map; [apply NoDup_range| |].
    + intros i Hi. apply in_range in Hi. apply NoDup_flat_map; [apply NoDup_range| |].
      * intros j Hj. apply in_range in Hj. fold (node i j). unfold node.
        destruct (Nat.eqb_spec j (n - 1)), (Nat.eqb_spec i (n - 1)), (Nat.eqb_spec j 0); cbn [app];
        repeat constructor; cbn [In]; intros H; repeat (destruct H as [H|H]; [injection H; intros; lia|]); try contradiction.
      * intros j j' ab _ _ Ha Hb. fold (node i j) in Ha. fold (node i j') in Hb. apply Fst in Ha, Hb. lia.
    + intros i i' ab _ _ Ha Hb. apply in_flat_map in Ha, Hb. destruct Ha as [j [Hj Ha]], Hb as [j' [Hj' Hb]].
      fold (node i j) in Ha. fold (node i' j') in Hb. apply Fst in Ha, Hb. apply in_range in Hj, Hj'.
      apply (Inj i i' j j' Hj Hj'). congruence.
  - intros [a b]. unfold joins, adjacent. cbn [fst snd]. rewrite in_flat_map. split.
    + intros [i [Hi H]]. apply in_flat_map in H. destruct H as [j [Hj H]]. fold (node i j) in H.
      apply in_range in Hi, Hj. apply Node in H; [|assumption|assumption]. cbn [fst snd] in H. destruct H as [-> H].
      exists (i, j). rewrite <- (ST i). destruct H as [[H ->]|[[H ->]|[H [H2 ->]]]].
      * exists (i, (j + 1)%nat). rewrite <- (ST i). repeat split; try (apply nth_grid; assumption). cbn [fst snd]; lia.
      * exists ((i + 1)%nat, j). rewrite <- (ST (i + 1)%nat). repeat split; try (apply nth_grid; assumption). cbn [fst snd]; lia.
      * exists ((i + 1)%nat, (j - 1)%nat). rewrite <- (ST (i + 1)%nat). repeat split; try (apply nth_grid; lia). cbn [fst snd]; lia.
    + intros ((i & j) & (i' & j') & H1 & H2 & H). cbn [fst snd] in H.
      apply nth_grid_inv in H1, H2. rewrite !ST in *. destruct H1 as (Hi & Hj & ->), H2 as (Hi' & Hj' & ->).
      exists i. rewrite in_range. split; [exact Hi|]. apply in_flat_map. exists j. rewrite in_range. split; [exact Hj|].
      fold (node i j). apply Node; [assumption|assumption|]. cbn [fst snd]. split; [reflexivity|].
      destruct H as [[-> ->]|[[-> ->]|[-> H]]]; [left|right; left|right; right]; repeat split; try lia.
Qed.

Lemma interval_lines n : lines_ok (map (fun i => (i, 0)%nat) (range n)) (lattice_lines_pairs CInterval n).
Proof.
  cbn [lattice_lines_pairs]. split.
  - apply NoDup_map_inj; [|apply NoDup_range]. intros x y _ _ E. congruence.
  - intros [a b]. unfold joins, adjacent. cbn [fst snd]. rewrite in_map_iff.
    assert (N : forall k, (k < n)%nat -> nth_error (map (fun i => (i, 0)%nat) (range n)) k = Some (k, 0)%nat).
    { intros k Hk. rewrite nth_error_map. unfold range. rewrite nth_error_nth' with (d := 0%nat) by (rewrite seq_length; exact Hk).
      rewrite seq_nth by exact Hk. reflexivity. }
    assert (N2 : forall k p, nth_error (map (fun i => (i, 0)%nat) (range n)) k = Some p -> (k < n)%nat /\ p = (k, 0)%nat).
    { intros k p Hk. assert (L : (k < n)%nat).
      { rewrite <- (length_range n). rewrite <- (map_length (fun i => (i, 0)%nat)). apply nth_error_Some. congruence. }
      split; [exact L|]. rewrite N in Hk by exact L. congruence. }
    split.
    + intros [i [E Hi]]. injection E as <- <-. apply in_range in Hi.
      exists (i, 0)%nat, (i + 1, 0)%nat. repeat split; try (apply N; lia). right. left. simpl. lia.
    + intros (p & q & Hp & Hq & H). apply N2 in Hp, Hq. destruct Hp as [Ha ->], Hq as [Hb ->]. cbn [fst snd] in H.
      exists a. rewrite in_range. split; [f_equal; lia|lia].
Qed.

(** rev (range2 1 (k + 1)) *)
Fixpoint down (k : nat) : list nat := match k with O => [] | S k' => S k' :: down k' end.
Lemma rev_range2_down k a : rev (range2 (S a) (S (a + k))) = map (fun i => (i + a)%nat) (down k).
Proof.
  unfold range2. replace (S (a + k) - S a)%nat with k by lia.
  induction k as [|k IH]; [reflexivity|]. rewrite seq_S, rev_app_distr. cbn [rev app down map].
  rewrite IH. f_equal. lia.
Qed.

(** Rows r, r+1, ... of the triangle lattice with n points on its first row. *)
Lemma in_tri_rows n m r ab : (m + r + 1 = n)%nat ->
  (In ab (tri_rows (down m) (start (fun i => n - i)%nat r)) <->
   exists i j, (r <= i)%nat /\ (i + j + 1 < n)%nat /\
     ab = (start (fun i => n - i)%nat i + j, start (fun i => n - i)%nat i + (j + 1))%nat).
Proof.
  revert r. induction m as [|m IH]; intros r Hr; cbn [down tri_rows].
  - split; [intros []|]. intros (i & j & Hi & Hj & _). lia.
  - rewrite in_app_iff, in_map_iff.
    replace (start (fun i => n - i)%nat r + S m + 1)%nat with (start (fun i => n - i)%nat (S r)) by (cbn [start]; lia).
    rewrite (IH (S r)) by lia. split.
    + intros [[x [<- Hx]]|(i & j & Hi & Hj & ->)].
      * apply in_range2 in Hx. exists r, (x - start (fun i => n - i)%nat r)%nat. repeat split; [lia|lia|f_equal; lia].
      * exists i, j. repeat split; lia.
    + intros (i & j & Hi & Hj & ->). destruct (Nat.eq_dec i r) as [->|N].
      * left. exists (start (fun i => n - i)%nat r + j)%nat. split; [f_equal; lia|]. apply in_range2. lia.
      * right. exists i, j. repeat split; lia.
Qed.
Lemma NoDup_tri_rows m : forall s, NoDup (tri_rows (down m) s) /\ Forall (fun ab => (s <= fst ab)%nat) (tri_rows (down m) s).
Proof.
  induction m as [|m IH]; intros s; cbn [down tri_rows]; [split; constructor|].
  destruct (IH (s + S m + 1)%nat) as [N F]. split.
  - apply NoDup_app_intro; [apply NoDup_map_inj; [congruence|apply NoDup_range2]|exact N|].
    intros x Hx Hy. apply in_map_iff in Hx. destruct Hx as [a [<- Ha]]. apply in_range2 in Ha.
    rewrite Forall_forall in F. apply F in Hy. simpl in Hy. lia.
  - apply Forall_app. split.
    + apply Forall_forall. intros x Hx. apply in_map_iff in Hx. destruct Hx as [a [<- Ha]]. apply in_range2 in Ha. simpl; lia.
    + eapply Forall_impl; [|exact F]. intros; simpl in *; lia.
Qed.

(** Column k from row r on; the row r has n - r points. *)
Lemma in_tri_col n k m r ab : (m + k + r = n)%nat ->
  (In ab (tri_col (map (fun i => (i + k)%nat) (down m)) k (start (fun i => n - i)%nat r + k)) <->
   exists i, (r <= i)%nat /\ fst ab = (start (fun i => n - i)%nat i + k)%nat /\ (i + k < n)%nat /\
     ((i + k + 1 < n /\ snd ab = start (fun i => n - i) (i + 1) + k) \/
      (1 <= k /\ snd ab = start (fun i => n - i) (i + 1) + (k - 1)))%nat).
Proof.
  revert r. induction m as [|m IH]; intros r Hr; cbn [down map tri_col].
  - split; [intros []|]. intros (i & Hi & _ & H & _). lia.
  - rewrite !in_app_iff.
    replace (start (fun i => n - i)%nat r + k + (S m + k))%nat with (start (fun i => n - i)%nat (S r) + k)%nat by (cbn [start]; lia).
    rewrite (IH (S r)) by lia. destruct ab as [a b]. cbn [fst snd].
    assert (E1 : start (fun i => n - i)%nat (r + 1) = (start (fun i => n - i)%nat r + (S m + k))%nat)
      by (rewrite Nat.add_1_r; cbn [start]; lia).
    assert (E2 : start (fun i => n - i)%nat (S r) = (start (fun i => n - i)%nat r + (S m + k))%nat) by (cbn [start]; lia).
    split.
    + intros [H|[H|(i & Hi & -> & H & H2)]].
      * destruct (Nat.eqb_spec (S m + k) (k + 1)) as [E|E]; [contradiction|]. destruct H as [H|[]]. injection H as <- <-.
        exists r. repeat split; [lia|lia|]. left. rewrite E1. lia.
      * destruct (Nat.eqb_spec k 0) as [E|E]; [contradiction|]. destruct H as [H|[]]. injection H as <- <-.
        exists r. repeat split; [lia|lia|]. right. rewrite E1. lia.
      * exists i. repeat split; try lia.
    + intros (i & Hi & -> & H & H2). destruct (Nat.eq_dec i r) as [->|N].
      * destruct H2 as [[H2 ->]|[H2 ->]].
        -- left. destruct (Nat.eqb_spec (S m + k) (k + 1)) as [E|E]; [lia|]. left. f_equal. rewrite E1. lia.
        -- right; left. destruct (Nat.eqb_spec k 0) as [E|E]; [lia|]. left. f_equal. rewrite E1. lia.
      * right; right. exists i. repeat split; lia.
Qed.
Lemma NoDup_tri_col k m : forall s, NoDup (tri_col (map (fun i => (i + k)%nat) (down m)) k s) /\
  Forall (fun ab => (s <= fst ab)%nat) (tri_col (map (fun i => (i + k)%nat) (down m)) k s).
Proof.
  induction m as [|m IH]; intros s; cbn [down map tri_col]; [split; constructor|].
  destruct (IH (s + (S m + k))%nat) as [N F]. rewrite Forall_forall in F.
  assert (O : forall b, ~ In (s, b) (tri_col (map (fun i => (i + k)%nat) (down m)) k (s + (S m + k)))).
  { intros b Hb. apply F in Hb. simpl in Hb. lia. }
  split.
  - destruct (Nat.eqb_spec (S m + k) (k + 1)), (Nat.eqb_spec k 0); cbn [app]; try exact N.
    + constructor; [apply O|exact N].
    + constructor; [apply O|exact N].
    + constructor; [|constructor; [apply O|exact N]]. intros [H|H]; [injection H; lia|exact (O _ H)].
  - apply Forall_forall. intros x Hx. apply in_app_or in Hx. destruct Hx as [Hx|Hx].
    { destruct (_ =? _)%nat; [contradiction|]. destruct Hx as [<-|[]]. simpl; lia. }
    apply in_app_or in Hx. destruct Hx as [Hx|Hx].
    { destruct (_ =? _)%nat; [contradiction|]. destruct Hx as [<-|[]]. simpl; lia. }
    apply F in Hx. lia.
Qed.

Lemma triangle_lines n : (1 <= n)%nat -> lines_ok (grid n (fun i => n - i)%nat) (lattice_lines_pairs CTriangle n).
Proof.
  intros Hn. cbn [lattice_lines_pairs].
  set (st := start (fun i => n - i)%nat).
  assert (R : rev (range2 1 n) = down (n - 1)).
  { replace n with (S (0 + (n - 1))) at 1 by lia. rewrite rev_range2_down.
    rewrite (map_ext _ (fun i => i)) by (intros; lia). apply map_id. }
  assert (C : forall k, (k < n + 1)%nat -> rev (range2 (k + 1) (n + 1)) = map (fun i => (i + k)%nat) (down (n - k))).
  { intros k Hk. replace (n + 1)%nat with (S (k + (n - k))) by lia. rewrite (Nat.add_1_r k). apply rev_range2_down. }
  rewrite R.
  assert (RI := fun ab => in_tri_rows n (n - 1) 0 ab ltac:(lia)). cbn [start] in RI.
  assert (CI : forall k ab, (k < n + 1)%nat -> (In ab (tri_col (rev (range2 (k + 1) (n + 1))) k k) <->
     exists i, fst ab = (st i + k)%nat /\ (i + k < n)%nat /\
     ((i + k + 1 < n /\ snd ab = st (i + 1) + k) \/ (1 <= k /\ snd ab = st (i + 1) + (k - 1)))%nat)).
  { intros k ab Hk. rewrite C by exact Hk. pose proof (in_tri_col n k (n - k) 0 ab ltac:(lia)) as H. cbn [start Nat.add] in H. rewrite H.
    split; intros (i & Hi); exists i; [tauto|]. split; [lia|tauto]. }
  assert (Inj : forall i i' j j', (i + j < n)%nat -> (i' + j' < n)%nat -> (st i + j = st i' + j')%nat -> i = i' /\ j = j').
  { intros i i' j j' H H' E.
    pose proof (nth_grid n (fun i => n - i)%nat i j ltac:(lia) ltac:(cbv beta; lia)) as G1.
    pose proof (nth_grid n (fun i => n - i)%nat i' j' ltac:(lia) ltac:(cbv beta; lia)) as G2.
    fold st in G1, G2. rewrite E in G1. rewrite G1 in G2. injection G2. tauto. }
  split.
  - apply NoDup_app_intro; [apply NoDup_tri_rows| |].
    + apply NoDup_flat_map; [apply NoDup_range| |].
      * intros k Hk. apply in_range in Hk. rewrite C by exact Hk. apply NoDup_tri_col.
      * intros k k' ab Hk Hk' Ha Hb. apply in_range in Hk, Hk'. apply CI in Ha, Hb; try assumption.
        destruct Ha as (i & Ha & Ha2 & _), Hb as (i' & Hb & Hb2 & _). apply (Inj i i' k k'); [assumption|assumption|congruence].
    + intros ab Ha Hb. apply RI in Ha. destruct Ha as (i & j & _ & Hj & ->). apply in_flat_map in Hb.
      destruct Hb as [k [Hk Hb]]. apply in_range in Hk. apply CI in Hb; [|exact Hk]. cbn [fst snd] in Hb.
      destruct Hb as (i' & E & Hi' & H). fold st in E. apply Inj in E; [|lia|assumption]. destruct E as [<- <-].
      assert (st (i + 1) = st i + (n - i))%nat by (unfold st; rewrite Nat.add_1_r; reflexivity).
      fold st in H. lia.
  - intros [a b]. rewrite in_app_iff, in_flat_map. unfold joins, adjacent. cbn [fst snd]. split.
    + intros [H|[k [Hk H]]].
      * apply RI in H. destruct H as (i & j & _ & Hj & E). injection E as -> ->.
        exists (i, j), (i, (j + 1)%nat). repeat split; try (apply nth_grid; cbv beta; lia). cbn [fst snd]. lia.
      * apply in_range in Hk. apply CI in H; [|exact Hk]. cbn [fst snd] in H. destruct H as (i & -> & Hi & H).
        destruct H as [[H ->]|[H ->]].
        -- exists (i, k), ((i + 1)%nat, k). repeat split; try (apply nth_grid; cbv beta; lia). cbn [fst snd]. lia.
        -- exists (i, k), ((i + 1)%nat, (k - 1)%nat). repeat split; try (apply nth_grid; cbv beta; lia). cbn [fst snd]. lia.
    + intros ((i & j) & (i' & j') & H1 & H2 & H). cbn [fst snd] in H. apply nth_grid_inv in H1, H2.
      destruct H1 as (Hi & Hj & ->), H2 as (Hi' & Hj' & ->). fold st.
      destruct H as [[-> ->]|[[-> ->]|[-> H]]].
      * left. apply RI. exists i, j. repeat split; lia.
      * right. exists j. rewrite in_range. split; [lia|]. apply CI; [lia|]. exists i. cbn [fst snd]. repeat split; [lia|]. left. lia.
      * right. exists j. rewrite in_range. split; [lia|]. apply CI; [lia|]. exists i. cbn [fst snd]. repeat split; [lia|].
        right. split; [lia|]. f_equal. lia.
Qed.

(** The points of make_lattice_with_lines. *)
Lemma hull_interval x : in_hull (reference_vertices CInterval) [x] <-> 0 <= x <= 1.
Proof. split; [hull_weights; lra|intros H; give_weights [1 - x; x]]. Qed.
Lemma hull_triangle x y : in_hull (reference_vertices CTriangle) [x; y] <-> 0 <= x /\ 0 <= y /\ x + y <= 1.
Proof. split; [hull_weights; lra|intros H; give_weights [1 - x - y; x; y]]. Qed.
Lemma hull_quadrilateral x y : in_hull (reference_vertices CQuadrilateral) [x; y] <-> 0 <= x <= 1 /\ 0 <= y <= 1.
Proof. split; [hull_weights; lra|intros H; give_weights [(1 - x) * (1 - y); x * (1 - y); (1 - x) * y; x * y]]. Qed.

Definition closed_point (n : nat) (idx : list nat) : list R := map (fun i => INR i / INR (n - 1)) idx.
Definition line_cell (c : cell_type) : Prop :=
  match c with CInterval | CTriangle | CQuadrilateral => True | _ => False end.
Definition to_idx (c : cell_type) (ij : nat * nat) : list nat :=
  match c with CInterval => [fst ij] | _ => [fst ij; snd ij] end.
Lemma closed_pos n : (2 <= n)%nat -> 0 < INR (n - 1).
Proof. intros H. apply lt_0_INR. lia. Qed.
Lemma closed_le1 n s : (2 <= n)%nat -> (INR s / INR (n - 1) <= 1 <-> (s <= n - 1)%nat).
Proof.
  intros Hn. pose proof (closed_pos n Hn) as P. split; intros H.
  - apply INR_le. apply (Rmult_le_compat_r (INR (n - 1))) in H; [|lra].
    unfold Rdiv in H. rewrite Rmult_assoc, Rinv_l in H by lra. lra.
  - apply (Rmult_le_reg_r (INR (n - 1))); [exact P|]. unfold Rdiv. rewrite Rmult_assoc, Rinv_l by lra.
    apply le_INR in H. lra.
Qed.
Lemma closed_ge0 n s : (2 <= n)%nat -> 0 <= INR s / INR (n - 1).
Proof. intros Hn. pose proof (closed_pos n Hn). apply Rmult_le_pos; [apply pos_INR|left; apply Rinv_0_lt_compat; assumption]. Qed.
Lemma closed_inj n i j : (2 <= n)%nat -> INR i / INR (n - 1) = INR j / INR (n - 1) -> i = j.
Proof.
  intros Hn H. pose proof (closed_pos n Hn). apply INR_eq.
  apply (Rmult_eq_compat_r (INR (n - 1))) in H. unfold Rdiv in H. rewrite !Rmult_assoc, !Rinv_l in H by lra. lra.
Qed.
Lemma default_lines_points c n : line_cell c ->
  lattice_lines_points (default c) n = map (fun ij => closed_point n (to_idx c ij)) (grid_indices c n).
Proof.
  intros Hc. destruct c; try contradiction; unfold lattice_lines_points, vsub;
  cbn [default make_reference reference_vertices r_type r_vertices r_origin r_axes combine map fst snd zip_star grid_indices vsub];
  rewrite ?map_map; apply map_ext; intros ij; cbn [nth closed_point to_idx map fst snd]; pteq ltac:(unfold Rdiv; ring).
Qed.
Lemma grid_interval n : grid_indices CInterval n = map (fun i => (i, 0)%nat) (range n).
Proof. reflexivity. Qed.
Lemma closed_lattice c n : line_cell c -> (2 <= n)%nat ->
  let L := map (fun ij => closed_point n (to_idx c ij)) (grid_indices c n) in
  NoDup L /\ forall p, In p L <-> exists idx, length idx = tdim c /\ p = closed_point n idx /\ in_hull (reference_vertices c) p.
Proof.
  intros Hc Hn. cbv zeta.
  assert (CI : forall a b, closed_point n a = closed_point n b -> a = b).
  { induction a as [|i a IH]; intros [|j b] H; try discriminate H; [reflexivity|].
    simpl in H. injection H as H1 H2. apply (closed_inj n i j Hn) in H1. rewrite H1, (IH b H2). reflexivity. }
  split.
  - apply NoDup_map_inj.
    + intros [i j] [i' j'] Ha Hb E. apply CI in E. destruct c; try contradiction; cbn [to_idx fst snd] in E.
      * rewrite grid_interval in Ha, Hb. apply in_map_iff in Ha, Hb. destruct Ha as [a [Ea _]], Hb as [b [Eb _]]. congruence.
      * congruence.
      * congruence.
    + destruct c; try contradiction.
      * apply NoDup_map_inj; [congruence|apply NoDup_range].
      * apply (NoDup_grid n (fun i => n - i)%nat).
      * apply (NoDup_grid n (fun i => n)%nat).
  - intros p. rewrite in_map_iff. destruct c; try contradiction; cbn [tdim].
    + rewrite grid_interval. split.
      * intros [ij [<- H]]. apply in_map_iff in H. destruct H as [i [<- Hi]]. apply in_range in Hi.
        exists [i]. split; [reflexivity|]. split; [reflexivity|]. apply hull_interval. cbn [to_idx fst].
        split; [apply closed_ge0; exact Hn|apply closed_le1; [exact Hn|lia]].
      * intros (idx & Hl & -> & H). destruct idx as [|i [|]]; try discriminate Hl. apply hull_interval in H.
        destruct H as [_ H]. apply closed_le1 in H; [|exact Hn]. exists (i, 0)%nat. split; [reflexivity|].
        apply (in_map (fun i => (i, 0)%nat)). apply in_range. lia.
    + split.
      * intros [[i j] [<- H]]. apply (in_grid n (fun i => n - i)%nat) in H. exists [i; j]. split; [reflexivity|]. split; [reflexivity|].
        apply hull_triangle. cbn [fst snd]. repeat split; try (apply closed_ge0; exact Hn).
        replace (INR i / INR (n - 1) + INR j / INR (n - 1)) with (INR (i + j) / INR (n - 1))
          by (rewrite plus_INR; unfold Rdiv; ring). apply closed_le1; [exact Hn|lia].
      * intros (idx & Hl & -> & H). destruct idx as [|i [|j [|]]]; try discriminate Hl. apply hull_triangle in H.
        destruct H as (_ & _ & H).
        replace (INR i / INR (n - 1) + INR j / INR (n - 1)) with (INR (i + j) / INR (n - 1)) in H
          by (rewrite plus_INR; unfold Rdiv; ring). apply closed_le1 in H; [|exact Hn].
        exists (i, j). split; [reflexivity|]. apply (in_grid n (fun i => n - i)%nat). cbv beta. lia.
    + split.
      * intros [[i j] [<- H]]. apply (in_grid n (fun i => n)%nat) in H. exists [i; j]. split; [reflexivity|]. split; [reflexivity|].
        apply hull_quadrilateral. cbn [fst snd] in *. split; (split; [apply closed_ge0; exact Hn|apply closed_le1; [exact Hn|lia]]).
      * intros (idx & Hl & -> & H). destruct idx as [|i [|j [|]]]; try discriminate Hl. apply hull_quadrilateral in H.
        destruct H as [[_ H1] [_ H2]]. apply closed_le1 in H1, H2; try exact Hn.
        exists (i, j). split; [reflexivity|]. apply (in_grid n (fun i => n)%nat). cbv beta. lia.
Qed.
Lemma lines_joins c n : line_cell c -> (1 <= n)%nat -> lines_ok (grid_indices c n) (lattice_lines_pairs c n).
Proof.
  intros Hc Hn. destruct c; try contradiction; [apply interval_lines|apply triangle_lines; exact Hn|apply quad_lines; exact Hn].
Qed.
(** For a general cell the points are the images of those of the default cell. *)
Lemma general_lines c vs d r n : line_cell c -> (match c with CInterval => points 2 d vs | CTriangle => points 3 d vs
     | CQuadrilateral => points 4 d vs /\ parallelogram vs 0 1 2 3 | _ => False end) ->
  (1 <= d <= 3)%nat ->
  make_reference c vs = Ok r ->
  exists f, get_map_to_self r = Ok f /\
    lattice_lines_points r n = map (fun p => f (env_of p)) (lattice_lines_points (default c) n).
Proof.
  intros Hc H Hd Hr. rewrite default_lines_points by exact Hc.
  destruct c; try contradiction.
  - revert n Hr. destruct d as [|[|[|[|]]]]; try lia; split_points H; intros n Hr; injection Hr as <-;
    (eexists; split; [reflexivity|]);
    unfold lattice_lines_points; cbn [r_type r_vertices grid_indices]; rewrite !map_map; apply map_ext; intros i;
    cbn [closed_point to_idx map zip_star combine fst snd nth env_of]; pteq ring.
  - revert n Hr. destruct d as [|[|[|[|]]]]; try lia; split_points H; intros n Hr; injection Hr as <-;
    (eexists; split; [reflexivity|]);
    unfold lattice_lines_points; cbn [r_type r_vertices r_origin r_axes]; rewrite map_map; apply map_ext; intros ij;
    cbn [closed_point to_idx map zip_star combine fst snd nth env_of vsub]; pteq ltac:(unfold Rdiv; ring).
  - destruct H as [H P]. revert n Hr P. destruct d as [|[|[|[|]]]]; try lia; split_points H; intros n Hr P; injection Hr as <-;
    (eexists; split; [reflexivity|]);
    unfold lattice_lines_points; cbn [r_type r_vertices r_origin r_axes]; rewrite map_map; apply map_ext; intros ij;
    pose proof (P 0%nat) as P0; pose proof (P 1%nat) as P1; pose proof (P 2%nat) as P2; unfold co in P0, P1, P2; cbn [nth] in P0, P1, P2;
    cbn [closed_point to_idx map zip_star combine fst snd nth env_of vsub];
    pteq ltac:(idtac; match goal with P : ?a + ?e = ?b + ?c |- _ => replace e with (b + c - a) by lra; unfold Rdiv; ring end).
Qed.

(** Dual polygons: the lattice points lie strictly inside the triangles formed by the centre and two
    consecutive vertices. *)
Lemma triangle_lattice_interior o v1 v2 n p : length v1 = length o -> length v2 = length o ->
  In p (triangle_lattice o [vsub v1 o; vsub v2 o] n) -> length o = 2%nat -> in_interior [o; v1; v2] p.
Proof.
  intros H1 H2 Hp Ho. destruct o as [|ox [|oy [|]]]; try discriminate Ho.
  destruct v1 as [|ax [|ay [|]]]; try discriminate H1. destruct v2 as [|bx [|b_y [|]]]; try discriminate H2.
  unfold triangle_lattice, vsub in Hp. cbn [combine map fst snd zip_star nth] in Hp.
  apply in_flat_map in Hp. destruct Hp as [i [Hi Hp]]. apply in_map_iff in Hp. destruct Hp as [j [<- Hj]].
  apply in_range in Hi, Hj. exists [1 - half_coordinate n i - half_coordinate n j; half_coordinate n i; half_coordinate n j].
  assert (S1 : half_coordinate n i + half_coordinate n j < 1) by (apply half_lt2; lia).
  pose proof (half_pos n i). pose proof (half_pos n j).
  split.
  - split; [reflexivity|]. split; [unfold sumR; simpl; ring|].
    intros [|[|k]] Hk; [| |simpl in Hk; lia]; unfold sumR; cbn [combine map fold_right fst snd nth]; rewrite <- !frac2;
      unfold Rdiv; ring.
  - repeat (apply Forall_cons; [lra|]). apply Forall_nil.
Qed.
